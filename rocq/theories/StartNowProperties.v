(** C60: start_now and async_wait. *)
From Coq Require Import List Bool Arith Lia.
From Verif Require Import Conc StartNowModel.
Import ListNotations.
Set Implicit Arguments.

(** ** Specification *)
Definition reachable n s := exists l, runs l (init n) = Some s.
(** only one operation of async_wait() is ever started *)
Definition one_waiter (l : list event) := forall u v, In (EWait u) l -> In (EWait v) l -> u = v.
Fixpoint joined (w : nat) (l : list event) : nat :=
  match l with
  | [] => 0
  | EJoined u :: l => (if u =? w then 1 else 0) + joined w l
  | _ :: l => joined w l
  end.

(** ** Invariants *)
Definition live c := match c with CNew | CRun | CDec => 1 | _ => 0 end.
Fixpoint sumf (f : nat -> child) n := match n with 0 => 0 | S k => live (f k) + sumf f k end.
Lemma sumf_out : forall f x v n, n <= x -> sumf (fset f x v) n = sumf f n.
Proof. induction n; cbn; auto. intros H. rewrite (@fset_other _ f x n v) by lia. rewrite IHn by lia. auto. Qed.
Lemma sumf_set : forall f x v n, x < n -> sumf (fset f x v) n + live (f x) = sumf f n + live v.
Proof.
  induction n; intros H; [lia|]. cbn. destruct (Nat.eq_dec x n) as [->|N].
  - rewrite fset_same, sumf_out by lia. lia.
  - rewrite (@fset_other _ f x n v) by lia. specialize (IHn ltac:(lia)). lia.
Qed.
Lemma sumf_zero : forall f n i, sumf f n = 0 -> i < n -> live (f i) = 0.
Proof. induction n; cbn; intros i H L; [lia|]. destruct (Nat.eq_dec i n) as [->|N]; [lia|]. apply IHn; lia. Qed.
Lemma sumf_pos : forall f n i, i < n -> live (f i) = 1 -> 0 < sumf f n.
Proof. induction n; cbn; intros i L H; [lia|]. destruct (Nat.eq_dec i n) as [->|N]; [lia|]. specialize (IHn i ltac:(lia) H). lia. Qed.

Record inv (s : state) : Prop := {
  v_le : started s <= nn s;
  v_new : forall i, ch s i = CNew <-> started s <= i;
  v_pend : pend s = sumf (ch s) (nn s);
  v_null : jo s = JNull -> pend s = 0;
  v_exch : forall i, ch s i = CExch -> pend s = 0 /\ jo s <> JNull;
  v_exch1 : forall i j, ch s i = CExch -> ch s j = CExch -> i = j;
  v_last : pend s = 0 -> jo s <> JNull -> exists i, ch s i = CExch;
  v_jop : forall w, jo s = JOp w -> wt s w = WReg;
  v_reg : forall w, wt s w = WReg -> jo s = JOp w \/ exists i, ch s i = CJoin w;
  v_join : forall i w, ch s i = CJoin w -> jo s = JNull /\ wt s w = WReg;
  v_join1 : forall i j w u, ch s i = CJoin w -> ch s j = CJoin u -> i = j;
  v_wjoin : forall w, wt s w = WJoin -> jo s <> JEmpty;
  v_done : forall i, In (EDone i) (log s) <-> (ch s i <> CNew /\ ch s i <> CRun);
  v_wait : forall w, In (EWait w) (log s) <-> wt s w <> WNew;
  v_joined : forall w, joined w (log s) = match wt s w with WDone => 1 | _ => 0 end
}.

Lemma inv_init : forall n, inv (init n).
Proof.
  assert (A : forall k n, k <= n -> sumf (fun _ => CNew) k = k) by (induction k; cbn; intros; auto; rewrite IHk with n; lia).
  intros n. constructor; cbn; intros; try discriminate; try lia; try tauto; auto.
  - split; intros; auto; lia.
  - symmetry; eapply A; eauto.
  - destruct (Nat.eqb_spec n 0); auto; discriminate.
  - subst; cbn in *; congruence.
  - destruct (n =? 0); discriminate.
Qed.

Ltac spl x y := destruct (Nat.eq_dec x y) as [->|?]; [rewrite ?fset_same in * | rewrite ?(@fset_other _ _ _ _ _ ltac:(eassumption)) in *].
Ltac fsx := repeat match goal with
  | |- context[fset _ ?x _ ?x] => rewrite fset_same
  | H : context[fset _ ?x _ ?x] |- _ => rewrite fset_same in H
  | N : ?y <> ?x |- context[fset ?f ?x ?v ?y] => rewrite (@fset_other _ f x y v N)
  | N : ?y <> ?x, H : context[fset ?f ?x ?v ?y] |- _ => rewrite (@fset_other _ f x y v N) in H
  | |- context[fset _ ?x _ ?y] => destruct (Nat.eq_dec y x); [subst y|]
  | H : context[fset _ ?x _ ?y] |- _ => destruct (Nat.eq_dec y x); [subst y|]
  end.
Lemma inv_step : forall s a s', inv s -> step s a = Some s' -> inv s'.
Proof.
  intros s a s' [L N P U X X1 La J R Q Q1 F D W K] H.
  destruct a as [|i|i|w|w]; cbn -[Nat.ltb] in H.
  - destruct (Nat.ltb_spec (started s) (nn s)); [|discriminate]. injection H as <-.
    assert (NS : ch s (started s) = CNew) by (apply N; auto).
    assert (SS : sumf (fset (ch s) (started s) CRun) (nn s) = sumf (ch s) (nn s)).
    { pose proof (sumf_set (ch s) CRun H0) as T. rewrite NS in T. cbn in T. lia. }
    constructor; cbn; auto; try lia.
    + intros i. split; intros A; fsx; try discriminate; try lia.
      * apply N in A. lia.
      * apply N. lia.
    + intros i A. fsx; eauto; discriminate.
    + intros i j A B. fsx; eauto; discriminate.
    + intros A B. destruct (La A B) as [i C]. exists i. fsx; auto; try congruence.
    + intros w A. destruct (R w A) as [B|[i B]]; auto. right. exists i. fsx; auto; try congruence.
    + intros i w A. fsx; eauto; discriminate.
    + intros i j w u A B. fsx; eauto; discriminate.
    + intros i. rewrite <- D at 1 || idtac. split.
      * intros [A|A]; [discriminate|]. apply D in A. fsx; auto. rewrite NS in A. tauto.
      * intros [A B]. right. apply D. fsx; auto; try congruence.
    + intros w. rewrite <- W. split; [intros [A|A]; [discriminate|auto] | auto].
  - destruct (ch s i) eqn:C; try discriminate. injection H as <-.
    assert (Li : i < nn s). { destruct (le_lt_dec (started s) i) as [A|A]; [apply N in A; congruence | lia]. }
    assert (SS : sumf (fset (ch s) i CDec) (nn s) = sumf (ch s) (nn s)).
    { pose proof (sumf_set (ch s) CDec Li) as T. rewrite C in T. cbn in T. lia. }
    constructor; cbn; auto; try lia.
    + intros j. split; intros A; fsx; try discriminate; try lia.
      * apply N; auto.
      * apply N in A. congruence.
      * apply N; auto.
    + intros j A. fsx; eauto; discriminate.
    + intros j k A B. fsx; eauto; discriminate.
    + intros A B. destruct (La A B) as [j E]. exists j. fsx; auto; try congruence.
    + intros w A. destruct (R w A) as [B|[j B]]; auto. right. exists j. fsx; auto; try congruence.
    + intros j w A. fsx; eauto; discriminate.
    + intros j k w u A B. fsx; eauto; discriminate.
    + intros j. split.
      * intros [A|A]; [injection A as <-; fsx; split; discriminate|]. apply D in A. fsx; auto; try (split; discriminate).
      * intros [A B]. fsx; auto. right. apply D. auto.
    + intros w. rewrite <- W. split; [intros [A|A]; [discriminate|auto] | auto].
  - destruct (ch s i) eqn:C; try discriminate; injection H as <-.
    + assert (Li : i < nn s). { destruct (le_lt_dec (started s) i) as [A|A]; [apply N in A; congruence | lia]. }
      assert (PP : 0 < pend s). { rewrite P. eapply sumf_pos; eauto. rewrite C; auto. }
      assert (JN : jo s <> JNull) by (intros A; apply U in A; lia).
      assert (NX : forall j, ch s j <> CExch) by (intros j A; apply X in A; lia).
      assert (SS : forall v, live v = 0 -> sumf (fset (ch s) i v) (nn s) = sumf (ch s) (nn s) - 1).
      { intros v V. pose proof (sumf_set (ch s) v Li) as T. rewrite C, V in T. cbn in T. lia. }
      constructor; cbn; auto.
      * intros j. split; intros A; fsx; try discriminate; try lia.
        { destruct (pend s =? 1); discriminate. }
        { apply N; auto. }
        { apply N in A; congruence. }
        { apply N; auto. }
      * rewrite SS by (destruct (pend s =? 1); auto). lia.
      * intros A; congruence.
      * intros j A. fsx; [|elim (NX _ A)]. destruct (Nat.eqb_spec (pend s) 1); [split; auto; lia | discriminate].
      * intros j k A B. fsx; auto; try (elim (NX _ A)); try elim (NX _ B).
      * intros A B. exists i. fsx. destruct (Nat.eqb_spec (pend s) 1); auto; lia.
      * intros w A. destruct (R w A) as [B|[j B]]; auto. right. exists j. fsx; auto; try congruence.
      * intros j w A. fsx; eauto. destruct (pend s =? 1); discriminate.
      * intros j k w u A B. fsx; eauto; destruct (pend s =? 1); discriminate.
      * intros j. split.
        { intros [A|A]; [discriminate|]. apply D in A. fsx; auto. destruct (pend s =? 1); split; discriminate. }
        { intros [A B]. right. apply D. fsx; auto; rewrite C; split; discriminate. }
      * intros w. rewrite <- W. split; [intros [A|A]; [discriminate|auto] | auto].
    + destruct (X _ C) as [P0 JN].
      assert (NJ : forall j w, ch s j <> CJoin w) by (intros j w A; apply Q in A; tauto).
      set (v := match jo s with JOp w => CJoin w | _ => CEnd end) in *.
      assert (V0 : live v = 0) by (unfold v; destruct (jo s); auto).
      assert (V1 : v <> CNew /\ v <> CRun /\ v <> CExch) by (unfold v; destruct (jo s); repeat split; discriminate).
      destruct V1 as (V1 & V2 & V3).
      assert (Li : i < nn s). { destruct (le_lt_dec (started s) i) as [A|A]; [apply N in A; congruence | lia]. }
      assert (SS : sumf (fset (ch s) i v) (nn s) = sumf (ch s) (nn s)).
      { pose proof (sumf_set (ch s) v Li) as T. rewrite C, V0 in T. cbn in T. lia. }
      constructor; cbn; auto; try discriminate.
      * intros j. split; intros A; fsx; try contradiction; try lia.
        { apply N; auto. }
        { apply N in A; congruence. }
        { apply N; auto. }
      * congruence.
      * intros j A. fsx; try contradiction. elim n. eauto.
      * intros j k A B. fsx; auto; contradiction.
      * intros A B. congruence.
      * intros w A. destruct (R w A) as [B|[j B]]; [|elim (NJ _ _ B)]. right. exists i. fsx. unfold v. rewrite B. auto.
      * intros j w A. fsx; [|elim (NJ _ _ A)]. split; auto. unfold v in A. destruct (jo s) eqn:E; try discriminate. injection A as ->. auto.
      * intros j k w u A B. fsx; auto; try (elim (NJ _ _ A)); elim (NJ _ _ B).
      * intros j. split.
        { intros [A|A]; [discriminate|]. apply D in A. fsx; auto. }
        { intros [A B]. right. apply D. fsx; auto; rewrite C; split; discriminate. }
      * intros w. rewrite <- W. split; [intros [A|A]; [discriminate|auto] | auto].
    + destruct (Q _ _ C) as [JN WR].
      assert (Li : i < nn s). { destruct (le_lt_dec (started s) i) as [A|A]; [apply N in A; congruence | lia]. }
      assert (SS : sumf (fset (ch s) i CEnd) (nn s) = sumf (ch s) (nn s)).
      { pose proof (sumf_set (ch s) CEnd Li) as T. rewrite C in T. cbn in T. lia. }
      constructor; cbn; auto; try congruence.
      * intros j. split; intros A; fsx; try discriminate; try lia.
        { apply N; auto. }
        { apply N in A; congruence. }
        { apply N; auto. }
      * intros j A. fsx; eauto; discriminate.
      * intros j k A B. fsx; eauto; discriminate.
      * intros u A. fsx; [discriminate|]. destruct (R u A) as [B|[j B]]; [congruence|]. right. exists j. fsx; auto; try congruence.
      * intros j u A. fsx; try discriminate; destruct (Q _ _ A); auto. elim n. eauto.
      * intros j k u v A B. fsx; eauto; discriminate.
      * intros j. split.
        { intros [A|A]; [discriminate|]. apply D in A. fsx; auto; try (split; discriminate). }
        { intros [A B]. right. apply D. fsx; auto; rewrite C; split; discriminate. }
      * intros u. split; [intros [A|A]; [discriminate|]; apply W in A; fsx; auto; discriminate | right; apply W; fsx; auto; congruence].
      * intros u. rewrite K. destruct (Nat.eqb_spec w u); [subst u|]; fsx; try congruence; auto. rewrite WR. auto.
  - destruct (started s =? nn s); [|discriminate]. destruct (wt s w) eqn:C; try discriminate. injection H as <-.
    constructor; cbn; auto.
    + intros u A. fsx; eauto. rewrite (J _ A) in C. discriminate.
    + intros u A. fsx; eauto; discriminate.
    + intros j u A. fsx; eauto. destruct (Q _ _ A). congruence.
    + intros u A. fsx; eauto; discriminate.
    + intros i. rewrite <- D. split; [intros [A|A]; [discriminate|auto] | auto].
    + intros u. split; [intros [A|A]; [injection A as <-; fsx; discriminate|]; apply W in A; fsx; auto; discriminate | intros A; fsx; auto; right; apply W; auto].
    + intros u. rewrite K. fsx; auto. rewrite C; auto.
  - destruct (wt s w) eqn:C; try discriminate; injection H as <-.
    + assert (G : forall v, (v = WReg \/ v = WJoin) -> forall u, In (EWait u) (log s) <-> fset (wt s) w v u <> WNew).
      { intros v V u. rewrite W. fsx; [rewrite C; destruct V; subst v; split; discriminate | tauto]. }
      assert (E : forall A (e : A) l, In e l <-> In e l) by tauto.
      destruct (jo s) eqn:Ej.
      * constructor; cbn; auto; try discriminate.
        { intros i A. destruct (X _ A). split; auto; discriminate. }
        { intros A B. apply La; auto; congruence. }
        { intros u A. injection A as <-. fsx; auto. }
        { intros u A. fsx; auto. destruct (R _ A) as [B|B]; auto; discriminate. }
        { intros i u A. destruct (Q _ _ A). congruence. }
        { intros i. rewrite <- D. split; [intros [A|A]; [discriminate|auto] | auto]. }
        { intros u. rewrite <- (G WReg) by auto. split; [intros [A|A]; [discriminate|auto] | auto]. }
        { intros u. rewrite K. fsx; auto. rewrite C; auto. }
      * constructor; cbn; auto; try discriminate; try congruence.
        { intros i A. destruct (X _ A). split; auto; congruence. }
        { intros u A. fsx; try discriminate. destruct (R _ A) as [B|B]; auto. congruence. }
        { intros i u A. destruct (Q _ _ A). split; auto. fsx; auto; try congruence. }
        { intros i. rewrite <- D. split; [intros [A|A]; [discriminate|auto] | auto]. }
        { intros u. rewrite <- (G WJoin) by auto. split; [intros [A|A]; [discriminate|auto] | auto]. }
        { intros u. rewrite K. fsx; auto. rewrite C; auto. }
      * constructor; cbn; auto; try discriminate; try congruence.
        { intros i A. destruct (X _ A). split; auto; congruence. }
        { intros A B. apply La; auto; congruence. }
        { intros u A. assert (B : JOp w0 = JOp u) by congruence. specialize (J _ B). fsx; auto; try congruence. }
        { intros u A. fsx; try discriminate. destruct (R _ A) as [B|B]; auto. left; congruence. }
        { intros i u A. destruct (Q _ _ A). congruence. }
        { intros i. rewrite <- D. split; [intros [A|A]; [discriminate|auto] | auto]. }
        { intros u. rewrite <- (G WJoin) by auto. split; [intros [A|A]; [discriminate|auto] | auto]. }
        { intros u. rewrite K. fsx; auto. rewrite C; auto. }
    + constructor; cbn; auto.
      * intros u A. specialize (J _ A). fsx; auto; try congruence.
      * intros u A. fsx; auto; try discriminate.
      * intros i u A. destruct (Q _ _ A). split; auto. fsx; auto; try congruence.
      * intros u A. fsx; eauto; try discriminate.
      * intros i. rewrite <- D. split; [intros [A|A]; [discriminate|auto] | auto].
      * intros u. split; [intros [A|A]; [discriminate|]; apply W in A; fsx; auto; discriminate | right; apply W; fsx; auto; congruence].
      * intros u. rewrite K. destruct (Nat.eqb_spec w u); [subst u|]; fsx; try congruence; auto. rewrite C. auto.
Qed.
Lemma runs_inv : forall (I : state -> Prop), (forall s a s', I s -> step s a = Some s' -> I s') -> forall l s s', I s -> runs l s = Some s' -> I s'.
Proof.
  intros I St l. induction l as [|a l IH]; cbn; intros s s' Hs H.
  - injection H as <-; auto.
  - destruct (step s a) as [s1|] eqn:E; [|discriminate]. eauto.
Qed.
Lemma reach_inv : forall n s, reachable n s -> inv s.
Proof. intros n s [l H]. exact (@runs_inv inv inv_step l _ _ (inv_init n) H). Qed.
Lemma nn_step : forall s a s', step s a = Some s' -> nn s' = nn s.
Proof.
  intros s a s' H. destruct a as [|i|i|w|w]; cbn -[Nat.ltb] in H.
  - destruct (started s <? nn s); [|discriminate]. injection H as <-; auto.
  - destruct (ch s i); try discriminate; injection H as <-; auto.
  - destruct (ch s i); try discriminate; injection H as <-; auto.
  - destruct (started s =? nn s); [|discriminate]. destruct (wt s w); try discriminate; injection H as <-; auto.
  - destruct (wt s w); try discriminate; injection H as <-; auto. destruct (jo s); auto.
Qed.
Lemma reach_nn : forall n s, reachable n s -> nn s = n.
Proof.
  intros n s [l H]. refine (@runs_inv (fun s => nn s = n) _ l (init n) s eq_refl H).
  intros s1 a s2 E St. rewrite (nn_step _ _ St). auto.
Qed.

(** When the only waiter has been joined, the work is over and no thread is about to touch the storage. *)
Definition over s := jo s = JNull /\ (forall w, wt s w <> WCas).
Lemma one_waiter_tl : forall e l, one_waiter (e :: l) -> one_waiter l.
Proof. intros e l H u v A B. apply H; right; auto. Qed.
Lemma joined_over : forall s w, inv s -> one_waiter (log s) -> (wt s w = WDone \/ wt s w = WJoin \/ exists i, ch s i = CJoin w)
  -> (wt s w = WDone -> jo s = JNull) -> over s.
Proof.
  intros s w I O H HD.
  assert (OW : forall u, wt s u <> WNew -> u = w).
  { intros u A. apply O; apply (v_wait I); auto. destruct H as [H|[H|[i H]]]; try congruence. destruct (v_join I _ H); congruence. }
  split.
  - destruct H as [H|[H|[i H]]]; auto.
    + pose proof (v_wjoin I _ H). destruct (jo s) as [| |u] eqn:E; auto; [congruence|]. pose proof (v_jop I E).
      assert (u = w) by (apply OW; congruence). congruence.
    + apply (v_join I _ H).
  - intros u A. assert (u = w) by (apply OW; congruence). subst u. destruct H as [H|[H|[i H]]]; try congruence. destruct (v_join I _ H); congruence.
Qed.
Lemma over_quiet : forall s, inv s -> over s -> forall i, i < nn s -> In (EDone i) (log s) /\ ch s i <> CDec /\ ch s i <> CExch.
Proof.
  intros s I [J _] i Li. pose proof (v_null I J) as P. rewrite (v_pend I) in P. pose proof (sumf_zero _ P Li) as Z.
  split; [|split].
  - apply (v_done I). destruct (ch s i); try discriminate; split; discriminate.
  - intros E; rewrite E in Z; discriminate.
  - intros E. apply (v_exch I) in E. tauto.
Qed.

Record inv2 (s : state) : Prop := {
  k_inv : inv s;
  k_done : forall w, wt s w = WDone -> jo s = JNull;
  k_all : forall l1 l2 w, log s = l1 ++ EJoined w :: l2 -> (forall i, i < nn s -> In (EDone i) l2) /\ ~ In EAcc l1
}.
Lemma log_step : forall s a s', step s a = Some s' -> exists e, log s' = e :: log s.
Proof.
  intros s a s' H. destruct a as [|i|i|w|w]; cbn -[Nat.ltb] in H.
  - destruct (started s <? nn s); [|discriminate]. injection H as <-; cbn; eauto.
  - destruct (ch s i); try discriminate; injection H as <-; cbn; eauto.
  - destruct (ch s i); try discriminate; injection H as <-; cbn; eauto.
  - destruct (started s =? nn s); [|discriminate]. destruct (wt s w); try discriminate; injection H as <-; cbn; eauto.
  - destruct (wt s w); try discriminate; injection H as <-; destruct (jo s); cbn; eauto.
Qed.
Lemma joined_in : forall w l, In (EJoined w) l -> joined w l <> 0.
Proof.
  intros w. induction l as [|e l IH]; cbn; [tauto|]. intros [->|H]; [rewrite Nat.eqb_refl; lia|]. specialize (IH H). destruct e; auto. lia.
Qed.
Lemma inv2_step : forall s a s', (one_waiter (log s) -> inv2 s) -> step s a = Some s' -> one_waiter (log s') -> inv2 s'.
Proof.
  intros s a s' J H O.
  assert (O1 : one_waiter (log s)). { destruct (log_step _ _ H) as [e E]. rewrite E in O. eapply one_waiter_tl; eauto. }
  destruct (J O1) as [I D A]. pose proof (inv_step _ I H) as I'. pose proof (nn_step _ _ H) as NN.
  assert (Cont : forall e, log s' = e :: log s -> (forall w, e <> EJoined w) -> (e = EAcc -> forall w, wt s w <> WDone) ->
    forall l1 l2 w, log s' = l1 ++ EJoined w :: l2 -> (forall i, i < nn s' -> In (EDone i) l2) /\ ~ In EAcc l1).
  { intros e E1 E2 E3 l1 l2 w E. rewrite NN. rewrite E1 in E. destruct l1 as [|x l1]; cbn in E; inversion E; [subst; elim (E2 w); auto|]. subst x.
    destruct (A _ _ _ H2) as [B C]. split; auto. intros [F|F]; auto.
    assert (In (EJoined w) (log s)) by (rewrite H2; apply in_elt). apply joined_in in H0. rewrite (v_joined I) in H0.
    destruct (wt s w) eqn:W; try tauto. elim (E3 F w W). }
  assert (Jn : forall w, log s' = EJoined w :: log s -> over s ->
    forall l1 l2 u, log s' = l1 ++ EJoined u :: l2 -> (forall i, i < nn s' -> In (EDone i) l2) /\ ~ In EAcc l1).
  { intros w E1 Ov l1 l2 u E. rewrite NN. rewrite E1 in E. destruct l1 as [|x l1]; cbn in E; inversion E.
    - subst. split; [|cbn; tauto]. intros i Li. apply (over_quiet I Ov Li).
    - subst. destruct (A _ _ _ H2) as [B C]. split; auto. intros [F|F]; auto; discriminate. }
  assert (Ov : forall w, wt s w = WDone -> over s). { intros w W. eapply joined_over; eauto. }
  constructor; auto.
  - destruct a as [|i|i|w|w]; cbn -[Nat.ltb] in H.
    + destruct (started s <? nn s); [|discriminate]. injection H as <-; cbn; eauto.
    + destruct (ch s i); try discriminate; injection H as <-; cbn; eauto.
    + destruct (ch s i) eqn:C; try discriminate; injection H as <-; cbn; eauto.
      intros u U. apply (v_join I _ C).
    + destruct (started s =? nn s); [|discriminate]. destruct (wt s w); try discriminate; injection H as <-; cbn; eauto. intros u U. fsx; eauto; try discriminate.
    + destruct (wt s w) eqn:W; try discriminate; injection H as <-.
      * intros u U. exfalso. destruct (jo s) eqn:E; cbn in U; fsx; try discriminate; destruct (Ov _ U) as [_ B]; elim (B w W).
      * intros u U. cbn in *. assert (Ow : over s) by (eapply joined_over; eauto). apply Ow.
  - destruct a as [|i|i|w|w]; cbn -[Nat.ltb] in H.
    + destruct (started s <? nn s); [|discriminate]. injection H as <-. eapply Cont; try reflexivity; discriminate.
    + destruct (ch s i); try discriminate; injection H as <-. eapply Cont; try reflexivity; discriminate.
    + destruct (ch s i) eqn:C; try discriminate; injection H as <-.
      * eapply Cont; try reflexivity; try discriminate. intros _ w W. destruct (le_lt_dec (nn s) i) as [Li|Li].
        { assert (ch s i = CNew) by (apply (v_new I); pose proof (v_le I); lia). congruence. }
        pose proof (over_quiet I (Ov _ W) Li). tauto.
      * eapply Cont; try reflexivity; try discriminate. intros _ w W. pose proof (D _ W). apply (v_exch I) in C. tauto.
      * eapply Jn; [reflexivity|]. eapply joined_over; eauto.
    + destruct (started s =? nn s); [|discriminate]. destruct (wt s w); try discriminate; injection H as <-. eapply Cont; try reflexivity; discriminate.
    + destruct (wt s w) eqn:W; try discriminate; injection H as <-.
      * eapply Cont; [destruct (jo s); reflexivity| discriminate|]. intros _ u U. destruct (Ov _ U) as [_ B]. elim (B w W).
      * eapply Jn; [reflexivity|]. eapply joined_over; eauto.
Qed.
Lemma reach_inv2 : forall n s, reachable n s -> one_waiter (log s) -> inv2 s.
Proof.
  intros n s [l H]. refine (@runs_inv (fun s => one_waiter (log s) -> inv2 s) _ l _ _ _ H).
  - intros; eapply inv2_step; eauto.
  - intros _. constructor; [apply inv_init | discriminate |]. intros [|]; discriminate.
Qed.

(** ** C60 *)
(** With one operation of async_wait(): it completes only after all n senders have completed, and once it has completed no thread touches the storage again (so the user
    may destroy it). *)
Theorem start_now_wait_partial : forall n s, reachable n s -> one_waiter (log s) ->
  forall l1 l2 w, log s = l1 ++ EJoined w :: l2 -> (forall i, i < n -> In (EDone i) l2) /\ ~ In EAcc l1.
Proof. intros n s R O. rewrite <- (reach_nn R). apply (k_all (reach_inv2 R O)). Qed.

(** With any number of them: each completes at most once, ... *)
Theorem start_now_once : forall n s, reachable n s -> forall w, joined w (log s) <= 1.
Proof. intros n s R w. rewrite (v_joined (reach_inv R)). destruct (wt s w); lia. Qed.

(** ... and none is forgotten: when all senders have completed and every thread has gone as far as it can, each started operation has completed. *)
Theorem start_now_all_joined : forall n s, reachable n s -> (forall i, i < n -> In (EDone i) (log s)) ->
  (forall i, step s (AChild i) = None) -> (forall w, step s (AWaiter w) = None) ->
  forall w, In (EWait w) (log s) -> joined w (log s) = 1.
Proof.
  intros n s R D C W w E. pose proof (reach_inv R) as I. pose proof (reach_nn R) as NN. rewrite (v_joined I). apply (v_wait I) in E.
  specialize (W w). cbn in W. destruct (wt s w) eqn:Ew; try congruence; auto.
  exfalso. destruct (v_reg I _ Ew) as [J|[i J]]; [|specialize (C i); cbn in C; rewrite J in C; discriminate].
  assert (P : pend s = 0).
  { rewrite (v_pend I). assert (G : forall k, k <= nn s -> sumf (ch s) k = 0).
    { induction k; cbn; auto. intros L. rewrite IHk by lia. assert (A : In (EDone k) (log s)) by (apply D; lia). apply (v_done I) in A.
      specialize (C k). cbn in C. destruct (ch s k); try discriminate; tauto. }
    apply G; auto. }
  destruct (v_last I P) as [i X]; [congruence|]. specialize (C i). cbn in C. rewrite X in C. discriminate.
Qed.

(** Refuted: with two operations of async_wait(), the second completes at once, while the work is still running. *)
Definition two_waiters := [AStart; AWait 0; AWaiter 0; AWait 1; AWaiter 1; AWaiter 1].
Theorem start_now_two_waiters_refuted :
  ~ (forall n s, reachable n s -> forall l1 l2 w, log s = l1 ++ EJoined w :: l2 -> forall i, i < n -> In (EDone i) l2).
Proof.
  intros X. destruct (runs two_waiters (init 1)) as [s|] eqn:E; [|vm_compute in E; discriminate].
  assert (L : log s = [] ++ EJoined 1 :: [EAcc; EWait 1; EAcc; EWait 0; EStart 0]). { vm_compute in E. injection E as <-. reflexivity. }
  specialize (X 1 s (ex_intro _ two_waiters E) _ _ _ L 0 ltac:(lia)). cbn in X. intuition discriminate.
Qed.

(** Three senders, the middle one completing inline, the waiter registered before the last completion. *)
Definition three := [AStart; AStart; AComplete 1; AChild 1; AStart; AComplete 0; AWait 7; AChild 0; AWaiter 7; AComplete 2; AChild 2; AChild 2; AChild 2].
Example three_log : option_map log (runs three (init 3))
  = Some [EJoined 7; EAcc; EAcc; EDone 2; EAcc; EAcc; EWait 7; EDone 0; EStart 2; EAcc; EDone 1; EStart 1; EStart 0].
Proof. vm_compute. reflexivity. Qed.
Example three_one_waiter : one_waiter [EJoined 7; EAcc; EAcc; EDone 2; EAcc; EAcc; EWait 7; EDone 0; EStart 2; EAcc; EDone 1; EStart 1; EStart 0].
Proof. intros u v. cbn. intuition congruence. Qed.
