(** * ScopeProperties: C27, C28, C29 (simple_counting_scope / counting_scope). *)
From Coq Require Import List Arith Bool Lia ZArith NArith.
From Verif Require Import Conc QueueModel QueueSpec QueueProofs ScopeModel ScopeSpec ScopeProofs.
Import ListNotations.
Set Implicit Arguments.

(** ** facts about histories accepted by the specification *)
Lemma spec_app l1 : forall l2 x, spec_run (l1 ++ l2) = Some x -> exists y, spec_run l2 = Some y.
Proof.
  induction l1 as [|e l1 IH]; simpl; intros l2 x H; [eauto|].
  destruct (spec_run (l1 ++ l2)) eqn:E; [eauto|discriminate].
Qed.
Lemma spec_count l : forall st c, spec_run l = Some (st, c) ->
  (Z.of_nat (n_assoc l) = Z.of_nat (n_dis l) + Z.of_N c)%Z.
Proof.
  induction l as [|e l IH]; cbn [spec_run]; intros st c H; [inversion H; reflexivity|].
  destruct (spec_run l) as [[st0 c0]|]; [|discriminate]. specialize (IH _ _ eq_refl).
  rewrite na_cons, ns_cons. cbv beta iota.
  destruct e; simpl in H; try solve [inversion H; subst; lia].
  - destruct (c0 =? max_associations)%N; [discriminate|]. destruct st0; inversion H; subst; lia.
  - destruct (N.eqb_spec c0 0); [discriminate|]. destruct st0; inversion H; subst; lia.
  - destruct (N.eqb_spec c0 0); [inversion H; subst; lia|]. destruct st0; inversion H; subst; lia.
Qed.
Lemma spec_joined_stable l1 : forall l2 x, spec_run l2 = Some (joined, 0%N) -> spec_run (l1 ++ l2) = Some x ->
  x = (joined, 0%N) /\ forall t, ~ In (EAssoc t) l1.
Proof.
  induction l1 as [|e l1 IH]; simpl; intros l2 x H E; [split; [congruence|tauto]|].
  destruct (spec_run (l1 ++ l2)) as [y|] eqn:Ey; [|discriminate]. destruct (IH _ _ H Ey) as [-> N].
  destruct e; cbn in E; try discriminate E; inversion E; subst; split; auto; intros u [K|K]; try discriminate; eapply N; eauto.
Qed.
Lemma spec_not_closed l : forall st c, spec_run l = Some (st, c) -> sclosed st = false -> forall t, ~ In (EClose t) l.
Proof.
  induction l as [|e l IH]; cbn [spec_run]; intros st c H S t; [simpl; auto|].
  destruct (spec_run l) as [[st0 c0]|] eqn:El; [|discriminate]. specialize (IH _ _ eq_refl).
  assert (S0 : sclosed st0 = false /\ forall u, e <> EClose u).
  { destruct e; simpl in H; try solve [inversion H; subst; split; [auto|discriminate]].
    - destruct (c0 =? max_associations)%N; [discriminate|]. split; [|discriminate]. destruct st0; inversion H; subst; auto.
    - destruct (c0 =? 0)%N; [discriminate|]. split; [|discriminate]. destruct st0; simpl in *; auto; try discriminate; destruct (c0 =? 1)%N; inversion H; subst; simpl in S; auto; discriminate.
    - inversion H; subst. destruct st0; discriminate.
    - split; [|discriminate]. destruct (c0 =? 0)%N; [inversion H; subst; discriminate|]. destruct st0; inversion H; subst; auto. }
  intros [K|K]; [eapply (proj2 S0); eauto|]. eapply IH; eauto. tauto.
Qed.
Lemma spec_closed l : forall st c, spec_run l = Some (st, c) -> sclosed st = true ->
  st = joined \/ exists t, In (EClose t) l.
Proof.
  induction l as [|e l IH]; cbn [spec_run]; intros st c H S; [inversion H; subst; discriminate|].
  destruct (spec_run l) as [[st0 c0]|] eqn:El; [|discriminate]. specialize (IH _ _ eq_refl).
  assert (G : st = joined \/ (exists u, e = EClose u) \/ (sclosed st0 = true /\ st0 <> joined)).
  { destruct e; simpl in H; try (right; left; eauto; fail);
      try destruct (c0 =? max_associations)%N; try destruct (c0 =? 0)%N; try destruct (c0 =? 1)%N; try discriminate H;
      destruct st0; try discriminate H; inversion H; subst; simpl in S; try discriminate S; auto;
      right; right; split; auto; discriminate. }
  destruct G as [->|[[u ->]|[G1 G2]]]; auto.
  - right. exists u. left; auto.
  - destruct (IH G1) as [K|[u K]]; [tauto|]. right. exists u. right; auto.
Qed.
Lemma hist_split l1 : forall e l2, hist (l1 ++ e :: l2) -> good e l2.
Proof. induction l1; simpl; intros e l2 H; [tauto|]. apply IHl1. tauto. Qed.
Lemma n_zero_in j l : n_done j l = 0 <-> forall t, ~ In (EDone t j) l.
Proof.
  induction l as [|e l IH]; [simpl; split; auto|]. rewrite nd_cons. simpl. split.
  - intros H t [-> |K]; [rewrite Nat.eqb_refl in H; lia|]. eapply (proj1 IH); [lia|eauto].
  - intros H. rewrite (proj2 IH) by (intros t K; eapply H; eauto). destruct e; auto.
    destruct (Nat.eqb_spec j0 j) as [->|]; auto. exfalso. eapply H. left. reflexivity.
Qed.

(** ** C27: a join operation completes at most once, after it was started, and at a moment at which
    every association ever obtained has been given up; none is obtained afterwards *)
Theorem C27_join_waits_for_all : forall s, reachable s -> forall l1 t j l2, log s = l1 ++ EDone t j :: l2 ->
  n_assoc l2 = n_rel l2 /\ n_assoc l2 = n_dis l2 /\
  (exists u, In (EJoin u j) l2) /\ (forall u, ~ In (EDone u j) l2) /\ (forall u, ~ In (EAssoc u) l1).
Proof.
  intros s R l1 t j l2 E. destruct (reachable_inv R) as (st & c & l & I).
  pose proof (i_hist I) as H. pose proof (i_spec I) as Sp. rewrite E in H, Sp. apply hist_split in H. simpl in H.
  destruct H as (H1 & H2 & H3 & H4). split; auto. split; [apply spec_count in H1; lia|].
  split; [|split].
  - clear - H3. induction l2 as [|e l2 IH]; [discriminate|]. rewrite nj_cons in H3.
    destruct e; try (destruct IH as [u K]; [exact H3|exists u; right; auto]).
    destruct (Nat.eqb_spec j0 j); [subst; exists t; left; auto|].
    destruct IH as [u K]; [exact H3|exists u; right; auto].
  - apply n_zero_in. auto.
  - destruct (@spec_joined_stable (l1 ++ [EDone t j]) l2 (st, c)) as [_ N]; auto.
    { rewrite <- app_assoc. auto. }
    intros u K. apply (N u). apply in_or_app. auto.
Qed.

(** ** C27: when nothing is in progress any more and every association has been released, every join
    operation that was started has completed *)
Theorem C27_every_join_completes : forall s, reachable s ->
  (forall p, In p (thr s) -> p = Idle) -> n_assoc (log s) = n_dis (log s) ->
  forall j, n_done j (log s) = n_join j (log s).
Proof.
  intros s R Q EZ j. destruct (reachable_inv R) as (st & c & l & I).
  assert (S0 : forall w : pc -> Z, w Idle = 0%Z -> sumz w (thr s) = 0%Z).
  { intros w W. apply sumz_zero. intros p Hp. rewrite (Q p Hp). auto. }
  assert (c = 0%N) as -> by (pose proof (i_assoc I); lia).
  assert (l = []) as ->.
  { pose proof (i_reg I) as IR. rewrite !S0 in IR by reflexivity. destruct (reg s); [tauto|].
    destruct IR as (_ & _ & C). destruct l as [|x l]; auto. exfalso.
    destruct (proj2 C) as [K|K]; [simpl; lia| |lia].
    destruct (i_valid I) as (_ & V & _). specialize (V K). lia. }
  pose proof (i_part I j) as P. pose proof (i_join I j). rewrite S0 in P by reflexivity. simpl in P. lia.
Qed.

(** ** C27/C28: no internal assertion fails and no call in progress is ever blocked: every thread in the
    middle of a call can take its next step *)
Theorem C27_never_stuck : forall s t p, reachable s -> nth_error (thr s) t = Some p -> p <> Idle ->
  exists s', step t (AGo None) s = Some s'.
Proof.
  intros s t p R Ht NI. destruct (reachable_inv R) as (st & c & l & I). unfold step. rewrite Ht.
  pose proof (i_pok I _ Ht) as P. destruct p as [|old|old| |ops|j old|j|j h]; simpl in P; try tauto; eauto.
  - destruct P as (st0 & c0 & -> & V & _). unfold step_ta. rewrite count_enc.
    destruct (is_closed (enc st0 c0) || (c0 =? max_associations)%N) eqn:F; eauto.
    apply orb_false_elim in F. destruct F as [_ F]. apply N.eqb_neq in F. destruct V as (_ & _ & V).
    destruct (N.leb_spec max_associations c0); [lia|]. simpl. destruct (bits s =? enc st0 c0)%N; eauto.
  - destruct P as (O & P). unfold step_da. apply N.eqb_neq in P. rewrite P. simpl.
    destruct (N.eqb_spec (bits s) old) as [<-|]; eauto.
    destruct (@dis_inv _ _ _ _ t I Ht) as [_ [(J & _)|(J & J2 & _)]]; rewrite J; eauto.
    rewrite J2. simpl. eauto.
  - destruct (@exch_inv _ _ _ _ t I Ht) as (q & Rq & _). rewrite Rq. eauto.
  - destruct ops; eauto.
  - destruct P as (st0 & c0 & -> & V). unfold step_jn. rewrite count_enc. destruct (N.eqb_spec c0 0) as [->|N].
    + change (is_joined (make_bits 0 c_closed)) with true. simpl. destruct (_ =? _)%N; eauto.
    + assert (SI : sidle st0 = false) by (destruct (sidle st0) eqn:Q; auto; destruct V as (V & _); specialize (V Q); lia).
      rewrite needed_enc, SI. simpl.
      destruct (@join_enc st0 c0) as (st' & E & J & B); [rewrite SI; auto|auto|]. rewrite B, joining_enc, J. simpl.
      destruct (_ =? _)%N; eauto.
  - destruct h; eauto. destruct (regs_eqb _ _); eauto.
Qed.

(** ** C27: once every join operation that was started has completed, and there was at least one, no
    call of disassociate or start of a join will touch the scope again: it may be destroyed *)
Theorem C27_joined_scope_is_quiet : forall s, reachable s ->
  (forall j, n_done j (log s) = n_join j (log s)) -> (exists t j, In (EDone t j) (log s)) ->
  held s = 0 /\
  forall p, In p (thr s) -> p = Idle \/ (exists old, p = TACas old) \/ p = DARun None.
Proof.
  intros s R A (t0 & j0 & D). destruct (reachable_inv R) as (st & c & l & I).
  assert (st = joined) as ->.
  { apply (i_done I) with (j := j0). destruct (n_done j0 (log s)) eqn:E; [|lia].
    exfalso. rewrite n_zero_in in E. eapply E; eauto. }
  assert (c = 0%N) as -> by (destruct (i_valid I) as (V & _); auto).
  assert (NN : forall w, (forall q, 0 <= w q)%Z -> (0 <= sumz w (thr s))%Z) by (intros; apply sumz_nonneg; auto).
  assert (P0 : forall j, sumz (wj j) (thr s) = 0%Z /\ count_occ Nat.eq_dec l j = 0).
  { intros j. pose proof (i_part I j) as P. pose proof (i_join I j) as Q. pose proof (NN _ (wj_nonneg j)). rewrite A in P. lia. }
  assert (l = []) as ->.
  { destruct l as [|x l]; auto. destruct (P0 x) as [_ K]. cbn [count_occ] in K. destruct (Nat.eq_dec x x); [discriminate|tauto]. }
  pose proof (i_held I) as HH. pose proof (NN wD (fun q => proj1 (w_nonneg q))).
  assert (WJ : sumz wJ (thr s) = 0%Z).
  { destruct (Z.eq_dec (sumz wJ (thr s)) 0); auto.
    destruct (@sumz_pos_ex _ wJ (thr s)) as (i & a & Ha & W).
    - pose proof (NN wJ (fun q => proj2 (proj2 (proj2 (w_nonneg q))))). lia.
    - exfalso. assert (exists j, wj j a = 1%Z) as [j Hj].
      { destruct a; simpl in W; try lia; exists j; simpl; rewrite Nat.eqb_refl; auto. }
      pose proof (@sumz_ge _ (wj j) (thr s) (wj_nonneg j) _ _ Ha). destruct (P0 j). lia. }
  split; [lia|]. intros p Hp. apply In_nth_error in Hp. destruct Hp as [i Hi].
  destruct p as [|old|old| |ops|j old|j|j h]; eauto.
  - pose proof (@sumz_ge _ wD (thr s) (fun q => proj1 (w_nonneg q)) _ _ Hi). simpl in *. lia.
  - exfalso. pose proof (@sumz_ge _ wE (thr s) (fun q => proj1 (proj2 (w_nonneg q))) _ _ Hi). simpl in *.
    destruct (i_one I) as [O1 O2]. pose proof (i_reg I) as IR. destruct (reg s); [specialize (O2 eq_refl); lia|].
    destruct IR as (_ & _ & C). rewrite WJ in C. simpl in C. destruct C as [C _]. assert (0 < 0)%Z by (apply C; right; lia). lia.
  - right. right. pose proof (i_reg I) as IR.
    pose proof (@sumz_ge _ wR (thr s) (fun q => proj1 (proj2 (proj2 (w_nonneg q)))) _ _ Hi). simpl in *.
    destruct (reg s); [|lia]. destruct IR as (_ & B & _). specialize (B _ _ Hi). simpl in B. congruence.
  - exfalso. pose proof (@sumz_ge _ (wj j) (thr s) (wj_nonneg j) _ _ Hi). simpl in *. rewrite Nat.eqb_refl in *. destruct (P0 j). lia.
  - exfalso. pose proof (@sumz_ge _ (wj j) (thr s) (wj_nonneg j) _ _ Hi). simpl in *. rewrite Nat.eqb_refl in *. destruct (P0 j). lia.
  - exfalso. pose proof (@sumz_ge _ (wj j) (thr s) (wj_nonneg j) _ _ Hi). simpl in *. rewrite Nat.eqb_refl in *. destruct (P0 j). lia.
Qed.

(** ** C28: no association after close() or after a join has completed; never more than
    max_associations at once; the word does not overflow *)
Theorem C28_closed_scope_refuses : forall s, reachable s -> forall l1 t l2, log s = l1 ++ EAssoc t :: l2 ->
  (forall u, ~ In (EClose u) l2) /\ (forall u j, ~ In (EDone u j) l2) /\
  (N.of_nat (n_assoc l2) < N.of_nat (n_dis l2) + max_associations)%N.
Proof.
  intros s R l1 t l2 E. destruct (reachable_inv R) as (st & c & l & I).
  pose proof (i_spec I) as Sp. rewrite E in Sp. destruct (spec_app _ _ Sp) as [[st1 c1] S1].
  cbn [spec_run] in S1. destruct (spec_run l2) as [[st0 c0]|] eqn:S0; [|discriminate]. simpl in S1.
  destruct (N.eqb_spec c0 max_associations) as [|NM]; [discriminate|].
  assert (SC : sclosed st0 = false) by (destruct st0; auto; discriminate).
  split; [eapply spec_not_closed; eauto|]. split.
  - intros u j K. apply in_split in K. destruct K as (l3 & l4 & ->).
    destruct (@C27_join_waits_for_all s R (l1 ++ EAssoc t :: l3) u j l4) as (_ & _ & _ & _ & N).
    { rewrite E, <- app_assoc. auto. }
    apply (N t). apply in_or_app. right. left. auto.
  - pose proof (spec_count _ S0).
    assert (c0 <= max_associations)%N; [|lia].
    assert (G : forall l st c, spec_run l = Some (st, c) -> (c <= max_associations)%N).
    { clear. induction l as [|e l IH]; cbn [spec_run]; intros st c H; [inversion H; subst; unfold max_associations; lia|].
      destruct (spec_run l) as [[st0 c0]|]; [|discriminate]. specialize (IH _ _ eq_refl).
      destruct e; simpl in H; try (inversion H; subst; auto; fail).
      - destruct (N.eqb_spec c0 max_associations); [discriminate|]. destruct st0; inversion H; subst; lia.
      - destruct (N.eqb_spec c0 0); [discriminate|]. destruct st0; inversion H; subst; lia.
      - destruct (N.eqb_spec c0 0); [inversion H; subst; auto|]. destruct st0; inversion H; subst; auto. }
    eauto.
Qed.

(** a failed try_associate call: at some moment during the call the scope was closed (or joined), or
    full *)
Theorem C28_failure_has_a_reason : forall s, reachable s -> forall l1 t l2, log s = l1 ++ EFail t :: l2 ->
  exists la lb lc, l2 = la ++ lb ++ ETry t :: lc /\ (forall e, In e (la ++ lb) -> thread_of e <> t) /\
    ((exists u, In (EClose u) (lb ++ ETry t :: lc)) \/
     (exists c, spec_run (lb ++ ETry t :: lc) = Some (joined, c)) \/
     (N.of_nat (n_assoc (lb ++ ETry t :: lc)) = N.of_nat (n_dis (lb ++ ETry t :: lc)) + max_associations)%N).
Proof.
  intros s R l1 t l2 E. destruct (reachable_inv R) as (st & c & l & I).
  pose proof (i_hist I) as H. rewrite E in H. apply hist_split in H. simpl in H.
  destruct H as (st0 & c0 & (la & lb & lc & E2 & N & Sp) & G). exists la, lb, lc. split; auto. split; auto.
  destruct G as [G| ->].
  - destruct (spec_closed _ Sp G) as [-> |[u K]]; eauto.
  - right. right. apply spec_count in Sp. lia.
Qed.

Theorem C28_count_bounded : forall s, reachable s ->
  (N.of_nat (n_assoc (log s)) <= N.of_nat (n_dis (log s)) + max_associations)%N /\ (bits s < 2 ^ 64)%N.
Proof.
  intros s R. destruct (reachable_inv R) as (st & c & l & I). destruct (i_valid I) as (_ & _ & V).
  pose proof (i_assoc I). split; [lia|]. rewrite (i_bits I). unfold enc. pose proof (code_lt st).
  unfold max_associations in V. change (N.shiftr (2 ^ 64 - 1) 3) with 2305843009213693951%N in V. lia.
Qed.

(** ** C29: the word always encodes the state of [exec.simple.counting]; the destructor terminates
    exactly when that state is none of unused, unused-and-closed and joined *)
Theorem C29_destructor : forall s, reachable s -> exists st c, spec_run (log s) = Some (st, c) /\
  N.of_nat (n_assoc (log s)) = (N.of_nat (n_dis (log s)) + c)%N /\
  (destroy_terminates s = false <-> st = unused \/ st = unused_closed \/ st = joined).
Proof.
  intros s R. destruct (reachable_inv R) as (st & c & l & I). exists st, c. split; [apply I|].
  split; [pose proof (i_assoc I); lia|]. unfold destroy_terminates. rewrite (i_bits I), destructible_enc.
  destruct (i_valid I) as (V & _ & _). split.
  - destruct (c =? 0)%N, st; simpl; auto; discriminate.
  - intros H. assert (SI : sidle st = true) by (destruct H as [-> |[-> | ->]]; auto). rewrite (V SI), SI. reflexivity.
Qed.

(** in user terms: destruction is accepted iff nothing was ever associated, or a join took effect with
    all associations released *)
Theorem C29_destructor_user : forall s, reachable s ->
  (destroy_terminates s = false <->
   n_assoc (log s) = 0 \/ (exists c, spec_run (log s) = Some (joined, c))).
Proof.
  intros s R. destruct (C29_destructor R) as (st & c & Sp & _ & D). rewrite D. split.
  - assert (U : forall l st c, spec_run l = Some (st, c) -> st = unused \/ st = unused_closed -> n_assoc l = 0).
    { clear. induction l as [|e l IH]; cbn [spec_run]; intros st c H S; [reflexivity|].
      destruct (spec_run l) as [[st0 c0]|]; [|discriminate]. specialize (IH _ _ eq_refl). rewrite na_cons.
      destruct e; simpl in H; cbv beta iota; try (inversion H; subst; rewrite IH; auto; fail).
      - destruct (c0 =? max_associations)%N; [discriminate|]. destruct st0; inversion H; subst; destruct S; discriminate.
      - destruct (c0 =? 0)%N; [discriminate|]. destruct st0; inversion H; subst; destruct S as [S|S]; try discriminate;
          destruct (c0 =? 1)%N; discriminate.
      - inversion H; subst. rewrite IH; auto. destruct st0; destruct S; auto; discriminate.
      - destruct (c0 =? 0)%N; [inversion H; subst; destruct S; discriminate|]. destruct st0; inversion H; subst; destruct S; discriminate. }
    intros [-> |[-> | ->]]; [left; eapply U; eauto|left; eapply U; eauto|right; eauto].
  - intros [Z|[c' Sj]].
    + assert (U : forall l st c, spec_run l = Some (st, c) -> n_assoc l = 0 -> c = 0%N /\ (st = unused \/ st = unused_closed \/ st = joined)).
      { clear. induction l as [|e l IH]; cbn [spec_run]; intros st c H S; [inversion H; auto|].
        destruct (spec_run l) as [[st0 c0]|]; [|discriminate]. rewrite na_cons in S.
        destruct (IH _ _ eq_refl) as [-> K]; [lia|].
        destruct e; simpl in H; try (inversion H; subst; auto; fail); try discriminate.
        inversion H; subst. destruct K as [-> |[-> | ->]]; auto. }
      eapply U; eauto.
    + rewrite Sp in Sj. inversion Sj; auto.
Qed.

(** ** concrete histories *)
Fixpoint runs (l : list (tid * action)) (s : state) : option state :=
  match l with [] => Some s | (t, a) :: l => match step t a s with Some s' => runs l s' | None => None end end.
Lemma runs_reachable l : forall s s', reachable s -> runs l s = Some s' -> reachable s'.
Proof.
  induction l as [|[t a] l IH]; simpl; intros s s' R E; [inversion E; subst; auto|].
  destruct (step t a s) eqn:Q; [|discriminate]. eapply IH; [|exact E]. econstructor; eauto.
Qed.
Definition nx0 : nat -> ptr := fun _ => None.
Definition go := AGo None.

(** an association, a join that has to wait, close, a refused association, the release, completion *)
Definition ex1 : option state :=
  runs [(0, ATry); (0, go); (1, AJoin); (1, go); (1, go); (1, go); (2, AClose); (2, ATry); (2, go);
        (0, ADis); (0, go); (0, go); (0, go); (0, go)] (init 3 nx0).
Example C27_ex_log : option_map (fun s => (log s, destroy_terminates s, thr s)) ex1 =
  Some ([EDone 0 0; EDis 0; ERel 0; EFail 2; ETry 2; EClose 2; EJoining 1 0; EJoin 1 0; EAssoc 0; ETry 0],
        false, [Idle; Idle; Idle]).
Proof. vm_compute. reflexivity. Qed.
Example C29_ex_terminates : option_map destroy_terminates
  (runs [(0, ATry); (0, go); (0, ADis); (0, go); (1, AClose)] (init 2 nx0)) = Some true.
Proof. vm_compute. reflexivity. Qed.

(** With two join operations the completion of ONE of them does not make destruction safe: the thread
    releasing the last association may still have to take the list out of the scope (it is about to
    execute L697), although a join has completed and the destructor would not terminate. *)
Theorem C27_one_of_two_joins_not_enough_refuted : exists s, reachable s /\
  (exists t j, In (EDone t j) (log s)) /\ held s = 0 /\ destroy_terminates s = false /\
  nth_error (thr s) 0 = Some DAExch.
Proof.
  set (h := [(0, ATry); (0, go); (1, AJoin); (1, go); (0, ADis); (0, go); (2, AJoin); (2, go)]).
  assert (F : option_map (fun s => (log s, held s, destroy_terminates s, nth_error (thr s) 0)) (runs h (init 3 nx0)) =
    Some ([EDone 2 1; EJoining 2 1; EJoin 2 1; EDis 0; ERel 0; EJoining 1 0; EJoin 1 0; EAssoc 0; ETry 0], 0, false, Some DAExch))
    by (vm_compute; reflexivity).
  destruct (runs h (init 3 nx0)) as [s|] eqn:E; [|discriminate F].
  exists s. split; [eapply runs_reachable; [constructor|exact E]|].
  cbn [option_map] in F. injection F as F1 F2 F3 F4. rewrite F1, F2, F3.
  split; [exists 2, 1; left; reflexivity|]. auto.
Qed.

Print Assumptions C27_join_waits_for_all.
Print Assumptions C27_every_join_completes.
Print Assumptions C27_never_stuck.
Print Assumptions C27_joined_scope_is_quiet.
Print Assumptions C28_closed_scope_refuses.
Print Assumptions C28_failure_has_a_reason.
Print Assumptions C28_count_bounded.
Print Assumptions C29_destructor.
Print Assumptions C29_destructor_user.
Print Assumptions C27_one_of_two_joins_not_enough_refuted.
