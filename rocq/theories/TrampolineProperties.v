(** * C39: trampoline_scheduler executes each operation once, deferred ones in order, with bounded recursion *)

From Coq Require Import List Arith Bool ZArith Lia.
From Verif Require Import Conc TrampolineModel.
Import ListNotations.
Set Implicit Arguments.
Arguments Nat.max : simpl never.

(** ** Specification *)
Definition starts (o : op) (l : list event) : nat := cnt (fun e => match e with EStart u => u =? o | _ => false end) l.
Definition executions (o : op) (l : list event) : nat := cnt (fun e => match e with EExec u _ _ => u =? o | _ => false end) l.
(** the operations deferred, resp. taken out of the list, oldest first *)
Definition deferred (l : list event) : list op := rev (flat_map (fun e => match e with EDefer o => [o] | _ => [] end) l).
Definition drained (l : list event) : list op := rev (flat_map (fun e => match e with EDrain o => [o] | _ => [] end) l).
(** no trampoline operation is running on this thread *)
Definition idle (s : state) : Prop := stack s = [].

(** ** Invariant *)
Fixpoint chain (f : op -> option op) (h : option op) (q : list op) : Prop :=
  match q with [] => h = None | x :: r => h = Some x /\ chain f (f x) r end.
Definition last_of (q : list op) : option op := match rev q with [] => None | x :: _ => Some x end.

Record inv (s : state) (q : list op) : Prop := {
  i_cur : cur s = None <-> stack s = [];
  i_q : match cur s with
        | None => q = []
        | Some t => chain (nxt s) (head t) q /\ tail t = last_of q /\
                    length (stack s) <= depth t /\ depth t <= Nat.max 1 (max_depth t)
        end;
  i_nxt : forall o, ~ In o q -> nxt s o = None;
  i_nodup : NoDup q;
  i_lt : forall o, In o q -> o < next s;
  i_fifo : deferred (log s) = drained (log s) ++ q;
  i_cnt : forall o, starts o (log s) = executions o (log s) + cnt (fun u => u =? o) q;
  i_starts : forall o, starts o (log s) = if o <? next s then 1 else 0 }.

Lemma chain_fset f h q x v : ~ In x q -> chain f h q -> chain (fset f x v) h q.
Proof.
  revert h. induction q as [|y q IH]; simpl; intros h N C; auto. destruct C as [-> C]. split; auto.
  rewrite fset_other by (intros E; apply N; auto). apply IH; auto.
Qed.
Lemma last_of_app q x : last_of (q ++ [x]) = Some x.
Proof. unfold last_of. rewrite rev_unit. auto. Qed.
Lemma last_of_some q p : last_of q = Some p -> exists r, q = r ++ [p].
Proof.
  unfold last_of. destruct (rev q) as [|x r] eqn:E; [discriminate|]. intros H. injection H as ->.
  exists (rev r). rewrite <- (rev_involutive q), E. auto.
Qed.
Lemma last_of_none q : last_of q = None -> q = [].
Proof. unfold last_of. destruct (rev q) eqn:E; [|discriminate]. intros _. rewrite <- (rev_involutive q), E. auto. Qed.
Lemma last_of_cons x y q : last_of (x :: y :: q) = last_of (y :: q).
Proof. unfold last_of. simpl. destruct (rev q ++ [y]) eqn:E; auto. apply app_eq_nil in E. destruct E; discriminate. Qed.
Lemma chain_push f h r p o : NoDup (r ++ [p]) -> ~ In o (r ++ [p]) -> chain f h (r ++ [p]) -> f o = None ->
  chain (fset f p (Some o)) h ((r ++ [p]) ++ [o]).
Proof.
  revert h. induction r as [|x r IH]; simpl; intros h D N C Fo.
  - destruct C as [-> _]. split; auto. rewrite fset_same. split; auto. rewrite fset_other; auto.
  - destruct C as [-> C]. split; auto. inversion_clear D as [|? ? D1 D2].
    rewrite fset_other; [apply IH; auto|]. intros ->. apply D1. apply in_app_iff. simpl. auto.
Qed.
Lemma deferred_cons e l : deferred (e :: l) = deferred l ++ match e with EDefer o => [o] | _ => [] end.
Proof. unfold deferred. simpl. rewrite rev_app_distr. destruct e; auto. Qed.
Lemma drained_cons e l : drained (e :: l) = drained l ++ match e with EDrain o => [o] | _ => [] end.
Proof. unfold drained. simpl. rewrite rev_app_distr. destruct e; auto. Qed.

Lemma inv_step c s s' q : inv s q -> step c s = Some s' -> exists q', inv s' q'.
Proof.
  intros I H. destruct I. destruct c as [ms md ad st|ad st]; simpl in H.
  - injection H as <-. unfold start. simpl.
    assert (F : ~ In (next s) q) by (intros X; apply i_lt0 in X; lia).
    assert (S1 : forall o, starts o (EStart (next s) :: log s) = if o <? S (next s) then 1 else 0).
    { intros o. unfold starts in *. simpl. rewrite i_starts0.
      destruct (Nat.eqb_spec (next s) o), (Nat.ltb_spec o (next s)), (Nat.ltb_spec o (S (next s))); lia. }
    destruct (cur s) as [t|] eqn:Ec.
    + destruct i_q0 as (C & T & L & Dm).
      destruct ((Z.abs (ad - origin t) <? max_size t)%Z && (depth t <? max_depth t)) eqn:G.
      * exists q. apply andb_true_iff in G. destruct G as [_ G]. apply Nat.ltb_lt in G.
        constructor; simpl; auto.
        -- split; discriminate.
        -- repeat split; auto; lia.
        -- intros o Ho. apply i_lt0 in Ho. lia.
        -- intros o. specialize (i_cnt0 o). unfold starts, executions in *. simpl. lia.
      * exists (q ++ [next s]).
        assert (ND : NoDup (q ++ [next s])) by (apply NoDup_app_snoc || (apply NoDup_rev in i_nodup0; rewrite <- (rev_involutive (q ++ [next s])); apply NoDup_rev; rewrite rev_unit; constructor; auto; rewrite <- in_rev; auto)).
        assert (K : forall o, starts o (EDefer (next s) :: EStart (next s) :: log s) =
                    executions o (EDefer (next s) :: EStart (next s) :: log s) + cnt (fun u => u =? o) (q ++ [next s])).
        { intros o. specialize (i_cnt0 o). rewrite cnt_app. unfold starts, executions in *. simpl. lia. }
        assert (Q : deferred (EDefer (next s) :: EStart (next s) :: log s) = drained (EDefer (next s) :: EStart (next s) :: log s) ++ q ++ [next s]).
        { rewrite !deferred_cons, !drained_cons, !app_nil_r, i_fifo0, app_assoc. auto. }
        assert (Lt : forall o, In o (q ++ [next s]) -> o < S (next s)).
        { intros o Ho. apply in_app_iff in Ho. destruct Ho as [Ho|[<-|[]]]; [apply i_lt0 in Ho|]; lia. }
        unfold defer. destruct (tail t) as [p|] eqn:Et.
        -- symmetry in T. destruct (last_of_some _ T) as (r & ->).
           constructor; simpl; auto.
           ++ split; [discriminate|]. intros E. apply i_cur0 in E. discriminate.
           ++ split; [apply chain_push; auto|]. rewrite last_of_app. repeat split; auto.
           ++ intros o Ho. rewrite in_app_iff in Ho. rewrite fset_other; [apply i_nxt0; tauto|]. intros ->. apply Ho. left. apply in_app_iff. simpl. auto.
        -- symmetry in T. apply last_of_none in T. subst q. simpl in *.
           constructor; simpl; auto.
           ++ split; [discriminate|]. intros E. apply i_cur0 in E. discriminate.
    + exists q. subst q. pose proof (proj1 i_cur0 eq_refl) as Es. constructor; simpl; auto.
      * split; discriminate.
      * rewrite Es. simpl. repeat split; auto; lia.
      * intros o [].
      * intros o. specialize (i_cnt0 o). unfold starts, executions in *. simpl in *. lia.
  - destruct (stack s) as [|x r] eqn:Es; [discriminate|]. injection H as <-.
    destruct (cur s) as [t|] eqn:Ec; [|pose proof (proj1 i_cur0 eq_refl); discriminate].
    destruct i_q0 as (C & T & L & Dm). destruct r as [|y r].
    + unfold drain. simpl. destruct (head t) as [o|] eqn:Eh.
      * destruct q as [|z q]; simpl in C; [discriminate|]. destruct C as [E C]. injection E as <-.
        inversion_clear i_nodup0 as [|? ? D1 D2]. exists q. constructor; simpl; auto.
        -- split; discriminate.
        -- split; [apply chain_fset; auto|]. split; [|split; simpl; lia].
           destruct q as [|z q]; simpl in C; [rewrite C; auto|]. destruct C as [-> C]. rewrite T. apply last_of_cons.
        -- intros u Hu. destruct (Nat.eq_dec u o) as [->|N]; [apply fset_same|]. rewrite fset_other by auto. apply i_nxt0. simpl. intuition.
        -- intros u Hu. apply i_lt0. simpl. auto.
        -- rewrite !deferred_cons, !drained_cons, !app_nil_r, i_fifo0, <- app_assoc. auto.
        -- intros u. specialize (i_cnt0 u). unfold starts, executions in *. simpl in *. lia.
      * exists q. destruct q as [|z q]; simpl in C; [|destruct C; discriminate]. constructor; simpl; auto.
        -- tauto.
    + exists q. constructor; simpl; auto.
      * split; discriminate.
      * repeat split; auto. simpl in *. lia.
Qed.
Lemma inv_reach s : reachable s -> exists q, inv s q.
Proof.
  induction 1 as [|s c s' R [q I] E]; [|eapply inv_step; eauto].
  exists []. constructor; simpl; auto; try tauto. constructor.
Qed.

(** ** C39 *)
(** When no trampoline operation is running (in particular when the outermost start() has returned),
    every operation started so far has been executed exactly once; and never more than once. *)
Theorem C39_executed_once s o : reachable s -> executions o (log s) <= starts o (log s) /\ starts o (log s) <= 1.
Proof. intros R. destruct (inv_reach R) as [q []]. rewrite i_starts0 in *. specialize (i_cnt0 o). rewrite i_starts0 in i_cnt0. destruct (o <? next s); lia. Qed.
Theorem C39_all_executed_on_return s o : reachable s -> idle s -> In (EStart o) (log s) -> executions o (log s) = 1.
Proof.
  intros R E H. destruct (inv_reach R) as [q []]. pose proof (proj2 i_cur0 E) as Ec. rewrite Ec in i_q0. subst q.
  specialize (i_cnt0 o). simpl in i_cnt0.
  assert (0 < starts o (log s)) by (apply cnt_pos; exists (EStart o); simpl; split; auto; apply Nat.eqb_refl).
  specialize (i_starts0 o). destruct (o <? next s); lia.
Qed.
(** Deferred operations are executed in the order in which they were started. *)
Theorem C39_deferred_fifo s : reachable s -> exists waiting, deferred (log s) = drained (log s) ++ waiting.
Proof. intros R. destruct (inv_reach R) as [q []]. eauto. Qed.
(** ... and after the outermost start has returned none is left. *)
Theorem C39_none_left s : reachable s -> idle s -> deferred (log s) = drained (log s).
Proof.
  intros R E. destruct (inv_reach R) as [q []]. pose proof (proj2 i_cur0 E) as Ec. rewrite Ec in i_q0. subst q. rewrite app_nil_r in i_fifo0. auto.
Qed.
(** Completions never nest deeper than the recursion limit of the outermost operation. *)
Theorem C39_bounded_recursion s t : reachable s -> cur s = Some t -> length (stack s) <= Nat.max 1 (max_depth t).
Proof. intros R E. destruct (inv_reach R) as [q []]. rewrite E in i_q0. lia. Qed.
(** The user code always can go on: start() and the return of a completion are always possible. *)
Theorem C39_progress s c : reachable s -> ~ idle s -> exists s', step c s = Some s'.
Proof. intros R N. destruct c; simpl; eauto. destruct (stack s) eqn:E; [congruence|]. eauto. Qed.
(** The limits are those of the outermost operation: they change only when no operation is running. *)
Theorem C39_outermost_limits s c s' t t' : reachable s -> step c s = Some s' -> cur s = Some t -> cur s' = Some t' ->
  max_depth t' = max_depth t /\ max_size t' = max_size t.
Proof.
  intros R H E E'. destruct c as [ms md ad st|ad st]; simpl in H.
  - injection H as <-. unfold start in E'. simpl in E'. rewrite E in E'.
    destruct ((Z.abs (ad - origin t) <? max_size t)%Z && (depth t <? max_depth t)); simpl in E'.
    + injection E' as <-. auto.
    + unfold defer in E'. destruct (tail t); simpl in E'; injection E' as <-; auto.
  - destruct (stack s) as [|x [|y r]]; [discriminate| |]; injection H as <-.
    + unfold drain in E'. simpl in E'. rewrite E in E'. destruct (head t); simpl in E'; [injection E' as <-; auto|discriminate].
    + simpl in E'. rewrite E in E'. injection E' as <-. auto.
Qed.
(** An operation completes with set_stopped exactly when a stop was requested as it is executed. *)
Theorem C39_signal s c s' o g d : step c s = Some s' -> In (EExec o g d) (log s') -> ~ In (EExec o g d) (log s) ->
  exists stop : bool, g = (if stop then Stopped else Value) /\ (exists a m k, c = AStart m k a stop \/ c = AReturn a stop).
Proof.
  intros H Hi Hn. destruct c as [ms md ad st|ad st]; simpl in H.
  - injection H as <-. exists st. unfold start, execute, defer in *.
    assert (X : g = if st then Stopped else Value).
    { destruct (cur s) as [t|]; simpl in Hi.
      - rewrite <- (app_nil_l (log s)) in Hn.
        destruct ((Z.abs (ad - origin t) <? max_size t)%Z && (depth t <? max_depth t)); simpl in Hi.
        + destruct Hi as [Hi|[Hi|Hi]]; [injection Hi; auto|discriminate|tauto].
        + destruct (tail t); simpl in Hi; destruct Hi as [Hi|[Hi|Hi]]; try discriminate; tauto.
      - destruct Hi as [Hi|[Hi|Hi]]; [injection Hi; auto|discriminate|tauto]. }
    split; auto. exists ad, ms, md. auto.
  - destruct (stack s) as [|x [|y r]]; [discriminate| |]; injection H as <-; simpl in Hi; [|tauto].
    exists st. split; [|exists ad, 0%Z, 0; auto]. unfold drain, execute in Hi. simpl in Hi.
    destruct (cur s) as [t|]; simpl in Hi; [|tauto]. destruct (head t); simpl in Hi.
    + destruct Hi as [Hi|[Hi|Hi]]; [injection Hi; auto|discriminate|tauto].
    + destruct Hi as [Hi|Hi]; [discriminate|tauto].
Qed.
(** One might expect operations started by the first, outermost, completion to be executed inline up to
    the recursion limit.  They never are, unless the stack lies within max_recursion_size of address 0:
    the outermost frame leaves __recursion_origin_ at 0 (L74, L155). *)
Theorem C39_outermost_never_inlines s ms md ad st t : reachable s -> cur s = Some t -> drained (log s) = [] ->
  ~ In EReturn (log s) -> (max_size t <= Z.abs ad)%Z -> In (EDefer (next s)) (log (start ms md ad st s)).
Proof.
  intros R E D NR L.
  assert (O : reachable s -> drained (log s) = [] -> ~ In EReturn (log s) -> forall t, cur s = Some t -> origin t = 0%Z).
  { clear. intros R. induction R as [|s c s' R IH H]; [discriminate|]. intros D NR t E. destruct c as [ms md ad st|ad st]; simpl in H.
    - injection H as <-. unfold start, defer, execute in *. simpl in *. destruct (cur s) as [u|] eqn:Ec.
      + destruct ((Z.abs (ad - origin u) <? max_size u)%Z && (depth u <? max_depth u)); [|destruct (tail u)]; simpl in *;
        injection E as <-; simpl; (apply IH; [rewrite !drained_cons, !app_nil_r in D; exact D|intros X; apply NR; simpl; auto|reflexivity]).
      + simpl in E. injection E as <-. auto.
    - destruct (stack s) as [|x [|y r]]; [discriminate| |]; injection H as <-.
      + unfold drain in *. simpl in *. destruct (cur s) as [u|] eqn:Ec; [|simpl in E; congruence].
        destruct (head u) as [o|]; simpl in *.
        * rewrite drained_cons, app_nil_r, drained_cons in D. apply app_eq_nil in D. destruct D; discriminate.
        * discriminate.
      + apply IH; auto. }
  unfold start. simpl. rewrite E, (O R D NR t E), Z.sub_0_r. destruct (Z.ltb_spec (Z.abs ad) (max_size t)); [lia|].
  simpl. unfold defer. destruct (tail t); simpl; auto.
Qed.

(** ** Concrete run: an operation starts two more (deferred); the first of these starts two nested ones
    within the limit of 2: one is executed inline, the other is deferred *)
Fixpoint runs (cs : list action) (s : state) : option state :=
  match cs with [] => Some s | c :: r => match step c s with Some s' => runs r s' | None => None end end.
Example C39_example :
  option_map (fun s => (rev (log s), stack s)) (runs
    [AStart 4096 2 100000 false; AStart 4096 2 90000 false; AStart 4096 2 90000 false; AReturn 100000 false;
     AStart 4096 16 99000 true; AStart 4096 16 98000 false; AReturn 0 false; AReturn 100000 false; AReturn 100000 true; AReturn 0 false] init)
  = Some ([EStart 0; EExec 0 Value 1; EStart 1; EDefer 1; EStart 2; EDefer 2; EDrain 1; EExec 1 Value 1;
           EStart 3; EExec 3 Stopped 2; EStart 4; EDefer 4; EDrain 2; EExec 2 Value 1; EDrain 4; EExec 4 Stopped 1; EReturn], []).
Proof. vm_compute. reflexivity. Qed.

Print Assumptions C39_all_executed_on_return.
Print Assumptions C39_deferred_fifo.
Print Assumptions C39_bounded_recursion.
Print Assumptions C39_outermost_never_inlines.
