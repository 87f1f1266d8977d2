(** * RunLoopProperties: C19, C20 (stdexec::run_loop).

    Histories [log s] list events newest first; [reachable canstop s]: some interleaving of any
    number of threads leads to s; [canstop o]: o's receiver has a stop token that can be stopped. *)

From Coq Require Import List Arith Bool ZArith Lia.
From Verif Require Import Conc RunLoopModel RunLoopProofs.
Import ListNotations.
Set Implicit Arguments.
#[local] Arguments Z.add : simpl never.
#[local] Arguments Z.sub : simpl never.
#[local] Arguments Z.of_nat : simpl never.

(** ** C19 *)

Lemma enqd_count o l : count_occ Nat.eq_dec (enqd l) o = cnt (is_enq o) l.
Proof.
  induction l as [|e l IH]; simpl; auto.
  destruct e; simpl; auto. rewrite count_occ_app. unfold op in *. rewrite IH. simpl.
  destruct (Nat.eq_dec o0 o) as [->|N].
  - rewrite Nat.eqb_refl; lia.
  - destruct (Nat.eqb_spec o o0); [congruence|lia].
Qed.

Lemma enqd_once canstop s o : inv canstop s -> cnt (is_enq o) (log s) <= 1.
Proof.
  intros I. pose proof (i_once I o). pose proof (i_start I o). pose proof (i_push I o).
  pose proof (sumz_nonneg (pushing o) (thr s) (pushing_nonneg o)).
  pose proof (sumz_nonneg (starting o) (thr s) (starting_nonneg o)). lia.
Qed.

(** operations leave the loop in the order in which they entered it: the executed ones, in
    execution order, are a prefix of the enqueued ones, in enqueueing order *)
Theorem C19_fifo : forall canstop s, reachable canstop s ->
  exists waiting, enqd (log s) = execd (log s) ++ waiting.
Proof. intros canstop s R. eexists. apply (i_fifo (inv_reach R)). Qed.

Theorem C19_executed_at_most_once : forall canstop s, reachable canstop s -> NoDup (execd (log s)).
Proof.
  intros canstop s R. pose proof (inv_reach R) as I.
  assert (N : NoDup (enqd (log s))).
  { apply (NoDup_count_occ Nat.eq_dec). intros o. rewrite enqd_count. eapply enqd_once; eauto. }
  rewrite (i_fifo I) in N. clear I R. induction (execd (log s)) as [|x l IH]; [constructor|].
  simpl in N. inversion N; subst. constructor; auto. intros K. apply H1. apply in_or_app; auto.
Qed.

(** only started operations are executed, and only by run() *)
Theorem C19_executed_only_if_started : forall canstop s l2 o g l1, reachable canstop s ->
  log s = l2 ++ EExec o g :: l1 ->
  (exists t, In (EStart t o) (log s)) /\ In ERun l1 /\ ~ In ERet l1.
Proof.
  intros canstop s l2 o g l1 R E. pose proof (inv_reach R) as I. split.
  - assert (K : In o (enqd (log s))).
    { rewrite (i_fifo I). apply in_or_app. left. apply in_execd. exists g. rewrite E.
      apply in_or_app; right; left; auto. }
    rewrite <- in_enqd in K. apply is_enq_in in K.
    pose proof (i_start I o). pose proof (i_push I o).
    pose proof (sumz_nonneg (pushing o) (thr s) (pushing_nonneg o)).
    pose proof (sumz_nonneg (starting o) (thr s) (starting_nonneg o)).
    assert (P : 0 < cnt (is_start o) (log s)) by lia. apply cnt_pos in P.
    destruct P as [[] [P1 P2]]; simpl in P2; try discriminate. apply Nat.eqb_eq in P2; subst; eauto.
  - eapply (h_run (hist_reach R)); eauto.
Qed.

(** set_stopped exactly if stop had been requested on a stoppable token, else set_value *)
Theorem C19_signal : forall canstop s l2 o g l1, reachable canstop s ->
  log s = l2 ++ EExec o g :: l1 -> (g = SStopped <-> canstop o = true /\ In (EStop o) l1).
Proof. intros canstop s l2 o g l1 R E. eapply (h_sig (hist_reach R)); eauto. Qed.

(** ** C20 *)

Theorem C20_return_after_finish : forall canstop s l2 l1, reachable canstop s ->
  log s = l2 ++ ERet :: l1 -> exists t, In (EFinish t) l1.
Proof. intros canstop s l2 l1 R E. apply (h_ret (hist_reach R) _ _ E). Qed.

(** everything whose start() has executed its first instruction was executed before run() returns *)
Theorem C20_return_after_all_work : forall canstop s l2 l1 o, reachable canstop s ->
  log s = l2 ++ ERet :: l1 -> In (ECount o) l1 -> exists g, In (EExec o g) l1.
Proof.
  intros canstop s l2 l1 o R E H. apply in_execd. apply (h_ret (hist_reach R) _ _ E); auto.
Qed.

(** at the moment run() returns no thread is inside finish() past its first instruction, nor
    inside start() with an instruction other than the final notify_one left *)
Theorem C20_finish_done_at_return : forall canstop s t a s' u p, reachable canstop s ->
  step canstop t a s = Some s' -> run s <> RDone -> run s' = RDone ->
  nth_error (thr s') u = Some p ->
  p = Idle \/ (exists o, p = StAdd o) \/ p = FiAdd \/ (exists o, p = PuNotify (TOp o)).
Proof.
  intros canstop s t a s' u p R H N1 N2 Hu. pose proof (i_count (inv_reach R)) as C.
  pose proof (wrun_nonneg (run s)). pose proof (sumz_ge wpc (thr s) wpc_nonneg) as G.
  go H; try congruence.
  match goal with K : (count s =? 0)%Z = true |- _ => apply Z.eqb_eq in K; rename K into EZ end.
  specialize (G u p Hu). pose proof (wpc_nonneg p). rewrite EZ in C.
  destruct p as [|o|[o|]|[o|] old|[o|]| | | |]; simpl in G; eauto; exfalso; lia.
Qed.

(** C44, as a property of start() alone: only the final notify_one can be outstanding *)
Theorem C44_start_done_at_return_partial : forall canstop s t a s' u o, reachable canstop s ->
  step canstop t a s = Some s' -> run s <> RDone -> run s' = RDone ->
  (forall old, nth_error (thr s') u <> Some (PuCas (TOp o) old)) /\ nth_error (thr s') u <> Some (PuLoad (TOp o)).
Proof.
  intros canstop s t a s' u o R H N1 N2.
  split; intros; intros Hu; destruct (@C20_finish_done_at_return _ _ _ _ _ _ _ R H N1 N2 Hu)
    as [K|[[x K]|[K|[x K]]]]; discriminate.
Qed.

(** the exclusion of notify_one above is necessary: run() can return (and the loop be destroyed)
    while a start() is still about to call notify_one on the loop's queue *)
Fixpoint runs (canstop : op -> bool) (l : list (tid * action)) (s : state) : option state :=
  match l with
  | [] => Some s
  | (t, a) :: l => match step canstop t a s with Some s' => runs canstop l s' | None => None end
  end.
Lemma runs_reachable canstop l : forall s s', reachable canstop s -> runs canstop l s = Some s' ->
  reachable canstop s'.
Proof.
  induction l as [|[t a] l IH]; simpl; intros s s' Hr H; [inversion H; subst; auto|].
  destruct (step canstop t a s) eqn:E; [|discriminate]. eapply (IH s0); [econstructor; eauto|exact H].
Qed.

Lemma runs_ex canstop l n (P : state -> Prop) :
  match runs canstop l (init n) with Some s => P s | None => False end ->
  exists s, reachable canstop s /\ P s.
Proof.
  destruct (runs canstop l (init n)) as [s|] eqn:E; [|tauto]. intros H. exists s.
  split; [eapply runs_reachable; [constructor|exact E]|exact H].
Qed.

Definition R1 := (0, ARunStep).
Definition late_notify : list (tid * action) :=
  [(0, ARun); R1; R1;                                  (* sleeping *)
   (1, AStart 5); (1, AStep); (1, AStep); (1, AStep);  (* 5 is queued, notify_one pending *)
   (0, AWake); R1; R1; R1;                             (* executing 5 *)
   (0, AFinish); (0, AStep); (0, AStep); (0, AStep); (0, AStep); (0, AStep); (0, AStep);
   (0, AReturn); R1; R1; R1; R1; R1; R1; R1; R1; R1].

Theorem C44_access_after_return_refuted : exists s,
  reachable (fun _ => true) s /\ run s = RDone /\ In ERet (log s) /\
  exists t o, nth_error (thr s) t = Some (PuNotify (TOp o)).
Proof.
  apply (@runs_ex _ late_notify 2). vm_compute. split; [auto|split; [auto|exists 1, 5; auto]].
Qed.

(** no lost wake-up: if run() is blocked although something is queued, a notification is on its way *)
Theorem C20_no_lost_wakeup : forall canstop s, reachable canstop s ->
  run s = RSleep -> queue s <> [] -> exists t x, nth_error (thr s) t = Some (PuNotify x).
Proof. intros canstop s R. apply (i_sleep (inv_reach R)). Qed.

(** run() blocks for good only if finish() was never called and no started operation waits *)
Theorem C20_blocked_only_when_idle : forall canstop s, reachable canstop s -> run s = RSleep ->
  (forall t p, nth_error (thr s) t = Some p -> p = Idle) ->
  fin s = false /\ forall t o, In (EStart t o) (log s) -> exists g, In (EExec o g) (log s).
Proof.
  intros canstop s R Hr Hi. pose proof (inv_reach R) as I.
  assert (Q : queue s = []).
  { destruct (queue s) eqn:E; auto. destruct (i_sleep I Hr) as [t' [x Ht]]; [congruence|].
    specialize (Hi _ _ Ht). discriminate. }
  assert (Z : forall w : pc -> Z, w Idle = 0%Z -> sumz w (thr s) = 0%Z).
  { intros w Hw. apply sumz_zero. intros x Hx. apply In_nth_error in Hx. destruct Hx as [n Hn].
    rewrite (Hi _ _ Hn); auto. }
  split.
  - destruct (fin s) eqn:F; auto. destruct (i_noop I) as [K|[t [p [Ht Hp]]]]; auto.
    + rewrite Hr; exact Logic.I.
    + rewrite Q in K; destruct K.
    + rewrite (Hi _ _ Ht) in Hp; destruct Hp.
  - intros t o Ho. apply in_execd.
    assert (K : In o (enqd (log s))).
    { rewrite <- in_enqd. apply is_enq_in. pose proof (i_start I o) as A. pose proof (i_push I o) as B.
      rewrite Z in A, B; auto.
      assert (0 < cnt (is_start o) (log s)); [|lia].
      apply cnt_pos. exists (EStart t o). simpl. rewrite Nat.eqb_refl; auto. }
    rewrite (i_fifo I), Hr, Q in K. simpl in K. rewrite app_nil_r in K; auto.
Qed.

(** after finish(), when the other threads have left the loop and handlers return, run()'s own
    steps bring it to its return *)
Definition own (l : list (tid * action)) : Prop :=
  Forall (fun x => snd x = ARunStep \/ snd x = AReturn) l.

Lemma runs_app canstop l1 : forall l2 s s1, runs canstop l1 s = Some s1 ->
  runs canstop (l1 ++ l2) s = runs canstop l2 s1.
Proof.
  induction l1 as [|[t a] l1 IH]; simpl; intros l2 s s1 H; [inversion H; auto|].
  destruct (step canstop t a s); [eapply IH; eauto|discriminate].
Qed.

Definition quiet (s : state) : Prop :=
  (forall t p, nth_error (thr s) t = Some p -> p = Idle) /\ nth_error (thr s) 0 = Some Idle.

(** executing a batch *)
Lemma run_batch canstop d : forall l n s, quiet s -> run s = RIter d l n ->
  exists acts s', own acts /\ runs canstop acts s = Some s' /\ quiet s' /\ fin s' = fin s /\
    queue s' = queue s /\ run s' = if d then RPop true else RTop.
Proof.
  induction l as [|x l IH]; intros n s [Hq H0] Hr.
  - exists [R1; R1]. eexists. split; [repeat constructor; auto|].
    split; [|].
    { cbn [runs]. unfold R1 at 1. unfold step at 1. rewrite H0. unfold runner at 1. rewrite Hr.
      unfold R1, step. simpl thr. rewrite H0. reflexivity. }
    simpl. repeat split; auto.
  - destruct x as [o|].
    + set (s1 := w_r (w_l (w_r s (RUser d o l n)) (EExec o (sig_of canstop s o))) (RIter d l (S n))).
      destruct (IH (S n) s1) as [acts [s' [H1 [H2 [H3 [H4 [H5 H6]]]]]]]; [split; auto|reflexivity|].
      exists (R1 :: (0, AReturn) :: acts), s'. split; [constructor; simpl; auto; constructor; simpl; auto|].
      split; [|auto]. cbn [runs]. unfold R1, step at 1. rewrite H0. unfold runner. rewrite Hr.
      unfold step at 1. simpl thr. rewrite H0. exact H2.
    + set (s1 := w_r s (RIter d l (S n))).
      destruct (IH (S n) s1) as [acts [s' [H1 [H2 [H3 [H4 [H5 H6]]]]]]]; [split; auto|reflexivity|].
      exists (R1 :: acts), s'. split; [constructor; simpl; auto|].
      split; [|auto]. cbn [runs]. unfold R1, step at 1. rewrite H0. unfold runner. rewrite Hr. exact H2.
Qed.

Lemma finish_check canstop s : reachable canstop s -> quiet s -> run s = RCheck -> queue s = [] ->
  exists acts s', own acts /\ runs canstop acts s = Some s' /\ run s' = RDone.
Proof.
  intros R [Hq H0] Hr Q. pose proof (i_count (inv_reach R)) as C. rewrite Hr, Q in C.
  rewrite sumz_zero in C; [|intros x Hx; apply In_nth_error in Hx; destruct Hx as [n Hn];
    rewrite (Hq _ _ Hn); auto].
  simpl in C. assert (EZ : (count s =? 0)%Z = true) by (apply Z.eqb_eq; lia).
  exists [R1]. eexists. split; [repeat constructor; auto|]. cbn [runs]. unfold R1, step. rewrite H0.
  unfold runner. rewrite Hr, EZ. split; reflexivity.
Qed.

Lemma finish_pop canstop s : reachable canstop s -> quiet s -> run s = RPop true ->
  exists acts s', own acts /\ runs canstop acts s = Some s' /\ run s' = RDone.
Proof.
  assert (Base : forall s, reachable canstop s -> quiet s -> run s = RPop true -> queue s = [] ->
    exists acts s', own acts /\ runs canstop acts s = Some s' /\ run s' = RDone).
  { intros s0 R [Hq H0] Hr Q. set (s1 := w_r s0 RCheck).
    assert (S1 : step canstop 0 ARunStep s0 = Some s1).
    { unfold step. rewrite H0. unfold runner. rewrite Hr, Q. reflexivity. }
    destruct (@finish_check canstop s1) as [acts [s' [A1 [A2 A3]]]]; auto;
      [econstructor; eauto|split; auto|].
    exists (R1 :: acts), s'. split; [constructor; simpl; auto|]. unfold R1; cbn [runs]; rewrite S1. auto. }
  intros R Hq Hr. destruct (queue s) as [|x q] eqn:Q; [apply Base; auto|].
  set (s1 := w_r (w_q s []) (RIter true (rev (x :: q)) 0)).
  assert (S1 : step canstop 0 ARunStep s = Some s1).
  { destruct Hq as [Hq H0]. unfold step. rewrite H0. unfold runner. rewrite Hr, Q. reflexivity. }
  destruct (@run_batch canstop true (rev (x :: q)) 0 s1) as [a1 [s2 [B1 [B2 [B3 [B4 [B5 B6]]]]]]];
    [destruct Hq; split; auto|reflexivity|].
  destruct (Base s2) as [a2 [s3 [C1 [C2 C3]]]]; auto.
  { eapply runs_reachable; [|exact B2]. econstructor; eauto. }
  exists (R1 :: a1 ++ a2), s3. split; [constructor; simpl; auto; apply Forall_app; auto|].
  unfold R1; cbn [runs]; rewrite S1. rewrite (@runs_app canstop _ _ _ _ B2). auto.
Qed.

Theorem C20_run_returns_after_finish : forall canstop s, reachable canstop s -> quiet s ->
  fin s = true -> run s <> RNone -> run s <> RSleep ->
  exists acts s', own acts /\ runs canstop acts s = Some s' /\ run s' = RDone.
Proof.
  intros canstop s R Hq F N0 N1.
  assert (Top : forall s, reachable canstop s -> quiet s -> fin s = true -> run s = RTop ->
     exists acts s', own acts /\ runs canstop acts s = Some s' /\ run s' = RDone).
  { intros s0 R0 Q0 F0 Hr. set (s1 := w_r s0 (RPop true)).
    assert (S1 : step canstop 0 ARunStep s0 = Some s1).
    { destruct Q0 as [Q0 H0]. unfold step. rewrite H0. unfold runner. rewrite Hr, F0. reflexivity. }
    destruct (@finish_pop canstop s1) as [acts [s' [A1 [A2 A3]]]]; [econstructor; eauto|exact Q0|auto|].
    exists (R1 :: acts), s'. split; [constructor; simpl; auto|]. unfold R1; cbn [runs]; rewrite S1. auto. }
  assert (Iter : forall d l n s, reachable canstop s -> quiet s -> fin s = true -> run s = RIter d l n ->
     exists acts s', own acts /\ runs canstop acts s = Some s' /\ run s' = RDone).
  { intros d l n s0 R0 Q0 F0 Hr.
    destruct (@run_batch canstop d l n s0 Q0 Hr) as [a1 [s2 [B1 [B2 [B3 [B4 [B5 B6]]]]]]].
    assert (R2 : reachable canstop s2) by (eapply runs_reachable; eauto).
    assert (X : exists acts s', own acts /\ runs canstop acts s2 = Some s' /\ run s' = RDone).
    { destruct d; [apply finish_pop; auto|]. apply Top; auto. congruence. }
    destruct X as [a2 [s3 [C1 [C2 C3]]]].
    exists (a1 ++ a2), s3. split; [apply Forall_app; auto|]. rewrite (@runs_app canstop _ _ _ _ B2). auto. }
  assert (Pop : forall d s, reachable canstop s -> quiet s -> fin s = true -> run s = RPop d ->
     exists acts s', own acts /\ runs canstop acts s = Some s' /\ run s' = RDone).
  { intros d s0 R0 Q0 F0 Hr. destruct d; [apply finish_pop; auto|].
    destruct (queue s0) as [|x q] eqn:Q.
    - set (s1 := w_r s0 RTop).
      assert (S1 : step canstop 0 ARunStep s0 = Some s1).
      { destruct Q0 as [Q0 H0]. unfold step. rewrite H0. unfold runner. rewrite Hr, Q. reflexivity. }
      destruct (Top s1) as [acts [s' [A1 [A2 A3]]]]; [econstructor; eauto|exact Q0|auto|auto|].
      exists (R1 :: acts), s'. split; [constructor; simpl; auto|]. unfold R1; cbn [runs]; rewrite S1. auto.
    - set (s1 := w_r (w_q s0 []) (RIter false (rev (x :: q)) 0)).
      assert (S1 : step canstop 0 ARunStep s0 = Some s1).
      { destruct Q0 as [Q0 H0]. unfold step. rewrite H0. unfold runner. rewrite Hr, Q. reflexivity. }
      destruct (Iter false (rev (x :: q)) 0 s1) as [acts [s' [A1 [A2 A3]]]];
        [econstructor; eauto|exact Q0|auto|reflexivity|].
      exists (R1 :: acts), s'. split; [constructor; simpl; auto|]. unfold R1; cbn [runs]; rewrite S1. auto. }
  assert (One : forall s1, step canstop 0 ARunStep s = Some s1 ->
     (exists acts s', own acts /\ runs canstop acts s1 = Some s' /\ run s' = RDone) ->
     exists acts s', own acts /\ runs canstop acts s = Some s' /\ run s' = RDone).
  { intros s1 S1 [acts [s' [A1 [A2 A3]]]].
    exists (R1 :: acts), s'. split; [constructor; simpl; auto|]. unfold R1; cbn [runs]; rewrite S1. auto. }
  assert (NR : forall a s1, step canstop 0 a s = Some s1 -> reachable canstop s1)
    by (intros; econstructor; eauto).
  pose proof (proj2 Hq) as H0.
  destruct (run s) eqn:Hr; try congruence.
  - apply Top; auto.
  - assert (Q : queue s <> []).
    { intros Q. destruct (i_noop (inv_reach R)) as [K|[t [p [Ht Hp]]]]; auto.
      - rewrite Hr; exact Logic.I.
      - rewrite Q in K; destruct K.
      - destruct Hq as [Hq _]. rewrite (Hq _ _ Ht) in Hp; destruct Hp. }
    assert (S1 : step canstop 0 ARunStep s = Some (w_r s (RPop false))).
    { unfold step. rewrite H0. unfold runner. rewrite Hr. destruct (queue s); congruence. }
    apply (One _ S1). eapply (Pop false); eauto.
  - eapply Pop; eauto.
  - eapply Iter; eauto.
  - assert (S1 : step canstop 0 AReturn s = Some (w_r s (RIter d l (S n)))).
    { unfold step. rewrite H0, Hr. reflexivity. }
    destruct (Iter d l (S n) (w_r s (RIter d l (S n)))) as [acts [s' [A1 [A2 A3]]]]; eauto.
    exists ((0, AReturn) :: acts), s'. split; [constructor; simpl; auto|]. unfold R1; cbn [runs]; rewrite S1. auto.
  - assert (S1 : step canstop 0 ARunStep s =
      Some (w_r (w_c s (count s - Z.of_nat n)) (if d then RPop true else RTop))).
    { unfold step. rewrite H0. unfold runner. rewrite Hr. reflexivity. }
    apply (One _ S1). destruct d; [eapply (Pop true)|apply Top]; eauto.
  - assert (EZ := i_count (inv_reach R)). rewrite Hr in EZ.
    destruct (count s =? 0)%Z eqn:Ez.
    + eapply One; [unfold step; rewrite H0; unfold runner; rewrite Hr, Ez; reflexivity|].
      exists []. eexists. repeat split. constructor.
    + assert (S1 : step canstop 0 ARunStep s = Some (w_r s (RPop true))).
      { unfold step. rewrite H0. unfold runner. rewrite Hr, Ez. reflexivity. }
      apply (One _ S1). eapply (Pop true); eauto.
  - exists [], s. repeat split; auto. constructor.
Qed.

(** ** A concrete run: two producers, stop requested on operation 8, finish() from thread 2, run()
    executes 7 then 8 (stopped), then 9 which was started by 7's handler, and returns. *)
Definition demo : list (tid * action) :=
  [(1, AStart 7); (1, AStep); (2, AStart 8); (2, AStep); (1, AStep); (2, AStep);
   (1, AStep);                                         (* 7 enqueued *)
   (2, AStep); (2, AStep);                             (* CAS of 8 fails, then succeeds *)
   (1, AStep); (0, ARun); R1; R1; R1; R1;              (* executing 7 *)
   (0, AStart 9); (0, AStep); (0, AStep); (0, AStep); (0, AStep);
   (3, AStopReq 8); (0, AReturn); R1; (0, AReturn); R1; R1;
   (2, AFinish); (2, AStep); (2, AStep); (2, AStep); (2, AStep); (2, AStep);
   R1; R1; R1; (0, AReturn); R1; R1; R1; R1; R1].

Example demo_history : option_map (fun s => (rev (log s), run s)) (runs (fun _ => true) demo (init 3)) = Some
  ([EStart 1 7; ECount 7; EStart 2 8; ECount 8; EEnq 7; EEnq 8; ERun; EExec 7 SValue; EStart 0 9;
    ECount 9; EEnq 9; EStop 8; EExec 8 SStopped; EFinish 2; EFinished 2; EExec 9 SValue; ERet], RDone).
Proof. reflexivity. Qed.

(** a reachable quiet state from which C20_run_returns_after_finish applies *)
Example finish_demo : exists s, reachable (fun _ => true) s /\ quiet s /\ fin s = true /\ run s = RTop
  /\ queue s <> [].
Proof.
  apply (@runs_ex _ (firstn 32 demo) 3). vm_compute. split; [|repeat split; congruence].
  split; [|reflexivity]. intros [|[|[|[|t]]]] p H; inversion H; auto.
Qed.

(** a reachable blocked, idle state *)
Example blocked_demo : exists s, reachable (fun _ => true) s /\ run s = RSleep /\
  (forall t p, nth_error (thr s) t = Some p -> p = Idle) /\ fin s = false.
Proof.
  apply (@runs_ex _ [(0, ARun); R1; R1] 1). vm_compute. repeat split.
  intros [|[|t]] p H; inversion H; auto.
Qed.

Print Assumptions C19_fifo.
Print Assumptions C19_executed_at_most_once.
Print Assumptions C19_executed_only_if_started.
Print Assumptions C19_signal.
Print Assumptions C20_return_after_finish.
Print Assumptions C20_return_after_all_work.
Print Assumptions C20_finish_done_at_return.
Print Assumptions C44_access_after_return_refuted.
Print Assumptions C20_no_lost_wakeup.
Print Assumptions C20_blocked_only_when_idle.
Print Assumptions C20_run_returns_after_finish.
Print Assumptions C44_start_done_at_return_partial.
