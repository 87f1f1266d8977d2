(** C52: exec::io_uring_context (include/exec/linux/io_uring_context.hpp). The theorems, the concrete cases
    that meet their hypotheses, and the executions that refute the stronger statements. *)
From Coq Require Import List ZArith Bool Arith Lia.
From Verif Require Import Conc IoUringModel IoUringProofs IoUringProofs2 IoUringProofs3 IoUringProofs4 IoUringProofs5
  IoUringProofs6 IoUringProofs7.
Import ListNotations.
Set Implicit Arguments.
Open Scope Z_scope.

(** ** Specification *)
(** How often operation [i] completed. *)
Definition completions (i : nat) (l : list event) : nat :=
  length (filter (fun e => match e with EDone j _ _ => Nat.eqb i j | _ => false end) l).
(** start() of operation i was called and the operation handed to the context or refused. *)
Definition submitted s i := pc (ops s i) <> PNew /\ pc (ops s i) <> PPush.
(** run returned after closing the context, and no run was started since. *)
Definition closed s := rp s = RRet true \/ (rp s = RIdle /\ infl s = -1).
(** A thread that has put an operation (or a stop operation) in the request queue and is about to write to
    the event file descriptor. *)
Definition waking s := exists j, pc (ops s j) = PDec \/ pc (ops s j) = PWake \/
  exists b, getcb b (ops s j) = CbRun KDec \/ getcb b (ops s j) = CbRun KWake.
(** A stop callback of operation i is running and is about to queue its stop operation. *)
Definition stopping s i := exists b k, getcb b (ops s i) = CbRun k.
(** No two of: a second run; for one schedule_after operation, stop requests of both the context and the
    receiver. *)
Definition undisturbed g l s := (nruns s <= 1)%nat /\
  forall i, aft g i = true -> ~ (In AStop l /\ In (ARStop i) l).

Lemma completions_dn i l : completions i l = dn i l.
Proof.
  unfold completions, dn. induction l as [|e l IH]; [reflexivity|]. cbn [filter cnt].
  destruct e as [j r b| | | |]; auto. destruct (i =? j)%nat; cbn [length]; rewrite ?IH; auto.
Qed.
Lemma reach_of g l s : runs g l init = Some s -> reach g s. Proof. intros H; exists l; exact H. Qed.

(** what the flags mean in terms of the history *)
Lemma flags g : forall l s s', runs g l s = Some s' ->
  (ever s' = true <-> ever s = true \/ In AStop l) /\
  (forall i, rreq (ops s' i) = true <-> rreq (ops s i) = true \/ In (ARStop i) l) /\
  (forall i, exp (ops s' i) = true -> exp (ops s i) = true \/ In (AExpire i) l).
Proof.
  induction l as [|a l IH]; intros s s' H; [injection H as <-; repeat split; intros; simpl in *; tauto|].
  simpl in H. destruct (step g s a) as [s1|] eqn:E; [|discriminate]. specialize (IH _ _ H). clear H.
  assert (A : (ever s1 = true <-> ever s = true \/ a = AStop) /\
    (forall i, rreq (ops s1 i) = true <-> rreq (ops s i) = true \/ a = ARStop i) /\
    (forall i, exp (ops s1 i) = true -> exp (ops s i) = true \/ a = AExpire i)).
  { clear IH. assert (Q : a = a) by auto. cases E; pr; repeat split; intros; try (left; assumption); try tauto; try (intuition congruence);
      unfold fset in *; eqbs;
      repeat match goal with X : context[Nat.eqb ?a ?b] |- _ => destruct (Nat.eqb_spec a b); subst end; prall;
      try match goal with b : bool |- _ => is_var b; destruct b end; prall; pr;
      try (left; assumption); try (intuition congruence). }
  destruct A as [A1 [A2 A3]], IH as [B1 [B2 B3]]. split; [|split].
  - simpl. rewrite B1, A1. intuition.
  - intros i. simpl. rewrite B2, A2. intuition.
  - intros i X. simpl. destruct (B3 i X) as [Y|Y]; [destruct (A3 i Y)|]; auto.
Qed.
Lemma ever_hist g l s : runs g l init = Some s -> (ever s = true <-> In AStop l).
Proof. intros H. destruct (flags _ _ _ H) as [A _]. rewrite A. simpl. intuition discriminate. Qed.
Lemma rreq_hist g l s i : runs g l init = Some s -> (rreq (ops s i) = true <-> In (ARStop i) l).
Proof. intros H. destruct (flags _ _ _ H) as [_ [A _]]. rewrite A. simpl. intuition discriminate. Qed.
Lemma exp_hist g l s i : runs g l init = Some s -> exp (ops s i) = true -> In (AExpire i) l.
Proof. intros H X. destruct (flags _ _ _ H) as [_ [_ A]]. destruct (A i X) as [Y|Y]; auto. discriminate Y. Qed.

(** ** Theorems *)
(** Whatever the interleaving, an operation completes at most once. *)
Theorem iouring_at_most_once_partial g l s i : runs g l init = Some s -> (completions i (log s) <= 1)%nat.
Proof.
  intros H. rewrite completions_dn. apply reach_of in H. destruct (aft g i) eqn:A.
  - rewrite (v_4 (after_reach _ A H)). apply bz_le.
  - pose proof (life_reach H i) as L. rewrite A in L. rewrite (s_4 L). apply bz_le.
Qed.

(** Undisturbed, no operation is used after it completed and no node is in two lists. *)
Theorem iouring_no_use_after_completion_partial g l s :
  runs g l init = Some s -> undisturbed g l s -> ~ In EBad (log s).
Proof.
  intros H [U1 U2] B. assert (C : calm g s).
  { split; [exact U1|]. intros i A. specialize (U2 i A). rewrite <- (ever_hist _ _ H), <- (rreq_hist _ _ _ H) in U2.
    destruct (ever s), (rreq (ops s i)); auto. tauto. }
  pose proof (no_bad_reach (reach_of _ _ H) C) as N. unfold nbad in N.
  assert (0 < cnt (fun e => match e with EBad => true | _ => false end) (log s))%nat; [|lia].
  assert (P := proj2 (cnt_pos (fun e => match e with EBad => true | _ => false end) (log s)) (ex_intro _ EBad (conj B eq_refl))). lia.
Qed.

Lemma ds_in i b l : In (EDone i RStp b) l -> (0 < ds i l)%nat.
Proof.
  intros B. unfold ds. match goal with |- (0 < cnt ?f l)%nat =>
    assert (P := proj2 (cnt_pos f l) (ex_intro _ _ (conj B (Nat.eqb_refl i)))) end. lia.
Qed.
Lemma dv_in i b l : In (EDone i RVal b) l -> (0 < dv i l)%nat.
Proof.
  intros B. unfold dv. match goal with |- (0 < cnt ?f l)%nat =>
    assert (P := proj2 (cnt_pos f l) (ex_intro _ _ (conj B (Nat.eqb_refl i)))) end. lia.
Qed.
Lemma df_in i r l : In (EDone i r false) l -> (0 < df l)%nat.
Proof.
  intros B. unfold df. match goal with |- (0 < cnt ?f l)%nat =>
    assert (P := proj2 (cnt_pos f l) (ex_intro _ _ (conj B eq_refl))) end. lia.
Qed.

(** An operation completes stopped only if a stop of the context or of its receiver was requested. *)
Theorem iouring_stopped_only_if_requested g l s i b :
  runs g l init = Some s -> In (EDone i RStp b) (log s) -> In AStop l \/ In (ARStop i) l.
Proof.
  intros H B. destruct (why_reach (reach_of _ _ H)) as [_ [_ L]]. pose proof (l_s (L i) (ds_in _ _ _ B)) as X.
  rewrite <- (ever_hist _ _ H), <- (rreq_hist _ _ _ H). destruct (ever s), (rreq (ops s i)); auto. simpl in X. lia.
Qed.

(** A schedule_after operation completes with a value only after its time has passed. *)
Theorem iouring_value_only_after_deadline g l s i b :
  runs g l init = Some s -> aft g i = true -> In (EDone i RVal b) (log s) -> In (AExpire i) l.
Proof.
  intros H A B. destruct (why_reach (reach_of _ _ H)) as [_ [_ L]]. pose proof (l_v (L i) A (dv_in _ _ _ B)) as X.
  apply (exp_hist _ _ _ H). destruct (exp (ops s i)); auto. discriminate X.
Qed.

(** Unless a stop of the context was requested, operations complete on the thread that runs the context. *)
Theorem iouring_completes_on_runner_partial g l s i r b :
  runs g l init = Some s -> In (EDone i r b) (log s) -> ~ In AStop l -> b = true.
Proof.
  intros H B N. destruct b; auto. exfalso. apply N. destruct (why_reach (reach_of _ _ H)) as [_ [_ L]].
  pose proof (l_f (L i) (df_in _ _ _ B)) as X. apply (ever_hist _ _ H). destruct (ever s); auto. discriminate X.
Qed.

(** When run has closed the context, every schedule() operation submitted so far has completed once. *)
Theorem iouring_closed_completes_schedule g l s i :
  runs g l init = Some s -> closed s -> aft g i = false -> submitted s i -> completions i (log s) = 1%nat.
Proof.
  intros H C A [P1 P2]. rewrite completions_dn. apply reach_of in H. pose proof (life_reach H i) as L. rewrite A in L.
  pose proof (invD_reach i A H) as D. pose proof (invB_reach H) as B.
  assert (E : infl s = -1) by (destruct C as [C|[_ C]]; auto; apply (b_d B); rewrite C; reflexivity).
  assert (X : dpop (rp s) = false) by (destruct C as [C|[C _]]; rewrite C; reflexivity).
  assert (Y : r_lists (rp s) = []) by (destruct C as [C|[C _]]; rewrite C; reflexivity).
  specialize (D E X). destruct L as [_ _ L3 _ L4 _]. rewrite L4. unfold linked in L3. rewrite Y in L3.
  autorewrite with cc in L3. destruct (pc (ops s i)); try tauto; cbn [pn] in L3; lia.
Qed.

Lemma pushb_waking s : (exists j, 0 < pushb (ops s j))%nat -> waking s.
Proof.
  intros [j X]. exists j. unfold pushb in X.
  destruct (pc (ops s j)); cbn [pp] in X; auto;
    (destruct (ccb (ops s j)) as [| |[]|] eqn:E1; cbn [kp] in X;
      try (right; right; exists true; cbn [getcb]; rewrite E1; auto; fail);
     destruct (rcb (ops s j)) as [| |[]|] eqn:E2; cbn [kp] in X; try lia;
      right; right; exists false; cbn [getcb]; rewrite E2; auto).
Qed.

(** While the context is not stopped, if the rings have room for all operations and their cancellations
    (and the wake-up), then whenever the runner is blocked in the kernel and a submitted operation has not
    completed, something other than the runner will make progress: the kernel holds the operation or its
    cancellation, or there are completions to read, or a client is about to wake the context or to queue the
    stop operation, or the kernel is about to complete the wake-up. *)
Theorem iouring_no_lost_operation_partial g m l s i :
  runs g l init = Some s -> ~ In AStop l -> (nruns s <= 1)%nat ->
  (forall j, (m <= j)%nat -> pc (ops s j) = PNew) -> (2 * m < sqn g)%nat -> (2 * m < cqn g)%nat ->
  rp s = RWait -> submitted s i -> completions i (log s) = 0%nat ->
  In (TOp i) (kern s) \/ In (TStop i) (kern s) \/ cq s <> [] \/ waking s \/ stopping s i \/
  (In TWake (kern s) /\ (0 < evfd s)%nat).
Proof.
  intros H N R1 F S1 S2 W [P1 P2] D. rewrite completions_dn in D.
  assert (Ev : ever s = false) by (rewrite <- (ever_hist _ _ H) in N; destruct (ever s); auto; tauto).
  apply reach_of in H. destruct (wake_reach m H) as [E [_ [X Y]]].
  assert (FF : few m s) by (split; [|split]; assumption).
  unfold invY in Y. rewrite W in Y. destruct (Y FF S1 S2 eq_refl) as [Y1 _]. clear Y.
  unfold invE in E. rewrite W in E. specialize (E eq_refl).
  pose proof (x_2 X Ev) as X2. pose proof (x_3 X W) as X3. pose proof (x_1 X) as X1.
  assert (X5 : (0 < nruns s)%nat) by (destruct (x_5 X) as [Z|Z]; auto; congruence).
  specialize (X2 X5). unfold linked, ring in X2. rewrite Y1, X3, W in X2. rewrite W in X1. cbn [r_lists rdyl] in *. autorewrite with cc in *.
  assert (Q : req s <> [] -> cq s <> [] \/ waking s \/ (In TWake (kern s) /\ (0 < evfd s)%nat)).
  { intros RQ. destruct (cq s) eqn:CQ; [|left; discriminate]. right. cbn [map] in *. rewrite c_nil in *.
    destruct (E RQ) as [Z|[Z|Z]]; [|left; apply pushb_waking; exact Z|lia].
    right. split; [apply c_in; lia|exact Z]. }
  destruct (aft g i) eqn:A.
  - pose proof (count_reach i A H Ev) as [C1 C2 C3]. pose proof (v_4 (after_reach _ A H)) as V4. rewrite D in V4.
    destruct (why_reach H) as [_ [M _]]. pose proof (m_f (M i)) as MF. rewrite Ev in MF. cbn [bz] in MF.
    unfold K, T, Lp, IoUringProofs4.F, linked, ring in C2. rewrite Y1, X3, W in C2. cbn [r_lists cur finl] in C2. autorewrite with cc in C2.
    assert (pz (pc (ops s i)) = 0%nat) by (destruct (pc (ops s i)); try tauto; reflexivity).
    destruct (le_lt_dec 1 (c (TOp i) (kern s))) as [Z|Z]; [left; apply c_in; lia|].
    destruct (le_lt_dec 1 (c (TStop i) (kern s))) as [Z'|Z']; [right; left; apply c_in; lia|]. right; right.
    destruct (le_lt_dec 1 (ksp (ccb (ops s i)))) as [U|U].
    { right; right; left. exists true. destruct (ccb (ops s i)) as [| |k|] eqn:Q1; cbn [ksp] in U; try lia. exists k. exact Q1. }
    destruct (le_lt_dec 1 (ksp (rcb (ops s i)))) as [U'|U'].
    { right; right; left. exists false. destruct (rcb (ops s i)) as [| |k|] eqn:Q1; cbn [ksp] in U'; try lia. exists k. exact Q1. }
    destruct (cq s) eqn:CQ; [|left; discriminate]. cbn [map] in C2. rewrite !c_nil in C2.
    assert (RQ : req s <> []) by (intros RQ; rewrite RQ in C2; rewrite !c_nil in C2; lia).
    destruct (Q RQ) as [Z1|[Z1|Z1]]; auto 10.
  - pose proof (life_reach H i) as L. rewrite A in L. destruct L as [_ _ L3 _ L4 _]. rewrite D in L4.
    unfold linked in L3. rewrite Y1, W in L3. cbn [r_lists] in L3. autorewrite with cc in L3.
    assert (pn (pc (ops s i)) = 0%nat) by (destruct (pc (ops s i)); try tauto; reflexivity).
    assert (RQ : req s <> []) by (intros RQ; rewrite RQ in L3; rewrite !c_nil in L3; lia).
    destruct (Q RQ) as [Z1|[Z1|Z1]]; auto 10.
Qed.

(** A schedule_after operation refused by a closed context never completes. *)
Theorem iouring_refused_schedule_after_never_completes g l s i :
  runs g l init = Some s -> aft g i = true -> pc (ops s i) = PRef ->
  forall l' s', runs g l' s = Some s' -> completions i (log s') = 0%nat.
Proof.
  intros H A P l'. revert l s H P. induction l' as [|a l' IH]; intros l s H P s' H'.
  - injection H' as <-. rewrite completions_dn. apply reach_of in H. destruct (after_reach _ A H) as [V1 _ _ V4 _ _ _].
    unfold Lp, IoUringProofs4.F in V1. rewrite P in V1. cbn [pz] in V1. lia.
  - simpl in H'. destruct (step g s a) as [s1|] eqn:E; [|discriminate].
    apply (IH (l ++ [a]) s1); auto.
    + rewrite runs_app, H. simpl. rewrite E. reflexivity.
    + clear - P E. cases E; pr; auto; unfold fset; eqbs; auto; try congruence; destruct c; exact P.
Qed.

(** ** Concrete cases *)
Definition start i := repeat (AStart i) 4.
Definition R k := repeat AR k.
Definition gA := mkcfg (fun _ => true) 8 16.
Definition gS := mkcfg (fun _ => false) 8 16.
Definition gM := mkcfg (fun i => Nat.eqb i 1) 8 16.

(** A schedule() and a schedule_after() operation both complete on the running thread; the hypotheses of the
    theorems above are met. *)
Example iouring_example_normal :
  option_map (fun s => (log s, rp s))
    (runs gM (ARun false :: R 9 ++ start 0 ++ start 1 ++ AKDone TWake false :: R 24 ++ AExpire 1 :: AKDone (TOp 1) false :: R 15) init)
  = Some ([EDone 1 RVal true; EDone 0 RVal true], RWait).
Proof. vm_compute. reflexivity. Qed.
(** The runner blocked with an operation submitted: the client is about to wake it. *)
Example iouring_example_waiting :
  option_map (fun s => (rp s, req s, kern s, evfd s, completions 0 (log s)))
    (runs gS (ARun false :: R 9 ++ start 0) init)
  = Some (RWait, [TOp 0], [TWake], 1%nat, 0%nat).
Proof. vm_compute. reflexivity. Qed.
(** A receiver's stop request cancels the timer. *)
Example iouring_example_cancel :
  option_map (fun s => (log s, rp s))
    (runs gA (start 0 ++ ARun false :: R 13 ++ ARStop 0 :: repeat (ACb false 0) 6 ++ AKDone TWake false :: R 14 ++
       AKSee 0 :: AKDone (TOp 0) true :: AKDone (TStop 0) false :: R 16) init)
  = Some ([EDone 0 RStp true], RWait).
Proof. vm_compute. reflexivity. Qed.
(** The context is stopped with a schedule() operation queued; a later one is refused. *)
Example iouring_example_closed :
  option_map (fun s => (log s, rp s, infl s))
    (runs gS (ARun false :: R 9 ++ start 0 ++ AStop :: AWake :: AKDone TWake false :: R 26 ++ [AStart 1]) init)
  = Some ([EDone 1 RStp false; ERet true; EDone 0 RStp true], RIdle, -1).
Proof. vm_compute. reflexivity. Qed.

(** ** Refuted statements *)

(** "The sender returned by run() completes once": it completes with an error and then again. *)
Theorem iouring_run_sender_completes_once_refuted :
  ~ (forall throws stopped, length (run_op_start throws stopped) = 1%nat).
Proof. intros H. specialize (H true false). discriminate H. Qed.

(** "An operation completes on the running thread": after the context closed, a stop callback that had
    already counted itself completes the operation on the thread that requested the stop. *)
Theorem iouring_completes_on_runner_refuted :
  ~ (forall g l s i r b, runs g l init = Some s -> aft g i = true -> In (EDone i r b) (log s) -> b = true).
Proof.
  intros H.
  assert (X := H gA (start 0 ++ ARun false :: R 13 ++ ARStop 0 :: ACb false 0 :: ACb false 0 :: AExpire 0 ::
    AKDone (TOp 0) false :: R 12 ++ AStop :: AWake :: AKDone TWake false :: R 13 ++ [ACb false 0; ACb false 0])).
  destruct (runs _ _ init) as [s|] eqn:E in X; vm_compute in E; [injection E as <-|discriminate].
  specialize (X _ 0%nat RStp false eq_refl eq_refl (or_introl eq_refl)). discriminate X.
Qed.

(** "When run has closed the context, every schedule_after operation has completed": run_until_empty() counts
    the wake-up operation, and if the wake-up is gone because of the stop request it takes the last timer
    for it; the timer stays in the kernel (a STDEXEC_ASSERT fails). *)
Theorem iouring_closed_completes_schedule_after_refuted :
  ~ (forall g l s i, runs g l init = Some s -> closed s -> aft g i = true -> submitted s i ->
       completions i (log s) = 1%nat).
Proof.
  intros H.
  assert (X := H gA (start 0 ++ ARun true :: R 13 ++ AWake :: AKDone TWake false :: AStop :: R 19)).
  destruct (runs _ _ init) as [s|] eqn:E in X; vm_compute in E; [injection E as <-|discriminate].
  specialize (X _ 0%nat eq_refl (or_intror (conj eq_refl eq_refl)) eq_refl ltac:(split; discriminate)). vm_compute in X. discriminate X.
Qed.

(** The same with run_until_stopped(): an operation submitted between the stop request and the close is
    taken by the final drain, whose submissions are never entered into the kernel. *)
Theorem iouring_closed_completes_schedule_after_drain_refuted :
  ~ (forall g l s i, runs g l init = Some s -> ~ In (ARun true) l -> closed s -> aft g i = true -> submitted s i ->
       completions i (log s) = 1%nat).
Proof.
  intros H.
  assert (X := H gA (ARun false :: R 9 ++ AStop :: AWake :: start 0 ++ AKDone TWake false :: R 24)).
  destruct (runs _ _ init) as [s|] eqn:E in X; vm_compute in E; [injection E as <-|discriminate].
  specialize (X _ 0%nat eq_refl ltac:(intros B; repeat (destruct B as [B|B]; [discriminate B|]); exact B)
    (or_intror (conj eq_refl eq_refl)) eq_refl ltac:(split; discriminate)). vm_compute in X. discriminate X.
Qed.

(** "Every started operation eventually completes, at the latest when refused": a refused schedule_after
    operation never does (the hypotheses of the theorem above are met). *)
Theorem iouring_refused_completes_refuted :
  ~ (forall g l s i, runs g l init = Some s -> pc (ops s i) = PRef ->
       exists l' s', runs g l' s = Some s' /\ completions i (log s') = 1%nat).
Proof.
  intros H.
  assert (X := H gA (ARun false :: R 9 ++ AStop :: AWake :: AKDone TWake false :: R 13 ++ [AStart 0])).
  remember (ARun false :: R 9 ++ AStop :: AWake :: AKDone TWake false :: R 13 ++ [AStart 0]) as l eqn:El.
  destruct (runs gA l init) as [s|] eqn:E; [|subst l; vm_compute in E; discriminate E].
  assert (P : pc (ops s 0) = PRef) by (rewrite El in E; vm_compute in E; injection E as <-; reflexivity).
  destruct (X s 0%nat eq_refl P) as [l' [s' [H' C]]].
  rewrite (@iouring_refused_schedule_after_never_completes gA l s 0%nat E eq_refl P l' s' H') in C. discriminate C.
Qed.

(** "No node is linked twice": with the context and a receiver both stopped the stop operation is pushed
    while it is in the request queue. *)
Theorem iouring_no_double_link_refuted :
  ~ (forall g l s, runs g l init = Some s -> (nruns s <= 1)%nat -> ~ In EBad (log s)).
Proof.
  intros H.
  assert (X := H gA (start 0 ++ ARun false :: R 13 ++ ARStop 0 :: repeat (ACb false 0) 4 ++ AExpire 0 :: AKDone (TOp 0) false ::
     R 2 ++ AStop :: repeat (ACb true 0) 4)).
  destruct (runs _ _ init) as [s|] eqn:E in X; vm_compute in E; [injection E as <-|discriminate].
  apply (X _ eq_refl (le_n _)). left. reflexivity.
Qed.

(** The same when the context is run twice without being stopped: the wake-up operation is started twice. *)
Theorem iouring_second_run_refuted :
  ~ (forall g l s, runs g l init = Some s -> ~ In AStop l -> ~ In EBad (log s)).
Proof.
  intros H.
  assert (X := H gS (ARun true :: R 11 ++ ARun true :: R 9 ++ AWake :: AKDone TWake false :: AWake :: AKDone TWake false :: R 15)).
  destruct (runs _ _ init) as [s|] eqn:E in X; vm_compute in E; [injection E as <-|discriminate].
  apply (X _ eq_refl ltac:(intros B; repeat (destruct B as [B|B]; [discriminate B|]); exact B)).
  vm_compute. auto 20.
Qed.

(** "run_until_empty() returns once nothing is left to do": the second call blocks with only the two
    wake-ups in the kernel. *)
Theorem iouring_second_run_until_empty_returns_refuted :
  ~ (forall g l s, runs g l init = Some s -> brk s = true -> rp s = RWait -> req s = [] -> pend s = [] -> cq s = [] ->
       exists i, In (TOp i) (kern s) \/ In (TStop i) (kern s)).
Proof.
  intros H.
  assert (X := H gS (ARun true :: R 11 ++ ARun true :: R 9)).
  destruct (runs _ _ init) as [s|] eqn:E in X; vm_compute in E; [injection E as <-|discriminate].
  destruct (X _ eq_refl eq_refl eq_refl eq_refl eq_refl eq_refl) as [i [B|B]];
    simpl in B; repeat (destruct B as [B|B]; [discriminate B|]); exact B.
Qed.

(** "run_until_empty() returns only when every operation submitted before has completed": a timer whose
    receiver's stop callback is running. *)
Theorem iouring_run_until_empty_drains_refuted :
  ~ (forall g l s i, runs g (l ++ [AR]) init = Some s -> In (ERet false) (log s) -> In (ARun true) l -> submitted s i ->
       completions i (log s) = 1%nat).
Proof.
  intros H.
  assert (X := H gA (start 0 ++ ARun true :: R 13 ++ ARStop 0 :: ACb false 0 :: ACb false 0 :: AExpire 0 :: AKDone (TOp 0) false :: R 13)).
  destruct (runs _ _ init) as [s|] eqn:E in X; vm_compute in E; [injection E as <-|discriminate].
  specialize (X _ 0%nat eq_refl (or_introl eq_refl) ltac:(simpl; tauto) ltac:(split; discriminate)). vm_compute in X. discriminate X.
Qed.

(** "A stop request wakes the runner": the wake-up completed before the stop flag was set and is not
    restarted, so the cancellation of the timer is not seen until the timer expires. *)
Theorem iouring_stop_wakes_runner_refuted :
  ~ (forall g l s, runs g l init = Some s -> (nruns s <= 1)%nat -> rp s = RWait -> req s <> [] ->
       cq s <> [] \/ waking s \/ (In TWake (kern s) /\ (0 < evfd s)%nat)).
Proof.
  intros H.
  assert (X := H gA (ARun false :: R 9 ++ start 0 ++ AKDone TWake false :: R 17 ++ AWake :: AKDone TWake false :: AStop :: R 12 ++
     repeat (ACb true 0) 6)).
  destruct (runs _ _ init) as [s|] eqn:E in X; vm_compute in E; [injection E as <-|discriminate].
  destruct (X _ eq_refl (le_n _) eq_refl ltac:(discriminate)) as [B|[B|[B _]]].
  - apply B. reflexivity.
  - destruct B as [[|j] [B|[B|[[] [B|B]]]]]; discriminate B.
  - simpl in B. repeat (destruct B as [B|B]; [discriminate B|]); exact B.
Qed.

(** "A submitted operation is not forgotten", without enough room in the submission ring: the wake-up takes
    the only entry each time. *)
Theorem iouring_no_lost_operation_small_ring_refuted :
  ~ (forall g l s i, runs g l init = Some s -> ~ In AStop l -> (nruns s <= 1)%nat -> (0 < sqn g)%nat -> (4 < cqn g)%nat ->
       rp s = RWait -> submitted s i -> completions i (log s) = 0%nat ->
       In (TOp i) (kern s) \/ In (TStop i) (kern s) \/ cq s <> [] \/ waking s \/ stopping s i \/
       (In TWake (kern s) /\ (0 < evfd s)%nat)).
Proof.
  intros H.
  assert (X := H (mkcfg (fun _ => true) 1 16) (start 0 ++ ARun false :: R 10 ++ AKDone TWake false :: R 14)).
  destruct (runs _ _ init) as [s|] eqn:E in X; vm_compute in E; [injection E as <-|discriminate].
  destruct (X _ 0%nat eq_refl ltac:(intros B; repeat (destruct B as [B|B]; [discriminate B|]); exact B) (le_n _)
    ltac:(simpl; lia) ltac:(simpl; lia) eq_refl ltac:(split; discriminate) eq_refl) as [B|[B|[B|[B|[B|[_ B]]]]]].
  - simpl in B. repeat (destruct B as [B|B]; [discriminate B|]); exact B.
  - simpl in B. repeat (destruct B as [B|B]; [discriminate B|]); exact B.
  - apply B. reflexivity.
  - destruct B as [[|j] [B|[B|[[] [B|B]]]]]; discriminate B.
  - destruct B as [[] [k B]]; discriminate B.
  - simpl in B. lia.
Qed.
