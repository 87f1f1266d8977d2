(** * C40: sync_wait returns the sender's result, after it has completed *)

From Coq Require Import List Arith Bool ZArith Lia.
From Verif Require Import Conc RunLoopModel RunLoopProofs RunLoopProperties SyncWaitModel.
Import ListNotations.
Set Implicit Arguments.
#[local] Arguments Z.add : simpl never.
#[local] Arguments Z.sub : simpl never.
#[local] Arguments Z.of_nat : simpl never.

(** ** Specification: the table of L243-249 *)
Definition expected (c : completion) : option result :=
  match c with
  | CValue vs None => Some (Returns (Some vs))
  | CValue vs (Some x) => Some (Throws x)           (* the values could not be stored *)
  | CError (ErrPtr (Some x)) => Some (Throws x)     (* rethrown as is *)
  | CError (ErrPtr None) => None                    (* not allowed, L133 *)
  | CError (ErrCode k) => Some (Throws (XSystem k)) (* std::system_error *)
  | CError (ErrDatum e) => Some (Throws (XDatum e))
  | CStopped => Some (Returns None)
  end.

(** ** Invariant *)
Definition wfin (p : pc) : Z := match p with FiAdd | FiXchg => 1%Z | _ => 0%Z end.
Record inv (canstop : op -> bool) (s : state) : Prop := {
  v_loop : RunLoopModel.reachable canstop (loop s);
  v_fin : forall t, In (EFinish t) (log (loop s)) -> completed s = true;
  v_ret : run (loop s) = RDone -> In ERet (log (loop s));
  v_one : (sumz wfin (thr (loop s)) + (if fin (loop s) then 1 else 0) = if completed s then 1 else 0)%Z;
  v_log : (slog s = [] /\ eptr s = None /\ values s = None) \/
          (exists t c, slog s = [SComplete t c] /\ (eptr s, values s) = (eptr (store c (init 0)), values (store c (init 0)))) \/
          (exists t c, slog s = [SResult (get (store c (init 0))); SComplete t c]) }.

Lemma loop_step canstop t a l l' : RunLoopModel.step canstop t a l = Some l' ->
  (run l = RDone -> In ERet (log l)) ->
  (sumz wfin (thr l) + (if fin l then 1 else 0) <= 1)%Z ->
  (run l' = RDone -> In ERet (log l')) /\
  (a <> AFinish -> forall u, In (EFinish u) (log l') -> In (EFinish u) (log l)) /\
  (sumz wfin (thr l') + (if fin l' then 1 else 0) = sumz wfin (thr l) + (if fin l then 1 else 0) + match a with AFinish => 1 | _ => 0 end)%Z.
Proof.
  intros H V W.
  assert (G : forall u p, nth_error (thr l) u = Some p -> (wfin p <= sumz wfin (thr l))%Z).
  { intros u p Hu. eapply sumz_ge; [|exact Hu]. intros []; simpl; lia. }
  split; [|split].
  - go H; intros; auto; try discriminate; try congruence; try (right; auto; fail); left; auto.
  - intros N u. go H; intros; try congruence; intuition (try discriminate).
  - go H; try lia; match goal with E : nth_error (thr l) _ = Some FiXchg |- _ => pose proof (G _ _ E) as G'; simpl in G'; lia end.
Qed.

Lemma inv_reach canstop s : reachable canstop s -> inv canstop s.
Proof.
  induction 1 as [n|s x s' R I H].
  - constructor; simpl.
    + constructor.
    + tauto.
    + discriminate.
    + rewrite sumz_repeat; auto.
    + auto.
  - destruct I. assert (V1 : (sumz wfin (thr (loop s)) + (if fin (loop s) then 1 else 0) <= 1)%Z) by (rewrite v_one0; destruct (completed s); lia).
    destruct x as [t a|t c| |]; cbn [SyncWaitModel.step] in H.
    + destruct (foreign a) eqn:F; [|discriminate]. destruct (RunLoopModel.step canstop t a (loop s)) as [l|] eqn:E; [|discriminate].
      injection H as <-. destruct (@loop_step _ _ _ _ _ E v_ret0 V1) as (A & B & C).
      assert (N : a <> AFinish) by (intros ->; discriminate).
      constructor; simpl; auto.
      * econstructor; eauto.
      * intros u Hu. eapply v_fin0. eauto.
      * destruct a; try discriminate; unfold completed in *; simpl; lia.
    + destruct (completed s) eqn:Cp; [discriminate|]. destruct (RunLoopModel.step canstop t AFinish (loop s)) as [l|] eqn:E; [|discriminate].
      injection H as <-. destruct (@loop_step _ _ _ _ _ E v_ret0 V1) as (A & B & C).
      assert (Sl : slog s = [] /\ eptr s = None /\ values s = None).
      { unfold completed in Cp. destruct v_log0 as [V|[(u & d & V & _)|(u & d & V)]]; auto; rewrite V in Cp; discriminate. }
      destruct Sl as (S1 & S2 & S3).
      constructor; simpl; auto.
      * econstructor; eauto.
      * lia.
      * right. left. exists t, c. rewrite S1. split; auto. destruct c as [vs [x|]|[[x|]|k|e]|]; simpl; rewrite ?S2, ?S3; auto.
    + destruct (RunLoopModel.step canstop 0 ARun (loop s)) as [l|] eqn:E; [|discriminate]. injection H as <-.
      destruct (@loop_step _ _ _ _ _ E v_ret0 V1) as (A & B & C).
      constructor; simpl; auto.
      * econstructor; eauto.
      * intros u Hu. eapply v_fin0. apply B; [discriminate|exact Hu].
      * unfold completed in *; simpl; lia.
    + destruct (run (loop s)) eqn:Er; try discriminate. destruct (returned s) eqn:Rt; [discriminate|]. injection H as <-.
      constructor; simpl; auto. right. right.
      destruct v_log0 as [(V & _)|[(u & d & V & W)|(u & d & V)]].
      * exfalso. destruct (in_split _ _ (v_ret0 eq_refl)) as (l2 & l1 & E). destruct (@C20_return_after_finish _ _ _ _ v_loop0 E) as (t & Ht).
        assert (X : completed s = true) by (eapply v_fin0; rewrite E; apply in_app_iff; right; right; eauto).
        unfold completed in X. rewrite V in X. discriminate.
      * exists u, d. rewrite V. injection W as W1 W2. unfold get. rewrite W1, W2. auto.
      * unfold returned in Rt. rewrite V in Rt. discriminate.
Qed.

(** ** C40 *)
(** What sync_wait returns or throws is what the table says for the one completion of the operation,
    which came before. *)
Theorem C40_result canstop s r : reachable canstop s -> In (SResult r) (slog s) ->
  exists t c, slog s = [SResult r; SComplete t c] /\ (expected c = Some r \/ expected c = None).
Proof.
  intros R H. destruct (v_log (inv_reach R)) as [(V & _)|[(u & d & V & _)|(u & d & V)]]; rewrite V in *; simpl in H.
  - tauto.
  - destruct H as [H|[]]; discriminate.
  - destruct H as [H|[H|[]]]; [|discriminate]. injection H as <-. exists u, d. split; auto.
    destruct d as [vs [x|]|[[x|]|k|e]|]; simpl; auto.
Qed.
(** run() does not return before the operation has completed. *)
Theorem C40_blocks_until_completion canstop s : reachable canstop s -> run (loop s) = RDone -> exists t c, In (SComplete t c) (slog s).
Proof.
  intros R H. destruct (inv_reach R). destruct (in_split _ _ (v_ret0 H)) as (l2 & l1 & E).
  destruct (@C20_return_after_finish _ _ _ _ v_loop0 E) as (t & Ht).
  assert (X : completed s = true) by (eapply v_fin0; rewrite E; apply in_app_iff; right; right; eauto).
  unfold completed in X. apply existsb_exists in X. destruct X as ([u c|] & X & Y); [eauto|discriminate].
Qed.
(** When run() returns, so that the state and the operation are about to be destroyed, the thread that completed the
    operation has no access to them left: it has executed all of finish(). *)
Theorem C40_completer_done_at_return canstop s x s' u p : reachable canstop s -> step canstop x s = Some s' ->
  run (loop s) <> RDone -> run (loop s') = RDone -> nth_error (thr (loop s')) u = Some p ->
  p = Idle \/ (exists o, p = StAdd o) \/ (exists o, p = PuNotify (TOp o)).
Proof.
  intros R H N D Hu. pose proof (inv_reach (r_step _ R H)) as J. pose proof (inv_reach R) as I.
  assert (X : exists t a, RunLoopModel.step canstop t a (loop s) = Some (loop s')).
  { destruct x as [t a|t c| |]; cbn [SyncWaitModel.step] in H.
    - destruct (foreign a); [|discriminate]. destruct (RunLoopModel.step canstop t a (loop s)) eqn:E; [|discriminate]. injection H as <-. eauto.
    - destruct (completed s); [discriminate|]. destruct (RunLoopModel.step canstop t AFinish (loop s)) eqn:E; [|discriminate]. injection H as <-. eauto.
    - destruct (RunLoopModel.step canstop 0 ARun (loop s)) eqn:E; [|discriminate]. injection H as <-. eauto.
    - destruct (run (loop s)) eqn:E; try discriminate. congruence. }
  destruct X as (t & a & E).
  destruct (@C20_finish_done_at_return _ _ _ _ _ _ _ (v_loop I) E N D Hu) as [K|[K|[K|K]]]; auto.
  exfalso. subst p. pose proof (v_one J) as V.
  assert (F : fin (loop s') = true).
  { apply (i_drain (RunLoopProofs.inv_reach (v_loop J))). rewrite D. exact Logic.I. }
  rewrite F in V. assert (G : (1 <= sumz wfin (thr (loop s')))%Z).
  { change 1%Z with (wfin FiAdd). eapply sumz_ge; [|exact Hu]. intros []; simpl; lia. }
  destruct (completed s'); lia.
Qed.

(** Once the operation has completed and the other threads have left the loop, sync_wait returns by
    its own steps. *)
Fixpoint xruns (canstop : op -> bool) (l : list action) (s : state) : option state :=
  match l with [] => Some s | x :: l => match step canstop x s with Some s' => xruns canstop l s' | None => None end end.
Definition caller (x : action) : Prop := x = XGet \/ exists t, x = XLoop t ARunStep \/ x = XLoop t AReturn.
Lemma lift_runs canstop l : forall s lp, own l -> runs canstop l (loop s) = Some lp ->
  exists xs, Forall caller xs /\ xruns canstop xs s = Some (s_loop s lp).
Proof.
  induction l as [|[t a] l IH]; simpl; intros s lp O H.
  - injection H as <-. exists []. split; auto. simpl. destruct s; auto.
  - inversion_clear O as [|? ? O1 O2]. simpl in O1. destruct (RunLoopModel.step canstop t a (loop s)) as [l1|] eqn:E; [|discriminate].
    destruct (IH (s_loop s l1) lp O2 H) as (xs & F & X). exists (XLoop t a :: xs). split.
    + constructor; auto. right. exists t. destruct O1; subst; auto.
    + simpl. assert (Fa : foreign a = true) by (destruct O1; subst; auto). rewrite Fa, E. rewrite X. reflexivity.
Qed.
Theorem C40_returns canstop s : reachable canstop s -> completed s = true -> returned s = false -> quiet (loop s) -> run (loop s) <> RNone ->
  exists xs s' r, Forall caller xs /\ xruns canstop xs s = Some s' /\ In (SResult r) (slog s').
Proof.
  intros R C Rt Q N. pose proof (inv_reach R) as I.
  assert (F : fin (loop s) = true).
  { pose proof (v_one I) as V. rewrite C in V. rewrite sumz_zero in V; [destruct (fin (loop s)); auto; lia|].
    intros p Hp. apply In_nth_error in Hp. destruct Hp as (u & Hp). rewrite (proj1 Q _ _ Hp). auto. }
  assert (Ns : run (loop s) <> RSleep).
  { intros E. destruct (C20_blocked_only_when_idle (v_loop I) E (proj1 Q)). congruence. }
  destruct (C20_run_returns_after_finish (v_loop I) Q F N Ns) as (acts & lp & O & E & D).
  destruct (@lift_runs _ _ _ _ O E) as (xs & Fx & X).
  exists (xs ++ [XGet]). eexists. exists (get s).
  assert (A : forall l1 l2 s1 s2, xruns canstop l1 s1 = Some s2 -> xruns canstop (l1 ++ l2) s1 = xruns canstop l2 s2).
  { induction l1 as [|y l1 IH]; simpl; intros l2 s1 s2 H; [injection H as <-; auto|].
    destruct (step canstop y s1); [apply IH; auto|discriminate]. }
  split; [apply Forall_app; split; auto; constructor; auto; left; auto|].
  rewrite (A _ _ _ _ X). cbn [xruns SyncWaitModel.step s_loop loop run]. rewrite D. replace (returned (s_loop s lp)) with false by (symmetry; exact Rt).
  split; [reflexivity|]. left. reflexivity.
Qed.

(** ** Examples *)
(** the operation schedules itself on the loop (thread 1) and completes there with values [4; 2] *)
Definition R0 := XLoop 0 ARunStep.
Definition fin6 := repeat (XLoop 0 AStep) 6.
Definition demo : list action :=
  [XRun; R0; R0; XLoop 1 (AStart 5); XLoop 1 AStep; XLoop 1 AStep; XLoop 1 AStep; XLoop 1 AStep; R0; R0; R0;
   XComplete 0 (CValue [4; 2] None)] ++ fin6 ++ [XLoop 0 AReturn; R0; R0; R0; R0; R0; R0; R0; R0; R0; XGet].
Example C40_example : option_map slog (xruns (fun _ => true) demo (init 2)) =
  Some [SResult (Returns (Some [4; 2])); SComplete 0 (CValue [4; 2] None)].
Proof. vm_compute. reflexivity. Qed.
(** inline completion with an error_code, before run() *)
Example C40_example_error : option_map slog (xruns (fun _ => true)
    ([XComplete 0 (CError (ErrCode 7))] ++ fin6 ++ [XRun; R0; R0; R0; R0; R0; R0; R0; XGet]) (init 1)) =
  Some [SResult (Throws (XSystem 7)); SComplete 0 (CError (ErrCode 7))].
Proof. vm_compute. reflexivity. Qed.
(** sync_wait may return, and destroy the loop, while another thread is still inside start() of an
    operation it has scheduled on the loop, about to call notify_one() on the loop's queue *)
Theorem C40_loop_used_after_return_refuted : exists s t o r, reachable (fun _ => true) s /\ In (SResult r) (slog s) /\
  nth_error (thr (loop s)) t = Some (PuNotify (TOp o)).
Proof.
  assert (G : forall xs s s', reachable (fun _ => true) s -> xruns (fun _ => true) xs s = Some s' -> reachable (fun _ => true) s').
  { induction xs as [|c cs IH]; simpl; intros s s' R E; [injection E as <-; auto|].
    destruct (step (fun _ => true) c s) eqn:Ec; [|discriminate]. eapply IH; [eapply r_step; eauto|auto]. }
  destruct (xruns (fun _ => true) ([XRun; R0; R0; XLoop 1 (AStart 5); XLoop 1 AStep; XLoop 1 AStep; XLoop 1 AStep; XLoop 0 AWake; R0; R0; R0;
   XComplete 0 CStopped] ++ fin6 ++ [XLoop 0 AReturn; R0; R0; R0; R0; R0; R0; R0; R0; R0; XGet]) (init 2)) as [s|] eqn:E; [|vm_compute in E; discriminate].
  exists s, 1, 5, (Returns None). split; [eapply G; [constructor|exact E]|]. vm_compute in E. injection E as <-. simpl. auto.
Qed.

Print Assumptions C40_result.
Print Assumptions C40_completer_done_at_return.
Print Assumptions C40_returns.
