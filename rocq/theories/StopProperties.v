(** * StopProperties: C15-C18, stated over the histories of StopModel.

    A history [log s] lists the observable events newest first; [reachable s] means s is produced
    by some interleaving of any number of threads. *)

From Coq Require Import List Arith Bool Lia.
From Verif Require Import StopModel StopProofs StopSteps StopLog StopFacts.
Import ListNotations.
Set Implicit Arguments.

(** ** C15 *)

(** at most one call of request_stop returns true, over all threads *)
Theorem C15_request_stop_wins_once : forall s, reachable s ->
  count is_win (log s) <= 1.
Proof. exact win_once. Qed.

(** a call that has returned (true or false) leaves stop requested *)
Theorem C15_return_implies_stop_requested : forall s t b, reachable s ->
  In (EvRet t b) (log s) -> stopb s = true.
Proof. exact ret_stopped. Qed.

Theorem C15_stop_requested_stable : forall s t a s', reachable s ->
  step t a s = Some s' -> stopb s = true -> stopb s' = true.
Proof. exact stopb_mono. Qed.

(** ** C16 *)

Theorem C16_invoked_at_most_once : forall s c, reachable s ->
  count (is_invoke c) (log s) <= 1.
Proof. exact invoke_once. Qed.

Theorem C16_invoked_only_after_stop : forall s t c b, reachable s ->
  In (EvInvoke t c b) (log s) -> stopb s = true.
Proof. exact invoke_stopped. Qed.

(** constructed while stop was requested: the constructor itself runs the function *)
Theorem C16_inline_if_already_stopped : forall s t t' c, reachable s ->
  In (EvRegStart t c true) (log s) -> In (EvRegDone t' c) (log s) ->
  exists t0, In (EvInvoke t0 c true) (log s) /\ In (EvInvokeEnd t0 c) (log s).
Proof. exact inline_when_stopped. Qed.

Theorem C16_not_both_inline_and_notified : forall s c t1 t2, reachable s ->
  In (EvInvoke t1 c true) (log s) -> In (EvInvoke t2 c false) (log s) -> False.
Proof. exact inline_not_later. Qed.

(** the winning request_stop returns only when every callback that was constructed and whose
    destruction has not begun has been run to completion *)
Theorem C16_all_run_before_return : forall s t t' c, reachable s ->
  In (EvRet t true) (log s) -> In (EvRegDone t' c) (log s) ->
  (forall t0, ~ In (EvDelStart t0 c) (log s)) ->
  exists t0 b, In (EvInvoke t0 c b) (log s) /\ In (EvInvokeEnd t0 c) (log s).
Proof. exact win_ran_all. Qed.

(** ** C17 *)

(** split any history at the return of c's destructor on thread t: nothing later invokes c, and
    every earlier invocation by another thread had returned *)
Theorem C17_destructor_synchronises : forall s l2 t c l1, reachable s ->
  log s = l2 ++ EvDelDone t c :: l1 ->
  (forall t' b, ~ In (EvInvoke t' c b) l2) /\
  (forall t' b, In (EvInvoke t' c b) l1 -> t' <> t -> In (EvInvokeEnd t' c) l1).
Proof. intros s l2 t c l1 Hr. exact (history_suffix Hr l2 t c l1). Qed.

(** a destructor never waits for an invocation on its own thread *)
Theorem C17_no_self_wait : forall s t c fs, reachable s ->
  thr s t = FDelSpin c :: fs -> ~ In (FReqExec c) fs /\ ~ In (FRegInline c) fs.
Proof. exact spin_not_self. Qed.

(** a thread that cannot move waits either for a thread inside a critical section, which can
    move, or, in c's destructor, for another thread running c, which can move (or whose callback
    can return) *)
Theorem C17_no_deadlock : forall s t f fs, reachable s -> thr s t = f :: fs -> ~ enabled s t ->
  (exists t' f' fs', thr s t' = f' :: fs' /\ in_cs f' = true /\ enabled s t') \/
  (exists c t', f = FDelSpin c /\ t' <> t /\
     (exists f', In f' (thr s t') /\ run_cb f' = Some c) /\ enabled s t').
Proof. exact waits_for. Qed.

(** ** C18 *)

Theorem C18_mutual_exclusion : forall s t t' f fs f' fs', reachable s ->
  thr s t = f :: fs -> thr s t' = f' :: fs' -> in_cs f = true -> in_cs f' = true -> t = t'.
Proof. exact mutual_exclusion. Qed.

(** the links always form one doubly linked list l without repetition; its members exist, were
    not invoked and not removed; and every constructed, not invoked, not removed callback is in l
    or is the one request_stop has just taken out *)
Theorem C18_callback_list : forall s, reachable s -> exists l,
  NoDup l /\ seg (next s) (prevp s) PHead (head s) l /\
  (forall c, In c l -> exists_b (life s c) = true /\ (forall t b, ~ In (EvInvoke t c b) (log s)) /\
                       (forall t, ~ In (EvDelDone t c) (log s))) /\
  (forall c t, In (EvRegDone t c) (log s) -> (forall t b, ~ In (EvInvoke t c b) (log s)) ->
     (forall t, ~ In (EvDelStart t c) (log s)) ->
     In c l \/ exists t fs, thr s t = FReqPopped c :: fs \/ thr s t = FReqUnlk c :: fs).
Proof. exact list_wf. Qed.

(** no callback's memory is touched outside its lifetime *)
Theorem C18_no_use_after_free : forall s, reachable s -> ub s = false.
Proof. exact no_ub. Qed.

(** ** Concrete runs meeting the hypotheses *)
Fixpoint runs (l : list (tid * action)) (s : state) : option state :=
  match l with
  | [] => Some s
  | (t, a) :: l => match step t a s with Some s' => runs l s' | None => None end
  end.

Lemma runs_reachable l : forall s s', reachable s -> runs l s = Some s' -> reachable s'.
Proof.
  induction l as [|[t a] l IH]; simpl; intros s s' Hr H; [inversion H; subst; auto|].
  destruct (step t a s) eqn:E; [|discriminate]. eapply (IH s0); [econstructor; eauto|exact H].
Qed.

Definition rep n (x : tid * action) := repeat x n.

(** thread 1 registers 7 and 8; thread 2 requests stop and runs 8; 8's function is in progress
    when thread 1 starts destroying 8 (it must wait); then 8 returns, 1's destructor returns; 2 runs
    7, whose function destroys 7; request_stop returns true; 3's request returns false; thread 1
    constructs 9 and runs it inline. *)
Definition demo : list (tid * action) :=
  (1, ACtor 7) :: rep 3 (1, AStep) ++ (1, ACtor 8) :: rep 3 (1, AStep) ++
  (2, ARequest) :: rep 5 (2, AStep) ++              (* now inside 8 *)
  (1, ADtor 8) :: rep 4 (1, AStep) ++               (* spinning *)
  (2, AReturn) :: rep 2 (2, AStep) ++ (1, AStep) :: (* completed; destructor done *)
  rep 4 (2, AStep) ++                               (* inside 7 *)
  (2, ADtor 7) :: rep 4 (2, AStep) ++
  (2, AReturn) :: rep 3 (2, AStep) ++
  (3, ARequest) :: (3, AStep) :: (1, ACtor 9) :: (1, AStep) :: (1, AReturn) :: nil.

Example demo_history : option_map (fun s => rev (log s)) (runs demo init) = Some
  [EvRegStart 1 7 false; EvRegDone 1 7; EvRegStart 1 8 false; EvRegDone 1 8; EvCall 2;
   EvInvoke 2 8 false; EvDelStart 1 8; EvInvokeEnd 2 8; EvDelDone 1 8; EvInvoke 2 7 false;
   EvDelStart 2 7; EvDelDone 2 7; EvInvokeEnd 2 7; EvRet 2 true; EvCall 3; EvRet 3 false;
   EvRegStart 1 9 true; EvInvoke 1 9 true; EvInvokeEnd 1 9; EvRegDone 1 9].
Proof. reflexivity. Qed.

(** in the middle of it thread 1 is blocked in a destructor *)
Example demo_blocked : exists s, reachable s /\ thr s 1 = [FDelSpin 8] /\ ~ enabled s 1.
Proof.
  destruct (runs (firstn 19 demo) init) as [s|] eqn:E; [|discriminate].
  exists s. split; [eapply runs_reachable; [constructor|exact E]|].
  vm_compute in E. inversion E; subst s. split; [reflexivity|].
  unfold enabled; simpl. intros [H|H]; apply H; reflexivity.
Qed.

Print Assumptions C15_request_stop_wins_once.
Print Assumptions C16_all_run_before_return.
Print Assumptions C17_destructor_synchronises.
Print Assumptions C17_no_deadlock.
Print Assumptions C18_callback_list.
Print Assumptions C18_no_use_after_free.
