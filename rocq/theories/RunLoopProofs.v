(** * RunLoopProofs: invariants of RunLoopModel. *)

From Coq Require Import List Arith Bool ZArith Lia.
From Verif Require Import Conc RunLoopModel.
Import ListNotations.
Set Implicit Arguments.
#[local] Arguments Z.add : simpl never.
#[local] Arguments Z.sub : simpl never.
#[local] Arguments Z.of_nat : simpl never.

(** ** vocabulary *)
Definition is_start o e := match e with EStart _ o' => o =? o' | _ => false end.
Definition is_count o e := match e with ECount o' => o =? o' | _ => false end.
Definition is_enq o e := match e with EEnq o' => o =? o' | _ => false end.
Definition is_stop o e := match e with EStop o' => o =? o' | _ => false end.
Definition is_exec o e := match e with EExec o' _ => o =? o' | _ => false end.

(** operations in the order of the events, oldest first *)
Fixpoint enqd (l : list event) : list op :=
  match l with [] => [] | EEnq o :: l => enqd l ++ [o] | _ :: l => enqd l end.
Fixpoint execd (l : list event) : list op :=
  match l with [] => [] | EExec o _ :: l => execd l ++ [o] | _ :: l => execd l end.
Fixpoint ops (q : list task) : list op :=
  match q with [] => [] | TOp o :: q => o :: ops q | TNoop :: q => ops q end.

Definition batch (r : rpc) : list task :=
  match r with RIter _ l _ | RUser _ _ l _ => l | _ => [] end.

(** contributions to __task_count_ *)
Definition wpc (p : pc) : Z :=
  match p with
  | Idle | StAdd _ | FiAdd => 0
  | PuLoad (TOp _) | PuCas (TOp _) _ => 1
  | PuLoad TNoop | PuCas TNoop _ => 2
  | PuNotify (TOp _) => 0
  | PuNotify TNoop => 1
  | FiXchg => 2 | FiDec1 => 1 | FiDec2 => 2
  end.
Definition wrun (r : rpc) : Z :=
  match r with
  | RIter _ l n => Z.of_nat n + Z.of_nat (length l)
  | RUser _ _ l n => Z.of_nat n + 1 + Z.of_nat (length l)
  | RSub _ n => Z.of_nat n
  | _ => 0
  end.
Definition pushing o (p : pc) : Z :=
  match p with PuLoad (TOp o') | PuCas (TOp o') _ => if o =? o' then 1 else 0 | _ => 0 end.
Definition starting o (p : pc) : Z :=
  match p with StAdd o' => if o =? o' then 1 else 0 | _ => 0 end.
Definition pushing_noop (p : pc) : Prop :=
  match p with PuLoad TNoop | PuCas TNoop _ => True | _ => False end.
Definition in_finish (p : pc) : Prop :=
  match p with
  | FiAdd | FiXchg | FiDec1 | FiDec2 | PuLoad TNoop | PuCas TNoop _ | PuNotify TNoop => True
  | _ => False
  end.
Definition draining (r : rpc) : Prop :=
  match r with RPop true | RIter true _ _ | RUser true _ _ _ | RSub true _ | RCheck | RDone => True
  | _ => False end.
Definition awaiting (r : rpc) : Prop := match r with RWait | RSleep => True | _ => False end.

Lemma wpc_nonneg p : (0 <= wpc p)%Z.
Proof. destruct p as [|o|[]|[] ?|[]| | | |]; simpl; lia. Qed.
Lemma pushing_nonneg o p : (0 <= pushing o p)%Z.
Proof. destruct p as [| |[x|]|[x|] ?| | | | |]; simpl; try lia; destruct (o =? x); lia. Qed.
Lemma starting_nonneg o p : (0 <= starting o p)%Z.
Proof. destruct p as [|x| | | | | | |]; simpl; try lia; destruct (o =? x); lia. Qed.
Lemma wrun_nonneg r : (0 <= wrun r)%Z.
Proof. destruct r; simpl; lia. Qed.

Lemma started_cnt o l : started o l = true <-> 0 < cnt (is_start o) l.
Proof.
  induction l as [|e l IH]; simpl; [split; [discriminate|lia]|].
  destruct e; simpl; auto. destruct (o =? o0); simpl; [split; auto; lia|auto].
Qed.

Lemma ops_app a b : ops (a ++ b) = ops a ++ ops b.
Proof. induction a as [|[o|] a IH]; simpl; auto. rewrite IH; auto. Qed.
Lemma ops_rev_cons x q : ops (rev (x :: q)) = ops (rev q) ++ ops [x].
Proof. simpl; rewrite ops_app; auto. Qed.

(** ** the invariant *)
Record inv (canstop : op -> bool) (s : state) : Prop := {
  i_count : count s = (sumz wpc (thr s) + wrun (run s) + Z.of_nat (length (queue s)))%Z;
  i_fifo : enqd (log s) = execd (log s) ++ ops (batch (run s)) ++ ops (rev (queue s));
  i_push : forall o, Z.of_nat (cnt (is_count o) (log s)) =
                     (sumz (pushing o) (thr s) + Z.of_nat (cnt (is_enq o) (log s)))%Z;
  i_start : forall o, Z.of_nat (cnt (is_start o) (log s)) =
                     (sumz (starting o) (thr s) + Z.of_nat (cnt (is_count o) (log s)))%Z;
  i_once : forall o, cnt (is_start o) (log s) <= 1;
  i_fin : fin s = true -> exists t, In (EFinish t) (log s);
  i_infin : forall t p, nth_error (thr s) t = Some p -> in_finish p ->
                     exists t, In (EFinish t) (log s);
  i_drain : draining (run s) -> fin s = true;
  i_stop : forall o, stopreq s o = true <-> In (EStop o) (log s);
  i_ret : In ERet (log s) -> run s = RDone;
  i_sleep : run s = RSleep -> queue s <> [] ->
            exists t x, nth_error (thr s) t = Some (PuNotify x);
  i_noop : awaiting (run s) -> fin s = true -> In TNoop (queue s) \/
            exists t p, nth_error (thr s) t = Some p /\ pushing_noop p;
  i_wait : run s = RNone -> forall g o, ~ In (EExec o g) (log s)
}.

Ltac step_cases H :=
  unfold step, client, runner in H;
  repeat match type of H with
  | context [match ?x with _ => _ end] =>
      let E := fresh "E" in destruct x eqn:E; try discriminate H; simpl in H
  end.

Ltac clean := unfold w_q, w_c, w_f, w_r, w_t, w_s, w_l in *; simpl in *.

Lemma inv_init canstop n : inv canstop (init n).
Proof.
  constructor; simpl; try (intros; tauto); try discriminate; auto; try lia;
    try (intros; rewrite sumz_repeat; auto; fail).
  - intros t p H Hf. apply nth_repeat_some in H. subst; simpl in Hf; tauto.
Qed.

(** facts about an update of the thread list *)
Ltac upd_all :=
  repeat match goal with
  | H : nth_error ?l ?t = Some ?p |- context [sumz ?w (upd ?l ?t ?q)] =>
      rewrite (@sumz_upd _ w l t q p H); simpl
  end.
Ltac rw_all :=
    repeat match goal with E : run _ = _ |- _ => rewrite E in *; simpl in * end;
    repeat match goal with E : queue _ = _ |- _ => rewrite E in *; simpl in * end;
    repeat match goal with E : fin _ = _ |- _ => rewrite E in *; simpl in * end.
Ltac go H := step_cases H; inversion H; subst; clear H; clean; upd_all; rw_all.
Ltac split_if := repeat match goal with |- context [if ?a =? ?b then _ else _] => destruct (a =? b) end.

Lemma pres_count canstop s t a s' : inv canstop s -> step canstop t a s = Some s' ->
  count s' = (sumz wpc (thr s') + wrun (run s') + Z.of_nat (length (queue s')))%Z.
Proof.
  intros I H. pose proof (i_count I) as C.
  go H; rewrite ?app_length, ?rev_length in *; simpl in *; try lia.
Qed.

Lemma pres_fifo canstop s t a s' : inv canstop s -> step canstop t a s = Some s' ->
  enqd (log s') = execd (log s') ++ ops (batch (run s')) ++ ops (rev (queue s')).
Proof.
  intros I H. pose proof (i_fifo I) as C.
  go H; rewrite ?ops_app, ?app_nil_r in *; simpl in *; rewrite ?app_nil_r in *;
    rewrite <- ?app_assoc in *; simpl; try assumption; rewrite C; rewrite <- ?app_assoc; auto.
Qed.

Lemma pres_push canstop s t a s' : inv canstop s -> step canstop t a s = Some s' -> forall o,
  Z.of_nat (cnt (is_count o) (log s')) =
  (sumz (pushing o) (thr s') + Z.of_nat (cnt (is_enq o) (log s')))%Z.
Proof.
  intros I H oo. pose proof (i_push I oo) as C.
  go H; split_if; try lia.
Qed.

Lemma pres_start canstop s t a s' : inv canstop s -> step canstop t a s = Some s' -> forall o,
  Z.of_nat (cnt (is_start o) (log s')) =
  (sumz (starting o) (thr s') + Z.of_nat (cnt (is_count o) (log s')))%Z.
Proof.
  intros I H oo. pose proof (i_start I oo) as C.
  go H; split_if; try lia.
Qed.

Lemma pres_once canstop s t a s' : inv canstop s -> step canstop t a s = Some s' -> forall o,
  cnt (is_start o) (log s') <= 1.
Proof.
  intros I H oo. pose proof (i_once I oo) as C.
  go H; try lia. destruct (Nat.eqb_spec oo o) as [->|]; [|lia].
  apply andb_prop in E2. destruct E2 as [_ E2]. apply negb_true_iff in E2.
  pose proof (started_cnt o (log s)) as S. rewrite E2 in S.
  destruct (cnt (is_start o) (log s)); [lia|]. exfalso.
  assert (false = true) by (apply S; lia). discriminate.
Qed.

Lemma in_tail (A : Type) (P : nat -> A) (e : A) l :
  (exists t, In (P t) l) -> exists t, In (P t) (e :: l).
Proof. intros [t H]; exists t; right; auto. Qed.

Ltac thr_split :=
  match goal with
  | H : nth_error ?l ?t = Some _, H' : nth_error (upd ?l ?t _) ?u = Some _ |- _ =>
      rewrite (@nth_upd _ l t u _ _ H) in H'; destruct (Nat.eqb_spec t u);
      [inversion H'; subst; clear H'; simpl in * |]
  end.

Lemma pres_infin canstop s t a s' : inv canstop s -> step canstop t a s = Some s' ->
  forall u p, nth_error (thr s') u = Some p -> in_finish p -> exists t, In (EFinish t) (log s').
Proof.
  intros I H u pp Hn Hf. pose proof (i_infin I) as C. pose proof (i_fin I) as C0.
  go H; try thr_split; try tauto; try (eexists; left; reflexivity);
    try apply in_tail; try (eapply C; eauto; simpl; exact Logic.I).
Qed.

Lemma pres_fin canstop s t a s' : inv canstop s -> step canstop t a s = Some s' ->
  fin s' = true -> exists t, In (EFinish t) (log s').
Proof.
  intros I H Hf. pose proof (i_infin I) as C. pose proof (i_fin I) as C0.
  go H; try apply in_tail; auto. eapply C; eauto; simpl; exact Logic.I.
Qed.

Lemma pres_drain canstop s t a s' : inv canstop s -> step canstop t a s = Some s' ->
  draining (run s') -> fin s' = true.
Proof.
  intros I H Hf. pose proof (i_drain I) as C.
  go H; auto; try tauto.
Qed.

Lemma pres_stop canstop s t a s' : inv canstop s -> step canstop t a s = Some s' -> forall o,
  stopreq s' o = true <-> In (EStop o) (log s').
Proof.
  intros I H oo. pose proof (i_stop I oo) as C.
  go H; rewrite ?C; try (intuition congruence).
  unfold fset. destruct (Nat.eqb_spec oo o) as [->|]; [intuition|].
  rewrite C. split; [auto|]. intros [K|K]; [congruence|auto].
Qed.

Lemma pres_ret canstop s t a s' : inv canstop s -> step canstop t a s = Some s' ->
  In ERet (log s') -> run s' = RDone.
Proof.
  intros I H Hf. pose proof (i_ret I) as C.
  go H; auto; repeat (destruct Hf as [Hf|Hf]; try discriminate); auto;
    try (specialize (C Hf); congruence).
Qed.

Lemma pres_wait canstop s t a s' : inv canstop s -> step canstop t a s = Some s' ->
  run s' = RNone -> forall g o, ~ In (EExec o g) (log s').
Proof.
  intros I H Hf g oo. pose proof (i_wait I) as C.
  go H; try discriminate; try (apply C; auto; fail);
    try (intros K; repeat (destruct K as [K|K]; try discriminate); eapply C; eauto; fail);
    try (match goal with E : run s = _ |- _ => rewrite E in * end; discriminate).
Qed.

Lemma hd_none q : otask_eqb None (hd_of q) = true -> q = [].
Proof. destruct q; simpl; [auto|discriminate]. Qed.
Lemma hd_some x q : otask_eqb (Some x) (hd_of q) = true -> q <> [].
Proof. destruct q; simpl; [discriminate|congruence]. Qed.

Lemma pres_sleep canstop s t a s' : inv canstop s -> step canstop t a s = Some s' ->
  run s' = RSleep -> queue s' <> [] -> exists t x, nth_error (thr s') t = Some (PuNotify x).
Proof.
  intros I H Hr Hq. pose proof (i_sleep I) as C.
  assert (K : forall u q p, nth_error (thr s) u = Some p -> (forall x, p <> PuNotify x) ->
    run s = RSleep -> queue s <> [] -> exists t x, nth_error (upd (thr s) u q) t = Some (PuNotify x)).
  { intros u q p Hu Hp Hr' Hq'. destruct (C Hr' Hq') as [v [x Hv]]. exists v, x.
    rewrite nth_upd_other; auto. intros ->. rewrite Hv in Hu. inversion Hu; subst.
    eapply Hp; eauto. }
  assert (K2 : forall u q p, nth_error (thr s) u = Some p ->
     exists t x, nth_error (upd (thr s) u (PuNotify q)) t = Some (PuNotify x)).
  { intros u q p Hu. exists u, q. eapply nth_upd_same; eauto. }
  go H; try discriminate; try congruence; auto;
    try (eapply K2; eauto; fail);
    try (eapply K; eauto; intros; discriminate);
    try (eapply K; eauto; [intros; discriminate|]; eapply hd_some; eauto).
Qed.

Lemma pres_noop canstop s t a s' : inv canstop s -> step canstop t a s = Some s' ->
  awaiting (run s') -> fin s' = true -> In TNoop (queue s') \/
     exists t p, nth_error (thr s') t = Some p /\ pushing_noop p.
Proof.
  intros I H Hr Hf. pose proof (i_noop I) as C.
  assert (K : forall u q p, nth_error (thr s) u = Some p -> (pushing_noop p -> pushing_noop q) ->
    (In TNoop (queue s) \/ exists t p, nth_error (thr s) t = Some p /\ pushing_noop p) ->
    In TNoop (queue s) \/ exists t p, nth_error (upd (thr s) u q) t = Some p /\ pushing_noop p).
  { intros u q p Hu Hp [K|[v [p' [Hv Hv']]]]; [auto|]. right.
    destruct (Nat.eq_dec v u) as [->|N].
    - rewrite Hv in Hu; inversion Hu; subst. exists u, q. split; [eapply nth_upd_same; eauto|auto].
    - exists v, p'. rewrite nth_upd_other; auto. }
  assert (K2 : forall u p, nth_error (thr s) u = Some p ->
    exists t p, nth_error (upd (thr s) u (PuLoad TNoop)) t = Some p /\ pushing_noop p).
  { intros u p Hu. exists u, (PuLoad TNoop). split; [eapply nth_upd_same; eauto|exact Logic.I]. }
  go H; try tauto; try congruence; auto;
    try (right; eapply K2; eauto; fail);
    try (eapply K; eauto; simpl; tauto);
    match goal with |- context [upd _ _ ?q] =>
      destruct (K _ q _ E0 (fun x => x) (C Hr eq_refl)); auto end.
Qed.

Theorem inv_step canstop s t a s' : inv canstop s -> step canstop t a s = Some s' -> inv canstop s'.
Proof.
  intros I H. constructor; eauto using pres_count, pres_fifo, pres_push, pres_start, pres_once,
    pres_infin, pres_fin, pres_drain, pres_stop, pres_ret, pres_wait, pres_sleep, pres_noop.
Qed.

Theorem inv_reach canstop s : reachable canstop s -> inv canstop s.
Proof. induction 1; [apply inv_init|eapply inv_step; eauto]. Qed.

(** ** histories *)

(** what was true when an operation was executed, and when run() returned *)
Record hist (canstop : op -> bool) (l : list event) : Prop := {
  h_sig : forall l2 o g l1, l = l2 ++ EExec o g :: l1 ->
     (g = SStopped <-> canstop o = true /\ In (EStop o) l1);
  h_run : forall l2 o g l1, l = l2 ++ EExec o g :: l1 -> In ERun l1 /\ ~ In ERet l1;
  h_ret : forall l2 l1, l = l2 ++ ERet :: l1 ->
     (exists t, In (EFinish t) l1) /\ (forall o, In (ECount o) l1 -> In o (execd l1)) }.

Lemma cons_split (A : Type) (e : A) l l2 x l1 : e :: l = l2 ++ x :: l1 ->
  (l2 = [] /\ e = x /\ l = l1) \/ exists l2', l2 = e :: l2' /\ l = l2' ++ x :: l1.
Proof. destruct l2; simpl; intros H; inversion H; subst; eauto. Qed.

Lemma hist_other canstop e l : hist canstop l ->
  (forall o g, e <> EExec o g) -> e <> ERet -> hist canstop (e :: l).
Proof.
  intros [A B C] N1 N2. constructor; intros * E; apply cons_split in E;
    destruct E as [[_ [E _]]|[l2' [_ E]]]; subst; eauto; exfalso; eauto; eapply N1; eauto.
Qed.

Lemma in_enqd o l : In (EEnq o) l <-> In o (enqd l).
Proof.
  induction l as [|e l IH]; simpl; [tauto|].
  destruct e; simpl; rewrite ?in_app_iff, <- ?IH; simpl;
    split; intros H; intuition congruence.
Qed.
Lemma in_execd o l : In o (execd l) <-> exists g, In (EExec o g) l.
Proof.
  induction l as [|e l IH]; simpl; [firstorder|].
  destruct e; simpl; rewrite ?in_app_iff, ?IH; simpl; split; intros H;
    try (destruct H as [g H]; exists g; tauto);
    try (destruct H as [g [H|H]]; [discriminate|eauto]).
  - destruct H as [[g' H]|[->|[]]]; [exists g'; auto|exists g; auto].
  - destruct H as [g' [H|H]]; [inversion H; auto|eauto].
Qed.
Lemma is_count_in o l : In (ECount o) l <-> 0 < cnt (is_count o) l.
Proof.
  rewrite cnt_pos. split.
  - intros H. exists (ECount o). simpl. rewrite Nat.eqb_refl. auto.
  - intros [[] [H1 H2]]; simpl in H2; try discriminate. apply Nat.eqb_eq in H2. subst; auto.
Qed.
Lemma is_enq_in o l : In (EEnq o) l <-> 0 < cnt (is_enq o) l.
Proof.
  rewrite cnt_pos. split.
  - intros H. exists (EEnq o). simpl. rewrite Nat.eqb_refl. auto.
  - intros [[] [H1 H2]]; simpl in H2; try discriminate. apply Nat.eqb_eq in H2. subst; auto.
Qed.

(** the runner has been called whenever it is somewhere in run() *)
Lemma run_called canstop s : reachable canstop s -> run s <> RNone -> In ERun (log s).
Proof.
  induction 1 as [|s t a s' Hr IH H]; [simpl; congruence|].
  intros N. go H; auto; try (right; apply IH; congruence); try (apply IH; congruence).
Qed.

(** when the task count is zero everything announced has been executed *)
Lemma zero_all_done canstop s : inv canstop s -> count s = 0%Z ->
  forall o, In (ECount o) (log s) -> In o (execd (log s)).
Proof.
  intros I Z o Ho. pose proof (i_count I) as C. rewrite Z in C.
  pose proof (wrun_nonneg (run s)). pose proof (sumz_nonneg wpc (thr s) wpc_nonneg).
  assert (queue s = []) by (destruct (queue s); auto; simpl in C; lia).
  assert (W : sumz wpc (thr s) = 0%Z) by lia.
  assert (R : wrun (run s) = 0%Z) by lia.
  assert (B : batch (run s) = []).
  { destruct (run s); simpl in *; auto; destruct l; auto; simpl in R; lia. }
  pose proof (i_push I o) as P.
  assert (Q : sumz (pushing o) (thr s) = 0%Z).
  { pose proof (sumz_nonneg (pushing o) (thr s) (pushing_nonneg o)).
    destruct (Z_lt_le_dec 0 (sumz (pushing o) (thr s))) as [Hp|]; [|lia].
    apply sumz_pos_ex in Hp. destruct Hp as [i [p [Hi Hj]]].
    pose proof (sumz_ge wpc (thr s) wpc_nonneg i Hi).
    destruct p as [| |[x|]|[x|] ?| | | | |]; simpl in *; lia. }
  apply is_count_in in Ho. rewrite Q in P.
  assert (In (EEnq o) (log s)) as E by (apply is_enq_in; lia).
  apply in_enqd in E. rewrite (i_fifo I), B, H1 in E. simpl in E. rewrite app_nil_r in E. auto.
Qed.

Theorem hist_reach canstop s : reachable canstop s -> hist canstop (log s).
Proof.
  induction 1 as [|s t a s' Hr IH H].
  - constructor; intros * E; destruct l2; discriminate.
  - pose proof (inv_reach Hr) as I. pose proof (run_called Hr) as RC.
    go H; auto; try (apply hist_other; auto; intros; discriminate).
    + (* execution *)
      assert (NR : ~ In ERet (log s)) by (intros K; pose proof (i_ret I K); congruence).
      assert (IR : In ERun (log s)) by (apply RC; congruence).
      destruct IH as [A B C]. constructor; intros * E'; apply cons_split in E';
        destruct E' as [[_ [E' EL]]|[l2' [_ E']]]; subst; eauto; try discriminate.
      * inversion E'; subst. rewrite <- (i_stop I). unfold sig_of.
        destruct (canstop _), (stopreq _ _); intuition congruence.
    + (* return *)
      match goal with K : (count s =? 0)%Z = true |- _ => apply Z.eqb_eq in K; rename K into EZ end.
      match goal with K : run s = _ |- _ => rename K into ER end.
      destruct IH as [A B C]. constructor; intros * E'; apply cons_split in E';
        destruct E' as [[_ [E' EL]]|[l2' [_ E']]]; subst; eauto; try discriminate.
      split.
      * apply (i_fin I). apply (i_drain I). rewrite ER; exact Logic.I.
      * apply (zero_all_done I EZ).
Qed.
