(** C47: operations of timed_thread_context. *)
From Coq Require Import List ZArith Bool Arith Lia.
From Verif Require Import Conc MpscModel MpscProofs MpscProperties TimedModel TimedProofs.
Import ListNotations.
Set Implicit Arguments.
Open Scope Z_scope.
Notation step := TimedModel.step.
Notation runs := TimedModel.runs.
Notation reachable := TimedModel.reachable.
Notation init := TimedModel.init.
Notation log := TimedModel.log.

(** ** Histories *)
Lemma runs_app a : forall b s, runs (a ++ b) s = match runs a s with Some s1 => runs b s1 | None => None end.
Proof. induction a as [|x a IH]; simpl; intros b s; [reflexivity|]. destruct (step x s); auto. Qed.
Lemma reach_step s a s' : reachable s -> step a s = Some s' -> reachable s'.
Proof.
  intros [l [c [acts H]]] E. exists l, c, (acts ++ [a]). rewrite runs_app, H. simpl. rewrite E. reflexivity.
Qed.
Lemma reach_runs acts : forall s s', reachable s -> runs acts s = Some s' -> reachable s'.
Proof.
  induction acts as [|a l IH]; simpl; intros s s' R H; [injection H as <-; exact R|].
  destruct (step a s) as [s1|] eqn:E; [|discriminate]. exact (IH _ _ (reach_step _ R E) H).
Qed.
Lemma reach_ind (P : state -> Prop) :
  (forall l c, P (init l c)) -> (forall s a s', reachable s -> P s -> step a s = Some s' -> P s') ->
  forall s, reachable s -> P s.
Proof.
  intros P0 PS s [l [c [acts H]]].
  assert (G : forall acts s0, reachable s0 -> P s0 -> forall s1, runs acts s0 = Some s1 -> P s1).
  { clear H. induction acts0 as [|a r IH]; simpl; intros s0 R0 H0 s1 H; [injection H as <-; exact H0|].
    destruct (step a s0) as [s2|] eqn:E; [|discriminate].
    exact (IH _ (reach_step _ R0 E) (PS _ _ _ R0 H0 E) _ H). }
  apply (G acts (init l c)); auto. exists l, c, []. reflexivity.
Qed.

Ltac ds H := repeat match type of H with
  | match ?x with _ => _ end = Some _ => let E := fresh "E" in destruct x eqn:E; try discriminate H
  end.
Lemma push_log t s s1 r : push_step t s = Some (s1, r) -> log s1 = log s.
Proof. unfold push_step. destruct (MpscModel.step t AProd (mq s)); [|discriminate]. intros H; injection H as <- _. reflexivity. Qed.
Lemma step_log1 s a s' : step a s = Some s' -> log s' = log s \/ exists e, log s' = e :: log s.
Proof.
  intros H. destruct a; cbn [step] in H; unfold s_step, k_step, r_step, drop_ref, end_op, finish in H;
    ds H; try (injection H as <-); pr; eauto;
    repeat match goal with E : push_step _ _ = Some _ |- _ => apply push_log in E; pr; rewrite E in *; clear E end; eauto;
    repeat match goal with E : match reset ?k with _ => _ end = Some _ |- _ => destruct (reset k); [|discriminate E] end;
    repeat match goal with E : Some _ = Some _ |- _ => injection E; clear E; intros; subst end; pr; eauto;
    repeat match goal with |- context [if ?b then _ else _] => destruct b end; pr; eauto.
Qed.

Lemma log_grows acts : forall s s', runs acts s = Some s' -> exists l, log s' = l ++ log s.
Proof.
  induction acts as [|a r IH]; simpl; intros s s' H; [injection H as <-; exists []; reflexivity|].
  destruct (step a s) as [s1|] eqn:E; [|discriminate]. destruct (IH _ _ H) as [l L].
  destruct (step_log1 _ _ E) as [G|[e G]]; rewrite G in L; [eauto|]. exists (l ++ [e]). rewrite <- app_assoc. exact L.
Qed.
(** the moment at which an event was recorded *)
Lemma event_step s : reachable s -> forall l1 e l2, log s = l1 ++ e :: l2 ->
  exists s1 a s2, reachable s1 /\ step a s1 = Some s2 /\ log s1 = l2 /\ log s2 = e :: l2 /\
    exists acts, runs acts s2 = Some s.
Proof.
  intros R. induction R as [l c|s a s' R IH H] using reach_ind; intros l1 e l2 L.
  - destruct l1; discriminate.
  - assert (K : forall l1 e l2, log s = l1 ++ e :: l2 ->
      exists s1 a s2, reachable s1 /\ step a s1 = Some s2 /\ log s1 = l2 /\ log s2 = e :: l2 /\
      exists acts, runs acts s2 = Some s').
    { intros k1 f k2 K. destruct (IH _ _ _ K) as [s1 [b [s2 [A [B [C [D [acts X]]]]]]]].
      exists s1, b, s2. repeat (split; auto). exists (acts ++ [a]). rewrite runs_app, X. simpl. rewrite H. reflexivity. }
    destruct (step_log1 _ _ H) as [E|[x E]].
    + apply (K l1). congruence.
    + destruct l1 as [|y l1]; rewrite E in L; injection L as -> L.
      * exists s, a, s'. rewrite L. repeat (split; auto). { rewrite E, L. reflexivity. } exists []. reflexivity.
      * apply (K l1). exact L.
Qed.

(** ** Safety *)
Definition op (s : state) (i : nat) := nth_error (ops s) i.

(** An operation completes at most once. *)
Theorem C47_once : forall s, reachable s -> forall i, (i < length (ops s))%nat -> (comps i (log s) <= 1)%nat.
Proof.
  intros s R i Hi. pose proof (reach_inv R) as I. apply nth_error_Some in Hi.
  destruct (nth_error (ops s) i) as [o|] eqn:E; [|congruence]. pose proof (i_ok I _ E) as K.
  unfold ok, done in K. destruct (sp o); lia.
Qed.

(** set_value comes no earlier than the time the operation was scheduled for. *)
Theorem C47_not_early : forall s, reachable s -> forall i t o, op s i = Some o ->
  In (EComp i Value t) (log s) -> tm o <= t.
Proof. intros s R i t o E H. exact (i_val (reach_inv R) _ _ E H). Qed.

(** set_stopped comes only after stop was requested of the operation or of the
    context. *)
Theorem C47_stopped_only_if_requested : forall s, reachable s -> forall l1 l2 i t,
  log s = l1 ++ EComp i Stopped t :: l2 -> In (EReq i) l2 \/ In EStop l2.
Proof.
  intros s R l1 l2 i t L. destruct (event_step R _ _ _ L) as [s1 [a [s2 [R1 [S1 [L1 [L2 _]]]]]]].
  assert (I := reach_inv (reach_step _ R1 S1)).
  assert (H : In (EComp i Stopped t) (log s2)) by (rewrite L2; left; reflexivity).
  destruct (i_stp I _ _ H) as [G|G]; rewrite L2 in G; destruct G as [G|G]; try discriminate G; auto.
Qed.

(** After its receiver has completed (and so may have destroyed it), nobody uses
    the operation any more: it is neither in the command queue nor in the heap
    nor held by the run thread, start() is done with it, its stop callback is
    unregistered and not running except on the very thread that completed it. *)
Definition quiet_k (k : kpc) : bool := match k with KNone | KReqd | KG _ => true | _ => false end.
Definition quiet_s (p : spc) : bool := match p with SP | S5 | S6 | SG _ | SD => true | _ => false end.
Definition kd (s : state) : Prop := forall i o, op s i = Some o -> (0 < comps i (log s))%nat -> quiet_k (kp o) = true.
Arguments comps : simpl never.

Lemma kd_inv s : reachable s -> kd s.
Proof.
  intros R. induction R as [l c|s a s' R IH H] using reach_ind.
  - intros i o _ C. unfold comps in C; simpl in C. lia.
  - pose proof (reach_inv R) as I. intros j o' E C. unfold op in E.
    assert (D : 0 < Z.of_nat (comps j (log s'))) by lia. clear C.
    assert (K : forall o, nth_error (ops s) j = Some o -> ok (sp o) (kp o) (ref o) (tokM s j o) (tokT s j o) (TimedProofs.last s j o) (done s j) /\
              (0 < done s j -> quiet_k (kp o) = true)).
    { intros o Ho. split; [exact (i_ok I _ Ho)|]. intros X. apply (IH _ _ Ho). unfold done in X. lia. }
    unfold done in K.
    destruct a; cbn [step] in H; unfold s_step, k_step, r_step, drop_ref, end_op in H; ds H.
    all: repeat match goal with E : push_step _ _ = Some _ |- _ => apply push_cases in E; destruct E as [? [? [? [? [? [? [? [? [? ->]]]]]]]]] end; inj.
    all: try match goal with H : finish _ _ _ _ = Some _ |- _ => unfold finish in H; pr;
       match type of H with match reset ?k with _ => _ end = _ => destruct (reset k) eqn:Rk; [|discriminate H] end end; inj.
    all: repeat match goal with |- context [if ?b then _ else _] => destruct b | E : context [if ?b then _ else _] |- _ => destruct b end.
    all: pr; rewrite ?comps_cons in D; nths; eqi; pr; rws; bzs; cbn [bz] in *; try contradiction; try reflexivity.
    all: try match goal with K : forall o, nth_error (ops ?x) ?j = Some o -> _, E : nth_error (ops ?x) ?j = Some _ |- _ => destruct (K _ E) as [K1 K2] end; rws; cbn [quiet_k] in *; try (apply K2; lia).
    1: unfold ok in K1; lia.
    all: match goal with Rk : reset ?q = Some _ |- _ => destruct q; simpl in Rk; try discriminate Rk; injection Rk as <-; reflexivity end.
Qed.

Theorem C47_not_used_after_completion : forall s, reachable s -> forall i o, op s i = Some o ->
  (exists x t, In (EComp i x t) (log s)) ->
  busy (mq s) (nodeS i) = false /\ busy (mq s) (nodeK i) = false /\ ~ In i (heap s) /\
  rop (rp s) <> Some i /\ rp s <> RCmd (nodeS i) /\ rp s <> RCmd (nodeK i) /\
  quiet_s (sp o) = true /\ quiet_k (kp o) = true.
Proof.
  intros s R i o E [x [t C]]. pose proof (reach_inv R) as I. unfold op in E.
  assert (D : (0 < comps i (log s))%nat).
  { unfold comps. apply cnt_pos. exists (EComp i x t). rewrite Nat.eqb_refl. auto. }
  pose proof (kd_inv R _ E D) as Q. pose proof (i_ok I _ E) as K.
  pose proof (bz_nn (busy (mq s) (nodeS i))) as N1; pose proof (bz_nn (busy (mq s) (nodeK i))) as N2;
  pose proof (occ_nn i (heap s)) as N3; pose proof (rM_nn (rp s) i) as N4; pose proof (rT_nn (rp s) i) as N5;
  pose proof (rF_nn (rp s) i) as N6; pose proof (kT_nn (kp o)) as N7; pose proof (kF_nn (kp o)) as N8;
  pose proof (sM_nn (sp o)) as N9; pose proof (sF_nn (sp o)) as N10.
  assert (Z0 : tokM s i o = 0 /\ tokT s i o = 0 /\ TimedProofs.last s i o = 0 /\ quiet_s (sp o) = true).
  { unfold tokM, tokT, TimedProofs.last, done in *. unfold ok in K. destruct (sp o); cbn [quiet_s sM sF] in *; lia. }
  destruct Z0 as [M [T [F S]]]. unfold tokM, tokT, TimedProofs.last in *.
  assert (B : forall b, bz b = 0 -> b = false) by (intros []; simpl; auto; discriminate).
  repeat split.
  - apply B. lia.
  - apply B. lia.
  - rewrite occ_in. lia.
  - intros G. assert (X : rM (rp s) i + rT (rp s) i + rF (rp s) i = 0) by lia.
    destruct (rp s); simpl in G; try discriminate G; injection G as ->; cbn [rM rT rF] in X; rewrite bz_refl in X;
      cbn in X; lia.
  - intros G. rewrite G in *. cbn [rM] in *. rewrite bz_refl in *. lia.
  - intros G. rewrite G in *. cbn [rT] in *. rewrite bz_refl in *. lia.
  - exact S.
  - exact Q.
Qed.

(** ** What does not hold *)
Definition rep (n : nat) (a : action) := repeat a n.
(** the run thread goes to sleep; operation [i] is started, its start() returns *)
Definition asleep := rep 4 AR.
Definition started (i : nat) := AStart i :: rep 8 (AS i).

Lemma exit_stays s a s' : reachable s -> rp s = RExit -> step a s = Some s' ->
  rp s' = RExit /\ (forall n, busy (mq s) n = true -> busy (mq s') n = true) /\ length (ops s') = length (ops s).
Proof.
  intros R X H.
  destruct a; cbn [step] in H; unfold s_step, k_step, r_step, drop_ref, end_op in H; try (rewrite X in H; discriminate H); ds H.
  all: repeat match goal with E : push_step _ _ = Some _ |- _ => apply push_cases in E;
     destruct E as [m' [E1' [E2' [E3' [q1 [q2 [q3 [q4 [q5 ->]]]]]]]]] end.
  all: repeat match goal with E : MpscModel.step _ (APush _) _ = Some _ |- _ => apply q_push in E; destruct E as [E1' [E2' E3']] end.
  all: try match goal with H : finish _ _ _ _ = Some _ |- _ => unfold finish in H; pr;
       match type of H with match reset ?k with _ => _ end = _ => destruct (reset k) eqn:Rk; [|discriminate H] end end.
  all: inj; repeat match goal with |- context [if ?b then _ else _] => destruct b end; pr; rewrite ?upd_length.
  all: split; [assumption|split; [intros kk Hk|reflexivity]].
  all: try match goal with E2 : busy _ = _ |- _ => rewrite E2 end; rewrite ?fset_eqb; try match goal with |- context [if ?b then _ else _] => destruct b end; auto.
Qed.

(** An operation that was started, its start() having returned before the
    destruction of the context began, is never completed if its command is still
    in the queue when the run thread sees the request to stop: run() completes
    only what is in the heap. *)
Theorem C47_lost_at_shutdown_refuted :
  exists s, reachable s /\ log s = [EStop; ERet 0; EStart 0] /\ rp s = RExit /\
    forall acts s', runs acts s = Some s' -> comps 0 (log s') = 0%nat.
Proof.
  destruct (runs (asleep ++ started 0 ++ AStop :: rep 3 AR) (init [5] 0)) as [s|] eqn:E; [|vm_compute in E; discriminate].
  assert (R : reachable s) by (exists [5], 0, (asleep ++ started 0 ++ AStop :: rep 3 AR); exact E).
  exists s. split; [exact R|].
  assert (L : log s = [EStop; ERet 0; EStart 0] /\ rp s = RExit /\ busy (mq s) (nodeS 0) = true /\ length (ops s) = 1%nat).
  { vm_compute in E. injection E as <-. repeat split; reflexivity. }
  destruct L as [L1 [L2 [L3 L4]]]. split; [exact L1|]. split; [exact L2|].
  clear L1 E. intros acts. revert s R L2 L3 L4. induction acts as [|a r IH]; simpl; intros s R X B L s' H.
  - injection H as <-. pose proof (reach_inv R) as I.
    destruct (nth_error (ops s) 0) as [o|] eqn:Ho; [|apply nth_error_None in Ho; lia].
    destruct (comps 0 (log s)) eqn:C; [reflexivity|].
    assert (W : exists x t, In (EComp 0 x t) (log s)).
    { assert (D : (0 < comps 0 (log s))%nat) by lia. unfold comps in D. apply cnt_pos in D. destruct D as [e [D1 D2]].
      destruct e; try discriminate D2. apply Nat.eqb_eq in D2. subst. eauto. }
    destruct (C47_not_used_after_completion R _ Ho W) as [W1 _]. congruence.
  - destruct (step a s) as [s1|] eqn:E1; [|discriminate].
    destruct (exit_stays _ R X E1) as [A [B' C]].
    apply (IH s1 (reach_step _ R E1) A (B' _ B)); [congruence|exact H].
Qed.

(** A sleeping run thread that nobody wakes. *)
Definition calm (o : oper) : Prop := sp o = SD /\ match kp o with KNone | KReg | KReqd => True | _ => False end.
Definition passive (a : action) : Prop := match a with AStop | AReq _ | AStart _ => False | _ => True end.
Lemma sleeps acts : forall s s' dl, rp s = RW dl -> ready s = false -> stopq s = false ->
  (forall i o, nth_error (ops s) i = Some o -> calm o) -> (forall a, In a acts -> passive a) ->
  runs acts s = Some s' -> clock s' < dl -> log s' = log s.
Proof.
  assert (M : forall acts s s', runs acts s = Some s' -> clock s <= clock s').
  { clear. induction acts as [|a r IH]; simpl; intros s s' H; [injection H as <-; lia|].
    destruct (step a s) as [s1|] eqn:E; [|discriminate]. apply IH in H.
    enough (clock s <= clock s1) by lia. clear H IH.
    destruct a; cbn [step] in E; unfold s_step, k_step, r_step, drop_ref, end_op in E; ds E.
    all: repeat match goal with E : push_step _ _ = Some _ |- _ => apply push_cases in E;
     destruct E as [m' [E1' [E2' [E3' [q1 [q2 [q3 [q4 [q5 ->]]]]]]]]] end.
    all: try match goal with H : finish _ _ _ _ = Some _ |- _ => unfold finish in H; pr;
       match type of H with match reset ?k with _ => _ end = _ => destruct (reset k) eqn:Rk; [|discriminate H] end end.
    all: inj; repeat match goal with |- context [if ?b then _ else _] => destruct b end; pr; lia. }
  induction acts as [|a r IH]; simpl; intros s s' dl W Y Q C P H T; [injection H as <-; reflexivity|].
  destruct (step a s) as [s1|] eqn:E; [|discriminate].
  pose proof (M _ _ _ H) as T1. assert (Pa := P a (or_introl eq_refl)).
  destruct a; try contradiction Pa; cbn [step] in E.
  - injection E as <-. rewrite (IH (set_clock s (clock s + 1)) s' dl); auto.
  - destruct (nth_error (ops s) i) as [o|] eqn:Ho; [|discriminate]. destruct (C _ _ Ho) as [C1 _].
    unfold s_step in E. rewrite C1 in E. discriminate.
  - destruct (nth_error (ops s) i) as [o|] eqn:Ho; [|discriminate]. destruct (C _ _ Ho) as [_ C1].
    unfold k_step in E. destruct (kp o); try discriminate; contradiction.
  - unfold r_step in E. rewrite W, Y, Q in E. destruct (dl <=? clock s) eqn:D; [|discriminate E].
    apply Z.leb_le in D. cbn in E. injection E as <-. pr. lia.
Qed.

(** The wake-up of the run thread can be lost: two operations, both due, both
    submitted; the run thread saw an empty queue while the second was being
    pushed, and the second push does not wake it because it was not the first in
    the queue.  Nothing happens for the whole timeout of two seconds. *)
Theorem C47_lost_wakeup_refuted :
  exists s, reachable s /\ (forall e, In e (log s) <-> In e [EStart 0; EStart 1; ERet 0; ERet 1]) /\
    (forall i o, op s i = Some o -> tm o <= clock s) /\
    forall acts s', (forall a, In a acts -> passive a) -> runs acts s = Some s' ->
      clock s' < clock s + two_seconds -> log s' = log s.
Proof.
  destruct (runs (asleep ++ started 0 ++ rep 3 AR ++ (AStart 1 :: rep 5 (AS 1)) ++ rep 3 AR ++ rep 2 (AS 1) ++ rep 1 AR)
    (init [0; 0] 0)) as [s|] eqn:E; [|vm_compute in E; discriminate].
  exists s. split; [do 3 eexists; exact E|]. vm_compute in E. injection E as <-.
  split; [intros e; simpl; tauto|]. split.
  - intros [|[|i]] o H; simpl in H; try (destruct i; discriminate H); injection H as <-; simpl; lia.
  - intros acts s' P H T. eapply sleeps; [..|exact P|exact H|exact T]; try reflexivity.
    intros [|[|i]] o G; simpl in G; try (destruct i; discriminate G); injection G as <-; split; simpl; auto.
Qed.

(** A stop request can be lost: made while start() runs, its command overtakes
    the one that schedules the operation; the operation then waits for its time. *)
Theorem C47_stop_lost_refuted :
  exists s, reachable s /\ log s = [ERet 0; EReq 0; EStart 0] /\ clock s = 0 /\
    forall acts s', (forall a, In a acts -> passive a) -> runs acts s = Some s' ->
      clock s' < 1000 -> log s' = log s.
Proof.
  destruct (runs (asleep ++ (AStart 0 :: rep 2 (AS 0)) ++ (AReq 0 :: rep 7 (AK 0)) ++ rep 5 (AS 0) ++ rep 18 AR)
    (init [1000] 0)) as [s|] eqn:E; [|vm_compute in E; discriminate].
  exists s. split; [do 3 eexists; exact E|]. vm_compute in E. injection E as <-.
  split; [reflexivity|]. split; [reflexivity|].
  intros acts s' P H T. eapply sleeps; [..|exact P|exact H|exact T]; try reflexivity.
  intros [|i] o G; simpl in G; try (destruct i; discriminate G); injection G as <-; split; simpl; auto.
Qed.
