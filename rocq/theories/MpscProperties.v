(** * MpscProperties: what the consumer and producers of __intrusive_mpsc_queue can rely on (C24).

    The events of a history (newest first in [log]): [EEnq n] is the instant the push of n takes
    its place in the queue, [ELink n b] the instant push_back(n) returns b, [ECall] a call of
    pop_front, [EDeq n] and [ENull] what it returns.  [enqs]/[deqs] list the nodes enqueued and
    returned, oldest first; a history holds exactly [enqs] minus [deqs]. *)
From Coq Require Import List Arith Bool Lia ZArith.
From Verif Require Import Conc QueueModel QueueProofs MpscModel MpscProofs.
Import ListNotations.
Set Implicit Arguments.
#[local] Arguments Z.add : simpl never.
#[local] Arguments Z.sub : simpl never.
#[local] Arguments Z.of_nat : simpl never.

Fixpoint runs (l : list (tid * action)) (s : state) : option state :=
  match l with
  | [] => Some s
  | (t, a) :: l => match step t a s with Some s' => runs l s' | None => None end
  end.
Lemma runs_reachable l : forall s s', reachable s -> runs l s = Some s' -> reachable s'.
Proof.
  induction l as [|[t a] l IH]; simpl; intros s s' R H; [inversion H; subst; auto|].
  destruct (step t a s) eqn:E; [|discriminate]. eapply IH; [|eauto]. eapply r_step; eauto.
Qed.

(** a step adds at most one event *)
Lemma step_log t a s s' : step t a s = Some s' -> log s' = log s \/ exists e, log s' = e :: log s.
Proof.
  intros H. destruct a; simpl in H; unfold cons_step in H;
  repeat match type of H with context [match ?x with _ => _ end] => destruct x; try discriminate end;
  inversion H; subst; simpl; eauto.
Qed.

(** every earlier history was the history of an earlier state *)
Lemma log_suffix s : reachable s -> forall l2 l1, log s = l2 ++ l1 -> exists s1, reachable s1 /\ log s1 = l1.
Proof.
  induction 1 as [k h|s t a s' R IH H]; intros l2 l1 E.
  - simpl in E. symmetry in E. apply app_eq_nil in E. destruct E as [-> ->].
    exists (init k h). split; [constructor|auto].
  - destruct (step_log _ _ _ H) as [L|[e L]].
    + apply (IH l2 l1). congruence.
    + destruct l2 as [|e' l2]; simpl in E.
      * exists s'. split; [eapply r_step; eauto|auto].
      * apply (IH l2 l1). rewrite L in E. inversion E; auto.
Qed.

(** ** Order: at every moment of every history, the nodes returned so far are the first ones
    enqueued, in that order: none lost, none duplicated, none invented. *)
Theorem C24_fifo : forall s, reachable s -> forall l2 l1, log s = l2 ++ l1 ->
  exists rest, enqs l1 = deqs l1 ++ rest.
Proof.
  intros s R l2 l1 E. destruct (log_suffix R _ _ E) as (s1 & R1 & <-).
  exists (nonstub (chain s1)). apply (i_fifo (reachable_inv R1)).
Qed.

(** ** The stub is never handed out *)
Lemma enqs_ns s : reachable s -> ~ In stub (enqs (log s)).
Proof.
  induction 1 as [k h|s t a s' R IH H]; [simpl; auto|].
  pose proof (reachable_inv R) as I.
  destruct a; simpl in H; unfold cons_step in H;
  repeat match type of H with context [match ?x with _ => _ end] => destruct x eqn:?; try discriminate end;
  inversion H; subst; simpl; auto.
  intros K. apply in_app_or in K. destruct K as [K|[K|[]]]; auto. subst.
  apply (i_ns I _ Heqo). auto.
Qed.
Theorem C24_never_stub : forall s, reachable s -> forall n, In (EDeq n) (log s) -> n <> stub.
Proof.
  intros s R n H ->. apply (enqs_ns R). rewrite (i_fifo (reachable_inv R)). apply in_or_app. left.
  clear R. induction (log s) as [|e l IH]; [destruct H|]. destruct H as [-> |H]; simpl.
  - apply in_or_app; simpl; auto.
  - destruct e; auto. apply in_or_app; auto.
Qed.

(** ** When pop_front returns null: at some moment between its call and its return the queue was
    empty (everything enqueued had been returned) or some push_back had taken its place in the
    queue without having returned yet. *)
Definition empty_or_pushing (l : list event) : Prop := enqs l = deqs l \/ pushing l.

Lemma null_events s : reachable s -> forall l2 l1, log s = l2 ++ ENull :: l1 ->
  exists a b, l1 = a ++ b /\ cnt is_call a = 0 /\ empty_or_pushing b.
Proof.
  induction 1 as [k h|s t a s' R IH H]; intros l2 l1 E.
  - simpl in E. destruct l2; discriminate.
  - pose proof (reachable_inv R) as I.
    destruct (step_log _ _ _ H) as [L|[e L]]; [apply (IH l2 l1); congruence|].
    destruct l2 as [|e' l2]; simpl in E; [|rewrite L in E; inversion E; subst; eapply IH; eauto].
    rewrite L in E. inversion E; subst. clear E IH.
    assert (K : log s' = ENull :: log s) by auto. clear L.
    assert (cons_step s = Some s').
    { destruct a; simpl in H; auto;
      repeat match type of H with context [match ?x with _ => _ end] => destruct x eqn:?; try discriminate end;
      inversion H; subst; simpl in K; try discriminate; apply (f_equal (@length event)) in K; simpl in K; lia. }
    clear H. unfold cons_step in H0.
    assert (LK : log s <> ENull :: log s).
    { intros Q. apply (f_equal (@length event)) in Q. simpl in Q. lia. }
    destruct (con s) eqn:Hc; try discriminate.
    + destruct (next s (tail s)) as [nx|] eqn:Hn; destruct (Nat.eqb_spec (tail s) stub) as [Et|Et];
        inversion H0; subst; simpl in K; try congruence; try discriminate.
      exists [], (log s). split; [|split]; auto.
      destruct (null_next I Hn) as [[K1 K2]|]; try congruence; [left|right; auto].
      rewrite (i_fifo I), K1, Et. simpl. rewrite app_nil_r. auto.
    + destruct (next s (tail s)) as [nx|] eqn:Hn; inversion H0; subst; simpl in K; congruence.
    + destruct (Nat.eqb_spec (tail s) (head s)) as [Et|Et]; inversion H0; subst; simpl in K; try congruence.
      destruct (i_c3 I Hc) as [|(a' & b & E1 & E2 & E3)]; [tauto|].
      exists a', b. split; [|split]; auto. right; auto.
    + inversion H0; subst; simpl in K; congruence.
    + inversion H0; subst; simpl in K; congruence.
    + inversion H0; subst; simpl in K; congruence.
    + destruct (next s (tail s)) as [nx|] eqn:Hn; inversion H0; subst; simpl in K; try congruence.
      exists [], (log s). split; [|split]; auto. right.
      destruct (null_next I Hn) as [[K1 K2]|]; try congruence; auto.
      pose proof (i_c7 I Hc) as Ks. rewrite K1 in Ks. destruct Ks as [Ks|[]].
      destruct (i_past I); auto. rewrite Hc; simpl; auto.
Qed.

Theorem C24_null_only_if_empty_or_push_in_progress : forall s, reachable s ->
  forall l2 l1, log s = l2 ++ ENull :: l1 ->
  exists a b, l1 = a ++ b /\ ~ In ECall a /\ (enqs b = deqs b \/ exists n, cnt (is_link n) b < cnt (is_enq n) b).
Proof.
  intros s R l2 l1 E. destruct (null_events R _ _ E) as (a & b & E1 & E2 & E3).
  exists a, b. split; [|split]; auto. intros K. rewrite cnt_zero in E2. apply E2 in K. discriminate.
Qed.

(** ** No lost wake-up of data: with no push in progress, pop_front run to its end returns the
    oldest node of a non-empty queue, and null of an empty one. *)
Definition quiet (s : state) : Prop := forall t p n, nth_error (thr s) t <> Some (PLink p n).

Inductive crun : nat -> state -> state -> Prop :=
| cr_0 s : crun 0 s s
| cr_S k s s1 s2 : cons_step s = Some s1 -> crun k s1 s2 -> crun (S k) s s2.
Lemma crun_runs k s s' : crun k s s' -> runs (repeat (0, ACons) k) s = Some s'.
Proof. induction 1; simpl; auto. rewrite H. auto. Qed.
Ltac rw := repeat match goal with
  | H : next ?s ?x = _ |- context [next ?s ?x] => rewrite H
  | H : (?x =? stub) = _ |- context [?x =? stub] => rewrite H
  | H : tail ?s = stub |- context [tail ?s] => rewrite H
  | H : head ?s = _ |- context [head ?s] => rewrite H
  | |- context [?x =? ?x] => rewrite Nat.eqb_refl
  | |- context [fset _ ?x _ ?x] => rewrite fset_same
  end.
Ltac one := eapply cr_S; [unfold cons_step; simpl; rw; simpl; rw; reflexivity|].
Theorem C24_pop_when_quiet : forall s, reachable s -> con s = CIdle -> quiet s ->
  forall rest, enqs (log s) = deqs (log s) ++ rest ->
  exists k s', runs ((0, APop) :: repeat (0, ACons) k) s = Some s' /\ con s' = CIdle /\
    log s' = match rest with [] => ENull | n :: _ => EDeq n end :: ECall :: log s.
Proof.
  intros s R Hc Q rest E. pose proof (reachable_inv R) as I.
  assert (G : exists k s', crun k (w_log (w_con s C0) ECall) s' /\ con s' = CIdle /\
    log s' = match rest with [] => ENull | n :: _ => EDeq n end :: ECall :: log s).
  2:{ destruct G as (k & s' & G & G'). exists k, s'. split; auto. simpl. rewrite Hc. apply crun_runs; auto. }
  assert (rest = nonstub (chain s)) as ->.
  { rewrite (i_fifo I) in E. apply app_inv_head in E. auto. }
  assert (LK : forall a b, adj a b (chain s) -> next s a = Some b).
  { intros a b A. destruct (i_adj I A) as [K|[_ [[t Ht]|[K _]]]]; auto; [destruct (Q t a b); auto|congruence]. }
  pose proof (chain_nodup I) as ND.
  destruct (i_tail I) as [r Er], (i_head I) as [l El]. pose proof (i_last I) as La.
  rewrite Er in *. simpl (nonstub _).
  assert (HD : forall x, tail s :: r = [x] -> head s = x).
  { intros x K. rewrite K in El. destruct l as [|? [|]]; inversion El; auto. }
  assert (Tb : tail s = stub \/ (tail s =? stub) = false).
  { destruct (Nat.eqb_spec (tail s) stub); auto. }
  destruct Tb as [Et|Et]; rewrite Et; simpl.
  - destruct r as [|y r].
    + rewrite (HD (tail s)) in La by auto. exists 1. eexists. split; [do 1 one; apply cr_0|simpl; rw; auto].
    + assert (Hn : next s (tail s) = Some y) by (apply LK; exists [], r; auto).
      inversion ND as [|? ? N1 N2]; subst.
      assert (Ey : (y =? stub) = false).
      { apply Nat.eqb_neq. intros ->. apply N1. rewrite Et. simpl; auto. }
      simpl. rewrite Ey. simpl. rewrite Et in Hn.
      destruct r as [|z r].
      * assert (Eh : head s = y). { destruct l as [|? [|? [|]]]; inversion El; auto. }
        rewrite Eh in La. exists 7. eexists. split; [do 7 one; apply cr_0|simpl; rw; auto].
      * assert (Hn' : next s y = Some z) by (apply LK; exists [tail s], r; auto).
        exists 2. eexists. split; [do 2 one; apply cr_0|simpl; rw; auto].
  - destruct r as [|y r].
    + assert (Eh : head s = tail s) by (apply HD; auto). rewrite Eh in La.
      exists 6. eexists. split; [do 6 one; apply cr_0|simpl; rw; auto].
    + assert (Hn : next s (tail s) = Some y) by (apply LK; exists [], r; auto).
      exists 1. eexists. split; [do 1 one; apply cr_0|simpl; rw; auto].
Qed.

(** ** The result of push_back: false only if the queue held something when the node took its
    place.  (The converse does not hold: see [C24_push_true_not_empty_refuted].) *)
Definition enq_nonempty (n : nat) (l : list event) : Prop :=
  exists a b, l = a ++ EEnq n :: b /\ cnt (is_enq n) a = 0 /\ enqs b <> deqs b.

Lemma pending_nonempty s : reachable s -> forall t p n, nth_error (thr s) t = Some (PLink p n) -> p <> stub ->
  enq_nonempty n (log s).
Proof.
  assert (EXT : forall e l n, is_enq n e = false -> enq_nonempty n l -> enq_nonempty n (e :: l)).
  { intros e l n E (a & b & -> & H1 & H2). exists (e :: a), b. simpl. rewrite E. auto. }
  induction 1 as [k h|s t a s' R IH H]; intros u p n Hu Hp.
  - simpl in Hu. apply nth_repeat_some in Hu. discriminate.
  - pose proof (reachable_inv R) as I.
    destruct a as [m| | | |m v]; simpl in H.
    + destruct (nth_error (thr s) t) as [[]|] eqn:Ht; try discriminate.
      destruct (busy s m || (m =? stub)); inversion H; subst; simpl in *.
      rewrite (nth_upd _ _ _ _ Ht) in Hu. destruct (t =? u); [discriminate|]. eapply IH; eauto.
    + destruct (nth_error (thr s) t) as [[]|] eqn:Ht; inversion H; subst; simpl in *;
      rewrite (nth_upd _ _ _ _ Ht) in Hu; destruct (Nat.eqb_spec t u); try discriminate.
      * eapply IH; eauto.
      * inversion Hu; subst. exists [], (log s). simpl. split; [|split]; auto.
        intros K. rewrite (i_fifo I) in K. apply (f_equal (@length nat)) in K. rewrite app_length in K.
        destruct (i_head I) as [l El]. rewrite El, nonstub_app in K. simpl in K.
        destruct (Nat.eqb_spec (head s) stub); [tauto|]. rewrite app_length in K. simpl in K. lia.
      * apply EXT; [|eapply IH; eauto]. simpl. apply Nat.eqb_neq. intros <-.
        assert (P : pend s p n) by (left; eauto). apply (i_pend I) in P. destruct P as [P _].
        apply adj_in in P. destruct P as [_ P].
        apply (own_chain I _ Ht (x := n)) in P; auto; [simpl; rewrite Nat.eqb_refl; lia|apply (i_ns I _ Ht)].
      * apply EXT; auto. eapply IH; eauto.
    + destruct (con s); inversion H; subst; simpl in *. apply EXT; auto. eapply IH; eauto.
    + assert (TH : thr s' = thr s /\ (log s' = log s \/ exists e, log s' = e :: log s /\ forall n, is_enq n e = false)).
      { unfold cons_step in H;
        repeat match type of H with context [match ?x with _ => _ end] => destruct x; try discriminate end;
        inversion H; subst; simpl; eauto 8. }
      destruct TH as [T L]. rewrite T in Hu. specialize (IH _ _ _ Hu Hp).
      destruct L as [-> |(e & -> & Le)]; auto.
    + destruct (busy s m || (m =? stub)); inversion H; subst; simpl in *. eapply IH; eauto.
Qed.

Theorem C24_push_false_nonempty : forall s, reachable s -> forall n l2 l1,
  log s = l2 ++ ELink n false :: l1 ->
  exists a b, l1 = a ++ EEnq n :: b /\ cnt (is_enq n) a = 0 /\ enqs b <> deqs b.
Proof.
  induction 1 as [k h|s t a s' R IH H]; intros n l2 l1 E.
  - simpl in E. destruct l2; discriminate.
  - destruct (step_log _ _ _ H) as [L|[e L]]; [apply (IH n l2 l1); congruence|].
    destruct l2 as [|e' l2]; simpl in E; [|rewrite L in E; inversion E; subst; eapply IH; eauto].
    rewrite L in E. inversion E; subst. clear E IH.
    assert (LK : forall e, log s <> e :: log s).
    { intros e Q. apply (f_equal (@length event)) in Q. simpl in Q. lia. }
    destruct a as [m| | | |m v]; simpl in H; unfold cons_step in H;
    repeat match type of H with context [match ?x with _ => _ end] => destruct x eqn:?; try discriminate end;
    inversion H; subst; simpl in L; try (inversion L; fail); try (destruct (LK _ L)).
    inversion L; subst. eapply pending_nonempty; eauto. intros ->. rewrite Nat.eqb_refl in *. discriminate.
Qed.

(** ** Concrete histories *)
Definition P (t : tid) := (t, AProd).
Definition C : tid * action := (0, ACons).
(** two producers race; the consumer drains; node 7 is pushed twice *)
Definition demo : list (tid * action) :=
  [(0, APush 7); (1, APush 8); P 0; P 1; P 1; P 0; P 0;   (* 8 exchanged first, 7 linked *)
   (0, APop); C;                                          (* null: the push of 8 is in progress *)
   P 1; (0, APop); C; C;                                  (* 8 *)
   (0, APop); C; C; C; C; C; C;                           (* 7, by re-inserting the stub *)
   (0, APop); C;                                          (* null: empty *)
   (1, APush 7); P 1; P 1; P 1; (0, APop); C; C; C; C; C; C; C].
Example demo_history : option_map (fun s => rev (log s)) (runs demo (init 2 (fun _ => None))) =
  Some [EEnq 8; EEnq 7; ELink 7 false; ECall; ENull; ELink 8 true; ECall; EDeq 8; ECall; EDeq 7;
        ECall; ENull; EEnq 7; ELink 7 true; ECall; EDeq 7].
Proof. reflexivity. Qed.

(** push_back may return true although the queue holds a node: the stub was just re-inserted
    behind node 7, which the consumer has not returned yet *)
Theorem C24_push_true_not_empty_refuted :
  exists s, reachable s /\ exists a b, log s = ELink 8 true :: a ++ EEnq 8 :: b /\ enqs b <> deqs b.
Proof.
  destruct (runs [(0, APush 7); P 0; P 0; P 0; (0, APop); C; C; C; C; C; C; (1, APush 8); P 1; P 1; P 1]
              (init 2 (fun _ => None))) as [s|] eqn:E; [|exfalso; vm_compute in E; discriminate].
  exists s. split; [eapply runs_reachable; [constructor|exact E]|].
  assert (L : log s = [ELink 8 true; EEnq 8; ECall; ELink 7 true; EEnq 7]) by (vm_compute in E; inversion E; reflexivity).
  exists [], [ECall; ELink 7 true; EEnq 7]. rewrite L. split; [auto|discriminate].
Qed.

Print Assumptions C24_fifo.
Print Assumptions C24_never_stub.
Print Assumptions C24_null_only_if_empty_or_push_in_progress.
Print Assumptions C24_pop_when_quiet.
Print Assumptions C24_push_false_nonempty.
Print Assumptions C24_push_true_not_empty_refuted.
