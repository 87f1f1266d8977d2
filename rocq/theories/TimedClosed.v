(** C47, after the shutdown: once the context's thread has closed the context, no command is accepted any more, so an operation that is started then is not lost in the queue. *)
From Coq Require Import List Arith Bool ZArith Lia.
From Verif Require Import Conc MpscModel MpscProofs MpscProperties TimedModel TimedProofs TimedProperties.
Import ListNotations.
Local Open Scope Z_scope.
Notation step := TimedModel.step.
Notation runs := TimedModel.runs.
Notation reachable := TimedModel.reachable.
Notation init := TimedModel.init.
Notation log := TimedModel.log.

(** the number of operations does not overflow the counter *)
Definition small (s : state) : Prop := 2 * Z.of_nat (length (ops s)) < 2 ^ 62.
Definition closed (r : rpc) : bool := match r with RD | RY _ | RYc _ | RExit => true | _ => false end.
Definition past (o : oper) : Z :=
  match sp o with SF _ | SFc _ | SG _ | SD => 1 | _ => 0 end + match kp o with KF _ | KFc _ | KG _ | KReqd => 1 | _ => 0 end.
Definition J (s : state) : Prop :=
  if closed (rp s) then sumz win (ops s) = 0 /\ context_closed <= nsub s <= context_closed + sumz past (ops s)
  else nsub s = sumz win (ops s) /\ forall i o, nth_error (ops s) i = Some o -> closedS (sp o) || closedK (kp o) = false.
Lemma win_nn o : 0 <= win o. Proof. unfold win. destruct (sp o), (kp o); lia. Qed.
Lemma past_nn o : 0 <= past o <= 2. Proof. unfold past. destruct (sp o), (kp o); lia. Qed.
Lemma past_le s : sumz past (ops s) <= 2 * Z.of_nat (length (ops s)).
Proof. induction (ops s) as [|o l IH]; cbn [sumz length]; [lia|]. pose proof (past_nn o). lia. Qed.
Lemma win_ge s i o : nth_error (ops s) i = Some o -> 0 <= win o <= sumz win (ops s).
Proof. intros E. split; [apply win_nn|]. eapply sumz_ge; eauto. apply win_nn. Qed.
Lemma J_init l c : J (init l c).
Proof.
  unfold J, init. cbn. split.
  - induction l; cbn; auto.
  - intros i o H. apply nth_error_In in H. apply in_map_iff in H. destruct H as (t & <- & _). reflexivity.
Qed.
(** operation i changes from o to o' *)
Lemma J_upd s i o o' n' r' : nth_error (ops s) i = Some o -> J s -> closed r' = closed (rp s) ->
  (closed (rp s) = true -> win o = 0 -> context_closed <= nsub s <= context_closed + sumz past (ops s) -> win o' = 0 /\ context_closed <= n' <= context_closed + sumz past (ops s) - past o + past o') ->
  (closed (rp s) = false -> 0 <= nsub s -> closedS (sp o) || closedK (kp o) = false -> n' = nsub s - win o + win o' /\ closedS (sp o') || closedK (kp o') = false) ->
  if closed r' then sumz win (upd (ops s) i o') = 0 /\ context_closed <= n' <= context_closed + sumz past (upd (ops s) i o')
  else n' = sumz win (upd (ops s) i o') /\ forall i0 o0, nth_error (upd (ops s) i o') i0 = Some o0 -> closedS (sp o0) || closedK (kp o0) = false.
Proof.
  intros E H -> A B. unfold J in H. pose proof (win_ge s i o E) as W. rewrite (sumz_upd win _ _ o' E), (sumz_upd past _ _ o' E). destruct (closed (rp s)).
  - destruct H as [H1 H2]. destruct (A eq_refl) as [A1 A2]; [lia..|]. split; lia.
  - destruct H as [H1 H2]. assert (N : 0 <= nsub s). { rewrite H1. apply sumz_nonneg. apply win_nn. } destruct (B eq_refl N (H2 _ _ E)) as [B1 B2]. split; [lia|].
    intros j x X. destruct (Nat.eq_dec i j) as [<-|D].
    + rewrite (nth_upd_same _ _ o' E) in X. injection X as <-. exact B2.
    + rewrite nth_upd_other in X by auto. eauto.
Qed.
Lemma J_close s : J s -> rp s = RC -> (nsub s =? 0) = true -> sumz win (ops s) = 0 /\ context_closed <= context_closed <= context_closed + sumz past (ops s).
Proof.
  unfold J. intros H E N. rewrite E in H. cbn [closed] in H. destruct H as [H _]. apply Z.eqb_eq in N. pose proof (sumz_nonneg past (ops s) (fun o => proj1 (past_nn o))). split; [congruence|lia].
Qed.
Lemma J_step s a s' : reachable s -> small s -> J s -> step a s = Some s' -> J s'.
Proof.
  intros R Sm H0 H. pose proof (past_le s) as PL. unfold small in Sm. assert (H0' := H0). unfold J in H0 |- *.
  destruct a; cbn [step] in H; unfold s_step, k_step, r_step, drop_ref, end_op in H; ds H.
  all: repeat match goal with E : push_step _ _ = Some _ |- _ => apply push_cases in E;
     destruct E as [m' [E1' [E2' [E3' [q1 [q2 [q3 [q4 [q5 ->]]]]]]]]] end.
  all: repeat match goal with E : MpscModel.step _ (APush _) _ = Some _ |- _ => apply q_push in E; destruct E as [E1' [E2' E3']] end.
  all: try match goal with H : finish _ _ _ _ = Some _ |- _ => unfold finish in H; pr;
       match type of H with match reset ?k with _ => _ end = _ => destruct (reset k) eqn:Rk; [|discriminate H] end end.
  all: inj; pr.
  all: try match goal with |- context [if ?b then set_nsub _ _ else _] => destruct b eqn:?; pr end.
  all: try match goal with |- context [closed (if ?b then _ else _)] => destruct b eqn:? end.
  all: try match goal with |- context [closed match ?c with CIdle => _ | _ => _ end] => destruct c; [match goal with |- context [MpscModel.log ?m] => destruct (MpscModel.log m) as [|[] ?] end|..] end.
  all: try assumption.
  all: try match goal with E : rp _ = _ |- _ => rewrite E in H0; cbn [closed] in H0 |- *; assumption end.
  all: try (eapply J_close; [exact H0'|eassumption|eassumption]).
  all: try match goal with Rk : reset (kp ?o) = Some ?k |- _ => assert (kp o = k \/ kp o = KReg /\ k = KNone) by (clear -Rk; destruct (kp o); cbn in Rk; inversion Rk; auto) end.
  all: try (eapply J_upd; [eassumption|exact H0'|try match goal with E : rp _ = _ |- _ => rewrite E end; reflexivity|..]).
  all: clear H0 H0' R; unfold context_closed in *; change (2 ^ 62) with 4611686018427387904 in *.
  all: repeat match goal with H : context [sumz ?a (ops ?s)] |- _ => let x := fresh in set (x := sumz a (ops s)) in *; clearbody x end.
  all: unfold win, past; cbn [sp kp w_sp w_kp w_ref tm ref] in *.
  all: repeat match goal with E : sp _ = _ |- _ => rewrite E in * | E : kp _ = _ |- _ => rewrite E in * | E : (_ <? _) = true |- _ => apply Z.ltb_lt in E | E : (_ <? _) = false |- _ => apply Z.ltb_ge in E end.
  all: intros.
  all: try match goal with H : kp ?o = _ \/ _ |- _ => destruct H as [H|[H ?]]; subst; rewrite ?H in * end.
  all: repeat match goal with |- context [if ?b then _ else _] => destruct b end; cbn [closedS closedK orb] in *.
  all: try (split; [lia|first [lia|reflexivity|assumption]]).
  all: try (exfalso; destruct (sp o); lia). all: try (exfalso; destruct (kp o); lia).
Qed.
Lemma ops_len s a s' : reachable s -> step a s = Some s' -> length (ops s') = length (ops s).
Proof.
  intros R H.
  destruct a; cbn [step] in H; unfold s_step, k_step, r_step, drop_ref, end_op in H; ds H.
  all: repeat match goal with E : push_step _ _ = Some _ |- _ => apply push_cases in E;
     destruct E as [m' [E1' [E2' [E3' [q1 [q2 [q3 [q4 [q5 ->]]]]]]]]] end.
  all: try match goal with H : finish _ _ _ _ = Some _ |- _ => unfold finish in H; pr;
       match type of H with match reset ?k with _ => _ end = _ => destruct (reset k) eqn:Rk; [|discriminate H] end end.
  all: inj; repeat match goal with |- context [if ?b then _ else _] => destruct b end; pr; rewrite ?upd_length; reflexivity.
Qed.
Lemma J_reach s : reachable s -> small s -> J s.
Proof.
  revert s. apply (reach_ind (fun s => small s -> J s)).
  - intros l c _. apply J_init.
  - intros s a s' R IH H S. assert (S0 : small s) by (unfold small in *; rewrite <- (ops_len s a s' R H); exact S). eapply J_step; eauto.
Qed.

(** When the context's thread has left run(), the context is closed: whatever happens afterwards, no command is put into its queue any more.  An operation that is started then, or a stop that is requested,
    is dealt with by the thread that makes the call (as long as fewer than 2^61 operations exist). *)
Theorem C47_closed_accepts_nothing : forall s a s', reachable s -> small s -> rp s = RExit -> step a s = Some s' -> rp s' = RExit /\ forall n, busy (mq s') n = true -> busy (mq s) n = true.
Proof.
  intros s a s' R Sm X H. pose proof (J_reach s R Sm) as Hj. unfold J in Hj. rewrite X in Hj. cbn [closed] in Hj. destruct Hj as [Hw Hn].
  split; [eapply exit_stays; eauto|]. pose proof (past_le s) as PL. unfold small in Sm. unfold context_closed in Hn.
  assert (Nn : nsub s <? 0 = true) by (apply Z.ltb_lt; lia).
  destruct a; cbn [step] in H; unfold s_step, k_step, r_step, drop_ref, end_op in H; try (rewrite X in H; discriminate H); rewrite ?Nn in H; ds H.
  all: try match goal with E : nth_error (ops ?s) ?i = Some ?o, E1 : sp ?o = SP |- _ => exfalso; pose proof (win_ge s i o E) as W; rewrite Hw in W; unfold win in W; rewrite E1 in W; destruct (kp o); lia end.
  all: try match goal with E : nth_error (ops ?s) ?i = Some ?o, E1 : kp ?o = KP |- _ => exfalso; pose proof (win_ge s i o E) as W; rewrite Hw in W; unfold win in W; rewrite E1 in W; destruct (sp o); lia end.
  all: try match goal with H : finish _ _ _ _ = Some _ |- _ => unfold finish in H; pr;
       match type of H with match reset ?k with _ => _ end = _ => destruct (reset k) eqn:Rk; [|discriminate H] end end.
  all: intros nn HH; try discriminate H; inj; revert HH; repeat match goal with |- context [if ?b then _ else _] => destruct b end; pr; intros HH; try exact HH.
Qed.
(** ... and an operation that is started then is reported stopped before its start() returns. *)
Theorem C47_started_after_shutdown : forall s i o, reachable s -> small s -> rp s = RExit -> op s i = Some o -> sp o = S0 -> kp o = KNone ->
  exists s', runs (AStart i :: repeat (AS i) 6) s = Some s' /\ log s' = ERet i :: EComp i Stopped (clock s) :: EStart i :: log s.
Proof.
  intros s i o R Sm X E P K. pose proof (J_reach s R Sm) as Hj. unfold J in Hj. rewrite X in Hj. cbn [closed] in Hj. destruct Hj as [Hw Hn].
  pose proof (past_le s) as PL. unfold small in Sm. unfold context_closed in Hn. assert (Nn : nsub s <? 0 = true) by (apply Z.ltb_lt; lia).
  pose proof (i_ok (reach_inv R) _ E) as O. unfold ok in O. rewrite P in O. destruct O as (_ & _ & _ & O & _).
  unfold op in E. destruct o as [t r p k]. cbn in P, K, O. subst p k r.
  assert (U : forall v w, upd (upd (ops s) i v) i w = upd (ops s) i w).
  { clear. intros v w. revert i. induction (ops s) as [|x l IH]; intros [|i]; cbn; auto. f_equal. apply IH. }
  assert (Nx : forall v, nth_error (upd (ops s) i v) i = Some v) by (intros v; apply (nth_upd_same _ _ v E)).
  (* what is known after each step *)
  set (at_ := fun x v n l => ops x = upd (ops s) i v /\ nsub x = n /\ clock x = clock s /\ log x = l).
  assert (Go : forall x v n l v' n' l' acts, at_ x v n l ->
    (forall y, ops y = upd (ops s) i v -> nsub y = n -> clock y = clock s -> log y = l -> exists y', s_step i v y = Some y' /\ at_ y' v' n' l') ->
    (forall y', at_ y' v' n' l' -> exists z, runs acts y' = Some z /\ log z = ERet i :: EComp i Stopped (clock s) :: EStart i :: log s) ->
    exists z, runs (AS i :: acts) x = Some z /\ log z = ERet i :: EComp i Stopped (clock s) :: EStart i :: log s).
  { intros x v n l v' n' l' acts (A1 & A2 & A3 & A4) B C. destruct (B x A1 A2 A3 A4) as (y' & Y1 & Y2). cbn [runs step]. rewrite A1, Nx, Y1. apply C, Y2. }
  cbn [repeat]. 
  assert (F : exists x, step (AStart i) s = Some x /\ at_ x (mko t 0 S1 KNone) (nsub s) (EStart i :: log s)).
  { cbn [step]. rewrite E. cbn [sp]. eexists. split; [reflexivity|]. unfold at_. pr. auto. }
  destruct F as (x & F1 & F2). cbn [runs]. rewrite F1. change (match step (AS i) x with Some s' => _ | None => None end) with (runs (repeat (AS i) 6) x). clear F1. cbn [repeat].
  eapply Go with (v' := mko t 0 S2 KReg) (n' := nsub s) (l' := EStart i :: log s); [exact F2|intros y Y1 Y2 Y3 Y4; cbn [s_step sp kp ref finish reset w_sp w_kp w_ref Z.eqb tm]; eexists; split; [reflexivity|]; unfold at_; pr; rewrite ?Y1, ?Y2, ?Y3, ?Y4, ?U; auto|]. clear F2 x. intros x F2.
  eapply Go with (v' := mko t 1 S3 KReg) (n' := nsub s) (l' := EStart i :: log s); [exact F2|intros y Y1 Y2 Y3 Y4; cbn [s_step sp kp ref finish reset w_sp w_kp w_ref Z.eqb tm]; eexists; split; [reflexivity|]; unfold at_; pr; rewrite ?Y1, ?Y2, ?Y3, ?Y4, ?U; auto|]. clear F2 x. intros x F2.
  eapply Go with (v' := mko t 1 (SF (nsub s)) KReg) (n' := nsub s + 1) (l' := EStart i :: log s); [exact F2|intros y Y1 Y2 Y3 Y4; cbn [s_step sp kp ref finish reset w_sp w_kp w_ref Z.eqb tm]; rewrite Y2, Nn; eexists; split; [reflexivity|]; unfold at_; pr; rewrite ?Y1, ?Y2, ?Y3, ?Y4, ?U; auto|]. clear F2 x. intros x F2.
  eapply Go with (v' := mko t 0 (SFc (nsub s)) KReg) (n' := nsub s + 1) (l' := EStart i :: log s); [exact F2|intros y Y1 Y2 Y3 Y4; cbn [s_step sp kp ref finish reset w_sp w_kp w_ref Z.eqb tm]; eexists; split; [reflexivity|]; unfold at_; pr; rewrite ?Y1, ?Y2, ?Y3, ?Y4, ?U; auto|]. clear F2 x. intros x F2.
  eapply Go with (v' := mko t 0 (SG (nsub s)) KNone) (n' := nsub s + 1) (l' := EComp i Stopped (clock s) :: EStart i :: log s); [exact F2|intros y Y1 Y2 Y3 Y4; cbn [s_step sp kp ref finish reset w_sp w_kp w_ref Z.eqb tm]; eexists; split; [reflexivity|]; unfold at_; pr; rewrite ?Y1, ?Y2, ?Y3, ?Y4, ?U; auto|]. clear F2 x. intros x F2.
  destruct F2 as (F1 & F2 & F3 & F4). cbn [runs step]. rewrite F1, Nx. cbn [s_step sp]. eexists. split; [reflexivity|]. pr. destruct (nsub x =? nsub s); pr; rewrite F4; reflexivity.
Qed.
(** the context shuts down, then operation 0 is started *)
Example shutdown_ex : option_map (fun s => (rp s, log s)) (runs (rep 4 AR ++ AStop :: rep 3 AR ++ AStart 0 :: rep 6 (AS 0)) (init [5] 0))
  = Some (RExit, [ERet 0; EComp 0 Stopped 0; EStart 0; EStop]).
Proof. vm_compute. reflexivity. Qed.
