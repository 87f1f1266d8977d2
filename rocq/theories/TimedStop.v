(** C47: stop requested before start(). *)
From Coq Require Import List ZArith Bool Arith Lia.
From Verif Require Import Conc MpscModel MpscProofs MpscProperties TimedModel TimedProofs TimedProperties.
Import ListNotations.
Set Implicit Arguments.
Open Scope Z_scope.
Notation step := TimedModel.step.
Notation runs := TimedModel.runs.
Notation reachable := TimedModel.reachable.
Notation init := TimedModel.init.
Notation log := TimedModel.log.
Arguments comps : simpl never.

(** Stop of operation [i] was requested before it was started. *)
Definition stopped_first (i : nat) (l : list event) : Prop :=
  exists l1 l2, l = l1 ++ EStart i :: l2 /\ In (EReq i) l2.

Lemma sf_cons i e l : stopped_first i (e :: l) <-> stopped_first i l \/ (e = EStart i /\ In (EReq i) l).
Proof.
  split.
  - intros (l1 & l2 & E & H). destruct l1 as [|x l1]; cbn [app] in E; injection E as E1 E2.
    + right. subst. auto.
    + left. exists l1, l2. auto.
  - intros [(l1 & l2 & -> & H)|[-> H]].
    + exists (e :: l1), l2. auto.
    + exists [], l. auto.
Qed.

Definition hasreq (k : kpc) : Prop := match k with KNone | KReg => False | _ => True end.
Definition kq (s : state) : Prop := forall i o, op s i = Some o -> In (EReq i) (log s) -> hasreq (kp o).
Definition pre (s : state) : Prop := forall i o, op s i = Some o -> stopped_first i (log s) ->
  kp o = KReqd /\ (sp o = S1 \/ sp o = S2 \/ sp o = SA \/ (sp o = SD /\ exists t, In (EComp i Stopped t) (log s))) /\
  (forall x t, In (EComp i x t) (log s) -> x = Stopped).

Lemma kq_inv s : reachable s -> kq s.
Proof.
  intros R. induction R as [l c|s a s' R IH H] using reach_ind.
  - intros i o _ [].
  - intros j o' E C. unfold op in E.
    assert (K : forall o, nth_error (ops s) j = Some o -> In (EReq j) (log s) -> hasreq (kp o)) by (intros o Ho; exact (IH _ _ Ho)).
    destruct a; cbn [step] in H; unfold s_step, k_step, r_step, drop_ref, end_op in H; ds H.
    all: repeat match goal with E : push_step _ _ = Some _ |- _ => apply push_cases in E; destruct E as [? [? [? [? [? [? [? [? [? ->]]]]]]]]] end; inj.
    all: try match goal with H : finish _ _ _ _ = Some _ |- _ => unfold finish in H; pr;
       match type of H with match reset ?k with _ => _ end = _ => destruct (reset k) eqn:Rk; [|discriminate H] end end; inj.
    all: repeat match goal with |- context [if ?b then _ else _] => destruct b | E : context [if ?b then _ else _] |- _ => destruct b end.
    all: pr; cbn [In] in C; nths; eqi; pr; rws; try contradiction; try exact I.
    all: try match goal with K : forall o, nth_error (ops ?x) ?j = Some o -> _, E : nth_error (ops ?x) ?j = Some _ |- _ => specialize (K _ E) end; rws; cbn [hasreq] in *; try tauto.
    all: try (destruct C as [C|C]; [first [discriminate C|congruence]|]); try tauto.
    all: try match goal with Rk : reset ?q = Some _ |- _ => destruct q; simpl in Rk; try discriminate Rk; injection Rk as <-; cbn [hasreq] in *; tauto end.
Qed.

Lemma comp_pos i x t l : In (EComp i x t) l -> 0 < Z.of_nat (comps i l).
Proof.
  intros C. assert ((0 < comps i l)%nat); [|lia]. unfold comps. apply cnt_pos. exists (EComp i x t). rewrite Nat.eqb_refl. auto.
Qed.

Lemma pre_inv s : reachable s -> pre s.
Proof.
  intros R. induction R as [l c|s a s' R IH H] using reach_ind.
  - intros i o _ (l1 & l2 & E & _). destruct l1; discriminate.
  - pose proof (reach_inv R) as I. intros j o' E C. unfold op in E.
    assert (K : forall o, nth_error (ops s) j = Some o -> ok (sp o) (kp o) (ref o) (tokM s j o) (tokT s j o) (TimedProofs.last s j o) (done s j) /\
              (stopped_first j (log s) -> kp o = KReqd /\ (sp o = S1 \/ sp o = S2 \/ sp o = SA \/ (sp o = SD /\ exists t, In (EComp j Stopped t) (log s))) /\
                 (forall x t, In (EComp j x t) (log s) -> x = Stopped)) /\
              (In (EReq j) (log s) -> hasreq (kp o))).
    { intros o Ho. split; [exact (i_ok I _ Ho)|]. split; [apply (IH _ _ Ho)|exact (kq_inv R _ Ho)]. }
    destruct a; cbn [step] in H; unfold s_step, k_step, r_step, drop_ref, end_op in H; ds H.
    all: repeat match goal with E : push_step _ _ = Some _ |- _ => apply push_cases in E; destruct E as [? [? [? [? [? [? [? [? [? ->]]]]]]]]] end; inj.
    all: try match goal with H : finish _ _ _ _ = Some _ |- _ => unfold finish in H; pr;
       match type of H with match reset ?k with _ => _ end = _ => destruct (reset k) eqn:Rk; [|discriminate H] end end; inj.
    all: repeat match goal with |- context [if ?b then _ else _] => destruct b eqn:? | E : context [if ?b then _ else _] |- _ => destruct b eqn:? end.
    all: pr; rewrite ?sf_cons in C; nths; eqi; pr; rws; try contradiction.
    all: try match goal with K : forall o, nth_error (ops ?x) ?j = Some o -> _, E : nth_error (ops ?x) ?j = Some _ |- _ => destruct (K _ E) as (K1 & K2 & K3) end; rws.
    all: try match goal with C : stopped_first _ _ \/ _ |- _ => destruct C as [C|[? C]]; [|try discriminate] end.
    all: try (specialize (K2 C); destruct K2 as (K2 & K4 & K5)).
    all: unfold done in *.
    all: split; [|split]; cbn [In].
    all: try assumption.
    all: try solve [destruct K4 as [?|[?|[?|[? [? ?]]]]]; eauto 8; congruence].
    all: try solve [intros x' t' [X|X]; [try discriminate X; try (injection X; intros; subst; congruence)|eauto]].
    all: try solve [intros x' t' [X|X]; [congruence|eauto]].
    all: try congruence.
    all: try solve [match goal with Rk : reset ?q = Some _ |- _ => rewrite K2 in Rk; simpl in Rk; congruence end].
    all: unfold ok in K1.
    + specialize (K3 C). destruct K1 as (_ & _ & _ & _ & _ & K1). destruct (kp o); try discriminate K1; try contradiction; reflexivity.
    + auto.
    + intros x t [X|X]; [discriminate X|]. apply comp_pos in X. destruct K1 as (KA & KB & KC & _ & KD & _). lia.
    + destruct K1 as (_ & _ & _ & K1 & _). rewrite K2 in K1. cbn in K1. lia.
    + exfalso. unfold tokM, tokT, TimedProofs.last in K1. rws. cbn [rF] in K1. rewrite bz_refl in K1.
      pose proof (sF_nn (sp o)). pose proof (kF_nn (kp o)).
      destruct K4 as [K4|[K4|[K4|[K4 [t9 K6]]]]]; rewrite K4 in *; cbn [sF sM kF kT rM rT] in K1; pose proof (bz_nn (busy (mq s) (nodeS j))); pose proof (bz_nn (busy (mq s) (nodeK j))); pose proof (occ_nn j (heap s)).
      * lia.
      * lia.
      * lia.
      * apply comp_pos in K6. lia.
Qed.

(** An operation of which stop was requested before start() completes with
    stopped, never with a value, and has completed when start() returns. *)
Theorem C47_stopped_before_start : forall s, reachable s -> forall i o, op s i = Some o -> stopped_first i (log s) ->
  (forall x t, In (EComp i x t) (log s) -> x = Stopped) /\
  (sp o = SD -> exists t, In (EComp i Stopped t) (log s)) /\
  busy (mq s) (nodeS i) = false /\ busy (mq s) (nodeK i) = false.
Proof.
  intros s R i o E C. destruct (@pre_inv s R i o E C) as (H1 & H2 & H3). split; [assumption|]. split.
  - intros X. destruct H2 as [H2|[H2|[H2|[_ H2]]]]; [congruence..|assumption].
  - pose proof (i_ok (reach_inv R) _ E) as K. unfold ok, tokM, tokT, done in K. rewrite H1 in K.
    assert (B : forall b, bz b = 0 -> b = false) by (intros []; simpl; auto; discriminate).
    pose proof (bz_nn (busy (mq s) (nodeS i))) as N1; pose proof (bz_nn (busy (mq s) (nodeK i))) as N2;
    pose proof (occ_nn i (heap s)) as N3; pose proof (rM_nn (rp s) i) as N4; pose proof (rT_nn (rp s) i) as N5;
    pose proof (rF_nn (rp s) i) as N6.
    destruct H2 as [H2|[H2|[H2|[H2 [t H4]]]]]; rewrite H2 in K; cbn [sM kT] in K;
      try (apply comp_pos in H4); split; apply B; lia.
Qed.

(** such a history exists *)
Example C47_stopped_before_start_ex :
  option_map log (runs [AReq 0%nat; AStart 0%nat; AS 0%nat; AS 0%nat; AS 0%nat] (init [5] 0))
  = Some [EComp 0 Stopped 0; EStart 0; EReq 0].
Proof. vm_compute. reflexivity. Qed.
