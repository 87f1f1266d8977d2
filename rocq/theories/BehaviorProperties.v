(** C41, C45, C46. *)
From Coq Require Import List Bool NArith Arith Lia Permutation.
From Verif Require Import BehaviorModel BehaviorSpec.
Import ListNotations.
Set Implicit Arguments.
Open Scope N_scope.

(** ** Bits *)
Lemma land_pow b n : (N.land b (2 ^ n) =? 0) = negb (N.testbit b n).
Proof.
  destruct (N.testbit b n) eqn:T; simpl.
  - apply N.eqb_neq. intro H.
    assert (Q : N.testbit (N.land b (2 ^ n)) n = true).
    { rewrite N.land_spec, T, N.pow2_bits_true. reflexivity. }
    rewrite H in Q. rewrite N.bits_0 in Q. discriminate.
  - apply N.eqb_eq. apply N.bits_inj_0. intro m. rewrite N.land_spec.
    destruct (N.eq_dec n m) as [->|D].
    + rewrite T. reflexivity.
    + rewrite N.pow2_bits_false by assumption. apply andb_false_r.
Qed.

Lemma is_affine_bit b : is_affine b = negb (N.testbit b 0).
Proof. unfold is_affine. change not_affine_bit with (2 ^ 0). rewrite land_pow, !negb_involutive. reflexivity. Qed.
Lemma always_bit b : is_always_asynchronous b = negb (N.testbit b 2).
Proof. unfold is_always_asynchronous. change inline_bit with (2 ^ 2). rewrite land_pow, !negb_involutive. reflexivity. Qed.
Lemma may_bit b : may_be_asynchronous b = N.testbit b 1.
Proof. unfold may_be_asynchronous. change async_bit with (2 ^ 1). rewrite land_pow, negb_involutive. reflexivity. Qed.

Lemma common_testbit n : forall l b,
  N.testbit (common b l) n = existsb (fun x => N.testbit x n) (b :: l).
Proof.
  induction l as [|b' r IH]; intro b.
  - cbn [common existsb]. rewrite orb_false_r. reflexivity.
  - cbn [common]. unfold bor. rewrite N.lor_spec, IH. reflexivity.
Qed.

Lemma existsb_negb A (f : A -> bool) l :
  negb (existsb f l) = forallb (fun x => negb (f x)) l.
Proof. induction l; simpl; auto. rewrite negb_orb, IHl. reflexivity. Qed.

Lemma existsb_perm A (f : A -> bool) l l' :
  Permutation l l' -> existsb f l = existsb f l'.
Proof.
  induction 1; simpl; auto.
  - rewrite IHPermutation. reflexivity.
  - rewrite !orb_assoc, (orb_comm (f y)). reflexivity.
  - congruence.
Qed.

(** ** C41 *)

(** The common behaviour of any number of senders promises exactly what all of
    them promise. *)
Theorem C41_common_promises : forall b l,
  (is_affine (common b l) = true <-> forall x, In x (b :: l) -> is_affine x = true) /\
  (is_always_asynchronous (common b l) = true <->
     forall x, In x (b :: l) -> is_always_asynchronous x = true) /\
  (may_be_asynchronous (common b l) = true <->
     exists x, In x (b :: l) /\ may_be_asynchronous x = true).
Proof.
  intros b l.
  rewrite is_affine_bit, always_bit, may_bit, !common_testbit, !existsb_negb, !forallb_forall,
    existsb_exists.
  repeat split; intros H.
  - intros x Hx. rewrite is_affine_bit. auto.
  - intros x Hx. rewrite <- is_affine_bit. auto.
  - intros x Hx. rewrite always_bit. auto.
  - intros x Hx. rewrite <- always_bit. auto.
  - destruct H as (x & A & B). exists x. rewrite may_bit. auto.
  - destruct H as (x & A & B). exists x. rewrite <- may_bit. auto.
Qed.

(** Order of the senders and repetitions do not matter. *)
Theorem C41_order_independent : forall b l b' l',
  Permutation (b :: l) (b' :: l') -> common b l = common b' l'.
Proof.
  intros. apply N.bits_inj. intro n. rewrite !common_testbit. apply existsb_perm. assumption.
Qed.

Theorem C41_same_members : forall b l b' l',
  (forall x, In x (b :: l) <-> In x (b' :: l')) -> common b l = common b' l'.
Proof.
  intros b l b' l' H. apply N.bits_inj. intro n. rewrite !common_testbit.
  apply eq_iff_eq_true. rewrite !existsb_exists.
  split; intros (x & A & B); exists x; split; auto; apply H; assumption.
Qed.

(** The common behaviour is the least one that allows everything one of the
    senders may do: it allows it, and any behaviour whose promises are kept by
    all of them promises no more than the common one. *)
Theorem C41_upper_bound : forall b l x c i d,
  In x (b :: l) -> permits x c i d -> permits (common b l) c i d.
Proof.
  intros b l x c i d Hx (P1 & P2 & P3). unfold permits.
  destruct (C41_common_promises b l) as (A & B & C). repeat split; intro H.
  - apply P1. apply B; assumption.
  - apply P2. destruct (may_be_asynchronous x) eqn:M; auto.
    assert (may_be_asynchronous (common b l) = true) by (apply C; eauto). congruence.
  - apply P3. apply A; assumption.
Qed.

Theorem C41_least : forall b l y,
  (forall x, In x (b :: l) -> forall c i d, permits x c i d -> permits y c i d) ->
  (forall x, In x (b :: l) -> is_always_asynchronous x = true -> may_be_asynchronous x = true) ->
  forall c i d, permits (common b l) c i d -> permits y c i d.
Proof.
  intros b l y H NE c i d (P1 & P2 & P3).
  enough (G : (is_affine y = true -> d = c) /\ (is_always_asynchronous y = true -> i = false)
              /\ (may_be_asynchronous y = false -> i = true))
    by (unfold permits; tauto).
  split; [|split]; intro Y.
  - apply P3. apply C41_common_promises. intros x Hx.
    destruct (is_affine x) eqn:AX; auto.
    destruct (may_be_asynchronous x) eqn:M.
    + destruct (H x Hx 0%nat false 1%nat) as (_ & _ & Q).
      { repeat split; congruence. }
      specialize (Q Y). discriminate.
    + destruct (is_always_asynchronous x) eqn:AA.
      * rewrite (NE x Hx AA) in M. discriminate.
      * destruct (H x Hx 0%nat true 1%nat) as (_ & _ & Q).
        { repeat split; congruence. }
        specialize (Q Y). discriminate.
  - apply P1. apply C41_common_promises. intros x Hx.
    destruct (is_always_asynchronous x) eqn:AA; auto.
    destruct (H x Hx 0%nat true 0%nat) as (Q & _ & _).
    { repeat split; congruence. }
    specialize (Q Y). discriminate.
  - apply P2. destruct (may_be_asynchronous (common b l)) eqn:M; auto.
    apply C41_common_promises in M. destruct M as (x & Hx & M).
    destruct (H x Hx 0%nat false 0%nat) as (_ & Q & _).
    { repeat split; congruence. }
    specialize (Q Y). discriminate.
Qed.

Example C41_table :
  common asynchronous [asynchronous_affine] = asynchronous /\
  common asynchronous [inline_completion] = unknown /\
  is_affine (common asynchronous_affine [inline_completion]) = true /\
  may_be_asynchronous (common asynchronous_affine [inline_completion]) = true /\
  is_always_asynchronous (common asynchronous_affine [inline_completion]) = false /\
  is_affine unknown = false.
Proof. repeat split. Qed.

(** ** Truthfulness *)
Lemma permits_unknown c i d : permits unknown c i d.
Proof. unfold permits. cbn. repeat split; congruence. Qed.
Lemma permits_inline c : permits inline_completion c true c.
Proof. unfold permits. cbn. repeat split; congruence. Qed.
Lemma permits_async c d : permits asynchronous c false d.
Proof. unfold permits. cbn. repeat split; congruence. Qed.

Lemma permits_comp b b' c i d i' d' :
  permits b c i d -> permits b' d i' d' -> permits (bor b b') c (i && i') d'.
Proof.
  unfold permits, bor. rewrite !is_affine_bit, !always_bit, !may_bit, !N.lor_spec.
  intros (A & B & C) (A' & B' & C'). rewrite !negb_true_iff in *.
  repeat split; rewrite ?orb_false_iff; intros (H & H') || intros H;
    try (apply orb_false_iff in H; destruct H as [H H']).
  - rewrite (A H). reflexivity.
  - rewrite (B H), (B' H'). reflexivity.
  - rewrite (C' H'). auto.
Qed.

Lemma permits_bor_l b b' c i d : permits b c i d -> permits (bor b b') c i d.
Proof. intro H. apply (@C41_upper_bound b [b'] b); auto. left; reflexivity. Qed.
Lemma permits_bor_r b b' c i d : permits b' c i d -> permits (bor b b') c i d.
Proof. intro H. apply (@C41_upper_bound b [b'] b'); auto. right; left; reflexivity. Qed.

Lemma tag_eqb_eq a b : tag_eqb a b = true <-> a = b.
Proof. destruct a, b; simpl; split; congruence. Qed.
Lemma tag_eqb_refl a : tag_eqb a a = true.
Proof. destruct a; reflexivity. Qed.

Scheme runs_mut := Minimality for runs Sort Prop
  with runs_all_mut := Minimality for runs_all Sort Prop.

Lemma hop_permits st s c t i d t' :
  hop st s c t i d -> permits (sched_attr s t') c i d.
Proof.
  destruct 1, t'; simpl; auto using permits_unknown, permits_inline, permits_async.
Qed.

Lemma hop_inline st s c t i d : hop st s c t i d -> i = true -> d = c.
Proof. destruct 1; congruence. Qed.

(** An inline completion happens on the starting context. *)
Lemma runs_inline st s c t i d : runs st s c t i d -> i = true -> d = c.
Proof.
  revert s c t i d.
  apply (@runs_mut st (fun s c t i d => i = true -> d = c)
    (fun l c ks => forall t i d, In (t, i, d) ks -> i = true -> d = c));
    intros; subst; simpl in *; auto;
    try (match goal with H : (_ && _)%bool = true |- _ => apply andb_true_iff in H; destruct H end);
    try (match goal with H : hop _ _ _ _ _ _ |- _ => pose proof (hop_inline H) end);
    try (intuition congruence).
  - destruct p; simpl in *; congruence.
  - eapply H0; eauto.
  - destruct H3 as [Q|Q]; [inversion Q; subst|]; eauto.
Qed.

Lemma attr_in_all a x l b t c i d :
  In b (a :: l) -> attr b t = x -> permits x c i d ->
  permits (attr (WhenAll (a :: l)) t) c i d.
Proof.
  intros Hin <- Hp. cbn [attr].
  apply (@C41_upper_bound _ _ (attr b t)); auto.
  change (attr a t :: map (fun x => attr x t) l) with (map (fun x => attr x t) (a :: l)).
  apply in_map_iff. eauto.
Qed.

(** C45 (uniform): every attribute is true of every completion, for all senders
    built from the library's factories and adaptors other than let_* and
    affine, and user senders whose channels promise the same. *)
Theorem C45_built_truthful_partial : forall st s,
  built user_uniform (fun _ => True) s -> truthful st s.
Proof.
  intros st s B t c i d R.
  enough (G : built user_uniform (fun _ => True) s -> forall t', permits (attr s t') c i d) by auto.
  clear B. revert R. generalize t. clear t. intros t R. revert s c t i d R.
  apply (@runs_mut st
    (fun s c t i d => built user_uniform (fun _ => True) s -> forall t', permits (attr s t') c i d)
    (fun l c ks => (forall a, In a l -> built user_uniform (fun _ => True) a) ->
       forall t i d, In (t, i, d) ks -> exists a, In a l /\ forall t', permits (attr a t') c i d)).
  - intros t c _ t'. cbn. destruct (tag_eqb t' t); auto using permits_inline, permits_unknown.
  - intros. cbn. eapply hop_permits; eauto.
  - intros adv outs t p c H B t'. inversion B; subst. cbn.
    destruct (adv t') eqn:A; [|apply permits_unknown]. eapply H1; eauto.
  - intros t a th c i d _ IH B t'. inversion B; subst. cbn. auto.
  - intros t a c i d _ IH B t'. inversion B; subst. cbn. auto.
  - intros t a th t1 c i d _ _ IH B t'. inversion B; subst. cbn. auto.
  - intros t a k th c i d t1 i' d' _ _ _ _ B. inversion B.
  - intros t a k c i d _ _ B. inversion B.
  - intros t a k th t' c i d _ _ _ B. inversion B.
  - intros a b c i d t i' d' _ IH1 _ IH2 B t'. inversion B; subst. cbn.
    apply permits_comp with d; auto.
  - intros a b c t i d _ _ IH B t'. inversion B; subst. cbn. apply permits_bor_l; auto.
  - intros c _ t'. apply permits_inline.
  - intros l c ks t0 i d _ IH Hin B t'. inversion B; subst.
    destruct (IH H0 _ _ _ Hin) as (a & Ha & Q).
    destruct l as [|a0 l]; [destruct Ha|]. eapply attr_in_all; eauto.
  - intros a s c t i d i' d' _ IH H B t'. inversion B; subst. cbn.
    unfold bor. rewrite N.lor_comm. apply permits_comp with d; auto.
    eapply hop_permits; eauto.
  - intros a s c t i d t1 i' d' _ IH H N B t'. inversion B; subst. cbn.
    unfold bor. rewrite N.lor_comm. apply permits_comp with d; auto.
    eapply hop_permits; eauto.
  - intros. apply permits_unknown.
  - intros. apply permits_unknown.
  - intros a th c t i d _ IH B t'. inversion B; subst. cbn. auto.
  - intros a c i d _ IH B t'. inversion B; subst. cbn. auto.
  - intros a s c t i d _ _ _ B. inversion B.
  - intros a s c t i d i' d' _ _ _ _ B. inversion B.
  - intros c _ t i d [].
  - intros a l c t i d ks _ IH1 _ IH2 B t1 i1 d1 [Q|Q].
    + inversion Q; subst. exists a. split; [left; reflexivity|]. apply IH1. apply B. left; reflexivity.
    + destruct (IH2 (fun x Hx => B x (or_intror Hx)) _ _ _ Q) as (x & Hx & P).
      exists x. split; [right; exact Hx|exact P].
Qed.

(** C45 (value channel): with user senders that are only honest channel by
    channel, the set_value attribute is still true, provided no upon_error /
    upon_stopped turns another channel into a value. *)
Lemma all_tag_V ks : all_tag ks = V -> forall t i d, In (t, i, d) ks -> t = V.
Proof.
  unfold all_tag. intros H t i d Hin.
  destruct (existsb (fun x => tag_eqb (fst (fst x)) E) ks) eqn:HE; [discriminate|].
  destruct (existsb (fun x => tag_eqb (fst (fst x)) S) ks) eqn:HS; [discriminate|].
  destruct t; auto; exfalso.
  - assert (existsb (fun x => tag_eqb (fst (fst x)) E) ks = true)
      by (apply existsb_exists; exists (E, i, d); auto). congruence.
  - assert (existsb (fun x => tag_eqb (fst (fst x)) S) ks = true)
      by (apply existsb_exists; exists (S, i, d); auto). congruence.
Qed.

Theorem C45_value_truthful_partial : forall st s,
  built user_honest (fun t => t = V) s -> truthful_on st s V.
Proof.
  intros st s B c i d R.
  enough (G : forall t, runs st s c t i d ->
     built user_honest (fun t => t = V) s -> t = V -> permits (attr s V) c i d) by eauto.
  clear B R. intros t R. revert s c t i d R.
  apply (@runs_mut st
    (fun s c t i d => built user_honest (fun t => t = V) s -> t = V -> permits (attr s V) c i d)
    (fun l c ks => (forall a, In a l -> built user_honest (fun t => t = V) a) ->
       forall t i d, In (t, i, d) ks -> t = V -> exists a, In a l /\ permits (attr a V) c i d)).
  - intros t c _ ->. apply permits_inline.
  - intros s c t i d H _ _. cbn. eapply hop_permits; eauto.
  - intros adv outs t p c H B ->. inversion B; subst. cbn.
    destruct (adv V) eqn:A; [|apply permits_unknown]. eapply H1; eauto.
  - intros t a th c i d _ IH B _. inversion B; subst. cbn. auto.
  - intros; discriminate.
  - intros t a th t1 c i d _ _ IH B ->. inversion B; subst. cbn. auto.
  - intros t a k th c i d t1 i' d' _ _ _ _ B. inversion B.
  - intros t a k c i d _ _ B. inversion B.
  - intros t a k th t' c i d _ _ _ B. inversion B.
  - intros a b c i d t i' d' _ IH1 _ IH2 B ->. inversion B; subst. cbn.
    apply permits_comp with d; auto.
  - intros a b c t i d N _ _ _ ->. congruence.
  - intros c _ _. apply permits_inline.
  - intros l c ks t0 i d _ IH Hin B Ht. inversion B; subst.
    destruct (IH H0 _ _ _ Hin (@all_tag_V _ Ht _ _ _ Hin)) as (a & Ha & Q).
    destruct l as [|a0 l]; [destruct Ha|]. eapply attr_in_all; eauto.
  - intros a s c t i d i' d' _ IH H B ->. inversion B; subst. cbn.
    unfold bor. rewrite N.lor_comm. apply permits_comp with d; auto.
    eapply hop_permits; eauto.
  - intros a s c t i d t1 i' d' _ IH H N B ->. congruence.
  - intros. apply permits_unknown.
  - intros. apply permits_unknown.
  - intros a th c t i d _ IH B ->. inversion B; subst. cbn. auto.
  - intros; discriminate.
  - intros a s c t i d _ _ _ B. inversion B.
  - intros a s c t i d i' d' _ _ _ _ B. inversion B.
  - intros c _ t i d [].
  - intros a l c t i d ks _ IH1 _ IH2 B t1 i1 d1 [Q|Q] ->.
    + inversion Q; subst. exists a. split; [left; reflexivity|]. apply IH1; auto. apply B. left; reflexivity.
    + destruct (IH2 (fun x Hx => B x (or_intror Hx)) _ _ _ Q eq_refl) as (x & Hx & P).
      exists x. split; [right; exact Hx|exact P].
Qed.

(** ** The completion signatures cover the semantics *)
Lemma hop_sends st s c t i d : hop st s c t i d -> t = V \/ (st = true /\ t = S /\ exists d, s = SCtx d).
Proof. destruct 1; eauto 6. Qed.

Lemma runs_sends st s c t i d : runs st s c t i d -> sends st s t = true.
Proof.
  revert s c t i d.
  apply (@runs_mut st (fun s c t i d => sends st s t = true)
    (fun l c ks => forall t i d, In (t, i, d) ks -> exists a, In a l /\ sends st a t = true)).
  - intros. apply tag_eqb_refl.
  - intros s c t i d H. destruct H; simpl; auto. subst. reflexivity.
  - intros adv outs t p c H. simpl. apply existsb_exists. exists (t, p). split; auto. apply tag_eqb_refl.
  - intros t a th c i d _ IH. simpl. rewrite IH. simpl. apply orb_true_r.
  - intros t a c i d _ IH. simpl. rewrite IH. simpl. apply orb_true_r.
  - intros t a th t' c i d N _ IH. simpl. rewrite IH.
    destruct (tag_eqb t' t) eqn:Q; [apply tag_eqb_eq in Q; congruence|]. reflexivity.
  - intros t a k th c i d t' i' d' _ IH1 _ IH2. simpl. rewrite IH1, IH2. simpl. apply orb_true_r.
  - intros t a k c i d _ IH. simpl. rewrite IH. rewrite !orb_true_r. reflexivity.
  - intros t a k th t' c i d N _ IH. simpl. rewrite IH.
    destruct (tag_eqb t' t) eqn:Q; [apply tag_eqb_eq in Q; congruence|]. reflexivity.
  - intros a b c i d t' i' d' _ _ _ IH. simpl. rewrite IH. apply orb_true_r.
  - intros a b c t i d N _ IH. simpl. rewrite IH. destruct t; [congruence| |]; reflexivity.
  - intros; reflexivity.
  - intros l c ks t0 i d RA IH Hin.
    destruct l as [|a l]; [inversion RA; subst; destruct Hin|].
    assert (Q : exists i d, In (all_tag ks, i, d) ks).
    { unfold all_tag. destruct (existsb (fun x => tag_eqb (fst (fst x)) E) ks) eqn:HE.
      - apply existsb_exists in HE. destruct HE as ([[t i1] d1] & A & B). apply tag_eqb_eq in B.
        simpl in B. subst. eauto.
      - destruct (existsb (fun x => tag_eqb (fst (fst x)) S) ks) eqn:HS.
        + apply existsb_exists in HS. destruct HS as ([[t i1] d1] & A & B). apply tag_eqb_eq in B.
          simpl in B. subst. eauto.
        + exists i, d. destruct t0; auto; exfalso.
          * assert (existsb (fun x => tag_eqb (fst (fst x)) E) ks = true)
              by (apply existsb_exists; exists (E, i, d); auto). congruence.
          * assert (existsb (fun x => tag_eqb (fst (fst x)) S) ks = true)
              by (apply existsb_exists; exists (S, i, d); auto). congruence. }
    destruct Q as (i1 & d1 & Q). destruct (IH _ _ _ Q) as (x & Hx & Hs).
    change (existsb (fun a => sends st a (all_tag ks)) (a :: l) = true).
    apply existsb_exists. eauto.
  - intros a s c t i d i' d' _ IH _. simpl. rewrite IH. reflexivity.
  - intros a s c t i d t' i' d' _ _ H N. simpl.
    destruct (hop_sends H) as [->|(-> & -> & d0 & ->)]; [congruence|]. simpl. apply orb_true_r.
  - intros a s c i d t' i' d' _ _ IH. simpl. rewrite IH. reflexivity.
  - intros a s c t i d H N. simpl.
    destruct (hop_sends H) as [->|(-> & -> & d0 & ->)]; [congruence|]. simpl. apply orb_true_r.
  - intros a th c t i d _ IH. simpl. rewrite IH. reflexivity.
  - intros. simpl. apply orb_true_r.
  - intros a s c t i d _ _ IH. exact IH.
  - intros a s c t i d i' d' _ _ IH _. exact IH.
  - intros c t i d [].
  - intros a l c t i d ks _ IH1 _ IH2 t1 i1 d1 [Q|Q].
    + inversion Q; subst. exists a. split; [left; reflexivity|exact IH1].
    + destruct (IH2 _ _ _ Q) as (x & Hx & P). exists x. split; [right; exact Hx|exact P].
Qed.

(** ** affine *)

(** affine(a), started on the context its start scheduler stands for, completes
    on that context, whatever [a] does, as long as [a]'s attributes are true. *)
Theorem C45_affine_returns_home : forall st a c t i d,
  truthful st a -> runs st (Affine a (SCtx c)) c t i d -> d = c.
Proof.
  intros st a c t i d T R. inversion R; subst.
  - pose proof (T t c i d) as P. destruct P as (_ & _ & P); [assumption|]. apply P.
    match goal with H : all_affine _ _ = true |- _ => unfold all_affine, already_affine in H;
      rewrite !andb_true_iff, !orb_true_iff in H; destruct H as [[HV HE] HS] end.
    match goal with H : runs _ a _ _ _ _ |- _ => pose proof (runs_sends H) as Q end.
    destruct t; rewrite Q in *; simpl in *; intuition congruence.
  - match goal with H : hop _ _ _ _ _ _ |- _ => inversion H; subst end. reflexivity.
Qed.

(** ... and if it advertises inline completion on the channel it completes on,
    the completion is inline. *)
Theorem C45_affine_inline_true : forall st a c t i d,
  truthful st a -> all_affine st a = true ->
  attr (Affine a (SCtx c)) t = inline_completion ->
  runs st (Affine a (SCtx c)) c t i d -> i = true.
Proof.
  intros st a c t i d T AA AT R. inversion R; subst; [|congruence].
  pose proof (T t c i d) as P. destruct P as (_ & P & _); [assumption|]. apply P.
  cbn in AT. destruct (attr a t =? inline_completion) eqn:Q; [|discriminate].
  apply N.eqb_eq in Q. rewrite Q. reflexivity.
Qed.

Example affine_example : forall st,
  built user_uniform (fun _ => True) (ContinuesOn (Then V (Just V) false) (SCtx 7)) /\
  runs st (Affine (ContinuesOn (Then V (Just V) false) (SCtx 7)) (SCtx 0)) 0 V false 0.
Proof.
  intro st. split.
  - repeat constructor.
  - apply (@r_affine_hop st _ _ 0%nat V (true && false)%bool 7%nat false 0%nat).
    + destruct st; reflexivity.
    + eapply r_cont; [apply r_then, r_just|constructor].
    + constructor.
Qed.

(** ** What is false *)

(** let_value advertises its first child's behaviour: [let_value(just(), f)]
    with [f] returning [schedule(ctx)] claims to complete inline, and completes
    later on another context. *)
Theorem C45_let_refuted : forall st,
  let s := Let V (Just V) (Sched (SCtx 1)) false in
  attr s V = inline_completion /\ runs st s 0 V false 1.
Proof.
  intros st s. split; [reflexivity|].
  apply (@r_let st V (Just V) (Sched (SCtx 1)) false 0%nat true 0%nat V false 1%nat).
  - constructor.
  - constructor. constructor.
Qed.

(** As a consequence [affine] returns it unchanged: the adapted operation does
    not return to the starting context. *)
Theorem C45_affine_of_let_refuted :
  let s := Affine (Let V (Just V) (Sched (SCtx 1)) false) (SCtx 0) in
  runs false s 0 V false 1.
Proof.
  apply r_affine_same; [reflexivity|]. apply (C45_let_refuted false).
Qed.

(** A child that completes inline or asynchronously on its own context (the
    behaviour of a task) is already affine; [affine] then claims it is always
    asynchronous. *)
Theorem C45_affine_always_async_refuted :
  let u := User (fun _ => Some (bor asynchronous_affine inline_completion))
                [(V, UInline); (V, UHere)] in
  truthful false u /\
  is_always_asynchronous (attr (Affine u (SCtx 0)) V) = true /\
  runs false (Affine u (SCtx 0)) 0 V true 0.
Proof.
  intro u. split; [|split].
  - apply C45_built_truthful_partial. constructor. intros t t' p b Hin A. inversion A; subst.
    intro c. simpl in Hin. destruct Hin as [Q|[Q|[]]]; inversion Q; subst;
      unfold permits; cbn; repeat split; congruence.
  - reflexivity.
  - apply r_affine_same; [reflexivity|].
    apply (@r_user false _ [(V, UInline); (V, UHere)] V UInline 0%nat). left. reflexivity.
Qed.

(** sequence and when_all: the set_error / set_stopped attribute looks at that
    channel of every child only; with a (truthful) child that promises inline
    errors, the combination's error may arrive late. *)
Definition inline_error_user : snd :=
  User (fun t => match t with E => Some inline_completion | _ => Some asynchronous end)
       [(E, UInline); (V, UOn 1)].

Theorem C45_sequence_error_refuted : forall st,
  let s := Seq inline_error_user inline_error_user in
  truthful st inline_error_user /\
  attr s E = inline_completion /\ runs st s 0 E false 1.
Proof.
  intros st s. split; [|split; [reflexivity|]].
  - intros t c i d R. inversion R; subst. match goal with H : In _ _ |- _ => destruct H as [Q|[Q|[]]] end; inversion Q; subst;
      unfold permits; cbn; repeat split; congruence.
  - apply (@r_seq st inline_error_user inline_error_user 0%nat false 1%nat E true 1%nat).
    + apply (@r_user st _ [(E, UInline); (V, UOn 1)] V (UOn 1) 0%nat). right. left. reflexivity.
    + apply (@r_user st _ [(E, UInline); (V, UOn 1)] E UInline 1%nat). left. reflexivity.
Qed.

Theorem C45_when_all_error_refuted : forall st,
  let s := WhenAll [inline_error_user; inline_error_user] in
  attr s E = inline_completion /\ runs st s 0 E false 1.
Proof.
  intros st s. split; [reflexivity|].
  change E with (all_tag [(E, true, 0%nat); (V, false, 1%nat)]).
  apply r_all with (t0 := V); [|right; left; reflexivity].
  constructor; [|constructor; [|constructor]].
  - apply (@r_user st _ [(E, UInline); (V, UOn 1)] E UInline 0%nat). left. reflexivity.
  - apply (@r_user st _ [(E, UInline); (V, UOn 1)] V (UOn 1) 0%nat). right. left. reflexivity.
Qed.

(** ** C46: awaiting a sender never destroys a running operation *)
Lemma all_tags (P : tag -> bool) : forallb P [V; E; S] = true -> forall t, P t = true.
Proof. simpl. rewrite !andb_true_iff. intros (A & B & C & _) []; assumption. Qed.

(** If the attributes of the awaited sender are true, the operation started by
    the inline awaiter has completed before it is destroyed - for every
    sender. *)
Theorem C46_await_truthful_safe_partial : forall st s,
  truthful st s -> ~ destroyed_while_running st s.
Proof.
  intros st s T (A & c & t & d & R).
  pose proof (all_tags _ A t) as Q. simpl in Q. rewrite (runs_sends R) in Q. simpl in Q.
  apply N.eqb_eq in Q. destruct (T t c false d R) as (_ & P & _).
  rewrite Q in P. specialize (P eq_refl). discriminate.
Qed.

Theorem C46_await_built_safe_partial : forall st s,
  built user_uniform (fun _ => True) s -> ~ destroyed_while_running st s.
Proof. intros. apply C46_await_truthful_safe_partial, C45_built_truthful_partial. assumption. Qed.

(** A sender that uses the inline awaiter and is safe. *)
Example C46_inline_example :
  let s := Then V (WhenAll [Just V; Then V (Just V) false]) false in
  built user_uniform (fun _ => True) s /\ awaits_inline false s = true.
Proof.
  split; [|reflexivity]. constructor; auto. constructor.
  intros a [<-|[<-|[]]]; repeat constructor.
Qed.

(** co_await of [let_value(just(), []() noexcept { return schedule(ctx); })] in
    a coroutine without a stop token destroys the operation as soon as start
    returns, while it is still waiting on the other context; so does [affine]
    applied to it. *)
Theorem C46_await_let_refuted :
  destroyed_while_running false (Let V (Just V) (Sched (SCtx 1)) false) /\
  destroyed_while_running false (Affine (Let V (Just V) (Sched (SCtx 1)) false) (SCtx 0)).
Proof.
  split; (split; [reflexivity|]); exists 0%nat, V, 1%nat.
  - apply (C45_let_refuted false).
  - apply C45_affine_of_let_refuted.
Qed.

Print Assumptions C41_common_promises.
Print Assumptions C45_built_truthful_partial.
Print Assumptions C45_value_truthful_partial.
Print Assumptions C45_affine_returns_home.
Print Assumptions C46_await_truthful_safe_partial.
