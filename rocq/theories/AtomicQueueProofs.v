(** * AtomicQueueProofs: invariant of the lock-free queues. *)
From Coq Require Import List Arith Bool Lia ZArith.
From Verif Require Import Conc QueueModel QueueSpec QueueProofs AtomicQueueModel.
Import ListNotations.
Set Implicit Arguments.
#[local] Arguments Z.add : simpl never.
#[local] Arguments Z.sub : simpl never.
#[local] Arguments Z.of_nat : simpl never.

(** the abstract queue: contents after a history, most recent first *)
Fixpoint contents (l : list event) : list nat :=
  match l with
  | [] => []
  | EPush _ x _ :: l => x ++ contents l
  | ETake _ :: l => []
  | _ :: l => contents l
  end.

(** nodes a thread owns *)
Definition owned (p : pc) : list nat :=
  match p with QLoad _ l | QStore _ l _ | QCas _ l _ => l | PTaken _ _ g => g | _ => [] end.
Definition zcnt (x : nat) (l : list nat) : Z := Z.of_nat (cnt (Nat.eqb x) l).
Definition wown (x : nat) (p : pc) : Z := zcnt x (owned p).

(** what holds of the nodes of a thread *)
Definition okpc (h : heap) (p : pc) : Prop :=
  match p with
  | QLoad _ l | QStore _ l _ => l <> [] /\ exists r, lseg h (head_ptr l) l r
  | QCas _ l old => l <> [] /\ lseg h (head_ptr l) l old
  | PTaken _ p g => lseg h p g None
  | _ => True
  end.

Definition is_pushed x e := match e with EPush _ l _ => cnt (Nat.eqb x) l | _ => 0 end.

Record inv (s : state) : Prop := {
  i_chain : lseg (nxt s) (head s) (ghost s) None;
  i_ghost : ghost s = contents (log s);
  i_own : forall x, (zcnt x (ghost s) + sumz (wown x) (thr s) = if busy s x then 1 else 0)%Z;
  i_pc : forall t p, nth_error (thr s) t = Some p -> okpc (nxt s) p }.

Lemma zcnt_nonneg x l : (0 <= zcnt x l)%Z. Proof. unfold zcnt; lia. Qed.
Lemma wown_nonneg x p : (0 <= wown x p)%Z. Proof. apply zcnt_nonneg. Qed.
Lemma zcnt_app x a b : zcnt x (a ++ b) = (zcnt x a + zcnt x b)%Z.
Proof. unfold zcnt. rewrite cnt_app. lia. Qed.
Lemma zcnt_in x l : In x l <-> (0 < zcnt x l)%Z.
Proof.
  unfold zcnt. assert (E : In x l <-> 0 < cnt (Nat.eqb x) l); [|rewrite E; lia].
  rewrite cnt_pos. split; [intros H; exists x; rewrite Nat.eqb_refl; auto|].
  intros [y [H1 H2]]. apply Nat.eqb_eq in H2; subst; auto.
Qed.
Lemma existsb_in x l : existsb (Nat.eqb x) l = true <-> In x l.
Proof.
  rewrite existsb_exists. split; [intros [y [H1 H2]]; apply Nat.eqb_eq in H2; subst; auto|].
  intros H; exists x; rewrite Nat.eqb_refl; auto.
Qed.
Lemma zcnt_le_nodup l : (forall x, (zcnt x l <= 1)%Z) -> NoDup l.
Proof.
  induction l as [|x l IH]; intros H; constructor.
  - intros K. apply zcnt_in in K. specialize (H x). unfold zcnt in *. simpl in H.
    rewrite Nat.eqb_refl in H. lia.
  - apply IH. intros y. specialize (H y). unfold zcnt in *. simpl in H.
    destruct (y =? x); lia.
Qed.
Lemma nodupb_ok l : nodupb l = true -> forall x, (zcnt x l <= 1)%Z.
Proof.
  induction l as [|y l IH]; simpl; intros H x; [unfold zcnt; simpl; lia|].
  apply andb_prop in H. destruct H as [H1 H2]. specialize (IH H2 x).
  unfold zcnt in *. simpl. destruct (Nat.eqb_spec x y) as [->|]; [|lia].
  apply negb_true_iff in H1. destruct (cnt (Nat.eqb y) l) eqn:E; [lia|].
  assert (K : In y l) by (apply zcnt_in; unfold zcnt; lia).
  apply existsb_in in K. congruence.
Qed.
Lemma chainb_ok h l : forall p, chainb h p l = true -> lseg h p l None.
Proof.
  induction l as [|x l IH]; simpl; intros p H; [apply ptr_eqb_eq; auto|].
  apply andb_prop in H. destruct H as [H1 H2]. apply ptr_eqb_eq in H1. auto.
Qed.

Section Own.
Variable s : state.
Hypothesis I : inv s.

(** a node belongs to at most one place *)
Lemma own_le x : (zcnt x (ghost s) + sumz (wown x) (thr s) <= 1)%Z.
Proof. rewrite (i_own I). destruct (busy s x); lia. Qed.
Lemma own_busy x t p : nth_error (thr s) t = Some p -> In x (owned p) -> busy s x = true.
Proof.
  intros Ht Hx. apply zcnt_in in Hx. pose proof (i_own I x).
  pose proof (sumz_ge (wown x) (thr s) (wown_nonneg x) t Ht). pose proof (zcnt_nonneg x (ghost s)).
  unfold wown in *. destruct (busy s x); auto; lia.
Qed.
Lemma ghost_busy x : In x (ghost s) -> busy s x = true.
Proof.
  intros Hx. apply zcnt_in in Hx. pose proof (i_own I x).
  pose proof (sumz_nonneg (wown x) (thr s) (wown_nonneg x)). destruct (busy s x); auto; lia.
Qed.
Lemma own_disj x t u p q : t <> u -> nth_error (thr s) t = Some p -> nth_error (thr s) u = Some q ->
  In x (owned p) -> In x (owned q) -> False.
Proof.
  intros N Ht Hu Hp Hq. apply zcnt_in in Hp, Hq. pose proof (own_le x).
  pose proof (sumz_ge2 (wown x) (thr s) (wown_nonneg x) N Ht Hu). pose proof (zcnt_nonneg x (ghost s)).
  unfold wown in *. lia.
Qed.
Lemma own_ghost x t p : nth_error (thr s) t = Some p -> In x (owned p) -> In x (ghost s) -> False.
Proof.
  intros Ht Hp Hg. apply zcnt_in in Hp, Hg. pose proof (own_le x).
  pose proof (sumz_ge (wown x) (thr s) (wown_nonneg x) t Ht). unfold wown in *. lia.
Qed.
Lemma own_nodup t p : nth_error (thr s) t = Some p -> NoDup (owned p).
Proof.
  intros Ht. apply zcnt_le_nodup. intros x. pose proof (own_le x).
  pose proof (sumz_ge (wown x) (thr s) (wown_nonneg x) t Ht). pose proof (zcnt_nonneg x (ghost s)).
  unfold wown in *. lia.
Qed.
Lemma ghost_nodup : NoDup (ghost s).
Proof.
  apply zcnt_le_nodup. intros x. pose proof (own_le x).
  pose proof (sumz_nonneg (wown x) (thr s) (wown_nonneg x)). lia.
Qed.
End Own.

(** okpc only depends on the owned nodes *)
Lemma okpc_frame h h' p : okpc h p -> (forall x, In x (owned p) -> h' x = h x) -> okpc h' p.
Proof.
  destruct p; simpl; intros H F; auto.
  - destruct H as [N [r H]]. split; auto. exists r. eapply lseg_frame; eauto.
  - destruct H as [N [r H]]. split; auto. exists r. eapply lseg_frame; eauto.
  - destruct H as [N H]. split; auto. eapply lseg_frame; eauto.
  - eapply lseg_frame; eauto.
Qed.

Lemma mark_in b l v x : In x l -> mark b l v x = v.
Proof. intros H. unfold mark. apply existsb_in in H. rewrite H; auto. Qed.
Lemma mark_out b l v x : ~ In x l -> mark b l v x = b x.
Proof.
  intros H. unfold mark. destruct (existsb (Nat.eqb x) l) eqn:E; auto.
  apply existsb_in in E; tauto.
Qed.

(** general preservation: thread t moves from p to p', possibly writing owned nodes *)
Lemma inv_upd s t p p' (h' : heap) hd g (b : nat -> bool) lg : inv s -> nth_error (thr s) t = Some p ->
  (forall x, ~ In x (owned p) -> h' x = nxt s x) ->
  lseg h' hd g None -> g = contents lg -> okpc h' p' ->
  (forall x, zcnt x g - zcnt x (ghost s) + zcnt x (owned p') - zcnt x (owned p)
             = (if b x then 1 else 0) - (if busy s x then 1 else 0))%Z ->
  inv {| head := hd; nxt := h'; thr := upd (thr s) t p'; log := lg; busy := b; ghost := g |}.
Proof.
  intros I Ht F C G O B. constructor; simpl; auto.
  - intros x. rewrite (sumz_upd (wown x) (thr s) t p' Ht). pose proof (i_own I x). specialize (B x).
    unfold wown at 2 3. lia.
  - intros u q Hu. rewrite (nth_upd (thr s) t u p' Ht) in Hu.
    destruct (Nat.eqb_spec t u) as [->|N]; [inversion Hu; subst; auto|].
    eapply okpc_frame; [eapply (i_pc I); eauto|]. intros x Hx. apply F.
    intros K. eapply (own_disj I _ N); eauto.
Qed.

Lemma zcnt_single x y : zcnt x [y] = if x =? y then 1%Z else 0%Z.
Proof. unfold zcnt; simpl. destruct (x =? y); auto. Qed.

Lemma relink_last h l p r r' : l <> [] -> NoDup l -> lseg h p l r ->
  exists h', store h (last_ptr l) r' = Some h' /\ lseg h' p l r' /\
    (forall x, ~ In x l -> h' x = h x).
Proof.
  intros N D H. destruct (exists_last N) as [l' [y ->]]. rewrite last_ptr_app. simpl.
  eexists. split; [reflexivity|]. apply NoDup_snoc in D. split.
  - eapply lseg_relink; [tauto|exact H].
  - intros x Hx. apply fset_other. intros ->. apply Hx, in_or_app; right; left; auto.
Qed.

(** the two ways of turning a detached chain into a queue *)
Definition detach (r : bool) fuel h p : option (heap * queue) :=
  if r then make_reversed fuel h p
  else match make fuel h p with Some q => Some (h, q) | None => None end.

Lemma rev_loop_mono : forall fuel h p nh r, rev_loop fuel h p nh = Some r ->
  forall k, rev_loop (fuel + k) h p nh = Some r.
Proof.
  induction fuel as [|f IH]; intros h p nh r H k; destruct p as [n|]; simpl in *; try discriminate.
  - destruct k; auto.
  - apply IH; auto.
  - auto.
Qed.
Lemma make_loop_mono : forall fuel h n r, make_loop fuel h n = Some r ->
  forall k, make_loop (fuel + k) h n = Some r.
Proof.
  induction fuel as [|f IH]; intros h n r H k; simpl in *; destruct (h n) eqn:E; try discriminate; auto.
  - destruct k; simpl; rewrite E; auto.
Qed.
Lemma iterate_mono : forall fuel h q i r, iterate fuel h q i = Some r ->
  forall k, iterate (fuel + k) h q i = Some r.
Proof.
  induction fuel as [|f IH]; intros h q i r H k; simpl in *.
  - destruct k; simpl; destruct (ieqb i (iend q)); auto; destruct (iitem i); discriminate.
  - destruct (ieqb i (iend q)); auto. destruct (iitem i); [|discriminate].
    destruct (iterate f h q (inext h i)) eqn:E; [|discriminate]. rewrite (IH _ _ _ _ E); auto.
Qed.

Lemma detach_ok r h p g : lseg h p g None -> NoDup g -> forall fuel, length g <= fuel ->
  exists h' q, detach r fuel h p = Some (h', q) /\
    iterate fuel h' q (ibegin q) = Some (if r then rev g else g) /\ (forall x, ~ In x g -> h' x = h x).
Proof.
  intros H N fuel F. unfold detach. destruct r.
  - destruct (@make_reversed_ok h p g fuel H N F) as [h' [q [E1 [E2 E3]]]]. exists h', q.
    split; auto. split; auto. assert (E : ibegin q = at_pos (rev g) 0).
    { unfold ibegin, at_pos. simpl. f_equal. destruct E2 as [E2 _]. eapply lseg_head; eauto. }
    rewrite E. apply (iterate_ok (rev g) [] E2). rewrite rev_length; auto.
  - destruct (@make_ok h p g fuel H N F) as [q [E1 E2]]. exists h, q. rewrite E1.
    split; auto. split; auto. assert (E : ibegin q = at_pos g 0).
    { unfold ibegin, at_pos. simpl. f_equal. destruct E2 as [E2 _]. eapply lseg_head; eauto. }
    rewrite E. apply (iterate_ok g [] E2); auto.
Qed.

Lemma detach_any r h p g fuel h' q l : lseg h p g None -> NoDup g ->
  detach r fuel h p = Some (h', q) -> iterate fuel h' q (ibegin q) = Some l ->
  l = (if r then rev g else g) /\ (forall x, ~ In x g -> h' x = h x).
Proof.
  intros H N E1 E2.
  destruct (@detach_ok r h p g H N (fuel + length g)) as [h2 [q2 [A1 [A2 A3]]]]; [lia|].
  assert (E : detach r (fuel + length g) h p = Some (h', q)).
  { unfold detach in *. destruct r.
    - unfold make_reversed in *. destruct (rev_loop fuel h p None) as [[hh nh]|] eqn:E; [|discriminate].
      rewrite (rev_loop_mono _ _ _ _ E). auto.
    - destruct (make fuel h p) eqn:E; [|discriminate]. unfold make in *. destruct p; [|congruence].
      destruct (make_loop fuel h n) eqn:E'; [|discriminate]. rewrite (make_loop_mono _ _ _ E'). congruence. }
  rewrite E in A1. inversion A1; subst. rewrite (iterate_mono _ _ _ _ E2) in A2.
  inversion A2; subst. auto.
Qed.

Ltac inj H := inversion H; subst; clear H.

Lemma zcnt_nil x : zcnt x [] = 0%Z. Proof. reflexivity. Qed.

Ltac up I Ht := refine (@inv_upd _ _ _ _ _ _ _ _ _ I Ht _ _ _ _ _); simpl;
  eauto using i_chain, i_ghost.

Theorem inv_step s t a s' : inv s -> step t a s = Some s' -> inv s'.
Proof.
  intros I H. unfold step in H.
  assert (FR : forall x : nat, ~ In x [] -> nxt s x = nxt s x) by auto.
  destruct a;
    try (destruct (nth_error (thr s) t) as [p|] eqn:Ht; [|discriminate]; destruct p; try discriminate).
  - (* push *)
    destruct (busy s x) eqn:B; [discriminate|]. inj H.
    up I Ht.
    + split; [discriminate|]. eexists; eauto.
    + intros y. rewrite zcnt_single. unfold mark. simpl. rewrite ?zcnt_nil.
      destruct (Nat.eqb_spec y x) as [->|]; simpl; [rewrite B; lia|lia].
  - destruct (busy s x) eqn:B; [discriminate|]. inj H.
    up I Ht.
    + split; [discriminate|]. eexists; eauto.
    + intros y. rewrite zcnt_single. unfold mark. simpl. rewrite ?zcnt_nil.
      destruct (Nat.eqb_spec y x) as [->|]; simpl; [rewrite B; lia|lia].
  - (* prepend *)
    destruct (existsb (busy s) l || _ || _ || _) eqn:B; [discriminate|]. inj H.
    apply orb_false_iff in B. destruct B as [B B4]. apply orb_false_iff in B. destruct B as [B B3].
    apply orb_false_iff in B. destruct B as [B1 B2]. apply negb_false_iff in B2, B3.
    up I Ht.
    + split; [intros ->; discriminate|]. eexists. apply chainb_ok; eauto.
    + intros y. pose proof (nodupb_ok _ B2 y) as L. pose proof (zcnt_nonneg y l).
      destruct (in_dec Nat.eq_dec y l) as [K|K].
      * rewrite mark_in; auto. apply zcnt_in in K as K'.
        assert (busy s y = false).
        { destruct (busy s y) eqn:E; auto. assert (existsb (busy s) l = true); [|congruence].
          apply existsb_exists; eauto. }
        rewrite H0. rewrite ?zcnt_nil. lia.
      * rewrite mark_out; auto. rewrite zcnt_in in K. rewrite ?zcnt_nil. lia.
  - (* pop_all *) inj H. up I Ht. intros; lia.
  - inj H. up I Ht. intros; lia.
  - (* steps *) inj H. up I Ht.
    + apply (i_pc I _ Ht).
    + intros; lia.
  - pose proof (i_pc I _ Ht) as [N [r L]]. pose proof (own_nodup I _ Ht) as D. simpl in D.
    destruct (@relink_last (nxt s) l (head_ptr l) r old N D L) as [h' [E1 [E2 E3]]].
    rewrite E1 in H. inj H.
    up I Ht.
    + eapply lseg_frame; [apply (i_chain I)|]. intros x Hx. apply E3. intros K.
      eapply (own_ghost I _ _ Ht); eauto.
    + intros; lia.
  - pose proof (i_pc I _ Ht) as [N L].
    assert (PUSH : ptr_eqb (head s) old = true -> inv (push_to k t l old s)).
    { intros E. apply ptr_eqb_eq in E. up I Ht.
      - apply lseg_app. exists old. split; auto. rewrite <- E. apply (i_chain I).
      - rewrite (i_ghost I). auto.
      - intros x. rewrite zcnt_app. rewrite ?zcnt_nil; lia. }
    destruct k, (ptr_eqb (head s) old) eqn:E; inj H; auto;
      up I Ht; try (intros; lia).
    + intros x. destruct (in_dec Nat.eq_dec x l) as [K|K].
      * rewrite mark_in; auto. rewrite (own_busy I _ _ Ht K).
        pose proof (own_le I x). pose proof (sumz_ge (wown x) (thr s) (wown_nonneg x) _ Ht).
        pose proof (zcnt_nonneg x (ghost s)). unfold wown in *. simpl in *.
        apply zcnt_in in K. rewrite ?zcnt_nil. lia.
      * rewrite mark_out; auto. rewrite zcnt_in in K. pose proof (zcnt_nonneg x l).
        rewrite ?zcnt_nil. lia.
  - inj H. up I Ht.
    + intros x. rewrite ?zcnt_nil. lia.
  - inj H. up I Ht. intros; lia.
  - destruct (ptr_eqb (head s) old) eqn:E; inj H.
    + up I Ht.
      * intros x. rewrite ?zcnt_nil. lia.
    + up I Ht. intros; lia.
  - (* make *)
    pose proof (i_pc I _ Ht) as L. pose proof (own_nodup I _ Ht) as D. simpl in L, D.
    fold (detach r fuel (nxt s) p) in H.
    destruct (detach r fuel (nxt s) p) as [[h' q]|] eqn:E1; [|discriminate].
    destruct (iterate fuel h' q (ibegin q)) as [l|] eqn:E2; [|discriminate]. inj H.
    destruct (@detach_any _ _ _ _ _ _ _ _ L D E1 E2) as [-> F].
    assert (IN : forall x, In x (if r then rev g else g) <-> In x g).
    { intros x. destruct r; [rewrite <- in_rev; tauto|tauto]. }
    up I Ht.
    + eapply lseg_frame; [apply (i_chain I)|]. intros x Hx. apply F. intros K.
      eapply (own_ghost I _ _ Ht); eauto.
    + intros x. destruct (in_dec Nat.eq_dec x g) as [K|K].
      * rewrite mark_in; [|apply IN; auto]. rewrite (own_busy I _ _ Ht K).
        pose proof (own_le I x). pose proof (sumz_ge (wown x) (thr s) (wown_nonneg x) _ Ht).
        pose proof (zcnt_nonneg x (ghost s)). unfold wown in *. simpl in *.
        apply zcnt_in in K. rewrite ?zcnt_nil. lia.
      * rewrite mark_out; [|rewrite IN; auto]. rewrite zcnt_in in K. pose proof (zcnt_nonneg x g).
        rewrite ?zcnt_nil. lia.
  - (* spurious *) destruct k; [|discriminate]. inj H.
    pose proof (i_pc I _ Ht) as [N L].
    up I Ht; try (intros; lia).
  - inj H. up I Ht. intros; lia.
  - (* client write *)
    destruct (busy s x) eqn:B; [discriminate|]. inj H.
    assert (F : forall y, busy s y = true -> fset (nxt s) x v y = nxt s y).
    { intros y Hy. apply fset_other. intros ->. congruence. }
    constructor; simpl.
    + eapply lseg_frame; [apply (i_chain I)|]. intros y Hy. apply F. apply (ghost_busy I); auto.
    + apply (i_ghost I).
    + apply (i_own I).
    + intros u q Hu. eapply okpc_frame; [apply (i_pc I _ Hu)|]. intros y Hy. apply F.
      eapply (own_busy I); eauto.
Qed.

Theorem inv_reach s : reachable s -> inv s.
Proof.
  induction 1; [|eapply inv_step; eauto].
  constructor; simpl; auto.
  - intros x. rewrite sumz_repeat; auto.
  - intros t p H. apply nth_repeat_some in H. subst; exact Logic.I.
Qed.
