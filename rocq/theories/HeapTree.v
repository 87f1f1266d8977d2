(** * HeapTree: the trees the pointer operations of intrusive_heap manipulate (pure part). *)
From Coq Require Import List Arith Bool Lia ZArith NArith Permutation.
From Verif Require Import Conc QueueModel HeapModel.
Import ListNotations.
Set Implicit Arguments.
#[local] Arguments N.mul : simpl never.
#[local] Arguments N.add : simpl never.
#[local] Arguments N.sub : simpl never.
#[local] Arguments N.pow : simpl never.

Inductive tree := Leaf | T (l : tree) (x : nat) (r : tree).

Fixpoint nodes (t : tree) : list nat :=
  match t with Leaf => [] | T l x r => x :: nodes l ++ nodes r end.

(** there is a node at this path (true: right) *)
Fixpoint has (t : tree) (p : list bool) : Prop :=
  match t, p with
  | Leaf, _ => False
  | T _ _ _, [] => True
  | T l _ r, b :: p => if b then has r p else has l p
  end.

(** the number of a position: 1 for the root, 2i and 2i+1 for the children of i *)
Fixpoint num_from (acc : N) (p : list bool) : N :=
  match p with [] => acc | b :: p => num_from (2 * acc + (if b then 1 else 0)) p end.
Definition num (p : list bool) : N := num_from 1 p.

(** complete binary tree: exactly the positions 1..n *)
Definition shape (n : N) (t : tree) : Prop := forall p, has t p <-> (num p <= n)%N.

Section K.
Variable key : nat -> Z.
Definition klt x y : bool := (key x <? key y)%Z.

(** a lower bound on every key *)
Definition above (k : Z) (t : tree) : Prop := forall x, In x (nodes t) -> (k <= key x)%Z.
Fixpoint ordered (t : tree) : Prop :=
  match t with Leaf => True | T l x r => above (key x) l /\ above (key x) r /\ ordered l /\ ordered r end.

(** ** the operations *)
Fixpoint t_push (p : list bool) (x : nat) (t : tree) : tree :=
  match p, t with
  | b :: p, T l y r => if b then T l x (t_push p y r) else T (t_push p y l) x r
  | _, _ => T Leaf x Leaf
  end.
Fixpoint t_ins (p : list bool) (x : nat) (t : tree) : tree :=
  match p, t with
  | b :: p', T l y r =>
      if klt x y then t_push p x t
      else if b then T l y (t_ins p' x r) else T (t_ins p' x l) y r
  | _, _ => T Leaf x Leaf
  end.
Fixpoint t_cut (p : list bool) (t : tree) : tree :=
  match p, t with
  | b :: p, T l y r => if b then T l y (t_cut p r) else T (t_cut p l) y r
  | _, _ => Leaf
  end.
Fixpoint t_at (p : list bool) (t : tree) : ptr :=
  match p, t with
  | b :: p, T l y r => if b then t_at p r else t_at p l
  | [], T _ y _ => Some y
  | _, Leaf => None
  end.
(** replace the root by x and sift it down *)
Fixpoint t_down (x : nat) (t : tree) : tree :=
  match t with
  | Leaf => Leaf
  | T l _ r =>
      match l with
      | Leaf => T l x r
      | T _ y _ =>
          match r with
          | T _ z _ =>
              if klt z y then (if klt z x then T l z (t_down x r) else T l x r)
              else (if klt y x then T (t_down x l) y r else T l x r)
          | Leaf => if klt y x then T (t_down x l) y r else T l x r
          end
      end
  end.

Lemma t_down_T x l w r : t_down x (T l w r) =
  match l with
  | Leaf => T l x r
  | T _ y _ =>
      match r with
      | T _ z _ =>
          if klt z y then (if klt z x then T l z (t_down x r) else T l x r)
          else (if klt y x then T (t_down x l) y r else T l x r)
      | Leaf => if klt y x then T (t_down x l) y r else T l x r
      end
  end.
Proof. reflexivity. Qed.

(** contexts, innermost first: (came from the right, parent, sibling) *)
Definition ctx := list (bool * nat * tree).
Fixpoint plug (c : ctx) (t : tree) : tree :=
  match c with
  | [] => t
  | (b, y, s) :: c => plug c (if b then T s y t else T t y s)
  end.
Fixpoint t_up (c : ctx) (l : tree) (x : nat) (r : tree) : tree :=
  match c with
  | [] => T l x r
  | (b, y, s) :: c' =>
      if klt x y then (if b then t_up c' s x (T l y r) else t_up c' (T l y r) x s)
      else plug c (T l x r)
  end.

(** ** occurrences of a node *)
Fixpoint cn (z : nat) (t : tree) : nat :=
  match t with Leaf => 0 | T l x r => (if z =? x then 1 else 0) + cn z l + cn z r end.
Fixpoint cc (z : nat) (c : ctx) : nat :=
  match c with [] => 0 | (_, y, s) :: c => (if z =? y then 1 else 0) + cn z s + cc z c end.

Lemma cn_in z t : In z (nodes t) <-> 0 < cn z t.
Proof.
  induction t as [|l IHl x r IHr]; simpl; [lia|]. rewrite in_app_iff, IHl, IHr.
  destruct (Nat.eqb_spec z x); subst; [lia|]. split; [intros [->|]; [tauto|lia]|right; lia].
Qed.
Lemma above_cn k t : above k t <-> forall x, 0 < cn x t -> (k <= key x)%Z.
Proof. unfold above. split; intros H x Hx; apply H; apply cn_in; auto. Qed.
Lemma cn_plug z c : forall t, cn z (plug c t) = cn z t + cc z c.
Proof. induction c as [|[[b y] s] c IH]; intros t; simpl; [lia|]. rewrite IH. destruct b; simpl; lia. Qed.

(** the path p leads to the free place where the next node goes *)
Fixpoint insp (p : list bool) (t : tree) : Prop :=
  match p, t with
  | [], Leaf => True
  | b :: p, T l _ r => (l = Leaf -> b = false /\ r = Leaf) /\ insp p (if b then r else l)
  | _, _ => False
  end.
(** the path p leads to a node without children *)
Fixpoint leafp (p : list bool) (t : tree) : Prop :=
  match p, t with
  | [], T Leaf _ Leaf => True
  | b :: p, T l _ r => leafp p (if b then r else l)
  | _, _ => False
  end.
(** no node has a right child only *)
Fixpoint leftful (t : tree) : Prop :=
  match t with Leaf => True | T l _ r => (l = Leaf -> r = Leaf) /\ leftful l /\ leftful r end.

Lemma cn_push z p : forall x t, insp p t -> cn z (t_push p x t) = (if z =? x then 1 else 0) + cn z t.
Proof.
  induction p as [|b p IH]; intros x [|l y r] H; simpl in *; try tauto; try lia.
  destruct H as [_ H]. destruct b; simpl; rewrite IH by auto; lia.
Qed.
Lemma cn_ins z p : forall x t, insp p t -> cn z (t_ins p x t) = (if z =? x then 1 else 0) + cn z t.
Proof.
  induction p as [|b p IH]; intros x [|l y r] H; simpl in *; try tauto; try lia.
  destruct H as [_ H]. destruct (klt x y); destruct b; simpl; rewrite ?IH, ?cn_push by auto; simpl; lia.
Qed.
Lemma cn_cut z p : forall t, leafp p t -> exists x, t_at p t = Some x /\ cn z t = (if z =? x then 1 else 0) + cn z (t_cut p t).
Proof.
  induction p as [|b p IH]; intros [|l y r] H; simpl in *; try tauto.
  - exists y. destruct l, r; try tauto. simpl. split; [auto|lia].
  - destruct b; destruct (IH _ H) as (x & E1 & E2); exists x; simpl; split; auto; lia.
Qed.
Lemma cn_down z x t : forall l y r, t = T l y r -> cn z (t_down x t) = (if z =? x then 1 else 0) + cn z l + cn z r.
Proof.
  induction t as [|l IHl y r IHr]; intros l' y' r' E; inversion E; subst; clear E.
  destruct l' as [|ll a lr]; [simpl; lia|].
  destruct r' as [|rl d rr].
  - rewrite t_down_T. destruct (klt a x); [|simpl; lia].
    cbn [cn]. rewrite (IHl _ _ _ eq_refl). lia.
  - rewrite t_down_T. destruct (klt d a).
    + destruct (klt d x); [|simpl; lia]. cbn [cn]. rewrite (IHr _ _ _ eq_refl). lia.
    + destruct (klt a x); [|simpl; lia]. cbn [cn]. rewrite (IHl _ _ _ eq_refl). lia.
Qed.
Lemma cn_up z c : forall l x r, cn z (t_up c l x r) = (if z =? x then 1 else 0) + cn z l + cn z r + cc z c.
Proof.
  induction c as [|[[b y] s] c IH]; intros l x r; cbn [t_up]; [simpl; lia|].
  destruct (klt x y).
  - destruct b; rewrite IH; simpl; lia.
  - rewrite cn_plug. simpl. lia.
Qed.

(** ** heap order *)
Lemma klt_true x y : klt x y = true <-> (key x < key y)%Z.
Proof. unfold klt. apply Z.ltb_lt. Qed.
Lemma klt_false x y : klt x y = false <-> (key y <= key x)%Z.
Proof. unfold klt. apply Z.ltb_ge. Qed.

Lemma above_le k k' t : above k t -> (k' <= k)%Z -> above k' t.
Proof. intros H L x Hx. specialize (H x Hx). lia. Qed.
Lemma above_T k l x r : above k (T l x r) <-> (k <= key x)%Z /\ above k l /\ above k r.
Proof.
  unfold above. simpl. setoid_rewrite in_app_iff. split.
  - intros H. repeat split; intros; apply H; auto.
  - intros (H1 & H2 & H3) y [<-|[H|H]]; auto.
Qed.
Lemma above_Leaf k : above k Leaf.
Proof. intros x []. Qed.

Lemma push_above k p : forall x t, insp p t -> above k t -> (k <= key x)%Z -> above k (t_push p x t).
Proof.
  intros x t I A L. apply above_cn. intros y. rewrite cn_push by auto. intros H.
  destruct (Nat.eqb_spec y x); subst; auto. apply (proj1 (above_cn k t) A). lia.
Qed.
Lemma ins_above k p : forall x t, insp p t -> above k t -> (k <= key x)%Z -> above k (t_ins p x t).
Proof.
  intros x t I A L. apply above_cn. intros y. rewrite cn_ins by auto. intros H.
  destruct (Nat.eqb_spec y x); subst; auto. apply (proj1 (above_cn k t) A). lia.
Qed.
Lemma push_ordered p : forall x t, insp p t -> ordered t -> above (key x) t -> ordered (t_push p x t).
Proof.
  induction p as [|b p IH]; intros x [|l y r] H O A; simpl in *; try tauto.
  - destruct H as [_ H], O as (O1 & O2 & O3 & O4). apply above_T in A. destruct A as (A1 & A2 & A3).
    destruct b; simpl; repeat split; auto; apply push_above; auto.
Qed.
Lemma ins_ordered p : forall x t, insp p t -> ordered t -> ordered (t_ins p x t).
Proof.
  induction p as [|b p IH]; intros x [|l y r] H O; simpl in *; try tauto.
  - repeat split; auto using above_Leaf.
  - pose proof H as H0. destruct H as [_ H], O as (O1 & O2 & O3 & O4). destruct (klt x y) eqn:K.
    + apply klt_true in K. apply (@push_ordered (b :: p) x (T l y r)); simpl; auto.
      apply above_T. repeat split; [lia| |]; eapply above_le; eauto; lia.
    + apply klt_false in K. destruct b; simpl; repeat split; auto; apply ins_above; auto.
Qed.
Lemma cut_above k p : forall t, leafp p t -> above k t -> above k (t_cut p t).
Proof.
  intros t H A. apply above_cn. intros x Hx. destruct (cn_cut x _ _ H) as (y & _ & E).
  apply (proj1 (above_cn k t) A). lia.
Qed.
Lemma cut_ordered p : forall t, leafp p t -> ordered t -> ordered (t_cut p t).
Proof.
  induction p as [|b p IH]; intros [|l y r] H O; simpl in *; try tauto.
  destruct O as (O1 & O2 & O3 & O4). destruct b; simpl; repeat split; auto using cut_above.
Qed.
Lemma down_above k x l y r : above k l -> above k r -> (k <= key x)%Z -> above k (t_down x (T l y r)).
Proof.
  intros A1 A2 L. apply above_cn. intros z Hz. rewrite (cn_down z x eq_refl) in Hz.
  destruct (Nat.eqb_spec z x); subst; auto.
  destruct (cn z l) eqn:E; [apply (proj1 (above_cn k r) A2)|apply (proj1 (above_cn k l) A1)]; lia.
Qed.
Ltac dsolve := repeat split; auto using above_Leaf; try match goal with
  | Al : forall k, _ -> above k ?t |- above _ ?t => apply Al; lia
  | |- above _ (t_down _ _) => apply down_above; auto; lia
  | IH : forall l y r, ?t = _ -> _ |- ordered (t_down _ ?t) => eapply IH; eauto
  end.
Lemma down_ordered x t : forall l y r, t = T l y r -> leftful t -> ordered l -> ordered r -> ordered (t_down x t).
Proof.
  induction t as [|l IHl y r IHr]; intros l' y' r' E LF Ol Or; inversion E; subst; clear E.
  simpl in LF. destruct LF as (LF & LFl & LFr).
  destruct l' as [|ll a lr].
  { rewrite LF by auto. simpl. auto using above_Leaf. }
  assert (Al : forall k, (k <= key a)%Z -> above k (T ll a lr)).
  { intros k Hk. simpl in Ol. apply above_T. repeat split; auto; eapply above_le; try apply Ol; auto. }
  assert (Ol' := Ol). simpl in Ol'. destruct Ol' as (O1 & O2 & O3 & O4).
  destruct r' as [|rl d rr].
  - rewrite t_down_T. destruct (klt a x) eqn:K; [apply klt_true in K|apply klt_false in K].
    + change (above (key a) (t_down x (T ll a lr)) /\ above (key a) Leaf /\ ordered (t_down x (T ll a lr)) /\ ordered Leaf).
      dsolve.
    + simpl. repeat split; auto using above_Leaf.
  - assert (Ar : forall k, (k <= key d)%Z -> above k (T rl d rr)).
    { intros k Hk. simpl in Or. apply above_T. repeat split; auto; eapply above_le; try apply Or; auto. }
    assert (Or' := Or). simpl in Or'. destruct Or' as (P1 & P2 & P3 & P4).
    rewrite t_down_T. destruct (klt d a) eqn:K1; [apply klt_true in K1|apply klt_false in K1].
    + destruct (klt d x) eqn:K; [apply klt_true in K|apply klt_false in K].
      * change (above (key d) (T ll a lr) /\ above (key d) (t_down x (T rl d rr)) /\ ordered (T ll a lr) /\ ordered (t_down x (T rl d rr))).
        dsolve.
      * change (above (key x) (T ll a lr) /\ above (key x) (T rl d rr) /\ ordered (T ll a lr) /\ ordered (T rl d rr)).
        dsolve.
    + destruct (klt a x) eqn:K; [apply klt_true in K|apply klt_false in K].
      * change (above (key a) (t_down x (T ll a lr)) /\ above (key a) (T rl d rr) /\ ordered (t_down x (T ll a lr)) /\ ordered (T rl d rr)).
        dsolve.
      * change (above (key x) (T ll a lr) /\ above (key x) (T rl d rr) /\ ordered (T ll a lr) /\ ordered (T rl d rr)).
        dsolve.
Qed.

(** contexts *)
Lemma ordered_plug c : forall t, ordered (plug c t) -> ordered t.
Proof.
  induction c as [|[[b y] s] c IH]; intros t H; simpl in *; auto. apply IH in H. destruct b; simpl in H; tauto.
Qed.
Definition ctop (c : ctx) (t : tree) : Prop :=
  match c with [] => True | (_, y, _) :: _ => above (key y) t end.
Lemma ordered_ctop c t : ordered (plug c t) -> ctop c t.
Proof.
  destruct c as [|[[b y] s] c]; simpl; auto. intros H. apply ordered_plug in H. destruct b; simpl in H; tauto.
Qed.
Lemma plug_replace c : forall t t', ordered (plug c t) -> ordered t' -> ctop c t' -> ordered (plug c t').
Proof.
  induction c as [|[[b y] s] c IH]; intros t t' H O A; simpl in *; auto.
  pose proof (ordered_plug _ _ H) as H1. pose proof (ordered_ctop _ _ H) as H2.
  apply (IH _ (if b then T s y t' else T t' y s)) in H; auto.
  - destruct b; simpl in *; tauto.
  - destruct c as [|[[b2 y2] s2] c2]; simpl in *; auto.
    destruct b; apply above_T in H2; apply above_T; destruct H2 as (H2 & H3 & H4); repeat split; auto;
      eapply above_le; eauto.
Qed.
Lemma up_ordered c : forall l x r t0, ordered (plug c t0) -> ordered l -> ordered r ->
  above (key x) l -> above (key x) r -> ctop c l -> ctop c r -> ordered (t_up c l x r).
Proof.
  induction c as [|[[b y] s] c IH]; intros l x r t0 H Ol Or Al Ar Cl Cr; cbn [t_up]; [simpl; auto|].
  simpl in Cl, Cr. simpl in H.
  pose proof (ordered_plug _ _ H) as H1. pose proof (ordered_ctop _ _ H) as H2.
  assert (C2 : forall t, above (key y) t -> ctop c t).
  { intros t A. destruct c as [|[[b2 y2] s2] c2]; simpl in *; auto.
    apply above_le with (k := key y); auto. destruct b; apply above_T in H2; tauto. }
  destruct (klt x y) eqn:K; [apply klt_true in K|apply klt_false in K].
  - assert (As : above (key y) s) by (destruct b; simpl in H1; tauto).
    assert (Os : ordered s) by (destruct b; simpl in H1; tauto).
    assert (At : above (key y) (T l y r)) by (apply above_T; repeat split; auto; lia).
    assert (Ot : ordered (T l y r)) by (simpl; auto).
    destruct b; eapply IH; eauto; eapply above_le; eauto; lia.
  - change (ordered (plug ((b, y, s) :: c) (T l x r))).
    apply plug_replace with (t := t0); simpl; auto. apply above_T; auto.
Qed.
End K.

(** ** shape *)
Lemma num_from_ge p : forall a, (a <= num_from a p)%N.
Proof. induction p as [|b p IH]; intros a; simpl; [lia|]. specialize (IH (2 * a + (if b then 1 else 0))%N). destruct b; lia. Qed.
Lemma num_from_snoc p : forall a b, num_from a (p ++ [b]) = (2 * num_from a p + (if b then 1 else 0))%N.
Proof. induction p as [|c p IH]; intros a b; simpl; auto. Qed.
Lemma num_inj : forall p q, num p = num q -> p = q.
Proof.
  unfold num. induction p as [|b p IH] using rev_ind; intros q H.
  - destruct q as [|c q _] using rev_ind; auto. rewrite num_from_snoc in H.
    pose proof (num_from_ge q 1). simpl in H. destruct c; lia.
  - destruct q as [|c q _] using rev_ind; rewrite ?num_from_snoc in H.
    + pose proof (num_from_ge p 1). simpl in H. destruct b; lia.
    + assert (b = c /\ num_from 1 p = num_from 1 q) as [-> E] by (destruct b, c; try (exfalso; lia); split; auto; lia).
      rewrite (IH q E). auto.
Qed.

Definition shape_from (a n : N) (t : tree) : Prop := forall p, has t p <-> (num_from a p <= n)%N.
Lemma shape_T a n l x r : shape_from a n (T l x r) ->
  (a <= n)%N /\ shape_from (2 * a) n l /\ shape_from (2 * a + 1) n r.
Proof.
  intros H. split; [|split].
  - apply (H []). simpl; auto.
  - intros p. specialize (H (false :: p)). simpl in H. rewrite N.add_0_r in H. exact H.
  - intros p. apply (H (true :: p)).
Qed.
Lemma has_root t : has t [] <-> t <> Leaf.
Proof. destruct t; simpl; split; try tauto; congruence. Qed.
Lemma shape_Leaf a n t : shape_from a n t -> (t = Leaf <-> (n < a)%N).
Proof.
  intros H. specialize (H []). rewrite has_root in H. simpl in H.
  destruct t; split; intros K; auto; try lia.
  - destruct H as [_ H]. destruct (N.le_gt_cases a n); auto. destruct (H H0); auto.
  - discriminate.
  - destruct H as [H _]. assert (T t1 x t2 <> Leaf) by discriminate. apply H in H0. lia.
Qed.

Lemma shape_insp p : forall a n t, (1 <= a)%N -> shape_from a n t -> num_from a p = (n + 1)%N -> insp p t.
Proof.
  induction p as [|b p IH]; intros a n t A S H; simpl in H.
  - destruct t; simpl; auto. apply shape_T in S. lia.
  - pose proof (num_from_ge p (2 * a + (if b then 1 else 0))).
    destruct t as [|l x r].
    { apply shape_Leaf in S. destruct S as [S _]. specialize (S eq_refl). destruct b; lia. }
    apply shape_T in S. destruct S as (S1 & S2 & S3). simpl.
    pose proof (shape_Leaf S2) as L2. pose proof (shape_Leaf S3) as L3. split.
    + intros E. apply L2 in E. split; [destruct b; auto; lia|]. apply L3. lia.
    + destruct b; [|rewrite N.add_0_r in H]; [apply (IH (2 * a + 1)%N n)|apply (IH (2 * a)%N n)]; auto; lia.
Qed.
Lemma shape_leafp p : forall a n t, (1 <= a)%N -> shape_from a n t -> num_from a p = n -> leafp p t.
Proof.
  induction p as [|b p IH]; intros a n t A S H; simpl in H.
  - destruct t as [|l x r]. { apply shape_Leaf in S. destruct S as [S _]. specialize (S eq_refl). lia. }
    apply shape_T in S. destruct S as (S1 & S2 & S3).
    apply shape_Leaf in S2, S3. simpl.
    rewrite (proj2 S2), (proj2 S3) by lia. auto.
  - pose proof (num_from_ge p (2 * a + (if b then 1 else 0))).
    destruct t as [|l x r].
    { apply shape_Leaf in S. destruct S as [S _]. specialize (S eq_refl). destruct b; lia. }
    apply shape_T in S. destruct S as (S1 & S2 & S3). simpl.
    destruct b; [|rewrite N.add_0_r in H]; [apply (IH (2 * a + 1)%N n)|apply (IH (2 * a)%N n)]; auto; lia.
Qed.
Lemma shape_leftful t : forall a n, shape_from a n t -> leftful t.
Proof.
  induction t as [|l IHl x r IHr]; intros a n S; simpl; auto.
  apply shape_T in S. destruct S as (S1 & S2 & S3). repeat split; eauto.
  intros E. apply (shape_Leaf S2) in E. apply (shape_Leaf S3). lia.
Qed.

Lemma has_push p : forall x t q, insp p t -> (has (t_push p x t) q <-> has t q \/ q = p).
Proof.
  induction p as [|b p IH]; intros x [|l y r] q H; simpl in *; try tauto.
  - destruct q as [|c q]; simpl; [tauto|]. destruct c; simpl; split; intros K; try tauto; destruct K; try tauto; discriminate.
  - destruct H as [_ H]. destruct b; destruct q as [|[] q]; simpl; try (rewrite IH by auto);
      split; intros K; try tauto;
      (destruct K as [K|K]; [auto|]); try discriminate K; try (inversion K; auto); subst; auto.
Qed.
Lemma has_ins key p : forall x t q, insp p t -> (has (t_ins key p x t) q <-> has t q \/ q = p).
Proof.
  induction p as [|b p IH]; intros x [|l y r] q H; simpl in *; try tauto.
  - destruct q as [|c q]; simpl; [tauto|]. destruct c; simpl; split; intros K; try tauto; destruct K; try tauto; discriminate.
  - destruct (klt key x y).
    + apply (@has_push (b :: p) x (T l y r)). exact H.
    + destruct H as [_ H]. destruct b; destruct q as [|[] q]; simpl; try (rewrite IH by auto);
      split; intros K; try tauto;
      (destruct K as [K|K]; [auto|]); try discriminate K; try (inversion K; auto); subst; auto.
Qed.
Lemma has_cut p : forall t q, leafp p t -> (has (t_cut p t) q <-> has t q /\ q <> p).
Proof.
  induction p as [|b p IH]; intros [|l y r] q H; simpl in *; try tauto.
  - destruct l, r; try tauto. destruct q as [|[] q]; simpl; tauto.
  - destruct b; destruct q as [|[] q]; simpl; try (rewrite IH by auto); split; intros K;
      try tauto; try (split; [tauto|]); try tauto; try congruence;
      try (destruct K as [K1 K2]; intros E; apply K2; congruence).
Qed.
Lemma has_down key x t : forall q, has (t_down key x t) q <-> has t q.
Proof.
  induction t as [|l IHl y r IHr]; intros q; [simpl; tauto|].
  destruct l as [|ll a lr]; [simpl; destruct q as [|[] q]; simpl; tauto|].
  destruct r as [|rl d rr].
  - rewrite t_down_T. destruct (klt key a x); destruct q as [|[] q]; cbn [has]; try rewrite IHl; tauto.
  - rewrite t_down_T. destruct (klt key d a).
    + destruct (klt key d x); destruct q as [|[] q]; cbn [has]; try rewrite IHr; tauto.
    + destruct (klt key a x); destruct q as [|[] q]; cbn [has]; try rewrite IHl; tauto.
Qed.
Lemma has_plug c : forall t t', (forall q, has t q <-> has t' q) -> forall q, has (plug c t) q <-> has (plug c t') q.
Proof.
  induction c as [|[[b y] s] c IH]; intros t t' H q; simpl; auto. apply IH. clear q. intros q.
  destruct b; destruct q as [|[] q]; simpl; try tauto; apply H.
Qed.
Lemma has_up key c : forall l x r, forall q, has (t_up key c l x r) q <-> has (plug c (T l x r)) q.
Proof.
  induction c as [|[[b y] s] c IH]; intros l x r q; cbn [t_up]; [tauto|].
  destruct (klt key x y); [|tauto].
  destruct b; rewrite IH; simpl; apply has_plug; clear q; intros q; destruct q as [|[] q]; simpl; try tauto;
    destruct q as [|[] q]; simpl; tauto.
Qed.

Lemma shape_ins key n x t p : shape n t -> num p = (n + 1)%N -> shape (n + 1) (t_ins key p x t).
Proof.
  intros S H q. assert (I : insp p t) by (eapply (shape_insp p (a := 1)); eauto; lia).
  rewrite has_ins by auto. rewrite (S q). split.
  - intros [K| ->]; lia.
  - intros K. destruct (N.eq_dec (num q) (n + 1)) as [E|E]; [right; apply num_inj; congruence|left; lia].
Qed.
Lemma shape_cut n t p : shape n t -> num p = n -> shape (n - 1) (t_cut p t).
Proof.
  intros S H q. assert (I : leafp p t) by (eapply (shape_leafp p (a := 1)); eauto; lia).
  rewrite has_cut by auto. rewrite (S q). pose proof (num_from_ge q 1). fold (num q) in *. split.
  - intros [K N]. assert (num q <> num p) by (intros E; apply N, num_inj; auto). lia.
  - intros K. split; [lia|]. intros ->. lia.
Qed.
Lemma shape_down key n x t : shape n t -> shape n (t_down key x t).
Proof. intros S q. rewrite has_down. apply S. Qed.
Lemma shape_plug_down key n x c t : shape n (plug c t) -> shape n (plug c (t_down key x t)).
Proof. intros S q. rewrite <- (S q). apply has_plug. intros; apply has_down. Qed.

(** ** the path computed by the code *)
Lemma land_pow2 k n : negb (N.land (2 ^ k) n =? 0)%N = N.testbit n k.
Proof.
  destruct (N.testbit n k) eqn:E.
  - destruct (N.eqb_spec (N.land (2 ^ k) n) 0) as [K|K]; auto.
    assert (F : N.testbit (N.land (2 ^ k) n) k = true) by (rewrite N.land_spec, N.pow2_bits_true, E; auto).
    rewrite K, N.bits_0 in F. discriminate.
  - replace (N.land (2 ^ k) n) with 0%N; auto. symmetry. apply N.bits_inj_0. intros j.
    rewrite N.land_spec, N.pow2_bits_eqb. destruct (N.eqb_spec k j); subst; simpl; auto.
Qed.
Lemma mask_bits_num n : forall k fuel a, (k < fuel) -> (a = N.shiftr n (N.of_nat k)) ->
  num_from a (mask_bits fuel (if Nat.eqb k 0 then 0 else 2 ^ N.of_nat (k - 1)) n) = n.
Proof.
  induction k as [|k IH]; intros fuel a L E.
  - destruct fuel; [lia|]. simpl. rewrite E. apply N.shiftr_0_r.
  - destruct fuel as [|fuel]; [lia|]. simpl Nat.eqb. cbv iota.
    replace (S k - 1) with k by lia. cbn [mask_bits].
    destruct (N.eqb_spec (2 ^ N.of_nat k) 0) as [Z|Z].
    { pose proof (N.pow_nonzero 2 (N.of_nat k)). lia. }
    cbn [num_from]. rewrite land_pow2.
    replace (N.shiftr (2 ^ N.of_nat k) 1) with (if Nat.eqb k 0 then 0 else 2 ^ N.of_nat (k - 1))%N.
    + apply IH; [lia|]. rewrite E. rewrite Nat2N.inj_succ, N.shiftr_succ_r.
      assert (TB : N.testbit n (N.of_nat k) = N.odd (N.shiftr n (N.of_nat k))).
      { rewrite <- N.bit0_odd, N.shiftr_spec'. auto. }
      rewrite TB. pose proof (N.div2_odd (N.shiftr n (N.of_nat k))) as D.
      destruct (N.odd (N.shiftr n (N.of_nat k))); simpl N.b2n in D; lia.
    + destruct k as [|k]; [reflexivity|]. simpl Nat.eqb. cbv iota.
      rewrite N.shiftr_div_pow2. replace (S k - 1) with k by lia.
      rewrite Nat2N.inj_succ, N.pow_succ_r'. change (2 ^ 1)%N with 2%N. rewrite N.mul_comm, N.div_mul; lia.
Qed.
Lemma path_bits_num n : (1 <= n)%N -> num (path_bits n) = n.
Proof.
  intros H. unfold path_bits, num.
  assert (M : path_bit_mask n = (if Nat.eqb (N.to_nat (N.log2 n)) 0 then 0 else 2 ^ N.of_nat (N.to_nat (N.log2 n) - 1))%N).
  { unfold path_bit_mask, bit_ceil.
    assert (LU : N.log2_up (n + 1) = N.succ (N.log2 n)).
    { unfold N.log2_up. destruct (N.compare_spec 1 (n + 1)); try lia. do 2 f_equal. lia. }
    rewrite LU, N.shiftr_div_pow2. change (2 ^ 2)%N with 4%N.
    destruct (N.to_nat (N.log2 n)) as [|k] eqn:E.
    - assert (N.log2 n = 0)%N as -> by lia. reflexivity.
    - assert (N.log2 n = N.succ (N.of_nat k)) as -> by lia. simpl Nat.eqb. cbv iota.
      replace (S k - 1) with k by lia. rewrite !N.pow_succ_r'.
      replace (2 * (2 * 2 ^ N.of_nat k))%N with (2 ^ N.of_nat k * 4)%N by lia. apply N.div_mul; lia. }
  rewrite M. apply mask_bits_num.
  - assert (H0 : N.of_nat (N.size_nat n) = N.size n).
    { destruct n as [|p]; auto. change (N.of_nat (Pos.size_nat p) = N.pos (Pos.size p)). clear.
      induction p; cbn [Pos.size_nat Pos.size]; rewrite ?Nat2N.inj_succ, ?IHp; reflexivity. }
    rewrite N.size_log2 in H0 by lia. lia.
  - rewrite N2Nat.id, N.shiftr_div_pow2. apply N.div_unique with (r := (n - 2 ^ N.log2 n)%N).
    + destruct (N.log2_spec n) as [L1 L2]; [lia|]. rewrite N.pow_succ_r' in L2. lia.
    + destruct (N.log2_spec n) as [L1 L2]; [lia|]. lia.
Qed.

(** ** number of nodes *)
Fixpoint sz (t : tree) : nat := match t with Leaf => 0 | T l _ r => S (sz l + sz r) end.
Fixpoint csz (c : ctx) : nat := match c with [] => 0 | (_, _, s) :: c => S (sz s + csz c) end.
Definition rootp (t : tree) : ptr := match t with Leaf => None | T _ x _ => Some x end.

Lemma sz_push p : forall x t, insp p t -> sz (t_push p x t) = S (sz t).
Proof.
  induction p as [|b p IH]; intros x [|l y r] H; simpl in *; try tauto.
  destruct H as [_ H]. destruct b; simpl; rewrite IH by auto; lia.
Qed.
Lemma sz_ins k p : forall x t, insp p t -> sz (t_ins k p x t) = S (sz t).
Proof.
  induction p as [|b p IH]; intros x [|l y r] H; simpl in *; try tauto.
  destruct H as [_ H]. destruct (klt k x y); destruct b; simpl; rewrite ?IH, ?sz_push by auto; simpl; lia.
Qed.
Lemma sz_cut p : forall t, leafp p t -> sz t = S (sz (t_cut p t)).
Proof.
  induction p as [|b p IH]; intros [|l y r] H; simpl in *; try tauto.
  - destruct l, r; try tauto.
  - destruct b; simpl; rewrite (IH _ H); lia.
Qed.
Lemma sz_down k x t : sz (t_down k x t) = sz t.
Proof.
  induction t as [|l IHl y r IHr]; [reflexivity|].
  rewrite t_down_T. destruct l as [|ll a lr]; [reflexivity|]. destruct r as [|rl d rr].
  - destruct (klt k a x); [|reflexivity]. cbn [sz] in *. rewrite IHl. reflexivity.
  - destruct (klt k d a).
    + destruct (klt k d x); [|reflexivity]. cbn [sz] in *. rewrite IHr. reflexivity.
    + destruct (klt k a x); [|reflexivity]. cbn [sz] in *. rewrite IHl. reflexivity.
Qed.
Lemma sz_plug c : forall t, sz (plug c t) = sz t + csz c.
Proof. induction c as [|[[[] y] s] c IH]; intros t; simpl; rewrite ?IH; simpl; lia. Qed.
Lemma sz_up k c : forall l x r, sz (t_up k c l x r) = S (sz l + sz r) + csz c.
Proof.
  induction c as [|[[b y] s] c IH]; intros l x r; cbn [t_up]; [simpl; lia|].
  destruct (klt k x y).
  - destruct b; rewrite IH; simpl; lia.
  - rewrite sz_plug. simpl. lia.
Qed.
Lemma csz_length c : length c <= csz c.
Proof. induction c as [|[[b y] s] c IH]; simpl; lia. Qed.
Lemma sz_zero t : sz t = 0 <-> t = Leaf.
Proof. destruct t; simpl; split; intros; auto; discriminate. Qed.

(** ** positions *)
Fixpoint path_of (c : ctx) : list bool := match c with [] => [] | (b, _, _) :: c => path_of c ++ [b] end.
Lemma has_path c : forall t q, has (plug c t) (path_of c ++ q) <-> has t q.
Proof.
  induction c as [|[[b y] s] c IH]; intros t q; simpl; [tauto|].
  rewrite <- app_assoc, IH. destruct b; simpl; tauto.
Qed.
Lemma t_at_path c : forall t q, t_at (path_of c ++ q) (plug c t) = t_at q t.
Proof.
  induction c as [|[[b y] s] c IH]; intros t q; simpl; auto.
  rewrite <- app_assoc, IH. destruct b; reflexivity.
Qed.
Lemma t_at_cut p : forall t q y, t_at q (t_cut p t) = Some y -> t_at q t = Some y.
Proof.
  induction p as [|b p IH]; intros [|l x r] q y H; simpl in *.
  - destruct q; simpl in *; auto.
  - destruct q as [|[] q]; simpl in *; discriminate.
  - destruct q; simpl in *; auto.
  - destruct b; destruct q as [|[] q]; simpl in *; auto.
Qed.
Lemma t_at_in k q : forall t x, t_at q t = Some x -> ordered k t -> 0 < cn x t.
Proof.
  induction q as [|b q IH]; intros [|l y r] x H O; simpl in *; try discriminate.
  - inversion H; subst. rewrite Nat.eqb_refl. lia.
  - destruct b; apply IH in H; try tauto; lia.
Qed.
Lemma t_at_order k q : forall t p y a, ordered k t -> t_at q t = Some y -> t_at (q ++ p) t = Some a -> (k y <= k a)%Z.
Proof.
  induction q as [|b q IH]; intros [|l x r] p y a O H H'; simpl in *; try discriminate.
  - inversion H; subst. destruct O as (O1 & O2 & O3 & O4). destruct p as [|[] p]; simpl in H'.
    + inversion H'; subst. lia.
    + apply t_at_in with (k := k) in H'; auto. apply (proj1 (above_cn k (k y) r) O2); auto.
    + apply t_at_in with (k := k) in H'; auto. apply (proj1 (above_cn k (k y) l) O1); auto.
  - destruct b; eapply IH; eauto; tauto.
Qed.
Lemma leftful_plug c : forall t, leftful (plug c t) -> leftful t.
Proof. induction c as [|[[[] y] s] c IH]; intros t H; simpl in *; auto; apply IH in H; simpl in H; tauto. Qed.

(** every node is somewhere *)
Lemma focus z t : 0 < cn z t -> exists c l r, t = plug c (T l z r).
Proof.
  assert (G : forall t c0, 0 < cn z t -> exists c l r, plug c0 t = plug c (T l z r)).
  { clear t. induction t as [|l IHl x r IHr]; intros c0 H; simpl in H; [lia|].
    destruct (Nat.eqb_spec z x) as [->|]; [exists c0, l, r; auto|].
    destruct (cn z l) eqn:E.
    - apply (IHr ((true, x, l) :: c0)). lia.
    - apply (IHl ((false, x, r) :: c0)). lia. }
  apply (G t []).
Qed.

(** the climb of sift_up never runs off the tree: [climb] *)
Fixpoint climb (k : nat -> Z) (x : nat) (c : ctx) : Prop :=
  match c with [] => False | (_, y, s) :: c => klt k x y = false \/ (s <> Leaf /\ climb k x c) end.

Lemma root_least k t : forall l y r a, ordered k t -> t = T l y r -> 0 < cn a t -> (k y <= k a)%Z.
Proof.
  intros l y r a O -> H. simpl in *. destruct O as (O1 & O2 & _).
  destruct (Nat.eqb_spec a y); [subst; lia|].
  destruct (cn a l) eqn:E; [apply (proj1 (above_cn k (k y) r) O2); lia|apply (proj1 (above_cn k (k y) l) O1); lia].
Qed.

Lemma num_ge1 q : (1 <= num q)%N.
Proof. unfold num. induction q as [|b q IH] using rev_ind; [simpl; lia|]. rewrite num_from_snoc. lia. Qed.
Lemma climb_gen k a n t p : forall c t', shape n t -> ordered k t -> num p = n -> t_at p t = Some a ->
  t_cut p t = plug c t' -> t' <> Leaf -> c <> [] -> climb k a c.
Proof.
  induction c as [|[[b y] s] c IH]; intros t' S O P A E N NE; [tauto|]. simpl.
  assert (S1 : shape (n - 1) (t_cut p t)) by (eapply shape_cut; eauto).
  destruct (klt k a y) eqn:K; auto. right. apply klt_true in K.
  assert (IN : t_at (path_of c) (t_cut p t) = Some y).
  { rewrite E. simpl. rewrite <- (app_nil_r (path_of c)), t_at_path. destruct b; reflexivity. }
  split.
  - intros ->. rewrite E in S1. destruct b.
    + assert (LF : leftful (plug c (T Leaf y t'))) by (eapply shape_leftful; exact S1).
      apply leftful_plug in LF. simpl in LF. tauto.
    + simpl in S1.
      assert (H1 : (num (path_of c ++ [false]) <= n - 1)%N).
      { apply S1. apply has_path. simpl. destruct t'; simpl; tauto. }
      assert (H2 : ~ (num (path_of c ++ [true]) <= n - 1)%N).
      { intros K'. apply S1 in K'. apply has_path in K'. simpl in K'. tauto. }
      unfold num in H1, H2. rewrite num_from_snoc in H1, H2. fold (num (path_of c)) in H1, H2.
      assert (EP : p = path_of c ++ [true]).
      { apply num_inj. unfold num at 2. rewrite num_from_snoc. fold (num (path_of c)).
        pose proof (num_ge1 (path_of c)). lia. }
      apply t_at_cut in IN. rewrite EP in A.
      pose proof (t_at_order k (path_of c) t [true] O IN A). lia.
  - destruct c as [|e c].
    + exfalso. apply t_at_cut in IN. simpl in IN. destruct t as [|l y' r]; simpl in IN; [discriminate|].
      inversion IN; subst. assert (0 < cn a (T l y r)) by (eapply t_at_in; eauto).
      pose proof (@root_least k _ l y r a O eq_refl H). lia.
    + eapply IH; eauto; [|discriminate]. destruct b; discriminate.
Qed.
