(** * Conc: small library for the concurrent models: updating one thread in a list of threads,
    sums of per-thread weights, counting. *)

From Coq Require Import List Arith Bool Lia ZArith.
Import ListNotations.
Set Implicit Arguments.

(** replace the i-th element *)
Fixpoint upd {A} (l : list A) (i : nat) (x : A) : list A :=
  match l, i with
  | [], _ => []
  | _ :: l, 0 => x :: l
  | y :: l, S i => y :: upd l i x
  end.

(** sum of the weights *)
Fixpoint sumz {A} (w : A -> Z) (l : list A) : Z :=
  match l with [] => 0%Z | x :: l => (w x + sumz w l)%Z end.

(** number of elements satisfying p *)
Fixpoint cnt {A} (p : A -> bool) (l : list A) : nat :=
  match l with [] => 0 | x :: l => (if p x then 1 else 0) + cnt p l end.

(** function update *)
Definition fset {A} (f : nat -> A) (x : nat) (v : A) : nat -> A :=
  fun y => if y =? x then v else f y.

Section L.
Context {A : Type}.
Implicit Types (l : list A) (w : A -> Z) (p : A -> bool).

Lemma upd_length l : forall i x, length (upd l i x) = length l.
Proof. induction l; intros [|i] x; simpl; auto. Qed.

Lemma nth_upd_same l : forall i x a, nth_error l i = Some a -> nth_error (upd l i x) i = Some x.
Proof. induction l; intros [|i] x b H; simpl in *; try discriminate; eauto. Qed.

Lemma nth_upd_other l : forall i j x, i <> j -> nth_error (upd l i x) j = nth_error l j.
Proof. induction l; intros [|i] [|j] x H; simpl; auto; try lia. Qed.

Lemma nth_upd l i j x a : nth_error l i = Some a ->
  nth_error (upd l i x) j = if i =? j then Some x else nth_error l j.
Proof.
  intros H. destruct (Nat.eqb_spec i j) as [->|N]; [eapply nth_upd_same; eauto|].
  apply nth_upd_other; auto.
Qed.

Lemma sumz_upd w l : forall i x a, nth_error l i = Some a ->
  (sumz w (upd l i x) = sumz w l - w a + w x)%Z.
Proof.
  induction l; intros [|i] x b H; simpl in *; try discriminate.
  - inversion H; subst; lia.
  - rewrite (IHl _ _ _ H); lia.
Qed.

Lemma sumz_nonneg w l : (forall x, 0 <= w x)%Z -> (0 <= sumz w l)%Z.
Proof. intros Hw. induction l; simpl; [lia|]. specialize (Hw a); lia. Qed.

Lemma sumz_ge w l : (forall x, 0 <= w x)%Z -> forall i a, nth_error l i = Some a ->
  (w a <= sumz w l)%Z.
Proof.
  intros Hw. induction l; intros [|i] b H; simpl in *; try discriminate.
  - inversion H; subst. pose proof (sumz_nonneg w l Hw); lia.
  - specialize (IHl _ _ H). specialize (Hw a); lia.
Qed.

Lemma sumz_ge2 w l : (forall x, 0 <= w x)%Z -> forall i j a b, i <> j ->
  nth_error l i = Some a -> nth_error l j = Some b -> (w a + w b <= sumz w l)%Z.
Proof.
  intros Hw. induction l; intros [|i] [|j] c b N H H'; simpl in *; try discriminate; try lia.
  - inversion H; subst. pose proof (@sumz_ge w l Hw _ _ H'); lia.
  - inversion H'; subst. pose proof (@sumz_ge w l Hw _ _ H); lia.
  - assert (i <> j) by lia. specialize (IHl _ _ _ _ H0 H H'). specialize (Hw a); lia.
Qed.

Lemma sumz_zero w l : (forall x, In x l -> w x = 0%Z) -> sumz w l = 0%Z.
Proof. induction l; simpl; intros H; auto. rewrite H, IHl; auto. Qed.

Lemma sumz_pos_ex w l : (0 < sumz w l)%Z -> exists i a, nth_error l i = Some a /\ (0 < w a)%Z.
Proof.
  induction l; simpl; intros H; [lia|].
  destruct (Z_lt_le_dec 0 (w a)) as [P|P].
  - exists 0, a; auto.
  - destruct IHl as [i [b [H1 H2]]]; [lia|]. exists (S i), b; auto.
Qed.

Lemma sumz_app w l1 l2 : sumz w (l1 ++ l2) = (sumz w l1 + sumz w l2)%Z.
Proof. induction l1; simpl; lia. Qed.

Lemma sumz_repeat w x n : w x = 0%Z -> sumz w (repeat x n) = 0%Z.
Proof. intros H; induction n; simpl; lia. Qed.

Lemma sumz_plus (w v u : A -> Z) l : (forall x, u x = w x + v x)%Z ->
  (sumz u l = sumz w l + sumz v l)%Z.
Proof. intros H; induction l; simpl; auto. rewrite H; lia. Qed.

Lemma cnt_app p l1 l2 : cnt p (l1 ++ l2) = cnt p l1 + cnt p l2.
Proof. induction l1; simpl; lia. Qed.

Lemma cnt_zero p l : cnt p l = 0 <-> (forall x, In x l -> p x = false).
Proof.
  induction l; simpl; split; intros H; try tauto.
  - intros x [<-|Hx]; [destruct (p a); auto; lia|]. apply IHl; auto. lia.
  - rewrite (H a), (proj2 IHl); auto.
Qed.

Lemma cnt_pos p l : 0 < cnt p l <-> exists x, In x l /\ p x = true.
Proof.
  induction l; simpl; split; intros H; try lia.
  - destruct H as [x [[] _]].
  - destruct (p a) eqn:E; [eauto|]. destruct (proj1 IHl) as [x [H1 H2]]; [lia|eauto].
  - destruct H as [x [[<-|Hx] Hp]]; [rewrite Hp; lia|].
    pose proof (proj2 IHl (ex_intro _ x (conj Hx Hp))); lia.
Qed.

Lemma cnt_rev p l : cnt p (rev l) = cnt p l.
Proof. induction l; simpl; auto. rewrite cnt_app; simpl; lia. Qed.
End L.

Lemma nth_repeat_some {A} (x a : A) n : forall i, nth_error (repeat x n) i = Some a -> a = x.
Proof. induction n; intros [|i]; simpl; intros H; try discriminate; [inversion H; auto|eauto]. Qed.

Lemma fset_same {A} (f : nat -> A) x v : fset f x v x = v.
Proof. unfold fset. rewrite Nat.eqb_refl; auto. Qed.
Lemma fset_other {A} (f : nat -> A) x y v : y <> x -> fset f x v y = f y.
Proof. unfold fset. intros H. destruct (Nat.eqb_spec y x); auto; lia. Qed.
