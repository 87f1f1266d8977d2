(** * HeapProperties: C25, exec::intrusive_heap (include/exec/detail/intrusive_heap.hpp). *)
From Coq Require Import List Arith Bool Lia ZArith NArith Permutation Sorted.
From Verif Require Import Conc QueueModel QueueProofs HeapModel HeapTree HeapProofs HeapInv.
Import ListNotations.
Set Implicit Arguments.

Lemma ordered_frame k k' t : (forall z, 0 < cn z t -> k' z = k z) -> ordered k t -> ordered k' t.
Proof.
  induction t as [|l IHl x r IHr]; simpl; auto. intros F (A & B & C & D).
  assert (Fx : k' x = k x) by (apply F; rewrite Nat.eqb_refl; lia).
  assert (Fl : forall z, 0 < cn z l -> k' z = k z) by (intros; apply F; lia).
  assert (Fr : forall z, 0 < cn z r -> k' z = k z) by (intros; apply F; lia).
  split; [|split; [|split; [apply IHl|apply IHr]; auto]]; intros z Hz; pose proof Hz as Hz'; apply (cn_in k) in Hz'; rewrite Fx.
  - rewrite Fl by auto. apply A; auto.
  - rewrite Fr by auto. apply B; auto.
Qed.

Lemma reach_inv m S : reachable m S -> exists t, hinv m S t.
Proof.
  induction 1 as [kv lf rt|m S x m' R [t IH] NI E|m S m' R [t IH] E|m S x m' b R [t IH] E|m S x k lf rg R [t IH] NI].
  - exists Leaf. apply hinv_empty.
  - destruct (insert_ok x IH NI) as (m2 & t2 & E2 & H & _). rewrite E in E2. inversion E2; subst. eauto.
  - destruct (pop_ok IH) as (m2 & t2 & E2 & H & _). rewrite E in E2. inversion E2; subst. eauto.
  - destruct (in_dec Nat.eq_dec x S) as [I|I].
    + destruct (erase_ok x IH I) as (m2 & t2 & E2 & H & _). rewrite E in E2. inversion E2; subst. eauto.
    + rewrite (erase_out x IH I) in E. inversion E; subst. rewrite notin_remove by auto. eauto.
  - exists t. assert (X0 : cn x t = 0).
    { destruct (cn x t) eqn:Q; auto. exfalso. apply NI, (h_in IH). lia. }
    destruct IH as [Re O Sh Z U I ND Out]. constructor; simpl; auto.
    + eapply rep_frame; [exact Re|]. intros z Hz. unfold same; simpl. repeat split; auto; apply fset_other; intros ->; lia.
    + eapply ordered_frame; [|exact O]. intros z Hz. apply fset_other. intros ->. lia.
Qed.

(** ** C25: no operation ever dereferences null, violates an assertion or loops, and erase reports
    exactly whether the node was in the heap *)
Theorem C25_operations_succeed : forall m S, reachable m S ->
  (forall x, ~ In x S -> exists m', insert m x = Some m') /\
  (exists m', pop_front m = Some m') /\
  (forall x, In x S -> exists m', erase m x = Some (m', true)) /\
  (forall x, ~ In x S -> erase m x = Some (m, false)).
Proof.
  intros m S R. destruct (reach_inv R) as [t H]. split; [|split; [|split]].
  - intros x Hx. destruct (insert_ok x H Hx) as (m' & _ & E & _). eauto.
  - destruct (pop_ok H) as (m' & _ & E & _). eauto.
  - intros x Hx. destruct (erase_ok x H Hx) as (m' & _ & E & _). eauto.
  - intros x Hx. eapply erase_out; eauto.
Qed.

Lemma cn_count z t : cn z t = count_occ Nat.eq_dec (nodes t) z.
Proof.
  induction t as [|l IHl x r IHr]; simpl; auto. rewrite count_occ_app, IHl, IHr.
  destruct (Nat.eq_dec x z), (Nat.eqb_spec z x); subst; try congruence; lia.
Qed.
Lemma sz_nodes t : sz t = length (nodes t).
Proof. induction t; simpl; auto. rewrite app_length. lia. Qed.
Lemma nodes_perm m S t : hinv m S t -> Permutation (nodes t) S.
Proof.
  intros H. apply NoDup_Permutation.
  - apply (NoDup_count_occ Nat.eq_dec). intros x. rewrite <- cn_count. apply H.
  - apply H.
  - intros x. rewrite (cn_in (key m)). apply H.
Qed.

(** ** C25: front() is a node with the least key among those in the heap, null exactly when there is none;
    the size is the number of nodes *)
Theorem C25_front_is_minimum : forall m S, reachable m S ->
  NoDup S /\ size m = N.of_nat (length S) /\ (front m = None <-> S = []) /\
  (forall x, front m = Some x -> In x S /\ forall y, In y S -> (key m x <= key m y)%Z).
Proof.
  intros m S R. destruct (reach_inv R) as [t H]. unfold front. rewrite (hinv_root H).
  pose proof (nodes_perm H) as P. split; [apply H|]. split; [|split].
  - rewrite <- (Permutation_length P), <- sz_nodes, (h_sz H). lia.
  - destruct t as [|l x r]; simpl.
    + apply Permutation_nil in P. subst. tauto.
    + split; [discriminate|]. intros ->. apply Permutation_sym, Permutation_nil in P. discriminate.
  - intros x E. destruct t as [|l x' r]; inversion E; subst. split.
    + apply (h_in H). simpl. rewrite Nat.eqb_refl. lia.
    + intros y Hy. apply (h_in H) in Hy. eapply root_least; [apply H|reflexivity|exact Hy].
Qed.

(** ** C25: the links.  Every child link of a node in the heap leads to another node in the heap whose
    Prev leads back and whose key is not smaller; only the front has no Prev; a node not in the heap
    has a null Prev. *)
Theorem C25_links : forall m S, reachable m S ->
  (forall x y, In x S -> left m x = Some y \/ right m x = Some y ->
     In y S /\ x <> y /\ prev m y = Some x /\ (key m x <= key m y)%Z) /\
  (forall x, In x S -> left m x = right m x -> left m x = None) /\
  (forall x, In x S -> front m <> Some x ->
     exists y, In y S /\ prev m x = Some y /\ (left m y = Some x \/ right m y = Some x)) /\
  (forall x, ~ In x S \/ front m = Some x -> prev m x = None).
Proof.
  intros m S R. destruct (reach_inv R) as [t H]. split; [|split; [|split]].
  - intros x y Hx E. apply (h_in H) in Hx. destruct (focus _ _ Hx) as (c & l & r & Et).
    pose proof (h_rep H) as Rp. rewrite Et in Rp. destruct (plug_rep _ _ _ _ Rp) as (hp & par & C & Q).
    simpl in Q. destruct Q as (_ & _ & Ql & Qr).
    assert (O : ordered (key m) (T l x r)).
    { apply ordered_plug with (c := c). rewrite <- Et. apply H. }
    assert (G : exists s, (s = l \/ s = r) /\ rootp s = Some y /\ rep None m (Some y) (Some x) s).
    { destruct E as [E|E]; rewrite E in *; [exists l|exists r]; split; auto; split; auto.
      - apply rep_rootp in Ql; auto.
      - apply rep_rootp in Qr; auto. }
    destruct G as (s & Hs & Es & Rs). destruct s as [|sl y' sr]; inversion Es; subst y'.
    assert (Iy : 0 < cn y (T sl y sr)) by (simpl; rewrite Nat.eqb_refl; lia).
    assert (U := h_uniq H x). rewrite Et, cn_plug in U. simpl in U. rewrite Nat.eqb_refl in U.
    simpl in Rs. destruct Rs as (_ & [Rs|Rs] & _); [discriminate|].
    split; [|split; [|split; auto]].
    + apply (h_in H). rewrite Et, cn_plug. cbn [cn]. destruct Hs as [<- | <-]; lia.
    + intros ->. destruct Hs as [<- | <-]; lia.
    + eapply root_least; [exact O|reflexivity|]. cbn [cn]. destruct Hs as [<- | <-]; lia.
  - intros x Hx E. apply (h_in H) in Hx. destruct (focus _ _ Hx) as (c & l & r & Et).
    pose proof (h_rep H) as Rp. rewrite Et in Rp. destruct (plug_rep _ _ _ _ Rp) as (hp & par & C & Q).
    simpl in Q. destruct Q as (_ & _ & Ql & Qr). apply rep_rootp in Ql, Qr.
    destruct l as [|ll y lr]; auto. rewrite E, Qr in Ql. destruct r as [|rl z rr]; inversion Ql; subst z.
    pose proof (h_uniq H y) as U. rewrite Et, cn_plug in U. simpl in U. rewrite Nat.eqb_refl in U. lia.
  - intros x Hx N. pose proof Hx as Hx'. apply (h_in H) in Hx. destruct (focus _ _ Hx) as (c & l & r & Et).
    pose proof (h_rep H) as Rp. rewrite Et in Rp. destruct (plug_rep _ _ _ _ Rp) as (hp & par & C & Q).
    simpl in Q. destruct Q as (-> & [Q|Q] & _); [discriminate|].
    destruct c as [|[[b y] s] c]; simpl in C; [unfold front in N; tauto|].
    destruct C as (-> & Cb & _). exists y. split; [|split; auto].
    + apply (h_in H). rewrite Et, cn_plug. simpl. rewrite Nat.eqb_refl. lia.
    + destruct b; tauto.
  - intros x [N|F].
    + apply (prev_none x H); auto.
    + pose proof (h_rep H) as Rp. unfold front in F. rewrite F in Rp. destruct t as [|l y r]; simpl in Rp; [discriminate|].
      destruct Rp as (E & [Q|Q] & _); [discriminate|]. inversion E; subst. auto.
Qed.

(** ** C25: what each operation does to the contents: the keys are left alone, and popping until empty
    hands out every node exactly once in non-decreasing key order *)
Lemma front_in m S x : reachable m S -> front m = Some x -> In x S.
Proof. intros R E. apply (C25_front_is_minimum R). auto. Qed.

Fixpoint drain (n : nat) (m : mem) : list nat :=
  match n with
  | 0 => []
  | S n => match front m with
           | None => []
           | Some x => x :: match pop_front m with Some m' => drain n m' | None => [] end
           end
  end.

Lemma remove_perm (x : nat) S : NoDup S -> In x S -> Permutation (x :: remove Nat.eq_dec x S) S.
Proof.
  intros ND I. apply NoDup_Permutation; auto.
  - constructor; [apply remove_In|apply remove_nodup; auto].
  - intros y. simpl. split.
    + intros [<-|K]; auto. apply in_remove in K. tauto.
    + intros K. destruct (Nat.eq_dec x y); auto. right. apply in_in_remove; auto.
Qed.

Theorem C25_keys_kept : forall m S, reachable m S ->
  (forall x m', ~ In x S -> insert m x = Some m' -> key m' = key m) /\
  (forall m', pop_front m = Some m' -> key m' = key m) /\
  (forall x m' b, erase m x = Some (m', b) -> key m' = key m).
Proof.
  intros m S R. destruct (reach_inv R) as [t H]. split; [|split].
  - intros x m' NI E. destruct (insert_ok x H NI) as (m2 & t2 & E2 & _ & K). rewrite E in E2. inversion E2; subst. auto.
  - intros m' E. destruct (pop_ok H) as (m2 & t2 & E2 & _ & K). rewrite E in E2. inversion E2; subst. auto.
  - intros x m' b E. destruct (in_dec Nat.eq_dec x S) as [I|I].
    + destruct (erase_ok x H I) as (m2 & t2 & E2 & _ & K). rewrite E in E2. inversion E2; subst. auto.
    + rewrite (erase_out x H I) in E. inversion E; subst. auto.
Qed.

Theorem C25_drain_sorted : forall m S, reachable m S ->
  Permutation (drain (length S) m) S /\
  StronglySorted (fun x y => (key m x <= key m y)%Z) (drain (length S) m).
Proof.
  intros m S R. remember (length S) as n eqn:En. revert m S R En.
  induction n as [|n IH]; intros m S R En.
  - destruct S; [|discriminate]. simpl. split; constructor.
  - cbn [drain]. destruct (C25_front_is_minimum R) as (ND & _ & FN & FS).
    destruct (front m) as [x|] eqn:F.
    2:{ rewrite (proj1 FN eq_refl) in En. discriminate. }
    destruct (FS x eq_refl) as [I Le]. destruct (C25_operations_succeed R) as (_ & (m' & E) & _). rewrite E.
    pose proof (r_pop R E) as R'. rewrite F in R'.
    pose proof (remove_perm _ ND I) as P.
    assert (En' : n = length (remove Nat.eq_dec x S)). { apply Permutation_length in P. simpl in P. lia. }
    destruct (IH _ _ R' En') as [P' S']. rewrite (proj1 (proj2 (C25_keys_kept R)) _ E) in S'. split.
    + etransitivity; [apply perm_skip; exact P'|exact P].
    + constructor; auto. apply Forall_forall. intros y Hy. apply Le.
      eapply Permutation_in in Hy; [|exact P']. apply in_remove in Hy. tauto.
Qed.

(** ** a concrete run: five inserts with equal keys among them, erase of an inner node, drain *)
Definition ex_keys (x : nat) : Z := nth x [5;3;8;1;3;7]%Z 0%Z.
Fixpoint ins_all (l : list nat) (m : mem) : option mem :=
  match l with [] => Some m | x :: l => do m' <- insert m x; ins_all l m' end.
Lemma ins_all_reachable l : forall m S m', reachable m S -> NoDup l -> (forall x, In x l -> ~ In x S) ->
  ins_all l m = Some m' -> reachable m' (rev l ++ S).
Proof.
  induction l as [|x l IH]; simpl; intros m S m' R ND D E; [inversion E; subst; auto|].
  destruct (insert m x) as [m1|] eqn:E1; [|discriminate]. apply NoDup_cons_iff in ND. destruct ND as [N1 N2].
  rewrite <- app_assoc. simpl. eapply IH; [|auto| |exact E].
  - econstructor; eauto.
  - intros y Hy [<-|K]; [tauto|]. apply (D y); auto.
Qed.
Definition ex_start := empty ex_keys (fun _ => None) (fun _ => None).
Definition ex_heap : mem := match ins_all [0;1;2;3;4;5] ex_start with Some m => m | None => ex_start end.
Example C25_ex_reachable : reachable ex_heap [5;4;3;2;1;0].
Proof.
  apply (@ins_all_reachable [0;1;2;3;4;5] ex_start []).
  - constructor.
  - repeat constructor; simpl; intuition discriminate.
  - auto.
  - assert (E : match ins_all [0;1;2;3;4;5] ex_start with Some _ => true | None => false end = true) by (vm_compute; reflexivity).
    unfold ex_heap. destruct (ins_all [0;1;2;3;4;5] ex_start); [reflexivity|discriminate].
Qed.
Example C25_ex_drain : drain 6 ex_heap = [3;1;4;0;5;2] /\ front ex_heap = Some 3.
Proof. split; vm_compute; reflexivity. Qed.
Example C25_ex_erase :
  match erase ex_heap 1 with Some (m', b) => (b, drain 5 m') | None => (false, []) end = (true, [3;4;0;5;2]).
Proof. vm_compute. reflexivity. Qed.

Print Assumptions C25_operations_succeed.
Print Assumptions C25_front_is_minimum.
Print Assumptions C25_links.
Print Assumptions C25_keys_kept.
Print Assumptions C25_drain_sorted.
