(** C69: exec::function types do not depend on the order or repetition of signatures, and keep the factory. *)
From Coq Require Import List Arith Bool Lia Sorted.
From Verif Require Import Conc FunctionModel.
Import ListNotations.
Set Implicit Arguments.

(** ** __static_vector *)
Lemma put_app {A} (xs : list A) : forall pre mid post, length mid = length xs -> put (pre ++ mid ++ post) (length pre) xs = pre ++ xs ++ post.
Proof.
  induction xs as [|x xs IH]; intros pre [|m mid] post L; simpl in L; try discriminate; simpl; auto.
  assert (U : forall (p : list A) m q y, upd (p ++ m :: q) (length p) y = p ++ y :: q) by (induction p; simpl; intros; f_equal; auto).
  rewrite U. specialize (IH (pre ++ [x]) mid post (eq_add_S _ _ L)). rewrite app_length in IH; simpl in IH.
  rewrite Nat.add_1_r in IH. rewrite <- !app_assoc in IH. exact IH.
Qed.
Lemma skipn_skipn {A} x : forall y (l : list A), skipn x (skipn y l) = skipn (x + y) l.
Proof.
  intros y; induction y as [|y IH]; intros l; [rewrite Nat.add_0_r; auto|]. rewrite Nat.add_succ_r. destruct l; [simpl; rewrite skipn_nil; auto|simpl; apply IH].
Qed.
Lemma put_at {A} (arr xs : list A) k : k + length xs <= length arr -> put arr k xs = firstn k arr ++ xs ++ skipn (k + length xs) arr.
Proof.
  intros H. assert (L : length (firstn k arr) = k) by (rewrite firstn_length; lia).
  assert (L2 : length (firstn (length xs) (skipn k arr)) = length xs) by (rewrite firstn_length, skipn_length; lia).
  pose proof (@put_app A xs (firstn k arr) (firstn (length xs) (skipn k arr)) (skipn (length xs) (skipn k arr)) L2) as P.
  rewrite !firstn_skipn, L in P. rewrite P. rewrite skipn_skipn. f_equal. f_equal. f_equal. lia.
Qed.

(** A vector made from a list holds the list, cut at the capacity. *)
Theorem sv_init_contents {A} cap (d : A) l : contents (sv_init cap d l) = firstn cap l /\ capacity (sv_init cap d l) = cap /\ size (sv_init cap d l) <= cap.
Proof.
  unfold sv_init, contents, capacity; cbn [data size]. set (c := Nat.min (length l) cap).
  assert (L : length (firstn c l) = c) by (rewrite firstn_length; unfold c; lia).
  rewrite put_at by (rewrite L, repeat_length; unfold c; lia). rewrite L. cbn [firstn app Nat.add].
  rewrite firstn_app, L, Nat.sub_diag, firstn_firstn, Nat.min_id. cbn [firstn]. rewrite app_nil_r.
  rewrite app_length, L, skipn_length, repeat_length. repeat split; try (unfold c; lia).
  unfold c. destruct (Nat.le_ge_cases (length l) cap).
  - rewrite Nat.min_l by auto. rewrite !firstn_all2; auto.
  - rewrite Nat.min_r by auto. auto.
Qed.

Lemma shift_spec {A} n : forall (arr : list A) from to, to <= from -> from + n <= length arr ->
  firstn (to + n) (shift arr from to n) = firstn to arr ++ firstn n (skipn from arr) /\ length (shift arr from to n) = length arr.
Proof.
  induction n as [|n IH]; intros arr from to T F; simpl.
  - rewrite Nat.add_0_r, app_nil_r. auto.
  - destruct (nth_error arr from) as [x|] eqn:Q; [|apply nth_error_None in Q; lia].
    destruct (IH (upd arr to x) (S from) (S to)) as [I1 I2]; [lia|rewrite upd_length; lia|]. split; [|rewrite I2, upd_length; auto].
    replace (to + S n) with (S to + n) by lia. rewrite I1. clear I1 I2 IH.
    assert (TL : to < length arr) by lia.
    assert (E1 : upd arr to x = firstn to arr ++ x :: skipn (S to) arr).
    { clear -TL. revert arr TL. induction to; intros [|a arr] TL; simpl in *; try lia; auto. f_equal. apply IHto. lia. }
    assert (E2 : skipn from arr = x :: skipn (S from) arr).
    { clear -Q. revert arr Q. induction from; intros [|a arr] Q; simpl in *; try discriminate; [inversion Q; auto|]. apply IHfrom in Q. auto. }
    rewrite E2. change (firstn (S n) (x :: skipn (S from) arr)) with (x :: firstn n (skipn (S from) arr)). rewrite E1.
    rewrite firstn_app, firstn_firstn, firstn_length. replace (Nat.min (S to) to) with to by lia. replace (S to - Nat.min to (length arr)) with 1 by lia. cbn [firstn].
    rewrite <- app_assoc. f_equal. cbn [app]. f_equal. f_equal.
    rewrite skipn_app, firstn_length. replace (Nat.min to (length arr)) with to by lia. rewrite skipn_all2 by (rewrite firstn_length; lia). cbn [app].
    replace (S from - to) with (S (from - to)) by lia. change (skipn (S (from - to)) (x :: skipn (S to) arr)) with (skipn (from - to) (skipn (S to) arr)). rewrite skipn_skipn. f_equal. lia.
Qed.

(** erase removes exactly the range: what is before and behind it stays, in order. *)
Theorem sv_erase_contents {A} (v : sv A) first last : size v <= capacity v -> first <= last -> last <= size v ->
  exists v' r, sv_erase v first last = Some (v', r) /\ contents v' = firstn first (contents v) ++ skipn last (contents v) /\ size v' <= capacity v' /\ capacity v' = capacity v.
Proof.
  intros C F L. unfold sv_erase. rewrite (proj2 (Nat.leb_le first (size v))), (proj2 (Nat.leb_le first last)), (proj2 (Nat.leb_le last (size v))) by lia. cbn [andb].
  eexists; eexists; split; [reflexivity|]. unfold contents, capacity in *. destruct (Nat.eqb_spec first last) as [->|N].
  - rewrite firstn_skipn. auto.
  - cbn [data size]. destruct (@shift_spec A (size v - last) (data v) last first F) as [S1 S2]; [lia|].
    replace (size v - (last - first)) with (first + (size v - last)) by lia. rewrite S1, S2. repeat split; try lia.
    rewrite firstn_firstn, Nat.min_l by lia. f_equal. rewrite firstn_skipn_comm. f_equal. f_equal. lia.
Qed.
(** The full claim, that erase returns the position after the removed elements as the standard containers do, is false: it returns end(). *)
Theorem sv_erase_position_refuted : exists (v v' : sv nat) r, sv_erase v 0 1 = Some (v', r) /\ contents v = [1; 2; 3] /\ r <> 0.
Proof. exists (mk_sv [1; 2; 3] 3). vm_compute. do 2 eexists. repeat split. discriminate. Qed.

(** operator+ concatenates. *)
Theorem sv_plus_contents {A} (d : A) l r : size l <= capacity l -> size r <= capacity r ->
  contents (sv_plus d l r) = contents l ++ contents r /\ capacity (sv_plus d l r) = capacity l + capacity r.
Proof.
  intros L R. unfold sv_plus, contents, capacity in *. destruct (Nat.eqb_spec (length (data l)) 0) as [Z|Z].
  { replace (size l) with 0 by lia. simpl. rewrite Z. auto. }
  destruct (Nat.eqb_spec (length (data r)) 0) as [Y|Y].
  { replace (size r) with 0 by lia. simpl. rewrite app_nil_r. split; [auto|lia]. }
  cbn [data size]. set (cl := firstn (size l) (data l)). set (cr := firstn (size r) (data r)).
  assert (Ll : length cl = size l) by (unfold cl; rewrite firstn_length; lia). assert (Lr : length cr = size r) by (unfold cr; rewrite firstn_length; lia).
  set (arr := repeat d (length (data l) + length (data r))). assert (La : length arr = length (data l) + length (data r)) by apply repeat_length.
  rewrite (@put_at A arr cl 0) by lia. cbn [firstn app Nat.add]. set (a1 := cl ++ skipn (length cl) arr).
  assert (L1 : length a1 = length arr) by (unfold a1; rewrite app_length, skipn_length; lia).
  rewrite put_at by lia. split.
  - assert (A1 : firstn (size l) a1 = cl) by (unfold a1; rewrite firstn_app, Ll, Nat.sub_diag; cbn [firstn]; rewrite app_nil_r; apply firstn_all2; lia).
    rewrite A1. rewrite app_assoc, firstn_app, app_length, Ll, Lr, Nat.sub_diag. cbn [firstn]. rewrite app_nil_r. apply firstn_all2. rewrite app_length; lia.
  - rewrite !app_length, firstn_length, skipn_length. lia.
Qed.

(** ** Canonical type lists *)
Lemma insert_in x l y : In y (insert x l) <-> y = x \/ In y l.
Proof. induction l as [|a l IH]; simpl; [intuition|]. destruct (x <=? a); simpl; rewrite ?IH; intuition. Qed.
Lemma sort_in l y : In y (sort l) <-> In y l.
Proof. induction l; simpl; [tauto|]. rewrite insert_in, IHl. intuition. Qed.
Lemma insert_sorted x l : StronglySorted le l -> StronglySorted le (insert x l).
Proof.
  induction 1 as [|a l S IH F]; simpl; [repeat constructor|]. destruct (Nat.leb_spec x a).
  - constructor; [constructor; auto|]. constructor; auto. eapply Forall_impl; [|exact F]. simpl; intros; lia.
  - constructor; auto. rewrite Forall_forall in *. intros y Y. apply insert_in in Y. destruct Y as [->|Y]; [lia|auto].
Qed.
Lemma sort_sorted l : StronglySorted le (sort l).
Proof. induction l; simpl; [constructor|]. apply insert_sorted; auto. Qed.
Lemma sort_length l : length (sort l) = length l.
Proof. induction l; simpl; auto. rewrite <- IHl. generalize (sort l). induction l0; simpl; auto. destruct (a <=? a0); simpl; auto. Qed.
Lemma uniq_cons x y l : uniq (x :: y :: l) = if x =? y then uniq (y :: l) else x :: uniq (y :: l).
Proof. reflexivity. Qed.
Lemma uniq_in l : forall y, In y (uniq l) <-> In y l.
Proof.
  induction l as [|x [|z l] IH]; intros y; [simpl; tauto|simpl; tauto|]. rewrite uniq_cons. destruct (Nat.eqb_spec x z) as [->|N].
  - rewrite IH. simpl. intuition.
  - simpl in *. rewrite IH. intuition.
Qed.
Lemma uniq_length l : length (uniq l) <= length l.
Proof. induction l as [|x [|z l] IH]; auto. rewrite uniq_cons. destruct (x =? z); simpl in *; lia. Qed.
Lemma uniq_strict l : StronglySorted le l -> StronglySorted lt (uniq l).
Proof.
  induction l as [|x [|z l] IH]; intros S; [constructor|repeat constructor|]. rewrite uniq_cons. inversion S as [|? ? S' F]; subst.
  destruct (Nat.eqb_spec x z); [auto|]. constructor; [auto|]. rewrite Forall_forall in *. intros y Y. apply (proj1 (uniq_in _ _)) in Y.
  pose proof (F z (or_introl eq_refl)). destruct Y as [<-|Y]; [lia|]. inversion S' as [|? ? _ F']; subst. rewrite Forall_forall in F'. specialize (F' _ Y). lia.
Qed.
(** A strictly increasing list is determined by its elements: the sorting algorithm does not matter. *)
Theorem sorted_unique l : forall l', StronglySorted lt l -> StronglySorted lt l' -> (forall x, In x l <-> In x l') -> l = l'.
Proof.
  induction l as [|a l IH]; intros [|b l'] S S' E; auto.
  - destruct (proj2 (E b)); simpl; auto.
  - destruct (proj1 (E a)); simpl; auto.
  - inversion S as [|? ? S1 F1]; inversion S' as [|? ? S2 F2]; subst. rewrite Forall_forall in *.
    assert (a = b).
    { destruct (proj1 (E a) (or_introl eq_refl)) as [X|X]; auto. destruct (proj2 (E b) (or_introl eq_refl)) as [Y|Y]; auto. specialize (F1 _ Y). specialize (F2 _ X). lia. }
    subst b. f_equal. apply IH; auto. intros x. specialize (E x). simpl in E. split; intros X.
    + destruct (proj1 E (or_intror X)) as [->|]; auto. specialize (F1 _ X). lia.
    + destruct (proj2 E (or_intror X)) as [->|]; auto. specialize (F2 _ X). lia.
Qed.

Lemma canonicalize_uniq junk l : length l <= length junk -> canonicalize junk l = Some (uniq (sort l)).
Proof.
  intros J. unfold canonicalize, canonicalize_impl. destruct (@sv_init_contents nat (length l) 0 l) as (C & K & Z).
  assert (SZ : size (sv_init (length l) 0 l) = length l) by (unfold sv_init; simpl; lia).
  rewrite C, firstn_all, SZ. pose proof (uniq_length (sort l)) as U. rewrite sort_length in U.
  match goal with |- context [sv_erase ?v _ _] => set (w := v) end.
  assert (KD : length (data (sv_init (length l) 0 l)) = length l) by exact K.
  assert (CW : contents w = uniq (sort l) ++ firstn (length l - length (uniq (sort l))) junk).
  { unfold contents, w; cbn [data size]. rewrite app_assoc, firstn_app, (@skipn_all2 _ (length l)) by lia. rewrite firstn_nil, app_nil_r. apply firstn_all2.
    rewrite app_length, firstn_length. lia. }
  destruct (@sv_erase_contents nat w (length (uniq (sort l))) (size w)) as (v' & r & E & D & _); try (unfold w; cbn [size]; lia).
  { unfold capacity, w; cbn [data size]. rewrite !app_length, firstn_length. lia. }
  rewrite E, D, CW. f_equal. rewrite firstn_app, firstn_all, Nat.sub_diag. cbn [firstn]. rewrite app_nil_r.
  rewrite (@skipn_all2 _ (size w)); [apply app_nil_r|]. unfold w; cbn [size]. rewrite app_length, firstn_length. lia.
Qed.

(** The canonical list has exactly the given types, each once, in increasing order, whatever unique leaves behind its end. *)
Theorem canonical_spec junk l : length l <= length junk ->
  exists c, canonicalize junk l = Some c /\ StronglySorted lt c /\ (forall x, In x c <-> In x l).
Proof.
  intros J. exists (uniq (sort l)). split; [apply canonicalize_uniq; auto|]. split; [apply uniq_strict, sort_sorted|].
  intros x. rewrite uniq_in, sort_in. tauto.
Qed.
(** Two lists of types give the same function type exactly if they have the same types, in any order and with any repetitions. *)
Theorem canonical_same_iff junk junk' l l' : length l <= length junk -> length l' <= length junk' ->
  (canonicalize junk l = canonicalize junk' l' <-> forall x, In x l <-> In x l').
Proof.
  intros J J'. rewrite !canonicalize_uniq by auto. split.
  - intros E. inversion E as [E']. intros x. rewrite <- (sort_in l), <- (uniq_in (sort l)), E', uniq_in, sort_in. tauto.
  - intros E. f_equal. apply sorted_unique; [apply uniq_strict, sort_sorted|apply uniq_strict, sort_sorted|]. intros x. rewrite !uniq_in, !sort_in. auto.
Qed.
(** Canonical lists stay as they are. *)
Theorem canonical_idempotent junk junk' l c : length l <= length junk -> length c <= length junk' -> canonicalize junk l = Some c -> canonicalize junk' c = Some c.
Proof.
  intros J J' E. destruct (canonical_spec junk l J) as (c0 & E0 & S & _). rewrite E in E0. inversion E0; subst c0. clear E0.
  destruct (canonical_spec junk' c J') as (c1 & E1 & S1 & I1). rewrite E1. f_equal. apply sorted_unique; auto.
Qed.

(** ** Storage of the factory *)
(** A stored factory is read back byte for byte. *)
Theorem function_store_load bytes al : accepted (length bytes) al = true -> load (store bytes) (length bytes) = bytes /\ length (store bytes) = buf_size.
Proof.
  unfold accepted, load, store. intros H. apply Nat.leb_le in H.
  rewrite put_at by (rewrite repeat_length; exact H). cbn [firstn app Nat.add]. split.
  - rewrite firstn_app, firstn_all, Nat.sub_diag. cbn [firstn]. apply app_nil_r.
  - rewrite app_length, skipn_length, repeat_length. lia.
Qed.

Lemma round_up_mod n a : a <> 0 -> (round_up n a) mod a = 0.
Proof. intros. unfold round_up. apply Nat.mod_mul; auto. Qed.
(** The buffer does not overlap the arguments or the pointer. *)
Theorem function_layout_disjoint args_size : args_size <= off_ptr args_size /\ off_ptr args_size + ptr <= off_buf args_size.
Proof.
  unfold off_buf, off_ptr, round_up. split; [|lia]. pose proof (Nat.div_mod (args_size + (ptr - 1)) ptr ltac:(discriminate)).
  pose proof (Nat.mod_upper_bound (args_size + (ptr - 1)) ptr ltac:(discriminate)). unfold ptr in *. lia.
Qed.
(** A factory whose alignment divides the alignment of a pointer is stored at an aligned address, wherever the (aligned) function object is. *)
Theorem function_factory_aligned base args_size args_align fac_align :
  (exists k, args_align = ptr * k \/ ptr = args_align * k) -> fac_align <> 0 -> ptr mod fac_align = 0 -> base mod (fn_align args_align) = 0 ->
  (base + off_buf args_size) mod fac_align = 0.
Proof.
  intros A F P B. apply Nat.mod_divide in P; auto.
  assert (D : Nat.divide ptr base).
  { unfold fn_align in B. apply Nat.mod_divide in B; [|unfold ptr; lia]. eapply Nat.divide_trans; [|exact B].
    destruct (Nat.le_ge_cases args_align ptr); [rewrite Nat.max_r by auto; exists 1; lia|]. rewrite Nat.max_l by auto.
    destruct A as [k [->| E]]; [exists k; lia|]. destruct k as [|[|k]]; unfold ptr in *; try lia. exists 1. lia. }
  apply Nat.mod_divide; auto. eapply Nat.divide_trans; [exact P|]. apply Nat.divide_add_r; auto. unfold off_buf. apply Nat.divide_add_r; [|exists 1; lia].
  unfold off_ptr. apply Nat.mod_divide; [discriminate|]. apply round_up_mod. discriminate.
Qed.
(** The full claim would be for every accepted factory; one with alignment 16 is accepted and misplaced in every function object of a signature without arguments (at an address that is a multiple of 16). *)
Theorem function_overaligned_refuted : exists fac_size fac_align, accepted fac_size fac_align = true /\ fac_align <= fac_size /\
  forall base, base mod 16 = 0 -> (base + off_buf 0) mod fac_align <> 0.
Proof.
  exists 16, 16. repeat split; auto. intros base B. change (off_buf 0) with 8. rewrite Nat.add_mod by discriminate. rewrite B. discriminate.
Qed.

(** ** Examples *)
Example ex_canon : canonicalize [9; 9; 9; 9; 9] [4; 2; 4; 1; 2] = Some [1; 2; 4].
Proof. reflexivity. Qed.
Example ex_canon_perm : canonicalize [0; 0; 0] [2; 4; 1] = canonicalize [9; 9; 9; 9; 9] [4; 2; 4; 1; 2].
Proof. reflexivity. Qed.
Example ex_erase : option_map (fun p => contents (fst p)) (sv_erase (mk_sv [1; 2; 3; 4; 5; 0] 5) 1 3) = Some [1; 4; 5].
Proof. reflexivity. Qed.
