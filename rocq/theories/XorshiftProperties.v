(** C77: the random numbers of the thread pool. *)
From Coq Require Import ZArith Lia List Bool.
From Verif Require Import XorshiftModel.
Import ListNotations.
Open Scope Z_scope.

Definition word (x : Z) : Prop := 0 <= x < 2 ^ 64.

Lemma bits_word x : word x -> forall i, 64 <= i -> Z.testbit x i = false.
Proof.
  intros [A B] i H. destruct (Z.eq_dec x 0) as [->|N]; [apply Z.bits_0|].
  apply Z.bits_above_log2; auto. assert (Z.log2 x < 64) by (apply Z.log2_lt_pow2; lia). lia.
Qed.
Lemma word_bits x : 0 <= x -> (forall i, 64 <= i -> Z.testbit x i = false) -> word x.
Proof.
  intros A H. split; auto. destruct (Z.eq_dec x 0) as [->|N]; [lia|].
  apply Z.log2_lt_pow2; [lia|]. destruct (Z.lt_ge_cases (Z.log2 x) 64) as [L|L]; auto.
  specialize (H _ L). rewrite Z.bit_log2 in H by lia. discriminate.
Qed.
Lemma word_xor x y : word x -> word y -> word (Z.lxor x y).
Proof.
  intros X Y. apply word_bits; [apply Z.lxor_nonneg; unfold word in *; lia|].
  intros i H. rewrite Z.lxor_spec, (bits_word x), (bits_word y); auto.
Qed.
Lemma word_shr x k : 0 <= k -> word x -> word (Z.shiftr x k).
Proof.
  intros K [A B]. rewrite Z.shiftr_div_pow2 by auto. assert (0 < 2 ^ k) by (apply Z.pow_pos_nonneg; lia). split; [apply Z.div_pos; lia|].
  eapply Z.le_lt_trans; [|exact B]. apply Z.div_le_upper_bound; auto. nia.
Qed.
Lemma word_w64 x : word (w64 x).
Proof. unfold word, w64. apply Z.mod_pos_bound. reflexivity. Qed.
Lemma bit_w64 x i : 0 <= i -> Z.testbit (w64 x) i = if i <? 64 then Z.testbit x i else false.
Proof.
  intros H. unfold w64. destruct (Z.ltb_spec i 64); [apply Z.mod_pow2_bits_low; lia|apply Z.mod_pow2_bits_high; lia].
Qed.

(** Shifting right by k and combining loses nothing: the high bits are unchanged and determine the lower ones. *)
Lemma shr_inj k x y : 0 < k -> word x -> word y -> Z.lxor x (Z.shiftr x k) = Z.lxor y (Z.shiftr y k) -> x = y.
Proof.
  intros K X Y E. apply Z.bits_inj'. intros i Hi.
  assert (G : forall n : nat, forall j, 0 <= j -> 64 - j <= Z.of_nat n -> Z.testbit x j = Z.testbit y j).
  { induction n as [|n IH]; intros j J N; [rewrite (bits_word x), (bits_word y); auto; lia|].
    pose proof (f_equal (fun z => Z.testbit z j) E) as B. cbv beta in B. rewrite !Z.lxor_spec, !Z.shiftr_spec in B by auto.
    rewrite (IH (j + k)) in B by lia. destruct (Z.testbit x j), (Z.testbit y j), (Z.testbit y (j + k)); simpl in B; congruence. }
  apply (G (Z.to_nat (64 - i))); lia.
Qed.
(** The same for shifting left within the word. *)
Lemma shl_inj k x y : 0 < k -> word x -> word y -> Z.lxor x (w64 (Z.shiftl x k)) = Z.lxor y (w64 (Z.shiftl y k)) -> x = y.
Proof.
  intros K X Y E. apply Z.bits_inj'. intros i Hi.
  assert (G : forall n : nat, forall j, 0 <= j -> j < Z.of_nat n -> Z.testbit x j = Z.testbit y j).
  { induction n as [|n IH]; intros j J N; [lia|].
    pose proof (f_equal (fun z => Z.testbit z j) E) as B. cbv beta in B. rewrite !Z.lxor_spec, !bit_w64, !Z.shiftl_spec in B by auto.
    destruct (j <? 64); [|rewrite !xorb_false_r in B; auto].
    destruct (Z.lt_ge_cases (j - k) 0) as [L|L].
    - rewrite !(Z.testbit_neg_r _ (j - k)), !xorb_false_r in B by auto. auto.
    - rewrite (IH (j - k)) in B by lia. destruct (Z.testbit x j), (Z.testbit y j), (Z.testbit y (j - k)); simpl in B; congruence. }
  apply (G (Z.to_nat (i + 1))); lia.
Qed.

Lemma s1_word x : word x -> word (s1 x). Proof. intros. apply word_xor; auto. apply word_shr; auto; lia. Qed.
Lemma s2_word x : word x -> word (s2 x). Proof. intros. apply word_xor; auto. apply word_w64. Qed.
Lemma s3_word x : word x -> word (s3 x). Proof. intros. apply word_xor; auto. apply word_shr; auto; lia. Qed.

(** ** Theorems *)

(** No two states have the same successor: no part of the state space is lost, however often the generator is called. *)
Theorem xorshift_injective n x y : word x -> word y -> discard n x = discard n y -> x = y.
Proof.
  assert (W : forall z, word z -> word (next z)) by (intros; apply s3_word, s2_word, s1_word; auto).
  revert x y. induction n as [|n IH]; intros x y X Y E; [exact E|]. simpl in E. apply IH in E; auto.
  apply (shr_inj 18) in E; [|lia|apply s2_word, s1_word; auto|apply s2_word, s1_word; auto].
  apply (shl_inj 31) in E; [|lia|apply s1_word; auto|apply s1_word; auto].
  apply (shr_inj 11) in E; auto. lia.
Qed.

(** The state is always a word, and from any seed but 0 it never becomes 0 (where the generator would stick). *)
Theorem xorshift_never_sticks_partial n x : word x -> x <> 0 -> word (discard n x) /\ discard n x <> 0.
Proof.
  intros X N. split.
  - clear N. revert x X. induction n as [|n IH]; intros x X; [exact X|]. simpl. apply IH. apply s3_word, s2_word, s1_word; auto.
  - intros E. apply N. assert (W0 : word 0) by (split; [apply Z.le_refl|reflexivity]).
    apply (xorshift_injective n x 0 X W0). rewrite E. clear. induction n as [|n IH]; [reflexivity|exact IH].
Qed.

(** The sequence of states comes back to where it started: every state recurs, it does not run into a shorter cycle. *)
Theorem xorshift_no_tail m n x : word x -> (m <= n)%nat -> discard m x = discard n x -> discard (n - m) x = x.
Proof.
  intros X L E. assert (A : forall a b z, discard (a + b) z = discard b (discard a z)).
  { induction a; intros; simpl; auto. }
  replace n with ((n - m) + m)%nat in E by lia. rewrite A in E. symmetry. apply (xorshift_injective m); auto.
  clear - X. revert x X. induction (n - m)%nat as [|k IH]; intros x X; [exact X|]. simpl. apply IH. apply s3_word, s2_word, s1_word; auto.
Qed.

(** Outputs are between min() and max(). *)
Theorem xorshift_range n x : Forall (fun r => 0 <= r <= 2 ^ 32 - 1) (outputs n x).
Proof.
  assert (G : forall z, 0 <= output z <= 2 ^ 32 - 1).
  { intros z. unfold output. set (a := Z.shiftr _ 32). pose proof (Z.mod_pos_bound a (2 ^ 32) ltac:(reflexivity)). lia. }
  revert x. induction n as [|n IH]; intros x; [constructor|]. change (outputs (S n) x) with (output x :: outputs n (next x)). constructor; auto.
Qed.

(** The output is the upper half of the product, all of it. *)
Theorem xorshift_upper_half x : word x -> exists low, 0 <= low < 2 ^ 32 /\ w64 (x * 0xd989bcacc137dcd5) = output x * 2 ^ 32 + low.
Proof.
  intros _. set (p := w64 (x * 0xd989bcacc137dcd5)). pose proof (word_w64 (x * 0xd989bcacc137dcd5)) as W. fold p in W.
  unfold output. fold p. rewrite Z.shiftr_div_pow2 by lia. exists (p mod 2 ^ 32).
  pose proof (Z.mod_pos_bound p (2 ^ 32) ltac:(lia)). split; [lia|].
  rewrite (Z.mod_small (p / 2 ^ 32)).
  - pose proof (Z.div_mod p (2 ^ 32) ltac:(lia)). lia.
  - unfold word in W. split; [apply Z.div_pos; lia|]. apply Z.div_lt_upper_bound; lia.
Qed.

(** discard(n) skips exactly n outputs. *)
Theorem xorshift_discard n m x : outputs (n + m) x = outputs n x ++ outputs m (discard n x).
Proof. revert x. induction n as [|n IH]; intros x; simpl; auto. now rewrite IH. Qed.

(** ** What is not true of the code *)
(** With the seed 0 (which the constructor and the random device may give) every output is 0: *)
Theorem xorshift_zero_refuted : seed_of 0 0 = 0 /\ forall n, outputs n 0 = repeat 0 n.
Proof. split; [reflexivity|]. induction n; simpl; auto. f_equal. exact IHn. Qed.
(** The two numbers of the random device overlap in one bit (they are shifted by 31, not 32): different ones give the same seed, and half of the seeds never occur. *)
Theorem xorshift_seed_refuted :
  (exists r1 r2 q1 q2, 0 <= r1 < 2 ^ 32 /\ 0 <= r2 < 2 ^ 32 /\ 0 <= q1 < 2 ^ 32 /\ 0 <= q2 < 2 ^ 32 /\ (r1, r2) <> (q1, q2) /\ seed_of r1 r2 = seed_of q1 q2) /\
  (forall r1 r2, 0 <= r1 < 2 ^ 32 -> 0 <= r2 < 2 ^ 32 -> Z.testbit (seed_of r1 r2) 63 = false).
Proof.
  split.
  - exists 1, 0, 0, (2 ^ 31). repeat split; try (vm_compute; congruence). 
  - intros r1 r2 A B. unfold seed_of. rewrite Z.lor_spec, bit_w64 by lia. rewrite Z.shiftl_spec by lia. change (63 <? 64) with true. cbv iota.
    rewrite (Z.bits_above_log2 r2 63), orb_false_r; [|lia|].
    + change (63 - 31) with 32. destruct (Z.eq_dec r1 0) as [->|N]; [apply Z.bits_0|]. apply Z.bits_above_log2; [lia|]. apply Z.log2_lt_pow2; lia.
    + destruct (Z.eq_dec r2 0) as [->|N]; [reflexivity|]. assert (Z.log2 r2 < 32) by (apply Z.log2_lt_pow2; lia). lia.
Qed.

(** ** The hypotheses are met *)
Example xorshift_use : word default_seed /\ default_seed <> 0 /\ outputs 3 default_seed = [2951605425; 1375651122; 1995717577].
Proof. vm_compute. repeat split; congruence. Qed.
