(** * C36: even_share partitions the index space *)

From Coq Require Import NArith ZArith Lia List.
From Verif Require Import EvenShareModel.
Import ListNotations.
Local Open Scope N_scope.

(** the exact value of the begin of a share: no operation wraps around *)
Definition exact (n rank size : N) : N := rank * (n / size) + N.min rank (n mod size).

Lemma share_eq n rank size : 0 < size -> n < word -> rank < size ->
  even_share n rank size = (exact n rank size, exact n (rank + 1) size).
Proof.
  intros Hs Hn Hr. unfold even_share, exact, wadd, wsub, wmul.
  assert (Hd : n = size * (n / size) + n mod size) by (apply N.div_mod'; lia).
  assert (Hm : n mod size < size) by (apply N.mod_lt; lia).
  set (q := n / size) in *. set (r := n mod size) in *.
  assert (Hle : rank * q + rank * 1 + r <= n + size) by nia.
  destruct (N.ltb_spec rank r) as [L|L].
  - assert (H1 : (q + 1) * rank + q + 1 <= n) by nia.
    assert (Hq : q + 1 < word) by nia.
    rewrite (N.mod_small (q + 1)) by lia.
    rewrite (N.mod_small ((q + 1) * rank)) by lia.
    rewrite N.mod_small by lia.
    f_equal; nia.
  - assert (Hrk : (rank + word - r) mod word = rank - r \/ q = 0).
    { destruct (N.eq_dec q 0); [auto|left].
      assert (rank < word) by nia.
      replace (rank + word - r) with ((rank - r) + 1 * word) by lia.
      rewrite N.mod_add by (unfold word; lia). apply N.mod_small; lia. }
    assert (Ha : ((q + 1) mod word * r) mod word = (q + 1) * r).
    { destruct (N.eq_dec r 0) as [->|Hz].
      - rewrite !N.mul_0_r. apply N.mod_small; unfold word; lia.
      - assert (q + 1 < word) by nia. rewrite (N.mod_small (q + 1)) by lia.
        apply N.mod_small; nia. }
    rewrite Ha.
    assert (Hb : ((rank + word - r) mod word * q) mod word = (rank - r) * q).
    { destruct Hrk as [-> | ->].
      - apply N.mod_small. nia.
      - rewrite !N.mul_0_r. apply N.mod_small; unfold word; lia. }
    rewrite Hb.
    assert (Hc : (q + 1) * r + (rank - r) * q + q <= n) by nia.
    rewrite (N.mod_small ((q + 1) * r + _)) by nia.
    rewrite N.mod_small by nia.
    f_equal; nia.
Qed.

(** C36: for every number of elements and of agents, the shares of ranks 0, 1, ..., size-1 are
    consecutive ranges that start at 0 and end at n (hence disjoint and covering [0,n)), and their
    sizes differ by at most one.  All intermediate size_t operations included. *)
Theorem C36_even_share n size : 0 < size -> n < word ->
  fst (even_share n 0 size) = 0 /\
  snd (even_share n (size - 1) size) = n /\
  (forall rank, rank + 1 < size -> snd (even_share n rank size) = fst (even_share n (rank + 1) size)) /\
  (forall rank, rank < size ->
     let '(b, e) := even_share n rank size in
     b <= e /\ e <= n /\ (e - b = n / size \/ e - b = n / size + 1)).
Proof.
  intros Hs Hn.
  assert (Hd : n = size * (n / size) + n mod size) by (apply N.div_mod'; lia).
  assert (Hm : n mod size < size) by (apply N.mod_lt; lia).
  split; [|split; [|split]].
  - rewrite share_eq by lia. unfold exact; cbn [fst]. rewrite N.mul_0_l, N.min_0_l. reflexivity.
  - rewrite share_eq by lia. unfold exact; cbn [snd]. rewrite N.sub_add by lia. set (q := n / size) in *. set (r := n mod size) in *. lia.
  - intros rank Hr. rewrite !share_eq by lia. auto.
  - intros rank Hr. rewrite share_eq by lia. unfold exact.
    set (q := n / size) in *. set (r := n mod size) in *.
    assert (N.min rank r <= N.min (rank + 1) r <= N.min rank r + 1) by lia.
    assert ((rank + 1) * q = rank * q + q) by nia.
    assert ((rank + 1) * q + N.min (rank + 1) r <= n) by nia.
    lia.
Qed.

(** every index below n is in the share of exactly one rank *)
Theorem C36_every_index_in_one_share n size i : 0 < size -> n < word -> i < n ->
  exists! rank, rank < size /\
    fst (even_share n rank size) <= i < snd (even_share n rank size).
Proof.
  intros Hs Hn Hi.
  assert (Hd : n = size * (n / size) + n mod size) by (apply N.div_mod'; lia).
  assert (Hm : n mod size < size) by (apply N.mod_lt; lia).
  assert (Mono : forall a b, a <= b -> exact n a size <= exact n b size).
  { intros a b H. unfold exact. generalize (n / size) (n mod size). intros q r.
    assert (a * q <= b * q) by nia. lia. }
  assert (Ex : forall k : nat, N.of_nat k <= size -> i < exact n (N.of_nat k) size ->
    exists rank, rank < size /\ exact n rank size <= i < exact n (rank + 1) size).
  { induction k as [|k IH]; intros Hk Hlt.
    - unfold exact in Hlt. cbn [N.of_nat] in Hlt. rewrite N.mul_0_l, N.min_0_l in Hlt. lia.
    - rewrite Nnat.Nat2N.inj_succ in *. destruct (N.lt_ge_cases i (exact n (N.of_nat k) size)).
      + apply IH; lia.
      + exists (N.of_nat k). rewrite <- N.add_1_r in *. lia. }
  destruct (Ex (N.to_nat size)) as [rank [H1 H2]].
  { rewrite Nnat.N2Nat.id. lia. }
  { rewrite Nnat.N2Nat.id. unfold exact. rewrite N.min_r by (apply N.lt_le_incl; auto).
    rewrite <- Hd; auto. }
  exists rank. split.
  - rewrite share_eq by lia. auto.
  - intros rank' [H3 H4]. rewrite share_eq in H4 by lia. simpl in *.
    destruct (N.lt_trichotomy rank rank') as [L|[E|L]]; auto; exfalso.
    + specialize (Mono (rank + 1) rank'). lia.
    + specialize (Mono (rank' + 1) rank). lia.
Qed.

(** the largest shape of a 64 bit type on one agent: avg_per_thread + 1 wraps around, harmlessly *)
Example C36_example_wrap : even_share (word - 1) 0 1 = (0, word - 1).
Proof. reflexivity. Qed.
Example C36_example : map (fun r => even_share 10 r 4) [0; 1; 2; 3] = [(0, 3); (3, 6); (6, 8); (8, 10)].
Proof. reflexivity. Qed.
(** more agents than elements: the last shares are empty *)
Example C36_example_small : map (fun r => even_share 2 r 4) [0; 1; 2; 3] = [(0, 1); (1, 2); (2, 2); (2, 2)].
Proof. reflexivity. Qed.

Print Assumptions C36_even_share.
Print Assumptions C36_every_index_in_one_share.
