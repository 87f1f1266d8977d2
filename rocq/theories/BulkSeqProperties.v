(** * C37, sequential: bulk, bulk_chunked, bulk_unchunked *)

From Coq Require Import List ZArith Lia.
From Verif Require Import BulkSeqModel.
Import ListNotations.
Local Open Scope Z_scope.
Set Implicit Arguments.

(** the indices 0, 1, ..., k-1 *)
Definition zseq (k : nat) : list Z := map Z.of_nat (seq 0 k).

(** what bulk of a function f over [0,shape) shall do: call f(0), f(1), ... up to the first
    exception, or for the whole of [0,shape) *)
Definition bulk_spec (shape : Z) (f : Z -> option exn) (l : list call) (o : out) : Prop :=
  (l = map CIndex (zseq (Z.to_nat shape)) /\ o = DVal /\ forall i, 0 <= i < shape -> f i = None) \/
  (exists k x, Z.of_nat k < shape /\ l = map CIndex (zseq (S k)) /\ o = DErr x /\ f (Z.of_nat k) = Some x /\
               forall i, 0 <= i < Z.of_nat k -> f i = None).

Lemma loop_spec f : forall fuel b n, (n <= fuel)%nat ->
  (for_loop fuel f b (b + Z.of_nat n) = Some (map CIndex (map (fun j => b + Z.of_nat j) (seq 0 n)), None) /\
   forall i, b <= i < b + Z.of_nat n -> f i = None) \/
  (exists k x, (k < n)%nat /\
     for_loop fuel f b (b + Z.of_nat n) = Some (map CIndex (map (fun j => b + Z.of_nat j) (seq 0 (S k))), Some x) /\
     f (b + Z.of_nat k) = Some x /\ forall i, b <= i < b + Z.of_nat k -> f i = None).
Proof.
  induction fuel as [|fuel IH]; intros b n Hn.
  - assert (n = 0)%nat by lia. subst. left. split; [|intros; lia]. simpl. destruct (Z.eqb_spec b (b + 0)); auto; lia.
  - destruct n as [|n].
    + left. split; [|intros; lia]. simpl. destruct (Z.eqb_spec b (b + 0)); auto; lia.
    + cbn [for_loop]. destruct (Z.eqb_spec b (b + Z.of_nat (S n))); [lia|].
      destruct (f b) as [x|] eqn:Ef.
      * right. exists 0%nat, x. split; [lia|]. split; [|split; [|intros; lia]].
        -- simpl. rewrite Z.add_0_r. auto.
        -- rewrite Z.add_0_r. auto.
      * replace (b + Z.of_nat (S n)) with ((b + 1) + Z.of_nat n) by lia.
        assert (Hm : forall k, map CIndex (map (fun j => b + Z.of_nat j) (seq 0 (S k))) =
                CIndex b :: map CIndex (map (fun j => (b + 1) + Z.of_nat j) (seq 0 k))).
        { intros k. simpl. rewrite Z.add_0_r. f_equal. rewrite <- seq_shift, !map_map. apply map_ext. intros; f_equal; lia. }
        destruct (IH (b + 1) n) as [[E H]|(k & x & Hk & E & H1 & H2)]; [lia| |]; rewrite E.
        -- left. split; [rewrite Hm; auto|]. intros i Hi. destruct (Z.eq_dec i b) as [-> |]; auto. apply H; lia.
        -- right. exists (S k), x. split; [lia|]. split; [rewrite (Hm (S k)); auto|]. split; [rewrite <- H1; f_equal; lia|].
           intros i Hi. destruct (Z.eq_dec i b) as [-> |]; auto. apply H2; lia.
Qed.

Lemma loop_spec0 f shape fuel : 0 <= shape -> (Z.to_nat shape <= fuel)%nat ->
  exists r, for_loop fuel f 0 shape = Some r /\ bulk_spec shape f (fst (complete r)) (snd (complete r)).
Proof.
  intros H0 Hf. assert (Es : shape = 0 + Z.of_nat (Z.to_nat shape)) by lia.
  assert (Hz : forall k, map (fun j => 0 + Z.of_nat j) (seq 0 k) = zseq k) by reflexivity.
  destruct (@loop_spec f fuel 0 (Z.to_nat shape) Hf) as [[E H]|(k & x & Hk & E & H1 & H2)]; rewrite <- Es in E; rewrite E; eexists; split; auto.
  - left. split; auto. split; auto. intros; apply H; lia.
  - right. exists k, x. split; [lia|]. split; auto.
Qed.

(** bulk and bulk_unchunked, any shape >= 0 *)
Theorem C37_bulk_unchunked shape f fuel : 0 <= shape -> (Z.to_nat shape <= fuel)%nat ->
  exists l o, bulk_unchunked fuel shape f = Some (l, o) /\ bulk_spec shape f l o.
Proof.
  intros H0 Hf. destruct (loop_spec0 f H0 Hf) as [r [E H]]. unfold bulk_unchunked. rewrite E.
  exists (fst (complete r)), (snd (complete r)). split; auto.
Qed.
Theorem C37_bulk shape f fuel : (Z.to_nat shape <= fuel)%nat ->
  exists l o, bulk fuel shape f = Some (l, o) /\ bulk_spec shape f l o.
Proof.
  intros Hf. unfold bulk, bulk_chunked_with. destruct (Z.ltb_spec 0 shape) as [L|L].
  - destruct (loop_spec0 f (Z.lt_le_incl _ _ L) Hf) as [r [E H]]. rewrite E.
    exists (fst (complete r)), (snd (complete r)). split; auto.
  - exists [], DVal. split; auto. left. replace (Z.to_nat shape) with 0%nat by lia. repeat split; auto. intros; lia.
Qed.

(** bulk_chunked: one call with the whole range; none if it is empty *)
Theorem C37_bulk_chunked shape f :
  (0 < shape -> bulk_chunked shape f = Some ([CChunk 0 shape], match f 0 shape with None => DVal | Some x => DErr x end)) /\
  (shape <= 0 -> bulk_chunked shape f = Some ([], DVal)).
Proof.
  unfold bulk_chunked, bulk_chunked_with. destruct (Z.ltb_spec 0 shape); split; intros; auto; lia.
Qed.

(** unlike bulk and bulk_chunked, bulk_unchunked does not treat a negative shape as empty: it goes
    on calling the function with increasing indices, for as long as the integers go *)
Theorem C37_unchunked_negative_shape_refuted shape : shape < 0 ->
  (forall fuel, bulk_unchunked fuel shape (fun _ => None) = None) /\
  (forall fuel, bulk fuel shape (fun _ => None) = Some ([], DVal)).
Proof.
  intros H. split; intros fuel.
  - unfold bulk_unchunked. assert (E : forall b, 0 <= b -> for_loop fuel (fun _ => None) b shape = None).
    { induction fuel as [|fuel IH]; intros b Hb; cbn [for_loop]; destruct (Z.eqb_spec b shape); try lia; auto.
      rewrite IH by lia. auto. }
    rewrite E by lia. auto.
  - unfold bulk, bulk_chunked_with. destruct (Z.ltb_spec 0 shape); auto. lia.
Qed.

Example C37_example_bulk : bulk 5 4 (fun i => if i =? 2 then Some 9%nat else None) =
  Some ([CIndex 0; CIndex 1; CIndex 2], DErr 9%nat).
Proof. reflexivity. Qed.
Example C37_example_bulk_all : bulk_unchunked 5 3 (fun i => None) = Some ([CIndex 0; CIndex 1; CIndex 2], DVal).
Proof. reflexivity. Qed.

Print Assumptions C37_bulk_unchunked.
Print Assumptions C37_bulk.
Print Assumptions C37_bulk_chunked.
Print Assumptions C37_unchunked_negative_shape_refuted.
