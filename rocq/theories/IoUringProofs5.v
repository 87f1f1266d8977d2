(** No use after completion, no double linking, in the model of io_uring_context. *)
From Coq Require Import List ZArith Bool Arith Lia.
From Verif Require Import Conc IoUringModel IoUringProofs IoUringProofs2 IoUringProofs3 IoUringProofs4.
Import ListNotations.
Set Implicit Arguments.
Open Scope Z_scope.
Arguments Z.add : simpl never. Arguments Z.sub : simpl never. Arguments Z.of_nat : simpl never.

(** ** No object is used after its operation completed, no node is linked twice *)
Definition invW s := (c TWake (linked s) + c TWake (ring s) <= nruns s)%nat.
Lemma invW_step g s a s' : invW s -> step g s a = Some s' -> invW s'.
Proof.
  intros W H. unfold invW, linked, ring in *.
  cases H; try match goal with b : bool |- _ => is_var b; destruct b end;
    repeat match goal with k : kont |- _ => is_var k; destruct k end; rwr; nh W; pr; try assumption; ng; try lia;
    try (rem1s 0%nat; lia).
Qed.

Definition nbad (l : list event) : nat := cnt (fun e => match e with EBad => true | _ => false end) l.
Lemma nbad_cons e l : nbad (e :: l) = (match e with EBad => 1 | _ => 0 end + nbad l)%nat.
Proof. unfold nbad. cbn [cnt]. destruct e; auto. Qed.
Lemma nbad_if (b : bool) e l : nbad (if b then e :: l else l) = ((if b then match e with EBad => 1 | _ => 0 end else 0) + nbad l)%nat.
Proof. destruct b; rewrite ?nbad_cons; auto. Qed.
#[local] Hint Rewrite nbad_cons nbad_if : cc.

Lemma invW_reach g s : reach g s -> invW s.
Proof.
  intros H. eapply reach_ind' with (P := invW); eauto using invW_step. unfold invW. vm_compute. lia.
Qed.

Definition lv s i := (0 < bz (fin (ops s i)) -> c (TOp i) (linked s) + K s i + T s i + act (ccb (ops s i)) + act (rcb (ops s i)) + c (TOp i) (finl (rp s)) = 0)%nat.
Lemma live g s i : reach g s -> lv s i.
Proof.
  intros R F. pose proof (life_reach R i) as L. destruct (aft g i) eqn:A.
  - destruct (@after_reach g s i A R) as [V1 V2 V3 V4 V5 V6 V7].
    destruct L as [T1 T2 T3 T4]. unfold Lp, IoUringProofs4.F in *. specialize (V5 F).
    assert (n (ops s i) <= 0) by (apply V2; lia).
    assert (pr' (pc (ops s i)) = 0)%nat by (destruct (pc (ops s i)); cbn [pr' pz] in *; lia).
    lia.
  - destruct L as [L1 [L2 L3] L4 L5 L6 L7]. unfold K, T. rewrite L2, L3. cbn [act ksp]. lia.
Qed.

Definition calm g s := (nruns s <= 1)%nat /\ (forall i, aft g i = true -> ever s && rreq (ops s i) = false).
Lemma calm_back g s a s' : step g s a = Some s' -> calm g s' -> calm g s.
Proof.
  intros H [C1 C2].
  assert ((nruns s <= nruns s')%nat /\ (ever s = true -> ever s' = true) /\ forall i, rreq (ops s i) = true -> rreq (ops s' i) = true) as [A [B C]].
  { clear C1 C2. cases H; pr; repeat split; intros; auto; unfold fset; eqbs; auto;
      try match goal with b : bool |- _ => is_var b; destruct b end; pr; auto. }
  split; [lia|]. intros i A'. specialize (C2 i A'). destruct (ever s) eqn:X, (rreq (ops s i)) eqn:Y; auto.
  rewrite B, C in C2 by auto. discriminate.
Qed.

Lemma tone g s i : reach g s -> calm g s ->
  (0 < pn (pc (ops s i)) -> c (TOp i) (linked s) = 0)%nat /\
  (T s i <= 1)%nat /\
  (forall f, rp s = RRegC i f -> stop s = true -> T s i = 0%nat) /\
  (forall f, rp s = RRegR i f -> rreq (ops s i) = true -> T s i = 0%nat).
Proof.
  intros R [_ C]. pose proof (life_reach R i) as L. destruct (@pot_reach g s i R) as [P1 P2].
  destruct (why_reach R) as [[N1 _ _ _] _]. pose proof (@life_reg g s i) as LR.
  specialize (C i). destruct (aft g i) eqn:A.
  - specialize (C eq_refl). destruct L as [T1 T2 T3 T4]. apply andb_false_iff in C.
    split; [|split; [|split]]; try intros f Hf E.
    + destruct (pc (ops s i)); cbn [pn pz] in *; lia.
    + destruct C as [C|C]; [specialize (P2 C)|specialize (P1 C)]; lia.
    + destruct (LR f (life_reach R)) as [LR1 _]. destruct (LR1 Hf) as [Q1 Q2]. rewrite Q1, Q2 in *. cbn [pot] in *.
      destruct C as [C|C]; [specialize (P2 C)|specialize (P1 C)]; lia.
    + destruct (LR f (life_reach R)) as [_ LR2]. specialize (LR2 Hf). rewrite LR2 in *. cbn [pot] in *.
      destruct C as [C|C]; [specialize (P2 C); lia|congruence].
  - destruct L as [L1 [L2 L3] L4 L5 L6 L7]. unfold T. rewrite L2, L3. cbn [ksp].
    repeat split; intros; try lia.
Qed.

Lemma bad_step g s a s' : reach g s -> calm g s' -> nbad (log s) = 0%nat -> step g s a = Some s' -> nbad (log s') = 0%nat.
Proof.
  intros R C B H. pose proof (calm_back _ _ H C) as C0. assert (TN := fun i => tone i R C0).
  assert (Lv := fun i => live i R). pose proof (invW_reach R) as W.
  destruct C as [C _]. unfold invW, lv, K, T, linked, ring in *. clear C0 R.
  cases H; pr; prh C; try assumption; autorewrite with cc; try assumption;
    repeat match goal with k : kont |- _ => is_var k; destruct k end.
  all: try match goal with |- context[has ?t ?l] => destruct (has t l) eqn:Hh; [exfalso; apply has_c in Hh; unfold linked in Hh; revert Hh; pr; unfold f_lists; pr; intros Hh|] end.
  all: try match goal with |- context[fin (ops _ ?i)] => specialize (Lv i); destruct (fin (ops s i)) eqn:Hf; [exfalso|pr; try lia] end.
  all: repeat match goal with b : bool |- _ => is_var b; destruct b end.
  all: rwr; cbn [getcb] in *.
  all: try solve [nh Lv; opeqs; cbn [bz act ksp] in Lv; lia].
  all: try solve [nh W; autorewrite with cc in Hh; lia].
  all: try solve [match goal with |- context[if ?b then 0%nat else 0%nat] => destruct b end; lia].
  all: match goal with X : (0 < c (_ ?i) _)%nat |- _ => destruct (TN i) as [TN1 [TN2 [TN3 TN4]]] end.
  all: try (specialize (TN3 _ eq_refl ltac:(first [reflexivity|assumption]))); try (specialize (TN4 _ eq_refl ltac:(first [reflexivity|assumption]))).
  all: opeqs; cbn [pn ksp act bz] in *; try specialize (TN1 ltac:(lia)); unfold f_lists in *; autorewrite with cc in *; lia.
Qed.

Theorem no_bad_reach g s : reach g s -> calm g s -> nbad (log s) = 0%nat.
Proof.
  intros R. eapply reach_ind' with (P := fun s => calm g s -> nbad (log s) = 0%nat); eauto.
  intros s0 a s1 R0 IH E C. eapply bad_step; eauto using calm_back.
Qed.
