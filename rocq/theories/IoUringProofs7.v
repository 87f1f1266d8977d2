(** No operation is lost in the model of io_uring_context while it is not stopped. *)
From Coq Require Import List ZArith Bool Arith Lia.
From Verif Require Import Conc IoUringModel IoUringProofs IoUringProofs2 IoUringProofs3 IoUringProofs4.
Import ListNotations.
Set Implicit Arguments.
Open Scope Z_scope.
Arguments Z.add : simpl never. Arguments Z.sub : simpl never. Arguments Z.of_nat : simpl never.
#[local] Hint Rewrite crun_unreg kfn_unreg act_unreg ksp_unreg : cc.

(** Before the context is closed for the first time, every reference counted is held by something, and an
    operation without references is waiting, completing or completed. *)
Record invC (s : state) (i : nat) : Prop := {
  c_1 : n (ops s i) = Z.of_nat (K s i + T s i);
  c_2 : (0 < K s i + T s i + Lp s i + F s i)%nat;
  c_3 : pc (ops s i) <> PRef
}.
Lemma invC_init i : invC init i.
Proof. constructor; cbn; try discriminate; try reflexivity; unfold Lp; simpl; lia. Qed.

(** While the runner submits, the pending queue is empty unless the context was stopped. *)
Definition invZ s := ever s = false -> fph (rp s) = true -> pend s = [].
Lemma invZ_step g s a s' : invN s -> invZ s -> step g s a = Some s' -> invZ s'.
Proof.
  intros [N1 N2 N3 N4] Z H. unfold invZ in *.
  cases H; pr; intros Ev P; try discriminate; auto; specialize (Z Ev); rewrite ?Ev in *; cbn [bz] in *;
    repeat match goal with k : kont |- _ => is_var k; destruct k end; rwr; cbn [go fph stf] in *; try discriminate; auto.
  all: match goal with E : st _ = true |- _ => rewrite E in *; cbn [bz] in *; lia end.
Qed.
Lemma invZ_reach g s : reach g s -> invZ s.
Proof.
  intros H. eapply reach_ind' with (P := invZ); eauto.
  - intros _ E. discriminate E.
  - intros s0 a s1 R Z E. destruct (why_reach R) as [N _]. eapply invZ_step; eauto.
Qed.

Lemma invC_step g s a s' i : aft g i = true -> life g s -> invZ s -> invT s i -> invV s i -> invB s -> invN s ->
  (ever s = false -> invC s i) -> step g s a = Some s' -> ever s' = false -> invC s' i.
Proof.
  intros A L Z [T1 _ _ T4] [V1 V2 _ _ _ _ _] [_ D _] [N1 N2 N3 N4] I H.
  assert (Y : ever s = false -> dph (rp s) = false).
  { intros E. destruct (dph (rp s)); auto. specialize (N3 (D eq_refl)). rewrite E in N3. discriminate. } clear D.
  assert (LR := fun j f => life_reg j f L). clear L.
  cases H; pr; intros Ev; try discriminate; destruct (I Ev) as [I1 I2 I3]; specialize (Y Ev); specialize (Z Ev); clear I; unfold Lp, F, K, T, linked, ring in *; rewrite ?Ev in *; cbn [bz] in *;
    try match goal with b : bool |- _ => is_var b; destruct b end; 
    repeat match goal with k : kont |- _ => is_var k; destruct k end; rwr; cbn [fph] in Z; try (specialize (Z eq_refl); assert (Z1 := f_equal (c (TOp i)) Z); assert (Z2 := f_equal (c (TStop i)) Z); rewrite c_nil in Z1, Z2; clear Z);
    try match goal with E : rp _ = RRegC ?i ?f |- _ => destruct (proj1 (LR i f) eq_refl)
      | E : rp _ = RRegR ?i ?f |- _ => pose proof (proj2 (LR i f) eq_refl) end; clear LR;
    nh T4; nh T1; nh V1; nh V2; nh I1; nh I2; cbn [getcb setcb stf dph dk dw] in *.
  all: try solve [exfalso; eqs; try specialize (N3 ltac:(assumption)); cbn [bz] in *; try discriminate; lia].
  all: constructor; unfold Lp, F, K, T; pr.
  all: try solve [assumption|auto].
  all: ng; eqbs; pr; intros.
  all: try solve [assumption|lia|discriminate|congruence].
  all: try solve [eqs; opeqs; cbn [bz pz pr' pn bn act ksp kfn] in *; try lia; try discriminate; congruence].
  all: try solve [match goal with |- context[c (TOp ?i) _] => rem1s i end; eqbs; ne; lia].
  all: autorewrite with cc; try lia.
  all: try solve [eqs; opeqs; cbn [bz pz pr' pn bn act ksp kfn] in *; lia].
  all: repeat match goal with E : (_ && _)%bool = true |- _ => apply andb_true_iff in E; destruct E end.
  all: try solve [eqs; opeqs; cbn [bz pz pr' pn bn act ksp kfn] in *; lia].
  all: match goal with |- context[c (TOp ?i) (rem1 _ _)] => rem1s i end;
    repeat match goal with X : context[Nat.eqb ?a ?b] |- _ => destruct (Nat.eqb_spec a b); subst end; try congruence; lia.
Qed.

Lemma count_reach g s i : aft g i = true -> reach g s -> ever s = false -> invC s i.
Proof.
  intros A H. eapply reach_ind' with (P := fun s => ever s = false -> invC s i); eauto using invC_init.
  intros s0 a s1 R C E. destruct (why_reach R) as [N _]. pose proof (life_reach R i) as L. rewrite A in L.
  eapply invC_step; eauto using life_reach, invB_reach, after_reach, invZ_reach.
Qed.

(** schedule() operations are never left in the pending queue *)
Definition ckw' r := match r with RCheck | RWait => true | _ => false end.
Definition invO s i := ckw' (rp s) = true -> c (TOp i) (pend s) = 0%nat.
Lemma invO_reach g s i : aft g i = false -> reach g s -> invO s i.
Proof.
  intros A H. eapply reach_ind' with (P := fun s => invO s i); eauto.
  - intros E. discriminate E.
  - clear s H. intros s a s' R O H. pose proof (life_reach R i) as L. rewrite A in L. destruct L as [L _ _ _ _ _].
    unfold invO in *.
    cases H; pr; intros P; repeat match goal with k : kont |- _ => is_var k; destruct k end; rwr; cbn [ckw' go pndl] in *; try discriminate; auto; try lia.
Qed.
