(** The reference count of schedule_after() operations in the model of io_uring_context. *)
From Coq Require Import List ZArith Bool Arith Lia.
From Verif Require Import Conc IoUringModel IoUringProofs IoUringProofs2 IoUringProofs3.
Import ListNotations.
Set Implicit Arguments.
Open Scope Z_scope.
Arguments Z.add : simpl never. Arguments Z.sub : simpl never. Arguments Z.of_nat : simpl never.

#[local] Hint Rewrite dn_cons dn_bad dn_ass crun_unreg kfn_unreg : cc.
(** a running stop callback that has counted its stop operation but not yet queued it *)
Definition ksp b := match b with CbRun KSub | CbRun KPush => 1%nat | _ => 0%nat end.
(** a callback that can still run *)
Definition act b := match b with CbReg | CbRun _ => 1%nat | _ => 0%nat end.
Definition fph2 (i : nat) r : nat := match r with RFin FR j _ _ | RFin FD j _ _ => if (i =? j)%nat then 1 else 0 | _ => 0 end.
Definition fph3 (i : nat) r : nat := match r with RFin FD j _ _ => if (i =? j)%nat then 1 else 0 | _ => 0 end.
Lemma act_unreg b : act (unreg b) = 0%nat. Proof. destruct b; auto. Qed.
Lemma ksp_unreg b : ksp (unreg b) = 0%nat. Proof. destruct b; auto. Qed.
#[local] Hint Rewrite act_unreg ksp_unreg : cc.

Definition T s i := (c (TStop i) (linked s) + c (TStop i) (ring s) + ksp (ccb (ops s i)) + ksp (rcb (ops s i)))%nat.
Definition F s i := (bz (fin (ops s i)) + c (TOp i) (finl (rp s)) + kfn (ccb (ops s i)) + kfn (rcb (ops s i)))%nat.
Definition Lp s i := (c (TOp i) (linked s) + pz (pc (ops s i)))%nat.

Record invV (s : state) (i : nat) : Prop := {
  v_1 : (Lp s i + F s i <= 1)%nat;
  v_2 : (0 < Lp s i + F s i)%nat -> n (ops s i) <= 0;
  v_3 : Z.of_nat (K s i + T s i) <= n (ops s i) + Z.of_nat (pr' (pc (ops s i)));
  v_4 : dn i (log s) = bz (fin (ops s i));
  v_5 : (0 < bz (fin (ops s i)) -> act (ccb (ops s i)) + act (rcb (ops s i)) = 0)%nat;
  v_6 : (0 < fph2 i (rp s) -> act (ccb (ops s i)) = 0)%nat;
  v_7 : (0 < fph3 i (rp s) -> act (rcb (ops s i)) = 0)%nat
}.
Lemma invV_init i : invV init i.
Proof. constructor; unfold Lp, F, K, T; try (vm_compute; lia); cbn; intros; try lia. Qed.

Lemma invV_step g s a s' i : aft g i = true -> life g s -> invT s i -> invV s i -> step g s a = Some s' -> invV s' i.
Proof.
  intros A L [T1 T2 T3 T4] [V1 V2 V3 V4 V5 V6 V7] H. unfold Lp, F, K, T, linked, ring in *.
  assert (LR := fun j f => life_reg j f L).
  cases H; try match goal with b : bool |- _ => is_var b; destruct b end; 
    repeat match goal with k : kont |- _ => is_var k; destruct k end; rwr;
    nh T1; nh T2; nh T3; nh T4; nh V1; nh V2; nh V3; cbn [fph2 fph3 getcb setcb] in *.
  all: constructor; unfold Lp, F, K, T; pr.
  all: try solve [assumption|auto].
  all: ng; cbn [fph2 fph3]; eqbs; pr; intros.
  all: try solve [assumption|lia].
  all: try solve [eqs; opeqs; cbn [bz pz pr' pn bn act ksp kfn] in *; lia].
  all: try solve [match goal with |- context[c (TOp ?i) _] => rem1s i end; eqbs; ne; lia].
  all: try solve [exfalso; congruence].
  all: autorewrite with cc; try lia.
  all: try solve [eqs; opeqs; cbn [bz pz pr' pn bn act ksp kfn] in *; lia].
  all: exfalso; match goal with V : context[pr' ?p] |- _ => destruct p; cbn [pr' pz] in *; lia end.
Qed.

(** Stop operations: at most one is queued if only one of the two callbacks can run. *)
Definition pot b := match b with CbNone | CbReg | CbRun KCas => 1%nat | _ => 0%nat end.
Record invP (s : state) (i : nat) : Prop := {
  p_c : rreq (ops s i) = false -> (T s i + pot (ccb (ops s i)) <= 1)%nat;
  p_r : ever s = false -> (T s i + pot (rcb (ops s i)) <= 1)%nat
}.
Lemma invP_init i : invP init i.
Proof. constructor; vm_compute; lia. Qed.
Lemma pot_unreg b : (pot (unreg b) <= pot b)%nat. Proof. destruct b; simpl; lia. Qed.

Lemma invP_step g s a s' i : life g s -> invN s -> invM s i -> invP s i -> step g s a = Some s' -> invP s' i.
Proof.
  intros L [N1 N2 N3 N4] [M1 M2 _ _ _ _ _ _ _] [P1 P2] H. unfold T, linked, ring in *.
  assert (LR := fun j f => life_reg j f L). clear L.
  cases H; try match goal with b : bool |- _ => is_var b; destruct b end; 
    repeat match goal with k : kont |- _ => is_var k; destruct k end; rwr; 
    try match goal with E : rp _ = RRegC ?i ?f |- _ => destruct (proj1 (LR i f) eq_refl)
      | E : rp _ = RRegR ?i ?f |- _ => pose proof (proj2 (LR i f) eq_refl) end; clear LR;
    nh P1; nh P2; cbn [getcb setcb] in *.
  all: constructor; unfold T; pr.
  all: try solve [assumption|auto].
  all: ng; eqbs; pr; intros; try discriminate.
  all: try specialize (P1 ltac:(assumption)); try specialize (P2 ltac:(assumption)).
  all: try solve [assumption|lia].
  all: autorewrite with cc.
  all: try match goal with |- context[pot (unreg ?b)] => pose proof (pot_unreg b) end.
  all: try solve [opeqs; cbn [bz ksp pot crun] in *; lia].
  all: try solve [repeat match goal with |- context[c (TStop ?i) (rem1 ?x ?l)] => pose proof (c_rem1_le (TStop i) x l); generalize dependent (c (TStop i) (rem1 x l)); intros end; autorewrite with cc in *; ne; lia].
  all: try solve [match goal with |- context[c (TStop ?i) _] => rem1s i end; eqbs; ne; lia].
  all: try solve [opeqs; match goal with E : ever _ = _ |- _ => rewrite E in * end; cbn [bz ksp pot crun] in *; try lia; congruence].
Qed.

Lemma after_reach g s i : aft g i = true -> reach g s -> invV s i.
Proof.
  intros A H. eapply reach_ind' with (P := fun s => invV s i); eauto using invV_init.
  intros s0 a s1 R V E. pose proof (life_reach R i) as L. rewrite A in L. eapply invV_step; eauto using life_reach.
Qed.
Lemma pot_reach g s i : reach g s -> invP s i.
Proof.
  intros H. eapply reach_ind' with (P := fun s => invP s i); eauto using invP_init.
  intros s0 a s1 R V E. destruct (why_reach R) as [N [M _]]. eapply invP_step; eauto using life_reach.
Qed.
