(** More invariants of the model of io_uring_context: submissions in flight, and what is left when the
    context is closed. *)
From Coq Require Import List ZArith Bool Arith Lia.
From Verif Require Import Conc IoUringModel IoUringProofs.
Import ListNotations.
Set Implicit Arguments.
Open Scope Z_scope.
Arguments Z.add : simpl never. Arguments Z.sub : simpl never. Arguments Z.of_nat : simpl never.

Definition life g s := forall i, if aft g i then invT s i else invS s i.
Lemma life_init g : life g init.
Proof. intros i. destruct (aft g i); [apply invT_init|apply invS_init]. Qed.
Lemma life_step g s a s' : life g s -> step g s a = Some s' -> life g s'.
Proof.
  intros L H i. specialize (L i). destruct (aft g i) eqn:E; [eapply invT_step; eauto|eapply invS_step; eauto].
Qed.
Lemma life_reach g s : reach g s -> life g s.
Proof. intros H. eapply reach_ind' with (P := life g); eauto using life_init, life_step. Qed.

Lemma life_reg g s i f : life g s ->
  (rp s = RRegC i f -> ccb (ops s i) = CbNone /\ rcb (ops s i) = CbNone) /\
  (rp s = RRegR i f -> rcb (ops s i) = CbNone).
Proof.
  intros L. specialize (L i). destruct (aft g i).
  - destruct L as [_ L2 L3 _]. split; intros E; rewrite E in *; cbn [regc regr] in *;
      autorewrite with cc in *; destruct (ccb (ops s i)), (rcb (ops s i)); cbn [bn] in *; auto; lia.
  - destruct L as [L1 [L2 L2'] _ _ _ _]. split; intros E; rewrite E in *; auto.
Qed.

(** ** Part B: submissions in flight, and the phases in which the context is closed *)
Definition iwc (b : cbs) : Z := match b with CbRun KPush | CbRun KDec => 1 | _ => 0 end.
Definition iwp (p : cpc) : Z := match p with PPush | PDec => 1 | _ => 0 end.
Definition iw x := iwp (pc x) + iwc (ccb x) + iwc (rcb x).
Lemma iwc_nn b : 0 <= iwc b. Proof. destruct b as [| |[]|]; simpl; lia. Qed.
Lemma iwp_nn b : 0 <= iwp b. Proof. destruct b; simpl; lia. Qed.
Lemma iw_nn x : 0 <= iw x.
Proof. unfold iw. destruct (pc x), (ccb x) as [| |[]|], (rcb x) as [| |[]|]; simpl; lia. Qed.

Definition dw w := match w with WDrain => true | _ => false end.
Definition dk k := match k with KComp w _ | KRdy w _ => dw w | KSubm f => dr f end.
Definition dph r :=
  match r with
  | RDPop | RRet true => true
  | RComp w _ | RRdy w _ => dw w
  | RSub f | RRegC _ f | RRegR _ f | RRegS _ f => dr f
  | RFin _ _ _ k => dk k
  | _ => false
  end.
Definition idle r := match r with RIdle => true | _ => false end.

Record invB (s : state) : Prop := {
  b_t : exists z, total iw (ops s) z /\ (z = infl s \/ infl s = -1 /\ z = 0);
  b_d : dph (rp s) = true -> infl s = -1;
  b_i : infl s = -1 -> dph (rp s) || idle (rp s) = true
}.

Lemma invB_init : invB init.
Proof. constructor; simpl; try discriminate; auto. exists 0. split; auto. exists 0%nat. auto. Qed.

Lemma b_infl s : invB s -> -1 <= infl s.
Proof.
  intros [[z [[m [_ T]] H]] _ _]. pose proof (@fsum_nn iw (ops s) iw_nn m). lia.
Qed.

Lemma iwc_unreg b : (forall k, b <> CbRun k) -> iwc (unreg b) = iwc b.
Proof. destruct b as [| |k|]; simpl; auto. intros H. destruct (H k eq_refl). Qed.

Lemma invB_step g s a s' : life g s -> invB s -> step g s a = Some s' -> invB s'.
Proof.
  intros L I H. pose proof (b_infl I) as Hn. destruct I as [[z [T Z]] I2 I3].
  pose proof (@total_ge iw _ _ iw_nn T) as G.
  assert (Zp : 0 <= z) by (specialize (G 0%nat); pose proof (iw_nn (ops s 0)); lia).
  assert (LR := fun i f => life_reg i f L). clear L.
  cases H; constructor; pr; intros; try solve [exists z; split; [exact T|exact Z]];
  try (eexists; split; [repeat (apply total_upd); exact T|]; unfold fset; rewrite ?Nat.eqb_refl; pr); clear T;
    repeat match goal with b : bool |- _ => destruct b end;
    repeat match goal with k : kont |- _ => destruct k end;
    try match goal with E : rp _ = RRegC ?i ?f |- _ => destruct (proj1 (LR i f) eq_refl) | E : rp _ = RRegR ?i ?f |- _ => pose proof (proj2 (LR i f) eq_refl) end; clear LR;
    try specialize (I2 ltac:(assumption)); try specialize (I3 ltac:(assumption));
    rwr; cbn [getcb setcb negb dph dk dw idle orb go dr] in *; rewrite ?orb_false_r in *.
  all: try solve [discriminate|congruence|auto].
  all: try solve [eqs; try match goal with E : _ (ops _ ?i) = _, G : forall i, iw (ops ?s i) <= _ |- _ => specialize (G i);
      pose proof (iwc_nn (ccb (ops s i))); pose proof (iwc_nn (rcb (ops s i))); pose proof (iwp_nn (pc (ops s i))) end;
    unfold iw in *; pr; opeqs; cbn [iwp iwc unreg] in *; try specialize (I2 eq_refl); try specialize (I3 ltac:(lia)); lia].
Qed.
