(** No lost wake-up in the model of io_uring_context. *)
From Coq Require Import List ZArith Bool Arith Lia.
From Verif Require Import Conc IoUringModel IoUringProofs IoUringProofs2 IoUringProofs3 IoUringProofs4 IoUringProofs5.
Import ListNotations.
Set Implicit Arguments.
Open Scope Z_scope.
Arguments Z.add : simpl never. Arguments Z.sub : simpl never. Arguments Z.of_nat : simpl never.
Arguments Nat.min : simpl never.

(** between a pop of the request queue and the next time the completion ring is read *)
Definition post r :=
  match r with RRead | RSub _ | RRegC _ _ | RRegR _ _ | RRegS _ _ | RFin _ _ _ (KSubm _) | RCheck | RWait | RTop | RExit => true
  | _ => false end.
(** a thread has queued operation i (or its stop operation) and is about to wake the context *)
Definition pp (p : cpc) : nat := match p with PDec | PWake => 1 | _ => 0 end.
Definition kp (b : cbs) : nat := match b with CbRun KDec | CbRun KWake => 1 | _ => 0 end.
Definition pushb x : nat := (pp (pc x) + kp (ccb x) + kp (rcb x))%nat.
Definition invE s := post (rp s) = true -> req s <> [] ->
  (0 < evfd s)%nat \/ (exists i, 0 < pushb (ops s i))%nat \/ (0 < c TWake (map fst (cq s)))%nat.
Lemma kp_unreg b : (forall k, b <> CbRun k) -> kp (unreg b) = kp b.
Proof. destruct b as [| |k|]; simpl; auto. intros H. destruct (H k eq_refl). Qed.

Lemma invE_step g s a s' : life g s -> invE s -> step g s a = Some s' -> invE s'.
Proof.
  intros L I H. unfold invE in *. assert (LR := fun j f => life_reg j f L). clear L.
  cases H; pr; intros P Q; repeat match goal with k : kont |- _ => is_var k; destruct k end;
    try match goal with E : rp _ = RRegC ?i ?f |- _ => destruct (proj1 (LR i f) eq_refl)
      | E : rp _ = RRegR ?i ?f |- _ => pose proof (proj2 (LR i f) eq_refl) end; clear LR;
    rwr; cbn [post] in *; try discriminate; try congruence; try solve [left; lia];
    try match goal with b : bool |- _ => is_var b; destruct b end; cbn [getcb setcb negb] in *; rewrite ?map_fst_app; cbn [map fst]; autorewrite with cc.
  all: try solve [right; right; lia].
  all: try solve [right; left; match goal with |- context[fset _ ?i _] => exists i end; unfold fset; rewrite Nat.eqb_refl; unfold pushb; pr; cbn [pp kp]; lia].
  all: try specialize (I P); try specialize (I eq_refl); try specialize (I Q).
  all: try destruct I as [I|[[j I]|I]]; try solve [left; exact I|right; right; lia|right; left; exists j; exact I].
  all: right; left; exists j; unfold fset; eqbs; try assumption; unfold pushb in *; pr; cbn [kp pp] in *; opeqs; cbn [kp pp unreg] in *; try assumption; try lia.
Qed.

(** ** The size of the rings *)
Definition frm r := match r with RSub f | RRegC _ f | RRegR _ f | RRegS _ f | RFin _ _ _ (KSubm f) => Some f | _ => None end.
Definition invQ g s := ever s = false -> ntot s = Z.of_nat (length (sq s) + length (kern s) + length (cq s)) /\
  forall f, frm (rp s) = Some f -> room f = Nat.min (Z.to_nat (Z.of_nat (cqn g) - ntot s)) (sqn g - length (sq s)).

Lemma rem1_length x l : has x l = true -> length l = S (length (rem1 x l)).
Proof.
  induction l as [|y l IH]; [discriminate|]. cbn [has existsb rem1]. destruct (teq x y); simpl; auto.
Qed.

Lemma invQ_step g s a s' : invB s -> invN s -> invQ g s -> step g s a = Some s' -> invQ g s'.
Proof.
  intros [_ D _] [N1 _ N3 N4] I H. unfold invQ in *.
  assert (X : ever s = false -> dph (rp s) = false).
  { intros E. destruct (dph (rp s)); auto. specialize (N3 (D eq_refl)). rewrite E in N3. discriminate. }
  clear D.
  cases H; pr; intros Ev; try discriminate; specialize (I Ev); specialize (X Ev); destruct I as [I1 I2];
    rewrite ?Ev in *; cbn [bz] in *; rwr; cbn [frm dph dk dw stf bz] in *;
    repeat match goal with k : kont |- _ => is_var k; destruct k end; cbn [frm go dph dk] in *.
  all: rewrite ?app_length; cbn [length] in *.
  all: try solve [split; [lia|intros f0 Hf; try discriminate; auto]].
  all: try discriminate; try solve [split; [lia|intros f0 [= <-]; unfold sub_room; pr; try specialize (I2 _ eq_refl); lia]].
  all: try solve [match goal with E : has ?x ?l = true |- _ => pose proof (rem1_length _ _ E) end; split; [lia|exact I2]].
  all: try solve [pose proof (rem1_length _ _ Heqb); split; [lia|intros f0 Hf; specialize (I2 _ Hf); lia]].
  all: congruence.
Qed.

Lemma c_nodup l : (forall t, c t l <= 1)%nat -> NoDup l.
Proof.
  induction l as [|x l IH]; intros H; constructor.
  - intros I. apply c_in in I. specialize (H x). rewrite c_cons in H. unfold u in H.
    rewrite (proj2 (teq_eq x x) eq_refl) in H. lia.
  - apply IH. intros t. specialize (H t). rewrite c_cons in H. lia.
Qed.
Definition univ m := TWake :: map TOp (seq 0 m) ++ map TStop (seq 0 m).
Lemma univ_length m : length (univ m) = S (2 * m).
Proof. unfold univ. cbn [length]. rewrite app_length, !map_length, seq_length. lia. Qed.

(** few operations started, not stopped, one run *)
Definition few m s := (nruns s <= 1)%nat /\ ever s = false /\ forall i, (m <= i)%nat -> pc (ops s i) = PNew.
Lemma few_back g m s a s' : step g s a = Some s' -> few m s' -> few m s.
Proof.
  intros H [C1 [C2 C3]].
  assert ((nruns s <= nruns s')%nat /\ (ever s' = false -> ever s = false) /\ forall i, pc (ops s' i) = PNew -> pc (ops s i) = PNew) as [A [B C]].
  { clear C1 C2 C3. cases H; pr; repeat split; intros; auto; try discriminate; unfold fset in *; repeat match goal with E : context[Nat.eqb ?a ?b] |- _ => destruct (Nat.eqb_spec a b); subst end; prall; auto;
      try match goal with b : bool |- _ => is_var b; destruct b end; prall; auto; try discriminate; try congruence. }
  repeat split; auto; try lia.
Qed.

Lemma ring_room g m s t0 : reach g s -> few m s -> (0 < c t0 (linked s))%nat ->
  (length (sq s) + length (kern s) + length (cq s) <= 2 * m)%nat.
Proof.
  intros R [F1 [F2 F3]] W.
  assert (C : calm g s) by (split; [exact F1|intros i _; rewrite F2; reflexivity]).
  assert (N : forall t, (c t (ring s) + c t (linked s) <= 1)%nat).
  { pose proof (invW_reach R) as IW. unfold invW in IW. intros [i|i|].
    - pose proof (life_reach R i) as L. destruct (aft g i).
      + destruct L as [T1 _ _ _]. unfold K in T1. lia.
      + destruct L as [S1 _ S3 _ _ _]. lia.
    - destruct (tone i R C) as [_ [T1 _]]. unfold T in T1. lia.
    - lia. }
  assert (U : forall t, (0 < c t (ring s) + c t (linked s))%nat -> In t (univ m)).
  { unfold univ. intros [i|i|] H; [right; apply in_or_app; left; apply in_map; apply in_seq
      |right; apply in_or_app; right; apply in_map; apply in_seq|left; reflexivity].
    - destruct (le_lt_dec m i) as [E|]; [|lia]. specialize (F3 i E). pose proof (life_reach R i) as L. destruct (aft g i).
      + destruct L as [T1 _ _ _]. unfold K in T1. rewrite F3 in T1. cbn [pz] in T1. lia.
      + destruct L as [S1 _ S3 _ _ _]. rewrite F3 in S3. cbn [pn] in S3. lia.
    - destruct (le_lt_dec m i) as [E|]; [|lia]. specialize (F3 i E). pose proof (life_reach R i) as L. destruct (aft g i) eqn:A.
      + destruct (after_reach _ A R) as [V1 V2 V3 _ _ _ _]. unfold Lp, T in *. rewrite F3 in *. cbn [pz pr'] in *.
        specialize (V2 ltac:(lia)). lia.
      + destruct L as [S1 _ S3 _ _ _]. lia. }
  assert (L : (length (t0 :: ring s) <= length (univ m))%nat).
  { apply NoDup_incl_length.
    - apply c_nodup. intros t. rewrite c_cons. pose proof (N t). unfold u.
      destruct (teq t t0) eqn:E; [apply teq_eq in E; subst|]; lia.
    - intros t [<-|H]; apply U; [lia|]. apply c_in in H. lia. }
  rewrite univ_length in L. unfold ring in L. cbn [length] in L. rewrite !app_length, map_length in L. lia.
Qed.

(** ** The wake-up operation is pending in the kernel while the runner waits *)
Definition ckw r := match r with RCheck | RWait => true | _ => false end.
Record invX (s : state) : Prop := {
  x_1 : (c TWake (req s) + c TWake (rdyl (rp s)) = 0)%nat;
  x_2 : ever s = false -> (0 < nruns s)%nat -> (0 < c TWake (linked s) + c TWake (ring s))%nat;
  x_3 : rp s = RWait -> sq s = [];
  x_5 : (0 < nruns s)%nat \/ rp s = RIdle;
  x_6 : ever s = false -> fph (rp s) = true -> c TWake (pend s) = 0%nat
}.
Lemma invX_init : invX init.
Proof. constructor; try (vm_compute; lia); cbn; intros; try lia; try discriminate; auto. Qed.

Lemma invX_step g s a s' : invB s -> invN s -> invX s -> step g s a = Some s' -> invX s'.
Proof.
  intros [_ D _] [N1 _ N3 N4] [X1 X2 X3 X5 X6] H.
  assert (Y : ever s = false -> dph (rp s) = false).
  { intros E. destruct (dph (rp s)); auto. specialize (N3 (D eq_refl)). rewrite E in N3. discriminate. }
  unfold linked, ring in *. clear D.
  cases H; try match goal with b : bool |- _ => is_var b; destruct b end;
    repeat match goal with k : kont |- _ => is_var k; destruct k end; rwr; nh X1; nh X2; cbn [fph ckw dph dk dw orb pndl rdyl frm] in *.
  all: constructor; pr; intros.
  all: try assumption; try congruence; try discriminate; auto.
  all: try specialize (X2 ltac:(assumption)); try specialize (X6 ltac:(assumption)); try specialize (X6 ltac:(first [reflexivity|assumption])); try specialize (Y ltac:(assumption)).
  all: ng; pr; try discriminate; try assumption; try congruence; try lia.
  all: try solve [ne; rem1s 0%nat; ne; lia].
  all: try solve [destruct X5; [auto|congruence]].
  all: try match goal with E : ever _ = false |- _ => rewrite E in *; cbn [bz] in * end.
  all: try solve [exfalso; eqs; specialize (N3 ltac:(assumption)); discriminate].
  all: try solve [exfalso; prall; congruence].
  all: prall; rwr; cbn [fph ckw orb stf bz frm go] in *; try discriminate; try lia.
  all: try match goal with E : st _ = true |- _ => rewrite E in *; cbn [bz] in * end; try lia.
  all: try match goal with t : tref |- context[u TWake ?t] => destruct t; cbn [ready] in *; try discriminate end; autorewrite with cc; try lia.
Qed.

(** With rings large enough nothing is left behind when the runner submits. *)
Definition invY g m s := few m s -> (2 * m < sqn g)%nat -> (2 * m < cqn g)%nat ->
  fph (rp s) || ckw (rp s) = true -> pend s = [] /\ pndl (rp s) = [].
Lemma invY_step g m s a s' : reach g s -> invN s -> invQ g s -> invY g m s -> step g s a = Some s' -> invY g m s'.
Proof.
  intros R [N1 _ N3 N4] Q Y H FS S1 S2. pose proof (@few_back g m s a s' H FS) as FF. unfold invY, invQ in *.
  specialize (Y FF S1 S2). specialize (Q (proj1 (proj2 FF))). destruct Q as [Q1 Q2].
  assert (RR := fun t => ring_room t R FF). rewrite (proj1 (proj2 FF)) in *. cbn [bz] in *. unfold linked in RR. clear R FS FF.
  cases H; intros P; try match goal with b : bool |- _ => is_var b; destruct b end;
    repeat match goal with k : kont |- _ => is_var k; destruct k end; rwr; cbn [fph ckw dph dk dw orb pndl rdyl frm stf] in *.
  all: prall; rwr; pr; cbn [pndl] in *; pr; cbn [fph ckw orb] in *; try discriminate; try specialize (Y P); try specialize (Y eq_refl).
  all: try assumption; try tauto.
  all: try solve [exfalso; match goal with E : st _ = true |- _ => rewrite E in *; cbn [bz] in * end; lia].
  all: try solve [rwg; exact Y].
  all: exfalso; specialize (Q2 _ eq_refl); specialize (RR t); unfold f_lists in RR; rwr; autorewrite with cc in RR;
    unfold u in RR; rewrite (proj2 (teq_eq t t) eq_refl) in RR; specialize (RR ltac:(lia)); lia.
Qed.

Lemma wake_reach g m s : reach g s -> invE s /\ invQ g s /\ invX s /\ invY g m s.
Proof.
  intros H. eapply reach_ind' with (P := fun s => invE s /\ invQ g s /\ invX s /\ invY g m s); eauto.
  - split; [|split; [|split]].
    + intros E. discriminate E.
    + intros _. split; [reflexivity|intros f E; discriminate E].
    + apply invX_init.
    + intros _ _ _ E. discriminate E.
  - intros s0 a s1 R [E [Q [X Y]]] St. pose proof (life_reach R). pose proof (invB_reach R).
    destruct (why_reach R) as [N _].
    split; [eapply invE_step; eauto|split; [eapply invQ_step; eauto|split; [eapply invX_step; eauto|eapply invY_step; eauto]]].
Qed.
