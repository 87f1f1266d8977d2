(** More invariants of the model of io_uring_context: why an operation completed, what is left when the
    context is closed, and the reference count of schedule_after() operations. *)
From Coq Require Import List ZArith Bool Arith Lia.
From Verif Require Import Conc IoUringModel IoUringProofs IoUringProofs2.
Import ListNotations.
Set Implicit Arguments.
Open Scope Z_scope.
Arguments Z.add : simpl never. Arguments Z.sub : simpl never. Arguments Z.of_nat : simpl never.

Lemma invB_reach g s : reach g s -> invB s.
Proof.
  intros H. assert (life g s /\ invB s) as [_ B]; [|exact B].
  eapply reach_ind' with (P := fun s => life g s /\ invB s); eauto.
  - split; [apply life_init|apply invB_init].
  - intros s0 a s1 _ [L B] E. split; [eapply life_step|eapply invB_step]; eauto.
Qed.

(** ** Part C: what is left when the context is closed *)
Definition dpop r := match r with RDPop => true | _ => false end.
Definition invD s i := infl s = -1 -> dpop (rp s) = false -> (c (TOp i) (req s) + c (TOp i) (pend s) = 0)%nat.

Lemma invB_push s i : invB s -> infl s = -1 -> pc (ops s i) <> PPush.
Proof.
  intros [[z [T Z]] _ _] E P. pose proof (@total_ge iw _ _ iw_nn T i) as G. unfold iw in G.
  rewrite P in G. cbn [iwp] in G. pose proof (iwc_nn (ccb (ops s i))). pose proof (iwc_nn (rcb (ops s i))). lia.
Qed.

Lemma invB_dec s i : invB s -> pc (ops s i) = PDec \/ (exists b, getcb b (ops s i) = CbRun KDec) -> 1 <= infl s.
Proof.
  intros [[z [T Z]] _ _] P. pose proof (@total_ge iw _ _ iw_nn T i) as G. unfold iw in G.
  pose proof (iwc_nn (ccb (ops s i))). pose proof (iwc_nn (rcb (ops s i))). pose proof (iwp_nn (pc (ops s i))).
  destruct P as [P|[[] P]]; cbn [getcb] in P; rewrite P in *; cbn [iwp iwc] in *; lia.
Qed.

Lemma invD_step g s a s' i : aft g i = false -> invS s i -> invB s -> invD s i -> step g s a = Some s' -> invD s' i.
Proof.
  intros A I B D H. pose proof (@invB_push s i B) as P. pose proof (b_infl B) as N. pose proof (fun j => @invB_dec s j B) as Q. pose proof (b_i B) as BI. clear B.
  destruct I as [I1 [I2 I2'] _ _ _ _]. unfold invD in *.
  cases H; pr; intros X Y; try specialize (D X); try specialize (BI X); try specialize (P X); try (exfalso; lia); cbn [getcb] in *;
    try (match goal with E : rp _ = _ |- _ => rewrite E in * end; cbn [dpop dph dw dk idle orb] in *); try discriminate;
    try specialize (D eq_refl);
    try specialize (D Y);
    autorewrite with cc in *; eqs; rwr; nh I1;
    eqbs; repeat match goal with |- context[if ?b then _ else _] => destruct b end;
    autorewrite with cc; try lia; try congruence.
  all: match goal with E : pc (ops _ ?j) = PDec |- _ => specialize (Q j (or_introl E)) | E : getcb ?b (ops _ ?j) = CbRun KDec |- _ => specialize (Q j (or_intror (ex_intro _ b E))) end; lia.
Qed.

Lemma invD_reach g s i : aft g i = false -> reach g s -> invD s i.
Proof.
  intros A H. eapply reach_ind' with (P := fun s => invD s i); eauto.
  - intros E. discriminate E.
  - intros s0 a s1 R D E. pose proof (life_reach R i) as L. rewrite A in L.
    eapply invD_step; eauto using invB_reach.
Qed.

(** ** Part D: why an operation completed *)
Definition dv i (l : list event) : nat := cnt (fun e => match e with EDone j RVal _ => (i =? j)%nat | _ => false end) l.
Definition ds i (l : list event) : nat := cnt (fun e => match e with EDone j RStp _ => (i =? j)%nat | _ => false end) l.
Definition df (l : list event) : nat := cnt (fun e => match e with EDone _ _ false => true | _ => false end) l.
Definition cqb (i : nat) (b : bool) (q : list (tref * bool)) : nat :=
  cnt (fun p => teq (TOp i) (fst p) && Bool.eqb b (snd p)) q.
Definition stf r :=
  match r with RSub f | RRegC _ f | RRegR _ f | RRegS _ f | RFin _ _ _ (KSubm f) => bz (st f) | _ => 0%nat end.
Definition clo r := match r with RClose | RDPop => 1%nat | _ => 0%nat end.
Definition crun b := match b with CbRun _ => 1%nat | _ => 0%nat end.
Definition kfn b := match b with CbRun KFin => 1%nat | _ => 0%nat end.
Definition fnb (i : nat) (b : bool) r : nat :=
  match r with RFin _ j b' _ => if (i =? j)%nat && Bool.eqb b b' then 1 else 0 | _ => 0 end.

Lemma dv_cons i e l : dv i (e :: l) = (match e with EDone j RVal _ => if (i =? j)%nat then 1 else 0 | _ => 0 end + dv i l)%nat.
Proof. unfold dv. cbn [cnt]. destruct e as [j [] b| | | |]; auto. Qed.
Lemma ds_cons i e l : ds i (e :: l) = (match e with EDone j RStp _ => if (i =? j)%nat then 1 else 0 | _ => 0 end + ds i l)%nat.
Proof. unfold ds. cbn [cnt]. destruct e as [j [] b| | | |]; auto. Qed.
Lemma df_cons e l : df (e :: l) = (match e with EDone _ _ false => 1 | _ => 0 end + df l)%nat.
Proof. unfold df. cbn [cnt]. destruct e as [j r []| | | |]; auto. Qed.
Lemma cqb_cons i b t x q : cqb i b ((t, x) :: q) = ((match t with TOp j => if (i =? j)%nat && Bool.eqb b x then 1 else 0 | _ => 0 end) + cqb i b q)%nat.
Proof. unfold cqb. cbn [cnt fst snd]. destruct t; reflexivity. Qed.
Lemma cqb_nil i b : cqb i b [] = 0%nat. Proof. reflexivity. Qed.
Lemma cqb_app i b q r : cqb i b (q ++ r) = (cqb i b q + cqb i b r)%nat. Proof. apply cnt_app. Qed.
Lemma dv_bad i (b : bool) l : dv i (if b then EBad :: l else l) = dv i l. Proof. destruct b; auto. Qed.
Lemma dv_ass i (b : bool) l : dv i (if b then EAssert :: l else l) = dv i l. Proof. destruct b; auto. Qed.
Lemma ds_bad i (b : bool) l : ds i (if b then EBad :: l else l) = ds i l. Proof. destruct b; auto. Qed.
Lemma ds_ass i (b : bool) l : ds i (if b then EAssert :: l else l) = ds i l. Proof. destruct b; auto. Qed.
Lemma df_bad (b : bool) l : df (if b then EBad :: l else l) = df l. Proof. destruct b; auto. Qed.
Lemma df_ass (b : bool) l : df (if b then EAssert :: l else l) = df l. Proof. destruct b; auto. Qed.
#[local] Hint Rewrite dv_cons ds_cons df_cons cqb_cons cqb_nil cqb_app dv_bad dv_ass ds_bad ds_ass df_bad df_ass : cc.

Record invN (s : state) : Prop := {
  n_s : (bz (stop s) <= bz (ever s))%nat;
  n_c : (clo (rp s) <= bz (ever s))%nat;
  n_i : infl s = -1 -> bz (ever s) = 1%nat;
  n_f : (stf (rp s) <= bz (ever s))%nat
}.
Record invM (s : state) (i : nat) : Prop := {
  m_c : (crun (ccb (ops s i)) <= bz (ever s))%nat;
  m_r : (crun (rcb (ops s i)) <= bz (rreq (ops s i)))%nat;
  m_f : (kfn (ccb (ops s i)) + kfn (rcb (ops s i)) <= 2 * bz (ever s))%nat;
  m_k : (bz (kcan (ops s i)) <= bz (ever s) + bz (rreq (ops s i)))%nat;
  m_t : (0 < c (TStop i) (linked s) + c (TStop i) (ring s) -> 0 < bz (ever s) + bz (rreq (ops s i)))%nat;
  m_q : (0 < cqb i true (cq s) -> bz (kcan (ops s i)) = 1)%nat;
  m_p : (0 < cqb i false (cq s) -> bz (exp (ops s i)) = 1)%nat;
  m_ft : (fnb i true (rp s) <= bz (ever s) + bz (rreq (ops s i)))%nat;
  m_fp : (fnb i false (rp s) <= bz (exp (ops s i)))%nat
}.
Record invL (g : cfg) (s : state) (i : nat) : Prop := {
  l_s : (0 < ds i (log s) -> 0 < bz (ever s) + bz (rreq (ops s i)))%nat;
  l_v : aft g i = true -> (0 < dv i (log s) -> bz (exp (ops s i)) = 1)%nat;
  l_f : (0 < df (log s) -> bz (ever s) = 1)%nat
}.
Lemma invN_init : invN init. Proof. constructor; simpl; lia. Qed.
Lemma invM_init i : invM init i. Proof. constructor; try (vm_compute; lia); intros; simpl in *; lia. Qed.
Lemma invL_init g i : invL g init i. Proof. constructor; unfold ds, dv, df; cbn [init log cnt]; intros; lia. Qed.

Lemma invN_step g s a s' : invB s -> invN s -> step g s a = Some s' -> invN s'.
Proof.
  intros B [N1 N2 N3 N4] H. pose proof (b_infl B) as N. pose proof (b_d B) as BD.
  pose proof (fun j => @invB_dec s j B) as Q. clear B.
  cases H; constructor; pr; intros; try assumption;
    repeat match goal with k : kont |- _ => is_var k; destruct k end;
    repeat match goal with E : (_ && _)%bool = true |- _ => apply andb_true_iff in E; destruct E end;
    try match goal with E : pc (ops _ ?j) = PDec |- _ => specialize (Q j (or_introl E))
      | E : getcb ?b (ops _ ?j) = CbRun KDec |- _ => specialize (Q j (or_intror (ex_intro _ b E))) end;
    rwr; cbn [stf clo go dph dk] in *; pr; eqs; try lia.
  all: try match goal with E : st _ = true |- _ => rewrite E in * end;
    try (destruct (ever s), (stop s); cbn [bz] in *; try discriminate; try congruence; try specialize (BD eq_refl); lia).
Qed.

Lemma crun_unreg b : crun (unreg b) = 0%nat. Proof. destruct b; auto. Qed.
Lemma kfn_unreg b : kfn (unreg b) = 0%nat. Proof. destruct b; auto. Qed.
#[local] Hint Rewrite crun_unreg kfn_unreg : cc.

Lemma bz_le b : (bz b <= 1)%nat. Proof. destruct b; simpl; lia. Qed.
Lemma kfn_le b : (kfn b <= 1)%nat. Proof. destruct b as [| |[]|]; simpl; lia. Qed.
Lemma crun_le b : (crun b <= 1)%nat. Proof. destruct b as [| |[]|]; simpl; lia. Qed.
Lemma fnb_le i b r : (fnb i b r <= 1)%nat. Proof. destruct r; simpl; try lia. destruct ((i =? i0)%nat && eqb b c); lia. Qed.
Ltac bounds := repeat match goal with
  | |- context[kfn ?x] => pose proof (kfn_le x); generalize dependent (kfn x); intros
  | |- context[crun ?x] => pose proof (crun_le x); generalize dependent (crun x); intros
  | |- context[fnb ?i ?b ?x] => pose proof (fnb_le i b x); generalize dependent (fnb i b x); intros
  | |- context[bz (?f ?x)] => pose proof (bz_le (f x)); generalize dependent (bz (f x)); intros
  end.

Lemma c_rem1_le t x l : (c t (rem1 x l) <= c t l)%nat.
Proof.
  induction l as [|y l IH]; [auto|]. cbn [rem1]. destruct (teq x y); rewrite ?c_cons; lia.
Qed.

Lemma invM_step g s a s' i : life g s -> invN s -> invM s i -> step g s a = Some s' -> invM s' i.
Proof.
  intros L [N1 N2 N3 N4] [M1 M2 M3 M4 M5 M6 M7 M8 M9] H. unfold linked, ring in M5.
  assert (T4 : aft g i = true -> c (TOp i) (rdyl (rp s)) = 0%nat).
  { intros A. specialize (L i). rewrite A in L. apply L. } clear L.
  cases H; repeat match goal with k : kont |- _ => is_var k; destruct k end; rwr; nh M5; autorewrite with cc in M6; autorewrite with cc in M7;
    cbn [fnb stf clo rdyl] in N2, N4, M8, M9, T4; autorewrite with cc in T4.
  all: constructor; pr.
  all: try assumption.
  all: ng; cbn [fnb crun kfn]; eqbs; intros.
  all: try assumption.
  all: try solve [lia].
  all: repeat match goal with b : bool |- _ => is_var b; destruct b end; cbn [getcb setcb negb Bool.eqb andb orb] in *; pr; cbn [crun kfn]; try assumption.
  all: try solve [eqs; opeqs; cbn [crun kfn bz] in *; lia].
  all: try solve [match goal with |- context[bz (rreq (ops _ ?i))] => rem1s i end; eqbs; ne; try lia].
  all: autorewrite with cc; try lia.
  all: try solve [cbn [bz]; bounds; eqs; lia].
  all: try solve [specialize (T4 ltac:(assumption)); lia].
  all: try solve [match goal with E : st _ = true |- _ => rewrite E in * end; cbn [bz] in *; lia].
  all: repeat match goal with E : (_ && _)%bool = true |- _ => apply andb_true_iff in E; destruct E end.
  all: repeat match goal with E : has _ _ = true |- _ => apply has_c in E end; cbn [bz] in *; try lia.
  all: repeat match goal with E : context[c ?t (rem1 ?x ?l)] |- _ =>
    pose proof (c_rem1_le t x l); generalize dependent (c t (rem1 x l)); intros end;
    autorewrite with cc in *; lia.
Qed.

Lemma invL_step g s a s' i : life g s -> invN s -> (forall i, invM s i) -> invL g s i -> step g s a = Some s' -> invL g s' i.
Proof.
  intros L [N1 N2 N3 N4] M. assert (KF := fun j => m_f (M j)). destruct (M i) as [M1 M2 M3 M4 M5 M6 M7 M8 M9]. intros [L1 L2 L3] H. unfold linked, ring in M5.
  assert (T4 : aft g i = true -> c (TOp i) (rdyl (rp s)) = 0%nat).
  { intros A. specialize (L i). rewrite A in L. apply L. }
  assert (S1 : aft g i = false -> (c (TOp i) (ring s) = 0 /\ c (TOp i) (cur (rp s)) = 0 /\ crun (ccb (ops s i)) = 0 /\ crun (rcb (ops s i)) = 0)%nat).
  { intros A. specialize (L i). rewrite A in L. destruct L as [Q1 [Q2 Q3] _ _ _ _]. rewrite Q2, Q3. simpl. lia. }
  unfold ring in S1. clear L.
  cases H; constructor; pr; try assumption; intros;
    match goal with X : (0 < _)%nat |- _ => autorewrite with cc in X end; unfold fset; eqbs; try lia;
    try specialize (L2 ltac:(assumption)); try lia;
    repeat match goal with b : bool |- _ => is_var b; destruct b end; cbn [getcb setcb negb Bool.eqb andb orb fset] in *; pr;
    rwr; autorewrite with cc in *; cbn [orb rdyl fnb cur Bool.eqb] in *; autorewrite with cc in *; unfold fset; eqbs; try lia.
  all: try specialize (L2 ltac:(assumption)); try specialize (T4 ltac:(assumption)); try specialize (S1 ltac:(assumption)); try lia.
  all: try solve [cbn [bz]; lia].
  all: try solve [match goal with E : getcb _ (ops _ ?j) = CbRun KFin |- _ => specialize (KF j); destruct (ever s); cbn [bz] in *; [lia|] | E : _ (ops _ ?j) = CbRun KFin |- _ => specialize (KF j); rewrite E in KF; cbn [kfn] in KF; pose proof (bz_le (ever s)); lia end].
  all: repeat match goal with E : (_ || _)%bool = true |- _ => apply orb_true_iff in E end;
    repeat match goal with E : (_ || _)%bool = false |- _ => apply orb_false_iff in E; destruct E end.
  all: try solve [destruct (stop s), (rreq (ops s i)); cbn [bz] in *; intuition (try discriminate; lia)].
  all: cbn [andb map fst] in *; autorewrite with cc in *; try lia; try congruence.
  all: try solve [destruct (stop s) eqn:?, (rreq (ops s i0)) eqn:?; cbn [bz] in *; intuition (try discriminate; try congruence; lia)].
  all: bounds; lia.
Qed.

Lemma why_reach g s : reach g s -> invN s /\ (forall i, invM s i) /\ (forall i, invL g s i).
Proof.
  intros H. eapply reach_ind' with (P := fun s => invN s /\ (forall i, invM s i) /\ (forall i, invL g s i)); eauto.
  - split; [apply invN_init|split; intros; [apply invM_init|apply invL_init]].
  - intros s0 a s1 R [N [M L]] E. pose proof (life_reach R). pose proof (invB_reach R).
    split; [eapply invN_step; eauto|]. split; intros i; [eapply invM_step; eauto|eapply invL_step; eauto].
Qed.
