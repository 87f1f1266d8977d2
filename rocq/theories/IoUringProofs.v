(** Invariants of the model of io_uring_context that hold in every execution. *)
From Coq Require Import List ZArith Bool Arith Lia.
From Verif Require Import Conc IoUringModel.
Import ListNotations.
Set Implicit Arguments.
Open Scope Z_scope.
Arguments Z.add : simpl never. Arguments Z.sub : simpl never. Arguments Z.of_nat : simpl never.

(** occurrences of a node *)
Definition c (t : tref) (l : list tref) : nat := cnt (teq t) l.
Definition u (t x : tref) : nat := if teq t x then 1%nat else 0%nat.
Open Scope nat_scope.

Lemma c_nil t : c t [] = 0. Proof. reflexivity. Qed.
Lemma c_cons t x l : c t (x :: l) = u t x + c t l.
Proof. unfold c, u. cbn [cnt]. destruct (teq t x); lia. Qed.
Lemma c_app t a b : c t (a ++ b) = c t a + c t b.
Proof. unfold c. rewrite cnt_app. lia. Qed.
Lemma c_rev t a : c t (rev a) = c t a.
Proof. unfold c. rewrite cnt_rev. reflexivity. Qed.
Lemma teq_eq a b : teq a b = true <-> a = b.
Proof. destruct a, b; simpl; rewrite ?Nat.eqb_eq; split; intros H; try discriminate; try congruence; auto. Qed.
Lemma has_c t l : has t l = true <-> 0 < c t l.
Proof.
  unfold has, c. rewrite existsb_exists. split.
  - intros [x [H1 H2]]. pose proof (proj2 (cnt_pos (teq t) l) (ex_intro _ x (conj H1 H2))). lia.
  - intros H. apply cnt_pos. lia.
Qed.
Lemma has_c0 t l : has t l = false <-> c t l = 0.
Proof. pose proof (has_c t l). destruct (has t l); split; intros; try discriminate; try lia; destruct H; intuition lia. Qed.
Lemma c_rem1 t x l : has x l = true -> c t l = c t (rem1 x l) + u t x.
Proof.
  induction l as [|y l IH]; [discriminate|]. cbn [has existsb rem1]. rewrite c_cons.
  destruct (teq x y) eqn:E; simpl.
  - apply teq_eq in E. subst. lia.
  - intros H. rewrite c_cons. specialize (IH H). lia.
Qed.
Lemma u_op i j : u (TOp i) (TOp j) = if (i =? j)%nat then 1 else 0. Proof. reflexivity. Qed.
Lemma u_st i j : u (TStop i) (TStop j) = if (i =? j)%nat then 1 else 0. Proof. reflexivity. Qed.
Lemma u_os i j : u (TOp i) (TStop j) = 0. Proof. reflexivity. Qed.
Lemma u_so i j : u (TStop i) (TOp j) = 0. Proof. reflexivity. Qed.
Lemma u_ow i : u (TOp i) TWake = 0. Proof. reflexivity. Qed.
Lemma u_sw i : u (TStop i) TWake = 0. Proof. reflexivity. Qed.
Lemma u_wo i : u TWake (TOp i) = 0. Proof. reflexivity. Qed.
Lemma u_ws i : u TWake (TStop i) = 0. Proof. reflexivity. Qed.
Lemma u_ww : u TWake TWake = 1. Proof. reflexivity. Qed.
#[global] Hint Rewrite c_nil c_cons c_app c_rev u_op u_st u_os u_so u_ow u_sw u_wo u_ws u_ww Nat.eqb_refl : cc.

Lemma c_in t l : 0 < c t l <-> In t l.
Proof.
  rewrite <- has_c. unfold has. rewrite existsb_exists. split.
  - intros [x [H1 H2]]. apply teq_eq in H2. subst; auto.
  - intros H. exists t. split; auto. apply teq_eq; auto.
Qed.
Lemma in_rem1 t x l : In t (rem1 x l) -> In t l.
Proof. induction l; simpl; auto. destruct (teq x a); simpl; intuition. Qed.

Open Scope Z_scope.
Ltac pr := cbn [ops infl brk stop ever ntot req pend sq kern cq evfd rp nruns log
  set_op set_rp set_infl set_brk set_stop set_ntot set_req set_pend set_ring set_ev set_nruns emit emit_if
  pc n ccb rcb rreq fin exp kcan w_pc w_n w_ccb w_rcb w_rreq w_fin w_exp w_kcan setcb getcb negb
  dr st room todo pnd rdy go r_lists k_lists].
Ltac prh H := cbn [ops infl brk stop ever ntot req pend sq kern cq evfd rp nruns log
  set_op set_rp set_infl set_brk set_stop set_ntot set_req set_pend set_ring set_ev set_nruns emit emit_if
  pc n ccb rcb rreq fin exp kcan w_pc w_n w_ccb w_rcb w_rreq w_fin w_exp w_kcan setcb getcb negb
  dr st room todo pnd rdy go r_lists k_lists] in H.

Ltac inner x :=
  match x with
  | context[match ?y with _ => _ end] => inner y
  | _ => destruct x eqn:?
  end.
Ltac brk H := repeat match type of H with context[match ?x with _ => _ end] => inner x; try discriminate H end.

(** all the ways a step can be taken *)
Ltac cases H :=
  unfold step, c_step, k_step, r_step, sub_step, handle, put, inline_stop, touch, wake_start in H;
  cbv beta zeta in H; prh H;
  match type of H with context[match ?a with AStart _ => _ | _ => _ end] => destruct a end;
  brk H; injection H as <-.

(** ** Part A: which nodes can be where *)
Definition rdyl r :=
  match r with
  | RComp _ l | RRdy _ l => l
  | RSub f | RRegC _ f | RRegR _ f | RRegS _ f => rdy f
  | RFin _ _ _ (KComp _ l) | RFin _ _ _ (KRdy _ l) => l
  | RFin _ _ _ (KSubm f) => rdy f
  | _ => []
  end.
Definition pndl r :=
  match r with
  | RSub f | RRegC _ f | RRegR _ f | RRegS _ f | RFin _ _ _ (KSubm f) => pnd f
  | _ => []
  end.
Definition fph r := match r with RSub _ | RRegC _ _ | RRegR _ _ | RRegS _ _ | RFin _ _ _ (KSubm _) => true | _ => false end.
Definition cur r := match r with RRegC i _ | RRegR i _ | RRegS i _ => [TOp i] | _ => [] end.
Definition finl r := match r with RFin _ i _ _ => [TOp i] | _ => [] end.
Definition ring s := sq s ++ kern s ++ map fst (cq s).

Lemma map_fst_app {A B} (a b : list (A * B)) : map fst (a ++ b) = map fst a ++ map fst b.
Proof. apply map_app. Qed.

Lemma ready_op g i : ready g (TOp i) = negb (aft g i). Proof. reflexivity. Qed.

Ltac unf := unfold linked, ring in *; pr;
  repeat match goal with |- context[go ?k] => is_var k; destruct k; pr end;
  unfold f_lists in *; pr; cbn [rdyl pndl cur finl r_lists k_lists map fst]; rewrite ?map_fst_app; cbn [map fst].
Ltac eqs :=
  repeat match goal with
  | H : (_ =? _)%nat = true |- _ => apply Nat.eqb_eq in H; subst
  | H : (_ =? _)%nat = false |- _ => apply Nat.eqb_neq in H
  | H : Z.eqb _ _ = true |- _ => apply Z.eqb_eq in H
  | H : Z.eqb _ _ = false |- _ => apply Z.eqb_neq in H
  end.
Ltac fs j i := 
  let E := fresh "Eij" in
  unfold fset in *; destruct (Nat.eqb_spec i j) as [E|E];
  [subst; rewrite ?Nat.eqb_refl in * | rewrite ?(proj2 (Nat.eqb_neq i j) E), ?(proj2 (Nat.eqb_neq j i) (not_eq_sym E)) in *].

Ltac rwall := repeat match goal with
  | E : rp _ = _ |- _ => rewrite E in *; clear E
  | E : cq _ = _ |- _ => rewrite E in *; clear E
  | E : todo _ = _ |- _ => rewrite E in *; clear E
  end.
Ltac prall := repeat match goal with H : _ |- _ => progress prh H end.
Ltac allc := unfold linked, ring in *; rwall; pr;
  repeat match goal with |- context[go ?k] => is_var k; destruct k end;
  cbn [rdyl pndl cur finl r_lists k_lists go f_lists map fst] in *; unfold f_lists in *; pr;
  rewrite ?map_fst_app in *; cbn [map fst todo pnd rdy] in *;
  autorewrite with cc in *.
Ltac fsi i := unfold fset in *;
  repeat match goal with
  | |- context[(?a =? i)%nat] => destruct (Nat.eqb_spec a i); subst
  | |- context[(i =? ?a)%nat] => destruct (Nat.eqb_spec i a); subst
  end; pr.


(** ** Sums over all operations *)
Fixpoint fsum (w : op -> Z) (m : nat) (f : nat -> op) : Z :=
  match m with O => 0 | S k => fsum w k f + w (f k) end.
Definition total w f z := exists m, (forall i, (m <= i)%nat -> w (f i) = 0) /\ fsum w m f = z.

Lemma fsum_out w f j x : forall m, (m <= j)%nat -> fsum w m (fset f j x) = fsum w m f.
Proof.
  induction m; simpl; intros; auto. rewrite IHm by lia. unfold fset.
  replace (m =? j)%nat with false; auto. symmetry; apply Nat.eqb_neq; lia.
Qed.
Lemma fsum_in w f j x : forall m, (j < m)%nat -> fsum w m (fset f j x) = fsum w m f - w (f j) + w x.
Proof.
  induction m; simpl; intros; [lia|]. destruct (Nat.eq_dec j m) as [->|N].
  - rewrite fsum_out by lia. unfold fset. rewrite Nat.eqb_refl. lia.
  - rewrite IHm by lia. unfold fset. replace (m =? j)%nat with false; [lia|]. symmetry; apply Nat.eqb_neq; lia.
Qed.
Lemma fsum_ext w f m : (forall i, (m <= i)%nat -> w (f i) = 0) -> forall k, (m <= k)%nat -> fsum w k f = fsum w m f.
Proof. intros H k Hk. induction Hk; auto. simpl. rewrite H by lia. lia. Qed.
Lemma total_upd w f j x z : total w f z -> total w (fset f j x) (z - w (f j) + w x).
Proof.
  intros [m [H1 H2]]. exists (Nat.max m (S j)). split.
  - intros i Hi. unfold fset. replace (i =? j)%nat with false; [apply H1; lia|]. symmetry; apply Nat.eqb_neq; lia.
  - rewrite fsum_in by lia. rewrite (@fsum_ext w f m H1) by lia. lia.
Qed.
Lemma fsum_nn w f (H : forall x, 0 <= w x) : forall m, 0 <= fsum w m f.
Proof. induction m; simpl; [lia|]. specialize (H (f m)); lia. Qed.
Lemma fsum_ge w f (H : forall x, 0 <= w x) i : forall m, (i < m)%nat -> w (f i) <= fsum w m f.
Proof.
  induction m; simpl; intros; [lia|]. destruct (Nat.eq_dec i m) as [->|N].
  - pose proof (@fsum_nn w f H m). lia.
  - specialize (IHm ltac:(lia)). specialize (H (f m)). lia.
Qed.
Lemma total_ge w f z : (forall x, 0 <= w x) -> total w f z -> forall i, w (f i) <= z.
Proof.
  intros H [m [H1 <-]] i. destruct (le_lt_dec m i) as [L|L].
  - rewrite H1 by exact L. apply fsum_nn; auto.
  - apply fsum_ge; auto.
Qed.


(** ** Part A: the life of a node *)
Definition pz (p : cpc) : nat := match p with PNew | PPush | PRef => 1 | _ => 0 end.
Definition pn (p : cpc) : nat := match p with PNew | PPush => 1 | _ => 0 end.
Definition pr' (p : cpc) : nat := match p with PRef => 1 | _ => 0 end.
Definition bz (b : bool) : nat := if b then 1 else 0.
Definition K s i := (c (TOp i) (ring s) + c (TOp i) (cur (rp s)))%nat.
Definition dn i (l : list event) : nat := cnt (fun e => match e with EDone j _ _ => (i =? j)%nat | _ => false end) l.
Definition bn (b : cbs) : nat := match b with CbNone => 0 | _ => 1 end.
Lemma bn_unreg b : bn (unreg b) = bn b. Proof. destruct b; reflexivity. Qed.
#[local] Hint Rewrite bn_unreg : cc.
Definition regc r := match r with RRegC i _ => [TOp i] | _ => [] end.
Definition regr r := match r with RRegC i _ | RRegR i _ => [TOp i] | _ => [] end.

Record invS (s : state) (i : nat) : Prop := {
  s_1 : (c (TOp i) (ring s) + c (TOp i) (cur (rp s)) + c (TOp i) (finl (rp s)) + c (TOp i) (pndl (rp s))
         + c (TStop i) (linked s) + c (TStop i) (ring s) = 0)%nat;
  s_2 : ccb (ops s i) = CbNone /\ rcb (ops s i) = CbNone;
  s_3 : (c (TOp i) (linked s) + bz (fin (ops s i)) + pn (pc (ops s i)) = 1)%nat;
  s_3' : (c (TOp i) (linked s) + pr' (pc (ops s i)) <= 1)%nat;
  s_4 : dn i (log s) = bz (fin (ops s i));
  s_5 : fph (rp s) = true -> c (TOp i) (pend s) = 0%nat
}.
Record invT (s : state) (i : nat) : Prop := {
  t_1 : (c (TOp i) (linked s) + K s i + pz (pc (ops s i)) <= 1)%nat;
  t_2 : (c (TOp i) (linked s) + pz (pc (ops s i)) + bn (ccb (ops s i)) + c (TOp i) (regc (rp s)) <= 1)%nat;
  t_3 : (c (TOp i) (linked s) + pz (pc (ops s i)) + bn (rcb (ops s i)) + c (TOp i) (regr (rp s)) <= 1)%nat;
  t_4 : c (TOp i) (rdyl (rp s)) = 0%nat
}.

Lemma invS_init i : invS init i.
Proof. constructor; simpl; auto. Qed.
Lemma invT_init i : invT init i.
Proof. constructor; unfold K; simpl; auto. Qed.

Lemma dn_cons i e l : dn i (e :: l) = (match e with EDone j _ _ => if (i =? j)%nat then 1 else 0 | _ => 0 end + dn i l)%nat.
Proof. unfold dn. cbn [cnt]. destruct e; auto. Qed.
Lemma dn_bad i (b : bool) l : dn i (if b then EBad :: l else l) = dn i l.
Proof. destruct b; auto. Qed.
Lemma dn_ass i (b : bool) l : dn i (if b then EAssert :: l else l) = dn i l.
Proof. destruct b; auto. Qed.
#[local] Hint Rewrite dn_cons dn_bad dn_ass : cc.

(** normalise the hypotheses, then the goal, about the next state *)
Ltac nh H := cbn [rdyl pndl cur finl regc regr r_lists k_lists map fst getcb setcb negb] in H; unfold f_lists in H;
  cbn [map fst] in H; repeat match goal with E : todo _ = _ |- _ => progress rewrite E in H end; autorewrite with cc in H.
Ltac rwr := repeat match goal with
  | E : rp ?s = ?x |- _ => rewrite ?E in *; revert E
  | E : cq ?s = ?x |- _ => rewrite ?E in *; revert E
  | E : todo ?f = ?x |- _ => rewrite ?E in *; revert E
  end; intros.
Ltac rwg := repeat match goal with
  | E : rp ?s = ?x |- context[rp ?s] => rewrite E
  | E : cq ?s = ?x |- context[cq ?s] => rewrite E
  | E : todo ?f = ?x |- context[todo ?f] => rewrite E
  end.
Ltac ng := unfold K, linked, ring; pr; rwg;
  repeat match goal with |- context[match ?k with KComp _ _ => _ | _ => _ end] => is_var k; destruct k end;
  cbn [rdyl pndl cur finl regc regr fph r_lists k_lists go map fst getcb setcb negb]; unfold f_lists; pr;
  rewrite ?map_fst_app; cbn [map fst]; autorewrite with cc; unfold fset.
Ltac eqbs := repeat match goal with |- context[Nat.eqb ?a ?b] => destruct (Nat.eqb_spec a b); subst end; pr.
Ltac rem1s i := try match goal with H : has ?x ?l = true |- context[rem1 ?x ?l] =>
    pose proof (c_rem1 (TOp i) _ _ H); pose proof (c_rem1 (TStop i) _ _ H); pose proof (c_rem1 TWake _ _ H) end;
  autorewrite with cc in *.
Lemma nonempty_f l : nonempty l = false -> l = []. Proof. destruct l; [auto|discriminate]. Qed.
Ltac ne := repeat match goal with H : nonempty ?l = false |- _ => apply nonempty_f in H; rewrite ?H in *; cbn [c] in * end; rewrite ?c_nil in *.
Ltac opeqs := repeat match goal with E : _ (ops _ _) = _ |- _ => rewrite E in * end.

Lemma invS_step g s a s' i : aft g i = false -> invS s i -> step g s a = Some s' -> invS s' i.
Proof.
  intros A [I1 [I2 I2'] I3 I3' I4 I5] H. unfold linked, ring in I1, I3, I3'.
  cases H; try match goal with b : bool |- _ => destruct b end; 
    repeat match goal with k : kont |- _ => destruct k end; rwr; nh I1; nh I3; nh I3'; cbn [fph] in I5;
    try specialize (I5 eq_refl).
  all: constructor; pr.
  all: try solve [assumption|split; assumption|auto].
  all: ng; eqbs; pr; intros.
  all: try solve [assumption|split; assumption|congruence|discriminate].
  all: try solve [opeqs; cbn [bz pn pr'] in *; lia].
  all: try solve [exfalso; cbn [getcb negb ready] in *; congruence].
  all: try solve [match goal with |- context[c (TOp ?i) _] => rem1s i end; eqbs; ne; lia].
  all: match goal with R : ready _ ?t = false |- _ => try (is_var t; destruct t); cbn [ready] in R; apply negb_false_iff in R || idtac end;
    autorewrite with cc in *; eqbs; try congruence; try lia.
Qed.

Lemma invT_step g s a s' i : aft g i = true -> invT s i -> step g s a = Some s' -> invT s' i.
Proof.
  intros A [I1 I2 I3 I4] H. unfold K, linked, ring in *.
  cases H; try match goal with b : bool |- _ => destruct b end; 
    repeat match goal with k : kont |- _ => destruct k end; rwr; nh I1; nh I2; nh I3; nh I4; cbn [getcb] in *.
  all: constructor; pr.
  all: try solve [assumption|auto].
  all: ng; eqbs; pr; intros.
  all: try solve [assumption|lia].
  all: try solve [opeqs; cbn [bz pz bn] in *; lia].
  all: try solve [match goal with |- context[c (TOp ?i) _] => rem1s i end; eqbs; ne; lia].
  all: match goal with R : ready _ ?t = true |- _ => try (is_var t; destruct t); cbn [ready] in R; try discriminate; apply negb_true_iff in R || idtac end;
    autorewrite with cc in *; eqbs; try congruence; try lia.
Qed.
