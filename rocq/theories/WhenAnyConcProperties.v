(** * WhenAnyConcProperties: C35 (exec::when_any under real concurrency). *)
From Coq Require Import List Arith Bool ZArith Lia.
From Verif Require Import Conc WhenAnyConcModel.
Import ListNotations.
Set Implicit Arguments.
Local Open Scope Z_scope.
Arguments Z.add : simpl never.
Arguments Z.sub : simpl never.
Arguments Z.of_nat : simpl never.

(** ** Specification vocabulary, over the log (newest first) *)
Definition is_out (e : event) : bool := match e with EOut _ => true | _ => false end.
Definition is_late (e : event) : bool := match e with ELate => true | _ => false end.
Definition n_out (l : list event) : Z := Z.of_nat (cnt is_out l).
Definition n_late (l : list event) : Z := Z.of_nat (cnt is_late l).
Fixpoint res_of (i : nat) (l : list event) : option res :=
  match l with
  | [] => None
  | ERes j r :: l => if (j =? i)%nat then Some r else res_of i l
  | _ :: l => res_of i l
  end.
(** the completion of the child that finished first *)
Fixpoint first_res (l : list event) : option res :=
  match l with
  | [] => None
  | ERes _ r :: l => match first_res l with Some r' => Some r' | None => Some r end
  | _ :: l => first_res l
  end.
(** what the receiver gets for a child's completion: the same, or the exception thrown while storing it *)
Definition delivers (r : res) : res :=
  match r with RVal v => RVal v | RErr e => RErr e | RStop => RStop | RThrow e => RErr e end.
Lemma stored_delivers r : stored r = delivers r.
Proof. destruct r; reflexivity. Qed.
(** o is a right completion given the history l before it: either set_stopped because the parent had
    requested stop; or the first child's completion, after all children finished and the others were
    asked to stop *)
Definition right_outcome (n : nat) (o : option res) (l : list event) : Prop :=
  (o = Some RStop /\ In EReqParent l /\ ((forall i, (i < n)%nat -> res_of i l <> None) \/ (forall i, res_of i l = None))) \/
  (~ In EReqParent l /\ (forall i, (i < n)%nat -> res_of i l <> None) /\
   exists r, first_res l = Some r /\ o = Some (delivers r) /\ In EStopChildren l).
Fixpoint outs_right (n : nat) (l : list event) : Prop :=
  match l with
  | [] => True
  | EOut o :: l => right_outcome n o l /\ outs_right n l
  | _ :: l => outs_right n l
  end.
Definition finished (s : state) : Prop :=
  ((forall p, In p (chl s) -> p = CDone) \/ sp s = SStopped) /\ cb_tid (fp s) = None.

(** ** The invariant *)
Definition wt (p : cpc) : Z := match p with CK0 _ | CK1 _ | CDone => 0 | _ => 1 end.
Definition wf (f : fpc) : Z := match f with FQ _ | FArr _ => 1 | _ => 0 end.
Definition kt (p : cpc) : Z := match p with CK0 _ | CK1 _ => 1 | _ => 0 end.
Definition kf (f : fpc) : Z := match f with FK0 _ | FK1 _ => 1 | _ => 0 end.
Definition k1 (p : cpc) : Z := match p with CK1 _ => 1 | _ => 0 end.
Definition k1f (f : fpc) : Z := match f with FK1 _ => 1 | _ => 0 end.
Definition we (p : cpc) : Z := match p with CE _ _ => 1 | _ => 0 end.
Definition wq (p : cpc) : Z := match p with CE _ _ | CQ _ => 1 | _ => 0 end.
Definition sst (p : spc) : Z := match p with SStopped => 1 | _ => 0 end.

Section Inv.
Variable n : nat.

Definition pcok (l : list event) (i : nat) (p : cpc) : Prop :=
  match p with
  | CNot | CRun | CX _ _ => res_of i l = None
  | CE _ r => res_of i l = Some r /\ first_res l = Some r
  | CQ _ | CArr _ | CK0 _ | CK1 _ | CDone => res_of i l <> None
  end.
Definition spok (s : state) : Prop :=
  match sp s with
  | SNot => (forall p, In p (chl s) -> p = CNot) /\ fp s = FNot /\ reg s = false
  | SWait => (forall p, In p (chl s) -> p = CNot) /\ reg s = false
  | SChk | SStopped => (forall p, In p (chl s) -> p = CNot)
  | SRun k => (k <= n)%nat /\ forall i p, nth_error (chl s) i = Some p -> (p = CNot <-> (k <= i)%nat)
  | SDone => forall p, In p (chl s) -> p <> CNot
  end.

Record inv (s : state) : Prop := {
  i_n : (0 < n)%nat;
  i_len : length (chl s) = n;
  i_count : count s = sumz wt (chl s) + wf (fp s);
  i_zero : sumz kt (chl s) + kf (fp s) + n_out (log s) = n_late (log s) + (if count s =? 0 then 1 else 0) + sst (sp s);
  i_sst : sst (sp s) <= n_out (log s);
  i_late : n_late (log s) <= 1;
  i_late0 : match fp s with FNot | F0 _ => n_late (log s) = 0 | _ => True end;
  i_reg : reg s = true -> fp s = FNot;
  i_sp : spok s;
  i_res : forall i p, nth_error (chl s) i = Some p -> pcok (log s) i p;
  i_none : forall i, (n <= i)%nat -> res_of i (log s) = None;
  i_emp : emplaced s = match first_res (log s) with Some _ => true | None => false end;
  i_result : forall r, first_res (log s) = Some r -> result s = Some (stored r) \/ 0 < sumz we (chl s);
  i_resv : forall x, result s = Some x -> exists r, first_res (log s) = Some r /\ x = stored r;
  i_inner : inner s = true -> In EReqParent (log s) \/ first_res (log s) <> None;
  i_parent : fp s <> FNot -> parent s = true;
  i_parent2 : parent s = true <-> In EReqParent (log s);
  i_arr : 0 < sumz kt (chl s) + kf (fp s) + n_out (log s) - sst (sp s) -> sumz wt (chl s) = 0;
  i_k1 : 0 < sumz k1 (chl s) + k1f (fp s) + n_out (log s) - sst (sp s) ->
         reg s = false /\ match fp s with F0 _ => False | _ => True end;
  i_ask : first_res (log s) <> None -> In EStopChildren (log s) \/ 0 < sumz wq (chl s);
  i_out : outs_right n (log s) }.

Lemma wt_nn p : 0 <= wt p. Proof. destruct p; simpl; lia. Qed.
Lemma kt_nn p : 0 <= kt p. Proof. destruct p; simpl; lia. Qed.
Lemma k1_nn p : 0 <= k1 p. Proof. destruct p; simpl; lia. Qed.
Lemma wq_nn p : 0 <= wq p. Proof. destruct p; simpl; lia. Qed.
Lemma we_nn p : 0 <= we p. Proof. destruct p; simpl; lia. Qed.
Lemma n_out_nn l : 0 <= n_out l. Proof. unfold n_out. lia. Qed.
Lemma n_late_nn l : 0 <= n_late l. Proof. unfold n_late. lia. Qed.
Lemma n_out_cons e l : n_out (e :: l) = (if is_out e then 1 else 0) + n_out l.
Proof. unfold n_out. simpl. destruct (is_out e); lia. Qed.
Lemma n_late_cons e l : n_late (e :: l) = (if is_late e then 1 else 0) + n_late l.
Proof. unfold n_late. simpl. destruct (is_late e); lia. Qed.
Hint Resolve wt_nn kt_nn k1_nn wq_nn we_nn n_out_nn n_late_nn : core.

Lemma inv_init : (0 < n)%nat -> inv (init n).
Proof.
  intros N. assert (R : forall i p, nth_error (repeat CNot n) i = Some p -> p = CNot) by (intros i p; apply nth_repeat_some).
  constructor; simpl; auto; try discriminate; try (intros; discriminate).
  - apply repeat_length.
  - assert (Q : forall k, sumz wt (repeat CNot k) = Z.of_nat k); [|rewrite Q; lia].
    induction k; cbn [repeat sumz wt]; [auto|]. rewrite IHk. lia.
  - rewrite sumz_repeat by auto. unfold n_out, n_late. simpl. destruct (Z.eqb_spec (Z.of_nat n) 0); lia.
  - split; auto. intros p H. apply repeat_spec in H. auto.
  - intros i p H. apply R in H. subst. simpl. auto.
  - split; [discriminate|tauto].
  - rewrite sumz_repeat by auto. unfold n_out. simpl. lia.
Qed.

Lemma in_upd {A} (l : list A) i x q : In q (upd l i x) -> q = x \/ In q l.
Proof. revert i. induction l; destruct i; simpl; intros H; auto; destruct H; auto. apply IHl in H. tauto. Qed.
Lemma spok_child s s' i p p' : spok s -> nth_error (chl s) i = Some p -> p <> CNot -> p' <> CNot ->
  sp s' = sp s -> fp s' = fp s -> (reg s' = true -> reg s = true) -> chl s' = upd (chl s) i p' -> spok s' /\ sst (sp s) = 0.
Proof.
  intros H Hi N N' E1 E2 E3 E4. unfold spok in *. rewrite E1, E4. destruct (sp s) as [| | |k| |]; simpl; (split; [|auto]);
    try (exfalso; apply N; apply H; eapply nth_error_In; eauto; fail).
  - destruct H as [H1 H2]. split; auto. intros j q Hq. rewrite (nth_upd _ _ _ _ Hi) in Hq.
    destruct (Nat.eqb_spec i j) as [<-|]; auto. inversion Hq; subst. split; [tauto|]. intros L. exfalso. apply N. eapply H2; eauto.
  - intros q Hq. apply in_upd in Hq. destruct Hq as [-> | Hq]; auto.
Qed.

Lemma pcok_mono l l' j p : pcok l j p -> res_of j l' = res_of j l -> (forall r, first_res l = Some r -> first_res l' = Some r) -> pcok l' j p.
Proof. intros H E1 E2. destruct p; simpl in *; rewrite ?E1; auto. destruct H; auto. Qed.

Lemma all_arrived s : sumz wt (chl s) = 0 -> forall i p, nth_error (chl s) i = Some p -> wt p = 0.
Proof. intros H i p Hi. pose proof (sumz_ge wt (chl s) wt_nn _ Hi). pose proof (wt_nn p). lia. Qed.
Lemma res_first l : forall i r, res_of i l = Some r -> first_res l <> None.
Proof.
  induction l as [|e l IH]; simpl; intros i r H; [discriminate|]. destruct e; eauto.
  destruct (first_res l); discriminate.
Qed.
Lemma outcome_right s : inv s -> sumz wt (chl s) = 0 -> right_outcome n (outcome s) (log s).
Proof.
  intros I Z0.
  assert (R : forall i, (i < n)%nat -> res_of i (log s) <> None).
  { intros i L. rewrite <- (i_len I) in L. apply nth_error_Some in L. destruct (nth_error (chl s) i) as [p|] eqn:Hi; [|tauto].
    pose proof (all_arrived s Z0 _ Hi) as W. pose proof (i_res I _ Hi) as P. destruct p; simpl in W; try discriminate; exact P. }
  unfold outcome, right_outcome. destruct (parent s) eqn:P.
  - left. split; auto. split; auto. apply (i_parent2 I). auto.
  - right. split; [intros X; apply (i_parent2 I) in X; congruence|]. split; auto.
    assert (WE : sumz we (chl s) = 0 /\ sumz wq (chl s) = 0).
    { split; apply sumz_zero; intros p Hp; apply In_nth_error in Hp; destruct Hp as [i Hi]; pose proof (all_arrived s Z0 _ Hi);
      destruct p; simpl in *; auto; discriminate. }
    assert (F : first_res (log s) <> None).
    { pose proof (i_n I) as N. specialize (R _ N). destruct (res_of 0 (log s)) eqn:Q; [|tauto]. eapply res_first; eauto. }
    destruct (first_res (log s)) as [r|] eqn:Er; [|tauto]. exists r. split; auto. split.
    + rewrite <- stored_delivers. destruct (i_result I Er) as [H|H]; auto. lia.
    + destruct (i_ask I) as [H|H]; auto; try lia. rewrite Er. discriminate.
Qed.

Ltac sums Hi :=
  repeat match goal with
  | |- context [sumz ?w (upd ?l ?i ?p')] => rewrite (sumz_upd w l i p' Hi)
  | H : context [sumz ?w (upd ?l ?i ?p')] |- _ => rewrite (sumz_upd w l i p' Hi) in H
  end.
Ltac nn s :=
  pose proof (sumz_nonneg wt (chl s) wt_nn); pose proof (sumz_nonneg kt (chl s) kt_nn); pose proof (sumz_nonneg k1 (chl s) k1_nn);
  pose proof (sumz_nonneg wq (chl s) wq_nn); pose proof (sumz_nonneg we (chl s) we_nn); pose proof (n_out_nn (log s)); pose proof (n_late_nn (log s));
  assert (0 <= wf (fp s) /\ 0 <= kf (fp s) /\ 0 <= k1f (fp s)) by (destruct (fp s); simpl; lia).
Ltac facts I :=
  pose proof (i_count I) as Cnt; pose proof (i_zero I) as Zer; pose proof (i_arr I) as Arr; pose proof (i_k1 I) as K1;
  pose proof (i_ask I) as Ask; pose proof (i_result I) as Rslt; pose proof (i_sst I) as Sst; pose proof (i_late I) as Lt; pose proof (i_late0 I) as Lt0.

Lemma child_inv s a i s' : inv s -> step n a s = Some s' ->
  match a with ARes j _ _ | AGoC j => j = i | _ => False end -> inv s'.
Proof.
  intros I E T. facts I. nn s.
  assert (exists p, nth_error (chl s) i = Some p) as [p Hi].
  { destruct a; try tauto; subst; simpl in E; destruct (nth_error (chl s) i); try discriminate; eauto. }
  pose proof (i_res I _ Hi) as P. pose proof (sumz_ge wt (chl s) wt_nn _ Hi) as GW. pose proof (sumz_ge kt (chl s) kt_nn _ Hi) as GK.
  pose proof (sumz_ge wq (chl s) wq_nn _ Hi) as GQ. pose proof (sumz_ge we (chl s) we_nn _ Hi) as GE.
  assert (ii : (i < n)%nat) by (rewrite <- (i_len I); apply nth_error_Some; congruence).
  assert (SPK : forall s' p', p <> CNot -> p' <> CNot -> sp s' = sp s -> fp s' = fp s -> (reg s' = true -> reg s = true) -> chl s' = upd (chl s) i p' -> spok s').
  { intros. eapply spok_child with (s := s); eauto. apply (i_sp I). }
  assert (SST : p <> CNot -> sst (sp s) = 0).
  { intros NC. eapply (@spok_child s (w_chl s i CDone) i p CDone); eauto; [apply (i_sp I)|discriminate]. }
  destruct a; try tauto; subst; simpl in E; rewrite Hi in E.
  - (* ARes *) destruct p; try discriminate. destruct (busy (fp s) t); [discriminate|]. inversion E; subst; clear E.
    destruct I; constructor; simpl; auto; rewrite ?upd_length; auto; sums Hi; simpl; rewrite ?Z.sub_0_r, ?Z.add_0_r; auto; try lia.
    + eapply SPK with (p' := CX t r); auto; discriminate.
    + intros j q Hj. rewrite (nth_upd _ _ _ _ Hi) in Hj. destruct (Nat.eqb_spec i j) as [<-|N]; auto. inversion Hj; subst. auto.
  - destruct p as [| |t r|t r|t|t|t|t|]; try discriminate; destruct (busy (fp s) t) eqn:B; try discriminate; simpl in E, GW, GK, GQ, GE; specialize (SST ltac:(discriminate)).
    + (* CX *) inversion E; subst; clear E.
      assert (FR : first_res (ERes i r :: log s) = if emplaced s then first_res (log s) else Some r).
      { simpl. rewrite (i_emp I). destruct (first_res (log s)); auto. }
      assert (FE : emplaced s = true -> first_res (log s) <> None) by (rewrite (i_emp I); destruct (first_res (log s)); congruence).
      assert (FE2 : emplaced s = false -> first_res (log s) = None) by (rewrite (i_emp I); destruct (first_res (log s)); congruence).
      assert (MONO : forall x, first_res (log s) = Some x -> first_res (ERes i r :: log s) = Some x) by (intros x X; simpl; rewrite X; auto).
      destruct I; constructor; cbn [count emplaced result inner parent reg fp sp chl log ev w_chl w_emplaced]; auto; rewrite ?upd_length, ?n_out_cons, ?n_late_cons; auto; cbn [is_out is_late]; sums Hi.
      * destruct (emplaced s); simpl; lia.
      * destruct (emplaced s); simpl; lia.
      * eapply SPK with (p' := if emplaced s then CArr t else CE t r); auto; destruct (emplaced s); discriminate.
      * intros j q Hj. rewrite (nth_upd _ _ _ _ Hi) in Hj. destruct (Nat.eqb_spec i j) as [<-|N].
        -- inversion Hj; subst. clear Hj. destruct (emplaced s) eqn:EM; cbn [pcok]; simpl res_of; rewrite Nat.eqb_refl; [discriminate|]. split; auto.
        -- eapply pcok_mono; eauto. simpl. destruct (Nat.eqb_spec i j); auto; tauto.
      * intros j L. simpl. destruct (Nat.eqb_spec i j); auto. lia.
      * rewrite FR. destruct (emplaced s) eqn:EM; auto.
      * rewrite FR. intros x X. destruct (emplaced s) eqn:EM; simpl; [|right; lia]. destruct (Rslt _ X); auto. right; lia.
      * intros x X. destruct (i_resv0 _ X) as (y & Y1 & Y2). exists y. split; auto.
      * intros X. right. rewrite FR. destruct (emplaced s) eqn:EM; auto. discriminate.
      * rewrite i_parent3. simpl. split; auto. intros [X|X]; auto. discriminate.
      * intros X. specialize (Arr ltac:(destruct (emplaced s); simpl in X; lia)). destruct (emplaced s); simpl; lia.
      * intros X. apply K1. destruct (emplaced s); simpl in X; lia.
      * intros _. destruct (emplaced s) eqn:EM; simpl; [|right; lia]. destruct (Ask (FE eq_refl)); auto. right; lia.
    + (* CE *) destruct P as [P1 P2]. inversion E; subst; clear E.
      destruct I; constructor; simpl; auto; rewrite ?upd_length; auto; sums Hi; simpl; rewrite ?Z.sub_0_r, ?Z.add_0_r; auto; try lia.
      * eapply SPK with (p' := CQ t); auto; discriminate.
      * intros j q Hj. rewrite (nth_upd _ _ _ _ Hi) in Hj. destruct (Nat.eqb_spec i j) as [<-|N]; auto. inversion Hj; subst. simpl. congruence.
      * intros x X. rewrite P2 in X. inversion X; subst. auto.
      * intros x X. inversion X; subst. eauto.
    + (* CQ *) inversion E; subst; clear E.
      destruct I; constructor; simpl; auto; rewrite ?upd_length, ?n_out_cons, ?n_late_cons; auto; sums Hi; simpl; rewrite ?Z.sub_0_r, ?Z.add_0_r, ?Z.add_0_l; auto; try lia.
      * eapply SPK with (p' := CArr t); auto; discriminate.
      * intros j q Hj. rewrite (nth_upd _ _ _ _ Hi) in Hj. destruct (Nat.eqb_spec i j) as [<-|N]; auto. inversion Hj; subst. exact P. apply (i_res0 _ _ Hj).
      * intros _. right. simpl in P. destruct (res_of i (log s)) eqn:Q; [|tauto]. eapply res_first; eauto.
      * rewrite i_parent3. split; auto. intros [X|X]; auto; discriminate.
    + (* CArr *) inversion E; subst; clear E.
      destruct I; constructor; simpl; auto; rewrite ?upd_length; auto; sums Hi.
      * destruct (Z.eqb_spec (count s) 1); simpl; lia.
      * destruct (Z.eqb_spec (count s) 1), (Z.eqb_spec (count s - 1) 0), (Z.eqb_spec (count s) 0); simpl; lia.
      * eapply SPK with (p' := if count s =? 1 then CK0 t else CDone); auto; destruct (count s =? 1); discriminate.
      * intros j q Hj. rewrite (nth_upd _ _ _ _ Hi) in Hj. destruct (Nat.eqb_spec i j) as [<-|N]; auto. inversion Hj; subst. destruct (count s =? 1); exact P.
      * intros x X. destruct (Rslt _ X); auto. right. destruct (count s =? 1); simpl; lia.
      * intros X. destruct (Z.eqb_spec (count s) 1); simpl in *; [lia|]. destruct (Z.eqb_spec (count s) 0); [lia|]. specialize (Arr ltac:(lia)). lia.
      * intros X. apply K1. destruct (count s =? 1); simpl in X; lia.
      * intros X. destruct (Ask X); auto. right. destruct (count s =? 1); simpl; lia.
    + (* CK0 *) destruct (must_wait (fp s) t) eqn:W; [discriminate|]. inversion E; subst; clear E.
      assert (NF0 : match fp s with F0 _ => False | _ => True end).
      { unfold must_wait in W. destruct (fp s); simpl in *; auto. rewrite B in W. discriminate. }
      destruct I; constructor; simpl; auto; rewrite ?upd_length; auto; sums Hi; simpl; rewrite ?Z.sub_0_r, ?Z.add_0_r; auto; try lia; try discriminate.
      * eapply SPK with (p' := CK1 t); auto; discriminate.
      * intros j q Hj. rewrite (nth_upd _ _ _ _ Hi) in Hj. destruct (Nat.eqb_spec i j) as [<-|N]; auto. inversion Hj; subst. exact P.
    + (* CK1 *) inversion E; subst; clear E.
      assert (Z0 : sumz wt (chl s) = 0) by (apply Arr; lia).
      pose proof (outcome_right I Z0) as OR.
      assert (K1' : reg s = false /\ match fp s with F0 _ => False | _ => True end).
      { apply K1. pose proof (sumz_ge k1 (chl s) k1_nn _ Hi) as G. simpl in G. lia. }
      destruct I; constructor; simpl; auto; rewrite ?upd_length, ?n_out_cons, ?n_late_cons; auto; sums Hi; simpl; rewrite ?Z.sub_0_r, ?Z.add_0_r, ?Z.add_0_l; auto; try lia.
      * eapply SPK with (p' := CDone); auto; discriminate.
      * intros j q Hj. rewrite (nth_upd _ _ _ _ Hi) in Hj. destruct (Nat.eqb_spec i j) as [<-|N]; auto; [inversion Hj; subst; exact P|]. apply (i_res0 _ _ Hj).
      * intros X. destruct (i_inner0 X); auto.
      * rewrite i_parent3. split; auto. intros [X|X]; auto; discriminate.
      * intros X. destruct (Ask X); auto.
Qed.

Lemma spok_fp s s' : spok s -> fp s <> FNot -> sp s' = sp s -> chl s' = chl s -> (reg s' = true -> reg s = true) -> spok s'.
Proof.
  unfold spok. intros H N -> -> R. destruct (sp s); auto.
  - destruct H as (_ & H & _). congruence.
  - destruct H as (H1 & H2). split; auto. destruct (reg s'); auto. rewrite <- H2. symmetry; auto.
Qed.
Lemma gof_inv s s' : inv s -> step n AGoF s = Some s' -> inv s'.
Proof.
  intros I E. simpl in E. facts I. nn s.
  assert (NF : fp s <> FNot) by (intros X; rewrite X in E; discriminate).
  assert (PR : parent s = true) by (apply (i_parent I); auto). assert (PL : In EReqParent (log s)) by (apply (i_parent2 I); auto).
  assert (RG : reg s = false) by (destruct (reg s) eqn:R; auto; exfalso; apply NF; apply (i_reg I); auto).
  pose proof (i_sp I) as SP. pose proof (i_sp I) as SP2. unfold spok in SP2.
  assert (SS : sst (sp s) = 0 \/ (sst (sp s) = 1 /\ 0 < sumz wt (chl s))).
  { destruct (sp s) eqn:S0; simpl; auto. right. split; auto. pose proof (i_n I). pose proof (i_len I) as L. destruct (chl s) as [|p l] eqn:C; [simpl in L; lia|].
    rewrite (SP2 p (or_introl eq_refl)). simpl. pose proof (sumz_nonneg wt l wt_nn). lia. }
  destruct (fp s) as [|t|t|t|t|t|] eqn:F; try discriminate; simpl in *.
  - (* F0 *)
    assert (NK : sumz k1 (chl s) + n_out (log s) - sst (sp s) <= 0).
    { destruct (Z_lt_dec 0 (sumz k1 (chl s) + n_out (log s) - sst (sp s))) as [L|L]; [|lia]. exfalso. destruct K1 as [_ K1]; [lia|]. exact K1. }
    destruct (Z.eqb_spec (count s) 0) as [C|C]; inversion E; subst; clear E; destruct I; constructor; simpl; auto;
      rewrite ?n_out_cons, ?n_late_cons; simpl; auto 2; try congruence; try lia.
    all: try (eapply spok_fp; eauto; simpl; congruence).
    + destruct (Z.eqb_spec (count s + 1) 0); lia.
    + rewrite i_parent3. split; auto; intros [X|X]; auto; discriminate.
    + intros X. destruct (Ask X); auto.
    + destruct (Z.eqb_spec (count s + 1) 0); lia.
  - (* FQ *) inversion E; subst; clear E. destruct I; constructor; simpl; auto; rewrite ?n_out_cons, ?n_late_cons; simpl; auto 2; try congruence; try lia; auto.
    + eapply spok_fp; eauto; simpl; congruence.
    + rewrite i_parent3. split; auto; intros [X|X]; auto; discriminate.
  - (* FArr *) inversion E; subst; clear E. destruct I; constructor; simpl; auto; try congruence.
    + destruct (Z.eqb_spec (count s) 1); simpl; lia.
    + destruct (Z.eqb_spec (count s) 1), (Z.eqb_spec (count s - 1) 0), (Z.eqb_spec (count s) 0); simpl; lia.
    + destruct (count s =? 1); auto.
    + eapply spok_fp; eauto; simpl; congruence.
    + destruct (Z.eqb_spec (count s) 1); simpl; intros X; [lia|]. apply Arr; lia.
    + intros X. destruct K1 as [A B]; [destruct (count s =? 1); simpl in X; lia|]. split; auto. destruct (count s =? 1); auto.
  - (* FK0 *) inversion E; subst; clear E. destruct I; constructor; simpl; auto; try congruence.
    eapply spok_fp; eauto; simpl; congruence.
  - (* FK1 *) inversion E; subst; clear E.
    assert (S0 : sst (sp s) = 0). { destruct SS as [|[A B]]; auto. exfalso. assert (sumz wt (chl s) = 0); [|lia]. destruct (Z.eqb_spec (count s) 0); [lia|]. apply Arr; lia. }
    assert (Z0 : sumz wt (chl s) = 0) by (apply Arr; lia).
    pose proof (outcome_right I Z0) as OR.
    destruct I; constructor; simpl; auto; rewrite ?n_out_cons, ?n_late_cons; simpl; auto 2; try congruence; try lia; auto.
    + eapply spok_fp; eauto; simpl; congruence.
    + rewrite i_parent3. split; auto; intros [X|X]; auto; discriminate.
    + intros X. destruct (Ask X); auto.
Qed.

Lemma other_inv s a s' : inv s -> step n a s = Some s' ->
  match a with AStart _ | AGoS | AParent | ATake _ => True | _ => False end -> inv s'.
Proof.
  intros I E T. facts I. nn s. pose proof (i_sp I) as SP.
  assert (ALLN : (forall p, In p (chl s) -> p = CNot) -> sumz kt (chl s) = 0 /\ sumz k1 (chl s) = 0 /\ 0 < sumz wt (chl s) /\ first_res (log s) = None /\ forall i, res_of i (log s) = None).
  { intros H7. split; [|split; [|split]].
    - apply sumz_zero; intros p Hp; rewrite (H7 p Hp); auto.
    - apply sumz_zero; intros p Hp; rewrite (H7 p Hp); auto.
    - pose proof (i_len I) as L. pose proof (i_n I). destruct (chl s) as [|p l] eqn:C; [simpl in L; lia|]. simpl.
      pose proof (sumz_nonneg wt l wt_nn). rewrite (H7 p) by (left; auto). simpl. lia.
    - assert (A : forall i, res_of i (log s) = None).
      { intros i. destruct (le_lt_dec n i) as [L|L]; [apply (i_none I); auto|]. rewrite <- (i_len I) in L. apply nth_error_Some in L.
        destruct (nth_error (chl s) i) as [p|] eqn:Hi; [|tauto]. pose proof (i_res I _ Hi) as P. rewrite (H7 p (nth_error_In _ _ Hi)) in P. exact P. }
      split; auto. assert (Q : forall l, (forall i, res_of i l = None) -> first_res l = None).
      { clear. induction l as [|e l IH]; simpl; intros H; auto. destruct e; auto. specialize (H i). rewrite Nat.eqb_refl in H. discriminate. }
      auto. }
  destruct a; try tauto; simpl in E.
  - (* AStart *) destruct (sp s) eqn:S0; try discriminate. unfold spok in SP. rewrite S0 in SP. destruct SP as (SP1 & SP2 & SP3).
    destruct (ALLN SP1) as (W1 & W2 & W3 & W4 & W5). rewrite SP2 in *. simpl in *.
    assert (NO : n_out (log s) = 0) by (destruct (Z.eqb_spec (count s) 0); lia).
    destruct (parent s) eqn:PQ; inversion E; subst; clear E; destruct I; constructor; simpl; auto; rewrite ?SP2, ?S0 in *; simpl in *; auto; try lia; try congruence.
    + unfold spok; simpl. auto.
  - (* AGoS *) destruct (sp s) as [| | |k| |] eqn:S0; try discriminate.
    + unfold spok in SP. rewrite S0 in SP. destruct SP as (SP1 & SP2). destruct (fp s) eqn:F; try discriminate. inversion E; subst; clear E.
      destruct I; constructor; simpl; rewrite ?F, ?S0 in *; auto; unfold spok; simpl; auto.
    + unfold spok in SP. rewrite S0 in SP. destruct (ALLN SP) as (W1 & W2 & W3 & W4 & W5). simpl in *.
      assert (C0 : (count s =? 0) = false). { destruct (Z.eqb_spec (count s) 0); auto. exfalso. lia. }
      rewrite C0 in Zer. 
      assert (NO : n_out (log s) = 0 \/ n_out (log s) + kf (fp s) = 1) by lia.
      destruct (inner s) eqn:IN; inversion E; subst; clear E; destruct I; constructor; simpl; auto; rewrite ?n_out_cons, ?n_late_cons, ?C0; simpl; rewrite ?S0 in *; simpl in *; auto; try lia; try congruence;
        try (unfold spok; simpl; auto; fail).
      * intros X. destruct (i_inner0 X); auto.
      * rewrite i_parent3. split; auto; intros [X|X]; auto; discriminate.
      * intros X. apply K1. lia.
      * split; auto. left. split; auto. split; auto. destruct (i_inner0 IN); auto. congruence.
      * unfold spok; simpl. split; [lia|]. intros i p Hi. split; [intros; lia|]. intros. apply SP. eapply nth_error_In; eauto.
    + unfold spok in SP. rewrite S0 in SP. destruct SP as (SP1 & SP2). destruct (Nat.ltb_spec k n) as [L|L]; inversion E; subst; clear E.
      * assert (Hk : nth_error (chl s) k = Some CNot).
        { pose proof (i_len I) as LL. destruct (nth_error (chl s) k) as [p|] eqn:Hk; [|apply nth_error_None in Hk; lia].
          f_equal. apply (SP2 _ _ Hk). auto. }
        pose proof (i_res I _ Hk) as P. simpl in P.
        destruct I; constructor; simpl; auto; rewrite ?upd_length; auto; sums Hk; simpl; rewrite ?Z.sub_0_r, ?Z.add_0_r; rewrite ?S0 in *; simpl in *; auto; try lia; rewrite ?Z.sub_0_r in *; auto.
        -- unfold spok. simpl. split; [lia|]. intros i p Hi. rewrite (nth_upd _ _ _ _ Hk) in Hi. destruct (Nat.eqb_spec k i) as [<-|N].
           ++ inversion Hi; subst. split; [discriminate|lia].
           ++ rewrite (SP2 _ _ Hi). lia.
        -- intros i p Hi. rewrite (nth_upd _ _ _ _ Hk) in Hi. destruct (Nat.eqb_spec k i) as [<-|N]; auto. inversion Hi; subst. auto.
      * destruct I; constructor; simpl; auto; rewrite ?S0 in *; simpl in *; auto. unfold spok. simpl. intros p Hp. apply In_nth_error in Hp. destruct Hp as [i Hi].
        rewrite (SP2 _ _ Hi). assert (i < length (chl s))%nat by (apply nth_error_Some; congruence). lia.
  - (* AParent *) destruct (parent s) eqn:PQ; inversion E; subst; clear E.
    destruct I; constructor; simpl; auto; rewrite ?n_out_cons, ?n_late_cons; simpl; auto; try lia; try tauto.
  - (* ATake *) destruct (parent s && reg s) eqn:PR; [|discriminate]. apply andb_true_iff in PR. destruct PR as [P1 P2].
    destruct (fp s) eqn:F; try discriminate. inversion E; subst; clear E. simpl in *.
    destruct I; constructor; simpl; auto; rewrite ?F; simpl; auto; try congruence.
    + unfold spok in *. simpl. destruct (sp s); auto; [|destruct SP; auto].
      destruct SP as (_ & _ & X). congruence.
    + intros X. destruct (K1 X) as [X1 _]. congruence.
Qed.

Theorem reachable_inv s : reachable n s -> inv s.
Proof.
  induction 1; [apply inv_init; auto|].
  destruct a; try (eapply other_inv; eauto; simpl; auto; fail).
  - eapply gof_inv; eauto.
  - eapply child_inv; eauto. simpl. auto.
  - eapply child_inv; eauto. simpl. auto.
Qed.
End Inv.

(** ** Theorems *)
Lemma cnt_late0 l : (~ In ELate l) <-> n_late l = 0.
Proof.
  unfold n_late. split.
  - intros H. assert (X : cnt is_late l = 0%nat); [|rewrite X; auto]. apply cnt_zero. intros [] Hx; auto. tauto.
  - intros H X. assert (cnt is_late l = 0%nat) by lia. rewrite cnt_zero in H0. apply H0 in X. discriminate.
Qed.
Lemma sstopped n s : inv n s -> sp s = SStopped -> (forall p, In p (chl s) -> p = CNot) /\ 0 < sumz wt (chl s) /\ sumz kt (chl s) = 0.
Proof.
  intros I S0. pose proof (i_sp I) as SP. unfold spok in SP. rewrite S0 in SP. split; auto. split.
  - pose proof (i_len I) as L. pose proof (i_n I). destruct (chl s) as [|p l] eqn:C; [simpl in L; lia|]. simpl.
    pose proof (sumz_nonneg wt l wt_nn). rewrite (SP p) by (left; auto). simpl. lia.
  - apply sumz_zero; intros p Hp; rewrite (SP p Hp); auto.
Qed.

(** The exact number of completions: one, plus one if the stop callback came late. *)
Theorem C35_number_of_completions : forall n s, reachable n s -> finished s ->
  n_out (log s) = 1 + n_late (log s) /\ 0 <= n_late (log s) <= 1.
Proof.
  intros n s R [F1 F2]. pose proof (reachable_inv R) as I. pose proof (i_zero I) as Z0.
  pose proof (i_count I) as C. pose proof (i_late I). pose proof (n_late_nn (log s)).
  destruct F1 as [F1|F1].
  - assert (W : sumz wt (chl s) = 0) by (apply sumz_zero; intros p Hp; rewrite (F1 p Hp); auto).
    assert (K : sumz kt (chl s) = 0) by (apply sumz_zero; intros p Hp; rewrite (F1 p Hp); auto).
    assert (SS : sst (sp s) = 0).
    { destruct (sp s) eqn:S0; auto. destruct (sstopped I S0) as (_ & X & _). lia. }
    destruct (fp s); simpl in *; try discriminate; rewrite W, K in *; destruct (Z.eqb_spec (count s) 0); lia.
  - destruct (sstopped I F1) as (_ & X & Y). rewrite F1 in Z0.
    destruct (fp s); simpl in *; try discriminate; rewrite Y in *; destruct (Z.eqb_spec (count s) 0); lia.
Qed.

(** C35, the part about "exactly once" that holds: as long as the stop callback does not touch a count
    that has already dropped to zero. *)
Theorem C35_completes_once_partial : forall n s, reachable n s -> ~ In ELate (log s) ->
  n_out (log s) <= 1 /\ (finished s -> n_out (log s) = 1).
Proof.
  intros n s R NL. split; [|intros F; destruct (C35_number_of_completions R F) as [A _]; apply cnt_late0 in NL; lia].
  pose proof (reachable_inv R) as I. apply cnt_late0 in NL.
  pose proof (i_zero I) as Z0. pose proof (sumz_nonneg kt (chl s) kt_nn). assert (0 <= kf (fp s) /\ 0 <= wf (fp s)) by (destruct (fp s); simpl; lia).
  rewrite NL in Z0. destruct (sp s) eqn:S0; simpl in Z0; try (destruct (count s =? 0); lia).
  destruct (sstopped I S0) as (_ & X & Y). pose proof (i_count I). destruct (Z.eqb_spec (count s) 0); lia.
Qed.

(** Every completion is the right one: the first child's, after all children finished and the others
    were asked to stop; or set_stopped because the parent requested stop. *)
Theorem C35_outcome : forall n s, reachable n s ->
  forall l1 o l2, log s = l1 ++ EOut o :: l2 -> right_outcome n o l2.
Proof.
  intros n s R l1 o l2 E. pose proof (i_out (reachable_inv R)) as O. rewrite E in O. clear - O.
  induction l1 as [|e l1 IH]; simpl in O; [tauto|]. destruct e; try tauto; apply IH; tauto.
Qed.

(** After the completion nothing in the operation state is touched any more, except: start() returning,
    and, when no child was started, the stop callback finishing (the destructor of the operation state
    waits for that). *)
Theorem C35_no_access_after_completion : forall n s a s', reachable n s -> ~ In ELate (log s) ->
  0 < n_out (log s) -> step n a s = Some s' ->
  a = AParent \/ (a = AGoS /\ sp s = SRun n) \/ (sp s = SStopped /\ (a = AGoF \/ exists t, a = ATake t)).
Proof.
  intros n s a s' R NL O E. pose proof (reachable_inv R) as I. apply cnt_late0 in NL.
  pose proof (i_zero I) as Z0. pose proof (i_count I) as C. pose proof (sumz_nonneg kt (chl s) kt_nn) as N1.
  assert (N2 : 0 <= kf (fp s) /\ 0 <= wf (fp s) /\ 0 <= k1f (fp s)) by (destruct (fp s); simpl; lia).
  pose proof (sumz_nonneg wt (chl s) wt_nn) as N3. pose proof (sumz_nonneg k1 (chl s) k1_nn) as N4.
  assert (DEC : sp s = SStopped \/ sst (sp s) = 0) by (destruct (sp s); simpl; auto).
  destruct DEC as [S0|S0].
  { destruct (sstopped I S0) as (SP & X & Y). destruct a; simpl in E; rewrite ?S0 in E; try discriminate; eauto 6.
    - destruct (nth_error (chl s) i) as [p|] eqn:Hi; [|discriminate]. rewrite (SP p (nth_error_In _ _ Hi)) in E. discriminate.
    - destruct (nth_error (chl s) i) as [p|] eqn:Hi; [|discriminate]. rewrite (SP p (nth_error_In _ _ Hi)) in E. discriminate. }
  destruct (Z.eqb_spec (count s) 0) as [C0|C0]; [|lia].
  destruct (i_k1 I) as [K1 K2]; [lia|].
  assert (D : forall i p, nth_error (chl s) i = Some p -> p = CDone).
  { intros i p Hi. pose proof (sumz_ge kt (chl s) kt_nn _ Hi). pose proof (sumz_ge wt (chl s) wt_nn _ Hi).
    destruct p; simpl in *; auto; lia. }
  pose proof (i_n I) as Hn. pose proof (i_len I) as Hl.
  assert (D0 : (forall p, In p (chl s) -> p = CNot) -> False).
  { intros SP. destruct (nth_error (chl s) 0) as [p|] eqn:Hp; [|apply nth_error_None in Hp; lia].
    rewrite (SP p (nth_error_In _ _ Hp)) in Hp. apply D in Hp. discriminate. }
  pose proof (i_sp I) as SP. unfold spok in SP.
  destruct a; auto; simpl in E.
  - exfalso. destruct (sp s) eqn:S1; try discriminate. apply D0. apply SP.
  - right. left. split; auto. destruct (sp s) as [| | |k| |] eqn:S1; try discriminate.
    + exfalso. apply D0. apply SP.
    + exfalso. apply D0. apply SP.
    + destruct SP as [SP1 SP2]. f_equal. destruct (le_lt_dec n k); [lia|]. exfalso.
      destruct (nth_error (chl s) k) as [p|] eqn:Hp; [|apply nth_error_None in Hp; lia].
      pose proof (D _ _ Hp). subst. destruct (SP2 _ _ Hp) as [_ X]. specialize (X (le_n _)). discriminate.
  - rewrite K1, andb_false_r in E. discriminate.
  - destruct (fp s); simpl in *; try discriminate; try lia; tauto.
  - destruct (nth_error (chl s) i) as [p|] eqn:Hi; [|discriminate]. rewrite (D _ _ Hi) in E. discriminate.
  - destruct (nth_error (chl s) i) as [p|] eqn:Hi; [|discriminate]. rewrite (D _ _ Hi) in E. discriminate.
Qed.

(** No deadlock: after start() something can always go on until everything is finished. *)
Theorem C35_no_deadlock : forall n s, reachable n s -> sp s <> SNot -> finished s \/
  exists a s', a <> AParent /\ step n a s = Some s'.
Proof.
  intros n s R NS. pose proof (reachable_inv R) as I.
  destruct (cb_tid (fp s)) as [u|] eqn:CB.
  { right. exists AGoF. simpl. destruct (fp s); try discriminate; eexists; split; try discriminate; reflexivity. }
  assert (NB : forall t, busy (fp s) t = false) by (intros t; destruct (fp s); simpl in *; auto; discriminate).
  assert (NW : forall t, must_wait (fp s) t = false) by (intros t; unfold must_wait; rewrite CB; auto).
  assert (SW : forall s, reachable n s -> sp s = SWait -> fp s <> FNot).
  { clear. induction 1 as [|s a s' R IH E]; [discriminate|]. intros S0 F.
    destruct a; simpl in E;
      repeat match type of E with
      | context [match ?x with _ => _ end] => let Q := fresh "Q" in destruct x eqn:Q; try discriminate
      end; inversion E; subst; simpl in *; try discriminate; try congruence; try (apply IH; auto; fail); try (apply IH in S0; congruence). }
  destruct (sp s) as [| | |k| |] eqn:S0; [tauto| | | | |].
  - right. exists AGoS. simpl. rewrite S0.
    destruct (fp s) eqn:F; simpl in CB; try discriminate; eauto.
    + exfalso. eapply SW; eauto.
    + eexists. split; [discriminate|reflexivity].
  - right. exists AGoS. simpl. rewrite S0. destruct (inner s); eexists; (split; [discriminate|reflexivity]).
  - right. exists AGoS. simpl. rewrite S0. destruct (k <? n)%nat; eexists; (split; [discriminate|reflexivity]).
  - pose proof (i_sp I) as SP. unfold spok in SP. rewrite S0 in SP.
    destruct (Forall_Exists_dec (fun p => p = CDone)) with (l := chl s) as [A|A].
    { intros p. destruct p; ((left; reflexivity) || (right; discriminate)). }
    { left. split; auto. left. apply Forall_forall. auto. }
    right. apply Exists_exists in A. destruct A as (p & Hp & ND). pose proof (SP p Hp) as NN. apply In_nth_error in Hp. destruct Hp as [i Hi].
    destruct p as [| |t r|t r|t|t|t|t|]; try tauto.
    + exists (ARes i 0%nat (RVal 0%nat)). simpl. rewrite Hi, NB. simpl. eexists; split; [discriminate|reflexivity].
    + exists (AGoC i). simpl. rewrite Hi, NB. eexists; split; [discriminate|reflexivity].
    + exists (AGoC i). simpl. rewrite Hi, NB. eexists; split; [discriminate|reflexivity].
    + exists (AGoC i). simpl. rewrite Hi, NB. eexists; split; [discriminate|reflexivity].
    + exists (AGoC i). simpl. rewrite Hi, NB. eexists; split; [discriminate|reflexivity].
    + exists (AGoC i). simpl. rewrite Hi, NB, NW. simpl. eexists; split; [discriminate|reflexivity].
    + exists (AGoC i). simpl. rewrite Hi, NB. eexists; split; [discriminate|reflexivity].
  - left. split; auto.
Qed.

(** ** Concrete executions *)
Section Run.
Variable n : nat.
Fixpoint runs (l : list action) (s : state) : option state :=
  match l with [] => Some s | a :: l => match step n a s with Some s' => runs l s' | None => None end end.
Lemma runs_reachable l : forall s s', reachable n s -> runs l s = Some s' -> reachable n s'.
Proof.
  induction l as [|a l IH]; simpl; intros s s' R E; [inversion E; subst; auto|].
  destruct (step n a s) eqn:Q; [|discriminate]. eapply IH; [|exact E]. eapply r_step; eauto.
Qed.
End Run.
Local Open Scope nat_scope.
Definition view (s : state) := (log s, chl s, fp s, count s).
(** the second of two children wins with 20 and asks the first to stop, which does *)
Example ex_first : option_map view (runs 2
   [AStart 0; AGoS; AGoS; AGoS; AGoS; ARes 1 1 (RVal 20); AGoC 1; AGoC 1; AGoC 1; ARes 0 1 RStop; AGoC 0; AGoC 0; AGoC 1; AGoC 1; AGoC 1] (init 2))
  = Some ([EOut (Some (RVal 20)); ERes 0 RStop; EStopChildren; ERes 1 (RVal 20)], [CDone; CDone], FNot, 0%Z).
Proof. vm_compute. reflexivity. Qed.
(** stop already requested before start: set_stopped, no child is started *)
Example ex_stopped_before_start : option_map view (runs 2 [AParent; AStart 0; AGoF; AGoF; AGoF; AGoS; AGoS] (init 2))
  = Some ([EOut (Some RStop); EStopChildren; EReqParent], [CNot; CNot], FDone, 2%Z).
Proof. vm_compute. reflexivity. Qed.
(** the same double completion as in when_all *)
Definition double : option state := runs 2
   [AStart 0; AGoS; AGoS; AGoS; AGoS; ARes 1 1 (RVal 20); AGoC 1; AGoC 1; AGoC 1; ARes 0 1 RStop; AGoC 0; AGoC 0; AGoC 1; (* count is 0 *)
    AParent; ATake 2; AGoF; AGoF; AGoF; AGoF; AGoF; AGoC 1; AGoC 1] (init 2).
Example double_result : option_map view double
  = Some ([EOut (Some RStop); EOut (Some RStop); EStopChildren; ELate; EReqParent; ERes 0 RStop; EStopChildren; ERes 1 (RVal 20)], [CDone; CDone], FDone, 0%Z).
Proof. vm_compute. reflexivity. Qed.
Opaque runs.
Lemma view_some o v : option_map view o = Some v -> exists s, o = Some s /\ view s = v.
Proof. destruct o as [s|]; simpl; intros H; inversion H; eauto. Qed.
(** "exactly once" is false of the code. *)
Theorem C35_completes_once_refuted : ~ forall n s, reachable n s -> (n_out (log s) <= 1)%Z.
Proof.
  intros H. destruct (view_some _ double_result) as (s & E & D).
  assert (R : reachable 2 s) by (eapply runs_reachable; [apply r_init; auto|unfold double in E; exact E]).
  specialize (H _ _ R). apply (f_equal (fun x => fst (fst (fst x)))) in D. cbn [view fst] in D. rewrite D in H.
  unfold n_out in H. simpl in H. lia.
Qed.

Print Assumptions C35_number_of_completions.
Print Assumptions C35_completes_once_partial.
Print Assumptions C35_outcome.
Print Assumptions C35_no_access_after_completion.
Print Assumptions C35_no_deadlock.
Print Assumptions C35_completes_once_refuted.
