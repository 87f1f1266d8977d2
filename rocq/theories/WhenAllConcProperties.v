(** * WhenAllConcProperties: C34 (when_all under real concurrency). *)
From Coq Require Import List Arith Bool ZArith Lia.
From Verif Require Import Conc WhenAllConcModel.
Import ListNotations.
Set Implicit Arguments.
Local Open Scope Z_scope.
Arguments Z.add : simpl never.
Arguments Z.sub : simpl never.
Arguments Z.of_nat : simpl never.

(** ** Specification vocabulary, over the log (newest first) *)
Definition is_out (e : event) : bool := match e with EOut _ => true | _ => false end.
Definition is_late (e : event) : bool := match e with ELate => true | _ => false end.
(** how often the receiver was completed *)
Definition n_out (l : list event) : Z := Z.of_nat (cnt is_out l).
(** how often the stop callback incremented a count that had already reached zero *)
Definition n_late (l : list event) : Z := Z.of_nat (cnt is_late l).
(** the completion reported by child i *)
Fixpoint res_of (i : nat) (l : list event) : option res :=
  match l with
  | [] => None
  | ERes j r :: l => if (j =? i)%nat then Some r else res_of i l
  | _ :: l => res_of i l
  end.
Definition is_error (r : res) (e : nat) : Prop := r = RErr e \/ r = RThrow e.
(** the completion o is right, given the history l before it: it came after every child's, and
    - it is a value completion iff every child sent a value, and then it carries these values in order;
    - it is an error iff some child failed, and then it is one of the children's errors;
    - otherwise it is set_stopped, and some child was stopped or the parent had requested stop. *)
Definition right_outcome (n : nat) (o : out) (l : list event) : Prop :=
  (forall i, (i < n)%nat -> res_of i l <> None) /\
  match o with
  | DVal vs => length vs = n /\ forall i, (i < n)%nat -> exists v, res_of i l = Some (RVal v) /\ nth_error vs i = Some (Some v)
  | DErr e => exists i e' r, (i < n)%nat /\ res_of i l = Some r /\ is_error r e' /\ e = Some e'
  | DStop => (forall i r e, (i < n)%nat -> res_of i l = Some r -> ~ is_error r e) /\
             ((exists i, (i < n)%nat /\ res_of i l = Some RStop) \/ In EReqParent l)
  end.
Fixpoint outs_right (n : nat) (l : list event) : Prop :=
  match l with
  | [] => True
  | EOut o :: l => right_outcome n o l /\ outs_right n l
  | _ :: l => outs_right n l
  end.
(** everything that was going to happen has happened *)
Definition finished (s : state) : Prop := (forall p, In p (chl s) -> p = CDone) /\ cb_tid (fp s) = None.

(** ** The invariant *)
(** 1 for each arrival still owed *)
Definition wt (p : cpc) : Z := match p with CK0 _ | CK1 _ | CDone => 0 | _ => 1 end.
Definition wf (f : fpc) : Z := match f with F1 _ | FQ _ | FArr _ => 1 | _ => 0 end.
(** 1 for each agent that saw the count drop to zero and has not completed the receiver yet *)
Definition kt (p : cpc) : Z := match p with CK0 _ | CK1 _ => 1 | _ => 0 end.
Definition kf (f : fpc) : Z := match f with FK0 _ | FK1 _ => 1 | _ => 0 end.
Definition k1 (p : cpc) : Z := match p with CK1 _ => 1 | _ => 0 end.
Definition k1f (f : fpc) : Z := match f with FK1 _ => 1 | _ => 0 end.
Definition wq (p : cpc) : Z := match p with CQ _ _ => 1 | _ => 0 end.
Definition wqf (f : fpc) : Z := match f with FQ _ => 1 | _ => 0 end.
Definition we (p : cpc) : Z := match p with CQ _ (Some _) | CE _ _ => 1 | _ => 0 end.

Section Inv.
Variable n : nat.
Variables uses ss : bool.

Definition pcok (l : list event) (st : st) (vs : nat -> option nat) (i : nat) (p : cpc) : Prop :=
  match p with
  | CNot | CRun => res_of i l = None
  | CX _ e => exists r, res_of i l = Some r /\ is_error r e
  | CS _ => res_of i l = Some RStop
  | CQ _ (Some e) | CE _ e => st = Error /\ exists r, res_of i l = Some r /\ is_error r e
  | CQ _ None => st <> Started /\ res_of i l = Some RStop
  | CArr _ | CK0 _ | CK1 _ | CDone => exists r, res_of i l = Some r /\
      match r with RVal v => vs i = Some v | RThrow _ | RErr _ => st = Error | RStop => st <> Started end
  end.
Definition spok (s : state) : Prop :=
  match sp s with
  | SNot => (forall p, In p (chl s) -> p = CNot) /\ fp s = FNot /\ reg s = false
  | SWait => (forall p, In p (chl s) -> p = CNot) /\ reg s = false
  | SRun k => (k <= n)%nat /\ forall i p, nth_error (chl s) i = Some p -> (p = CNot <-> (k <= i)%nat)
  | SDone => forall p, In p (chl s) -> p <> CNot
  end.

Record inv (s : state) : Prop := {
  i_n : (0 < n)%nat;
  i_ss : ss = true -> uses = true;
  i_len : length (chl s) = n;
  i_count : count s = sumz wt (chl s) + wf (fp s);
  i_zero : sumz kt (chl s) + kf (fp s) + n_out (log s) = n_late (log s) + (if count s =? 0 then 1 else 0);
  i_late : n_late (log s) <= 1;
  i_late0 : match fp s with FNot | F0 _ => n_late (log s) = 0 | _ => True end;
  i_uses : uses = false -> fp s = FNot /\ reg s = false;
  i_reg : reg s = true -> fp s = FNot;
  i_sp : spok s;
  i_res : forall i p, nth_error (chl s) i = Some p -> pcok (log s) (sta s) (vals s) i p;
  i_none : forall i, (n <= i)%nat -> res_of i (log s) = None;
  i_allow : forall i r, res_of i (log s) = Some r -> allowed uses ss r = true;
  i_err : sta s = Error -> errs s <> None \/ 0 < sumz we (chl s);
  i_errv : forall e, errs s = Some e -> exists i r, res_of i (log s) = Some r /\ is_error r e;
  i_stop : sta s = Stopped -> (exists i, res_of i (log s) = Some RStop) \/ In EReqParent (log s);
  i_parent : (fp s <> FNot \/ parent s = true) -> In EReqParent (log s) /\ parent s = true;
  i_started : forall i r e, sta s <> Error -> res_of i (log s) = Some r -> is_error r e -> exists t, nth_error (chl s) i = Some (CX t e);
  i_arr : 0 < sumz kt (chl s) + kf (fp s) + n_out (log s) -> sumz wt (chl s) = 0;
  i_k1 : 0 < sumz k1 (chl s) + k1f (fp s) + n_out (log s) ->
         reg s = false /\ match fp s with F0 _ => False | _ => True end;
  i_ask : sta s <> Started -> In EStopChildren (log s) \/ 0 < sumz wq (chl s) + wqf (fp s);
  i_out : outs_right n (log s) }.

Lemma wt_nn p : 0 <= wt p. Proof. destruct p; simpl; lia. Qed.
Lemma kt_nn p : 0 <= kt p. Proof. destruct p; simpl; lia. Qed.
Lemma k1_nn p : 0 <= k1 p. Proof. destruct p; simpl; lia. Qed.
Lemma wq_nn p : 0 <= wq p. Proof. destruct p; simpl; lia. Qed.
Lemma we_nn p : 0 <= we p. Proof. destruct p as [| | | |t [e|]| | | | |]; simpl; lia. Qed.
Lemma n_out_nn l : 0 <= n_out l. Proof. unfold n_out. lia. Qed.
Lemma n_late_nn l : 0 <= n_late l. Proof. unfold n_late. lia. Qed.
Lemma n_out_cons e l : n_out (e :: l) = (if is_out e then 1 else 0) + n_out l.
Proof. unfold n_out. simpl. destruct (is_out e); lia. Qed.
Lemma n_late_cons e l : n_late (e :: l) = (if is_late e then 1 else 0) + n_late l.
Proof. unfold n_late. simpl. destruct (is_late e); lia. Qed.
Hint Resolve wt_nn kt_nn k1_nn wq_nn we_nn n_out_nn n_late_nn : core.

Lemma inv_init : (0 < n)%nat -> (ss = true -> uses = true) -> inv (init n).
Proof.
  intros N SS. assert (R : forall i p, nth_error (repeat CNot n) i = Some p -> p = CNot) by (intros i p; apply nth_repeat_some).
  constructor; simpl; auto; try discriminate; try (intros; discriminate).
  - apply repeat_length.
  - assert (Q : forall k, sumz wt (repeat CNot k) = Z.of_nat k); [|rewrite Q; lia].
    induction k; cbn [repeat sumz wt]; [auto|]. rewrite IHk. lia.
  - rewrite sumz_repeat by auto. unfold n_out, n_late. simpl. destruct n; [lia|auto].
  - split; auto. intros p H. apply repeat_spec in H. auto.
  - intros i p H. apply R in H. subst. simpl. auto.
  - intros [X|X]; congruence.
  - rewrite sumz_repeat by auto. unfold n_out. simpl. lia.
Qed.


(** changing the state of child i *)
Lemma res_other i j r l : i <> j -> res_of j (ERes i r :: l) = res_of j l.
Proof. intros N. simpl. destruct (Nat.eqb_spec i j); auto; tauto. Qed.
Lemma res_same i r l : res_of i (ERes i r :: l) = Some r.
Proof. simpl. rewrite Nat.eqb_refl. auto. Qed.
Definition st_le (a b : st) : Prop := match a, b with Started, _ => True | Stopped, Started => False | Stopped, _ => True | Error, b => b = Error end.
Lemma pcok_mono l l' a b vs vs' j p : pcok l a vs j p -> res_of j l' = res_of j l -> vs' j = vs j -> st_le a b -> pcok l' b vs' j p.
Proof.
  intros H E1 E2 L.
  assert (X1 : a = Error -> b = Error) by (intros ->; destruct b; simpl in L; auto; discriminate).
  assert (X2 : a <> Started -> b <> Started) by (destruct a, b; simpl in L; congruence || tauto).
  destruct p as [| |t e|t|t [e|]|t e|t|t|t|]; simpl in *; rewrite ?E1; auto;
    try (destruct H as [H1 H2]; auto; fail).
  all: destruct H as (r & R1 & R2); exists r; split; auto; destruct r; rewrite ?E2; auto.
Qed.
Lemma st_le_refl a : st_le a a. Proof. destruct a; simpl; auto. Qed.

Lemma in_upd {A} (l : list A) i x q : In q (upd l i x) -> q = x \/ In q l.
Proof. revert i. induction l; destruct i; simpl; intros H; auto; destruct H; auto. apply IHl in H. tauto. Qed.

Lemma spok_child s s' i p p' : spok s -> nth_error (chl s) i = Some p -> p <> CNot -> p' <> CNot ->
  sp s' = sp s -> fp s' = fp s -> (reg s' = true -> reg s = true) -> chl s' = upd (chl s) i p' -> spok s'.
Proof.
  intros H Hi N N' E1 E2 E3 E4. unfold spok in *. rewrite E1, E4. destruct (sp s) as [| |k|].
  - exfalso. apply N. apply H. eapply nth_error_In; eauto.
  - exfalso. apply N. apply H. eapply nth_error_In; eauto.
  - destruct H as [H1 H2]. split; auto. intros j q Hq. rewrite (nth_upd _ _ _ _ Hi) in Hq.
    destruct (Nat.eqb_spec i j) as [<-|]; auto. inversion Hq; subst. split; [tauto|]. intros L. exfalso. apply N. eapply H2; eauto.
  - intros q Hq. apply in_upd in Hq. destruct Hq as [-> | Hq]; auto.
Qed.



(** a step of child i's completion: its program counter goes from p to p'; nothing is added to the log *)
Lemma child_inv s s' i p p' :
  inv s -> nth_error (chl s) i = Some p -> p <> CNot -> p' <> CNot ->
  chl s' = upd (chl s) i p' -> fp s' = fp s -> sp s' = sp s -> parent s' = parent s -> 
  (reg s' = true -> reg s = true) -> st_le (sta s) (sta s') ->
  (forall j, j <> i -> vals s' j = vals s j) ->
  (exists l, log s' = l ++ log s /\ (forall o, ~ In (EOut o) l) /\ ~ In ELate l /\ (forall j r, In (ERes j r) l -> j = i)) ->
  (forall r, res_of i (log s') = Some r -> allowed uses ss r = true) ->
  count s' = sumz wt (chl s') + wf (fp s) ->
  sumz kt (chl s') + kf (fp s) + n_out (log s) = n_late (log s) + (if count s' =? 0 then 1 else 0) ->
  pcok (log s') (sta s') (vals s') i p' ->
  (sta s' = Error -> errs s' <> None \/ 0 < sumz we (chl s')) ->
  (forall e, errs s' = Some e -> errs s = Some e \/ exists r, res_of i (log s') = Some r /\ is_error r e) ->
  (sta s' = Stopped -> sta s = Stopped \/ res_of i (log s') = Some RStop) ->
  (forall r, res_of i (log s) = Some r -> res_of i (log s') = Some r) ->
  (forall r e, sta s' <> Error -> res_of i (log s') = Some r -> is_error r e -> exists t, p' = CX t e) ->
  (0 < sumz kt (chl s') + kf (fp s) + n_out (log s) -> sumz wt (chl s') = 0) ->
  (0 < sumz k1 (chl s') + k1f (fp s) + n_out (log s) -> reg s' = false /\ match fp s with F0 _ => False | _ => True end) ->
  (sta s' <> Started -> In EStopChildren (log s') \/ 0 < sumz wq (chl s') + wqf (fp s)) ->
  inv s'.
Proof.
  intros I Hi Np Np' E1 E2 E3 E4 Hreg Hst Hv (l & El & L1 & L2 & L3) Hal Hc Hz Hp He Hev Hs Hr Hse Ha Hk Hq.
  assert (NO : n_out (log s') = n_out (log s)).
  { rewrite El. clear - L1. induction l as [|e l IH]; simpl; auto. rewrite n_out_cons, IH by (intros o H; eapply L1; right; eauto).
    destruct e; simpl; auto. exfalso. eapply L1. left; eauto. }
  assert (NL : n_late (log s') = n_late (log s)).
  { rewrite El. clear - L2. induction l as [|e l IH]; simpl; auto. rewrite n_late_cons, IH by (intros H; apply L2; right; auto).
    destruct e; simpl; auto. exfalso. apply L2. left; auto. }
  assert (RO : forall j, j <> i -> res_of j (log s') = res_of j (log s)).
  { intros j N. rewrite El. clear - L3 N. induction l as [|e l IH]; simpl; auto. 
    rewrite IH by (intros; eapply L3; right; eauto). destruct e; auto. destruct (Nat.eqb_spec i0 j); auto. subst. 
    exfalso. apply N. eapply L3; left; eauto. }
  assert (IN : forall e, In e (log s) -> In e (log s')) by (intros e H; rewrite El; apply in_or_app; auto).
  assert (OR : outs_right n (log s')).
  { rewrite El. pose proof (i_out I) as O. clear - O L1. induction l as [|e l IH]; simpl; auto. 
    destruct e; try (apply IH; intros o H; eapply L1; right; eauto; fail). exfalso. eapply L1; left; eauto. }
  assert (ii : (i < n)%nat) by (rewrite <- (i_len I); apply nth_error_Some; congruence).
  destruct I. constructor; rewrite ?E2, ?E3, ?E4, ?NO, ?NL; auto.
  - rewrite E1, upd_length; auto.
  - intros U. destruct (i_uses0 U) as [A B]. split; auto. destruct (reg s'); auto. rewrite <- B; symmetry; auto.
  - eapply spok_child; eauto.
  - intros j q Hj. rewrite E1 in Hj. rewrite (nth_upd _ _ _ _ Hi) in Hj. destruct (Nat.eqb_spec i j) as [<-|N].
    + inversion Hj; subst; auto.
    + eapply pcok_mono; eauto.
  - intros j L. rewrite RO by lia. auto.
  - intros j r H. destruct (Nat.eq_dec j i) as [->|N]; auto. rewrite RO in H by auto. eauto.
  - intros e H. apply Hev in H. destruct H as [H|(r & H1 & H2)]; [|eauto]. destruct (i_errv0 _ H) as (j & r & A & B).
    destruct (Nat.eq_dec j i) as [->|N]; [eauto|]. exists j, r. rewrite RO; auto.
  - intros H. apply Hs in H. destruct H as [H|H]; [|eauto]. destruct (i_stop0 H) as [[j Hj]|H2]; [|auto].
    left. destruct (Nat.eq_dec j i) as [->|N]; [eauto|]. exists j. rewrite RO; auto.
  - intros H. apply i_parent0 in H. destruct H; auto.
  - intros j r e H1 H2 H3. rewrite E1, (nth_upd _ _ _ _ Hi). destruct (Nat.eqb_spec i j) as [<-|N].
    + destruct (Hse _ _ H1 H2 H3) as [t ->]. eauto.
    + rewrite RO in H2 by auto. eapply i_started0; eauto. intros X. rewrite X in Hst. simpl in Hst. congruence.
Qed.

Lemma all_arrived s : sumz wt (chl s) = 0 -> forall i p, nth_error (chl s) i = Some p -> wt p = 0.
Proof. intros H i p Hi. pose proof (sumz_ge wt (chl s) wt_nn _ Hi). pose proof (wt_nn p). lia. Qed.
Lemma outcome_right s : inv s -> sumz wt (chl s) = 0 -> right_outcome n (outcome n ss s) (log s).
Proof.
  intros I Z0.
  assert (R : forall i, (i < n)%nat -> exists r, res_of i (log s) = Some r /\
     match r with RVal v => vals s i = Some v | RThrow _ | RErr _ => sta s = Error | RStop => sta s <> Started end).
  { intros i L. rewrite <- (i_len I) in L. apply nth_error_Some in L. destruct (nth_error (chl s) i) as [p|] eqn:Hi; [|tauto].
    pose proof (all_arrived s Z0 _ Hi) as W. pose proof (i_res I _ Hi) as P. destruct p; simpl in W; try discriminate; exact P. }
  assert (LT : forall i r, res_of i (log s) = Some r -> (i < n)%nat).
  { intros i r H. destruct (le_lt_dec n i) as [L|]; auto. rewrite (i_none I) in H by auto. discriminate. }
  split.
  { intros i L. destruct (R i L) as (r & -> & _). discriminate. }
  assert (VAL : (forall i, (i < n)%nat -> exists v, res_of i (log s) = Some (RVal v)) ->
    length (map (vals s) (seq 0 n)) = n /\ forall i, (i < n)%nat -> exists v, res_of i (log s) = Some (RVal v) /\ nth_error (map (vals s) (seq 0 n)) i = Some (Some v)).
  { intros V. split; [rewrite map_length, seq_length; auto|]. intros i L. destruct (V i L) as [v Hv]. exists v. split; auto.
    destruct (R i L) as (r & A & B). rewrite Hv in A. inversion A; subst. simpl in B. rewrite <- B.
    apply map_nth_error. rewrite (nth_error_nth' _ 0%nat) by (rewrite seq_length; auto). rewrite seq_nth; auto. }
  unfold outcome. destruct (sta s) eqn:Est.
  - apply VAL. intros i L. destruct (R i L) as ([v|e|e|] & A & B); eauto; congruence.
  - assert (WE : sumz we (chl s) = 0).
    { apply sumz_zero. intros p Hp. apply In_nth_error in Hp. destruct Hp as [i Hi]. pose proof (all_arrived s Z0 _ Hi).
      destruct p as [| | | |t [e|]| | | | |]; simpl in *; auto; discriminate. }
    destruct (i_err I Est) as [H|H]; [|lia]. destruct (errs s) as [e|] eqn:Ee; [|tauto].
    destruct (i_errv I Ee) as (i & r & A & B). exists i, e, r. eauto 6.
  - destruct ss eqn:Ess.
    + split.
      * intros i r e L A B. destruct (R i L) as (r' & A' & B'). rewrite A in A'. inversion A'; subst. destruct B as [-> | ->]; discriminate.
      * destruct (i_stop I Est) as [[i Hi]|H]; eauto.
    + apply VAL. intros i L. destruct (R i L) as ([v|e|e|] & A & B); eauto; try congruence.
      apply (i_allow I) in A. simpl in A. rewrite Ess, andb_false_r in A. discriminate.
Qed.

Ltac sums Hi :=
  repeat match goal with
  | |- context [sumz ?w (upd ?l ?i ?p')] => rewrite (sumz_upd w l i p' Hi)
  | H : context [sumz ?w (upd ?l ?i ?p')] |- _ => rewrite (sumz_upd w l i p' Hi) in H
  end.
Ltac nn s := 
  pose proof (sumz_nonneg wt (chl s) wt_nn); pose proof (sumz_nonneg kt (chl s) kt_nn); pose proof (sumz_nonneg k1 (chl s) k1_nn);
  pose proof (sumz_nonneg wq (chl s) wq_nn); pose proof (sumz_nonneg we (chl s) we_nn); pose proof (n_out_nn (log s)); pose proof (n_late_nn (log s));
  assert (0 <= wf (fp s) /\ 0 <= kf (fp s) /\ 0 <= k1f (fp s) /\ 0 <= wqf (fp s)) by (destruct (fp s); simpl; lia).

Ltac lg := first [ exists []; simpl; split; [reflexivity|split; [intros ? []|split; [intros []|intros ? ? []]]]
                 | eexists [_]; simpl; split; [reflexivity|split; [|split]]; [intros ? [X|[]]; discriminate | intros [X|[]]; discriminate | intros ? ? [X|[]]; inversion X; auto ] ].


Lemma err_case (r : res) e : is_error r e -> r = RErr e \/ r = RThrow e. Proof. auto. Qed.
Lemma res_inv s i t r s' : inv s -> step n uses ss (ARes i t r) s = Some s' -> inv s'.
Proof.
  intros I E. simpl in E. destruct (nth_error (chl s) i) as [[]|] eqn:Hi; try discriminate.
  destruct (allowed uses ss r && negb (busy (fp s) t)) eqn:A; [|discriminate]. apply andb_true_iff in A. destruct A as [A1 A2].
  pose proof (i_res I _ Hi) as P. simpl in P.
  pose proof (i_count I); pose proof (i_zero I); pose proof (i_arr I) as Arr; pose proof (i_k1 I) as K1; pose proof (i_ask I) as Ask; pose proof (i_err I) as Err. nn s.
  destruct r as [v|e|e|]; inversion E; subst; clear E;
  (eapply child_inv with (i := i); [exact I|exact Hi|discriminate| |reflexivity|reflexivity|reflexivity|reflexivity|auto|apply st_le_refl|..]; simpl;
   [discriminate|intros; auto; try (apply fset_other; auto)|lg|rewrite ?Nat.eqb_refl; intros ? X; inversion X; subst; auto|sums Hi; simpl; lia|sums Hi; simpl; lia|..
    |sums Hi; simpl; intros X; rewrite Z.sub_0_r, Z.add_0_r in X; specialize (Arr X); lia
    |sums Hi; simpl; rewrite Z.sub_0_r, Z.add_0_r; auto
    |sums Hi; simpl; intros X; apply Ask in X; rewrite Z.sub_0_r, Z.add_0_r; tauto]); rewrite ?Nat.eqb_refl;
  [ |sums Hi; simpl; rewrite Z.sub_0_r, Z.add_0_r; auto|auto|auto|rewrite P; discriminate| ..];
  try (eexists; split; [reflexivity|]; unfold is_error; simpl; rewrite ?fset_same; auto; fail); auto;
  try solve [intros r e0 X1 X2 [X3|X3]; subst; inversion X2; subst; eauto].
  all: try (rewrite P; discriminate).
  all: sums Hi; simpl; rewrite Z.sub_0_r, Z.add_0_r; auto.
Qed.

Lemma go_inv s i s' : inv s -> step n uses ss (AGoC i) s = Some s' -> inv s'.
Proof.
  intros I E. simpl in E. destruct (nth_error (chl s) i) as [p|] eqn:Hi; try discriminate.
  pose proof (i_res I _ Hi) as P. pose proof (sumz_ge wt (chl s) wt_nn _ Hi) as GW. pose proof (sumz_ge kt (chl s) kt_nn _ Hi) as GK.
  pose proof (sumz_ge wq (chl s) wq_nn _ Hi) as GQ. pose proof (sumz_ge we (chl s) we_nn _ Hi) as GE.
  pose proof (i_count I) as Cnt; pose proof (i_zero I) as Zer; pose proof (i_arr I) as Arr; pose proof (i_k1 I) as K1; pose proof (i_ask I) as Ask; pose proof (i_err I) as Err. nn s.
  destruct p as [| |t e|t|t oe|t e|t|t|t|]; try discriminate; destruct (busy (fp s) t) eqn:B; try discriminate; simpl in GW, GK, GQ, GE.
  - (* CX *) destruct P as (r & P1 & P2). inversion E; subst; clear E.
    assert (SL : st_le (sta s) Error) by (destruct (sta s); simpl; auto).
    eapply child_inv with (i := i); [exact I|exact Hi|discriminate| |reflexivity|reflexivity|reflexivity|reflexivity|auto|exact SL|..]; simpl;
     [destruct (sta s); discriminate|auto|lg|apply (i_allow I)|sums Hi; destruct (sta s); simpl; lia|sums Hi; destruct (sta s); simpl; lia| | |auto|discriminate|auto|congruence| | | ].
    + destruct (sta s); simpl; eauto. exists r. split; auto. destruct P2 as [-> | ->]; auto.
    + intros _. sums Hi. destruct (sta s) eqn:Es; simpl; try (right; lia). destruct (Err eq_refl); auto. right; lia.
    + sums Hi. intros X. assert (Y : 0 < sumz kt (chl s) + kf (fp s) + n_out (log s)) by (destruct (sta s); simpl in X; lia). specialize (Arr Y). destruct (sta s); simpl; lia.
    + sums Hi. intros X. apply K1. destruct (sta s); simpl in X; lia.
    + sums Hi. intros _. destruct (sta s) eqn:Es; simpl.
      * right; lia.
      * destruct Ask; [congruence|auto|right; lia].
      * destruct Ask; [congruence|auto|right; lia].
  - (* CS *) simpl in P. 
    destruct (sta s) eqn:Es; inversion E; subst; clear E;
    (eapply child_inv with (i := i); [exact I|exact Hi|discriminate| |reflexivity|reflexivity|reflexivity|reflexivity|auto|simpl; rewrite Es; simpl; auto|..]; simpl; rewrite ?Es;
     [discriminate|auto|lg|apply (i_allow I)|sums Hi; simpl; lia|sums Hi; simpl; lia| | |auto|auto|auto| | | | ]).
    all: try (sums Hi; simpl; intros X; rewrite Z.sub_0_r, Z.add_0_r in X; specialize (Arr X); lia).
    all: try (sums Hi; simpl; rewrite Z.sub_0_r, Z.add_0_r; auto; fail).
    all: try (exists RStop; split; auto; discriminate).
    all: try (split; [discriminate|auto]; fail).
    all: try discriminate.
    all: try (intros r e0 _ X1 [-> | ->]; congruence).
    all: try (sums Hi; simpl; intros _; destruct Ask; [congruence|auto|right; lia]; fail).
    all: try (sums Hi; simpl; intros _; right; lia).
    all: try (sums Hi; simpl; intros X; specialize (Err X); rewrite Z.sub_0_r, Z.add_0_r; auto).
  - (* CQ *) simpl in P.
    destruct oe as [e|]; destruct P as [P1 P2]; inversion E; subst; clear E;
    (eapply child_inv with (i := i); [exact I|exact Hi|discriminate| |reflexivity|reflexivity|reflexivity|reflexivity|auto|apply st_le_refl|..]; simpl;
     [discriminate|auto|lg|apply (i_allow I)|sums Hi; simpl; lia|sums Hi; simpl; lia| | |auto|auto|auto| | | |auto ]).
    all: try (sums Hi; simpl; intros X; rewrite Z.sub_0_r, Z.add_0_r in X; specialize (Arr X); lia).
    all: try (sums Hi; simpl; rewrite Z.sub_0_r, Z.add_0_r; auto; fail).
    all: try congruence; auto.
    + sums Hi. simpl. intros X. right; lia.
    + eauto.
    + intros r e0 _ X1 [-> | ->]; congruence.
  - (* CE *) simpl in P. destruct P as (P1 & r & P2 & P3). inversion E; subst; clear E.
    eapply child_inv with (i := i); [exact I|exact Hi|discriminate| |reflexivity|reflexivity|reflexivity|reflexivity|auto|apply st_le_refl|..]; simpl;
     [discriminate|auto|lg|apply (i_allow I)|sums Hi; simpl; lia|sums Hi; simpl; lia| | | |auto|auto| | | | ].
    + exists r. split; auto. destruct P3 as [-> | ->]; auto.
    + left; discriminate.
    + intros e0 X. inversion X; subst. eauto.
    + congruence.
    + sums Hi; simpl; intros X; rewrite Z.sub_0_r, Z.add_0_r in X; specialize (Arr X); lia.
    + sums Hi; simpl; rewrite Z.sub_0_r, Z.add_0_r; auto.
    + sums Hi; simpl; intros X. destruct (Ask X); auto. right; lia.
  - (* CArr *) simpl in P. inversion E; subst; clear E.
    eapply child_inv with (i := i); [exact I|exact Hi|discriminate| |reflexivity|reflexivity|reflexivity|reflexivity|auto|apply st_le_refl|..]; simpl;
     [destruct (count s =? 1); discriminate|auto|lg|apply (i_allow I)|sums Hi; destruct (count s =? 1); simpl; lia| | | |auto|auto|auto| | | | ].
    + sums Hi. destruct (Z.eqb_spec (count s) 1), (Z.eqb_spec (count s - 1) 0), (Z.eqb_spec (count s) 0); simpl; lia.
    + destruct P as (r & P1 & P2). destruct (count s =? 1); simpl; eauto.
    + sums Hi. intros X. destruct (Err X); auto. right. destruct (count s =? 1); simpl; lia.
    + destruct P as (r & P1 & P2). intros r0 e X1 X2 [-> | ->]; rewrite P1 in X2; inversion X2; subst; tauto.
    + sums Hi. intros X. destruct (Z.eqb_spec (count s) 1); simpl in *; [lia|].
      destruct (Z.eqb_spec (count s) 0); [lia|]. specialize (Arr ltac:(lia)). lia.
    + sums Hi. intros X. apply K1. destruct (count s =? 1); simpl in X; lia.
    + sums Hi. intros X. destruct (Ask X); auto. right. destruct (count s =? 1); simpl; lia.
  - (* CK0 *) simpl in P. simpl in E. destruct (uses && must_wait (fp s) t) eqn:W; [discriminate|]. inversion E; subst; clear E.
    assert (F0K : match fp s with F0 _ => False | _ => True end /\ (uses = false -> reg s = false)).
    { destruct uses eqn:U.
      - split; [|discriminate]. simpl in W. destruct (fp s); simpl in W, B; auto. unfold must_wait in W. simpl in W. rewrite B in W. discriminate.
      - destruct (i_uses I U) as [-> R]. auto. }
    set (s1 := if uses then w_reg s false else s) in *.
    assert (Q : chl s1 = chl s /\ fp s1 = fp s /\ sp s1 = sp s /\ parent s1 = parent s /\ sta s1 = sta s /\ errs s1 = errs s /\
                vals s1 = vals s /\ log s1 = log s /\ count s1 = count s /\ reg s1 = false).
    { destruct F0K as [_ R]. unfold s1. destruct uses; simpl; repeat split; auto. }
    destruct Q as (Q1 & Q2 & Q3 & Q4 & Q5 & Q6 & Q7 & Q8 & Q9 & Q10).
    eapply child_inv with (s := s) (i := i) (p' := CK1 t); [exact I|exact Hi|discriminate|discriminate|simpl; congruence|auto..]; simpl;
      rewrite ?Q1, ?Q2, ?Q3, ?Q4, ?Q5, ?Q6, ?Q7, ?Q8, ?Q9, ?Q10; auto.
    + discriminate.
    + apply st_le_refl.
    + lg.
    + apply (i_allow I).
    + sums Hi; simpl; lia.
    + sums Hi; simpl; destruct (count s =? 0); lia.
    + sums Hi; simpl. rewrite Z.sub_0_r, Z.add_0_r. auto.
    + destruct P as (r & P1 & P2). intros r0 e X1 X2 [-> | ->]; rewrite P1 in X2; inversion X2; subst; tauto.
    + sums Hi. simpl. intros X. specialize (Arr ltac:(lia)). lia.
    + intros _. split; auto. apply F0K.
    + sums Hi; simpl. rewrite Z.sub_0_r, Z.add_0_r. auto.
  - (* CK1: complete *) simpl in P. inversion E; subst; clear E.
    assert (Z0 : sumz wt (chl s) = 0) by (apply Arr; lia).
    pose proof (outcome_right I Z0) as OR.
    assert (K1' : reg s = false /\ match fp s with F0 _ => False | _ => True end).
    { apply K1. pose proof (sumz_ge k1 (chl s) k1_nn _ Hi) as G. simpl in G. lia. }
    destruct I. constructor; simpl; auto; rewrite ?upd_length, ?n_out_cons, ?n_late_cons; auto; simpl.
    + sums Hi. simpl. lia.
    + sums Hi. simpl. lia.
    + eapply spok_child with (s := s) (p' := CDone); eauto; discriminate.
    + intros j q Hj. rewrite (nth_upd _ _ _ _ Hi) in Hj. destruct (Nat.eqb_spec i j) as [<-|N]; [inversion Hj; subst; exact P|].
      eapply pcok_mono; eauto. apply st_le_refl.
    + sums Hi. simpl. intros X. destruct (Err X); auto. right; lia.
    + intros X. destruct (i_stop0 X); auto.
    + intros X. destruct (i_parent0 X); auto.
    + intros j r e X1 X2 X3. rewrite (nth_upd _ _ _ _ Hi). destruct (Nat.eqb_spec i j) as [<-|N]; eauto.
      destruct (i_started0 _ _ _ X1 X2 X3) as [u Hu]. congruence.
    + sums Hi. simpl. intros X. lia.
    + sums Hi. simpl. intros X. destruct (Ask X); auto. right; lia.
Qed.

Lemma pcs_mono (s s' : state) : (forall i p, nth_error (chl s) i = Some p -> pcok (log s) (sta s) (vals s) i p) ->
  chl s' = chl s -> (forall j, res_of j (log s') = res_of j (log s)) -> st_le (sta s) (sta s') -> vals s' = vals s ->
  forall i p, nth_error (chl s') i = Some p -> pcok (log s') (sta s') (vals s') i p.
Proof. intros H E1 E2 L E3 i p Hi. rewrite E1 in Hi. eapply pcok_mono; eauto. rewrite E3; auto. Qed.
Lemma spok_fp s s' : spok s -> fp s <> FNot -> sp s' = sp s -> chl s' = chl s -> (reg s' = true -> reg s = true) -> spok s'.
Proof.
  unfold spok. intros H N -> -> R. destruct (sp s); auto.
  - destruct H as (_ & H & _). congruence.
  - destruct H as (H1 & H2). split; auto. destruct (reg s'); auto. rewrite <- H2. symmetry; auto.
Qed.

Lemma gof_inv s s' : inv s -> step n uses ss AGoF s = Some s' -> inv s'.
Proof.
  intros I E. simpl in E.
  pose proof (i_count I) as Cnt; pose proof (i_zero I) as Zer; pose proof (i_arr I) as Arr; pose proof (i_k1 I) as K1; pose proof (i_ask I) as Ask; pose proof (i_err I) as Err.
  pose proof (i_late I) as Lt; pose proof (i_late0 I) as Lt0. nn s.
  assert (NF : fp s <> FNot) by (intros X; rewrite X in E; discriminate).
  assert (PR : In EReqParent (log s) /\ parent s = true) by (apply (i_parent I); auto).
  assert (RG : reg s = false) by (destruct (reg s) eqn:R; auto; exfalso; apply NF; apply (i_reg I); auto).
  assert (US : uses = true) by (destruct uses eqn:U; auto; exfalso; apply NF; apply (i_uses I); auto).
  pose proof (i_out I) as OUT. pose proof (i_sp I) as SP. pose proof (i_started I) as STD.
  destruct (fp s) as [|t|t|t|t|t|t|] eqn:F; try discriminate; simpl in *.
  - (* F0 *)
    assert (NK : sumz k1 (chl s) + n_out (log s) = 0).
    { destruct (Z_lt_dec 0 (sumz k1 (chl s) + n_out (log s))) as [L|L]; [|lia]. exfalso. destruct K1 as [_ K1]; [lia|]. exact K1. }
    destruct (Z.eqb_spec (count s) 0) as [C|C]; inversion E; subst; clear E; destruct I; constructor; simpl; auto;
      rewrite ?n_out_cons, ?n_late_cons; simpl; auto; auto 2; try congruence; try solve [intros; split; auto]; try solve [intros; destruct PR; auto]; try lia.
    all: try (eapply spok_fp; eauto; simpl; congruence).
    all: try (intros X; destruct (Ask X); auto; right; lia).
    all: try (intros X; destruct (i_stop0 X); auto).
    + destruct (Z.eqb_spec (count s + 1) 0); lia.
    + destruct (Z.eqb_spec (count s + 1) 0); lia.
  - (* F1 *)
    assert (UN : (match sta s with Started => True | _ => False end -> inv (w_fp (w_sta s Stopped) (FQ t))) /\
                 (match sta s with Started => False | _ => True end -> inv (w_fp s (FArr t)))).
    { split; intros ST; destruct I; constructor; simpl; auto; auto 2; try congruence; try solve [intros; split; auto]; try solve [intros; destruct PR; auto]; try lia.
      all: try (eapply spok_fp; eauto; simpl; congruence).
      - eapply pcs_mono with (s := s) (s' := w_fp (w_sta s Stopped) (FQ t)); auto. simpl. destruct (sta s); simpl; tauto.
      - intros i r e _ X Y. eapply STD; eauto. destruct (sta s); tauto || discriminate. }
    destruct UN as [UN1 UN2]. destruct (sta s) eqn:ST; inversion E; subst; clear E; auto.
  - (* FQ *) inversion E; subst; clear E. destruct I; constructor; simpl; auto; rewrite ?n_out_cons, ?n_late_cons; simpl; auto; auto 2; try congruence; try solve [intros; split; auto]; try solve [intros; destruct PR; auto]; try lia.
    all: try (eapply spok_fp; eauto; simpl; congruence).
  - (* FArr *) inversion E; subst; clear E. destruct I; constructor; simpl; auto; auto 2; try congruence; try solve [intros; split; auto]; try solve [intros; destruct PR; auto]; try lia.
    all: try (eapply spok_fp; eauto; simpl; congruence).
    + destruct (Z.eqb_spec (count s) 1); simpl; lia.
    + destruct (Z.eqb_spec (count s) 1), (Z.eqb_spec (count s - 1) 0), (Z.eqb_spec (count s) 0); simpl; lia.
    + destruct (count s =? 1); auto.
    + destruct (Z.eqb_spec (count s) 1); simpl; intros X; [lia|]. apply Arr; lia.
    + intros X. destruct K1 as [A B]; [destruct (count s =? 1); simpl in X; lia|]. split; auto. destruct (count s =? 1); auto.
    + intros X. destruct (Ask X); auto. right. destruct (count s =? 1); simpl; lia.
  - (* FK0 *) inversion E; subst; clear E. destruct I; constructor; simpl; auto; auto 2; try congruence; try solve [intros; split; auto]; try solve [intros; destruct PR; auto]; try lia.
    eapply spok_fp; eauto; simpl; congruence.
  - (* FK1 *) inversion E; subst; clear E.
    assert (Z0 : sumz wt (chl s) = 0) by (apply Arr; lia).
    pose proof (outcome_right I Z0) as OR.
    destruct I; constructor; simpl; auto; rewrite ?n_out_cons, ?n_late_cons; simpl; auto; auto 2; try congruence; try solve [intros; split; auto]; try solve [intros; destruct PR; auto]; try lia.
    + eapply spok_fp; eauto; simpl; congruence.
    + intros X. destruct (Ask X); auto.
Qed.

Lemma other_inv s a s' : inv s -> step n uses ss a s = Some s' ->
  match a with AStart _ | AGoS | AParent | ATake _ => True | _ => False end -> inv s'.
Proof.
  intros I E T. 
  pose proof (i_count I) as Cnt; pose proof (i_zero I) as Zer; pose proof (i_arr I) as Arr; pose proof (i_k1 I) as K1; pose proof (i_ask I) as Ask; pose proof (i_err I) as Err.
  pose proof (i_late I) as Lt; pose proof (i_late0 I) as Lt0. pose proof (i_sp I) as SP. nn s.
  destruct a; try tauto; simpl in E.
  - (* AStart *) destruct (sp s) eqn:S0; try discriminate. unfold spok in SP. rewrite S0 in SP. destruct SP as (SP1 & SP2 & SP3).
    rewrite SP2 in *. simpl in *.
    assert (W : sumz kt (chl s) = 0 /\ sumz k1 (chl s) = 0).
    { split; apply sumz_zero; intros p Hp; rewrite (SP1 p Hp); auto. }
    assert (W2 : 0 < sumz wt (chl s)).
    { pose proof (i_len I) as L. pose proof (i_n I). destruct (chl s) as [|p l] eqn:C; [simpl in L; lia|]. simpl. 
      pose proof (sumz_nonneg wt l wt_nn). rewrite (SP1 p) by (left; auto). simpl. lia. }
    assert (NO : n_out (log s) = 0) by (destruct (Z.eqb_spec (count s) 0); lia).
    destruct uses eqn:U; [destruct (parent s) eqn:PQ|]; inversion E; subst; clear E; destruct I; constructor; simpl; auto; rewrite ?SP2; simpl; auto; try lia; try congruence; try tauto.
    + unfold spok; simpl. auto.
    + unfold spok; simpl. split; [lia|]. intros i p Hi. split; [intros; lia|]. intros. apply SP1. eapply nth_error_In; eauto.
    + unfold spok; simpl. split; [lia|]. intros i p Hi. split; [intros; lia|]. intros. apply SP1. eapply nth_error_In; eauto.
  - (* AGoS *) destruct (sp s) as [| |k|] eqn:S0; try discriminate.
    + unfold spok in SP. rewrite S0 in SP. destruct SP as (SP1 & SP2). destruct (fp s) eqn:F; try discriminate. inversion E; subst; clear E.
      destruct I; constructor; simpl; rewrite ?F in *; auto.
      unfold spok; simpl. split; [lia|]. intros i p Hi. split; [intros; lia|]. intros. apply SP1. eapply nth_error_In; eauto.
    + unfold spok in SP. rewrite S0 in SP. destruct SP as (SP1 & SP2). destruct (Nat.ltb_spec k n) as [L|L]; inversion E; subst; clear E.
      * assert (Hk : nth_error (chl s) k = Some CNot).
        { pose proof (i_len I) as LL. destruct (nth_error (chl s) k) as [p|] eqn:Hk; [|apply nth_error_None in Hk; lia].
          f_equal. apply (SP2 _ _ Hk). auto. }
        pose proof (i_res I _ Hk) as P. simpl in P.
        destruct I; constructor; simpl; auto; rewrite ?upd_length; auto; sums Hk; simpl; rewrite ?Z.sub_0_r, ?Z.add_0_r; auto; try lia.
        -- unfold spok. simpl. split; [lia|]. intros i p Hi. rewrite (nth_upd _ _ _ _ Hk) in Hi. destruct (Nat.eqb_spec k i) as [<-|N].
           ++ inversion Hi; subst. split; [discriminate|lia].
           ++ rewrite (SP2 _ _ Hi). lia.
        -- intros i p Hi. rewrite (nth_upd _ _ _ _ Hk) in Hi. destruct (Nat.eqb_spec k i) as [<-|N]; auto. inversion Hi; subst. auto.
        -- intros i r e X1 X2 X3. rewrite (nth_upd _ _ _ _ Hk). destruct (Nat.eqb_spec k i) as [<-|N]; eauto. congruence.
      * destruct I; constructor; simpl; auto. unfold spok. simpl. intros p Hp. apply In_nth_error in Hp. destruct Hp as [i Hi].
        rewrite (SP2 _ _ Hi). assert (i < length (chl s))%nat by (apply nth_error_Some; congruence). lia.
  - (* AParent *) destruct (parent s) eqn:PQ; inversion E; subst; clear E.
    destruct I; constructor; simpl; auto; rewrite ?n_out_cons, ?n_late_cons; simpl; auto; try lia.
    intros X. destruct (Ask X); auto.
  - (* ATake *) destruct (parent s && reg s) eqn:PR; [|discriminate]. apply andb_true_iff in PR. destruct PR as [P1 P2].
    destruct (fp s) eqn:F; try discriminate. inversion E; subst; clear E. simpl in *.
    destruct I; constructor; simpl; auto; rewrite ?F; simpl; auto; try congruence.
    + intros U. apply i_uses0 in U. destruct U; congruence.
    + unfold spok in *. simpl. destruct (sp s); auto; [|destruct SP; auto].
      destruct SP as (_ & _ & X). congruence.
    + intros X. destruct (K1 X) as [X1 _]. congruence.
Qed.

Theorem reachable_inv s : reachable n uses ss s -> inv s.
Proof.
  induction 1; [apply inv_init; auto|].
  destruct a; try (eapply other_inv; eauto; simpl; auto; fail).
  - eapply gof_inv; eauto.
  - eapply res_inv; eauto.
  - eapply go_inv; eauto.
Qed.
End Inv.

(** ** Theorems *)
Lemma cnt_late0 l : (~ In ELate l) <-> n_late l = 0.
Proof.
  unfold n_late. split.
  - intros H. assert (X : cnt is_late l = 0%nat); [|rewrite X; auto]. apply cnt_zero. intros [] Hx; auto. tauto.
  - intros H X. assert (cnt is_late l = 0%nat) by lia. rewrite cnt_zero in H0. apply H0 in X. discriminate.
Qed.

(** C34, the part that holds: as long as the stop callback does not touch a count that has already
    dropped to zero, the receiver is completed at most once, and exactly once when all is done. *)
Theorem C34_completes_once_partial : forall n uses ss s, reachable n uses ss s -> ~ In ELate (log s) ->
  n_out (log s) <= 1 /\ (finished s -> n_out (log s) = 1).
Proof.
  intros n uses ss s R NL. pose proof (reachable_inv R) as I. apply cnt_late0 in NL.
  pose proof (i_zero I) as Z0. pose proof (sumz_nonneg kt (chl s) kt_nn). assert (0 <= kf (fp s)) by (destruct (fp s); simpl; lia).
  rewrite NL in Z0. split; [destruct (count s =? 0); lia|]. intros [F1 F2].
  assert (W : sumz wt (chl s) = 0) by (apply sumz_zero; intros p Hp; rewrite (F1 p Hp); auto).
  assert (K : sumz kt (chl s) = 0) by (apply sumz_zero; intros p Hp; rewrite (F1 p Hp); auto).
  pose proof (i_count I) as C. destruct (fp s); simpl in *; try discriminate; rewrite W, K in *; destruct (Z.eqb_spec (count s) 0); lia.
Qed.

(** The exact number of completions: one, plus one if the stop callback came late. *)
Theorem C34_number_of_completions : forall n uses ss s, reachable n uses ss s -> finished s ->
  n_out (log s) = 1 + n_late (log s) /\ 0 <= n_late (log s) <= 1.
Proof.
  intros n uses ss s R [F1 F2]. pose proof (reachable_inv R) as I. pose proof (i_zero I) as Z0.
  assert (W : sumz wt (chl s) = 0) by (apply sumz_zero; intros p Hp; rewrite (F1 p Hp); auto).
  assert (K : sumz kt (chl s) = 0) by (apply sumz_zero; intros p Hp; rewrite (F1 p Hp); auto).
  pose proof (i_count I) as C. pose proof (i_late I). pose proof (n_late_nn (log s)).
  destruct (fp s); simpl in *; try discriminate; rewrite W, K in *; destruct (Z.eqb_spec (count s) 0); lia.
Qed.

(** A when_all whose children can neither fail nor stop (it then registers no stop callback) is not
    affected: it always completes exactly once. *)
Theorem C34_infallible_children_once : forall n ss s, reachable n false ss s ->
  n_out (log s) <= 1 /\ (finished s -> n_out (log s) = 1).
Proof.
  intros n ss s R. eapply C34_completes_once_partial; eauto. pose proof (reachable_inv R) as I. apply cnt_late0.
  pose proof (i_late0 I) as L. destruct (i_uses I eq_refl) as [F _]. rewrite F in L. exact L.
Qed.

(** Every completion is the right one: after all the children, with their values, or an error of one of
    them, or set_stopped. *)
Theorem C34_outcome : forall n uses ss s, reachable n uses ss s ->
  forall l1 o l2, log s = l1 ++ EOut o :: l2 -> right_outcome n o l2.
Proof.
  intros n uses ss s R l1 o l2 E. pose proof (i_out (reachable_inv R)) as O. rewrite E in O. clear - O.
  induction l1 as [|e l1 IH]; simpl in O; [tauto|]. destruct e; try tauto; apply IH; tauto.
Qed.

(** If when_all does not complete with values, the other children were asked to stop before. *)
Theorem C34_children_asked_to_stop : forall n uses ss s, reachable n uses ss s -> ~ In ELate (log s) -> finished s ->
  (exists i r, res_of i (log s) = Some r /\ forall v, r <> RVal v) -> In EStopChildren (log s).
Proof.
  intros n uses ss s R NL [F1 F2] (i & r & Hr & NV). pose proof (reachable_inv R) as I.
  assert (L : (i < n)%nat). { destruct (le_lt_dec n i) as [L|]; auto. rewrite (i_none I) in Hr by auto. discriminate. }
  rewrite <- (i_len I) in L. apply nth_error_Some in L. destruct (nth_error (chl s) i) as [p|] eqn:Hi; [|tauto].
  pose proof (F1 p (nth_error_In _ _ Hi)) as ->. destruct (i_res I _ Hi) as (r' & A & B). rewrite Hr in A. inversion A; subst.
  destruct (i_ask I) as [H|H]; auto.
  - destruct r' as [v|e|e|]; auto; try (rewrite B; discriminate). exfalso. eapply NV; eauto.
  - assert (K : sumz wq (chl s) = 0) by (apply sumz_zero; intros p Hp; rewrite (F1 p Hp); auto).
    rewrite K in H. destruct (fp s); simpl in *; try discriminate; lia.
Qed.

(** After the completion nothing in the operation state is touched any more (so that the receiver may
    destroy it): the only steps left are the parent's own and start() returning to its caller. *)
Theorem C34_no_access_after_completion : forall n uses ss s a s', reachable n uses ss s -> ~ In ELate (log s) ->
  0 < n_out (log s) -> step n uses ss a s = Some s' -> a = AParent \/ (a = AGoS /\ sp s = SRun n).
Proof.
  intros n uses ss s a s' R NL O E. pose proof (reachable_inv R) as I. apply cnt_late0 in NL.
  pose proof (i_zero I) as Z0. pose proof (i_count I) as C. pose proof (sumz_nonneg kt (chl s) kt_nn) as N1.
  assert (N2 : 0 <= kf (fp s) /\ 0 <= wf (fp s) /\ 0 <= k1f (fp s)) by (destruct (fp s); simpl; lia).
  pose proof (sumz_nonneg wt (chl s) wt_nn) as N3. pose proof (sumz_nonneg k1 (chl s) k1_nn) as N4.
  destruct (Z.eqb_spec (count s) 0) as [C0|C0]; [|lia].
  destruct (i_k1 I) as [K1 K2]; [lia|].
  assert (D : forall i p, nth_error (chl s) i = Some p -> p = CDone).
  { intros i p Hi. pose proof (sumz_ge kt (chl s) kt_nn _ Hi). pose proof (sumz_ge wt (chl s) wt_nn _ Hi).
    destruct p; simpl in *; auto; lia. }
  destruct a; auto; simpl in E.
  - exfalso. destruct (sp s) eqn:S0; try discriminate. pose proof (i_sp I) as SP. unfold spok in SP. rewrite S0 in SP.
    destruct SP as [SP _]. pose proof (i_n I). pose proof (i_len I). destruct (nth_error (chl s) 0) as [p|] eqn:Hp; [|apply nth_error_None in Hp; lia].
    rewrite (SP p (nth_error_In _ _ Hp)) in Hp. apply D in Hp. discriminate.
  - right. split; auto. pose proof (i_sp I) as SP. unfold spok in SP. pose proof (i_n I). pose proof (i_len I). destruct (sp s) as [| |k|] eqn:S0; try discriminate.
    + exfalso. destruct (nth_error (chl s) 0) as [p|] eqn:Hp; [|apply nth_error_None in Hp; lia].
      rewrite (proj1 SP p (nth_error_In _ _ Hp)) in Hp. apply D in Hp. discriminate.
    + destruct SP as [SP1 SP2]. f_equal. destruct (le_lt_dec n k); [lia|]. exfalso.
      destruct (nth_error (chl s) k) as [p|] eqn:Hp; [|apply nth_error_None in Hp; lia].
      pose proof (D _ _ Hp). subst. destruct (SP2 _ _ Hp) as [_ X]. specialize (X (le_n _)). discriminate.
  - rewrite K1, andb_false_r in E. discriminate.
  - destruct (fp s); simpl in *; try discriminate; try lia; tauto.
  - destruct (nth_error (chl s) i) as [p|] eqn:Hi; [|discriminate]. rewrite (D _ _ Hi) in E. discriminate.
  - destruct (nth_error (chl s) i) as [p|] eqn:Hi; [|discriminate]. rewrite (D _ _ Hi) in E. discriminate.
Qed.

(** No deadlock: after start() something can always go on until everything is finished. *)
Theorem C34_no_deadlock : forall n uses ss s, reachable n uses ss s -> sp s <> SNot -> finished s \/
  exists a s', a <> AParent /\ step n uses ss a s = Some s'.
Proof.
  intros n uses ss s R NS. pose proof (reachable_inv R) as I.
  destruct (cb_tid (fp s)) as [u|] eqn:CB.
  { right. exists AGoF. simpl. destruct (fp s); try discriminate; try (eexists; split; [discriminate|reflexivity]; fail).
    destruct (sta s); eexists; (split; [discriminate|reflexivity]). }
  assert (NB : forall t, busy (fp s) t = false) by (intros t; destruct (fp s); simpl in *; auto; discriminate).
  assert (NW : forall t, must_wait (fp s) t = false) by (intros t; unfold must_wait; rewrite CB; auto).
  destruct (sp s) as [| |k|] eqn:S0; [tauto| | |].
  - right. exists AGoS. simpl. rewrite S0. pose proof (i_sp I) as SP. unfold spok in SP. rewrite S0 in SP.
    destruct (fp s) eqn:F; simpl in CB; try discriminate; eauto.
    + exfalso. assert (forall s, reachable n uses ss s -> sp s = SWait -> fp s <> FNot).
      { clear. induction 1 as [|s a s' R IH E]; [discriminate|]. intros S0 F.
        destruct a; simpl in E;
          repeat match type of E with
          | context [match ?x with _ => _ end] => let Q := fresh "Q" in destruct x eqn:Q; try discriminate
          end; inversion E; subst; simpl in *; try discriminate; try congruence; try (apply IH; auto; fail); try (apply IH in S0; congruence).
        all: try (destruct (count s =? 0); simpl in *; try discriminate; try congruence). }
      eapply H; eauto.
    + eexists. split; [discriminate|reflexivity].
  - right. exists AGoS. simpl. rewrite S0. destruct (k <? n)%nat; eexists; (split; [discriminate|reflexivity]).
  - pose proof (i_sp I) as SP. unfold spok in SP. rewrite S0 in SP.
    destruct (Forall_Exists_dec (fun p => p = CDone)) with (l := chl s) as [A|A].
    { intros p. destruct p; ((left; reflexivity) || (right; discriminate)). }
    { left. split; auto. apply Forall_forall. auto. }
    right. apply Exists_exists in A. destruct A as (p & Hp & ND). pose proof (SP p Hp) as NN. apply In_nth_error in Hp. destruct Hp as [i Hi].
    destruct p as [| |t e|t|t oe|t e|t|t|t|]; try tauto.
    + exists (ARes i 0%nat (RVal 0%nat)). simpl. rewrite Hi, NB. simpl. eexists; split; [discriminate|reflexivity].
    + exists (AGoC i). simpl. rewrite Hi, NB. eexists; split; [discriminate|reflexivity].
    + exists (AGoC i). simpl. rewrite Hi, NB. destruct (sta s); eexists; (split; [discriminate|reflexivity]).
    + exists (AGoC i). simpl. rewrite Hi, NB. eexists; split; [discriminate|reflexivity].
    + exists (AGoC i). simpl. rewrite Hi, NB. eexists; split; [discriminate|reflexivity].
    + exists (AGoC i). simpl. rewrite Hi, NB. eexists; split; [discriminate|reflexivity].
    + exists (AGoC i). simpl. rewrite Hi, NB, NW, andb_false_r. simpl. eexists; split; [discriminate|reflexivity].
    + exists (AGoC i). simpl. rewrite Hi, NB. eexists; split; [discriminate|reflexivity].
Qed.

(** ** Concrete executions *)
Section Run.
Variables (n : nat) (uses ss : bool).
Fixpoint runs (l : list action) (s : state) : option state :=
  match l with [] => Some s | a :: l => match step n uses ss a s with Some s' => runs l s' | None => None end end.
Lemma runs_reachable l : forall s s', reachable n uses ss s -> runs l s = Some s' -> reachable n uses ss s'.
Proof.
  induction l as [|a l IH]; simpl; intros s s' R E; [inversion E; subst; auto|].
  destruct (step n uses ss a s) eqn:Q; [|discriminate]. eapply IH; [|exact E]. eapply r_step; eauto.
Qed.
End Run.
Local Open Scope nat_scope.
Definition view (s : state) := (log s, chl s, fp s, count s).
(** two children, values 10 and 20, completing on two threads *)
Example ex_values : option_map view (runs 2 true true
   [AStart 0; AGoS; AGoS; AGoS; ARes 1 1 (RVal 20); ARes 0 2 (RVal 10); AGoC 0; AGoC 1; AGoC 1; AGoC 1] (init 2))
  = Some ([EOut (DVal [Some 10; Some 20]%nat); ERes 0 (RVal 10); ERes 1 (RVal 20)], [CDone; CDone], FNot, 0%Z).
Proof. vm_compute. reflexivity. Qed.
(** the first child fails, stop is requested on the second, which stops; the parent's stop request comes
    in time and is overridden by the error *)
Example ex_error : option_map view (runs 2 true true
   [AStart 0; AGoS; AGoS; AGoS; ARes 0 1 (RErr 7); AParent; ATake 2; AGoC 0; AGoF; AGoC 0; AGoF; ARes 1 1 RStop; AGoC 0; AGoC 0; AGoC 1; AGoC 1; AGoF; AGoF; AGoF] (init 2))
  = Some ([EOut (DErr (Some 7%nat)); ERes 1 RStop; EStopChildren; EReqParent; ERes 0 (RErr 7)], [CDone; CDone], FDone, 0%Z).
Proof. vm_compute. reflexivity. Qed.

(** the parent requests stop between the last child's decrement of the count and the destruction of the
    stop callback: the callback increments the count from zero to one, arrives again, and completes the
    receiver; then the child completes it a second time *)
Definition double : option state := runs 2 true true
   [AStart 0; AGoS; AGoS; AGoS; ARes 0 1 (RVal 10); AGoC 0; ARes 1 1 (RVal 20); AGoC 1; (* count is now 0 *)
    AParent; ATake 2; AGoF; AGoF; AGoF; AGoF; AGoF; AGoF; AGoC 1; AGoC 1] (init 2).
Example double_result : option_map view double
  = Some ([EOut DStop; EOut DStop; EStopChildren; ELate; EReqParent; ERes 1 (RVal 20); ERes 0 (RVal 10)], [CDone; CDone], FDone, 0%Z).
Proof. vm_compute. reflexivity. Qed.

Global Opaque runs.
Lemma view_some o v : option_map view o = Some v -> exists s, o = Some s /\ view s = v.
Proof. destruct o as [s|]; simpl; intros H; inversion H; eauto. Qed.
(** C34 as stated is false of the code. *)
Theorem C34_completes_once_refuted : ~ forall n uses ss s, reachable n uses ss s -> (n_out (log s) <= 1)%Z.
Proof.
  intros H. destruct (view_some _ double_result) as (s & E & D).
  assert (R : reachable 2 true true s) by (eapply runs_reachable; [apply r_init; auto|unfold double in E; exact E]).
  specialize (H _ _ _ _ R). apply (f_equal (fun x => fst (fst (fst x)))) in D. cbn [view fst] in D. rewrite D in H.
  unfold n_out in H. simpl in H. lia.
Qed.

Print Assumptions C34_completes_once_partial.
Print Assumptions C34_number_of_completions.
Print Assumptions C34_infallible_children_once.
Print Assumptions C34_outcome.
Print Assumptions C34_children_asked_to_stop.
Print Assumptions C34_no_access_after_completion.
Print Assumptions C34_no_deadlock.
Print Assumptions C34_completes_once_refuted.
