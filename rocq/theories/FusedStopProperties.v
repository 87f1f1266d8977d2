(** C53: the stop token of stop_when. *)
From Coq Require Import List Bool Arith Lia.
From Verif Require Import Conc FusedStopModel.
Import ListNotations.
Set Implicit Arguments.

(** ** Specification: what happened, in terms of the log *)
Definition isCall e := match e with ECall => true | _ => false end.
Definition isRet e := match e with ERet => true | _ => false end.
Definition isUaf e := match e with EUaf => true | _ => false end.
(** how often the user's function was entered / left *)
Definition calls l := length (filter isCall l).
Definition returns l := length (filter isRet l).
(** Some thread is between deciding to call the function and calling it. *)
Definition about_to_call s := kp s = KInv true ICall \/ kp s = KInv false ICall \/ exists k, rp s k = RInv ICall.

(** ** Invariant *)
Definition ni i := match i with IXchg => 0 | ICall => 1 | IFn => 2 | IEnd => 3 end.
Definition rn r := match r with R0 => 0 | RFlag => 1 | RInv i => 2 + ni i | REnd => 6 end.
Definition kb (k : bool) := if k then 0 else 5.
Definition kn k := match k with KNext b => kb b | KInv b i => 1 + kb b + ni i | KDone => 10 end.
Definition cn c := match c with CNew => 0 | CReg => 1 | CRan => 2 | CGone => 3 end.
Definition dn d := match d with D0 => 0 | D2 => 1 | D1 => 2 | DEnd => 3 end.
Definition bn (b : bool) := if b then 1 else 0.
Definition aCall i := match i with ICall => 1 | _ => 0 end.
Definition aFn i := match i with IFn => 1 | _ => 0 end.
Definition r_is (f : inv -> nat) (r : rpc) := match r with RInv i => f i | _ => 0 end.
Definition k_is (f : inv -> nat) (r : cpc) := match r with KInv _ i => f i | _ => 0 end.

(** The state without the log is finite. *)
Definition core := (rpc * rpc * cbs * cbs * bool * cpc * dpc * bool)%type.
Definition core_of s : core := (rp s true, rp s false, cb s true, cb s false, called s, kp s, dp s, din s).
Definition canon (x : core) : state :=
  let '(r1, r2, c1, c2, cl, k, d, di) := x in
  mks (fun b : bool => if b then r1 else r2) (fun b : bool => if b then c1 else c2) cl k d di [].

Notation "a ==> b" := (implb a b) (at level 55, right associativity).
(** One inner callback against the threads; [b] is its [kb]. *)
Definition oneb (b r c k d : nat) (cl di : bool) : bool :=
  Bool.eqb (c =? 0) (k <=? b) &&
  ((c =? 0) ==> (r <=? 1) || (r =? 6)) &&
  ((c =? 1) ==> (r <=? 1) && (b + 4 <? k)) &&
  ((c =? 2) ==> (1 <=? r) && ((r =? 2) || cl || (k =? b + 1)) && ((2 <=? r) && (r <=? 5) ==> (b + 4 <? k))) &&
  ((b <? k) && (k <=? b + 4) ==> (c =? 2)) &&
  ((c =? 3) ==> (k =? 10) && negb (r =? 2) && negb (r =? 3) && ((r =? 4) ==> di)) &&
  ((d <=? 1) ==> negb (c =? 3)) &&
  ((d =? 2) ==> Bool.eqb (c =? 3) (b =? 5)) &&
  ((d =? 3) ==> (c =? 3)) &&
  ((3 <=? r) && (r <=? 5) ==> cl) &&
  ((b + 2 <=? k) && (k <=? b + 4) ==> cl).
Definition okb (x : core) : bool :=
  let '(r1, r2, c1, c2, cl, k, d, di) := x in
  let r1 := rn r1 in let r2 := rn r2 in let k := kn k in let d := dn d in
  oneb 0 r1 (cn c1) k d cl di && oneb 5 r2 (cn c2) k d cl di &&
  ((k <? 10) ==> (d =? 0)) && (di ==> (0 <? d)) &&
  (di && ((d =? 1) || (d =? 2)) ==> (r1 =? 4) || (r2 =? 4)) &&
  (cl ==> (0 <? r1) || (0 <? r2)).

(** every value of each component *)
Definition invs := [IXchg; ICall; IFn; IEnd].
Definition all_r := R0 :: RFlag :: REnd :: map RInv invs.
Definition all_c := [CNew; CReg; CRan; CGone].
Definition bools := [true; false].
Definition all_k := KDone :: map KNext bools ++ map (KInv true) invs ++ map (KInv false) invs.
Definition all_d := [D0; D2; D1; DEnd].
Definition all_a := AK :: AD :: map AReq bools ++ map AR bools ++ map ADtor bools.
Lemma in_r r : In r all_r. Proof. destruct r as [| |[]|]; cbn; tauto. Qed.
Lemma in_c c : In c all_c. Proof. destruct c; cbn; tauto. Qed.
Lemma in_b b : In b bools. Proof. destruct b; cbn; tauto. Qed.
Lemma in_k k : In k all_k. Proof. destruct k as [[]|[] []|]; cbn; tauto. Qed.
Lemma in_d d : In d all_d. Proof. destruct d; cbn; tauto. Qed.
Lemma in_a a : In a all_a. Proof. destruct a as [[]| |[]|[]|]; cbn; tauto. Qed.

Definition keeps (x : core) (a : action) : bool :=
  match step (canon x) a with Some s' => okb (core_of s') && (cnt isUaf (log s') =? 0) | None => true end.
Definition checks (P : core -> bool) : bool :=
  forallb (fun r1 => forallb (fun r2 => forallb (fun c1 => forallb (fun c2 => forallb (fun cl => forallb (fun k =>
  forallb (fun d => forallb (fun di =>
    let x := (r1, r2, c1, c2, cl, k, d, di) in okb x ==> P x)
  bools) all_d) all_k) bools) all_c) all_c) all_r) all_r.
Lemma checks_all P : checks P = true -> forall x, okb x = true -> P x = true.
Proof.
  intros C x. destruct x as [[[[[[[r1 r2] c1] c2] cl] k] d] di]. intros H. unfold checks in C.
  rewrite forallb_forall in C. specialize (C r1 (in_r r1)).
  rewrite forallb_forall in C. specialize (C r2 (in_r r2)).
  rewrite forallb_forall in C. specialize (C c1 (in_c c1)).
  rewrite forallb_forall in C. specialize (C c2 (in_c c2)).
  rewrite forallb_forall in C. specialize (C cl (in_b cl)).
  rewrite forallb_forall in C. specialize (C k (in_k k)).
  rewrite forallb_forall in C. specialize (C d (in_d d)).
  rewrite forallb_forall in C. specialize (C di (in_b di)).
  cbv zeta in C. rewrite H in C. exact C.
Qed.
Lemma keeps_all x a : okb x = true -> keeps x a = true.
Proof.
  intros H. assert (C : checks (fun x => forallb (keeps x) all_a) = true) by (vm_compute; reflexivity).
  pose proof (@checks_all _ C x H) as K. cbv beta in K. rewrite forallb_forall in K. apply (K a (in_a a)).
Qed.

Record good s : Prop := {
  g_1 : okb (core_of s) = true;
  g_5 : cnt isCall (log s) + r_is aCall (rp s true) + r_is aCall (rp s false) + k_is aCall (kp s) = bn (called s);
  g_6 : cnt isRet (log s) + r_is aFn (rp s true) + r_is aFn (rp s false) + k_is aFn (kp s) = cnt isCall (log s);
  g_9 : cnt isUaf (log s) = 0
}.
Lemma good_init : good init.
Proof. constructor; reflexivity. Qed.

Ltac split_step s a H :=
  let r := fresh "r" in let c := fresh "c" in
  destruct s as [r c cl k d di l];
  destruct a as [k0| |k0|b|]; [|destruct k as [[|]|[|] []|]| | |]; unfold step, k_step, r_step, destroy, requested, in_fn in H;
    cbn [rp cb called kp dp din log] in H; try discriminate H; try (destruct k0);
  repeat match goal with H : context[match ?x with _ => _ end] |- _ =>
       match type of H with _ = Some _ => destruct x eqn:?; try discriminate H end end;
  repeat match goal with H : Some _ = Some _ |- _ => injection H; clear H; intros; subst end;
  unfold next_k, inv_eff, inv_next, touch, w_rp, w_cb, w_called, w_kp, w_dp, emit in *; cbn [rp cb called kp dp din log] in *.

(** A step does to the core what it does to it in isolation. *)
Lemma step_core s a s' : step s a = Some s' ->
  exists s1, step (canon (core_of s)) a = Some s1 /\ core_of s1 = core_of s' /\
    cnt isUaf (log s') = cnt isUaf (log s1) + cnt isUaf (log s).
Proof.
  intros H. unfold core_of, canon. split_step s a H; cbn [rp cb called kp dp din log];
  repeat match goal with H : ?f ?b = _ |- _ => match type of b with bool => rewrite ?H; revert H end end; intros;
  (eexists; split; [unfold step, k_step, r_step, destroy, requested, in_fn;
    cbn [rp cb called kp dp din log];
    repeat match goal with H : ?f ?b = _ |- _ => match type of b with bool => rewrite ?H end end; reflexivity|]);
  unfold next_k, inv_eff, inv_next, touch, w_rp, w_cb, w_called, w_kp, w_dp, emit, bset;
  cbn [rp cb called kp dp din log Bool.eqb cnt isUaf].
  all: try (destruct d; cbn [rp cb called kp dp din log Bool.eqb cnt isUaf]).
  all: repeat match goal with H : ?f ?b = _ |- _ => match type of b with bool => rewrite ?H; revert H end end; intros; auto.
  all: repeat match goal with H : context[match ?x with _ => _ end] |- _ => destruct x eqn:?; try discriminate end.
  all: cbn [rp cb called kp dp din log Bool.eqb cnt isUaf]; auto.
Qed.

Lemma good_step s a s' : good s -> step s a = Some s' -> good s'.
Proof.
  intros [G1 G5 G6 G9] H. destruct (step_core _ _ H) as [s1 [E [C U]]].
  pose proof (keeps_all _ a G1) as K. unfold keeps in K. rewrite E, C in K. apply andb_prop in K. destruct K as [K1 K2].
  apply Nat.eqb_eq in K2.
  constructor; [exact K1| | |rewrite U, K2, G9; reflexivity].
  - clear G1 G6 G9 E C U K1 K2 s1. split_step s a H; unfold bset; cbn [Bool.eqb cnt isCall];
    repeat match goal with H : ?f ?b = _ |- _ => match type of b with bool => rewrite ?H in *; revert H end end; intros;
      cbn [r_is k_is aCall bn] in *; try lia; try (destruct d; cbn [rp called log kp dp cnt isCall Bool.eqb]; lia).
    all: try (destruct cl; cbn [r_is k_is aCall bn] in *; try (destruct d; cbn [rp called log kp dp cnt isCall Bool.eqb]); lia).
  - clear G1 G5 G9 E C U K1 K2 s1. split_step s a H; unfold bset; cbn [Bool.eqb cnt isCall isRet];
    repeat match goal with H : ?f ?b = _ |- _ => match type of b with bool => rewrite ?H in *; revert H end end; intros;
      cbn [r_is k_is aFn bn] in *; try lia; try (destruct d; cbn [rp called log kp dp cnt isCall isRet Bool.eqb]; lia).
    all: try (destruct cl; cbn [r_is k_is aFn bn] in *; try (destruct d; cbn [rp called log kp dp cnt isCall isRet Bool.eqb]); lia).
Qed.
Lemma good_runs : forall l s s', good s -> runs l s = Some s' -> good s'.
Proof.
  induction l as [|a l IH]; intros s s' G H; [injection H as <-; auto|]. cbn [runs] in H.
  destruct (step s a) eqn:E; [|discriminate]. eauto using good_step.
Qed.
Lemma good_reach l s : runs l init = Some s -> good s. Proof. apply good_runs, good_init. Qed.

(** ** The log against the state *)
Record logged s : Prop := {
  l_1 : forall k, In (EReq k) (log s) <-> rp s k <> R0;
  l_2 : forall k, In (EReqRet k) (log s) <-> rp s k = REnd;
  l_3 : In ECtor (log s) <-> kp s = KDone;
  l_4 : In EDtorRet (log s) <-> dp s = DEnd;
  l_5 : forall b, In (EDtor b) (log s) <-> dp s <> D0 /\ din s = b
}.
Lemma logged_init : logged init.
Proof. constructor; cbn; intuition congruence. Qed.
Lemma logged_step s a s' : logged s -> step s a = Some s' -> logged s'.
Proof.
  intros [L1 L2 L3 L4 L5] H.
  split_step s a H; constructor; cbn [rp cb called kp dp din log]; try (intros k'; specialize (L1 k'); specialize (L2 k'); specialize (L5 k'));
    unfold bset; try (destruct k'); cbn [Bool.eqb In]; 
    repeat match goal with H : ?f ?b = _ |- _ => match type of b with bool => rewrite ?H in *; revert H end end; intros;
    try (destruct d; cbn [rp cb called kp dp din log In]); try solve [intuition congruence].
Qed.
Lemma logged_reach l s : runs l init = Some s -> logged s.
Proof.
  enough (G : forall l s s', logged s -> runs l s = Some s' -> logged s') by (apply G, logged_init).
  clear. induction l as [|a l IH]; intros s s' G H; [injection H as <-; auto|]. cbn [runs] in H.
  destruct (step s a) eqn:E; [|discriminate]. eauto using logged_step.
Qed.
Lemma calls_cnt l : calls l = cnt isCall l.
Proof. unfold calls. induction l as [|e l IH]; [reflexivity|]. cbn. destruct (isCall e); cbn; rewrite IH; reflexivity. Qed.
Lemma returns_cnt l : returns l = cnt isRet l.
Proof. unfold returns. induction l as [|e l IH]; [reflexivity|]. cbn. destruct (isRet e); cbn; rewrite IH; reflexivity. Qed.

(** ** Theorems *)
(** The function registered with the fused token is called at most once. *)
Theorem fused_called_once l s : runs l init = Some s -> returns (log s) <= calls (log s) <= 1.
Proof.
  intros H. pose proof (good_reach _ H) as [_ G5 G6 _]. rewrite calls_cnt, returns_cnt.
  destruct (called s); cbn [bn] in G5; lia.
Qed.

(** It is called only if stop was requested of one of the two sources. *)
Theorem fused_called_only_if_requested l s :
  runs l init = Some s -> In ECall (log s) -> In (EReq true) (log s) \/ In (EReq false) (log s).
Proof.
  intros H I. pose proof (good_reach _ H) as [G1 G5 _ _]. pose proof (logged_reach _ H) as [L1 _ _ _ _].
  rewrite !L1. assert (P := proj2 (cnt_pos isCall (log s)) (ex_intro _ ECall (conj I eq_refl))).
  assert (C : called s = true) by (destruct (called s); auto; cbn [bn] in G5; lia).
  assert (X := @checks_all (fun '(r1, r2, c1, c2, cl, k, d, di) => cl ==> (0 <? rn r1) || (0 <? rn r2))
     ltac:(vm_compute; reflexivity) _ G1). unfold core_of in X. rewrite C in X. cbn [implb] in X.
  apply orb_prop in X. destruct X as [X|X]; apply Nat.ltb_lt in X; [left|right]; intros E; rewrite E in X; cbn in X; lia.
Qed.

(** When the request of either source has returned and the callback had been constructed and not destroyed,
    the function has been called, or the thread of the other request (or the constructor's) is just about
    to call it. *)
Theorem fused_request_calls l s k :
  runs l init = Some s -> In (EReqRet k) (log s) -> In ECtor (log s) -> (forall b, ~ In (EDtor b) (log s)) ->
  In ECall (log s) \/ about_to_call s.
Proof.
  intros H I1 I2 I3. pose proof (good_reach _ H) as [G1 G5 _ _]. pose proof (logged_reach _ H) as [_ L2 L3 _ L5].
  rewrite L2 in I1. rewrite L3 in I2.
  assert (D : dp s = D0). { destruct (dp s) eqn:E; auto; exfalso; apply (I3 (din s)); rewrite L5; split; congruence. }
  assert (X := @checks_all (fun '(r1, r2, c1, c2, cl, k, d, di) =>
     (kn k =? 10) && (dn d =? 0) && ((rn r1 =? 6) || (rn r2 =? 6)) ==> cl) ltac:(vm_compute; reflexivity) _ G1).
  unfold core_of in X. rewrite D, I2 in X.
  assert (C : called s = true). { destruct k; rewrite I1 in X; cbn in X; rewrite ?orb_true_r in X; exact X. }
  rewrite C in G5. cbn [bn] in G5. unfold about_to_call.
  destruct (cnt isCall (log s)) eqn:N.
  - right. destruct (kp s) as [|[] []|] eqn:E1; auto; destruct (rp s true) as [| |[]|] eqn:E2;
      try (right; right; exists true; exact E2); destruct (rp s false) as [| |[]|] eqn:E3;
      try (right; right; exists false; exact E3); cbn in G5; lia.
  - left. assert (P : 0 < cnt isCall (log s)) by lia. apply cnt_pos in P. destruct P as [e [P1 P2]]. destruct e; try discriminate. exact P1.
Qed.

(** No member of the callback object is used after its destructor returned. *)
Theorem fused_no_use_after_destruction l s : runs l init = Some s -> ~ In EUaf (log s).
Proof.
  intros H I. pose proof (good_reach _ H) as [_ _ _ G9].
  assert (P := proj2 (cnt_pos isUaf (log s)) (ex_intro _ EUaf (conj I eq_refl))). lia.
Qed.

(** When the destructor has returned, the function does not run (unless it called the destructor itself) ... *)
Theorem fused_destructor_waits l s :
  runs l init = Some s -> In EDtorRet (log s) -> ~ In (EDtor true) (log s) -> calls (log s) = returns (log s).
Proof.
  intros H I1 I2. pose proof (good_reach _ H) as [G1 _ G6 _]. pose proof (logged_reach _ H) as [_ _ _ L4 L5].
  rewrite L4 in I1. rewrite L5 in I2. rewrite calls_cnt, returns_cnt.
  assert (D : din s = false) by (destruct (din s); auto; exfalso; apply I2; split; congruence).
  assert (X := @checks_all (fun '(r1, r2, c1, c2, cl, k, d, di) =>
     (dn d =? 3) && negb di ==> (r_is aFn r1 + r_is aFn r2 + k_is aFn k =? 0)) ltac:(vm_compute; reflexivity) _ G1).
  unfold core_of in X. rewrite I1, D in X. cbn in X. apply Nat.eqb_eq in X. lia.
Qed.
(** ... and is not called any more. *)
Theorem fused_not_called_after_destruction l s l' s' :
  runs l init = Some s -> In EDtorRet (log s) -> runs l' s = Some s' -> calls (log s') = calls (log s).
Proof.
  intros H I H'. apply (logged_reach _ H) in I. pose proof (good_reach _ H) as G.
  clear H. revert s G I H'. induction l' as [|a l' IH]; intros s G I H'; [injection H' as <-; reflexivity|].
  cbn [runs] in H'. destruct (step s a) as [s1|] eqn:E; [|discriminate]. pose proof (good_step _ G E) as G'.
  assert (X := @checks_all (fun '(r1, r2, c1, c2, cl, k, d, di) =>
     (dn d =? 3) ==> (kn k =? 10) && negb (rn r1 =? 2) && negb (rn r2 =? 2) && negb (rn r1 =? 3) && negb (rn r2 =? 3)) ltac:(vm_compute; reflexivity) _ (g_1 G)).
  unfold core_of in X. rewrite I in X. cbn [implb dn Nat.eqb] in X. rewrite !andb_true_iff, !negb_true_iff in X.
  destruct X as [[[[X2 X3] X4] X5] X6].
  assert (dp s1 = DEnd /\ calls (log s1) = calls (log s)) as [A1 A2].
  { clear IH G G' H' l. rewrite !calls_cnt. split_step s a E; try discriminate; auto; try (cbn in X2; discriminate).
    all: repeat match goal with H : ?f ?b = RInv _ |- _ => match type of b with bool => rewrite H in *; clear H end end.
    all: cbn [rn ni Nat.eqb Nat.add] in *; try discriminate; auto. }
  rewrite (IH s1 G' A1 H'). exact A2.
Qed.

(** The destructor cannot be blocked for ever: if it waits, the callback it waits for can proceed. *)
Theorem fused_destructor_progress l s b :
  runs l init = Some s -> In (EDtor b) (log s) -> ~ In EDtorRet (log s) ->
  exists a s', (a = AD \/ exists k, a = AR k /\ rp s k <> R0) /\ step s a = Some s'.
Proof.
  intros H I1 I2. pose proof (good_reach _ H) as [G1 _ _ _]. pose proof (logged_reach _ H) as [_ _ _ L4 L5].
  rewrite L4 in I2. rewrite L5 in I1. destruct I1 as [I1 D].
  assert (forall k, (exists s', destroy s k = Some s') \/
    ((dp s = D2 \/ dp s = D1) -> k = match dp s with D2 => false | _ => true end -> exists s', step s (AR k) = Some s' /\ rp s k <> R0)) as Q.
  { intros k. unfold destroy, step, r_step. destruct (rp s k) as [| |i|] eqn:E; eauto. destruct i; try (destruct (cb s k); eauto; fail);
    destruct (cb s k) eqn:E2, (din s) eqn:E3; eauto; right; intros Q1 Q2;
      destruct (dp s) eqn:E4; try (destruct Q1; discriminate); eexists; (split; [reflexivity|discriminate]). }
  destruct (dp s) eqn:E; try congruence.
  - destruct (Q false) as [[s' X]|X].
    + exists AD. eexists. split; [left; reflexivity|]. cbn. rewrite E, X. reflexivity.
    + destruct (X (or_introl eq_refl) eq_refl) as [s' [Y1 Y2]]. exists (AR false), s'. split; [right; exists false; auto|exact Y1].
  - destruct (Q true) as [[s' X]|X].
    + exists AD. eexists. split; [left; reflexivity|]. cbn. rewrite E, X. reflexivity.
    + destruct (X (or_intror eq_refl) eq_refl) as [s' [Y1 Y2]]. exists (AR true), s'. split; [right; exists true; auto|exact Y1].
Qed.

(** ** Concrete cases *)
(** Registered on both; the first source is stopped, then the second; the function destroys the callback. *)
Example fused_example :
  option_map log (runs [AK; AK; AReq true; AR true; AR true; AR true; ADtor true; AD; AD; AReq false; AR false; AR true; AR true] init)
  = Some [EReqRet true; ERet; EReqRet false; EReq false; EDtorRet; EDtor true; ECall; EReq true; ECtor].
Proof. vm_compute. reflexivity. Qed.
(** Destroyed on another thread while the function runs: the destructor waits. *)
Example fused_example_wait :
  option_map (fun s => (log s, step s AD)) (runs [AK; AK; AReq true; AR true; AR true; AR true; ADtor false; AD] init)
  = Some ([EDtor false; ECall; EReq true; ECtor], None) /\
  option_map log (runs [AK; AK; AReq true; AR true; AR true; AR true; ADtor false; AD; AR true; AR true; AD] init)
  = Some [EDtorRet; EReqRet true; ERet; EDtor false; ECall; EReq true; ECtor].
Proof. split; vm_compute; reflexivity. Qed.
(** Stopped before: called inline by the constructor. *)
Example fused_example_inline :
  option_map log (runs ([AReq false; AR false] ++ repeat AK 6) init) = Some [ECtor; ERet; ECall; EReqRet false; EReq false].
Proof. vm_compute. reflexivity. Qed.

(** What a single stop source guarantees (C16: when request_stop returns, the callbacks have been run and have
    returned), the fused token does not: the request of the second source returns while the function is
    still running on the thread of the first. *)
Theorem fused_request_waits_for_function_refuted :
  ~ (forall l s k, runs l init = Some s -> In (EReqRet k) (log s) -> In ECtor (log s) -> (forall b, ~ In (EDtor b) (log s)) ->
       calls (log s) = returns (log s)).
Proof.
  intros H. assert (X := H [AK; AK; AReq true; AR true; AR true; AR true; AReq false; AR false; AR false; AR false]).
  destruct (runs _ init) as [s|] eqn:E in X; vm_compute in E; [injection E as <-|discriminate].
  specialize (X _ false eq_refl ltac:(cbn; auto) ltac:(cbn; auto 10) ltac:(cbn; intros b; intuition discriminate)).
  discriminate X.
Qed.
