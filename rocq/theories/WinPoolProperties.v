(** C66: the operations of windows_thread_pool. *)
From Coq Require Import List Bool Arith NArith Lia FSets.FMapPositive.
From Verif Require Import WinPoolModel.
Import ListNotations.
Set Implicit Arguments.

(** ** Specification *)
(** an operation of the given kind (timed: on a timer; stoppable: its receiver has a stop token that can be stopped) after any history *)
Definition reachable t k c := exists l, runs l (start t k) = Some c.
Definition ev_eq (x y : event) : {x = y} + {x <> y}. Proof. decide equality. Defined.
(** how often an event has happened *)
Definition times (e : event) (l : list event) : nat := count_occ ev_eq l e.
(** e1 happened, and after it e2 *)
Definition after (e1 e2 : event) (l : list event) := exists l1 l2, l = l1 ++ e2 :: l2 /\ In e1 l2.
(** the timer did not expire once a cancelling wait had returned (always true of the operations without a timer, no_timer_timely) *)
Definition timely l := ~ after EWaited EExpire l.
(** no thread can take a step, and the timer is not armed *)
Definition quiet c := forall f, step c (AS f) = None /\ step c (AR f) = None /\ step c AP = None /\ step c AClock = None.
(** the compare_exchange_weak (or a system call) that fails *)
Definition fails (a : act) : bool := match a with AS f | AR f => f | _ => false end.

(** ** The states *)
Definition n_q q := match q with QLoad => 0 | QWait => 1 | QDes => 2 | QSet => 3 | QEnd => 4 | QCas e => 5 + e end%N.
Definition n_s c := match c with SCreate => 0 | SAlloc => 1 | SCall => 2 | SCons => 3 | SCopy => 4 | SSub => 5 | SAdd => 6 | SDel => 7 | SPlain => 8 | SEnd => 9 | SThrew => 10 | SInl q => 11 + 2 * n_q q | SCwd q => 12 + 2 * n_q q end%N.
Definition n_r c := match c with RNo => 0 | RDone => 1 | RRun q => 2 + n_q q end%N.
Definition n_p c := match c with PIdle => 0 | PStart => 1 | PDes => 2 | PRun => 3 | PNull => 4 | PVal => 5 | PRet => 6 | POver => 7 end%N.
Definition n_j c := match c with JNone => 0 | JArmed => 1 | JQueued => 2 | JTaken => 3 | JGone => 4 end%N.
Definition n_c c := match c with CNone => 0 | CLive => 1 | CDead => 2 end%N.
Definition n_b c := match c with BNo => 0 | BLive => 1 | BFreed => 2 end%N.
Definition n_o (b : bool) := if b then 1%N else 0%N.
Definition code (s : st) : positive :=
  N.succ_pos (fold_left (fun a x => 64 * a + x)%N
    [n_s (sp s); n_r (rp s); n_p (pp s); n_j (jb s); n_c (cb s); word s; n_b (bl s);
     (n_o (timed s) + 2 * n_o (stoppable s) + 4 * n_o (stop s) + 8 * n_o (state s) + 16 * n_o (valued s) + 32 * n_o (stopped s))%N; (n_o (opened s) + 2 * n_o (destroyed s))%N] 0%N).
Definition st_eq (x y : st) : {x = y} + {x <> y}. Proof. repeat decide equality. Defined.
Definition all_a := [AS false; AS true; AReq; AR false; AR true; AP; AClock; ADestroy].
Lemma in_a a : In a all_a. Proof. destruct a as [[]| |[]| | |]; cbn; tauto. Qed.
Definition waited x := match sp x with SCwd QDes | SCwd QSet => true | _ => false end || match rp x with RRun QDes | RRun QSet => true | _ => false end || (stopped x && match cb x with CNone => false | _ => true end).
(** the step keeps the history timely *)
Definition gstep s a := match a with AClock => if waited s then None else step1 s a | _ => step1 s a end.
Fixpoint explore (fuel : nat) (todo : list st) (m : PositiveMap.t st) : PositiveMap.t st :=
  match fuel with
  | 0 => m
  | S n =>
      match todo with
      | [] => m
      | x :: todo =>
          let ys := flat_map (fun a => match gstep x a with Some (y, _) => [y] | None => [] end) all_a in
          let '(todo, m) := fold_left (fun '(t, m) y => match PositiveMap.find (code y) m with Some _ => (t, m) | None => (y :: t, PositiveMap.add (code y) y m) end) ys (todo, m) in
          explore n todo m
      end
  end.
Definition inits := [init true true; init true false; init false true; init false false].
Definition states := explore 4000 inits (fold_left (fun m x => PositiveMap.add (code x) x m) inits (PositiveMap.empty st)).
Definition isin (x : st) : bool := match PositiveMap.find (code x) states with Some y => if st_eq x y then true else false | None => false end.

(** what a state says about the past *)
Definition b2n (b : bool) := if b then 1 else 0.
Definition called x := match sp x with SCreate | SAlloc | SCall | SThrew => false | SEnd => negb (destroyed x && negb (valued x) && negb (stopped x)) | _ => true end.
Definition flag (e : event) (x : st) : bool :=
  match e with
  | EAlloc => match bl x with BNo => false | _ => true end
  | EFree => match bl x with BFreed => true | _ => false end
  | ECall => called x
  | EReq => stop x
  | EReqRet => match rp x with RDone => true | _ => false end
  | ESubmit => match jb x with JNone => false | _ => true end
  | EBegin => match pp x with PIdle => false | _ => true end
  | EWaited => waited x
  | EValue => valued x
  | EStopped => stopped x
  | EDestroy => destroyed x
  | EThrow => match sp x with SThrew => true | _ => false end
  | _ => false
  end.
Definition tracked := [EAlloc; EFree; ECall; EReq; EReqRet; ESubmit; EBegin; EWaited; EValue; EStopped; EDestroy; EThrow; EBad].
Definition agrees x y es := forallb (fun e => count_occ ev_eq es e + b2n (flag e x) =? b2n (flag e y)) tracked.
Definition hasev e (es : list event) : bool := existsb (fun x => if ev_eq x e then true else false) es.
(** the stop was recorded before the callback could start; start() found the stop *)
Definition q x := has (word x) stop_requested_flag.
Definition r x := match sp x, jb x with SEnd, JNone => stopped x | _, _ => false end.
(** a bound on the steps that are left *)
Definition mu_q w q := match q with QLoad => 8 | QCas e => 5 + b2n (negb (N.eqb e w)) | QWait => 4 | QDes => 3 | QSet => 2 | QEnd => 1 end.
Definition mu x :=
  match sp x with SCreate => 180 | SAlloc => 160 | SCall => 140 | SCons => 120 | SInl q => 100 + mu_q (word x) q | SCopy => 80 | SSub => 60 | SAdd => 40 | SCwd q => 20 + mu_q (word x) q | SDel => 10 | SPlain => 10 | SEnd | SThrew => 0 end
  + 4 * match pp x with PIdle => 7 | PStart => 6 | PDes => 5 | PRun => 4 | PNull => 3 | PVal => 2 | PRet => 1 | POver => 0 end
  + match jb x with JNone => 3 | JArmed => 2 | JQueued => 1 | _ => 0 end
  + match rp x with RNo => 0 | RRun q => 1 + mu_q (word x) q | RDone => 0 end
  + (if stop x then 0 else 20) + (if destroyed x then 0 else 1).
Definition trans x y a es :=
  agrees x y es
  && (count_occ ev_eq es EOpen + b2n (opened x) =? count_occ ev_eq es EClose + b2n (opened y))
  && Bool.eqb (timed x) (timed y) && Bool.eqb (stoppable x) (stoppable y)
  && implb (hasev EBegin es) (negb (hasev EReqRet es) && implb (flag EReqRet x && stoppable x) (q y))
  && implb (q x) (q y && negb (hasev EValue es))
  && implb (hasev ECall es) (negb (hasev EReq es) && implb (stop x && stoppable x) (r y))
  && implb (r x) (r y)
  && implb (hasev EStopped es) (stop x)
  && implb (hasev EValue es) (negb (hasev EBegin es) && match pp x with PVal => true | _ => false end)
  && implb (hasev EExpire es) (timed x && match a with AClock => true | _ => false end)
  && (mu y + b2n (negb (fails a)) <=? mu x).
Definition all_trans : bool :=
  forallb (fun kx => let x := snd kx in forallb (fun a => match gstep x a with Some (y, es) => isin y && trans x y a es | None => true end) all_a) (PositiveMap.elements states).
Lemma all_trans_ok : all_trans = true. Proof. vm_compute. reflexivity. Qed.
Lemma init_in t k : isin (init t k) = true. Proof. destruct t, k; vm_compute; reflexivity. Qed.
Lemma isin_in x : isin x = true -> exists k, In (k, x) (PositiveMap.elements states).
Proof.
  unfold isin. destruct (PositiveMap.find (code x) states) as [y|] eqn:E; [|discriminate]. destruct (st_eq x y) as [->|]; [|discriminate]. intros _.
  exists (code y). apply PositiveMap.elements_correct. exact E.
Qed.
Lemma gstep_ok x a y es : isin x = true -> gstep x a = Some (y, es) -> isin y = true /\ trans x y a es = true.
Proof.
  intros I H. destruct (isin_in _ I) as [k K]. assert (A := all_trans_ok). unfold all_trans in A. rewrite forallb_forall in A. specialize (A _ K). cbn beta zeta in A.
  rewrite forallb_forall in A. specialize (A a (in_a a)). unfold snd in A. rewrite H in A. apply andb_prop in A. exact A.
Qed.
Definition holds (P : st -> bool) : bool := forallb (fun kx => P (snd kx)) (PositiveMap.elements states).
Lemma holds_in P x : holds P = true -> isin x = true -> P x = true.
Proof. intros H X. destruct (isin_in _ X) as [k K]. unfold holds in H. rewrite forallb_forall in H. apply (H _ K). Qed.

Record Trans x y a es : Prop := {
  t_agrees : forall e, In e tracked -> times e es + b2n (flag e x) = b2n (flag e y);
  t_open : times EOpen es + b2n (opened x) = times EClose es + b2n (opened y);
  t_timed : timed x = timed y;
  t_stoppable : stoppable x = stoppable y;
  t_begin : In EBegin es -> ~ In EReqRet es /\ (flag EReqRet x = true -> stoppable x = true -> q y = true);
  t_q : q x = true -> q y = true /\ ~ In EValue es;
  t_call : In ECall es -> ~ In EReq es /\ (stop x = true -> stoppable x = true -> r y = true);
  t_r : r x = true -> r y = true;
  t_stopped : In EStopped es -> stop x = true;
  t_value : In EValue es -> ~ In EBegin es /\ pp x = PVal;
  t_expire : In EExpire es -> timed x = true /\ a = AClock;
  t_mu : mu y + b2n (negb (fails a)) <= mu x
}.
Lemma hasev_in e es : hasev e es = true <-> In e es.
Proof.
  unfold hasev. rewrite existsb_exists. split.
  - intros [x [A B]]. destruct (ev_eq x e); [subst; auto|discriminate].
  - intros H. exists e. split; auto. destruct (ev_eq e e); congruence.
Qed.
Lemma hasev_not e es : negb (hasev e es) = true -> ~ In e es.
Proof. intros H X. apply hasev_in in X. rewrite X in H. discriminate. Qed.
Lemma trans_T x y a es : trans x y a es = true -> Trans x y a es.
Proof.
  unfold trans. intros H. do 11 (apply andb_prop in H; let K := fresh "K" in destruct H as [H K]).
  constructor.
  - intros e E. unfold agrees in H. rewrite forallb_forall in H. specialize (H e E). apply Nat.eqb_eq in H. exact H.
  - apply Nat.eqb_eq in K9. exact K9.
  - apply eqb_prop; auto.
  - apply eqb_prop; auto.
  - intros X. apply hasev_in in X. rewrite X in K6. apply andb_prop in K6. destruct K6 as [A B]. split; [apply hasev_not; auto|]. intros C D. rewrite C, D in B. exact B.
  - intros X. rewrite X in K5. apply andb_prop in K5. destruct K5 as [A B]. split; [auto|apply hasev_not; auto].
  - intros X. apply hasev_in in X. rewrite X in K4. apply andb_prop in K4. destruct K4 as [A B]. split; [apply hasev_not; auto|]. intros C D. rewrite C, D in B. exact B.
  - intros X. rewrite X in K3. exact K3.
  - intros X. apply hasev_in in X. rewrite X in K2. exact K2.
  - intros X. apply hasev_in in X. rewrite X in K1. apply andb_prop in K1. destruct K1 as [A B]. split; [apply hasev_not; auto|]. destruct (pp x); try discriminate; auto.
  - intros X. apply hasev_in in X. rewrite X in K0. apply andb_prop in K0. destruct K0 as [A B]. split; [auto|]. destruct a; try discriminate; auto.
  - apply Nat.leb_le in K. exact K.
Qed.

(** ** Histories *)
Lemma times_in e l : In e l <-> 0 < times e l.
Proof. unfold times. rewrite (count_occ_In ev_eq). lia. Qed.
Lemma times_app e l1 l2 : times e (rev l1 ++ l2) = times e l1 + times e l2.
Proof.
  unfold times. rewrite count_occ_app. f_equal. induction l1 as [|x l1 IH]; [reflexivity|]. cbn [rev]. rewrite count_occ_app, IH. cbn. destruct (ev_eq x e); lia.
Qed.
Lemma after_app e1 e2 p l : after e1 e2 l -> after e1 e2 (p ++ l).
Proof. intros (l1 & l2 & E & I). exists (p ++ l1), l2. split; auto. rewrite E, app_assoc. reflexivity. Qed.
Lemma after_inv e1 e2 p l : after e1 e2 (p ++ l) -> after e1 e2 l \/ (In e2 p /\ (In e1 p \/ In e1 l)).
Proof.
  induction p as [|x p IH]; cbn; auto. intros (l1 & l2 & E & I). destruct l1 as [|y l1]; cbn in E; injection E as E1 E2.
  - subst. right. split; auto. apply in_app_or in I. destruct I; auto.
  - destruct IH as [A|[A B]]; auto; [exists l1, l2; auto|]. right. split; auto. destruct B; auto.
Qed.
Lemma timely_app p l : timely (p ++ l) -> timely l.
Proof. intros H X. apply H. apply after_app, X. Qed.

Definition inv (t k : bool) (c : cfg) : Prop := timely (log c) ->
  isin (cur c) = true /\ timed (cur c) = t /\ stoppable (cur c) = k /\
  (forall e, In e tracked -> times e (log c) = b2n (flag e (cur c))) /\
  times EOpen (log c) = times EClose (log c) + b2n (opened (cur c)) /\
  (after EReqRet EBegin (log c) -> k = true -> q (cur c) = true /\ ~ In EValue (log c)) /\
  (after EReq ECall (log c) -> k = true -> r (cur c) = true) /\
  (In EStopped (log c) -> after EReq EStopped (log c)) /\
  (In EValue (log c) -> after EBegin EValue (log c)).
Lemma inv_init t k : inv t k (start t k).
Proof.
  intros _. cbn. split; [apply init_in|]. split; auto. split; auto. split.
  - intros e E. repeat (destruct E as [<-|E]; [reflexivity|]). destruct E.
  - split; auto. assert (Z : forall e1 e2, ~ after e1 e2 []) by (intros e1 e2 (l1 & l2 & E & _); destruct l1; discriminate). split; [intros X; elim (Z _ _ X)|]. split; [intros X; elim (Z _ _ X)|]. split; tauto.
Qed.
Lemma gstep_step c a c' : step c a = Some c' -> timely (log c') -> (In EWaited (log c) <-> waited (cur c) = true) -> exists es, gstep (cur c) a = Some (cur c', es) /\ log c' = rev es ++ log c.
Proof.
  unfold step. destruct (step1 (cur c) a) as [[s es]|] eqn:E; [|discriminate]. intros H T W. injection H as <-. cbn [cur log] in *. exists es. split; auto.
  unfold gstep. destruct a; auto. destruct (waited (cur c)) eqn:X; auto. exfalso. cbn in E. destruct (jb (cur c)); try discriminate. injection E as <- <-.
  apply T. exists [], (log c). cbn. split; auto. apply W, eq_refl.
Qed.
Lemma in_revapp (e : event) es l : In e (rev es ++ l) <-> In e es \/ In e l.
Proof. rewrite in_app_iff, <- in_rev. reflexivity. Qed.
Lemma after_new e1 e2 es l : ~ after e1 e2 l -> ~ In e1 es -> after e1 e2 (rev es ++ l) -> In e2 es /\ In e1 l.
Proof. intros N M H. apply after_inv in H. destruct H as [H|[A B]]; [tauto|]. rewrite <- in_rev in A. split; auto. destruct B as [B|B]; auto. rewrite <- in_rev in B. tauto. Qed.
Lemma flag_in t k c e : timely (log c) -> inv t k c -> In e tracked -> (In e (log c) <-> flag e (cur c) = true).
Proof. intros T I E. destruct (I T) as (_ & _ & _ & B & _). rewrite times_in, (B e E). destruct (flag e (cur c)); cbn; split; auto; try lia; discriminate. Qed.
Lemma after_mid e1 e2 es l : In e2 es -> In e1 l -> after e1 e2 (rev es ++ l).
Proof.
  intros A B. apply in_rev in A. destruct (in_split _ _ A) as (x & y & E). exists x, (y ++ l). split; [rewrite E, <- app_assoc; reflexivity|]. apply in_app_iff; auto.
Qed.
Lemma inv_step t k c a c' : inv t k c -> step c a = Some c' -> inv t k c'.
Proof.
  intros I H T.
  assert (T0 : timely (log c)). { unfold step in H. destruct (step1 (cur c) a) as [[s es]|]; [|discriminate]. injection H as <-. cbn in T. eapply timely_app; eauto. }
  pose proof (@flag_in t k c) as F. destruct (@gstep_step _ _ _ H T (F EWaited T0 I ltac:(cbn; tauto))) as (es & G & L).
  pose proof (fun e X => F e T0 I X) as FI. clear F.
  destruct (I T0) as (A1 & A2 & A3 & A4 & A5 & A6 & A7 & A8 & A9). clear I H.
  destruct (gstep_ok _ _ A1 G) as [B1 B]. apply trans_T in B. rewrite L.
  split; [exact B1|]. split; [rewrite <- (t_timed B); auto|]. split; [rewrite <- (t_stoppable B); auto|]. split.
  { intros e E. rewrite times_app, (A4 e E). apply (t_agrees B E). }
  split. { rewrite !times_app. pose proof (t_open B). lia. }
  split.
  { intros X K. apply after_inv in X. destruct X as [X|[X1 X2]].
    - destruct (A6 X K) as [Q1 Q2]. destruct (t_q B Q1) as [Q3 Q4]. split; auto. rewrite in_revapp. tauto.
    - rewrite <- in_rev in X1, X2. destruct (t_begin B X1) as [N M]. destruct X2 as [X2|X2]; [tauto|].
      assert (Q : q (cur c') = true). { apply M; [|congruence]. apply FI; [cbn; tauto|auto]. }
      split; auto. rewrite in_revapp. intros [Y|Y]; [apply (t_value B) in Y; tauto|].
      (* a value before the callback began *)
      destruct (A9 Y) as (u1 & u2 & U & V).
      assert (W : times EBegin (log c) = 0). { pose proof (@t_agrees _ _ _ _ B EBegin ltac:(cbn; tauto)) as D. apply times_in in X1. rewrite (A4 EBegin ltac:(cbn; tauto)). destruct (flag EBegin (cur c)), (flag EBegin (cur c')); cbn in *; lia. }
      assert (Z : In EBegin (log c)) by (rewrite U; apply in_app_iff; cbn; auto). apply times_in in Z. lia. }
  split.
  { intros X K. apply after_inv in X. destruct X as [X|[X1 X2]]; [apply (t_r B); auto|]. rewrite <- in_rev in X1, X2. destruct (t_call B X1) as [N M]. destruct X2 as [X2|X2]; [tauto|].
    apply M; [|congruence]. apply (FI EReq); [cbn; tauto|auto]. }
  split.
  { intros X. apply in_revapp in X. destruct X as [X|X]; [|apply after_app; auto]. apply after_mid; auto. apply (FI EReq); [cbn; tauto|]. cbn. apply (t_stopped B X). }
  intros X. apply in_revapp in X. destruct X as [X|X]; [|apply after_app; auto]. apply after_mid; auto. apply (FI EBegin); [cbn; tauto|]. cbn. destruct (t_value B X) as [_ Y]. rewrite Y. auto.
Qed.
Lemma runs_inv t k l : forall c c', inv t k c -> runs l c = Some c' -> inv t k c'.
Proof.
  induction l as [|a l IH]; cbn; intros c c' I H; [injection H as <-; auto|]. destruct (step c a) as [c1|] eqn:E; [|discriminate]. eapply IH; [|eauto]. eapply inv_step; eauto.
Qed.
Lemma reach_inv t k c : reachable t k c -> inv t k c.
Proof. intros [l H]. eapply runs_inv; [apply inv_init|exact H]. Qed.
Lemma runs_mono l : forall c c', runs l c = Some c' -> exists p, log c' = p ++ log c.
Proof.
  induction l as [|a l IH]; cbn; intros c c' H; [injection H as <-; exists []; auto|]. unfold step in H at 1. destruct (step1 (cur c) a) as [[s es]|]; [|discriminate].
  destruct (IH _ _ H) as [p P]. exists (p ++ rev es). rewrite P. cbn. apply app_assoc.
Qed.

(** ** C66 *)
(** Nothing forbidden happens: no access to an operation that has been destroyed or to the freed state word, whenever the receiver destroys the operation after its completion; nothing is freed or destroyed twice, and
    no assertion fails. *)
Theorem winpool_safe_partial : forall t k c, reachable t k c -> timely (log c) -> ~ In EBad (log c).
Proof. intros t k c R T X. apply times_in in X. destruct (reach_inv R T) as (_ & _ & _ & B & _). rewrite (B EBad) in X by (cbn; tauto). cbn in X. lia. Qed.

(** At most one completion. *)
Theorem winpool_once_partial : forall t k c, reachable t k c -> timely (log c) -> times EValue (log c) + times EStopped (log c) <= 1.
Proof.
  intros t k c R T. destruct (reach_inv R T) as (A & _ & _ & B & _). rewrite (B EValue), (B EStopped) by (cbn; tauto).
  assert (Z := @holds_in (fun x => negb (flag EValue x && flag EStopped x)) _ ltac:(vm_compute; reflexivity) A). cbv beta in Z. destruct (flag EValue (cur c)), (flag EStopped (cur c)); cbn in *; try lia; discriminate.
Qed.

(** No deadlock and nothing lost: if no thread can go on, an operation that was started has completed exactly once. *)
Theorem winpool_completes_partial : forall t k c, reachable t k c -> timely (log c) -> quiet c -> In ECall (log c) -> times EValue (log c) + times EStopped (log c) = 1.
Proof.
  intros t k c R T Q C. pose proof (winpool_once_partial R T) as O. destruct (reach_inv R T) as (A & _ & _ & B & _). apply times_in in C. rewrite (B EValue), (B EStopped) in * by (cbn; tauto). rewrite (B ECall) in C by (cbn; tauto).
  assert (Z := @holds_in (fun x => implb (flag ECall x && match sstep x false with None => true | _ => false end && match rstep x false with None => true | _ => false end && match pstep x with None => true | _ => false end
                             && match jb x with JArmed => false | _ => true end) (flag EValue x || flag EStopped x)) _ ltac:(vm_compute; reflexivity) A). cbv beta in Z.
  destruct (Q false) as (Q1 & Q2 & Q3 & Q4). unfold step in Q1, Q2, Q3, Q4. cbn [step1] in Q1, Q2, Q3, Q4.
  destruct (sstep (cur c) false) as [[]|]; [discriminate|]. destruct (rstep (cur c) false) as [[]|]; [discriminate|]. destruct (pstep (cur c)) as [[]|]; [discriminate|].
  destruct (flag ECall (cur c)); [|cbn in C; lia]. destruct (jb (cur c)); try discriminate Q4; cbn [implb andb] in Z; destruct (flag EValue (cur c)), (flag EStopped (cur c)); cbn in *; try lia; discriminate.
Qed.
(** ... and it always comes to that: a history has at most 232 steps, not counting those in which a compare_exchange_weak or a system call fails. *)
Lemma mu_run t k l : forall c c', inv t k c -> runs l c = Some c' -> timely (log c') -> mu (cur c') + length l <= mu (cur c) + length (filter fails l).
Proof.
  induction l as [|a l IH]; intros c c' I H T; [injection H as <-; cbn; lia|]. cbn [runs] in H. destruct (step c a) as [c1|] eqn:E; [|discriminate].
  destruct (runs_mono _ _ H) as [p P]. assert (T1 : timely (log c1)) by (rewrite P in T; eapply timely_app; eauto).
  pose proof (inv_step _ I E) as I1. specialize (IH _ _ I1 H T).
  assert (T0 : timely (log c)). { unfold step in E. destruct (step1 (cur c) a) as [[s es]|]; [|discriminate]. injection E as <-. cbn in T1. eapply timely_app; eauto. }
  destruct (@gstep_step _ _ _ E T1 (@flag_in t k c EWaited T0 I ltac:(cbn; tauto))) as (es & G & _).
  destruct (I T0) as (A1 & _). destruct (gstep_ok _ _ A1 G) as [_ B]. apply trans_T, t_mu in B. cbn [length filter]. destruct (fails a); cbn [length negb b2n] in *; lia.
Qed.
Theorem winpool_terminates_partial : forall t k l c, runs l (start t k) = Some c -> timely (log c) -> length l <= 232 + length (filter fails l).
Proof. intros t k l c H T. pose proof (@mu_run t k l _ _ (@inv_init t k) H T) as M. destruct t, k; cbn in M; lia. Qed.

(** The memory of the state word and the system object: freed, closed at most once, never if not made; and when the operation has been destroyed (or its constructor threw) and no thread can go on, exactly as often. *)
Theorem winpool_resources_partial : forall t k c, reachable t k c -> timely (log c) ->
  (times EFree (log c) <= times EAlloc (log c) <= 1 /\ times EClose (log c) <= times EOpen (log c)) /\
  (quiet c -> In EDestroy (log c) \/ In EThrow (log c) -> times EFree (log c) = times EAlloc (log c) /\ times EClose (log c) = times EOpen (log c)).
Proof.
  intros t k c R T. destruct (reach_inv R T) as (A & _ & _ & B & C & _). rewrite (B EFree), (B EAlloc) by (cbn; tauto). split; [split|].
  - cbn. destruct (bl (cur c)); cbn; lia.
  - lia.
  - intros Q D.
    assert (Z := @holds_in (fun x => implb ((flag EDestroy x || flag EThrow x) && match sstep x false with None => true | _ => false end) (negb (opened x) && Bool.eqb (flag EFree x) (flag EAlloc x))) _ ltac:(vm_compute; reflexivity) A). cbv beta in Z.
    destruct (Q false) as (Q1 & _). unfold step in Q1. cbn [step1] in Q1. destruct (sstep (cur c) false) as [[]|]; [discriminate|].
    assert (F : flag EDestroy (cur c) || flag EThrow (cur c) = true).
    { destruct D as [D|D]; apply times_in in D; [rewrite (B EDestroy) in D by (cbn; tauto) | rewrite (B EThrow) in D by (cbn; tauto)]; destruct (flag EDestroy (cur c)), (flag EThrow (cur c)); cbn in *; auto; lia. }
    rewrite F in Z. cbn [implb andb] in Z. apply andb_prop in Z. destruct Z as [Z1 Z2]. apply eqb_prop in Z2. rewrite Z2. apply negb_true_iff in Z1. rewrite Z1 in C. cbn in C. split; lia.
Qed.

(** Cancellation.  Stopped is reported only after a stop was requested; a value only after the pool began to run the callback. *)
Theorem winpool_channel_partial : forall t k c, reachable t k c -> timely (log c) ->
  (In EStopped (log c) -> after EReq EStopped (log c)) /\ (In EValue (log c) -> after EBegin EValue (log c)).
Proof. intros t k c R T. destruct (reach_inv R T) as (_ & _ & _ & _ & _ & _ & _ & X & Y). auto. Qed.
(** If the stop was requested before start(), nothing is submitted to the pool, and the operation is stopped. *)
Theorem winpool_stop_before_start_partial : forall t c, reachable t true c -> timely (log c) -> after EReq ECall (log c) -> ~ In ESubmit (log c) /\ In EStopped (log c) /\ ~ In EValue (log c).
Proof.
  intros t c R T X. pose proof (winpool_once_partial R T) as O. destruct (reach_inv R T) as (_ & _ & _ & B & _ & _ & Y & _ & _). specialize (Y X eq_refl). unfold r in Y. destruct (sp (cur c)) eqn:E1; try discriminate. destruct (jb (cur c)) eqn:E2; try discriminate.
  assert (S : In EStopped (log c)) by (apply times_in; rewrite (B EStopped) by (cbn; tauto); cbn; rewrite Y; cbn; lia).
  split; [|split; [exact S|]]; intros Z; apply times_in in Z.
  - rewrite (B ESubmit) in Z by (cbn; tauto). cbn in Z. rewrite E2 in Z. cbn in Z. lia.
  - apply times_in in S. lia.
Qed.
(** If request_stop() returned before the pool began to run the callback, the operation does not complete with a value. *)
Theorem winpool_stop_before_run_partial : forall t c, reachable t true c -> timely (log c) -> after EReqRet EBegin (log c) -> ~ In EValue (log c).
Proof. intros t c R T X. destruct (reach_inv R T) as (_ & _ & _ & _ & _ & Y & _). apply (Y X eq_refl). Qed.

(** The proviso holds of every operation without a timer. *)
Theorem no_timer_timely : forall k c, reachable false k c -> timely (log c).
Proof.
  intros k c R.
  assert (G : timely (log c) /\ ~ In EExpire (log c)); [|tauto].
  destruct R as [l H]. revert H.
  assert (J : forall l c c', inv false k c -> timely (log c) -> ~ In EExpire (log c) -> runs l c = Some c' -> timely (log c') /\ ~ In EExpire (log c')).
  { clear. induction l as [|a l IH]; cbn [runs]; intros c c' I T N H; [injection H as <-; auto|]. destruct (step c a) as [c1|] eqn:E; [|discriminate].
    pose proof (inv_step _ I E) as I1. destruct (I T) as (A & B & _).
    assert (X : ~ In EExpire (log c1)).
    { unfold step in E. destruct (step1 (cur c) a) as [[s es]|] eqn:E1; [|discriminate]. injection E as <-. cbn [log]. rewrite in_revapp. intros [Y|Y]; auto.
      assert (G : gstep (cur c) a = Some (s, es)).
      { destruct a; auto. cbn in E1. destruct (jb (cur c)) eqn:EJ; try discriminate.
        assert (Z := @holds_in (fun x => implb (negb (timed x)) (match jb x with JArmed => false | _ => true end)) _ ltac:(vm_compute; reflexivity) A). cbv beta in Z. rewrite B, EJ in Z. discriminate. }
      destruct (gstep_ok _ _ A G) as [_ Z]. apply trans_T in Z. apply (t_expire Z) in Y. destruct Y as [Y _]. congruence. }
    eapply IH; eauto. intros (l1 & l2 & Z & _). apply X. rewrite Z. apply in_elt. }
  apply J; [apply inv_init| |tauto]. intros (l1 & l2 & Z & _). destruct l1; discriminate.
Qed.
(** So schedule() is right without any proviso. *)
Theorem winpool_schedule : forall k c, reachable false k c ->
  ~ In EBad (log c) /\ times EValue (log c) + times EStopped (log c) <= 1 /\ (quiet c -> In ECall (log c) -> times EValue (log c) + times EStopped (log c) = 1).
Proof.
  intros k c R. pose proof (no_timer_timely R) as T. split; [apply (winpool_safe_partial R T)|]. split; [apply (winpool_once_partial R T)|]. apply (winpool_completes_partial R T).
Qed.

(** ** What goes wrong with a timer *)
(** WaitForThreadpoolTimerCallbacks does not disarm the timer.  A cancelled schedule_at whose timer expires just then: the callback runs on the destroyed operation. *)
Definition cancelled_timer := [AS false; AS false; AS false; AS false; AS false; AS false; AS false;  (* made and started *)
  AReq; AR false; AR false;        (* stop is requested; the flag is set *)
  AR false;                        (* the cancelling wait: nothing is queued *)
  AClock;                          (* the timer expires *)
  AR false; AR false; ADestroy;    (* set_stopped, the receiver destroys the operation *)
  AP; AP].                         (* the pool runs the callback *)
Theorem winpool_timer_refuted : exists c, reachable true true c /\ In EBad (log c) /\ In EDestroy (log c) /\ times EStopped (log c) = 1.
Proof.
  destruct (runs cancelled_timer (start true true)) as [c|] eqn:E; [|vm_compute in E; discriminate]. exists c. split; [exists cancelled_timer; exact E|]. vm_compute in E. injection E as <-. cbn. intuition.
Qed.

(** ** Non-vacuity *)
(** schedule(): the stop is requested while the work is being submitted; start() completes the operation, while the pool thread is running the callback *)
Example winpool_race_ex : option_map (fun c => (rev (log c), timed (cur c)))
  (runs [AS false; AS false; AS false; AS false; AReq; AR false; AS false; AS false; AR true; AR false; AR false; AP; AS false; AP; AP; AS false; AS false; AS false; ADestroy; AS false] (start false true))
  = Some ([EOpen; EAlloc; ECall; EReq; ESubmit; EReqRet; EBegin; EWaited; EStopped; EDestroy; EClose; EFree], false).
Proof. vm_compute. reflexivity. Qed.
(** the callback wins, and the operation is destroyed before start() has come back from SubmitThreadpoolWork *)
Example winpool_early_ex : option_map (fun c => rev (log c))
  (runs [AS false; AS false; AS false; AS false; AS false; AS false; AP; AP; AP; AReq; AP; AP; AP; ADestroy; AS false; AS false; AP] (start false true))
  = Some [EOpen; EAlloc; ECall; ESubmit; EBegin; EReq; EReqRet; EValue; EDestroy; EClose; EFree].
Proof. vm_compute. reflexivity. Qed.
(** a timer that expires before the cancelling wait, which waits for the callback *)
Example winpool_timer_ex : option_map (fun c => (rev (log c), match step c (AR false) with None => true | _ => false end))
  (runs [AS false; AS false; AS false; AS false; AS false; AS false; AS false; AReq; AR false; AR false; AClock; AP; AP] (start true true))
  = Some ([EOpen; EAlloc; ECall; ESubmit; EReq; EExpire; EBegin], true).
Proof. vm_compute. reflexivity. Qed.
