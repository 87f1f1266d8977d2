(** C64: bulk on pools derived from thread_pool_base and on libdispatch_queue. *)
From Coq Require Import List Bool Arith NArith ZArith Lia.
From Verif Require Import Conc EvenShareModel EvenShareProperties PoolBaseModel.
Import ListNotations.
Set Implicit Arguments.

(** ** Specification *)
Definition is_compl e := match e with ECompl _ => true | _ => false end.
Definition completions (l : list event) := cnt is_compl l.
Definition is_call t e := match e with ECall u => u =? t | _ => false end.
Definition calls t (l : list event) := cnt (is_call t) l.
(** the enqueuer has returned and no task is left *)
Definition over (s : state) := en s = EEnd /\ forall t p, nth_error (tk s) t = Some p -> p = TNone \/ p = TDone.
(** the indices a task calls the function for: TP L236, LQ L360 *)
Definition covers (l : lib) (shape n : N) (t : nat) (i : N) : Prop :=
  match l with Base => let '(b, e) := even_share shape (N.of_nat t) n in (b <= i < e)%N | Disp => i = N.of_nat t end.

(** ** Examples *)
Example ex_ok : option_map (fun s => rev (log s)) (runs 100 Base [APred PVal; AEnq; ATask 0 false; AEnq; ATask 1 false; ATask 1 true; ATask 0 false; ATask 1 true; AEnq; ATask 0 false; ATask 1 false; ATask 1 false; ATask 1 false] (init 100 2)) =
  Some [ECall 0; ECall 1; EThrow 1; ECompl (CErr (Some 1))].
Proof. vm_compute. reflexivity. Qed.
Example ex_val : option_map (fun s => rev (log s)) (runs 100 Disp [APred PVal; AEnq; ATask 0 false; ATask 0 false; ATask 0 false; AEnq; ATask 1 false; AEnq; ATask 1 false; ATask 1 false; ATask 1 false] (init 100 2)) =
  Some [ECall 0; ECall 1; ECompl CVal].
Proof. vm_compute. reflexivity. Qed.

Example ex_base : option_map (fun s => rev (log s)) (runs 100 Base [APred PVal; AEnq; AEnq; ATask 1 false; AEnq; ATask 0 false; ATask 0 false; ATask 0 false; ATask 1 false; ATask 1 false; ATask 1 false] (init 100 2)) =
  Some [ECall 1; ECall 0; ECompl CVal] /\ covers Base 5 2 0 2 /\ covers Base 5 2 1 3.
Proof. repeat split; vm_compute; congruence. Qed.

(** Refuted: libdispatch's loop reads the shape after the last task was submitted, when the operation may be over and destroyed. *)
Theorem dispatch_bulk_loop_refuted : exists s, reachable 100 Disp 1 s /\ In (EBad None) (log s).
Proof.
  destruct (runs 100 Disp [APred PVal; AEnq; ATask 0 false; ATask 0 false; ATask 0 false; ATask 0 false; AEnq] (init 100 1)) as [s|] eqn:E; [|vm_compute in E; discriminate].
  exists s. split; [eexists; exact E|]. vm_compute in E. injection E as <-. cbn. auto.
Qed.
(** Refuted: with more than 2^32 - 1 indices libdispatch's bulk may complete after the first call of the function. *)
Theorem dispatch_bulk_wraps_refuted : forall W, 2 <= W -> exists s, reachable W Disp (S W) s /\ log s = [ECompl CVal; ECall 0].
Proof.
  intros W HW. assert (E1 : S W mod W = 1). { replace (S W) with (1 + 1 * W) by lia. rewrite Nat.mod_add by lia. apply Nat.mod_small. lia. }
  assert (E2 : (1 + W - 1) mod W = 0). { replace (1 + W - 1) with (0 + 1 * W) by lia. rewrite Nat.mod_add by lia. apply Nat.mod_small. lia. }
  eexists. split; [exists [APred PVal; AEnq; ATask 0 false; ATask 0 false; ATask 0 false; ATask 0 false]|].
  - unfold init. cbn -[Nat.modulo repeat]. rewrite repeat_length. cbn -[Nat.modulo repeat Nat.ltb]. rewrite repeat_length. change (0 <? S W) with true. cbn -[Nat.modulo repeat Nat.ltb].
    cbn [repeat upd nth_error]. cbn -[Nat.modulo repeat Nat.ltb Nat.sub Nat.add]. rewrite repeat_length, E1, E2. cbn -[Nat.modulo repeat]. reflexivity.
  - cbn. reflexivity.
Qed.

(** ** Invariant *)
Definition counted p := match p with TLast | TDone => true | _ => false end.
Definition is_last p := match p with TLast => true | _ => false end.
Definition pcall (p : option tpc) := match p with None | Some TNone | Some TQueued => 0 | _ => 1 end.
Record rinv (l : lib) (n : nat) (s : state) : Prop := mki {
  r_len : length (tk s) = n;
  r_pos : 0 < n;
  r_en : match en s with EPre => False | ELoop i => i <= n /\ (forall t, t < n -> (nth_error (tk s) t = Some TNone <-> i <= t)) | EEnd => forall t, nth_error (tk s) t <> Some TNone end;
  r_fin : fin s = cnt counted (tk s);
  r_last : cnt is_last (tk s) + (if dead s then 1 else 0) = (if cnt counted (tk s) =? n then 1 else 0);
  r_twe : (twe s = n /\ exc s = None /\ (forall t, In (EThrow t) (log s) -> nth_error (tk s) t = Some TCas) /\ (forall t, nth_error (tk s) t <> Some TExc)) \/
          (exists x, twe s = x /\ x < n /\ In (EThrow x) (log s) /\ ((exc s = None /\ nth_error (tk s) x = Some TExc) \/ exc s = Some x) /\ (forall t, nth_error (tk s) t = Some TExc -> t = x /\ exc s = None));
  r_thr : forall t, nth_error (tk s) t = Some TCas -> In (EThrow t) (log s);
  r_call : forall t, calls t (log s) = pcall (nth_error (tk s) t);
  r_bad : forall o, In (EBad o) (log s) -> o = None /\ l = Disp;
  r_comp : completions (log s) = (if dead s then 1 else 0);
  r_after : forall l1 l2 c, log s = l1 ++ ECompl c :: l2 -> forall e, In e l1 -> e = EBad None;
  r_chan : forall c, In (ECompl c) (log s) -> (c = CVal /\ forall t, ~ In (EThrow t) (log s)) \/ (exists x, c = CErr (Some x) /\ In (EThrow x) (log s)) }.
Definition dinv n s := en s = EEnd /\ tk s = repeat TNone n /\ exists c, log s = [ECompl c] /\ (c = CVal -> n = 0) /\ (forall x, c <> CErr (Some x)).
Definition inv W l n s := s = init W n \/ dinv n s \/ rinv l n s.

Lemma cnt_upd A (p : A -> bool) (l : list A) i x a : nth_error l i = Some a -> cnt p (upd l i x) + (if p a then 1 else 0) = cnt p l + (if p x then 1 else 0).
Proof. revert i. induction l as [|y l IH]; intros [|i] H; cbn in *; try discriminate; [injection H as ->; lia|]. specialize (IH _ H). lia. Qed.
Lemma cnt_le A (p : A -> bool) (l : list A) : cnt p l <= length l.
Proof. induction l as [|y l IH]; cbn; auto. destruct (p y); lia. Qed.
Lemma cnt_all A (p : A -> bool) (l : list A) : cnt p l = length l -> forall i a, nth_error l i = Some a -> p a = true.
Proof.
  induction l as [|y l IH]; intros H [|i] a E; cbn in *; try discriminate; pose proof (cnt_le p l); destruct (p y) eqn:P; try lia; [congruence|]. apply (IH ltac:(lia) i); auto.
Qed.
Lemma cnt_none A (p : A -> bool) (l : list A) : cnt p l = 0 -> forall i a, nth_error l i = Some a -> p a = false.
Proof. intros H i a E. rewrite cnt_zero in H. apply H. eapply nth_error_In; eauto. Qed.
Lemma calls_repeat n t : pcall (nth_error (repeat TNone n) t) = 0.
Proof. destruct (nth_error (repeat TNone n) t) eqn:E; auto. apply nth_repeat_some in E. subst. auto. Qed.
(** after the completion no task is left *)
Lemma dead_done l n s : rinv l n s -> dead s = true -> forall t p, nth_error (tk s) t = Some p -> p = TDone.
Proof.
  intros R D t p E. pose proof (r_last R) as X. rewrite D in X. destruct (Nat.eqb_spec (cnt counted (tk s)) n) as [Y|]; [|lia]. rewrite <- (r_len R) in Y. pose proof (cnt_all _ _ Y _ E) as P.
  assert (Z : cnt is_last (tk s) = 0) by lia. pose proof (cnt_none _ _ Z _ E) as Q. destruct p; try discriminate; auto.
Qed.
Lemma nocompl l : completions l = 0 -> forall l1 l2 c, l = l1 ++ ECompl c :: l2 -> False.
Proof. intros H l1 l2 c ->. unfold completions in H. rewrite cnt_app in H. cbn in H. lia. Qed.
Lemma nocompl_in l : completions l = 0 -> forall c, ~ In (ECompl c) l.
Proof. intros H c I. apply in_split in I. destruct I as (l1 & l2 & E). eapply nocompl; eauto. Qed.

Lemma start_inv W l n : n < W -> 0 < n -> rinv l n (w_en (init W n) (ELoop 0)).
Proof.
  intros HW H. assert (CZ : forall p, p TNone = false -> cnt p (repeat TNone n) = 0). { intros p P. apply cnt_zero. intros x I. apply repeat_spec in I. subst; auto. }
  constructor; cbn; auto; try (intros; tauto); try (intros; discriminate).
  - apply repeat_length.
  - split; [lia|]. intros t L. split; [lia|]. intros _. rewrite nth_error_repeat; auto.
  - rewrite CZ; auto.
  - rewrite !CZ; auto. destruct (Nat.eqb_spec 0 n); lia.
  - left. rewrite Nat.mod_small by lia. repeat split; auto; try tauto. intros t E. apply nth_repeat_some in E. discriminate.
  - intros t E. apply nth_repeat_some in E. discriminate.
  - intros t. rewrite calls_repeat. auto.
  - intros l1 l2 c E. destruct l1; discriminate.
Qed.

Lemma enq_inv l n s i s1 : rinv l n s -> en s = ELoop i -> s1 = match l with Base => s | Disp => touch s None end ->
  rinv l n (if i <? n then w_en (w_tk s1 i TQueued) (ELoop (S i)) else w_en s1 EEnd).
Proof.
  intros R E ->. pose proof (r_en R) as RE. rewrite E in RE. destruct RE as [RE1 RE2].
  assert (X : exists s1, s1 = match l with Base => s | Disp => touch s None end /\ en s1 = en s /\ tk s1 = tk s /\ fin s1 = fin s /\ twe s1 = twe s /\ exc s1 = exc s /\ dead s1 = dead s /\
    (log s1 = log s \/ (l = Disp /\ dead s = true /\ log s1 = EBad None :: log s))).
  { unfold touch. destruct l; [eexists; repeat split; auto|]. destruct (dead s) eqn:D; eexists; repeat split; cbn; auto. }
  destruct X as (s1 & <- & Q1 & Q2 & Q3 & Q4 & Q5 & Q6 & Q7).
  assert (IN : forall e, In e (log s1) -> In e (log s) \/ (e = EBad None /\ l = Disp)). { destruct Q7 as [-> | (Y & _ & ->)]; [auto|]. cbn. intros e [<-|]; auto. }
  assert (IN2 : forall e, In e (log s) -> In e (log s1)). { destruct Q7 as [-> | (Y & _ & ->)]; cbn; auto. }
  assert (RR : r_twe R = r_twe R) by auto. clear RR.
  assert (COMMON : completions (log s1) = (if dead s then 1 else 0) /\ (forall t, calls t (log s1) = calls t (log s)) /\ (forall l1 l2 c, log s1 = l1 ++ ECompl c :: l2 -> forall e, In e l1 -> e = EBad None)).
  { pose proof (r_comp R) as C. pose proof (r_after R) as A. destruct Q7 as [-> | (Y & _ & ->)]; [auto|]. split; [exact C|]. split; [auto|]. intros [|e0 l1] l2 c H e; cbn in *; [tauto|]. injection H as <- H. intros [<-|I]; auto. eapply A; eauto. }
  destruct COMMON as (C1 & C2 & C3).
  assert (THR : forall t, In (EThrow t) (log s1) <-> In (EThrow t) (log s)). { intros t. split; auto. intros X. apply IN in X. destruct X as [X|[X _]]; auto; discriminate. }
  assert (CH : forall c, In (ECompl c) (log s1) -> (c = CVal /\ forall t, ~ In (EThrow t) (log s1)) \/ (exists x, c = CErr (Some x) /\ In (EThrow x) (log s1))).
  { intros c X. apply IN in X. destruct X as [X|[X _]]; [|discriminate]. destruct (r_chan R _ X) as [[Y Z]|[x [Y Z]]]; [left|right; exists x; rewrite THR; auto]. split; auto. intros t T. apply THR in T. eapply Z; eauto. }
  assert (BD : forall o, In (EBad o) (log s1) -> o = None /\ l = Disp). { intros o X. apply IN in X. destruct X as [X|[X Y]]; [apply (r_bad R _ X)|]. injection X as ->. auto. }
  destruct (Nat.ltb_spec i n) as [L|L].
  - assert (NI : nth_error (tk s) i = Some TNone) by (apply RE2; auto). assert (NU := fun t x => @nth_upd _ (tk s) i t x TNone NI). assert (DF : dead s = false). { destruct (dead s) eqn:D; auto. pose proof (dead_done R D _ NI). discriminate. }
    assert (CU := fun p => @cnt_upd _ p (tk s) i TQueued TNone NI).
    constructor; cbn; rewrite ?Q2, ?Q3, ?Q4, ?Q5, ?Q6; auto.
    + rewrite upd_length. apply (r_len R).
    + apply (r_pos R).
    + split; [lia|]. intros t T. rewrite NU. destruct (Nat.eqb_spec i t) as [->|N]; [split; [discriminate|lia]|]. rewrite (RE2 t T). lia.
    + rewrite (r_fin R). specialize (CU counted). cbn in CU. lia.
    + pose proof (CU counted) as A1. pose proof (CU is_last) as A2. cbn in A1, A2. rewrite !Nat.add_0_r in A1, A2. rewrite A1, A2. apply (r_last R).
    + destruct (r_twe R) as [(A1 & A2 & A3 & A4)|(x & A1 & A2 & A3 & A4 & A5)].
      * left. repeat split; auto. { intros t T. rewrite NU. apply THR in T. pose proof (A3 t T). destruct (Nat.eqb_spec i t); [congruence|auto]. } intros t. rewrite NU. destruct (Nat.eqb_spec i t); [discriminate|auto].
      * right. exists x. repeat split; auto. { destruct A4 as [[A4 A6]|A4]; auto. left. split; auto. rewrite NU. destruct (Nat.eqb_spec i x); [congruence|auto]. }
        { rewrite NU in H. destruct (Nat.eqb_spec i t); [discriminate|]. apply A5; auto. } { rewrite NU in H. destruct (Nat.eqb_spec i t); [discriminate|]. apply (A5 t); auto. }
    + intros t. rewrite NU. destruct (Nat.eqb_spec i t); [discriminate|]. intros X. apply IN2, (r_thr R); auto.
    + intros t. change (calls t (log s1) = pcall (nth_error (upd (tk s) i TQueued) t)). rewrite C2, NU, (r_call R). destruct (Nat.eqb_spec i t) as [->|]; auto. rewrite NI. auto.
  - destruct R as [R1 R2 R3 R4 R5 R6 R7 R8 R9 R10 R11 R12]. constructor; cbn; rewrite ?Q2, ?Q3, ?Q4, ?Q5, ?Q6; auto.
    + intros t T. assert (t < n) by (rewrite <- R1; apply nth_error_Some; congruence). apply RE2 in T; auto. lia.
    + destruct R6 as [(A1 & A2 & A3 & A4)|(x & A1 & A2 & A3 & A4 & A5)]; [left|right; exists x; rewrite THR; auto]. repeat split; auto. intros t T. apply A3, THR, T.
    + intros t. change (calls t (log s1) = pcall (nth_error (tk s) t)). rewrite C2. auto.
Qed.

(** a step of task t that moves it from [a] to [b], neither of them counted *)
Lemma task_inv W l n s t thr s' : n < W -> rinv l n s -> step W l s (ATask t thr) = Some s' -> rinv l n s'.
Proof.
  intros HW R H. cbn in H. rewrite (r_len R), (Nat.mod_small n W) in H by lia. destruct (nth_error (tk s) t) as [p|] eqn:NT; [|discriminate].
  assert (T : t < n) by (rewrite <- (r_len R); apply nth_error_Some; congruence).
  assert (NU := fun u x => @nth_upd _ (tk s) t u x p NT). assert (CU := fun q x => @cnt_upd _ q (tk s) t x p NT). pose proof (r_pos R) as PN.
  assert (DF : dead s = false). { destruct (dead s) eqn:D; auto. pose proof (dead_done R D _ NT). subst. discriminate. }
  assert (TO : forall o, touch s o = s) by (intros; unfold touch; rewrite DF; auto).
  rewrite !TO in H. pose proof (r_comp R) as RC. rewrite DF in RC.
  assert (EN : forall x, p <> TNone -> x <> TNone -> match en s with EPre => False | ELoop i => i <= n /\ (forall t0, t0 < n -> (nth_error (upd (tk s) t x) t0 = Some TNone <-> i <= t0)) | EEnd => forall t0, nth_error (upd (tk s) t x) t0 <> Some TNone end).
  { intros x P X. pose proof (r_en R) as RE. destruct (en s); auto; [destruct RE as [RE1 RE2]; split; auto|]; intros u.
    - intros U. rewrite <- RE2, NU by auto. destruct (Nat.eqb_spec t u) as [->|]; [|tauto]. rewrite NT. split; congruence.
    - rewrite NU. destruct (Nat.eqb_spec t u); [congruence|auto]. }
  assert (LEN : forall x, length (upd (tk s) t x) = n) by (intros; rewrite upd_length; apply (r_len R)).
  pose proof (r_fin R) as RF. pose proof (r_last R) as RL. rewrite DF in RL. pose proof (r_twe R) as RT. pose proof (r_thr R) as RH. pose proof (r_call R) as RA. pose proof (r_bad R) as RB. pose proof (r_chan R) as RX.
  assert (NC := @nocompl_in _ RC). assert (NA := @nocompl _ RC).
  assert (NA2 : forall e, is_compl e = false -> forall l1 l2 c, e :: log s = l1 ++ ECompl c :: l2 -> False).
  { intros e E [|e0 l1] l2 c X; cbn in X; injection X as X1 X2; [subst; discriminate|eapply NA; eauto]. }
  assert (FIN0 : forall x, counted p = counted x -> cnt counted (upd (tk s) t x) = cnt counted (tk s)). { intros x E. specialize (CU counted x). rewrite E in CU. lia. }
  assert (LST0 : forall x, is_last p = is_last x -> cnt is_last (upd (tk s) t x) = cnt is_last (tk s)). { intros x E. specialize (CU is_last x). rewrite E in CU. lia. }
  assert (CALL0 : forall x, pcall (Some p) = pcall (Some x) -> forall u, calls u (log s) = pcall (nth_error (upd (tk s) t x) u)).
  { intros x E u. rewrite NU, RA. destruct (Nat.eqb_spec t u) as [->|]; auto. rewrite NT, E. auto. }
  destruct p; try discriminate.
  - (* TQueued *) injection H as <-. constructor; cbn -[Nat.eqb]; rewrite ?FIN0, ?LST0, ?DF by auto; auto.
    + apply EN; discriminate.
    + destruct RT as [(A1 & A2 & A3 & A4)|(x & A1 & A2 & A3 & A4 & A5)].
      * left. repeat split; auto. { intros u [U|U]; [discriminate|]. rewrite NU. pose proof (A3 u U). destruct (Nat.eqb_spec t u); [congruence|auto]. } intros u. rewrite NU. destruct (Nat.eqb_spec t u); [discriminate|auto].
      * right. exists x. split; [auto|]. split; [auto|]. split; [auto|]. split; [destruct A4 as [[A4 A6]|A4]; auto; left; split; auto; rewrite NU; destruct (Nat.eqb_spec t x); [congruence|auto]|].
        intros u. rewrite NU. destruct (Nat.eqb_spec t u); [discriminate|]. apply A5.
    + intros u. rewrite NU. destruct (Nat.eqb_spec t u); [discriminate|]. auto.
    + intros u. change ((if t =? u then 1 else 0) + calls u (log s) = pcall (nth_error (upd (tk s) t TCall) u)). rewrite NU, RA. destruct (Nat.eqb_spec t u) as [->|]; auto. rewrite NT. auto.
    + intros o [X|X]; [discriminate|auto].
    + intros l1 l2 c X. exfalso. eapply NA2; eauto. auto.
    + intros c [X|X]; [discriminate|]. exfalso. eapply NC; eauto.
  - (* TCall *) destruct thr; injection H as <-.
    + constructor; cbn -[Nat.eqb]; rewrite ?FIN0, ?LST0, ?DF by auto; auto.
      * apply EN; discriminate.
      * destruct RT as [(A1 & A2 & A3 & A4)|(x & A1 & A2 & A3 & A4 & A5)].
        -- left. repeat split; auto. { intros u [U|U]; rewrite NU; [injection U as ->; rewrite Nat.eqb_refl; auto|]. pose proof (A3 u U). destruct (Nat.eqb_spec t u); [congruence|auto]. } intros u. rewrite NU. destruct (Nat.eqb_spec t u); [discriminate|auto].
        -- right. exists x. split; [auto|]. split; [auto|]. split; [auto|]. split; [destruct A4 as [[A4 A6]|A4]; auto; left; split; auto; rewrite NU; destruct (Nat.eqb_spec t x); [congruence|auto]|].
           intros u. rewrite NU. destruct (Nat.eqb_spec t u); [discriminate|]. apply A5.
      * intros u. rewrite NU. destruct (Nat.eqb_spec t u); [subst; auto|]. auto.
      * intros u. change (calls u (log s) = pcall (nth_error (upd (tk s) t TCas) u)). auto.
      * intros o [X|X]; [discriminate|auto].
      * intros l1 l2 c X. exfalso. eapply NA2; eauto. auto.
      * intros c [X|X]; [discriminate|]. exfalso. eapply NC; eauto.
    + constructor; cbn -[Nat.eqb]; rewrite ?FIN0, ?LST0, ?DF by auto; auto.
      * apply EN; discriminate.
      * destruct RT as [(A1 & A2 & A3 & A4)|(x & A1 & A2 & A3 & A4 & A5)].
        -- left. repeat split; auto. { intros u U; rewrite NU. pose proof (A3 u U). destruct (Nat.eqb_spec t u); [congruence|auto]. } intros u. rewrite NU. destruct (Nat.eqb_spec t u); [discriminate|auto].
        -- right. exists x. split; [auto|]. split; [auto|]. split; [auto|]. split; [destruct A4 as [[A4 A6]|A4]; auto; left; split; auto; rewrite NU; destruct (Nat.eqb_spec t x); [congruence|auto]|].
           intros u. rewrite NU. destruct (Nat.eqb_spec t u); [discriminate|]. apply A5.
      * intros u. rewrite NU. destruct (Nat.eqb_spec t u); [discriminate|]. auto.
      * intros u. change (calls u (log s) = pcall (nth_error (upd (tk s) t TFin) u)). auto.
      * intros l1 l2 c X. exfalso. eapply NA; eauto.
  - (* TCas *) destruct (Nat.eqb_spec (twe s) n) as [TW|TW]; injection H as <-.
    + destruct RT as [(A1 & A2 & A3 & A4)|(x & A1 & A2 & A3 & A4 & A5)]; [|lia]. rewrite (Nat.mod_small t W) by lia.
      constructor; cbn -[Nat.eqb]; rewrite ?FIN0, ?LST0, ?DF by auto; auto.
      * apply EN; discriminate.
      * right. exists t. split; [auto|]. split; [auto|]. split; [auto|]. split; [left; rewrite NU, Nat.eqb_refl; auto|].
        intros u. rewrite NU. destruct (Nat.eqb_spec t u); [auto|]. intros X. destruct (A4 u X).
      * intros u. rewrite NU. destruct (Nat.eqb_spec t u); [discriminate|]. auto.
      * intros u. change (calls u (log s) = pcall (nth_error (upd (tk s) t TExc) u)). auto.
      * intros l1 l2 c X. exfalso. eapply NA; eauto.
    + destruct RT as [(A1 & A2 & A3 & A4)|(x & A1 & A2 & A3 & A4 & A5)]; [lia|].
      constructor; cbn -[Nat.eqb]; rewrite ?FIN0, ?LST0, ?DF by auto; auto.
      * apply EN; discriminate.
      * right. exists x. split; [auto|]. split; [auto|]. split; [auto|]. split; [destruct A4 as [[A4 A6]|A4]; auto; left; split; auto; rewrite NU; destruct (Nat.eqb_spec t x); [congruence|auto]|].
        intros u. rewrite NU. destruct (Nat.eqb_spec t u); [discriminate|]. apply A5.
      * intros u. rewrite NU. destruct (Nat.eqb_spec t u); [discriminate|]. auto.
      * intros u. change (calls u (log s) = pcall (nth_error (upd (tk s) t TFin) u)). auto.
      * intros l1 l2 c X. exfalso. eapply NA; eauto.
  - (* TExc *) injection H as <-.
    destruct RT as [(A1 & A2 & A3 & A4)|(x & A1 & A2 & A3 & A4 & A5)]; [destruct (A4 t NT)|]. destruct (A5 t NT) as [-> A6].
    constructor; cbn -[Nat.eqb]; rewrite ?FIN0, ?LST0, ?DF by auto; auto.
    + apply EN; discriminate.
    + right. exists x. split; [auto|]. split; [auto|]. split; [auto|]. split; [auto|]. intros u. rewrite NU. destruct (Nat.eqb_spec x u); [discriminate|]. intros U. destruct (A5 u U). congruence.
    + intros u. rewrite NU. destruct (Nat.eqb_spec x u); [discriminate|]. auto.
    + intros u. change (calls u (log s) = pcall (nth_error (upd (tk s) x TFin) u)). auto.
    + intros l1 l2 c X. exfalso. eapply NA; eauto.
  - (* TFin *) replace ((n + W - 1) mod W) with (n - 1) in H. 2:{ replace (n + W - 1) with (n - 1 + 1 * W) by lia. rewrite Nat.mod_add by lia. rewrite Nat.mod_small; lia. }
    pose proof (cnt_le counted (upd (tk s) t TDone)) as CL. rewrite LEN in CL. pose proof (CU counted TDone) as CD. cbn in CD.
    rewrite (Nat.mod_small (S (fin s)) W) in H by lia. injection H as <-.
    set (x := if fin s =? n - 1 then TLast else TDone). assert (XC : counted x = true) by (unfold x; destruct (fin s =? n - 1); auto).
    pose proof (CU counted x) as CX. rewrite XC in CX. cbn in CX. assert (XX : (x = TLast /\ fin s = n - 1) \/ (x = TDone /\ fin s <> n - 1)) by (unfold x; destruct (Nat.eqb_spec (fin s) (n - 1)); auto).
    constructor; cbn -[Nat.eqb]; rewrite ?DF by auto; fold x; auto.
    + apply EN; destruct XX as [[-> _]|[-> _]]; discriminate.
    + lia.
    + pose proof (CU is_last x) as CY. cbn in CY. destruct (Nat.eqb_spec (cnt counted (tk s)) n) as [|_]; [lia|]. clear -CX CY XX RF RL PN. clearbody x. destruct XX as [[-> F]|[-> F]]; cbn in CY; [destruct (Nat.eqb_spec (cnt counted (upd (tk s) t TLast)) n)|destruct (Nat.eqb_spec (cnt counted (upd (tk s) t TDone)) n)]; lia.
    + destruct RT as [(A1 & A2 & A3 & A4)|(y & A1 & A2 & A3 & A4 & A5)].
      * left. repeat split; auto. { intros u U; rewrite NU. pose proof (A3 u U). destruct (Nat.eqb_spec t u); [congruence|auto]. } intros u. rewrite NU. destruct (Nat.eqb_spec t u); [destruct XX as [[-> _]|[-> _]]; discriminate|auto].
      * right. exists y. split; [auto|]. split; [auto|]. split; [auto|]. split; [destruct A4 as [[A4 A6]|A4]; auto; left; split; auto; rewrite NU; destruct (Nat.eqb_spec t y); [congruence|auto]|].
        intros u. rewrite NU. destruct (Nat.eqb_spec t u); [destruct XX as [[-> _]|[-> _]]; discriminate|]. apply A5.
    + intros u. rewrite NU. destruct (Nat.eqb_spec t u); [destruct XX as [[-> _]|[-> _]]; discriminate|]. auto.
    + intros u. change (calls u (log s) = pcall (nth_error (upd (tk s) t x) u)). apply CALL0. destruct XX as [[-> _]|[-> _]]; auto.
    + intros l1 l2 c X. exfalso. eapply NA; eauto.
  - (* TLast *) injection H as <-. pose proof (CU counted TDone) as CX. pose proof (CU is_last TDone) as CY. cbn in CX, CY. rewrite !Nat.add_1_r in CX.
    destruct (Nat.eqb_spec (cnt counted (tk s)) n) as [CN|]; [|lia].
    assert (CA : forall u q, nth_error (tk s) u = Some q -> counted q = true). { rewrite <- (r_len R) in CN. intros u q. apply (cnt_all _ _ CN). }
    constructor; cbn -[Nat.eqb]; auto.
    + apply EN; discriminate.
    + lia.
    + replace (cnt counted (upd (tk s) t TDone)) with n by lia. rewrite Nat.eqb_refl. lia.
    + destruct RT as [(A1 & A2 & A3 & A4)|(y & A1 & A2 & A3 & A4 & A5)].
      * left. repeat split; auto. { intros u [U|U]; [discriminate|]. rewrite NU. pose proof (A3 u U). destruct (Nat.eqb_spec t u); [congruence|auto]. } intros u. rewrite NU. destruct (Nat.eqb_spec t u); [discriminate|auto].
      * right. exists y. split; [auto|]. split; [auto|]. split; [auto|]. split; [destruct A4 as [[A4 A6]|A4]; auto; apply CA in A6; discriminate|].
        intros u. rewrite NU. destruct (Nat.eqb_spec t u); [discriminate|]. apply A5.
    + intros u. rewrite NU. destruct (Nat.eqb_spec t u); [discriminate|]. auto.
    + intros u. change (calls u (log s) = pcall (nth_error (upd (tk s) t TDone) u)). auto.
    + intros o [X|X]; [discriminate|auto].
    + intros [|e0 l1] l2 c X e; cbn in *; [tauto|]. injection X as X1 X2. exfalso. eapply NA; eauto.
    + intros c [X|X]; [|exfalso; eapply NC; eauto]. injection X as <-. destruct RT as [(A1 & A2 & A3 & A4)|(y & A1 & A2 & A3 & A4 & A5)].
      * rewrite A2. left. split; auto. intros u [U|U]; [discriminate|]. apply A3, CA in U. discriminate.
      * right. destruct A4 as [[A4 A6]|A4]; [apply CA in A6; discriminate|]. rewrite A4. exists y. auto.
Qed.

Lemma inv_step W l n s a s' : n < W -> inv W l n s -> step W l s a = Some s' -> inv W l n s'.
Proof.
  intros HW [I|[I|I]] H.
  - subst s. destruct a as [p| |t thr]; cbn in H; try discriminate.
    + injection H as <-. rewrite repeat_length. destruct p.
      * destruct (Nat.eqb_spec n 0) as [->|N]; [right; left|right; right; apply start_inv; auto; lia]. repeat split; auto. exists CVal. repeat split; auto. discriminate.
      * right; left. repeat split; auto. exists (CErr None). repeat split; auto; discriminate.
      * right; left. repeat split; auto. exists (CErr None). repeat split; auto; discriminate.
      * right; left. repeat split; auto. exists CStp. repeat split; auto; discriminate.
    + destruct (nth_error (repeat TNone n) t) eqn:E; [|discriminate]. apply nth_repeat_some in E. subst. discriminate.
  - destruct I as (I1 & I2 & _). destruct a as [p| |t thr]; cbn in H; rewrite ?I1, ?I2 in H; try discriminate.
    destruct (nth_error (repeat TNone n) t) eqn:E; [|discriminate]. apply nth_repeat_some in E. subst. discriminate.
  - right; right. destruct a as [p| |t thr].
    + pose proof (r_en I) as X. cbn in H. destruct (en s); try discriminate. destruct X.
    + cbn -[Nat.ltb] in H. destruct (en s) as [|i|] eqn:E; try discriminate. rewrite (r_len I) in H. pose proof (enq_inv I E eq_refl) as X. destruct (i <? n); injection H as <-; exact X.
    + eapply task_inv; eauto.
Qed.
Lemma inv_reach W l n s : n < W -> reachable W l n s -> inv W l n s.
Proof.
  intros HW (al & H). assert (I : inv W l n (init W n)) by (left; auto). revert I H. generalize (init W n). induction al as [|a al IH]; intros s0 I H; cbn in H; [injection H as <-; auto|].
  destruct (step W l s0 a) eqn:E; [|discriminate]. eapply IH; [|exact H]. eapply inv_step; eauto.
Qed.

(** ** Theorems: for every schedule, with fewer tasks than the counter has values *)
(** The operation state is not used after the completion; with libdispatch only by the submitting loop. *)
Theorem pool_bulk_safe_partial W l n s o : n < W -> reachable W l n s -> In (EBad o) (log s) -> l = Disp /\ o = None.
Proof.
  intros HW H B. destruct (inv_reach HW H) as [->|[(_ & _ & c & I & _)|I]]; [destruct B| |destruct (r_bad I _ B); auto]. rewrite I in B. destruct B as [B|[]]. discriminate.
Qed.
Theorem pool_bulk_once W l n s : n < W -> reachable W l n s -> completions (log s) <= 1.
Proof.
  intros HW H. destruct (inv_reach HW H) as [->|[(_ & _ & c & I & _)|I]]; [cbn; lia|rewrite I; cbn; lia|]. rewrite (r_comp I). destruct (dead s); lia.
Qed.
(** Nothing happens after the completion (but libdispatch's loop reading the shape): no call of the function, no throw, no second completion. *)
Theorem pool_bulk_last W l n s l1 c l2 e : n < W -> reachable W l n s -> log s = l1 ++ ECompl c :: l2 -> In e l1 -> e = EBad None.
Proof.
  intros HW H E B. destruct (inv_reach HW H) as [->|[(_ & _ & c1 & I & _)|I]]; [destruct l1; discriminate| |eapply (r_after I); eauto].
  rewrite I in E. destruct l1 as [|e1 l1]; [destruct B|]. injection E as _ E. destruct l1; discriminate.
Qed.
(** Once all is over the receiver has been completed. *)
Theorem pool_bulk_completes W l n s : n < W -> reachable W l n s -> over s -> completions (log s) = 1.
Proof.
  intros HW H [O1 O2]. destruct (inv_reach HW H) as [->|[(_ & _ & c & I & _)|I]]; [discriminate|rewrite I; auto|].
  pose proof (r_en I) as E. rewrite O1 in E. rewrite (r_comp I). pose proof (r_last I) as L.
  assert (D : forall t p, nth_error (tk s) t = Some p -> p = TDone). { intros t p X. destruct (O2 t p X); auto. subst. destruct (E t X). }
  assert (A : forall l0 : list tpc, (forall t p, nth_error l0 t = Some p -> p = TDone) -> cnt counted l0 = length l0 /\ cnt is_last l0 = 0).
  { induction l0 as [|y l0 IH]; intros X; cbn; auto. rewrite (X 0 y eq_refl). destruct IH as [-> ->]; [|auto]. intros t p Y. apply (X (S t) p Y). }
  destruct (A _ D) as [A1 A2]. rewrite A1, A2, (r_len I), Nat.eqb_refl in L. destruct (dead s); lia.
Qed.
(** The value channel: every task called the function exactly once, and none threw. *)
Theorem pool_bulk_value W l n s : n < W -> reachable W l n s -> In (ECompl CVal) (log s) ->
  (forall t, t < n -> calls t (log s) = 1) /\ (forall t, ~ In (EThrow t) (log s)).
Proof.
  intros HW H B. destruct (inv_reach HW H) as [->|[(_ & _ & c & I & Z & _)|I]]; [destruct B| |].
  - rewrite I in *. destruct B as [B|[]]. injection B as ->. rewrite (Z eq_refl). split; [lia|]. intros t [T|[]]. discriminate.
  - destruct (r_chan I _ B) as [[_ N]|(x & X & _)]; [|discriminate]. split; auto. intros t T. rewrite (r_call I).
    assert (D : dead s = true). { pose proof (r_comp I) as C. destruct (dead s); auto. destruct (@nocompl_in _ C _ B). }
    rewrite <- (r_len I) in T. apply nth_error_Some in T. destruct (nth_error (tk s) t) as [p|] eqn:E; [|congruence]. rewrite (dead_done I D _ E). auto.
Qed.
(** The error channel: one of the exceptions the function threw. *)
Theorem pool_bulk_error W l n s x : n < W -> reachable W l n s -> In (ECompl (CErr (Some x))) (log s) -> In (EThrow x) (log s).
Proof.
  intros HW H B. destruct (inv_reach HW H) as [->|[(_ & _ & c & I & _ & Z)|I]]; [destruct B| |].
  - rewrite I in B. destruct B as [B|[]]. injection B as ->. destruct (Z x eq_refl).
  - destruct (r_chan I _ B) as [[X _]|(y & X & Y)]; [discriminate|]. injection X as <-. auto.
Qed.
(** Never more than one call per task, and none by a task that does not exist. *)
Theorem pool_bulk_calls W l n s t : n < W -> reachable W l n s -> calls t (log s) <= (if t <? n then 1 else 0).
Proof.
  intros HW H. destruct (inv_reach HW H) as [->|[(_ & _ & c & I & _)|I]]; [cbn; lia|rewrite I; cbn; lia|]. rewrite (r_call I).
  destruct (Nat.ltb_spec t n) as [T|T]; [destruct (nth_error (tk s) t) as [[]|]; cbn; auto|]. rewrite <- (r_len I) in T. apply nth_error_None in T. rewrite T. auto.
Qed.
(** A predecessor's error or stop is passed on without a call of the function. *)
Theorem pool_bulk_passes_on W l n s c : n < W -> reachable W l n s -> In (ECompl c) (log s) -> c = CErr None \/ c = CStp -> log s = [ECompl c].
Proof.
  intros HW H B C. destruct (inv_reach HW H) as [->|[(_ & _ & c1 & I & _)|I]]; [destruct B| |].
  - rewrite I in *. destruct B as [B|[]]. injection B as ->. auto.
  - destruct (r_chan I _ B) as [[-> _]|(x & -> & _)]; destruct C; discriminate.
Qed.
(** No deadlock: if no task can move, the predecessor is still running or all is over. *)
Theorem pool_bulk_no_deadlock W l n s : n < W -> reachable W l n s -> step W l s AEnq = None -> (forall t, step W l s (ATask t false) = None) -> en s = EPre \/ over s.
Proof.
  intros HW H E T. destruct (en s) as [|i|] eqn:EN; auto; [cbn -[Nat.ltb] in E; rewrite EN in E; destruct (i <? length (tk s)); discriminate|]. right. split; auto. intros t p N. specialize (T t). cbn in T. rewrite N in T.
  destruct p; auto; try discriminate. destruct (twe _ =? _) in T; discriminate.
Qed.

(** Every run is finite, whatever the schedule: at most 8n + 2 steps. *)
Definition weight p := match p with TNone => 7 | TQueued => 6 | TCall => 5 | TCas => 4 | TExc => 3 | TFin => 2 | TLast => 1 | TDone => 0 end.
Fixpoint wsum (l : list tpc) := match l with [] => 0 | p :: l => weight p + wsum l end.
Definition measure (s : state) := wsum (tk s) + match en s with EPre => length (tk s) + 2 | ELoop i => length (tk s) + 1 - i | EEnd => 0 end.
Lemma wsum_upd l i x a : nth_error l i = Some a -> wsum (upd l i x) + weight a = wsum l + weight x.
Proof. revert i. induction l as [|y l IH]; intros [|i] H; cbn in *; try discriminate; [injection H as ->; lia|]. specialize (IH _ H). lia. Qed.
Lemma touch_same s o : tk (touch s o) = tk s /\ en (touch s o) = en s /\ twe (touch s o) = twe s /\ fin (touch s o) = fin s.
Proof. unfold touch. destruct (dead s); auto. Qed.
Lemma step_measure W l n s a s' : n < W -> inv W l n s -> step W l s a = Some s' -> measure s' < measure s.
Proof.
  intros HW I H. unfold measure. destruct a as [p| |t thr]; cbn -[Nat.ltb Nat.modulo] in H.
  - destruct (en s); try discriminate. injection H as <-. destruct p; [destruct (length (tk s) =? 0)| | |]; unfold complete, emit, w_en; cbn [en tk fin twe exc dead log]; lia.
  - destruct (en s) as [|i|] eqn:E; try discriminate. set (s1 := match l with Base => s | Disp => touch s None end) in *. assert (X : tk s1 = tk s) by (unfold s1; destruct l; auto; apply touch_same).
    destruct (Nat.ltb_spec i (length (tk s))) as [L|L]; injection H as <-; cbn; rewrite X.
    + destruct I as [->|[(I & _)|I]]; [discriminate|congruence|]. pose proof (r_en I) as Y. rewrite E in Y. destruct Y as [_ Y]. rewrite (r_len I) in L. pose proof (proj2 (Y i L) (le_n i)) as Z.
      pose proof (wsum_upd _ _ TQueued Z) as V. cbn [weight] in V. rewrite upd_length, (r_len I). lia.
    + destruct I as [->|[(I & _)|I]]; [discriminate|congruence|]. pose proof (r_en I) as Y. rewrite E in Y. destruct Y as [Y _]. rewrite (r_len I) in *. lia.
  - destruct (touch_same s (Some t)) as (T1 & T2 & T3 & T4). destruct (nth_error (tk s) t) as [p|] eqn:N; [|discriminate]. assert (U := fun x => wsum_upd _ _ x N).
    assert (Y : en s' = en s /\ exists x, tk s' = upd (tk s) t x /\ weight x < weight p).
    { destruct p; try discriminate; cbn [weight]; [|destruct thr|destruct (twe (touch s (Some t)) =? length (tk s) mod W)| |destruct (fin (touch s (Some t)) =? (length (tk s) mod W + W - 1) mod W)|];
        injection H as <-; cbn -[Nat.modulo]; rewrite ?T1, ?T2; split; auto; eexists; (split; [reflexivity|cbn; lia]). }
    destruct Y as (-> & x & -> & L). rewrite upd_length. specialize (U x). lia.
Qed.
Theorem pool_bulk_terminates W l n al s : n < W -> runs W l al (init W n) = Some s -> length al <= 8 * n + 2.
Proof.
  intros HW H. assert (G : forall al s0 s, inv W l n s0 -> runs W l al s0 = Some s -> length al <= measure s0).
  { clear al s H. induction al as [|a al IH]; intros s0 s I H; cbn in *; [lia|]. destruct (step W l s0 a) as [s1|] eqn:E; [|discriminate]. pose proof (step_measure _ HW I E). pose proof (inv_step _ HW I E) as J. pose proof (IH _ _ J H). lia. }
  apply G in H; [|left; auto]. unfold measure in H. cbn in H. rewrite repeat_length in H. assert (X : wsum (repeat TNone n) = 7 * n). { clear. induction n; cbn in *; lia. } lia.
Qed.
(** If the completion is a value completion, every index below the shape belongs to exactly one task, and that task ran exactly once. *)
Theorem pool_bulk_indices W l n s shape i : n < W -> reachable W l n s -> In (ECompl CVal) (log s) -> (shape < word)%N -> (i < shape)%N ->
  match l with Base => (N.of_nat n <= shape)%N /\ 0 < n | Disp => N.of_nat n = shape end ->
  exists! t, t < n /\ covers l shape (N.of_nat n) t i /\ calls t (log s) = 1.
Proof.
  intros HW H B S I L. destruct (pool_bulk_value HW H B) as [V _]. destruct l; cbn [covers].
  - destruct L as [_ L]. destruct (@C36_every_index_in_one_share shape (N.of_nat n) i ltac:(lia) S I) as (r & [R1 R2] & U). exists (N.to_nat r). split.
    + rewrite N2Nat.id. split; [lia|]. split; [destruct (even_share shape r (N.of_nat n)); exact R2|]. apply V. lia.
    + intros t (T1 & T2 & _). rewrite <- (Nat2N.id t). f_equal. apply U. split; [lia|]. destruct (even_share shape (N.of_nat t) (N.of_nat n)); exact T2.
  - exists (N.to_nat i). split; [split; [lia|split; [rewrite N2Nat.id; auto|apply V; lia]]|]. intros t (_ & -> & _). apply Nat2N.id.
Qed.
(** ** The number of tasks *)
(** It is the smaller of the shape and the parallelism, if the parallelism fits the (signed) Shape. *)
Theorem num_agents_min_partial b shape par : (1 < b)%Z -> (0 <= shape < 2 ^ (b - 1))%Z -> (0 <= par < 2 ^ 32)%Z -> (par < 2 ^ (b - 1))%Z -> num_agents b shape par = Z.min shape par.
Proof.
  intros HB HS HP HF. unfold num_agents, to_signed.
  assert (E : (2 ^ b = 2 * 2 ^ (b - 1))%Z). { rewrite <- Z.pow_succ_r by lia. f_equal. lia. }
  rewrite (Z.mod_small (par + _)) by lia. rewrite Z.mod_small by lia. f_equal. lia.
Qed.
(** Refuted: with a narrow Shape the parallelism is truncated: a pool of 200 threads and a Shape of 8 bits give 2^32 - 56 tasks for 10 indices, a pool of 256 threads gives none, and the bulk
    completes with a value without a call of the function. *)
Theorem num_agents_narrow_refuted : num_agents 8 10 200 = (2 ^ 32 - 56)%Z /\ num_agents 8 10 256 = 0%Z.
Proof. split; vm_compute; reflexivity. Qed.
Theorem no_tasks_complete_refuted W l : exists s, reachable W l (Z.to_nat (num_agents 8 10 256)) s /\ log s = [ECompl CVal].
Proof. change (Z.to_nat (num_agents 8 10 256)) with 0. eexists. split; [exists [APred PVal]; reflexivity|reflexivity]. Qed.
Print Assumptions pool_bulk_indices.
Print Assumptions pool_bulk_completes.
