(** C58: stop requests pass through type-erased senders and schedulers. *)
From Coq Require Import List Bool Arith NArith Lia FSets.FMapPositive.
From Verif Require Import Conc StopBridgeModel.
Import ListNotations.
Set Implicit Arguments.

(** ** Specification *)
(** how often the receiver is completed *)
Definition isDone e := match e with EDone => true | _ => false end.
Definition completions (l : list event) : nat := cnt isDone l.
(** The child never completes inside its stop callback. *)
Definition not_in_callback (a : action) : Prop := match a with AR true => False | _ => True end.

(** ** All states that can be reached *)
Definition qn q := match q with Q1 => 0 | Q2 => 1 | Q3 => 2 end%N.
Definition in_ i := match i with I0 => 0 | I1 => 1 | I2 => 2 | I3 => 3 | I4 => 4 | I5 => 5 | IQ q => 6 + qn q end%N.
Definition rn r := match r with R0 => 0 | R1 => 1 | R3 => 2 | REnd => 3 | RCb i => 4 + in_ i end%N.
Definition sn r := match r with S0 => 0 | S1 => 1 | S2 => 2 | S3 => 3 | SEnd => 4 | SCb i => 5 + in_ i | SQ q => 14 + qn q end%N.
Definition cn r := match r with C0 => 0 | CEnd => 1 | CQ q => 2 + qn q end%N.
Definition bn (b : bool) := if b then 1%N else 0%N.
Definition cbn' c := match c with CbNone => 0 | CbReg => 1 | CbRun => 2 | CbRem => 3 | CbDone => 4 | CbNull => 5 | CbGone => 6 end%N.
Definition code (s : core) : positive :=
  N.succ_pos (fold_left (fun a x => 32 * a + x)%N [bn (outer s); bn (inner s); cbn' (fwd s); cbn' (ccb s); bn (decided s); bn (started s); bn (dead s); rn (rp s); sn (sp s); cn (cp s)] 0%N).
Definition core_eq (x y : core) : {x = y} + {x <> y}.
Proof. repeat decide equality. Defined.
Definition all_a := [AReq; AStart; AR true; AR false; AS true; AS false; ACompl; AC].
Lemma in_a a : In a all_a. Proof. destruct a as [| |[]|[]| |]; cbn; tauto. Qed.
(** breadth first, over the given actions *)
Fixpoint explore (acts : list action) (fuel : nat) (todo : list core) (m : PositiveMap.t core) : PositiveMap.t core :=
  match fuel with
  | 0 => m
  | S n =>
      match todo with
      | [] => m
      | x :: todo =>
          let ys := flat_map (fun a => match step x a with Some (y, _) => [y] | None => [] end) acts in
          let '(todo, m) := fold_left (fun '(t, m) y => match PositiveMap.find (code y) m with Some _ => (t, m) | None => (y :: t, PositiveMap.add (code y) y m) end) ys (todo, m) in
          explore acts n todo m
      end
  end.
Definition states (acts : list action) := explore acts 4000 [init] (PositiveMap.add (code init) init (PositiveMap.empty core)).
Definition mem (m : PositiveMap.t core) (x : core) : bool := match PositiveMap.find (code x) m with Some y => if core_eq x y then true else false | None => false end.
(** [P] holds of every transition from a state of the set, which is closed. *)
Definition closed (acts : list action) (m : PositiveMap.t core) (P : core -> action -> core -> list event -> bool) : bool :=
  mem m init && forallb (fun kx => forallb (fun a => match step (snd kx) a with Some (y, es) => mem m y && P (snd kx) a y es | None => true end) acts) (PositiveMap.elements m).
Definition holds (m : PositiveMap.t core) (P : core -> bool) : bool := forallb (fun kx => P (snd kx)) (PositiveMap.elements m).

Lemma mem_in m x : mem m x = true -> exists k, In (k, x) (PositiveMap.elements m).
Proof.
  unfold mem. destruct (PositiveMap.find (code x) m) as [y|] eqn:E; [|discriminate]. destruct (core_eq x y) as [->|]; [|discriminate]. intros _.
  exists (code y). apply PositiveMap.elements_correct. exact E.
Qed.
Lemma holds_in m P x : holds m P = true -> mem m x = true -> P x = true.
Proof. intros H X. destruct (mem_in _ _ X) as [k K]. unfold holds in H. rewrite forallb_forall in H. apply (H _ K). Qed.
Lemma closed_step acts m P x a y es : closed acts m P = true -> mem m x = true -> In a acts -> step x a = Some (y, es) -> mem m y = true /\ P x a y es = true.
Proof.
  intros C X A E. unfold closed in C. apply andb_prop in C. destruct C as [_ C]. destruct (mem_in _ _ X) as [k K]. rewrite forallb_forall in C. specialize (C _ K). cbn in C.
  rewrite forallb_forall in C. specialize (C a A). rewrite E in C. apply andb_prop in C. exact C.
Qed.
(** Events and states *)
Definition has (e : event) (l : list event) : bool := existsb (fun x => match x, e with EReq, EReq | EReqRet, EReqRet | EStart, EStart | EStop, EStop | ECb, ECb | EDone, EDone | EUaf, EUaf => true | _, _ => false end) l.
Lemma has_in e l : has e l = true <-> In e l.
Proof.
  unfold has. rewrite existsb_exists. split.
  - intros [x [X Y]]. destruct x, e; try discriminate; exact X.
  - intros H. exists e. split; [exact H|]. destruct e; reflexivity.
Qed.
Definition flag (e : event) (s : core) : bool :=
  match e with
  | EReq => outer s
  | EReqRet => match rp s with REnd => true | _ => false end
  | EStart => match sp s with S0 => false | _ => true end
  | EStop => inner s
  | ECb => match ccb s with CbNone | CbReg => false | _ => true end
  | EDone => dead s
  | EUaf => false
  end.
(** the events of a step agree with its states; the receiver is not completed twice *)
Definition agrees (e : event) (x : core) (_ : action) (y : core) (es : list event) : bool := Bool.eqb (flag e y) (flag e x || has e es).
Definition once (x : core) (_ : action) (y : core) (es : list event) : bool := (cnt isDone es + (if dead x then 1 else 0) <=? 1)%nat && Bool.eqb (dead y) (dead x || (0 <? cnt isDone es)).
Definition all_states := states all_a.
Definition some_a := [AReq; AStart; AR false; AS true; AS false; ACompl; AC].
Definition some_states := states some_a.

(** every step of any thread brings it closer to its end *)
Definition mq q := match q with Q1 => 3 | Q2 => 2 | Q3 => 1 end.
Definition mi i := match i with I5 => 1 | I1 => 2 | I0 => 3 | I4 => 3 | I3 => 4 | IQ q => 4 + mq q | I2 => 8 end.
Definition mr r := match r with R0 => 30 | R1 => 29 | RCb i => 10 + mi i | R3 => 2 | REnd => 0 end.
Definition ms r := match r with S0 => 40 | S1 => 39 | SCb i => 20 + mi i | S2 => 15 | S3 => 10 | SQ q => mq q | SEnd => 0 end.
Definition mc r := match r with C0 => 10 | CQ q => mq q | CEnd => 0 end.
Definition measure s := mr (rp s) + ms (sp s) + mc (cp s) + match ccb s with CbNone | CbReg => 12 | _ => 0 end.
Definition checks x a y es := (decided y || (negb (decided x) && agrees ECb x a y es)) && once x a y es && (measure y <? measure x) && forallb (fun e => agrees e x a y es) [EReq; EReqRet; EStart; EStop; EDone].
Lemma all_closed : closed all_a all_states checks = true. Proof. vm_compute. reflexivity. Qed.
Lemma some_closed : closed some_a some_states (fun x a y es => negb (has EUaf es)) = true. Proof. vm_compute. reflexivity. Qed.

Lemma init_mem acts m P : closed acts m P = true -> mem m init = true. Proof. intros C. unfold closed in C. apply andb_prop in C. apply C. Qed.
Record good (s : core) (log : list event) : Prop := {
  g1 : mem all_states s = true;
  g2 : completions log = if dead s then 1 else 0;
  g3 : forall e, In e [EReq; EReqRet; EStart; EStop; EDone] -> (In e log <-> flag e s = true);
  g4 : decided s = false -> (In ECb log <-> flag ECb s = true)
}.
Lemma good_step s log a s' es : good s log -> step s a = Some (s', es) -> good s' (rev es ++ log) /\ measure s' < measure s.
Proof.
  intros [G1 G2 G3 G4] E. destruct (@closed_step _ _ _ s a s' es all_closed G1 (in_a a) E) as [M C]. unfold checks in C. apply andb_prop in C. destruct C as [C F]. apply andb_prop in C. destruct C as [C L]. apply andb_prop in C. destruct C as [D O].
  split; [|apply Nat.ltb_lt; exact L]. constructor; [exact M| | |].
  - unfold once in O. apply andb_prop in O. destruct O as [O1 O2]. apply Nat.leb_le in O1. apply Bool.eqb_prop in O2. unfold completions in *. rewrite cnt_app, cnt_rev, G2, O2.
    destruct (dead s); cbn [orb]; [lia|]. destruct (cnt isDone es) as [|[|n]]; [reflexivity|reflexivity|lia].
  - intros e Ie. rewrite forallb_forall in F. specialize (F e Ie). unfold agrees in F. apply Bool.eqb_prop in F. rewrite F, orb_true_iff, has_in, in_app_iff, <- in_rev, (G3 e Ie). tauto.
  - intros N. rewrite N in D. cbn [orb] in D. apply andb_prop in D. destruct D as [D1 D2]. apply negb_true_iff in D1. unfold agrees in D2. apply Bool.eqb_prop in D2. rewrite D2, orb_true_iff, has_in, in_app_iff, <- in_rev, (G4 D1). tauto.
Qed.
Lemma good_init : good init [].
Proof. constructor; [apply (@init_mem _ _ _ all_closed)|reflexivity| |]. { intros e H. repeat (destruct H as [<-|H]; [cbn; split; [intros []|discriminate]|]). destruct H. } cbn. intros _. split; [intros []|discriminate]. Qed.
Lemma good_runs : forall l s log s' log', good s log -> runs l s log = Some (s', log') -> good s' log' /\ measure s' + length l <= measure s.
Proof.
  induction l as [|a l IH]; intros s log s' log' G H; cbn [runs] in H; [injection H as <- <-; split; [exact G|cbn; lia]|].
  destruct (step s a) as [[s1 es]|] eqn:E; [|discriminate]. destruct (good_step a G E) as [G1 L]. destruct (IH s1 _ s' log' G1 H) as [G2 L2]. split; [exact G2|]. cbn [length]. lia.
Qed.
Lemma good_reach l s log : runs l init [] = Some (s, log) -> good s log /\ length l <= 92.
Proof. intros H. destruct (good_runs l good_init H) as [G L]. split; [exact G|]. change (measure init) with 92 in L. lia. Qed.

(** ** Theorems *)
(** The receiver is completed at most once. *)
Theorem bridge_completes_once l s log : runs l init [] = Some (s, log) -> completions log <= 1.
Proof. intros H. destruct (good_reach l H) as [[_ G _ _] _]. rewrite G. destruct (dead s); lia. Qed.
(** The operation state is not used after that, unless the child completes inside its stop callback: neither by a stop request that is
    under way on another thread nor by start(). *)
Theorem bridge_no_use_after_completion_partial l s log : runs l init [] = Some (s, log) -> (forall a, In a l -> not_in_callback a) -> ~ In EUaf log.
Proof.
  intros H N. assert (A : forall a, In a l -> In a some_a) by (intros a X; specialize (N a X); destruct a as [| |[]|[]| |]; cbn in *; tauto).
  assert (G : forall l s log s' log', mem some_states s = true -> ~ In EUaf log -> (forall a, In a l -> In a some_a) -> runs l s log = Some (s', log') -> ~ In EUaf log').
  { clear. induction l as [|a l IH]; intros s log s' log' M U A H; cbn [runs] in H; [injection H as <- <-; exact U|].
    destruct (step s a) as [[s1 es]|] eqn:E; [|discriminate]. destruct (@closed_step _ _ _ s a s1 es some_closed M (A a (or_introl eq_refl)) E) as [M1 C].
    apply (IH s1 (rev es ++ log) s' log'); auto; [|intros; apply A; right; auto]. rewrite in_app_iff, <- in_rev, <- has_in. apply negb_true_iff in C. rewrite C. intros [X|X]; [discriminate|auto]. }
  apply (G l init [] s log (@init_mem _ _ _ some_closed) (fun x => x) A H).
Qed.
(** The child's token is stopped only if stop was requested of the receiver's. *)
Theorem bridge_stop_only_if_requested l s log : runs l init [] = Some (s, log) -> In EStop log -> In EReq log.
Proof.
  intros H. destruct (good_reach l H) as [[G1 _ G3 _] _]. rewrite (G3 EStop), (G3 EReq) by (cbn; tauto). cbn. intros I.
  assert (X := @holds_in all_states (fun x => implb (inner x) (outer x)) s ltac:(vm_compute; reflexivity) G1). cbn in X. rewrite I in X. exact X.
Qed.
(** When request_stop of the receiver's source has returned and the child has been started and has not decided to complete, its token is
    stopped, and if it registered a callback, it has been called. *)
Theorem bridge_stop_delivered l s log : runs l init [] = Some (s, log) -> In EReqRet log -> started s = true -> decided s = false ->
  In EStop log /\ (ccb s = CbNone \/ In ECb log).
Proof.
  intros H I S D. destruct (good_reach l H) as [[G1 _ G3 G4] _]. rewrite (G3 EReqRet) in I by (cbn; tauto). rewrite (G3 EStop) by (cbn; tauto).
  assert (X := @holds_in all_states (fun x => implb (flag EReqRet x && started x && negb (decided x)) (inner x && match ccb x with CbReg => false | _ => true end)) s ltac:(vm_compute; reflexivity) G1).
  cbv beta in X. rewrite I, S, D in X. cbn [andb negb implb] in X. apply andb_prop in X. destruct X as [X1 X2]. split; [exact X1|]. destruct (ccb s) eqn:E; [left; reflexivity|discriminate X2|right; apply (G4 D); cbn; rewrite E; reflexivity..].
Qed.
(** Nobody waits for ever: an execution has boundedly many steps, and when no thread can take another one and the child has decided to complete, the
    receiver has been completed. *)
Theorem bridge_no_deadlock l s log : runs l init [] = Some (s, log) ->
  length l <= 92 /\ (decided s = true -> (forall a, (exists b, a = AR b) \/ (exists b, a = AS b) \/ a = AC -> step s a = None) -> In EDone log).
Proof.
  intros H. destruct (good_reach l H) as [[G1 _ G3 _] L]. split; [exact L|]. intros D N. rewrite (G3 EDone) by (cbn; tauto). cbn.
  assert (X := @holds_in all_states (fun x => implb (decided x) (dead x || existsb (fun a => match step x a with Some _ => true | None => false end) [AR false; AS false; AC])) s ltac:(vm_compute; reflexivity) G1).
  cbv beta in X. rewrite D in X. cbn [implb] in X. apply orb_prop in X. destruct X as [X|X]; [exact X|]. apply existsb_exists in X. destruct X as [a [A1 A2]].
  rewrite N in A2; [discriminate|]. cbn in A1. destruct A1 as [<-|[<-|[<-|[]]]]; eauto.
Qed.
(** Which operations of the schedulers with a type-erased backend pass stop requests on. *)
Theorem scheduler_stop_partial o t : t <> TNever -> o = ParSchedule \/ (t = TInplace /\ o <> TaskBulk) -> backend_sees o t = true.
Proof. intros N [->|[-> H]]; [destruct t; try reflexivity; congruence|destruct o; try reflexivity; congruence]. Qed.

(** ** Concrete cases *)
(** The stop request calls the child's callback; then the child completes on another thread, which waits for the request. *)
Definition bridge_run := [AStart; AS false; AS true; AS false; AReq; AR false; AR false; AR false; ACompl].
Example bridge_example :
  option_map (fun r => (snd r, step (fst r) AC)) (runs bridge_run init []) = Some ([ECb; EStop; EReq; EStart], None) /\
  option_map snd (runs (bridge_run ++ [AR false; AR false; AC; AR false; AR false; AR false; AR false; AC; AC]) init []) = Some [EDone; EReqRet; ECb; EStop; EReq; EStart].
Proof. split; vm_compute; reflexivity. Qed.
(** Stop is requested before the operation is started: the child's callback runs when it is registered. *)
Example bridge_example_early :
  option_map snd (runs [AReq; AR false; AStart; AS false; AS false; AS false; AS false; AS true; AS true; AS false; AS false; AS false] init [])
  = Some [EDone; ECb; EStop; EStart; EReqRet; EReq].
Proof. vm_compute. reflexivity. Qed.

(** ** Refuted statements *)
(** "The operation state is not used after its completion": a child that completes inside its stop callback destroys the stop source whose
    request_stop called it, and which goes on to lock it (ST L292). *)
Theorem bridge_no_use_after_completion_refuted : ~ (forall l s log, runs l init [] = Some (s, log) -> ~ In EUaf log).
Proof.
  intros H. assert (X := H [AStart; AS false; AS true; AS false; AReq; AR false; AR false; AR false; AR true; AR false; AR false; AR false; AR false; AR false]).
  destruct (runs _ init []) as [[s log]|] eqn:E in X; vm_compute in E; [injection E as <- <-|discriminate]. apply (X _ _ eq_refl). left. reflexivity.
Qed.
(** "Stop requests reach the backend": not on task_scheduler if the receiver's stop token is not an inplace_stop_token, nor any bulk on it. *)
Theorem scheduler_stop_refuted : ~ (forall o t, t <> TNever -> backend_sees o t = true).
Proof. intros H. specialize (H TaskSchedule TOther). discriminate H. discriminate. Qed.
