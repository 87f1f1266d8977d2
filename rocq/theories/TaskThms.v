(** C51: coroutine tasks.  The theorems. *)
From Coq Require Import List ZArith Bool Arith Lia.
From Verif Require Import Conc TaskModel TaskSpec TaskProofs.
Import ListNotations.
Set Implicit Arguments.

Section Thms.
  Variable ins : nat -> res.
  Variable rqs : nat -> bool.
  Notation step := (step ins rqs).
  Notation steps := (steps ins rqs).
  Notation eval := (eval ins rqs).

  Lemma steps_det s s1 s2 : steps s s1 -> steps s s2 -> step s2 = None -> steps s1 s2.
  Proof.
    induction 1 as [s|s a b H _ IH]; [auto|]. intros S2 F. apply IH; auto.
    inversion S2; subst; [congruence|]. congruence.
  Qed.

  (** frames are destroyed at most once *)
  Definition KI (s : state) : Prop :=
    forall c, kills c (log s) = match nth_error (heap s) c with Some x => if alive x then 0 else 1 | None => 0 end.

  Lemma kills_cons c e l : kills c (e :: l) = (match e with EKill d => if d =? c then 1 else 0 | _ => 0 end) + kills c l.
  Proof. unfold kills. cbn [filter]. destruct e; try reflexivity. destruct (c0 =? c); reflexivity. Qed.

  Definition same_alive (h h' : list coro) : Prop :=
    forall c, match nth_error h' c with Some x => if alive x then 0 else 1 | None => 0 end
            = match nth_error h c with Some x => if alive x then 0 else 1 | None => 0 end.
  Lemma sa_upd h c x x' : nth_error h c = Some x -> alive x' = alive x -> same_alive h (upd h c x').
  Proof. intros H A i. rewrite (nth_upd _ _ _ _ H). destruct (Nat.eqb_spec c i) as [<-|]; [rewrite H, A|]; reflexivity. Qed.
  Lemma sa_app h x : alive x = true -> same_alive h (h ++ [x]).
  Proof.
    intros A i. destruct (Nat.ltb_spec i (length h)) as [L|L].
    - rewrite nth_error_app1 by auto. reflexivity.
    - rewrite nth_error_app2 by auto. replace (nth_error h i) with (@None coro) by (symmetry; apply nth_error_None; auto).
      destruct (i - length h) as [|[|j]]; cbn; [rewrite A|..]; reflexivity.
  Qed.
  Lemma sa_tick s : same_alive (heap s) (heap (tick rqs s)).
  Proof.
    intros i. rewrite nth_tick. destruct (nth_error (heap s) i) as [x|]; [|reflexivity]. cbn.
    destruct (eqf_fields (tkf_eqf (rq s || rqs (tm s)) x)) as (_&_&_&_&_&E&_). rewrite E. reflexivity.
  Qed.
  Lemma sa_trans a b c : same_alive a b -> same_alive b c -> same_alive a c.
  Proof. intros A B i. rewrite (B i). apply A. Qed.
  Lemma sa_refl a : same_alive a a. Proof. intros i; reflexivity. Qed.

  Definition nokill (l l' : list event) : Prop := forall c, kills c l' = kills c l.
  Lemma KI_pres s s' : KI s -> same_alive (heap s) (heap s') -> nokill (log s) (log s') -> KI s'.
  Proof. intros K A N c. rewrite (N c), (A c). apply K. Qed.

  Lemma get_inv s c x : get s c = Some x -> nth_error (heap s) c = Some x /\ alive x = true.
  Proof. unfold get. destruct (nth_error (heap s) c) as [y|]; [|discriminate]. destruct (alive y) eqn:E; [|discriminate]. intros H; injection H as <-. auto. Qed.

  Ltac sa := first [ apply sa_refl | eapply sa_upd; [eassumption|reflexivity] | apply sa_tick
    | eapply sa_trans; [|eapply sa_app; reflexivity]; eapply sa_upd; [eassumption|reflexivity]
    | eapply sa_trans; [apply sa_tick|eapply sa_upd; [eassumption|reflexivity]] ].
  Ltac nk := intros ?; cbn [log set_g emit set_co alloc tick]; rewrite ?kills_cons; reflexivity.

  Lemma b_step_KI s c x b : KI s -> nth_error (heap s) c = Some x -> alive x = true -> KI (b_step ins rqs s c x b).
  Proof.
    intros K Hx Ha. destruct b; cbn [b_step].
    - unfold finish. eapply KI_pres; eauto; [|nk]. destruct (is_kexec (kd x)); sa.
    - unfold finish. eapply KI_pres; eauto; [|nk]. destruct (is_kexec (kd x)); sa.
    - eapply KI_pres; eauto; [sa|nk].
    - eapply KI_pres; eauto; [sa|nk].
    - destruct (get (tick rqs s) c) as [y|] eqn:E; [apply get_inv in E; destruct E as [E A]; destruct (token _ _)|];
        (eapply KI_pres; eauto; [sa|nk]).
    - destruct (get (tick rqs s) c) as [y|] eqn:E; [apply get_inv in E; destruct E as [E A]; destruct (ins (tm s))|];
        (eapply KI_pres; eauto; [sa|nk]).
    - destruct (token s x); (eapply KI_pres; eauto; [sa|nk]).
    - eapply KI_pres; eauto; [sa|nk].
  Qed.

  Lemma a_step_KI s c x a : KI s -> nth_error (heap s) c = Some x -> alive x = true -> KI (a_step ins rqs s c x a).
  Proof.
    intros K Hx Ha. destruct a; cbn [a_step].
    - destruct (stopd x); (eapply KI_pres; eauto; [sa|nk]).
    - eapply KI_pres; eauto; [sa|nk].
    - eapply KI_pres; eauto; [sa|nk].
    - destruct (get (tick rqs s) c) as [y|] eqn:E; [apply get_inv in E; destruct E as [E A]; destruct (ins (tm s))|];
        (eapply KI_pres; eauto; [sa|nk]).
  Qed.

  Lemma kill_KI s c x n : KI s -> nth_error (heap s) c = Some x -> alive x = true ->
    KI (set_g (emit (set_co s c (w_dead x)) (EKill c)) n).
  Proof.
    intros K Hx Ha i. cbn [log heap set_g emit set_co]. rewrite kills_cons, K, (nth_upd _ _ _ _ Hx).
    destruct (Nat.eqb_spec c i) as [<-|]; [rewrite Hx, Ha|]; reflexivity.
  Qed.

  Lemma step_KI s s' : KI s -> step s = Some s' -> KI s'.
  Proof.
    intros K. unfold TaskModel.step. destruct (g s) as [[|c]|[|c] pend|c n|r| | |]; try discriminate.
    - destruct (get s 0) as [x|]; [destruct (dat x)|]; intros H; injection H as <-; (eapply KI_pres; eauto; [sa|nk]).
    - destruct (get s c) as [x|] eqn:E; [|intros H; injection H as <-; eapply KI_pres; eauto; [sa|nk]].
      apply get_inv in E. destruct E as [E A]. destruct (st x) as [b| |m kv ke| |f p a|a].
      + intros H; injection H as <-. apply b_step_KI; auto.
      + intros H; injection H as <-; (eapply KI_pres; eauto; [sa|nk]).
      + destruct (get s m) as [y|]; [destruct (dat y) as [[]|]|]; intros H; injection H as <-; (eapply KI_pres; eauto; [sa|nk]).
      + intros H; injection H as <-; (eapply KI_pres; eauto; [sa|nk]).
      + destruct f; [destruct (get s p)|]; intros H; injection H as <-; (eapply KI_pres; eauto; [sa|nk]).
      + intros H; injection H as <-. apply a_step_KI; auto.
    - destruct (nth_error (heap s) 0) as [x|]; intros H; injection H as <-; (eapply KI_pres; eauto; [sa|nk]).
    - destruct (get s c) as [x|] eqn:E; [|intros H; injection H as <-; eapply KI_pres; eauto; [sa|nk]].
      apply get_inv in E. destruct E as [E A]. destruct (kd x); intros H; injection H as <-; (eapply KI_pres; eauto; [sa|nk]).
    - destruct (get s c) as [x|] eqn:E; [|intros H; injection H as <-; eapply KI_pres; eauto; [sa|nk]].
      apply get_inv in E. destruct E as [E A].
      destruct (st x) as [b| |m kv ke| |f p a|a]; try (intros H; injection H as <-; apply kill_KI; auto).
      destruct (nth_error (heap s) m) as [y|]; intros H; injection H as <-; [apply kill_KI; auto|eapply KI_pres; eauto; [sa|nk]].
    - intros H; injection H as <-; (eapply KI_pres; eauto; [sa|nk]).
  Qed.

  Lemma steps_KI s s' : steps s s' -> KI s -> KI s'.
  Proof. induction 1; eauto using step_KI. Qed.

  Lemma init_KI k o t : KI (init rqs k o t).
  Proof. intros [|[|c]]; reflexivity. Qed.

  Lemma init_TI k o t : TI rqs (init rqs k o t).
  Proof.
    split; [cbn; rewrite orb_false_r; reflexivity|]. intros [|i] y H; cbn in H; [|destruct i; discriminate].
    injection H as <-. cbn. intros _ ->. reflexivity.
  Qed.

  Lemma kill1 s c x n : TI rqs s -> g s = GKill c n -> nth_error (heap s) c = Some x -> alive x = true ->
    (forall m kv ke, st x <> SWaitT m kv ke) ->
    let s1 := set_g (emit (set_co s c (w_dead x)) (EKill c)) n in
    step s = Some s1 /\ nth_error (heap s1) c = Some (w_dead x) /\ TI rqs s1.
  Proof.
    intros T Hg Hx Ha Hs s1.
    assert (S1 : step s = Some s1).
    { unfold TaskModel.step. rewrite Hg, (get_some s _ Hx Ha). destruct (st x) eqn:E; try reflexivity. exfalso; eapply Hs; reflexivity. }
    split; [exact S1|]. split; [cbn; eapply nth_upd_same; eauto|].
    eapply P_TI. eapply P_upd with (x' := w_dead x) (ms := []); eauto; try reflexivity; try discriminate.
    - cbn [log s1 set_g emit]. rewrite marks_cons. reflexivity.
  Qed.

  Lemma task_end k o t : k <> KExit -> wf k t ->
    let '(ms, n, r) := eval t 1 in
    exists s', steps (init rqs k o t) s' /\ step s' = None /\ marks (log s') = ms /\
      match r with
      | Some v => g s' = GEnd /\ delivered (log s') = [v] /\ (forall c x, nth_error (heap s') c = Some x -> alive x = false) /\
                  (v <> RStp -> hd_error (log s') = Some (EDeliver v))
      | None => g s' = GTerm /\ delivered (log s') = []
      end.
  Proof.
    intros Nk W. set (s0 := init rqs k o t).
    set (x0 := mkc k PRoot (SBody t) None true true (if o then Some 0 else None) o (o && rqs 0) false).
    assert (S0 : srcok (heap s0) x0).
    { intros m Hm. cbn in Hm. destruct o; [|discriminate]. injection Hm as <-. exists x0. auto. }
    assert (H := @body_run ins rqs t k s0 0 x0 PRoot W Nk eq_refl eq_refl eq_refl eq_refl eq_refl eq_refl eq_refl eq_refl (init_TI k o t) S0).
    change (tm s0) with 1 in H. destruct (eval t 1) as [[ms n] r]. destruct H as (s1 & (St & _ & Em & Ed & T1) & R).
    change (length (heap s0)) with 1 in R. change (log s0) with (@nil event) in *.
    change (marks [] ++ ms) with ms in Em. change (delivered []) with (@nil res) in Ed.
    assert (Done : forall v, v <> RStp -> DoneP 1 0 PRoot v s1 -> exists s', steps s0 s' /\ step s' = None /\ marks (log s') = ms /\
      g s' = GEnd /\ delivered (log s') = [v] /\ (forall c x, nth_error (heap s') c = Some x -> alive x = false) /\
                  (v <> RStp -> hd_error (log s') = Some (EDeliver v))).
    { intros v Nv (G1 & (xc & Hc & Ac & Dc & Oc & Sc) & Dd).
      set (s2 := set_g s1 (GKill 0 (GDeliver v))).
      assert (St2 : step s1 = Some s2) by (unfold TaskModel.step; rewrite G1, (get_some s1 _ Hc Ac), Dc; reflexivity).
      assert (Hc2 : nth_error (heap s2) 0 = Some xc) by exact Hc.
      destruct (@kill1 s2 0 xc (GDeliver v) T1 eq_refl Hc2 Ac) as (St3 & H3 & T3); [rewrite Sc; discriminate|].
      set (s3 := set_g (emit (set_co s2 0 (w_dead xc)) (EKill 0)) (GDeliver v)) in *.
      exists (set_g (emit s3 (EDeliver v)) GEnd). split; [|split; [reflexivity|split; [|split; [reflexivity|split; [|split]]]]].
      - eapply steps_trans; [exact St|]. eapply steps_cons; [exact St2|]. eapply steps_cons; [exact St3|]. eapply steps_cons; [reflexivity|constructor].
      - cbn [log set_g emit s3 s2]. rewrite !marks_cons, !app_nil_r. exact Em.
      - change (delivered (EDeliver v :: EKill 0 :: log s1) = [v]). rewrite !delivered_cons, Ed. reflexivity.
      - intros c x Hx. cbn [heap set_g emit] in Hx. destruct c as [|c].
        + rewrite H3 in Hx. injection Hx as <-. reflexivity.
        + cbn [heap set_g emit set_co s3 s2] in Hx. rewrite nth_upd_other in Hx by lia. eapply Dd; [|exact Hx]. lia.
      - intros _. reflexivity. }
    destruct r as [[v|e|]|].
    - destruct R as [_ R]. apply (Done (RVal v)); [discriminate|exact R].
    - destruct R as [_ R]. apply (Done (RErr e)); [discriminate|exact R].
    - clear Done. destruct R as [_ (pend & l & G1 & Hp & Hl & (xc & Hc & Kc & Hx) & Hn)].
      set (kk := match pend with Some a => GKill a GEnd | None => GEnd end).
      set (s2 := set_g (emit s1 (EDeliver RStp)) (if own xc then GKill 0 kk else kk)).
      assert (St2 : step s1 = Some s2) by (unfold TaskModel.step; rewrite G1, Hc; reflexivity).
      assert (T2 : TI rqs s2) by exact T1.
      assert (K : exists s3, steps s2 s3 /\ TI rqs s3 /\ g s3 = kk /\ marks (log s3) = ms /\ delivered (log s3) = [RStp] /\
        (forall c x, nth_error (heap s3) c = Some x -> alive x = true -> pend = Some c) /\
        (forall p, pend = Some p -> exists z, nth_error (heap s3) p = Some z /\ alive z = true /\ st z = SFin)).
      { assert (Em2 : marks (log s2) = ms) by (cbn [log s2 set_g emit]; rewrite marks_cons, app_nil_r; exact Em).
        assert (Ed2 : delivered (log s2) = [RStp]) by (cbn [log s2 set_g emit]; rewrite delivered_cons, Ed; reflexivity).
        destruct Hx as [(-> & A & O & ->)|(-> & A & O & D & C)].
        - exists s2. split; [constructor|]. split; [exact T2|]. split; [cbn; rewrite O; reflexivity|]. split; [auto|]. split; [auto|]. split.
          + intros c x Hx Ax. cbn [heap s2 set_g emit] in Hx. destruct c as [|c]; [rewrite Hc in Hx; congruence|].
            destruct (Hn (S c) x) as [X|X]; [lia|exact Hx|exact Ax|destruct X|exact X].
          + intros p Ep. destruct (Hp p Ep) as (_ & _ & z & Hz & Z1 & Z2 & _). exists z. auto.
        - assert (G2 : g s2 = GKill 0 kk) by (cbn; rewrite O; reflexivity).
          destruct (@kill_run ins rqs l s2 0 kk C G2 T2) as (s3 & (St3 & F3 & Em3 & Ed3 & T3) & L3 & _ & G3 & D3).
          exists s3. split; [exact St3|]. split; [exact T3|]. split; [exact G3|]. split; [rewrite Em3, app_nil_r; exact Em2|].
          split; [congruence|]. split.
          + intros c x Hx Ax. destruct (in_dec Nat.eq_dec c l) as [I|I].
            { destruct (D3 _ I) as (y & y' & _ & Hy' & A' & _). congruence. }
            assert (c <> 0) by (intros ->; apply I; inversion C; left; reflexivity).
            destruct (nth_error (heap s2) c) as [y|] eqn:Ey.
            * destruct F3 as [_ F3]. destruct (F3 _ _ Ey I) as (x' & Hx' & E). destruct (eqf_fields E) as (_&_&_&_&_&E6&_).
              assert (x' = x) by congruence. subst x'.
              destruct (Hn c y) as [X|X]; [lia|exact Ey|congruence|contradiction|exact X].
            * apply nth_error_None in Ey. assert (c < length (heap s3)) by (apply nth_error_Some; congruence). lia.
          + intros p Ep. destruct (Hp p Ep) as (_ & N & z & Hz & Z1 & Z2 & _).
            destruct F3 as [_ F3]. destruct (F3 p z Hz N) as (z' & Hz' & E). destruct (eqf_fields E) as (_&_&E3&_&_&E6&_).
            exists z'. split; [auto|]. split; congruence. }
      clear Hx; destruct K as (s3 & St3 & T3 & G3 & Em3 & Ed3 & Al & Pd).
      destruct pend as [p|].
      + destruct (Pd p eq_refl) as (z & Hz & Az & Sz).
        destruct (@kill1 s3 p z GEnd T3 G3 Hz Az) as (St4 & H4 & _); [rewrite Sz; discriminate|].
        set (s4 := set_g (emit (set_co s3 p (w_dead z)) (EKill p)) GEnd) in *.
        exists s4. split; [|split; [reflexivity|split; [|split; [reflexivity|split; [|split]]]]].
        * eapply steps_trans; [exact St|]. eapply steps_cons; [exact St2|]. eapply steps_trans; [exact St3|]. eapply steps_cons; [exact St4|constructor].
        * cbn [log set_g emit s4]. rewrite marks_cons, app_nil_r. exact Em3.
        * cbn [log set_g emit s4]. rewrite delivered_cons, app_nil_r. exact Ed3.
        * intros c x Hx. destruct (alive x) eqn:Ax; [|reflexivity]. exfalso.
          cbn [heap s4 set_g emit set_co] in Hx. rewrite (nth_upd _ _ _ _ Hz) in Hx. destruct (Nat.eqb_spec p c) as [E|E].
          { injection Hx as <-. discriminate. }
          specialize (Al _ _ Hx Ax). congruence.
        * congruence.
      + exists s3. split; [|split; [unfold TaskModel.step; rewrite G3; reflexivity|split; [exact Em3|split; [exact G3|split; [exact Ed3|split]]]]].
        * eapply steps_trans; [exact St|]. eapply steps_cons; [exact St2|]. exact St3.
        * intros c x Hx. destruct (alive x) eqn:Ax; [|reflexivity]. specialize (Al _ _ Hx Ax). discriminate.
        * congruence.
    - exists s1. split; [exact St|]. split; [unfold TaskModel.step; rewrite R; reflexivity|]. auto.
  Qed.

  (** A task that is connected to a receiver and started does what [eval] says: its
      user code runs in that order, the receiver is completed once with that result,
      and every frame is destroyed exactly once -- before that completion if it is a
      value or an error.  Every execution ends so ([s'] is reached from wherever it
      is), no destroyed frame is used (that would be the end, in [GBad]), and
      std::terminate is only called if a cleanup action throws or is stopped. *)
  Theorem C51_task_partial k o t : k <> KExit -> wf k t ->
    let '(ms, _, r) := eval t 1 in
    exists s', (forall s, steps (init rqs k o t) s -> steps s s') /\ step s' = None /\ marks (log s') = ms /\
      match r with
      | Some v => g s' = GEnd /\ delivered (log s') = [v] /\
                  (forall c, c < length (heap s') -> kills c (log s') = 1) /\
                  (v <> RStp -> hd_error (log s') = Some (EDeliver v))
      | None => g s' = GTerm /\ delivered (log s') = [] /\ forall c, kills c (log s') <= 1
      end.
  Proof.
    intros Nk W. assert (H := @task_end k o t Nk W). destruct (eval t 1) as [[ms n] r]. destruct H as (s' & St & F & M & R).
    pose proof (steps_KI St (init_KI k o t)) as K.
    exists s'. split; [|split; [exact F|split; [exact M|]]].
    - intros s Hs. eapply steps_det; eauto.
    - destruct r as [v|].
      + destruct R as (A & B & C & D). split; [auto|]. split; [auto|]. split; [|auto]. intros c Hc. rewrite (K c).
        destruct (nth_error (heap s') c) as [x|] eqn:E; [rewrite (C _ _ E); reflexivity|apply nth_error_None in E; lia].
      + destruct R as (A & B). split; [auto|]. split; [auto|]. intros c. rewrite (K c). destruct (nth_error (heap s') c) as [x|]; [destruct (alive x)|]; lia.
  Qed.
End Thms.

(** The frame of a cleanup coroutine is destroyed after the receiver has been
    completed if the task is stopped: at_coroutine_exit.hpp L199-201 calls
    unhandled_stopped of the continuation first. *)
Definition t_stopped : body := BExit None (AMark 7 ADone) (BSend (fun v => BRet v) (fun e => BThrow e)).
Theorem C51_frames_before_completion_refuted :
  ~ forall ins rqs k o t s, k <> KExit -> wf k t -> steps ins rqs (init rqs k o t) s -> step ins rqs s = None -> g s = GEnd ->
      exists v, hd_error (log s) = Some (EDeliver v).
Proof.
  intros H.
  assert (X : exists s, steps (fun _ => RStp) (fun _ => false) (init (fun _ => false) KStd false t_stopped) s /\
            step (fun _ => RStp) (fun _ => false) s = None /\ g s = GEnd /\
            log s = [EKill 1; EDeliver RStp; EMark 7; EKill 0]).
  { eexists. split; [|].
    - do 10 (eapply steps_cons; [vm_compute; reflexivity|]). constructor.
    - vm_compute. auto. }
  destruct X as (s & S & F & G & L). destruct (H _ _ KStd false t_stopped s ltac:(discriminate) ltac:(cbn; auto) S F G) as (v & E).
  rewrite L in E. discriminate.
Qed.

(** Examples: what the specification, and hence the task, does. *)
Definition seqs (l : list res) (n : nat) : res := nth n (RVal 0 :: l) (RVal 0).

(** Two cleanup actions run in reverse order; the awaited task throws and the error
    is handled. *)
Definition t_ex : body :=
  BExit None (AMark 1 (ASend (fun v => AMark v ADone) (fun _ => ADone)))
   (BExit (Some DSucceeded) (AMark 2 ADone)
     (BTask KStd true (BExit None (AMark 3 ADone) (BSend (fun v => BThrow v) (fun e => BRet e))) (fun v => BRet v)
        (fun e => BMark e (BPoll (fun b => BRet (if b then 100 else 200)%Z))))).
Example C51_ex_wf : wf KExec t_ex.
Proof. cbn. repeat split; auto; discriminate. Qed.
Example C51_ex_value : eval (seqs [RVal 5; RVal 6; RVal 6]) (fun n => n =? 2) t_ex 1 = ([3; 5; 2; 1; 6]%Z, 4, Some (RVal 100)).
Proof. reflexivity. Qed.
Example C51_ex_stopped : eval (seqs [RStp; RVal 6]) (fun _ => false) t_ex 1 = ([3; 1; 6]%Z, 3, Some RStp).
Proof. reflexivity. Qed.
Example C51_ex_terminate : eval (seqs [RStp; RStp]) (fun _ => false) t_ex 1 = ([3; 1]%Z, 3, None).
Proof. reflexivity. Qed.
