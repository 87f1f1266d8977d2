(** Proofs about coroutine tasks (C51): the execution of a body by the machine of
    TaskModel is followed by induction on the body. *)
From Coq Require Import List ZArith Bool Arith Lia.
From Verif Require Import Conc TaskModel TaskSpec.
Import ListNotations.
Set Implicit Arguments.

Section Proofs.
  Variable ins : nat -> res.
  Variable rqs : nat -> bool.
  Notation step := (step ins rqs).
  Notation steps := (steps ins rqs).
  Notation requested := (requested rqs).
  Notation eval := (eval ins rqs).
  Notation cleanup := (cleanup ins).

  Lemma steps_trans s1 s2 s3 : steps s1 s2 -> steps s2 s3 -> steps s1 s3.
  Proof. induction 1; eauto using steps_cons. Qed.

  Lemma marks_cons e l : marks (e :: l) = marks l ++ match e with EMark m => [m] | _ => [] end.
  Proof. unfold marks. cbn [flat_map]. rewrite rev_app_distr. destruct e; reflexivity. Qed.
  Lemma delivered_cons e l : delivered (e :: l) = delivered l ++ match e with EDeliver r => [r] | _ => [] end.
  Proof. unfold delivered. cbn [flat_map]. rewrite rev_app_distr. destruct e; reflexivity. Qed.

  Lemma requested_S n : requested (S n) = requested n || rqs n.
  Proof. unfold TaskSpec.requested. rewrite seq_S, existsb_app. cbn. rewrite orb_false_r. reflexivity. Qed.

  (** the same coroutine, except that its stop source may have been stopped *)
  Definition eqf (y y' : coro) : Prop := y' = y \/ y' = w_flag y.
  Lemma eqf_refl y : eqf y y. Proof. left; reflexivity. Qed.
  Lemma eqf_trans x y z : eqf x y -> eqf y z -> eqf x z.
  Proof. intros [->| ->] [->| ->]; cbv [eqf]; auto. Qed.
  Lemma eqf_fields y y' : eqf y y' -> kd y' = kd y /\ par y' = par y /\ st y' = st y /\ dat y' = dat y /\ own y' = own y
    /\ alive y' = alive y /\ src y' = src y /\ cb y' = cb y /\ stopd y' = stopd y.
  Proof. intros [->| ->]; cbn; auto 20. Qed.

  Definition fr (ex : nat -> Prop) (h h' : list coro) : Prop :=
    length h <= length h' /\
    forall i y, nth_error h i = Some y -> ~ ex i -> exists y', nth_error h' i = Some y' /\ eqf y y'.

  Definition TI (s : state) : Prop :=
    rq s = requested (tm s) /\
    forall i y, nth_error (heap s) i = Some y -> alive y = true -> cb y = true -> flag y = rq s.

  (** from [s] to [s'], touching only the coroutines in [ex] and new ones *)
  Definition P (ex : nat -> Prop) (s s' : state) (ms : list Z) : Prop :=
    steps s s' /\ fr ex (heap s) (heap s') /\ marks (log s') = marks (log s) ++ ms /\
    delivered (log s') = delivered (log s) /\ TI s'.

  Lemma fr_trans ex ex' h1 h2 h3 : fr ex h1 h2 -> fr ex' h2 h3 ->
    (forall i, i < length h1 -> ex' i -> ex i) -> fr ex h1 h3.
  Proof.
    intros [L1 F1] [L2 F2] E. split; [lia|]. intros i y Hi N.
    destruct (F1 i y Hi N) as (y1 & H1 & E1).
    destruct (F2 i y1 H1) as (y2 & H2 & E2).
    - intros X. apply N, E; auto. apply nth_error_Some. congruence.
    - exists y2. split; auto. eapply eqf_trans; eauto.
  Qed.

  Lemma P_trans ex ex' s1 s2 s3 m1 m2 : P ex s1 s2 m1 -> P ex' s2 s3 m2 ->
    (forall i, i < length (heap s1) -> ex' i -> ex i) -> P ex s1 s3 (m1 ++ m2).
  Proof.
    intros (A & B & C & D & T) (A' & B' & C' & D' & T') E.
    split; [eapply steps_trans; eauto|]. split; [eapply fr_trans; eauto|].
    split; [rewrite C', C, app_assoc; reflexivity|]. split; [congruence|auto].
  Qed.

  Lemma P_trans1 ex s1 s2 s3 m1 m2 : P ex s1 s2 m1 -> P ex s2 s3 m2 -> P ex s1 s3 (m1 ++ m2).
  Proof. intros. eapply P_trans; eauto. Qed.

  Lemma P_weak (ex ex' : nat -> Prop) s s' m : P ex s s' m ->
    (forall i, i < length (heap s) -> ex i -> ex' i) -> P ex' s s' m.
  Proof.
    intros (A & [L B] & C & D & T) E. split; [auto|]. split; [|auto]. split; auto.
    intros i y Hi N. apply B; auto. intros X. apply N, E; auto. apply nth_error_Some. congruence.
  Qed.

  Lemma step_steps s s1 : step s = Some s1 -> steps s s1.
  Proof. intros H. eapply steps_cons; [eauto|constructor]. Qed.

  Lemma P_refl ex s : TI s -> P ex s s [].
  Proof.
    intros T. split; [constructor|]. split; [split; [lia|]; intros i y Hi _; exists y; split; auto using eqf_refl|].
    rewrite app_nil_r. auto.
  Qed.

  (** one step that changes no coroutine *)
  Lemma P_same ex s s1 ms : step s = Some s1 -> TI s -> heap s1 = heap s -> tm s1 = tm s -> rq s1 = rq s ->
    marks (log s1) = marks (log s) ++ ms -> delivered (log s1) = delivered (log s) -> P ex s s1 ms.
  Proof.
    intros H [T1 T2] Eh Et Er Em Ed. split; [apply step_steps; auto|]. rewrite Eh.
    split; [split; [lia|]; intros i y Hi _; exists y; split; auto using eqf_refl|].
    do 2 (split; auto). split; [congruence|]. rewrite Eh, Er. auto.
  Qed.

  (** one step that changes one coroutine *)
  Lemma P_upd s s1 c x x' ms : step s = Some s1 -> TI s -> nth_error (heap s) c = Some x ->
    heap s1 = upd (heap s) c x' -> tm s1 = tm s -> rq s1 = rq s ->
    marks (log s1) = marks (log s) ++ ms -> delivered (log s1) = delivered (log s) ->
    (alive x' = true -> cb x' = true -> alive x = true /\ cb x = true /\ flag x' = flag x) ->
    P (eq c) s s1 ms.
  Proof.
    intros H [T1 T2] Hc Eh Et Er Em Ed Hs. split; [apply step_steps; auto|]. rewrite Eh.
    split.
    - split; [rewrite upd_length; lia|]. intros i y Hi N. exists y. rewrite (nth_upd _ _ _ _ Hc).
      destruct (Nat.eqb_spec c i) as [E|E]; [contradiction|]. auto using eqf_refl.
    - do 2 (split; auto). split; [congruence|]. rewrite Eh, Er. intros i y Hi.
      rewrite (nth_upd _ _ _ _ Hc) in Hi. destruct (Nat.eqb_spec c i) as [E|E].
      + injection Hi as <-. intros A B. destruct (Hs A B) as (A1 & B1 & ->). eapply T2; eauto.
      + eauto.
  Qed.

  Definition tkf (b : bool) (x : coro) : coro := if b then if cb x then w_flag x else x else x.
  Lemma tkf_eqf b x : eqf x (tkf b x).
  Proof. unfold tkf, eqf. destruct b, (cb x); auto. Qed.
  Lemma nth_tick s i : nth_error (heap (tick rqs s)) i = option_map (tkf (rq s || rqs (tm s))) (nth_error (heap s) i).
  Proof.
    unfold tick. cbn [heap]. unfold tkf. destruct (rq s || rqs (tm s)).
    - rewrite nth_error_map. reflexivity.
    - destruct (nth_error (heap s) i); reflexivity.
  Qed.
  Lemma TI_tick s : TI s -> TI (tick rqs s).
  Proof.
    intros [T1 T2]. split.
    - cbn [rq tm tick]. rewrite requested_S, <- T1. reflexivity.
    - intros i y Hi A B. rewrite nth_tick in Hi. destruct (nth_error (heap s) i) as [z|] eqn:Ez; [|discriminate].
      injection Hi as <-. cbn [rq tick]. destruct (eqf_fields (tkf_eqf (rq s || rqs (tm s)) z)) as (_&_&_&_&_&A'&_&B'&_).
      rewrite A' in A. rewrite B' in B. specialize (T2 _ _ Ez A B). unfold tkf. rewrite B.
      destruct (rq s || rqs (tm s)) eqn:E; [reflexivity|]. rewrite T2. apply orb_false_iff in E. tauto.
  Qed.
  Lemma tick_length s : length (heap (tick rqs s)) = length (heap s).
  Proof. unfold tick. cbn [heap]. destruct (_ || _); [apply map_length|reflexivity]. Qed.

  Lemma P_tick s s1 c x x' ms : step s = Some s1 -> TI s -> nth_error (heap s) c = Some x ->
    heap s1 = upd (heap (tick rqs s)) c x' -> tm s1 = S (tm s) -> rq s1 = rq (tick rqs s) ->
    marks (log s1) = marks (log s) ++ ms -> delivered (log s1) = delivered (log s) ->
    (let y := tkf (rq s || rqs (tm s)) x in
     alive x' = true -> cb x' = true -> alive y = true /\ cb y = true /\ flag x' = flag y) ->
    P (eq c) s s1 ms.
  Proof.
    intros H T Hc Eh Et Er Em Ed Hs. split; [apply step_steps; auto|].
    assert (Hc' : nth_error (heap (tick rqs s)) c = Some (tkf (rq s || rqs (tm s)) x)) by (rewrite nth_tick, Hc; reflexivity).
    destruct (TI_tick T) as [T1 T2]. rewrite Eh. split.
    - split; [rewrite upd_length, tick_length; lia|]. intros i y Hi N. rewrite (nth_upd _ _ _ _ Hc').
      destruct (Nat.eqb_spec c i) as [E|E]; [contradiction|]. rewrite nth_tick, Hi. eexists. split; [reflexivity|apply tkf_eqf].
    - do 2 (split; auto). split; [rewrite Er, Et; exact T1|]. rewrite Eh, Er. intros i y Hi.
      rewrite (nth_upd _ _ _ _ Hc') in Hi. destruct (Nat.eqb_spec c i) as [E|E].
      + injection Hi as <-. intros A B. destruct (Hs A B) as (A1 & B1 & ->). eapply T2; eauto.
      + eauto.
  Qed.

  Lemma get_some s c x : nth_error (heap s) c = Some x -> alive x = true -> get s c = Some x.
  Proof. unfold get. intros -> ->. reflexivity. Qed.

  Lemma P_TI ex s s' m : P ex s s' m -> TI s'. Proof. intros H; apply H. Qed.
  Lemma P_len ex s s' m : P ex s s' m -> length (heap s) <= length (heap s'). Proof. intros H; apply H. Qed.
  Lemma P_fr ex s s' m i y : P ex s s' m -> nth_error (heap s) i = Some y -> ~ ex i ->
    exists y', nth_error (heap s') i = Some y' /\ eqf y y'.
  Proof. intros (_ & [_ F] & _) Hi N. apply F; auto. Qed.

  Ltac side := eauto; try solve [ eassumption | reflexivity | discriminate | eapply P_TI; eassumption
    | cbn [log set_g emit set_co alloc tick]; rewrite ?marks_cons, ?delivered_cons, ?app_nil_r; reflexivity ].

  (** a cleanup coroutine *)
  Lemma act_run a : forall s c x, g s = GGo (PCo c) -> nth_error (heap s) c = Some x -> alive x = true ->
    kd x = KExit -> st x = SAct a -> TI s ->
    let '(ms, n', ok) := cleanup a (tm s) in
    exists s', P (eq c) s s' ms /\ length (heap s') = length (heap s) /\
      if ok then tm s' = n' /\
        if stopd x then g s' = GStop (par x) (Some c) /\ exists x', nth_error (heap s') c = Some x' /\ alive x' = true /\ st x' = SFin /\ kd x' = KExit
        else g s' = GGo (par x) /\ exists x', nth_error (heap s') c = Some x' /\ alive x' = false
      else g s' = GTerm.
  Proof.
    induction a as [|e|m k IH|kv IHv ke IHe]; intros s c x Hg Hc Ha Hk Hst T; cbn [TaskSpec.cleanup].
    - destruct (stopd x) eqn:Es.
      + exists (set_g (set_co s c (w_st x SFin)) (GStop (par x) (Some c))). split; [|split].
        * eapply P_upd with (x' := w_st x SFin); side.
          unfold TaskModel.step. rewrite Hg, (get_some _ _ Hc Ha), Hst. cbn [a_step]. rewrite Es. reflexivity.
        * cbn. apply upd_length.
        * split; [reflexivity|]. split; [reflexivity|]. eexists. split; [cbn; eapply nth_upd_same; eauto|]. auto.
      + set (s1 := set_g (set_co s c (w_st x SFin)) (GKill c (GGo (par x)))).
        assert (P1 : P (eq c) s s1 []).
        { eapply P_upd with (x' := w_st x SFin); side.
          unfold TaskModel.step. rewrite Hg, (get_some _ _ Hc Ha), Hst. cbn [a_step]. rewrite Es. reflexivity. }
        assert (H1 : nth_error (heap s1) c = Some (w_st x SFin)) by (eapply nth_upd_same; eauto).
        exists (set_g (emit (set_co s1 c (w_dead (w_st x SFin))) (EKill c)) (GGo (par x))).
        split; [|split].
        * change (@nil Z) with (@nil Z ++ []). eapply P_trans1; [exact P1|].
          eapply P_upd with (x' := w_dead (w_st x SFin)); side.
          unfold TaskModel.step. cbn [g s1 set_g]. rewrite (get_some s1 _ H1 Ha). reflexivity.
        * cbn. rewrite !upd_length. reflexivity.
        * split; [reflexivity|]. split; [reflexivity|]. eexists. split; [cbn; eapply nth_upd_same; eauto|]. reflexivity.
    - exists (set_g s GTerm). split; [|split; reflexivity].
      eapply P_same; side.
      unfold TaskModel.step. rewrite Hg, (get_some _ _ Hc Ha), Hst. reflexivity.
    - set (s1 := emit (set_co s c (w_st x (SAct k))) (EMark m)).
      assert (P1 : P (eq c) s s1 [m]).
      { eapply P_upd with (x' := w_st x (SAct k)); side.
        unfold TaskModel.step. rewrite Hg, (get_some _ _ Hc Ha), Hst. reflexivity. }
      assert (H1 : nth_error (heap s1) c = Some (w_st x (SAct k))) by (eapply nth_upd_same; eauto).
      specialize (IH s1 c _ Hg H1 Ha Hk eq_refl (P_TI P1)). change (tm s1) with (tm s) in IH.
      destruct (cleanup k (tm s)) as [[ms n'] ok]. destruct IH as (s' & P2 & L & R). exists s'. split; [|split].
      + change (m :: ms) with ([m] ++ ms). eapply P_trans1; eauto.
      + rewrite L. cbn. apply upd_length.
      + exact R.
    - set (y := tkf (rq s || rqs (tm s)) x).
      assert (Hy : nth_error (heap (tick rqs s)) c = Some y) by (rewrite nth_tick, Hc; reflexivity).
      destruct (eqf_fields (tkf_eqf (rq s || rqs (tm s)) x)) as (Ek & Ep & _ & _ & _ & Ea & _ & Eb & Es). fold y in Ek, Ep, Ea, Eb, Es.
      assert (Ga : alive y = true) by congruence.
      destruct (ins (tm s)) as [v|e|] eqn:Ei.
      + set (s1 := set_co (tick rqs s) c (w_st y (SAct (kv v)))).
        assert (P1 : P (eq c) s s1 []).
        { eapply P_tick with (x' := w_st y (SAct (kv v))); side.
          unfold TaskModel.step. rewrite Hg, (get_some _ _ Hc Ha), Hst. cbn [a_step]. rewrite (get_some _ _ Hy Ga), Ei. reflexivity. }
        assert (H1 : nth_error (heap s1) c = Some (w_st y (SAct (kv v)))) by (eapply nth_upd_same; eauto).
        assert (Hk1 : kd (w_st y (SAct (kv v))) = KExit) by (cbn; congruence).
        specialize (IHv v s1 c _ Hg H1 Ga Hk1 eq_refl (P_TI P1)). change (tm s1) with (S (tm s)) in IHv.
        destruct (cleanup (kv v) (S (tm s))) as [[ms n'] ok]. destruct IHv as (s' & P2 & L & R). exists s'. split; [|split].
        * change ms with ([] ++ ms). eapply P_trans1; eauto.
        * rewrite L. cbn [heap s1 set_co]. rewrite upd_length. apply tick_length.
        * cbn [stopd par w_st] in R. rewrite Es, Ep in R. exact R.
      + set (s1 := set_co (tick rqs s) c (w_st y (SAct (ke e)))).
        assert (P1 : P (eq c) s s1 []).
        { eapply P_tick with (x' := w_st y (SAct (ke e))); side.
          unfold TaskModel.step. rewrite Hg, (get_some _ _ Hc Ha), Hst. cbn [a_step]. rewrite (get_some _ _ Hy Ga), Ei. reflexivity. }
        assert (H1 : nth_error (heap s1) c = Some (w_st y (SAct (ke e)))) by (eapply nth_upd_same; eauto).
        assert (Hk1 : kd (w_st y (SAct (ke e))) = KExit) by (cbn; congruence).
        specialize (IHe e s1 c _ Hg H1 Ga Hk1 eq_refl (P_TI P1)). change (tm s1) with (S (tm s)) in IHe.
        destruct (cleanup (ke e) (S (tm s))) as [[ms n'] ok]. destruct IHe as (s' & P2 & L & R). exists s'. split; [|split].
        * change ms with ([] ++ ms). eapply P_trans1; eauto.
        * rewrite L. cbn [heap s1 set_co]. rewrite upd_length. apply tick_length.
        * cbn [stopd par w_st] in R. rewrite Es, Ep in R. exact R.
      + exists (set_g (tick rqs s) GTerm). split; [|split; [apply tick_length|reflexivity]].
        split; [apply step_steps; unfold TaskModel.step; rewrite Hg, (get_some _ _ Hc Ha), Hst; cbn [a_step]; rewrite (get_some _ _ Hy Ga), Ei; reflexivity|].
        split; [|split; [cbn; rewrite app_nil_r; reflexivity|split; [reflexivity|exact (TI_tick T)]]].
        split; [cbn [heap set_g]; rewrite tick_length; lia|].
        intros i z Hi N. cbn [heap set_g]. rewrite nth_tick, Hi. eexists. split; [reflexivity|apply tkf_eqf].
  Qed.

  (** the frames that are destroyed with [c] *)
  Inductive chain (h : list coro) : nat -> list nat -> Prop :=
  | ch_end c x : nth_error h c = Some x -> alive x = true -> kd x <> KExit ->
      (forall n kv ke, st x <> SWaitT n kv ke) -> chain h c [c]
  | ch_dead c x n kv ke y : nth_error h c = Some x -> alive x = true -> kd x <> KExit -> st x = SWaitT n kv ke ->
      c < n -> nth_error h n = Some y -> kd y <> KExit -> own y = false -> chain h c [c]
  | ch_cons c x n kv ke y l : nth_error h c = Some x -> alive x = true -> kd x <> KExit -> st x = SWaitT n kv ke ->
      c < n -> nth_error h n = Some y -> own y = true -> chain h n l -> chain h c (c :: l).

  Lemma chain_pres h h' c l : chain h c l ->
    (forall i y, nth_error h i = Some y -> kd y <> KExit -> exists y', nth_error h' i = Some y' /\ eqf y y') -> chain h' c l.
  Proof.
    intros C K. induction C as [c x Hx Ha Hk Hs|c x n kv ke y Hx Ha Hk Hs L Hy Hky Ho|c x n kv ke y l Hx Ha Hk Hs L Hy Ho C IH];
      destruct (K _ _ Hx Hk) as (x' & Hx' & E); destruct (eqf_fields E) as (E1 & _ & E3 & _ & _ & E6 & _).
    - eapply ch_end; eauto; congruence.
    - destruct (K _ _ Hy Hky) as (y' & Hy' & E'). destruct (eqf_fields E') as (E1' & _ & _ & _ & E5' & _).
      eapply ch_dead with (x := x') (y := y') (n := n) (kv := kv) (ke := ke); try congruence; eauto.
    - assert (Hky : kd y <> KExit) by (inversion C; congruence).
      destruct (K _ _ Hy Hky) as (y' & Hy' & E'). destruct (eqf_fields E') as (E1' & _ & _ & _ & E5' & _).
      eapply ch_cons with (x := x') (y := y') (n := n) (kv := kv) (ke := ke); try congruence; eauto.
  Qed.

  Lemma chain_ge h h' c l : chain h c l -> (forall i, c <= i -> nth_error h' i = nth_error h i) -> chain h' c l.
  Proof.
    intros C. induction C as [c x Hx Ha Hk Hs|c x n kv ke y Hx Ha Hk Hs L Hy Hky Ho|c x n kv ke y l Hx Ha Hk Hs L Hy Ho C IH]; intros K.
    - eapply ch_end; eauto. rewrite K; auto.
    - eapply ch_dead; eauto; rewrite K; auto; lia.
    - eapply ch_cons; eauto; [rewrite K; auto|rewrite K; auto; lia|]. apply IH. intros i Hi. apply K. lia.
  Qed.

  Lemma chain_ids h c l : chain h c l -> forall i, In i l -> c <= i.
  Proof.
    induction 1 as [| |c x n kv ke y l Hx Ha Hk Hs L Hy Ho C IH]; intros i; [intros [<-|[]]; lia|intros [<-|[]]; lia|].
    intros [<-|Hi]; [lia|]. specialize (IH _ Hi). lia.
  Qed.

  Lemma chain_head h c l x x' : chain h c l -> nth_error h c = Some x ->
    alive x' = alive x -> kd x' = kd x -> st x' = st x -> chain (upd h c x') c l.
  Proof.
    intros C Hc A K S.
    assert (N : forall i, c < i -> nth_error (upd h c x') i = nth_error h i) by (intros i Hi; apply nth_upd_other; lia).
    inversion C as [c0 x0 Hx Ha Hk Hs|c0 x0 n kv ke y Hx Ha Hk Hs L Hy Hky Ho|c0 x0 n kv ke y l0 Hx Ha Hk Hs L Hy Ho C0]; subst;
      assert (x0 = x) by congruence; subst x0; pose proof (nth_upd_same _ _ x' Hc) as Hc'.
    - eapply ch_end; eauto; congruence.
    - eapply ch_dead with (x := x') (y := y) (n := n) (kv := kv) (ke := ke); try congruence; auto. rewrite N; auto.
    - eapply ch_cons with (x := x') (y := y) (n := n) (kv := kv) (ke := ke); try congruence; auto; [rewrite N; auto|].
      eapply chain_ge; eauto. intros i Hi. apply N. lia.
  Qed.

  Lemma kill_run l : forall s c k, chain (heap s) c l -> g s = GKill c k -> TI s ->
    exists s', P (fun i => In i l) s s' [] /\ length (heap s') = length (heap s) /\ tm s' = tm s /\ g s' = k /\
      (forall i, In i l -> exists y y', nth_error (heap s) i = Some y /\ nth_error (heap s') i = Some y' /\ alive y' = false /\ own y' = own y /\ kd y' = kd y).
  Proof.
    induction l as [|c0 l IH]; intros s c k C Hg T; [inversion C|].
    assert (Single : l = [] -> c0 = c -> forall x, nth_error (heap s) c = Some x ->
      step s = Some (set_g (emit (set_co s c (w_dead x)) (EKill c)) k) ->
      exists s', P (fun i => In i [c]) s s' [] /\ length (heap s') = length (heap s) /\ tm s' = tm s /\ g s' = k /\
      (forall i, In i [c] -> exists y y', nth_error (heap s) i = Some y /\ nth_error (heap s') i = Some y' /\ alive y' = false /\ own y' = own y /\ kd y' = kd y)).
    { intros -> -> x Hx Hst. exists (set_g (emit (set_co s c (w_dead x)) (EKill c)) k). split; [|split; [apply upd_length|split; [reflexivity|split; [reflexivity|]]]].
      + eapply P_weak with (ex := eq c); [|intros i _ <-; left; reflexivity].
        eapply P_upd with (x' := w_dead x); side.
      + intros i [<-|[]]. exists x, (w_dead x). split; [auto|]. split; [eapply nth_upd_same; eauto|]. auto. }
    inversion C as [c1 x Hx Ha Hk Hs|c1 x n kv ke y Hx Ha Hk Hs L Hy Hky Ho|c1 x n kv ke y l0 Hx Ha Hk Hs L Hy Ho C0]; subst.
    - apply Single with (x := x); auto.
      unfold TaskModel.step. rewrite Hg, (get_some _ _ Hx Ha). destruct (st x); try reflexivity. exfalso; eapply Hs; reflexivity.
    - apply Single with (x := x); auto.
      unfold TaskModel.step. rewrite Hg, (get_some _ _ Hx Ha), Hs, Hy, Ho. reflexivity.
    - clear Single. rename c0 into c. set (s1 := set_g (emit (set_co s c (w_dead x)) (EKill c)) (GKill n k)).
      assert (P1 : P (eq c) s s1 []).
      { eapply P_upd with (x' := w_dead x); side.
        unfold TaskModel.step. rewrite Hg, (get_some _ _ Hx Ha), Hs, Hy, Ho. reflexivity. }
      assert (C1 : chain (heap s1) n l) by (eapply chain_ge; eauto; intros i Hi; apply nth_upd_other; lia).
      pose proof (chain_ids C0) as Hge.
      assert (H1 : nth_error (heap s1) c = Some (w_dead x)) by (eapply nth_upd_same; eauto).
      destruct (IH s1 n k C1 eq_refl (P_TI P1)) as (s' & P2 & L2 & T2 & G2 & D2).
      exists s'. split; [|split; [rewrite L2; apply upd_length|split; [exact T2|split; [exact G2|]]]].
      + change (@nil Z) with (@nil Z ++ []). eapply P_trans; [eapply P_weak; [exact P1|]|exact P2|].
        * intros i _ <-. left; reflexivity.
        * intros i _ Hi. right; auto.
      + intros i [<-|Hi].
        * assert (N : ~ In c l) by (intros X; specialize (Hge _ X); lia).
          destruct (P_fr _ P2 H1 N) as (z & Hz & E). destruct (eqf_fields E) as (E1 & _ & _ & _ & E5 & E6 & _).
          exists x, z. cbn in E1, E5, E6. auto.
        * destruct (D2 _ Hi) as (u & u' & Hu & R). exists u, u'. split; auto. specialize (Hge _ Hi).
          unfold s1 in Hu. cbn [heap set_g emit set_co] in Hu. rewrite nth_upd_other in Hu; auto; lia.
  Qed.

  Definition srcok (h : list coro) (x : coro) : Prop :=
    forall m, src x = Some m -> exists y, nth_error h m = Some y /\ alive y = true /\ cb y = true.
  Lemma token_ok s x : TI s -> srcok (heap s) x -> token s x = Some (rq s).
  Proof.
    intros [_ T] K. unfold token. destruct (src x) as [m|] eqn:E; [|reflexivity].
    destruct (K m E) as (y & Hy & Ha & Hb). rewrite (get_some _ _ Hy Ha). f_equal. eauto.
  Qed.
  Definition keeps (h h' : list coro) : Prop :=
    forall i y, nth_error h i = Some y -> alive y = true -> cb y = true ->
    exists y', nth_error h' i = Some y' /\ alive y' = true /\ cb y' = true.
  Lemma srcok_keeps h h' x x' : srcok h x -> keeps h h' -> src x' = src x -> srcok h' x'.
  Proof. intros S K E m Hm. rewrite E in Hm. destruct (S m Hm) as (y & Hy & A & B). eauto. Qed.
  Lemma keeps_P ex s s' m : P ex s s' m -> (forall i, i < length (heap s) -> ~ ex i) -> keeps (heap s) (heap s').
  Proof.
    intros HP N i y Hi A B. destruct (P_fr _ HP Hi) as (y' & Hy' & E).
    - apply N. apply nth_error_Some. congruence.
    - destruct (eqf_fields E) as (_&_&_&_&_&E1&_&E2&_). exists y'. split; auto. split; congruence.
  Qed.
  Lemma keeps_upd h c x x' : nth_error h c = Some x -> alive x' = alive x -> cb x' = cb x -> keeps h (upd h c x').
  Proof.
    intros Hc A B i y Hi Ay By. rewrite (nth_upd _ _ _ _ Hc). destruct (Nat.eqb_spec c i) as [<-|E]; [|eauto].
    exists x'. split; auto. split; congruence.
  Qed.
  Lemma keeps_app h x : keeps h (h ++ [x]).
  Proof. intros i y Hi A B. exists y. split; auto. rewrite nth_error_app1; auto. apply nth_error_Some. congruence. Qed.
  Lemma keeps_tick s : keeps (heap s) (heap (tick rqs s)).
  Proof.
    intros i y Hi A B. rewrite nth_tick, Hi. eexists. split; [reflexivity|].
    destruct (eqf_fields (tkf_eqf (rq s || rqs (tm s)) y)) as (_&_&_&_&_&E1&_&E2&_). split; congruence.
  Qed.
  Lemma keeps_trans h1 h2 h3 : keeps h1 h2 -> keeps h2 h3 -> keeps h1 h3.
  Proof. intros A B i y Hi Ha Hb. destruct (A _ _ Hi Ha Hb) as (y' & H' & A' & B'). eauto. Qed.

  (** after task [c], which was started when [base] coroutines existed, has completed *)
  Definition DoneP (base c : nat) (q : ptr) (r : res) (s' : state) : Prop :=
    g s' = GGo q /\
    (exists xc, nth_error (heap s') c = Some xc /\ alive xc = true /\ dat xc = Some r /\ own xc = true /\ st xc = SFin) /\
    (forall i y, base <= i -> nth_error (heap s') i = Some y -> alive y = false).

  (** after it was stopped *)
  Definition StopP (base c : nat) (k : kind) (q : ptr) (s' : state) : Prop :=
    exists pend l, g s' = GStop q pend /\
    (forall p, pend = Some p -> base <= p /\ ~ In p l /\ exists z, nth_error (heap s') p = Some z /\ alive z = true /\ st z = SFin /\ kd z = KExit) /\
    (forall i, In i l -> i = c \/ base <= i) /\
    (exists xc, nth_error (heap s') c = Some xc /\ kd xc = k /\
       (k = KStd /\ alive xc = false /\ own xc = false /\ l = [] \/
        k = KExec /\ alive xc = true /\ own xc = true /\ dat xc = None /\ chain (heap s') c l)) /\
    (forall i y, base <= i -> nth_error (heap s') i = Some y -> alive y = true -> In i l \/ pend = Some i).

  Lemma stop_at base s c x k q pend l : TI s -> g s = GStop (PCo c) pend -> nth_error (heap s) c = Some x -> alive x = true ->
    kd x = k -> k <> KExit -> par x = q -> dat x = None -> own x = true -> chain (heap s) c l -> c < base ->
    (forall p, pend = Some p -> base <= p /\ ~ In p l /\ exists z, nth_error (heap s) p = Some z /\ alive z = true /\ st z = SFin /\ kd z = KExit) ->
    (forall i, In i l -> i = c \/ base <= i) ->
    (forall i y, base <= i -> nth_error (heap s) i = Some y -> alive y = true -> In i l \/ pend = Some i) ->
    exists s', P (fun i => i = c \/ base <= i) s s' [] /\ tm s' = tm s /\ length (heap s') = length (heap s) /\ StopP base c k q s'.
  Proof.
    intros T Hg Hc Ha Hk Nk Hq Hd Ho C Lb Hp Hl Hn. destruct k; [| |congruence].
    - set (s1 := set_g (set_co s c (w_own (w_cb x))) (GKill c (GStop q pend))).
      assert (P1 : P (eq c) s s1 []).
      { eapply P_upd with (x' := w_own (w_cb x)); side.
        unfold TaskModel.step. rewrite Hg, (get_some _ _ Hc Ha), Hk, Hq. reflexivity. }
      assert (C1 : chain (heap s1) c l) by (eapply chain_head; eauto).
      destruct (kill_run C1 eq_refl (P_TI P1)) as (s' & P2 & L2 & T2 & G2 & D2).
      exists s'. split; [|split; [exact T2|split; [rewrite L2; apply upd_length|]]].
      + change (@nil Z) with (@nil Z ++ []). eapply P_trans; [eapply P_weak; [exact P1|]|exact P2|].
        * intros i _ <-. auto.
        * intros i _ Hi. auto.
      + assert (Inc : In c l) by (inversion C; left; reflexivity).
        assert (Hback : forall i y, base <= i -> nth_error (heap s') i = Some y -> ~ In i l ->
          exists y0, nth_error (heap s) i = Some y0 /\ eqf y0 y).
        { intros i y Hi Hy N. destruct (nth_error (heap s1) i) as [y0|] eqn:E0.
          - destruct (P_fr _ P2 E0 N) as (y1 & Hy1 & E). exists y0.
            unfold s1 in E0; cbn [heap set_g set_co] in E0. rewrite nth_upd_other in E0 by lia.
            split; auto. congruence.
          - apply nth_error_None in E0. assert (i < length (heap s')) by (apply nth_error_Some; congruence). lia. }
        exists pend, []. split; [auto|]. split; [|split; [intros i []|split]].
        * intros p Ep. destruct (Hp p Ep) as (B & N & z & Hz & Z1 & Z2 & Z3). split; [auto|]. split; [intros []|].
          assert (Hz1 : nth_error (heap s1) p = Some z) by (unfold s1; cbn [heap set_g set_co]; rewrite nth_upd_other; auto; lia).
          destruct (P_fr _ P2 Hz1 N) as (z' & Hz' & E). destruct (eqf_fields E) as (E1 & _ & E3 & _ & _ & E6 & _).
          exists z'. split; [auto|]. split; [congruence|]. split; congruence.
        * destruct (D2 _ Inc) as (u & u' & Hu & Hu' & A & B & K).
          assert (u = w_own (w_cb x)).
          { unfold s1 in Hu. cbn [heap set_g set_co] in Hu. rewrite (nth_upd_same _ _ _ Hc) in Hu. congruence. }
          subst u. exists u'. split; [auto|].
          split; [cbn in K; congruence|]. left. cbn in B. auto.
        * intros i y Hi Hy Ay. right. destruct (in_dec Nat.eq_dec i l) as [I|N].
          { destruct (D2 _ I) as (u & u' & Hu & Hu' & A & B & K). congruence. }
          destruct (Hback i y Hi Hy N) as (y0 & Hy0 & E). destruct (eqf_fields E) as (_ & _ & _ & _ & _ & E6 & _).
          destruct (Hn i y0 Hi Hy0) as [X|X]; [congruence|contradiction|auto].
    - exists (set_g s (GStop q pend)). split; [|split; [reflexivity|split; [reflexivity|]]].
      + eapply P_same; side. unfold TaskModel.step. rewrite Hg, (get_some _ _ Hc Ha), Hk, Hq. reflexivity.
      + exists pend, l. split; [reflexivity|]. split; [exact Hp|]. split; [auto|]. split; [|exact Hn].
        exists x. split; [auto|]. split; [auto|]. right. auto 10.
  Qed.

  Lemma P_ge base c s s' ms i y : P (fun i => i = c \/ base <= i) s s' ms -> nth_error (heap s) i = Some y -> i < base -> i <> c ->
    exists y', nth_error (heap s') i = Some y' /\ eqf y y'.
  Proof. intros HP Hi L N. eapply P_fr; eauto. intros [X|X]; [auto|lia]. Qed.

  Lemma P_new (ex : nat -> Prop) s s' ms i y' : P ex s s' ms -> nth_error (heap s') i = Some y' -> i < length (heap s) -> ~ ex i ->
    exists y, nth_error (heap s) i = Some y /\ eqf y y'.
  Proof.
    intros HP Hi L N. destruct (nth_error (heap s) i) as [y|] eqn:E; [|apply nth_error_None in E; lia].
    destruct (P_fr _ HP E N) as (z & Hz & Ez). exists y. split; auto. congruence.
  Qed.

  (** one step that adds a coroutine and changes one *)
  Lemma P_alloc s s1 c x x' n : step s = Some s1 -> TI s -> nth_error (heap s) c = Some x ->
    heap s1 = upd (heap s) c x' ++ [n] -> tm s1 = tm s -> rq s1 = rq s -> log s1 = log s ->
    alive x' = alive x -> cb x' = cb x -> flag x' = flag x ->
    (cb n = true -> flag n = rq s) -> P (eq c) s s1 [].
  Proof.
    intros H [T1 T2] Hc Eh Et Er El A B F Hn. split; [apply step_steps; auto|]. rewrite Eh, El, app_nil_r.
    split.
    - split; [rewrite app_length, upd_length; lia|]. intros i y Hi N. exists y.
      rewrite nth_error_app1 by (rewrite upd_length; apply nth_error_Some; congruence).
      rewrite (nth_upd _ _ _ _ Hc). destruct (Nat.eqb_spec c i) as [E|E]; [contradiction|]. auto using eqf_refl.
    - do 2 (split; auto). split; [congruence|]. rewrite Eh, Er. intros i y Hi Ay By.
      destruct (Nat.ltb_spec i (length (heap s))) as [L|L].
      + rewrite nth_error_app1 in Hi by (rewrite upd_length; lia). rewrite (nth_upd _ _ _ _ Hc) in Hi.
        destruct (Nat.eqb_spec c i) as [E|E]; [|eauto]. injection Hi as <-. rewrite F. eapply T2; eauto; congruence.
      + rewrite nth_error_app2 in Hi by (rewrite upd_length; lia). rewrite upd_length in Hi.
        destruct (i - length (heap s)) as [|j]; cbn in Hi; [injection Hi as <-; auto|destruct j; discriminate].
  Qed.

  Definition Out (base c : nat) (k : kind) (q : ptr) (s : state) (o : list Z * nat * option res) : Prop :=
    let '(ms, n', r) := o in
    exists s', P (fun i => i = c \/ base <= i) s s' ms /\
      match r with
      | Some RStp => tm s' = n' /\ StopP base c k q s'
      | Some r => tm s' = n' /\ DoneP base c q r s'
      | None => g s' = GTerm
      end.

  (** prepend some steps *)
  Lemma Out_pre ex base base' c k q s s1 m0 ms n' r : P ex s s1 m0 -> length (heap s1) = base' -> base <= base' -> c < base ->
    base <= length (heap s) ->
    (forall i, i < length (heap s) -> ex i -> i = c \/ base <= i) ->
    (forall i y, base <= i -> i < base' -> nth_error (heap s1) i = Some y -> alive y = false) ->
    Out base' c k q s1 (ms, n', r) -> Out base c k q s (m0 ++ ms, n', r).
  Proof.
    intros P1 L1 Lb Lc Lh He Hd (s' & P2 & R). exists s'. split.
    - eapply P_trans; [eapply P_weak; [exact P1|exact He]|exact P2|]. intros i Hi [X|X]; [auto|]. pose proof (P_len P1). lia.
    - assert (Hold : forall i y, base <= i -> i < base' -> nth_error (heap s') i = Some y -> alive y = false).
      { intros i y Hi Hi' Hy. destruct (Nat.ltb_spec i (length (heap s1))) as [L|L].
        - destruct (P_new P2 Hy L) as (z & Hz & E); [intros [X|X]; lia|].
          destruct (eqf_fields E) as (_&_&_&_&_&E6&_). rewrite E6. eauto.
        - lia. }
      assert (Hdone : forall v, DoneP base' c q v s' -> DoneP base c q v s').
      { intros v (A & B & C). split; [auto|]. split; [auto|]. intros i y Hi Hy.
        destruct (Nat.ltb_spec i base'); eauto. }
      destruct r as [[v|e|]|]; [destruct R as [R1 R2]; split; auto ..|exact R].
      destruct R2 as (pend & l & A & B & C & D & E). exists pend, l. split; [auto|]. split; [|split; [|split; [exact D|]]].
      + intros p Ep. destruct (B p Ep) as (B1 & B2). split; [lia|auto].
      + intros i Hi. destruct (C i Hi); auto. right; lia.
      + intros i y Hi Hy Ay. destruct (Nat.ltb_spec i base') as [L|L]; [|eauto].
        rewrite (Hold i y Hi L Hy) in Ay. discriminate.
  Qed.

  Lemma res_eq_stp (v : res) : {v = RStp} + {v <> RStp}.
  Proof. destruct v; [right|right|left]; congruence. Qed.

  Lemma body_run b : forall k s c x q, wf k b -> k <> KExit -> g s = GGo (PCo c) -> nth_error (heap s) c = Some x ->
    alive x = true -> st x = SBody b -> kd x = k -> par x = q -> dat x = None -> own x = true -> TI s -> srcok (heap s) x ->
    Out (length (heap s)) c k q s (eval b (tm s)).
  Proof.
    induction b as [v|e| |m b IH|kb IH|kv IHv ke IHe|k' o t IHt kv IHv ke IHe|f a b IH];
      intros k s c x q W Nk Hg Hc Ha Hst Hk Hq Hd Ho T Sr; cbn [TaskSpec.eval];
      assert (Lc : c < length (heap s)) by (apply nth_error_Some; congruence).
    - (* BRet *)
      set (y := w_st (w_dat x (RVal v)) SFin). set (x' := if is_kexec (kd x) then y else w_cb y).
      exists (set_g (set_co s c x') (GGo q)). split.
      + eapply P_weak with (ex := eq c); [|intros i _ <-; auto]. eapply P_upd with (x' := x'); side.
        * unfold TaskModel.step. rewrite Hg, (get_some _ _ Hc Ha), Hst, <- Hq. reflexivity.
        * unfold x'. destruct (is_kexec (kd x)); cbn; auto; discriminate.
      + split; [reflexivity|]. split; [reflexivity|]. split.
        * exists x'. split; [eapply nth_upd_same; eauto|]. unfold x'; destruct (is_kexec (kd x)); cbn; auto.
        * intros i z Hi Hz. exfalso. assert (i < length (upd (heap s) c x')) by (apply nth_error_Some; unfold set_g, set_co in Hz; cbn [heap] in Hz; congruence).
          rewrite upd_length in *. lia.
    - set (y := w_st (w_dat x (RErr e)) SFin). set (x' := if is_kexec (kd x) then y else w_cb y).
      exists (set_g (set_co s c x') (GGo q)). split.
      + eapply P_weak with (ex := eq c); [|intros i _ <-; auto]. eapply P_upd with (x' := x'); side.
        * unfold TaskModel.step. rewrite Hg, (get_some _ _ Hc Ha), Hst, <- Hq. reflexivity.
        * unfold x'. destruct (is_kexec (kd x)); cbn; auto; discriminate.
      + split; [reflexivity|]. split; [reflexivity|]. split.
        * exists x'. split; [eapply nth_upd_same; eauto|]. unfold x'; destruct (is_kexec (kd x)); cbn; auto.
        * intros i z Hi Hz. exfalso. assert (i < length (upd (heap s) c x')) by (apply nth_error_Some; unfold set_g, set_co in Hz; cbn [heap] in Hz; congruence).
          rewrite upd_length in *. lia.
    - (* BStop *)
      set (s1 := set_g (set_co s c (w_st x SWaitS)) (GStop (PCo c) None)).
      assert (P1 : P (eq c) s s1 []).
      { eapply P_upd with (x' := w_st x SWaitS); side.
        unfold TaskModel.step. rewrite Hg, (get_some _ _ Hc Ha), Hst. reflexivity. }
      assert (H1 : nth_error (heap s1) c = Some (w_st x SWaitS)) by (eapply nth_upd_same; eauto).
      assert (C1 : chain (heap s1) c [c]) by (eapply ch_end; [exact H1|exact Ha|cbn; congruence|discriminate]).
      assert (L1 : length (heap s1) = length (heap s)) by apply upd_length.
      destruct (@stop_at (length (heap s)) s1 c _ k q None [c] (P_TI P1) eq_refl H1 Ha Hk Nk Hq Hd Ho C1 Lc) as (s' & P2 & T2 & L2 & SP).
      { discriminate. } { intros i [<-|[]]; auto. }
      { intros i y Hi Hy. assert (i < length (heap s1)) by (apply nth_error_Some; congruence). lia. }
      exists s'. split; [|split; auto].
      change (@nil Z) with (@nil Z ++ []). eapply P_trans; [eapply P_weak; [exact P1|intros i _ <-; auto]|exact P2|auto].
    - (* BMark *)
      set (s1 := emit (set_co s c (w_st x (SBody b))) (EMark m)).
      assert (P1 : P (eq c) s s1 [m]).
      { eapply P_upd with (x' := w_st x (SBody b)); side.
        unfold TaskModel.step. rewrite Hg, (get_some _ _ Hc Ha), Hst. reflexivity. }
      assert (H1 : nth_error (heap s1) c = Some (w_st x (SBody b))) by (eapply nth_upd_same; eauto).
      assert (S1 : srcok (heap s1) (w_st x (SBody b))).
      { eapply srcok_keeps; [exact Sr| |reflexivity]. eapply keeps_upd; eauto. }
      specialize (IH k s1 c _ q W Nk Hg H1 Ha eq_refl Hk Hq Hd Ho (P_TI P1) S1). change (tm s1) with (tm s) in IH.
      assert (L1 : length (heap s1) = length (heap s)) by apply upd_length. rewrite L1 in IH.
      destruct (eval b (tm s)) as [[ms n'] r]. change (m :: ms) with ([m] ++ ms).
      eapply Out_pre; [exact P1|exact L1|lia|lia|lia|intros i _ <-; auto|intros; lia|exact IH].
    - (* BPoll *)
      set (y := tkf (rq s || rqs (tm s)) x).
      assert (Hy : nth_error (heap (tick rqs s)) c = Some y) by (rewrite nth_tick, Hc; reflexivity).
      destruct (eqf_fields (tkf_eqf (rq s || rqs (tm s)) x)) as (Ek & Ep & _ & Ed & Eo & Ea & Er & Eb & Es). fold y in Ek, Ep, Ed, Eo, Ea, Er, Eb, Es.
      assert (Ga : alive y = true) by congruence.
      assert (Sy : srcok (heap (tick rqs s)) y) by (eapply srcok_keeps; [exact Sr|apply keeps_tick|exact Er]).
      pose proof (token_ok (TI_tick T) Sy) as Et.
      assert (Eq : rq (tick rqs s) = requested (S (tm s))) by (apply (TI_tick T)). rewrite Eq in Et.
      set (s1 := set_co (tick rqs s) c (w_st y (SBody (kb (requested (S (tm s))))))).
      assert (P1 : P (eq c) s s1 []).
      { eapply P_tick with (x' := w_st y (SBody (kb (requested (S (tm s)))))); side.
        unfold TaskModel.step. rewrite Hg, (get_some _ _ Hc Ha), Hst. cbn [b_step]. rewrite (get_some _ _ Hy Ga), Et. reflexivity. }
      assert (H1 : nth_error (heap s1) c = Some (w_st y (SBody (kb (requested (S (tm s))))))) by (eapply nth_upd_same; eauto).
      assert (S1 : srcok (heap s1) (w_st y (SBody (kb (requested (S (tm s))))))).
      { eapply srcok_keeps; [exact Sy| |reflexivity]. eapply keeps_upd; eauto. }
      assert (L1 : length (heap s1) = length (heap s)) by (cbn [heap s1 set_co]; rewrite upd_length; apply tick_length).
      assert (IH1 := IH (requested (S (tm s))) k s1 c _ q (W _) Nk Hg H1 Ga eq_refl ltac:(cbn; congruence) ltac:(cbn; congruence)
        ltac:(cbn; congruence) ltac:(cbn; congruence) (P_TI P1) S1). change (tm s1) with (S (tm s)) in IH1. rewrite L1 in IH1.
      destruct (eval (kb (requested (S (tm s)))) (S (tm s))) as [[ms n'] r]. change ms with ([] ++ ms).
      eapply Out_pre; [exact P1|exact L1|lia|lia|lia|intros i _ <-; auto|intros; lia|exact IH1].
    - (* BSend *)
      set (y := tkf (rq s || rqs (tm s)) x).
      assert (Hy : nth_error (heap (tick rqs s)) c = Some y) by (rewrite nth_tick, Hc; reflexivity).
      destruct (eqf_fields (tkf_eqf (rq s || rqs (tm s)) x)) as (Ek & Ep & _ & Ed & Eo & Ea & Er & Eb & Es). fold y in Ek, Ep, Ed, Eo, Ea, Er, Eb, Es.
      assert (Ga : alive y = true) by congruence.
      assert (Sy : srcok (heap (tick rqs s)) y) by (eapply srcok_keeps; [exact Sr|apply keeps_tick|exact Er]).
      assert (Go : forall b', step s = Some (set_co (tick rqs s) c (w_st y (SBody b'))) -> wf k b' ->
        (forall k s c x q, wf k b' -> k <> KExit -> g s = GGo (PCo c) -> nth_error (heap s) c = Some x ->
          alive x = true -> st x = SBody b' -> kd x = k -> par x = q -> dat x = None -> own x = true -> TI s -> srcok (heap s) x ->
          Out (length (heap s)) c k q s (eval b' (tm s))) ->
        Out (length (heap s)) c k q s (eval b' (S (tm s)))).
      { intros b' Hstep W' IH. set (s1 := set_co (tick rqs s) c (w_st y (SBody b'))) in *.
        assert (P1 : P (eq c) s s1 []) by (eapply P_tick with (x' := w_st y (SBody b')); side).
        assert (H1 : nth_error (heap s1) c = Some (w_st y (SBody b'))) by (eapply nth_upd_same; eauto).
        assert (S1 : srcok (heap s1) (w_st y (SBody b'))).
        { eapply srcok_keeps; [exact Sy| |reflexivity]. eapply keeps_upd; eauto. }
        assert (L1 : length (heap s1) = length (heap s)) by (cbn [heap s1 set_co]; rewrite upd_length; apply tick_length).
        assert (IH1 := IH k s1 c _ q W' Nk Hg H1 Ga eq_refl ltac:(cbn; congruence) ltac:(cbn; congruence)
          ltac:(cbn; congruence) ltac:(cbn; congruence) (P_TI P1) S1). change (tm s1) with (S (tm s)) in IH1. rewrite L1 in IH1.
        destruct (eval b' (S (tm s))) as [[ms n'] r]. change ms with ([] ++ ms).
        eapply Out_pre; [exact P1|exact L1|lia|lia|lia|intros i _ <-; auto|intros; lia|exact IH1]. }
      assert (St : step s = Some (match ins (tm s) with
                    | RVal v => set_co (tick rqs s) c (w_st y (SBody (kv v)))
                    | RErr e => set_co (tick rqs s) c (w_st y (SBody (ke e)))
                    | RStp => set_g (set_co (tick rqs s) c (w_st y SWaitS)) (GStop (PCo c) None) end)).
      { unfold TaskModel.step. rewrite Hg, (get_some _ _ Hc Ha), Hst. cbn [b_step]. rewrite (get_some _ _ Hy Ga). reflexivity. }
      destruct W as [Wv We]. destruct (ins (tm s)) as [v|e|] eqn:Ei.
      + apply Go; auto. exact (IHv v).
      + apply Go; auto. exact (IHe e).
      + clear Go. set (s1 := set_g (set_co (tick rqs s) c (w_st y SWaitS)) (GStop (PCo c) None)) in *.
        assert (P1 : P (eq c) s s1 []) by (eapply P_tick with (x' := w_st y SWaitS); side).
        assert (H1 : nth_error (heap s1) c = Some (w_st y SWaitS)) by (eapply nth_upd_same; eauto).
        assert (C1 : chain (heap s1) c [c]) by (eapply ch_end; [exact H1|exact Ga|cbn; congruence|discriminate]).
        assert (L1 : length (heap s1) = length (heap s)) by (cbn [heap s1 set_co set_g]; rewrite upd_length; apply tick_length).
        destruct (@stop_at (length (heap s)) s1 c _ k q None [c] (P_TI P1) eq_refl H1 Ga ltac:(cbn; congruence) Nk ltac:(cbn; congruence)
          ltac:(cbn; congruence) ltac:(cbn; congruence) C1 Lc) as (s' & P2 & T2 & L2 & SP).
        { discriminate. } { intros i [<-|[]]; auto. }
        { intros i z Hi Hz. assert (i < length (heap s1)) by (apply nth_error_Some; congruence). lia. }
        exists s'. split; [|split; auto].
        change (@nil Z) with (@nil Z ++ []). eapply P_trans; [eapply P_weak; [exact P1|intros i _ <-; auto]|exact P2|auto].
    - (* BTask *)
      destruct W as (Nk' & Wt & Wv & We). set (n := length (heap s)) in *.
      set (xn := mkc k' (PCo c) (SBody t) None true true (if o then Some n else src x) o (o && rq s) false).
      set (s1 := set_g (alloc (set_co s c (w_st x (SWaitT n kv ke))) xn) (GGo (PCo n))).
      assert (P1 : P (eq c) s s1 []).
      { eapply P_alloc with (x' := w_st x (SWaitT n kv ke)) (n := xn); side.
        - unfold TaskModel.step. rewrite Hg, (get_some _ _ Hc Ha), Hst. cbn [b_step]. rewrite (token_ok T Sr). reflexivity.
        - cbn. intros ->. reflexivity. }
      assert (L1 : length (heap s1) = S n) by (cbn [heap s1 set_g alloc set_co]; rewrite app_length, upd_length; cbn; lia).
      assert (H1c : nth_error (heap s1) c = Some (w_st x (SWaitT n kv ke))).
      { cbn [heap s1 set_g alloc set_co]. rewrite nth_error_app1 by (rewrite upd_length; auto). eapply nth_upd_same; eauto. }
      assert (H1n : nth_error (heap s1) n = Some xn).
      { cbn [heap s1 set_g alloc set_co]. rewrite nth_error_app2 by (rewrite upd_length; auto). rewrite upd_length. fold n. rewrite Nat.sub_diag. reflexivity. }
      assert (S1 : srcok (heap s1) xn).
      { intros m Hm. cbn [src xn] in Hm. destruct o.
        - injection Hm as <-. exists xn. auto.
        - assert (K : srcok (heap s1) x); [|exact (K m Hm)].
          eapply srcok_keeps; [exact Sr| |reflexivity]. eapply keeps_trans; [eapply keeps_upd with (x' := w_st x (SWaitT n kv ke)); [exact Hc|reflexivity|reflexivity]|apply keeps_app]. }
      specialize (IHt k' s1 n xn (PCo c) Wt Nk' eq_refl H1n eq_refl eq_refl eq_refl eq_refl eq_refl eq_refl (P_TI P1) S1).
      change (tm s1) with (tm s) in IHt. rewrite L1 in IHt.
      destruct (eval t (tm s)) as [[ms n1] r]. destruct IHt as (s2 & P2 & R).
      pose proof (P_len P2) as L2.
      assert (P12 : P (fun i => i = c \/ n <= i) s s2 ms).
      { change ms with ([] ++ ms). eapply P_trans; [eapply P_weak; [exact P1|intros i _ <-; auto]|exact P2|]. intros i Hi [X|X]; lia. }
      destruct (P_ge P2 H1c) as (xc & H2c & Exc); [lia|lia|].
      destruct (eqf_fields Exc) as (Ek & Ep & Es & Ed & Eo & Ea & Er & Eb & _). cbn in Ek, Ep, Es, Ed, Eo, Ea, Er, Eb.
      assert (Ga : alive xc = true) by congruence.
      assert (Go : forall b' v, DoneP (S n) n (PCo c) v s2 -> (v = RStp -> False) -> tm s2 = n1 ->
        match v with RVal z => b' = kv z | RErr z => b' = ke z | RStp => False end -> wf k b' ->
        (forall k s c x q, wf k b' -> k <> KExit -> g s = GGo (PCo c) -> nth_error (heap s) c = Some x ->
          alive x = true -> st x = SBody b' -> kd x = k -> par x = q -> dat x = None -> own x = true -> TI s -> srcok (heap s) x ->
          Out (length (heap s)) c k q s (eval b' (tm s))) ->
        Out n c k q s (let '(ms', n', r') := eval b' n1 in (ms ++ ms', n', r'))).
      { intros b' v (G2 & (xn' & H2n & An & Dn & On & Sn) & Dd) Nv Tm Hb W' IH.
        set (s3 := set_g (set_co s2 c (w_st xc (SBody b'))) (GKill n (GGo (PCo c)))).
        assert (P3 : P (eq c) s2 s3 []).
        { eapply P_upd with (x' := w_st xc (SBody b')); side.
          unfold TaskModel.step. rewrite G2, (get_some _ _ H2c Ga), Es, (get_some _ _ H2n An), Dn.
          destruct v; [subst b'; reflexivity|subst b'; reflexivity|contradiction]. }
        assert (H3n : nth_error (heap s3) n = Some xn') by (cbn [heap s3 set_g set_co]; rewrite nth_upd_other; auto; lia).
        set (s4 := set_g (emit (set_co s3 n (w_dead xn')) (EKill n)) (GGo (PCo c))).
        assert (P4 : P (eq n) s3 s4 []).
        { eapply P_upd with (x' := w_dead xn'); side.
          unfold TaskModel.step. cbn [g s3 set_g]. rewrite (get_some s3 _ H3n An), Sn. reflexivity. }
        assert (H4c : nth_error (heap s4) c = Some (w_st xc (SBody b'))).
        { cbn [heap s4 set_g emit set_co]. rewrite nth_upd_other by lia. eapply nth_upd_same; eauto. }
        assert (L4 : length (heap s4) = length (heap s2)) by (cbn [heap s4 s3 set_g emit set_co]; rewrite !upd_length; reflexivity).
        assert (P14 : P (fun i => i = c \/ n <= i) s s4 ms).
        { rewrite <- (app_nil_r ms). eapply P_trans; [exact P12| |intros i Hi X; exact X].
          change (@nil Z) with (@nil Z ++ []). eapply P_trans; [eapply P_weak; [exact P3|intros i _ <-; auto]|exact P4|]. intros i _ <-. auto. }
        assert (S4 : srcok (heap s4) (w_st xc (SBody b'))).
        { eapply srcok_keeps; [exact Sr| |exact Er]. intros i y Hi Ay By.
          destruct (Nat.eq_dec i c) as [->|Ni].
          - eexists. split; [exact H4c|]. cbn. assert (y = x) by congruence. subst y. split; congruence.
          - assert (Li : i < n) by (apply nth_error_Some; congruence).
            destruct (P_ge P14 Hi Li Ni) as (y' & Hy' & E). destruct (eqf_fields E) as (_&_&_&_&_&E6&_&E8&_).
            exists y'. split; auto. split; congruence. }
        assert (IH1 := IH k s4 c _ q W' Nk eq_refl H4c Ga eq_refl ltac:(cbn; congruence) ltac:(cbn; congruence)
          ltac:(cbn; congruence) ltac:(cbn; congruence) (P_TI P4) S4).
        change (tm s4) with (tm s2) in IH1. rewrite Tm in IH1.
        destruct (eval b' n1) as [[ms' n'] r'].
        eapply Out_pre with (base' := length (heap s4)); [exact P14|reflexivity|lia|exact Lc|fold n; lia|intros i _ X; exact X| |exact IH1].
        intros i y Hi Hi' Hy. cbn [heap s4 set_g emit set_co] in Hy. rewrite (nth_upd _ _ _ _ H3n) in Hy.
        destruct (Nat.eqb_spec n i) as [E|E]; [injection Hy as <-; reflexivity|].
        cbn [heap s3 set_g set_co] in Hy. rewrite nth_upd_other in Hy by lia. eapply Dd; [|exact Hy]. lia. }
      destruct r as [[v|e|]|].
      + destruct R as [R1 R2]. apply (Go (kv v) (RVal v)); auto; [discriminate|exact (IHv v)].
      + destruct R as [R1 R2]. apply (Go (ke e) (RErr e)); auto; [discriminate|exact (IHe e)].
      + clear Go. destruct R as [Tm (pend & l & G2 & Hp & Hl & (xn' & H2n & Kn & Hx) & Hn)].
        assert (CC : exists lc, chain (heap s2) c lc /\ (forall i, In i lc -> i = c \/ In i l) /\ (forall i, In i l -> In i lc) /\
                     (alive xn' = true -> In n lc)).
        { destruct Hx as [(-> & A & O & ->)|(-> & A & O & D & C)].
          - exists [c]. split; [|split; [|split]].
            + eapply ch_dead with (x := xc) (y := xn') (n := n) (kv := kv) (ke := ke); auto; try congruence.
            + intros i [<-|[]]; auto. + intros i []. + congruence.
          - exists (c :: l). split; [|split; [|split]].
            + eapply ch_cons with (x := xc) (y := xn') (n := n) (kv := kv) (ke := ke); auto; try congruence.
            + intros i [<-|X]; auto. + intros i X; right; auto. + intros _. right. inversion C; left; reflexivity. }
        destruct CC as (lc & CC & Cin & Cin' & Cn).
        destruct (@stop_at n s2 c xc k q pend lc (P_TI P2) G2 H2c Ga ltac:(congruence) Nk ltac:(congruence) ltac:(congruence)
          ltac:(congruence) CC Lc) as (s' & P3 & T3 & L3 & SP).
        { intros p Ep'. destruct (Hp p Ep') as (A & B & C). split; [lia|]. split; [|exact C]. intros X. destruct (Cin _ X); [lia|contradiction]. }
        { intros i X. destruct (Cin _ X) as [|Y]; [auto|]. destruct (Hl _ Y) as [Z|Z]; [right; lia|right; lia]. }
        { intros i y Hi Hy Ay. destruct (Nat.eq_dec i n) as [->|Ni].
          - left. apply Cn. congruence.
          - destruct (Hn i y) as [X|X]; auto. lia. }
        exists s'. split; [|split; [congruence|auto]].
        rewrite <- (app_nil_r ms). eapply P_trans1; eauto.
      + exists s2. split; auto.
    - (* BExit *)
      destruct W as (Wf & W). set (n := length (heap s)) in *.
      set (xe := mkc KExit (par x) (SAct0 f c a) None true true None false false false).
      set (x1 := w_par (w_st x (SBody b)) (PCo n)).
      set (s1 := alloc (set_co s c x1) xe).
      assert (P1 : P (eq c) s s1 []).
      { eapply P_alloc with (x' := x1) (n := xe); side.
        unfold TaskModel.step. rewrite Hg, (get_some _ _ Hc Ha), Hst. reflexivity. }
      assert (L1 : length (heap s1) = S n) by (cbn [heap s1 set_g alloc set_co]; rewrite app_length, upd_length; cbn; lia).
      assert (H1c : nth_error (heap s1) c = Some x1).
      { cbn [heap s1 set_g alloc set_co]. rewrite nth_error_app1 by (rewrite upd_length; auto). eapply nth_upd_same; eauto. }
      assert (H1n : nth_error (heap s1) n = Some xe).
      { cbn [heap s1 set_g alloc set_co]. rewrite nth_error_app2 by (rewrite upd_length; auto). rewrite upd_length. fold n. rewrite Nat.sub_diag. reflexivity. }
      assert (S1 : srcok (heap s1) x1).
      { eapply srcok_keeps; [exact Sr| |reflexivity]. eapply keeps_trans; [eapply keeps_upd with (x' := x1); [exact Hc|reflexivity|reflexivity]|apply keeps_app]. }
      specialize (IH k s1 c x1 (PCo n) W Nk Hg H1c Ha eq_refl Hk eq_refl Hd Ho (P_TI P1) S1).
      change (tm s1) with (tm s) in IH. rewrite L1 in IH.
      destruct (eval b (tm s)) as [[ms n1] r]. destruct IH as (s2 & P2 & R).
      pose proof (P_len P2) as L2.
      assert (P12 : P (fun i => i = c \/ n <= i) s s2 ms).
      { change ms with ([] ++ ms). eapply P_trans; [eapply P_weak; [exact P1|intros i _ <-; auto]|exact P2|]. intros i Hi [X|X]; auto. right; lia. }
      destruct (P_ge P2 H1n) as (ye & H2n & Eye); [lia|lia|].
      destruct (eqf_fields Eye) as (Ek & Ep & Es & Ed & Eo & Ea & Er & Eb & Et). cbn in Ek, Ep, Es, Ed, Eo, Ea, Er, Eb, Et.
      destruct r as [v|]; [|exists s2; split; auto].
      assert (Spec : Out n c k q s (let '(ms', n', ok) := cleanup (if applies f v then a else ADone) n1 in (ms ++ ms', n', if ok then Some v else None)) ->
        Out n c k q s (if applies f v then let '(ms', n', ok) := cleanup a n1 in (ms ++ ms', n', if ok then Some v else None) else (ms, n1, Some v))).
      { destruct (applies f v); [auto|]. cbn [TaskSpec.cleanup]. rewrite app_nil_r. auto. }
      apply Spec. clear Spec.
      (* the cleanup coroutine runs *)
      assert (Cl : forall s4 y4, TI s4 -> g s4 = GGo (PCo n) -> nth_error (heap s4) n = Some y4 -> alive y4 = true -> kd y4 = KExit ->
        st y4 = SAct0 f c a -> par y4 = q -> tm s4 = n1 ->
        (f = None \/ exists xc, nth_error (heap s4) c = Some xc /\ alive xc = true /\ dat xc = match v with RStp => None | _ => Some v end) ->
        let '(ms', n', ok) := cleanup (if applies f v then a else ADone) n1 in
        exists s', P (eq n) s4 s' ms' /\ length (heap s') = length (heap s4) /\
        if ok then tm s' = n' /\
          if stopd y4 then g s' = GStop q (Some n) /\ exists x', nth_error (heap s') n = Some x' /\ alive x' = true /\ st x' = SFin /\ kd x' = KExit
          else g s' = GGo q /\ exists x', nth_error (heap s') n = Some x' /\ alive x' = false
        else g s' = GTerm).
      { intros s4 y4 T4 G4 H4 A4 K4 St4 Q4 Tm4 Hf.
        set (a' := if applies f v then a else ADone).
        set (s5 := set_co s4 n (w_st y4 (SAct a'))).
        assert (P5 : P (eq n) s4 s5 []).
        { eapply P_upd with (x' := w_st y4 (SAct a')); side.
          unfold TaskModel.step. rewrite G4, (get_some _ _ H4 A4), St4. unfold s5, a'. destruct f as [d|]; [|reflexivity].
          destruct Hf as [Hf|(xc & Hxc & Axc & Dxc)]; [discriminate|]. rewrite (get_some _ _ Hxc Axc), Dxc.
          destruct d, v; reflexivity. }
        assert (H5 : nth_error (heap s5) n = Some (w_st y4 (SAct a'))) by (eapply nth_upd_same; eauto).
        assert (X := @act_run a' s5 n _ G4 H5 A4 K4 eq_refl (P_TI P5)). change (tm s5) with (tm s4) in X. rewrite Tm4 in X.
        destruct (cleanup a' n1) as [[ms' n'] ok]. destruct X as (s' & P6 & L6 & R6). exists s'.
        split; [change ms' with ([] ++ ms'); eapply P_trans1; eauto|]. split; [rewrite L6; apply upd_length|].
        cbn [par stopd w_st] in R6. rewrite Q4 in R6. exact R6. }
      destruct (res_eq_stp v) as [->|Nv].
      + (* stopped *)
        destruct R as [Tm (pend & l & G2 & Hp & Hl & (xc & H2c & Kc & Hx) & Hn)].
        set (s3 := set_g (set_co s2 n (w_stopd ye)) (match pend with Some p => GKill p (GGo (PCo n)) | None => GGo (PCo n) end)).
        assert (P3 : P (eq n) s2 s3 []).
        { eapply P_upd with (x' := w_stopd ye); side.
          unfold TaskModel.step. rewrite G2, (get_some _ _ H2n ltac:(congruence)), Ek. reflexivity. }
        assert (H3n : nth_error (heap s3) n = Some (w_stopd ye)) by (eapply nth_upd_same; eauto).
        assert (K4 : exists s4, P (fun i => i = n \/ pend = Some i) s2 s4 [] /\ length (heap s4) = length (heap s2) /\ tm s4 = tm s2 /\
          g s4 = GGo (PCo n) /\ nth_error (heap s4) n = Some (w_stopd ye) /\
          (forall p y, pend = Some p -> nth_error (heap s4) p = Some y -> alive y = false)).
        { destruct pend as [p|].
          - destruct (Hp p eq_refl) as (B & N & z & Hz & Z1 & Z2 & Z3).
            assert (H3p : nth_error (heap s3) p = Some z) by (cbn [heap s3 set_g set_co]; rewrite nth_upd_other; auto; lia).
            set (s4 := set_g (emit (set_co s3 p (w_dead z)) (EKill p)) (GGo (PCo n))).
            assert (P4 : P (eq p) s3 s4 []).
            { eapply P_upd with (x' := w_dead z); side.
              unfold TaskModel.step. cbn [g s3 set_g]. rewrite (get_some s3 _ H3p Z1), Z2. reflexivity. }
            exists s4. split; [|split; [cbn [heap s4 s3 set_g emit set_co]; rewrite !upd_length; reflexivity|split; [reflexivity|split; [reflexivity|split]]]].
            + change (@nil Z) with (@nil Z ++ []). eapply P_trans; [eapply P_weak; [exact P3|intros i _ <-; auto]|exact P4|]. intros i _ <-; auto.
            + cbn [heap s4 set_g emit set_co]. rewrite nth_upd_other by lia. exact H3n.
            + intros p' y E Hy. injection E as <-. cbn [heap s4 set_g emit set_co] in Hy. rewrite (nth_upd_same _ _ _ H3p) in Hy. injection Hy as <-. reflexivity.
          - exists s3. split; [eapply P_weak; [exact P3|intros i _ <-; auto]|]. split; [apply upd_length|]. split; [reflexivity|]. split; [reflexivity|].
            split; [auto|discriminate]. }
        destruct K4 as (s4 & P4 & L4 & T4 & G4 & H4n & D4).
        assert (Nc : ~ (c = n \/ pend = Some c)).
        { intros [X|X]; [lia|]. destruct (Hp _ X); lia. }
        destruct (P_fr _ P4 H2c Nc) as (xc4 & H4c & E4). destruct (eqf_fields E4) as (E41 & _ & _ & E44 & E45 & E46 & _).
        specialize (Cl s4 _ (P_TI P4) G4 H4n ltac:(cbn; congruence) ltac:(cbn; congruence) ltac:(cbn; congruence) ltac:(cbn; congruence) ltac:(congruence)).
        assert (Hf : f = None \/ exists xc, nth_error (heap s4) c = Some xc /\ alive xc = true /\ dat xc = None).
        { destruct Wf as [Wf| ->]; [auto|]. right. exists xc4. destruct Hx as [(X & _)|(_ & X1 & X2 & X3 & _)]; [discriminate|]. split; auto. split; congruence. }
        specialize (Cl Hf). destruct (cleanup (if applies f RStp then a else ADone) n1) as [[ms' n'] ok].
        destruct Cl as (s' & P5 & L5 & R5). exists s'. split.
        { eapply P_trans; [exact P12| |intros i Hi X; exact X].
          change ms' with ([] ++ ms'). eapply P_trans; [eapply P_weak; [exact P4|]|exact P5|].
          - intros i _ [->|X]; [auto|]. destruct (Hp _ X). right; lia.
          - intros i _ <-. auto. }
        destruct ok; [|exact R5]. destruct R5 as (T5 & R5). cbn [stopd w_stopd] in R5. destruct R5 as (G5 & z5 & H5 & A5 & S5 & K5).
        split; [auto|]. exists (Some n), l. split; [auto|].
        assert (P45 : P (fun i => i = n \/ pend = Some i) s2 s' ms').
        { change ms' with ([] ++ ms'). eapply P_trans; [exact P4|exact P5|]. intros i _ <-. auto. }
        assert (Nl : ~ In n l) by (intros X; destruct (Hl _ X); lia).
        split; [|split; [|split]].
        * intros p E. injection E as <-. split; [lia|]. split; [auto|]. eauto.
        * intros i X. destruct (Hl _ X); auto. right; lia.
        * destruct (P_fr _ P45 H2c Nc) as (xc5 & H5c & E5). destruct (eqf_fields E5) as (E51 & _ & _ & E54 & E55 & E56 & _).
          exists xc5. split; [auto|]. split; [congruence|]. destruct Hx as [(X1 & X2 & X3 & X4)|(X1 & X2 & X3 & X4 & X5)].
          { left. split; [auto|]. split; [congruence|]. split; [congruence|auto]. }
          right. split; [auto|]. split; [congruence|]. split; [congruence|]. split; [congruence|].
          eapply chain_pres; [exact X5|]. intros i y Hi Ky. eapply P_fr; eauto. intros [->|X].
          { assert (y = ye) by congruence. subst. congruence. }
          destruct (Hp _ X) as (_ & _ & z & Hz & _ & _ & Kz). congruence.
        * intros i y Hi Hy Ay. destruct (Nat.eq_dec i n) as [->|Ni]; [auto|]. left.
          assert (Li : i < length (heap s2)) by (rewrite <- L4, <- L5; apply nth_error_Some; congruence).
          destruct (P_new P5 Hy ltac:(lia)) as (y4 & Hy4 & Ey4); [lia|]. destruct (eqf_fields Ey4) as (_&_&_&_&_&E46'&_).
          assert (Np : pend <> Some i). { intros X. rewrite (D4 _ _ X Hy4) in E46'. congruence. }
          destruct (P_new P4 Hy4 Li) as (y2 & Hy2 & Ey2); [intros [X|X]; auto|]. destruct (eqf_fields Ey2) as (_&_&_&_&_&E26&_).
          destruct (Hn i y2) as [X|X]; auto; [lia|congruence|contradiction].
      + (* value or error *)
        assert (R' : tm s2 = n1 /\ DoneP (S n) c (PCo n) v s2) by (destruct v; [exact R|exact R|congruence]). clear R.
        destruct R' as (Tm & G2 & (xc & H2c & Ac & Dc & Oc & Sc) & Dd).
        specialize (Cl s2 ye (P_TI P2) G2 H2n ltac:(congruence) ltac:(congruence) Es ltac:(congruence) Tm).
        assert (Hf : f = None \/ exists xc, nth_error (heap s2) c = Some xc /\ alive xc = true /\ dat xc = match v with RStp => None | _ => Some v end).
        { right. exists xc. split; [auto|]. split; [auto|]. destruct v; auto; congruence. }
        specialize (Cl Hf). destruct (cleanup (if applies f v then a else ADone) n1) as [[ms' n'] ok].
        destruct Cl as (s' & P5 & L5 & R5). exists s'. split.
        { eapply P_trans; [exact P12|exact P5|]. intros i _ <-. auto. }
        destruct ok; [|exact R5]. destruct R5 as (T5 & R5). rewrite Et in R5. destruct R5 as (G5 & z5 & H5 & A5).
        assert (Fin : tm s' = n' /\ DoneP n c q v s'); [|destruct v; [exact Fin|exact Fin|congruence]].
        split; [auto|]. split; [auto|]. split.
        * assert (Nc : n <> c) by lia. destruct (P_fr _ P5 H2c Nc) as (xc5 & H5c & E5). destruct (eqf_fields E5) as (E51 & _ & E53 & E54 & E55 & E56 & _).
          exists xc5. split; [auto|]. split; [congruence|]. split; [congruence|]. split; congruence.
        * intros i y Hi Hy. destruct (Nat.eq_dec i n) as [->|Ni]; [congruence|].
          assert (Li : i < length (heap s2)) by (rewrite <- L5; apply nth_error_Some; congruence).
          destruct (P_new P5 Hy Li) as (y2 & Hy2 & Ey2); [lia|]. destruct (eqf_fields Ey2) as (_&_&_&_&_&E26&_).
          rewrite E26. eapply Dd; [|exact Hy2]. lia.
  Qed.
End Proofs.
