(** * StopFacts: consequences of the invariants, phrased over the event history. *)

From Coq Require Import List Arith Bool Lia.
From Verif Require Import StopModel StopProofs StopSteps StopLog.
Import ListNotations.
Set Implicit Arguments.

#[local] Opaque pop_head push_front unlink.
#[local] Hint Rewrite log_pop life_pop stopb_pop notif_pop thr_pop log_push life_push stopb_push notif_push
  thr_push log_unl life_unl stopb_unl notif_unl thr_unl : stopf.

Lemma reach_invs s : reachable s -> exists g, greach s g /\ Inv s g /\ LInv s g.
Proof.
  intros H. destruct (reachable_greach H) as (g & Hg). exists g; auto using Inv_reach, LInv_reach.
Qed.

Lemma count_zero p l : count p l = 0 <-> forall e, In e l -> p e = false.
Proof.
  induction l as [|e l IH]; simpl; [intuition|].
  destruct (p e) eqn:E; simpl; split; intros H; try lia.
  - specialize (H e (or_introl eq_refl)); congruence.
  - intros e' [->|Hi]; auto. apply IH; auto.
  - apply IH; auto.
Qed.

Lemma count_pos p l e : In e l -> p e = true -> count p l >= 1.
Proof.
  induction l as [|x l IH]; simpl; [tauto|]. intros [->|Hi] He; [rewrite He; lia|].
  specialize (IH Hi He); lia.
Qed.

Lemma count_in p l : count p l >= 1 -> exists e, In e l /\ p e = true.
Proof.
  induction l as [|x l IH]; simpl; [lia|]. destruct (p x) eqn:E; [eauto|].
  intros H; destruct (IH H) as (e & ? & ?); eauto.
Qed.

(** ** The lifetime is in the history *)
Record Hist (s : state) : Prop := {
  h_ds : forall c, del_started (life s c) -> exists t, In (EvDelStart t c) (log s);
  h_rd : forall c, constructed (life s c) -> exists t, In (EvRegDone t c) (log s) }.

Lemma Hist_reach s g : greach s g -> Hist s.
Proof.
  induction 1 as [|s g t a s' Hg IH Hs]; [constructor; simpl; tauto|].
  pose proof (Inv_reach Hg) as HI.
  pose proof (i_frames HI t) as Hfr.
  destruct IH as [H1 H2].
  assert (K : forall c, life s' c = life s c \/
     ((exists t', life s' c = LReg t') \/
      (life s' c = LLive \/ life s' c = LInl) /\ In (EvRegDone t c) (log s') \/
      (exists t', life s' c = LDel t') /\ constructed (life s c) /\ In (EvDelStart t c) (log s') \/
      life s' c = LDead /\ constructed (life s c) /\ (del_started (life s c) \/ In (EvDelStart t c) (log s')))).
  { intros x. destruct a; simpl in Hs.
    - destruct (at_user (thr s t)); inversion Hs; subst; simpl; auto.
    - destruct (at_user (thr s t)); [|discriminate]. destruct (life s c); inversion Hs; subst; simpl.
      sets; eauto.
    - destruct (at_user (thr s t)); [|discriminate]. destruct (life s c) eqn:El; inversion Hs; subst; simpl;
      sets; auto; rewrite El; simpl; auto 10. right; right; right; left; repeat split; eauto.
    - destruct (thr s t) as [|[] fs] eqn:Et; try discriminate.
      + simpl in Hs. destruct (rvar s) as [[]|]; inversion Hs; subst; simpl; auto.
      + inversion Hs; subst; simpl. sets; auto 10.
    - destruct (thr s t) as [|f fs] eqn:Et; [discriminate|].
      pose proof (Hfr _ (or_introl eq_refl)) as Hf0.
      destruct f; simpl in Hf0; try discriminate;
      repeat match goal with
      | H : (if ?b then _ else _) = Some _ |- _ => destruct b eqn:?; try discriminate
      | H : match ?b with _ => _ end = Some _ |- _ => destruct b eqn:?; try discriminate end;
      inversion Hs; subst; simpl; autorewrite with stopf; simpl; auto.
      + sets; auto 10.
      + destruct Hf0 as (_ & El & _). sets; auto. rewrite El; simpl; auto 10.
      + destruct Hf0 as (El & _).
        assert (Hl : life (if rptr s c then match rvar s with Some _ => w_rvar (rd s c) (Some true) | None => w_ub (rd s c) true end else rd s c) = life s)
          by (destruct (rptr s c); [destruct (rvar s)|]; reflexivity).
        rewrite Hl. sets; auto. rewrite El; simpl; auto 10.
      + destruct Hf0 as (El & _). sets; auto. rewrite El; simpl; auto 10. }
  assert (Hinc : forall e, In e (log s) -> In e (log s')).
  { clear - Hs. intros e He. destruct a; simpl in Hs.
    - destruct (at_user (thr s t)); inversion Hs; subst; simpl; auto.
    - destruct (at_user (thr s t)); [|discriminate]. destruct (life s c); inversion Hs; subst; simpl; auto.
    - destruct (at_user (thr s t)); [|discriminate]. destruct (life s c) eqn:El; inversion Hs; subst; simpl; auto.
    - destruct (thr s t) as [|[] fs] eqn:Et; try discriminate.
      + simpl in Hs. destruct (rvar s) as [[]|]; inversion Hs; subst; simpl; auto.
      + inversion Hs; subst; simpl. auto.
    - destruct (thr s t) as [|f fs] eqn:Et; [discriminate|].
      destruct f; try discriminate;
      repeat match goal with
      | H : (if ?b then _ else _) = Some _ |- _ => destruct b eqn:?; try discriminate
      | H : match ?b with _ => _ end = Some _ |- _ => destruct b eqn:?; try discriminate end;
      inversion Hs; subst; simpl; autorewrite with stopf; simpl; auto.
      right. destruct (rptr s c); [destruct (rvar s)|]; auto. }
  constructor; intros c Hc.
  - destruct (K c) as [E|[[t' E]|[[[E|E] Hi]|[[[t' E] [Hc' Hi]]|[E [Hc' Hi]]]]]].
    + rewrite E in Hc. destruct (H1 _ Hc) as (t0 & H0); eauto.
    + rewrite E in Hc; destruct Hc.
    + rewrite E in Hc; destruct Hc.
    + rewrite E in Hc; destruct Hc.
    + eauto.
    + destruct Hi as [Hi|Hi]; eauto. destruct (H1 _ Hi) as (t0 & H0); eauto.
  - destruct (K c) as [E|[[t' E]|[[[E|E] Hi]|[[[t' E] [Hc' Hi]]|[E [Hc' Hi]]]]]]; eauto.
    + rewrite E in Hc. destruct (H2 _ Hc) as (t0 & H0); eauto.
    + rewrite E in Hc; destruct Hc.
    + destruct (H2 _ Hc') as (t0 & H0); eauto.
    + destruct (H2 _ Hc') as (t0 & H0); eauto.
Qed.

(** one step of the stop flag *)
Lemma stopb_mono s t a s' : reachable s -> step t a s = Some s' -> stopb s = true -> stopb s' = true.
Proof.
  intros Hr Hs Hb. destruct (reach_invs Hr) as (g & Hg & HI & HL).
  pose proof (Inv_step _ _ HI Hs) as HI'. pose proof (i_stop HI) as H1. pose proof (i_stop HI') as H2.
  rewrite H2. rewrite Hb in H1. clear - H1 Hs HI.
  destruct a; simpl;
  repeat match goal with
  | |- context [match ?x with _ => _ end] =>
      match x with context [match _ with _ => _ end] => fail 1 | _ => destruct x eqn:?; simpl; try congruence end
  end.
Qed.

(** ** The history around a destructor's return *)
Definition ok_del (l : list event) : Prop :=
  forall l2 t c l1, l = l2 ++ EvDelDone t c :: l1 ->
    (forall t' b, ~ In (EvInvoke t' c b) l2) /\
    (forall t' b, In (EvInvoke t' c b) l1 -> t' <> t -> In (EvInvokeEnd t' c) l1).

Lemma ok_del_other e l : ok_del l -> (forall t c, e <> EvDelDone t c) ->
  (forall t' c b, e = EvInvoke t' c b -> forall t, ~ In (EvDelDone t c) l) -> ok_del (e :: l).
Proof.
  intros H He Hi l2 t c l1 E. destruct l2 as [|x l2]; simpl in E; inversion E; subst.
  - exfalso; eapply He; eauto.
  - destruct (H l2 t c l1 eq_refl) as [Ha Hb]. split; auto.
    intros t' b [->|Hin]; [|eapply Ha; eauto].
    eapply Hi; eauto. apply in_app_iff; simpl; eauto.
Qed.

Lemma ok_del_del t c l : ok_del l -> (forall t0, ~ In (EvDelDone t0 c) l) ->
  (forall t' b, In (EvInvoke t' c b) l -> t' <> t -> In (EvInvokeEnd t' c) l) ->
  ok_del (EvDelDone t c :: l).
Proof.
  intros H Hn Hi l2 t0 c0 l1 E. destruct l2 as [|x l2]; simpl in E; inversion E; subst.
  - split; auto.
  - destruct (H l2 t0 c0 l1 eq_refl) as [Ha Hb]. split; auto.
    intros t' b [Hx|Hin]; [discriminate|eapply Ha; eauto].
Qed.

Lemma ok_del_reach s g : greach s g -> ok_del (log s).
Proof.
  induction 1 as [|s g t a s' Hg IH Hs].
  { intros l2 t c l1 E. destruct l2; discriminate. }
  pose proof (Inv_reach Hg) as HI. pose proof (LInv_reach Hg) as HL.
  pose proof (i_frames HI t) as Hfr. pose proof (i_life HI) as Hlf.
  assert (Hdd : forall c, life s c <> LDead -> forall t, ~ In (EvDelDone t c) (log s)).
  { intros c Hc t0 Hi. apply (l_dd HL) in Hi. contradiction. }
  destruct a; simpl in Hs.
  - destruct (at_user (thr s t)); inversion Hs; subst; simpl. apply ok_del_other; auto; discriminate.
  - destruct (at_user (thr s t)); [|discriminate]. destruct (life s c); inversion Hs; subst; simpl.
    apply ok_del_other; auto; discriminate.
  - destruct (at_user (thr s t)); [|discriminate]. destruct (life s c) eqn:El; inversion Hs; subst; simpl.
    + apply ok_del_other; auto; discriminate.
    + apply ok_del_del.
      * apply ok_del_other; auto; discriminate.
      * intros t0 [Hx|Hi]; [discriminate|]. eapply Hdd; eauto. congruence.
      * intros t' b [Hx|Hi] Hne; [discriminate|]. right.
        specialize (Hlf c). rewrite El in Hlf. simpl in Hlf.
        eapply (l_end HL); eauto. right. rewrite El; simpl; auto.
  - destruct (thr s t) as [|[] fs] eqn:Et; try discriminate.
    + simpl in Hs. destruct (rvar s) as [[]|]; inversion Hs; subst; simpl; apply ok_del_other; auto; discriminate.
    + inversion Hs; subst; simpl. apply ok_del_other; try discriminate. apply ok_del_other; auto; discriminate.
  - destruct (thr s t) as [|f fs] eqn:Et; [discriminate|].
    pose proof (Hfr _ (or_introl eq_refl)) as Hf0.
    destruct f; simpl in Hf0; try discriminate.
    + destruct (stopb s); [inversion Hs; subst; simpl; apply ok_del_other; auto; discriminate|].
      destruct (lockb s); inversion Hs; subst; auto.
    + inversion Hs; subst; auto.
    + destruct (head s); inversion Hs; subst; simpl; auto. autorewrite with stopf; auto.
    + inversion Hs; subst; auto.
    + inversion Hs; subst; simpl. apply ok_del_other; auto; try discriminate.
      intros t' c0 b E; inversion E; subst. apply Hdd. intro El. specialize (Hlf c0). rewrite El in Hlf.
      destruct Hf0. simpl in Hlf. intuition congruence.
    + inversion Hs; subst; auto.
    + inversion Hs; subst; auto.
    + destruct (lockb s); inversion Hs; subst; auto.
    + inversion Hs; subst; simpl. apply ok_del_other; auto; discriminate.
    + destruct (stopb s).
      * inversion Hs; subst; simpl. apply ok_del_other; auto; try discriminate.
        intros t' c0 b E; inversion E; subst. apply Hdd. intuition congruence.
      * destruct (lockb s); inversion Hs; subst; auto.
    + inversion Hs; subst; simpl; autorewrite with stopf; auto.
    + inversion Hs; subst; simpl. apply ok_del_other; auto; discriminate.
    + destruct (lockb s); inversion Hs; subst; auto.
    + destruct (prevp s c); inversion Hs; subst; simpl; autorewrite with stopf; auto.
    + (* unlinked: never invoked *)
      inversion Hs; subst; simpl. destruct Hf0 as (_ & El & Hp & _). apply ok_del_del; auto.
      * apply Hdd; congruence.
      * intros t' b Hi _. exfalso. pose proof (l_inv HL c) as Hc. rewrite Hp in Hc; simpl in Hc.
        apply count_pos with (p := is_invoke c) in Hi; [lia|simpl; apply Nat.eqb_refl].
    + inversion Hs; subst; auto.
    + destruct Hf0 as (El & Hp & Hn).
      destruct (match nt with Some n => n =? t | None => false end) eqn:Ec.
      * (* the invoking thread itself *)
        assert (Hlog : log s' = EvDelDone t c :: log s).
        { inversion Hs; subst; simpl. f_equal. destruct (rptr s c); [destruct (rvar s)|]; reflexivity. }
        rewrite Hlog. apply ok_del_del; auto.
        -- apply Hdd; congruence.
        -- intros t' b Hi Hne. exfalso. destruct b.
           ++ destruct (l_inl HL _ _ Hi) as [Hg' _]. unfold popped in Hp. intuition congruence.
           ++ destruct (l_not HL _ _ Hi) as [Hn' _]. destruct nt as [n|]; [|discriminate].
              apply Nat.eqb_eq in Ec. congruence.
      * inversion Hs; subst; auto.
    + destruct Hf0 as (El & Hp & Hn). destruct (completed s c) eqn:Ec; [|discriminate].
      inversion Hs; subst; simpl. apply ok_del_del; auto.
      * apply Hdd; congruence.
      * intros t' b Hi _. eapply (l_end HL); eauto. left. apply (i_compl HI); auto.
Qed.

(** ** Progress *)
Definition enabled (s : state) (t : tid) : Prop :=
  step t AStep s <> None \/ step t AReturn s <> None.

Lemma cs_enabled s t f fs : thr s t = f :: fs -> in_cs f = true -> step t AStep s <> None.
Proof.
  intros Et Hc. simpl. rewrite Et. destruct f; try discriminate; simpl.
  - destruct (head s); discriminate.
  - destruct (prevp s c); discriminate.
Qed.

Lemma user_enabled s t f fs : thr s t = f :: fs -> user_frame f = true -> step t AReturn s <> None.
Proof.
  intros Et Hc. simpl. rewrite Et. destruct f; try discriminate; simpl.
  destruct (rvar s) as [[]|]; discriminate.
Qed.

(** with the lock free, a thread inside an API call or a callback can run unless its destructor
    is waiting for a callback that has not completed *)
Lemma free_enabled s t f fs : lockb s = false -> thr s t = f :: fs ->
  enabled s t \/ exists c, f = FDelSpin c /\ completed s c = false.
Proof.
  intros Hl Et. destruct f; unfold enabled; simpl; rewrite Et; simpl; rewrite ?Hl;
    try (left; left; discriminate).
  - left; left. destruct (stopb s); discriminate.
  - left; left. destruct (head s); discriminate.
  - left; right. destruct (rvar s) as [[]|]; discriminate.
  - left; left. destruct (stopb s); discriminate.
  - left; right; discriminate.
  - left; left. destruct (prevp s c); discriminate.
  - left; left. destruct (match nt with Some n => n =? t | None => false end); discriminate.
  - destruct (completed s c) eqn:Ec; [left; left; discriminate|right; eauto].
Qed.

(** who a blocked thread waits for *)
Lemma waits_for s t f fs : reachable s -> thr s t = f :: fs -> ~ enabled s t ->
  (exists t' f' fs', thr s t' = f' :: fs' /\ in_cs f' = true /\ enabled s t') \/
  (exists c t', f = FDelSpin c /\ t' <> t /\ (exists f', In f' (thr s t') /\ run_cb f' = Some c) /\ enabled s t').
Proof.
  intros Hr Et Hne. destruct (reach_invs Hr) as (g & Hg & HI & HL).
  destruct (own g) as [t'|] eqn:Eo.
  - left. destruct (@i_own _ _ HI t' Eo) as (f' & fs' & E' & Hc). exists t', f', fs'. repeat split; auto.
    left. eapply cs_enabled; eauto.
  - right. assert (Hl : lockb s = false) by (rewrite (i_lock HI), Eo; auto).
    destruct (free_enabled _ _ Hl Et) as [?|(c & -> & Hc)]; [contradiction|].
    pose proof (i_frames HI t) as Hf. rewrite Et in Hf. specialize (Hf _ (or_introl eq_refl)).
    simpl in Hf. destruct Hf as (El & Hp & Hn).
    assert (Hp' : ph g c = GPop \/ ph g c = GExec).
    { destruct Hp as [?|[?|Hp]]; auto. destruct (i_done HI _ Hp); congruence. }
    destruct (i_cur HI _ Hp') as (t' & Ht').
    pose proof (i_run HI) as Hrun. rewrite Ht' in Hrun. destruct Hrun as (f' & Hf' & Hr' & Hc').
    pose proof (i_ntf HI) as Hnt. unfold ntf_ok in Hnt. rewrite Ht' in Hnt.
    exists c, t'. repeat split; eauto; [congruence|].
    destruct (thr s t') as [|f0 fs0] eqn:E0; [destruct Hf'|].
    destruct (free_enabled _ _ Hl E0) as [?|(c' & -> & Hc2)]; auto.
    exfalso. pose proof (i_frames HI t') as Hfz. rewrite E0 in Hfz. specialize (Hfz _ (or_introl eq_refl)).
    simpl in Hfz. intuition congruence.
Qed.

(** ** Statements about histories *)

Lemma win_once s : reachable s -> count is_win (log s) <= 1.
Proof.
  intros Hr. destruct (reach_invs Hr) as (g & Hg & HI & HL). rewrite (l_win HL).
  destruct (ntf g); lia.
Qed.

Lemma ret_stopped s t b : reachable s -> In (EvRet t b) (log s) -> stopb s = true.
Proof. intros Hr. destruct (reach_invs Hr) as (g & Hg & HI & HL). eapply (l_ret HL). Qed.

Lemma invoke_once s c : reachable s -> count (is_invoke c) (log s) <= 1.
Proof.
  intros Hr. destruct (reach_invs Hr) as (g & Hg & HI & HL). rewrite (l_inv HL).
  destruct (ph g c); simpl; lia.
Qed.

Lemma invoke_stopped s t c b : reachable s -> In (EvInvoke t c b) (log s) -> stopb s = true.
Proof.
  intros Hr Hi. destruct (reach_invs Hr) as (g & Hg & HI & HL). destruct b.
  - destruct (l_inl HL _ _ Hi). eapply (l_iinl HL); eauto.
  - destruct (l_not HL _ _ Hi) as [Hn _]. rewrite (i_stop HI).
    pose proof (i_ntf HI) as H. unfold ntf_ok in H. destruct (ntf g); auto. destruct H; congruence.
Qed.

(** constructed when stop was already requested: run inline, exactly *)
Lemma inline_when_stopped s t t' c : reachable s ->
  In (EvRegStart t c true) (log s) -> In (EvRegDone t' c) (log s) ->
  exists t0, In (EvInvoke t0 c true) (log s) /\ In (EvInvokeEnd t0 c) (log s).
Proof.
  intros Hr H1 H2. destruct (reach_invs Hr) as (g & Hg & HI & HL).
  destruct (l_rs HL _ _ H1) as [Hp _]. pose proof (l_rd HL _ _ H2) as Hc.
  assert (Hg' : ph g c = GInl).
  { destruct Hp as [Hp|]; auto. pose proof (i_life HI c) as Hl. rewrite Hp in Hl.
    unfold life_ok, popped, constructed in *. destruct (life s c); intuition congruence. }
  pose proof (l_inv HL c) as Hn. rewrite Hg' in Hn; simpl in Hn.
  destruct (count_in (is_invoke c) (log s) ltac:(lia)) as (e & He & Hie).
  destruct e; try discriminate. simpl in Hie. apply Nat.eqb_eq in Hie; subst.
  destruct inl.
  - exists t0; split; auto. eapply (l_end HL); eauto.
  - destruct (l_not HL _ _ He). intuition congruence.
Qed.

(** an inline invocation happens only in a stopped source; a callback that was linked instead
    is never invoked inline *)
Lemma inline_not_later s c t1 t2 : reachable s ->
  In (EvInvoke t1 c true) (log s) -> In (EvInvoke t2 c false) (log s) -> False.
Proof.
  intros Hr H1 H2. destruct (reach_invs Hr) as (g & Hg & HI & HL).
  destruct (l_inl HL _ _ H1). destruct (l_not HL _ _ H2). intuition congruence.
Qed.

(** when request_stop has returned true, every callback constructed and not destroyed has run *)
Lemma win_ran_all s t t' c : reachable s ->
  In (EvRet t true) (log s) -> In (EvRegDone t' c) (log s) ->
  (forall t0, ~ In (EvDelStart t0 c) (log s)) ->
  exists t0 b, In (EvInvoke t0 c b) (log s) /\ In (EvInvokeEnd t0 c) (log s).
Proof.
  intros Hr H1 H2 H3. destruct (reach_invs Hr) as (g & Hg & HI & HL).
  pose proof (Hist_reach Hg) as HH.
  pose proof (l_rd HL _ _ H2) as Hc. pose proof (i_life HI c) as Hl.
  assert (Hnd : ~ del_started (life s c)).
  { intro Hd. destruct (h_ds HH _ Hd) as (t0 & H0). eapply H3; eauto. }
  assert (Hfin : exists tn, ntf g = NFin tn).
  { pose proof (l_win HL) as Hw. apply count_pos with (p := is_win) in H1; auto.
    destruct (ntf g); try lia. eauto. }
  destruct Hfin as (tn & Hfin).
  pose proof (i_ntf HI) as Hn. unfold ntf_ok in Hn. rewrite Hfin in Hn. destruct Hn as [Hn He].
  assert (Hp : ph g c = GDone \/ ph g c = GInl).
  { assert (Hnin : ph g c <> GIn) by (intro E; apply (i_in HI) in E; rewrite He in E; destruct E).
    assert (Hncur : ~ (ph g c = GPop \/ ph g c = GExec)).
    { intro E. destruct (i_cur HI _ E). congruence. }
    unfold life_ok, popped, constructed, del_started in *.
    destruct (life s c); try tauto; intuition. }
  pose proof (l_inv HL c) as Hv.
  assert (Hran : ran (ph g c) = 1) by (destruct Hp as [-> | ->]; auto).
  destruct (count_in (is_invoke c) (log s) ltac:(lia)) as (e & He' & Hie).
  destruct e; try discriminate. simpl in Hie. apply Nat.eqb_eq in Hie; subst.
  exists t0, inl; split; auto. eapply (l_end HL); eauto. tauto.
Qed.

Lemma history_suffix s : reachable s -> ok_del (log s).
Proof. intros Hr. destruct (reach_invs Hr) as (g & Hg & HI & HL). eapply ok_del_reach; eauto. Qed.

Lemma spin_not_self s t c fs : reachable s -> thr s t = FDelSpin c :: fs ->
  ~ In (FReqExec c) fs /\ ~ In (FRegInline c) fs.
Proof.
  intros Hr Et. destruct (reach_invs Hr) as (g & Hg & HI & HL).
  pose proof (i_frames HI t) as Hf. rewrite Et in Hf.
  pose proof (Hf _ (or_introl eq_refl)) as H0. simpl in H0. destruct H0 as (El & Hp & Hn).
  pose proof (i_ntf HI) as Hnt. unfold ntf_ok in Hnt.
  split; intro Hi; specialize (Hf _ (or_intror Hi)); simpl in Hf.
  - destruct Hf as (E & _). rewrite E in Hnt. congruence.
  - intuition congruence.
Qed.

Lemma mutual_exclusion s t t' f fs f' fs' : reachable s ->
  thr s t = f :: fs -> thr s t' = f' :: fs' -> in_cs f = true -> in_cs f' = true -> t = t'.
Proof.
  intros Hr E1 E2 C1 C2. destruct (reach_invs Hr) as (g & Hg & HI & HL).
  pose proof (i_frames HI t) as H1. rewrite E1 in H1. specialize (H1 _ (or_introl eq_refl)).
  pose proof (i_frames HI t') as H2. rewrite E2 in H2. specialize (H2 _ (or_introl eq_refl)).
  assert (own g = Some t) by (destruct f; try discriminate; simpl in H1; tauto).
  assert (own g = Some t') by (destruct f'; try discriminate; simpl in H2; tauto).
  congruence.
Qed.

Lemma lock_held s t f fs : reachable s -> thr s t = f :: fs -> in_cs f = true -> lockb s = true.
Proof.
  intros Hr E1 C1. destruct (reach_invs Hr) as (g & Hg & HI & HL).
  pose proof (i_frames HI t) as H1. rewrite E1 in H1. specialize (H1 _ (or_introl eq_refl)).
  rewrite (i_lock HI).
  assert (own g = Some t) as -> by (destruct f; try discriminate; simpl in H1; tauto). auto.
Qed.

Lemma list_wf s : reachable s -> exists l, NoDup l /\ seg (next s) (prevp s) PHead (head s) l /\
  (forall c, In c l -> exists_b (life s c) = true /\ (forall t b, ~ In (EvInvoke t c b) (log s)) /\
                       (forall t, ~ In (EvDelDone t c) (log s))) /\
  (forall c t, In (EvRegDone t c) (log s) -> (forall t b, ~ In (EvInvoke t c b) (log s)) ->
     (forall t, ~ In (EvDelStart t c) (log s)) ->
     In c l \/ exists t fs, thr s t = FReqPopped c :: fs \/ thr s t = FReqUnlk c :: fs).
Proof.
  intros Hr. destruct (reach_invs Hr) as (g & Hg & HI & HL). pose proof (Hist_reach Hg) as HH.
  exists (lst g). split; [apply (i_nd HI)|]. split; [apply (i_seg HI)|]. split.
  - intros c Hc. split; [eapply in_exists; eauto|]. pose proof Hc as Hp. apply (i_in HI) in Hp. split.
    + intros t b Hi. pose proof (l_inv HL c) as Hn. rewrite Hp in Hn; simpl in Hn.
      apply count_pos with (p := is_invoke c) in Hi; [lia|simpl; apply Nat.eqb_refl].
    + intros t Hi. apply (l_dd HL) in Hi. pose proof (i_life HI c) as Hl. rewrite Hi, Hp in Hl.
      simpl in Hl. intuition congruence.
  - intros c t Hc Hni Hnd. pose proof (l_rd HL _ _ Hc) as Hcc. pose proof (i_life HI c) as Hl.
    assert (Hnds : ~ del_started (life s c)).
    { intro Hd. destruct (h_ds HH _ Hd) as (t0 & H0). eapply Hnd; eauto. }
    assert (Hr0 : ran (ph g c) = 0).
    { rewrite <- (l_inv HL). apply count_zero. intros e He. destruct e; auto. simpl.
      destruct (Nat.eqb_spec c0 c); auto. subst. exfalso; eapply Hni; eauto. }
    assert (Hp : ph g c = GIn \/ ph g c = GPop).
    { unfold constructed, del_started, life_ok, popped in *. destruct (life s c); try tauto.
      - destruct Hl as [?|[?|[E|E]]]; auto; rewrite E in Hr0; discriminate.
      - rewrite Hl in Hr0; discriminate. }
    destruct Hp as [Hp|Hp]; [left; apply (i_in HI); auto|right].
    destruct (i_cur HI c (or_introl Hp)) as (tn & Hn). pose proof (i_run HI) as Hrun. rewrite Hn in Hrun.
    destruct Hrun as (f & Hf & Hrf & Hcf). destruct (thr s tn) as [|f0 fs0] eqn:E0; [destruct Hf|].
    destruct Hf as [->|Hf].
    + exists tn, fs0. rewrite E0. pose proof (i_frames HI tn) as Hfr. rewrite E0 in Hfr.
      specialize (Hfr _ (or_introl eq_refl)).
      destruct f; simpl in *; try discriminate; inversion Hcf; subst; auto; exfalso; intuition congruence.
    + exfalso. pose proof (i_tail HI tn E0 _ Hf) as Hu. pose proof (i_frames HI tn) as Hfr. rewrite E0 in Hfr.
      specialize (Hfr _ (or_intror Hf)). destruct f; simpl in *; try discriminate.
      inversion Hcf; subst. intuition congruence.
Qed.

Lemma no_ub s : reachable s -> ub s = false.
Proof. intros Hr. destruct (reach_invs Hr) as (g & Hg & HI & HL). apply (i_ub HI). Qed.
