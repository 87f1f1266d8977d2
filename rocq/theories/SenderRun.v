(** * SenderRun: invariant along whole runs; exactly-once, structured concurrency, signatures. *)

From Coq Require Import List Arith Bool Lia.
From Verif Require Import SenderModel SenderSpec SenderProofs SenderSafety.
Import ListNotations.
Set Implicit Arguments.

Lemma feed_when ws w os i p c :
  feed (OWhen ws w os) (i :: p) c =
  match nth_error os i with
  | None => None
  | Some o =>
      match feed o p c with
      | None => None
      | Some r =>
          let '(w1, out, t) := wa_calls ws i (r_calls r) w in
          Some (mkres (OWhen ws w1 (wa_prop w w1 (upd os i (r_op r)))) out (r_obs r ++ t))
      end
  end.
Proof.
  simpl. match goal with |- match ?f os i with _ => _ end = _ =>
    assert (E : forall l j, f l j = match nth_error l j with
                                    | None => None | Some o => feed o p c end) end.
  { induction l; destruct j; simpl; auto. }
  rewrite E. destruct (nth_error os i); auto.
Qed.

Lemma feed_any cp a os i p c :
  feed (OAny cp a os) (i :: p) c =
  match nth_error os i with
  | None => None
  | Some o =>
      match feed o p c with
      | None => None
      | Some r =>
          let '(a1, out, t) := any_calls cp i (r_calls r) a in
          Some (mkres (OAny cp a1 (any_prop a a1 (upd os i (r_op r)))) out (r_obs r ++ t))
      end
  end.
Proof.
  simpl. match goal with |- match ?f os i with _ => _ end = _ =>
    assert (E : forall l j, f l j = match nth_error l j with
                                    | None => None | Some o => feed o p c end) end.
  { induction l; destruct j; simpl; auto. }
  rewrite E. destruct (nth_error os i); auto.
Qed.

Lemma leaf_when ws w os i p :
  leaf_at (OWhen ws w os) (i :: p) =
  match nth_error os i with None => None | Some o => leaf_at o p end.
Proof.
  simpl. match goal with |- ?f os i = _ =>
    assert (E : forall l j, f l j = match nth_error l j with
                                    | None => None | Some o => leaf_at o p end) end.
  { induction l; destruct j; simpl; auto. }
  apply E.
Qed.

Lemma leaf_any cp w os i p :
  leaf_at (OAny cp w os) (i :: p) =
  match nth_error os i with None => None | Some o => leaf_at o p end.
Proof.
  simpl. match goal with |- ?f os i = _ =>
    assert (E : forall l j, f l j = match nth_error l j with
                                    | None => None | Some o => leaf_at o p end) end.
  { induction l; destruct j; simpl; auto. }
  apply E.
Qed.

(** a finished operation has no leaf, a running one has at least one *)
Lemma leaf_live o : forall p k, leaf_at o p = Some k -> live o = true.
Proof.
  induction o using op_ind'; intros p k0 Hl; simpl in Hl |- *; try discriminate; eauto.
  - destruct p as [|i p]; [discriminate|]. change (leaf_at (OWhen ws w os) (i :: p) = Some k0) in Hl.
    rewrite leaf_when in Hl. destruct (nth_error os i) eqn:E; [|discriminate].
    apply existsb_exists. exists o. split; [eapply nth_error_In; eauto|].
    rewrite Forall_forall in H. eapply H; eauto. eapply nth_error_In; eauto.
  - destruct p as [|i p]; [discriminate|]. change (leaf_at (OAny cp a os) (i :: p) = Some k0) in Hl.
    rewrite leaf_any in Hl. destruct (nth_error os i) eqn:E; [|discriminate].
    apply existsb_exists. exists o. split; [eapply nth_error_In; eauto|].
    rewrite Forall_forall in H. eapply H; eauto. eapply nth_error_In; eauto.
Qed.

Lemma live_leaf o : live o = true -> exists p k, leaf_at o p = Some k.
Proof.
  induction o using op_ind'; intros Hl; simpl in Hl; try discriminate; auto.
  - exists [], (LkUser l sg stp). auto.
  - exists [], (LkSched l sg stp). auto.
  - apply existsb_exists in Hl. destruct Hl as (o & Ho & Hl).
    rewrite Forall_forall in H. destruct (H _ Ho Hl) as (p & k & E).
    apply In_nth_error in Ho. destruct Ho as [i Hi]. exists (i :: p), k.
    rewrite leaf_when, Hi. auto.
  - apply existsb_exists in Hl. destruct Hl as (o & Ho & Hl).
    rewrite Forall_forall in H. destruct (H _ Ho Hl) as (p & k & E).
    apply In_nth_error in Ho. destruct Ho as [i Hi]. exists (i :: p), k.
    rewrite leaf_any, Hi. auto.
Qed.

Lemma feed_leaf o : forall p c, feed o p c <> None <-> leaf_at o p <> None.
Proof.
  induction o using op_ind'; intros p c0; try (simpl; tauto);
    try (simpl; destruct p; split; congruence);
    try (cbn [feed leaf_at]; rewrite <- (IHo p c0); destruct (feed o p c0); simpl; split; congruence).
  - destruct p as [|i p]; [simpl; tauto|]. rewrite feed_when, leaf_when.
    destruct (nth_error os i) eqn:E; [|tauto].
    rewrite Forall_forall in H. rewrite <- (H o (nth_error_In _ _ E) p c0).
    destruct (feed o p c0); [|tauto]. destruct (wa_calls _ _ _ _) as [[? ?] ?].
    split; congruence.
  - destruct p as [|i p]; [simpl; tauto|]. rewrite feed_any, leaf_any.
    destruct (nth_error os i) eqn:E; [|tauto].
    rewrite Forall_forall in H. rewrite <- (H o (nth_error_In _ _ E) p c0).
    destruct (feed o p c0); [|tauto]. destruct (any_calls _ _ _ _) as [[? ?] ?].
    split; congruence.
Qed.

Lemma opok_live o : forall Sg, opok Sg o -> live o = true \/ live o = false.
Proof. intros. destruct (live o); auto. Qed.

(** ** feed preserves the invariant *)
Lemma feed_ok o : forall Sg p k c r,
  opok Sg o -> leaf_at o p = Some k -> leaf_may k c -> feed o p c = Some r -> okres Sg r.
Proof.
  induction o using op_ind'; intros Sg p k0 c0 r Hok Hlf Hmay Hfeed.
  - discriminate.
  - simpl in *. destruct p; [|discriminate]. injection Hfeed as <-. injection Hlf as <-.
    apply okres_done; auto. eapply conforms_incl; eauto.
  - simpl in *. destruct p; [|discriminate]. injection Hfeed as <-. injection Hlf as <-.
    apply okres_done; auto. simpl in Hmay. destruct Hmay as [[-> _]|Hc].
    + exists (SVal []). split; [apply Hok; simpl; auto|constructor].
    + eapply conforms_incl; eauto. intros x Hx. apply Hok. simpl; auto.
  - cbn [feed] in Hfeed. destruct (feed o p c0) eqn:Ef; [|discriminate].
    injection Hfeed as <-. destruct Hok as (S & A & B & C).
    eapply wrap_ok; [eapply IHo; eauto|reflexivity| |].
    + intros o' Ho'. simpl. eauto.
    + intros; eapply fun_conf; eauto.
  - cbn [feed] in Hfeed. destruct (feed o p c0) eqn:Ef; [|discriminate].
    injection Hfeed as <-. destruct Hok as (S & A & B & C).
    eapply bindr_ok; [eapply IHo; eauto|reflexivity| |].
    + intros o' Ho'. simpl. eauto.
    + intros; eapply let_next_ok; eauto. intros; apply start_ok; auto.
  - cbn [feed] in Hfeed. destruct (feed o p c0) eqn:Ef; [|discriminate].
    injection Hfeed as <-. apply pass_ok; eauto.
  - cbn [feed] in Hfeed. destruct (feed o p c0) eqn:Ef; [|discriminate].
    injection Hfeed as <-. destruct Hok as (T & A & B & C & D).
    eapply bindr_ok; [eapply IHo; eauto|reflexivity| |].
    + intros o' Ho'. simpl. exists T. auto.
    + intros; eapply seq_next_ok; eauto. intros; apply start_ok; auto.
  - cbn [feed] in Hfeed. destruct (feed o p c0) eqn:Ef; [|discriminate].
    injection Hfeed as <-. apply pass_ok; eauto.
  - cbn [feed] in Hfeed. destruct (feed o p c0) eqn:Ef; [|discriminate].
    injection Hfeed as <-. destruct Hok as (T & A & B & C & D).
    eapply bindr_ok; [eapply IHo; eauto|reflexivity| |].
    + intros o' Ho'. simpl. exists T. auto.
    + intros; eapply fin_next_ok; eauto. intros; apply start_ok; auto.
  - cbn [feed] in Hfeed. destruct (feed o p c0) eqn:Ef; [|discriminate].
    injection Hfeed as <-. destruct Hok as (T & A & B & C).
    eapply wrap_ok; [eapply IHo; eauto|reflexivity| |].
    + intros o' Ho'. simpl. exists T. auto.
    + intros; eapply fin2_conf; eauto.
  - cbn [feed] in Hfeed. destruct (feed o p c0) eqn:Ef; [|discriminate].
    injection Hfeed as <-. destruct Hok as (T & A & B & C).
    eapply bindr_ok; [eapply IHo; eauto|reflexivity| |].
    + intros o' Ho'. simpl. exists T. auto.
    + intros; eapply con_next_ok; eauto.
  - cbn [feed] in Hfeed. destruct (feed o p c0) eqn:Ef; [|discriminate].
    injection Hfeed as <-. destruct Hok as (T & A & B & C).
    eapply wrap_ok; [eapply IHo; eauto|reflexivity| |].
    + intros o' Ho'. simpl. exists T. auto.
    + intros; eapply con2_conf; eauto.
  - cbn [feed] in Hfeed. destruct (feed o p c0) eqn:Ef; [|discriminate].
    injection Hfeed as <-. destruct Hok as (T & A & B).
    eapply wrap_ok; [eapply IHo; eauto|reflexivity| |].
    + intros o' Ho'. simpl. exists T. auto.
    + intros; eapply var_conf; eauto.
  - cbn [feed] in Hfeed. destruct (feed o p c0) eqn:Ef; [|discriminate].
    injection Hfeed as <-. destruct Hok as (T & t & A & B & C & D & E).
    eapply wrap_ok; [eapply IHo; eauto|reflexivity| |].
    + intros o' Ho'. simpl. exists T, t. auto.
    + intros; eapply opt_conf; eauto.
  - cbn [feed] in Hfeed. destruct (feed o p c0) eqn:Ef; [|discriminate].
    injection Hfeed as <-. destruct Hok as (T & A & B & C).
    eapply wrap_ok; [eapply IHo; eauto|reflexivity| |].
    + intros o' Ho'. simpl. exists T. auto.
    + intros; eapply bulk_conf; eauto.
  - cbn [feed] in Hfeed. destruct (feed o p c0) eqn:Ef; [|discriminate].
    injection Hfeed as <-. destruct Hok as (A & B & C).
    eapply bindr_ok; [eapply IHo; eauto|reflexivity| |].
    + intros o' Ho'. split; auto.
    + intros; eapply rep_next_ok; eauto.
  - cbn [feed] in Hfeed. destruct (feed o p c0) eqn:Ef; [|discriminate].
    injection Hfeed as <-. destruct Hok as (A & B & C).
    eapply bindr_ok; [eapply IHo; eauto|reflexivity| |].
    + intros o' Ho'. split; auto.
    + intros; eapply repn_next_ok; eauto.
  - cbn [feed] in Hfeed. destruct (feed o p c0) eqn:Ef; [|discriminate].
    injection Hfeed as <-. apply pass_ok; eauto.
  - (* when_all *)
    destruct p as [|i p]; [discriminate|]. rewrite feed_when in Hfeed. rewrite leaf_when in Hlf.
    destruct (nth_error os i) as [o|] eqn:Eo; [|discriminate].
    destruct (feed o p c0) as [r0|] eqn:Ef; [|discriminate].
    destruct Hok as (SS & HC & Hlen & HW & HA).
    assert (Hi : i < length SS). { rewrite <- Hlen. apply nth_error_Some. congruence. }
    destruct (nth_error SS i) as [T|] eqn:ET; [|apply nth_error_None in ET; lia].
    pose proof (leaf_live _ _ Hlf) as Hlive.
    assert (Hr : okres T r0).
    { rewrite Forall_forall in H. eapply H; eauto. eapply nth_error_In; eauto.
      eapply all2_nth; eauto. }
    assert (Hlv : nth_error (map live os) i = Some true).
    { rewrite nth_error_map, Eo. simpl. rewrite Hlive. auto. }
    destruct Hr as [Hub [(Hc & Hl & Ho)|(c & Hc & Hcf & Hl)]]; rewrite Hc in Hfeed.
    + (* child still running *)
      simpl in Hfeed. injection Hfeed as <-.
      assert (Hm : map live (upd os i (r_op r0)) = map live os).
      { rewrite map_upd, Hl. apply upd_same. auto. }
      split; simpl. { rewrite app_nil_r; auto. }
      left. split; auto. split.
      * rewrite count_live, wa_prop_live, Hm, <- count_live.
        apply existsb_exists. exists o. split; auto. eapply nth_error_In; eauto.
      * exists SS. split; auto. rewrite wa_prop_length, length_upd, wa_prop_live, Hm.
        split; auto. split; auto. apply wa_prop_all2. eapply all2_upd; eauto.
    + destruct (@wa_calls_ok Sg ws SS w (map live os) i T c)
        as (w1 & out & t & E1 & HW1 & Hubt & Hout); auto.
      { rewrite map_length; lia. }
      rewrite E1 in Hfeed. injection Hfeed as <-.
      assert (Hm : map live (upd os i (r_op r0)) = upd (map live os) i false).
      { rewrite map_upd, Hl. auto. }
      pose proof HW1 as (Hcnt & _). rewrite length_upd, map_length, Hlen, Nat.sub_diag in Hcnt.
      split; simpl. { rewrite in_app_iff; tauto. }
      destruct Hout as [[Hz ->]|[Hz (c' & -> & Hc')]].
      * left. split; auto. split.
        -- rewrite count_live, wa_prop_live, Hm.
           destruct (Nat.eqb_spec (count (upd (map live os) i false)) 0); auto. lia.
        -- exists SS. split; auto. rewrite wa_prop_length, length_upd, wa_prop_live, Hm.
           split; auto. split; auto. apply wa_prop_all2. eapply all2_upd; eauto. congruence.
      * right. exists c'. split; auto. split; auto.
        rewrite count_live, wa_prop_live, Hm. rewrite (proj2 (Nat.eqb_eq _ _)); auto. lia.
  - (* when_any *)
    destruct p as [|i p]; [discriminate|]. rewrite feed_any in Hfeed. rewrite leaf_any in Hlf.
    destruct (nth_error os i) as [o|] eqn:Eo; [|discriminate].
    destruct (feed o p c0) as [r0|] eqn:Ef; [|discriminate].
    destruct Hok as (SS & HC & Hlen & HW & HA).
    assert (Hi : i < length SS). { rewrite <- Hlen. apply nth_error_Some. congruence. }
    destruct (nth_error SS i) as [T|] eqn:ET; [|apply nth_error_None in ET; lia].
    pose proof (leaf_live _ _ Hlf) as Hlive.
    assert (Hr : okres T r0).
    { rewrite Forall_forall in H. eapply H; eauto. eapply nth_error_In; eauto.
      eapply all2_nth; eauto. }
    assert (Hlv : nth_error (map live os) i = Some true).
    { rewrite nth_error_map, Eo. simpl. rewrite Hlive. auto. }
    destruct Hr as [Hub [(Hc & Hl & Ho)|(c & Hc & Hcf & Hl)]]; rewrite Hc in Hfeed.
    + simpl in Hfeed. injection Hfeed as <-.
      assert (Hm : map live (upd os i (r_op r0)) = map live os).
      { rewrite map_upd, Hl. apply upd_same. auto. }
      split; simpl. { rewrite app_nil_r; auto. }
      left. split; auto. split.
      * rewrite count_live, any_prop_live, Hm, <- count_live.
        apply existsb_exists. exists o. split; auto. eapply nth_error_In; eauto.
      * exists SS. split; auto. rewrite any_prop_length, length_upd, any_prop_live, Hm.
        split; auto. split; auto. apply any_prop_all2. eapply all2_upd; eauto.
    + destruct (@any_calls_ok Sg cp SS a (map live os) i T c)
        as (w1 & out & t & E1 & HW1 & Hubt & Hout); auto.
      { rewrite map_length; lia. }
      rewrite E1 in Hfeed. injection Hfeed as <-.
      assert (Hm : map live (upd os i (r_op r0)) = upd (map live os) i false).
      { rewrite map_upd, Hl. auto. }
      pose proof HW1 as (Hcnt & _). rewrite length_upd, map_length, Hlen, Nat.sub_diag in Hcnt.
      split; simpl. { rewrite in_app_iff; tauto. }
      destruct Hout as [[Hz ->]|[Hz (c' & -> & Hc')]].
      * left. split; auto. split.
        -- rewrite count_live, any_prop_live, Hm.
           destruct (Nat.eqb_spec (count (upd (map live os) i false)) 0); auto. lia.
        -- exists SS. split; auto. rewrite any_prop_length, length_upd, any_prop_live, Hm.
           split; auto. split; auto. apply any_prop_all2. eapply all2_upd; eauto. congruence.
      * right. exists c'. split; auto. split; auto.
        rewrite count_live, any_prop_live, Hm. rewrite (proj2 (Nat.eqb_eq _ _)); auto. lia.
Qed.

(** ** Whole runs *)

Lemma step_ok Sg o ev r :
  opok Sg o -> live o = true -> valid_event o ev -> step o ev = Some r -> okres Sg r.
Proof.
  destruct ev as [p c|]; simpl; intros Hok Hl Hv Hs.
  - destruct Hv as (k & Hk & Hmay). eapply feed_ok; eauto.
  - injection Hs as <-. apply okres_running; auto. split; [apply opok_stop; auto|].
    rewrite live_stop; auto.
Qed.

(** once everything has completed, only (ineffective) stop requests can happen *)
Lemma step_dead o ev r :
  live o = false -> valid_event o ev -> step o ev = Some r ->
  ev = EStop /\ r_calls r = [] /\ r_obs r = [] /\ live (r_op r) = false.
Proof.
  destruct ev as [p c|]; simpl; intros Hl Hv Hs.
  - destruct Hv as (k & Hk & _). apply leaf_live in Hk. congruence.
  - injection Hs as <-. simpl. rewrite live_stop. auto.
Qed.

Lemma run_okres Sg r evs r' : run r evs r' -> okres Sg r -> okres Sg r'.
Proof.
  induction 1; auto. intros [Hub Hok]. apply IHrun.
  destruct Hok as [(Hc & Hl & Ho)|(c & Hc & Hcf & Hl)].
  - destruct (@step_ok Sg _ _ _ Ho Hl H H0) as [Hub1 Hok1].
    split; simpl; [rewrite in_app_iff; tauto|]. rewrite Hc. exact Hok1.
  - destruct (@step_dead _ _ _ Hl H H0) as (_ & E1 & E2 & E3).
    split; simpl; [rewrite E2, app_nil_r; auto|]. right. exists c. rewrite E1, Hc. auto.
Qed.

Theorem run_start_ok s e ctx evs r :
  wt s -> run (start e ctx s) evs r -> okres (csigs s) r.
Proof. intros Hw Hr. eapply run_okres; eauto. apply start_ok; auto. Qed.

(** a leaf that is outstanding can always complete: the model never gets stuck *)
Lemma step_total o p k c : leaf_at o p = Some k -> exists r, feed o p c = Some r.
Proof.
  intros Hk. destruct (feed o p c) eqn:E; eauto.
  exfalso. apply (proj2 (feed_leaf o p c)); congruence.
Qed.

Arguments run_start_ok {s e ctx evs r} _ _.
Arguments run_okres {Sg r evs r'} _ _.
