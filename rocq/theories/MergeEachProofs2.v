(** merge_each: reachability, errors and stop requests. *)
From Coq Require Import List ZArith Bool Arith Lia.
From Verif Require Import Conc MergeEachModel MergeEachProofs.
Import ListNotations.
Set Implicit Arguments.
Open Scope Z_scope.
Arguments Z.add : simpl never. Arguments Z.sub : simpl never. Arguments Z.of_nat : simpl never.

Lemma same_inv s s' : inv s -> ags s' = ags s -> active s' = active s -> log s' = log s -> cm s' = cm s -> inv s'.
Proof.
  intros I E1 E2 E3 E4. destruct I as [A B C D E F G H J K L M N].
  constructor; rewrite ?E1, ?E2, ?E3, ?E4; assumption.
Qed.

Lemma step_inv a s s' : inv s -> step a s = Some s' -> inv s'.
Proof.
  intros I H. destruct a; cbn [step] in H.
  - destruct (nth_error (ags s) 0) as [o|] eqn:Ho; [|discriminate]. destruct (ap o) eqn:Eo; try discriminate.
    destruct (i_fin I Ho) as [[A [B [C [D E]]]]|[A _]]; [|rewrite Eo in A; unfold fresh in A; tauto].
    destruct (i_out I) as [o' [O1 [O2 O3]]]. assert (o' = o) by congruence. subst o'.
    pose proof (i_kd I _ Ho) as K. rewrite O2 in K. destruct K as [_ K].
    assert (X : ags s' = upd (ags s) 0 (w_ap o PChk) /\ active s' = active s /\ log s' = log s /\ cm s' = cm s).
    { injection H as <-. destruct (unst s), (preq s); simpl; auto. }
    destruct X as [X1 [X2 [X3 X4]]].
    eapply (@move s 0 o (w_ap o PChk)); pr; rewrite ?O2; auto; try discriminate; try tauto.
    + rewrite X2. unfold tok. pr. rewrite Eo. simpl. lia.
    + intros o1 o2 Y1 Y2. left. rewrite X1, (nth_upd _ _ _ _ Ho) in Y2. simpl in Y2. injection Y2 as <-.
      assert (o1 = o) by congruence. subst o1. rewrite X3. unfold fresh. pr. auto 10.
    + rewrite Eo. discriminate.
    + exact (i_al I _ Ho).
  - destruct (unst s || preq s); [discriminate|]. injection H as <-. eapply same_inv; [exact I|..]; destruct (cb s); reflexivity.
  - destruct (nth_error (ags s) i) eqn:E; [|discriminate]. eapply lib_inv; eauto.
  - destruct (nth_error (ags s) i) as [o|] eqn:Ho; [|discriminate]. destruct (ap o) eqn:Eo; try discriminate.
    destruct (kd o) eqn:Ek; try discriminate; injection H as <-; eapply new_item; eauto.
  - destruct (nth_error (ags s) i) eqn:E; [|discriminate]. eapply user_inv; eauto.
  - destruct (nth_error (ags s) i) as [o|] eqn:Ho; [|discriminate].
    destruct (nx o && alive o) eqn:Eo; [|discriminate]. injection H as <-. apply andb_prop in Eo. destruct Eo as [Eo1 Eo2].
    facts I Ho. unfold set_ag.
    eapply (@move s i o (mka (kd o) (ap o) (nx o) (via o) false)); pr; auto; try tauto.
    + intros K. destruct (i_out I) as [o' [O1 [O2 O3]]]. rewrite K in H. destruct H as [-> _]. split; [reflexivity|]. assert (o' = o) by congruence. subst o'. exact O3.
    + destruct (kd o); tauto.
    + intros p K. rewrite K in H. tauto.
    + unfold tok. pr. lia.
    + intros o1 o2 Y1 Y2. rewrite (@sumz_upd _ fin _ _ (mka (kd o) (ap o) (nx o) (via o) false) _ Ho), (@sumz_upd _ tok _ _ (mka (kd o) (ap o) (nx o) (via o) false) _ Ho).
      unfold fin at 2 3 5 6, tok at 2 3 5 6. pr.
      assert (Q : ap o2 = ap o1). { rewrite (nth_upd _ _ _ _ Ho) in Y2. destruct (Nat.eqb_spec i 0); [subst; injection Y2 as <-; pr|]; congruence. }
      rewrite Q. destruct (i_fin I Y1) as [[A _]|[A B]]; [left; auto 10|right]. split; [exact A|]. lia.
Qed.

Lemma runs_inv acts : forall s s', inv s -> runs acts s = Some s' -> inv s'.
Proof.
  induction acts as [|a acts IH]; intros s s' I H; simpl in H; [injection H as <-; exact I|].
  destruct (step a s) eqn:E; [|discriminate]. eapply IH; [eapply step_inv; eauto|exact H].
Qed.
Lemma reachable_inv s : reachable s -> inv s.
Proof. intros [u [acts H]]. eapply runs_inv; [apply init_inv|exact H]. Qed.

Lemma runs_app l1 : forall l2 s, runs (l1 ++ l2) s = match runs l1 s with Some s' => runs l2 s' | None => None end.
Proof. induction l1 as [|a l1 IH]; intros l2 s; simpl; [reflexivity|]. destruct (step a s); auto. Qed.
Lemma reach_step s a s' : reachable s -> step a s = Some s' -> reachable s'.
Proof. intros [u [acts H]] E. exists u, (acts ++ [a]). rewrite runs_app, H. simpl. rewrite E. reflexivity. Qed.
Lemma reach_ind (P : state -> Prop) : (forall u, P (init u)) ->
  (forall s a s', reachable s -> P s -> step a s = Some s' -> P s') -> forall s, reachable s -> P s.
Proof.
  intros H0 HS s [u [acts H]]. revert s H. induction acts as [|a acts IH] using rev_ind; intros s H.
  - simpl in H. injection H as <-. apply H0.
  - rewrite runs_app in H. destruct (runs acts (init u)) as [s1|] eqn:E; [|discriminate].
    simpl in H. destruct (step a s1) as [s2|] eqn:E2; [|discriminate]. injection H as <-.
    eapply HS; [|apply IH; reflexivity|exact E2]. exists u, acts. exact E.
Qed.

(** ** One case per kind of step *)
Ltac ag H := match type of H with context [nth_error (ags ?s) ?k] => destruct (nth_error (ags s) k) as [a|] eqn:Ha; [|discriminate H] end.
Ltac at_pc H := match type of H with context [match ap ?b with _ => _ end] => destruct (ap b) eqn:Ea; try discriminate H end.
Ltac at_kd H := match type of H with context [match kd ?b with _ => _ end] => destruct (kd b) eqn:Ek; try discriminate H end.
Ltac at_if H := match type of H with context [if ?b then _ else _] => destruct b eqn:Eif; try discriminate H end.
Ltac steps H :=
  match type of H with step ?a ?s = Some ?s' => destruct a; cbn [step] in H end;
  [ ag H; at_pc H | at_if H | ag H; unfold lib in H; at_pc H | ag H; at_pc H; at_kd H | ag H; unfold user in H; at_pc H | ag H; at_if H ].

Definition errinv (s : state) : Prop :=
  (cm s <> CError -> ex s = None /\ stor s = None /\ sumz hold (ags s) = 0 /\ first (log s) = None) /\
  (cm s = CError -> exists i e, first (log s) = Some (i, e) /\
    ((sumz hold (ags s) = 1 /\ ex s = None /\ stor s = None /\
      exists a, nth_error (ags s) i = Some a /\ (ap a = PReqF e \/ ap a = PStore e)) \/
     (sumz hold (ags s) = 0 /\
      (i = 0%nat /\ ex s = Some e /\ stor s = None \/ i <> 0%nat /\ ex s = None /\ stor s = Some e)))).

(** steps that leave the errors alone *)
Lemma err_same s s' i a a' : errinv s -> nth_error (ags s) i = Some a -> ags s' = upd (ags s) i a' ->
  hold a = 0 -> hold a' = 0 -> cm s' = cm s -> ex s' = ex s -> stor s' = stor s -> first (log s') = first (log s) -> errinv s'.
Proof.
  intros [A B] Ha Hu H1 H2 E1 E2 E3 E4. unfold errinv. rewrite E1, E2, E3, E4, Hu, (@sumz_upd _ hold _ _ a' _ Ha), H1, H2.
  replace (sumz hold (ags s) - 0 + 0) with (sumz hold (ags s)) by lia. split; [exact A|].
  intros C. destruct (B C) as [j [e [F [[G1 [G2 [G3 [b [G4 G5]]]]]|G]]]]; exists j, e; (split; [exact F|]); [left|right; exact G].
  split; [exact G1|]. split; [exact G2|]. split; [exact G3|]. exists b. split; [|exact G5].
  rewrite (nth_upd _ _ _ _ Ha). destruct (Nat.eqb_spec i j); [|exact G4]. exfalso. subst j.
  assert (b = a) by congruence. subst b. unfold hold in H1. destruct G5 as [G5|G5]; rewrite G5 in H1; discriminate.
Qed.
(** the holder moves on without letting go *)
Lemma err_hold s s' i a a' : errinv s -> nth_error (ags s) i = Some a -> ags s' = upd (ags s) i a' ->
  (forall e, ap a = PReqF e \/ ap a = PStore e -> ap a' = PReqF e \/ ap a' = PStore e) -> hold a = 1 ->
  cm s' = cm s -> ex s' = ex s -> stor s' = stor s -> first (log s') = first (log s) -> errinv s'.
Proof.
  intros [A B] Ha Hu H1 H2 E1 E2 E3 E4. unfold errinv.
  assert (Hh : hold a' = 1).
  { unfold hold in *. destruct (ap a) eqn:Ea; try discriminate H2; destruct (H1 _ (or_introl eq_refl)) as [K|K] || destruct (H1 _ (or_intror eq_refl)) as [K|K]; rewrite K; reflexivity. }
  rewrite E1, E2, E3, E4, Hu, (@sumz_upd _ hold _ _ a' _ Ha), Hh, H2.
  replace (sumz hold (ags s) - 1 + 1) with (sumz hold (ags s)) by lia. split; [exact A|].
  intros C. destruct (B C) as [j [e [F [[G1 [G2 [G3 [b [G4 G5]]]]]|G]]]]; exists j, e; (split; [exact F|]); [left|right; exact G].
  split; [exact G1|]. split; [exact G2|]. split; [exact G3|].
  rewrite (nth_upd _ _ _ _ Ha). destruct (Nat.eqb_spec i j); [|exists b; auto]. subst j. exists a'. split; [reflexivity|].
  assert (b = a) by congruence. subst b. auto.
Qed.
(** what the holder holds *)
Lemma err_holder s i a e : errinv s -> nth_error (ags s) i = Some a -> ap a = PReqF e \/ ap a = PStore e ->
  cm s = CError /\ first (log s) = Some (i, e) /\ sumz hold (ags s) = 1 /\ ex s = None /\ stor s = None.
Proof.
  intros [A B] Ha H. assert (Hh : hold a = 1) by (unfold hold; destruct H as [-> | ->]; reflexivity).
  pose proof (sumz_ge hold _ hold_nn _ Ha) as G. rewrite Hh in G.
  assert (C : cm s = CError). { destruct (cm s) eqn:C; auto; destruct A as [_ [_ [A _]]]; try discriminate; lia. }
  split; [exact C|]. destruct (B C) as [j [e' [F [[G1 [G2 [G3 [b [G4 G5]]]]]|[G1 _]]]]]; [|lia].
  assert (i = j).
  { destruct (Nat.eq_dec i j); auto. exfalso. pose proof (sumz_ge2 hold _ hold_nn n Ha G4) as K.
    assert (hold b = 1) by (unfold hold; destruct G5 as [-> | ->]; reflexivity). lia. }
  subst j. assert (b = a) by congruence. subst b. assert (e' = e) by (intuition congruence). subst. auto.
Qed.

Lemma err_neutral s s' : errinv s -> ags s' = ags s -> cm s' = cm s -> ex s' = ex s -> stor s' = stor s -> first (log s') = first (log s) -> errinv s'.
Proof. intros H E1 E2 E3 E4 E5. unfold errinv. rewrite E1, E2, E3, E4, E5. exact H. Qed.

Ltac esame := eapply err_same; [eassumption|eassumption|pr; rewrite ?request_ags; reflexivity|
   try solve [unfold hold; match goal with E : ap _ = _ |- _ => rewrite E end; reflexivity]..];
   pr; rewrite ?request_cm, ?request_ex, ?request_stor, ?request_log; try reflexivity.
Lemma reachable_err s : reachable s -> errinv s.
Proof.
  revert s. apply reach_ind.
  { intros u. split; simpl; [auto|discriminate]. }
  intros s act s' R P H. pose proof (reachable_inv R) as I.
  steps H.
  - (* start *) injection H as <-. eapply (@err_same s _ 0 a (w_ap a PChk)); auto; try (unfold hold; rewrite ?Ea; reflexivity); destruct (unst s), (preq s); reflexivity.
  - injection H as <-. eapply err_neutral; [exact P|..]; destruct (cb s); reflexivity.
  - destruct (negb (unst s) && nstop s); injection H as <-; esame.
  - injection H as <-; esame. unfold hold. pr. destruct (kd a); reflexivity.
  - injection H as <-; esame. unfold hold. pr. destruct c; reflexivity.
  - (* PFail *)
    assert (Hz : hold a = 0) by (unfold hold; rewrite Ea; reflexivity).
    assert (Hf : hold (w_ap a (after_fail a)) = 0) by (unfold hold, after_fail; destruct (kd a), (via a); reflexivity).
    injection H as <-. destruct (cm s) eqn:Ec.
    + destruct P as [P _]. destruct P as [P1 [P2 [P3 P4]]]; [congruence|].
      split; pr; [congruence|]. intros _. exists i, e. simpl. rewrite P4. split; [reflexivity|]. left.
      rewrite (@sumz_upd _ hold _ _ (w_ap a (PReqF e)) _ Ha), P3, Hz. unfold hold at 1. simpl.
      split; [reflexivity|]. split; [exact P1|]. split; [exact P2|]. exists (w_ap a (PReqF e)). split; [apply (nth_upd_same _ _ _ Ha)|auto].
    + eapply (@err_same s _ i a (w_ap a (after_fail a))); auto. simpl. destruct P as [_ P]. destruct (P Ec) as [j [e' [F _]]]. rewrite F. reflexivity.
    + destruct P as [P _]. destruct P as [P1 [P2 [P3 P4]]]; [congruence|].
      split; pr; [congruence|]. intros _. exists i, e. simpl. rewrite P4. split; [reflexivity|]. left.
      rewrite (@sumz_upd _ hold _ _ (w_ap a (PStore e)) _ Ha), P3, Hz. unfold hold at 1. simpl.
      split; [reflexivity|]. split; [exact P1|]. split; [exact P2|]. exists (w_ap a (PStore e)). split; [apply (nth_upd_same _ _ _ Ha)|auto].
  - (* PReqF *)
    injection H as <-. eapply (@err_hold s _ i a (w_ap a (PStore e))); pr; rewrite ?request_cm, ?request_ex, ?request_stor, ?request_log, ?request_ags; auto.
    + rewrite Ea. intros e' [K|K]; [injection K as <-; auto|discriminate].
    + unfold hold. rewrite Ea. reflexivity.
  - (* PStore *)
    assert (Hz : hold a = 1) by (unfold hold; rewrite Ea; reflexivity).
    assert (Hf : hold (w_ap a (after_fail a)) = 0) by (unfold hold, after_fail; destruct (kd a), (via a); reflexivity).
    destruct (err_holder _ P Ha (or_intror Ea)) as [Q1 [Q2 [Q3 [Q4 Q5]]]].
    assert (Hs : sumz hold (upd (ags s) i (w_ap a (after_fail a))) = 0) by (rewrite (@sumz_upd _ hold _ _ (w_ap a (after_fail a)) _ Ha), Q3, Hz, Hf; lia).
    pose proof (i_kd I _ Ha) as Kd.
    destruct (kd a) eqn:Ek; injection H as <-.
    + split; pr; [congruence|]. intros _. exists i, e. split; [exact Q2|]. right. split; [exact Hs|]. left. destruct Kd. auto.
    + split; destruct (alive a); pr; try congruence; intros _; exists i, e; (split; [exact Q2|]); right; (split; [exact Hs|]); right; destruct Kd; auto.
    + split; destruct (alive a); pr; try congruence; intros _; exists i, e; (split; [exact Q2|]); right; (split; [exact Hs|]); right; destruct Kd; auto.
  - (* PBrk *) destruct (cm s) eqn:Ec; injection H as <-.
    + destruct P as [P _]. destruct P as [P1 [P2 [P3 P4]]]; [congruence|]. split; pr; [|discriminate]. intros _.
      rewrite (@sumz_upd _ hold _ _ (w_ap a PReqB) _ Ha), P3. unfold hold. rewrite Ea. simpl. auto.
    + esame.
    + esame.
  - injection H as <-; esame.
  - injection H as <-; esame. unfold hold; pr. destruct (active s =? 1); reflexivity.
  - injection H as <-; esame.
  - injection H as <-; esame.
  - injection H as <-. destruct P as [A B]. unfold errinv. pr. rewrite sumz_app. simpl. replace (sumz hold (ags s) + (hold (mka KSeq PInc false false true) + 0)) with (sumz hold (ags s)) by (unfold hold at 3; simpl; lia).
    split; [exact A|]. intros C. destruct (B C) as [j [e' [F [[G1 [G2 [G3 [b [G4 G5]]]]]|G]]]]; exists j, e'; (split; [exact F|]); [left|right; exact G].
    split; [exact G1|]. split; [exact G2|]. split; [exact G3|]. exists b. split; [apply nth_old; exact G4|exact G5].
  - injection H as <-. destruct P as [A B]. unfold errinv. pr. rewrite sumz_app. simpl. replace (sumz hold (ags s) + (hold (mka (KVal i) PInc false false true) + 0)) with (sumz hold (ags s)) by (unfold hold at 3; simpl; lia).
    split; [exact A|]. intros C. destruct (B C) as [j [e' [F [[G1 [G2 [G3 [b [G4 G5]]]]]|G]]]]; exists j, e'; (split; [exact F|]); [left|right; exact G].
    split; [exact G1|]. split; [exact G2|]. split; [exact G3|]. exists b. split; [apply nth_old; exact G4|exact G5].
  - destruct r; injection H as <-; esame.
  - destruct (all_next i _); [|discriminate H]. destruct (kd a), r; injection H as <-; esame.
  - injection H as <-. assert (hold a = 0 \/ hold a = 1) as [Hz|Hz] by (unfold hold; destruct (ap a); simpl; auto).
    + eapply (@err_same s _ i a (mka (kd a) (ap a) (nx a) (via a) false)); auto.
    + eapply (@err_hold s _ i a (mka (kd a) (ap a) (nx a) (via a) false)); auto.
Qed.

(** ** Stop requests *)
Definition pfin a := match ap a with PFin => 1 | _ => 0 end.
Lemma pfin_nn a : 0 <= pfin a. Proof. unfold pfin; destruct (ap a); lia. Qed.

Definition stopinv (s : state) : Prop :=
  (unst s = false -> cm s <> CStarted -> nstop s = true \/ 0 < sumz req (ags s)) /\
  (preq s = true -> cb s = true -> nstop s = true) /\
  (unst s = true -> nstop s = false) /\
  (unst s = false -> forall o, nth_error (ags s) 0 = Some o -> ap o <> P0 -> cb s = true \/ 1 <= sumz pfin (ags s) + dones (log s)).

(** the general move: [k] is the agent *)
Lemma stop_move s s' i a a' : stopinv s -> nth_error (ags s) i = Some a -> ags s' = upd (ags s) i a' ->
  unst s' = unst s ->
  (nstop s = true -> nstop s' = true) -> (unst s = true -> nstop s' = false) -> preq s' = preq s -> (cb s' = true -> cb s = true) ->
  (unst s = false -> cm s' <> CStarted -> cm s <> CStarted /\ (nstop s' = true \/ req a <= req a') \/ 1 <= req a') ->
  (ap a = P0 -> ap a' = P0) -> (cb s = true -> cb s' = true \/ 1 <= pfin a') ->
  pfin a + dones (log s) <= pfin a' + dones (log s') ->
  stopinv s'.
Proof.
  intros [A [B [C D]]] Ha Hu E1 E2 E3 E4 E5 E6 E7 E8 E9. unfold stopinv. rewrite E1, E4, Hu.
  rewrite (@sumz_upd _ req _ _ a' _ Ha), (@sumz_upd _ pfin _ _ a' _ Ha).
  pose proof (sumz_ge req _ req_nn _ Ha) as G1. pose proof (sumz_ge pfin _ pfin_nn _ Ha) as G2.
  pose proof (req_nn a'). pose proof (pfin_nn a'). pose proof (dones_nn (log s')). pose proof (dones_nn (log s)).
  split; [|split; [|split; [exact E3|]]].
  - intros U M. destruct (E6 U M) as [[M' [N|N]]|N]; [auto| |right; lia]. destruct (A U M') as [K|K]; [auto|right; lia].
  - auto.
  - intros U o H3 H4.
    rewrite (nth_upd _ _ _ _ Ha) in H3.
    assert (Q : cb s = true \/ 1 <= sumz pfin (ags s) + dones (log s)).
    { destruct (Nat.eqb_spec i 0) as [->|N]; [|eauto]. injection H3 as <-. apply (D U _ Ha). auto. }
    destruct Q as [Q|Q]; [destruct (E8 Q); [auto|right; lia]|right; lia].
Qed.

Lemma request_nstop s : nstop (request s) = (if unst s then nstop s else true). Proof. unfold request. destruct (unst s); reflexivity. Qed.
Lemma request_unst s : unst (request s) = unst s. Proof. unfold request. destruct (unst s) eqn:E; [exact E|exact E]. Qed.
Lemma request_preq s : preq (request s) = preq s. Proof. unfold request. destruct (unst s); reflexivity. Qed.
Lemma request_cb s : cb (request s) = cb s. Proof. unfold request. destruct (unst s); reflexivity. Qed.

Ltac smove a' :=
  match goal with P : stopinv ?s, Ha : nth_error (ags ?s) ?i = Some ?a |- _ =>
    eapply (@stop_move s _ i a a'); [exact P|exact Ha|pr; rewrite ?request_ags; reflexivity|..];
    pr; rewrite ?request_cm, ?request_cb, ?request_unst, ?request_log, ?request_preq, ?request_nstop, ?dones_cons; cbn [is_done];
    unfold req, pfin; pr; try match goal with E : ap _ = _ |- _ => rewrite E end; cbn [reqp]; auto;
    try solve [lia | discriminate | intros; discriminate | intros; left; split; [assumption|right; lia] |
               intros; left; split; [congruence|right; lia] | intros; right; lia |
               intros U; rewrite ?U; auto; left; split; [congruence|auto] | apply P | let U := fresh in intros U; rewrite U; apply P; exact U |
               destruct (unst s); auto | intros U M; rewrite U; left; auto ]
  end.
Lemma reachable_stop s : reachable s -> stopinv s.
Proof.
  revert s. apply reach_ind.
  { intros u. unfold stopinv. simpl. repeat split; auto; try congruence. intros _ o H. injection H as <-. simpl. congruence. }
  intros s act s' R P H. pose proof (reachable_inv R) as I.
  assert (P' := P). destruct P' as [PA [PB [PC PD]]].
  steps H.
  - (* start *)
    destruct (i_fin I Ha) as [[_ [_ [_ [Cm _]]]]|[F _]]; [|exfalso; apply F; left; exact Ea].
    injection H as <-. destruct (unst s) eqn:U; [|destruct (preq s) eqn:Pq]; unfold stopinv; pr; rewrite ?U, ?Pq, ?Cm.
    + repeat split; auto; congruence.
    + repeat split; auto; congruence.
    + repeat split; auto; congruence.
  - injection H as <-. apply orb_false_elim in Eif. destruct Eif as [U Pq].
    destruct (cb s) eqn:C; unfold stopinv; pr; rewrite ?U, ?C; repeat split; auto; try congruence.
    intros _ o Ho Np. destruct (PD U o Ho Np); auto.
  - destruct (negb (unst s) && nstop s); injection H as <-; [smove (w_ap a PEnd)|smove (w_ap a PRun)].
  - injection H as <-. destruct (kd a); [smove (w_ap a PRun)|smove (w_ap a PItem)|smove (w_ap a PRun)].
  - injection H as <-. match goal with |- context [set_ag _ _ ?x] => destruct c; match goal with |- context [set_ag _ _ ?y] => smove y end end.
  - injection H as <-. unfold after_fail. destruct (cm s) eqn:Ec; [smove (w_ap a (PReqF e))| |smove (w_ap a (PStore e))].
    destruct (kd a); [|destruct (via a)|]; match goal with |- context [set_ag _ _ ?y] => smove y end.
  - injection H as <-. smove (w_ap a (PStore e)).
  - unfold after_fail in H. destruct (kd a); injection H as <-; [|destruct (via a)|]; destruct (alive a); match goal with |- context [set_ag _ _ ?y] => smove y end.
  - destruct (cm s) eqn:Ec; injection H as <-; match goal with |- context [set_ag _ _ ?y] => smove y end.
  - injection H as <-. smove (w_ap a PDec).
  - injection H as <-. destruct (active s =? 1); match goal with |- context [set_ag _ _ ?y] => smove y end.
  - injection H as <-. smove (w_ap a PFin).
  - injection H as <-. smove (w_ap a PEnd).
  - injection H as <-. unfold stopinv. pr. rewrite !sumz_app. simpl. 
    split; [|split; [|split]]; auto.
    + intros U M. destruct (PA U M); [auto|right]. pose proof (req_nn (mka KSeq PInc false false true)). lia.
    + intros U o Ho Np. destruct (nth_snoc (ags s) (mka KSeq PInc false false true) 0 Ho) as [[L _]|Ho']; [destruct (ags s); [destruct i; discriminate Ha|discriminate L]|].
      destruct (PD U o Ho' Np); [auto|right]. unfold pfin at 2. simpl. lia.
  - injection H as <-. unfold stopinv. pr. rewrite !sumz_app. simpl. 
    split; [|split; [|split]]; auto.
    + intros U M. destruct (PA U M); [auto|right]. pose proof (req_nn (mka (KVal i) PInc false false true)). lia.
    + intros U o Ho Np. destruct (nth_snoc (ags s) (mka (KVal i) PInc false false true) 0 Ho) as [[L _]|Ho']; [destruct (ags s); [destruct i; discriminate Ha|discriminate L]|].
      destruct (PD U o Ho' Np); [auto|right]. unfold pfin at 2. simpl. lia.
  - destruct r; injection H as <-; match goal with |- context [set_ag _ _ ?y] => smove y end.
  - destruct (all_next i _); [|discriminate H]. destruct (kd a), r; injection H as <-; match goal with |- context [set_ag _ _ ?y] => smove y end.
  - injection H as <-. match goal with |- context [set_ag _ _ ?y] => smove y end.
Qed.
