(** split and ensure_started: theorems (C32, C33).

    [log] is newest first.  [reach s]: [s] is reachable by any number of copies
    of a split sender and operations connected from them, or by an
    ensure_started sender, under any interleaving. *)
From Coq Require Import List ZArith Bool Arith Lia.
From Verif Require Import Conc SharedModel SharedProofs.
Import ListNotations.
Set Implicit Arguments.
Open Scope Z_scope.
Arguments Z.add : simpl never.
Arguments Z.sub : simpl never.

Definition started_up (l : list event) : Prop := In EUpStart l.
Definition completed_up (l : list event) : Prop := exists r, In (EUp r) l.
(** upstream is running *)
Definition up_runs (l : list event) : Prop := started_up l /\ ~ completed_up l.

Lemma ups_in l : (0 < ups l)%nat <-> completed_up l.
Proof.
  unfold ups. rewrite cnt_pos. split.
  - intros ([] & H & E); try discriminate. exists r; exact H.
  - intros [r H]. exists (EUp r); auto.
Qed.
Lemma comps_in k l : (0 < comps k l)%nat <-> exists r, In (EComp k r) l.
Proof.
  unfold comps. rewrite cnt_pos. split.
  - intros ([] & H & E); try discriminate. apply Nat.eqb_eq in E; subst. exists r; exact H.
  - intros [r H]. exists (EComp k r). split; [exact H|]. apply Nat.eqb_refl.
Qed.

(** C32: upstream is started at most once and completes at most once. *)
Theorem C32_upstream_once s : reach s ->
  (count EUpStart (log s) <= 1)%nat /\ (ups (log s) <= count EUpStart (log s))%nat.
Proof.
  intros R. apply reach_inv in R. pose proof (i_us R). rewrite (i_up R).
  destruct (up s); simpl in *; lia.
Qed.

(** C32: a consumer is completed at most once, and only if it was started. *)
Theorem C32_complete_once s k : reach s ->
  (comps k (log s) <= count (EStart k) (log s))%nat /\ (count (EStart k) (log s) <= 1)%nat.
Proof.
  intros R. apply reach_inv in R. rewrite (i_cp R), (i_st R).
  destruct (nth_error (hs s) k) as [[]|]; simpl; try lia; destruct c; lia.
Qed.

Lemma step_log a s s' : step a s = Some s' -> log s' = log s \/ exists e, log s' = e :: log s.
Proof.
  intros H. destruct a; simpl in H.
  - destruct (nth_error (hs s) k) as [[]|]; try discriminate; injection H as <-; simpl; eauto.
  - destruct (nth_error (hs s) k) as [[]|]; try discriminate; injection H as <-; simpl; eauto.
  - destruct (nth_error (hs s) k) as [[]|]; try discriminate; injection H as <-; simpl; eauto.
  - destruct (nth_error (hs s) k) as [[]|]; try discriminate;
    destruct (nth_error (hs s) k') as [[]|]; try discriminate; injection H as <-; simpl; eauto.
  - destruct (nth_error (ks s) k) as [[]|]; try discriminate; injection H as <-; simpl; eauto.
  - destruct (up s); try discriminate; injection H as <-; simpl; eauto.
  - destruct (nth_error (hs s) k) as [p|]; try discriminate.
    destruct (nth_error (ks s) k) as [c|]; try discriminate.
    destruct p; simpl in H; try discriminate H;
      try (destruct d as [|[]|[]|]; unfold release in H; simpl in H);
      repeat match type of H with
      | context [if ?b then _ else _] => destruct b
      | context [match waiters ?s with _ => _ end] => destruct (waiters s)
      | context [match reset ?s with _ => _ end] => destruct (reset s)
      end; try discriminate H; injection H as <-; unfold release; simpl;
      try destruct (rc s - 1 =? 0); simpl; eauto.
  - destruct (nth_error (ks s) k) as [c|]; try discriminate.
    destruct c; simpl in H; try discriminate H;
      try (destruct d as [|[]|[]|]; unfold release in H; simpl in H);
      repeat match type of H with
      | context [if ?b then _ else _] => destruct b
      | context [match waiters ?s with _ => _ end] => destruct (waiters s)
      end; try discriminate H; injection H as <-; unfold release; simpl;
      try destruct (rc s - 1 =? 0); simpl; eauto.
  - unfold u_step in H. destruct (up s) as [| | |[|j ws]|j ws| |]; try discriminate H.
    + destruct (waiters s); [|discriminate]. injection H as <-; simpl; eauto.
    + injection H as <-; simpl; eauto.
    + destruct (nth_error (ks s) j); [|discriminate]. destruct (reset k); [|discriminate].
      injection H as <-; simpl; eauto.
    + injection H as <-; simpl; eauto.
    + unfold release in H; simpl in H. destruct (rc s - 1 =? 0); injection H as <-; simpl; eauto.
Qed.

(** What was logged before is the log of an earlier reachable state. *)
Lemma runs_prefix l : forall s0 s, inv s0 -> runs l s0 = Some s -> forall l1 l2, log s = l1 ++ l2 ->
  (length (log s0) <= length l2)%nat -> exists s1, inv s1 /\ log s1 = l2.
Proof.
  induction l as [|a l IH]; simpl; intros s0 s I H l1 l2 E L.
  - injection H as <-. destruct l1; [eauto|].
    rewrite E, app_length in L. simpl in L. lia.
  - destruct (step a s0) as [s1|] eqn:Es; [|discriminate].
    destruct (step_log _ _ Es) as [G|[e G]].
    + eapply (IH s1); eauto; [eapply step_inv; eauto|rewrite G; exact L].
    + destruct (Nat.eq_dec (length (log s0)) (length l2)) as [Q|Q].
      * exists s0. split; [exact I|].
        assert (SF : exists l3, log s = l3 ++ log s0).
        { assert (forall l s s', runs l s = Some s' -> exists l3, log s' = l3 ++ log s) as SFX.
          { clear. induction l as [|a l IH]; simpl; intros s s' H; [injection H as <-; exists []; auto|].
            destruct (step a s) as [s1|] eqn:E; [|discriminate]. destruct (IH _ _ H) as [l3 G].
            destruct (step_log _ _ E) as [G'|[e G']]; rewrite G' in G; [eauto|].
            exists (l3 ++ [e]). rewrite <- app_assoc. exact G. }
          apply (SFX (a :: l)). simpl. rewrite Es. exact H. }
        destruct SF as [l3 SF]. rewrite SF in E.
        assert (length l3 = length l1) by (apply (f_equal (@length event)) in E; rewrite !app_length in E; lia).
        assert (forall (a b c d : list event), length a = length c -> a ++ b = c ++ d -> b = d) as AI.
        { clear. induction a; intros b [|x c] d HL E; simpl in *; try discriminate; auto.
          injection E as _ E. injection HL as HL. eapply IHa; eauto. }
        eapply AI; eauto.
      * eapply (IH s1); eauto; [eapply step_inv; eauto|rewrite G; simpl; lia].
Qed.

Lemma reach_prefix s l1 l2 : split_reach s -> log s = l1 ++ l2 -> exists s1, inv s1 /\ log s1 = l2.
Proof. intros (n & m & l & H) E. eapply runs_prefix; eauto using split_inv. simpl. lia. Qed.

(** C32: a consumer is completed with the result of upstream, which has completed
    before; or with set_stopped, if stop was requested of that consumer. *)
Theorem C32_value s l1 l2 k r : reach s -> log s = l1 ++ EComp k r :: l2 ->
  r = RStopped /\ In (EReq k) l2 \/ In (EUp r) l2.
Proof.
  intros R E.
  assert (P : exists s1, inv s1 /\ log s1 = EComp k r :: l2).
  { destruct R as [R|[l H]]; [eapply reach_prefix; eauto|].
    eapply runs_prefix; eauto using es_inv. simpl.
    destruct l2; simpl; [|lia]. exfalso.
    assert (forall l s s', runs l s = Some s' -> exists l3, log s' = l3 ++ log s) as SFX.
    { clear. induction l as [|a l IH]; simpl; intros s s' H; [injection H as <-; exists []; auto|].
      destruct (step a s) as [s1|] eqn:E; [|discriminate]. destruct (IH _ _ H) as [l3 G].
      destruct (step_log _ _ E) as [G'|[e G']]; rewrite G' in G; [eauto|].
      exists (l3 ++ [e]). rewrite <- app_assoc. exact G. }
    destruct (SFX _ _ _ H) as [l3 G]. simpl in G. rewrite G in E. apply app_inj_tail in E.
    destruct E; discriminate. }
  destruct P as (s1 & I & EL). destruct (i_vl I k r) as [[A B]|A].
  - rewrite EL. left. reflexivity.
  - left. split; [exact A|]. rewrite EL in B. destruct B; [discriminate|assumption].
  - right. rewrite EL in A. destruct A; [discriminate|assumption].
Qed.

(** ** Nobody is forgotten *)

(** Nothing is left to run but what the environment decides (starting, copying,
    destroying, requesting stop, the completion of upstream). *)
Definition quiet (s : state) : Prop :=
  (forall k, step (AH k) s = None) /\ (forall k, step (AK k) s = None) /\ step AU s = None.

Lemma len_some s k p : inv s -> nth_error (hs s) k = Some p -> exists c, nth_error (ks s) k = Some c.
Proof.
  intros I H. destruct (nth_error (ks s) k) eqn:E; [eauto|]. apply nth_error_None in E.
  rewrite (i_len I) in E. apply nth_error_None in E. congruence.
Qed.
Lemma len_some_k s k c : inv s -> nth_error (ks s) k = Some c -> exists p, nth_error (hs s) k = Some p.
Proof.
  intros I H. destruct (nth_error (hs s) k) eqn:E; [eauto|]. apply nth_error_None in E.
  rewrite <- (i_len I) in E. apply nth_error_None in E. congruence.
Qed.

Lemma quiet_k s k c : quiet s -> nth_error (ks s) k = Some c -> c = KNone \/ c = KReg \/ c = KReqd.
Proof.
  intros (_ & Q & _) H. specialize (Q k). simpl in Q. rewrite H in Q. destruct c; auto; simpl in Q.
  - destruct (waiters s); [|discriminate]. destruct (in_dec Nat.eq_dec k l); discriminate.
  - destruct (det_step d s). discriminate.
  - discriminate.
Qed.

Lemma quiet_h s k p : inv s -> quiet s -> nth_error (hs s) k = Some p ->
  p = HU \/ p = HS \/ p = HQ \/ p = HC \/ exists c, p = HG c.
Proof.
  intros I Q H. destruct (len_some _ I H) as [c Hc]. pose proof (quiet_k _ Q Hc) as K.
  pose proof (i_ok I _ H Hc) as O.
  destruct Q as (Q & _ & _). specialize (Q k). simpl in Q. rewrite H, Hc in Q.
  destruct p; simpl in Q; auto; try discriminate Q; try (right; right; right; right; eexists; reflexivity);
    exfalso.
  - destruct (flag s); discriminate.
  - destruct (sref s); discriminate.
  - destruct (stopreq s); discriminate.
  - destruct (waiters s); [destruct (stop_requested c)|]; discriminate.
  - destruct K as [-> |[-> | ->]]; discriminate.
  - destruct K as [-> |[-> | ->]]; discriminate.
  - destruct K as [-> |[-> | ->]]; discriminate.
  - destruct (det_step d s); discriminate.
  - destruct (det_step d s); discriminate.
Qed.

Lemma quiet_u s : inv s -> quiet s -> up s = U0 \/ up s = U1 \/ up s = UD.
Proof.
  intros I Q. pose proof Q as (_ & _ & U). simpl in U. unfold u_step in U.
  destruct (up s) as [| | |[|j ws]|j ws| |] eqn:E; auto; try discriminate U; exfalso.
  - pose proof (i_tomb I) as T. rewrite E in T. destruct (waiters s); simpl in *; discriminate.
  - assert (H : nth_error (hs s) j = Some HQ) by (apply (in_u _ I); rewrite E; left; reflexivity).
    destruct (len_some _ I H) as [c Hc]. rewrite Hc in U.
    destruct (quiet_k _ Q Hc) as [-> |[-> | ->]]; discriminate.
Qed.

(** C32: when nothing is left to run, every started consumer has been completed,
    except those still waiting for a running upstream and not asked to stop. *)
Theorem C32_nobody_forgotten s k : reach s -> quiet s -> In (EStart k) (log s) ->
  comps k (log s) = 1%nat \/ (up_runs (log s) /\ ~ In (EReq k) (log s)).
Proof.
  intros R Q St. apply reach_inv in R. rename R into I. apply count_in in St. rewrite (i_st I) in St.
  rewrite (i_cp I). destruct (nth_error (hs s) k) as [p|] eqn:E; [|simpl in St; lia].
  destruct (quiet_h _ I Q E) as [-> |[-> |[-> |[-> |[c ->]]]]]; simpl in *; try lia.
  - right. pose proof (i_occ I k) as O. rewrite E in O. simpl in O.
    destruct (len_some _ I E) as [c Hc].
    destruct (quiet_u I Q) as [U|[U|U]].
    + exfalso. pose proof (i_fl I _ E eq_refl) as F. pose proof (i_flag I) as G. rewrite U, F in G.
      simpl in G. destruct (sumz_pos_ex h45 (hs s)) as (j & p & Hj & Wj); [lia|].
      destruct (quiet_h _ I Q Hj) as [-> |[-> |[-> |[-> |[b ->]]]]]; simpl in Wj; lia.
    + split.
      * split.
        -- apply count_in. pose proof (i_us I) as G. rewrite U in G. simpl in G. lia.
        -- intros G. apply ups_in in G. rewrite (i_up I), U in G. simpl in G. lia.
      * intros G. apply count_in in G. rewrite (i_rq I), Hc in G. rewrite U in O. simpl in O.
        assert (W : In k (wl (waiters s))) by (apply occ_in; unfold occ at 2 in O; simpl in O; lia).
        pose proof (i_wq I _ W Hc) as V.
        destruct (quiet_k _ Q Hc) as [-> |[-> | ->]]; simpl in *; try lia; discriminate.
    + exfalso. pose proof (i_tomb I) as T. rewrite U in T. destruct (waiters s); [discriminate|].
      rewrite U in O. unfold occ in O. simpl in O. lia.
  - left. destruct c; simpl in *; lia.
Qed.

(** ** The shared state *)

(** The handle's own steps that use the shared state: all but the last call of
    its receiver and the tests of its own token. *)
Definition uses_shared (a : action) (s : state) : Prop :=
  match a with
  | AH k => match nth_error (hs s) k with Some (HFc | HF1 | H2) => False | _ => True end
  | AK k => match nth_error (ks s) k with Some KFin => False | _ => True end
  | AU | AUp _ | ACopy _ _ => True
  | _ => False
  end.

(** C32: nobody uses the shared state after it was destroyed. *)
Theorem C32_no_use_after_free s a s' : reach s -> step a s = Some s' -> uses_shared a s ->
  ~ In EFree (log s).
Proof.
  intros R H U F. apply reach_inv in R. rename R into I.
  apply count_in in F. pose proof (i_fr I) as G.
  assert (R0 : rc s = 0) by (destruct (Z.eqb_spec (rc s) 0); simpl in G; [assumption|lia]).
  assert (HZ : forall k p, nth_error (hs s) k = Some p -> wH p = 0).
  { intros k p E. pose proof (rc_ge _ I E). pose proof (wH_nn p). lia. }
  assert (KZ : forall k p, nth_error (ks s) k = Some p -> wK p = 0).
  { intros k p E. pose proof (rc_ge_k _ I E). pose proof (wK_nn p). lia. }
  assert (SZ : sref s = false).
  { pose proof (i_rc I). pose proof (sumz_nonneg wH (hs s) wH_nn). pose proof (sumz_nonneg wK (ks s) wK_nn).
    destruct (sref s); simpl in *; auto; lia. }
  assert (UA : up s = U0 \/ up s = UD).
  { pose proof (i_sref I) as J. rewrite SZ in J. simpl in J. pose proof (sumz_nonneg h5 (hs s) h5_nn).
    destruct (up s); simpl in *; auto; lia. }
  destruct a; simpl in U, H; try contradiction.
  - destruct (nth_error (hs s) k) as [[]|] eqn:E; try discriminate.
    pose proof (HZ _ _ E). discriminate.
  - destruct UA as [-> | ->] in H; discriminate.
  - destruct (nth_error (hs s) k) as [p|] eqn:E; [|discriminate].
    destruct (nth_error (ks s) k) as [c|] eqn:Ec; [|discriminate].
    pose proof (HZ _ _ E) as W. destruct p; simpl in *; try discriminate; try contradiction;
      pose proof (wD_nn d); lia.
  - destruct (nth_error (ks s) k) as [c|] eqn:Ec; [|discriminate].
    destruct (len_some_k _ I Ec) as [p E]. pose proof (HZ _ _ E) as W. pose proof (KZ _ _ Ec) as W'.
    pose proof (i_ok I _ E Ec) as O.
    destruct c; simpl in *; try discriminate; try contradiction; try (pose proof (wD_nn d); lia).
    destruct p; simpl in *; try discriminate; try (pose proof (wD_nn d); lia).
  - unfold u_step in H. destruct UA as [-> | ->] in H; discriminate.
Qed.

(** C32: it is destroyed at most once; and when every sender and operation state
    is gone and upstream is not running, it has been destroyed. *)
Theorem C32_freed_once s : reach s ->
  (count EFree (log s) <= 1)%nat /\
  (quiet s -> (forall k p, nth_error (hs s) k = Some p -> p = HU \/ exists c, p = HG c) ->
   ~ up_runs (log s) -> count EFree (log s) = 1%nat).
Proof.
  intros R. apply reach_inv in R. rename R into I. pose proof (i_fr I) as G. split.
  - destruct (rc s =? 0); simpl in G; lia.
  - intros Q N UR.
    assert (HZ : forall w : hpc -> Z, w HU = 0 -> (forall c, w (HG c) = 0) -> sumz w (hs s) = 0).
    { intros w A B. apply sumz_zero. intros x Hx. apply In_nth_error in Hx. destruct Hx as [k Hk].
      destruct (N _ _ Hk) as [-> |[c ->]]; auto. }
    assert (KZ : sumz wK (ks s) = 0).
    { apply sumz_zero. intros x Hx. apply In_nth_error in Hx. destruct Hx as [k Hk].
      destruct (quiet_k _ Q Hk) as [-> |[-> | ->]]; reflexivity. }
    assert (U : up s = U0 \/ up s = UD).
    { destruct (quiet_u I Q) as [U|[U|U]]; auto. exfalso. apply UR. split.
      - apply count_in. pose proof (i_us I) as J. rewrite U in J. simpl in J. lia.
      - intros J. apply ups_in in J. rewrite (i_up I), U in J. simpl in J. lia. }
    assert (S0 : sref s = false).
    { pose proof (i_sref I) as J. rewrite (HZ h5) in J by reflexivity.
      destruct U as [U|U]; rewrite U in J; destruct (sref s); simpl in J; auto; lia. }
    pose proof (i_rc I) as J. rewrite (HZ wH), KZ, S0 in J by reflexivity. simpl in J.
    rewrite J in G. simpl in G. lia.
Qed.

(** C32: the stop callback and the notification of a consumer run only while its
    operation is started and not completed (so, not destroyed). *)
Theorem C32_op_alive s a s' k : reach s -> step a s = Some s' ->
  (a = AK k \/ (a = AU /\ exists ws, up s = UC k ws \/ up s = UN (k :: ws))) ->
  count (EStart k) (log s) = 1%nat /\ comps k (log s) = 0%nat.
Proof.
  intros R H A. apply reach_inv in R. rename R into I. rewrite (i_st I), (i_cp I).
  destruct A as [-> |[-> [ws U]]].
  - simpl in H. destruct (nth_error (ks s) k) as [c|] eqn:Ec; [|discriminate].
    destruct (len_some_k _ I Ec) as [p E]. pose proof (i_ok I _ E Ec) as O. rewrite E.
    destruct c; simpl in H; try discriminate; destruct p; simpl in *; try discriminate; auto.
  - assert (E : nth_error (hs s) k = Some HQ).
    { apply (in_u _ I). destruct U as [U|U]; rewrite U; left; reflexivity. }
    rewrite E. auto.
Qed.

(** ** Stop requests to upstream *)

(** Handle [k] is being abandoned, at [d]. *)
Definition detaching (s : state) (k : nat) (d : dpc) : Prop :=
  nth_error (hs s) k = Some (HF d) \/ (exists c, nth_error (hs s) k = Some (HD c d)) \/
  nth_error (ks s) k = Some (KDet d).

Lemma stopreq_flip a s s' : step a s = Some s' -> stopreq s = false -> stopreq s' = true ->
  exists k, detaching s k (D2 true) /\ rc s = 3.
Proof.
  intros H F T. destruct a; simpl in H.
  - destruct (nth_error (hs s) k) as [[]|]; try discriminate; injection H as <-; simpl in T; congruence.
  - destruct (nth_error (hs s) k) as [[]|]; try discriminate; injection H as <-; simpl in T; congruence.
  - destruct (nth_error (hs s) k) as [[]|]; try discriminate; injection H as <-; simpl in T; congruence.
  - destruct (nth_error (hs s) k) as [[]|]; try discriminate;
    destruct (nth_error (hs s) k') as [[]|]; try discriminate; injection H as <-; simpl in T; congruence.
  - destruct (nth_error (ks s) k) as [[]|]; try discriminate; injection H as <-; simpl in T; congruence.
  - destruct (up s); try discriminate; injection H as <-; simpl in T; congruence.
  - destruct (nth_error (hs s) k) as [p|] eqn:Hp; try discriminate.
    destruct (nth_error (ks s) k) as [c|] eqn:Hc; try discriminate. exists k. unfold detaching. rewrite Hp.
    destruct p; simpl in H; try discriminate H;
      try (destruct d as [|[]|[]|]; unfold release in H; simpl in H); try rewrite F in H;
      repeat match type of H with
      | context [Z.eqb ?a ?b] => destruct (Z.eqb_spec a b)
      | context [if ?b then _ else _] => destruct b
      | context [match waiters ?s with _ => _ end] => destruct (waiters s)
      | context [match reset ?s with _ => _ end] => destruct (reset s)
      end; try discriminate H; injection H as <-; unfold release in T; simpl in T;
      try destruct (rc s - 1 =? 0); simpl in T; try congruence; eauto.
  - destruct (nth_error (ks s) k) as [c|] eqn:Hc; try discriminate. exists k. unfold detaching. rewrite Hc.
    destruct c; simpl in H; try discriminate H;
      try (destruct d as [|[]|[]|]; unfold release in H; simpl in H); try rewrite F in H;
      repeat match type of H with
      | context [Z.eqb ?a ?b] => destruct (Z.eqb_spec a b)
      | context [if ?b then _ else _] => destruct b
      | context [match waiters ?s with _ => _ end] => destruct (waiters s)
      end; try discriminate H; injection H as <-; unfold release in T; simpl in T;
      try destruct (rc s - 1 =? 0); simpl in T; try congruence; eauto.
  - unfold u_step in H. destruct (up s) as [| | |[|j ws]|j ws| |]; try discriminate H.
    + destruct (waiters s); [|discriminate]. injection H as <-; simpl in T; congruence.
    + injection H as <-; simpl in T; congruence.
    + destruct (nth_error (ks s) j); [|discriminate]. destruct (reset k); [|discriminate].
      injection H as <-; simpl in T; congruence.
    + injection H as <-; simpl in T; congruence.
    + unfold release in H; simpl in H. destruct (rc s - 1 =? 0); injection H as <-; simpl in T; congruence.
Qed.

(** The references of handle [k], its callback included. *)
Lemma det_weight s k d : inv s -> detaching s k d ->
  exists p c, nth_error (hs s) k = Some p /\ nth_error (ks s) k = Some c /\ wH p + wK c = wD d.
Proof.
  intros I [H|[[b H]|H]].
  - destruct (len_some _ I H) as [c Hc]. exists (HF d), c. repeat (split; [assumption|]).
    pose proof (i_ok I _ H Hc) as O. destruct c; try discriminate; simpl; lia.
  - destruct (len_some _ I H) as [c Hc]. exists (HD b d), c. repeat (split; [assumption|]).
    pose proof (i_ok I _ H Hc) as O. destruct c; try discriminate; simpl; lia.
  - destruct (len_some_k _ I H) as [p Hp]. exists p, (KDet d). repeat (split; [assumption|]).
    pose proof (i_ok I _ Hp H) as O. destruct p; try discriminate; simpl; lia.
Qed.

(** With [sref] and a handle weighing all the rest, the others hold nothing. *)
Lemma others_zero s k d : inv s -> detaching s k d -> rc s = wD d + b2z (sref s) ->
  forall j, j <> k -> (forall p, nth_error (hs s) j = Some p -> wH p = 0) /\
                      (forall c, nth_error (ks s) j = Some c -> wK c = 0).
Proof.
  intros I D E j N. destruct (det_weight I D) as (p & c & Hp & Hc & W).
  pose proof (i_rc I) as G. pose proof (sumz_ge _ _ wH_nn _ Hp). pose proof (sumz_ge _ _ wK_nn _ Hc).
  split; intros q Hq.
  - pose proof (sumz_ge2 _ _ wH_nn N Hq Hp). pose proof (wH_nn q). lia.
  - pose proof (sumz_ge2 _ _ wK_nn N Hq Hc). pose proof (wK_nn q). lia.
Qed.

(** C32: upstream is asked to stop only when it is of no use to anybody: it has
    completed already; or there is no sender and no unstarted operation left, and
    every started consumer has itself been asked to stop. *)
Theorem C32_stop_only_when_unwanted s a s' : reach s -> step a s = Some s' ->
  stopreq s = false -> stopreq s' = true ->
  completed_up (log s) \/
  (forall k, nth_error (hs s) k <> Some HS) /\ (forall k, In (EStart k) (log s) -> In (EReq k) (log s)).
Proof.
  intros R H F T. apply reach_inv in R. rename R into I.
  destruct (stopreq_flip _ _ H F T) as (k & D & R3).
  assert (CU : up s = UD -> completed_up (log s)).
  { intros U. apply ups_in. rewrite (i_up I), U. simpl. lia. }
  assert (SR : sref s = true \/ up s = UD).
  { destruct D as [D|[[c D]|D]]; [exact (i_ph I _ D eq_refl)|exact (i_ph I _ D eq_refl)|exact (i_pk I _ D eq_refl)]. }
  destruct SR as [SR|SR]; [|left; auto].
  assert (OZ := @others_zero _ _ _ I D). rewrite SR in OZ. specialize (OZ R3).
  destruct (Nat.eq_dec (fUp (up s)) 0) as [U0|U0]; [|left; apply ups_in; rewrite (i_up I); lia].
  right. split.
  - intros j E. destruct (Nat.eq_dec j k) as [-> |N].
    + destruct D as [D|[[c D]|D]]; try congruence. pose proof (i_ok I _ E D). discriminate.
    + destruct (OZ j N) as [A _]. specialize (A _ E). discriminate.
  - intros j St. apply count_in in St. rewrite (i_st I) in St. apply count_in. rewrite (i_rq I).
    destruct (nth_error (hs s) j) as [p|] eqn:E; [|simpl in St; lia].
    destruct (len_some _ I E) as [c Ec]. rewrite Ec. pose proof (i_ok I _ E Ec) as O.
    assert (CC : (0 < fC (Some p))%nat -> (0 < fR (Some c))%nat).
    { intros C. rewrite <- E, <- (i_cp I) in C. apply comps_in in C. destruct C as [r C].
      destruct (i_vl I _ _ C) as [[_ V]|V].
      - apply count_in in V. rewrite (i_rq I), Ec in V. exact V.
      - assert (0 < ups (log s))%nat as X by (apply ups_in; eexists; eauto). rewrite (i_up I) in X. lia. }
    destruct (Nat.eq_dec j k) as [-> |N].
    + destruct D as [D|[[b D]|D]].
      * rewrite E in D; injection D as ->. destruct c; simpl in O; try discriminate; simpl; lia.
      * rewrite E in D; injection D as ->. destruct b; simpl in St; [apply CC; simpl; lia|lia].
      * rewrite Ec in D; injection D as ->. simpl. lia.
    + destruct (OZ j N) as [A _]. specialize (A _ E).
      destruct p as [| | | | | | | | | | | | | |d0| |b d0|b]; simpl in A, St; try lia; try (pose proof (wD_nn d0); lia).
      * destruct c; simpl in O; try discriminate; simpl; lia.
      * destruct c; simpl in O; try discriminate; simpl; lia.
      * destruct b; [apply CC; simpl; lia|lia].
Qed.

(** Handle [j] holds no reference to the shared state. *)
Definition holds_none (s : state) (j : nat) : Prop :=
  (forall p, nth_error (hs s) j = Some p -> wH p = 0) /\
  (forall c, nth_error (ks s) j = Some c -> wK c = 0).

(** All ways a step can go, as effects on the lists. *)
Ltac crack H :=
  match type of H with step ?a ?s = Some _ => destruct a; simpl in H end;
  [ match type of H with context [nth_error (hs ?s) ?k] =>
      let Hp := fresh "Hp" in destruct (nth_error (hs s) k) as [[]|] eqn:Hp; try discriminate H; injection H as <- end
  | match type of H with context [nth_error (hs ?s) ?k] =>
      let Hp := fresh "Hp" in destruct (nth_error (hs s) k) as [[]|] eqn:Hp; try discriminate H; injection H as <- end
  | match type of H with context [nth_error (hs ?s) ?k] =>
      let Hp := fresh "Hp" in destruct (nth_error (hs s) k) as [[]|] eqn:Hp; try discriminate H; injection H as <- end
  | match type of H with context [nth_error (hs ?s) ?k] =>
      let Hk := fresh "Hk" in destruct (nth_error (hs s) k) as [[]|] eqn:Hk; try discriminate H end;
    match type of H with context [nth_error (hs ?s) ?k] =>
      let Hp := fresh "Hp" in destruct (nth_error (hs s) k) as [[]|] eqn:Hp; try discriminate H; injection H as <- end
  | match type of H with context [nth_error (ks ?s) ?k] =>
      let Hc := fresh "Hc" in destruct (nth_error (ks s) k) as [[]|] eqn:Hc; try discriminate H; injection H as <- end
  | match type of H with context [up ?s] =>
      let U := fresh "U" in destruct (up s) eqn:U; try discriminate H; injection H as <- end
  | match type of H with context [nth_error (hs ?s) ?k] =>
      let Hp := fresh "Hp" in let Hc := fresh "Hc" in
      destruct (nth_error (hs s) k) as [[| | | | | | | | | | | | | |d| |cc d|cc]|] eqn:Hp; try discriminate H;
      destruct (nth_error (ks s) k) as [c|] eqn:Hc; try discriminate H end
  | match type of H with context [nth_error (ks ?s) ?k] =>
      let Hc := fresh "Hc" in destruct (nth_error (ks s) k) as [[| | | |d|]|] eqn:Hc; try discriminate H end
  | ].

Lemma release_fields s : hs (release s) = hs s /\ ks (release s) = ks s /\ up (release s) = up s /\
  sref (release s) = sref s /\ stopreq (release s) = stopreq s.
Proof. unfold release; simpl. destruct (rc s - 1 =? 0); simpl; auto 6. Qed.

Lemma det_fields d s s' r : det_step d s = (s', r) ->
  hs s' = hs s /\ ks s' = ks s /\ up s' = up s /\ sref s' = sref s /\
  (stopreq s = true -> stopreq s' = true) /\
  match d with
  | D1 => r = Some (D2 (sref s))
  | D2 b => r = Some (D3 b) /\ (b = true -> rc s = 3 -> stopreq s' = true)
  | D3 b => r = Some D4
  | D4 => r = None
  end.
Proof.
  destruct (release_fields s) as (A & B & C & D & E).
  destruct d as [|b|b|]; simpl; intros H.
  - destruct (sref s) eqn:Es; injection H as <- <-; simpl; auto 8.
  - destruct b; simpl in H; [|injection H as <- <-; auto 9].
    + destruct (Z.eqb_spec (rc s) 3); simpl in H.
      * destruct (stopreq s) eqn:Er; injection H as <- <-; simpl; auto 9.
      * injection H as <- <-; intuition congruence.
    + intuition congruence.
  - destruct b; injection H as <- <-; intuition congruence.
  - injection H as <- <-. intuition congruence.
Qed.

Lemma stop_mono a s s' : step a s = Some s' -> stopreq s = true -> stopreq s' = true.
Proof.
  intros H T. crack H; simpl; auto.
  all: try (simpl in H); try match type of H with context [det_step ?d ?s] =>
    destruct (det_step d s) as [s1 r] eqn:D; destruct (det_fields _ _ D) as (_ & _ & _ & _ & M & _) end.
  all: simpl in H; try (injection H as <-; simpl; auto; fail).
  - destruct (flag s); injection H as <-; auto.
  - destruct (sref s); injection H as <-; auto.
  - rewrite T in H; injection H as <-; auto.
  - destruct (waiters s); [destruct (stop_requested c)|]; injection H as <-; auto.
  - destruct (reset c); [injection H as <-; auto|discriminate].
  - destruct (reset c); [injection H as <-; auto|discriminate].
  - destruct (waiters s); [destruct (in_dec Nat.eq_dec k l)|]; injection H as <-; auto.
  - unfold u_step in H. destruct (up s) as [| | |[|j ws]|j ws| |]; try discriminate H.
    + destruct (waiters s); [|discriminate]. injection H as <-; auto.
    + injection H as <-; auto.
    + destruct (nth_error (ks s) j); [|discriminate]. destruct (reset k); [|discriminate]. injection H as <-; auto.
    + injection H as <-; auto.
    + injection H as <-. destruct (release_fields (set_sref (set_up s UD) false)) as (_ & _ & _ & _ & E).
      rewrite E. exact T.
Qed.

Lemma sref_back a s s' : step a s = Some s' -> (forall j, nth_error (hs s) j <> Some H4) ->
  sref s' = true -> sref s = true.
Proof.
  intros H N T. crack H; simpl in T; auto.
  all: try (simpl in H); try match type of H with context [det_step ?d ?s] =>
    destruct (det_step d s) as [s1 r] eqn:D; destruct (det_fields _ _ D) as (_ & _ & _ & M & _) end.
  all: simpl in H; try (injection H as <-; simpl in T; congruence).
  - destruct (flag s); injection H as <-; auto.
  - exfalso; eapply N; eauto.
  - destruct (stopreq s); injection H as <-; auto.
  - destruct (waiters s); [destruct (stop_requested c)|]; injection H as <-; auto.
  - destruct (reset c); [injection H as <-; auto|discriminate].
  - destruct (reset c); [injection H as <-; auto|discriminate].
  - destruct (waiters s); [destruct (in_dec Nat.eq_dec k l)|]; injection H as <-; auto.
  - unfold u_step in H. destruct (up s) as [| | |[|j ws]|j ws| |]; try discriminate H.
    + destruct (waiters s); [|discriminate]. injection H as <-; auto.
    + injection H as <-; auto.
    + destruct (nth_error (ks s) j); [|discriminate]. destruct (reset k); [|discriminate]. injection H as <-; auto.
    + injection H as <-; auto.
    + injection H as <-. destruct (release_fields (set_sref (set_up s UD) false)) as (_ & _ & _ & E & _).
      rewrite E in T. discriminate.
Qed.

Ltac ends_u H :=
  unfold u_step in H;
  match type of H with context [up ?s] => destruct (up s) as [| | |[|j0 ws]|j0 ws| |] eqn:U0; try discriminate H end;
  [ match type of H with context [waiters ?s] => destruct (waiters s); [|discriminate H] end; injection H as <-
  | injection H as <-
  | match type of H with context [nth_error (ks ?s) ?j] => destruct (nth_error (ks s) j) as [c0|] eqn:Hc0; [|discriminate H];
      destruct (reset c0) eqn:Rs; [|discriminate H]; injection H as <- end
  | injection H as <-
  | injection H as <- ].

Lemma zero_upd_h s k q j p : nth_error (hs s) k = Some p -> holds_none s j -> (j = k -> wH q = 0) ->
  forall x, nth_error (upd (hs s) k q) j = Some x -> wH x = 0.
Proof.
  intros Hp [A B] C x E. rewrite (nth_upd _ _ _ _ Hp) in E. destruct (Nat.eqb_spec k j); subst.
  - injection E as <-. auto.
  - auto.
Qed.
Lemma zero_upd_k s k q j p : nth_error (ks s) k = Some p -> holds_none s j -> (j = k -> wK q = 0) ->
  forall x, nth_error (upd (ks s) k q) j = Some x -> wK x = 0.
Proof.
  intros Hp [A B] C x E. rewrite (nth_upd _ _ _ _ Hp) in E. destruct (Nat.eqb_spec k j); subst.
  - injection E as <-. auto.
  - auto.
Qed.

Lemma reset_w c c' : reset c = Some c' -> wK c' = 0.
Proof. destruct c; simpl; intros H; try discriminate; injection H as <-; reflexivity. Qed.

Lemma zero_step a s s' j : inv s -> step a s = Some s' -> (forall i, nth_error (hs s) i <> Some HS) ->
  holds_none s j -> holds_none s' j.
Proof.
  intros I H N Z0. pose proof Z0 as [ZA ZB].
  assert (NW : forall p, nth_error (hs s) j = Some p -> 0 < wH p -> False)
    by (intros p Hp W; specialize (ZA _ Hp); lia).
  crack H; try (exfalso; eapply N; eassumption).
  - split; simpl; [|exact ZB]. eapply zero_upd_h; eauto. intros ->. exfalso. eapply NW; eauto. simpl; lia.
  - split; simpl; [exact ZA|]. eapply zero_upd_k; eauto.
  - split; simpl; [exact ZA|]. eapply zero_upd_k; eauto.
  - split; simpl; [exact ZA|exact ZB].
  - simpl in H; injection H as <-. split; simpl.
    + eapply zero_upd_h; eauto. intros ->. exfalso. eapply NW; eauto. simpl; lia.
    + eapply zero_upd_k; eauto. intros ->. exfalso. eapply NW; eauto. simpl; lia.
  - simpl in H; injection H as <-. split; simpl; [|exact ZB].
    eapply zero_upd_h; eauto. intros ->. exfalso. eapply NW; eauto. simpl; lia.
  - simpl in H. destruct (flag s); injection H as <-; (split; simpl; [|exact ZB]);
      (eapply zero_upd_h; eauto; intros ->; exfalso; eapply NW; eauto; simpl; lia).
  - simpl in H. destruct (sref s); injection H as <-; (split; simpl; [|exact ZB]);
      (eapply zero_upd_h; eauto; intros ->; exfalso; eapply NW; eauto; simpl; lia).
  - simpl in H. destruct (stopreq s); injection H as <-; (split; simpl; [|exact ZB]);
      (eapply zero_upd_h; eauto; intros ->; exfalso; eapply NW; eauto; simpl; lia).
  - simpl in H. destruct (waiters s); [destruct (stop_requested c)|]; injection H as <-;
      (split; simpl; [|exact ZB]);
      (eapply zero_upd_h; eauto; intros ->; exfalso; eapply NW; eauto; simpl; lia).
  - simpl in H. destruct (reset c) eqn:Rs; [|discriminate]. injection H as <-. split; simpl.
    + eapply zero_upd_h; eauto; intros ->; exfalso; eapply NW; eauto; simpl; lia.
    + eapply zero_upd_k; eauto. intros _. eapply reset_w; eauto.
  - simpl in H. injection H as <-; split; simpl; [|exact ZB].
    eapply zero_upd_h; eauto; intros ->; exfalso; eapply NW; eauto; simpl; lia.
  - simpl in H. destruct (reset c) eqn:Rs; [|discriminate]. injection H as <-. split; simpl.
    + eapply zero_upd_h; eauto; intros ->; exfalso; eapply NW; eauto; simpl; lia.
    + eapply zero_upd_k; eauto. intros _. eapply reset_w; eauto.
  - simpl in H. destruct (det_step d s) as [s1 r] eqn:D. destruct (det_fields _ _ D) as (EH & EK & _).
    injection H as <-. split; simpl; rewrite ?EH, ?EK; [|exact ZB].
    eapply zero_upd_h; eauto. intros ->. exfalso. eapply NW; eauto. simpl. apply wD_nn.
  - simpl in H. injection H as <-; split; simpl; [|exact ZB]. eapply zero_upd_h; eauto.
  - simpl in H. destruct (det_step d s) as [s1 r] eqn:D. destruct (det_fields _ _ D) as (EH & EK & _).
    injection H as <-. split; simpl; rewrite ?EH, ?EK; [|exact ZB].
    eapply zero_upd_h; eauto. intros ->. exfalso. eapply NW; eauto. simpl. apply wD_nn.
  - simpl in H. destruct (len_some_k _ I Hc) as [p Hp]. pose proof (i_ok I _ Hp Hc) as O.
    assert (NJ : j <> k).
    { intros ->. destruct p; simpl in O; try discriminate; eapply NW; eauto; simpl; lia. }
    destruct (waiters s); [destruct (in_dec Nat.eq_dec k l)|]; injection H as <-; split; simpl; try exact ZA;
      try (eapply zero_upd_h; eauto; intros; contradiction);
      try (eapply zero_upd_k; eauto; intros; contradiction).
  - simpl in H. destruct (det_step d s) as [s1 r] eqn:D. destruct (det_fields _ _ D) as (EH & EK & _).
    injection H as <-. split; simpl; rewrite ?EH, ?EK; [exact ZA|].
    eapply zero_upd_k; eauto. intros ->. exfalso. specialize (ZB _ Hc). simpl in ZB. pose proof (wD_nn d). lia.
  - simpl in H. destruct (len_some_k _ I Hc) as [p Hp]. injection H as <-. split; simpl.
    + eapply zero_upd_h; eauto.
    + eapply zero_upd_k; eauto.
  - ends_u H; split; simpl; try exact ZA; try exact ZB.
    + eapply zero_upd_k; eauto. intros _. eapply reset_w; eauto.
    + pose proof (uc_hq I U0) as Hq. eapply zero_upd_h; eauto. intros ->. exfalso. eapply NW; eauto. simpl; lia.
    + destruct (release_fields (set_sref (set_up s UD) false)) as (E & _). rewrite E. exact ZA.
    + destruct (release_fields (set_sref (set_up s UD) false)) as (_ & E & _). rewrite E. exact ZB.
Qed.

Definition hdet (l : list hpc) (k : nat) (d : dpc) : Prop :=
  nth_error l k = Some (HF d) \/ exists c, nth_error l k = Some (HD c d).
Definition kdet (l : list kpc) (k : nat) (d : dpc) : Prop := nth_error l k = Some (KDet d).

Lemma hdet_upd l k d j q p : nth_error l j = Some p -> (forall d, p <> HF d) -> (forall c d, p <> HD c d) ->
  hdet l k d -> hdet (upd l j q) k d.
Proof.
  intros Hp N1 N2 [E|[c E]]; unfold hdet; rewrite (nth_upd _ _ _ _ Hp); destruct (Nat.eqb_spec j k); subst; eauto;
    rewrite Hp in E; injection E as ->; exfalso; [eapply N1|eapply N2]; reflexivity.
Qed.
Lemma kdet_upd l k d j q p : nth_error l j = Some p -> (forall d, p <> KDet d) ->
  kdet l k d -> kdet (upd l j q) k d.
Proof.
  intros Hp N1 E. unfold kdet in *. rewrite (nth_upd _ _ _ _ Hp). destruct (Nat.eqb_spec j k); subst; eauto.
  rewrite Hp in E; injection E as ->; exfalso; eapply N1; reflexivity.
Qed.

Lemma det_case a s s' k e : inv s -> detaching s k e -> step a s = Some s' ->
  detaching s' k e \/
  match e with
  | D1 => detaching s' k (D2 (sref s))
  | D2 b => detaching s' k (D3 b) /\ (b = true -> rc s = 3 -> stopreq s' = true)
  | D3 b => detaching s' k D4
  | D4 => holds_none s' k
  end.
Proof.
  intros I D H.
  assert (DD : hdet (hs s) k e \/ kdet (ks s) k e) by (destruct D as [D|[D|D]]; unfold hdet, kdet; eauto).
  assert (K : forall s', hdet (hs s') k e \/ kdet (ks s') k e -> detaching s' k e)
    by (intros s0 [[E|E]|E]; unfold detaching; auto).
  crack H.
  all: try (left; apply K; simpl; destruct DD as [DD|DD]; [left|right]; auto;
            (eapply hdet_upd || eapply kdet_upd); eauto; discriminate).
  all: try (simpl in H; injection H as <-; left; apply K; simpl; destruct DD as [DD|DD]; [left|right]; auto;
            (eapply hdet_upd || eapply kdet_upd); eauto; discriminate).

  all: try match type of H with context [h_step ?k ?p ?c ?s] =>
    match goal with Hp : nth_error (hs s) k = Some p, Hc : nth_error (ks s) k = Some c |- _ =>
      pose proof (i_ok I _ Hp Hc) as O end end.
  - simpl in H; injection H as <-; left; apply K; simpl; destruct DD as [DD|DD]; [left|right].
    + eapply hdet_upd; eauto; discriminate.
    + eapply kdet_upd; eauto. intros d0 ->. discriminate.
  - simpl in H. destruct (flag s); injection H as <-; left; apply K; simpl; destruct DD as [DD|DD]; [left|right|left|right]; auto;
      eapply hdet_upd; eauto; discriminate.
  - simpl in H. destruct (sref s); injection H as <-; left; apply K; simpl; destruct DD as [DD|DD]; [left|right|left|right]; auto;
      eapply hdet_upd; eauto; discriminate.
  - simpl in H. destruct (stopreq s); injection H as <-; left; apply K; simpl; destruct DD as [DD|DD]; [left|right|left|right]; auto;
      eapply hdet_upd; eauto; discriminate.
  - simpl in H. destruct (waiters s); [destruct (stop_requested c)|]; injection H as <-; left; apply K; simpl;
      destruct DD as [DD|DD]; [left|right|left|right|left|right]; auto; eapply hdet_upd; eauto; discriminate.
  - simpl in H. destruct (reset c) eqn:Rs; [|discriminate]. injection H as <-; left; apply K; simpl.
    destruct DD as [DD|DD]; [left|right].
    + eapply hdet_upd; eauto; discriminate.
    + eapply kdet_upd; eauto. intros d0 ->. discriminate.
  - simpl in H. destruct (reset c) eqn:Rs; [|discriminate]. injection H as <-; left; apply K; simpl.
    destruct DD as [DD|DD]; [left|right].
    + eapply hdet_upd; eauto; discriminate.
    + eapply kdet_upd; eauto. intros d0 ->. discriminate.
  - (* HF *)
    simpl in H. destruct (det_step d s) as [s1 r] eqn:DS. destruct (det_fields _ _ DS) as (EH & EK & _ & _ & _ & F).
    injection H as <-.
    destruct (Nat.eq_dec k0 k) as [-> |N].
    + assert (e = d).
      { destruct DD as [[E|[x E]]|E]; [congruence|congruence|]. unfold kdet in E. rewrite Hc in E. injection E as ->.
        discriminate. }
      subst e. right.
      assert (G : nth_error (hs (set_h s1 k (match r with Some d' => HF d' | None => HFc end))) k
                  = Some (match r with Some d' => HF d' | None => HFc end))
        by (simpl; rewrite EH; eapply nth_upd_same; eauto).
      destruct d as [|b|b|]; [subst r|destruct F as [-> F]|subst r|subst r]; unfold detaching; auto.
      split; [intros p E; rewrite G in E; injection E as <-; reflexivity|].
      simpl; rewrite EK. intros x E. rewrite Hc in E. injection E as <-. simpl in O. destruct c; try discriminate; reflexivity.
    + left. apply K. simpl. rewrite EH, EK. unfold hdet. rewrite nth_upd_other by exact N. exact DD.
  - (* HD *)
    simpl in H. destruct (det_step d s) as [s1 r] eqn:DS. destruct (det_fields _ _ DS) as (EH & EK & _ & _ & _ & F).
    injection H as <-.
    destruct (Nat.eq_dec k0 k) as [-> |N].
    + assert (e = d).
      { destruct DD as [[E|[x E]]|E]; [congruence|congruence|]. unfold kdet in E. rewrite Hc in E. injection E as ->.
        discriminate. }
      subst e. right.
      assert (G : nth_error (hs (set_h s1 k (match r with Some d' => HD cc d' | None => HG cc end))) k
                  = Some (match r with Some d' => HD cc d' | None => HG cc end))
        by (simpl; rewrite EH; eapply nth_upd_same; eauto).
      destruct d as [|b|b|]; [subst r|destruct F as [-> F]|subst r|subst r]; unfold detaching; eauto 6.
      split; [intros p E; rewrite G in E; injection E as <-; reflexivity|].
      simpl; rewrite EK. intros x E. rewrite Hc in E. injection E as <-. simpl in O. destruct c; try discriminate; reflexivity.
    + left. apply K. simpl. rewrite EH, EK. unfold hdet. rewrite nth_upd_other by exact N. exact DD.
  - (* KRun *)
    simpl in H. left. apply K. destruct (len_some_k _ I Hc) as [p Hp].
    destruct (waiters s) eqn:Eq; [destruct (in_dec Nat.eq_dec k0 l) as [Hi|Hi]|]; injection H as <-; simpl;
      (destruct DD as [DD|DD]; [left|right]); auto; try (eapply kdet_upd; eauto; discriminate).
    assert (nth_error (hs s) k0 = Some HQ) by (apply (in_w _ I); rewrite Eq; exact Hi).
    eapply hdet_upd; eauto; discriminate.
  - (* KDet *)
    simpl in H. destruct (det_step d s) as [s1 r] eqn:DS. destruct (det_fields _ _ DS) as (EH & EK & _ & _ & _ & F).
    injection H as <-.
    destruct (Nat.eq_dec k0 k) as [-> |N].
    + destruct (len_some_k _ I Hc) as [p Hp]. pose proof (i_ok I _ Hp Hc) as O.
      assert (p = HX) by (destruct p; simpl in O; try discriminate; reflexivity). subst p.
      assert (e = d).
      { destruct DD as [[E|[x E]]|E]; [congruence|congruence|]. unfold kdet in E. congruence. }
      subst e. right.
      assert (G : nth_error (ks (set_k s1 k (match r with Some d' => KDet d' | None => KFin end))) k
                  = Some (match r with Some d' => KDet d' | None => KFin end))
        by (simpl; rewrite EK; eapply nth_upd_same; eauto).
      destruct d as [|b|b|]; [subst r|destruct F as [-> F]|subst r|subst r]; unfold detaching; eauto 6.
      split; [|intros x E; rewrite G in E; injection E as <-; reflexivity].
      simpl; rewrite EH. intros x E. rewrite Hp in E. injection E as <-. reflexivity.
    + left. apply K. simpl. rewrite EH, EK. unfold kdet. rewrite nth_upd_other by exact N. exact DD.
  - (* KFin *)
    simpl in H. injection H as <-. destruct (len_some_k _ I Hc) as [p Hp]. pose proof (i_ok I _ Hp Hc) as O.
    left. apply K. simpl. destruct DD as [DD|DD]; [left|right].
    + eapply hdet_upd; eauto; intros; intros ->; discriminate.
    + eapply kdet_upd; eauto. discriminate.
  - left. apply K. ends_u H; simpl.
    + exact DD.
    + exact DD.
    + destruct DD as [DD|DD]; [left; auto|right]. eapply kdet_upd; eauto. intros d0 ->. discriminate.
    + pose proof (uc_hq I U0) as Hq. destruct DD as [DD|DD]; [left|right; auto].
      eapply hdet_upd; eauto; discriminate.
    + destruct (release_fields (set_sref (set_up s UD) false)) as (E1 & E2 & _). rewrite E1, E2. exact DD.
Qed.

(** From now on handle [k], the last one, is abandoned or has been. *)
Record last_phase (s : state) (k : nat) : Prop := {
  lp_inv : inv s;
  lp_oth : forall j, j <> k -> holds_none s j;
  lp_k : (exists d, detaching s k d /\
            match d with
            | D1 => True
            | D2 b => sref s = true -> b = true
            | D3 _ | D4 => sref s = true -> stopreq s = true
            end)
         \/ (holds_none s k /\ (sref s = true -> stopreq s = true))
}.

Lemma lp_none s k j p : last_phase s k -> nth_error (hs s) j = Some p -> wH p = 0 \/ (exists d, p = HF d) \/ exists c d, p = HD c d.
Proof.
  intros L Hp. destruct (Nat.eq_dec j k) as [-> |N].
  - destruct (lp_k L) as [(d & D & _)|[[A _] _]]; [|left; auto].
    destruct D as [E|[[c E]|E]]; rewrite ?Hp in E.
    + injection E as ->; eauto.
    + injection E as ->; eauto 6.
    + left. pose proof (i_ok (lp_inv L) _ Hp E) as O. destruct p; try discriminate; reflexivity.
  - left. destruct (lp_oth L N) as [A _]. auto.
Qed.

Lemma lp_step a s s' k : last_phase s k -> step a s = Some s' -> last_phase s' k.
Proof.
  intros L H. pose proof (lp_inv L) as I.
  assert (NS : forall i, nth_error (hs s) i <> Some HS).
  { intros i E. destruct (lp_none _ L E) as [Q|[[d Q]|(c & d & Q)]]; discriminate. }
  assert (N4 : forall i, nth_error (hs s) i <> Some H4).
  { intros i E. destruct (lp_none _ L E) as [Q|[[d Q]|(c & d & Q)]]; discriminate. }
  pose proof (@sref_back _ _ _ H N4) as SB. pose proof (@stop_mono _ _ _ H) as SM.
  split.
  - eapply step_inv; eauto.
  - intros j N. eapply zero_step; eauto. apply (lp_oth L N).
  - destruct (lp_k L) as [(d & D & P)|[Z0 P]].
    + destruct (det_case _ I D H) as [D'|D'].
      * left. exists d. split; [exact D'|]. destruct d; auto.
      * destruct d as [|b|b|].
        -- left. exists (D2 (sref s)). split; [exact D'|]. auto.
        -- destruct D' as [D' F]. left. exists (D3 b). split; [exact D'|]. intros S1.
           pose proof (SB S1) as S0. specialize (P S0). subst b. apply F; [reflexivity|].
           destruct (det_weight I D) as (p & c & Hp & Hc & W).
           rewrite (i_rc I), S0. simpl in W.
           assert (OW : sumz wH (hs s) = wH p).
           { pose proof (@sumz_upd _ wH _ _ HU _ Hp) as E. 
             assert (sumz wH (upd (hs s) k HU) = 0); [|simpl in *; lia].
             apply sumz_zero. intros x Hx. apply In_nth_error in Hx. destruct Hx as [j Hj].
             rewrite (nth_upd _ _ _ _ Hp) in Hj. destruct (Nat.eqb_spec k j); [injection Hj as <-; reflexivity|].
             destruct (@lp_oth _ _ L j) as [A _]; auto. }
           assert (OWK : sumz wK (ks s) = wK c).
           { pose proof (@sumz_upd _ wK _ _ KNone _ Hc) as E. 
             assert (sumz wK (upd (ks s) k KNone) = 0); [|simpl in *; lia].
             apply sumz_zero. intros x Hx. apply In_nth_error in Hx. destruct Hx as [j Hj].
             rewrite (nth_upd _ _ _ _ Hc) in Hj. destruct (Nat.eqb_spec k j); [injection Hj as <-; reflexivity|].
             destruct (@lp_oth _ _ L j) as [_ A]; auto. }
           simpl. lia.
        -- left. exists D4. split; [exact D'|]. auto.
        -- right. split; auto.
    + right. split; [eapply zero_step; eauto|]. auto.
Qed.

Lemma lp_runs l : forall s s' k, last_phase s k -> runs l s = Some s' -> last_phase s' k.
Proof.
  induction l as [|a l IH]; simpl; intros s s' k L H; [injection H as <-; exact L|].
  destruct (step a s) as [s1|] eqn:E; [|discriminate]. eapply IH; [|exact H]. eapply lp_step; eauto.
Qed.

Lemma not_running s : inv s -> (forall j, nth_error (hs s) j <> Some H5) -> sref s = false -> ~ up_runs (log s).
Proof.
  intros I N S0 [A B]. apply count_in in A. pose proof (i_us I) as G. pose proof (i_sref I) as J.
  rewrite S0 in J. simpl in J. pose proof (sumz_nonneg h5 (hs s) h5_nn).
  apply B. apply ups_in. rewrite (i_up I). destruct (up s); simpl in *; lia.
Qed.

(** C32: if the last handle starts to be abandoned (destroyed, or cancelled by
    its stop token) when no other handle holds a reference, then once it is gone
    upstream has been asked to stop, unless it is not running. *)
Theorem C32_last_consumer_stops_upstream_partial s k l s' : reach s -> detaching s k D1 ->
  (forall j, j <> k -> holds_none s j) ->
  runs l s = Some s' -> holds_none s' k ->
  In EUpReq (log s') \/ ~ up_runs (log s').
Proof.
  intros R D O H Z0. apply reach_inv in R.
  assert (L : last_phase s k).
  { split; [exact R|exact O|]. left. exists D1. split; [exact D|exact Logic.I]. }
  pose proof (lp_runs l L H) as L'. pose proof (lp_inv L') as I'.
  assert (P : sref s' = true -> stopreq s' = true).
  { destruct (lp_k L') as [(d & D' & _)|[_ P]]; [exfalso|exact P].
    destruct (det_weight I' D') as (p & c & Hp & Hc & W). destruct Z0 as [A B].
    rewrite (A _ Hp), (B _ Hc) in W. pose proof (wD_nn d). lia. }
  destruct (sref s') eqn:Es.
  - left. apply count_in. rewrite (i_ur I'), (P eq_refl). lia.
  - right. apply (not_running I'); [|exact Es].
    intros j E. destruct (lp_none _ L' E) as [Q|[[d Q]|(c & d & Q)]]; discriminate.
Qed.

(** What is missing from the previous theorem without its hypothesis on the other
    handles: two handles abandoned at the same time each see the other's
    reference in use_count(), and nobody asks upstream to stop. *)
Definition lost_run : list action :=
  [AStart 0; AH 0; AH 0; AH 0; AH 0; AH 0; AH 0;   (* operation 0 starts upstream and waits *)
   AReq 0; AK 0; AK 0;                              (* it is cancelled: it has loaded __started_ref_ *)
   ADrop 1; AH 1; AH 1;                             (* the other sender is destroyed: looks at use_count *)
   AK 0; AK 0; AK 0; AK 0;                          (* the first looks at use_count, releases, completes *)
   AH 1; AH 1].                                     (* the second releases *)

Definition no_handle (s : state) : Prop :=
  forall k p, nth_error (hs s) k = Some p -> exists c, p = HG c.

Theorem C32_lost_stop_refuted :
  exists s, split_reach s /\ quiet s /\ no_handle s /\ up_runs (log s) /\ ~ In EUpReq (log s).
Proof.
  destruct (runs lost_run (split_init 1 0)) as [s|] eqn:E; [|vm_compute in E; discriminate].
  exists s. split; [exists 1%nat, 0%nat, lost_run; exact E|].
  vm_compute in E. injection E as <-.
  split.
  - split; [intros [|[|[|k]]]; reflexivity|]. split; [intros [|[|[|k]]]; reflexivity|reflexivity].
  - split.
    + intros [|[|[|k]]] p H; simpl in H; try discriminate; injection H as <-; eauto.
    + split.
      * split; [unfold started_up; simpl; auto 10|]. intros [r H]. simpl in H.
        repeat (destruct H as [H|H]; [discriminate|]). contradiction.
      * simpl. intros H. repeat (destruct H as [H|H]; [discriminate|]). contradiction.
Qed.

(** ** ensure_started (C33) *)

(** [es_init] is what the call leaves: a sender whose [__try_start] has run. *)
Example es_init_is_try_start :
  option_map (fun s => set_h s 0 HS)
    (runs [AH 0; AH 0; AH 0] (mk [H3] [KNone] U0 false false 1 (Some []) false RStopped []))
  = Some es_init.
Proof. vm_compute. reflexivity. Qed.

Lemma step_len a s s' : step a s = Some s' -> length (hs s') = length (hs s).
Proof.
  intros H. crack H; simpl; rewrite ?upd_length; auto.
  all: try (simpl in H); try match type of H with context [det_step ?d ?s] =>
    destruct (det_step d s) as [s1 r] eqn:D; destruct (det_fields _ _ D) as (M & _) end.
  all: simpl in H; try (injection H as <-; simpl; rewrite ?upd_length, ?M; auto; fail).
  - destruct (flag s); injection H as <-; simpl; rewrite ?upd_length; auto.
  - destruct (sref s); injection H as <-; simpl; rewrite ?upd_length; auto.
  - destruct (stopreq s); injection H as <-; simpl; rewrite ?upd_length; auto.
  - destruct (waiters s); [destruct (stop_requested c)|]; injection H as <-; simpl; rewrite ?upd_length; auto.
  - destruct (reset c); [injection H as <-; simpl; rewrite ?upd_length; auto|discriminate].
  - destruct (reset c); [injection H as <-; simpl; rewrite ?upd_length; auto|discriminate].
  - destruct (waiters s); [destruct (in_dec Nat.eq_dec k l)|]; injection H as <-; simpl; rewrite ?upd_length; auto.
  - ends_u H; simpl; rewrite ?upd_length; auto.
    destruct (release_fields (set_sref (set_up s UD) false)) as (E & _). rewrite E. reflexivity.
Qed.

(** The only handle: before it is abandoned, or in its last phase. *)
Definition es_phase (s : state) : Prop :=
  last_phase s 0 \/
  (inv s /\ length (hs s) = 1%nat /\ (forall d, ~ detaching s 0 d) /\ ~ holds_none s 0) \/
  In (EOver 0) (log s).

Lemma log_mono a s s' e : step a s = Some s' -> In e (log s) -> In e (log s').
Proof. intros H I. destruct (step_log _ _ H) as [G|[x G]]; rewrite G; [auto|right; auto]. Qed.

(** A step that makes the handle leave its life: it begins to be abandoned, or
    it is overwritten. *)
Lemma begin_step a s s' : inv s -> length (hs s) = 1%nat -> (forall d, ~ detaching s 0 d) ->
  ~ holds_none s 0 -> step a s = Some s' ->
  detaching s' 0 D1 \/ ((forall d, ~ detaching s' 0 d) /\ ~ holds_none s' 0) \/ In (EOver 0) (log s').
Proof.
  intros I LEN ND NZ H.
  destruct (hs s) as [|p0 [|? ?]] eqn:EH; try discriminate LEN.
  assert (EK : exists c, ks s = [c]).
  { pose proof (i_len I) as G. rewrite EH in G. destruct (ks s) as [|c [|? ?]]; try discriminate. eauto. }
  destruct EK as [c0 EK].
  assert (W0 : (forall d, p0 <> HF d) /\ (forall b d, p0 <> HD b d) /\ (forall d, c0 <> KDet d) /\ wH p0 <> 0).
  { repeat split.
    - intros d ->. apply (ND d). left. rewrite EH. reflexivity.
    - intros b d ->. apply (ND d). right. left. exists b. rewrite EH. reflexivity.
    - intros d ->. apply (ND d). right. right. rewrite EK. reflexivity.
    - intros W. apply NZ. split.
      + rewrite EH. intros p E. injection E as <-. exact W.
      + rewrite EK. intros p E. injection E as <-. destruct c0; try reflexivity.
        exfalso. apply (ND d). right. right. rewrite EK. reflexivity. }
  destruct W0 as (W1 & W2 & W3 & W4).
  assert (W5 : wH p0 = 1).
  { destruct p0; try reflexivity; exfalso;
      [apply W4; reflexivity|apply W4; reflexivity|eapply W1; reflexivity|apply W4; reflexivity
      |eapply W2; reflexivity|apply W4; reflexivity]. }
  clear LEN ND NZ.
  assert (I0 : forall k p, nth_error (hs s) k = Some p -> k = 0%nat /\ p = p0).
  { rewrite EH. intros [|[|k]] p E; simpl in E; try discriminate. injection E as <-. auto. }
  assert (K0 : forall k c, nth_error (ks s) k = Some c -> k = 0%nat /\ c = c0).
  { rewrite EK. intros [|[|k]] p E; simpl in E; try discriminate. injection E as <-. auto. }
  assert (O0 : ok p0 c0 = true).
  { apply (i_ok I 0%nat); [rewrite EH|rewrite EK]; reflexivity. }
  assert (L : forall t, hs t = [p0] -> ks t = [c0] -> (forall d, ~ detaching t 0 d) /\ ~ holds_none t 0).
  { intros t A B. split.
    - intros d [D|[[b D]|D]]; rewrite ?A, ?B in D; injection D as D; [eapply W1|eapply W2|eapply W3]; eauto.
    - intros [C _]. rewrite A in C. apply W4, C. reflexivity. }
  assert (M : forall t p c, hs t = [p] -> ks t = [c] -> wH p = 1 -> (forall d, p <> HF d) ->
            (forall b d, p <> HD b d) -> (forall d, c <> KDet d) ->
            (forall d, ~ detaching t 0 d) /\ ~ holds_none t 0).
  { intros t p c A B W V1 V2 V3. split.
    - intros d [D|[[b D]|D]]; rewrite ?A, ?B in D; injection D as D; [eapply V1|eapply V2|eapply V3]; eauto.
    - intros [C _]. rewrite A in C. specialize (C _ eq_refl). lia. }
  assert (LD : forall t p, hs t = [p] -> (p = HF D1 \/ exists b, p = HD b D1) -> detaching t 0 D1).
  { intros t p A [-> |[b ->]]; [left|right; left; exists b]; rewrite A; reflexivity. }
  assert (LK : forall t, ks t = [KDet D1] -> detaching t 0 D1).
  { intros t A. right; right. rewrite A. reflexivity. }
  assert (HQ0 : forall k, In k (wl (waiters s)) -> p0 = HQ).
  { intros k Hi. apply (in_w _ I) in Hi. rewrite EH in Hi. destruct k as [|[|k]]; try discriminate. injection Hi as ->. reflexivity. }
  assert (HU0 : forall k ws, up s = UC k ws -> k = 0%nat /\ p0 = HQ).
  { intros k ws E. pose proof (uc_hq I E) as Q. rewrite EH in Q. destruct k as [|[|k]]; try discriminate. injection Q as ->. auto. }
  clear I. destruct s as [h k u f sr r w sq rs lg]. simpl in EH, EK. subst h k.
  destruct a as [k|k|k|k k'|k|r0|k|k|]; cbn [step SharedModel.hs SharedModel.ks] in H.
  all: try (destruct k as [|k]; [cbn [nth_error] in H|cbn [nth_error] in H; destruct k; discriminate]).
  - destruct p0; try discriminate. injection H as <-. right; left. eapply M; try reflexivity; auto; discriminate.
  - destruct p0; try discriminate; injection H as <-; left; eapply LD; try reflexivity; right; eauto.
  - destruct p0; try discriminate; injection H as <-; right; right; left; reflexivity.
  - exfalso. destruct p0; try discriminate. destruct k' as [|[|k']]; discriminate.
  - destruct c0; try discriminate; injection H as <-; right; left; eapply M; try reflexivity; eauto; discriminate.
  - simpl in H. destruct u; try discriminate. injection H as <-. right; left. apply L; reflexivity.
  - destruct p0; cbn [h_step] in H; try discriminate.
    all: try (exfalso; eapply W1; reflexivity); try (exfalso; eapply W2; reflexivity);
         try (exfalso; apply W4; reflexivity).
    + injection H as <-. right; left. eapply M; try reflexivity; try discriminate. destruct c0; simpl; try discriminate.
    + injection H as <-. right; left. eapply M; try reflexivity; try exact W3; destruct (stop_requested c0); try reflexivity; discriminate.
    + simpl in H. destruct f; injection H as <-; right; left; (eapply M; try reflexivity; try exact W3; discriminate).
    + simpl in H. destruct sr; injection H as <-; right; left; (eapply M; try reflexivity; try exact W3; discriminate).
    + simpl in H. destruct sq; injection H as <-; right; left; (eapply M; try reflexivity; try exact W3; discriminate).
    + simpl in H. destruct w; [destruct (stop_requested c0)|]; injection H as <-; right; left; (eapply M; try reflexivity; try exact W3; discriminate).
    + destruct (reset c0) as [c'|] eqn:Er; [|discriminate]. injection H as <-. right; left.
      eapply M; try reflexivity; try discriminate. intros d ->. destruct c0; discriminate.
    + injection H as <-. right; left. eapply M; try reflexivity; try exact W3; discriminate.
    + destruct (reset c0) as [c'|] eqn:Er; [|discriminate]. injection H as <-. left. eapply LD; [reflexivity|auto].
  - destruct c0; cbn [k_step] in H; try discriminate.
    + simpl in H. destruct w as [q|]; [destruct (in_dec Nat.eq_dec 0%nat q)|]; injection H as <-.
      * left. apply LK. reflexivity.
      * right; left. eapply M; try reflexivity; try discriminate; auto.
      * right; left. eapply M; try reflexivity; try discriminate; auto.
    + exfalso; eapply W3; reflexivity.
    + exfalso. destruct p0; try discriminate.
  - right; left. unfold u_step in H. cbn [SharedModel.up SharedModel.waiters SharedModel.ks] in H.
    destruct u as [| | |[|j ws]|j ws| |]; try discriminate.
    + destruct w; [|discriminate]. injection H as <-. apply L; reflexivity.
    + injection H as <-. apply L; reflexivity.
    + destruct j as [|[|j]]; try discriminate. cbn [nth_error] in H. destruct (reset c0) as [c'|] eqn:Er; [|discriminate].
      injection H as <-. eapply M; try reflexivity; auto.
      intros d ->. destruct c0; discriminate.
    + destruct (HU0 _ _ eq_refl) as [-> ->]. injection H as <-. eapply M; try reflexivity; try exact W3; discriminate.
    + injection H as <-. unfold release. simpl. destruct (r - 1 =? 0); apply L; reflexivity.
Qed.

Lemma ep_step a s s' : es_phase s -> step a s = Some s' -> es_phase s'.
Proof.
  intros [L|[(I & LEN & ND & NZ)|O]] H.
  - left. eapply lp_step; eauto.
  - pose proof (step_inv _ I H) as I'. pose proof (step_len _ _ H) as LE.
    destruct (begin_step _ I LEN ND NZ H) as [D|[[A B]|O]].
    + left. split; [exact I'| |left; exists D1; split; [exact D|exact Logic.I]].
      intros j N. rewrite LEN in LE. destruct j as [|j]; [congruence|]. split; intros p E.
      * assert (S j < length (hs s'))%nat by (apply nth_error_Some; congruence). lia.
      * assert (S j < length (ks s'))%nat by (apply nth_error_Some; congruence). rewrite (i_len I') in *. lia.
    + right; left. split; [exact I'|]. split; [congruence|]. split; assumption.
    + right; right. exact O.
  - right; right. eapply log_mono; eauto.
Qed.

Lemma ep_runs l : forall s s', es_phase s -> runs l s = Some s' -> es_phase s'.
Proof.
  induction l as [|a l IH]; simpl; intros s s' L H; [injection H as <-; exact L|].
  destruct (step a s) as [s1|] eqn:E; [|discriminate]. eapply IH; [|exact H]. eapply ep_step; eauto.
Qed.

(** C33: when the sender of ensure_started, or the operation connected from it,
    has been abandoned (destroyed, or cancelled by its stop token), upstream has been asked
    to stop, unless it has completed.  The exception: the sender was overwritten
    by assignment. *)
Theorem C33_abandoned s : es_reach s -> holds_none s 0 -> ~ In (EOver 0) (log s) ->
  In EUpReq (log s) \/ completed_up (log s).
Proof.
  intros [l H] Z0 NO.
  assert (E0 : es_phase es_init).
  { right; left. split; [exact es_inv|]. split; [reflexivity|]. split.
    - intros d [D|[[c D]|D]]; discriminate.
    - intros [A _]. specialize (A _ eq_refl). discriminate. }
  destruct (ep_runs l E0 H) as [L|[(_ & _ & _ & NZ)|O]]; [|contradiction|contradiction].
  pose proof (lp_inv L) as I.
  assert (P : sref s = true -> stopreq s = true).
  { destruct (lp_k L) as [(d & D' & _)|[_ P]]; [exfalso|exact P].
    destruct (det_weight I D') as (p & c & Hp & Hc & W). destruct Z0 as [A B].
    rewrite (A _ Hp), (B _ Hc) in W. pose proof (wD_nn d). lia. }
  destruct (sref s) eqn:Es.
  - left. apply count_in. rewrite (i_ur I), (P eq_refl). lia.
  - right. apply ups_in. destruct (Nat.eq_dec (ups (log s)) 0) as [Q|Q]; [exfalso|lia].
    refine (not_running I _ Es _).
    + intros j E. destruct (lp_none _ L E) as [R|[[d R]|(c & d & R)]]; discriminate.
    + split.
      * assert (forall l s s', runs l s = Some s' -> In EUpStart (log s) -> In EUpStart (log s')) as SFX.
        { clear. induction l as [|a l IH]; simpl; intros s s' H J; [injection H as <-; auto|].
          destruct (step a s) as [s1|] eqn:E; [|discriminate]. eapply IH; eauto. eapply log_mono; eauto. }
        eapply SFX; eauto. left. reflexivity.
      * intros C. apply ups_in in C. lia.
Qed.

(** The sender is destroyed without being connected; it is connected, started and
    cancelled. *)
Example C33_dropped :
  option_map log (runs [ADrop 0; AH 0; AH 0; AH 0; AH 0; AUp RStopped; AU; AU; AU] es_init)
  = Some [EFree; EUp RStopped; EUpReq; EDrop 0; EUpStart].
Proof. vm_compute. reflexivity. Qed.
Example C33_cancelled :
  option_map log (runs [AStart 0; AH 0; AH 0; AH 0; AH 0; AReq 0; AK 0; AK 0; AK 0; AK 0; AK 0; AK 0;
                        AUp RStopped; AU; AU; AU] es_init)
  = Some [EFree; EUp RStopped; EComp 0 RStopped; EUpReq; EReq 0; EStart 0; EUpStart].
Proof. vm_compute. reflexivity. Qed.
(** It is connected and started after upstream has completed. *)
Example C33_late :
  option_map log (runs [AUp (RVal 7); AU; AU; AU; AStart 0; AH 0; AH 0; AH 0; AH 0; AH 0; AH 0;
                        ADrop 0; AH 0; AH 0; AH 0; AH 0] es_init)
  = Some [EFree; EDrop 0; EComp 0 (RVal 7); EStart 0; EUp (RVal 7); EUpStart].
Proof. vm_compute. reflexivity. Qed.

(** The exception is real: a sender that is overwritten by assignment gives up its
    shared state without asking upstream to stop; nobody holds it any more, and
    upstream runs on. *)
Theorem C33_assign_refuted :
  exists s, es_reach s /\ quiet s /\ no_handle s /\ up_runs (log s) /\ ~ In EUpReq (log s).
Proof.
  destruct (runs [AOver 0; AH 0] es_init) as [s|] eqn:E; [|vm_compute in E; discriminate].
  exists s. split; [exists [AOver 0; AH 0]; exact E|]. vm_compute in E. injection E as <-.
  split.
  - split; [intros [|[|k]]; reflexivity|]. split; [intros [|[|k]]; reflexivity|reflexivity].
  - split.
    + intros [|[|k]] p H; simpl in H; try discriminate; injection H as <-; eauto.
    + split.
      * split; [unfold started_up; simpl; auto|]. intros [r H]. simpl in H.
        repeat (destruct H as [H|H]; [discriminate|]). contradiction.
      * simpl. intros H. repeat (destruct H as [H|H]; [discriminate|]). contradiction.
Qed.

(** C33: the operation is started before the sender is returned. *)
Theorem C33_eager s : es_reach s -> count EUpStart (log s) = 1%nat.
Proof.
  intros R. pose proof (@reach_inv s (or_intror R)) as I. pose proof (C32_upstream_once (or_intror R)) as [A _].
  assert (In EUpStart (log s)); [|apply count_in in H; lia].
  destruct R as [l H].
  assert (forall l s s', runs l s = Some s' -> In EUpStart (log s) -> In EUpStart (log s')) as SFX.
  { clear. induction l as [|a l IH]; simpl; intros s s' H J; [injection H as <-; auto|].
    destruct (step a s) as [s1|] eqn:E; [|discriminate]. eapply IH; eauto. eapply log_mono; eauto. }
  eapply SFX; eauto. left. reflexivity.
Qed.

(** ** Every run is finite *)
Arguments Z.mul : simpl never.
Arguments Z.of_nat : simpl never.

Definition rD (d : dpc) : Z := match d with D1 => 4 | D2 _ => 3 | D3 _ => 2 | D4 => 1 end.
Definition rH (p : hpc) : Z :=
  match p with
  | HU => 26 | HS => 25 | H1 => 24 | H2 => 23 | H3 => 22 | H4 => 21 | H5 => 20 | H6 => 19
  | HQ => 18 | H7 => 17 | H8 => 16 | HC => 10 | HX => 10 | HF1 => 9
  | HF d => 2 + rD d | HD _ d => 2 + rD d | HFc => 2 | HG _ => 0
  end.
Definition rK (c : kpc) : Z :=
  match c with KReg => 20 | KNone => 10 | KRun => 9 | KDet d => 4 + rD d | KFin => 4 | KReqd => 0 end.
Definition rU (u : upc) : Z :=
  match u with
  | U0 => 6 | U1 => 5 | U2 => 4 | UN ws => 3 + 2 * Z.of_nat (length ws)
  | UC _ ws => 4 + 2 * Z.of_nat (length ws) | U5 => 2 | UD => 1 end.
Definition rank (s : state) : Z :=
  20 * sumz rH (hs s) + sumz rK (ks s) + rU (up s) + 2 * Z.of_nat (length (wl (waiters s))).

Lemma rH_nn p : 0 <= rH p.
Proof. destruct p; simpl; try lia; destruct d; simpl; lia. Qed.
Lemma rK_nn p : 0 <= rK p.
Proof. destruct p; simpl; try lia; destruct d; simpl; lia. Qed.
Lemma rU_nn p : 0 <= rU p.
Proof. destruct p; simpl; lia. Qed.
Lemma rank_nn s : 0 <= rank s.
Proof.
  unfold rank. pose proof (sumz_nonneg rH (hs s) rH_nn). pose proof (sumz_nonneg rK (ks s) rK_nn).
  pose proof (rU_nn (up s)). lia.
Qed.
Lemma reset_r c c' : reset c = Some c' -> rK c' <= rK c.
Proof. destruct c; simpl; intros H; try discriminate; injection H as <-; simpl; lia. Qed.
Lemma remove_len k q : (length (remove Nat.eq_dec k q) <= length q)%nat.
Proof. induction q as [|x q IH]; simpl; [lia|]. destruct (Nat.eq_dec k x); simpl; lia. Qed.
Lemma release_w s : waiters (release s) = waiters s.
Proof. unfold release; simpl. destruct (rc s - 1 =? 0); reflexivity. Qed.
Lemma det_w d s s' r : det_step d s = (s', r) -> waiters s' = waiters s.
Proof.
  destruct d as [|b|b|]; simpl; intros H.
  - destruct (sref s); injection H as <- <-; reflexivity.
  - destruct (b && (rc s =? 3)); [destruct (stopreq s)|]; injection H as <- <-; reflexivity.
  - destruct b; injection H as <- <-; try reflexivity. apply release_w.
  - injection H as <- <-. apply release_w.
Qed.

Ltac rk := cbn [hs ks up flag sref rc waiters stopreq res log set_h set_k set_up set_flag set_sref set_rc
                set_waiters set_stopreq set_res emit] in *;
  repeat match goal with
  | Hp : nth_error (hs ?s) ?k = Some ?p |- context [sumz rH (upd (hs ?s) ?k ?q)] => rewrite (@sumz_upd _ rH _ _ q _ Hp)
  | Hp : nth_error (ks ?s) ?k = Some ?p |- context [sumz rK (upd (ks ?s) ?k ?q)] => rewrite (@sumz_upd _ rK _ _ q _ Hp)
  | E : up _ = _ |- _ => rewrite !E; clear E
  end; cbn [rH rK rD rU wl length]; try lia.

Lemma reset_r1 c c' : reset c = Some c' -> rK c' <= rK c.
Proof. apply reset_r. Qed.

Lemma rank_step a s s' : inv s -> step a s = Some s' -> rank s' < rank s.
Proof.
  intros I H. unfold rank. crack H; rk.
  all: try (cbn [h_step k_step] in H; injection H as <-; rk; fail).
  - cbn [h_step] in H. injection H as <-. rk. destruct c; cbn [rK rD]; try lia; destruct d; cbn [rD]; lia.
  - cbn [h_step] in H. injection H as <-. rk. destruct (stop_requested c); cbn [rH]; lia.
  - cbn [h_step] in H. destruct (flag s); injection H as <-; rk.
  - cbn [h_step] in H. destruct (sref s); injection H as <-; rk.
  - assert (U : up s = U0).
    { pose proof (i_flag I) as F. pose proof (@sumz_ge _ h45 (hs s) h45_nn _ _ Hp). simpl in *.
      destruct (flag s), (up s); simpl in *; try lia; reflexivity. }
    cbn [h_step] in H. destruct (stopreq s); injection H as <-; rk.
  - cbn [h_step] in H. destruct (waiters s) eqn:W; [destruct (stop_requested c)|]; injection H as <-; rk;
      rewrite ?W; cbn [wl length]; lia.
  - cbn [h_step] in H. destruct (reset c) as [c'|] eqn:Er; [|discriminate]. injection H as <-. rk.
    pose proof (reset_r _ Er). lia.
  - cbn [h_step] in H. destruct (reset c) as [c'|] eqn:Er; [|discriminate]. injection H as <-. rk.
    pose proof (reset_r _ Er). lia.
  - cbn [h_step] in H. destruct (det_step d s) as [s1 r] eqn:D. destruct (det_fields _ _ D) as (EH & EK & EU & _ & _ & F).
    pose proof (det_w _ _ D) as EW. injection H as <-. pr. rewrite EH, EK, EU, EW. clear EU. rk.
    destruct d as [|b|b|]; [subst r|destruct F as [-> _]|subst r|subst r]; rk.
  - cbn [h_step] in H. destruct (det_step d s) as [s1 r] eqn:D. destruct (det_fields _ _ D) as (EH & EK & EU & _ & _ & F).
    pose proof (det_w _ _ D) as EW. injection H as <-. pr. rewrite EH, EK, EU, EW. clear EU. rk.
    destruct d as [|b|b|]; [subst r|destruct F as [-> _]|subst r|subst r]; rk.
  - cbn [k_step] in H. destruct (waiters s) as [q|] eqn:W; [destruct (in_dec Nat.eq_dec k q) as [Hi|Hi]|]; injection H as <-; rk.
    + assert (Hp : nth_error (hs s) k = Some HQ) by (apply (in_w _ I); rewrite W; exact Hi).
      rk. pose proof (remove_len k q). lia.
    + rewrite W. cbn [wl length]. lia.
    + rewrite W. cbn [wl length]. lia.
  - cbn [k_step] in H. destruct (det_step d s) as [s1 r] eqn:D. destruct (det_fields _ _ D) as (EH & EK & EU & _ & _ & F).
    pose proof (det_w _ _ D) as EW. injection H as <-. pr. rewrite EH, EK, EU, EW. clear EU. rk.
    destruct d as [|b|b|]; [subst r|destruct F as [-> _]|subst r|subst r]; rk.
  - cbn [k_step] in H. destruct (len_some_k _ I Hc) as [p Hp]. injection H as <-. rk.
    pose proof (rH_nn p). lia.
  - unfold u_step in H. destruct (up s) as [| | |[|j ws]|j ws| |] eqn:U; try discriminate.
    + destruct (waiters s) as [q|] eqn:W; [|discriminate]. injection H as <-. rk.
    + injection H as <-. rk.
    + destruct (nth_error (ks s) j) as [c|] eqn:Hc; [|discriminate]. destruct (reset c) as [c'|] eqn:Er; [|discriminate].
      injection H as <-. rk. pose proof (reset_r _ Er). lia.
    + pose proof (uc_hq I U) as Hp. injection H as <-. rk.
    + injection H as <-. destruct (release_fields (set_sref (set_up s UD) false)) as (EH & EK & EU & _).
      rewrite EH, EK, EU, release_w. clear EU. rk.
Qed.

Lemma sumz_rep A (w : A -> Z) x n : sumz w (repeat x n) = Z.of_nat n * w x.
Proof. induction n as [|n IH]; simpl; lia. Qed.

Lemma rank_runs l : forall s s', inv s -> runs l s = Some s' -> Z.of_nat (length l) + rank s' <= rank s.
Proof.
  induction l as [|a l IH]; simpl; intros s s' I H; [injection H as <-; lia|].
  destruct (step a s) as [s1|] eqn:E; [|discriminate].
  pose proof (rank_step _ I E). specialize (IH _ _ (step_inv _ I E) H). lia.
Qed.

(** C32: no execution is infinite: with [N] handles, whatever they do and whatever
    the scheduler does, there are fewer than 600 * N + 10 steps.  (So a started
    consumer is completed: C32_nobody_forgotten.) *)
Theorem C32_terminates n m l s : runs l (split_init n m) = Some s ->
  (length l < 600 * (1 + n + m) + 10)%nat.
Proof.
  intros H. pose proof (rank_runs l (split_inv n m) H) as R. pose proof (rank_nn s).
  unfold rank in R at 2. unfold split_init in R. cbn [hs ks up waiters wl length] in R.
  rewrite sumz_app, !sumz_rep in R. cbn [rH rK rU] in R. lia.
Qed.

(** Two consumers; the second joins after the first has started upstream, both get
    the value; a third one comes after completion; a copy is destroyed unused. *)
Example C32_three_consumers :
  option_map log (runs [ACopy 0 2; ACopy 0 3; AStart 0; AH 0; AH 0; AH 0; AH 0; AH 0; AH 0; AStart 1; AH 1; AH 1; AH 1; AH 1;
                        AUp (RVal 7); AU; AU; AU; AU; AU; AStart 2; AU; AU; AH 2; AH 2; AH 2; AH 2; AH 2; AH 2;
                        ADrop 0; ADrop 1; ADrop 2; ADrop 3;
                        AH 0; AH 0; AH 0; AH 0; AH 1; AH 1; AH 1; AH 1; AH 2; AH 2; AH 2; AH 2; AH 3; AH 3; AH 3; AH 3]
                  (split_init 1 2))
  = Some [EFree; EDrop 3; EDrop 2; EDrop 1; EDrop 0; EComp 2 (RVal 7); EStart 2; EComp 0 (RVal 7);
          EComp 1 (RVal 7); EUp (RVal 7); EStart 1; EUpStart; EStart 0].
Proof. vm_compute. reflexivity. Qed.

Print Assumptions C32_upstream_once.
Print Assumptions C32_complete_once.
Print Assumptions C32_value.
Print Assumptions C32_nobody_forgotten.
Print Assumptions C32_terminates.
Print Assumptions C32_no_use_after_free.
Print Assumptions C32_freed_once.
Print Assumptions C32_op_alive.
Print Assumptions C32_stop_only_when_unwanted.
Print Assumptions C32_last_consumer_stops_upstream_partial.
Print Assumptions C32_lost_stop_refuted.
Print Assumptions C33_eager.
Print Assumptions C33_abandoned.
Print Assumptions C33_assign_refuted.
