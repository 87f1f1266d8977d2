(** async_scope: nest and when_empty (C31).

    Reading the theorems: [log] is newest first, so in [log s = l1 ++ e :: l2]
    the list [l2] is what happened before [e], and a suffix [l4] of [l2] is an
    earlier instant. *)
From Coq Require Import List ZArith Bool Arith Lia.
From Verif Require Import Conc AsyncScopeModel.
Import ListNotations.
Set Implicit Arguments.
Open Scope Z_scope.
Arguments Z.add : simpl never.
Arguments Z.sub : simpl never.

(** At some instant after when_empty operation [w] was started, every nested
    operation started until then had completed its receiver and had been
    uncounted; and by [now] each of them has made its last access to the scope. *)
Definition was_empty (now : list event) (w : nat) : Prop :=
  exists l3 l4, now = l3 ++ l4 /\ In (EWStart w) l4 /\
    forall i, In (EAdd i) l4 -> In (EDone i) l4 /\ In (ESub i) l4 /\ In (EUnlock i) now.

Definition event_dec (a b : event) : {a = b} + {a <> b}.
Proof. decide equality; apply Nat.eq_dec. Defined.
Definition count (e : event) (l : list event) : nat := count_occ event_dec l e.

(** ** Invariant *)
Definition cov (now : list event) (w : nat) (x : option nat) : Prop :=
  exists l3 l4, now = l3 ++ l4 /\ In (EWStart w) l4 /\
    forall i, In (EAdd i) l4 ->
      In (EDone i) l4 /\ In (ESub i) l4 /\ (x = Some i \/ In (EUnlock i) now).

Lemma cov_cons now w x e : cov now w x -> cov (e :: now) w x.
Proof.
  intros (l3 & l4 & E & H1 & H2). exists (e :: l3), l4. rewrite E. split; [reflexivity|].
  split; [exact H1|]. intros i Hi. destruct (H2 i Hi) as (A & B & [C|C]); subst; simpl; auto 6.
Qed.

Lemma cov_unlock now w i : cov now w (Some i) -> cov (EUnlock i :: now) w None.
Proof.
  intros (l3 & l4 & E & H1 & H2). exists (EUnlock i :: l3), l4. rewrite E. split; [reflexivity|].
  split; [exact H1|]. intros k Hk. destruct (H2 k Hk) as (A & B & [C|C]).
  - injection C as ->. simpl; auto 6.
  - subst; simpl; auto 6.
Qed.

Definition b2z (b : bool) : Z := if b then 1 else 0.
Definition hN (p : npc) : Z := match p with N3 | NLast | NRel _ | NRel0 => 1 | _ => 0 end.
Definition hW (p : wpc) : Z := match p with W1 | WQ | WGo => 1 | _ => 0 end.
Definition aN (p : npc) : Z := match p with N1 | N2 | N3 => 1 | _ => 0 end.
Definition lastN (p : npc) : Z := match p with NLast => 1 | _ => 0 end.
Definition occ (w : nat) (l : list nat) : Z := Z.of_nat (count_occ Nat.eq_dec l w).
Definition locN (w : nat) (p : npc) : Z :=
  match p with NRel ws | NNotify ws => occ w ws | _ => 0 end.
Definition waitingW (o : option wpc) : Z := match o with Some (WQ | WWait) => 1 | _ => 0 end.

Definition fA (o : option npc) : nat := match o with None | Some N0 => 0 | _ => 1 end.
Definition fD (o : option npc) : nat := match o with None | Some (N0 | N1) => 0 | _ => 1 end.
Definition fS (o : option npc) : nat := match o with None | Some (N0 | N1 | N2 | N3) => 0 | _ => 1 end.
Definition fU (o : option npc) : nat := match o with Some (NNotify _ | NDone) => 1 | _ => 0 end.
Definition fW (o : option wpc) : nat := match o with None | Some W0 => 0 | _ => 1 end.
Definition fN (o : option wpc) : nat := match o with Some WDone => 1 | _ => 0 end.

Definition covN (now : list event) (q : list nat) (i : nat) (p : npc) : Prop :=
  match p with
  | NLast => forall w, In w q -> cov now w (Some i)
  | NRel ws => forall w, In w ws -> cov now w (Some i)
  | NNotify ws => forall w, In w ws -> cov now w None
  | _ => True
  end.
Definition covW (now : list event) (j : nat) (p : wpc) : Prop :=
  match p with WGo | WStart => cov now j None | _ => True end.

Record inv (s : state) : Prop := {
  i_lock : sumz hN (nests s) + sumz hW (whens s) = b2z (locked s);
  i_act : active s = sumz aN (nests s);
  i_occ : forall w, occ w (waiters s) + sumz (locN w) (nests s) = waitingW (nth_error (whens s) w);
  i_wait : waiters s = [] \/ 0 < active s + sumz lastN (nests s);
  i_add : forall i, count (EAdd i) (log s) = fA (nth_error (nests s) i);
  i_done : forall i, count (EDone i) (log s) = fD (nth_error (nests s) i);
  i_sub : forall i, count (ESub i) (log s) = fS (nth_error (nests s) i);
  i_unl : forall i, count (EUnlock i) (log s) = fU (nth_error (nests s) i);
  i_ws : forall j, count (EWStart j) (log s) = fW (nth_error (whens s) j);
  i_nt : forall j, count (ENotify j) (log s) = fN (nth_error (whens s) j);
  i_covn : forall i p, nth_error (nests s) i = Some p -> covN (log s) (waiters s) i p;
  i_covw : forall j p, nth_error (whens s) j = Some p -> covW (log s) j p;
  i_hist : forall l1 l2 w, log s = l1 ++ ENotify w :: l2 -> cov l2 w None
}.

Lemma hN_nn p : 0 <= hN p. Proof. destruct p; simpl; lia. Qed.
Lemma hW_nn p : 0 <= hW p. Proof. destruct p; simpl; lia. Qed.
Lemma aN_nn p : 0 <= aN p. Proof. destruct p; simpl; lia. Qed.
Lemma lastN_nn p : 0 <= lastN p. Proof. destruct p; simpl; lia. Qed.
Lemma occ_nn w l : 0 <= occ w l. Proof. unfold occ; lia. Qed.
Lemma locN_nn w p : 0 <= locN w p. Proof. destruct p; simpl; try apply occ_nn; lia. Qed.

Lemma count_in e l : In e l <-> (0 < count e l)%nat.
Proof. unfold count. rewrite (count_occ_In event_dec). lia. Qed.
Lemma occ_in w l : In w l <-> 0 < occ w l.
Proof. unfold occ. rewrite (count_occ_In Nat.eq_dec). lia. Qed.
Lemma count_cons e a l : count e (a :: l) = ((if event_dec a e then 1 else 0) + count e l)%nat.
Proof. unfold count; simpl. destruct (event_dec a e); lia. Qed.
Lemma occ_cons w a l : occ w (a :: l) = (if Nat.eqb a w then 1 else 0) + occ w l.
Proof. unfold occ; simpl. destruct (Nat.eq_dec a w), (Nat.eqb_spec a w); lia. Qed.
Lemma occ_app w a l : occ w (a ++ l) = occ w a + occ w l.
Proof. unfold occ. rewrite count_occ_app. lia. Qed.

Lemma init_inv n m : inv (init n m).
Proof.
  split; simpl; intros.
  - rewrite !sumz_repeat by reflexivity. reflexivity.
  - rewrite !sumz_repeat by reflexivity. reflexivity.
  - rewrite !sumz_repeat by reflexivity. destruct (nth_error (repeat W0 m) w) eqn:E; auto.
    apply nth_repeat_some in E; subst; reflexivity.
  - auto.
  - destruct (nth_error (repeat N0 n) i) eqn:E; auto. apply nth_repeat_some in E; subst; reflexivity.
  - destruct (nth_error (repeat N0 n) i) eqn:E; auto. apply nth_repeat_some in E; subst; reflexivity.
  - destruct (nth_error (repeat N0 n) i) eqn:E; auto. apply nth_repeat_some in E; subst; reflexivity.
  - destruct (nth_error (repeat N0 n) i) eqn:E; auto. apply nth_repeat_some in E; subst; reflexivity.
  - destruct (nth_error (repeat W0 m) j) eqn:E; auto. apply nth_repeat_some in E; subst; reflexivity.
  - destruct (nth_error (repeat W0 m) j) eqn:E; auto. apply nth_repeat_some in E; subst; reflexivity.
  - apply nth_repeat_some in H; subst; simpl; auto.
  - apply nth_repeat_some in H; subst; simpl; auto.
  - destruct l1; discriminate.
Qed.

(** The log gained an event that is not a notification. *)
Lemma hist_cons s e l1 l2 w :
  (forall l1 l2 w, log s = l1 ++ ENotify w :: l2 -> cov l2 w None) ->
  (forall j, e = ENotify j -> cov (log s) j None) ->
  e :: log s = l1 ++ ENotify w :: l2 -> cov l2 w None.
Proof.
  intros H Hne E. destruct l1 as [|x l1]; simpl in E; injection E; intros.
  - subst. apply Hne. reflexivity.
  - eapply H; eauto.
Qed.

(** When the count is zero, a mutex holder sees the scope drained. *)
Lemma drained_cov s (I : inv s) w x :
  sumz aN (nests s) = 0 ->
  In (EWStart w) (log s) ->
  (forall i p, nth_error (nests s) i = Some p -> hN p = 1 -> x = Some i) ->
  cov (log s) w x.
Proof.
  intros Ha Hw Hx. exists [], (log s). split; [reflexivity|]. split; [exact Hw|].
  intros i Hi. apply count_in in Hi. rewrite (i_add I) in Hi.
  destruct (nth_error (nests s) i) as [p|] eqn:E; [|simpl in Hi; lia].
  pose proof (sumz_ge _ _ aN_nn _ E) as G.
  rewrite !count_in, (i_done I), (i_sub I), (i_unl I), E.
  split; [destruct p; simpl in *; lia|]. split; [destruct p; simpl in *; lia|].
  destruct p; simpl in *; try lia; auto; left; eapply Hx; eauto.
Qed.

Lemma covN_mono now q i p e : covN now q i p -> covN (e :: now) q i p.
Proof. destruct p; simpl; intros; auto; apply cov_cons; auto. Qed.
Lemma covW_mono now j p e : covW now j p -> covW (e :: now) j p.
Proof. destruct p; simpl; auto using cov_cons. Qed.

Ltac cnts :=
  intros; rewrite ?count_cons;
  repeat match goal with
  | |- context [event_dec ?a ?b] => destruct (event_dec a b); [try discriminate|]
  end.


(** counting goals after nested operation [i] moved *)
Ltac cn I Hp :=
  let k := fresh "k" in intros k; rewrite ?(nth_upd _ _ _ _ Hp), ?count_cons;
  let G := fresh in
  first [ pose proof (i_add I k) as G; cbn [log nests] in *; rewrite ?G; clear G ];
  repeat match goal with
  | |- context [event_dec ?a ?b] =>
      let E := fresh in destruct (event_dec a b) as [E|E]; [try discriminate E; injection E as E; subst|]
  end;
  rewrite ?(i_add I), ?(i_done I), ?(i_sub I), ?(i_unl I), ?(i_ws I), ?(i_nt I);
  try match goal with |- context [Nat.eqb ?a ?b] => destruct (Nat.eqb_spec a b); subst end;
  rewrite ?Hp; simpl; try congruence; try reflexivity; try lia.

Ltac hist I := intros ? ? ? ?; eapply (@hist_cons _ _ _ _ _ (i_hist I)); [|eassumption];
  intros ? ?; discriminate.

Ltac covn I Hp :=
  let k := fresh "k" in let p := fresh "p" in let E := fresh "E" in
  intros k p E; rewrite (nth_upd _ _ _ _ Hp) in E;
  match type of E with context [Nat.eqb ?a k] => destruct (Nat.eqb_spec a k) as [<-|] end;
  [injection E as <-; simpl|
    try apply covN_mono; try exact (i_covn I _ E)].

Lemma nest_inv i p s s' : inv s -> nth_error (nests s) i = Some p ->
  nest_step i p s = Some s' -> inv s'.
Proof.
  intros I Hp H.
  assert (LK : hN p = 1 -> locked s = true /\ sumz hN (nests s) = 1 /\ sumz hW (whens s) = 0).
  { intros h. pose proof (sumz_ge _ _ hN_nn _ Hp). pose proof (sumz_nonneg hW (whens s) hW_nn).
    pose proof (i_lock I). destruct (locked s); simpl in *; split; lia. }
  assert (UN : hN p = 1 -> forall k q, nth_error (nests s) k = Some q -> hN q = 1 -> k = i).
  { intros h k q Hk Hq. destruct (Nat.eq_dec k i); [auto|exfalso].
    pose proof (sumz_ge2 _ _ hN_nn n Hk Hp). destruct (LK h) as (_ & L & _). lia. }
  pose proof (i_lock I) as IL. pose proof (i_act I) as IA. pose proof (i_occ I) as IO.
  pose proof (i_wait I) as IW.
  assert (SH : forall q, sumz hN (upd (nests s) i q) = sumz hN (nests s) - hN p + hN q)
    by (intros; apply (@sumz_upd _ hN _ _ _ _ Hp)).
  assert (SA : forall q, sumz aN (upd (nests s) i q) = sumz aN (nests s) - aN p + aN q)
    by (intros; apply (@sumz_upd _ aN _ _ _ _ Hp)).
  assert (SL : forall q, sumz lastN (upd (nests s) i q) = sumz lastN (nests s) - lastN p + lastN q)
    by (intros; apply (@sumz_upd _ lastN _ _ _ _ Hp)).
  assert (SO : forall w q, sumz (locN w) (upd (nests s) i q) = sumz (locN w) (nests s) - locN w p + locN w q)
    by (intros; apply (@sumz_upd _ (locN w) _ _ _ _ Hp)).
  pose proof (sumz_nonneg lastN (nests s) lastN_nn) as LN.
  pose proof (sumz_ge _ _ aN_nn _ Hp) as AN.
  destruct p; simpl in H.
  - (* N0 *)
    injection H as <-. split; cbn [nests whens active locked waiters log emit set_active set_n].
    + rewrite SH. simpl. lia.
    + rewrite SA. simpl. lia.
    + intros w. rewrite SO. simpl. rewrite <- IO. lia.
    + rewrite SL. simpl. destruct IW; [left; auto|right; lia].
    + cn I Hp.
    + cn I Hp.
    + cn I Hp.
    + cn I Hp.
    + cn I Hp.
    + cn I Hp.
    + covn I Hp. exact Logic.I.
    + intros. apply covW_mono. apply (i_covw I); auto.
    + hist I.
  - (* N1 *)
    injection H as <-. split; cbn [nests whens active locked waiters log emit set_active set_n].
    + rewrite SH. simpl. lia.
    + rewrite SA. simpl. lia.
    + intros w. rewrite SO. simpl. rewrite <- IO. lia.
    + rewrite SL. simpl. destruct IW; [left; auto|right; lia].
    + cn I Hp.
    + cn I Hp.
    + cn I Hp.
    + cn I Hp.
    + cn I Hp.
    + cn I Hp.
    + covn I Hp. exact Logic.I.
    + intros. apply covW_mono. apply (i_covw I); auto.
    + hist I.
  - (* N2 *)
    destruct (locked s) eqn:EL; [discriminate|].
    injection H as <-. split; cbn [nests whens active locked waiters log emit set_active set_n set_lock].
    + rewrite SH. simpl in *. lia.
    + rewrite SA. simpl. lia.
    + intros w. rewrite SO. simpl. rewrite <- IO. lia.
    + rewrite SL. simpl. destruct IW; [left; auto|right; lia].
    + cn I Hp.
    + cn I Hp.
    + cn I Hp.
    + cn I Hp.
    + cn I Hp.
    + cn I Hp.
    + covn I Hp. exact Logic.I.
    + exact (i_covw I).
    + exact (i_hist I).
  - (* N3 *)
    destruct (LK eq_refl) as (L1 & L2 & L3). specialize (UN eq_refl). clear LK.
    injection H as <-. simpl in AN.
    assert (CL : active s = 1 -> inv s -> forall w, In w (waiters s) ->
        cov (ESub i :: log s) w (Some i)).
    { intros A1 _ w Hw. exists [], (ESub i :: log s). split; [reflexivity|].
      assert (W : In (EWStart w) (log s)).
      { apply count_in. rewrite (i_ws I). pose proof (IO w) as G.
        apply occ_in in Hw. pose proof (sumz_nonneg (locN w) (nests s) (locN_nn w)).
        destruct (nth_error (whens s) w) as [[]|]; simpl in *; lia. }
      split; [right; exact W|].
      intros k Hk. destruct (Nat.eq_dec k i) as [->|Nk].
      - split; [right; apply count_in; rewrite (i_done I), Hp; simpl; lia|].
        split; [left; reflexivity|]. left; reflexivity.
      - destruct Hk as [Hk|Hk]; [discriminate|]. apply count_in in Hk. rewrite (i_add I) in Hk.
        destruct (nth_error (nests s) k) as [q|] eqn:E; [|simpl in Hk; lia].
        pose proof (sumz_ge2 _ _ aN_nn Nk E Hp) as G. simpl in G.
        assert (hN q <> 1) by (intros Q; apply Nk; eapply UN; eauto).
        split; [right; apply count_in; rewrite (i_done I), E; destruct q; simpl in *; lia|].
        split; [right; apply count_in; rewrite (i_sub I), E; destruct q; simpl in *; lia|].
        right. right. apply count_in. rewrite (i_unl I), E. destruct q; simpl in *; lia. }
    split; cbn [nests whens active locked waiters log emit set_active set_n set_lock].
    + rewrite SH. destruct (active s =? 1); simpl in *; lia.
    + rewrite SA. destruct (active s =? 1); simpl in *; lia.
    + intros w. rewrite SO. rewrite <- IO. destruct (active s =? 1); simpl in *; lia.
    + rewrite SL. right. destruct (Z.eqb_spec (active s) 1); simpl in *; lia.
    + destruct (active s =? 1); cn I Hp.
    + destruct (active s =? 1); cn I Hp.
    + destruct (active s =? 1); cn I Hp.
    + destruct (active s =? 1); cn I Hp.
    + destruct (active s =? 1); cn I Hp.
    + destruct (active s =? 1); cn I Hp.
    + destruct (Z.eqb_spec (active s) 1).
      * covn I Hp. intros w Hw. apply CL; auto.
      * covn I Hp. exact Logic.I.
    + intros. apply covW_mono. apply (i_covw I); auto.
    + hist I.
  - (* NLast *)
    destruct (LK eq_refl) as (L1 & L2 & L3). specialize (UN eq_refl). clear LK.
    injection H as <-. split; cbn [nests whens active locked waiters log emit set_active set_n set_lock set_waiters].
    + rewrite SH. simpl in *. lia.
    + rewrite SA. simpl in *. lia.
    + intros w. rewrite SO. simpl in *. rewrite <- IO. change (occ w []) with 0. lia.
    + left; reflexivity.
    + cn I Hp.
    + cn I Hp.
    + cn I Hp.
    + cn I Hp.
    + cn I Hp.
    + cn I Hp.
    + intros k q E. rewrite (nth_upd _ _ _ _ Hp) in E. destruct (Nat.eqb_spec i k) as [<-|Nk].
      * injection E as <-. exact (i_covn I _ Hp).
      * pose proof (i_covn I _ E) as C. destruct q; simpl in *; auto. intros ? [].
    + exact (i_covw I).
    + exact (i_hist I).
  - (* NRel *)
    destruct (LK eq_refl) as (L1 & L2 & L3). specialize (UN eq_refl). clear LK.
    injection H as <-. split; cbn [nests whens active locked waiters log emit set_active set_n set_lock set_waiters].
    + rewrite SH. simpl in *. lia.
    + rewrite SA. simpl in *. lia.
    + intros w. rewrite SO. simpl in *. rewrite <- IO. lia.
    + rewrite SL. simpl in *. destruct IW; [left; auto|right; lia].
    + cn I Hp.
    + cn I Hp.
    + cn I Hp.
    + cn I Hp.
    + cn I Hp.
    + cn I Hp.
    + covn I Hp. intros w Hw. apply cov_unlock. exact (i_covn I _ Hp _ Hw).
    + intros. apply covW_mono. apply (i_covw I); auto.
    + hist I.
  - (* NRel0 *)
    destruct (LK eq_refl) as (L1 & L2 & L3). specialize (UN eq_refl). clear LK.
    injection H as <-. split; cbn [nests whens active locked waiters log emit set_active set_n set_lock set_waiters].
    + rewrite SH. simpl in *. lia.
    + rewrite SA. simpl in *. lia.
    + intros w. rewrite SO. simpl in *. rewrite <- IO. lia.
    + rewrite SL. simpl in *. destruct IW; [left; auto|right; lia].
    + cn I Hp.
    + cn I Hp.
    + cn I Hp.
    + cn I Hp.
    + cn I Hp.
    + cn I Hp.
    + covn I Hp. exact Logic.I.
    + intros. apply covW_mono. apply (i_covw I); auto.
    + hist I.
  - (* NNotify *)
    destruct ws as [|j ws].
    + injection H as <-. split; cbn [nests whens active locked waiters log emit set_active set_n set_lock set_waiters].
      * rewrite SH. simpl in *. lia.
      * rewrite SA. simpl in *. lia.
      * intros w. rewrite SO. simpl in *. rewrite <- IO. change (occ w []) with 0. lia.
      * rewrite SL. simpl in *. destruct IW; [left; auto|right; lia].
      * cn I Hp.
      * cn I Hp.
      * cn I Hp.
      * cn I Hp.
      * cn I Hp.
      * cn I Hp.
      * covn I Hp. exact Logic.I.
      * exact (i_covw I).
      * exact (i_hist I).
    + destruct (nth_error (whens s) j) as [[]|] eqn:Hj; try discriminate.
      injection H as <-. split; cbn [nests whens active locked waiters log emit set_active set_n set_w set_lock set_waiters].
      * rewrite SH. rewrite (@sumz_upd _ hW _ _ WDone _ Hj). simpl in *. lia.
      * rewrite SA. simpl in *. lia.
      * intros w. rewrite SO, (nth_upd _ _ _ _ Hj). simpl. rewrite occ_cons. pose proof (IO w) as G.
        destruct (Nat.eqb_spec j w); subst; rewrite ?Hj in *; simpl in *; lia.
      * rewrite SL. simpl in *. destruct IW; [left; auto|right; lia].
      * cn I Hp.
      * cn I Hp.
      * cn I Hp.
      * cn I Hp.
      * clear Hp; cn I Hj.
      * clear Hp; cn I Hj.
      * covn I Hp. intros w Hw. apply cov_cons. apply (i_covn I _ Hp). right; exact Hw.
      * intros k q E. rewrite (nth_upd _ _ _ _ Hj) in E. apply covW_mono.
        destruct (Nat.eqb_spec j k); [injection E as <-; exact Logic.I|]. apply (i_covw I); auto.
      * intros ? ? ? E. eapply (@hist_cons _ _ _ _ _ (i_hist I)); [|exact E].
        intros ? Q. injection Q as <-. apply (i_covn I _ Hp). left; reflexivity.
  - discriminate.
Qed.

Ltac covw I Hp :=
  let k := fresh "k" in let p := fresh "p" in let E := fresh "E" in
  intros k p E; rewrite (nth_upd _ _ _ _ Hp) in E;
  match type of E with context [Nat.eqb ?a k] => destruct (Nat.eqb_spec a k) as [<-|] end;
  [injection E as <-; simpl|try apply covW_mono; try exact (i_covw I _ E)].

Lemma when_inv j p s s' : inv s -> nth_error (whens s) j = Some p ->
  when_step j p s = Some s' -> inv s'.
Proof.
  intros I Hp H.
  assert (LK : hW p = 1 -> locked s = true /\ sumz hN (nests s) = 0 /\ sumz hW (whens s) = 1).
  { intros h. pose proof (sumz_ge _ _ hW_nn _ Hp). pose proof (sumz_nonneg hN (nests s) hN_nn).
    pose proof (i_lock I). destruct (locked s); simpl in *; split; lia. }
  pose proof (i_lock I) as IL. pose proof (i_act I) as IA. pose proof (i_occ I) as IO.
  pose proof (i_wait I) as IW.
  assert (SH : forall q, sumz hW (upd (whens s) j q) = sumz hW (whens s) - hW p + hW q)
    by (intros; apply (@sumz_upd _ hW _ _ _ _ Hp)).
  pose proof (sumz_nonneg lastN (nests s) lastN_nn) as LN.
  pose proof (sumz_nonneg aN (nests s) aN_nn) as AN.
  destruct p; simpl in H.
  - (* W0 *)
    destruct (locked s) eqn:EL; [discriminate|].
    injection H as <-. split; cbn [nests whens active locked waiters log emit set_w set_lock].
    + rewrite SH. simpl in *. lia.
    + exact IA.
    + intros w. rewrite (nth_upd _ _ _ _ Hp), IO.
      destruct (Nat.eqb_spec j w); subst; rewrite ?Hp; reflexivity.
    + exact IW.
    + cn I Hp.
    + cn I Hp.
    + cn I Hp.
    + cn I Hp.
    + cn I Hp.
    + cn I Hp.
    + intros k q E. apply covN_mono. apply (i_covn I _ E).
    + covw I Hp. exact Logic.I.
    + hist I.
  - (* W1 *)
    destruct (LK eq_refl) as (L1 & L2 & L3).
    destruct (Z.eqb_spec (active s) 0) as [A|A]; injection H as <-;
      split; cbn [nests whens active locked waiters log emit set_w set_lock set_waiters].
    + rewrite SH. simpl in *. lia.
    + exact IA.
    + intros w. rewrite (nth_upd _ _ _ _ Hp), IO.
      destruct (Nat.eqb_spec j w); subst; rewrite ?Hp; reflexivity.
    + exact IW.
    + cn I Hp.
    + cn I Hp.
    + cn I Hp.
    + cn I Hp.
    + cn I Hp.
    + cn I Hp.
    + exact (i_covn I).
    + covw I Hp. apply (drained_cov I); [lia| |].
      * apply count_in. rewrite (i_ws I), Hp. simpl; lia.
      * intros k q E Q. pose proof (sumz_ge _ _ hN_nn _ E). lia.
    + exact (i_hist I).
    + rewrite SH. simpl in *. lia.
    + exact IA.
    + intros w. rewrite (nth_upd _ _ _ _ Hp), occ_app, occ_cons. pose proof (IO w) as G.
      change (occ w []) with 0.
      destruct (Nat.eqb_spec j w); subst; rewrite ?Hp in *; simpl in *; lia.
    + right. lia.
    + cn I Hp.
    + cn I Hp.
    + cn I Hp.
    + cn I Hp.
    + cn I Hp.
    + cn I Hp.
    + intros k q E. pose proof (i_covn I _ E) as C. destruct q; simpl in *; auto.
      pose proof (sumz_ge _ _ hN_nn _ E) as G. simpl in G. lia.
    + covw I Hp. exact Logic.I.
    + exact (i_hist I).
  - (* WQ *)
    destruct (LK eq_refl) as (L1 & L2 & L3).
    injection H as <-. split; cbn [nests whens active locked waiters log emit set_w set_lock set_waiters].
    + rewrite SH. simpl in *. lia.
    + exact IA.
    + intros w. rewrite (nth_upd _ _ _ _ Hp), IO.
      destruct (Nat.eqb_spec j w); subst; rewrite ?Hp; reflexivity.
    + exact IW.
    + cn I Hp.
    + cn I Hp.
    + cn I Hp.
    + cn I Hp.
    + cn I Hp.
    + cn I Hp.
    + exact (i_covn I).
    + covw I Hp. exact Logic.I.
    + exact (i_hist I).
  - discriminate.
  - (* WGo *)
    destruct (LK eq_refl) as (L1 & L2 & L3).
    injection H as <-. split; cbn [nests whens active locked waiters log emit set_w set_lock set_waiters].
    + rewrite SH. simpl in *. lia.
    + exact IA.
    + intros w. rewrite (nth_upd _ _ _ _ Hp), IO.
      destruct (Nat.eqb_spec j w); subst; rewrite ?Hp; reflexivity.
    + exact IW.
    + cn I Hp.
    + cn I Hp.
    + cn I Hp.
    + cn I Hp.
    + cn I Hp.
    + cn I Hp.
    + exact (i_covn I).
    + covw I Hp. exact (i_covw I _ Hp).
    + exact (i_hist I).
  - (* WStart *)
    injection H as <-. split; cbn [nests whens active locked waiters log emit set_w set_lock set_waiters].
    + rewrite SH. simpl in *. lia.
    + exact IA.
    + intros w. rewrite (nth_upd _ _ _ _ Hp), IO.
      destruct (Nat.eqb_spec j w); subst; rewrite ?Hp; reflexivity.
    + exact IW.
    + cn I Hp.
    + cn I Hp.
    + cn I Hp.
    + cn I Hp.
    + cn I Hp.
    + cn I Hp.
    + intros k q E. apply covN_mono. apply (i_covn I _ E).
    + covw I Hp. exact Logic.I.
    + intros ? ? ? E. eapply (@hist_cons _ _ _ _ _ (i_hist I)); [|exact E].
      intros ? Q. injection Q as <-. exact (i_covw I _ Hp).
  - discriminate.
Qed.

Lemma runs_inv l : forall s s', inv s -> runs l s = Some s' -> inv s'.
Proof.
  induction l as [|a l IH]; simpl; intros s s' I H; [injection H as <-; exact I|].
  destruct (step a s) as [s1|] eqn:E; [|discriminate]. apply (IH s1); [|exact H].
  destruct a; simpl in E.
  - destruct (nth_error (nests s) i) eqn:E'; [|discriminate]. eapply nest_inv; eauto.
  - destruct (nth_error (whens s) j) eqn:E'; [|discriminate]. eapply when_inv; eauto.
Qed.

Lemma reach_inv n m s : reachable n m s -> inv s.
Proof. intros [l H]. exact (runs_inv l (init_inv n m) H). Qed.

(** ** Theorems *)

(** C31: whenever a when_empty operation lets its wrapped operation go, there was
    an instant, after that when_empty operation was started, at which every
    nested operation started until then had completed and had been uncounted;
    and before the wrapped operation is started each of these has made its last
    access to the scope (so the scope may then be destroyed). *)
Theorem C31_when_empty_only_when_empty n m s l1 l2 w :
  reachable n m s -> log s = l1 ++ ENotify w :: l2 -> was_empty l2 w.
Proof.
  intros R E. apply reach_inv in R. destruct (@i_hist _ R _ _ _ E) as (l3 & l4 & H1 & H2 & H3).
  exists l3, l4. split; [exact H1|]. split; [exact H2|].
  intros i Hi. destruct (H3 i Hi) as (A & B & [C|C]); [discriminate|auto].
Qed.

(** C31: the wrapped operation is started at most once. *)
Theorem C31_at_most_once n m s w : reachable n m s -> (count (ENotify w) (log s) <= 1)%nat.
Proof.
  intros R. apply reach_inv in R. rewrite (i_nt R). destruct (nth_error (whens s) w) as [[]|]; simpl; lia.
Qed.

(** C31: a nested operation is counted at most once, uncounted at most once, and
    uncounted only after its receiver was completed. *)
Theorem C31_nested_once n m s i : reachable n m s ->
  (count (EAdd i) (log s) <= 1)%nat /\ (count (ESub i) (log s) <= count (EDone i) (log s))%nat /\
  (count (EDone i) (log s) <= count (EAdd i) (log s))%nat.
Proof.
  intros R. apply reach_inv in R. rewrite (i_sub R), (i_add R), (i_done R).
  destruct (nth_error (nests s) i) as [[]|]; simpl; lia.
Qed.

(** number of nested operations with an odd-one-out: counted, not uncounted *)
Fixpoint live (n : nat) (l : list event) : Z :=
  match n with
  | O => 0
  | S n => live n l + (Z.of_nat (count (EAdd n) l) - Z.of_nat (count (ESub n) l))
  end.

Lemma firstn_nth_S {A} (l : list A) : forall k x, nth_error l k = Some x ->
  firstn (S k) l = firstn k l ++ [x].
Proof.
  induction l as [|a l IH]; intros [|k] x H; simpl in *; try discriminate.
  - injection H as ->. reflexivity.
  - f_equal. apply IH, H.
Qed.

Lemma live_sum s (I : inv s) k : (k <= length (nests s))%nat ->
  live k (log s) = sumz aN (firstn k (nests s)).
Proof.
  induction k as [|k IH]; intros Hk; [reflexivity|].
  cbn [live]. rewrite IH by lia.
  destruct (nth_error (nests s) k) as [p|] eqn:E; [|apply nth_error_None in E; lia].
  rewrite (firstn_nth_S _ _ E), sumz_app. rewrite (i_add I), (i_sub I), E.
  destruct p; simpl; lia.
Qed.

Lemma step_len a s s' : step a s = Some s' ->
  length (nests s') = length (nests s) /\ length (whens s') = length (whens s).
Proof.
  destruct a; simpl; intros H.
  - destruct (nth_error (nests s) i) as [p|] eqn:E; [|discriminate].
    destruct p; simpl in H;
      try (destruct (locked s); [discriminate|]);
      try (destruct ws as [|? ?]; [|try (destruct (nth_error (whens s) n) as [[]|]; try discriminate)]);
      try discriminate; injection H as <-; simpl; rewrite !upd_length; auto.
  - destruct (nth_error (whens s) j) as [p|] eqn:E; [|discriminate].
    destruct p; simpl in H;
      try (destruct (locked s); [discriminate|]);
      try (destruct (active s =? 0));
      try discriminate; injection H as <-; simpl; rewrite !upd_length; auto.
Qed.

Lemma runs_len l : forall s s', runs l s = Some s' ->
  length (nests s') = length (nests s) /\ length (whens s') = length (whens s).
Proof.
  induction l as [|a l IH]; simpl; intros s s' H; [injection H as <-; auto|].
  destruct (step a s) as [s1|] eqn:E; [|discriminate].
  destruct (step_len _ _ E) as [A B]. destruct (IH _ _ H) as [C D]. split; congruence.
Qed.

(** C31: the count is, at every instant, the number of nested operations started
    and not yet uncounted; in particular it never becomes negative. *)
Theorem C31_count_exact n m s : reachable n m s -> active s = live n (log s) /\ 0 <= active s.
Proof.
  intros R. pose proof (reach_inv R) as I. destruct R as [l H].
  destruct (runs_len _ _ H) as [L _]. simpl in L. rewrite repeat_length in L.
  rewrite (i_act I). split; [|apply sumz_nonneg, aN_nn].
  rewrite (live_sum I) by lia. rewrite firstn_all2 by lia. reflexivity.
Qed.

(** ** Liveness: every execution is finite and ends with everybody done *)
Definition rankN (p : npc) : Z :=
  match p with N0 => 7 | N1 => 6 | N2 => 5 | N3 => 4 | NLast => 3 | NRel _ => 2 | NRel0 => 1
             | NNotify _ => 1 | NDone => 0 end.
Definition rankW (p : wpc) : Z :=
  match p with W0 => 6 | W1 => 5 | WQ => 4 | WWait => 3 | WGo => 2 | WStart => 1 | WDone => 0 end.
Definition measure (s : state) : Z := sumz rankN (nests s) + sumz rankW (whens s).

Lemma step_measure a s s' : step a s = Some s' -> measure s' < measure s.
Proof.
  unfold measure. destruct a; simpl; intros H.
  - destruct (nth_error (nests s) i) as [p|] eqn:E; [|discriminate].
    pose proof (fun q => @sumz_upd _ rankN _ _ q _ E) as SU.
    destruct p; simpl in H;
      try (destruct (locked s); [discriminate|]);
      try (destruct ws as [|j ws]; [|try (destruct (nth_error (whens s) j) as [[]|] eqn:Ej; try discriminate)]);
      try discriminate; injection H as <-; simpl; rewrite ?SU;
      try rewrite (@sumz_upd _ rankW _ _ WDone _ Ej);
      try destruct (active s =? 1); simpl; try lia.
  - destruct (nth_error (whens s) j) as [p|] eqn:E; [|discriminate].
    pose proof (fun q => @sumz_upd _ rankW _ _ q _ E) as SU.
    destruct p; simpl in H;
      try (destruct (locked s); [discriminate|]);
      try (destruct (active s =? 0));
      try discriminate; injection H as <-; simpl; rewrite ?SU; simpl; try lia.
Qed.

Lemma runs_measure l : forall s s', runs l s = Some s' -> Z.of_nat (length l) + measure s' <= measure s.
Proof.
  induction l as [|a l IH]; simpl; intros s s' H; [injection H as <-; lia|].
  destruct (step a s) as [s1|] eqn:E; [|discriminate].
  pose proof (step_measure _ _ E). pose proof (IH _ _ H). lia.
Qed.

(** C31: every execution is finite ... *)
Theorem C31_terminates n m l s : runs l (init n m) = Some s ->
  (length l <= 7 * n + 6 * m)%nat.
Proof.
  intros H. apply runs_measure in H.
  assert (E : measure (init n m) = 7 * Z.of_nat n + 6 * Z.of_nat m).
  { unfold measure, init; cbn [nests whens]. assert (A : forall k, sumz rankN (repeat N0 k) = 7 * Z.of_nat k)
      by (induction k; cbn [repeat sumz rankN]; lia).
    assert (B : forall k, sumz rankW (repeat W0 k) = 6 * Z.of_nat k)
      by (induction k; cbn [repeat sumz rankW]; lia). rewrite A, B. lia. }
  assert (0 <= measure s).
  { unfold measure. assert (0 <= sumz rankN (nests s)) by (apply sumz_nonneg; intros []; simpl; lia).
    assert (0 <= sumz rankW (whens s)) by (apply sumz_nonneg; intros []; simpl; lia). lia. }
  lia.
Qed.

(** ... and one that cannot go on has run every nested operation to its end and
    has started the wrapped operation of every when_empty operation: nobody is
    forgotten in the waiter list, nobody waits for the mutex forever, and no
    notification reaches an operation that is not waiting. *)
Theorem C31_nobody_forgotten n m s : reachable n m s -> (forall a, step a s = None) ->
  (forall i, (i < n)%nat -> count (EUnlock i) (log s) = 1%nat) /\
  (forall j, (j < m)%nat -> count (ENotify j) (log s) = 1%nat).
Proof.
  intros R ST. pose proof (reach_inv R) as I. destruct R as [l H].
  destruct (runs_len _ _ H) as [Ln Lw]. simpl in Ln, Lw. rewrite repeat_length in Ln, Lw.
  assert (NL : forall i p, nth_error (nests s) i = Some p -> p = N2 /\ locked s = true \/ p = NDone).
  { intros i p E. pose proof (ST (ANest i)) as T. simpl in T. rewrite E in T.
    destruct p; simpl in T; try discriminate; auto.
    - destruct (locked s); [auto|discriminate].
    - destruct ws as [|j ws]; [discriminate|]. exfalso.
      assert (OJ : 0 < sumz (locN j) (nests s)).
      { pose proof (sumz_ge _ _ (locN_nn j) _ E) as G. simpl in G. rewrite occ_cons, Nat.eqb_refl in G.
        pose proof (occ_nn j ws). lia. }
      pose proof (i_occ I j) as G. pose proof (occ_nn j (waiters s)).
      pose proof (ST (AWhen j)) as U. simpl in U.
      destruct (nth_error (whens s) j) as [[]|] eqn:Ej; simpl in *; try lia; try discriminate. }
  assert (WL : forall j p, nth_error (whens s) j = Some p ->
     p = W0 /\ locked s = true \/ p = WWait \/ p = WDone).
  { intros j p E. pose proof (ST (AWhen j)) as T. simpl in T. rewrite E in T.
    destruct p; simpl in T; try discriminate; auto.
    - destruct (locked s); [auto|discriminate].
    - destruct (active s =? 0); discriminate. }
  assert (UL : locked s = false).
  { pose proof (i_lock I) as G. destruct (locked s) eqn:EL; [exfalso|reflexivity]. simpl in G.
    assert (sumz hN (nests s) = 0).
    { apply sumz_zero. intros x Hx. apply In_nth_error in Hx. destruct Hx as [k Hk].
      destruct (NL _ _ Hk) as [[-> _]| ->]; reflexivity. }
    assert (sumz hW (whens s) = 0).
    { apply sumz_zero. intros x Hx. apply In_nth_error in Hx. destruct Hx as [k Hk].
      destruct (WL _ _ Hk) as [[-> _]|[-> | ->]]; reflexivity. }
    lia. }
  assert (ND : forall i p, nth_error (nests s) i = Some p -> p = NDone).
  { intros i p E. destruct (NL _ _ E) as [[_ Q]|Q]; [congruence|exact Q]. }
  assert (Z0 : forall w : npc -> Z, w NDone = 0 -> sumz w (nests s) = 0).
  { intros w W0. apply sumz_zero. intros x Hx. apply In_nth_error in Hx. destruct Hx as [k Hk].
    rewrite (ND _ _ Hk). exact W0. }
  assert (WE : waiters s = []).
  { destruct (i_wait I) as [E|E]; [exact E|].
    rewrite (i_act I), (Z0 aN), (Z0 lastN) in E by reflexivity. lia. }
  split.
  - intros i Hi. rewrite (i_unl I). destruct (nth_error (nests s) i) as [p|] eqn:E.
    + rewrite (ND _ _ E). reflexivity.
    + apply nth_error_None in E. lia.
  - intros j Hj. rewrite (i_nt I). destruct (nth_error (whens s) j) as [p|] eqn:E.
    + destruct (WL _ _ E) as [[_ Q]|[-> | ->]]; [congruence| |reflexivity].
      pose proof (i_occ I j) as G. rewrite WE, E, (Z0 (locN j)) in G by reflexivity.
      simpl in G. change (occ j []) with 0 in G. lia.
    + apply nth_error_None in E. lia.
Qed.

(** ** Instances *)

(** Two nested operations; a when_empty operation waits for both. *)
Example ex_waits :
  option_map log (runs [ANest 0; ANest 1; AWhen 0; AWhen 0; AWhen 0; ANest 1; ANest 1; ANest 1; ANest 1;
                        ANest 0; ANest 0; ANest 0; ANest 0; ANest 0; ANest 0; ANest 0] (init 2 1))
  = Some [ENotify 0; EUnlock 0; ESub 0; EDone 0; EUnlock 1; ESub 1; EDone 1; EWStart 0; EAdd 1; EAdd 0].
Proof. vm_compute. reflexivity. Qed.

(** It lets go although a third operation was started in the meantime (the
    instant of emptiness is past): the notification says "was empty", not "is". *)
Example ex_restarted :
  option_map (fun s => (log s, active s))
    (runs [ANest 0; AWhen 0; AWhen 0; AWhen 0; ANest 0; ANest 0; ANest 0; ANest 1; ANest 0; ANest 0; ANest 0]
          (init 2 1))
  = Some ([ENotify 0; EUnlock 0; EAdd 1; ESub 0; EDone 0; EWStart 0; EAdd 0], 1).
Proof. vm_compute. reflexivity. Qed.

(** On an empty scope it lets go at once. *)
Example ex_empty :
  option_map log (runs [AWhen 0; AWhen 0; AWhen 0; AWhen 0] (init 0 1)) = Some [ENotify 0; EWStart 0].
Proof. vm_compute. reflexivity. Qed.

(** A state as in [C31_nobody_forgotten] is reachable. *)
Example ex_final : exists s, reachable 1 1 s /\ (forall a, step a s = None).
Proof.
  eexists. split.
  - exists [ANest 0; AWhen 0; AWhen 0; AWhen 0; ANest 0; ANest 0; ANest 0; ANest 0; ANest 0; ANest 0; ANest 0].
    vm_compute. reflexivity.
  - intros [[|[|i]]|[|[|j]]]; reflexivity.
Qed.

Print Assumptions C31_when_empty_only_when_empty.
Print Assumptions C31_at_most_once.
Print Assumptions C31_nested_once.
Print Assumptions C31_count_exact.
Print Assumptions C31_terminates.
Print Assumptions C31_nobody_forgotten.
