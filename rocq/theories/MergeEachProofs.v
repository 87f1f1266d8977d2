(** Invariant of the model of merge_each. *)
From Coq Require Import List ZArith Bool Arith Lia.
From Verif Require Import Conc MergeEachModel.
Import ListNotations.
Set Implicit Arguments.
Open Scope Z_scope.
Arguments Z.add : simpl never. Arguments Z.sub : simpl never. Arguments Z.of_nat : simpl never.

(** counted in [active] *)
Definition tokp (p : pc) : Z :=
  match p with P0 | PChk | PInc | PUnr | PFin | PEnd => 0 | _ => 1 end.
Definition finp (p : pc) : Z := match p with PUnr | PFin => 1 | _ => 0 end.
Definition holdp (p : pc) : Z := match p with PReqF _ | PStore _ => 1 | _ => 0 end.
Definition reqp (p : pc) : Z := match p with PReqF _ | PReqB => 1 | _ => 0 end.
Definition tok a := tokp (ap a).
Definition fin a := finp (ap a).
Definition hold a := holdp (ap a).
Definition req a := reqp (ap a).

Definition is_done (e : event) : bool := match e with EDone _ => true | _ => false end.
Definition dones (l : list event) : Z := Z.of_nat (cnt is_done l).
Lemma dones_cons e l : dones (e :: l) = (if is_done e then 1 else 0) + dones l.
Proof. unfold dones. cbn [cnt]. destruct (is_done e); lia. Qed.
Lemma dones_nn l : 0 <= dones l. Proof. unfold dones; lia. Qed.
Lemma tok_nn a : 0 <= tok a. Proof. unfold tok; destruct (ap a); simpl; lia. Qed.
Lemma fin_nn a : 0 <= fin a. Proof. unfold fin; destruct (ap a); simpl; lia. Qed.
Lemma hold_nn a : 0 <= hold a. Proof. unfold hold; destruct (ap a); simpl; lia. Qed.
Lemma req_nn a : 0 <= req a. Proof. unfold req; destruct (ap a); simpl; lia. Qed.

Definition fresh (p : pc) : Prop := p = P0 \/ p = PChk.
(** positions of an item before its next receiver completes *)
Definition early (p : pc) : Prop :=
  match p with PInc | PItem | PRun | PNext _ => True | _ => False end.

Definition failing (p : pc) : Prop := match p with PFail _ | PReqF _ | PStore _ => True | _ => False end.
Definition viaok (p : pc) (v : bool) : Prop :=
  match p with PRun => v = true | PInc | PItem => v = false | _ => True end.
Definition late (p : pc) : Prop :=
  match p with PBrk | PReqB | PDec | PUnr | PFin | PEnd => True | _ => False end.

(** the oldest error *)
Fixpoint first (l : list event) : option (nat * err) :=
  match l with
  | [] => None
  | EErr i e :: r => match first r with Some x => Some x | None => Some (i, e) end
  | _ :: r => first r
  end.

Record inv (s : state) : Prop := {
  i_out : exists o, nth_error (ags s) 0 = Some o /\ kd o = KOuter /\
            match ap o with PInc | PItem | PNext _ => False | _ => True end;
  i_kd : forall i a, nth_error (ags s) i = Some a ->
           match kd a with
           | KOuter => i = 0%nat /\ nx a = false
           | KSeq => i <> 0%nat /\ ~ fresh (ap a)
           | KVal p => i <> 0%nat /\ ~ fresh (ap a) /\ ap a <> PItem /\ exists b, nth_error (ags s) p = Some b /\ kd b = KSeq /\ via b = true
           end;
  i_act : active s = sumz tok (ags s);
  i_fin : forall o, nth_error (ags s) 0 = Some o ->
           (fresh (ap o) /\ length (ags s) = 1%nat /\ dones (log s) = 0 /\ cm s = CStarted /\ log s = []) \/
           (~ fresh (ap o) /\
            (sumz fin (ags s) + dones (log s) = 1 /\ sumz tok (ags s) = 0 \/
             sumz fin (ags s) + dones (log s) = 0 /\ 0 < sumz tok (ags s)));
  i_seq : forall i a o, nth_error (ags s) i = Some a -> kd a = KSeq -> nx a = false -> nth_error (ags s) 0 = Some o -> ap o = PRun;
  i_val : forall i a p b, nth_error (ags s) i = Some a -> kd a = KVal p -> nx a = false -> nth_error (ags s) p = Some b -> ap b = PRun;
  i_nx : forall i a, nth_error (ags s) i = Some a -> early (ap a) -> nx a = false;
  i_nv : forall i a, nth_error (ags s) i = Some a -> kd a <> KOuter -> kd a <> KSeq -> nx a = false -> early (ap a);
  i_ns : forall i a, nth_error (ags s) i = Some a -> kd a = KSeq -> failing (ap a) -> nx a = false;
  i_ne : forall i a, nth_error (ags s) i = Some a -> kd a = KSeq -> late (ap a) -> via a = true -> nx a = true;
  i_al : forall i a, nth_error (ags s) i = Some a -> alive a = false -> nx a = true;
  i_via : forall i a, nth_error (ags s) i = Some a -> kd a = KSeq -> viaok (ap a) (via a);
  i_cont : forall i a c, nth_error (ags s) i = Some a -> ap a = PNext c ->
           match kd a, c with KSeq, CFail _ => False | KSeq, _ => via a = true | KVal _, CBrk => False | KVal _, _ => True | KOuter, _ => False end
}.

Lemma init_inv u : inv (init u).
Proof.
  constructor; simpl.
  - exists (mka KOuter P0 false false true). simpl. auto.
  - intros [|[|i]] a H; simpl in H; try discriminate. injection H as <-. simpl. auto.
  - reflexivity.
  - intros o H. injection H as <-. left. unfold fresh, dones. simpl. auto 10.
  - intros [|[|i]] a o H; simpl in H; try discriminate. injection H as <-. discriminate.
  - intros [|[|i]] a p b H; simpl in H; try discriminate. injection H as <-. discriminate.
  - intros [|[|i]] a H; simpl in H; try discriminate. injection H as <-. intros [].
  - intros [|[|i]] a H; simpl in H; try discriminate. injection H as <-. simpl. congruence.
  - intros [|[|i]] a H; simpl in H; try discriminate. injection H as <-. discriminate.
  - intros [|[|i]] a H; simpl in H; try discriminate. injection H as <-. discriminate.
  - intros [|[|i]] a H; simpl in H; try discriminate. injection H as <-. discriminate.
  - intros [|[|i]] a H; simpl in H; try discriminate. injection H as <-. discriminate.
  - intros [|[|i]] a c H; simpl in H; try discriminate. injection H as <-. discriminate.
Qed.

(** One agent moves: what has to be checked. *)
Lemma move s i a a' s' :
  inv s -> nth_error (ags s) i = Some a -> ags s' = upd (ags s) i a' -> kd a' = kd a ->
  (via a = true -> via a' = true) ->
  (* the moved agent *)
  (kd a = KOuter -> nx a' = nx a /\ match ap a' with PInc | PItem | PNext _ => False | _ => True end) ->
  (kd a <> KOuter -> ~ fresh (ap a')) ->
  (forall p, kd a = KVal p -> ap a' <> PItem) ->
  active s' = active s - tok a + tok a' ->
  (forall o o', nth_error (ags s) 0 = Some o -> nth_error (ags s') 0 = Some o' ->
     (fresh (ap o') /\ fresh (ap o) /\ dones (log s') = dones (log s) /\ cm s' = cm s /\ log s' = log s) \/
     (~ fresh (ap o') /\
            (sumz fin (ags s') + dones (log s') = 1 /\ sumz tok (ags s') = 0 \/
             sumz fin (ags s') + dones (log s') = 0 /\ 0 < sumz tok (ags s')))) ->
  (nx a = true -> nx a' = true) ->
  (ap a = PRun -> ap a' = PRun \/ all_next i (ags s) = true) ->
  (early (ap a') -> nx a' = false) ->
  (kd a <> KOuter -> kd a <> KSeq -> nx a' = false -> early (ap a')) ->
  (kd a = KSeq -> failing (ap a') -> nx a' = false) ->
  (kd a = KSeq -> late (ap a') -> via a' = true -> nx a' = true) ->
  (alive a' = false -> nx a' = true) ->
  (kd a = KSeq -> viaok (ap a') (via a')) ->
  (forall c, ap a' = PNext c -> match kd a, c with KSeq, CFail _ => False | KSeq, _ => via a' = true | KVal _, CBrk => False | KVal _, _ => True | KOuter, _ => False end) ->
  inv s'.
Proof.
  intros I Ha Hu K V H1 H2 H3 H4 H5 H6 H7 H8 H9 H10 H11 H12 H13 H14.
  assert (N : forall j b, nth_error (ags s') j = Some b -> (j = i /\ b = a') \/ (j <> i /\ nth_error (ags s) j = Some b)).
  { intros j b H. rewrite Hu, (nth_upd _ _ _ _ Ha) in H. destruct (Nat.eqb_spec i j); [subst; injection H as <-; auto|auto]. }
  assert (N' : forall j b, nth_error (ags s) j = Some b -> exists b', nth_error (ags s') j = Some b' /\ kd b' = kd b /\ (via b = true -> via b' = true) /\ (j = i /\ b = a /\ b' = a' \/ j <> i /\ b' = b)).
  { intros j b H. rewrite Hu, (nth_upd _ _ _ _ Ha). destruct (Nat.eqb_spec i j); [subst|eauto 10].
    rewrite Ha in H; injection H as <-. eauto 10. }
  destruct (i_out I) as [o [O1 [O2 O3]]].
  (* a sequence whose item is outstanding keeps running *)
  assert (R : forall c b, nth_error (ags s) c = Some b -> nx b = false -> child_of i b = true -> ap a = PRun -> ap a' = PRun).
  { intros c b Hb Hn Hc Ep. destruct (H7 Ep) as [E|E]; [exact E|]. unfold all_next in E.
    rewrite forallb_forall in E. specialize (E b (nth_error_In _ _ Hb)). rewrite Hc, Hn in E. discriminate. }
  constructor.
  - destruct (N' _ _ O1) as [o' [P1 [P2 [_ P3]]]]. exists o'. split; [exact P1|]. split; [congruence|].
    destruct P3 as [[_ [-> ->]]|[_ ->]]; [|exact O3]. apply H1; exact O2.
  - intros j b H. destruct (N _ _ H) as [[-> ->]|[Nj Hb]].
    + rewrite K. pose proof (i_kd I _ Ha) as X. destruct (kd a) eqn:Ek; simpl in X.
      * destruct X. destruct (H1 eq_refl). split; [auto|congruence].
      * destruct X. split; [auto|]. apply H2; discriminate.
      * destruct X as [X1 [X2 [X3 [b [X4 [X5 X6]]]]]]. split; [auto|]. split; [apply H2; discriminate|].
        split; [eapply H3; reflexivity|]. destruct (N' _ _ X4) as [b' [Y1 [Y2 [Y3 _]]]]. exists b'. split; [exact Y1|]. split; [congruence|auto].
    + pose proof (i_kd I _ Hb) as X. destruct (kd b) eqn:Ek; auto.
      destruct X as [X1 [X2 [X3 [b2 [X4 [X5 X6]]]]]]. split; [auto|]. split; [auto|]. split; [auto|].
      destruct (N' _ _ X4) as [b' [Y1 [Y2 [Y3 _]]]]. exists b'. split; [exact Y1|]. split; [congruence|auto].
  - rewrite H4, (i_act I), Hu, (@sumz_upd _ tok _ _ a' _ Ha). lia.
  - intros o' Ho'. destruct (H5 _ _ O1 Ho') as [[A1 [A2 [A3 [A4 A5]]]]|A]; [left|right; exact A].
    destruct (i_fin I O1) as [[_ [B1 [B2 [B3 B4]]]]|[B _]]; [|contradiction].
    rewrite A3, A4, A5, Hu, upd_length. auto 10.
  - intros j b o' H E1 E2 Ho'.
    assert (J : exists b0, nth_error (ags s) j = Some b0 /\ kd b0 = KSeq /\ nx b0 = false).
    { destruct (N _ _ H) as [[-> ->]|[Nj Hb]]; [|eauto]. exists a. split; [exact Ha|]. split; [congruence|]. destruct (nx a); auto. rewrite H6 in E2; auto. }
    destruct J as [b0 [J1 [J2 J3]]]. pose proof (i_seq I _ J1 J2 J3 O1) as Ro.
    destruct (N _ _ Ho') as [[Z ->]|[Nz Ho]].
    + subst i. assert (a = o) by congruence. subst a. eapply R; eauto. unfold child_of. rewrite J2. reflexivity.
    + congruence.
  - intros j b p b2 H E1 E2 H2'.
    assert (J : exists b0, nth_error (ags s) j = Some b0 /\ kd b0 = KVal p /\ nx b0 = false).
    { destruct (N _ _ H) as [[-> ->]|[Nj Hb]]; [|eauto]. exists a. split; [exact Ha|]. split; [congruence|]. destruct (nx a); auto. rewrite H6 in E2; auto. }
    destruct J as [b0 [J1 [J2 J3]]].
    destruct (N _ _ H2') as [[Z ->]|[Nz Hp]].
    + subst p. pose proof (i_val I _ J1 J2 J3 Ha) as Ro. eapply R; eauto. unfold child_of. rewrite J2. apply Nat.eqb_refl.
    + exact (i_val I _ J1 J2 J3 Hp).
  - intros j b H E. destruct (N _ _ H) as [[-> ->]|[Nj Hb]]; [auto|exact (i_nx I _ Hb E)].
  - intros j b H E1 E2 E3. destruct (N _ _ H) as [[-> ->]|[Nj Hb]]; [|exact (i_nv I _ Hb E1 E2 E3)].
    apply H9; auto; congruence.
  - intros j b H E1 E2. destruct (N _ _ H) as [[-> ->]|[Nj Hb]]; [|exact (i_ns I _ Hb E1 E2)].
    apply H10; [congruence|exact E2].
  - intros j b H E1 E2 E3. destruct (N _ _ H) as [[-> ->]|[Nj Hb]]; [|exact (i_ne I _ Hb E1 E2 E3)].
    apply H11; auto; congruence.
  - intros j b H E. destruct (N _ _ H) as [[-> ->]|[Nj Hb]]; [auto|exact (i_al I _ Hb E)].
  - intros j b H E1. destruct (N _ _ H) as [[-> ->]|[Nj Hb]]; [|exact (i_via I _ Hb E1)]. apply H13; congruence.
  - intros j b c H E. destruct (N _ _ H) as [[-> ->]|[Nj Hb]]; [|exact (i_cont I _ Hb E)].
    rewrite K. exact (H14 _ E).
Qed.

Lemma nth_snoc A (l : list A) x j b : nth_error (l ++ [x]) j = Some b -> (j = length l /\ b = x) \/ nth_error l j = Some b.
Proof.
  intros H. destruct (Nat.lt_ge_cases j (length l)) as [L|L].
  - rewrite nth_error_app1 in H; auto.
  - rewrite nth_error_app2 in H; auto. destruct (j - length l)%nat eqn:E; simpl in H.
    + left. split; [lia|congruence].
    + destruct n; discriminate.
Qed.
Lemma nth_old A (l : list A) x j b : nth_error l j = Some b -> nth_error (l ++ [x]) j = Some b.
Proof. intros H. rewrite nth_error_app1; auto. apply nth_error_Some. congruence. Qed.

(** a sequence starts an item *)
Lemma new_item s i o k : inv s -> nth_error (ags s) i = Some o -> ap o = PRun ->
  (kd o = KOuter /\ k = KSeq \/ kd o = KSeq /\ k = KVal i) ->
  inv (add_ag s (mka k PInc false false true)).
Proof.
  intros I Ho Hr Hk. set (v := mka k PInc false false true).
  assert (Kv : k <> KOuter) by (destruct Hk as [[_ ->]|[_ ->]]; discriminate).
  assert (L : (0 < length (ags s))%nat) by (destruct (i_out I) as [x [X _]]; destruct (ags s); [discriminate|simpl; lia]).
  destruct (i_out I) as [o0 [O1 [O2 O3]]].
  assert (T : 1 <= sumz tok (ags s)).
  { pose proof (sumz_ge tok (ags s) tok_nn i Ho). unfold tok at 1 in H. rewrite Hr in H. simpl in H. lia. }
  constructor; cbn [ags add_ag active log cm].
  - exists o0. split; [apply nth_old; exact O1|auto].
  - intros j b H. destruct (nth_snoc _ _ _ H) as [[-> ->]|Hb].
    + simpl. destruct Hk as [[A ->]|[A ->]].
      * split; [lia|]. intros [|]; discriminate.
      * split; [lia|]. split; [intros [|]; discriminate|]. split; [discriminate|]. exists o. split; [apply nth_old; exact Ho|].
        split; [exact A|]. pose proof (i_via I _ Ho A) as X. rewrite Hr in X. exact X.
    + pose proof (i_kd I _ Hb) as X. destruct (kd b); auto.
      destruct X as [X1 [X2 [X3 [b2 [X4 X5]]]]]. split; [auto|]. split; [auto|]. split; [auto|]. exists b2. split; [apply nth_old; exact X4|exact X5].
  - rewrite sumz_app. simpl. rewrite (i_act I). unfold tok at 3. simpl. lia.
  - intros o' H. destruct (nth_snoc _ _ _ H) as [[E _]|Hb]; [lia|].
    rewrite !sumz_app. simpl. unfold tok at 2 4, fin at 2 4. simpl.
    destruct (i_fin I Hb) as [[A [B _]]|[A [B|B]]].
    + exfalso. destruct i as [|i].
      * assert (o = o') by congruence. subst. rewrite Hr in A. destruct A; discriminate.
      * assert (S i < length (ags s))%nat by (apply nth_error_Some; congruence). lia.
    + lia.
    + right. split; [exact A|]. right. lia.
  - intros j b o' H E1 E2 H0. destruct (nth_snoc _ _ _ H0) as [[E _]|H0']; [lia|].
    destruct (nth_snoc _ _ _ H) as [[-> ->]|Hb]; [|exact (i_seq I _ Hb E1 E2 H0')].
    simpl in E1. destruct Hk as [[A B]|[A B]]; [|congruence].
    pose proof (i_kd I _ Ho) as X. rewrite A in X. destruct X as [-> _]. congruence.
  - intros j b p b2 H E1 E2 H0. destruct (nth_snoc _ _ _ H) as [[-> ->]|Hb].
    + simpl in E1. destruct Hk as [[A B]|[A B]]; [congruence|]. assert (p = i) by congruence. subst p.
      rewrite (nth_old _ v _ Ho) in H0. congruence.
    + pose proof (i_kd I _ Hb) as X. rewrite E1 in X. destruct X as [_ [_ [_ [c [X _]]]]].
      pose proof (nth_old _ v _ X) as Y. rewrite Y in H0. injection H0 as <-. exact (i_val I _ Hb E1 E2 X).
  - intros j b H E. destruct (nth_snoc _ _ _ H) as [[-> ->]|Hb]; [reflexivity|exact (i_nx I _ Hb E)].
  - intros j b H E1 E2 E3. destruct (nth_snoc _ _ _ H) as [[-> ->]|Hb]; [exact Logic.I|exact (i_nv I _ Hb E1 E2 E3)].
  - intros j b H E1 E2. destruct (nth_snoc _ _ _ H) as [[-> ->]|Hb]; [reflexivity|exact (i_ns I _ Hb E1 E2)].
  - intros j b H E1 E2 E3. destruct (nth_snoc _ _ _ H) as [[-> ->]|Hb]; [destruct E2|exact (i_ne I _ Hb E1 E2 E3)].
  - intros j b H E. destruct (nth_snoc _ _ _ H) as [[-> ->]|Hb]; [discriminate|exact (i_al I _ Hb E)].
  - intros j b H E1. destruct (nth_snoc _ _ _ H) as [[-> ->]|Hb]; [reflexivity|exact (i_via I _ Hb E1)].
  - intros j b c H E. destruct (nth_snoc _ _ _ H) as [[-> ->]|Hb]; [discriminate|exact (i_cont I _ Hb E)].
Qed.

(** the last disjunct of [move]: a step that starts from a running position *)
Lemma fin_move s i a a' s' : inv s -> nth_error (ags s) i = Some a -> ags s' = upd (ags s) i a' ->
  ~ fresh (ap a) -> ~ fresh (ap a') ->
  (fin a' + dones (log s') - fin a - dones (log s) = 0 /\ tok a' = tok a \/
   sumz tok (ags s) = 1 /\ tok a = 1 /\ tok a' = 0 /\ fin a = 0 /\ fin a' = 1 /\ dones (log s') = dones (log s) \/
   1 < sumz tok (ags s) /\ tok a = 1 /\ tok a' = 0 /\ fin a = 0 /\ fin a' = 0 /\ dones (log s') = dones (log s) \/
   0 < sumz tok (ags s) /\ tok a = 0 /\ tok a' = 1 /\ fin a = 0 /\ fin a' = 0 /\ dones (log s') = dones (log s)) ->
  forall o o', nth_error (ags s) 0 = Some o -> nth_error (ags s') 0 = Some o' ->
     (fresh (ap o') /\ fresh (ap o) /\ dones (log s') = dones (log s) /\ cm s' = cm s /\ log s' = log s) \/
     (~ fresh (ap o') /\
            (sumz fin (ags s') + dones (log s') = 1 /\ sumz tok (ags s') = 0 \/
             sumz fin (ags s') + dones (log s') = 0 /\ 0 < sumz tok (ags s'))).
Proof.
  intros I Ha Hu F F' C o o' Ho Ho'. right.
  assert (Fo : ~ fresh (ap o)).
  { intros X. destruct (i_fin I Ho) as [[_ [A _]]|[A _]]; [|contradiction].
    assert (i < length (ags s))%nat by (apply nth_error_Some; congruence).
    assert (i = 0)%nat by lia. subst i. congruence. }
  split.
  - rewrite Hu, (nth_upd _ _ _ _ Ha) in Ho'. destruct (Nat.eqb_spec i 0); [injection Ho' as <-; exact F'|congruence].
  - rewrite Hu, (@sumz_upd _ tok _ _ a' _ Ha), (@sumz_upd _ fin _ _ a' _ Ha).
    pose proof (dones_nn (log s)). pose proof (dones_nn (log s')). pose proof (sumz_nonneg fin (ags s) fin_nn).
    destruct (i_fin I Ho) as [[A _]|[_ B]]; [contradiction|]. lia.
Qed.

Ltac pr := cbn [ags active cm ex stor nstop preq cb unst log set_ag add_ag set_active set_cm set_ex set_stor set_nstop set_preq
                set_cb emit w_ap kd ap nx via alive] in *.
Ltac facts I Ha :=
  pose proof (i_kd I _ Ha); pose proof (i_nx I _ Ha); pose proof (i_nv I _ Ha); pose proof (i_ns I _ Ha);
  pose proof (i_ne I _ Ha); pose proof (i_al I _ Ha); pose proof (i_via I _ Ha); pose proof (fun c => i_cont I _ (c:=c) Ha).

Lemma request_ags s : ags (request s) = ags s. Proof. unfold request. destruct (unst s); reflexivity. Qed.
Lemma request_active s : active (request s) = active s. Proof. unfold request. destruct (unst s); reflexivity. Qed.
Lemma request_log s : log (request s) = log s. Proof. unfold request. destruct (unst s); reflexivity. Qed.
Lemma request_cm s : cm (request s) = cm s. Proof. unfold request. destruct (unst s); reflexivity. Qed.
Lemma request_ex s : ex (request s) = ex s. Proof. unfold request. destruct (unst s); reflexivity. Qed.
Lemma request_stor s : stor (request s) = stor s. Proof. unfold request. destruct (unst s); reflexivity. Qed.

Ltac un := unfold tok, fin, hold, req, fresh, early, late, failing, viaok in *; pr; rewrite ?request_ags, ?request_active, ?request_log in *;
  repeat match goal with E : ap ?a = _ |- _ => rewrite E in *; revert E end; intros; cbn [tokp finp holdp reqp] in *.
Ltac side := try solve [un; first [reflexivity | assumption | lia | congruence | tauto | intuition congruence |
   intros; un; intuition congruence |
   match goal with |- context [kd ?a] => destruct (kd a) eqn:?; un; intuition congruence end]].
Ltac simpa x :=
  match goal with I : inv ?s, Ha : nth_error (ags ?s) ?i = Some ?a |- inv _ =>
    eapply (@move s i a x); [exact I|exact Ha|pr; rewrite ?request_ags; reflexivity|reflexivity|side..];
    try solve [eapply (@fin_move s i a x); [exact I|exact Ha|pr; rewrite ?request_ags; reflexivity|un..];
               try solve [intuition congruence]; pr; rewrite ?dones_cons; cbn [is_done]; lia];
    try solve [intros ? Hc; pr; injection Hc as <-; destruct (kd a) eqn:?; un; intuition congruence]
  end.
Ltac simp p := match goal with I : inv ?s, Ha : nth_error (ags ?s) ?i = Some ?a |- inv _ => simpa (w_ap a p) end.
Lemma lib_inv s i a s' : inv s -> nth_error (ags s) i = Some a -> lib i a s = Some s' -> inv s'.
Proof.
  intros I Ha H. destruct (i_out I) as [o [O1 [O2 O3]]].
  pose proof (sumz_ge tok (ags s) tok_nn _ Ha) as T.
  facts I Ha.
  unfold lib in H. destruct (ap a) eqn:Ea; try discriminate H.
  - (* PChk *)
    assert (Ei : i = 0%nat) by (destruct (kd a); unfold fresh in *; rewrite ?Ea in *; intuition congruence). subst i.
    assert (a = o) by congruence. subst a. rewrite O2 in *.
    destruct (i_fin I Ha) as [[A [B [C [D E]]]]|[A _]]; [|unfold fresh in A; tauto].
    assert (Ez : sumz tok (ags s) = 0 /\ sumz fin (ags s) = 0).
    { destruct (ags s) as [|x [|y l]]; try discriminate B. simpl in Ha. injection Ha as ->. simpl. unfold tok, fin. rewrite Ea. simpl. lia. }
    pose proof (i_act I) as Ac.
    destruct (negb (unst s) && nstop s); injection H as <-.
    + eapply (@move s 0 o (w_ap o PEnd)); [exact I|exact Ha|reflexivity|reflexivity|side..].
      intros o1 o2 X1 X2. right. pr. rewrite (nth_upd _ _ _ _ Ha) in X2. simpl in X2. injection X2 as <-. pr.
      split; [intros [|]; discriminate|]. left. rewrite (@sumz_upd _ tok _ _ (w_ap o PEnd) _ Ha), (@sumz_upd _ fin _ _ (w_ap o PEnd) _ Ha), dones_cons.
      un. simpl. lia.
    + eapply (@move s 0 o (w_ap o PRun)); [exact I|exact Ha|reflexivity|reflexivity|side..].
      * intros o1 o2 X1 X2. right. pr. rewrite (nth_upd _ _ _ _ Ha) in X2. simpl in X2. injection X2 as <-. pr.
        split; [intros [|]; discriminate|]. right. rewrite (@sumz_upd _ tok _ _ (w_ap o PRun) _ Ha), (@sumz_upd _ fin _ _ (w_ap o PRun) _ Ha).
        un. simpl. lia.
  - (* PInc *)
    injection H as <-.
    assert (Ps : 0 < sumz tok (ags s)).
    { assert (exists j b, nth_error (ags s) j = Some b /\ ap b = PRun) as [j [b [B1 B2]]].
      { destruct (kd a) eqn:Ek.
        - assert (a = o) by (destruct H0; congruence). subst. rewrite Ea in O3. destruct O3.
        - exists 0%nat, o. split; [exact O1|]. exact (i_seq I _ Ha Ek (H1 Logic.I) O1).
        - destruct H0 as [_ [_ [_ [b [B1 _]]]]]. exists p, b. split; [exact B1|]. exact (i_val I _ Ha Ek (H1 Logic.I) B1). }
      pose proof (sumz_ge tok (ags s) tok_nn _ B1) as Q. unfold tok at 1 in Q. rewrite B2 in Q. simpl in Q. lia. }
    destruct (kd a) eqn:Ek.
    + assert (a = o) by (destruct H0; congruence). subst. rewrite Ea in O3. destruct O3.
    + simp PItem.
    + simp PRun.
  - (* PNext *)
    injection H as <-. pose proof (H7 _ eq_refl) as H8.
    destruct (kd a) eqn:Ek; [destruct H8| |]; destruct c; try contradiction; rewrite <- Ek;
      match goal with |- context [set_ag _ _ ?x] => simpa x end.
  - (* PFail *)
    injection H as <-. destruct (cm s) eqn:Ec; [simp (PReqF e)| |simp (PStore e)].
    unfold after_fail. destruct (kd a) eqn:Ek; [simp PBrk|destruct (via a) eqn:Ev; [simp (PNext CBrk)|simp PBrk]|simp PBrk].
  - (* PReqF *) injection H as <-. simp (PStore e).
  - (* PStore *)
    unfold after_fail in H. destruct (kd a) eqn:Ek; injection H as <-.
    + simp PBrk.
    + assert (Al : alive a = true) by (destruct (alive a) eqn:Eal; auto; un; intuition congruence).
      rewrite Al. destruct (via a) eqn:Ev; [simp (PNext CBrk)|simp PBrk].
    + destruct (alive a) eqn:Eal; simp PBrk.
  - (* PBrk *) destruct (cm s); injection H as <-; [simp PReqB|simp PDec|simp PDec].
  - (* PReqB *) injection H as <-. simp PDec.
  - (* PDec *)
    injection H as <-. pose proof (i_act I) as Ac. unfold tok at 1 in T. rewrite Ea in T. simpl in T. destruct (Z.eqb_spec (active s) 1).
    + simp PUnr.
    + simp PEnd.
  - (* PUnr *) injection H as <-. simp PFin.
  - (* PFin *) injection H as <-. simp PEnd.
Qed.

Lemma user_inv s i a r s' : inv s -> nth_error (ags s) i = Some a -> user i a r (emit s (EUser i r)) = Some s' -> inv s'.
Proof.
  intros I Ha H. destruct (i_out I) as [o [O1 [O2 O3]]].
  pose proof (sumz_ge tok (ags s) tok_nn _ Ha) as T.
  facts I Ha.
  unfold user in H. destruct (ap a) eqn:Ea; try discriminate H.
  - destruct (kd a) eqn:Ek.
    + assert (a = o) by (destruct H0; congruence). subst. rewrite Ea in O3. destruct O3.
    + destruct r; injection H as <-.
      * rewrite <- Ek. match goal with |- context [set_ag _ _ ?x] => simpa x end.
      * simp (PFail e).
      * assert (via a = false \/ via a = true) as [Ev|Ev] by (destruct (via a); auto).
        -- simp PDec.
        -- simp PDec.
    + un. tauto.
  - cbn [ags emit] in H. destruct (all_next i (ags s)) eqn:An; [|discriminate H].
    destruct (kd a) eqn:Ek, r; injection H as <-;
      match goal with |- context [set_ag _ _ ?x] => simpa x end.
Qed.
