(** merge_each: what the log says. *)
From Coq Require Import List ZArith Bool Arith Lia.
From Verif Require Import Conc MergeEachModel MergeEachProofs MergeEachProofs2.
Import ListNotations.
Set Implicit Arguments.
Open Scope Z_scope.
Arguments Z.add : simpl never. Arguments Z.sub : simpl never. Arguments Z.of_nat : simpl never.

Lemma done_pos d l : In (EDone d) l -> 1 <= dones l.
Proof.
  intros H. unfold dones. enough (0 < cnt is_done l)%nat by lia. apply cnt_pos. exists (EDone d). auto.
Qed.
(** after the completion every agent has ended *)
Lemma quiet s : inv s -> 1 <= dones (log s) -> forall i a, nth_error (ags s) i = Some a -> ap a = PEnd.
Proof.
  intros I D. destruct (i_out I) as [o [O1 [O2 O3]]].
  destruct (i_fin I O1) as [[_ [_ [A _]]]|[A B]]; [lia|].
  pose proof (sumz_nonneg fin (ags s) fin_nn).
  assert (T : sumz tok (ags s) = 0 /\ sumz fin (ags s) = 0) by lia.
  assert (Q : forall i a, nth_error (ags s) i = Some a -> tok a = 0 /\ fin a = 0).
  { intros i a Ha. pose proof (sumz_ge tok _ tok_nn _ Ha). pose proof (sumz_ge fin _ fin_nn _ Ha). pose proof (tok_nn a). pose proof (fin_nn a). lia. }
  intros i a Ha. destruct (Q _ _ Ha) as [Q1 Q2]. unfold tok, fin in Q1, Q2. pose proof (i_kd I _ Ha) as K.
  destruct (ap a) eqn:Ea; try discriminate; auto; exfalso.
  - destruct (kd a); unfold fresh in K; try tauto. destruct K as [-> _]. assert (o = a) by congruence. subst. unfold fresh in A. tauto.
  - destruct (kd a); unfold fresh in K; try tauto. destruct K as [-> _]. assert (o = a) by congruence. subst. unfold fresh in A. tauto.
  - assert (Nx : nx a = false) by (apply (i_nx I _ Ha); rewrite Ea; exact Logic.I).
    destruct (kd a) eqn:Ek.
    + destruct K as [-> _]. assert (o = a) by congruence. subst. rewrite Ea in O3. exact O3.
    + pose proof (i_seq I _ Ha Ek Nx O1) as X. destruct (Q _ _ O1) as [Y _]. unfold tok in Y. rewrite X in Y. discriminate.
    + destruct K as [_ [_ [_ [b [B1 _]]]]]. pose proof (i_val I _ Ha Ek Nx B1) as X. destruct (Q _ _ B1) as [Y _]. unfold tok in Y. rewrite X in Y. discriminate.
Qed.
(** ... and nothing happens any more *)
Lemma after_done s a s' : inv s -> 1 <= dones (log s) -> step a s = Some s' ->
  log s' = log s /\ cm s' = cm s /\ ex s' = ex s /\ stor s' = stor s /\
  (a = AStopReq /\ ags s' = ags s \/
   exists i b, a = ADestroy i /\ nth_error (ags s) i = Some b /\ ags s' = upd (ags s) i (mka (kd b) (ap b) (nx b) (via b) false)).
Proof.
  intros I D H. pose proof (quiet I D) as Q.
  steps H; try (exfalso; match goal with Ha : nth_error _ _ = Some _, E : ap _ = _ |- _ => rewrite (Q _ _ Ha) in E; discriminate E end).
  - injection H as <-. destruct (cb s); simpl; auto 10.
  - injection H as <-. simpl. repeat split; auto. right. exists i, a. auto.
Qed.

Record uinv (s : state) : Prop := {
  u_err : forall i e, In (EUser i (RErr e)) (log s) ->
            exists a, nth_error (ags s) i = Some a /\ (In (EErr i e) (log s) \/ ap a = PNext (CFail e) \/ ap a = PFail e);
  u_stop : In (EUser 0 RStop) (log s) -> exists a, nth_error (ags s) 0 = Some a /\ (ap a = PBrk \/ cm s <> CStarted);
  u_cm : cm s = CStopped -> In (EUser 0 RStop) (log s);
  u_brk : forall i a, nth_error (ags s) i = Some a -> ap a = PBrk \/ ap a = PNext CBrk -> cm s = CError \/ In (EUser 0 RStop) (log s);
  u_out : forall o, nth_error (ags s) 0 = Some o -> ~ fresh (ap o) -> ap o <> PRun ->
            (exists r, In (EUser 0 r) (log s)) \/ log s = [EDone DStopped];
  u_src : forall i a e, nth_error (ags s) i = Some a -> ap a = PNext (CFail e) \/ ap a = PFail e -> In (EUser i (RErr e)) (log s);
  u_log : forall i e, In (EErr i e) (log s) -> In (EUser i (RErr e)) (log s)
}.

Lemma u_move s s' i a a' new : inv s -> uinv s -> dones (log s) = 0 -> nth_error (ags s) i = Some a -> ags s' = upd (ags s) i a' ->
  log s' = new ++ log s ->
  (forall e, ap a = PNext (CFail e) \/ ap a = PFail e -> (ap a' = PNext (CFail e) \/ ap a' = PFail e) \/ In (EErr i e) new) ->
  (forall j e, In (EUser j (RErr e)) new -> j = i /\ (ap a' = PNext (CFail e) \/ ap a' = PFail e)) ->
  (forall j e, In (EErr j e) new -> j = i /\ (ap a = PNext (CFail e) \/ ap a = PFail e)) ->
  (cm s <> CStarted -> cm s' <> CStarted) ->
  (i = 0%nat -> ap a = PBrk -> ap a' = PBrk \/ cm s' <> CStarted) ->
  (forall j, In (EUser j RStop) new -> j = i /\ (i = 0%nat -> ap a' = PBrk)) ->
  (cm s' = CStopped -> cm s = CStopped \/ (cm s <> CError /\ ap a = PBrk)) ->
  (cm s = CError -> cm s' = CError) ->
  (ap a' = PBrk \/ ap a' = PNext CBrk -> ap a = PBrk \/ ap a = PNext CBrk \/ cm s' = CError \/ In (EUser 0 RStop) new) ->
  (i = 0%nat -> ~ fresh (ap a') -> ap a' <> PRun -> (~ fresh (ap a) /\ ap a <> PRun) \/ (exists r, In (EUser 0 r) new) \/ (log s = [] /\ new = [EDone DStopped])) ->
  (forall e, ap a' = PNext (CFail e) \/ ap a' = PFail e -> (ap a = PNext (CFail e) \/ ap a = PFail e) \/ In (EUser i (RErr e)) new) ->
  uinv s'.
Proof.
  intros I U Dz Ha Hu Hl C1 C2 C3 C4 C5 C6 C7 C8 C9 C10 C11. destruct U as [A B C D E F G].
  assert (N : forall j b, nth_error (ags s') j = Some b -> (j = i /\ b = a') \/ (j <> i /\ nth_error (ags s) j = Some b)).
  { intros j b H. rewrite Hu, (nth_upd _ _ _ _ Ha) in H. destruct (Nat.eqb_spec i j); [subst; injection H as <-; auto|auto]. }
  assert (N' : forall j b, nth_error (ags s) j = Some b -> exists b', nth_error (ags s') j = Some b' /\ (j = i /\ b = a /\ b' = a' \/ j <> i /\ b' = b)).
  { intros j b H. rewrite Hu, (nth_upd _ _ _ _ Ha). destruct (Nat.eqb_spec i j); [subst|eauto 10].
    rewrite Ha in H; injection H as <-. eauto 10. }
  assert (M : forall e, In e (log s) -> In e (log s')) by (intros e H; rewrite Hl; apply in_or_app; auto).
  assert (W : forall e, In e new -> In e (log s')) by (intros e H; rewrite Hl; apply in_or_app; auto).
  assert (L : forall e, In e (log s') -> In e new \/ In e (log s)) by (intros e H; rewrite Hl in H; apply in_app_or in H; exact H).
  destruct (i_out I) as [o [O1 _]].
  constructor.
  - intros j e H. destruct (L _ H) as [H'|H'].
    + destruct (C2 _ _ H') as [-> K]. exists a'. split; [rewrite Hu; apply (nth_upd_same _ _ _ Ha)|auto].
    + destruct (A _ _ H') as [b [B1 B2]]. destruct (N' _ _ B1) as [b' [P1 P2]]. exists b'. split; [exact P1|].
      destruct P2 as [[-> [-> ->]]|[_ ->]]; [|destruct B2 as [B2|B2]; auto].
      destruct B2 as [B2|B2]; [auto|]. destruct (C1 _ B2); auto.
  - intros H. destruct (L _ H) as [H'|H'].
    + destruct (C6 _ H') as [<- K]. exists a'. split; [rewrite Hu; apply (nth_upd_same _ _ _ Ha)|auto].
    + destruct (B H') as [b [B1 B2]]. destruct (N' _ _ B1) as [b' [P1 P2]]. exists b'. split; [exact P1|].
      destruct P2 as [[P2 [-> ->]]|[_ ->]]; destruct B2 as [B2|B2]; auto.
  - intros H. destruct (C7 H) as [K|[K1 K2]]; [auto|]. apply M. destruct (D _ _ Ha (or_introl K2)); [contradiction|auto].
  - intros j b H K. destruct (N _ _ H) as [[-> ->]|[Nj Hb]].
    + destruct (C9 K) as [K'|[K'|[K'|K']]]; auto.
      * destruct (D _ _ Ha (or_introl K')) as [Q|Q]; auto.
      * destruct (D _ _ Ha (or_intror K')) as [Q|Q]; auto.
    + destruct (D _ _ Hb K); auto.
  - intros o' H K1 K2. 
    assert (X : (exists r, In (EUser 0 r) (log s)) \/ (exists r, In (EUser 0 r) new) \/ (log s = [] /\ new = [EDone DStopped])).
    { destruct (N _ _ H) as [[Z ->]|[Nj Hb]].
      - subst i. destruct (C10 eq_refl K1 K2) as [[X1 X2]|X]; [|auto].
        destruct (E _ Ha X1 X2) as [Y|Y]; [auto|]. exfalso. rewrite Y in Dz. discriminate.
      - destruct (E _ Hb K1 K2) as [Y|Y]; [auto|]. exfalso. rewrite Y in Dz. discriminate. }
    destruct X as [[r X]|[[r X]|[X1 X2]]]; [left; eauto|left; eauto|right; rewrite Hl, X1, X2; reflexivity].
  - intros j b e H K. destruct (N _ _ H) as [[-> ->]|[Nj Hb]]; [|eauto]. destruct (C11 _ K); eauto.
  - intros j e H. destruct (L _ H) as [H'|H'].
    + destruct (C3 _ _ H') as [-> K]. eauto.
    + eauto.
Qed.

Lemma u_add s v : inv s -> uinv s -> ap v = PInc -> uinv (add_ag s v).
Proof.
  intros I [A B C D E F G] V. destruct (i_out I) as [o [O1 _]].
  constructor; cbn [log ags cm add_ag]; auto.
  - intros j e H. destruct (A _ _ H) as [b [B1 B2]]. exists b. split; [apply nth_old; exact B1|exact B2].
  - intros H. destruct (B H) as [b [B1 B2]]. exists b. split; [apply nth_old; exact B1|exact B2].
  - intros j b H K. destruct (nth_snoc _ _ _ H) as [[-> ->]|Hb]; [rewrite V in K; destruct K; discriminate|eauto].
  - intros o' H. rewrite (nth_old _ v _ O1) in H. injection H as <-. exact (E _ O1).
  - intros j b e H K. destruct (nth_snoc _ _ _ H) as [[-> ->]|Hb]; [rewrite V in K; destruct K; discriminate|eauto].
Qed.

Lemma u_same s s' : uinv s -> log s' = log s -> cm s' = cm s ->
  (ags s' = ags s \/ exists i b, nth_error (ags s) i = Some b /\ ags s' = upd (ags s) i (mka (kd b) (ap b) (nx b) (via b) false)) -> uinv s'.
Proof.
  intros [A B C D E F G] El Ec Eg.
  assert (N : forall j b, nth_error (ags s') j = Some b -> exists c, nth_error (ags s) j = Some c /\ ap c = ap b).
  { intros j b H. destruct Eg as [Eg|[i [c [Hc Eg]]]]; rewrite Eg in H; [eauto|].
    rewrite (nth_upd _ _ _ _ Hc) in H. destruct (Nat.eqb_spec i j); [subst; injection H as <-; simpl; eauto|eauto]. }
  assert (N' : forall j b, nth_error (ags s) j = Some b -> exists c, nth_error (ags s') j = Some c /\ ap c = ap b).
  { intros j b H. destruct Eg as [Eg|[i [c [Hc Eg]]]]; rewrite Eg; [eauto|].
    rewrite (nth_upd _ _ _ _ Hc). destruct (Nat.eqb_spec i j); [subst|eauto]. rewrite Hc in H. injection H as <-. eexists. split; [reflexivity|reflexivity]. }
  constructor; rewrite ?El, ?Ec; auto.
  - intros j e H. destruct (A _ _ H) as [b [B1 B2]]. destruct (N' _ _ B1) as [c [P1 P2]]. exists c. rewrite P2. auto.
  - intros H. destruct (B H) as [b [B1 B2]]. destruct (N' _ _ B1) as [c [P1 P2]]. exists c. rewrite P2. auto.
  - intros j b H K. destruct (N _ _ H) as [c [P1 P2]]. apply (D _ _ P1). rewrite P2. exact K.
  - intros o H K1 K2. destruct (N _ _ H) as [c [P1 P2]]. apply (E _ P1); rewrite P2; auto.
  - intros j b e H K. destruct (N _ _ H) as [c [P1 P2]]. apply (F _ _ _ P1). rewrite P2. exact K.
Qed.

Ltac umove new :=
  match goal with I : inv ?s, U : uinv ?s, D : dones (log ?s) = 0, Ha : nth_error (ags ?s) ?i = Some ?a |- uinv ?s' =>
    match goal with |- context [set_ag _ _ ?y] => eapply (@u_move s _ i a y new I U D Ha) end;
    pr; rewrite ?request_cm, ?request_log, ?request_ags;
    first [reflexivity
    |intros; unfold fresh in *; pr;
     repeat match goal with E : ap _ = _ |- _ => rewrite E in *; revert E | E : cm _ = _ |- _ => rewrite E in *; revert E end; intros;
     cbn [In] in *;
     try solve [intuition congruence
               |right; left; eexists; intuition congruence
               |intuition (try congruence); try (match goal with E : PNext (CFail _) = PNext (CFail _) |- _ => injection E as -> | E : PFail _ = PFail _ |- _ => injection E as -> end); auto 6]]
  end.
Lemma reachable_user s : reachable s -> uinv s.
Proof.
  revert s. apply reach_ind.
  { intros u. constructor; simpl; try tauto; try discriminate.
    - intros [|[|i]] a H; simpl in H; try discriminate. injection H as <-. simpl. intros [|]; discriminate.
    - intros o H. injection H as <-. unfold fresh. simpl. tauto.
    - intros [|[|i]] a e H; simpl in H; try discriminate. injection H as <-. simpl. intros [|]; discriminate. }
  intros s act s' R U H. pose proof (reachable_inv R) as I. pose proof (dones_nn (log s)) as Dn.
  destruct (Z_lt_le_dec 0 (dones (log s))) as [Dp|Dz].
  { destruct (after_done _ I ltac:(lia) H) as [A [B [_ [_ C]]]]. eapply u_same; [exact U|exact A|exact B|].
    destruct C as [[_ C]|[i [b [_ [C1 C2]]]]]; eauto. }
  assert (D : dones (log s) = 0) by lia.
  steps H.
  - assert (X : ags s' = upd (ags s) 0 (w_ap a PChk) /\ log s' = log s /\ cm s' = cm s).
    { injection H as <-. destruct (unst s), (preq s); simpl; auto. }
    destruct X as [X1 [X3 X4]]. clear H.
    eapply (@u_move s _ 0 a (w_ap a PChk) []); auto; rewrite ?X4, ?Ea; unfold fresh; pr; intros; cbn [In] in *; try solve [intuition congruence].
  - injection H as <-. eapply u_same; [exact U|..]; destruct (cb s); auto.
  - assert (Ei : i = 0%nat) by (pose proof (i_kd I _ Ha) as K; unfold fresh in K; destruct (kd a); tauto). subst i.
    destruct (i_fin I Ha) as [[A1 [A2 [A3 [A4 A5]]]]|[A _]]; [|exfalso; apply A; right; exact Ea].
    destruct (negb (unst s) && nstop s); injection H as <-; [umove [EDone DStopped]|umove (@nil event)].
  - injection H as <-. destruct (kd a) eqn:Ek; umove (@nil event).
  - injection H as <-. pose proof (i_kd I _ Ha) as K. pose proof (i_cont I _ Ha Ea) as K2. destruct c, (kd a) eqn:Ek; try contradiction; destruct K; umove [ENext i].
  - injection H as <-. unfold after_fail. destruct (cm s) eqn:Ec; [| destruct (kd a); [|destruct (via a)|]|]; umove [EErr i e].
  - injection H as <-. umove (@nil event).
  - assert (Ce : cm s = CError) by (apply (err_holder i (reachable_err R) Ha (or_intror Ea))).
    unfold after_fail in H. destruct (kd a); injection H as <-; [|destruct (via a)|]; try destruct (alive a); first [solve [umove (@nil event)] | solve [umove [EDangling i]] | idtac].
  - destruct (cm s) eqn:Ec; injection H as <-; umove (@nil event).
  - injection H as <-. umove (@nil event).
  - injection H as <-. destruct (active s =? 1); umove (@nil event).
  - injection H as <-. umove (@nil event).
  - injection H as <-. umove [EDone (final s)].
  - injection H as <-. eapply u_add; auto.
  - injection H as <-. eapply u_add; auto.
  - pose proof (i_kd I _ Ha) as K. destruct (i_out I) as [o [O1 [_ O3]]]. 
    assert (i <> 0%nat) by (intros ->; assert (o = a) by congruence; subst; rewrite Ea in O3; exact O3). clear O1 O3.
    destruct r; injection H as <-; match goal with |- context [EUser i ?r] => umove [EUser i r] end.
  - destruct (all_next i _); [|discriminate H]. pose proof (i_kd I _ Ha) as K.
    destruct (kd a), r; injection H as <-; destruct K; try subst i; match goal with |- context [EUser ?i ?r] => umove [EUser i r] end.
  - injection H as <-. eapply u_same; [exact U|reflexivity|reflexivity|]. right. exists i, a. auto.
Qed.

(** ** Next receivers and dangling reads *)
Definition is_next (i : nat) (e : event) : bool := match e with ENext j => Nat.eqb i j | _ => false end.
Definition ninv (s : state) : Prop := forall i,
  cnt (is_next i) (log s) = match nth_error (ags s) i with Some a => if nx a then 1 else 0 | None => 0 end%nat.
Definition ginv (s : state) : Prop := forall i, In (EDangling i) (log s) -> exists a p, nth_error (ags s) i = Some a /\ kd a = KVal p.

Lemma n_move s s' i a a' new : ninv s /\ ginv s -> nth_error (ags s) i = Some a -> ags s' = upd (ags s) i a' -> log s' = new ++ log s ->
  kd a' = kd a ->
  (nx a' = nx a /\ (forall j, cnt (is_next j) new = 0%nat) \/ nx a = false /\ nx a' = true /\ new = [ENext i]) ->
  (forall j, In (EDangling j) new -> j = i /\ exists p, kd a = KVal p) -> ninv s' /\ ginv s'.
Proof.
  intros [N G] Ha Hu Hl K H H'. split.
  - intros j. rewrite Hl, cnt_app, Hu, (nth_upd _ _ _ _ Ha), (N j). destruct H as [[E1 E2]|[E1 [E2 ->]]].
    + rewrite E2. destruct (Nat.eqb_spec i j); [subst; rewrite Ha, E1; lia|lia].
    + simpl. rewrite Nat.eqb_sym. destruct (Nat.eqb_spec i j); [subst; rewrite Ha, E1, E2; lia|lia].
  - intros j Hj. rewrite Hl in Hj. apply in_app_or in Hj. rewrite Hu, (nth_upd _ _ _ _ Ha). destruct Hj as [Hj|Hj].
    + destruct (H' _ Hj) as [-> [p Kp]]. rewrite Nat.eqb_refl. exists a', p. split; [reflexivity|congruence].
    + destruct (G _ Hj) as [b [p [B1 B2]]]. destruct (Nat.eqb_spec i j); [subst|eauto].
      assert (b = a) by congruence. subst. exists a', p. split; [reflexivity|congruence].
Qed.
Lemma n_add s v : ninv s /\ ginv s -> nx v = false -> ninv (add_ag s v) /\ ginv (add_ag s v).
Proof.
  intros [N G] V. split.
  - intros i. cbn [log ags add_ag]. rewrite (N i). destruct (nth_error (ags s ++ [v]) i) as [b|] eqn:E.
    + destruct (nth_snoc _ _ _ E) as [[-> ->]|E']; [|rewrite E'; reflexivity].
      rewrite V. replace (nth_error (ags s) (length (ags s))) with (@None agent) by (symmetry; apply nth_error_None; lia). reflexivity.
    + apply nth_error_None in E. rewrite app_length in E. simpl in E.
      replace (nth_error (ags s) i) with (@None agent) by (symmetry; apply nth_error_None; lia). reflexivity.
  - intros i H. destruct (G _ H) as [b [p [B1 B2]]]. exists b, p. split; [apply nth_old; exact B1|exact B2].
Qed.
Lemma n_same s s' : ninv s /\ ginv s -> log s' = log s -> ags s' = ags s -> ninv s' /\ ginv s'.
Proof. intros [N G] E1 E2. unfold ninv, ginv. rewrite E1, E2. auto. Qed.

Ltac nmove new :=
  match goal with U : ninv ?s /\ ginv ?s, Ha : nth_error (ags ?s) ?i = Some ?a |- _ =>
    match goal with |- context [set_ag _ _ ?y] => eapply (@n_move s _ i a y new U Ha) end;
    pr; rewrite ?request_log, ?request_ags; try reflexivity;
    try solve [left; split; [reflexivity|intros; reflexivity] | intros j Hj; cbn [In] in Hj; intuition (try discriminate; try congruence; eauto)]
  end.
Lemma reachable_next s : reachable s -> ninv s /\ ginv s.
Proof.
  revert s. apply reach_ind.
  { intros u. split; [intros [|[|i]]; reflexivity|intros i []]. }
  intros s act s' R U H. pose proof (reachable_inv R) as I.
  steps H.
  - assert (X : ags s' = upd (ags s) 0 (w_ap a PChk) /\ log s' = log s).
    { injection H as <-. destruct (unst s), (preq s); simpl; auto. }
    destruct X as [X1 X3]. eapply (@n_move s _ 0 a (w_ap a PChk) []); auto. intros j [].
  - injection H as <-. eapply n_same; [exact U|..]; destruct (cb s); reflexivity.
  - destruct (negb (unst s) && nstop s); injection H as <-; [nmove [EDone DStopped]|nmove (@nil event)].
  - injection H as <-. nmove (@nil event).
  - injection H as <-. nmove [ENext i]. right. split; [apply (i_nx I _ Ha); rewrite Ea; exact Logic.I|auto].
  - injection H as <-. nmove [EErr i e].
  - injection H as <-. nmove (@nil event).
  - destruct (kd a) eqn:Ek; injection H as <-.
    + nmove (@nil event).
    + assert (Al : alive a = true).
      { destruct (alive a) eqn:Al; auto. pose proof (i_al I _ Ha Al) as X. rewrite (i_ns I _ Ha Ek) in X; [discriminate|]. rewrite Ea; exact Logic.I. }
      rewrite Al. nmove (@nil event).
    + destruct (alive a); [nmove (@nil event)|nmove [EDangling i]].
  - destruct (cm s) eqn:Ec; injection H as <-; nmove (@nil event).
  - injection H as <-. nmove (@nil event).
  - injection H as <-. nmove (@nil event).
  - injection H as <-. nmove (@nil event).
  - injection H as <-. nmove [EDone (final s)].
  - injection H as <-. apply n_add; auto.
  - injection H as <-. apply n_add; auto.
  - destruct r; injection H as <-; match goal with |- context [EUser ?i ?r] => nmove [EUser i r] end.
  - destruct (all_next i _); [|discriminate H].
    destruct (kd a), r; injection H as <-; match goal with |- context [EUser ?i ?r] => nmove [EUser i r] end.
  - injection H as <-. nmove (@nil event).
Qed.

(** ** The completion *)
Definition agrees (d : done) (l : list event) : Prop :=
  match d with
  | DValue => first l = None /\ In (EUser 0 ROk) l
  | DStopped => first l = None /\ (In (EUser 0 RStop) l \/ l = [EDone DStopped])
  | DError e => first l = Some (0%nat, e)
  | DItem e => exists i, i <> 0%nat /\ first l = Some (i, e)
  end.

Lemma first_none l : first l = None <-> forall i e, ~ In (EErr i e) l.
Proof.
  induction l as [|x l IH]; simpl; [split; auto|].
  split.
  - intros H i e [->|K]; [destruct (first l); discriminate|]. revert K. apply IH. destruct x; auto. destruct (first l); [discriminate|reflexivity].
  - intros H. assert (F : first l = None) by (apply IH; intros i e K; apply (H i e); auto).
    destruct x; auto. exfalso. apply (H i e). auto.
Qed.
Lemma first_some l i e : first l = Some (i, e) <->
  exists l1 l2, l = l1 ++ EErr i e :: l2 /\ forall j e', ~ In (EErr j e') l2.
Proof.
  revert i e. induction l as [|x l IH]; intros i e; simpl.
  - split; [discriminate|]. intros [[|y l1] [l2 [H _]]]; discriminate.
  - split.
    + intros H. assert (K : first l = Some (i, e) \/ (first l = None /\ x = EErr i e)).
      { destruct x; auto. destruct (first l); [auto|]. injection H as -> ->. auto. }
      destruct K as [K|[K ->]].
      * apply IH in K. destruct K as [l1 [l2 [-> K]]]. exists (x :: l1), l2. auto.
      * exists [], l. split; [reflexivity|]. apply first_none. exact K.
    + intros [l1 [l2 [H K]]]. destruct l1 as [|y l1]; simpl in H; injection H as -> ->.
      * rewrite (proj2 (first_none l2) K). reflexivity.
      * assert (F : first (l1 ++ EErr i e :: l2) = Some (i, e)) by (apply IH; eauto).
        rewrite F. destruct y; auto.
Qed.

Lemma reachable_done s : reachable s -> forall d, In (EDone d) (log s) -> agrees d (log s).
Proof.
  revert s. apply (@reach_ind (fun s => forall d, In (EDone d) (log s) -> agrees d (log s))).
  { intros u d []. }
  intros s act s' R P H d Hd. pose proof (reachable_inv R) as I. pose proof (dones_nn (log s)) as Dn.
  destruct (Z_lt_le_dec 0 (dones (log s))) as [Dp|Dz].
  { destruct (after_done _ I ltac:(lia) H) as [A _]. rewrite A in *. auto. }
  assert (Nd : forall d', ~ In (EDone d') (log s)) by (intros d' K; apply done_pos in K; lia).
  assert (R' : reachable s') by (eapply reach_step; eauto).
  assert (Hn : forall e, log s' = e :: log s -> is_done e = false -> False).
  { intros e E1 E2. rewrite E1 in Hd. destruct Hd as [->|Hd]; [discriminate|]. exact (Nd _ Hd). }
  assert (Hs : log s' = log s -> False) by (intros E1; rewrite E1 in Hd; exact (Nd _ Hd)).
  steps H.
  - exfalso. apply Hs. injection H as <-. destruct (unst s), (preq s); reflexivity.
  - exfalso. apply Hs. injection H as <-. destruct (cb s); reflexivity.
  - assert (Ei : i = 0%nat) by (pose proof (i_kd I _ Ha) as K; unfold fresh in K; destruct (kd a); tauto). subst i.
    destruct (i_fin I Ha) as [[A1 [A2 [A3 [A4 A5]]]]|[A _]]; [|exfalso; apply A; right; exact Ea].
    destruct (negb (unst s) && nstop s); injection H as <-; [|exfalso; auto].
    pr. rewrite A5 in *. destruct Hd as [Hd|[]]. injection Hd as <-. simpl. auto.
  - exfalso. apply Hs. injection H as <-. reflexivity.
  - exfalso. injection H as <-. eapply Hn; reflexivity.
  - exfalso. injection H as <-. eapply Hn; reflexivity.
  - exfalso. apply Hs. injection H as <-. pr. apply request_log.
  - exfalso. destruct (kd a); injection H as <-; try destruct (alive a); first [apply Hs; reflexivity | eapply Hn; reflexivity].
  - exfalso. apply Hs. destruct (cm s); injection H as <-; reflexivity.
  - exfalso. apply Hs. injection H as <-. pr. apply request_log.
  - exfalso. apply Hs. injection H as <-. reflexivity.
  - exfalso. apply Hs. injection H as <-. reflexivity.
  - (* PFin *)
    pose proof (reachable_user R') as U'. injection H as <-. pr. destruct Hd as [Hd|Hd]; [|destruct (Nd _ Hd)]. injection Hd as <-.
    destruct (i_out I) as [o [O1 [O2 O3]]].
    assert (Fa : fin a = 1) by (unfold fin; rewrite Ea; reflexivity).
    pose proof (sumz_ge fin _ fin_nn _ Ha) as Fs.
    destruct (i_fin I O1) as [[X1 [X2 _]]|[X1 X2]].
    { exfalso. assert (i < length (ags s))%nat by (apply nth_error_Some; congruence). assert (i = 0%nat) by lia. subst i.
      assert (o = a) by congruence. subst o. rewrite Ea in X1. destruct X1; discriminate. }
    assert (T0 : sumz tok (ags s) = 0) by lia.
    assert (Q : forall j b, nth_error (ags s) j = Some b -> tok b = 0) by (intros j b Hb; pose proof (sumz_ge tok _ tok_nn _ Hb); pose proof (tok_nn b); lia).
    assert (Hz : sumz hold (ags s) = 0).
    { apply sumz_zero. intros b Hb. apply In_nth_error in Hb. destruct Hb as [j Hb]. pose proof (Q _ _ Hb) as K. unfold tok, hold in *. destruct (ap b); try discriminate; reflexivity. }
    pose proof (reachable_err R) as [EA EB]. pose proof (reachable_user R) as U.
    unfold final, agrees. cbn [first].
    destruct (cm s) eqn:Ec.
    + destruct EA as [_ [_ [_ EF]]]; [congruence|]. split; [exact EF|]. right.
      destruct (u_out U O1 X1) as [[r Hr]|E].
      * intros E. pose proof (Q _ _ O1) as K. unfold tok in K. rewrite E in K. discriminate.
      * destruct r; [exact Hr| |].
        -- exfalso. destruct (u_err U _ _ Hr) as [b [B1 [B2|B2]]]; [exact (proj1 (first_none _) EF _ _ B2)|].
           pose proof (Q _ _ B1) as K. unfold tok in K. destruct B2 as [B2|B2]; rewrite B2 in K; discriminate.
        -- exfalso. destruct (u_stop U Hr) as [b [B1 [B2|B2]]]; [|congruence].
           pose proof (Q _ _ B1) as K. unfold tok in K. rewrite B2 in K; discriminate.
      * exfalso. apply (Nd DStopped). rewrite E. left. reflexivity.
    + destruct (EB eq_refl) as [j [e [F [[G _]|[_ [[-> [G1 G2]]|[G0 [G1 G2]]]]]]]]; [lia| |].
      * rewrite G1. exact F.
      * rewrite G1, G2. exists j. auto.
    + destruct EA as [_ [_ [_ EF]]]; [congruence|]. split; [exact EF|]. left. right. exact (u_cm U Ec).
  - exfalso. apply Hs. injection H as <-. reflexivity.
  - exfalso. apply Hs. injection H as <-. reflexivity.
  - exfalso. destruct r; injection H as <-; eapply Hn; reflexivity.
  - exfalso. destruct (all_next i _); [|discriminate H]. destruct (kd a), r; injection H as <-; eapply Hn; reflexivity.
  - exfalso. apply Hs. injection H as <-. reflexivity.
Qed.
