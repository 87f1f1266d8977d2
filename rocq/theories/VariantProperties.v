(** C65: the containers of results and child operations, __variant and __optional. *)
From Coq Require Import List Bool Arith Lia.
From Verif Require Import Conc VariantModel VariantSpec.
Import ListNotations.
Set Implicit Arguments.

(** ** Invariant *)
Definition tf v (l : list frame) := filter (fun f => target f =? v) l.
Definition holds (ob : list (nat * ost)) c k o := idx c = Some k /\ sto c = Some o /\ exists t, nth_error ob o = Some (t, OLive) /\ nth_error (cts c) k = Some t.
Definition kok c K := match K with KEmplace k _ => k < length (cts c) | KAssign _ => opt c = false | _ => True end.
Definition cinv (l : list frame) (ob : list (nat * ost)) (c : ctr) : Prop :=
  match l with
  | [] => if alive c then (idx c = None /\ sto c = None) \/ (exists k o, holds ob c k o) else sto c = None
  | [FCtor _ k o] => if alive c then holds ob c k o else sto c = None
  | [FDtor _ o K] => alive c = true /\ sto c = Some o /\ (exists t, nth_error ob o = Some (t, ODtor)) /\ (opt c = false -> idx c = None) /\ kok c K
  | [FDtor _ o KEnd; FCtor _ k o'] => o' = o /\ alive c = true /\ sto c = Some o /\ exists t, nth_error ob o = Some (t, ODtor)
  | _ => False
  end.
Definition sok s f q := alive (gc s q) = true /\ tf q (stk s) = [] /\
  match f with FDtor _ _ (KEmplace _ (Some (_, x))) => sto (gc s q) = Some x | FDtor v _ (KAssign _) => cts (gc s q) = cts (gc s v) | _ => True end.
Record inv (s : state) : Prop := mki {
  i_t : forall f, In f (stk s) -> target f < length (ctrs s);
  i_c : forall v, cinv (tf v (stk s)) (objs s) (gc s v);
  i_s : forall f q, In f (stk s) -> source f = Some q -> sok s f q;
  i_j : forall v w o, sto (gc s v) = Some o -> sto (gc s w) = Some o -> v = w;
  i_o : forall o t st, nth_error (objs s) o = Some (t, st) -> st = OLive \/ st = ODtor -> exists v, sto (gc s v) = Some o;
  i_d : forall o, dtors o (log s) = match ostat s o with Some ODtor | Some ODead => 1 | _ => 0 end;
  i_k : forall o, ctors o (log s) = if o <? length (objs s) then 1 else 0;
  i_h : forall o, In (ECtorThrow o) (log s) <-> ostat s o = Some OThrown;
  i_n : forall v k o x i, In (ECtor v k o (SCopy x i)) (log s) -> i < length (cts (gc s v)) /\ nth_error (cts (gc s v)) k = nth_error (cts (gc s v)) i /\ (forall j, j < k -> nth_error (cts (gc s v)) j <> nth_error (cts (gc s v)) i);
  i_l : forall v k o a, In (ECtor v k o a) (log s) -> v < length (ctrs s);
  i_b : forall b, ~ In (EBad b) (log s) }.

Lemma gc_upd s v w c : v < length (ctrs s) -> nth w (upd (ctrs s) v c) no_ctr = if v =? w then c else gc s w.
Proof.
  intros L. unfold gc. assert (X : exists a, nth_error (ctrs s) v = Some a). { apply nth_error_Some in L. destruct (nth_error (ctrs s) v); [eauto|congruence]. }
  destruct X as [a X]. destruct (Nat.eqb_spec v w) as [->|N].
  - apply nth_error_nth. eapply nth_upd_same; eauto.
  - rewrite !nth_default_eq || idtac. pose proof (@nth_upd_other _ (ctrs s) v w c N) as Y. destruct (nth_error (ctrs s) w) as [b|] eqn:E.
    + rewrite (nth_error_nth _ _ no_ctr Y), (nth_error_nth _ _ no_ctr E). auto.
    + rewrite !nth_overflow; auto; [apply nth_error_None; auto|]. apply nth_error_None. auto.
Qed.
Lemma alive_lt s v : alive (gc s v) = true -> v < length (ctrs s).
Proof. unfold gc. intros A. destruct (le_lt_dec (length (ctrs s)) v); auto. rewrite nth_overflow in A by auto. discriminate. Qed.
Lemma sto_lt s v o : sto (gc s v) = Some o -> v < length (ctrs s).
Proof. unfold gc. intros A. destruct (le_lt_dec (length (ctrs s)) v); auto. rewrite nth_overflow in A by auto. discriminate. Qed.
Lemma touch_alive s v : alive (gc s v) = true -> touch s v = s.
Proof. unfold touch, chk. intros ->. auto. Qed.
Lemma cinv_ob l ob ob' c : cinv l ob c -> (forall o, sto c = Some o -> nth_error ob' o = nth_error ob o) -> cinv l ob' c.
Proof.
  intros H E. assert (X : forall k o, holds ob c k o -> holds ob' c k o). { intros k o (A & B & t & C & D). split; [auto|]. split; [auto|]. exists t. rewrite (E _ B). auto. }
  destruct l as [|[v k o|v o K] l]; cbn in *.
  - destruct (alive c); auto. destruct H as [H|(k & o & H)]; [auto|right; eauto].
  - destruct l; auto. destruct (alive c); auto.
  - destruct l as [|[v1 k1 o1|] l]; cbn in *; [|destruct l, K; auto|destruct K; auto].
    + destruct K; (destruct H as (H1 & H2 & H3 & H4); rewrite (E _ H2); auto).
    + destruct H as (H1 & H2 & H3 & H4). rewrite (E _ H3). auto.
Qed.
Lemma onat_refl o : onat_eqb o o = true.
Proof. destruct o; cbn; auto. apply Nat.eqb_refl. Qed.
Lemma idle_tf s v : (forall f, In f (stk s) -> target f <> v) -> tf v (stk s) = [].
Proof. unfold tf. induction (stk s) as [|f l IH]; intros H; cbn; auto. destruct (Nat.eqb_spec (target f) v); [destruct (H f); cbn; auto|]. apply IH. intros; apply H; cbn; auto. Qed.
Lemma tf_nil v l f : tf v l = [] -> In f l -> target f <> v.
Proof. intros H I E. assert (X : In f (tf v l)) by (apply filter_In; split; auto; apply Nat.eqb_eq; auto). rewrite H in X. destruct X. Qed.

Lemma index_of_spec t ts i : nth_error ts i = Some t -> nth_error ts (index_of t ts) = Some t /\ forall j, j < index_of t ts -> nth_error ts j <> Some t.
Proof.
  revert i. induction ts as [|x ts IH]; intros i H; [destruct i; discriminate|]. cbn. destruct (Nat.eqb_spec x t) as [->|N]; [cbn; split; auto; lia|].
  destruct i as [|i]; cbn in H; [congruence|]. destruct (IH _ H) as [A B]. split; auto. intros [|j] J; cbn; [congruence|]. apply B. lia.
Qed.

(** building an object in an idle, empty container *)
Lemma construct_inv s v k a : inv s -> alive (gc s v) = true -> tf v (stk s) = [] -> idx (gc s v) = None -> sto (gc s v) = None -> (forall f, In f (stk s) -> source f <> Some v) ->
  k < length (cts (gc s v)) -> match a with SNone => True | SArg x => is_live s x = true | SCopy x i => is_live s x = true /\ i < length (cts (gc s v)) /\ k = index_of (nth i (cts (gc s v)) 0) (cts (gc s v)) end ->
  inv (construct s v k a).
Proof.
  intros I A T IX ST SR K SRC. unfold construct. rewrite touch_alive by auto. rewrite ST. cbn [chk].
  assert (X : chk (match a with SNone => true | SArg x | SCopy x _ => is_live s x end) s (BUse v) = s). { destruct a; cbn; auto; [rewrite SRC|destruct SRC as [-> _]]; auto. }
  rewrite X. pose proof (alive_lt _ _ A) as VL. set (o := length (objs s)). set (c := w_sto (w_idx (gc s v) (Some k)) (Some o)).
  assert (G : forall w, nth w (upd (ctrs s) v c) no_ctr = if v =? w then c else gc s w) by (intros; apply gc_upd; auto).
  assert (OL : forall w x, sto (gc s w) = Some x -> x < o).
  { intros w x E. assert (Y : exists t st, nth_error (objs s) x = Some (t, st)).
    { pose proof (i_c I w) as C. destruct (tf w (stk s)) as [|[v1 k1 o1|v1 o1 K1] l]; cbn in C.
      - destruct (alive (gc s w)); [|congruence]. destruct C as [[_ C]|(k1 & o1 & _ & C & t & D & _)]; [congruence|]. replace o1 with x in D by congruence. eauto.
      - destruct l; [|tauto]. destruct (alive (gc s w)); [|congruence]. destruct C as (_ & C & t & D & _). replace o1 with x in D by congruence. eauto.
      - destruct l as [|[v2 k2 o2|v2 o2 K2] l]; [|destruct l, K1; try tauto|destruct K1; tauto].
        + destruct K1; (destruct C as (_ & C & [t D] & _); replace o1 with x in D by congruence; eauto).
        + destruct C as (_ & _ & C & [t D]). replace o1 with x in D by congruence. eauto. }
    destruct Y as (t & st & Y). apply nth_error_Some. congruence. }
  assert (NO : forall x, x < o -> nth_error (objs s ++ [(nth k (cts (gc s v)) 0, OLive)]) x = nth_error (objs s) x) by (intros; apply nth_error_app1; auto).
  assert (NN : nth_error (objs s ++ [(nth k (cts (gc s v)) 0, OLive)]) o = Some (nth k (cts (gc s v)) 0, OLive)). { rewrite nth_error_app2 by (unfold o; lia). unfold o. rewrite Nat.sub_diag. auto. }
  constructor; unfold gc, ostat; cbn -[Nat.ltb upd nth tf]; change (nth v (ctrs s) no_ctr) with (gc s v).
  - intros f [<-|F]; rewrite upd_length; [auto|apply (i_t I); auto].
  - intros w. rewrite G. cbn [tf filter target]. destruct (Nat.eqb_spec v w) as [<-|N].
    + fold (tf v (stk s)). rewrite T. cbn. rewrite A. split; [auto|]. split; [auto|]. exists (nth k (cts (gc s v)) 0). split; [exact NN|]. cbn. apply nth_error_nth'. auto.
    + eapply cinv_ob; [apply (i_c I w)|]. intros x E. apply NO. eauto.
  - intros f q [<-|F] E; [discriminate|]. destruct (i_s I _ F E) as (S1 & S2 & S3). assert (v <> q). { intros ->. eapply SR; eauto. }
    unfold sok, gc. cbn -[nth upd]. rewrite !G. destruct (Nat.eqb_spec v q); [contradiction|]. split; [auto|]. split; [auto|]. destruct f as [|v1 o1 [| |k1 [[q1 x1]|]|q1]]; auto. rewrite G. destruct (Nat.eqb_spec v v1) as [<-|]; auto.
  - intros w w' x. rewrite !G. destruct (Nat.eqb_spec v w) as [<-|N], (Nat.eqb_spec v w') as [<-|N']; auto; cbn; intros E1 E2.
    + injection E1 as <-. apply OL in E2. lia.
    + injection E2 as <-. apply OL in E1. lia.
    + eapply (i_j I); eauto.
  - intros x t st E L. destruct (le_lt_dec o x) as [Q|Q].
    + assert (x = o). { assert (x < length (objs s ++ [(nth k (cts (gc s v)) 0, OLive)])) by (apply nth_error_Some; congruence). rewrite app_length in H. cbn in H. unfold o in *. lia. }
      subst x. exists v. rewrite G, Nat.eqb_refl. auto.
    + rewrite NO in E by auto. destruct (i_o I _ E L) as [w W]. exists w. rewrite G. destruct (Nat.eqb_spec v w) as [<-|]; auto. congruence.
  - intros x. change (dtors x (log s) = match match nth_error (objs s ++ [(nth k (cts (gc s v)) 0, OLive)]) x with Some (_, st) => Some st | None => None end with Some ODtor | Some ODead => 1 | _ => 0 end). rewrite (i_d I). unfold ostat.
    destruct (lt_eq_lt_dec x o) as [[Q|Q]|Q]; [rewrite NO by auto; auto|subst x; rewrite NN; rewrite (proj2 (nth_error_None (objs s) o)) by (unfold o; lia); auto|].
    rewrite (proj2 (nth_error_None (objs s) x)), (proj2 (nth_error_None _ x)); auto; [rewrite app_length; cbn; unfold o in *; lia|unfold o in *; lia].
  - intros x. change ((if o =? x then 1 else 0) + ctors x (log s) = if x <? length (objs s ++ [(nth k (cts (gc s v)) 0, OLive)]) then 1 else 0). rewrite (i_k I), app_length. cbn [length]. fold o.
    destruct (Nat.eqb_spec o x), (Nat.ltb_spec x o), (Nat.ltb_spec x (o + 1)); lia.
  - intros x. transitivity (In (ECtorThrow x) (log s)); [split; [intros [E|E]; [discriminate|auto]|auto]|]. rewrite (i_h I). unfold ostat. destruct (lt_eq_lt_dec x o) as [[Q|Q]|Q]; [rewrite NO by auto; tauto|subst x; rewrite NN, (proj2 (nth_error_None (objs s) o)) by (unfold o; lia); split; discriminate|].
    rewrite (proj2 (nth_error_None (objs s) x)), (proj2 (nth_error_None _ x)); [tauto|rewrite app_length; cbn; unfold o in *; lia|unfold o in *; lia].
  - intros w k1 o1 x i [E|E].
    + injection E as <- <- <- ->. rewrite G, Nat.eqb_refl. cbn -[nth_error]. destruct SRC as (_ & S2 & ->). split; auto. pose proof (nth_error_nth' (cts (gc s v)) 0 S2) as Y. destruct (index_of_spec _ _ Y) as [B C]. rewrite Y. auto.
    + rewrite G. destruct (Nat.eqb_spec v w) as [<-|]; [|eapply (i_n I); eauto]. cbn -[nth_error]. eapply (i_n I); eauto.
  - intros w k1 o1 a1 [E|E]; rewrite upd_length; [injection E as <- <- <- _; auto|eapply (i_l I); eauto].
  - intros b [E|E]; [discriminate|]. eapply (i_b I); eauto.
Qed.
Definition ost_of (ob : list (nat * ost)) o := match nth_error ob o with Some (_, st) => Some st | None => None end.
(** a step that changes one container and at most the object in it *)
Lemma upd_inv s v c' ob' st' lg : inv s -> v < length (ctrs s) -> cts c' = cts (gc s v) ->
  (forall w, w <> v -> tf w st' = tf w (stk s)) -> (forall f, In f st' -> In f (stk s) \/ target f = v) ->
  cinv (tf v st') ob' c' ->
  (forall f q, In f st' -> source f = Some q -> q <> v /\ sok s f q) ->
  (sto c' = None \/ sto c' = sto (gc s v)) ->
  (forall x, sto (gc s v) <> Some x -> nth_error ob' x = nth_error (objs s) x) -> length ob' = length (objs s) ->
  (forall x t st, sto (gc s v) = Some x -> sto c' = None -> nth_error ob' x = Some (t, st) -> st = ODead \/ st = OThrown) ->
  (forall o, dtors o lg = match ost_of ob' o with Some ODtor | Some ODead => 1 | _ => 0 end) -> (forall o, ctors o lg = ctors o (log s)) ->
  (forall o, In (ECtorThrow o) lg <-> ost_of ob' o = Some OThrown) -> (forall w k o a, In (ECtor w k o a) lg -> In (ECtor w k o a) (log s)) -> (forall b, ~ In (EBad b) lg) ->
  inv (mks ob' (upd (ctrs s) v c') st' lg).
Proof.
  intros I VL CT TF FR CV SO ST OB OL OD LD LC LT LN LB.
  assert (G : forall w, nth w (upd (ctrs s) v c') no_ctr = if v =? w then c' else gc s w) by (intros; apply gc_upd; auto).
  assert (CTS : forall w, cts (nth w (upd (ctrs s) v c') no_ctr) = cts (gc s w)). { intros w. rewrite G. destruct (Nat.eqb_spec v w) as [<-|]; auto. }
  constructor; unfold gc; cbn -[Nat.ltb upd nth tf].
  - intros f F. rewrite upd_length. destruct (FR f F) as [X| ->]; auto. apply (i_t I); auto.
  - intros w. rewrite G. destruct (Nat.eqb_spec v w) as [<-|N]; auto. rewrite TF by auto. eapply cinv_ob; [apply (i_c I)|]. intros o E. apply OB. intros X. apply N. eapply (i_j I); eauto.
  - intros f q F E. destruct (SO f q F E) as (Q & S1 & S2 & S3). unfold sok, gc. cbn -[nth upd tf]. rewrite (TF q Q), G. destruct (Nat.eqb_spec v q); [congruence|]. split; [auto|]. split; [auto|].
    destruct f as [|v1 o1 [| |k1 [[q1 x1]|]|q1]]; auto. rewrite CTS. auto.
  - intros w w' o. rewrite !G. assert (X : sto c' = Some o -> sto (gc s v) = Some o) by (destruct ST as [-> | ->]; auto; discriminate).
    destruct (Nat.eqb_spec v w) as [<-|N], (Nat.eqb_spec v w') as [<-|N']; auto; intros E1 E2; eapply (i_j I); eauto.
  - intros o t st E L. assert (DEC : sto (gc s v) = Some o \/ sto (gc s v) <> Some o). { destruct (sto (gc s v)) as [y|]; [|right; discriminate]. destruct (Nat.eq_dec y o); [left|right]; congruence. }
    destruct DEC as [X|X].
    + exists v. rewrite G, Nat.eqb_refl. destruct ST as [Y| ->]; auto. destruct (OD _ _ _ X Y E) as [-> | ->]; destruct L; discriminate.
    + rewrite (OB _ X) in E. destruct (i_o I _ E L) as [w W]. exists w. rewrite G. destruct (Nat.eqb_spec v w) as [<-|]; auto. congruence.
  - exact LD.
  - intros o. change (ctors o lg = if o <? length ob' then 1 else 0). rewrite LC, OL. apply (i_k I).
  - exact LT.
  - intros w k o x i E. apply LN in E. rewrite CTS. eapply (i_n I); eauto.
  - intros w k o a E. rewrite upd_length. apply LN in E. eapply (i_l I); eauto.
  - exact LB.
Qed.
Lemma same_tf v w f st : w <> v -> target f = v -> tf w (f :: st) = tf w st.
Proof. intros N <-. cbn. destruct (Nat.eqb_spec (target f) w); auto. congruence. Qed.
Lemma ob_upd (ob : list (nat * ost)) o t st0 st x : nth_error ob o = Some (t, st0) -> nth_error (upd ob o (t, st)) x = if o =? x then Some (t, st) else nth_error ob x.
Proof. intros E. eapply nth_upd; eauto. Qed.

(** an idle container is destroyed, empty *)
Lemma kill_inv s v : inv s -> alive (gc s v) = true -> tf v (stk s) = [] -> sto (gc s v) = None -> (forall f, In f (stk s) -> source f <> Some v) -> inv (w_ctr s v (w_alive (gc s v) false)).
Proof.
  intros I A T ST SR. unfold w_ctr. apply upd_inv; auto; try solve [intros; tauto].
  - apply alive_lt; auto.
  - rewrite T. cbn. auto.
  - intros f q F E. split; [intros ->; eapply SR; eauto|]. apply (i_s I); auto.
  - intros. congruence.
  - exact (i_d I).
  - exact (i_h I).
  - exact (i_b I).
Qed.
(** the destructor of the content is called *)
Lemma push_inv s v o i K : inv s -> alive (gc s v) = true -> holds (objs s) (gc s v) i o -> (forall f, In f (stk s) -> source f <> Some v) -> kok (gc s v) K ->
  (tf v (stk s) = [] \/ (K = KEnd /\ exists k, tf v (stk s) = [FCtor v k o])) ->
  (forall q, source (FDtor v o K) = Some q -> q <> v /\ sok s (FDtor v o K) q) ->
  inv (destroy s v K).
Proof.
  intros I A (H1 & H2 & t & H3 & H4) SR KO T SQ. unfold destroy. rewrite touch_alive, H1 by auto. pose proof (alive_lt _ _ A) as VL.
  set (c' := if opt (gc s v) then gc s v else w_idx (gc s v) None).
  assert (X : exists s0, s0 = (if opt (gc s v) then s else w_ctr s v (w_idx (gc s v) None)) /\ gc s0 v = c' /\ objs s0 = objs s /\ stk s0 = stk s /\ log s0 = log s /\ ctrs s0 = upd (ctrs s) v c').
  { eexists. split; [reflexivity|]. unfold c'. destruct (opt (gc s v)) eqn:OP; cbn; auto; [|unfold gc at 1; cbn; rewrite gc_upd, Nat.eqb_refl; auto].
    repeat split; auto. apply nth_error_ext || idtac. clear -VL. unfold gc. revert VL. generalize (ctrs s) v. induction l as [|y l IH]; intros [|w] L; cbn in *; auto; try lia. f_equal. apply IH. lia. }
  destruct X as (s0 & <- & X1 & X2 & X3 & X4 & X5). rewrite X1. replace (sto c') with (Some o) by (unfold c'; destruct (opt (gc s v)); cbn; auto).
  assert (C : is_live s0 o && onat_eqb (oty s0 o) (nth_error (cts c') i) = true). { unfold is_live, ostat, oty. rewrite X2, H3. cbn. replace (cts c') with (cts (gc s v)) by (unfold c'; destruct (opt (gc s v)); auto). rewrite H4. cbn. apply Nat.eqb_refl. }
  rewrite C. cbn [chk]. unfold w_ost. rewrite X2, H3. unfold w_stk, emit. cbn [objs ctrs stk log]. rewrite X3, X4, X5.
  assert (OU := fun st x => @ob_upd (objs s) o t OLive st x H3).
  apply upd_inv; auto.
  - unfold c'. destruct (opt (gc s v)); auto.
  - intros w N. apply same_tf with (v := v); auto.
  - intros f [<-|F]; auto.
  - cbn [tf filter target]. rewrite Nat.eqb_refl. fold (tf v (stk s)).
    assert (Y : alive c' = true /\ sto c' = Some o /\ (exists t0, nth_error (upd (objs s) o (t, ODtor)) o = Some (t0, ODtor)) /\ (opt c' = false -> idx c' = None) /\ kok c' K).
    { unfold c'. rewrite OU, Nat.eqb_refl. split; [destruct (opt (gc s v)); auto|]. split; [destruct (opt (gc s v)); auto|]. split; [eauto|]. split; [destruct (opt (gc s v)) eqn:OP; cbn; auto; congruence|]. assert (Z : cts c' = cts (gc s v) /\ opt c' = opt (gc s v)) by (unfold c'; destruct (opt (gc s v)) eqn:OP; cbn; auto). fold c'. destruct Z as [Z1 Z2], K; cbn in *; auto; congruence. }
    destruct T as [-> |(-> & k & ->)]; cbn; [destruct K; exact Y|]. destruct Y as (Y1 & Y2 & Y3 & _). auto.
  - intros f q [<-|F] E; [apply SQ; auto|]. split; [intros ->; eapply SR; eauto|]. apply (i_s I); auto.
  - right. unfold c'. destruct (opt (gc s v)); auto.
  - intros x N. rewrite OU. destruct (Nat.eqb_spec o x) as [->|]; auto. congruence.
  - apply upd_length.
  - intros x t0 st E E2. exfalso. unfold c' in E2. destruct (opt (gc s v)); cbn in E2; congruence.
  - intros x. change ((if o =? x then 1 else 0) + dtors x (log s) = match ost_of (upd (objs s) o (t, ODtor)) x with Some ODtor | Some ODead => 1 | _ => 0 end). rewrite (i_d I). unfold ost_of, ostat. rewrite OU.
    destruct (Nat.eqb_spec o x) as [<-|]; auto. rewrite H3. auto.
  - intros x. transitivity (In (ECtorThrow x) (log s)); [split; [intros [E|E]; [discriminate|auto]|cbn; auto]|]. rewrite (i_h I). unfold ost_of, ostat. rewrite OU. destruct (Nat.eqb_spec o x) as [<-|]; [rewrite H3; split; discriminate|tauto].
  - intros w k o1 a [E|E]; [discriminate|auto].
  - intros b [E|E]; [discriminate|]. eapply (i_b I); eauto.
Qed.
Lemma upd_upd A (l : list A) i x y : upd (upd l i x) i y = upd l i y.
Proof. revert i. induction l as [|a l IH]; intros [|i]; cbn; auto. f_equal. apply IH. Qed.
Definition popped s v o K st : state :=
  let s := emit (w_ost (w_stk s st) o ODead) (EDtorEnd o) in
  let s := if onat_eqb (sto (gc s v)) (Some o) then w_ctr s v (w_sto (gc s v) None) else s in
  match K with KEnd => s | _ => if opt (gc s v) then let s := touch s v in w_ctr s v (w_idx (gc s v) None) else s end.
(** the destructor of the content returns *)
Lemma popped_eq s v o K st t : alive (gc s v) = true -> sto (gc s v) = Some o -> nth_error (objs s) o = Some (t, ODtor) ->
  exists c', popped s v o K st = mks (upd (objs s) o (t, ODead)) (upd (ctrs s) v c') st (EDtorEnd o :: log s) /\ cts c' = cts (gc s v) /\ opt c' = opt (gc s v) /\ alive c' = true /\ sto c' = None /\
    (K <> KEnd -> (opt (gc s v) = false -> idx (gc s v) = None) -> idx c' = None).
Proof.
  intros A ST OB. pose proof (alive_lt _ _ A) as VL. set (s0 := emit (w_ost (w_stk s st) o ODead) (EDtorEnd o)).
  assert (E0 : s0 = mks (upd (objs s) o (t, ODead)) (ctrs s) st (EDtorEnd o :: log s)). { unfold s0, w_ost. cbn [objs w_stk]. rewrite OB. reflexivity. }
  assert (G0 : gc s0 v = gc s v) by (rewrite E0; auto).
  set (s1 := mks (upd (objs s) o (t, ODead)) (upd (ctrs s) v (w_sto (gc s v) None)) st (EDtorEnd o :: log s)).
  assert (G1 : gc s1 v = w_sto (gc s v) None). { unfold gc, s1. cbn [ctrs]. rewrite gc_upd, Nat.eqb_refl; auto. }
  assert (E1 : (if onat_eqb (sto (gc s0 v)) (Some o) then w_ctr s0 v (w_sto (gc s0 v) None) else s0) = s1). { rewrite G0, ST, onat_refl. unfold w_ctr. rewrite E0. reflexivity. }
  assert (T1 : touch s1 v = s1) by (apply touch_alive; rewrite G1; auto).
  assert (P : popped s v o K st = match K with KEnd => s1 | _ => if opt (gc s v) then w_ctr s1 v (w_idx (w_sto (gc s v) None) None) else s1 end).
  { unfold popped. fold s0. cbn zeta. rewrite E1, T1, G1. destruct K; auto. }
  rewrite P. destruct (opt (gc s v)) eqn:OP.
  - destruct K; [exists (w_sto (gc s v) None)|exists (w_idx (w_sto (gc s v) None) None)|exists (w_idx (w_sto (gc s v) None) None)|exists (w_idx (w_sto (gc s v) None) None)]; unfold w_ctr, s1; cbn [objs ctrs stk log]; rewrite ?upd_upd; cbn; repeat split; auto; congruence.
  - exists (w_sto (gc s v) None). cbn. repeat split; auto. destruct K; auto.
Qed.
Lemma popped_inv s v o K st : inv s -> stk s = FDtor v o K :: st -> K <> KEnd -> inv (popped s v o K st) /\
  (let s' := popped s v o K st in alive (gc s' v) = true /\ idx (gc s' v) = None /\ sto (gc s' v) = None /\ tf v (stk s') = [] /\ kok (gc s' v) K /\ (forall f, In f (stk s') -> source f <> Some v) /\
    (forall q, source (FDtor v o K) = Some q -> q <> v /\ gc s' q = gc s q /\ alive (gc s q) = true /\ tf q (stk s') = [] /\ sok s (FDtor v o K) q)).
Proof.
  intros I E NK. pose proof (i_c I v) as C. rewrite E in C. cbn [tf filter target] in C. rewrite Nat.eqb_refl in C. fold (tf v st) in C.
  assert (T : tf v st = []). { destruct (tf v st) as [|[v2 k2 o2|v2 o2 K2] [|f2 l2]]; auto; destruct K; cbn in C; try tauto; destruct (NK eq_refl). }
  rewrite T in C. assert (Y : alive (gc s v) = true /\ sto (gc s v) = Some o /\ (exists t, nth_error (objs s) o = Some (t, ODtor)) /\ (opt (gc s v) = false -> idx (gc s v) = None) /\ kok (gc s v) K) by (destruct K; exact C).
  destruct Y as (A & ST & (t & OB) & IX & KO). destruct (@popped_eq s v o K st t A ST OB) as (c' & -> & P1 & P2 & P3 & P4 & P5). specialize (P5 NK IX). pose proof (alive_lt _ _ A) as VL.
  assert (OU := fun x st => @ob_upd (objs s) o t ODtor st x OB).
  assert (SRC : forall f, In f st -> source f <> Some v). { intros f F S. destruct (i_s I f (q := v)) as (_ & S2 & _); [rewrite E; cbn; auto|auto|]. rewrite E in S2. cbn in S2. rewrite Nat.eqb_refl in S2. discriminate. }
  assert (TF : forall w, w <> v -> tf w st = tf w (stk s)). { intros w N. rewrite E. symmetry. apply same_tf with (v := v); auto. }
  split.
  - apply upd_inv; auto.
    + intros f F. left. rewrite E. cbn; auto.
    + rewrite T. cbn. rewrite P3. auto.
    + intros f q F S. split; [intros ->; eapply SRC; eauto|]. apply (i_s I); auto. rewrite E. cbn; auto.
    + intros x N. rewrite OU. destruct (Nat.eqb_spec o x) as [->|]; auto. congruence.
    + apply upd_length.
    + intros x t0 st0 X _. replace x with o by congruence. rewrite OU, Nat.eqb_refl. intros Z. injection Z as _ <-. auto.
    + intros x. change (dtors x (log s) = match ost_of (upd (objs s) o (t, ODead)) x with Some ODtor | Some ODead => 1 | _ => 0 end). rewrite (i_d I). unfold ost_of, ostat. rewrite OU.
      destruct (Nat.eqb_spec o x) as [<-|]; auto. rewrite OB. auto.
    + intros x. transitivity (In (ECtorThrow x) (log s)); [split; [intros [X|X]; [discriminate|auto]|cbn; auto]|]. rewrite (i_h I). unfold ost_of, ostat. rewrite OU. destruct (Nat.eqb_spec o x) as [<-|]; [rewrite OB; split; discriminate|tauto].
    + intros w k o1 a [X|X]; [discriminate|auto].
    + intros b [X|X]; [discriminate|]. eapply (i_b I); eauto.
  - assert (G : forall w, gc {| objs := upd (objs s) o (t, ODead); ctrs := upd (ctrs s) v c'; stk := st; log := EDtorEnd o :: log s |} w = if v =? w then c' else gc s w). { intros w. unfold gc at 1. cbn [ctrs]. apply gc_upd; auto. }
    cbn zeta. rewrite !G, !Nat.eqb_refl. cbn [stk]. split; [auto|]. split; [auto|]. split; [auto|]. split; [auto|]. split; [destruct K; cbn in *; auto; congruence|]. split; [auto|].
    intros q S. pose proof (i_s I (FDtor v o K) (q := q)) as X. rewrite E in X. specialize (X ltac:(cbn; auto) S). destruct X as (X1 & X2 & X3).
    assert (q <> v). { intros ->. rewrite E in X2. cbn in X2. rewrite Nat.eqb_refl in X2. discriminate. }
    split; [auto|]. rewrite G. destruct (Nat.eqb_spec v q); [congruence|]. split; [auto|]. split; [auto|]. split; [rewrite TF; auto|]. split; [auto|]. split; auto.
Qed.
(** a container is destroyed, its content's destructor has returned *)
Lemma popped_end_inv s v o st : inv s -> stk s = FDtor v o KEnd :: st -> inv (let s := popped s v o KEnd st in w_ctr s v (w_alive (gc s v) false)).
Proof.
  intros I E. pose proof (i_c I v) as C. rewrite E in C. cbn [tf filter target] in C. rewrite Nat.eqb_refl in C. fold (tf v st) in C.
  assert (Y : alive (gc s v) = true /\ sto (gc s v) = Some o /\ (exists t, nth_error (objs s) o = Some (t, ODtor)) /\ (tf v st = [] \/ exists w k, tf v st = [FCtor w k o])).
  { destruct (tf v st) as [|[v2 k2 o2|v2 o2 K2] [|f2 l2]]; cbn in C; try tauto. destruct C as (-> & C). repeat split; try tauto. right. eauto. }
  destruct Y as (A & ST & (t & OB) & T). destruct (@popped_eq s v o KEnd st t A ST OB) as (c' & -> & P1 & P2 & P3 & P4 & _). pose proof (alive_lt _ _ A) as VL. cbn zeta. unfold w_ctr. cbn [objs ctrs stk log]. rewrite upd_upd.
  unfold gc. cbn [ctrs]. rewrite gc_upd, Nat.eqb_refl by auto.
  assert (OU := fun x st => @ob_upd (objs s) o t ODtor st x OB).
  apply upd_inv; auto.
  - intros w N. rewrite E. symmetry. apply same_tf with (v := v); auto.
  - intros f F. left. rewrite E. cbn; auto.
  - destruct T as [-> |(w & k & ->)]; cbn; auto.
  - intros f q F S. assert (X : In f (stk s)) by (rewrite E; cbn; auto). pose proof (i_s I _ X S) as Y. split; auto. intros ->. destruct Y as (_ & Y & _). rewrite E in Y. cbn in Y. rewrite Nat.eqb_refl in Y. discriminate.
  - intros x N. rewrite OU. destruct (Nat.eqb_spec o x) as [->|]; auto. congruence.
  - apply upd_length.
  - intros x t0 st0 X _. replace x with o by congruence. rewrite OU, Nat.eqb_refl. intros Z. injection Z as _ <-. auto.
  - intros x. change (dtors x (log s) = match ost_of (upd (objs s) o (t, ODead)) x with Some ODtor | Some ODead => 1 | _ => 0 end). rewrite (i_d I). unfold ost_of, ostat. rewrite OU.
    destruct (Nat.eqb_spec o x) as [<-|]; auto. rewrite OB. auto.
  - intros x. transitivity (In (ECtorThrow x) (log s)); [split; [intros [X|X]; [discriminate|auto]|cbn; auto]|]. rewrite (i_h I). unfold ost_of, ostat. rewrite OU. destruct (Nat.eqb_spec o x) as [<-|]; [rewrite OB; split; discriminate|tauto].
  - intros w k o1 a [X|X]; [discriminate|auto].
  - intros b [X|X]; [discriminate|]. eapply (i_b I); eauto.
Qed.
(** what the container does next *)
Lemma cont_inv s v K : inv s -> alive (gc s v) = true -> idx (gc s v) = None -> sto (gc s v) = None -> tf v (stk s) = [] -> kok (gc s v) K -> (forall f, In f (stk s) -> source f <> Some v) ->
  (match K with KEmplace _ (Some (q, x)) => q <> v /\ alive (gc s q) = true /\ tf q (stk s) = [] /\ sto (gc s q) = Some x
              | KAssign q => q <> v /\ alive (gc s q) = true /\ tf q (stk s) = [] /\ cts (gc s q) = cts (gc s v) | _ => True end) ->
  inv (cont s v K).
Proof.
  intros I A IX ST T KO SR SQ. assert (HQ : forall q x, alive (gc s q) = true -> tf q (stk s) = [] -> sto (gc s q) = Some x -> is_live s x = true /\ exists i t, idx (gc s q) = Some i /\ nth_error (cts (gc s q)) i = Some t).
  { intros q x B1 B2 B3. pose proof (i_c I q) as C. rewrite B2 in C. cbn in C. rewrite B1 in C. destruct C as [[_ C]|(k & o & C1 & C2 & t & C3 & C4)]; [congruence|]. unfold is_live, ostat. replace x with o by congruence. rewrite C3. eauto 6. }
  destruct K as [| |k [[q x]|]|q]; cbn [cont].
  - apply kill_inv; auto.
  - auto.
  - apply construct_inv; auto. destruct SQ as (Q1 & Q2 & Q3 & Q4). apply (HQ q x); auto.
  - apply construct_inv; auto.
  - destruct SQ as (Q1 & Q2 & Q3 & Q4). rewrite touch_alive by auto. pose proof (i_c I q) as C. rewrite Q3 in C. cbn in C. rewrite Q2 in C. destruct C as [[-> _]|(i & x & C1 & C2 & t & C3 & C4)]; auto.
    rewrite C1, C2. destruct (HQ q x Q2 Q3 C2) as (L & _). rewrite <- Q4. assert (IL : i < length (cts (gc s q))) by (apply nth_error_Some; congruence).
    rewrite (nth_error_nth _ _ 0 C4). destruct (index_of_spec _ _ C4) as [B1 B2].
    apply construct_inv; auto; rewrite <- Q4; [apply nth_error_Some; congruence|]. split; auto. split; auto. rewrite (nth_error_nth _ _ 0 C4). auto.
Qed.
Lemma upd_id s v : v < length (ctrs s) -> upd (ctrs s) v (gc s v) = ctrs s.
Proof. unfold gc. generalize (ctrs s). intros l. revert v. induction l as [|y l IH]; intros [|w] L; cbn in *; auto; try lia. f_equal. apply IH. lia. Qed.
Lemma idle_facts s v : idle s v -> alive (gc s v) = true /\ tf v (stk s) = [] /\ forall f, In f (stk s) -> source f <> Some v.
Proof. intros [A B]. split; auto. split; [apply idle_tf|]; intros f F; apply (B f F). Qed.
Lemma destroy_inv s v K : inv s -> idle s v -> kok (gc s v) K ->
  (match K with KEmplace _ (Some (q, x)) => q <> v /\ idle s q /\ sto (gc s q) = Some x | KAssign q => q <> v /\ idle s q /\ cts (gc s q) = cts (gc s v) | _ => True end) -> inv (destroy s v K).
Proof.
  intros I ID KO SQ. apply idle_facts in ID. destruct ID as (A & T & SR).
  assert (Q : match K with KEmplace _ (Some (q, x)) => q <> v /\ alive (gc s q) = true /\ tf q (stk s) = [] /\ sto (gc s q) = Some x
              | KAssign q => q <> v /\ alive (gc s q) = true /\ tf q (stk s) = [] /\ cts (gc s q) = cts (gc s v) | _ => True end).
  { destruct K as [| |k [[q x]|]|q]; auto; destruct SQ as (Q1 & Q2 & Q3); apply idle_facts in Q2; tauto. }
  pose proof (i_c I v) as C. rewrite T in C. cbn in C. rewrite A in C. destruct C as [[C1 C2]|(k & o & C)].
  - unfold destroy. rewrite touch_alive, C1 by auto. apply cont_inv; auto.
  - eapply push_inv; eauto. intros q S. destruct K as [| |k1 [[q1 x]|]|q1]; cbn in S; try discriminate; injection S as <-; split; try tauto; unfold sok; cbn; tauto.
Qed.
Lemma create_inv s o ts : inv s -> inv (mks (objs s) (ctrs s ++ [mkc o ts None None true]) (stk s) (log s)).
Proof.
  intros I. set (n := length (ctrs s)). set (s' := mks _ _ _ _).
  assert (G : forall w, gc s' w = if w =? n then mkc o ts None None true else gc s w).
  { intros w. unfold gc, s'. cbn [ctrs]. destruct (Nat.eqb_spec w n) as [->|N]; [unfold n; rewrite app_nth2, Nat.sub_diag by lia; auto|]. destruct (le_lt_dec n w); [|apply app_nth1; auto].
    rewrite !nth_overflow; auto; rewrite ?app_length; cbn; unfold n in *; lia. }
  assert (L : gc s n = no_ctr) by (unfold gc, n; apply nth_overflow; lia).
  assert (TN : tf n (stk s) = []). { apply idle_tf. intros f F E. pose proof (i_t I _ F). unfold n in *. lia. }
  constructor; unfold s' in *; cbn [objs ctrs stk log] in *.
  - intros f F. rewrite app_length. pose proof (i_t I _ F). lia.
  - intros v. rewrite G. destruct (Nat.eqb_spec v n) as [->|]; [rewrite TN; cbn; auto|apply (i_c I)].
  - intros f q F E. destruct (i_s I _ F E) as (S1 & S2 & S3). unfold sok. rewrite !G. cbn [stk]. destruct (Nat.eqb_spec q n) as [->|]; [rewrite L in S1; discriminate|]. split; [auto|]. split; [auto|].
    destruct f as [|v1 o1 [| |k1 [[q1 x1]|]|q1]]; auto. rewrite G. destruct (Nat.eqb_spec v1 n) as [->|]; auto. pose proof (i_t I _ F). cbn in H. unfold n in *. lia.
  - intros v w x. rewrite !G. destruct (Nat.eqb_spec v n), (Nat.eqb_spec w n); cbn; try congruence. apply (i_j I).
  - intros x t st E X. destruct (i_o I _ E X) as [w W]. exists w. rewrite G. destruct (Nat.eqb_spec w n) as [->|]; auto. rewrite L in W. discriminate.
  - exact (i_d I).
  - exact (i_k I).
  - exact (i_h I).
  - intros v k o1 x i E. rewrite G. destruct (Nat.eqb_spec v n) as [->|]; [|eapply (i_n I); eauto]. pose proof (i_l I _ _ _ _ E). unfold n in *. lia.
  - intros v k o1 a E. rewrite app_length. pose proof (i_l I _ _ _ _ E). lia.
  - exact (i_b I).
Qed.
Lemma ret_inv s v k o st : inv s -> stk s = FCtor v k o :: st -> inv (emit (w_stk s st) (ECtorEnd o)).
Proof.
  intros I E. pose proof (i_c I v) as C. rewrite E in C. cbn [tf filter target] in C. rewrite Nat.eqb_refl in C. fold (tf v st) in C.
  assert (T : tf v st = []) by (destruct (tf v st); auto; destruct C). rewrite T in C. cbn in C.
  assert (VL : v < length (ctrs s)) by (apply (i_t I (FCtor v k o)); rewrite E; cbn; auto).
  unfold emit, w_stk. cbn [objs ctrs stk log]. rewrite <- (upd_id s VL) at 1.
  apply upd_inv; auto.
  - intros w N. rewrite E. symmetry. apply same_tf with (v := v); auto.
  - intros f F. left. rewrite E. cbn; auto.
  - rewrite T. cbn. destruct (alive (gc s v)); eauto.
  - intros f q F S. assert (X : In f (stk s)) by (rewrite E; cbn; auto). pose proof (i_s I _ X S) as Y. split; auto. intros ->. destruct Y as (_ & Y & _). rewrite E in Y. cbn in Y. rewrite Nat.eqb_refl in Y. discriminate.
  - intros x t st0 X Y. congruence.
  - exact (i_d I).
  - intros x. transitivity (In (ECtorThrow x) (log s)); [split; [intros [X|X]; [discriminate|auto]|cbn; auto]|]. apply (i_h I).
  - intros w k1 o1 a [X|X]; [discriminate|auto].
  - intros b [X|X]; [discriminate|]. eapply (i_b I); eauto.
Qed.
Lemma throw_inv s v k o st s' : inv s -> stk s = FCtor v k o :: st -> alive (gc s v) = true -> step s AThrow = Some s' -> inv s' /\ idx (gc s' v) = None /\ sto (gc s' v) = None /\ alive (gc s' v) = true.
Proof.
  intros I E A H. pose proof (i_c I v) as C. rewrite E in C. cbn [tf filter target] in C. rewrite Nat.eqb_refl in C. fold (tf v st) in C.
  assert (T : tf v st = []) by (destruct (tf v st); auto; destruct C). rewrite T in C. cbn in C. rewrite A in C. destruct C as (C1 & C2 & t & C3 & C4).
  assert (VL : v < length (ctrs s)) by (apply alive_lt; auto).
  cbn [step] in H. rewrite E in H. set (s0 := emit (w_ost (w_stk s st) o OThrown) (ECtorThrow o)) in H.
  assert (E0 : s0 = mks (upd (objs s) o (t, OThrown)) (ctrs s) st (ECtorThrow o :: log s)). { unfold s0, w_ost. cbn [objs w_stk]. rewrite C3. reflexivity. }
  assert (G0 : gc s0 v = gc s v) by (rewrite E0; auto).
  set (s1 := mks (upd (objs s) o (t, OThrown)) (upd (ctrs s) v (w_sto (gc s v) None)) st (ECtorThrow o :: log s)).
  assert (G1 : gc s1 v = w_sto (gc s v) None). { unfold gc, s1. cbn [ctrs]. rewrite gc_upd, Nat.eqb_refl; auto. }
  assert (E1 : (if onat_eqb (sto (gc s0 v)) (Some o) then w_ctr s0 v (w_sto (gc s0 v) None) else s0) = s1). { rewrite G0, C2, onat_refl. unfold w_ctr. rewrite E0. reflexivity. }
  assert (T1 : touch s1 v = s1) by (apply touch_alive; rewrite G1; auto).
  cbn zeta in H. rewrite E1, T1, G1 in H. injection H as <-. unfold w_ctr, s1. cbn [objs ctrs stk log]. rewrite upd_upd.
  assert (OU := fun x st => @ob_upd (objs s) o t OLive st x C3).
  split.
  - apply upd_inv; auto.
    + intros w N. rewrite E. symmetry. apply same_tf with (v := v); auto.
    + intros f F. left. rewrite E. cbn; auto.
    + rewrite T. cbn. rewrite A. auto.
    + intros f q F S. assert (X : In f (stk s)) by (rewrite E; cbn; auto). pose proof (i_s I _ X S) as Y. split; auto. intros ->. destruct Y as (_ & Y & _). rewrite E in Y. cbn in Y. rewrite Nat.eqb_refl in Y. discriminate.
    + intros x N. rewrite OU. destruct (Nat.eqb_spec o x) as [->|]; auto. congruence.
    + apply upd_length.
    + intros x t0 st0 X _. replace x with o by congruence. rewrite OU, Nat.eqb_refl. intros Z. injection Z as _ <-. auto.
    + intros x. change (dtors x (log s) = match ost_of (upd (objs s) o (t, OThrown)) x with Some ODtor | Some ODead => 1 | _ => 0 end). rewrite (i_d I). unfold ost_of, ostat. rewrite OU.
      destruct (Nat.eqb_spec o x) as [<-|]; auto. rewrite C3. auto.
    + intros x. unfold ost_of. rewrite OU. destruct (Nat.eqb_spec o x) as [<-|N]; [cbn; tauto|]. pose proof (i_h I x) as Y. unfold ostat in Y. rewrite <- Y. split; [intros [X|X]; [congruence|auto]|cbn; auto].
    + intros w k1 o1 a [X|X]; [discriminate|auto].
    + intros b [X|X]; [discriminate|]. eapply (i_b I); eauto.
  - unfold gc. cbn [ctrs]. rewrite gc_upd, Nat.eqb_refl by auto. cbn. auto.
Qed.

Lemma inv_step s a s' : inv s -> polite s a -> step s a = Some s' -> inv s'.
Proof.
  intros I P H. destruct a as [o ts|v p| |].
  - injection H as <-. apply create_inv; auto.
  - destruct p as [k [q|]|q| | |]; cbn [step polite] in *.
    + destruct P as (P1 & P2 & P3 & P4). destruct (sto (gc s q)) as [x|] eqn:E; [|discriminate]. injection H as <-. apply destroy_inv; auto.
    + destruct P as (P1 & P2 & _). injection H as <-. apply destroy_inv; auto.
    + destruct P as (P1 & P2 & P3 & P4 & P5). destruct (Nat.eqb_spec v q); injection H as <-; auto. apply destroy_inv; auto.
    + injection H as <-. destruct P as [P|(A & k & o & F & U)]; [apply destroy_inv; cbn; auto|].
      assert (T : exists k', tf v (stk s) = [FCtor v k' o] /\ FCtor v k' o = FCtor v k o).
      { pose proof (i_c I v) as C. assert (X : In (FCtor v k o) (tf v (stk s))) by (apply filter_In; split; auto; cbn; apply Nat.eqb_refl).
        assert (AL : forall f, In f (tf v (stk s)) -> f = FCtor v k o). { intros f Y. apply filter_In in Y. destruct Y as [Y1 Y2]. apply Nat.eqb_eq in Y2. destruct (U f Y1) as [[Z|Z] _]; auto; contradiction. }
        destruct (tf v (stk s)) as [|f l]; [destruct X|]. pose proof (AL f (or_introl eq_refl)) as Y. subst f. destruct l; [eauto|]. destruct C. }
      destruct T as (k' & T & Z). injection Z as ->. pose proof (i_c I v) as C. rewrite T in C. cbn in C. rewrite A in C.
      eapply push_inv; eauto; cbn; auto; [intros f Y; apply (U f Y)|discriminate].
    + destruct P as (P1 & P2). injection H as <-. apply destroy_inv; cbn; auto.
    + destruct P as (P1 & P2). apply idle_facts in P1. destruct P1 as (A & T & SR). rewrite touch_alive in H by auto. pose proof (i_c I v) as C. rewrite T in C. cbn in C. rewrite A in C.
      destruct C as [[C _]|(k & o & C1 & C2 & t & C3 & C4)]; [contradiction|]. rewrite C1, C2 in H. unfold is_live, ostat, oty in H. rewrite C3, C4 in H. cbn in H. rewrite Nat.eqb_refl in H. cbn in H. injection H as <-.
      pose proof (alive_lt _ _ A) as VL. unfold emit. rewrite <- (upd_id s VL) at 1. apply upd_inv; auto.
      * apply (i_c I).
      * intros f q F S. split; [intros ->; eapply SR; eauto|apply (i_s I); auto].
      * intros x t0 st0 X Y. congruence.
      * exact (i_d I).
      * intros x. transitivity (In (ECtorThrow x) (log s)); [split; [intros [X|X]; [discriminate|auto]|cbn; auto]|]. apply (i_h I).
      * intros w k1 o1 a [X|X]; [discriminate|auto].
      * intros b [X|X]; [discriminate|]. eapply (i_b I); eauto.
  - cbn [step] in H. destruct (stk s) as [|[v k o|v o K] st] eqn:E; [discriminate| |].
    + injection H as <-. eapply ret_inv; eauto.
    + assert (X : s' = cont (popped s v o K st) v K) by (injection H as <-; reflexivity). subst s'. clear H. assert (DK : K = KEnd \/ K <> KEnd) by (destruct K; auto; right; discriminate). destruct DK as [-> |NK].
      * cbn [cont]. apply popped_end_inv; auto.
      * destruct (popped_inv I E NK) as (J & A & IX & ST & T & KO & SR & SQ). cbn zeta in *. apply cont_inv; auto.
        destruct K as [| |k [[q x]|]|q]; auto; destruct (SQ q eq_refl) as (Q1 & Q2 & Q3 & Q4 & Q5 & Q6 & Q7); rewrite Q2; repeat split; auto.
        rewrite Q7. pose proof (i_c I v) as C. rewrite E in C. cbn [tf filter target] in C. rewrite Nat.eqb_refl in C. fold (tf v st) in C.
        assert (T2 : tf v st = []). { destruct (tf v st) as [|[v2 k2 o2|v2 o2 K2] [|f2 l2]]; auto; destruct C. } rewrite T2 in C. destruct C as (C1 & C2 & (t & C3) & _).
        destruct (@popped_eq s v o (KAssign q) st t C1 C2 C3) as (c' & -> & P1 & _). unfold gc at 2. cbn [ctrs]. rewrite gc_upd, Nat.eqb_refl; auto. apply alive_lt; auto.
  - cbn [polite] in P. destruct (stk s) as [|[v k o|v o K] st] eqn:E; try contradiction. eapply throw_inv; eauto.
Qed.
Lemma init_inv : inv init.
Proof. constructor; cbn; try tauto; intros; try discriminate; auto; try (destruct v; cbn; auto; discriminate); destruct o; cbn; auto; try discriminate; split; try tauto; discriminate. Qed.
Theorem reach_inv s : reachable s -> inv s.
Proof. induction 1; [apply init_inv|eapply inv_step; eauto]. Qed.

(** ** Theorems, for every history of polite users *)
(** No container is used after its end; no destructor is run on anything but a live object of the right type; nothing is built over a live object or read when it is not live. *)
Theorem container_safe_partial s b : reachable s -> ~ In (EBad b) (log s).
Proof. intros R. apply (i_b (reach_inv R)). Qed.
(** Every object is destroyed at most once, and not at all if its constructor threw. *)
Theorem content_destroyed_once s o : reachable s -> dtors o (log s) <= ctors o (log s) /\ ctors o (log s) <= 1 /\ (In (ECtorThrow o) (log s) -> dtors o (log s) = 0).
Proof.
  intros R. pose proof (reach_inv R) as I. rewrite (i_d I), (i_k I), (i_h I). split; [|split].
  - unfold ostat. destruct (Nat.ltb_spec o (length (objs s))) as [L|L]; [destruct (nth_error (objs s) o) as [[t []]|]; lia|]. apply nth_error_None in L. rewrite L. auto.
  - destruct (o <? length (objs s)); lia.
  - intros ->. auto.
Qed.
(** Nothing leaks: every object that was built, did not throw and has not been destroyed is in exactly one container, which still exists. *)
Theorem content_is_held s o : reachable s -> ctors o (log s) = 1 -> dtors o (log s) = 0 -> ~ In (ECtorThrow o) (log s) -> exists! v, alive (gc s v) = true /\ sto (gc s v) = Some o.
Proof.
  intros R C D T. pose proof (reach_inv R) as I. rewrite (i_d I) in D. rewrite (i_k I) in C. rewrite (i_h I) in T. unfold ostat in *. destruct (Nat.ltb_spec o (length (objs s))) as [L|L]; [|discriminate].
  destruct (nth_error (objs s) o) as [[t st]|] eqn:E; [|apply nth_error_None in E; lia]. assert (st = OLive) by (destruct st; auto; try discriminate; destruct (T eq_refl)). subst st.
  destruct (i_o I _ E) as [v V]; auto. exists v. split; [split; auto|intros w [_ W]; eapply (i_j I); eauto].
  pose proof (i_c I v) as X. destruct (alive (gc s v)) eqn:A; auto. exfalso. destruct (tf v (stk s)) as [|[v1 k1 o1|v1 o1 K1] [|[v2 k2 o2|v2 o2 K2] l]]; cbn in X; rewrite ?A in X; try congruence; try tauto; destruct K1; try destruct l; try tauto; destruct X as (X1 & X2 & X3); congruence.
Qed.
(** When every container is gone, so is every object. *)
Theorem all_released s : reachable s -> (forall v, alive (gc s v) = false) -> forall o, ctors o (log s) = 1 -> In (ECtorThrow o) (log s) \/ dtors o (log s) = 1.
Proof.
  intros R N o C. pose proof (reach_inv R) as I. destruct (ostat s o) as [[]|] eqn:E.
  - destruct (@content_is_held s o R C) as (v & [V _] & _); [rewrite (i_d I), E; auto|rewrite (i_h I), E; discriminate|]. rewrite N in V. discriminate.
  - right. rewrite (i_d I), E. auto.
  - right. rewrite (i_d I), E. auto.
  - left. apply (i_h I). auto.
  - exfalso. rewrite (i_k I) in C. unfold ostat in E. destruct (Nat.ltb_spec o (length (objs s))) as [L|L]; [|discriminate]. apply nth_error_Some in L. destruct (nth_error (objs s) o) as [[]|]; [discriminate|congruence].
Qed.
(** The index tells the truth: a container not in an operation is valueless and holds nothing, or holds a live object of the type its index names. *)
Theorem index_is_right s v : reachable s -> idle s v ->
  match idx (gc s v) with
  | None => sto (gc s v) = None
  | Some k => exists o t, sto (gc s v) = Some o /\ ostat s o = Some OLive /\ oty s o = Some t /\ nth_error (cts (gc s v)) k = Some t
  end.
Proof.
  intros R ID. apply idle_facts in ID. destruct ID as (A & T & _). pose proof (i_c (reach_inv R) v) as C. rewrite T in C. cbn in C. rewrite A in C.
  destruct C as [[-> C]|(k & o & -> & C2 & t & C3 & C4)]; auto. exists o, t. unfold ostat, oty. rewrite C3. auto.
Qed.
(** emplace: when the constructor returns, the container (if it still exists) holds the new object; if it throws, the container is valueless. *)
Theorem emplace_holds s v k o st s' : reachable s -> stk s = FCtor v k o :: st -> step s ARet = Some s' -> alive (gc s' v) = true -> idx (gc s' v) = Some k /\ sto (gc s' v) = Some o /\ ostat s' o = Some OLive.
Proof.
  intros R E H A. pose proof (i_c (reach_inv R) v) as C. cbn [step] in H. rewrite E in H. injection H as <-. rewrite E in C. cbn [tf filter target] in C. rewrite Nat.eqb_refl in C. fold (tf v st) in C.
  destruct (tf v st); [|destruct C]. cbn in C. change (gc (emit (w_stk s st) (ECtorEnd o)) v) with (gc s v) in *. rewrite A in C. destruct C as (C1 & C2 & t & C3 & _). unfold ostat. cbn [objs emit w_stk]. rewrite C3. auto.
Qed.
Theorem throw_valueless s v k o st s' : reachable s -> polite s AThrow -> stk s = FCtor v k o :: st -> step s AThrow = Some s' -> alive (gc s' v) = true /\ idx (gc s' v) = None /\ sto (gc s' v) = None.
Proof.
  intros R P E H. cbn [polite] in P. rewrite E in P. destruct (@throw_inv s v k o st s' (reach_inv R) E P H) as (_ & A & B & C). auto.
Qed.
(** A copy has the type of the original, and its index too unless a type occurs twice. *)
Theorem copy_keeps_type s v k o x i : reachable s -> In (ECtor v k o (SCopy x i)) (log s) -> nth_error (cts (gc s v)) k = nth_error (cts (gc s v)) i /\ i < length (cts (gc s v)) /\ (NoDup (cts (gc s v)) -> k = i).
Proof.
  intros R E. destruct (i_n (reach_inv R) _ _ _ _ _ E) as (A & B & C). split; auto. split; auto. intros N. symmetry. eapply (proj1 (NoDup_nth_error _) N); auto.
Qed.
(** Assignment to a valueless variant builds a copy of the other's content; from a valueless one it builds nothing; self-assignment does nothing. *)
Theorem assign_copies s v q s' : reachable s -> polite s (AOp v (OpAssign q)) -> v <> q -> idx (gc s v) = None -> step s (AOp v (OpAssign q)) = Some s' ->
  match idx (gc s q) with
  | None => s' = s
  | Some i => exists x k, sto (gc s q) = Some x /\ log s' = ECtor v k (length (objs s)) (SCopy x i) :: log s /\ stk s' = FCtor v k (length (objs s)) :: stk s /\ idx (gc s' v) = Some k
  end.
Proof.
  intros R P N IX H. cbn [polite] in P. destruct P as (P1 & P2 & P3 & P4 & P5). cbn [step] in H. destruct (Nat.eqb_spec v q); [contradiction|]. injection H as <-.
  pose proof (index_is_right R P1) as X. rewrite IX in X. pose proof (index_is_right R P2) as Y. unfold destroy. rewrite touch_alive by apply P1. rewrite IX. cbn [cont]. rewrite touch_alive by apply P2.
  destruct (idx (gc s q)) as [i|]; auto. destruct Y as (x & t & Y1 & Y2 & Y3 & Y4). rewrite Y1. exists x, (index_of (nth i (cts (gc s q)) 0) (cts (gc s v))). unfold construct. rewrite touch_alive by apply P1. rewrite X. cbn [chk]. unfold is_live. rewrite Y2. cbn [chk].
  repeat split; auto. unfold gc at 1. cbn [ctrs emit]. rewrite gc_upd, Nat.eqb_refl; auto. apply alive_lt, P1.
Qed.
Theorem self_assign_noop s v : step s (AOp v (OpAssign v)) = Some s.
Proof. cbn. rewrite Nat.eqb_refl. auto. Qed.

(** ** Examples *)
(** a child operation's constructor completes inline and destroys the container it is being built in *)
Definition ex_inline := [ACreate false [4; 5]; AOp 0 (OpEmplace 1 None); ARet; AOp 0 (OpEmplace 0 None); ARet; AOp 0 OpDestroy; ARet; ARet].
Example ex_inline_log : option_map (fun s => rev (log s)) (runs ex_inline init) = Some [ECtor 0 1 0 SNone; ECtorEnd 0; EDtor 0; EDtorEnd 0; ECtor 0 0 1 SNone; EDtor 1; EDtorEnd 1; ECtorEnd 1].
Proof. vm_compute. reflexivity. Qed.
Lemma polite_runs al s s' : reachable s -> runs al s = Some s' -> (forall n s1 a, runs (firstn n al) s = Some s1 -> nth_error al n = Some a -> polite s1 a) -> reachable s'.
Proof.
  revert s. induction al as [|a al IH]; intros s R H P; cbn in H; [injection H as <-; auto|]. destruct (step s a) as [s1|] eqn:E; [|discriminate].
  apply (IH s1); auto; [econstructor; eauto; apply (P 0 s a); auto|]. intros n s2 b X Y. apply (P (S n) s2 b); auto. cbn. rewrite E. auto.
Qed.
Ltac polite_step := cbn; repeat split; auto; try lia; try discriminate; try congruence; try (intros f F; cbn in F; repeat destruct F as [<-|F]; try destruct F; cbn; split; auto; try discriminate; try congruence).
Example ex_inline_reachable : exists s, runs ex_inline init = Some s /\ reachable s.
Proof.
  destruct (runs ex_inline init) as [s|] eqn:E; [|vm_compute in E; discriminate]. exists s. split; auto. apply (@polite_runs _ _ _ r_init E).
  clear E; intros n s1 a R A; do 8 (destruct n as [|n]; [vm_compute in R; injection R as <-; cbn in A; injection A as <-; solve [polite_step|left; polite_step|right; split; [reflexivity|]; exists 0, 1; cbn; split; [auto|]; intros f [<-|[]]; split; [auto|discriminate]]|]). destruct n; discriminate.
Qed.
(** copy, throw and destruction *)
Definition ex_copy := [ACreate false [4; 5]; ACreate false [4; 5]; AOp 0 (OpEmplace 1 None); ARet; AOp 1 (OpAssign 0); AThrow; AOp 1 (OpAssign 0); ARet; AOp 1 OpGet; AOp 1 OpDestroy; ARet; AOp 0 OpDestroy; ARet].
Example ex_copy_log : option_map (fun s => rev (log s)) (runs ex_copy init) = Some [ECtor 0 1 0 SNone; ECtorEnd 0; ECtor 1 1 1 (SCopy 0 1); ECtorThrow 1; ECtor 1 1 2 (SCopy 0 1); ECtorEnd 2; EGet 1 2; EDtor 2; EDtorEnd 2; EDtor 0; EDtorEnd 0].
Proof. vm_compute. reflexivity. Qed.
Example ex_copy_reachable : exists s, runs ex_copy init = Some s /\ reachable s.
Proof.
  destruct (runs ex_copy init) as [s|] eqn:E; [|vm_compute in E; discriminate]. exists s. split; auto. apply (@polite_runs _ _ _ r_init E).
  clear E; intros n s1 a R A; do 13 (destruct n as [|n]; [vm_compute in R; injection R as <-; cbn in A; injection A as <-; solve [polite_step|left; polite_step]|]). destruct n; discriminate.
Qed.

(** ** Refutations of the unrestricted statements *)
(** A constructor that destroys the container and then throws: the guard writes to a container that no longer exists. *)
Theorem throw_after_destroy_refuted : exists s, runs [ACreate false [4]; AOp 0 (OpEmplace 0 None); AOp 0 OpDestroy; ARet; AThrow] init = Some s /\ In (EBad (BTouch 0)) (log s).
Proof. eexists. split; [vm_compute; reflexivity|cbn; tauto]. Qed.
(** emplace from the container's own content reads an object that is destroyed already. *)
Theorem emplace_alias_refuted o : exists s, runs [ACreate o [4]; AOp 0 (OpEmplace 0 None); ARet; AOp 0 (OpEmplace 0 (Some 0)); ARet] init = Some s /\ In (EBad (BUse 0)) (log s).
Proof. destruct o; eexists; (split; [vm_compute; reflexivity|cbn; tauto]). Qed.
(** An optional reset again by the destructor of its value destroys the value twice. *)
Theorem optional_reset_reentry_refuted : exists s, runs [ACreate true [4]; AOp 0 (OpEmplace 0 None); ARet; AOp 0 OpReset; AOp 0 OpReset] init = Some s /\ dtors 0 (log s) = 2.
Proof. eexists. split; [vm_compute; reflexivity|reflexivity]. Qed.
(** A variant given a new value by the destructor of the old one loses it. *)
Theorem variant_emplace_reentry_refuted : exists s, runs [ACreate false [4]; AOp 0 (OpEmplace 0 None); ARet; AOp 0 (OpEmplace 0 None); AOp 0 (OpEmplace 0 None); ARet; ARet; ARet; AOp 0 OpDestroy; ARet] init = Some s /\
  alive (gc s 0) = false /\ ctors 1 (log s) = 1 /\ dtors 1 (log s) = 0.
Proof. eexists. split; [vm_compute; reflexivity|vm_compute; auto]. Qed.
(** If a type occurs twice, a copy may have another index than the original. *)
Theorem copy_index_refuted : exists s, reachable s /\ idx (gc s 0) = Some 1 /\ idx (gc s 1) = Some 0 /\ In (ECtor 1 0 1 (SCopy 0 1)) (log s).
Proof.
  destruct (runs [ACreate false [4; 4]; ACreate false [4; 4]; AOp 0 (OpEmplace 1 None); ARet; AOp 1 (OpAssign 0); ARet] init) as [s|] eqn:E; [|vm_compute in E; discriminate]. exists s. split.
  - apply (@polite_runs _ _ _ r_init E). clear E; intros n s1 a R A; do 6 (destruct n as [|n]; [vm_compute in R; injection R as <-; cbn in A; injection A as <-; try solve [polite_step]|]). destruct n; discriminate.
  - vm_compute in E. injection E as <-. cbn. tauto.
Qed.
Print Assumptions container_safe_partial.
Print Assumptions all_released.
