(** * HeapProofs: the pointer operations of intrusive_heap implement the tree operations. *)
From Coq Require Import List Arith Bool Lia ZArith NArith.
From Verif Require Import Conc QueueModel QueueProofs HeapModel HeapTree.
Import ListNotations.
Set Implicit Arguments.

(** [rep e m p par t]: p points to the tree t whose root's Prev is par; the Prev link of node e (if
    any) is not constrained *)
Fixpoint rep (e : ptr) (m : mem) (p par : ptr) (t : tree) : Prop :=
  match t with
  | Leaf => p = None
  | T l x r => p = Some x /\ (e = Some x \/ prev m x = par) /\
               rep e m (left m x) (Some x) l /\ rep e m (right m x) (Some x) r
  end.
(** the same for a context whose hole holds hp and is to have Prev par *)
Fixpoint rctx (e : ptr) (m : mem) (c : ctx) (hp par : ptr) : Prop :=
  match c with
  | [] => root m = hp /\ par = None
  | (b, y, s) :: c =>
      par = Some y /\
      (if b then right m y = hp /\ rep e m (left m y) (Some y) s
       else left m y = hp /\ rep e m (right m y) (Some y) s) /\
      exists gp, (e = Some y \/ prev m y = gp) /\ rctx e m c (Some y) gp
  end.
Definition loc_of (c : ctx) : loc :=
  match c with [] => LRoot | (true, y, _) :: _ => LRight y | (false, y, _) :: _ => LLeft y end.

Definition same m m' z := left m' z = left m z /\ right m' z = right m z /\ prev m' z = prev m z.

Lemma rep_frame e m m' t : forall p par, rep e m p par t ->
  (forall z, 0 < cn z t -> same m m' z) -> rep e m' p par t.
Proof.
  induction t as [|l IHl x r IHr]; intros p par H F; simpl in *; auto.
  destruct H as (H1 & H2 & H3 & H4).
  destruct (F x) as (F1 & F2 & F3); [rewrite Nat.eqb_refl; lia|].
  rewrite F1, F2, F3. repeat split; auto; [apply IHl|apply IHr]; auto; intros z Hz; apply F; lia.
Qed.
Lemma rctx_same e m m' c : forall hp par, rctx e m c hp par ->
  (forall z, 0 < cc z c -> same m m' z) -> root m' = root m -> rctx e m' c hp par.
Proof.
  induction c as [|[[b y] s] c IH]; intros hp par H F R; simpl in *.
  - rewrite R; auto.
  - destruct H as (H1 & H2 & gp & H3 & H4).
    destruct (F y) as (F1 & F2 & F3); [rewrite Nat.eqb_refl; lia|].
    split; auto. split.
    + destruct b; rewrite F1, F2; destruct H2 as [H2 H2']; (split; [exact H2|]);
        (apply rep_frame with (m := m); [exact H2'|]); intros z Hz; apply F; lia.
    + exists gp. rewrite F3. split; auto. apply IH; auto. intros z Hz; apply F; lia.
Qed.
(** the hole gets a new content *)
Lemma rctx_hole e m m' c hp par v : rctx e m c hp par ->
  (forall z, cc z c <= 1) ->
  (forall z, 0 < cc z c -> prev m' z = prev m z /\ (LLeft z <> loc_of c -> left m' z = left m z) /\
                           (LRight z <> loc_of c -> right m' z = right m z)) ->
  (LRoot <> loc_of c -> root m' = root m) -> load m' (loc_of c) = v -> rctx e m' c v par.
Proof.
  destruct c as [|[[b y] s] c]; simpl; intros H U F R L.
  - tauto.
  - destruct H as (H1 & H2 & gp & H3 & H4).
    assert (Fo : forall z, (0 < cn z s \/ 0 < cc z c) -> same m m' z).
    { intros z Hz. destruct (F z) as (F1 & F2 & F3); [lia|].
      assert (z <> y). { intros ->. specialize (U y). rewrite Nat.eqb_refl in U. lia. }
      repeat split; auto; [apply F2|apply F3]; destruct b; congruence. }
    destruct (F y) as (F1 & F2 & F3); [rewrite Nat.eqb_refl; lia|].
    split; auto. split; [|exists gp; rewrite F1; split; auto].
    + destruct b; simpl in L; (split; [exact L|]).
      * rewrite F2 by discriminate. eapply rep_frame; [apply H2|]. intros; apply Fo; auto.
      * rewrite F3 by discriminate. eapply rep_frame; [apply H2|]. intros; apply Fo; auto.
    + eapply rctx_same; [exact H4| |apply R; destruct b; discriminate]. intros; apply Fo; auto.
Qed.

Lemma rep_plug e m c : forall hp par t, rctx e m c hp par -> rep e m hp par t ->
  rep e m (root m) None (plug c t).
Proof.
  induction c as [|[[b y] s] c IH]; intros hp par t H R; simpl in *.
  - destruct H as [<- ->]. exact R.
  - destruct H as (-> & H2 & gp & H3 & H4).
    apply IH with (hp := Some y) (par := gp); auto. destruct b; destruct H2 as [H2 H2'];
      subst; simpl; auto.
Qed.
Lemma plug_rep e m c : forall t, rep e m (root m) None (plug c t) ->
  exists hp par, rctx e m c hp par /\ rep e m hp par t.
Proof.
  induction c as [|[[b y] s] c IH]; intros t R; simpl in *.
  - exists (root m), None. auto.
  - apply IH in R. destruct R as (hp & par & C & R).
    destruct b; simpl in R; destruct R as (-> & R1 & R2 & R3).
    + exists (right m y), (Some y). repeat split; eauto.
    + exists (left m y), (Some y). repeat split; eauto.
Qed.
Lemma rctx_load e m c hp par : rctx e m c hp par -> load m (loc_of c) = hp.
Proof. destruct c as [|[[[] y] s] c]; simpl; tauto. Qed.
Lemma rep_e e m p par t : rep None m p par t -> rep e m p par t.
Proof.
  revert p par. induction t as [|l IHl x r IHr]; intros p par H; simpl in *; auto.
  destruct H as (H1 & [H2|H2] & H3 & H4); [discriminate|]. auto.
Qed.
Lemma rctx_e e m c : forall p par, rctx None m c p par -> rctx e m c p par.
Proof.
  induction c as [|[[b y] s] c IH]; intros p par H; simpl in *; auto.
  destruct H as (H1 & H2 & gp & [H3|H3] & H4); [discriminate|].
  split; auto. split; [destruct b; destruct H2; auto using rep_e|]. eauto.
Qed.
(** dropping the exemption of a node that is not there, or whose link is right *)
Lemma rep_unexempt x m t : forall p par, cn x t = 0 -> rep (Some x) m p par t -> rep None m p par t.
Proof.
  induction t as [|l IHl y r IHr]; intros p par C H; simpl in *; auto.
  destruct (Nat.eqb_spec x y); [lia|]. destruct H as (H1 & [H2|H2] & H3 & H4); [congruence|].
  repeat split; auto; [apply IHl|apply IHr]; auto; lia.
Qed.
Lemma rctx_unexempt x m c : forall p par, cc x c = 0 -> rctx (Some x) m c p par -> rctx None m c p par.
Proof.
  induction c as [|[[b y] s] c IH]; intros p par C H; simpl in *; auto.
  destruct (Nat.eqb_spec x y); [lia|].
  destruct H as (H1 & H2 & gp & [H3|H3] & H4); [congruence|].
  split; auto. split.
  - destruct b; destruct H2 as [? H2]; (split; [auto|]); apply rep_unexempt in H2; auto; lia.
  - exists gp. split; auto. apply IH; auto; lia.
Qed.

(** tactics: separate nodes by counting *)
Ltac sep U a b :=
  exfalso; first [subst a; let K := fresh in pose proof (U b) as K; cbn [cn cc] in K; rewrite ?Nat.eqb_refl in K; lia
                 |subst b; let K := fresh in pose proof (U a) as K; cbn [cn cc] in K; rewrite ?Nat.eqb_refl in K; lia].
Ltac fs U := simpl; unfold fset; rewrite ?Nat.eqb_refl;
  repeat match goal with
  | |- context [?a =? ?b] => destruct (Nat.eqb_spec a b) as [?E|?E]; [try congruence; try (sep U a b)|]
  end; auto; try congruence.
(** a subtree or context that is not touched *)
Ltac keep U := let z := fresh "z" in let Hz := fresh "Hz" in
  intros z Hz; cbn [cn cc] in Hz; unfold same; repeat split; intros; fs U.

Ltac cases c := destruct c as [|[[[] ?y] ?s] ?c].

(** ** insert *)
Lemma push_ok e bits : forall m c node t cur par,
  rctx e m c (Some node) par -> (e = Some node \/ prev m node = par) ->
  rep e m cur (Some node) t -> insp bits t ->
  (forall z, cn z t + cc z c + (if z =? node then 1 else 0) <= 1) ->
  (bits = [] -> right m node = None) ->
  exists m', ins_push m bits node cur = Some m' /\
    rep e m' (root m') None (plug c (t_push bits node t)) /\
    key m' = key m /\ size m' = size m /\
    (forall z, cn z t + cc z c + (if z =? node then 1 else 0) = 0 -> same m m' z).
Proof.
  induction bits as [|b bits IH]; intros m c node t cur par C P R I U B.
  - destruct t; [|simpl in I; tauto]. simpl in *. rewrite B by auto.
    eexists. split; [reflexivity|]. split; [|repeat split; fs U].
    + apply rep_plug with (hp := Some node) (par := par).
      * apply rctx_same with (m := m); auto. keep U.
      * simpl. rewrite fset_same. rewrite B; auto.
  - destruct t as [|l y r]; [simpl in I; tauto|].
    simpl in R. destruct R as (-> & R1 & R2 & R3). simpl in I. destruct I as [I1 I2].
    assert (Ny : y <> node) by (intros K; sep U y node).
    destruct b.
    + destruct l as [|ll a lr]; [destruct I1; auto; discriminate|].
      assert (Hl : left m y = Some a) by (simpl in R2; tauto).
      cbn [ins_push]. set (m1 := s_left (s_right m node (Some y)) node (left (s_right m node (Some y)) y)).
      assert (L1 : left m1 y = Some a) by (subst m1; fs U).
      rewrite L1. set (m2 := s_prev m1 a (Some node)).
      assert (Er : right m2 y = right m y) by (subst m2 m1; fs U).
      rewrite Er.
      destruct (IH m2 ((true, node, T ll a lr) :: c) y r (right m y) (Some node)) as (m' & E1 & E2 & E3 & E4 & E5); auto.
      * simpl. split; auto. split.
        { subst m2 m1. split; [fs U|]. simpl in R2. destruct R2 as (_ & R2 & R4 & R5).
          assert (Ea : forall v, fset (left m) node v a = left m a) by (intros; fs U).
          assert (Eb : forall v, fset (right m) node v a = right m a) by (intros; fs U).
          rewrite fset_same, Hl. split; auto. rewrite fset_same. split; auto. cbn [left right s_prev s_left s_right].
          rewrite Ea, Eb. split; (eapply rep_frame; [eassumption|keep U]). }
        { exists par. split; [subst m2 m1; destruct P as [P|P]; [left; auto|right]; fs U|].
          apply rctx_same with (m := m); [exact C| |reflexivity]. subst m2 m1. keep U. }
      * subst m2 m1. destruct R1 as [R1|R1]; [left; auto|right]. fs U.
      * eapply rep_frame; [exact R3|]. subst m2 m1; keep U.
      * intros z. specialize (U z). cbn [cn cc] in *. lia.
      * intros ->. rewrite Er. simpl in I2. destruct r; [|tauto]. exact R3.
      * exists m'. split; [exact E1|]. split; [exact E2|]. split; [rewrite E3; reflexivity|]. split; [rewrite E4; reflexivity|].
        intros z Hz. cbn [cn cc] in Hz.
        destruct (E5 z) as (F1 & F2 & F3); [cbn [cn cc]; lia|].
        unfold same. rewrite F1, F2, F3. subst m2 m1. simpl. unfold fset.
        destruct (Nat.eqb_spec z node); [lia|]. destruct (Nat.eqb_spec z a); [lia|]. auto.
    + cbn [ins_push].
      set (m1 := s_left (s_right m node (right m y)) node (Some y)).
      assert (L1 : right m1 y = right m y) by (subst m1; fs U).
      rewrite L1. set (m2 := match right m y with Some r0 => s_prev m1 r0 (Some node) | None => m1 end).
      assert (Er : left m2 y = left m y) by (subst m2 m1; destruct (right m y); fs U).
      assert (Hr : match r with Leaf => right m y = None | T _ a _ => right m y = Some a end) by (destruct r; simpl in R3; tauto).
      assert (F0 : forall z, cn z r + (if z =? node then 1 else 0) = 0 -> same m m2 z).
      { intros z Hz. subst m2 m1. destruct r as [|rl a rr]; rewrite Hr; unfold same; simpl; unfold fset; cbn [cn] in Hz;
        (destruct (Nat.eqb_spec z node); [lia|]); try (destruct (Nat.eqb_spec z a); [lia|]); auto. }
      assert (K2 : key m2 = key m) by (subst m2 m1; destruct (right m y); reflexivity).
      assert (K3 : size m2 = size m) by (subst m2 m1; destruct (right m y); reflexivity).
      assert (K4 : root m2 = root m) by (subst m2 m1; destruct (right m y); reflexivity).
      rewrite Er.
      destruct (IH m2 ((false, node, r) :: c) y l (left m y) (Some node)) as (m' & E1 & E2 & E3 & E4 & E5); auto.
      * simpl. split; auto. split.
        { subst m2 m1. destruct r as [|rl a rr]; rewrite Hr.
          - split; [fs U|]. fs U.
          - split; [fs U|]. simpl in R3. destruct R3 as (_ & R3 & R4 & R5).
            assert (Ea : forall v, fset (left m) node v a = left m a) by (intros; fs U).
            assert (Eb : forall v, fset (right m) node v a = right m a) by (intros; fs U).
            simpl. rewrite !fset_same. split; auto. split; auto. rewrite Ea, Eb.
            split; (eapply rep_frame; [eassumption|keep U]). }
        { exists par. split.
          - destruct P as [P|P]; [left; auto|right]. subst m2 m1. destruct r as [|rl a rr]; rewrite Hr; fs U.
          - apply rctx_same with (m := m); [exact C| |exact K4]. intros z Hz. apply F0.
            specialize (U z). cbn [cn cc] in U. lia. }
      * destruct R1 as [R1|R1]; [left; auto|right]. destruct (F0 y) as (_ & _ & ->); auto.
        specialize (U y). cbn [cn cc] in U. rewrite Nat.eqb_refl in U. lia.
      * eapply rep_frame; [exact R2|]. intros z Hz. apply F0. specialize (U z). cbn [cn cc] in U. lia.
      * intros z. specialize (U z). cbn [cn cc] in *. lia.
      * intros ->. simpl in I2. destruct l; [|tauto]. destruct I1 as [_ ->]; auto.
        destruct (F0 y) as (_ & -> & _); auto.
        specialize (U y). cbn [cn cc] in U |- *. rewrite Nat.eqb_refl in U. lia.
      * exists m'. split; [exact E1|]. split; [exact E2|]. split; [congruence|]. split; [congruence|].
        intros z Hz. cbn [cn cc] in Hz.
        destruct (E5 z) as (F1 & F2 & F3); [cbn [cn cc]; lia|].
        destruct (F0 z) as (G1 & G2 & G3); [lia|]. repeat split; congruence.
Qed.

Lemma store_prev m l v : prev (store m l v) = prev m. Proof. destruct l; reflexivity. Qed.
Lemma store_key m l v : key (store m l v) = key m. Proof. destruct l; reflexivity. Qed.
Lemma store_size m l v : size (store m l v) = size m. Proof. destruct l; reflexivity. Qed.
Lemma store_left m l v z : LLeft z <> l -> left (store m l v) z = left m z.
Proof. destruct l; simpl; auto. intros H. apply fset_other. congruence. Qed.
Lemma store_right m l v z : LRight z <> l -> right (store m l v) z = right m z.
Proof. destruct l; simpl; auto. intros H. apply fset_other. congruence. Qed.
Lemma store_root m l v : LRoot <> l -> root (store m l v) = root m.
Proof. destruct l; simpl; auto. tauto. Qed.
Lemma store_load m l v : load (store m l v) l = v.
Proof. destruct l; simpl; auto; apply fset_same. Qed.
(** a node outside the context is not affected by a store to its hole *)
Lemma loc_out z c : cc z c = 0 -> LLeft z <> loc_of c /\ LRight z <> loc_of c.
Proof.
  destruct c as [|[[[] y] s] c]; simpl; intros H; split; try discriminate; intros E; inversion E; subst;
    rewrite Nat.eqb_refl in H; lia.
Qed.
Lemma store_same m c v z : cc z c = 0 -> same m (store m (loc_of c) v) z.
Proof.
  intros H. apply loc_out in H. destruct H. repeat split;
    [rewrite store_left|rewrite store_right|rewrite store_prev]; auto.
Qed.
Lemma rctx_store e m c hp par v : rctx e m c hp par -> (forall z, cc z c <= 1) ->
  rctx e (store m (loc_of c) v) c v par.
Proof.
  intros C U. eapply rctx_hole; eauto.
  - intros z _. rewrite store_prev. split; auto. split; [apply store_left|apply store_right].
  - apply store_root.
  - apply store_load.
Qed.
Lemma same_trans m1 m2 m3 z : same m1 m2 z -> same m2 m3 z -> same m1 m3 z.
Proof. unfold same. intuition congruence. Qed.
Lemma same_refl m z : same m m z. Proof. unfold same; auto. Qed.

Lemma walk_ok bits : forall m c x t cur par,
  rctx None m c cur par -> rep None m cur par t -> insp bits t ->
  (forall z, cn z t + cc z c + (if z =? x then 1 else 0) <= 1) ->
  exists m', ins_walk m bits (loc_of c) cur par x = Some m' /\
    rep None m' (root m') None (plug c (t_ins (key m) bits x t)) /\
    key m' = key m /\ size m' = size m /\
    (forall z, cn z t + cc z c + (if z =? x then 1 else 0) = 0 -> same m m' z).
Proof.
  induction bits as [|b bits IH]; intros m c x t cur par C R I U;
  assert (Uc : forall z, cc z c <= 1) by (intros z; specialize (U z); lia);
  assert (Ux : cc x c = 0 /\ cn x t = 0) by (specialize (U x); rewrite Nat.eqb_refl in U; lia).
  - destruct t; [|simpl in I; tauto].
    cbn [ins_walk]. eexists. split; [reflexivity|]. cbn [t_ins].
    set (m0 := store m (loc_of c) (Some x)).
    split; [|split; [|split]].
    + apply rep_plug with (hp := Some x) (par := par).
      * apply rctx_same with (m := m0); [eapply rctx_store; eauto| |reflexivity].
        destruct Ux as [Ux _]. intros z Hz. assert (z <> x) by (intros ->; lia).
        unfold same; simpl. rewrite !fset_other by auto. auto.
      * simpl. rewrite !fset_same. auto.
    + apply store_key.
    + apply store_size.
    + intros z Hz. cbn [cn] in Hz. apply same_trans with (m2 := m0); [apply store_same; lia|].
      destruct (Nat.eqb_spec z x); [lia|]. unfold same; simpl. rewrite !fset_other by auto. auto.
  - destruct t as [|l y r]; [simpl in I; tauto|].
    assert (Ny : y <> x) by (intros K; sep U y x).
    assert (Yc : cc y c = 0) by (specialize (U y); cbn [cn] in U; rewrite Nat.eqb_refl in U; lia).
    pose proof R as R'. simpl in R. destruct R as (-> & [K|R1] & R2 & R3); [discriminate|].
    cbn [ins_walk]. cbn [t_ins]. unfold lt. fold (klt (key m) x y).
    destruct (klt (key m) x y) eqn:K.
    + set (m1 := s_prev (s_prev m x par) y (Some x)). set (m2 := store m1 (loc_of c) (Some x)).
      destruct (@push_ok None (b :: bits) m2 c x (T l y r) (Some y) par) as (m' & E1 & E2 & E3 & E4 & E5); auto.
      * apply rctx_store with (hp := Some y); auto. apply rctx_same with (m := m); auto.
        subst m1. intros z Hz. unfold same; simpl. rewrite !fset_other; auto; intros ->; lia.
      * right. subst m2 m1. rewrite store_prev. simpl. rewrite fset_other, fset_same; auto.
      * assert (S1 : forall z, cn z (T l y r) > 0 -> left m2 z = left m z /\ right m2 z = right m z /\ (z <> y -> prev m2 z = prev m z)).
        { intros z Hz. assert (Zc : cc z c = 0) by (specialize (U z); lia). assert (z <> x) by (intros ->; lia).
          destruct (store_same m1 c (Some x) z Zc) as (F1 & F2 & F3). subst m2. rewrite F1, F2, F3.
          subst m1; simpl. repeat split; auto. intros. rewrite !fset_other by auto. auto. }
        simpl. destruct (S1 y) as (F1 & F2 & F3); [cbn [cn]; rewrite Nat.eqb_refl; lia|].
        rewrite F1, F2. split; auto. split.
        { right. subst m2 m1. rewrite store_prev. simpl. apply fset_same. }
        split; (eapply rep_frame; [eassumption|]); intros z Hz;
          (destruct (S1 z) as (G1 & G2 & G3); [cbn [cn]; lia|]); unfold same; repeat split; auto; apply G3;
          intros ->; specialize (U y); cbn [cn] in U; rewrite Nat.eqb_refl in U; lia.
      * discriminate.
      * exists m'. split; [exact E1|]. split; [exact E2|]. rewrite E3, E4. subst m2. rewrite store_key, store_size.
        split; [reflexivity|]. split; [reflexivity|]. intros z Hz.
        apply same_trans with (m2 := store m1 (loc_of c) (Some x)); [|apply E5; auto].
        apply same_trans with (m2 := m1); [|apply store_same; lia].
        subst m1. cbn [cn] in Hz. unfold same; simpl. unfold fset.
        destruct (Nat.eqb_spec z x); [lia|]. destruct (Nat.eqb_spec z y); [lia|]. auto.
    + simpl in I. destruct I as [_ I].
      assert (KF : forall m' t', (rep None m' (root m') None (plug c t') /\ key m' = key m /\ size m' = size m /\
        (forall z, cn z (T l y r) + cc z c + (if z =? x then 1 else 0) = 0 -> same m m' z)) -> 
        rep None m' (root m') None (plug c t') /\ key m' = key m /\ size m' = size m /\
        (forall z, cn z (T l y r) + cc z c + (if z =? x then 1 else 0) = 0 -> same m m' z)) by auto.
      destruct b.
      * destruct (IH m ((true, y, l) :: c) x r (right m y) (Some y)) as (m' & E1 & E2 & E3 & E4 & E5); auto.
        { simpl. split; auto. split; auto. exists par. auto. }
        { intros z. specialize (U z). cbn [cn cc] in *. lia. }
        exists m'. split; [exact E1|]. split; [exact E2|]. split; auto. split; auto.
        intros z Hz. apply E5. cbn [cn cc] in *. lia.
      * destruct (IH m ((false, y, r) :: c) x l (left m y) (Some y)) as (m' & E1 & E2 & E3 & E4 & E5); auto.
        { simpl. split; auto. split; auto. exists par. auto. }
        { intros z. specialize (U z). cbn [cn cc] in *. lia. }
        exists m'. split; [exact E1|]. split; [exact E2|]. split; auto. split; auto.
        intros z Hz. apply E5. cbn [cn cc] in *. lia.
Qed.

(** ** remove_last_leaf *)
Lemma rll_ok bits : forall m c t cur par,
  rctx None m c cur par -> rep None m cur par t -> leafp bits t ->
  (forall z, cn z t + cc z c <= 1) ->
  exists m' x, rll m bits (loc_of c) cur = Some (m', Some x) /\ t_at bits t = Some x /\
    rep None m' (root m') None (plug c (t_cut bits t)) /\
    key m' = key m /\ size m' = size m /\ prev m' = prev m /\
    (forall z, cn z t + cc z c = 0 -> same m m' z).
Proof.
  induction bits as [|b bits IH]; intros m c t cur par C R I U;
  assert (Uc : forall z, cc z c <= 1) by (intros z; specialize (U z); lia).
  - destruct t as [|l x r]; [simpl in I; tauto|]. simpl in R. destruct R as (-> & _).
    cbn [rll]. eexists _, x. split; [reflexivity|]. split; [auto|]. split.
    { apply rep_plug with (hp := None) (par := par); [apply rctx_store with (hp := Some x); auto|reflexivity]. }
    split; [apply store_key|]. split; [apply store_size|]. split; [apply store_prev|].
    intros z Hz. apply store_same. lia.
  - destruct t as [|l y r]; [simpl in I; tauto|]. simpl in R. destruct R as (-> & R1 & R2 & R3).
    simpl in I. cbn [rll t_at t_cut]. destruct b.
    + destruct (IH m ((true, y, l) :: c) r (right m y) (Some y)) as (m' & x & E1 & E2 & E3 & E4 & E5 & E6 & E7); auto.
      { simpl. split; auto. split; auto. exists par. auto. }
      { intros z. specialize (U z). cbn [cn cc] in *. lia. }
      exists m', x. repeat (split; [assumption|]). intros z Hz. apply E7. cbn [cn cc] in *. lia.
    + destruct (IH m ((false, y, r) :: c) l (left m y) (Some y)) as (m' & x & E1 & E2 & E3 & E4 & E5 & E6 & E7); auto.
      { simpl. split; auto. split; auto. exists par. auto. }
      { intros z. specialize (U z). cbn [cn cc] in *. lia. }
      exists m', x. repeat (split; [assumption|]). intros z Hz. apply E7. cbn [cn cc] in *. lia.
Qed.

(** ** sift_down *)

Lemma rep_rootp e m p par t : rep e m p par t -> p = rootp t.
Proof. destruct t; simpl; tauto. Qed.
(** re-parenting: only the Prev of the root changes *)
Lemma rep_reparent e m m' p par par' t : rep e m p par t ->
  (forall z, 0 < cn z t -> left m' z = left m z /\ right m' z = right m z) ->
  (forall z, 0 < cn z t -> rootp t <> Some z -> prev m' z = prev m z) ->
  (forall z, cn z t <= 1) ->
  (forall x, rootp t = Some x -> e = Some x \/ prev m' x = par') -> rep e m' p par' t.
Proof.
  destruct t as [|l x r]; simpl; intros R F G U P; auto. destruct R as (-> & R1 & R2 & R3).
  destruct (F x) as [F1 F2]; [rewrite Nat.eqb_refl; lia|].
  split; auto. split; [apply P; auto|]. rewrite F1, F2.
  split; (eapply rep_frame; [eassumption|]); intros z Hz; destruct (F z); try lia; unfold same; repeat split; auto;
    apply G; try lia; intros E; inversion E; subst; specialize (U z); rewrite Nat.eqb_refl in U; lia.
Qed.

(** the end of the loop: cur stays here *)
Lemma settle e m m' c cur l r P par hp : rctx e m c hp par -> load m (loc_of c) = Some cur ->
  rep e m (left m cur) P l -> rep e m (right m cur) P r -> 
  (forall z, cn z l + cn z r + cc z c + (if z =? cur then 1 else 0) <= 1) ->
  left m' = left m -> right m' = right m -> root m' = root m ->
  (forall z, rootp l <> Some z -> rootp r <> Some z -> z <> cur -> prev m' z = prev m z) ->
  (forall x, rootp l = Some x \/ rootp r = Some x -> prev m' x = Some cur) -> prev m' cur = par ->
  rep e m' (root m') None (plug c (T l cur r)).
Proof.
  intros C L R1 R2 U E1 E2 E3 F G H.
  assert (RL : forall x, rootp l = Some x -> 0 < cn x l).
  { intros x K. destruct l; inversion K; subst. cbn [cn]. rewrite Nat.eqb_refl. lia. }
  assert (RR : forall x, rootp r = Some x -> 0 < cn x r).
  { intros x K. destruct r; inversion K; subst. cbn [cn]. rewrite Nat.eqb_refl. lia. }
  assert (Uc : forall z, cc z c <= 1) by (intros z; specialize (U z); lia).
  assert (Ucur : cn cur l = 0 /\ cn cur r = 0 /\ cc cur c = 0) by (specialize (U cur); rewrite Nat.eqb_refl in U; lia).
  assert (D : forall z, 0 < cc z c -> prev m' z = prev m z).
  { intros z Hz. pose proof (U z) as Uz.
    apply F; intros K; [apply RL in K; lia|apply RR in K; lia|subst; lia]. }
  apply rep_plug with (hp := Some cur) (par := par).
  - apply rctx_hole with (m := m) (hp := hp); auto.
    + intros z Hz. rewrite E1, E2. auto.
    + rewrite <- L. destruct (loc_of c); simpl; congruence.
  - simpl. split; auto. split; auto. rewrite E1, E2.
    split; (eapply rep_reparent; [eassumption| | | |]); try (intros z Hz; rewrite E1, E2; auto; fail);
      try (intros z; specialize (U z); lia); try (intros x Hx; right; apply G; auto; fail).
    + intros z Hz N. pose proof (U z). apply F; auto; [intros K; apply RR in K; lia|intros ->; lia].
    + intros z Hz N. pose proof (U z). apply F; auto; [intros K; apply RL in K; lia|intros ->; lia].
Qed.

Lemma swap_right_step e m c hp par P cur l y r rl z rr : rctx e m c hp par ->
  rootp l = Some y -> r = T rl z rr ->
  rep e m (left m cur) P l -> rep e m (right m cur) P r -> (e = Some z \/ P = par) ->
  (forall w, cn w l + cn w r + cc w c + (if w =? cur then 1 else 0) <= 1) ->
  let m3 := store (s_prev (swap_with_right_child m cur z) y (Some z)) (loc_of c) (Some z) in
  rctx e m3 ((true, z, l) :: c) (Some cur) (Some z) /\
  rep e m3 (left m3 cur) (Some z) rl /\ rep e m3 (right m3 cur) (Some z) rr /\
  key m3 = key m /\ size m3 = size m /\
  (forall w, cn w l + cn w r + cc w c + (if w =? cur then 1 else 0) = 0 -> same m m3 w).
Proof.
  intros C Hl -> R1 R2 HP U m3.
  assert (Uc : forall w, cc w c <= 1) by (intros w; specialize (U w); lia).
  assert (Yl : 0 < cn y l) by (destruct l; inversion Hl; subst; cbn [cn]; rewrite Nat.eqb_refl; lia).
  assert (Dy : y <> z /\ y <> cur /\ cc y c = 0 /\ cn y rl = 0 /\ cn y rr = 0).
  { pose proof (U y) as K. cbn [cn] in K. destruct (Nat.eqb_spec y z), (Nat.eqb_spec y cur); repeat split; auto; lia. }
  assert (Dz : z <> cur /\ cc z c = 0 /\ cn z l = 0 /\ cn z rl = 0 /\ cn z rr = 0).
  { pose proof (U z) as K. cbn [cn] in K. rewrite Nat.eqb_refl in K. destruct (Nat.eqb_spec z cur); repeat split; auto; lia. }
  assert (Dc : cc cur c = 0 /\ cn cur l = 0 /\ cn cur rl = 0 /\ cn cur rr = 0).
  { pose proof (U cur) as K. cbn [cn] in K. rewrite Nat.eqb_refl in K. lia. }
  destruct Dy as (Y1 & Y2 & Y3 & Y4 & Y5), Dz as (Z1 & Z2 & Z3 & Z4 & Z5), Dc as (C1 & C2 & C3 & C4).
  simpl in R2. destruct R2 as (Er & R2 & R3 & R4).
  set (m1 := swap_with_right_child m cur z) in *. set (m2 := s_prev m1 y (Some z)) in *.
  assert (S3 : forall w, cc w c = 0 -> same m2 m3 w) by (intros; apply store_same; auto).
  assert (S2 : forall w, w <> cur -> w <> z -> w <> y -> same m m2 w).
  { intros w W1 W2 W3. unfold same, m2, m1. simpl. rewrite !fset_other by auto. auto. }
  assert (L2 : left m2 cur = left m z /\ right m2 cur = right m z /\ left m2 z = left m cur /\ right m2 z = Some cur).
  { unfold m2, m1. simpl. unfold fset. rewrite !Nat.eqb_refl.
    destruct (Nat.eqb_spec z cur), (Nat.eqb_spec cur z); try congruence. auto. }
  assert (L2y : left m2 y = left m y /\ right m2 y = right m y /\ prev m2 y = Some z).
  { unfold m2, m1. simpl. rewrite fset_same. rewrite !fset_other by auto. auto. }
  assert (P2 : prev m2 z = prev m z). { unfold m2, m1. simpl. rewrite fset_other by auto. auto. }
  destruct L2 as (La & Lb & Lc & Ld).
  destruct (S3 cur C1) as (Sa & Sb & Sc). destruct (S3 z Z2) as (Sd & Se & Sf).
  split; [|split; [|split; [|split; [|split]]]].
  - simpl. split; auto. split.
    + split; [congruence|]. rewrite Sd, Lc.
      eapply rep_reparent; [exact R1| | | |].
      * intros w Hw. assert (cc w c = 0) by (specialize (U w); lia).
        destruct (S3 w) as (Ta & Tb & Tc); auto. rewrite Ta, Tb.
        destruct (Nat.eq_dec w y) as [->|]; [destruct L2y as (? & ? & ?); auto|].
        destruct (S2 w) as (? & ? & ?); auto; intros ->; lia.
      * intros w Hw Hn. assert (cc w c = 0) by (specialize (U w); lia).
        destruct (S3 w) as (Ta & Tb & Tc); auto. rewrite Tc.
        destruct (S2 w) as (? & ? & ?); auto; try congruence; intros ->; lia.
      * intros w. specialize (U w). lia.
      * intros x Hx. assert (x = y) as -> by congruence. right.
        destruct (S3 y Y3) as (? & ? & Tc). rewrite Tc. apply L2y.
    + exists par. split.
      * rewrite Sf, P2. destruct HP as [HP|HP]; [auto|]. subst P. exact R2.
      * apply rctx_store with (hp := hp); auto. apply rctx_same with (m := m); auto.
        intros w Hw. apply S2; intros ->; lia.
  - rewrite Sa, La. eapply rep_frame; [exact R3|]. intros w Hw.
    pose proof (U w) as K. cbn [cn] in K.
    apply same_trans with (m2 := m2); [apply S2; intros ->; lia|apply S3; lia].
  - rewrite Sb, Lb. eapply rep_frame; [exact R4|]. intros w Hw.
    pose proof (U w) as K. cbn [cn] in K.
    apply same_trans with (m2 := m2); [apply S2; intros ->; lia|apply S3; lia].
  - unfold m3. rewrite store_key. reflexivity.
  - unfold m3. rewrite store_size. reflexivity.
  - intros w Hw. cbn [cn] in Hw. destruct (Nat.eqb_spec w cur), (Nat.eqb_spec w z); try lia.
    apply same_trans with (m2 := m2); [apply S2; auto; intros ->; lia|apply S3; lia].
Qed.

Lemma swap_left_step e m c hp par P cur l y r ll lr : rctx e m c hp par ->
  l = T ll y lr ->
  rep e m (left m cur) P l -> rep e m (right m cur) P r -> (e = Some y \/ P = par) ->
  (forall w, cn w l + cn w r + cc w c + (if w =? cur then 1 else 0) <= 1) ->
  let m1 := swap_with_left_child m cur y in
  let m2 := match right m cur with Some r0 => s_prev m1 r0 (Some y) | None => m1 end in
  let m3 := store m2 (loc_of c) (Some y) in
  rctx e m3 ((false, y, r) :: c) (Some cur) (Some y) /\
  rep e m3 (left m3 cur) (Some y) ll /\ rep e m3 (right m3 cur) (Some y) lr /\
  key m3 = key m /\ size m3 = size m /\
  (forall w, cn w l + cn w r + cc w c + (if w =? cur then 1 else 0) = 0 -> same m m3 w).
Proof.
  intros C -> R1 R2 HP U m1 m2 m3.
  assert (Uc : forall w, cc w c <= 1) by (intros w; specialize (U w); lia).
  assert (Dy : y <> cur /\ cc y c = 0 /\ cn y r = 0 /\ cn y ll = 0 /\ cn y lr = 0).
  { pose proof (U y) as K. cbn [cn] in K. rewrite Nat.eqb_refl in K. destruct (Nat.eqb_spec y cur); repeat split; auto; lia. }
  assert (Dc : cc cur c = 0 /\ cn cur r = 0 /\ cn cur ll = 0 /\ cn cur lr = 0).
  { pose proof (U cur) as K. cbn [cn] in K. rewrite Nat.eqb_refl in K. lia. }
  assert (Dr : forall a, rootp r = Some a -> 0 < cn a r).
  { intros a K. destruct r; inversion K; subst. cbn [cn]. rewrite Nat.eqb_refl. lia. }
  destruct Dy as (Y2 & Y3 & Y1 & Y4 & Y5), Dc as (C1 & C2 & C3 & C4).
  simpl in R1. destruct R1 as (El & R1 & R3 & R4).
  assert (Er : right m cur = rootp r) by (eapply rep_rootp; eauto).
  assert (S3 : forall w, cc w c = 0 -> same m2 m3 w) by (intros; apply store_same; auto).
  assert (S12 : forall w, left m2 w = left m1 w /\ right m2 w = right m1 w /\ (rootp r <> Some w -> prev m2 w = prev m1 w)).
  { intros w. unfold m2. rewrite Er. destruct (rootp r) as [a|]; simpl; auto. repeat split; auto.
    intros K. apply fset_other. congruence. }
  assert (S1 : forall w, w <> cur -> w <> y -> same m m1 w).
  { intros w W1 W2. unfold same, m1. simpl. rewrite !fset_other by auto. auto. }
  assert (S2 : forall w, w <> cur -> w <> y -> rootp r <> Some w -> same m m2 w).
  { intros w W1 W2 W3. destruct (S12 w) as (A1 & A2 & A3). destruct (S1 w) as (B1 & B2 & B3); auto.
    unfold same. rewrite A1, A2, A3 by auto. auto. }
  assert (L2 : left m2 cur = left m y /\ right m2 cur = right m y /\ left m2 y = Some cur /\ right m2 y = right m cur).
  { destruct (S12 cur) as (A1 & A2 & _), (S12 y) as (A3 & A4 & _). rewrite A1, A2, A3, A4.
    unfold m1. simpl. unfold fset. rewrite !Nat.eqb_refl.
    destruct (Nat.eqb_spec y cur), (Nat.eqb_spec cur y); try congruence. auto. }
  assert (P2 : prev m2 y = prev m y).
  { destruct (S12 y) as (_ & _ & A). rewrite A; auto. intros K. apply Dr in K. lia. }
  destruct L2 as (La & Lb & Lc & Ld).
  destruct (S3 cur C1) as (Sa & Sb & Sc). destruct (S3 y Y3) as (Sd & Se & Sf).
  split; [|split; [|split; [|split; [|split]]]].
  - simpl. split; auto. split.
    + split; [congruence|]. rewrite Se, Ld.
      eapply rep_reparent; [exact R2| | | |].
      * intros w Hw. pose proof (U w) as K. destruct (S3 w) as (Ta & Tb & Tc); [lia|]. rewrite Ta, Tb.
        destruct (S12 w) as (A1 & A2 & _). rewrite A1, A2.
        destruct (S1 w) as (? & ? & ?); auto; intros ->; lia.
      * intros w Hw Hn. pose proof (U w) as K. destruct (S3 w) as (Ta & Tb & Tc); [lia|]. rewrite Tc.
        destruct (S2 w) as (? & ? & ?); auto; intros ->; lia.
      * intros w. specialize (U w). lia.
      * intros x Hx. right. pose proof (Dr _ Hx). pose proof (U x).
        destruct (S3 x) as (? & ? & Tc); [lia|]. rewrite Tc. unfold m2. rewrite Er, Hx. simpl. apply fset_same.
    + exists par. split.
      * rewrite Sf, P2. destruct HP as [HP|HP]; [auto|]. subst P. exact R1.
      * apply rctx_store with (hp := hp); auto.
        apply rctx_same with (m := m); auto.
        { intros w Hw. pose proof (U w). apply S2; [intros ->; lia|intros ->; lia|intros K; apply Dr in K; lia]. }
        { unfold m2. rewrite Er. destruct (rootp r); reflexivity. }
  - rewrite Sa, La. eapply rep_frame; [exact R3|]. intros w Hw.
    pose proof (U w) as K. cbn [cn] in K.
    apply same_trans with (m2 := m2); [apply S2; [intros ->; lia|intros ->; lia|intros K'; apply Dr in K'; lia]|apply S3; lia].
  - rewrite Sb, Lb. eapply rep_frame; [exact R4|]. intros w Hw.
    pose proof (U w) as K. cbn [cn] in K.
    apply same_trans with (m2 := m2); [apply S2; [intros ->; lia|intros ->; lia|intros K'; apply Dr in K'; lia]|apply S3; lia].
  - unfold m3. rewrite store_key. unfold m2. destruct (right m cur); reflexivity.
  - unfold m3. rewrite store_size. unfold m2. destruct (right m cur); reflexivity.
  - intros w Hw. cbn [cn] in Hw. destruct (Nat.eqb_spec w cur), (Nat.eqb_spec w y); try lia.
    apply same_trans with (m2 := m2); [apply S2; auto; intros K'; apply Dr in K'; lia|apply S3; lia].
Qed.

Lemma option_eq_dec (a b : ptr) : {a = b} + {a <> b}.
Proof. decide equality. apply Nat.eq_dec. Defined.

Lemma rootp_down k x l w r : exists l' y r', t_down k x (T l w r) = T l' y r'.
Proof.
  rewrite t_down_T. destruct l as [|ll a lr]; [eauto|]. destruct r as [|rl d rr].
  - destruct (klt k a x); eauto.
  - destruct (klt k d a); [destruct (klt k d x)|destruct (klt k a x)]; eauto.
Qed.

Lemma down_ok fuel : forall e m c hp par P cur l r,
  rctx e m c hp par -> load m (loc_of c) = Some cur ->
  rep e m (left m cur) P l -> rep e m (right m cur) P r ->
  (P = par \/ e = None) -> sz l + sz r < fuel -> leftful (T l cur r) ->
  (forall z, cn z l + cn z r + cc z c + (if z =? cur then 1 else 0) <= 1) ->
  exists m' e', down_loop fuel m cur (loc_of c) par (left m cur) (right m cur) = Some m' /\
    rep e' m' (root m') None (plug c (t_down (key m) cur (T l cur r))) /\
    (P = par -> e' = e) /\ (e' = e \/ e' = rootp (t_down (key m) cur (T l cur r))) /\
    key m' = key m /\ size m' = size m /\
    (forall z, cn z l + cn z r + cc z c + (if z =? cur then 1 else 0) = 0 -> same m m' z).
Proof.
  induction fuel as [|fuel IH]; intros e m c hp par P cur l r C L R1 R2 HP HF LF U; [lia|].
  assert (E1 : left m cur = rootp l) by (eapply rep_rootp; eauto).
  assert (E2 : right m cur = rootp r) by (eapply rep_rootp; eauto).
  assert (RL : forall x, rootp l = Some x -> 0 < cn x l).
  { intros x K. destruct l; inversion K; subst. cbn [cn]. rewrite Nat.eqb_refl. lia. }
  assert (RR : forall x, rootp r = Some x -> 0 < cn x r).
  { intros x K. destruct r; inversion K; subst. cbn [cn]. rewrite Nat.eqb_refl. lia. }
  assert (Ucur : cn cur l = 0 /\ cn cur r = 0 /\ cc cur c = 0) by (specialize (U cur); rewrite Nat.eqb_refl in U; lia).
  simpl in LF. destruct LF as (LF & LFl & LFr).
  rewrite t_down_T. cbn [down_loop].
  (* the three ways to stop *)
  assert (STOP : forall m1, left m1 = left m -> right m1 = right m -> root m1 = root m -> key m1 = key m -> size m1 = size m ->
    (forall z, rootp l <> Some z -> rootp r <> Some z -> prev m1 z = prev m z) ->
    (forall x, rootp l = Some x \/ rootp r = Some x -> prev m1 x = Some cur) ->
    exists m' e', Some (s_prev m1 cur par) = Some m' /\
      rep e' m' (root m') None (plug c (T l cur r)) /\
      (P = par -> e' = e) /\ (e' = e \/ e' = rootp (T l cur r)) /\
      key m' = key m /\ size m' = size m /\
      (forall z, cn z l + cn z r + cc z c + (if z =? cur then 1 else 0) = 0 -> same m m' z)).
  { intros m1 F1 F2 F3 F4 F5 F6 F7. exists (s_prev m1 cur par), e. split; auto. split; [|split; [|split; [|split; [|split]]]]; auto.
    - eapply settle with (m := m) (P := P); eauto; simpl.
      + intros z N1 N2 N3. rewrite fset_other by auto. auto.
      + intros x Hx. rewrite fset_other; auto. intros ->. destruct Hx as [Hx|Hx]; [apply RL in Hx|apply RR in Hx]; lia.
      + apply fset_same.
    - intros z Hz. destruct (Nat.eqb_spec z cur); [lia|]. unfold same; simpl. rewrite F1, F2. repeat split; auto.
      rewrite fset_other by auto. apply F6; intros K; [apply RL in K|apply RR in K]; lia. }
  destruct l as [|ll y lr].
  - rewrite E1. simpl rootp. cbv iota. rewrite LF in * by auto.
    apply STOP; auto. simpl. intros x [K|K]; discriminate.
  - rewrite E1, E2. cbn [rootp].
    assert (LEFT : klt (key m) y cur = true -> (match r with T _ z _ => klt (key m) z y = false | Leaf => True end) ->
      let m1 := swap_with_left_child m cur y in
      let m2 := match rootp r with Some r0 => s_prev m1 r0 (Some y) | None => m1 end in
      let m3 := store m2 (loc_of c) (Some y) in
      exists m' e', down_loop fuel m3 cur (LLeft y) (Some y) (left m3 cur) (right m3 cur) = Some m' /\
      rep e' m' (root m') None (plug c (T (t_down (key m) cur (T ll y lr)) y r)) /\
      (P = par -> e' = e) /\ (e' = e \/ e' = rootp (T (t_down (key m) cur (T ll y lr)) y r)) /\
      key m' = key m /\ size m' = size m /\
      (forall z, cn z (T ll y lr) + cn z r + cc z c + (if z =? cur then 1 else 0) = 0 -> same m m' z)).
    { intros K1 K2 m1 m2 m3.
      assert (exists e1, rctx e1 m c hp par /\ rep e1 m (left m cur) P (T ll y lr) /\ rep e1 m (right m cur) P r /\
                (e1 = Some y \/ P = par) /\ (P = par -> e1 = e) /\ (e1 = e \/ e1 = Some y)) as (e1 & A1 & A2 & A3 & A4 & A5 & A6).
      { destruct (option_eq_dec P par) as [EP|EP]; [exists e; tauto|].
        destruct HP as [HP|HP]; [tauto|]. subst e. exists (Some y).
        split; [apply rctx_e; auto|]. split; [apply rep_e; auto|]. split; [apply rep_e; auto|]. tauto. }
      pose proof (@swap_left_step e1 m c hp par P cur (T ll y lr) y r ll lr A1 eq_refl A2 A3 A4 U) as SW. rewrite E2 in SW. cbv zeta in SW. fold m1 m2 m3 in SW.
      destruct SW as (B1 & B2 & B3 & B4 & B5 & B6).
      destruct (IH e1 m3 ((false, y, r) :: c) (Some cur) (Some y) (Some y) cur ll lr) as (m' & e' & D1 & D2 & D3 & D4 & D5 & D6 & D7); auto.
      - eapply rctx_load; eauto.
      - simpl in HF. lia.
      - intros w. specialize (U w). cbn [cn cc] in *. lia.
      - exists m', e'. specialize (D3 eq_refl). subst e'. rewrite B4 in D2, D5. rewrite B5 in D6.
        split; [exact D1|]. split; [exact D2|]. split; [auto|]. split; [simpl; tauto|]. split; auto. split; auto.
        intros w Hw. cbn [cn cc] in Hw. apply same_trans with (m2 := m3); [apply B6|apply D7]; cbn [cn cc]; lia. }
    destruct r as [|rl z rr].
    + cbn [rootp] in *. unfold lt at 1. fold (klt (key m) y cur).
      destruct (klt (key m) y cur) eqn:K.
      * exact (LEFT eq_refl Logic.I).
      * apply STOP; auto; simpl.
        -- intros w N1 _. apply fset_other. congruence.
        -- intros x [Hx|Hx]; inversion Hx; subst. apply fset_same.
    + cbn [rootp] in *. unfold lt at 1. fold (klt (key m) z y).
      destruct (klt (key m) z y) eqn:K1.
      * unfold lt at 1. fold (klt (key m) z cur). destruct (klt (key m) z cur) eqn:K2.
        -- set (m1 := swap_with_right_child m cur z). set (m2 := s_prev m1 y (Some z)).
           set (m3 := store m2 (loc_of c) (Some z)).
           assert (exists e1, rctx e1 m c hp par /\ rep e1 m (left m cur) P (T ll y lr) /\ rep e1 m (right m cur) P (T rl z rr) /\
                (e1 = Some z \/ P = par) /\ (P = par -> e1 = e) /\ (e1 = e \/ e1 = Some z)) as (e1 & A1 & A2 & A3 & A4 & A5 & A6).
           { destruct (option_eq_dec P par) as [EP|EP]; [exists e; tauto|].
             destruct HP as [HP|HP]; [tauto|]. subst e. exists (Some z).
             split; [apply rctx_e; auto|]. split; [apply rep_e; auto|]. split; [apply rep_e; auto|]. tauto. }
           pose proof (@swap_right_step e1 m c hp par P cur (T ll y lr) y (T rl z rr) rl z rr A1 eq_refl eq_refl A2 A3 A4 U) as SW. cbv zeta in SW. fold m1 m2 m3 in SW.
           destruct SW as (B1 & B2 & B3 & B4 & B5 & B6).
           destruct (IH e1 m3 ((true, z, T ll y lr) :: c) (Some cur) (Some z) (Some z) cur rl rr) as (m' & e' & D1 & D2 & D3 & D4 & D5 & D6 & D7); auto.
           ++ eapply rctx_load; eauto.
           ++ simpl in HF. lia.
           ++ intros w. specialize (U w). cbn [cn cc] in *. lia.
           ++ exists m', e'. specialize (D3 eq_refl). subst e'. rewrite B4 in D2, D5. rewrite B5 in D6.
              split; [exact D1|]. split; [exact D2|]. split; [auto|]. split; [simpl; tauto|]. split; auto. split; auto.
              intros w Hw. cbn [cn cc] in Hw. apply same_trans with (m2 := m3); [apply B6|apply D7]; cbn [cn cc]; lia.
        -- apply STOP; auto; simpl.
           ++ intros w N1 N2. rewrite !fset_other; congruence.
           ++ intros x [Hx|Hx]; inversion Hx; subst; [apply fset_same|].
              unfold fset. rewrite Nat.eqb_refl. destruct (x =? y); auto.
      * unfold lt at 1. fold (klt (key m) y cur). destruct (klt (key m) y cur) eqn:K2.
        -- exact (LEFT eq_refl eq_refl).
        -- apply STOP; auto; simpl.
           ++ intros w N1 N2. rewrite !fset_other; congruence.
           ++ intros x [Hx|Hx]; inversion Hx; subst; [apply fset_same|].
              unfold fset. rewrite Nat.eqb_refl. destruct (x =? y); auto.
Qed.

(** ** sift_up *)

Lemma rep_reparent1 m a v p par t : rep None m p par t -> (forall z, cn z t <= 1) -> rootp t = Some a ->
  rep None (s_prev m a v) p v t.
Proof.
  intros R U E. eapply rep_reparent; [exact R| | | |]; auto.
  - intros z Hz N. simpl. apply fset_other. congruence.
  - intros x Hx. right. simpl. assert (x = a) as -> by congruence. apply fset_same.
Qed.

Lemma up_ok fuel : forall m b y s c cur l r child0,
  let m1 := s_child m child0 (Some y) in
  rctx None m1 ((b, y, s) :: c) (Some cur) (Some y) ->
  rep None m1 (left m1 cur) (Some y) l -> rep None m1 (right m1 cur) (Some y) r ->
  (forall z, cn z l + cn z r + cc z ((b, y, s) :: c) + (if z =? cur then 1 else 0) <= 1) ->
  klt (key m) cur y = true -> climb (key m) cur ((b, y, s) :: c) -> length c < fuel ->
  exists m', up_loop fuel m cur y (prev m1 y) child0 = Some m' /\
    rep None m' (root m') None (t_up (key m) ((b, y, s) :: c) l cur r) /\
    key m' = key m /\ size m' = size m /\
    (forall z, cn z l + cn z r + cc z ((b, y, s) :: c) + (if z =? cur then 1 else 0) = 0 -> same m1 m' z).
Proof.
  induction fuel as [|fuel IH]; intros m b y s c cur l r child0 m1 C R1 R2 U K CL F; [lia|].
  assert (K1 : key m1 = key m) by (unfold m1; destruct child0; reflexivity).
  assert (K1s : size m1 = size m) by (unfold m1; destruct child0; reflexivity).
  simpl in CL. destruct CL as [CL|[NL CL]]; [congruence|].
  destruct c as [|[[b2 g] s2] c2]; [simpl in CL; tauto|].
  destruct C as (_ & Ch & gp & [C0|Cp] & Cc); [discriminate|].
  assert (Egp : gp = Some g) by (simpl in Cc; tauto).
  assert (Uc : forall z, cc z ((b2, g, s2) :: c2) <= 1).
  { intros z. pose proof (U z) as V. change (cc z ((b, y, s) :: (b2, g, s2) :: c2)) with
      ((if z =? y then 1 else 0) + cn z s + cc z ((b2, g, s2) :: c2)) in V. lia. }
  set (c := (b2, g, s2) :: c2) in *.
  assert (U' : forall z, cn z l + cn z r + (if z =? y then 1 else 0) + cn z s + cc z c + (if z =? cur then 1 else 0) <= 1).
  { intros z. pose proof (U z) as V. cbn [cc] in V. lia. }
  destruct s as [|sl a sr]; [tauto|]. set (s := T sl a sr) in *.
  assert (Hs : rootp s = Some a) by reflexivity.
  assert (As : 0 < cn a s) by (unfold s; cbn [cn]; rewrite Nat.eqb_refl; lia).
  assert (Dy : y <> cur /\ cn y l = 0 /\ cn y r = 0 /\ cn y s = 0 /\ cc y c = 0).
  { pose proof (U' y) as V. rewrite Nat.eqb_refl in V. destruct (Nat.eqb_spec y cur); repeat split; auto; lia. }
  assert (Dc : cn cur l = 0 /\ cn cur r = 0 /\ cn cur s = 0 /\ cc cur c = 0).
  { pose proof (U' cur) as V. rewrite Nat.eqb_refl in V. lia. }
  assert (Da : a <> y /\ a <> cur /\ cn a l = 0 /\ cn a r = 0 /\ cc a c = 0).
  { pose proof (U' a) as V. destruct (Nat.eqb_spec a cur), (Nat.eqb_spec a y); repeat split; auto; lia. }
  assert (Gc : 0 < cc g c) by (unfold c; cbn [cc]; rewrite Nat.eqb_refl; lia).
  assert (Dg : g <> y /\ g <> cur /\ g <> a) by (repeat split; intros ->; lia).
  destruct Dy as (Y1 & Y2 & Y3 & Y4 & Y5), Dc as (C1 & C2 & C3 & C4), Da as (A1 & A2 & A3 & A4 & A5), Dg as (G1 & G2 & G3).
  (* the memory after L284 *)
  assert (exists m3,
    up_loop (S fuel) m cur y (prev m1 y) child0 =
      (if lt m3 cur g then up_loop fuel m3 cur g (prev m3 g) (Some a)
       else Some (s_prev (s_prev (s_prev m3 a (Some cur)) y (Some cur)) cur (Some g))) /\
    rctx None m3 c (Some cur) (Some g) /\
    (if b then left m3 cur = Some a /\ right m3 cur = Some y else left m3 cur = Some y /\ right m3 cur = Some a) /\
    left m3 y = left m1 cur /\ right m3 y = right m1 cur /\ prev m3 = prev m1 /\
    key m3 = key m /\ size m3 = size m /\
    (forall w, cc w c = 0 -> w <> cur -> w <> y -> same m1 m3 w)) as (m3 & E & B1 & B2 & B3 & B4 & B5 & B6 & B7 & B8).
  { set (m2 := if b then swap_with_right_child m1 y cur else swap_with_left_child m1 y cur).
    exists (store m2 (loc_of c) (Some cur)).
    assert (P2 : prev m2 = prev m1) by (unfold m2; destruct b; reflexivity).
    assert (S2 : forall w, w <> cur -> w <> y -> same m1 m2 w).
    { intros w W1 W2. unfold same, m2. destruct b; simpl; rewrite !fset_other by auto; auto. }
    assert (S3 : forall w, cc w c = 0 -> same m2 (store m2 (loc_of c) (Some cur)) w) by (intros; apply store_same; auto).
    assert (L2 : (if b then left m2 cur = Some a /\ right m2 cur = Some y else left m2 cur = Some y /\ right m2 cur = Some a) /\
                 left m2 y = left m1 cur /\ right m2 y = right m1 cur).
    { unfold m2. destruct b; destruct Ch as [Ch1 Ch2]; apply rep_rootp in Ch2; simpl; unfold fset; rewrite !Nat.eqb_refl;
      destruct (Nat.eqb_spec y cur), (Nat.eqb_spec cur y); try congruence; rewrite Ch2, Hs; auto. }
    destruct L2 as (L2 & L3 & L4).
    assert (RC : rctx None m2 c (Some y) (Some g)).
    { rewrite Egp in Cc. apply rctx_same with (m := m1); auto; [|unfold m2; destruct b; reflexivity].
      intros w Hw. apply S2; intros ->; lia. }
    split.
    - cbn [up_loop]. fold m1.
      assert (AR : ptr_eqb (right m1 y) (Some cur) = b).
      { destruct b; destruct Ch as [Ch1 Ch2].
        - rewrite Ch1. simpl. apply Nat.eqb_refl.
        - apply rep_rootp in Ch2. rewrite Ch2, Hs. simpl. apply Nat.eqb_neq; auto. }
      rewrite AR.
      assert (C00 : (if b then left m1 y else right m1 y) = Some a).
      { destruct b; destruct Ch as [Ch1 Ch2]; apply rep_rootp in Ch2; rewrite Ch2; auto. }
      rewrite C00, Cp, Egp. fold m2.
      assert (ST : (if ptr_eqb (right m2 g) (Some y) then s_right m2 g (Some cur) else s_left m2 g (Some cur)) =
                   store m2 (loc_of c) (Some cur)).
      { unfold c in RC |- *. simpl in RC. destruct RC as (_ & RC & _). destruct b2; destruct RC as [RC1 RC2].
        - rewrite RC1. simpl. rewrite Nat.eqb_refl. reflexivity.
        - apply rep_rootp in RC2. rewrite RC2. simpl.
          destruct s2 as [|? w ?]; simpl; auto. destruct (Nat.eqb_spec w y); auto. subst w.
          exfalso. unfold c in Y5. cbn [cc cn] in Y5. rewrite Nat.eqb_refl in Y5. lia. }
      rewrite ST. reflexivity.
    - split; [eapply rctx_store; eauto|].
      destruct (S3 cur C4) as (Ta & Tb & _), (S3 y Y5) as (Tc & Td & _).
      rewrite Ta, Tb, Tc, Td, store_prev, store_key, store_size.
      split; [exact L2|]. split; [exact L3|]. split; [exact L4|]. split; [exact P2|].
      split; [unfold m2; destruct b; exact K1|]. split; [unfold m2; destruct b; exact K1s|].
      intros w W1 W2 W3. apply same_trans with (m2 := m2); auto. }
  assert (Py : prev m3 y = Some g) by (rewrite B5; congruence).
  assert (Chs : exists p, rep None m1 p (Some y) s) by (destruct b; destruct Ch; eauto).
  destruct Chs as [p Chs]. assert (p = Some a) as -> by (apply rep_rootp in Chs; rewrite Chs; auto).
  assert (Rs : rep None m3 (Some a) (Some y) s).
  { eapply rep_frame; [exact Chs|]. intros w Hw. pose proof (U' w). apply B8; [lia|intros ->; lia|intros ->; lia]. }
  assert (Rl : forall m', (forall w, w <> a -> same m3 m' w) -> rep None m' (left m3 y) (Some y) l).
  { intros m' Sm. rewrite B3. eapply rep_frame; [exact R1|]. intros w Hw. pose proof (U' w).
    apply same_trans with (m2 := m3); [apply B8; [lia|intros ->; lia|intros ->; lia]|apply Sm; intros ->; lia]. }
  assert (Rr : forall m', (forall w, w <> a -> same m3 m' w) -> rep None m' (right m3 y) (Some y) r).
  { intros m' Sm. rewrite B4. eapply rep_frame; [exact R2|]. intros w Hw. pose proof (U' w).
    apply same_trans with (m2 := m3); [apply B8; [lia|intros ->; lia|intros ->; lia]|apply Sm; intros ->; lia]. }
  assert (Us : forall z, cn z s <= 1) by (intros z; pose proof (U' z); lia).
  rewrite E. unfold lt. fold (klt (key m3) cur g). rewrite B6.
  cbn [t_up]. rewrite K.
  destruct (klt (key m) cur g) eqn:Kg.
  - (* one more level *)
    set (m1' := s_prev m3 a (Some g)).
    assert (Sm : forall w, w <> a -> same m3 m1' w).
    { intros w W. unfold same, m1'. simpl. rewrite fset_other by auto. auto. }
    assert (Pg : prev m3 g = prev m1' g) by (symmetry; apply Sm; auto).
    rewrite Pg.
    assert (RC : rctx None m1' ((b2, g, s2) :: c2) (Some cur) (Some g)).
    { apply rctx_same with (m := m3); [exact B1| |reflexivity]. intros w Hw. fold c in Hw. apply Sm. intros ->; lia. }
    assert (Ra : rep None m1' (Some a) (Some g) s) by (apply rep_reparent1 with (par := Some y); auto).
    assert (Ry : rep None m1' (Some y) (Some g) (T l y r)).
    { cbn [rep]. destruct (Sm y) as (Q1 & Q2 & Q3); auto. rewrite Q1, Q2, Q3. repeat split; auto. }
    assert (FR : forall w, w <> a -> cc w c = 0 -> w <> cur -> w <> y -> same m1 m1' w).
    { intros w W1 W2 W3 W4. apply same_trans with (m2 := m3); auto. }
    destruct (Sm cur) as (Qa & Qb & _); auto.
    destruct b; destruct B2 as [B2a B2b].
    + destruct (IH m3 b2 g s2 c2 cur s (T l y r) (Some a)) as (m' & D1 & D2 & D3 & D4 & D5); auto.
      * cbn [s_child]. fold m1'. rewrite Qa, B2a. exact Ra.
      * cbn [s_child]. fold m1'. rewrite Qb, B2b. exact Ry.
      * intros z. pose proof (U' z) as V. fold c. cbn [cn]. lia.
      * rewrite B6. exact Kg.
      * rewrite B6. exact CL.
      * unfold c in F. cbn [length] in F. lia.
      * exists m'. cbn [s_child] in D1, D5. fold m1' in D1, D5. fold c in D2, D5. rewrite B6 in D2, D3. rewrite B7 in D4.
        split; [exact D1|]. split; [exact D2|]. split; [exact D3|]. split; [exact D4|].
        intros z Hz. change (cc z ((true, y, s) :: c)) with ((if z =? y then 1 else 0) + cn z s + cc z c) in Hz.
        apply same_trans with (m2 := m1'); [|apply D5; cbn [cn]; lia].
        destruct (Nat.eqb_spec z y); [lia|]. destruct (Nat.eqb_spec z cur); [lia|]. apply FR; auto; [intros ->; lia|lia].
    + destruct (IH m3 b2 g s2 c2 cur (T l y r) s (Some a)) as (m' & D1 & D2 & D3 & D4 & D5); auto.
      * cbn [s_child]. fold m1'. rewrite Qa, B2a. exact Ry.
      * cbn [s_child]. fold m1'. rewrite Qb, B2b. exact Ra.
      * intros z. pose proof (U' z) as V. fold c. cbn [cn]. lia.
      * rewrite B6. exact Kg.
      * rewrite B6. exact CL.
      * unfold c in F. cbn [length] in F. lia.
      * exists m'. cbn [s_child] in D1, D5. fold m1' in D1, D5. fold c in D2, D5. rewrite B6 in D2, D3. rewrite B7 in D4.
        split; [exact D1|]. split; [exact D2|]. split; [exact D3|]. split; [exact D4|].
        intros z Hz. change (cc z ((false, y, s) :: c)) with ((if z =? y then 1 else 0) + cn z s + cc z c) in Hz.
        apply same_trans with (m2 := m1'); [|apply D5; cbn [cn]; lia].
        destruct (Nat.eqb_spec z y); [lia|]. destruct (Nat.eqb_spec z cur); [lia|]. apply FR; auto; [intros ->; lia|lia].
  - (* cur has found its place *)
    eexists. split; [reflexivity|].
    set (m' := s_prev (s_prev (s_prev m3 a (Some cur)) y (Some cur)) cur (Some g)).
    assert (Sm : forall w, w <> a -> w <> y -> w <> cur -> same m3 m' w).
    { intros w W1 W2 W3. unfold same, m'. simpl. rewrite !fset_other by auto. auto. }
    assert (EP : prev m' a = Some cur /\ prev m' y = Some cur /\ prev m' cur = Some g).
    { unfold m'. simpl. unfold fset. rewrite !Nat.eqb_refl.
      destruct (Nat.eqb_spec a cur), (Nat.eqb_spec a y), (Nat.eqb_spec y cur); try congruence; auto. }
    destruct EP as (P1 & P2 & P3).
    assert (RC : rctx None m' c (Some cur) (Some g)).
    { apply rctx_same with (m := m3); [exact B1| |reflexivity]. intros w Hw. apply Sm; intros ->; lia. }
    assert (Ra : rep None m' (Some a) (Some cur) s).
    { apply rep_frame with (m := s_prev m3 a (Some cur)).
      - apply rep_reparent1 with (par := Some y); auto.
      - intros w Hw. unfold same, m'. simpl. rewrite (@fset_other _ _ cur w), (@fset_other _ _ y w); auto; intros ->; lia. }
    assert (Ry : rep None m' (Some y) (Some cur) (T l y r)).
    { simpl. split; auto. split; auto.
      change (fset (fset (fset (prev m3) a (Some cur)) y (Some cur)) cur (Some g)) with (prev m').
      split; (eapply rep_frame; [|intros w Hw; apply Sm; pose proof (U' w); intros ->; lia]);
        [apply (Rl m3)|apply (Rr m3)]; intros; apply same_refl. }
    split; [|split; [exact B6|split; [exact B7|]]].
    + assert (TU : t_up (key m) c (if b then s else T l y r) cur (if b then T l y r else s) =
                   plug c (T (if b then s else T l y r) cur (if b then T l y r else s))).
      { unfold c. cbn [t_up]. rewrite Kg. reflexivity. }
      replace (if b then t_up (key m) c s cur (T l y r) else t_up (key m) c (T l y r) cur s) with
        (t_up (key m) c (if b then s else T l y r) cur (if b then T l y r else s)) by (destruct b; reflexivity).
      rewrite TU. apply rep_plug with (hp := Some cur) (par := Some g); [exact RC|].
      cbn [rep]. split; auto. split; auto.
      change (left m' cur) with (left m3 cur). change (right m' cur) with (right m3 cur).
      destruct b; destruct B2 as [-> ->]; split; assumption.
    + intros z Hz. change (cc z ((b, y, s) :: c)) with ((if z =? y then 1 else 0) + cn z s + cc z c) in Hz.
      destruct (Nat.eqb_spec z y); [lia|]. destruct (Nat.eqb_spec z cur); [lia|].
      apply same_trans with (m2 := m3); [apply B8; auto; lia|apply Sm; auto; intros ->; lia].
Qed.
