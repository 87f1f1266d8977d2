(** * HeapInv: every operation of intrusive_heap keeps the memory a complete, ordered heap holding
    exactly the nodes inserted and not removed, and never gets stuck. *)
From Coq Require Import List Arith Bool Lia ZArith NArith Permutation.
From Verif Require Import Conc QueueModel QueueProofs HeapModel HeapTree HeapProofs.
Import ListNotations.
Set Implicit Arguments.

Record hinv (m : mem) (S : list nat) (t : tree) : Prop := {
  h_rep : rep None m (root m) None t;
  h_ord : ordered (key m) t;
  h_shape : shape (size m) t;
  h_sz : sz t = N.to_nat (size m);
  h_uniq : forall z, cn z t <= 1;
  h_in : forall z, 0 < cn z t <-> In z S;
  h_nd : NoDup S;
  h_out : forall z, cn z t = 0 -> prev m z = None }.

(** after sift_down the Prev of whatever ends up in the hole is set once more *)
Lemma down_fix fuel m c hp par P cur l r :
  rctx None m c hp par -> load m (loc_of c) = Some cur ->
  rep None m (left m cur) P l -> rep None m (right m cur) P r ->
  sz l + sz r < fuel -> leftful (T l cur r) ->
  (forall z, cn z l + cn z r + cc z c + (if z =? cur then 1 else 0) <= 1) ->
  exists m' x, sift_down fuel m cur (loc_of c) par = Some m' /\ load m' (loc_of c) = Some x /\
    rep None (s_prev m' x par) (root m') None (plug c (t_down (key m) cur (T l cur r))) /\
    key m' = key m /\ size m' = size m /\ 0 < cn x (t_down (key m) cur (T l cur r)) /\
    (forall z, cn z l + cn z r + cc z c + (if z =? cur then 1 else 0) = 0 -> same m m' z).
Proof.
  intros C L R1 R2 F LF U.
  destruct (@down_ok fuel None m c hp par P cur l r C L R1 R2 (or_intror eq_refl) F LF U) as (m' & e' & E & R & _ & Ee & K & Sz & Fr).
  destruct (rootp_down (key m) cur l cur r) as (l' & x & r' & Et).
  assert (CN : forall z, cn z l + cn z r + (if z =? cur then 1 else 0) = cn z (T l' x r')).
  { intros z. rewrite <- Et. rewrite (@cn_down (key m) z cur _ _ _ _ (eq_refl (T l cur r))). lia. }
  assert (CX : cc x c = 0 /\ cn x l' = 0 /\ cn x r' = 0).
  { specialize (U x). specialize (CN x). simpl in CN. rewrite Nat.eqb_refl in CN. lia. }
  rewrite Et in *. exists m', x. split; [exact E|].
  assert (R' : rep (Some x) m' (root m') None (plug c (T l' x r'))).
  { destruct Ee as [-> | ->]; auto. apply rep_e; auto. }
  destruct (plug_rep _ _ _ _ R') as (hp' & par' & C' & Rt).
  assert (hp' = Some x) as -> by (apply rep_rootp in Rt; auto).
  assert (par' = par) as ->.
  { destruct c as [|[[b y] s] c]; simpl in C, C'; [destruct C, C'; congruence|].
    destruct C as [-> _], C' as [-> _]. auto. }
  split; [eapply rctx_load; eauto|]. split; [|repeat split; auto; try apply Fr; auto].
  - change (root m') with (root (s_prev m' x par)). apply rep_plug with (hp := Some x) (par := par).
    + apply rctx_unexempt in C'; [|tauto]. eapply rctx_same; [exact C'| |reflexivity].
      intros z Hz. unfold same; simpl. repeat split; auto. apply fset_other. intros ->. lia.
    + simpl in Rt. destruct Rt as (_ & _ & Rl & Rr). simpl. split; auto. split; [right; apply fset_same|].
      split; [apply rep_unexempt in Rl; [|tauto]|apply rep_unexempt in Rr; [|tauto]]; (eapply rep_frame; [eassumption|]);
        intros z Hz; unfold same; simpl; repeat split; auto; apply fset_other; intros ->; lia.
  - simpl. rewrite Nat.eqb_refl. lia.
Qed.

Lemma hinv_empty kv lf rt : hinv (empty kv lf rt) [] Leaf.
Proof.
  constructor; simpl; auto; try lia; try constructor; try tauto; try lia.
  - intros H. simpl in H. tauto.
  - intros H. pose proof (num_ge1 p). lia.
Qed.

Lemma insert_ok m S t x : hinv m S t -> ~ In x S ->
  exists m' t', insert m x = Some m' /\ hinv m' (x :: S) t' /\ key m' = key m.
Proof.
  intros [R O Sh Z U I ND Out] NI. unfold insert.
  set (m1 := s_size m (size m + 1)).
  assert (X0 : cn x t = 0). { destruct (cn x t) eqn:E; auto. exfalso. apply NI, I. lia. }
  assert (PB : num (path_bits (size m1)) = (size m + 1)%N) by (apply path_bits_num; simpl; lia).
  assert (IP : insp (path_bits (size m1)) t).
  { eapply (@shape_insp _ 1 (size m)); eauto. lia. }
  assert (U1 : forall z, cn z t + cc z [] + (if z =? x then 1 else 0) <= 1).
  { intros z. simpl. specialize (U z). destruct (Nat.eqb_spec z x); subst; lia. }
  assert (R1 : rep None m1 (root m1) None t).
  { eapply rep_frame; [exact R|]. intros z _. unfold same; auto. }
  destruct (@walk_ok (path_bits (size m1)) m1 [] x t (root m1) None) as (m' & E & R' & K' & S' & F'); auto.
  { simpl; auto. }
  exists m', (t_ins (key m) (path_bits (size m1)) x t). split; [exact E|]. split; [|exact K'].
  constructor; auto.
  - rewrite K'. apply ins_ordered; auto.
  - rewrite S'. simpl size. apply shape_ins; auto.
  - rewrite sz_ins by auto. rewrite S'. simpl size. lia.
  - intros z. rewrite cn_ins by auto. specialize (U1 z). simpl in U1. lia.
  - intros z. rewrite cn_ins by auto. simpl. rewrite <- I. destruct (Nat.eqb_spec z x); subst; lia.
  - constructor; auto.
  - intros z Hz. rewrite cn_ins in Hz by auto.
    destruct (F' z) as (_ & _ & F3); [simpl; lia|]. rewrite F3. apply Out. lia.
Qed.

Lemma remove_nodup (x : nat) S : NoDup S -> NoDup (remove Nat.eq_dec x S).
Proof.
  induction S as [|y S IH]; simpl; intros H; [constructor|]. apply NoDup_cons_iff in H. destruct H.
  destruct (Nat.eq_dec x y); auto. constructor; auto. intros K. apply in_remove in K. tauto.
Qed.

(** what remains to be shown once a node is gone *)
Lemma hinv_removed m S t m' t' x : hinv m S t -> 0 < cn x t ->
  rep None m' (root m') None t' -> ordered (key m') t' -> shape (size m') t' -> sz t = Datatypes.S (sz t') ->
  size m' = (size m - 1)%N ->
  (forall z, cn z t = cn z t' + (if z =? x then 1 else 0)) ->
  (forall z, cn z t = 0 \/ z = x -> prev m' z = None) ->
  hinv m' (remove Nat.eq_dec x S) t'.
Proof.
  intros H HX R O Sh Z Sz CN Out. constructor; auto.
  - rewrite Sz. pose proof (h_sz H). lia.
  - intros z. pose proof (h_uniq H z). rewrite CN in *. lia.
  - intros z. pose proof (h_in H z). pose proof (h_uniq H z). rewrite CN in *. split.
    + intros K. apply in_in_remove; [intros ->; rewrite Nat.eqb_refl in *; lia|apply H0; lia].
    + intros K. apply in_remove in K. destruct K as [K1 K2]. apply H0 in K1.
      apply Nat.eqb_neq in K2. rewrite K2 in *. lia.
  - apply remove_nodup, H.
  - intros z Hz. apply Out. rewrite CN. destruct (Nat.eqb_spec z x); auto; lia.
Qed.

Lemma hinv_root m S t : hinv m S t -> root m = rootp t.
Proof. intros H. eapply rep_rootp, H. Qed.

(** the last node, taken away *)
Lemma cut_facts m S t : hinv m S t -> (1 <= size m)%N ->
  let p := path_bits (size m) in
  leafp p t /\ shape (size m - 1) (t_cut p t) /\ ordered (key m) (t_cut p t) /\
  sz t = Datatypes.S (sz (t_cut p t)) /\
  exists m' a, remove_last_leaf m LRoot (size m) = Some (m', Some a) /\ t_at p t = Some a /\
    rep None m' (root m') None (t_cut p t) /\ key m' = key m /\ size m' = size m /\ prev m' = prev m /\
    (forall z, cn z t = 0 -> same m m' z) /\
    (forall z, cn z t = (if z =? a then 1 else 0) + cn z (t_cut p t)).
Proof.
  intros H L p. assert (PN : num p = size m) by (apply path_bits_num; auto).
  assert (LP : leafp p t). { eapply (@shape_leafp _ 1 (size m)); eauto; try lia. apply H. }
  split; auto. split; [apply shape_cut; auto; apply H|].
  split; [apply cut_ordered; auto; apply H|]. split; [apply sz_cut; auto|].
  destruct (@rll_ok p m [] t (root m) None) as (m' & a & E & A & R & K & Z & Pv & F); auto.
  - simpl; auto.
  - apply H.
  - intros z. simpl. pose proof (h_uniq H z). lia.
  - exists m', a. simpl plug in R. repeat (split; [first [exact E | assumption]|]). split.
    + intros z Hz. apply F. simpl. lia.
    + intros z. destruct (cn_cut (key m) z _ _ LP) as (a' & A' & C). assert (a' = a) as -> by congruence. auto.
Qed.

(** the node a replaces the node x at the place c: the state just before sift_down *)
Lemma replaced m1 c l x r a hp par n :
  rctx None m1 c hp par -> rep None m1 hp par (T l x r) ->
  (forall z, cn z (plug c (T l x r)) + (if z =? a then 1 else 0) <= 1) ->
  let m3 := store (s_size (s_left (s_right m1 a (right m1 x)) a (left m1 x)) n) (loc_of c) (Some a) in
  rctx None m3 c (Some a) par /\ load m3 (loc_of c) = Some a /\
  rep None m3 (left m3 a) (Some x) l /\ rep None m3 (right m3 a) (Some x) r /\
  (forall z, cn z l + cn z r + cc z c + (if z =? a then 1 else 0) <= 1) /\
  (forall z, z <> a -> cc z c = 0 -> same m1 m3 z).
Proof.
  intros C R U m3. set (m2 := s_size (s_left (s_right m1 a (right m1 x)) a (left m1 x)) n) in *.
  assert (U' : forall z, cn z l + cn z r + cc z c + (if z =? x then 1 else 0) + (if z =? a then 1 else 0) <= 1).
  { intros z. specialize (U z). rewrite cn_plug in U. simpl in U. lia. }
  assert (AX : cn a l = 0 /\ cn a r = 0 /\ cc a c = 0 /\ a <> x).
  { pose proof (U' a) as V. rewrite Nat.eqb_refl in V. destruct (Nat.eqb_spec a x); lia. }
  assert (S2 : forall z, z <> a -> same m1 m2 z).
  { intros z Hz. unfold same, m2; simpl. rewrite !fset_other by auto. auto. }
  assert (C2 : rctx None m2 c hp par).
  { eapply rctx_same; [exact C| |reflexivity]. intros z Hz. apply S2. intros ->. lia. }
  assert (C3 : rctx None m3 c (Some a) par).
  { apply (@rctx_store None m2 c hp par (Some a) C2). intros z. specialize (U' z). lia. }
  assert (SS : forall z, cc z c = 0 -> same m2 m3 z) by (intros z Hz; apply store_same; auto).
  assert (S3 : forall z, z <> a -> cc z c = 0 -> same m1 m3 z).
  { intros z H1 H2. eapply same_trans; [apply S2; auto|apply SS; auto]. }
  simpl in R. destruct R as (_ & _ & Rl & Rr).
  destruct (SS a) as (A1 & A2 & A3); [tauto|].
  split; auto. split; [eapply rctx_load; eauto|].
  rewrite A1, A2. unfold m2 at 1 2. simpl. rewrite !fset_same.
  split; [|split; [|split; auto]].
  - eapply rep_frame; [exact Rl|]. intros z Hz. specialize (U' z). apply S3; [intros ->; lia|lia].
  - eapply rep_frame; [exact Rr|]. intros z Hz. specialize (U' z). apply S3; [intros ->; lia|lia].
  - intros z. specialize (U' z). lia.
Qed.

Lemma plug_down_ordered k c a l x r : ordered k (plug c (T l x r)) -> leftful (T l a r) -> ctop k c (T Leaf a Leaf) ->
  ordered k (plug c (t_down k a (T l a r))).
Proof.
  intros O LF CT. pose proof (ordered_plug _ _ _ O) as O1. simpl in O1. destruct O1 as (_ & _ & Ol & Or).
  eapply plug_replace; [exact O| |].
  - eapply down_ordered; eauto.
  - apply ordered_ctop in O. destruct c as [|[[b y] s] c]; cbn [ctop] in *; auto.
    apply above_T in O. apply above_T in CT. apply down_above; try tauto; apply CT.
Qed.

Lemma leftful_root l x y r : leftful (T l x r) -> leftful (T l y r).
Proof. auto. Qed.

Lemma enough_le m c l x r S t : hinv m S t -> plug c (T l x r) = t_cut (path_bits (size m)) t -> (1 <= size m)%N ->
  sz l + sz r + length c < Datatypes.S (N.to_nat (size m - 1)).
Proof.
  intros H E L. destruct (cut_facts H L) as (_ & _ & _ & Z & _).
  rewrite <- E, sz_plug in Z. simpl in Z. pose proof (h_sz H). pose proof (csz_length c). lia.
Qed.

Lemma pop_ok m S t : hinv m S t ->
  exists m' t', pop_front m = Some m' /\
    hinv m' (match front m with Some x => remove Nat.eq_dec x S | None => S end) t' /\ key m' = key m.
Proof.
  intros H. unfold pop_front, front. pose proof (hinv_root H) as RT.
  destruct (N.leb_spec (size m) 1) as [L|L].
  - exists (s_size (s_root m None) 0), Leaf. split; auto. split; auto.
    destruct t as [|l x r].
    + rewrite RT. simpl. constructor; simpl; auto; try lia.
      * intros p. simpl. split; [tauto|]. pose proof (num_ge1 p). lia.
      * intros z. rewrite <- (h_in H z). simpl. lia.
      * apply H.
      * intros z _. apply (h_out H). auto.
    + assert (sz l = 0 /\ sz r = 0) as [Zl Zr] by (pose proof (h_sz H); simpl in *; lia).
      apply sz_zero in Zl, Zr. subst. rewrite RT. simpl.
      apply hinv_removed with (m := m) (t := T Leaf x Leaf); auto; simpl; auto.
      * rewrite Nat.eqb_refl. lia.
      * intros p. simpl. split; [tauto|]. pose proof (num_ge1 p). lia.
      * pose proof (h_sz H). simpl in *. lia.
      * intros z. lia.
      * intros z Hz. pose proof (h_out H z). pose proof (h_rep H) as R. simpl in R.
        destruct R as (_ & [R|R] & _); [discriminate|]. destruct Hz as [Hz| ->]; auto.
  - assert (L1 : (1 <= size m)%N) by lia.
    destruct (cut_facts H L1) as (LP & Sh & O & Z & m1 & a & E & A & R & K1 & Z1 & P1 & F1 & CN).
    set (p := path_bits (size m)) in *.
    destruct (t_cut p t) as [|l x r] eqn:Ec.
    { simpl in Z. pose proof (h_sz H). lia. }
    assert (Rx : rootp t = Some x).
    { destruct t as [|l0 x0 r0]; [pose proof (h_sz H); simpl in *; lia|].
      destruct p as [|[] p]; simpl in Ec; try discriminate; inversion Ec; auto. }
    rewrite RT, Rx, E. pose proof (rep_rootp _ _ _ _ _ R) as R1. rewrite R1. simpl rootp. cbv iota beta zeta.
    assert (U : forall z, cn z (plug [] (T l x r)) + (if z =? a then 1 else 0) <= 1).
    { intros z. simpl plug. pose proof (h_uniq H z). rewrite CN in *. lia. }
    rewrite R1 in R.
    destruct (@replaced m1 [] l x r a (rootp (T l x r)) None (size m - 1)%N) as (C3 & L3 & Rl & Rr & U3 & S3); auto.
    { simpl. auto. }
    cbn zeta in C3, L3, Rl, Rr, U3, S3.
    change (s_size (s_root (s_left (s_right m1 a (right m1 x)) a (left (s_right m1 a (right m1 x)) x)) (Some a))
      (size (s_root (s_left (s_right m1 a (right m1 x)) a (left (s_right m1 a (right m1 x)) x)) (Some a)) - 1))
    with (s_root (s_size (s_left (s_right m1 a (right m1 x)) a (left m1 x)) (size m1 - 1)) (Some a)).
    rewrite Z1.
    match goal with |- context [sift_down (enough ?M) ?M a LRoot None] => set (m3 := M) in * end.
    assert (LF : leftful (T l a r)). { apply leftful_root with (x := x). eapply shape_leftful; exact Sh. }
    destruct (@down_fix (enough m3) m3 [] (Some a) None (Some x) a l r) as (m4 & y & E4 & L4 & R4 & K4 & Z4 & I4 & F4); auto.
    { unfold enough. pose proof (@enough_le m [] l x r S t H (eq_sym Ec) L1) as EL. simpl in *. lia. }
    simpl loc_of in *. rewrite E4. cbn iota beta. simpl load in L4. rewrite L4.
    exists (s_prev m4 y None), (t_down (key m) a (T l a r)). split; auto.
    assert (KK : key m4 = key m) by (rewrite K4; exact K1).
    assert (CD : forall z, cn z (t_down (key m) a (T l a r)) = (if z =? a then 1 else 0) + cn z l + cn z r).
    { intros z. apply (@cn_down (key m) z a _ _ _ _ (eq_refl (T l a r))). }
    assert (NX : a <> x).
    { intros ->. specialize (U x). simpl in U. rewrite Nat.eqb_refl in U. lia. }
    assert (CX : cn x l = 0 /\ cn x r = 0).
    { pose proof (h_uniq H x) as V. rewrite CN in V. simpl in V. rewrite Nat.eqb_refl in V. lia. }
    split; auto. apply hinv_removed with (m := m) (t := t); auto.
    + rewrite CN. simpl. rewrite Nat.eqb_refl. lia.
    + assert (K3 : key m3 = key m) by exact K1. rewrite K3 in R4. exact R4.
    + cbn [s_prev key]. rewrite KK. apply (@plug_down_ordered (key m) [] a l x r); simpl; auto.
    + cbn [s_prev size]. rewrite Z4. change (size m3) with (size m - 1)%N. apply shape_down. intros q. rewrite <- (Sh q). destruct q as [|[] q]; simpl; tauto.
    + rewrite Z, sz_down. reflexivity.
    + intros z. rewrite CD, CN. simpl. lia.
    + intros z Hz. simpl. unfold fset. destruct (z =? y); auto.
      assert (Pz : prev m z = None).
      { destruct Hz as [Hz| ->]; [apply (h_out H); auto|]. pose proof (h_rep H) as RR.
        destruct t as [|l0 x0 r0]; [discriminate|]. simpl in Rx. inversion Rx; subst. simpl in RR.
        destruct RR as (_ & [RR|RR] & _); [discriminate|auto]. }
      assert (Q : cn z l + cn z r + (if z =? a then 1 else 0) = 0).
      { destruct Hz as [Hz| ->]; [rewrite CN in Hz; simpl in Hz; lia|].
        apply Nat.eqb_neq in NX. rewrite Nat.eqb_sym in NX. rewrite NX. lia. }
      destruct (F4 z) as (_ & _ & F); [simpl; lia|]. rewrite F.
      destruct (S3 z) as (_ & _ & F'); auto.
      { intros ->. rewrite Nat.eqb_refl in Q. lia. }
      change (prev m3 z) with (prev m1 z). rewrite P1. auto.
Qed.

(** nodes in the heap are recognised by erase's first test *)
Lemma prev_none m S t x : hinv m S t ->
  (prev m x = None /\ root m <> Some x <-> ~ In x S).
Proof.
  intros H. rewrite <- (h_in H x). split.
  - intros [P N] I. destruct (focus _ _ I) as (c & l & r & E).
    pose proof (h_rep H) as R. rewrite E in R. destruct (plug_rep _ _ _ _ R) as (hp & par & C & Rt).
    simpl in Rt. destruct Rt as (-> & [Rt|Rt] & _); [discriminate|].
    destruct c as [|[[b y] s] c]; simpl in C; [tauto|]. destruct C as [C _]. congruence.
  - intros I. assert (Z : cn x t = 0) by lia. split; [apply (h_out H); auto|].
    rewrite (hinv_root H). destruct t as [|l y r]; simpl; [discriminate|]. intros K. inversion K; subst.
    simpl in Z. rewrite Nat.eqb_refl in Z. lia.
Qed.

Lemma erase_out m S t x : hinv m S t -> ~ In x S -> erase m x = Some (m, false).
Proof.
  intros H I. unfold erase. apply (prev_none x H) in I. destruct I as [I1 I2]. rewrite I1. simpl.
  destruct (root m) as [y|]; simpl; auto. destruct (Nat.eqb_spec x y); auto. congruence.
Qed.

Lemma ctop_single k c a : (forall b y s c', c = (b, y, s) :: c' -> klt k a y = false) -> ctop k c (T Leaf a Leaf).
Proof.
  intros H. destruct c as [|[[b y] s] c]; simpl; auto. specialize (H _ _ _ _ eq_refl). apply klt_false in H.
  intros z. simpl. intros [<-|[]]. auto.
Qed.

Lemma erase_ok m S t x : hinv m S t -> In x S ->
  exists m' t', erase m x = Some (m', true) /\ hinv m' (remove Nat.eq_dec x S) t' /\ key m' = key m.
Proof.
  intros H I. assert (IX : 0 < cn x t) by (apply (h_in H); auto).
  assert (L1 : (1 <= size m)%N).
  { pose proof (h_sz H). destruct t; simpl in *; lia. }
  destruct (cut_facts H L1) as (LP & Sh & O & Z & m1 & a & E & A & R & K1 & Z1 & P1 & F1 & CN).
  set (p := path_bits (size m)) in *. unfold erase.
  assert (T1 : ptr_eqb (prev m x) None && negb (ptr_eqb (Some x) (root m)) = false).
  { destruct (ptr_eqb (prev m x) None && negb (ptr_eqb (Some x) (root m))) eqn:B; auto.
    apply andb_prop in B. destruct B as [B1 B2]. exfalso. refine (proj1 (prev_none x H) _ I).
    apply ptr_eqb_eq in B1. split; auto. intros K. rewrite K in B2. simpl in B2. rewrite Nat.eqb_refl in B2. discriminate. }
  rewrite T1. destruct (root m) as [rt|] eqn:RT.
  2: { pose proof (hinv_root H) as X. rewrite RT in X. destruct t; simpl in *; [lia|discriminate]. }
  assert (E0 : (size m =? 0)%N = false) by (apply N.eqb_neq; lia). rewrite E0, E. cbv iota beta zeta.
  simpl ptr_eqb. destruct (Nat.eqb_spec a x) as [->|NX].
  - (* the last leaf itself *)
    exists (s_prev (s_size m1 (size m1 - 1)) x None), (t_cut p t). split; auto. split; auto.
    assert (C0 : cn x (t_cut p t) = 0).
    { pose proof (h_uniq H x) as V. rewrite CN, Nat.eqb_refl in V. lia. }
    apply hinv_removed with (m := m) (t := t); auto.
    + simpl. eapply rep_frame; [exact R|]. intros z Hz. unfold same; simpl. repeat split; auto.
      apply fset_other. intros ->. lia.
    + simpl. rewrite K1. auto.
    + simpl. rewrite Z1. auto.
    + simpl. rewrite Z1. auto.
    + intros z. rewrite CN. lia.
    + intros z Hz. simpl. unfold fset. destruct (Nat.eqb_spec z x); auto. rewrite P1. apply (h_out H). tauto.
  - (* the last leaf replaces x *)
    assert (IC : 0 < cn x (t_cut p t)).
    { rewrite CN in IX. destruct (Nat.eqb_spec x a); [congruence|lia]. }
    destruct (focus _ _ IC) as (c & l & r & Ec). rewrite Ec in *.
    destruct (plug_rep _ _ _ _ R) as (hp & par & C & Rt).
    assert (U : forall z, cn z (plug c (T l x r)) + (if z =? a then 1 else 0) <= 1).
    { intros z. pose proof (h_uniq H z). rewrite CN in *. lia. }
    destruct (@replaced m1 c l x r a hp par (size m - 1)%N C Rt U) as (C3 & L3 & Rl & Rr & U3 & S3).
    cbn zeta in C3, L3, Rl, Rr, U3, S3. rewrite Z1.
    change (size (s_size m1 (size m - 1))) with (size m - 1)%N.
    assert (Hp : hp = Some x /\ prev m1 x = par).
    { simpl in Rt. destruct Rt as (X & [Y|Y] & _); [discriminate|auto]. }
    destruct Hp as [-> Hp].
    assert (Em : s_left (s_right (s_size m1 (size m - 1)) a (right (s_size m1 (size m - 1)) x)) a
                  (left (s_right (s_size m1 (size m - 1)) a (right (s_size m1 (size m - 1)) x)) x) =
                 s_size (s_left (s_right m1 a (right m1 x)) a (left m1 x)) (size m - 1)) by reflexivity.
    rewrite Em. clear Em. set (m2 := s_size (s_left (s_right m1 a (right m1 x)) a (left m1 x)) (size m - 1)) in *.
    assert (Pm2 : prev m2 x = par) by exact Hp. rewrite Pm2.
    assert (AX : cn a l = 0 /\ cn a r = 0 /\ cc a c = 0).
    { pose proof (U3 a) as V. rewrite Nat.eqb_refl in V. lia. }
    assert (XX : cn x l = 0 /\ cn x r = 0 /\ cc x c = 0).
    { pose proof (U x) as V. rewrite cn_plug in V. simpl in V. rewrite Nat.eqb_refl in V. lia. }
    set (m3 := store m2 (loc_of c) (Some a)) in *.
    assert (K3 : key m3 = key m) by (unfold m3; rewrite store_key; exact K1).
    assert (Z3 : size m3 = (size m - 1)%N) by (unfold m3; rewrite store_size; reflexivity).
    assert (P3 : prev m3 = prev m) by (unfold m3; rewrite store_prev; exact P1).
    assert (LF : leftful (T l a r)).
    { apply leftful_root with (x := x). apply leftful_plug with (c := c). eapply shape_leftful; exact Sh. }
    assert (FU : sz l + sz r + length c < enough m3).
    { unfold enough. rewrite Z3. eapply enough_le; eauto. }
    assert (Ol : ordered (key m) l /\ ordered (key m) r).
    { apply ordered_plug in O. simpl in O. tauto. }
    (* the sift_down branch *)
    assert (DOWN : (forall b y s c', c = (b, y, s) :: c' -> klt (key m) a y = false) ->
      exists m' t', (do m4 <- sift_down (enough m3) m3 a (loc_of c) par; do z <- load m4 (loc_of c);
                     Some (s_prev (s_prev m4 z par) x None, true)) = Some (m', true) /\
        hinv m' (remove Nat.eq_dec x S) t' /\ key m' = key m).
    { intros CT.
      destruct (@down_fix (enough m3) m3 c (Some a) par (Some x) a l r) as (m4 & y & E4 & L4 & R4 & K4 & Z4 & I4 & F4); auto; [lia|].
      rewrite E4. cbv beta iota. rewrite L4.
      exists (s_prev (s_prev m4 y par) x None), (plug c (t_down (key m) a (T l a r))). split; auto.
      assert (KK : key m4 = key m) by congruence. rewrite K3 in R4, I4.
      assert (CD : forall z, cn z (t_down (key m) a (T l a r)) = (if z =? a then 1 else 0) + cn z l + cn z r).
      { intros z. apply (@cn_down (key m) z a _ _ _ _ (eq_refl (T l a r))). }
      assert (CP : forall z, cn z (plug c (t_down (key m) a (T l a r))) = (if z =? a then 1 else 0) + cn z l + cn z r + cc z c).
      { intros z. rewrite cn_plug, CD. lia. }
      assert (X0 : cn x (plug c (t_down (key m) a (T l a r))) = 0).
      { rewrite CP. destruct (Nat.eqb_spec x a); [congruence|lia]. }
      split; auto. apply hinv_removed with (m := m) (t := t); auto.
      - eapply rep_frame; [exact R4|]. intros z Hz. unfold same; simpl. repeat split; auto.
        apply fset_other. intros ->. lia.
      - cbn [s_prev key]. rewrite KK. eapply plug_down_ordered; eauto. apply ctop_single; auto.
      - cbn [s_prev size]. rewrite Z4, Z3. apply shape_plug_down. intros q. rewrite <- (Sh q). apply has_plug.
        clear q. intros q. destruct q as [|[] q]; simpl; tauto.
      - rewrite Z, !sz_plug, sz_down. reflexivity.
      - simpl. congruence.
      - intros z. rewrite CP, CN, cn_plug. simpl. lia.
      - intros z Hz. cbn [s_prev prev]. unfold fset at 1. destruct (Nat.eqb_spec z x) as [->|NZ]; auto.
        destruct Hz as [Hz|]; [|congruence]. rewrite CN, cn_plug in Hz. simpl in Hz.
        rewrite fset_other.
        + destruct (F4 z) as (_ & _ & F); [lia|]. rewrite F, P3. apply (h_out H). rewrite CN, cn_plug. simpl. lia.
        + intros ->. rewrite CD in I4. lia. }
    destruct c as [|[[b y] s] c].
    + (* x is the root *)
      simpl in C. destruct C as [_ ->]. apply DOWN. intros; discriminate.
    + assert (Ep : par = Some y) by (simpl in C; tauto). rewrite Ep in *.
      assert (AY : a <> y /\ x <> y).
      { simpl in AX, XX. destruct (Nat.eqb_spec a y), (Nat.eqb_spec x y); subst; try lia; auto. }
      assert (YY : cn y l = 0 /\ cn y r = 0 /\ cc y c = 0 /\ cn y s = 0).
      { pose proof (U3 y) as V. simpl in V. rewrite Nat.eqb_refl in V. lia. }
      assert (Lo : (if ptr_eqb (right m2 y) (Some x) then LRight y else LLeft y) = loc_of ((b, y, s) :: c)).
      { assert (Er : right m2 y = right m1 y).
        { unfold m2. simpl. apply fset_other. destruct AY; congruence. }
        rewrite Er. simpl in C. destruct C as (_ & Cb & _). destruct b; destruct Cb as [Cb1 Cb2].
        - rewrite Cb1. simpl. rewrite Nat.eqb_refl. auto.
        - apply rep_rootp in Cb2. rewrite Cb2. destruct s as [|sl w sr]; simpl; auto.
          destruct (Nat.eqb_spec w x) as [->|]; auto. exfalso. simpl in XX. rewrite Nat.eqb_refl in XX.
          destruct (x =? y); lia. }
      change (fset (right m1) a (right m1 x) y) with (right m2 y). rewrite Lo. fold m3. unfold lt. rewrite K3. fold (klt (key m) a y).
      destruct (klt (key m) a y) eqn:K; [|apply DOWN; intros b' y' s' c' Q; inversion Q; subst; auto].
      unfold sift_up.
      set (m4 := s_child m3 (right m3 a) (Some y)).
      set (m5 := s_child m4 (left m3 a) (Some y)).
      assert (El : left m3 a = rootp l) by (eapply rep_rootp; eauto).
      assert (Er : right m3 a = rootp r) by (eapply rep_rootp; eauto).
      assert (Q5 : left m5 = left m3 /\ right m5 = right m3 /\ root m5 = root m3 /\ key m5 = key m3 /\ size m5 = size m3 /\
        (forall z, rootp l <> Some z -> rootp r <> Some z -> prev m5 z = prev m3 z) /\
        (forall z, rootp l = Some z \/ rootp r = Some z -> prev m5 z = Some y) /\ key m4 = key m3 /\ size m4 = size m3).
      { unfold m5, m4. rewrite El, Er. destruct (rootp l) as [u|], (rootp r) as [v|]; simpl; repeat split; auto;
          try (intros z N1 N2; rewrite !fset_other; congruence);
          intros z [N|N]; inversion N; subst; unfold fset; rewrite ?Nat.eqb_refl; auto;
          match goal with |- context [if ?x then _ else _] => destruct x; auto end. }
      destruct Q5 as (Ql & Qr & Qro & Qk & Qs & Qp & Qq & Qk4 & Qs4).
      assert (RL : forall z, rootp l = Some z -> 0 < cn z l).
      { intros z Hz. destruct l; inversion Hz; subst. simpl. rewrite Nat.eqb_refl. lia. }
      assert (RRr : forall z, rootp r = Some z -> 0 < cn z r).
      { intros z Hz. destruct r; inversion Hz; subst. simpl. rewrite Nat.eqb_refl. lia. }
      assert (S5 : forall z, cn z l = 0 -> cn z r = 0 -> same m3 m5 z).
      { intros z N1 N2. unfold same. rewrite Ql, Qr. repeat split; auto. apply Qp; intros N; [apply RL in N|apply RRr in N]; lia. }
      assert (PG : prev m4 y = prev m5 y).
      { unfold m5. rewrite El. destruct (rootp l) as [u|] eqn:Eu; simpl; auto. rewrite fset_other; auto.
        intros <-. specialize (RL y eq_refl). lia. }
      rewrite PG.
      destruct (@up_ok (enough m3) m4 b y s c a l r (left m3 a)) as (m6 & E6 & R6 & K6 & Z6 & F6); fold m5.
      * eapply rctx_same; [exact C3| |exact Qro]. intros z Hz. specialize (U3 z). apply S5; lia.
      * rewrite Ql. eapply rep_reparent; [exact Rl| | | |].
        -- intros z Hz. rewrite Ql, Qr. auto.
        -- intros z Hz N. apply Qp; auto. intros N'. apply RRr in N'. specialize (U3 z). lia.
        -- intros z. specialize (U3 z). lia.
        -- intros z Hz. right. apply Qq; auto.
      * rewrite Qr. eapply rep_reparent; [exact Rr| | | |].
        -- intros z Hz. rewrite Ql, Qr. auto.
        -- intros z Hz N. apply Qp; auto. intros N'. apply RL in N'. specialize (U3 z). lia.
        -- intros z. specialize (U3 z). lia.
        -- intros z Hz. right. apply Qq; auto.
      * exact U3.
      * rewrite Qk4, K3. exact K.
      * rewrite Qk4, K3. apply climb_gen with (n := size m) (t := t) (p := p) (t' := T l x r); auto; try apply H; try discriminate.
        apply path_bits_num; auto.
      * simpl in FU. lia.
      * rewrite Qk4, K3 in R6. fold m5 in E6. rewrite E6.
        exists (s_prev m6 x None), (t_up (key m) ((b, y, s) :: c) l a r). split; auto. split; [|simpl; congruence].
        apply hinv_removed with (m := m) (t := t); auto.
        -- eapply rep_frame; [exact R6|]. intros z Hz. unfold same; simpl. repeat split; auto.
           apply fset_other. intros ->. rewrite cn_up in Hz. destruct (Nat.eqb_spec x a); [congruence|]. lia.
        -- simpl key. rewrite K6, Qk4, K3.
           assert (Oy : ordered (key m) (plug ((b, y, s) :: c) (T l x r))) by exact O.
           assert (CT : ctop (key m) ((b, y, s) :: c) (T l x r)) by (apply ordered_ctop; auto).
           simpl in CT. apply above_T in CT. destruct CT as (CT1 & CT2 & CT3). apply klt_true in K.
           apply up_ordered with (t0 := T l x r); simpl; auto; try tauto; eapply above_le; eauto; lia.
        -- simpl size. rewrite Z6, Qs4, Z3. intros q. rewrite has_up. rewrite <- (Sh q). apply has_plug.
           clear q. intros q. destruct q as [|[] q]; simpl; tauto.
        -- rewrite Z, sz_plug, sz_up. reflexivity.
        -- simpl. congruence.
        -- intros z. rewrite cn_up, CN, cn_plug. cbn [cn]. lia.
        -- intros z Hz. cbn [s_prev prev]. unfold fset at 1. destruct (Nat.eqb_spec z x) as [->|NZ]; auto.
           destruct Hz as [Hz|]; [|congruence]. pose proof Hz as Hz'. rewrite CN, cn_plug in Hz. simpl cn in Hz.
           destruct (F6 z) as (_ & _ & F); [lia|]. fold m5 in F. rewrite F.
           destruct (S5 z) as (_ & _ & F'); [lia|lia|]. rewrite F', P3. apply (h_out H). auto.
Qed.
