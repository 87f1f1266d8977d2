(** C62: the memory resource adaptor hands out aligned, disjoint blocks, and gives back upstream exactly what it took. *)
From Coq Require Import ZArith List Bool Lia.
From Verif Require Import MemResModel.
Import ListNotations.
Open Scope Z_scope.
Set Implicit Arguments.

(** ** Specification *)
(** No request is so large that size, alignment and pointer together leave the address space. *)
Definition fits (l : list action) := forall b k a j, In (AAlloc b k a j) l -> b + 2 ^ k - 1 + 8 < 2 ^ 64.
(** the bytes of a block of the user's *)
Definition inside (x : Z) (u : ublock) := match u with (p, b, _) => p <= x < p + b end.
Definition ev_eq : forall x y : event, {x = y} + {x <> y}. Proof. repeat decide equality. Defined.
Definition times e l := count_occ ev_eq l e.

(** ** Arithmetic *)
Local Arguments W : simpl never.
Lemma Wpos : 0 < W. Proof. reflexivity. Qed.
Lemma w64_small : forall x, 0 <= x < W -> w64 x = x.
Proof. intros. apply Z.mod_small; auto. Qed.
Lemma land_align : forall x k, 0 <= k -> Z.land x (- 2 ^ k) = x - x mod 2 ^ k.
Proof.
  intros x k K. replace (- 2 ^ k) with (Z.lnot (Z.ones k)) by (unfold Z.lnot; rewrite Z.ones_equiv; lia).
  change (Z.land x (Z.lnot (Z.ones k))) with (Z.land x (Z.lnot (Z.ones k))). rewrite <- Z.ldiff_land, Z.ldiff_ones_r by auto.
  rewrite Z.shiftl_mul_pow2, Z.shiftr_div_pow2 by auto. assert (0 < 2 ^ k) by (apply Z.pow_pos_nonneg; lia).
  rewrite (Z.div_mod x (2 ^ k)) at 2 by lia. lia.
Qed.
Lemma pow_lt : forall k, 0 <= k < 64 -> 1 <= 2 ^ k < W.
Proof. intros k K. unfold W. split; [assert (0 < 2 ^ k) by (apply Z.pow_pos_nonneg; lia); lia | apply Z.pow_lt_mono_r; lia]. Qed.
Lemma up_size_fits : forall b k, 0 <= b -> 0 <= k < 64 -> b + 2 ^ k - 1 + 8 < W -> up_size b k = b + 2 ^ k + 7.
Proof. intros b k B K F. pose proof (pow_lt K). unfold up_size, PS. rewrite (@w64_small (b + 2 ^ k)) by lia. rewrite (@w64_small (_ - 1)) by lia. rewrite w64_small by lia. lia. Qed.
Lemma align_ok : forall b k a n, 0 <= b -> 0 <= k < 64 -> 0 < a -> n = b + 2 ^ k + 7 -> n < W -> a + n <= W ->
  exists p, std_align (2 ^ k) b a n = Some (p, n - (p - a)) /\ a <= p < a + 2 ^ k /\ p mod 2 ^ k = 0.
Proof.
  intros b k a n B K A N F G. pose proof (pow_lt K) as P. unfold std_align. destruct (Z.ltb_spec n b); [lia|].
  rewrite (@w64_small (a - 1 + 2 ^ k)) by lia. rewrite land_align by lia.
  pose proof (Z.mod_pos_bound (a - 1 + 2 ^ k) (2 ^ k) ltac:(lia)) as M. set (r := (a - 1 + 2 ^ k) mod 2 ^ k) in *.
  rewrite w64_small by lia. set (p := a - 1 + 2 ^ k - r). exists p.
  destruct (Z.ltb_spec (n - b) (p - a)); [subst p; lia|]. split; [auto|]. split; [subst p; lia|].
  subst p r. rewrite Zminus_mod_idemp_r. rewrite Z.sub_diag. apply Z.mod_0_l. lia.
Qed.

(** ** Memory *)
Lemma store_out : forall k m x v y, ~ (x <= y < x + Z.of_nat k) -> store_n k m x v y = m y.
Proof.
  induction k as [|k IH]; intros m x v y N; cbn; auto. rewrite IH by lia. unfold mset. destruct (Z.eqb_spec y x); auto. lia.
Qed.
Lemma load_ext : forall k m m' x, (forall y, x <= y < x + Z.of_nat k -> m y = m' y) -> load_n k m x = load_n k m' x.
Proof. induction k as [|k IH]; intros m m' x H; cbn; auto. rewrite (H x) by lia. rewrite (IH m m' (x + 1)); auto. intros. apply H. lia. Qed.
Lemma load_store_n : forall k m x v, 0 <= v < 256 ^ Z.of_nat k -> load_n k (store_n k m x v) x = v.
Proof.
  induction k as [|k IH]; intros m x v V; [cbn in *; lia|].
  assert (VD : 0 <= v / 256 < 256 ^ Z.of_nat k).
  { rewrite Nat2Z.inj_succ, Z.pow_succ_r in V by lia. split; [apply Z.div_pos; lia | apply Z.div_lt_upper_bound; lia]. }
  cbn [load_n store_n]. rewrite IH by auto.
  rewrite store_out by lia. unfold mset. rewrite Z.eqb_refl, Z.mod_mod by lia. rewrite (Z.div_mod v 256) at 3 by lia. lia.
Qed.
Lemma load_store : forall m x v, 0 <= v < W -> load (store m x v) x = v.
Proof. intros. apply load_store_n. exact H. Qed.

(** ** The invariant: a list that pairs the blocks *)
Record pair := mkp { pa : Z; pp : Z; pb : Z; pk : Z }.
Definition fu x : ublock := (pp x, pb x, pk x).
Definition fn x := pb x + 2 ^ pk x + 7.
Definition fa x : ablock := (pa x, fn x).
Definition good (m : memory) x := 0 <= pb x /\ 0 <= pk x < 64 /\ 0 < pa x /\ fn x < W /\ pa x + fn x <= W /\ pa x <= pp x < pa x + 2 ^ pk x /\ pp x mod 2 ^ pk x = 0 /\ load m (pp x + pb x) = pa x.
Definition apart x y := pa x + fn x <= pa y \/ pa y + fn y <= pa x.
Fixpoint pairwise (l : list pair) := match l with [] => True | x :: l => (forall y, In y l -> apart x y) /\ pairwise l end.
Definition ab_eq : forall x y : ablock, {x = y} + {x <> y}. Proof. repeat decide equality. Defined.
Definition balanced (s : state) := forall a n, times (EUpAlloc a n) (log s) = (times (EUpFree a n) (log s) + count_occ ab_eq (ups s) (a, n))%nat.
Record inv (s : state) : Prop := mki {
  v_l : exists l, usr s = map fu l /\ ups s = map fa l /\ pairwise l /\ forall x, In x l -> good (mem s) x;
  v_bal : balanced s;
  v_bad : ~ In EBad (log s) }.

Lemma ueqb_spec : forall x y, ueqb x y = true <-> x = y.
Proof. intros [[p b] k] [[q c] l]. cbn. rewrite !andb_true_iff, !Z.eqb_eq. split; [intros [[-> ->] ->]; auto | intros E; injection E as -> -> ->; auto]. Qed.
Lemma aeqb_spec : forall x y, aeqb x y = true <-> x = y.
Proof. intros [p b] [q c]. unfold aeqb. cbn. rewrite !andb_true_iff, !Z.eqb_eq. split; [intros [-> ->]; auto | intros E; injection E as -> ->; auto]. Qed.
Lemma umem_spec : forall x l, umem x l = true <-> In x l.
Proof. intros. unfold umem. rewrite existsb_exists. split; [intros [y [Y E]]; apply ueqb_spec in E; subst; auto | intros H; exists x; split; auto; apply ueqb_spec; auto]. Qed.
Lemma amem_spec : forall x l, amem x l = true <-> In x l.
Proof. intros. unfold amem. rewrite existsb_exists. split; [intros [y [Y E]]; apply aeqb_spec in E; subst; auto | intros H; exists x; split; auto; apply aeqb_spec; auto]. Qed.
Lemma good_ext : forall m m' x, good m x -> (forall y, pp x + pb x <= y < pp x + pb x + 8 -> m y = m' y) -> good m' x.
Proof. unfold good. intros m m' x G H. intuition. unfold load in *. rewrite <- (@load_ext 8 m m'); auto. Qed.
Lemma good_fn : forall m x, good m x -> 0 <= pb x /\ pa x <= pp x /\ pp x + pb x + 8 <= pa x + fn x.
Proof. unfold good, fn. intros m x G. intuition lia. Qed.
Lemma pairwise_in : forall l x y, pairwise l -> In x l -> In y l -> x = y \/ apart x y.
Proof.
  induction l as [|z l IH]; cbn; [tauto|]. intros x y [P Q] [->|X] [->|Y]; auto. right. destruct (P x X) as [A|A]; [right|left]; lia.
Qed.
Lemma filter_map : forall A B (f : A -> B) (g : B -> bool) l, filter g (map f l) = map f (filter (fun x => g (f x)) l).
Proof. induction l as [|x l IH]; cbn; auto. destruct (g (f x)); cbn; rewrite IH; auto. Qed.
Lemma pairwise_filter : forall g l, pairwise l -> pairwise (filter g l).
Proof. induction l as [|x l IH]; cbn; auto. intros [P Q]. destruct (g x); cbn; auto. split; auto. intros y Y. apply filter_In in Y. apply P. tauto. Qed.
Lemma count_remove : forall x y l, count_occ ab_eq (aremove y l) x = if ab_eq y x then 0%nat else count_occ ab_eq l x.
Proof.
  intros x y. unfold aremove. induction l as [|z l IH]; cbn; [destruct (ab_eq y x); auto|]. destruct (aeqb z y) eqn:E; cbn.
  - apply aeqb_spec in E. subst z. rewrite IH. destruct (ab_eq y x); auto.
  - destruct (ab_eq z x) as [->|N]; rewrite IH; destruct (ab_eq y x) as [->|]; auto. rewrite (proj2 (aeqb_spec x x) eq_refl) in E. discriminate.
Qed.
Lemma count_pairs : forall l x m, pairwise l -> (forall y, In y l -> good m y) -> In x l -> count_occ ab_eq (map fa l) (fa x) = 1%nat.
Proof.
  induction l as [|z l IH]; cbn [pairwise map count_occ In]; [tauto|]. intros x m [P Q] G X.
  assert (GX : forall y, In y l -> fa y <> fa z).
  { intros y Y E. pose proof (good_fn (G y (or_intror Y))). injection E as E1 E2. destruct (P y Y); lia. }
  destruct X as [->|X].
  - destruct (ab_eq (fa x) (fa x)); [|congruence]. rewrite (proj1 (count_occ_not_In ab_eq _ _)); auto. rewrite in_map_iff. intros [y [E Y]]. apply (GX y Y E).
  - destruct (ab_eq (fa z) (fa x)) as [E|N]; [elim (GX x X); auto|]. eapply IH; eauto.
Qed.

Lemma inv_init : forall m, inv (init m).
Proof. intros m. constructor; cbn; auto; [exists []; cbn; tauto | intros a n; reflexivity]. Qed.
Lemma times_ne : forall e e' l, e' <> e -> times e (e' :: l) = times e l.
Proof. intros. unfold times. cbn. destruct (ev_eq e' e); congruence. Qed.
Lemma times_eq : forall e l, times e (e :: l) = S (times e l).
Proof. intros. unfold times. cbn. destruct (ev_eq e e); congruence. Qed.

Lemma inv_step : forall s c s', inv s -> step s c = Some s' -> (forall b k a j, c = AAlloc b k a j -> b + 2 ^ k - 1 + 8 < 2 ^ 64) -> inv s'.
Proof.
  intros s c s' [[l (LU & LA & PW & G)] BAL NB] H F. destruct c as [b k a junk|b k|p b k off v|p b k|x v]; cbn -[W] in H.
  - (* allocate *)
    match type of H with (if ?c then _ else _) = _ => destruct c eqn:E; [|discriminate] end. injection H as <-.
    rewrite !andb_true_iff in E. rewrite !Z.leb_le, !Z.ltb_lt in E. destruct E as [[[[[[E1 E2] E3] E4] E5] E6] E7].
    specialize (F _ _ _ _ eq_refl). fold W in F. pose proof (@pow_lt k ltac:(lia)) as PK.
    assert (N : up_size b k = b + 2 ^ k + 7) by (apply up_size_fits; lia). unfold allocate. rewrite N in *.
    destruct (@align_ok b k a (b + 2 ^ k + 7)) as [p (P1 & P2 & P3)]; [lia|lia|lia|lia|lia|lia|]. rewrite P1.
    destruct (Z.ltb_spec (b + 2 ^ k + 7 - (p - a)) (b + PS)) as [X|X]; [unfold PS in X; lia|clear X].
    set (x := mkp a p b k). rewrite forallb_forall in E7.
    assert (AP : forall y, In y l -> apart x y).
    { intros y Y. specialize (E7 (fa y)). rewrite LA in E7. specialize (E7 (in_map _ _ _ Y)). unfold disjb in E7. rewrite orb_true_iff, !Z.leb_le in E7. unfold apart, fn. cbn in *. unfold fn in E7. lia. }
    constructor.
    + exists (x :: l). cbn [usr ups map mem]. rewrite LU, LA. split; [reflexivity|]. split; [reflexivity|]. split; [split; auto|].
      intros y [<-|Y].
      * unfold good. cbn -[load store]. unfold fn. cbn -[load store]. repeat split; try lia. apply load_store. lia.
      * specialize (AP y Y). pose proof (good_fn (G y Y)) as GY. apply (fun H => good_ext _ (G y Y) H). intros z Z.
        unfold store. rewrite store_out. { unfold inb. cbn. unfold apart, fn in *. cbn in *. destruct (Z.leb_spec a z); cbn; auto. destruct (Z.ltb_spec z (a + (b + 2 ^ k + 7))); auto; lia. }
        cbn. unfold apart, fn in *. cbn in *. lia.
    + intros c n. cbn [log ups]. rewrite !(@times_ne _ (EAlloc b k p)) by discriminate. rewrite (@times_ne (EUpFree c n)) by discriminate.
      cbn [count_occ]. destruct (ab_eq (a, b + 2 ^ k + 7) (c, n)) as [E|E].
      * injection E as -> <-. rewrite times_eq, BAL. lia.
      * rewrite times_ne by congruence. apply BAL.
    + cbn. intros [X|[X|X]]; try discriminate; auto.
  - injection H as <-. constructor; cbn; [exists l; auto | | intros [X|X]; [discriminate|auto]].
    intros c n. cbn [log ups]. rewrite !(@times_ne _ EThrow) by discriminate. apply BAL.
  - destruct (umem (p, b, k) (usr s)) eqn:U; [|discriminate]. cbn in H. destruct (Z.leb_spec 0 off) as [O1|]; [|discriminate]. destruct (Z.ltb_spec off b) as [O2|]; [|discriminate]. injection H as <-.
    apply umem_spec in U. rewrite LU in U. apply in_map_iff in U. destruct U as [x [X1 X2]]. injection X1 as <- <- <-.
    constructor; cbn; auto. exists l. do 3 (split; auto). intros y Y. apply (fun H => good_ext _ (G y Y) H). intros z Z. unfold mset.
    destruct (Z.eqb_spec z (pp x + off)) as [E|]; auto. exfalso. pose proof (good_fn (G y Y)). pose proof (good_fn (G x X2)).
    destruct (@pairwise_in _ x y PW X2 Y) as [<-|A]; [lia|]. unfold apart in A. lia.
  - destruct (umem (p, b, k) (usr s)) eqn:U; [|discriminate]. injection H as <-.
    apply umem_spec in U. rewrite LU in U. apply in_map_iff in U. destruct U as [x [X1 X2]]. injection X1 as <- <- <-.
    pose proof (G x X2) as GX. unfold deallocate. assert (GX' := GX). destruct GX' as (G1 & G2 & G3 & G4 & G5 & G6 & G7 & G8). rewrite G8.
    pose proof (pow_lt G2) as PK. rewrite up_size_fits by (unfold fn in *; try tauto; lia). change (pb x + 2 ^ pk x + 7) with (fn x). change (pa x, fn x) with (fa x). change (pp x, pb x, pk x) with (fu x).
    assert (AI : In (fa x) (ups s)) by (rewrite LA; apply in_map; auto). rewrite (proj2 (amem_spec _ _) AI).
    constructor; cbn [usr ups log mem].
    + exists (filter (fun y => negb (ueqb (fu y) (fu x))) l). split; [unfold uremove; rewrite LU; apply filter_map|]. split; [|split; [apply pairwise_filter; auto|]].
      * unfold aremove. rewrite LA, filter_map. f_equal. apply filter_ext_in. intros y Y. f_equal. apply eq_true_iff_eq. rewrite aeqb_spec, ueqb_spec.
        destruct (@pairwise_in _ x y PW X2 Y) as [<-|A]; [tauto|]. pose proof (good_fn (G y Y)). pose proof (good_fn GX). unfold apart in A. unfold fa, fu.
        split; intros E; injection E as H1 H2; [|intros]; exfalso; try lia.
      * intros y Y. apply filter_In in Y. apply G. tauto.
    + intros c n. cbn [log ups]. rewrite count_remove. rewrite (@times_ne (EUpAlloc c n)), (@times_ne (EUpAlloc c n)) by discriminate. rewrite BAL. destruct (ab_eq (fa x) (c, n)) as [E|E].
      * rewrite <- E. rewrite LA. erewrite count_pairs; eauto. injection E as <- <-. rewrite times_eq, times_ne by discriminate. lia.
      * rewrite times_ne, times_ne; [auto|discriminate|]. intros Y. apply E. unfold fa. congruence.
    + cbn. intros [X|[X|X]]; try discriminate; auto.
  - destruct (existsb (inb x) (ups s)) eqn:E; [discriminate|]. injection H as <-. constructor; cbn; auto. exists l. do 3 (split; auto).
    intros y Y. apply (fun H => good_ext _ (G y Y) H). intros z Z. unfold mset. destruct (Z.eqb_spec z x) as [->|]; auto. exfalso.
    pose proof (good_fn (G y Y)). assert (X : existsb (inb x) (ups s) = true); [|congruence]. apply existsb_exists. exists (fa y). rewrite LA. split; [apply in_map; auto|].
    unfold inb. cbn. rewrite andb_true_iff, Z.leb_le, Z.ltb_lt. lia.
Qed.
Lemma runs_inv : forall l s s', inv s -> fits l -> runs l s = Some s' -> inv s'.
Proof.
  induction l as [|a l IH]; cbn; intros s s' I F H; [injection H as <-; auto|]. destruct (step s a) as [s1|] eqn:E; [|discriminate].
  apply (IH s1); auto; [|intros b k a0 j X; apply (F b k a0 j); cbn; auto]. eapply inv_step; eauto. intros b k a0 j ->. apply (F b k a0 j). cbn; auto.
Qed.

(** ** C62 *)
(** Every block handed out and not yet returned is aligned as asked, and lies inside one block the upstream allocator has handed out. *)
Theorem adaptor_blocks_partial : forall m l s, fits l -> runs l (init m) = Some s ->
  forall p b k, In (p, b, k) (usr s) -> p mod 2 ^ k = 0 /\ exists a n, In (a, n) (ups s) /\ a <= p /\ p + b <= a + n.
Proof.
  intros m l s F R p b k H. destruct (v_l (runs_inv (inv_init m) F R)) as [L (LU & LA & PW & G)]. rewrite LU in H. apply in_map_iff in H. destruct H as [x [X1 X2]]. injection X1 as <- <- <-.
  pose proof (good_fn (G x X2)). split; [apply (G x X2)|]. exists (pa x), (fn x). rewrite LA. split; [apply (in_map fa); auto | lia].
Qed.
(** Two of them never overlap, and no two of them have the same address, even if empty. *)
Theorem adaptor_disjoint_partial : forall m l s, fits l -> runs l (init m) = Some s ->
  NoDup (map (fun u => fst (fst u)) (usr s)) /\ forall u v x, In u (usr s) -> In v (usr s) -> inside x u -> inside x v -> u = v.
Proof.
  intros m l s F R. destruct (v_l (runs_inv (inv_init m) F R)) as [L (LU & LA & PW & G)]. rewrite LU. split.
  - rewrite map_map. cbn. clear LU LA R. induction L as [|x L IH]; cbn; [constructor|]. cbn in PW. destruct PW as [P Q]. constructor; [|apply IH; auto; intros; apply G; cbn; auto].
    rewrite in_map_iff. intros [y [E Y]]. pose proof (good_fn (G x (or_introl eq_refl))). pose proof (good_fn (G y (or_intror Y))). destruct (P y Y); lia.
  - intros u v x U V IU IV. apply in_map_iff in U, V. destruct U as [y [<- Y]], V as [z [<- Z]]. cbn in IU, IV.
    pose proof (good_fn (G y Y)). pose proof (good_fn (G z Z)). destruct (@pairwise_in _ y z PW Y Z) as [<-|A]; auto. unfold apart in A. lia.
Qed.
(** A byte of a block the user holds changes only when the user writes it: not by other allocations, deallocations or writes. *)
Theorem adaptor_keeps_contents_partial : forall m l s c s' u x, fits (l ++ [c]) -> runs l (init m) = Some s -> step s c = Some s' ->
  In u (usr s) -> inside x u -> mem s' x = mem s x \/ exists p b k off v, c = AWrite p b k off v /\ x = p + off /\ u = (p, b, k).
Proof.
  intros m l s c s' u x F R H U IX. assert (F1 : fits l) by (intros b k a j X; apply (F b k a j); apply in_app_iff; auto).
  destruct (v_l (runs_inv (inv_init m) F1 R)) as [L (LU & LA & PW & G)]. rewrite LU in U. apply in_map_iff in U. destruct U as [y [<- Y]]. cbn in IX. pose proof (good_fn (G y Y)) as GY.
  destruct c as [b k a junk|b k|p b k off v|p b k|z v]; cbn -[W] in H.
  - left. match type of H with (if ?c then _ else _) = _ => destruct c eqn:E; [|discriminate] end. injection H as <-.
    rewrite !andb_true_iff in E. rewrite !Z.leb_le, !Z.ltb_lt in E. destruct E as [[[[[[E1 E2] E3] E4] E5] E6] E7].
    assert (FF : b + 2 ^ k - 1 + 8 < W) by (apply (F b k a junk); apply in_app_iff; cbn; auto). pose proof (@pow_lt k ltac:(lia)) as PK.
    assert (N : up_size b k = b + 2 ^ k + 7) by (apply up_size_fits; lia). unfold allocate. rewrite N in *.
    destruct (@align_ok b k a (b + 2 ^ k + 7)) as [p (P1 & P2 & P3)]; [lia|lia|lia|lia|lia|lia|]. rewrite P1. cbn [mem].
    rewrite forallb_forall in E7. specialize (E7 (fa y)). rewrite LA in E7. specialize (E7 (in_map _ _ _ Y)). unfold disjb in E7. rewrite orb_true_iff, !Z.leb_le in E7. cbn in E7.
    unfold store. rewrite store_out by (cbn; lia). unfold inb. cbn. destruct (Z.leb_spec a x); cbn; auto. destruct (Z.ltb_spec x (a + (b + 2 ^ k + 7))); auto; lia.
  - injection H as <-. auto.
  - destruct (umem (p, b, k) (usr s)) eqn:U; [|discriminate]. cbn in H. destruct (Z.leb_spec 0 off) as [O1|]; [|discriminate]. destruct (Z.ltb_spec off b) as [O2|]; [|discriminate]. injection H as <-. cbn. unfold mset.
    destruct (Z.eqb_spec x (p + off)) as [E|]; auto. right. exists p, b, k, off, v. do 2 (split; auto).
    apply umem_spec in U. rewrite LU in U. apply in_map_iff in U. destruct U as [z [Z1 Z2]]. injection Z1 as <- <- <-. pose proof (good_fn (G z Z2)).
    destruct (@pairwise_in _ y z PW Y Z2) as [<-|A]; auto. unfold apart in A. lia.
  - destruct (umem (p, b, k) (usr s)) eqn:U; [|discriminate]. injection H as <-. auto.
  - left. destruct (existsb (inb z) (ups s)) eqn:E; [discriminate|]. injection H as <-. cbn. unfold mset. destruct (Z.eqb_spec x z) as [->|]; auto. exfalso.
    assert (X : existsb (inb z) (ups s) = true); [|congruence]. apply existsb_exists. exists (fa y). rewrite LA. split; [apply in_map; auto|].
    unfold inb. cbn. rewrite andb_true_iff, Z.leb_le, Z.ltb_lt. lia.
Qed.
(** Everything taken from upstream is given back with its own address and size, once; what has not been given back is live; and with all of the user's blocks returned, all has been given back. *)
Theorem adaptor_gives_back_partial : forall m l s, fits l -> runs l (init m) = Some s ->
  ~ In EBad (log s) /\ (forall a n, times (EUpFree a n) (log s) <= times (EUpAlloc a n) (log s))%nat /\
  length (ups s) = length (usr s) /\ (usr s = [] -> forall a n, times (EUpFree a n) (log s) = times (EUpAlloc a n) (log s)).
Proof.
  intros m l s F R. destruct (runs_inv (inv_init m) F R) as [[L (LU & LA & PW & G)] B NB]. split; auto. split; [intros a n; rewrite B; lia|]. split; [rewrite LU, LA, !map_length; auto|].
  intros U a n. rewrite B, LA. rewrite LU in U. apply map_eq_nil in U. rewrite U. cbn. lia.
Qed.
(** Returning a block gives back the upstream block it lies in. *)
Theorem adaptor_gives_back_own_partial : forall m l s p b k s', fits l -> runs l (init m) = Some s -> step s (AFree p b k) = Some s' ->
  exists a n, log s' = EUpFree a n :: EFree p b k :: log s /\ In (a, n) (ups s) /\ a <= p /\ p + b <= a + n.
Proof.
  intros m l s p b k s' F R H. destruct (runs_inv (inv_init m) F R) as [[L (LU & LA & PW & G)] B NB]. cbn in H.
  destruct (umem (p, b, k) (usr s)) eqn:U; [|discriminate]. injection H as <-.
  apply umem_spec in U. rewrite LU in U. apply in_map_iff in U. destruct U as [x [X1 X2]]. injection X1 as <- <- <-. pose proof (good_fn (G x X2)).
  assert (GX' := G x X2). destruct GX' as (G1 & G2 & G3 & G4 & G5 & G6 & G7 & G8). unfold deallocate. rewrite G8. pose proof (pow_lt G2) as PK. rewrite up_size_fits by (unfold fn in *; try tauto; lia).
  change (pb x + 2 ^ pk x + 7) with (fn x). change (pa x, fn x) with (fa x). assert (AI : In (fa x) (ups s)) by (rewrite LA; apply in_map; auto). rewrite (proj2 (amem_spec _ _) AI). cbn.
  exists (pa x), (fn x). split; auto. split; auto. lia.
Qed.
(** Refuted without the proviso: a request that is too large should fail; instead a small block is taken from upstream and the adaptor writes outside of it. *)
Theorem adaptor_overflow_refuted : exists m l s a n, runs l (init m) = Some s /\ In (AAlloc (2 ^ 64 - 8) 3 a m) l /\ In (EUpAlloc a n) (log s) /\ n < 8 /\ In EBad (log s).
Proof. exists (fun _ => 0), [AAlloc (2 ^ 64 - 8) 3 4096 (fun _ => 0)]. eexists. exists 4096, 7. split; [vm_compute; reflexivity|]. vm_compute. intuition auto. Qed.
(** Examples: two blocks, a write, one is returned. *)
Example two_blocks : option_map (fun s => (rev (log s), usr s, map (mem s) [4112; 4113; 8224])) (runs [AAlloc 20 4 4100 (fun _ => 0); AAlloc 16 6 8193 (fun _ => 255); AWrite 4112 20 4 0 7; AWrite 8256 16 6 15 9; AFree 8256 16 6; AScribble 8224 3; AAllocThrow 5 0] (init (fun _ => 1)))
  = Some ([EUpAlloc 4100 43; EAlloc 20 4 4112; EUpAlloc 8193 87; EAlloc 16 6 8256; EFree 8256 16 6; EUpFree 8193 87; EThrow], [(4112, 20, 4)], [7; 0; 3]).
Proof. vm_compute. reflexivity. Qed.
