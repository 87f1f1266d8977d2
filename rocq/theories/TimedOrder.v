(** C47: the order in which timed_thread_context completes operations. *)
From Coq Require Import List ZArith Bool Arith Lia Sorted.
From Verif Require Import Conc MpscModel MpscProofs MpscProperties TimedModel TimedProofs TimedProperties.
Import ListNotations.
Set Implicit Arguments.
Open Scope Z_scope.
Arguments comps : simpl never.

(** ** A list in which [i] comes before [j] *)
Definition prec (i j : nat) (l : list nat) : Prop := exists a b, l = a ++ i :: b /\ ~ In j a.

Lemma prec_cons i j k l : prec i j (k :: l) <-> i = k \/ (k <> j /\ prec i j l).
Proof.
  split.
  - intros [[|x a] [b [E N]]]; simpl in E; injection E as -> E; [auto|].
    destruct (Nat.eq_dec i x); auto. right. split; [intros ->; apply N; left; reflexivity|].
    exists a, b. split; auto. intros H; apply N; right; exact H.
  - intros [->|[N [a [b [-> M]]]]].
    + exists [], l. split; [reflexivity|intros []].
    + exists (k :: a), b. split; [reflexivity|]. simpl. intros [|]; auto.
Qed.
Lemma prec_nil i j : ~ prec i j [].
Proof. intros [[|] [b [E _]]]; discriminate. Qed.
Lemma prec_app i j l r : prec i j l -> prec i j (l ++ r).
Proof. intros [a [b [-> N]]]. exists a, (b ++ r). rewrite <- app_assoc. auto. Qed.
Lemma prec_in i j l r : In i l -> ~ In j l -> prec i j (l ++ r).
Proof.
  intros H N. apply prec_app. apply in_split in H. destruct H as [a [b ->]]. exists a, b. split; auto.
  intros G. apply N. apply in_or_app. auto.
Qed.
Lemma prec_app_r i j l r : ~ In j l -> prec i j r -> prec i j (l ++ r).
Proof. intros N [a [b [-> M]]]. exists (l ++ a), b. rewrite app_assoc. split; auto. rewrite in_app_iff. tauto. Qed.
Lemma prec_split i j l r : prec i j (l ++ r) -> prec i j l \/ (~ In j l /\ prec i j r).
Proof.
  induction l as [|x l IH]; [right; split; auto|]. intros H. cbn [app] in H. apply prec_cons in H.
  destruct H as [->|[N H]]; [left; apply prec_cons; auto|]. destruct (IH H) as [G|[G1 G2]].
  - left. apply prec_cons. auto.
  - right. split; auto. simpl. intros [|]; auto.
Qed.
Lemma prec_mem i j l : prec i j l -> In i l.
Proof. intros [a [b [-> _]]]. apply in_elt. Qed.
Lemma prec_remove i j k l r : k <> i -> prec i j (l ++ r) -> prec i j (remove Nat.eq_dec k l ++ r).
Proof.
  intros N. induction l as [|x l IH]; simpl; auto. intros H. apply prec_cons in H.
  destruct (Nat.eq_dec k x) as [->|M].
  - destruct H as [H|[_ H]]; [congruence|auto].
  - cbn [app]. apply prec_cons. destruct H as [H|[H1 H]]; auto.
Qed.

(** ** The heap is sorted by time *)
Definition le_tm (f : nat -> Z) (a b : nat) : Prop := f a <= f b.
Fixpoint sorted (f : nat -> Z) (l : list nat) : Prop :=
  match l with [] => True | a :: r => (forall b, In b r -> f a <= f b) /\ sorted f r end.
Lemma insert_in f i h x : In x (insert f i h) <-> x = i \/ In x h.
Proof.
  induction h as [|j h IH]; simpl; [intuition congruence|]. destruct (f j <=? f i); simpl; rewrite ?IH; intuition congruence.
Qed.
Lemma insert_sorted f i h : sorted f h -> sorted f (insert f i h).
Proof.
  induction h as [|j h IH]; simpl; [intros _; split; [intros b []|exact I]|].
  intros [A B]. destruct (f j <=? f i) eqn:E; simpl.
  - split; [|auto]. intros b Hb. apply insert_in in Hb. destruct Hb as [->|Hb]; [lia|auto].
  - apply Z.leb_gt in E. split; [|auto]. intros b [<-|Hb]; [lia|]. specialize (A _ Hb). lia.
Qed.
Lemma remove_sorted f k h : sorted f h -> sorted f (remove Nat.eq_dec k h).
Proof.
  induction h as [|j h IH]; simpl; auto. intros [A B]. destruct (Nat.eq_dec k j); auto. simpl. split; auto.
  intros b Hb. apply in_remove in Hb. destruct Hb. auto.
Qed.
Lemma sorted_ext f g h : (forall x, In x h -> f x = g x) -> sorted f h -> sorted g h.
Proof.
  induction h as [|j h IH]; simpl; auto. intros E [A B]. split.
  - intros b Hb. rewrite <- !E by auto. auto.
  - apply IH; auto.
Qed.
Lemma prec_insert f i j k h r : sorted f h -> i <> j -> (j = k -> f i <= f k) ->
  prec i j (h ++ k :: r) -> prec i j (insert f k h ++ r).
Proof.
  intros S N F. induction h as [|x h IH]; cbn [app insert].
  - intros H. exact H.
  - destruct S as [A S]. intros H. destruct (f x <=? f k) eqn:E; cbn [app].
    + apply prec_cons. apply prec_cons in H. destruct H as [H|[H1 H]]; auto.
    + apply Z.leb_gt in E. apply prec_cons.
      destruct (Nat.eq_dec i k) as [->|Nk]; [left; reflexivity|]. right. 
      destruct (Nat.eq_dec k j) as [->|Nj].
      * exfalso. specialize (F eq_refl). apply prec_cons in H. destruct H as [->|[_ H]]; [lia|].
        apply prec_split in H. destruct H as [H|[_ H]].
        { apply prec_mem in H. specialize (A _ H). lia. }
        apply prec_cons in H. destruct H as [H|[H _]]; congruence.
      * split; auto. change (x :: h ++ r) with ((x :: h) ++ r). change (x :: h ++ k :: r) with ((x :: h) ++ k :: r) in H.
        apply prec_split in H. destruct H as [H|[H1 H2]]; [apply prec_app; exact H|].
        apply prec_app_r; auto. apply prec_cons in H2. destruct H2 as [H2|[_ H2]]; [congruence|exact H2].
Qed.

(** ** Who is next *)
Definition sched (l : list nat) : list nat := map op_of (filter (fun n => negb (is_stop n)) l).
Definition firing (r : rpc) : list nat := match r with RX i _ | RXc i _ => [i] | _ => [] end.
Definition command (r : rpc) : list nat := match r with RCmd n => sched [n] | _ => [] end.
Definition line (s : state) : list nat :=
  firing (rp s) ++ heap s ++ command (rp s) ++ sched (nonstub (chain (mq s))).

(** start() of [i] had returned when start() of [j] was called *)
Definition bef (i j : nat) (l : list event) : Prop := exists a b, l = a ++ EStart j :: b /\ In (ERet i) b.

Lemma bef_cons i j e l : bef i j (e :: l) <-> bef i j l \/ (e = EStart j /\ In (ERet i) l).
Proof.
  split.
  - intros [[|x a] [b [E H]]]; simpl in E; injection E as -> ->; [auto|]. left. exists a, b. auto.
  - intros [[a [b [-> H]]]|[-> H]]; [exists (e :: a), b; auto|exists [], l; auto].
Qed.

Definition excused (s : state) (i : nat) : Prop := (0 < comps i (log s))%nat \/ In (EReq i) (log s).
Definition ord (s : state) : Prop :=
  closing (rp s) = true \/
  (sorted (time_of s) (heap s) /\
   (forall i, In (ERet i) (log s) -> excused s i \/ In i (line s)) /\
   (forall i j, bef i j (log s) -> i <> j -> time_of s i <= time_of s j -> excused s i \/ prec i j (line s))).

Lemma thr0 s : reachable s -> nth_error (thr (mq s)) 0 = Some Idle.
Proof.
  intros R. induction R as [l c|s a s' R IH H] using reach_ind; [reflexivity|].
  assert (U : forall i p, nth_error (upd (thr (mq s)) (nodeS i) p) 0 = Some Idle /\ nth_error (upd (thr (mq s)) (nodeK i) p) 0 = Some Idle).
  { intros i p. unfold nodeS, nodeK. destruct (thr (mq s)); simpl in *; auto. }
  destruct a; cbn [step] in H; unfold s_step, k_step, r_step, drop_ref, end_op in H; ds H.
  all: repeat match goal with E : push_step _ _ = Some _ |- _ => apply push_cases in E;
     destruct E as [m' [E1' [E2' [E3' [q1 [q2 [q3 [q4 [q5 ->]]]]]]]]] end.
  all: repeat match goal with E : MpscModel.step _ (APush _) _ = Some _ |- _ => apply q_push in E; destruct E as [E1' [E2' [E3' [E4' [E5' [q4 E6']]]]]] end.
  all: repeat match goal with E : MpscModel.step _ APop _ = Some _ |- _ => apply q_pop in E; destruct E as [E1' [E2' [q4 [E4' E5']]]] end.
  all: repeat match goal with E : MpscModel.step _ ACons _ = Some _ |- _ => apply (q_cons (i_mq (reach_inv R))) in E; destruct E as [q4 [E4' E5']] end.
  all: try match goal with H : finish _ _ _ _ = Some _ |- _ => unfold finish in H; pr;
       match type of H with match reset ?k with _ => _ end = _ => destruct (reset k) eqn:Rk; [|discriminate H] end end.
  all: inj; repeat match goal with |- context [if ?b then _ else _] => destruct b end; pr; auto.
  all: rewrite q4; auto; apply U.
Qed.

(** what is in use is in the queue unless its push has not reached the exchange *)
Lemma in_chain s : reachable s -> forall n, busy (mq s) n = true -> (0 < n)%nat ->
  (forall t p, nth_error (thr (mq s)) t = Some p -> owner p = Some n -> exists q, p = PLink q n) ->
  In n (nonstub (chain (mq s))).
Proof.
  intros R n B N H. pose proof (MpscProofs.reachable_inv (i_mq (reach_inv R))) as J.
  assert (Nn : n <> stub) by (unfold stub; lia).
  pose proof (i_own J Nn) as O. rewrite B in O.
  assert (S0 : sumz (wown n) (thr (mq s)) = 0).
  { apply sumz_zero. intros p Hp. apply In_nth_error in Hp. destruct Hp as [t Ht].
    destruct p as [|x|x|q x]; simpl; auto; destruct (Nat.eqb_spec n x); auto; subst x;
      destruct (H _ _ Ht eq_refl) as [q E]; discriminate. }
  rewrite S0 in O. assert (G : In n (chain (mq s))) by (apply zc_in; lia).
  unfold nonstub. apply filter_In. split; auto. destruct (Nat.eqb_spec n stub); auto.
Qed.
Lemma owner_node s : reachable s -> forall t p n, nth_error (thr (mq s)) t = Some p -> owner p = Some n -> t = n /\
  exists i o, op s i = Some o /\ (n = nodeS i /\ sp o = SP \/ n = nodeK i /\ kp o = KP).
Proof.
  intros R t p n Ht Ow. pose proof (reach_inv R) as I.
  destruct t as [|t']. { rewrite (thr0 R) in Ht. injection Ht as <-. discriminate. }
  assert (L : (S t' < length (thr (mq s)))%nat) by (apply nth_error_Some; congruence).
  rewrite (i_len I) in L. destruct (@node_cases (S t') (length (ops s))) as [i [Hi [E|E]]]; [lia|..];
    assert (Ho : exists o, nth_error (ops s) i = Some o) by
      (destruct (nth_error (ops s) i) eqn:G; eauto; apply nth_error_None in G; lia); destruct Ho as [o Ho].
  - rewrite E in Ht. pose proof (i_ts I _ Ho Ht) as G. rewrite Ow in G. destruct (sp o) eqn:Es; simpl in G; try discriminate.
    injection G as ->. split; auto. exists i, o. auto.
  - rewrite E in Ht. pose proof (i_tk I _ Ho Ht) as G. rewrite Ow in G. destruct (kp o) eqn:Es; simpl in G; try discriminate.
    injection G as ->. split; auto. exists i, o. auto.
Qed.
Lemma nodeS_pos i : (0 < nodeS i)%nat. Proof. unfold nodeS; lia. Qed.
Lemma nodeK_pos i : (0 < nodeK i)%nat. Proof. unfold nodeK; lia. Qed.
Lemma chain_S s : reachable s -> forall i o, op s i = Some o -> sp o <> SP -> busy (mq s) (nodeS i) = true ->
  In (nodeS i) (nonstub (chain (mq s))).
Proof.
  intros R i o Ho N B. apply (in_chain R B (nodeS_pos i)). intros t p Ht Ow.
  destruct (owner_node R _ Ht Ow) as [_ [j [o' [Ho' [[E G]|[E G]]]]]].
  - assert (i = j) by (apply Nat.eqb_eq; rewrite <- nodeS_inj; apply Nat.eqb_eq; exact E). subst. congruence.
  - exfalso. pose proof (nodeSK i j) as X. rewrite E, Nat.eqb_refl in X. discriminate.
Qed.
Lemma sched_in i l : In (nodeS i) l -> In i (sched l).
Proof.
  intros H. unfold sched. apply in_map_iff. exists (nodeS i). split; [apply op_of_S|].
  apply filter_In. rewrite stop_S. auto.
Qed.
Lemma in_sched i l N : (forall n, In n l -> (0 < n <= 2 * N)%nat) -> In i (sched l) -> In (nodeS i) l.
Proof.
  intros B H. unfold sched in H. apply in_map_iff in H. destruct H as [n [E H]]. apply filter_In in H. destruct H as [H G].
  destruct (@node_cases _ _ (B _ H)) as [k [_ [->| ->]]]; [rewrite op_of_S in E; subst; exact H|]. rewrite stop_K in G. discriminate.
Qed.
Lemma chain_bd s : reachable s -> forall n, In n (nonstub (chain (mq s))) -> (0 < n <= 2 * length (ops s))%nat /\ busy (mq s) n = true.
Proof.
  intros R n H. unfold nonstub in H. apply filter_In in H. destruct H as [H1 H2].
  assert (B : busy (mq s) n = true).
  { apply (chain_busy (MpscProofs.reachable_inv (i_mq (reach_inv R))) H1).
    destruct (Nat.eqb_spec n stub); [discriminate|assumption]. }
  split; auto. apply (i_bd (reach_inv R)). auto.
Qed.

(** who is in the line has been started and is not completed *)
Lemma line_started s : reachable s -> forall i, In i (line s) -> 
  exists o, op s i = Some o /\ sp o <> S0 /\ sp o <> S1.
Proof.
  intros R i H. pose proof (reach_inv R) as I.
  assert (Len : (i < length (ops s))%nat /\ 0 < rM (rp s) i + rF (rp s) i + bz (busy (mq s) (nodeS i)) + occ i (heap s)).
  { pose proof (rM_nn (rp s) i); pose proof (rF_nn (rp s) i); pose proof (bz_nn (busy (mq s) (nodeS i))); pose proof (occ_nn i (heap s)).
    unfold line in H. rewrite !in_app_iff in H. destruct H as [H|[H|[H|H]]].
    - assert (G : rop (rp s) = Some i) by (destruct (rp s); simpl in H; try tauto; destruct H as [->|[]]; reflexivity).
      split; [exact (i_ri I G)|]. destruct (rp s); simpl in *; try tauto; destruct H as [->|[]]; rewrite ?bz_refl in *; lia.
    - split; [exact (i_hd I _ H)|]. apply occ_in in H. lia.
    - destruct (rp s) eqn:E; simpl in H; try tauto.
      assert (B := i_bd I (or_intror E)). assert (G : In (nodeS i) [n]).
      { apply (@in_sched i [n] (length (ops s))); auto. intros k [<-|[]]. exact B. }
      destruct G as [->|[]]. split; [|cbn [rM]; rewrite bz_refl; lia].
      unfold nodeS in B. lia.
    - assert (G : In (nodeS i) (nonstub (chain (mq s)))).
      { apply in_sched with (N := length (ops s)); auto. intros n Hn. apply (chain_bd R _ Hn). }
      destruct (chain_bd R _ G) as [B1 B2]. split; [unfold nodeS in B1; lia|]. rewrite B2. simpl. lia. }
  destruct Len as [Li Lz]. apply nth_error_Some in Li. destruct (nth_error (ops s) i) as [o|] eqn:E; [|congruence].
  exists o. split; [exact E|]. pose proof (i_ok I _ E) as K. pose proof (sM_nn (sp o)). pose proof (sF_nn (sp o)).
  pose proof (kF_nn (kp o)). pose proof (rF_nn (rp s) i). pose proof (rM_nn (rp s) i). pose proof (bz_nn (busy (mq s) (nodeS i))). pose proof (occ_nn i (heap s)).
  unfold tokM, tokT, TimedProofs.last, done, ok in K. split; intros G; rewrite G in *; lia.
Qed.

(** whose start() has returned is in the line unless excused *)
Lemma ret_line s : reachable s -> closing (rp s) = false -> forall i o, op s i = Some o ->
  (match sp o with S6 | SG _ | SD => True | _ => False end) -> excused s i \/ In i (line s).
Proof.
  intros R Cl i o Ho Hs. pose proof (reach_inv R) as I. pose proof (i_ok I _ Ho) as K.
  assert (KK : 0 < tokM s i o \/ 0 < tokT s i o \/ 0 < TimedProofs.last s i o + done s i).
  { unfold ok in K. destruct (sp o); try contradiction; lia. }
  assert (EK : busy (mq s) (nodeK i) = true \/ stopcmd (rp s) i = true -> excused s i).
  { intros G. right. apply (i_kr I _ Ho). pose proof (i_kt I _ Ho G) as X. destruct (kp o); tauto. }
  unfold tokM, tokT, TimedProofs.last, done in KK.
  assert (sM (sp o) = 0 /\ sF (sp o) = 0) as [Z1 Z2] by (destruct (sp o); try contradiction; auto).
  rewrite Z1, Z2 in KK.
  assert (BZ : forall b, b = true \/ bz b = 0) by (intros []; auto).
  destruct (BZ (busy (mq s) (nodeK i))) as [B|B]; [left; apply EK; auto|].
  destruct (BZ (stopcmd (rp s) i)) as [B'|B']; [left; apply EK; auto|].
  assert (kT (kp o) = 0 \/ excused s i) as [Z3|X]; [|rewrite Z3 in KK|left; exact X].
  { destruct (kp o) eqn:Ek; auto; right; right; apply (i_kr I _ Ho); rewrite Ek; exact Logic.I. }
  assert (kF (kp o) = 0 \/ excused s i) as [Z4|X]; [|rewrite Z4 in KK|left; exact X].
  { destruct (kp o) eqn:Ek; auto; right; right; apply (i_kr I _ Ho); rewrite Ek; exact Logic.I. }
  destruct (comps i (log s)) eqn:Ec; [|left; left; lia].
  right. unfold line. rewrite !in_app_iff.
  destruct (BZ (busy (mq s) (nodeS i))) as [B3|B3].
  - right; right; right. apply sched_in. apply (chain_S R _ Ho); auto. intros E. rewrite E in Hs. exact Hs.
  - destruct (Z.eq_dec (occ i (heap s)) 0) as [E0|E0]; [|right; left; apply occ_in; pose proof (occ_nn i (heap s)); lia].
    rewrite B, B3, E0 in KK.
    destruct (rp s) eqn:Er; cbn [rM rT rF stopcmd closing firing command] in *; try discriminate Cl; try lia.
    + (* RCmd *) right; right; left. apply sched_in. left.
      destruct (Nat.eqb_spec n (nodeS i)) as [->|]; [reflexivity|]. destruct (n =? nodeK i)%nat; cbn [bz] in *; lia.
    + left. destruct (Nat.eqb_spec i0 i) as [->|]; [left; reflexivity|cbn [bz] in *; lia].
    + left. destruct (Nat.eqb_spec i0 i) as [->|]; [left; reflexivity|cbn [bz] in *; lia].
Qed.

Lemma ord_frame s s' : ord s -> closing (rp s) = false ->
  (forall i, time_of s' i = time_of s i) -> 
  (sorted (time_of s) (heap s) -> sorted (time_of s) (heap s')) ->
  (forall i, excused s i -> excused s' i) ->
  (forall i, In (ERet i) (log s') -> In (ERet i) (log s) \/ excused s' i \/ In i (line s')) ->
  (forall i j, bef i j (log s') -> bef i j (log s) \/ (In (ERet i) (log s) /\ ~ In j (line s'))) ->
  (forall i, In i (line s) -> excused s' i \/ In i (line s')) ->
  (forall i j, sorted (time_of s) (heap s) -> i <> j -> time_of s i <= time_of s j -> prec i j (line s) -> excused s' i \/ prec i j (line s')) ->
  ord s'.
Proof.
  intros [O|[O1 [O2 O3]]] Cl T Sd X R B L P; [congruence|]. right. split; [|split].
  - apply sorted_ext with (f := time_of s); auto.
  - intros i H. destruct (R _ H) as [G|[G|G]]; auto. destruct (O2 _ G) as [K|K]; auto.
  - intros i j H N E. rewrite !T in E. destruct (B _ _ H) as [G|[G1 G2]].
    + destruct (O3 _ _ G N E) as [K|K]; auto.
    + destruct (O2 _ G1) as [K|K]; auto. destruct (L _ K) as [M|M]; auto.
      right. rewrite <- (app_nil_r (line s')). apply prec_in; auto.
Qed.

Lemma excused_mono s s' l : log s' = l ++ log s -> forall i, excused s i -> excused s' i.
Proof.
  intros E i [H|H]; [left|right]; rewrite E.
  - unfold comps in *. rewrite cnt_app. lia.
  - apply in_or_app. auto.
Qed.
Definition plain (e : event) : Prop := match e with EStart _ | ERet _ => False | _ => True end.
Lemma bef_plain i j e l : plain e -> bef i j (e :: l) -> bef i j l.
Proof. intros P H. apply bef_cons in H. destruct H as [H|[-> _]]; [auto|contradiction]. Qed.

(** nothing moves *)
Lemma ord_same s s' : ord s -> (closing (rp s) = false \/ closing (rp s') = true) ->
  (forall i, time_of s' i = time_of s i) -> heap s' = heap s ->
  line s' = line s -> (log s' = log s \/ exists e, log s' = e :: log s /\ plain e) -> ord s'.
Proof.
  intros O C T H L G. destruct C as [C|C]; [|left; exact C].
  apply (@ord_frame _ _ O C T).
  - rewrite H; auto.
  - destruct G as [G|[e [G _]]]; [apply (@excused_mono s s' []); exact G|apply (@excused_mono s s' [e]); exact G].
  - intros i K. left. destruct G as [G|[e [G P]]]; rewrite G in K; auto. destruct K as [->|K]; auto. contradiction.
  - intros i j K. left. destruct G as [G|[e [G P]]]; rewrite G in K; auto. exact (bef_plain P K).
  - intros i K. right. rewrite L. exact K.
  - intros i j _ _ _ K. right. rewrite L. exact K.
Qed.

Lemma push_cases2 s t s1 r : push_step t s = Some (s1, r) ->
  exists m, MpscModel.step t AProd (mq s) = Some m /\ s1 = set_mq s m /\
  (chain m = chain (mq s) \/ exists p n, nth_error (thr (mq s)) t = Some p /\ owner p = Some n /\ chain m = chain (mq s) ++ [n]).
Proof.
  unfold push_step. destruct (MpscModel.step t AProd (mq s)) as [m|] eqn:E; [|discriminate].
  intros H. injection H as <- <-. exists m. split; auto. split; auto.
  destruct (q_prod _ _ E) as [A [B [p [p' [C [D F]]]]]]. destruct p; try contradiction; try (left; tauto).
  right. exists (PXchg n), n. split; auto. split; auto. tauto.
Qed.
Lemma step_time s a s' : step a s = Some s' -> forall j, time_of s' j = time_of s j.
Proof.
  intros H j. 
  destruct a; cbn [step] in H; unfold s_step, k_step, r_step, drop_ref, end_op in H; ds H.
  all: repeat match goal with E : push_step _ _ = Some _ |- _ => apply push_cases2 in E; destruct E as [m' [E1' [-> E2']]] end.
  all: try match goal with H : finish _ _ _ _ = Some _ |- _ => unfold finish in H; pr;
       match type of H with match reset ?k with _ => _ end = _ => destruct (reset k) eqn:Rk; [|discriminate H] end end.
  all: inj; try reflexivity; repeat match goal with |- context [if ?b then _ else _] => destruct b end.
  all: unfold time_of; pr; match goal with E : nth_error (ops _) ?i = Some _ |- _ => rewrite (nth_upd _ _ _ _ E); destruct (Nat.eqb_spec i j); subst; [rewrite E; reflexivity|reflexivity] end.
Qed.

Ltac same O H := 
  apply (@ord_same _ _ O); [first [left; reflexivity|left; assumption|left; rws; reflexivity|right; reflexivity]|exact (@step_time _ _ _ H)|reflexivity|
      unfold line; pr; rws; try reflexivity |
      first [left; reflexivity|right; eexists; split; [reflexivity|exact Logic.I]]].

Lemma sched_app a b : sched (a ++ b) = sched a ++ sched b.
Proof. unfold sched. rewrite filter_app, map_app. reflexivity. Qed.

Lemma ord_push s s' m t : reachable s -> ord s -> closing (rp s) = false ->
  (chain m = chain (mq s) \/ exists p n, nth_error (thr (mq s)) t = Some p /\ owner p = Some n /\ chain m = chain (mq s) ++ [n]) ->
  (exists a, step a s = Some s') -> mq s' = m -> rp s' = rp s -> heap s' = heap s -> log s' = log s -> ord s'.
Proof.
  intros R O Cl Ch [a H0] M Rp Hp L. destruct Ch as [Ch|[p [n [Ht [Ow Ch]]]]].
  - apply (@ord_same _ _ O); auto. { exact (@step_time _ _ _ H0). } unfold line. rewrite M, Rp, Hp, Ch. reflexivity.
  - assert (N : n <> stub).
    { destruct (owner_node R _ Ht Ow) as [_ [i [o [_ [[-> _]|[-> _]]]]]]; unfold nodeS, nodeK, stub; lia. }
    assert (Ln : line s' = line s ++ sched [n]).
    { unfold line. rewrite M, Rp, Hp, Ch, nonstub_app. rewrite <- !app_assoc. do 3 f_equal.
      unfold nonstub at 2. simpl. destruct (Nat.eqb_spec n stub); [contradiction|]. simpl negb. cbn iota. apply sched_app. }
    apply (@ord_frame _ _ O Cl (@step_time _ _ _ H0)).
    + rewrite Hp; auto.
    + apply (@excused_mono s s' []). exact L.
    + rewrite L; auto.
    + rewrite L; auto.
    + intros i K. right. rewrite Ln. apply in_or_app. auto.
    + intros i j _ _ _ K. right. rewrite Ln. apply prec_app. exact K.
Qed.
Lemma ord_ret s s' i : reachable s -> reachable s' -> ord s -> closing (rp s) = false -> (exists a, step a s = Some s') ->
  (exists o, op s' i = Some o /\ sp o = SD) -> line s' = line s -> rp s' = rp s -> heap s' = heap s -> log s' = ERet i :: log s -> ord s'.
Proof.
  intros R R' O Cl [a H0] [o [Ho Hs]] Ln Rp Hp L. apply (@ord_frame _ _ O Cl (@step_time _ _ _ H0)).
  - rewrite Hp; auto.
  - apply (@excused_mono s s' [ERet i]). exact L.
  - intros k K. rewrite L in K. destruct K as [K|K]; auto. injection K as ->. right.
    apply (ret_line R' ltac:(congruence) _ Ho). rewrite Hs. exact Logic.I.
  - intros k j K. rewrite L in K. apply bef_cons in K. destruct K as [K|[K _]]; [auto|discriminate].
  - rewrite Ln; auto.
  - rewrite Ln; auto.
Qed.

Lemma ord_inv s : reachable s -> ord s.
Proof.
  intros R. induction R as [l c|s a s' R O H] using reach_ind.
  - right. split; [exact Logic.I|]. split; [intros i []|]. intros i j [[|] [b [E _]]]; discriminate.
  - pose proof (reach_inv R) as I. pose proof H as H0. pose proof (reach_step _ R H) as R'.
    destruct (closing (rp s)) eqn:Cl.
    { left. destruct a; cbn [step] in H; unfold s_step, k_step, r_step, drop_ref, end_op in H; ds H.
      all: repeat match goal with E : push_step _ _ = Some _ |- _ => apply push_cases2 in E; destruct E as [m' [E1' [-> E2']]] end.
      all: try match goal with H : finish _ _ _ _ = Some _ |- _ => unfold finish in H; pr;
       match type of H with match reset ?k with _ => _ end = _ => destruct (reset k) eqn:Rk; [|discriminate H] end end.
      all: inj; repeat match goal with |- context [if ?b then _ else _] => destruct b end; pr; rws; try reflexivity; try discriminate; try assumption. }
    destruct a; cbn [step] in H; unfold s_step, k_step, r_step, drop_ref, end_op in H; ds H.
    all: try match goal with H : finish _ _ _ _ = Some _ |- _ => unfold finish in H; pr;
       match type of H with match reset ?k with _ => _ end = _ => destruct (reset k) eqn:Rk; [|discriminate H] end end.
    all: repeat match goal with E : push_step _ _ = Some _ |- _ => apply push_cases2 in E; destruct E as [m' [E1' [-> E2']]] end.
    all: inj; repeat match goal with |- context [if ?b then _ else _] => destruct b eqn:? end.
    all: try solve [same O H0].

    + (* AStart *) apply (@ord_frame _ _ O Cl (@step_time _ _ _ H0)); pr; auto.
      * apply (@excused_mono s _ [EStart i]). reflexivity.
      * intros k [K|K]; [discriminate K|auto].
      * intros k j K. apply bef_cons in K. destruct K as [K|[K1 K2]]; auto. right. split; auto.
        injection K1 as <-. intros K. destruct (line_started R _ K) as [o' [Ho [N _]]].
        unfold op in Ho. rewrite E in Ho. injection Ho as <-. contradiction.
    + (* push_back called *) apply q_push in E2. destruct E2 as [_ [_ [_ [Ch _]]]]. same O H0. rewrite Ch. reflexivity.
    + apply (@ord_push s _ m' _ R O Cl E2' (ex_intro _ _ H0)); reflexivity.
    + apply (@ord_push s _ m' _ R O Cl E2' (ex_intro _ _ H0)); reflexivity.
    + apply (@ord_push s _ m' _ R O Cl E2' (ex_intro _ _ H0)); reflexivity.
    + apply (@ord_ret s _ i R R' O Cl (ex_intro _ _ H0)); try reflexivity. unfold op; pr; eexists. split; [apply (nth_upd_same _ _ _ E)|reflexivity].
    + apply (@ord_ret s _ i R R' O Cl (ex_intro _ _ H0)); try reflexivity. unfold op; pr; eexists. split; [apply (nth_upd_same _ _ _ E)|reflexivity].
    + apply (@ord_ret s _ i R R' O Cl (ex_intro _ _ H0)); try reflexivity. unfold op; pr; eexists. split; [apply (nth_upd_same _ _ _ E)|reflexivity].
    + apply q_push in E2. destruct E2 as [_ [_ [_ [Ch _]]]]. same O H0. rewrite Ch. reflexivity.
    + apply (@ord_push s _ m' _ R O Cl E2' (ex_intro _ _ H0)); reflexivity.
    + apply (@ord_push s _ m' _ R O Cl E2' (ex_intro _ _ H0)); reflexivity.
    + apply (@ord_push s _ m' _ R O Cl E2' (ex_intro _ _ H0)); reflexivity.
    + (* pop_front called *) apply q_pop in E0. destruct E0 as [_ [_ [_ [Ch _]]]]. same O H0. rewrite Ch. reflexivity.
    + (* pop_front *) destruct (q_cons (i_mq I) E0) as [_ [_ Q]].
      destruct Q as [[_ [Ch [Q|[l [Q Ql]]]]]|[Q [n [Ql [_ [_ Ch]]]]]].
      * replace (match con s0 with CIdle => _ | _ => RPop end) with RPop in * by (destruct (con s0); congruence).
        same O H0. rewrite Ch. reflexivity.
      * rewrite Q, Ql in *. same O H0. rewrite Ch. reflexivity.
      * rewrite Q, Ql in *. same O H0. rewrite Ch. cbn [firing command app]. rewrite <- sched_app. reflexivity.
    + (* erase *)
      assert (Bd := i_bd I (or_intror E)). apply node_cases in Bd. destruct Bd as [k [Bk [->| ->]]]; [rewrite stop_S in E0; discriminate|].
      rewrite op_of_K in *.
      assert (X : excused (set_rp (set_heap s (remove Nat.eq_dec k (heap s))) (RT k)) k).
      { destruct (nth_error (ops s) k) as [o|] eqn:Ho; [|apply nth_error_None in Ho; lia]. right. pr.
        apply (i_kr I _ Ho). assert (Y := i_kt I _ Ho). rewrite E in Y. cbn [stopcmd] in Y. rewrite Nat.eqb_refl in Y.
        specialize (Y (or_intror eq_refl)). destruct (kp o); tauto. }
      assert (L1 : line s = heap s ++ sched (nonstub (chain (mq s)))).
      { unfold line. rewrite E. cbn [firing command app]. unfold sched at 1. cbn [filter]. rewrite stop_K. reflexivity. }
      apply (@ord_frame _ _ O ltac:(rewrite E; reflexivity) (@step_time _ _ _ H0)); pr; auto.
      * apply remove_sorted.
      * rewrite L1. intros j K. destruct (Nat.eq_dec j k) as [->|N]; [left; exact X|right]. unfold line; pr.
        cbn [firing command app]. rewrite in_app_iff in *. destruct K as [K|K]; auto. left. apply in_in_remove; auto.
      * rewrite L1. intros a j _ _ _ K. destruct (Nat.eq_dec a k) as [->|N]; [left; exact X|right]. unfold line; pr.
        cbn [firing command app]. apply prec_remove; auto.
    + (* not in the heap *)
      assert (Bd := i_bd I (or_intror E)). apply node_cases in Bd. destruct Bd as [k [Bk [->| ->]]]; [rewrite stop_S in E0; discriminate|].
      same O H0. cbn [firing command app]. unfold sched at 2. cbn [filter]. rewrite stop_K. reflexivity.
    + (* insert *)
      assert (Bd := i_bd I (or_intror E)). apply node_cases in Bd. destruct Bd as [k [Bk [->| ->]]]; [|rewrite stop_K in E0; discriminate].
      rewrite op_of_S in *.
      assert (L1 : line s = heap s ++ k :: sched (nonstub (chain (mq s)))).
      { unfold line. rewrite E. cbn [firing command app]. unfold sched at 1. cbn [filter]. rewrite stop_S. cbn [negb map app]. rewrite op_of_S. reflexivity. }
      apply (@ord_frame _ _ O ltac:(rewrite E; reflexivity) (@step_time _ _ _ H0)); pr; auto.
      * apply insert_sorted.
      * rewrite L1. intros j K. right. unfold line; pr. cbn [firing command app].
        rewrite in_app_iff in *. rewrite insert_in. simpl in K. intuition.
      * rewrite L1. intros a j Sd N T K. right. unfold line; pr. cbn [firing command app].
        apply prec_insert; auto. intros ->; exact T.
    + (* fire *) apply (@ord_frame _ _ O ltac:(rewrite E; reflexivity) (@step_time _ _ _ H0)); pr; auto.
      * rewrite E0. simpl. tauto.
      * intros k K. right. unfold line in *; pr. rewrite E, E0 in K. exact K.
      * intros k j _ _ _ K. right. unfold line in *; pr. rewrite E, E0 in K. exact K.
    + (* not the last reference *)
      assert (X : excused (set_rp (set_op s i (w_ref o (ref o - 1))) (RF t)) i).
      { right. pr. apply Z.eqb_neq in Heqb. pose proof (i_ok I _ E0) as K. unfold tokM, tokT, TimedProofs.last, done in K. rewrite E in K.
        cbn [rM rT rF] in K. rewrite bz_refl in K.
        pose proof (bz_nn (busy (mq s) (nodeS i))); pose proof (occ_nn i (heap s)); pose proof (sM_nn (sp o)).
        pose proof (sF_nn (sp o)); pose proof (kF_nn (kp o)).
        assert (T1 : 0 < kT (kp o) + bz (busy (mq s) (nodeK i))) by (unfold ok in K; destruct (sp o); lia).
        apply (i_kr I _ E0). destruct (busy (mq s) (nodeK i)) eqn:B.
        - pose proof (i_kt I _ E0 (or_introl B)) as Y. destruct (kp o); tauto.
        - cbn [bz] in T1. destruct (kp o); simpl in T1; try lia; exact Logic.I. }
      apply (@ord_frame _ _ O ltac:(rewrite E; reflexivity) (@step_time _ _ _ H0)); pr; auto.
      * unfold line. rewrite E. intros j [->|K]; auto.
      * unfold line. rewrite E. intros k j _ _ _ K. cbn [firing app] in K. apply prec_cons in K. destruct K as [->|[_ K]]; auto.
    + (* set_value *)
      assert (X : excused (set_rp (emit (set_op s i (w_kp o k)) (EComp i Value (clock s))) (RF t)) i).
      { left. pr. unfold comps. simpl. rewrite Nat.eqb_refl. lia. }
      apply (@ord_frame _ _ O ltac:(rewrite E; reflexivity) (@step_time _ _ _ H0)); pr; auto.
      * apply (@excused_mono s _ [EComp i Value (clock s)]). reflexivity.
      * intros j [K|K]; [discriminate K|auto].
      * intros a j K. left. apply (@bef_plain _ _ (EComp i Value (clock s))); [exact Logic.I|exact K].
      * unfold line. rewrite E. intros j [->|K]; auto.
      * unfold line. rewrite E. intros a j _ _ _ K. cbn [firing app] in K. apply prec_cons in K. destruct K as [->|[_ K]]; auto.
    + left. reflexivity.
Qed.

(** If start() of [i] had returned when [j] was started, and [i] is not scheduled
    for a later time than [j], then [i] completes before [j] does by set_value,
    unless stop was requested of [i]. *)
Theorem C47_completes_in_order : forall s, reachable s -> forall l1 l2 t i j oi oj,
  log s = l1 ++ EComp j Value t :: l2 -> bef i j l2 -> i <> j ->
  op s i = Some oi -> op s j = Some oj -> tm oi <= tm oj ->
  (exists x t', In (EComp i x t') l2) \/ In (EReq i) l2.
Proof.
  intros s R l1 l2 t i j oi oj L B N Hi Hj T.
  destruct (event_step R _ _ _ L) as [s1 [a [s2 [R1 [S1 [L1 [L2 [acts Hr]]]]]]]].
  assert (Tm : forall k, time_of s1 k = time_of s k).
  { intros k. rewrite <- (@step_time _ _ _ S1). clear - Hr. revert s2 Hr. induction acts as [|b r IH]; simpl; intros s2 Hr.
    - injection Hr as <-. reflexivity.
    - destruct (step b s2) as [s3|] eqn:E; [|discriminate]. rewrite <- (@step_time _ _ _ E). apply IH. exact Hr. }
  assert (Te : time_of s1 i <= time_of s1 j).
  { rewrite !Tm. unfold time_of. unfold op in *. rewrite Hi, Hj. exact T. }
  assert (F : exists t', rp s1 = RXc j t').
  { clear - S1 L1 L2. 
    assert (X : log s2 <> log s1 /\ forall e l, log s2 = e :: l -> e = EComp j Value t).
    { rewrite L2, L1. split; [intros X; apply (f_equal (@length _)) in X; simpl in X; lia|]. intros e l X. injection X as <- _. reflexivity. }
    clear L1 L2. destruct X as [X1 X2].
    destruct a; cbn [step] in S1; unfold s_step, k_step, r_step, drop_ref, end_op in S1; ds S1.
    all: repeat match goal with E : push_step _ _ = Some _ |- _ => apply push_cases2 in E; destruct E as [m' [E1' [-> E2']]] end.
    all: try match goal with H : finish _ _ _ _ = Some _ |- _ => unfold finish in H; pr;
       match type of H with match reset ?k with _ => _ end = _ => destruct (reset k) eqn:Rk; [|discriminate H] end end.
    all: inj; repeat match goal with X : context [if ?b then _ else _] |- _ => destruct b eqn:? end; pr; try congruence.
    all: specialize (X2 _ _ eq_refl); try discriminate X2; injection X2 as -> _; eauto. }
  destruct F as [t' F].
  destruct (ord_inv R1) as [O|[_ [_ O]]]; [rewrite F in O; discriminate|].
  rewrite L1 in O. destruct (O _ _ B N Te) as [[K|K]|K].
  - left. rewrite L1 in K. unfold comps in K. apply cnt_pos in K. destruct K as [e [K1 K2]].
    destruct e; try discriminate K2. apply Nat.eqb_eq in K2. subst. eauto.
  - right. rewrite L1 in K. exact K.
  - exfalso. unfold line in K. rewrite F in K. cbn [firing app] in K. apply prec_cons in K. destruct K as [K|[K _]]; congruence.
Qed.
