(** C47: what the run thread gets done when nobody is in the middle of start() or
    of a stop request. *)
From Coq Require Import List ZArith Bool Arith Lia.
From Verif Require Import Conc MpscModel MpscProofs MpscProperties TimedModel TimedProofs TimedProperties TimedOrder.
Import ListNotations.
Set Implicit Arguments.
Open Scope Z_scope.
Arguments comps : simpl never.

Definition settled (o : oper) : Prop :=
  (sp o = S0 \/ sp o = SD) /\ (kp o = KNone \/ kp o = KReg \/ kp o = KReqd).
Definition all_settled (s : state) : Prop := forall i o, op s i = Some o -> settled o.

(** [s'] is reached from [s] by the run thread alone, in no time. *)
Definition by_run (s s' : state) : Prop := exists k, runs (repeat AR k) s = Some s'.

Lemma by_refl s : by_run s s. Proof. exists 0%nat. reflexivity. Qed.
Lemma by_trans s s1 s2 : by_run s s1 -> by_run s1 s2 -> by_run s s2.
Proof. intros [k H] [m G]. exists (k + m)%nat. rewrite repeat_app, runs_app, H. exact G. Qed.
Lemma by_step s s1 : r_step s = Some s1 -> by_run s s1.
Proof. intros H. exists 1%nat. simpl. rewrite H. reflexivity. Qed.

(** what a step of the run thread leaves alone *)
Record keeps (s s' : state) : Prop := {
  k_set : all_settled s';
  k_clk : clock s' = clock s;
  k_stp : stopq s' = stopq s;
  k_es : In EStop (log s') -> In EStop (log s);
  k_len : length (ops s') = length (ops s);
  k_sp : forall i o', op s' i = Some o' -> exists o, op s i = Some o /\ sp o' = sp o /\ tm o' = tm o
}.
Lemma keeps_trans s s1 s2 : keeps s s1 -> keeps s1 s2 -> keeps s s2.
Proof.
  intros [A B C X D E] [A' B' C' X' D' E']. constructor; auto; try congruence.
  intros i o' H. destruct (E' _ _ H) as [o1 [H1 [H2 H3]]]. destruct (E _ _ H1) as [o [G1 [G2 G3]]].
  exists o. repeat split; congruence.
Qed.
Lemma keeps_refl s : all_settled s -> keeps s s.
Proof. intros H. constructor; auto. intros i o Ho. exists o. auto. Qed.

Lemma r_keeps s s' : all_settled s -> r_step s = Some s' -> keeps s s'.
Proof.
  intros A H. unfold r_step, drop_ref, end_op in H. ds H.
  all: try match goal with H : finish _ _ _ _ = Some _ |- _ => unfold finish in H; pr;
       match type of H with match reset ?k with _ => _ end = _ => destruct (reset k) eqn:Rk; [|discriminate H] end end.
  all: inj; repeat match goal with |- context [if ?b then _ else _] => destruct b end.
  all: constructor; pr; rewrite ?upd_length; auto.
  all: try (intros [G|G]; [discriminate G|exact G]).
  all: unfold all_settled, op in *; pr.
  all: try (intros j o' G; exists o'; auto; fail).
  all: intros j o' G; try (apply A in G; assumption).
  all: match goal with E : nth_error (ops ?x) _ = Some _, G : nth_error (upd (ops ?x) _ _) _ = _ |- _ => rewrite (nth_upd _ _ _ _ E) in G end.
  all: match type of G with (if ?a =? ?b then _ else _)%nat = _ => destruct (Nat.eqb_spec a b); [subst|] end; inj; eauto.
  all: try (apply A in G; assumption).
  all: match goal with E : nth_error (ops ?x) ?i = Some ?o |- settled (_ ?o _) => pose proof (A _ _ E) as [S1 S2] end.
  all: split; pr; auto.
  all: apply reset_cases in Rk; destruct Rk as [[-> _]|[_ ->]]; auto.
Qed.
Lemma by_keeps s s' : all_settled s -> by_run s s' -> keeps s s'.
Proof.
  intros A [k H]. revert s A H. induction k as [|k IH]; simpl; intros s A H.
  - injection H as <-. apply keeps_refl. exact A.
  - destruct (r_step s) as [s1|] eqn:E; [|discriminate]. pose proof (r_keeps A E) as K.
    exact (keeps_trans K (IH _ (k_set K) H)).
Qed.

Lemma settled_quiet s : reachable s -> all_settled s -> MpscProperties.quiet (mq s).
Proof.
  intros R A t p n H. destruct (owner_node R _ H eq_refl) as [_ [i [o [Ho [[_ G]|[_ G]]]]]];
    destruct (A _ _ Ho) as [[S1|S1] S2]; rewrite G in *; try discriminate; destruct S2 as [S2|[S2|S2]]; discriminate.
Qed.
Lemma chain_K s : reachable s -> forall i o, op s i = Some o -> kp o <> KP -> busy (mq s) (nodeK i) = true ->
  In (nodeK i) (nonstub (chain (mq s))).
Proof.
  intros R i o Ho N B. apply (in_chain R B (nodeK_pos i)). intros t p Ht Ow.
  destruct (owner_node R _ Ht Ow) as [_ [j [o' [Ho' [[E G]|[E G]]]]]].
  - exfalso. pose proof (nodeKS i j) as X. rewrite E, Nat.eqb_refl in X. discriminate.
  - assert (i = j) by (apply Nat.eqb_eq; rewrite <- nodeK_inj; apply Nat.eqb_eq; exact E). subst. congruence.
Qed.

Lemma lift k : forall m m' s, MpscProperties.runs (repeat (0%nat, ACons) k) m = Some m' -> con m <> CIdle -> con m' = CIdle ->
  mq s = m -> rp s = RPop ->
  by_run s (set_rp (set_mq s m') (match MpscModel.log m' with EDeq n :: _ => RCmd n | _ => RNow end)).
Proof.
  induction k as [|k IH]; intros m m' s H N C M P; cbn [repeat MpscProperties.runs] in H.
  - injection H as <-. contradiction.
  - destruct (MpscModel.step 0%nat ACons m) as [m1|] eqn:E; [|discriminate H].
    assert (E1 : r_step s = Some (set_rp (set_mq s m1) (match con m1 with CIdle => match MpscModel.log m1 with EDeq n :: _ => RCmd n | _ => RNow end | _ => RPop end))).
    { unfold r_step. rewrite P, M, E. reflexivity. }
    destruct k as [|k].
    + cbn [repeat MpscProperties.runs] in H. injection H as ->. rewrite C in E1. exact (by_step _ E1).
    + assert (N1 : con m1 <> CIdle).
      { intros X. cbn [repeat MpscProperties.runs] in H. cbn [MpscModel.step] in H. unfold cons_step in H. rewrite X in H. discriminate. }
      replace (match con m1 with CIdle => _ | _ => RPop end) with RPop in E1 by (destruct (con m1); congruence).
      eapply by_trans; [exact (by_step _ E1)|].
      exact (IH m1 m' (set_rp (set_mq s m1) RPop) H N1 C eq_refl eq_refl).
Qed.

Lemma pop_big s : reachable s -> all_settled s -> rp s = R0 -> exists m,
  by_run s (set_rp (set_mq s m) (match nonstub (chain (mq s)) with n :: _ => RCmd n | [] => RNow end)) /\
  nonstub (chain m) = tl (nonstub (chain (mq s))).
Proof.
  intros R A P. pose proof (i_mq (reach_inv R)) as Q. pose proof (MpscProofs.reachable_inv Q) as J.
  assert (Ci : con (mq s) = CIdle) by (apply (i_con (reach_inv R)); rewrite P; discriminate).
  destruct (C24_pop_when_quiet Q Ci (settled_quiet R A) _ (i_fifo J)) as [k [m' [H [C L]]]].
  exists m'. split.
  - cbn [MpscProperties.runs] in H. destruct (MpscModel.step 0%nat APop (mq s)) as [m1|] eqn:E; [|discriminate H].
    eapply by_trans; [apply by_step; unfold r_step; rewrite P, E; reflexivity|].
    assert (N1 : con m1 <> CIdle) by (apply q_pop in E; tauto).
    pose proof (@lift k m1 m' (set_rp (set_mq s m1) RPop) H N1 C eq_refl eq_refl) as G.
    rewrite L in G. destruct (nonstub (chain (mq s))); exact G.
  - assert (Q' : MpscModel.reachable m') by (exact (MpscProperties.runs_reachable _ Q H)).
    pose proof (i_fifo (MpscProofs.reachable_inv Q')) as F. rewrite L in F.
    pose proof (i_fifo J) as F0. destruct (nonstub (chain (mq s))) as [|n r]; simpl in F; rewrite F0 in F.
    + rewrite app_nil_r in F. rewrite <- (app_nil_r (deqs _)) in F at 1. apply app_inv_head in F. simpl. congruence.
    + rewrite <- app_assoc in F. apply app_inv_head in F. simpl in F. injection F as F. simpl. congruence.
Qed.

Lemma drop_big s i c d : (i < length (ops s))%nat -> exists s', drop_ref s i c d = Some s' /\ (rp s' = c \/ rp s' = d) /\
  mq s' = mq s /\ heap s' = heap s.
Proof.
  intros L. unfold drop_ref. destruct (nth_error (ops s) i) as [o|] eqn:E; [|apply nth_error_None in E; lia].
  eexists. split; [reflexivity|]. pr. destruct (ref o =? 1); auto.
Qed.
Lemma end_big s i x d : all_settled s -> (i < length (ops s))%nat -> exists s', end_op s i x d = Some s' /\ rp s' = d /\
  mq s' = mq s /\ heap s' = heap s.
Proof.
  intros A L. unfold end_op, finish. destruct (nth_error (ops s) i) as [o|] eqn:E; [|apply nth_error_None in E; lia].
  destruct (A _ _ E) as [_ [S|[S|S]]]; rewrite S; cbn [reset]; eexists; (split; [reflexivity|]); pr; auto.
Qed.

(** one command *)
Lemma v_big s i : reachable s -> all_settled s -> rp s = RV i -> exists s', by_run s s' /\ rp s' = R0 /\ mq s' = mq s.
Proof.
  intros R A P. assert (L : (i < length (ops s))%nat) by (apply (i_ri (reach_inv R)); rewrite P; reflexivity).
  destruct (@drop_big s i (RVc i) R0 L) as [s1 [E1 [[P1|P1] [M1 _]]]];
    (assert (S1 : r_step s = Some s1) by (unfold r_step; rewrite P; exact E1)); [|exists s1; split; [exact (by_step _ S1)|auto]].
  pose proof (r_keeps A S1) as K1. assert (L1 : (i < length (ops s1))%nat) by (rewrite (k_len K1); exact L).
  destruct (@end_big s1 i Stopped R0 (k_set K1) L1) as [s2 [E2 [P2 [M2 _]]]].
  assert (S2 : r_step s1 = Some s2) by (unfold r_step; rewrite P1; exact E2).
  exists s2. split; [exact (by_trans (by_step _ S1) (by_step _ S2))|]. split; [exact P2|congruence].
Qed.
Lemma by_reach s s' : reachable s -> by_run s s' -> reachable s'.
Proof. intros R [k H]. exact (reach_runs _ R H). Qed.
Lemma cmd_big s n : reachable s -> all_settled s -> rp s = RCmd n -> exists s', by_run s s' /\ rp s' = R0 /\ mq s' = mq s.
Proof.
  intros R A P. pose proof (reach_inv R) as I.
  assert (Bd := i_bd I (or_intror P)). apply node_cases in Bd. destruct Bd as [i [Li [-> | ->]]].
  - eexists. split; [apply by_step; unfold r_step; rewrite P, stop_S; reflexivity|]. pr. auto.
  - destruct (in_dec Nat.eq_dec i (heap s)) as [Hin|Hin].
    + assert (S1 : r_step s = Some (set_rp (set_heap s (remove Nat.eq_dec i (heap s))) (RT i))).
      { unfold r_step; rewrite P, stop_K, op_of_K. destruct (in_dec Nat.eq_dec i (heap s)); [reflexivity|contradiction]. }
      pose proof (r_keeps A S1) as K1. pose proof (reach_step AR R S1) as R1. set (s1 := set_rp _ (RT i)) in *.
      destruct (@drop_big s1 i (RTc i) (RV i) Li) as [s2 [E2 [[P2|P2] [M2 _]]]].
      * exfalso. apply (@i_rtc s2 (reach_inv (reach_step AR R1 E2)) i). exact P2.
      * assert (R2 : reachable s2) by (exact (reach_step AR R1 E2)).
        assert (S2 : r_step s1 = Some s2) by exact E2. pose proof (r_keeps (k_set K1) S2) as K2.
        destruct (v_big R2 (k_set K2) P2) as [s3 [B3 [P3 M3]]].
        exists s3. split; [exact (by_trans (by_step _ S1) (by_trans (by_step _ S2) B3))|]. split; [exact P3|].
        rewrite M3, M2. reflexivity.
    + assert (S1 : r_step s = Some (set_rp s (RV i))).
      { unfold r_step; rewrite P, stop_K, op_of_K. destruct (in_dec Nat.eq_dec i (heap s)); [contradiction|reflexivity]. }
      pose proof (r_keeps A S1) as K1. pose proof (reach_step AR R S1) as R1.
      destruct (v_big R1 (k_set K1) eq_refl) as [s3 [B3 [P3 M3]]].
      exists s3. split; [exact (by_trans (by_step _ S1) B3)|]. auto.
Qed.

(** all commands *)
Lemma drain n : forall s, length (nonstub (chain (mq s))) = n -> reachable s -> all_settled s -> rp s = R0 ->
  exists s', by_run s s' /\ rp s' = RNow /\ nonstub (chain (mq s')) = [].
Proof.
  induction n as [|n IH]; intros s L R A P; destruct (pop_big R A P) as [m [B C]];
    destruct (nonstub (chain (mq s))) as [|x r] eqn:Ch; try discriminate L.
  - eexists. split; [exact B|]. pr. split; [reflexivity|exact C].
  - set (s1 := set_rp (set_mq s m) (RCmd x)) in *. pose proof (by_keeps A B) as K1. pose proof (by_reach R B) as R1.
    destruct (cmd_big R1 (k_set K1) (n := x) eq_refl) as [s2 [B2 [P2 M2]]].
    pose proof (by_keeps (k_set K1) B2) as K2. pose proof (by_reach R1 B2) as R2.
    destruct (IH s2) as [s3 [B3 [P3 C3]]]; auto.
    { rewrite M2. unfold s1; pr. rewrite C. simpl in *. lia. }
    { exact (k_set K2). }
    exists s3. split; [exact (by_trans B (by_trans B2 B3))|]. auto.
Qed.

(** all that is due *)
Lemma fire n : forall s t, length (heap s) = n -> reachable s -> all_settled s -> rp s = RF t ->
  exists s' dl, by_run s s' /\ rp s' = RW dl /\ mq s' = mq s /\
    match heap s' with [] => dl = t + two_seconds | i :: _ => t < time_of s' i /\ dl = time_of s' i end.
Proof.
  induction n as [|n IH]; intros s t L R A P; destruct (heap s) as [|i h] eqn:Hp; try discriminate L.
  - exists (set_rp s (RW (t + two_seconds))), (t + two_seconds). split; [apply by_step; unfold r_step; rewrite P, Hp; reflexivity|].
    pr. rewrite Hp. auto.
  - destruct (time_of s i <=? t) eqn:E.
    + assert (S1 : r_step s = Some (set_rp (set_heap s h) (RX i t))) by (unfold r_step; rewrite P, Hp, E; reflexivity).
      pose proof (r_keeps A S1) as K1. pose proof (reach_step AR R S1) as R1. set (s1 := set_rp _ (RX i t)) in *.
      assert (Li : (i < length (ops s1))%nat) by (apply (i_ri (reach_inv R1)); reflexivity).
      destruct (@drop_big s1 i (RXc i t) (RF t) Li) as [s2 [E2 [Pc [M2 H2]]]].
      assert (S2 : r_step s1 = Some s2) by exact E2. pose proof (r_keeps (k_set K1) S2) as K2. pose proof (reach_step AR R1 S2) as R2.
      assert (G : exists s3, by_run s2 s3 /\ rp s3 = RF t /\ mq s3 = mq s2 /\ heap s3 = heap s2).
      { destruct Pc as [P2|P2]; [|exists s2; split; [apply by_refl|auto]].
        assert (L2 : (i < length (ops s2))%nat) by (rewrite (k_len K2); exact Li).
        destruct (@end_big s2 i Value (RF t) (k_set K2) L2) as [s3 [E3 [P3 [M3 H3]]]].
        exists s3. split; [apply by_step; unfold r_step; rewrite P2; exact E3|auto]. }
      destruct G as [s3 [B3 [P3 [M3 H3]]]]. pose proof (by_keeps (k_set K2) B3) as K3. pose proof (by_reach R2 B3) as R3.
      destruct (IH s3 t) as [s4 [dl [B4 [P4 [M4 H4]]]]]; auto.
      { rewrite H3, H2. simpl in *. lia. } { exact (k_set K3). }
      exists s4, dl. split; [exact (by_trans (by_step _ S1) (by_trans (by_step _ S2) (by_trans B3 B4)))|].
      split; [exact P4|]. split; [rewrite M4, M3, M2; reflexivity|exact H4].
    + exists (set_rp s (RW (time_of s i))), (time_of s i). split; [apply by_step; unfold r_step; rewrite P, Hp, E; reflexivity|].
      pr. rewrite Hp. apply Z.leb_gt in E. unfold time_of in *. pr. auto.
Qed.

(** When the run thread has gone through its loop, what has been started is
    completed or waits in the heap for a later time. *)
Lemma round s : reachable s -> all_settled s -> ~ In EStop (log s) -> rp s = R0 ->
  exists s' dl, by_run s s' /\ rp s' = RW dl /\ nonstub (chain (mq s')) = [] /\
    (forall i o, op s' i = Some o -> sp o = SD -> In i (heap s') \/ comps i (log s') = 1%nat) /\
    (forall i, In i (heap s') -> clock s < time_of s' i /\ dl <= time_of s' i) /\ dl <= Z.max (clock s + two_seconds) dl.
Proof.
  intros R A NS P. destruct (drain eq_refl R A P) as [s1 [B1 [P1 C1]]].
  pose proof (by_keeps A B1) as K1. pose proof (by_reach R B1) as R1.
  assert (S2 : r_step s1 = Some (set_rp s1 (RF (clock s1)))) by (unfold r_step; rewrite P1; reflexivity).
  pose proof (r_keeps (k_set K1) S2) as K2. pose proof (reach_step AR R1 S2) as R2.
  destruct (fire eq_refl R2 (k_set K2) eq_refl) as [s3 [dl [B3 [P3 [M3 H3]]]]].
  pose proof (by_keeps (k_set K2) B3) as K3. pose proof (by_reach R2 B3) as R3.
  exists s3, dl. split; [exact (by_trans B1 (by_trans (by_step _ S2) B3))|]. split; [exact P3|].
  assert (C3 : nonstub (chain (mq s3)) = []) by (rewrite M3; exact C1). split; [exact C3|]. split; [|split; [|lia]].
  - intros i o Ho Hs. pose proof (reach_inv R3) as I3. pose proof (i_ok I3 _ Ho) as K.
    destruct (k_set K3 _ Ho) as [_ Sk].
    destruct (busy (mq s3) (nodeS i)) eqn:Bs.
    { pose proof (chain_S R3 _ Ho ltac:(rewrite Hs; discriminate) Bs) as X. rewrite C3 in X. contradiction. }
    destruct (busy (mq s3) (nodeK i)) eqn:Bk.
    { assert (N : kp o <> KP) by (destruct Sk as [S|[S|S]]; rewrite S; discriminate).
      pose proof (chain_K R3 _ Ho N Bk) as X. rewrite C3 in X. contradiction. }
    destruct (Z.eq_dec (occ i (heap s3)) 0) as [O|O]; [right|left; apply occ_in; pose proof (occ_nn i (heap s3)); lia].
    unfold tokM, tokT, TimedProofs.last, done in K. rewrite Bs, Bk, P3, O, Hs in K. cbn [sM sF rM rT rF bz] in K.
    assert (kT (kp o) = 0 /\ kF (kp o) = 0) as [Z1 Z2] by (destruct Sk as [S|[S|S]]; rewrite S; auto).
    rewrite Z1, Z2 in K. unfold ok in K. lia.
  - intros i Hi. destruct (ord_inv R3) as [X|[Sd _]]; [rewrite P3 in X; discriminate|].
    destruct (heap s3) as [|j h] eqn:Hp; [contradiction|]. destruct H3 as [H3 ->]. pr.
    rewrite (k_clk K1) in H3. destruct Hi as [->|Hi]; [split; [exact H3|lia]|]. destruct Sd as [Sd _]. specialize (Sd _ Hi). lia.
Qed.

(** Once the run thread is awake, and nobody is in the middle of start() or of a
    stop request, every operation whose start() has returned and whose time has
    come completes (without further waiting). *)
Theorem C47_due_operations_complete : forall s, reachable s -> all_settled s -> ~ In EStop (log s) -> rp s = R0 ->
  exists s', by_run s s' /\ clock s' = clock s /\
    forall i o, op s i = Some o -> sp o = SD -> tm o <= clock s -> comps i (log s') = 1%nat.
Proof.
  intros s R A NS P. destruct (round R A NS P) as [s' [dl [B [P' [C [D [Hp _]]]]]]]. exists s'.
  pose proof (by_keeps A B) as K. split; [exact B|]. split; [exact (k_clk K)|].
  intros i o Ho Hs Ht. destruct (nth_error (ops s') i) as [o'|] eqn:Ho'.
  2:{ apply nth_error_None in Ho'. rewrite (k_len K) in Ho'. unfold op in Ho. apply nth_error_None in Ho'. congruence. }
  destruct (k_sp K _ Ho') as [o1 [H1 [H2 H3]]]. unfold op in *. rewrite Ho in H1. injection H1 as <-.
  destruct (D _ _ Ho') as [X|X]; [congruence| |exact X].
  apply Hp in X. unfold time_of in X. rewrite Ho' in X. lia.
Qed.

(** ** Time passes *)
Definition idle_action (a : action) : Prop := a = AR \/ a = ATick.
Lemma ticks k : forall s, runs (repeat ATick k) s = Some (set_clock s (clock s + Z.of_nat k)).
Proof.
  induction k as [|k IH]; intros s; cbn [repeat runs TimedModel.runs].
  - replace (clock s + Z.of_nat 0) with (clock s) by lia. destruct s; reflexivity.
  - cbn [TimedModel.step]. rewrite IH. unfold set_clock; cbn [clock mq ops heap rp nsub ready stopq log].
    do 2 f_equal. lia.
Qed.
Lemma all_times (s : state) : exists m, forall i o, op s i = Some o -> tm o <= m.
Proof.
  unfold op. induction (ops s) as [|x l [m H]]; [exists 0; intros [|i] o; discriminate|].
  exists (Z.max (tm x) m). intros [|i] o E; simpl in E; [injection E as ->; lia|]. apply H in E. lia.
Qed.

(** Whatever the sleeping run thread has missed: with time alone (nobody wakes
    it), every operation whose start() has returned completes. *)
Theorem C47_eventually : forall s dl, reachable s -> all_settled s -> stopq s = false -> ~ In EStop (log s) -> rp s = RW dl ->
  exists acts s', (forall a, In a acts -> idle_action a) /\ runs acts s = Some s' /\
    forall i o, op s i = Some o -> sp o = SD -> comps i (log s') = 1%nat.
Proof.
  intros s dl R A Sq NS P. destruct (all_times s) as [m M].
  set (k := Z.to_nat (Z.max dl m - clock s)).
  set (s1 := set_clock s (clock s + Z.of_nat k)).
  assert (R1 : reachable s1) by (exact (reach_runs _ R (ticks k s))).
  assert (C1 : Z.max dl m <= clock s1) by (unfold s1, k; cbn [clock set_clock]; lia).
  set (s2 := set_rp (set_ready s1 false) R0).
  assert (S2 : r_step s1 = Some s2).
  { unfold r_step, s1. cbn [rp set_clock]. rewrite P. cbn [ready stopq clock set_clock].
    replace (dl <=? clock s + Z.of_nat k) with true by (symmetry; apply Z.leb_le; unfold s1 in C1; cbn [clock set_clock] in C1; lia).
    rewrite Sq, orb_true_r. unfold s2, s1. reflexivity. }
  assert (R2 : reachable s2) by (exact (reach_step AR R1 S2)).
  destruct (@C47_due_operations_complete s2 R2) as [s3 [[j B] [_ D]]]; auto.
  exists (repeat ATick k ++ AR :: repeat AR j), s3. split; [|split].
  - intros a H. apply in_app_or in H. destruct H as [H|[<-|H]]; [right|left; reflexivity|left]; exact (repeat_spec _ _ _ H).
  - rewrite runs_app, ticks. cbn [runs TimedModel.runs]. change (step AR (set_clock s (clock s + Z.of_nat k))) with (r_step s1). rewrite S2. exact B.
  - intros i o Ho Hs. apply (D i o Ho Hs). specialize (M _ _ Ho). unfold s2; pr. lia.
Qed.

(** ** Cases that meet the hypotheses *)
(** Two operations, for times 5 and 3; stop is requested of the second one
    after both were started: it is stopped, the first completes at its time. *)
Definition started2 (i : nat) := AStart i :: rep 7 (AS i).
Example timed_run :
  option_map log (runs (asleep ++ started 0 ++ started2 1 ++ (AReq 1 :: rep 6 (AK 1)) ++ rep 23 AR ++ rep 5 ATick ++ rep 8 AR)
    (init [5; 3] 0))
  = Some [EComp 0 Value 5; EComp 1 Stopped 0; EReq 1; ERet 1; EStart 1; ERet 0; EStart 0].
Proof. vm_compute. reflexivity. Qed.

(** Two for the same time complete in the order in which they were started. *)
Example timed_order : exists s, reachable s /\ rp s <> RExit /\ bef 0 1 (log s) /\
  log s = [EComp 1 Value 5; EComp 0 Value 5; ERet 1; EStart 1; ERet 0; EStart 0].
Proof.
  destruct (runs (asleep ++ started 0 ++ started2 1 ++ rep 17 AR ++ rep 5 ATick ++ rep 11 AR) (init [5; 5] 0)) as [s|] eqn:E;
    [|vm_compute in E; discriminate].
  exists s. split; [do 3 eexists; exact E|]. vm_compute in E. injection E as <-.
  split; [discriminate|]. split; [|reflexivity].
  eexists [EComp 1 Value 5; EComp 0 Value 5; ERet 1], [ERet 0; EStart 0]. split; [reflexivity|]. left. reflexivity.
Qed.

(** The state in which the wake-up of [C47_lost_wakeup_refuted] is lost meets the
    hypotheses of [C47_eventually], the one after its timeout those of
    [C47_due_operations_complete]. *)
Example timed_asleep : exists s dl, reachable s /\ all_settled s /\ stopq s = false /\ ~ In EStop (log s) /\ rp s = RW dl /\
  (forall i o, op s i = Some o -> sp o = SD) /\ length (ops s) = 2%nat /\ comps 0 (log s) = 0%nat.
Proof.
  destruct (runs (asleep ++ started 0 ++ rep 3 AR ++ (AStart 1 :: rep 5 (AS 1)) ++ rep 3 AR ++ rep 2 (AS 1) ++ rep 1 AR)
    (init [0; 0] 0)) as [s|] eqn:E; [|vm_compute in E; discriminate].
  exists s. eexists. split; [do 3 eexists; exact E|]. vm_compute in E. injection E as <-.
  split; [|split; [|split; [|split; [|split; [|split]]]]]; try reflexivity.
  - intros [|[|i]] o G; simpl in G; try (destruct i; discriminate G); injection G as <-; split; simpl; auto.
  - simpl. intuition discriminate.
  - intros [|[|i]] o G; simpl in G; try (destruct i; discriminate G); injection G as <-; reflexivity.
Qed.
Example timed_awake : exists s, reachable s /\ all_settled s /\ ~ In EStop (log s) /\ rp s = R0 /\
  op s 0 = Some (mko 0 1 SD KReg) /\ clock s = 2000.
Proof.
  destruct (runs (asleep ++ started 0 ++ rep 2000 ATick ++ [AR]) (init [0] 0)) as [s|] eqn:E; [|vm_compute in E; discriminate].
  exists s. split; [do 3 eexists; exact E|]. vm_compute in E. injection E as <-.
  split; [|split; [|split; [|split]]]; try reflexivity.
  - intros [|i] o G; simpl in G; try (destruct i; discriminate G); injection G as <-; split; simpl; auto.
  - simpl. intuition discriminate.
Qed.
