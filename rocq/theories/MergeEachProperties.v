(** C49: exec::merge_each. *)
From Coq Require Import List ZArith Bool Arith Lia.
From Verif Require Import Conc MergeEachModel MergeEachProofs MergeEachProofs2 MergeEachProofs3.
Import ListNotations.
Set Implicit Arguments.
Open Scope Z_scope.
Arguments Z.add : simpl never. Arguments Z.sub : simpl never. Arguments Z.of_nat : simpl never.

(** ** Specification *)
(** The log is newest first. *)
Definition completed (s : state) : Prop := exists d, In (EDone d) (log s).
(** an item of the outer sequence or of a nested one *)
Definition item (s : state) (i : nat) : Prop := exists a, nth_error (ags s) i = Some a /\ kd a <> KOuter.
Definition no_error (l : list event) : Prop := forall i e, ~ In (EErr i e) l.
(** the oldest error in the log is [e], from agent [i] *)
Definition oldest_error (l : list event) (i : nat) (e : err) : Prop :=
  exists l1 l2, l = l1 ++ EErr i e :: l2 /\ no_error l2.
(** the library has nothing to do *)
Definition lib_idle (s : state) : Prop := forall i, step (ALib i) s = None.
(** no operation of the user can complete *)
Definition user_idle (s : state) : Prop := forall i r, step (AUser i r) s = None.
Definition started (s : state) : Prop := exists o, nth_error (ags s) 0 = Some o /\ ap o <> P0.
(** an operation of the user runs *)
Definition running (s : state) (i : nat) : Prop := exists a, nth_error (ags s) i = Some a /\ (ap a = PItem \/ ap a = PRun).

(** ** The merged sequence completes at most once *)
Theorem C49_once s : reachable s -> forall l1 l2 l3 d d', log s <> l1 ++ EDone d :: l2 ++ EDone d' :: l3.
Proof.
  intros R l1 l2 l3 d d' E. pose proof (reachable_inv R) as I. destruct (i_out I) as [o [O1 _]].
  assert (2 <= dones (log s)).
  { rewrite E. unfold dones. rewrite cnt_app. cbn [cnt is_done]. rewrite cnt_app. cbn [cnt is_done]. lia. }
  pose proof (sumz_nonneg fin (ags s) fin_nn).
  destruct (i_fin I O1) as [[_ [_ [A _]]]|[_ A]]; lia.
Qed.

(** ** ... and last: no operation runs, every item's next receiver was completed, nothing happens afterwards *)
Theorem C49_done_last s : reachable s -> completed s ->
  (forall i, ~ running s i) /\ (forall i, item s i -> In (ENext i) (log s)) /\
  forall a s', step a s = Some s' -> log s' = log s /\ (a = AStopReq \/ exists i, a = ADestroy i).
Proof.
  intros R [d D]. pose proof (reachable_inv R) as I. pose proof (done_pos _ _ D) as Dp. pose proof (quiet I Dp) as Q.
  destruct (i_out I) as [o [O1 _]].
  split; [|split].
  - intros i [a [A B]]. rewrite (Q _ _ A) in B. destruct B; discriminate.
  - intros i [a [A B]]. pose proof (proj1 (reachable_next R) i) as N. rewrite A in N.
    assert (X : nx a = true).
    { destruct (nx a) eqn:X; auto. exfalso. pose proof (i_kd I _ A) as K. destruct (kd a) eqn:Ek; [congruence| |].
      - pose proof (i_seq I _ A Ek X O1) as Y. rewrite (Q _ _ O1) in Y. discriminate.
      - destruct K as [_ [_ [_ [b [B1 _]]]]]. pose proof (i_val I _ A Ek X B1) as Y. rewrite (Q _ _ B1) in Y. discriminate. }
    rewrite X in N. assert (0 < cnt (is_next i) (log s))%nat as P by lia. apply cnt_pos in P. destruct P as [x [P1 P2]].
    destruct x; try discriminate P2. simpl in P2. apply Nat.eqb_eq in P2. subst. exact P1.
  - intros a s' H. destruct (after_done _ I Dp H) as [A [_ [_ [_ [[-> _]|[i [b [-> _]]]]]]]]; eauto.
Qed.

(** ** How it completes *)
Theorem C49_completion s d : reachable s -> In (EDone d) (log s) ->
  match d with
  | DValue => no_error (log s) /\ In (EUser 0 ROk) (log s)
  | DStopped => no_error (log s) /\ (In (EUser 0 RStop) (log s) \/ log s = [EDone DStopped])
  | DError e => oldest_error (log s) 0 e
  | DItem e => exists i, i <> 0%nat /\ oldest_error (log s) i e
  end.
Proof.
  intros R D. pose proof (reachable_done R _ D) as A. unfold agrees in A. destruct d.
  - destruct A as [A B]. split; [exact (proj1 (first_none _) A)|exact B].
  - apply first_some in A. exact A.
  - destruct A as [i [A B]]. exists i. split; [exact A|]. apply first_some in B. exact B.
  - destruct A as [A B]. split; [exact (proj1 (first_none _) A)|exact B].
Qed.

(** An error of any operation makes the merged sequence complete with an error;
    and every error it reports is one of an operation. *)
Theorem C49_error_not_lost s i e d : reachable s -> In (EUser i (RErr e)) (log s) -> In (EDone d) (log s) ->
  exists e', (d = DError e' \/ d = DItem e') /\ exists j, In (EUser j (RErr e')) (log s).
Proof.
  intros R E D. pose proof (reachable_user R) as U. pose proof (reachable_inv R) as I.
  assert (K : In (EErr i e) (log s)).
  { destruct (u_err U _ _ E) as [a [A [B|B]]]; [exact B|]. rewrite (quiet I (done_pos _ _ D) _ A) in B. destruct B; discriminate. }
  pose proof (C49_completion _ R D) as C. destruct d.
  - destruct C as [C _]. destruct (C _ _ K).
  - exists e0. split; [auto|]. destruct C as [l1 [l2 [C _]]]. exists 0%nat. apply (u_log U). rewrite C. apply in_or_app. right. left. reflexivity.
  - exists e0. split; [auto|]. destruct C as [j [_ [l1 [l2 [C _]]]]]. exists j. apply (u_log U). rewrite C. apply in_or_app. right. left. reflexivity.
  - destruct C as [C _]. destruct (C _ _ K).
Qed.

(** ** Next receivers complete at most once *)
Theorem C49_next_once s i : reachable s -> forall l1 l2 l3, log s <> l1 ++ ENext i :: l2 ++ ENext i :: l3.
Proof.
  intros R l1 l2 l3 E. pose proof (proj1 (reachable_next R) i) as N.
  assert (2 <= cnt (is_next i) (log s))%nat.
  { rewrite E. rewrite cnt_app. cbn [cnt is_next]. rewrite cnt_app. cbn [cnt is_next]. rewrite Nat.eqb_refl. lia. }
  destruct (nth_error (ags s) i) as [a|]; [destruct (nx a)|]; lia.
Qed.

(** ** Stop requests *)
(** After an error, or after the outer sequence was stopped, the operations that
    still run are asked to stop -- if the receiver's token is not unstoppable. *)
Theorem C49_siblings_stopped_partial s : reachable s -> unst s = false -> lib_idle s ->
  (exists i e, In (EErr i e) (log s)) \/ In (EUser 0 RStop) (log s) -> nstop s = true.
Proof.
  intros R U L H. pose proof (reachable_stop R) as [SA _]. pose proof (reachable_user R) as Us.
  assert (C : cm s <> CStarted).
  { destruct H as [[i [e H]]|H].
    - intros C. destruct (reachable_err R) as [EA _]. destruct EA as [_ [_ [_ EA]]]; [congruence|]. exact (proj1 (first_none _) EA _ _ H).
    - destruct (u_stop Us H) as [a [A [B|B]]]; [|exact B]. specialize (L 0%nat). simpl in L. simpl in A. rewrite A in L.
      unfold lib in L. rewrite B in L. destruct (cm s); discriminate. }
  destruct (SA U C) as [N|N]; [exact N|]. exfalso. apply sumz_pos_ex in N. destruct N as [i [a [A B]]].
  specialize (L i). simpl in L. rewrite A in L. unfold lib in L. unfold req in B. destruct (ap a); try (simpl in B; lia); discriminate.
Qed.
(** A stop request of the receiver reaches every operation that runs. *)
Theorem C49_stop_forwarded s i : reachable s -> preq s = true -> running s i -> nstop s = true.
Proof.
  intros R P [a [A B]]. pose proof (reachable_stop R) as [_ [SB [_ SD]]]. pose proof (reachable_inv R) as I.
  destruct (i_out I) as [o [O1 [O2 O3]]].
  assert (T : 1 <= sumz tok (ags s)).
  { pose proof (sumz_ge tok _ tok_nn _ A) as T. unfold tok at 1 in T. destruct B as [B|B]; rewrite B in T; simpl in T; exact T. }
  assert (Un : unst s = false).
  { clear - R P. revert P. revert s R. apply (@reach_ind (fun s => preq s = true -> unst s = false)).
    - intros u H. discriminate.
    - intros s x s' R P H. steps H.
      + injection H as <-. destruct (unst s) eqn:U; simpl; [rewrite U; exact P|]. destruct (preq s); simpl; auto.
      + apply orb_false_elim in Eif. destruct Eif as [Q _]. injection H as <-. destruct (cb s); simpl; auto.
      + destruct (negb (unst s) && nstop s); injection H as <-; exact P.
      + injection H as <-; exact P.
      + injection H as <-; exact P.
      + injection H as <-; exact P.
      + injection H as <-. pr. rewrite request_preq, request_unst. exact P.
      + destruct (kd a); injection H as <-; try destruct (alive a); exact P.
      + destruct (cm s); injection H as <-; exact P.
      + injection H as <-. pr. rewrite request_preq, request_unst. exact P.
      + injection H as <-; exact P.
      + injection H as <-; exact P.
      + injection H as <-; exact P.
      + injection H as <-; exact P.
      + injection H as <-; exact P.
      + destruct r; injection H as <-; exact P.
      + destruct (all_next i _); [|discriminate H]. destruct (kd a), r; injection H as <-; exact P.
      + injection H as <-; exact P. }
  destruct (i_fin I O1) as [[F [L _]]|[F [G|G]]]; [|lia|].
  - exfalso. assert (i < length (ags s))%nat by (apply nth_error_Some; congruence). assert (i = 0%nat) by lia. subst i.
    assert (o = a) by congruence. subst o. destruct F as [F|F], B as [B|B]; congruence.
  - assert (Np : ap o <> P0) by (intros E; apply F; left; exact E).
    destruct (SD Un _ O1 Np) as [C|C]; [auto|]. exfalso.
    pose proof (dones_nn (log s)). pose proof (sumz_nonneg fin (ags s) fin_nn).
    assert (1 <= sumz fin (ags s)); [|lia].
    destruct (sumz_pos_ex pfin (ags s)) as [j [b [B1 B2]]]; [lia|]. pose proof (sumz_ge fin _ fin_nn _ B1) as X.
    unfold pfin in B2. unfold fin at 1 in X. destruct (ap b); try lia. simpl in X. lia.
Qed.

(** ** Progress *)
(** If every item of the outer sequence delivers its nested sequence, the merged
    sequence completes: when neither the library nor the user's operations can
    take a step, the completion has been delivered. *)
Definition delivered (s : state) : Prop := forall i a, nth_error (ags s) i = Some a -> kd a = KSeq -> ap a = PEnd -> via a = true.
Theorem C49_progress_partial s : reachable s -> started s -> lib_idle s -> user_idle s -> delivered s -> completed s.
Proof.
  intros R [o [O1 O4]] L U D. pose proof (reachable_inv R) as I.
  assert (Kp : forall i a, nth_error (ags s) i = Some a -> ap a = P0 \/ ap a = PEnd \/ ap a = PRun /\ all_next i (ags s) = false).
  { intros i a A. specialize (L i). simpl in L. rewrite A in L. unfold lib in L. pose proof (U i ROk) as V. cbn [step] in V. rewrite A in V. unfold user in V.
    destruct (ap a); auto; try discriminate.
    - destruct (negb (unst s) && nstop s); discriminate.
    - cbn [ags emit] in V. destruct (all_next i (ags s)); auto. destruct (kd a); discriminate.
    - destruct (kd a); discriminate.
    - destruct (cm s); discriminate. }
  (* an agent that runs has an item that runs *)
  assert (Ch : forall i a, nth_error (ags s) i = Some a -> ap a = PRun -> exists j b, nth_error (ags s) j = Some b /\ child_of i b = true /\ ap b = PRun).
  { intros i a A B. destruct (Kp _ _ A) as [K|[K|[_ K]]]; try congruence.
    assert (Ex : exists b, In b (ags s) /\ implb (child_of i b) (nx b) = false).
    { clear - K. unfold all_next in K. revert K. induction (ags s) as [|x l IH]; [discriminate|]. cbn [forallb]. intros K.
      destruct (implb (child_of i x) (nx x)) eqn:E; [|exists x; split; [left; reflexivity|exact E]].
      destruct (IH K) as [b [B1 B2]]. exists b. split; [right; exact B1|exact B2]. }
    destruct Ex as [b [B1 B2]]. apply In_nth_error in B1. destruct B1 as [j B1].
    assert (Cb : child_of i b = true /\ nx b = false) by (destruct (child_of i b), (nx b); try discriminate; auto). destruct Cb as [Cb Nb].
    exists j, b. split; [exact B1|]. split; [exact Cb|].
    pose proof (i_kd I _ B1) as Kd. destruct (Kp _ _ B1) as [K'|[K'|[K' _]]]; [| |exact K']; exfalso.
    - unfold child_of in Cb. unfold fresh in Kd. destruct (kd b); [discriminate|tauto|tauto].
    - unfold child_of in Cb. destruct (kd b) eqn:Ek; [discriminate| |].
      + rewrite (i_ne I _ B1 Ek) in Nb; [discriminate|rewrite K'; exact Logic.I|exact (D _ _ B1 Ek K')].
      + pose proof (i_nv I _ B1) as X. rewrite Ek, K' in X. apply X; congruence. }
  destruct (i_fin I O1) as [[F [G _]]|[F [[G1 G2]|[G1 G2]]]].
  - exfalso. destruct (Kp _ _ O1) as [K|[K|[K _]]]; [contradiction| |]; rewrite K in F; destruct F; discriminate.
  - assert (Fz : sumz fin (ags s) = 0).
    { apply sumz_zero. intros b Hb. apply In_nth_error in Hb. destruct Hb as [j Hb]. unfold fin. destruct (Kp _ _ Hb) as [K|[K|[K _]]]; rewrite K; reflexivity. }
    assert (P : (0 < cnt is_done (log s))%nat) by (unfold dones in G1; lia). apply cnt_pos in P. destruct P as [x [P1 P2]].
    destruct x; try discriminate P2. exists d. exact P1.
  - exfalso. apply sumz_pos_ex in G2. destruct G2 as [i [a [A B]]].
    assert (Ra : ap a = PRun) by (destruct (Kp _ _ A) as [K|[K|[K _]]]; auto; unfold tok in B; rewrite K in B; simpl in B; lia).
    destruct (Ch _ _ A Ra) as [j [b [B1 [B2 B3]]]].
    destruct (Ch _ _ B1 B3) as [k [c [C1 [C2 C3]]]].
    destruct (Ch _ _ C1 C3) as [m [d [D1 [D2 D3]]]].
    pose proof (i_kd I _ A) as KA. pose proof (i_kd I _ B1) as KB. pose proof (i_kd I _ C1) as KC. pose proof (i_kd I _ D1) as KD.
    unfold child_of in *.
    destruct (kd c) eqn:Ec; [discriminate| |].
    + apply Nat.eqb_eq in C2. subst j. destruct (kd b); intuition congruence.
    + destruct (kd d) eqn:Ed; [discriminate| |]; apply Nat.eqb_eq in D2; subst.
      * intuition congruence.
      * destruct KD as [_ [_ [_ [x [X1 [X2 _]]]]]]. congruence.
Qed.

(** The library itself never loops: it takes at most ten steps per operation
    between two actions of the user. *)
Definition rank (p : pc) : Z :=
  match p with
  | P0 | PItem | PRun | PEnd => 0
  | PFin => 1 | PUnr => 2 | PDec => 3 | PReqB => 4 | PBrk => 5 | PNext CBrk => 6 | PNext CDec => 4
  | PStore _ => 7 | PReqF _ => 8 | PFail _ => 9 | PNext (CFail _) => 10 | PInc => 1 | PChk => 1
  end.
Lemma rank_nn a : 0 <= rank (ap a). Proof. destruct (ap a) as [| | | | |[]| | | | | | | | |]; simpl; lia. Qed.
Lemma rank_lib s i a s' : nth_error (ags s) i = Some a -> lib i a s = Some s' ->
  exists a', ags s' = upd (ags s) i a' /\ rank (ap a') < rank (ap a).
Proof.
  intros A H. unfold lib in H. destruct (ap a) eqn:Ea; try discriminate.
  - destruct (negb (unst s) && nstop s); injection H as <-; eexists; (split; [reflexivity|]); simpl; lia.
  - injection H as <-. eexists; (split; [reflexivity|]). simpl. destruct (kd a); simpl; lia.
  - injection H as <-. eexists; (split; [reflexivity|]). simpl. destruct c; simpl; lia.
  - injection H as <-. eexists; (split; [reflexivity|]). simpl. unfold after_fail. destruct (cm s), (kd a), (via a); simpl; lia.
  - injection H as <-. eexists; (split; [simpl; rewrite request_ags; reflexivity|]). simpl; lia.
  - unfold after_fail in H. exists (w_ap a (after_fail a)). unfold after_fail. destruct (kd a); injection H as <-; try destruct (alive a); (split; [reflexivity|]); simpl; destruct (via a); simpl; lia.
  - destruct (cm s); injection H as <-; eexists; (split; [reflexivity|]); simpl; lia.
  - injection H as <-. eexists; (split; [simpl; rewrite request_ags; reflexivity|]). simpl; lia.
  - injection H as <-. eexists; (split; [reflexivity|]). simpl. destruct (active s =? 1); simpl; lia.
  - injection H as <-. eexists; (split; [reflexivity|]). simpl; lia.
  - injection H as <-. eexists; (split; [reflexivity|]). simpl; lia.
Qed.
Theorem C49_lib_terminates s acts s' : runs acts s = Some s' -> (forall a, In a acts -> exists i, a = ALib i) ->
  Z.of_nat (length acts) <= 10 * Z.of_nat (length (ags s)).
Proof.
  assert (B : forall l : list agent, sumz (fun a => rank (ap a)) l <= 10 * Z.of_nat (length l)).
  { induction l as [|a l IH]; simpl sumz; [simpl; lia|]. simpl length. assert (rank (ap a) <= 10) by (destruct (ap a) as [| | | | |[]| | | | | | | | |]; simpl; lia). lia. }
  assert (K : forall acts s s', runs acts s = Some s' -> (forall a, In a acts -> exists i, a = ALib i) ->
              Z.of_nat (length acts) <= sumz (fun a => rank (ap a)) (ags s)).
  { clear. induction acts as [|x acts IH]; intros s s' H L.
    - simpl length. pose proof (sumz_nonneg (fun a => rank (ap a)) (ags s) rank_nn). lia.
    - cbn [runs] in H. destruct (step x s) as [s1|] eqn:E; [|discriminate].
      destruct (L x (or_introl eq_refl)) as [i ->]. cbn [step] in E. destruct (nth_error (ags s) i) as [a|] eqn:A; [|discriminate].
      destruct (rank_lib _ _ A E) as [a' [U V]]. specialize (IH _ _ H (fun a Q => L a (or_intror Q))).
      rewrite U, (@sumz_upd _ (fun a => rank (ap a)) _ _ a' _ A) in IH. simpl length. lia. }
  intros H L. specialize (K _ _ _ H L). specialize (B (ags s)). lia.
Qed.

(** ** Errors are read while they exist, except the errors of nested values *)
Theorem C49_dangling_partial s i : reachable s -> In (EDangling i) (log s) ->
  exists a p, nth_error (ags s) i = Some a /\ kd a = KVal p.
Proof. intros R. apply (proj2 (reachable_next R)). Qed.

(** ** Refuted *)
Lemma keep acts : forall s s' a, nth_error (ags s) 1 = Some a -> ap a = PEnd -> nx a = false -> runs acts s = Some s' -> nth_error (ags s') 1 = Some a.
Proof.
  induction acts as [|x acts IH]; intros s s' a A B C H; cbn [runs] in H; [injection H as <-; exact A|].
  destruct (step x s) as [s1|] eqn:E; [|discriminate]. eapply IH; [|exact B|exact C|exact H]. clear IH H.
  assert (W : forall i b v, nth_error (ags s) i = Some b -> ap b <> PEnd -> nth_error (upd (ags s) i v) 1 = Some a).
  { intros i b v Hb Np. rewrite (nth_upd _ _ _ _ Hb). destruct (Nat.eqb_spec i 1); [subst; congruence|exact A]. }
  destruct x; cbn [step] in E.
  - destruct (nth_error (ags s) 0) as [o|] eqn:Ho; [|discriminate]. destruct (ap o) eqn:Eo; try discriminate.
    injection E as <-. assert (Q : forall v, nth_error (upd (ags s) 0 v) 1 = Some a) by (intros v; apply (W _ _ _ Ho); congruence).
    destruct (unst s), (preq s); apply Q.
  - destruct (unst s || preq s); [discriminate|]. injection E as <-. destruct (cb s); exact A.
  - destruct (nth_error (ags s) i) as [b|] eqn:Hb; [|discriminate]. destruct (rank_lib _ _ Hb E) as [b' [U V]]. rewrite U. apply (W _ _ _ Hb).
    intros Eb. rewrite Eb in V. pose proof (rank_nn b'). simpl in V. lia.
  - destruct (nth_error (ags s) i) as [o|] eqn:Ho; [|discriminate]. destruct (ap o) eqn:Eo; try discriminate.
    destruct (kd o) eqn:Ek; try discriminate; injection E as <-; apply nth_old; exact A.
  - destruct (nth_error (ags s) i) as [b|] eqn:Hb; [|discriminate]. unfold user in E. destruct (ap b) eqn:Eb; try discriminate.
    + destruct r; injection E as <-; apply (W _ _ _ Hb); congruence.
    + destruct (all_next i _); [|discriminate]. destruct (kd b), r; injection E as <-; apply (W _ _ _ Hb); congruence.
  - destruct (nth_error (ags s) i) as [b|] eqn:Hb; [|discriminate]. destruct (nx b && alive b) eqn:Nb; [|discriminate].
    injection E as <-. cbn [ags set_ag]. rewrite (nth_upd _ _ _ _ Hb). destruct (Nat.eqb_spec i 1); [|exact A]. subst i.
    assert (a = b) by congruence. subst b. rewrite C in Nb. discriminate.
Qed.

(** An item of the outer sequence that fails or is stopped before it delivers a
    nested sequence: its next receiver is never completed, the outer sequence can
    therefore never complete, and neither can the merged one. *)
Theorem C49_item_fails_refuted u r : r <> ROk -> exists s, reachable s /\ unst s = u /\ In (EUser 1 r) (log s) /\ lib_idle s /\
  forall acts s', runs acts s = Some s' -> ~ In (ENext 1) (log s') /\ ~ completed s' /\ forall r', step (AUser 0 r') s' = None.
Proof.
  intros Nr.
  assert (X : exists s a, reachable s /\ unst s = u /\ In (EUser 1 r) (log s) /\ lib_idle s /\ nth_error (ags s) 1 = Some a /\ ap a = PEnd /\ nx a = false /\ kd a = KSeq).
  { destruct r as [|e|]; [congruence| |].
    - destruct (runs ([AStart; ALib 0; AItem 0; ALib 1; AUser 1 (RErr e)] ++ repeat (ALib 1) 5) (init u)) as [s|] eqn:E; [|destruct u; discriminate].
      exists s, (mka KSeq PEnd false false true). split; [exists u; eexists; exact E|].
      destruct u; vm_compute in E; injection E as <-; (split; [reflexivity|]); (split; [simpl; auto 10|]);
        (split; [intros [|[|i]]; try reflexivity; destruct i; reflexivity|]); auto.
    - destruct (runs ([AStart; ALib 0; AItem 0; ALib 1; AUser 1 RStop] ++ repeat (ALib 1) 1) (init u)) as [s|] eqn:E; [|destruct u; discriminate].
      exists s, (mka KSeq PEnd false false true). split; [exists u; eexists; exact E|].
      destruct u; vm_compute in E; injection E as <-; (split; [reflexivity|]); (split; [simpl; auto 10|]);
        (split; [intros [|[|i]]; try reflexivity; destruct i; reflexivity|]); auto. }
  destruct X as [s [a [R [Eu [L [Li [A [Pa [Na Ka]]]]]]]]]. exists s. split; [exact R|]. split; [exact Eu|]. split; [exact L|]. split; [exact Li|].
  intros acts s' H. pose proof (keep _ _ A Pa Na H) as A'.
  assert (R' : reachable s') by (destruct R as [v [ac R]]; exists v, (ac ++ acts); rewrite runs_app, R; exact H).
  pose proof (reachable_inv R') as I. destruct (i_out I) as [o [O1 [O2 O3]]]. pose proof (i_seq I _ A' Ka Na O1) as Po.
  split; [|split].
  - intros K. pose proof (proj1 (reachable_next R') 1%nat) as N. rewrite A', Na in N.
    pose proof (proj1 (cnt_zero (is_next 1) (log s')) N _ K) as F. discriminate F.
  - intros [d K]. rewrite (quiet I (done_pos _ _ K) _ O1) in Po. discriminate.
  - intros r'. cbn [step]. rewrite O1. unfold user. rewrite Po. cbn [ags emit].
    assert (An : all_next 0 (ags s') = false); [|rewrite An; reflexivity].
    destruct (all_next 0 (ags s')) eqn:An; auto. exfalso. unfold all_next in An. rewrite forallb_forall in An.
    specialize (An a (nth_error_In _ _ A')). unfold child_of in An. rewrite Ka, Na in An. discriminate.
Qed.

(** The error of a nested value is read after the nested sequence was told that
    the item is complete: by then the operation that holds the error may have
    been destroyed. *)
Definition dangling_run := [AStart; ALib 0; AItem 0; ALib 1; AUser 1 ROk; AItem 1; ALib 2; AUser 2 (RErr 5); ALib 2; ADestroy 2; ALib 2; ALib 2; ALib 2].
Theorem C49_dangling_refuted : exists s, reachable s /\ In (EDangling 2) (log s).
Proof.
  destruct (runs dangling_run (init false)) as [s|] eqn:E; [|discriminate].
  exists s. split; [exists false; eexists; exact E|]. vm_compute in E. injection E as <-. simpl. auto.
Qed.

(** With an unstoppable receiver the siblings of a failed operation are not asked
    to stop: they run on although the result is settled. *)
Theorem C49_siblings_stopped_refuted : exists s, reachable s /\ lib_idle s /\ running s 0 /\ running s 1 /\ In (EErr 2 5) (log s) /\
  forall acts s', runs acts s = Some s' -> nstop s' = false.
Proof.
  destruct (runs [AStart; ALib 0; AItem 0; ALib 1; AUser 1 ROk; AItem 1; ALib 2; AUser 2 (RErr 5); ALib 2; ALib 2; ALib 2; ALib 2; ALib 2; ALib 2] (init true)) as [s|] eqn:E; [|discriminate].
  assert (R : reachable s) by (exists true; eexists; exact E).
  exists s. split; [exact R|]. assert (U : unst s = true) by (vm_compute in E; injection E as <-; reflexivity).
  split; [|split; [|split; [|split]]].
  - vm_compute in E. injection E as <-. intros [|[|[|i]]]; try reflexivity. destruct i; reflexivity.
  - vm_compute in E. injection E as <-. eexists. split; [reflexivity|]. auto.
  - vm_compute in E. injection E as <-. eexists. split; [reflexivity|]. auto.
  - vm_compute in E. injection E as <-. simpl. auto 10.
  - intros acts s' H.
    assert (R' : reachable s') by (destruct R as [v [ac R]]; exists v, (ac ++ acts); rewrite runs_app, R; exact H).
    apply (reachable_stop R').
    assert (K : forall acts s s', runs acts s = Some s' -> unst s = true -> unst s' = true); [|eauto].
    clear. induction acts as [|x acts IH]; intros s s' H U; cbn [runs] in H; [injection H as <-; exact U|].
    destruct (step x s) as [s1|] eqn:E; [|discriminate]. eapply IH; [exact H|]. clear H IH.
    steps E.
    + injection E as <-. rewrite U. exact U.
    + rewrite U in Eif. discriminate.
    + destruct (negb (unst s) && nstop s); injection E as <-; exact U.
    + injection E as <-; exact U.
    + injection E as <-; exact U.
    + injection E as <-; exact U.
    + injection E as <-. pr. rewrite request_unst. exact U.
    + destruct (kd a); injection E as <-; try destruct (alive a); exact U.
    + destruct (cm s); injection E as <-; exact U.
    + injection E as <-. pr. rewrite request_unst. exact U.
    + injection E as <-; exact U.
    + injection E as <-; exact U.
    + injection E as <-; exact U.
    + injection E as <-; exact U.
    + injection E as <-; exact U.
    + destruct r; injection E as <-; exact U.
    + destruct (all_next i _); [|discriminate E]. destruct (kd a), r; injection E as <-; exact U.
    + injection E as <-; exact U.
Qed.

(** ** Examples *)
(** two nested values, one nested sequence *)
Definition run_ok := [AStart; ALib 0; AItem 0; ALib 1; AUser 1 ROk; AItem 1; ALib 2; AItem 1; ALib 3; AUser 3 ROk; AUser 2 ROk; ALib 2; ALib 2; ALib 3; ALib 3;
   AUser 1 ROk; ALib 1; AUser 0 ROk; ALib 0; ALib 1; ALib 1; ALib 1].
Example ex_ok : option_map (fun s => (log s, active s)) (runs run_ok (init false)) =
  Some ([EDone DValue; EUser 0 ROk; ENext 1; EUser 1 ROk; ENext 3; ENext 2; EUser 2 ROk; EUser 3 ROk; EUser 1 ROk], 0).
Proof. vm_compute. reflexivity. Qed.
(** a nested value fails: the siblings are stopped, the error is delivered as an item *)
Definition run_err := [AStart; ALib 0; AItem 0; ALib 1; AUser 1 ROk; AItem 1; ALib 2; AUser 2 (RErr 5); ALib 2; ALib 2; ALib 2; ALib 2; ALib 2; ALib 2;
   AUser 1 RStop; ALib 1; ALib 1; AUser 0 RStop; ALib 0; ALib 0; ALib 0; ALib 0].
Example ex_err : option_map (fun s => (log s, nstop s)) (runs run_err (init false)) =
  Some ([EDone (DItem 5); EUser 0 RStop; ENext 1; EUser 1 RStop; EErr 2 5; ENext 2; EUser 2 (RErr 5); EUser 1 ROk], true).
Proof. vm_compute. reflexivity. Qed.
(** stopped before it starts *)
Example ex_stopped : option_map log (runs [AStopReq; AStart; ALib 0] (init false)) = Some [EDone DStopped].
Proof. vm_compute. reflexivity. Qed.
(** a stop request while operations run *)
Example ex_stop : option_map (fun s => (nstop s, preq s)) (runs [AStart; ALib 0; AItem 0; ALib 1; AStopReq] (init false)) = Some (true, true).
Proof. vm_compute. reflexivity. Qed.
(** the outer sequence fails after a nested value: the error that arrives first wins *)
Example ex_two : option_map log (runs ([AStart; ALib 0; AItem 0; ALib 1; AUser 1 ROk; AItem 1; ALib 2; AUser 2 (RErr 5); ALib 2; AUser 1 ROk; ALib 1;
   AUser 0 (RErr 9); ALib 0; ALib 2] ++ repeat (ALib 0) 4 ++ repeat (ALib 2) 2 ++ repeat (ALib 1) 3) (init false)) =
  Some [EDone (DError 9); EErr 2 5; EErr 0 9; EUser 0 (RErr 9); ENext 1; EUser 1 ROk; ENext 2; EUser 2 (RErr 5); EUser 1 ROk].
Proof. vm_compute. reflexivity. Qed.
