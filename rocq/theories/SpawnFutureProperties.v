(** C30: spawn_future. *)
From Coq Require Import List Bool Arith Lia.
From Verif Require Import SpawnFutureModel.
Import ListNotations.
Set Implicit Arguments.

(** ** Invariant *)

(** The control states that can meet, as a boolean table: by the value of the
    atomic word. *)
Definition phase (w : word) (p : ppc) (c : cpc) (k : kpc) : bool :=
  match w with
  | WNull => match p, c, k with (P0 | P1), (C0 | C1 | A1 | A2), (K0 | K1 | K2) => true | _, _, _ => false end
  | WMark => match p, c, k with (P0 | P1), (C1 | C2), KDone => true | _, _, _ => false end
  | WRcvr => match p, c, k with (P0 | P1), CWait, (K0 | K1 | K2 | K3) => true | _, _, _ => false end
  | WSelf =>
      match c with
      (* the receiver was registered: cancelled (producer late) or completed by
         the producer *)
      | CWait => match p, k with
                 | (P0 | P1), (K4 | KDone) => true
                 | P2, (K0 | K1 | K2 | K3 | KDone) => true
                 | (P3 | P4), (K0 | K4 | KDone) => true
                 | _, _ => false
                 end
      (* stopped before it consumed *)
      | C4 => match p, k with (P0 | P1 | P3 | P4), KDone => true | _, _ => false end
      (* done: consumed, stopped or abandoned *)
      | CDone => match p, k with
                 | (P0 | P1 | P3 | P4), (K0 | KDone) => true
                 | _, _ => false end
      | C5 => match p, k with P4, (K0 | KDone) => true | _, _ => false end
      | A3 => match p, k with P4, K0 => true | _, _ => false end
      | _ => match p, k with P4, (K0 | K1 | K2 | KDone) => true | _, _ => false end
      end
  end.

(** Who still has to free the state. *)
Definition freed (s : st) : bool :=
  match pp s, cc s with
  | P4, CWait => match w s with WSelf => true | _ => false end
  | P4, (C4 | CDone) => true
  | _, _ => false
  end.

(** How often the receiver has been completed. *)
Definition delivered (s : st) : bool :=
  match cc s with
  | CWait => match w s, kk s, pp s with
             | WSelf, KDone, (P0 | P1) => true
             | WSelf, _, P2 => false
             | WSelf, K4, _ => false
             | WSelf, _, (P3 | P4) => true
             | _, _, _ => false
             end
  | C5 => true
  | CDone => match cb s with NoCb => false | _ => true end
  | _ => false
  end.

Record inv (s : st) : Prop := {
  i_phase : phase (w s) (pp s) (cc s) (kk s) = true;
  i_bad : bad s = false;
  i_alive : alive s = negb (freed s);
  i_frees : frees s = if freed s then 1 else 0;
  i_cb : cb s = match cc s with
                | C0 | A1 | A2 | A3 => NoCb
                | CDone => cb s
                | _ => if delivered s then Gone else Reg
                end;
  i_cbdone : cc s = CDone -> cb s <> Reg;
  i_abandon : cb s = NoCb -> kk s = K0 /\ out s = [];
  i_out : out s = [] \/ exists o, out s = [o] /\ (Some o = res s \/ (o = Stopped /\ stop s = true));
  i_outn : length (out s) = if delivered s then 1 else 0;
  i_res : res s = None <-> pp s = P0;
  i_stop : kk s <> K0 -> stop s = true;
  i_conc : cc s = C4 -> stop s = true;
  i_onk : p_active s = true -> pt s = POnK -> kk s = K1 /\ kt s = KOnC;
  i_onc : p_active s = true -> pt s = POnC -> cc s = A1;
  i_kc : k_running s = true -> kt s = KOnC -> cc s = C1 /\ kk s <> K3 /\ kk s <> K4
}.

Lemma inv_init : inv init.
Proof. constructor; simpl; auto; try congruence; try (split; congruence); discriminate. Qed.

Ltac bx H := repeat match type of H with
  | (if ?b then _ else _) = Some _ => let E := fresh "E" in destruct b eqn:E; try discriminate H
  | (match ?x with _ => _ end) = Some _ => destruct x; try discriminate H
  end.

Ltac fin :=
  cbn; try reflexivity; try congruence;
  try (intros; cbn in *; intuition (try congruence); fail).

Lemma inv_step a s s' : inv s -> step false a s = Some s' -> inv s'.
Proof.
  intros I H.
  destruct s as [w0 p0 pt0 c0 k0 kt0 cb0 sp0 al0 fr0 r0 o0 b0].
  destruct I as [Iph Ib Ia If Icb Icbd Iab Io Ion Ir Is Ic Ik Ic2 Ikc].
  cbn in Iph, Ib, Ia, If, Icb, Icbd, Iab, Io, Ion, Ir, Is, Ic, Ik, Ic2, Ikc. subst b0.
  destruct a; cbn in H.
  { bx H. injection H as <-. constructor; cbn; auto.
    destruct Io as [Io|(o & -> & [Q|[Q _]])]; [left; exact Io|right; exists o; auto|right; exists o; auto]. }
  all: bx H; injection H as <-.
  all: repeat match goal with x : word |- _ => destruct x; try discriminate Iph end.
  all: repeat match goal with x : cpc |- _ => destruct x; try discriminate Iph end.
  all: repeat match goal with x : ppc |- _ => destruct x; try discriminate Iph end.
  all: repeat match goal with x : kpc |- _ => destruct x; try discriminate Iph end.
  all: cbn in *; subst al0 fr0; try discriminate.
  all: match type of Icb with ?x = ?x => idtac | ?x = _ => first [is_var x; subst x | idtac] end.
  all: try discriminate.
  all: repeat match goal with x : kthread |- _ => destruct x end;
       try (exfalso; destruct Ikc as [? [? ?]]; auto; congruence).
  all: repeat match goal with x : pthread |- _ => destruct x end; try discriminate;
       try (exfalso; destruct Ik; auto; congruence);
       try (exfalso; specialize (Ic2 eq_refl eq_refl); congruence).
  all: try discriminate.
  all: try (match goal with |- context [if ?b then K1 else K0] => destruct b end; cbn in * ).
  all: constructor; cbn.
  all: try reflexivity; try congruence.
  all: try assumption.
  all: try (split; congruence).
  all: try (intros; first [discriminate | congruence]).
  all: try (intros _; apply Is; discriminate).
  all: try (intros _; exact (Is ltac:(discriminate))).
  all: try (destruct (Iab eq_refl); first [discriminate | congruence]).
  all: try (intros _; destruct (Iab eq_refl); split; first [reflexivity | assumption | congruence]).
  all: try (split; [discriminate | intros; exfalso; apply Ir in H; congruence]).
  all: try (match goal with |- ?x = [] \/ _ => is_var x;
       destruct Io as [->|(oo & -> & [Q|Q])];
         [left; reflexivity
         |destruct Ir as [_ Ir]; rewrite (Ir eq_refl) in Q; discriminate
         |right; exists oo; auto] end).
  all: try (match goal with |- _ :: ?x = [] \/ _ => is_var x;
       destruct x; [|discriminate Ion]; right; eexists; (split; [reflexivity|]);
       first [left; unfold result; cbn; destruct r0; [reflexivity|];
              destruct Ir as [Ir _]; discriminate (Ir eq_refl)
             |right; split; [reflexivity|]; first [apply Is; discriminate | apply Ic; reflexivity]] end).
  all: intros; cbn in *; intuition (try congruence).
Qed.

Lemma inv_runs l : forall s s', inv s -> runs false l s = Some s' -> inv s'.
Proof.
  induction l as [|a l IH]; intros s s' I H; simpl in H.
  - injection H as <-. exact I.
  - destruct (step false a s) as [s1|] eqn:E; [|discriminate]. eapply IH; [|exact H].
    eapply inv_step; eauto.
Qed.

Lemma inv_reachable s : reachable false s -> inv s.
Proof. intros (l & H). eapply inv_runs; [apply inv_init|exact H]. Qed.

(** ** C30 *)

(** No step touches the shared state after it was destroyed, and it is destroyed
    at most once - for every interleaving of completion, consumption,
    abandonment and cancellation. *)
Theorem C30_no_use_after_free_partial : forall s,
  reachable false s -> bad s = false /\ frees s <= 1 /\ (alive s = true <-> frees s = 0).
Proof.
  intros s R. apply inv_reachable in R. destruct R as [_ B A F _ _ _ _ _ _ _ _ _ _ _].
  rewrite A, F. destruct (freed s); simpl; repeat split; auto; intros; try discriminate; lia.
Qed.

(** The future's receiver is completed at most once, with the result the spawned
    operation completed with, or with stopped, and then stop had been requested
    on the receiver's token. *)
Theorem C30_completed_once_with_result_partial : forall s,
  reachable false s ->
  out s = [] \/
  exists o, out s = [o] /\ (res s = Some o \/ (o = Stopped /\ stop s = true)).
Proof.
  intros s R. apply inv_reachable in R. destruct (i_out R) as [H|(o & H & Q)]; auto.
  right. exists o. split; auto. destruct Q as [Q|Q]; auto.
Qed.

(** The steps the code takes by itself once it was entered (everything but a
    decision of the user or of the spawned operation). *)
Definition code_steps : list action :=
  [PExchange; PCallback; PDestroy; CCas; CExchange; CConsume; CStopped; CDestroy;
   AReq; AExchange; ADestroy; KReq; KCas; KExchange; KCallback].

Lemma quiescent_final s : inv s ->
  (forall a, In a code_steps -> step false a s = None) ->
  pp s <> P0 -> cc s <> C0 ->
  pp s = P4 /\ (cc s = CWait \/ cc s = CDone) /\ (kk s = K0 \/ kk s = KDone) /\ freed s = true /\
  (cb s <> NoCb -> delivered s = true).
Proof.
  intros I Q NP NC.
  destruct s as [w0 p0 pt0 c0 k0 kt0 cb0 sp0 al0 fr0 r0 o0 b0].
  destruct I as [Iph Ib Ia If Icb Icbd Iab Io Ion Ir Is Ic Ik Ic2 Ikc]. cbn in *.
  assert (Q1 := Q PExchange ltac:(simpl; tauto)). assert (Q2 := Q PCallback ltac:(simpl; tauto)).
  assert (Q3 := Q PDestroy ltac:(simpl; tauto)). assert (Q4 := Q CCas ltac:(simpl; tauto)).
  assert (Q5 := Q CExchange ltac:(simpl; tauto)). assert (Q6 := Q CConsume ltac:(simpl; tauto)).
  assert (Q7 := Q CStopped ltac:(simpl; tauto)). assert (Q8 := Q CDestroy ltac:(simpl; tauto)).
  assert (Q9 := Q AReq ltac:(simpl; tauto)). assert (Q10 := Q AExchange ltac:(simpl; tauto)).
  assert (Q11 := Q ADestroy ltac:(simpl; tauto)). assert (Q12 := Q KReq ltac:(simpl; tauto)).
  assert (Q13 := Q KCas ltac:(simpl; tauto)). assert (Q14 := Q KExchange ltac:(simpl; tauto)).
  assert (Q15 := Q KCallback ltac:(simpl; tauto)). clear Q. cbn in *.
  destruct p0; try discriminate Q1; try discriminate Q3; [congruence| |].
  - destruct w0; try discriminate Iph. destruct c0; try discriminate Iph.
    destruct k0; try discriminate Iph; cbn in Q2; try discriminate Q2;
      try discriminate Q13; try discriminate Q14.
    destruct pt0, kt0; try discriminate Q12.
    + destruct Ik; [reflexivity|reflexivity|discriminate].
    + destruct Ikc as (? & _); [reflexivity|reflexivity|discriminate].
  - destruct c0; try discriminate Q5; try discriminate Q8; try discriminate Q10; try discriminate Q11;
      [congruence| | | | | |]; destruct w0; try discriminate Iph;
      destruct k0; try discriminate Iph; try discriminate Q4; try discriminate Q6; try discriminate Q7;
      try discriminate Q9; try discriminate Q12; try discriminate Q13; try discriminate Q15;
      cbn in Icb; (split; [reflexivity|]); (split; [auto|]); (split; [auto|]); (split; [reflexivity|]);
      intros; cbn; try reflexivity; destruct cb0; congruence.
Qed.

(** Nothing is lost: when the spawned operation has completed, the future was
    started or dropped, and no code can run any more (nobody is blocked for ever
    on the stop callback), then the state has been destroyed, and the receiver
    of a started future has been completed. *)
Lemma cb_stable a s s' : step false a s = Some s' -> cb s <> NoCb -> cb s' <> NoCb.
Proof.
  intros H N. destruct s as [w0 p0 pt0 c0 k0 kt0 cb0 sp0 al0 fr0 r0 o0 b0]. cbn in N.
  destruct a; cbn in H; bx H; injection H as <-; cbn; auto; try discriminate;
    destruct w0; cbn; auto; discriminate.
Qed.

Lemma started_cb l : forall s s', runs false l s = Some s' -> In CStart l -> cb s' <> NoCb.
Proof.
  induction l as [|a l IH]; intros s s' H Hin; [destruct Hin|]. simpl in H.
  destruct (step false a s) as [s1|] eqn:E; [|discriminate].
  destruct Hin as [->|Hin]; [|eapply IH; eauto].
  assert (N : cb s1 <> NoCb).
  { simpl in E. destruct (cc s); try discriminate. injection E as <-. simpl. discriminate. }
  clear - H N. revert s1 N H. induction l as [|b l IH]; intros s1 N H; simpl in H.
  - injection H as <-. exact N.
  - destruct (step false b s1) as [s2|] eqn:E2; [|discriminate]. eapply IH; [|exact H].
    eapply cb_stable; eauto.
Qed.

Theorem C30_nothing_lost_partial : forall l s,
  runs false l init = Some s ->
  (exists th o, In (PBegin th o) l) -> In CStart l \/ In CAbandon l ->
  (forall a, In a code_steps -> step false a s = None) ->
  frees s = 1 /\ (In CStart l -> length (out s) = 1).
Proof.
  intros l s R (th & o & HP) HC Q.
  pose proof (@inv_runs _ _ _ inv_init R) as I.
  assert (NP : pp s <> P0).
  { clear - R HP. revert R. generalize init.
    assert (G : forall l s0 s1, runs false l s0 = Some s1 -> pp s0 <> P0 -> pp s1 <> P0).
    { clear. induction l as [|a l IH]; intros s0 s1 H N; simpl in H; [congruence|].
      destruct (step false a s0) as [s2|] eqn:E; [|discriminate]. eapply IH; [exact H|].
      destruct s0 as [w0 p0 pt0 c0 k0 kt0 cb0 sp0 al0 fr0 r0 o0 b0]. cbn in N.
      destruct a; cbn in E; bx E; injection E as <-; cbn; auto; try discriminate;
        destruct w0; cbn; auto; discriminate. }
    induction l as [|a l IH]; intros s0 R; [destruct HP|]. simpl in R.
    destruct (step false a s0) as [s1|] eqn:E; [|discriminate].
    destruct HP as [->|HP]; [|eapply IH; eauto].
    eapply G; [exact R|]. simpl in E. bx E; injection E as <-; cbn; discriminate. }
  assert (NC : cc s <> C0).
  { clear - R HC. revert R. generalize init.
    assert (G : forall l s0 s1, runs false l s0 = Some s1 -> cc s0 <> C0 -> cc s1 <> C0).
    { clear. induction l as [|a l IH]; intros s0 s1 H N; simpl in H; [congruence|].
      destruct (step false a s0) as [s2|] eqn:E; [|discriminate]. eapply IH; [exact H|].
      destruct s0 as [w0 p0 pt0 c0 k0 kt0 cb0 sp0 al0 fr0 r0 o0 b0]. cbn in N.
      destruct a; cbn in E; bx E; injection E as <-; cbn; auto; try discriminate;
        destruct w0; cbn; auto; discriminate. }
    induction l as [|a l IH]; intros s0 R; [destruct HC as [[]|[]]|]. simpl in R.
    destruct (step false a s0) as [s1|] eqn:E; [|discriminate].
    assert (HC' : (a = CStart \/ a = CAbandon) \/ (In CStart l \/ In CAbandon l))
      by (simpl in HC; tauto).
    destruct HC' as [HA|HC']; [|eapply IH; eauto].
    eapply G; [exact R|]. destruct HA; subst a; simpl in E; bx E; injection E as <-; cbn; discriminate. }
  destruct (quiescent_final I Q NP NC) as (_ & _ & _ & F & D).
  rewrite (i_frees I), F. split; auto. intro HS.
  rewrite (i_outn I), (D (@started_cb _ _ _ R HS)). reflexivity.
Qed.

(** *** Executions *)

(** The stop request arrives while the receiver is registered; the canceller
    wins; the producer frees the state. *)
Example C30_cancel_example :
  option_map (fun s => (out s, frees s, bad s))
    (runs false [CStart; CCas; RequestStop; KBegin; KReq; KCas; KExchange; KCallback;
                 PBegin POwn (Res 5); PExchange; PDestroy] init)
  = Some ([Stopped], 1, false).
Proof. vm_compute. reflexivity. Qed.

(** Stop before the future starts; the callback runs on the consumer's thread,
    the spawned operation completes inside request_stop: its result is still
    delivered. *)
Example C30_inline_cancel_example :
  option_map (fun s => (out s, frees s, bad s))
    (runs false [RequestStop; CStart; PBegin POnK (Res 5); PExchange; KReq; KCas; CCas; CConsume;
                 CDestroy] init)
  = Some ([Res 5], 1, false).
Proof. vm_compute. reflexivity. Qed.

Example C30_abandon_example :
  option_map (fun s => (out s, frees s, bad s))
    (runs false [CAbandon; PBegin POnC Stopped; PExchange; AReq; AExchange; ADestroy] init)
  = Some ([], 1, false).
Proof. vm_compute. reflexivity. Qed.

(** *** What is false *)

(** If the spawned operation completes inside the canceller's own call of
    [request_stop] (a sender whose stop callback completes it at once), while a
    receiver is registered, the canceller goes on using the state that the
    completion has destroyed. *)
Theorem C30_sync_stop_refuted :
  exists l s, runs true l init = Some s /\ bad s = true.
Proof.
  exists [CStart; CCas; RequestStop; KBegin; PBegin POnK Stopped; PExchange; PCallback; PDestroy; KReq].
  eexists. split; [vm_compute; reflexivity|reflexivity].
Qed.

Print Assumptions C30_no_use_after_free_partial.
Print Assumptions C30_completed_once_with_result_partial.
Print Assumptions C30_nothing_lost_partial.
