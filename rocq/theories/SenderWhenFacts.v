(** * SenderWhenFacts: consequences of the when_all law, stated on children's results. *)

From Coq Require Import List Arith Bool Lia.
From Verif Require Import SenderModel SenderSpec SenderProofs SenderSafety SenderRun SenderLaws
  SenderWhen SenderStop SenderAny.
Import ListNotations.
Set Implicit Arguments.

(** [child_run ctx s ri]: [ri] is a state that child [s] of a node reaches: it was started on
    [ctx] in some environment and then some events happened to it. *)
Definition child_run (ctx : nat) (s : sender) (ri : res) : Prop :=
  exists e' evs', run (start e' ctx s) evs' ri.

Lemma of_child_single ctx e stp ss evs rs log i :
  Forall wt ss -> node_log ctx e stp ss evs rs log -> i < length ss -> done_count log = length ss ->
  exists ri c, nth_error rs i = Some ri /\ r_calls ri = [c] /\ of_child i log = [AChild i c].
Proof.
  intros Hws HN Hi Hd. destruct (node_log_facts Hws HN) as [HR (HS1 & HS2 & HS3)]. pose proof (Forall2_len HR) as HL.
  destruct (nth_error rs i) as [ri|] eqn:Er.
  2:{ apply nth_error_None in Er. lia. }
  exists ri. destruct (F2_nth _ HR Er) as (s & Hs & Hre).
  assert (wt s) by (rewrite Forall_forall in Hws; eapply Hws, nth_error_In; eauto).
  rewrite (HS1 _ _ Er). destruct (reached_ok H Hre) as [_ [(Hc & _)|(c & Hc & _)]].
  - pose proof (ncalls_lt i Hws HR Er Hc). lia.
  - rewrite Hc. exists c. auto.
Qed.

Lemma map_seq_nth {A} (g : nat -> A) : forall n k i, i < n -> nth_error (map g (seq k n)) i = Some (g (k + i)).
Proof.
  induction n; intros k i Hi; [lia|]. destruct i; simpl; [rewrite Nat.add_0_r; auto|].
  rewrite IHn by lia. f_equal. f_equal. lia.
Qed.

Lemma Forall2_of_nth {A B} (P : A -> B -> Prop) l1 l2 :
  length l1 = length l2 ->
  (forall i x y, nth_error l1 i = Some x -> nth_error l2 i = Some y -> P x y) -> Forall2 P l1 l2.
Proof.
  revert l2; induction l1; destruct l2; simpl; intros HL H; try discriminate; constructor.
  - apply (H 0); auto.
  - apply IHl1; auto. intros i x y Hx Hy. apply (H (S i)); auto.
Qed.

(** a value completion of when_all: every child completed with values; the result is their
    concatenation in argument order *)
Lemma facts_when_all_value cp ss e ctx evs r vs x :
  wt (WhenAll cp ss) -> run (start e ctx (WhenAll cp ss)) evs r ->
  In (Val vs, x) (r_calls r) ->
  exists vss, vs = concat vss /\
    Forall2 (fun s vi => exists ri xi, child_run ctx s ri /\ r_calls ri = [(Val vi, xi)]) ss vss.
Proof.
  intros Hw Hr Hin. destruct (@when_all_law _ _ _ _ _ _ Hw Hr) as (rs & log & HN & Hch & Hc).
  destruct Hw as [Hne Hw]. pose proof (wt_all_forall cp ss 0 Hw) as Hws.
  destruct (done_count log =? length ss) eqn:Ed; rewrite Hc in Hin; simpl in Hin; [|tauto].
  apply Nat.eqb_eq in Ed. destruct Hin as [E|[]]. injection E as E <-. unfold when_all_result in E.
  destruct (first_error cp _ log) eqn:Ef; [discriminate|].
  destruct (stop_seen log && _) eqn:Es; [discriminate|]. injection E as <-.
  eexists. split; [reflexivity|].
  destruct (node_log_facts Hws HN) as [HR _]. pose proof (Forall2_len HR) as HL.
  apply Forall2_of_nth. { rewrite map_length, seq_length. auto. }
  intros i s vi Hs Hvi.
  assert (Hi : i < length ss) by (apply nth_error_Some; congruence).
  rewrite map_seq_nth in Hvi by auto. injection Hvi as <-. simpl.
  destruct (of_child_single Hws HN Hi Ed) as (ri & [ci y] & Hri & Hci & Hof).
  assert (Hin : In (AChild i (ci, y)) log) by (apply (@of_child_in i); rewrite Hof; simpl; auto).
  pose proof (node_log_ok Hws HN) as Hok.
  rewrite child_values_of, Hof. simpl.
  destruct (F2_nth _ HR Hri) as (s' & Hs' & Hre). rewrite Hs in Hs'. injection Hs' as <-.
  destruct ci as [vi|v|].
  - rewrite Nat.eqb_refl. exists ri, y. split; auto.
  - exfalso. eapply first_error_none_err; eauto.
  - exfalso. destruct (Hok _ _ Hin) as (s' & Hs' & Hcf). apply sends_conforms in Hcf. simpl in Hcf.
    rewrite Hs in Hs'. injection Hs' as <-.
    assert (A1 : stop_seen log = true) by (apply existsb_exists; exists (AChild i (Stop, y)); auto).
    assert (A2 : existsb (fun s => sends KStop (csigs s)) ss = true)
      by (apply existsb_exists; exists s; split; auto; eapply nth_error_In; eauto).
    rewrite A1, A2 in Es. discriminate.
Qed.

Definition no_stop (evs : list event) : Prop := ~ In EStop evs.

Lemma node_log_no_stop ctx e stp ss evs rs log :
  node_log ctx e stp ss evs rs log -> no_stop evs -> stp = false -> ~ In AStop log.
Proof.
  induction 1; intros Hns Hst Hin.
  - subst stp. simpl in Hin. unfold inline_items in Hin. apply in_flat_map in Hin.
    destruct Hin as (ir & _ & Hin). apply in_map_iff in Hin. destruct Hin as (? & ? & _). discriminate.
  - apply in_app_iff in Hin. destruct Hin as [Hin|Hin].
    + apply IHnode_log; auto. intros Hx. apply Hns. apply in_app_iff. auto.
    + destruct (r_calls ri); [|destruct Hin]. apply in_map_iff in Hin. destruct Hin as (? & ? & _). discriminate.
  - apply Hns. apply in_app_iff. simpl. auto.
Qed.

Lemma first_error_none cp b log :
  (forall i c, In (AChild i c) log -> exists vs, fst c = Val vs /\ cp i (Val vs) = None) ->
  first_error cp b log = None.
Proof.
  induction log as [|[i [c y]|] log IH]; simpl; intros H; auto.
  destruct (H i (c, y)) as (vs & E & Hc); auto. simpl in E. subst c. rewrite Hc.
  destruct b; apply IH; intros; apply H; auto.
Qed.

Lemma stop_seen_none log :
  (forall i c, In (AChild i c) log -> exists vs, fst c = Val vs) -> ~ In AStop log -> stop_seen log = false.
Proof.
  induction log as [|[i [c y]|] log IH]; simpl; intros H Hn; auto.
  - destruct (H i (c, y)) as (vs & E); auto. simpl in E. subst c. apply IH; intros; eauto.
  - tauto.
Qed.

(** conversely: when all children produce values, copying them does not throw, and nobody
    requested stop, when_all completes with the values, whatever the order of completion *)
Lemma facts_when_all_all_values cp ss e ctx evs r :
  wt (WhenAll cp ss) -> run (start e ctx (WhenAll cp ss)) evs r -> e_stop e = false -> no_stop evs ->
  exists rs, Forall2 (child_run ctx) ss rs /\
    forall vss, Forall2 (fun ri vi => exists xi, r_calls ri = [(Val vi, xi)]) rs vss ->
      (forall i vi, nth_error vss i = Some vi -> cp i (Val vi) = None) ->
      exists x, r_calls r = [(Val (concat vss), x)].
Proof.
  intros Hw Hr He Hns. destruct (@when_all_law _ _ _ _ _ _ Hw Hr) as (rs & log & HN & Hch & Hc).
  destruct Hw as [Hne Hw]. pose proof (wt_all_forall cp ss 0 Hw) as Hws.
  destruct (node_log_facts Hws HN) as [HR (HS1 & HS2 & HS3)]. pose proof (Forall2_len HR) as HL.
  exists rs. split; [exact HR|]. intros vss HV Hcp. pose proof (Forall2_len HV) as HLV.
  assert (Hd : done_count log = length ss).
  { rewrite HS3, HL. clear - HV. induction HV; simpl; auto. destruct H as (xi & E).
    unfold ncalls in *. simpl. rewrite E, IHHV. auto. }
  rewrite Hd, Nat.eqb_refl in Hc. exists (last_ctx ctx log). rewrite Hc. f_equal. f_equal.
  assert (Hitem : forall i c, In (AChild i c) log ->
            exists vi, nth_error vss i = Some vi /\ fst c = Val vi).
  { intros i c Hin.
    assert (Hin' : In (AChild i c) (of_child i log)).
    { unfold of_child. apply filter_In. rewrite Nat.eqb_refl. auto. }
    destruct (nth_error rs i) as [ri|] eqn:Er.
    2:{ rewrite HS2 in Hin'; [destruct Hin'|]. apply nth_error_None in Er. auto. }
    rewrite (HS1 _ _ Er) in Hin'. apply in_map_iff in Hin'. destruct Hin' as (c' & E & Hin').
    injection E as ->.
    destruct (nth_error vss i) as [vi|] eqn:Ev.
    2:{ apply nth_error_None in Ev. assert (i < length rs) by (apply nth_error_Some; congruence). lia. }
    destruct (F2_nth _ HV Ev) as (ri' & Er' & xi & E'). rewrite Er in Er'. injection Er' as <-.
    rewrite E' in Hin'. destruct Hin' as [<-|[]]. exists vi. auto. }
  assert (Hf : forall b, first_error cp b log = None).
  { intros b. apply first_error_none. intros i c Hin. destruct (Hitem i c Hin) as (vi & Hvi & E).
    exists vi. split; eauto. }
  unfold when_all_result. rewrite Hf.
  rewrite stop_seen_none. 2:{ intros i c Hin. destruct (Hitem i c Hin) as (vi & _ & E). eauto. }
  2:{ eapply node_log_no_stop; eauto. rewrite He, andb_false_r. auto. }
  simpl. f_equal. f_equal. apply (nth_ext _ _ [] []).
  - rewrite map_length, seq_length. lia.
  - rewrite map_length, seq_length. intros i Hi.
    assert (Hi' : nth_error (map (fun i => child_values i log) (seq 0 (length ss))) i = Some (child_values i log)).
    { rewrite map_seq_nth by auto. auto. }
    rewrite (nth_error_nth _ _ [] Hi').
    destruct (nth_error vss i) as [vi|] eqn:Ev. 2:{ apply nth_error_None in Ev. lia. }
    rewrite (nth_error_nth _ _ [] Ev).
    destruct (F2_nth _ HV Ev) as (ri & Er & xi & E).
    rewrite child_values_of, (HS1 _ _ Er), E. simpl. rewrite Nat.eqb_refl. auto.
Qed.

(** the first failure decides *)
Lemma facts_when_all_first_error cp ss e ctx evs r :
  wt (WhenAll cp ss) -> run (start e ctx (WhenAll cp ss)) evs r ->
  exists rs log, node_log ctx e (ws_uses (wa_static cp ss) && e_stop e) ss evs rs log /\
    (forall l1 l2 i v x, log = l1 ++ AChild i (Err v, x) :: l2 ->
       (forall j c y, In (AChild j (c, y)) l1 -> match c with Err _ => False | _ => cp j c = None end) ->
       forall c, In c (r_calls r) -> fst c = Err (match cp i (Err v) with None => v | Some ex => VEptr ex end)) /\
    (forall v x, In (Err v, x) (r_calls r) ->
       exists i c y, In (AChild i (c, y)) log /\
         (match c with Err v' => v = match cp i c with None => v' | Some ex => VEptr ex end
                     | _ => exists ex, cp i c = Some ex /\ v = VEptr ex end)) /\
    (forall x, In (Stop, x) (r_calls r) ->
       (exists i y, In (AChild i (Stop, y)) log) \/ In AStop log) /\
    ((exists i y, In (AChild i (Stop, y)) log) ->
       (forall i c y, In (AChild i (c, y)) log -> match c with Err _ => False | _ => cp i c = None end) ->
       forall c, In c (r_calls r) -> fst c = Stop).
Proof.
  intros Hw Hr. destruct (@when_all_law _ _ _ _ _ _ Hw Hr) as (rs & log & HN & Hch & Hc).
  destruct Hw as [Hne Hw]. pose proof (wt_all_forall cp ss 0 Hw) as Hws.
  exists rs, log. split; auto.
  assert (Hres : forall c, In c (r_calls r) -> c = (when_all_result cp ss log, last_ctx ctx log)).
  { intros c Hin. rewrite Hc in Hin. destruct (_ =? _); simpl in Hin; [|tauto]. destruct Hin as [<-|[]]; auto. }
  split; [|split; [|split]].
  - intros l1 l2 i v x -> H c Hin. rewrite (Hres c Hin). simpl. unfold when_all_result. rewrite first_error_app.
    assert (E : forall b, first_error cp b l1 = None).
    { intros b. clear - H. induction l1 as [|[j [cj y]|] l1 IH]; simpl; auto.
      - specialize (H j cj y) as Hj. destruct cj; simpl in *; try tauto.
        + destruct b; [rewrite Hj by auto|]; apply IH; intros; eapply H; eauto.
        + apply IH. intros. eapply H; eauto.
      - apply IH. intros. eapply H; simpl; eauto. }
    rewrite E. reflexivity.
  - intros v x Hin. specialize (Hres _ Hin). injection Hres as E _. unfold when_all_result in E.
    destruct (first_error cp _ log) as [v'|] eqn:Ef.
    2:{ destruct (stop_seen log && _); discriminate. }
    injection E as <-. revert Ef. generalize (forallb (fun s => sends KVal (csigs s)) ss). clear.
    intros b. induction log as [|[j [cj y]|] log IH]; simpl; intros Ef; [discriminate| |].
    + destruct cj as [vs|v0|].
      * destruct (if b then cp j (Val vs) else None) as [ex|] eqn:Ex.
        -- injection Ef as <-. exists j, (Val vs), y. split; auto. destruct b; [|discriminate]. eauto.
        -- destruct (IH Ef) as (i & c & z & A & B). exists i, c, z. auto.
      * injection Ef as <-. exists j, (Err v0), y. auto.
      * destruct (IH Ef) as (i & c & z & A & B). exists i, c, z. auto.
    + destruct (IH Ef) as (i & c & z & A & B). exists i, c, z. auto.
  - intros x Hin. specialize (Hres _ Hin). injection Hres as E _. unfold when_all_result in E.
    destruct (first_error cp _ log) as [v'|] eqn:Ef; [discriminate|].
    destruct (stop_seen log) eqn:Es; simpl in E; [|discriminate].
    apply existsb_exists in Es. destruct Es as (it & Hit & Hs). destruct it as [i [[| |] y]|]; try discriminate; eauto.
  - intros (i & y & Hst) Hno c Hin. rewrite (Hres c Hin). simpl. unfold when_all_result.
    assert (E : forall b, first_error cp b log = None).
    { intros b. clear - Hno. induction log as [|[j [cj z]|] l1 IH]; simpl; auto.
      - specialize (Hno j cj z) as Hj. destruct cj; simpl in *; try tauto.
        + destruct b; [rewrite Hj by auto|]; apply IH; intros; eapply Hno; eauto.
        + apply IH. intros. eapply Hno; eauto.
      - apply IH. intros. eapply Hno; simpl; eauto. }
    rewrite E. assert (A1 : stop_seen log = true) by (apply existsb_exists; exists (AChild i (Stop, y)); auto).
    rewrite A1. simpl. pose proof (node_log_ok Hws HN) as Hok. destruct (Hok _ _ Hst) as (s & Hs & Hcf).
    apply sends_conforms in Hcf. simpl in Hcf.
    assert (A2 : existsb (fun s => sends KStop (csigs s)) ss = true)
      by (apply existsb_exists; exists s; split; auto; eapply nth_error_In; eauto).
    rewrite A2. auto.
Qed.

(** when_any: as soon as one child has completed, the others are asked to stop *)
Lemma facts_when_any_stops cp ss e ctx evs r :
  wt (WhenAny cp ss) -> run (start e ctx (WhenAny cp ss)) evs r -> e_stop e = false ->
  exists rs log, node_log ctx e false ss evs rs log /\
    (forall i c, In (AChild i c) log ->
       forall p k, leaf_at (r_op r) p = Some k -> shielded (r_op r) p = false -> leaf_stopped k = true).
Proof.
  intros Hw Hr Ee. pose proof Hw as [Hne Hw']. pose proof (@wt_any_forall' cp ss 0 Hw') as Hws.
  destruct (@ainvr_run cp ss e ctx _ _ _ Hws Hr [] (@ainvr_start cp ss e ctx Hws Hne Ee)) as (rs & log & a & HN & Ho & (A & B & C) & Hc).
  exists rs, log. split; [exact HN|]. intros i c Hin p k Hl Hsh.
  pose proof (@run_so (csigs (WhenAny cp ss)) _ _ _ Hr (start_ok _ Hw e ctx) (e_stop e) (start_so _ Hw e ctx)) as HS.
  specialize (HS (leaf_live _ _ Hl)). rewrite Ho in *. destruct HS as [Hsrc HB].
  assert (Hne' : a_res a <> None).
  { rewrite B. clear - Hin. induction log as [|[j [cj y]|] log IH]; simpl in *; try tauto; try discriminate.
    destruct Hin as [?|Hin]; [discriminate|auto]. }
  specialize (Hsrc Hne'). rewrite Hsrc, orb_true_r in HB.
  eapply so_leaf; [|exact Hl|exact Hsh]. cbn [so]. split; [intros _; exact Hsrc|]. exact HB.
Qed.
