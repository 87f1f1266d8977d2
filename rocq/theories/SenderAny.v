(** * SenderAny: when_any in terms of its children's runs. *)

From Coq Require Import List Arith Bool Lia.
From Verif Require Import SenderModel SenderSpec SenderProofs SenderSafety SenderRun SenderLaws SenderWhen.
Import ListNotations.
Set Implicit Arguments.

(** the completion of the first child to complete (or the exception its copy threw) *)
Fixpoint first_result (cp : nat -> compl -> option nat) (log : list item) : option compl :=
  match log with
  | [] => None
  | AStop :: log => first_result cp log
  | AChild i (c, _) :: _ => Some (match cp i c with None => c | Some ex => Err (VEptr ex) end)
  end.

(** the parent's stop request arrived before the last child completed *)
Definition parent_stopped (log : list item) : bool := existsb (fun it => negb (is_child it)) log.

Definition when_any_result (cp : nat -> compl -> option nat) (log : list item) : option compl :=
  if parent_stopped log then Some Stop else first_result cp log.

Lemma first_result_app cp l l' :
  first_result cp (l ++ l') = match first_result cp l with Some x => Some x | None => first_result cp l' end.
Proof. induction l as [|[i [c y]|] l IH]; simpl; auto. Qed.
Lemma parent_stopped_app l l' : parent_stopped (l ++ l') = parent_stopped l || parent_stopped l'.
Proof. apply existsb_app. Qed.

Lemma first_result_done cp log : first_result cp log = None -> done_count log = 0.
Proof. induction log as [|[i [c y]|] l IH]; simpl; intros; try discriminate; auto. Qed.

Definition any_st (cp : nat -> compl -> option nat) (n : nat) (log : list item) (a : astate) : Prop :=
  a_cnt a = n - done_count log /\ a_res a = first_result cp log /\
  (done_count log < n -> a_pstop a = parent_stopped log).

Definition any_out (cp : nat -> compl -> option nat) (n : nat) (log : list item) : list call :=
  if n - done_count log =? 0
  then match when_any_result cp log with Some c => [(c, last_ctx 0 log)] | None => [] end else [].

Lemma any_calls_all ctx (s : sender) (r : res) cp n log i a :
  wt s -> reached ctx s r -> done_count log < n -> any_st cp n log a ->
  exists a' t, any_calls cp i (r_calls r) a = (a', any_out cp n (log ++ map (AChild i) (r_calls r)), t) /\
    any_st cp n (log ++ map (AChild i) (r_calls r)) a'.
Proof.
  intros Hw Hr Hlt (A & B & C). destruct (reached_ok Hw Hr) as [_ [(Hc & _)|(c & Hc & _)]]; rewrite Hc; simpl.
  - rewrite app_nil_r. exists a, []. unfold any_out. split; [|split; auto].
    destruct (n - done_count log) eqn:E; [lia|]. auto.
  - set (L := log ++ [AChild i c]).
    assert (E : any_store cp i (fst c) a =
                {| a_res := first_result cp L; a_cnt := n - done_count log;
                   a_src := a_src (any_store cp i (fst c) a); a_pstop := parent_stopped log |}).
    { unfold any_store, L. rewrite first_result_app. simpl. destruct c as [c y]. simpl.
      rewrite <- A, <- (C Hlt). destruct (a_res a) eqn:Er; rewrite <- B; simpl; auto.
      destruct a; simpl in *; congruence. }
    assert (Hdc : done_count L = S (done_count log)).
    { unfold L. rewrite done_count_app. unfold done_count at 2. simpl. lia. }
    unfold any_arrive. rewrite E. simpl. destruct (n - done_count log =? 1) eqn:E1.
    + apply Nat.eqb_eq in E1. unfold any_out, when_any_result. rewrite Hdc.
      replace (n - S (done_count log)) with 0 by lia. simpl (0 =? 0).
      assert (Eps : parent_stopped L = parent_stopped log).
      { unfold L. rewrite parent_stopped_app. simpl. rewrite orb_false_r. auto. }
      assert (Elc : last_ctx 0 L = snd c) by (unfold L; apply last_ctx_snoc).
      rewrite Eps, Elc. destruct (parent_stopped log).
      * eexists _, _. split; [reflexivity|].
        split; [|split]; simpl; auto; lia.
      * destruct (first_result cp L) eqn:Ef.
        -- eexists _, _. split; [reflexivity|]. split; [|split]; simpl; auto; lia.
        -- exfalso. apply first_result_done in Ef. lia.
    + apply Nat.eqb_neq in E1. eexists _, _. split.
      * unfold any_out. rewrite Hdc. destruct (n - S (done_count log)) eqn:E2; [lia|]. reflexivity.
      * split; [|split]; simpl; auto; [lia|]. intros _. unfold L. rewrite parent_stopped_app. simpl.
        rewrite orb_false_r. auto.
Qed.

Lemma any_prop_stop a a' rs :
  exists rs', any_prop a a' (map r_op rs) = map r_op rs' /\ maybe_stop rs rs'.
Proof.
  unfold any_prop. destruct (_ && _).
  - exists (map stopr rs). split; [|right; auto]. rewrite !map_map. auto.
  - exists rs. split; auto. left; auto.
Qed.

Lemma any_go_log e ctx cp n : forall ss pre rs a,
  Forall wt pre -> Forall wt ss -> Forall2 (fresh ctx e) pre rs -> n = length pre + length ss ->
  any_st cp n (inline_items rs) a ->
  exists rs' a' out t,
    any_go e ctx cp (length rs) ss a (map r_op rs) = (a', map r_op rs', out, t) /\
    any_st cp n (inline_items rs') a' /\
    Forall2 (fresh ctx e) (pre ++ ss) rs' /\
    (ss = [] -> rs' = rs) /\
    (ss <> [] -> out = any_out cp n (inline_items rs')).
Proof.
  induction ss as [|s ss IH]; intros pre rs a Hp Hs HR Hn Ha.
  - exists rs, a, [], []. rewrite app_nil_r. split; auto. split; auto. split; auto. split; auto. congruence.
  - simpl. set (r := start {| e_stop := a_src a; e_sch := e_sch e |} ctx s).
    pose proof (Forall_inv Hs) as Hws. pose proof (Forall_inv_tail Hs) as Hwss.
    assert (Hfr : fresh ctx e s r).
    { exists {| e_stop := a_src a; e_sch := e_sch e |}, []. split; auto. split; auto. constructor. }
    assert (Hre : reached ctx s r) by (destruct Hfr as (e' & ev & _ & _ & ?); exists e', ev; auto).
    pose proof (Forall2_len HR) as HL.
    assert (Hd : done_count (inline_items rs) < n).
    { rewrite done_count_inline. pose proof (ncalls_le Hp (fresh_reached HR)). simpl in Hn. lia. }
    destruct (@any_calls_all ctx s r cp n (inline_items rs) (length rs) a Hws Hre Hd Ha) as (a1 & t1 & E1 & Ha1).
    rewrite E1. rewrite <- inline_items_snoc in *.
    assert (Em : map r_op rs ++ [r_op r] = map r_op (rs ++ [r])) by (rewrite map_app; auto).
    rewrite Em. destruct (any_prop_stop a a1 (rs ++ [r])) as (rs1 & Er1 & Hms). rewrite Er1.
    assert (HF : Forall2 (fresh ctx e) (pre ++ [s]) rs1).
    { eapply stops_snoc; [intros; apply fresh_stop; eauto|exact Hms|].
      apply Forall2_app; auto. }
    assert (Hin : inline_items (rs ++ [r]) = inline_items rs1)
      by (symmetry; apply inline_items_calls, maybe_stop_calls; auto).
    rewrite Hin in Ha1.
    destruct (IH (pre ++ [s]) rs1 a1) as (rs2 & a2 & out2 & t2 & E2 & Ha2 & HF2 & Hz2 & Ho2); auto.
    { apply Forall_app; auto. } { rewrite app_length. simpl in *. lia. }
    rewrite <- (Forall2_len HF), app_length in E2. simpl in E2. rewrite Nat.add_1_r, HL in E2.
    rewrite E2. eexists rs2, a2, _, _. split; [reflexivity|]. split; auto.
    rewrite <- app_assoc in HF2. simpl in HF2. split; auto. split; [discriminate|].
    intros _. rewrite Hin. destruct ss as [|s' ss].
    + rewrite Hz2 by auto. simpl in E2. injection E2 as E2a E2b E2c E2d. subst out2.
      rewrite app_nil_r. auto.
    + rewrite Ho2 by congruence. unfold any_out at 1. rewrite <- Hin.
      rewrite done_count_inline.
      assert (Hlt : ncalls (rs ++ [r]) <= length (rs ++ [r])).
      { eapply ncalls_le; [|eapply fresh_reached, Forall2_app; eauto]. apply Forall_app; auto. }
      rewrite app_length in Hlt. simpl in Hlt, Hn.
      destruct (n - ncalls (rs ++ [r])) eqn:E; [lia|]. auto.
Qed.

Definition ainvr (cp : nat -> compl -> option nat) ss e ctx (evs : list event) (r : res) : Prop :=
  exists rs log a, node_log ctx e false ss evs rs log /\
    r_op r = OAny cp a (map r_op rs) /\ any_st cp (length ss) log a /\
    r_calls r = any_out cp (length ss) log.

Lemma ainvr_start cp ss e ctx :
  Forall wt ss -> ss <> [] -> e_stop e = false -> ainvr cp ss e ctx [] (start e ctx (WhenAny cp ss)).
Proof.
  intros Hw Hne He. rewrite start_when_any. cbv zeta. rewrite He.
  destruct (@any_go_log e ctx cp (length ss) ss [] []
              {| a_res := None; a_cnt := length ss; a_src := false; a_pstop := false |})
    as (rs' & a' & out & t & E & Ha & HF & _ & Ho); auto.
  { split; [|split]; simpl; auto. unfold done_count. simpl. lia. }
  simpl length in E at 1. simpl map in E at 1. rewrite E.
  exists rs', (inline_items rs'), a'. split; [|split; [|split]]; simpl; auto.
  apply (@nl_start ctx e false ss rs'). exact HF.
Qed.

Lemma ainvr_step cp ss e ctx evs r ev r1 :
  Forall wt ss -> ainvr cp ss e ctx evs r ->
  valid_event (r_op r) ev -> step (r_op r) ev = Some r1 ->
  ainvr cp ss e ctx (evs ++ [ev]) (mkres (r_op r1) (r_calls r ++ r_calls r1) (r_obs r ++ r_obs r1)).
Proof.
  intros Hw (rs & log & a & HN & Ho & Ha & Hc) Hv Hs.
  destruct (node_log_facts Hw HN) as [HR HS]. pose proof (Forall2_len HR) as HL.
  destruct HS as (HS1 & HS2 & HS3). rewrite Ho in Hv, Hs. destruct ev as [p c|].
  - destruct Hv as (k & Hk & Hm). cbn [step] in Hs.
    destruct p as [|i p]; [discriminate|]. rewrite leaf_any in Hk. rewrite feed_any in Hs.
    destruct (nth_error (map r_op rs) i) as [o|] eqn:Ei; [|discriminate].
    apply nth_map_inv in Ei. destruct Ei as (ri & Ei & ->).
    destruct (feed (r_op ri) p c) as [rf|] eqn:Ef; [|discriminate].
    destruct (F2_nth _ HR Ei) as (s & Hsi & Hre).
    assert (Hws : wt s) by (rewrite Forall_forall in Hw; eapply Hw, nth_error_In; eauto).
    assert (Hci : r_calls ri = []).
    { destruct (reached_ok Hws Hre) as [_ [(? & _)|(c0 & _ & _ & Hl)]]; auto.
      apply leaf_live in Hk. congruence. }
    set (ri' := mkres (r_op rf) (r_calls ri ++ r_calls rf) (r_obs ri ++ r_obs rf)).
    assert (Hrun : run ri [EComplete p c] ri').
    { econstructor; [simpl; eauto|exact Ef|constructor]. }
    assert (Hre' : reached ctx s ri') by (eapply reached_run; eauto).
    assert (Hd : done_count log < length ss).
    { rewrite HS3, HL. eapply ncalls_lt; eauto. }
    assert (Ecl : r_calls ri' = r_calls rf) by (unfold ri'; simpl; rewrite Hci; auto).
    destruct (@any_calls_all ctx s ri' cp (length ss) log i a Hws Hre' Hd Ha) as (a' & t & E & Ha').
    rewrite Ecl in E, Ha'. rewrite E in Hs. injection Hs as <-. simpl.
    assert (Eu : upd (map r_op rs) i (r_op rf) = map r_op (upd rs i ri')) by (rewrite map_upd; auto).
    rewrite Eu.
    destruct (any_prop_stop a a' (upd rs i ri')) as (rs' & Er & Hms).
    exists rs', (log ++ map (AChild i) (r_calls rf)), a'. split; [|split; [|split]].
    + pose proof (nl_child _ HN Ei Hrun Hms) as HN'. rewrite Hci, Ecl in HN'. exact HN'.
    + rewrite Er. auto.
    + auto.
    + simpl. rewrite Hc. unfold any_out at 1.
      destruct (length ss - done_count log) eqn:E0; [lia|]. auto.
  - cbn [step] in Hs. injection Hs as <-. simpl r_calls. rewrite app_nil_r, Hc.
    assert (Hle : done_count log <= length ss).
    { rewrite HS3, HL. eapply ncalls_le; eauto. }
    destruct Ha as (A & B & C). cbn [mkres r_op stop_op].
    set (a' := {| a_res := a_res a; a_cnt := a_cnt a; a_src := true; a_pstop := true |}).
    assert (Hx : exists rs', maybe_stop rs rs' /\
      (if a_cnt a =? 0 then map r_op rs else if a_src a then map r_op rs else map stop_op (map r_op rs)) = map r_op rs').
    { destruct (a_cnt a =? 0); [exists rs; split; [left|]; auto|].
      destruct (a_src a); [exists rs; split; [left|]; auto|].
      exists (map stopr rs). split; [right; auto|]. rewrite !map_map. auto. }
    destruct Hx as (rs' & Hms & Hx). pose proof (nl_stop HN Hms) as HN'.
    eexists rs', _, a'. split; [exact HN'|]. split; [rewrite <- Hx; reflexivity|].
    destruct (done_count log =? length ss) eqn:Ed.
    + rewrite app_nil_r. split; [|auto]. apply Nat.eqb_eq in Ed. split; [|split]; simpl; auto. lia.
    + apply Nat.eqb_neq in Ed. split.
      * split; [|split]; simpl.
        -- rewrite A, done_count_app. unfold done_count at 3. simpl. lia.
        -- rewrite first_result_app, <- B. simpl. destruct (a_res a); auto.
        -- intros _. rewrite parent_stopped_app. simpl. rewrite orb_true_r. auto.
      * simpl. unfold any_out. rewrite done_count_app. unfold done_count at 3. simpl. rewrite Nat.add_0_r.
        destruct (length ss - done_count log) eqn:E0; [lia|]. auto.
Qed.

Lemma ainvr_run cp ss e ctx r evs r' :
  Forall wt ss -> run r evs r' -> forall evs0, ainvr cp ss e ctx evs0 r -> ainvr cp ss e ctx (evs0 ++ evs) r'.
Proof.
  intros Hw. induction 1; intros evs0 HI.
  - rewrite app_nil_r. auto.
  - replace (evs0 ++ ev :: evs) with ((evs0 ++ [ev]) ++ evs) by (rewrite <- app_assoc; auto).
    apply IHrun. eapply ainvr_step; eauto.
Qed.

Lemma wt_any_forall' cp ss : forall i, wt_any cp i ss -> Forall wt ss.
Proof. induction ss; simpl; intros; constructor; try tauto. eapply IHss. apply H. Qed.

Lemma log_children ctx e stp ss evs rs log :
  Forall wt ss -> node_log ctx e stp ss evs rs log ->
  forall i, i < length ss -> exists ri, nth_error rs i = Some ri /\
    forall c, In (AChild i c) log <-> r_calls ri = [c].
Proof.
  intros Hws HN. destruct (node_log_facts Hws HN) as [HR (HS1 & HS2 & HS3)]. pose proof (Forall2_len HR) as HL.
  intros i Hi. destruct (nth_error rs i) as [ri|] eqn:Er.
  2:{ apply nth_error_None in Er. lia. }
  exists ri. split; auto. destruct (F2_nth _ HR Er) as (s & Hs & Hre).
  assert (wt s) by (rewrite Forall_forall in Hws; eapply Hws, nth_error_In; eauto).
  pose proof (reached_one H Hre) as H1. intros c.
  assert (Hio : In (AChild i c) log <-> In (AChild i c) (of_child i log)).
  { unfold of_child. rewrite filter_In, Nat.eqb_refl. tauto. }
  rewrite Hio, (HS1 _ _ Er), in_map_iff. split.
  - intros (c' & E & Hin). injection E as ->. destruct (r_calls ri) as [|? [|]]; simpl in *; try tauto; try lia.
    destruct Hin as [->|[]]. auto.
  - intros ->. exists c. simpl. auto.
Qed.

Lemma last_ctx_any log d d' : done_count log <> 0 -> last_ctx d log = last_ctx d' log.
Proof. induction log as [|[]]; simpl; auto. unfold done_count; simpl; intros; congruence. Qed.

Theorem when_any_law cp ss e ctx evs r :
  wt (WhenAny cp ss) -> run (start e ctx (WhenAny cp ss)) evs r ->
  if e_stop e then r_calls r = [(Stop, ctx)] /\ r_obs r = []
  else exists rs log,
    node_log ctx e false ss evs rs log /\
    (forall i, i < length ss -> exists ri, nth_error rs i = Some ri /\
       forall c, In (AChild i c) log <-> r_calls ri = [c]) /\
    (if done_count log =? length ss
     then exists c, when_any_result cp log = Some c /\ r_calls r = [(c, last_ctx ctx log)]
     else r_calls r = []).
Proof.
  intros Hw Hr. destruct (e_stop e) eqn:Ee.
  - rewrite start_when_any in Hr. cbv zeta in Hr. rewrite Ee in Hr.
    match type of Hr with run ?r0 _ _ => assert (Hd : live (r_op r0) = false) by reflexivity end.
    destruct (run_dead Hr Hd) as (_ & E1 & E2 & _). simpl in *. auto.
  - destruct Hw as [Hne Hw]. pose proof (@wt_any_forall' cp ss 0 Hw) as Hws.
    destruct (@ainvr_run cp ss e ctx _ _ _ Hws Hr [] (@ainvr_start cp ss e ctx Hws Hne Ee)) as (rs & log & a & HN & Ho & Ha & Hc).
    simpl in HN. exists rs, log. split; auto. split; [eapply log_children; eauto|].
    destruct (node_log_facts Hws HN) as [HR (HS1 & HS2 & HS3)]. pose proof (Forall2_len HR) as HL.
    assert (Hle : done_count log <= length ss) by (rewrite HS3, HL; eapply ncalls_le; eauto).
    unfold any_out in Hc. destruct (done_count log =? length ss) eqn:Ed.
    + apply Nat.eqb_eq in Ed. rewrite Ed, Nat.sub_diag in Hc. simpl in Hc.
      assert (Hnz : done_count log <> 0) by (destruct ss; simpl in *; congruence).
      rewrite (@last_ctx_any log 0 ctx) in Hc by auto.
      unfold when_any_result in *. destruct (parent_stopped log); eauto.
      destruct (first_result cp log) eqn:Ef; eauto. apply first_result_done in Ef. congruence.
    + apply Nat.eqb_neq in Ed. destruct (length ss - done_count log) eqn:E; [lia|]. auto.
Qed.
