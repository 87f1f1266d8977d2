(** * SenderLaws: what each adaptor does, as laws relating its runs to its children's runs. *)

From Coq Require Import List Arith Bool Lia.
From Verif Require Import SenderModel SenderSpec SenderProofs SenderSafety SenderRun.
Import ListNotations.
Set Implicit Arguments.

(** The receiver's environment after the events [evs]. *)
Fixpoint env_after (e : env) (evs : list event) : env :=
  match evs with
  | [] => e
  | EStop :: evs => env_after (stop_env e) evs
  | EComplete _ _ :: evs => env_after e evs
  end.

Lemma env_after_app e evs1 evs2 : env_after e (evs1 ++ evs2) = env_after (env_after e evs1) evs2.
Proof. revert e; induction evs1 as [|[]]; simpl; auto. Qed.

Lemma env_after_sch e evs : e_sch (env_after e evs) = e_sch e.
Proof. revert e; induction evs as [|[]]; simpl; auto. intros; rewrite IHevs; auto. Qed.

Lemma run_app r evs1 evs2 r' :
  run r (evs1 ++ evs2) r' <-> exists r1, run r evs1 r1 /\ run r1 evs2 r'.
Proof.
  split.
  - revert r; induction evs1; simpl; intros r H.
    + exists r. split; auto. constructor.
    + inversion H; subst. destruct (IHevs1 _ H6) as (x & A & B). exists x. split; auto.
      econstructor; eauto.
  - revert r; induction evs1; simpl; intros r (r1 & A & B).
    + inversion A; subst; auto.
    + inversion A; subst. econstructor; eauto.
Qed.

(** calls and effects only accumulate *)
Lemma run_prefix r evs r' :
  run r evs r' -> forall cs t,
  run (mkres (r_op r) (cs ++ r_calls r) (t ++ r_obs r)) evs
      (mkres (r_op r') (cs ++ r_calls r') (t ++ r_obs r')).
Proof.
  induction 1; intros cs t.
  - constructor.
  - econstructor; eauto. simpl. rewrite <- !app_assoc. apply IHrun.
Qed.

Lemma run_strip o cs t evs r' :
  run (mkres o cs t) evs r' ->
  exists cs' t', r_calls r' = cs ++ cs' /\ r_obs r' = t ++ t' /\
    run (mkres o [] []) evs (mkres (r_op r') cs' t').
Proof.
  intros H. remember (mkres o cs t) as r. revert o cs t Heqr.
  induction H; intros o cs t ->.
  - exists [], []. simpl. rewrite !app_nil_r. repeat split; auto. constructor.
  - simpl in *. destruct (IHrun _ _ _ eq_refl) as (cs' & t' & E1 & E2 & Hr).
    exists (r_calls r1 ++ cs'), (r_obs r1 ++ t'). rewrite E1, E2, !app_assoc.
    repeat split; auto. econstructor; eauto. simpl.
    generalize (run_prefix Hr (r_calls r1) (r_obs r1)). simpl. rewrite !app_nil_r. auto.
Qed.

Lemma mkres_eta r : mkres (r_op r) (r_calls r) (r_obs r) = r.
Proof. destruct r; auto. Qed.

(** after completion: nothing but stop requests *)
Lemma run_dead r evs r' :
  run r evs r' -> live (r_op r) = false ->
  Forall (eq EStop) evs /\ r_calls r' = r_calls r /\ r_obs r' = r_obs r /\ live (r_op r') = false.
Proof.
  induction 1; intros Hl; auto.
  destruct (@step_dead _ _ _ Hl H H0) as (-> & E1 & E2 & E3).
  destruct IHrun as (A & B & C & D); auto. simpl in *.
  rewrite E1, app_nil_r in B. rewrite E2, app_nil_r in C. auto.
Qed.

Lemma run_stops o cs t evs :
  live o = false -> Forall (eq EStop) evs ->
  exists r', run (mkres o cs t) evs r' /\ r_calls r' = cs /\ r_obs r' = t /\ live (r_op r') = false.
Proof.
  intros Hl H. revert o cs t Hl. induction H; intros o cs t Hl.
  - eexists. split; [constructor|]. auto.
  - subst. destruct (IHForall (stop_op o) cs t) as (r' & A & B). { rewrite live_stop; auto. }
    exists r'. split; auto. econstructor; [exact I|reflexivity|]. simpl. rewrite !app_nil_r. auto.
Qed.

(** ** Adaptors that transform the completion in place *)

Section Wrap.
  Variables (mk : op -> op) (h : call -> list call * list obs) (Sg : list sig).
  Hypothesis Hfeed : forall o p c, feed (mk o) p c = option_map (wrap mk h) (feed o p c).
  Hypothesis Hstop : forall o, stop_op (mk o) = mk (stop_op o).
  Hypothesis Hleaf : forall o p, leaf_at (mk o) p = leaf_at o p.

  Lemma wrap_valid o ev : valid_event (mk o) ev <-> valid_event o ev.
  Proof. destruct ev; simpl; [|tauto]. rewrite Hleaf. tauto. Qed.

  Lemma wrap_step o ev : step (mk o) ev = option_map (wrap mk h) (step o ev).
  Proof. destruct ev; simpl; auto. rewrite Hstop. auto. Qed.

  Lemma wrap_acc rc r1 ev :
    okres Sg rc -> valid_event (r_op rc) ev -> step (r_op rc) ev = Some r1 ->
    mkres (r_op (wrap mk h r1)) (r_calls (wrap mk h rc) ++ r_calls (wrap mk h r1))
          (r_obs (wrap mk h rc) ++ r_obs (wrap mk h r1)) =
    wrap mk h (mkres (r_op r1) (r_calls rc ++ r_calls r1) (r_obs rc ++ r_obs r1)).
  Proof.
    intros [Hub [(Hc & Hl & Ho)|(c & Hc & Hcf & Hl)]] Hv Hs.
    - unfold wrap. rewrite Hc. simpl. destruct (r_calls r1); auto.
      destruct (h c). simpl. rewrite !app_assoc. auto.
    - destruct (@step_dead _ _ _ Hl Hv Hs) as (-> & E1 & E2 & E3).
      unfold wrap. rewrite E1, E2, Hc. simpl. destruct (h c). simpl.
      rewrite !app_nil_r. auto.
  Qed.

  Lemma wrap_run rc evs rp' :
    okres Sg rc -> run (wrap mk h rc) evs rp' <-> exists rc', run rc evs rc' /\ rp' = wrap mk h rc'.
  Proof.
    intros Hok. split.
    - intros Hr. remember (wrap mk h rc) as rp. revert rc Heqrp Hok.
      induction Hr; intros rc -> Hok.
      + exists rc. split; auto. constructor.
      + assert (Ho : r_op (wrap mk h rc) = mk (r_op rc)).
        { unfold wrap. destruct (r_calls rc); auto. destruct (h c); auto. }
        rewrite Ho in *. rewrite wrap_valid in H. rewrite wrap_step in H0.
        destruct (step (r_op rc) ev) as [rc1|] eqn:Es; [|discriminate].
        injection H0 as <-. rewrite (@wrap_acc rc rc1 ev) in IHHr; auto.
        destruct (IHHr _ eq_refl) as (rc' & A & B).
        { eapply run_okres; [|exact Hok]. econstructor; eauto. constructor. }
        exists rc'. split; auto. econstructor; eauto.
    - intros (rc' & Hr & ->). induction Hr.
      + constructor.
      + assert (Ho : r_op (wrap mk h r) = mk (r_op r)).
        { unfold wrap. destruct (r_calls r); auto. destruct (h c); auto. }
        econstructor.
        * rewrite Ho. apply wrap_valid; auto.
        * rewrite Ho, wrap_step, H0. reflexivity.
        * rewrite (@wrap_acc r r1 ev); auto. apply IHHr.
          eapply run_okres; [|exact Hok]. econstructor; eauto. constructor.
  Qed.
End Wrap.

Section Pass.
  Variables (mk : op -> op).
  Hypothesis Hfeed : forall o p c, feed (mk o) p c = option_map (pass mk) (feed o p c).
  Hypothesis Hstop : forall o, stop_op (mk o) = mk (stop_op o).
  Hypothesis Hleaf : forall o p, leaf_at (mk o) p = leaf_at o p.
  Lemma pass_run rc evs rp' :
    run (pass mk rc) evs rp' <-> exists rc', run rc evs rc' /\ rp' = pass mk rc'.
  Proof.
    assert (Hv : forall o ev, valid_event (mk o) ev <-> valid_event o ev).
    { intros o [p c|]; simpl; [|tauto]. rewrite Hleaf. tauto. }
    assert (Hs : forall o ev, step (mk o) ev = option_map (pass mk) (step o ev)).
    { intros o [p c|]; simpl; auto. rewrite Hstop; auto. }
    split.
    - intros Hr. remember (pass mk rc) as rp. revert rc Heqrp.
      induction Hr; intros rc ->.
      + exists rc. split; auto. constructor.
      + simpl in *. rewrite Hv in H. rewrite Hs in H0.
        destruct (step (r_op rc) ev) as [rc1|] eqn:Es; [|discriminate].
        injection H0 as <-. simpl in *.
        destruct (IHHr (mkres (r_op rc1) (r_calls rc ++ r_calls rc1) (r_obs rc ++ r_obs rc1)) eq_refl)
          as (rc' & A & B).
        exists rc'. split; auto. econstructor; eauto.
    - intros (rc' & Hr & ->). induction Hr.
      + constructor.
      + econstructor; [simpl; apply Hv; eauto|simpl; rewrite Hs, H0; reflexivity|]. apply IHHr.
  Qed.
End Pass.

(** ** Adaptors with a second phase *)

Section Bind.
  Variables (mk : env -> op -> op) (h : env -> call -> op -> res) (Sg : list sig).
  Hypothesis Hfeed : forall e o p c, feed (mk e o) p c = option_map (bindr (mk e) (h e)) (feed o p c).
  Hypothesis Hstop : forall e o, stop_op (mk e o) = mk (stop_env e) (stop_op o).
  Hypothesis Hleaf : forall e o p, leaf_at (mk e o) p = leaf_at o p.

  Lemma bind_valid e o ev : valid_event (mk e o) ev <-> valid_event o ev.
  Proof. destruct ev; simpl; [|tauto]. rewrite Hleaf. tauto. Qed.

  (** phase 1 only, or phase 1 followed by what the handler sets up *)
  Lemma bind_run e rc evs rp' :
    okres Sg rc ->
    run (bindr (mk e) (h e) rc) evs rp' ->
    exists evs1 evs2 rc1, evs = evs1 ++ evs2 /\ run rc evs1 rc1 /\
      let e1 := env_after e evs1 in
      ((r_calls rc1 = [] /\ evs2 = [] /\ rp' = mkres (mk e1 (r_op rc1)) [] (r_obs rc1)) \/
       (exists c, r_calls rc1 = [c] /\
          run (mkres (r_op (h e1 c (r_op rc1))) (r_calls (h e1 c (r_op rc1)))
                     (r_obs rc1 ++ r_obs (h e1 c (r_op rc1)))) evs2 rp')).
  Proof.
    intros Hok.
    intros Hr. remember (bindr (mk e) (h e) rc) as rp. revert e rc Heqrp Hok.
      induction Hr; intros e rc -> Hok.
      + exists [], [], rc. split; auto. split; [constructor|]. simpl.
        destruct Hok as [_ [(Hc & Hl & Ho)|(c & Hc & Hcf & Hl)]]; unfold bindr; rewrite Hc.
        * left. auto.
        * right. exists c. split; auto. rewrite app_nil_r. constructor.
      + pose proof Hok as [Hub [(Hc & Hl & Ho)|(c & Hc & Hcf & Hl)]].
        * assert (E : bindr (mk e) (h e) rc = mkres (mk e (r_op rc)) [] (r_obs rc)).
          { unfold bindr. rewrite Hc. auto. }
          rewrite E in *. simpl in *. rewrite bind_valid in H.
          destruct ev as [p c|].
          -- simpl in H0. rewrite Hfeed in H0. destruct (feed (r_op rc) p c) as [rc1|] eqn:Ef; [|discriminate].
             injection H0 as <-.
             assert (Hstp : run rc [EComplete p c]
                        (mkres (r_op rc1) (r_calls rc ++ r_calls rc1) (r_obs rc ++ r_obs rc1))).
             { econstructor; eauto. constructor. }
             assert (Ok1 := run_okres Hstp Hok).
             destruct (IHHr e (mkres (r_op rc1) (r_calls rc ++ r_calls rc1) (r_obs rc ++ r_obs rc1)))
               as (evs1 & evs2 & rc2 & A & B & C); auto.
             { unfold bindr. simpl. rewrite Hc. simpl. destruct (r_calls rc1); simpl; auto.
               rewrite app_assoc. auto. }
             exists (EComplete p c :: evs1), evs2, rc2. split; [simpl; congruence|].
             split; auto. econstructor; eauto.
          -- simpl in H0. injection H0 as <-. simpl in *.
             assert (Hstp : run rc [EStop] (mkres (stop_op (r_op rc)) (r_calls rc ++ []) (r_obs rc ++ []))).
             { econstructor; [exact I|reflexivity|]. constructor. }
             assert (Ok1 := run_okres Hstp Hok).
             destruct (IHHr (stop_env e) (mkres (stop_op (r_op rc)) (r_calls rc ++ []) (r_obs rc ++ [])))
               as (evs1 & evs2 & rc2 & A & B & C); auto.
             { unfold bindr. simpl. rewrite Hc. simpl. rewrite Hstop. auto. }
             exists (EStop :: evs1), evs2, rc2. split; [simpl; congruence|].
             split; auto. econstructor; [exact I|reflexivity|]. exact B.
        * exists [], (ev :: evs), rc. split; auto. split; [constructor|]. right. exists c.
          split; auto. simpl.
          assert (E : bindr (mk e) (h e) rc =
                      mkres (r_op (h e c (r_op rc))) (r_calls (h e c (r_op rc)))
                            (r_obs rc ++ r_obs (h e c (r_op rc)))).
          { unfold bindr. rewrite Hc, app_nil_r. auto. }
          rewrite <- E. econstructor; eauto.
  Qed.
End Bind.

(** ** C04: then / upon_error / upon_stopped *)

(** The predecessor's run [r1] determines the adaptor's calls and effects. *)
Definition then_spec (k : chan) (fid : nat) (f : list val -> fres) (r1 r : res) : Prop :=
  match r_calls r1 with
  | [] => r_calls r = [] /\ r_obs r = r_obs r1
  | (c, x) :: _ =>
      if chan_eqb (compl_chan c) k then
        r_obs r = r_obs r1 ++ [OCall fid (compl_args c)] /\
        r_calls r = [(match f (compl_args c) with FRet vs => Val vs | FThrow ex => Err (VEptr ex) end, x)]
      else r_obs r = r_obs r1 /\ r_calls r = [(c, x)]
  end.

Theorem fun_law k fid ft f s e ctx evs r :
  wt (Fun k fid ft f s) -> run (start e ctx (Fun k fid ft f s)) evs r ->
  exists r1, run (start e ctx s) evs r1 /\ then_spec k fid f r1 r.
Proof.
  intros [Hw Hf] Hr. simpl in Hr.
  apply (@wrap_run _ _ (csigs s)) in Hr; auto; [|apply start_ok; auto].
  destruct Hr as (r1 & Hr & ->). exists r1. split; auto.
  destruct (run_start_ok Hw Hr) as [_ [(Hc & _)|([c x] & Hc & _)]];
    unfold then_spec, wrap; rewrite Hc; simpl; auto.
  unfold fun_handle. simpl. destruct (chan_eqb _ _); simpl.
  - destruct (f (compl_args c)); simpl; auto.
  - rewrite app_nil_r. auto.
Qed.

(** ** C12: into_variant, stopped_as_optional *)
Theorem into_variant_law cp s e ctx evs r :
  wt s -> run (start e ctx (IntoVariant cp s)) evs r ->
  exists r1, run (start e ctx s) evs r1 /\ r_obs r = r_obs r1 /\
    match r_calls r1 with
    | [] => r_calls r = []
    | (Val vs, x) :: _ =>
        r_calls r = [(match cp vs with None => Val [VVar vs] | Some ex => Err (VEptr ex) end, x)]
    | (c, x) :: _ => r_calls r = [(c, x)]
    end.
Proof.
  intros Hw Hr. simpl in Hr.
  apply (@wrap_run _ _ (csigs s)) in Hr; auto; [|apply start_ok; auto].
  destruct Hr as (r1 & Hr & ->). exists r1. split; auto.
  destruct (run_start_ok Hw Hr) as [_ [(Hc & _)|([c x] & Hc & _)]];
    unfold wrap; rewrite Hc; simpl; auto. rewrite !app_nil_r. split; auto.
  unfold var_handle. destruct c; simpl; auto. destruct (cp vs); auto.
Qed.

Theorem stopped_as_optional_law cp s e ctx evs r :
  wt (StoppedAsOptional cp s) -> run (start e ctx (StoppedAsOptional cp s)) evs r ->
  exists r1, run (start e ctx s) evs r1 /\ r_obs r = r_obs r1 /\
    match r_calls r1 with
    | [] => r_calls r = []
    | (Val vs, x) :: _ =>
        exists v, vs = [v] /\
        r_calls r = [(match cp vs with None => Val [VOpt (Some v)] | Some ex => Err (VEptr ex) end, x)]
    | (Stop, x) :: _ => r_calls r = [(Val [VOpt None], x)]
    | (Err ex, x) :: _ => r_calls r = [(Err ex, x)]
    end.
Proof.
  intros (Hw & t & Ht & Hu & _) Hr. simpl in Hr.
  apply (@wrap_run _ _ (csigs s)) in Hr; auto; [|apply start_ok; auto].
  destruct Hr as (r1 & Hr & ->). exists r1. split; auto.
  destruct (run_start_ok Hw Hr) as [_ [(Hc & _)|([c x] & Hc & (sg & Hsg & Hm) & _)]];
    unfold wrap; rewrite Hc; simpl; auto. rewrite !app_nil_r. split; auto.
  unfold opt_handle. destruct c; simpl in *; auto.
  destruct sg; simpl in Hm; try tauto. rewrite (Hu _ Hsg) in Hm.
  inversion Hm as [|v ? ? ? Hv Hn]; subst. inversion Hn; subst.
  exists v. split; auto. destruct (cp [v]); auto.
Qed.

(** ** C37 (sequential part): bulk *)

(** calls for indices i, i+1, ..., stopping at the first one that throws *)
Inductive bulk_calls (fid : nat) (f : nat -> list val -> option nat) (vs : list val)
  : nat -> nat -> option nat -> list obs -> Prop :=
| bc_end i : bulk_calls fid f vs i i None []
| bc_throw i n ex : i < n -> f i vs = Some ex -> bulk_calls fid f vs i n (Some ex) [OIndex fid i]
| bc_next i n r t : i < n -> f i vs = None -> bulk_calls fid f vs (S i) n r t ->
    bulk_calls fid f vs i n r (OIndex fid i :: t).

Lemma bulk_loop_calls fid f vs : forall todo i,
  bulk_calls fid f vs i (i + todo) (fst (bulk_loop fid f vs i todo)) (snd (bulk_loop fid f vs i todo)).
Proof.
  induction todo; intros i; simpl.
  - rewrite Nat.add_0_r. constructor.
  - destruct (f i vs) eqn:E; simpl.
    + apply bc_throw; auto. lia.
    + specialize (IHtodo (S i)). rewrite Nat.add_succ_comm in IHtodo.
      destruct (bulk_loop fid f vs (S i) todo); simpl in *. apply bc_next; auto. lia.
Qed.

Lemma bulk_calls_all fid f vs i n t :
  i <= n -> bulk_calls fid f vs i n None t -> t = map (OIndex fid) (seq i (n - i)).
Proof.
  intros Hle H. remember None as ro. induction H; subst; try discriminate.
  - rewrite Nat.sub_diag. auto.
  - rewrite IHbulk_calls; auto. replace (n - i) with (S (n - S i)) by lia. auto.
Qed.

Theorem bulk_law fid n fnt f s e ctx evs r :
  wt s -> run (start e ctx (Bulk fid n fnt f s)) evs r ->
  exists r1, run (start e ctx s) evs r1 /\
    match r_calls r1 with
    | [] => r_calls r = [] /\ r_obs r = r_obs r1
    | (Val vs, x) :: _ =>
        exists out t, bulk_calls fid f vs 0 n out t /\ r_obs r = r_obs r1 ++ t /\
          r_calls r = [(match out with None => Val vs | Some ex => Err (VEptr ex) end, x)] /\
          (out = None -> t = map (OIndex fid) (seq 0 n))
    | (c, x) :: _ => r_calls r = [(c, x)] /\ r_obs r = r_obs r1
    end.
Proof.
  intros Hw Hr. simpl in Hr.
  apply (@wrap_run _ _ (csigs s)) in Hr; auto; [|apply start_ok; auto].
  destruct Hr as (r1 & Hr & ->). exists r1. split; auto.
  destruct (run_start_ok Hw Hr) as [_ [(Hc & _)|([c x] & Hc & _)]];
    unfold wrap; rewrite Hc; simpl; auto.
  unfold bulk_handle. destruct c; simpl; rewrite ?app_nil_r; auto.
  pose proof (bulk_loop_calls fid f vs n 0) as HB. simpl in HB.
  destruct (bulk_loop fid f vs 0 n) as [[ex|] t]; simpl in *; exists (Some ex), t || exists None, t;
    (repeat split; auto); try discriminate.
  intros _. apply bulk_calls_all in HB; [|lia]. rewrite Nat.sub_0_r in HB. auto.
Qed.

Lemma run_unprefix t r0 evs r :
  run (mkres (r_op r0) (r_calls r0) (t ++ r_obs r0)) evs r ->
  exists r', run r0 evs r' /\ r_op r = r_op r' /\ r_calls r = r_calls r' /\ r_obs r = t ++ r_obs r'.
Proof.
  intros H. remember (mkres (r_op r0) (r_calls r0) (t ++ r_obs r0)) as rr. revert r0 Heqrr.
  induction H; intros r0 ->.
  - exists r0. split; [constructor|]. auto.
  - simpl in *.
    destruct (IHrun (mkres (r_op r1) (r_calls r0 ++ r_calls r1) (r_obs r0 ++ r_obs r1)))
      as (r2 & A & B). { simpl. rewrite app_assoc. auto. }
    exists r2. split; auto. econstructor; eauto.
Qed.

(** ** C05: let_value / let_error / let_stopped *)
Theorem let_law k fid lt thr f s e ctx evs r :
  wt (Let k fid lt thr f s) -> run (start e ctx (Let k fid lt thr f s)) evs r ->
  exists evs1 evs2 r1, evs = evs1 ++ evs2 /\ run (start e ctx s) evs1 r1 /\
    match r_calls r1 with
    | [] => evs2 = [] /\ r_calls r = [] /\ r_obs r = r_obs r1
    | (c, x) :: _ =>
        if chan_eqb (compl_chan c) k then
          match thr (compl_args c) with
          | Some ex => r_calls r = [(Err (VEptr ex), x)] /\
                       r_obs r = r_obs r1 ++ [OCall fid (compl_args c)]
          | None => exists r2, run (start (env_after e evs1) x (f (compl_args c))) evs2 r2 /\
                      r_calls r = r_calls r2 /\
                      r_obs r = r_obs r1 ++ [OCall fid (compl_args c)] ++ r_obs r2
          end
        else r_calls r = [(c, x)] /\ r_obs r = r_obs r1
    end.
Proof.
  intros [Hw Hf] Hr. simpl in Hr.
  apply (@bind_run (OLet1 k fid lt thr f)
           (fun e => let_next k fid thr (fun args c => start e c (f args)) (OLet1 k fid lt thr f e))
           (csigs s)) in Hr; auto; [|apply start_ok; auto].
  destruct Hr as (evs1 & evs2 & r1 & -> & Hr1 & Hr). exists evs1, evs2, r1.
  split; auto. split; auto.
  destruct Hr as [(Hc & -> & ->)|([c x] & Hc & Hr)]; rewrite Hc; auto.
  destruct (run_start_ok Hw Hr1) as [_ [(Hc' & _)|(c' & Hc' & _ & Hl)]]; [congruence|].
  unfold let_next in Hr. simpl in Hr. destruct (chan_eqb (compl_chan c) k).
  - destruct (thr (compl_args c)).
    + simpl in Hr. destruct (run_dead Hr) as (_ & A & B & _); auto.
    + rewrite (destroy_dead _ Hl) in Hr. simpl in Hr.
      set (rs := start (env_after e evs1) x (f (compl_args c))) in *.
      replace (r_obs r1 ++ OCall fid (compl_args c) :: r_obs rs) with
        ((r_obs r1 ++ [OCall fid (compl_args c)]) ++ r_obs (pass OLet2 rs)) in Hr
        by (rewrite <- app_assoc; auto).
      apply (@run_unprefix _ (pass OLet2 rs)) in Hr. destruct Hr as (r' & Hr & A & B & C).
      apply (@pass_run OLet2) in Hr; auto. destruct Hr as (r2 & Hr & ->).
      exists r2. split; auto. split; auto. rewrite C, <- app_assoc. auto.
  - simpl in Hr. destruct (run_dead Hr) as (_ & A & B & _); auto.
    rewrite app_nil_r in B. auto.
Qed.

(** ** C10: sequence *)
Theorem seq_law cthr cnt s1 s2 e ctx evs r :
  wt (Seq cthr cnt s1 s2) -> run (start e ctx (Seq cthr cnt s1 s2)) evs r ->
  exists evs1 evs2 r1, evs = evs1 ++ evs2 /\ run (start e ctx s1) evs1 r1 /\
    match r_calls r1 with
    | [] => evs2 = [] /\ r_calls r = [] /\ r_obs r = r_obs r1
    | (Val _, x) :: _ =>
        match cthr with
        | Some ex => r_calls r = [(Err (VEptr ex), x)] /\ r_obs r = r_obs r1
        | None => exists r2, run (start (env_after e evs1) x s2) evs2 r2 /\
                    r_calls r = r_calls r2 /\ r_obs r = r_obs r1 ++ r_obs r2
        end
    | (c, x) :: _ => r_calls r = [(c, x)] /\ r_obs r = r_obs r1
    end.
Proof.
  intros (Hw & Hw2 & Hf) Hr. simpl in Hr.
  apply (@bind_run (OSeq1 cthr cnt s2)
           (fun e => seq_next cthr (fun c => start e c s2) (OSeq1 cthr cnt s2 e))
           (csigs s1)) in Hr; auto; [|apply start_ok; auto].
  destruct Hr as (evs1 & evs2 & r1 & -> & Hr1 & Hr). exists evs1, evs2, r1.
  split; auto. split; auto.
  destruct Hr as [(Hc & -> & ->)|([c x] & Hc & Hr)]; rewrite Hc; auto.
  destruct (run_start_ok Hw Hr1) as [_ [(Hc' & _)|(c' & Hc' & _ & Hl)]]; [congruence|].
  unfold seq_next in Hr. simpl in Hr. destruct c.
  - destruct cthr.
    + simpl in Hr. destruct (run_dead Hr) as (_ & A & B & _); auto. rewrite app_nil_r in B; auto.
    + rewrite (destroy_dead _ Hl) in Hr. simpl in Hr.
      set (rs := start (env_after e evs1) x s2) in *.
      apply (@run_unprefix _ (pass OSeq2 rs)) in Hr. destruct Hr as (r' & Hr & A & B & C).
      apply (@pass_run OSeq2) in Hr; auto. destruct Hr as (r2 & Hr & ->).
      exists r2. auto.
  - simpl in Hr. destruct (run_dead Hr) as (_ & A & B & _); auto. rewrite app_nil_r in B; auto.
  - simpl in Hr. destruct (run_dead Hr) as (_ & A & B & _); auto. rewrite app_nil_r in B; auto.
Qed.

(** ** C09: finally *)

(** what is replayed when the cleanup sender completes with [c2] *)
Definition fin_replay (stored c2 : compl) : compl :=
  match c2 with Val _ => stored | _ => c2 end.

Theorem finally_law cp s1 s2 e ctx evs r :
  wt (Finally cp s1 s2) -> run (start e ctx (Finally cp s1 s2)) evs r ->
  exists evs1 evs2 r1, evs = evs1 ++ evs2 /\ run (start e ctx s1) evs1 r1 /\
    match r_calls r1 with
    | [] => evs2 = [] /\ r_calls r = [] /\ r_obs r = r_obs r1
    | (c, x) :: _ =>
        (* s1's operation is finished (and then destroyed) *)
        live (r_op r1) = false /\
        ((* copying the result threw: s2 never runs *)
         (exists ex, sends KVal (csigs s2) = true /\ cp c = Some ex /\
            r_calls r = [(Err (VEptr ex), x)] /\ r_obs r = r_obs r1) \/
         ((sends KVal (csigs s2) = true -> cp c = None) /\
          exists r2, run (start (env_after e evs1) x s2) evs2 r2 /\
            r_obs r = r_obs r1 ++ r_obs r2 /\
            r_calls r = map (fun c2 => (fin_replay c (fst c2), snd c2)) (r_calls r2)))
    end.
Proof.
  intros (Hw & Hw2 & Hf) Hr. simpl in Hr.
  apply (@bind_run (OFin1 cp s2)
           (fun e => fin_next cp (sends KVal (csigs s2)) (fun c => start e c s2))
           (csigs s1)) in Hr; auto; [|apply start_ok; auto].
  destruct Hr as (evs1 & evs2 & r1 & -> & Hr1 & Hr). exists evs1, evs2, r1.
  split; auto. split; auto.
  destruct Hr as [(Hc & -> & ->)|([c x] & Hc & Hr)]; rewrite Hc; auto.
  destruct (run_start_ok Hw Hr1) as [_ [(Hc' & _)|(c' & Hc' & Hcf & Hl)]]; [congruence|].
  split; auto.
  unfold fin_next in Hr. simpl in Hr. rewrite (destroy_dead _ Hl) in Hr.
  set (rs := start (env_after e evs1) x s2) in *.
  assert (Hgo : forall st, run (mkres (r_op (wrap (OFin2 st) (fin2_handle st) rs))
                                   (r_calls (wrap (OFin2 st) (fin2_handle st) rs))
                                   (r_obs r1 ++ r_obs (wrap (OFin2 st) (fin2_handle st) rs))) evs2 r ->
            match st with None => sends KVal (csigs s2) = false | Some y => y = c end ->
            exists r2, run rs evs2 r2 /\
            r_obs r = r_obs r1 ++ r_obs r2 /\
            r_calls r = map (fun c2 => (fin_replay c (fst c2), snd c2)) (r_calls r2)).
  { intros st Hst Hs. apply run_unprefix in Hst. destruct Hst as (r' & Hst & A & B & C).
    apply (@wrap_run _ _ (csigs s2)) in Hst; auto; [|apply start_ok; auto].
    destruct Hst as (r2 & Hst & ->). exists r2. split; auto.
    destruct (run_start_ok Hw2 Hst) as [_ [(Hc2 & _)|([c2 y] & Hc2 & Hcf2 & Hl2)]];
      rewrite B, C; unfold wrap; rewrite Hc2; simpl; auto.
    rewrite !app_nil_r. split; auto. unfold fin2_handle, fin_replay. simpl.
    destruct c2; auto. destruct st; [subst; auto|].
    apply sends_conforms in Hcf2. simpl in Hcf2. congruence. }
  destruct (sends KVal (csigs s2)) eqn:Es.
  - destruct (cp c) eqn:Ecp; simpl in Hr.
    + left. exists n. destruct (run_dead Hr) as (_ & A & B & _); auto. rewrite app_nil_r in B; auto.
    + right. split; auto. apply (Hgo (Some c)); auto.
  - right. split; [discriminate|]. apply (Hgo None); auto.
Qed.

(** ** C08: schedulers *)

Lemma sched_run sch sg stp evs r :
  run (mkres (OSched sch sg stp) [] []) evs r ->
  r_obs r = [] /\
  ((r_calls r = [] /\ exists stp', r_op r = OSched sch sg stp') \/
   exists c, r_calls r = [c] /\ leaf_may (LkSched sch sg stp) c).
Proof.
  intros H. remember (mkres (OSched sch sg stp) [] []) as rr. revert stp Heqrr.
  induction H; intros stp ->; simpl in *.
  - split; auto. left. eauto.
  - destruct ev as [p c|].
    + destruct H as (k & Hk & Hm). simpl in *. destruct p; [|discriminate].
      injection Hk as <-. injection H0 as <-. simpl in *.
      destruct (run_dead H1) as (_ & A & B & _); auto. simpl in *. split; auto.
      right. exists c. split; auto.
    + simpl in H0. injection H0 as <-. simpl in *. eapply IHrun; reflexivity.
Qed.

Theorem continues_on_law cp sch sg s e ctx evs r :
  wt (ContinuesOn cp sch sg s) -> run (start e ctx (ContinuesOn cp sch sg s)) evs r ->
  exists evs1 evs2 r1, evs = evs1 ++ evs2 /\ run (start e ctx s) evs1 r1 /\ r_obs r = r_obs r1 /\
    match r_calls r1 with
    | [] => evs2 = [] /\ r_calls r = []
    | (c, x) :: _ =>
        match cp c with
        | Some ex => r_calls r = [(Err (VEptr ex), x)]
        | None =>
            (* waiting for the scheduler *)
            r_calls r = [] \/
            (* the scheduler resumed us: s's own completion, on sch *)
            r_calls r = [(c, sch)] \/
            (* schedule() itself failed or was stopped *)
            exists c' y, r_calls r = [(c', y)] /\ conforms (drop_vals sg) c'
        end
    end.
Proof.
  intros (Hw & Hcp) Hr. simpl in Hr.
  apply (@bind_run (OCon1 cp sch sg) (fun e => con_next cp sch sg e (OCon1 cp sch sg e))
           (csigs s)) in Hr; auto; [|apply start_ok; auto].
  destruct Hr as (evs1 & evs2 & r1 & -> & Hr1 & Hr). exists evs1, evs2, r1.
  split; auto. split; auto.
  destruct Hr as [(Hc & -> & ->)|([c x] & Hc & Hr)]; rewrite Hc; auto.
  destruct (run_start_ok Hw Hr1) as [_ [(Hc' & _)|(c' & Hc' & Hcf & Hl)]]; [congruence|].
  unfold con_next in Hr. simpl in Hr. rewrite (destroy_dead _ Hl) in Hr.
  destruct (cp c); simpl in Hr.
  - destruct (run_dead Hr) as (_ & A & B & _); auto. rewrite app_nil_r in B; auto.
  - set (rs := mkres (OSched sch sg (e_stop (env_after e evs1))) [] []) in *.
    apply (@run_unprefix _ (wrap (OCon2 c) (con2_handle c) rs)) in Hr.
    destruct Hr as (r' & Hr & A & B & C).
    apply (@wrap_run _ _ (SVal [] :: drop_vals sg)) in Hr; auto.
    2:{ apply okres_running; auto. split; auto. apply incl_refl. }
    destruct Hr as (r2 & Hr & ->). apply sched_run in Hr.
    destruct Hr as (Ho & [(Hcs & _)|([c2 y] & Hcs & Hm)]);
      rewrite B, C; unfold wrap; rewrite Hcs, Ho; simpl; rewrite ?app_nil_r; auto.
    split; auto. unfold con2_handle. simpl in *. destruct Hm as [[-> ->]|Hm]; auto.
    right; right. destruct c2; [|eauto|eauto].
    exfalso. destruct Hm as (sx & Hin & Hmx). unfold drop_vals in Hin. apply filter_In in Hin.
    destruct sx; simpl in *; try tauto. destruct Hin; discriminate.
Qed.

Theorem starts_on_law cthr cnt sch sg s e ctx evs r :
  wt (StartsOn cthr cnt sch sg s) -> run (start e ctx (StartsOn cthr cnt sch sg s)) evs r ->
  exists evs1 evs2, evs = evs1 ++ evs2 /\
    ((* the scheduler has not run us yet: s not started *)
     (evs2 = [] /\ r_calls r = [] /\ r_obs r = []) \/
     (* schedule() failed or was stopped: s never starts *)
     (exists c y, r_calls r = [(c, y)] /\ conforms (drop_vals sg) c /\ r_obs r = []) \/
     (* connecting s threw, on sch *)
     (exists ex, cthr = Some ex /\ r_calls r = [(Err (VEptr ex), sch)] /\ r_obs r = []) \/
     (* s is started on sch and its completions and effects are ours *)
     (exists r2, cthr = None /\
        run (start {| e_stop := e_stop (env_after e evs1); e_sch := sch |} sch s) evs2 r2 /\
        r_calls r = r_calls r2 /\ r_obs r = r_obs r2)).
Proof.
  intros (Hw & Hcn) Hr. simpl in Hr.
  set (o1 := OSched sch sg (e_stop e)).
  set (rc := wrap (OCon2 (Val [])) (con2_handle (Val [])) (mkres o1 [] [])).
  set (e' := {| e_stop := e_stop e; e_sch := sch |}).
  assert (Hrc : okres (cont_sigs (SVal [] :: sg) [SVal []]) rc).
  { apply okres_running; auto. split; auto. simpl. exists (SVal [] :: drop_vals sg).
    split; [apply incl_refl|]. split.
    - intros z Hz. unfold cont_sigs. rewrite !in_app_iff. right; left.
      unfold drop_vals in *. simpl in *. apply filter_In in Hz. destruct Hz as [Hz _]. exact Hz.
    - exists (SVal []). split; simpl; auto. }
  assert (Hr' : run (bindr (OSeq1 cthr cnt s e') (seq_next cthr (fun c => start e' c s) (OSeq1 cthr cnt s e')) rc) evs r)
    by exact Hr.
  clear Hr.
  apply (@bind_run (OSeq1 cthr cnt s)
           (fun e => seq_next cthr (fun c => start e c s) (OSeq1 cthr cnt s e))
           (cont_sigs (SVal [] :: sg) [SVal []]) ) in Hr'; auto.
  destruct Hr' as (evs1 & evs2 & r1 & -> & Hr1 & Hr). exists evs1, evs2. split; auto.
  assert (Hlive1 : forall c, r_calls r1 = [c] -> live (r_op r1) = false).
  { intros c Hc. destruct (run_okres Hr1 Hrc) as [_ [(Hc' & _)|(c' & Hc' & Hcf & Hl)]]; congruence. }
  apply (@wrap_run _ _ (SVal [] :: drop_vals sg)) in Hr1; auto.
  2:{ apply okres_running; auto. split; auto. apply incl_refl. }
  destruct Hr1 as (r0 & Hr0 & ->). apply sched_run in Hr0.
  destruct Hr0 as (Ho & [(Hcs & _)|([c2 y] & Hcs & Hm)]).
  - (* pending *)
    destruct Hr as [(Hc & -> & ->)|(c & Hc & Hr)].
    + left. unfold wrap. rewrite Hcs, Ho. simpl. auto.
    + unfold wrap in Hc. rewrite Hcs in Hc. simpl in Hc. discriminate.
  - destruct Hr as [(Hc & -> & ->)|(c & Hc & Hr)].
    { exfalso. unfold wrap in Hc. rewrite Hcs in Hc. unfold con2_handle in Hc. simpl in Hc.
      destruct c2; discriminate. }
    pose proof (Hlive1 _ Hc) as Hl.
    assert (Hobs : r_obs (wrap (OCon2 (Val [])) (con2_handle (Val [])) r0) = []).
    { unfold wrap. rewrite Hcs, Ho. auto. }
    rewrite Hobs in Hr. simpl in Hr.
    assert (Hcc : c = (match c2 with Val _ => Val [] | _ => c2 end, y)).
    { unfold wrap in Hc. rewrite Hcs in Hc. unfold con2_handle in Hc. simpl in Hc.
      destruct c2; simpl in Hc; congruence. }
    subst c. unfold seq_next in Hr. simpl in Hr.
    simpl in Hm. destruct Hm as [[-> ->]|Hm].
    + destruct cthr as [ex|]; simpl in Hr.
      * right; right; left. exists ex. destruct (run_dead Hr) as (_ & A & B & _); auto.
      * right; right; right. rewrite (destroy_dead _ Hl) in Hr. simpl in Hr.
        set (rs := start (env_after e' evs1) sch s) in *.
        change (run (pass OSeq2 rs) evs2 r) in Hr.
        apply (@pass_run OSeq2) in Hr; auto. destruct Hr as (r2 & Hr & ->).
        exists r2. split; auto. split; auto.
        assert (E : env_after e' evs1 = {| e_stop := e_stop (env_after e evs1); e_sch := sch |}).
        { clear. unfold e'. generalize e. clear. induction evs1 as [|[]]; intros; simpl; auto.
          apply (IHevs1 (stop_env e)). }
        rewrite <- E. exact Hr.
    + right; left. destruct c2; simpl in *.
      { exfalso. destruct Hm as (sx & Hin & Hmx). unfold drop_vals in Hin. apply filter_In in Hin.
        destruct sx; simpl in *; try tauto. destruct Hin; discriminate. }
      * destruct (run_dead Hr) as (_ & A & B & _); auto. simpl in *. eexists _, _. split; eauto.
      * destruct (run_dead Hr) as (_ & A & B & _); auto. simpl in *. eexists _, _. split; eauto.
Qed.

(** on(sch, s) is continues_on(starts_on(sch, s), the scheduler on() was started on) *)
Theorem on_is_continues_on cp cthr cnt sch sg oldsg s e ctx :
  start e ctx (On cp cthr cnt sch sg oldsg s) =
  start e ctx (ContinuesOn cp (e_sch e) oldsg (StartsOn cthr cnt sch sg s)).
Proof. reflexivity. Qed.

(** ** C11: repeat_until / repeat_n *)

(** one iteration: sequence(schedule(trampoline), s), started on context [x] *)
Definition bounce (c2 : option nat) (cnt : bool) (x : nat) (s : sender) : sender :=
  Seq c2 cnt (Schedule x tramp_sg) s.

(** the value(s) produced by the child, all converted to bool *)
Definition all_true (vs : list val) : bool :=
  forallb (fun v => match v with VBool b => b | _ => true end) vs.

(** [rep_spec k e x evs cs t]: iteration number [k] starts on [x] in environment [e]; with the
    events [evs] the whole loop makes the calls [cs] and has effects [t].  Iteration k+1 starts
    only after iteration k has completed with a false value. *)
Inductive rep_spec (cthr cthr2 : nat -> option nat) (cp : val -> option nat) (cnt : bool) (s : sender)
  : nat -> env -> nat -> list event -> list call -> list obs -> Prop :=
| rs_running k e x evs r1 :
    run (start e x (bounce (cthr2 k) cnt x s)) evs r1 -> r_calls r1 = [] ->
    rep_spec cthr cthr2 cp cnt s k e x evs [] (r_obs r1)
| rs_true k e x evs1 evs2 r1 vs y :
    run (start e x (bounce (cthr2 k) cnt x s)) evs1 r1 -> r_calls r1 = [(Val vs, y)] ->
    all_true vs = true ->
    rep_spec cthr cthr2 cp cnt s k e x (evs1 ++ evs2) [(Val [], y)] (r_obs r1)
| rs_again k e x evs1 evs2 r1 vs y cs t :
    run (start e x (bounce (cthr2 k) cnt x s)) evs1 r1 -> r_calls r1 = [(Val vs, y)] ->
    all_true vs = false -> cthr (S k) = None ->
    rep_spec cthr cthr2 cp cnt s (S k) (env_after e evs1) y evs2 cs t ->
    rep_spec cthr cthr2 cp cnt s k e x (evs1 ++ evs2) cs (r_obs r1 ++ t)
| rs_reconnect_throws k e x evs1 evs2 r1 vs y ex :
    run (start e x (bounce (cthr2 k) cnt x s)) evs1 r1 -> r_calls r1 = [(Val vs, y)] ->
    all_true vs = false -> cthr (S k) = Some ex ->
    rep_spec cthr cthr2 cp cnt s k e x (evs1 ++ evs2) [(Err (VEptr ex), y)] (r_obs r1)
| rs_error k e x evs1 evs2 r1 v y :
    run (start e x (bounce (cthr2 k) cnt x s)) evs1 r1 -> r_calls r1 = [(Err v, y)] ->
    rep_spec cthr cthr2 cp cnt s k e x (evs1 ++ evs2)
             [(match cp v with None => Err v | Some ex => Err (VEptr ex) end, y)] (r_obs r1)
| rs_stopped k e x evs1 evs2 r1 y :
    run (start e x (bounce (cthr2 k) cnt x s)) evs1 r1 -> r_calls r1 = [(Stop, y)] ->
    rep_spec cthr cthr2 cp cnt s k e x (evs1 ++ evs2) [(Stop, y)] (r_obs r1).

Lemma bounce_start e x c2 cnt s :
  start e x (bounce c2 cnt x s) = mkres (rep_child c2 cnt s e x) [] [].
Proof. reflexivity. Qed.

Lemma rep_run cthr cthr2 cp cnt s :
  wt (RepeatUntil cthr cthr2 cp cnt s) ->
  forall n evs, length evs <= n -> forall k e x r,
  run (mkres (ORep cthr cthr2 cp cnt s e k (rep_child (cthr2 k) cnt s e x)) [] []) evs r ->
  rep_spec cthr cthr2 cp cnt s k e x evs (r_calls r) (r_obs r).
Proof.
  intros Hwt. pose proof Hwt as (Hw & _ & _ & H2 & _).
  assert (Hwb : forall k x, wt (bounce (cthr2 k) cnt x s)).
  { intros k x. simpl. split; auto. split; auto. intros; eapply H2; eauto. }
  induction n; intros evs Hn k e x r Hr.
  - destruct evs; [|simpl in Hn; lia]. inversion Hr; subst. simpl.
    apply (@rs_running cthr cthr2 cp cnt s k e x [] (start e x (bounce (cthr2 k) cnt x s)));
      [constructor|auto].
  - set (mk := fun e => ORep cthr cthr2 cp cnt s e k).
    change (run (bindr (mk e) (rep_next cthr cthr2 cp cnt s e k)
                       (start e x (bounce (cthr2 k) cnt x s))) evs r) in Hr.
    apply (@bind_run mk (fun e => rep_next cthr cthr2 cp cnt s e k)
             (csigs (bounce (cthr2 k) cnt x s))) in Hr; auto; [|apply start_ok; auto].
    destruct Hr as (evs1 & evs2 & r1 & -> & Hr1 & [(Hc & -> & ->)|([c y] & Hc & Hr)]).
    + rewrite app_nil_r. exact (@rs_running cthr cthr2 cp cnt s k e x evs1 r1 Hr1 Hc).
    + destruct (run_start_ok (Hwb k x) Hr1) as [_ [(Hc' & _)|(c' & Hc' & Hcf & Hl)]]; [congruence|].
      assert (Hne : evs1 <> []).
      { intros ->. inversion Hr1; subst. simpl in Hc. discriminate. }
      unfold rep_next in Hr. simpl in Hr. rewrite (destroy_dead _ Hl) in Hr.
      destruct c as [vs|v|].
      * fold (all_true vs) in Hr. destruct (all_true vs) eqn:Et.
        -- simpl in Hr. destruct (run_dead Hr) as (_ & A & B & _); auto. simpl in *.
           rewrite app_nil_r in B. rewrite A, B. eapply rs_true; eauto.
        -- destruct (cthr (S k)) eqn:Ect.
           ++ simpl in Hr. destruct (run_dead Hr) as (_ & A & B & _); auto. simpl in *.
              rewrite app_nil_r in B. rewrite A, B. eapply rs_reconnect_throws; eauto.
           ++ simpl in Hr. set (e1 := env_after e evs1) in *.
              apply (@run_unprefix _ (mkres (ORep cthr cthr2 cp cnt s e1 (S k)
                        (rep_child (cthr2 (S k)) cnt s e1 y)) [] [])) in Hr.
              destruct Hr as (r' & Hr & A & B & C). rewrite B, C.
              eapply rs_again; eauto. apply IHn; auto.
              rewrite app_length in Hn. destruct evs1; [congruence|simpl in Hn; lia].
      * destruct (cp v) eqn:Ecp; simpl in Hr;
          destruct (run_dead Hr) as (_ & A & B & _); auto; simpl in *;
          rewrite app_nil_r in B; rewrite A, B.
        -- generalize (@rs_error cthr cthr2 cp cnt s k e x evs1 evs2 r1 v y Hr1 Hc).
           rewrite Ecp. auto.
        -- generalize (@rs_error cthr cthr2 cp cnt s k e x evs1 evs2 r1 v y Hr1 Hc).
           rewrite Ecp. auto.
      * simpl in Hr. destruct (run_dead Hr) as (_ & A & B & _); auto. simpl in *.
        rewrite app_nil_r in B. rewrite A, B. eapply rs_stopped; eauto.
Qed.

Theorem repeat_until_law cthr cthr2 cp cnt s e ctx evs r :
  wt (RepeatUntil cthr cthr2 cp cnt s) ->
  run (start e ctx (RepeatUntil cthr cthr2 cp cnt s)) evs r ->
  rep_spec cthr cthr2 cp cnt s 0 e ctx evs (r_calls r) (r_obs r).
Proof. intros Hw Hr. eapply rep_run; eauto. Qed.

(** repeat_n: [n] iterations are still to be run *)
Inductive repn_spec (cthr cthr2 : nat -> option nat) (cp : val -> option nat) (cnt : bool) (s : sender)
  : nat -> env -> nat -> list event -> list call -> list obs -> Prop :=
| rn_zero e x evs : repn_spec cthr cthr2 cp cnt s 0 e x evs [(Val [], x)] []
| rn_running n e x evs r1 :
    run (start e x (bounce (cthr2 (S n)) cnt x s)) evs r1 -> r_calls r1 = [] ->
    repn_spec cthr cthr2 cp cnt s (S n) e x evs [] (r_obs r1)
| rn_last e x evs1 evs2 r1 vs y :
    run (start e x (bounce (cthr2 1) cnt x s)) evs1 r1 -> r_calls r1 = [(Val vs, y)] ->
    repn_spec cthr cthr2 cp cnt s 1 e x (evs1 ++ evs2) [(Val [], y)] (r_obs r1)
| rn_again n e x evs1 evs2 r1 vs y cs t :
    run (start e x (bounce (cthr2 (S (S n))) cnt x s)) evs1 r1 -> r_calls r1 = [(Val vs, y)] ->
    cthr (S n) = None ->
    repn_spec cthr cthr2 cp cnt s (S n) (env_after e evs1) y evs2 cs t ->
    repn_spec cthr cthr2 cp cnt s (S (S n)) e x (evs1 ++ evs2) cs (r_obs r1 ++ t)
| rn_reconnect_throws n e x evs1 evs2 r1 vs y ex :
    run (start e x (bounce (cthr2 (S (S n))) cnt x s)) evs1 r1 -> r_calls r1 = [(Val vs, y)] ->
    cthr (S n) = Some ex ->
    repn_spec cthr cthr2 cp cnt s (S (S n)) e x (evs1 ++ evs2) [(Err (VEptr ex), y)] (r_obs r1)
| rn_error n e x evs1 evs2 r1 v y :
    run (start e x (bounce (cthr2 (S n)) cnt x s)) evs1 r1 -> r_calls r1 = [(Err v, y)] ->
    repn_spec cthr cthr2 cp cnt s (S n) e x (evs1 ++ evs2)
             [(match cp v with None => Err v | Some ex => Err (VEptr ex) end, y)] (r_obs r1)
| rn_stopped n e x evs1 evs2 r1 y :
    run (start e x (bounce (cthr2 (S n)) cnt x s)) evs1 r1 -> r_calls r1 = [(Stop, y)] ->
    repn_spec cthr cthr2 cp cnt s (S n) e x (evs1 ++ evs2) [(Stop, y)] (r_obs r1).

Lemma repn_run cthr cthr2 cp cnt s :
  wt s -> (forall i e, cthr2 i = Some e -> cnt = false) ->
  forall n evs, length evs <= n -> forall k e x r,
  run (mkres (ORepN cthr cthr2 cp cnt s e (S k) (rep_child (cthr2 (S k)) cnt s e x)) [] []) evs r ->
  repn_spec cthr cthr2 cp cnt s (S k) e x evs (r_calls r) (r_obs r).
Proof.
  intros Hw H2.
  assert (Hwb : forall k x, wt (bounce (cthr2 k) cnt x s)).
  { intros k x. simpl. split; auto. split; auto. intros; eapply H2; eauto. }
  induction n; intros evs Hn k e x r Hr.
  - destruct evs; [|simpl in Hn; lia]. inversion Hr; subst. simpl.
    apply (@rn_running cthr cthr2 cp cnt s k e x [] (start e x (bounce (cthr2 (S k)) cnt x s)));
      [constructor|auto].
  - set (mk := fun e => ORepN cthr cthr2 cp cnt s e (S k)).
    change (run (bindr (mk e) (repn_next cthr cthr2 cp cnt s e (S k))
                       (start e x (bounce (cthr2 (S k)) cnt x s))) evs r) in Hr.
    apply (@bind_run mk (fun e => repn_next cthr cthr2 cp cnt s e (S k))
             (csigs (bounce (cthr2 (S k)) cnt x s))) in Hr; auto; [|apply start_ok; auto].
    destruct Hr as (evs1 & evs2 & r1 & -> & Hr1 & [(Hc & -> & ->)|([c y] & Hc & Hr)]).
    + rewrite app_nil_r. exact (@rn_running cthr cthr2 cp cnt s k e x evs1 r1 Hr1 Hc).
    + destruct (run_start_ok (Hwb (S k) x) Hr1) as [_ [(Hc' & _)|(c' & Hc' & Hcf & Hl)]]; [congruence|].
      assert (Hne : evs1 <> []).
      { intros ->. inversion Hr1; subst. simpl in Hc. discriminate. }
      unfold repn_next in Hr. simpl in Hr. rewrite (destroy_dead _ Hl) in Hr.
      destruct c as [vs|v|].
      * rewrite Nat.sub_0_r in Hr. destruct k as [|k].
        -- simpl in Hr. destruct (run_dead Hr) as (_ & A & B & _); auto. simpl in *.
           rewrite app_nil_r in B. rewrite A, B. eapply rn_last; eauto.
        -- destruct (cthr (S k)) eqn:Ect.
           ++ simpl in Hr. destruct (run_dead Hr) as (_ & A & B & _); auto. simpl in *.
              rewrite app_nil_r in B. rewrite A, B. eapply rn_reconnect_throws; eauto.
           ++ simpl in Hr. set (e1 := env_after e evs1) in *.
              apply (@run_unprefix _ (mkres (ORepN cthr cthr2 cp cnt s e1 (S k)
                        (rep_child (cthr2 (S k)) cnt s e1 y)) [] [])) in Hr.
              destruct Hr as (r' & Hr & A & B & C). rewrite B, C.
              eapply rn_again; eauto. apply IHn; auto.
              rewrite app_length in Hn. destruct evs1; [congruence|simpl in Hn; lia].
      * destruct (cp v) eqn:Ecp; simpl in Hr;
          destruct (run_dead Hr) as (_ & A & B & _); auto; simpl in *;
          rewrite app_nil_r in B; rewrite A, B.
        -- generalize (@rn_error cthr cthr2 cp cnt s k e x evs1 evs2 r1 v y Hr1 Hc).
           rewrite Ecp. auto.
        -- generalize (@rn_error cthr cthr2 cp cnt s k e x evs1 evs2 r1 v y Hr1 Hc).
           rewrite Ecp. auto.
      * simpl in Hr. destruct (run_dead Hr) as (_ & A & B & _); auto. simpl in *.
        rewrite app_nil_r in B. rewrite A, B. eapply rn_stopped; eauto.
Qed.

Theorem repeat_n_law cthr cthr2 cp cnt n s e ctx evs r :
  wt (RepeatN cthr cthr2 cp cnt n s) ->
  run (start e ctx (RepeatN cthr cthr2 cp cnt n s)) evs r ->
  repn_spec cthr cthr2 cp cnt s n e ctx evs (r_calls r) (r_obs r).
Proof.
  intros (_ & Hw & _ & _ & H2 & _) Hr. simpl in Hr. destruct n.
  - destruct (run_dead Hr) as (_ & A & B & _); auto. rewrite A, B. constructor.
  - eapply repn_run; eauto.
Qed.
