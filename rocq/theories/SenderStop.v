(** * SenderStop: stop requests reach every running leaf that is not shielded. *)

From Coq Require Import List Arith Bool Lia.
From Verif Require Import SenderModel SenderSpec SenderProofs SenderSafety SenderRun SenderLaws SenderWhen.
Import ListNotations.
Set Implicit Arguments.

(** ** Vocabulary *)

(** the token of the leaf reports stop_requested *)
Definition leaf_stopped (k : leafkind) : bool :=
  match k with LkUser _ _ b => b | LkSched _ _ b => b end.

(** the leaf at [p] is below a write_env(.., never_stop_token) inside [o] *)
Fixpoint shielded (o : op) (p : list nat) {struct o} : bool :=
  match o with
  | ODone | OLeaf _ _ _ | OSched _ _ _ => false
  | OFun _ _ _ _ o | OLet1 _ _ _ _ _ _ o | OLet2 o | OSeq1 _ _ _ _ o | OSeq2 o
  | OFin1 _ _ _ o | OFin2 _ o | OCon1 _ _ _ _ o | OCon2 _ o | OVar _ o | OOpt _ o
  | OBulk _ _ _ _ o | ORep _ _ _ _ _ _ _ o | ORepN _ _ _ _ _ _ _ o => shielded o p
  | OShield _ => true
  | OWhen _ _ os | OAny _ _ os =>
      match p with
      | [] => false
      | i :: p => (fix nth_sh (os : list op) (i : nat) : bool :=
                     match os, i with
                     | [], _ => false
                     | o :: _, 0 => shielded o p
                     | _ :: os, S i => nth_sh os i
                     end) os i
      end
  end.

(** ** Invariant: [b] says that the stop request has reached this operation *)
Definition allp (P : op -> Prop) :=
  fix all (os : list op) : Prop :=
    match os with [] => True | o :: os => (live o = true -> P o) /\ all os end.

Definition impl (b b' : bool) : Prop := b = true -> b' = true.

Definition wsrc_ok (ws : wstatic) (w : wstate) : Prop :=
  ws_uses ws = true -> w_st w <> WStarted -> w_src w = true.

Fixpoint so (b : bool) (o : op) : Prop :=
  match o with
  | ODone => True
  | OLeaf _ _ stp => impl b stp
  | OSched _ _ stp => impl b stp
  | OFun _ _ _ _ o | OLet2 o | OSeq2 o | OFin2 _ o | OCon2 _ o | OVar _ o | OOpt _ o
  | OBulk _ _ _ _ o => so b o
  | OLet1 _ _ _ _ _ e o | OSeq1 _ _ _ e o | OFin1 _ _ e o | OCon1 _ _ _ e o
  | ORep _ _ _ _ _ e _ o | ORepN _ _ _ _ _ e _ o => impl b (e_stop e) /\ so b o
  | OShield o => so false o
  | OWhen ws w os => wsrc_ok ws w /\ allp (so (b || (ws_uses ws && w_src w))) os
  | OAny _ a os => (a_res a <> None -> a_src a = true) /\ allp (so (b || a_src a)) os
  end.

Lemma allp_forall P os : allp P os <-> (forall o, In o os -> live o = true -> P o).
Proof.
  induction os; simpl; split; try tauto.
  - intros [A B] o [->|Hin] Hl; auto. apply IHos; auto.
  - intros H. split; [auto|]. apply IHos. auto.
Qed.

Lemma impl_trans a b c : impl a b -> impl b c -> impl a c.
Proof. unfold impl; auto. Qed.

Lemma so_mono o : forall b b', so b o -> impl b' b -> so b' o.
Proof.
  induction o using op_ind'; intros b b' Hs Hi; simpl in *; auto; eauto using impl_trans;
    try (destruct Hs; split; eauto using impl_trans; fail).
  - destruct Hs as [A B]. split; auto. rewrite allp_forall in *. intros o Hin Hl.
    rewrite Forall_forall in H. eapply H; eauto. unfold impl in *.
    destruct b', b; simpl; auto. specialize (Hi eq_refl). discriminate.
  - destruct Hs as [A B]. split; auto. rewrite allp_forall in *. intros o Hin Hl.
    rewrite Forall_forall in H. eapply H; eauto. unfold impl in *.
    destruct b', b; simpl; auto. specialize (Hi eq_refl). discriminate.
Qed.

Lemma all2_live SS os o : all2 SS os -> In o os -> live o = true -> exists T, opok T o.
Proof.
  revert SS. induction os; intros SS HA Hin Hl; simpl in *; [tauto|].
  destruct SS; simpl in *; try tauto. destruct HA as [HA1 HA2].
  destruct Hin as [->|Hin]; eauto.
Qed.

Lemma count_zero_dead os o : count (map live os) = 0 -> In o os -> live o = false.
Proof.
  intros Hc Hin. destruct (live o) eqn:E; auto. exfalso.
  assert (existsb live os = true) by (apply existsb_exists; eauto).
  rewrite count_live, Hc in H. discriminate.
Qed.

Lemma so_stop o : forall Sg b, opok Sg o -> so b o -> so true (stop_op o).
Proof.
  assert (HALL : forall os SS b,
            Forall (fun o => forall Sg b, opok Sg o -> so b o -> so true (stop_op o)) os ->
            all2 SS os -> allp (so b) os -> allp (so true) (map stop_op os)).
  { intros os SS b HF HA HB. rewrite allp_forall in *. intros o' Hin Hl.
    apply in_map_iff in Hin. destruct Hin as (o1 & <- & Hin). rewrite live_stop in Hl.
    destruct (@all2_live _ _ _ HA Hin Hl) as (T & HT). rewrite Forall_forall in HF. eauto. }
  induction o using op_ind'; intros Sg b Hok Hs; simpl in *;
    try (unfold impl; auto; fail);
    try (destruct Hok as (? & ? & Hok); eauto; fail).
  all: try (destruct Hs as [? Hs]).
  all: try (repeat match goal with H : exists _, _ |- _ => destruct H end;
            repeat match goal with H : _ /\ _ |- _ => destruct H end;
            try split; unfold impl; eauto; fail).
  - destruct Hok as (SS & HC & Hlen & (HW & _) & HA). rewrite map_length, Hlen, Nat.sub_diag in HW.
    destruct (ws_uses ws) eqn:Eu.
    + destruct (w_cnt w =? 0) eqn:E0.
      * apply Nat.eqb_eq in E0. simpl. split; auto. rewrite ?Eu. apply allp_forall. intros o1 Hin Hl.
        rewrite (@count_zero_dead os o1) in Hl; [discriminate| lia | auto].
      * destruct (w_st w) eqn:Est; simpl; rewrite ?Eu; simpl.
        -- split; [unfold wsrc_ok; simpl; auto|]. eapply HALL; eauto.
        -- split; auto. assert (Hsrc : w_src w = true) by (apply H0; auto; congruence).
           simpl in Hs. rewrite Hsrc in Hs. rewrite orb_true_r in Hs. auto.
        -- split; auto. assert (Hsrc : w_src w = true) by (apply H0; auto; congruence).
           simpl in Hs. rewrite Hsrc in Hs. rewrite orb_true_r in Hs. auto.
    + simpl. split; auto. eapply HALL; eauto.
  - destruct Hok as (SS & HC & Hlen & (HW & _) & HA). rewrite map_length, Hlen, Nat.sub_diag in HW.
    split; auto. destruct (a_cnt a =? 0) eqn:E0.
    + apply Nat.eqb_eq in E0. apply allp_forall. intros o1 Hin Hl.
      rewrite (@count_zero_dead os o1) in Hl; [discriminate|lia|auto].
    + destruct (a_src a) eqn:Es.
      * rewrite orb_true_r in Hs. auto.
      * eapply HALL; eauto.
Qed.

Lemma so_stop_any o Sg b b' : opok Sg o -> so b o -> so b' (stop_op o).
Proof. intros. eapply so_mono; [eapply so_stop; eauto|]. unfold impl; auto. Qed.

(** ** Results *)
Definition sres (b : bool) (r : res) : Prop := live (r_op r) = true -> so b (r_op r).

Lemma wrap_so b mk h r :
  sres b r -> (forall o, live (mk o) = live o) -> (forall o, so b o -> so b (mk o)) -> sres b (wrap mk h r).
Proof.
  intros Hr Hl Hm. unfold sres, wrap in *. destruct (r_calls r); [|destruct (h c)]; simpl; rewrite Hl; auto.
Qed.
Lemma pass_so b mk r :
  sres b r -> (forall o, live (mk o) = live o) -> (forall o, so b o -> so b (mk o)) -> sres b (pass mk r).
Proof. intros Hr Hl Hm. unfold sres, pass in *. simpl. rewrite Hl. auto. Qed.
Lemma bindr_so Sg b mk h r :
  okres Sg r -> sres b r -> (forall o, live (mk o) = live o) -> (forall o, so b o -> so b (mk o)) ->
  (forall c o, conforms Sg (fst c) -> live o = false -> sres b (h c o)) -> sres b (bindr mk h r).
Proof.
  intros [_ Hok] Hr Hl Hm Hh. unfold sres, bindr in *.
  destruct Hok as [(Hc & _)|(c & Hc & Hcf & Hd)]; rewrite Hc; simpl; rewrite ?Hl; auto.
Qed.

Lemma fwd_so b mk c o : live o = false -> (forall o, live (mk o) = live o) -> sres b (fwd mk c o).
Proof. intros Hd Hl. unfold sres, fwd. simpl. rewrite Hl, Hd. discriminate. Qed.

Lemma let_next_so b k fid thr start2 mk c o :
  live o = false -> (forall o, live (mk o) = live o) ->
  (chan_eqb (compl_chan (fst c)) k = true -> sres b (start2 (compl_args (fst c)) (snd c))) ->
  sres b (let_next k fid thr start2 mk c o).
Proof.
  intros Hd Hl Hs. unfold let_next. destruct (chan_eqb _ k) eqn:E; [|apply fwd_so; auto].
  destruct (thr _).
  - unfold sres. simpl. rewrite Hl, Hd. discriminate.
  - intros H. simpl in *. apply Hs; auto.
Qed.
Lemma seq_next_so b cthr start2 mk c o :
  live o = false -> (forall o, live (mk o) = live o) ->
  sres b (start2 (snd c)) -> sres b (seq_next cthr start2 mk c o).
Proof.
  intros Hd Hl Hs. unfold seq_next. destruct (fst c); try (apply fwd_so; auto; fail).
  destruct cthr.
  - unfold sres. simpl. rewrite Hl, Hd. discriminate.
  - intros H. simpl in *. apply Hs; auto.
Qed.
Lemma fin_next_so b cp sv start2 c o : sres b (start2 (snd c)) -> sres b (fin_next cp sv start2 c o).
Proof.
  intros Hs. unfold fin_next. destruct sv; [destruct (cp (fst c))|].
  - discriminate.
  - apply (@wrap_so b (OFin2 (Some (fst c))) (fin2_handle (Some (fst c))) (start2 (snd c))); auto.
  - apply (@wrap_so b (OFin2 None) (fin2_handle None) (start2 (snd c))); auto.
Qed.
Lemma con_next_so b cp sch sg e mk c o :
  live o = false -> (forall o, live (mk o) = live o) -> impl b (e_stop e) -> sres b (con_next cp sch sg e mk c o).
Proof.
  intros Hd Hl He. unfold con_next. destruct (cp (fst c)).
  - unfold sres. simpl. rewrite Hl, Hd. discriminate.
  - intros _. simpl. auto.
Qed.
Lemma rep_next_so b cthr cthr2 cp cnt s e k c o :
  impl b (e_stop e) -> sres b (rep_next cthr cthr2 cp cnt s e k c o).
Proof.
  intros He. unfold rep_next. destruct (fst c).
  - destruct (forallb _ vs); [discriminate|]. destruct (cthr (S k)); [discriminate|]. intros _. simpl. auto.
  - destruct (cp e0); discriminate.
  - discriminate.
Qed.
Lemma repn_next_so b cthr cthr2 cp cnt s e k c o :
  impl b (e_stop e) -> sres b (repn_next cthr cthr2 cp cnt s e k c o).
Proof.
  intros He. unfold repn_next. destruct (fst c).
  - destruct (k - 1); [discriminate|]. destruct (cthr (S n)); [discriminate|]. intros _. simpl. auto.
  - destruct (cp e0); discriminate.
  - discriminate.
Qed.

(** ** when_all, when_any *)
Lemma wa_set_error_src ws x v w :
  (wsrc_ok ws w -> wsrc_ok ws (wa_set_error x v w)) /\ impl (w_src w) (w_src (wa_set_error x v w)).
Proof. unfold wa_set_error, wsrc_ok, impl. destruct (w_st w) eqn:E; simpl; rewrite ?E; split; auto. Qed.

Lemma wa_store_src ws i c w :
  (wsrc_ok ws w -> wsrc_ok ws (wa_store ws i c w)) /\ impl (w_src w) (w_src (wa_store ws i c w)).
Proof.
  unfold wa_store. destruct c.
  - destruct (ws_values ws); [|unfold impl; auto].
    destruct (ws_cp ws i (Val vs)); [apply wa_set_error_src|].
    split; [|unfold impl; simpl; auto]. intros A. unfold wsrc_ok. simpl. exact A.
  - apply wa_set_error_src.
  - destruct (w_st w) eqn:E; unfold impl; auto. split; simpl; auto. intros _. unfold wsrc_ok. simpl. auto.
Qed.

Lemma wa_calls_src ws i cs : forall w w1 out t,
  wa_calls ws i cs w = (w1, out, t) ->
  (wsrc_ok ws w -> wsrc_ok ws w1) /\ impl (w_src w) (w_src w1).
Proof.
  induction cs as [|c cs IH]; simpl; intros w w1 out t E.
  - injection E as <- <- <-. unfold impl; auto.
  - destruct (wa_arrive ws (wa_store ws i (fst c) w) (snd c)) as [[w' out1] t1] eqn:Ea.
    destruct (wa_calls ws i cs w') as [[w2 out2] t2] eqn:Ec. injection E as <- <- <-.
    destruct (IH _ _ _ _ Ec) as [A B]. destruct (wa_store_src ws i (fst c) w) as [C D].
    assert (Hw' : (wsrc_ok ws (wa_store ws i (fst c) w) -> wsrc_ok ws w') /\
                  w_src w' = w_src (wa_store ws i (fst c) w)).
    { unfold wa_arrive in Ea. destruct (w_cnt _ =? 1); [destruct (wa_complete _ _ _)|];
        injection Ea as <- <- <-; split; auto. }
    destruct Hw' as [F G]. split; auto. unfold impl in *. rewrite <- G in D. auto.
Qed.

Lemma any_calls_src cp i cs : forall a a1 out t,
  any_calls cp i cs a = (a1, out, t) ->
  ((a_res a <> None -> a_src a = true) -> (a_res a1 <> None -> a_src a1 = true)) /\
  impl (a_src a) (a_src a1) /\ a_pstop a1 = a_pstop a.
Proof.
  induction cs as [|c cs IH]; simpl; intros a a1 out t E.
  - injection E as <- <- <-. unfold impl; auto.
  - destruct (any_arrive (any_store cp i (fst c) a) (snd c)) as [[w' out1] t1] eqn:Ea.
    destruct (any_calls cp i cs w') as [[w2 out2] t2] eqn:Ec. injection E as <- <- <-.
    destruct (IH _ _ _ _ Ec) as (A & B & Z).
    assert (Hw' : a_res w' = a_res (any_store cp i (fst c) a) /\ a_src w' = a_src (any_store cp i (fst c) a) /\
                  a_pstop w' = a_pstop (any_store cp i (fst c) a)).
    { unfold any_arrive in Ea. destruct (a_cnt _ =? 1); [destruct (a_pstop _); [|destruct (a_res _)]|];
        injection Ea as <- <- <-; auto. }
    destruct Hw' as (F & G & Y). rewrite F, G in *.
    unfold any_store in *. destruct (a_res a) eqn:Er; simpl in *.
    + split; [|split; auto; congruence]. intros Hs. rewrite Er in A. auto.
    + split; [|split]; unfold impl in *; auto; try congruence.
Qed.

(** new children list after a child made calls *)
Lemma wa_prop_so b ws w w1 os SS :
  all2 SS os -> allp (so (b || (ws_uses ws && w_src w))) os ->
  impl (w_src w) (w_src w1) ->
  allp (so (b || (ws_uses ws && w_src w1))) (wa_prop w w1 os).
Proof.
  intros HA HB Hi. unfold wa_prop. destruct (negb (w_src w) && w_src w1) eqn:E.
  - apply allp_forall. intros o' Hin Hl. apply in_map_iff in Hin. destruct Hin as (o & <- & Hin).
    rewrite live_stop in Hl. destruct (@all2_live _ _ _ HA Hin Hl) as (T & HT).
    eapply so_stop_any; eauto. rewrite allp_forall in HB. eauto.
  - rewrite allp_forall in *. intros o Hin Hl. eapply so_mono; eauto.
    unfold impl in *. destruct b; simpl; auto. destruct (ws_uses ws); simpl; auto.
    intros Hw1. rewrite Hw1, andb_true_r in E. destruct (w_src w); auto.
Qed.
Lemma any_prop_so b a a1 os SS :
  all2 SS os -> allp (so (b || a_src a)) os -> impl (a_src a) (a_src a1) ->
  allp (so (b || a_src a1)) (any_prop a a1 os).
Proof.
  intros HA HB Hi. unfold any_prop. destruct (negb (a_src a) && a_src a1) eqn:E.
  - apply allp_forall. intros o' Hin Hl. apply in_map_iff in Hin. destruct Hin as (o & <- & Hin).
    rewrite live_stop in Hl. destruct (@all2_live _ _ _ HA Hin Hl) as (T & HT).
    eapply so_stop_any; eauto. rewrite allp_forall in HB. eauto.
  - rewrite allp_forall in *. intros o Hin Hl. eapply so_mono; eauto.
    unfold impl in *. destruct b; simpl; auto.
    intros Hw1. rewrite Hw1, andb_true_r in E. destruct (a_src a); auto.
Qed.

Lemma allp_app P os o : allp P os -> (live o = true -> P o) -> allp P (os ++ [o]).
Proof.
  rewrite !allp_forall. intros H1 H2 x Hin Hl. apply in_app_iff in Hin.
  destruct Hin as [?|[<-|[]]]; auto.
Qed.
Lemma allp_upd P os i o : allp P os -> (live o = true -> P o) -> allp P (upd os i o).
Proof. revert i; induction os; destruct i; simpl; intros; intuition. Qed.

Lemma wa_go_so e ctx ws : forall ss i w os,
  Forall wt ss -> (forall s, In s ss -> forall e ctx, sres (e_stop e) (start e ctx s)) ->
  (ws_uses ws = true -> impl (e_stop e) (w_src w)) ->
  wsrc_ok ws w -> (exists SS, all2 SS os /\ length SS = length os) ->
  allp (so (e_stop e || (ws_uses ws && w_src w))) os ->
  forall w2 os2 out t, wa_go e ctx ws i ss w os = (w2, os2, out, t) ->
  wsrc_ok ws w2 /\ allp (so (e_stop e || (ws_uses ws && w_src w2))) os2.
Proof.
  induction ss as [|s ss IH]; intros i w os Hwt Hst Hie Hw (SS & HA & HL) HB w2 os2 out t E; simpl in E.
  - injection E as <- <- <- <-. auto.
  - set (r := start (wa_env ws w e) ctx s) in *.
    destruct (wa_calls ws i (r_calls r) w) as [[w1 out1] t1] eqn:Ec.
    destruct (wa_go e ctx ws (S i) ss w1 _) as [[[w3 os3] out3] t3] eqn:Eg.
    injection E as <- <- <- <-.
    destruct (wa_calls_src _ _ _ _ Ec) as [C D].
    pose proof (Forall_inv Hwt) as Hw0. pose proof (Forall_inv_tail Hwt) as Hws.
    assert (HA' : all2 (SS ++ [csigs s]) (os ++ [r_op r])).
    { assert (Hx : forall l L, all2 L l -> length L = length l -> all2 (L ++ [csigs s]) (l ++ [r_op r])).
      { induction l; destruct L; simpl; intros HX HY; try tauto; try discriminate.
        - split; auto. intros Hl. destruct (start_ok s Hw0 (wa_env ws w e) ctx) as [_ [(_ & _ & ?)|(c & _ & _ & Hd)]]; auto.
          fold r in Hd. congruence.
        - destruct HX. split; auto. }
      auto. }
    assert (HB' : allp (so (e_stop e || (ws_uses ws && w_src w))) (os ++ [r_op r])).
    { apply allp_app; auto. intros Hl. eapply so_mono.
      - apply (Hst s (or_introl eq_refl) (wa_env ws w e) ctx). exact Hl.
      - unfold wa_env, impl. simpl. destruct (ws_uses ws); simpl.
        + intros Ho. destruct (e_stop e) eqn:Ee; auto. apply (Hie eq_refl). auto.
        + rewrite orb_false_r. auto. }
    eapply IH; [exact Hws| | | | | |exact Eg]; auto.
    + intros s' Hs'. apply Hst. simpl; auto.
    + intros Hu. eapply impl_trans; eauto.
    + exists (SS ++ [csigs s]). split; [apply wa_prop_all2; auto|].
      rewrite wa_prop_length, !app_length, HL. auto.
    + eapply wa_prop_so; eauto.
Qed.

Lemma any_go_so e ctx cp : forall ss i a os,
  e_stop e = false ->
  Forall wt ss -> (forall s, In s ss -> forall e ctx, sres (e_stop e) (start e ctx s)) ->
  (a_res a <> None -> a_src a = true) -> (exists SS, all2 SS os /\ length SS = length os) ->
  allp (so (a_src a)) os ->
  forall a2 os2 out t, any_go e ctx cp i ss a os = (a2, os2, out, t) ->
  (a_res a2 <> None -> a_src a2 = true) /\ allp (so (a_src a2)) os2.
Proof.
  induction ss as [|s ss IH]; intros i a os He Hwt Hst Hw (SS & HA & HL) HB w2 os2 out t E; simpl in E.
  - injection E as <- <- <- <-. auto.
  - set (r := start {| e_stop := a_src a; e_sch := e_sch e |} ctx s) in *.
    destruct (any_calls cp i (r_calls r) a) as [[a1 out1] t1] eqn:Ec.
    destruct (any_go e ctx cp (S i) ss a1 _) as [[[w3 os3] out3] t3] eqn:Eg.
    injection E as <- <- <- <-.
    destruct (any_calls_src _ _ _ _ Ec) as (C & D & _).
    pose proof (Forall_inv Hwt) as Hw0. pose proof (Forall_inv_tail Hwt) as Hws.
    assert (HA' : all2 (SS ++ [csigs s]) (os ++ [r_op r])).
    { assert (Hx : forall l L, all2 L l -> length L = length l -> all2 (L ++ [csigs s]) (l ++ [r_op r])).
      { induction l; destruct L; simpl; intros HX HY; try tauto; try discriminate.
        - split; auto. intros Hl.
          destruct (start_ok s Hw0 {| e_stop := a_src a; e_sch := e_sch e |} ctx) as [_ [(_ & _ & ?)|(c & _ & _ & Hd)]]; auto.
          fold r in Hd. congruence.
        - destruct HX. split; auto. }
      auto. }
    assert (HB' : allp (so (a_src a)) (os ++ [r_op r])).
    { apply allp_app; auto. intros Hl.
      apply (Hst s (or_introl eq_refl) {| e_stop := a_src a; e_sch := e_sch e |} ctx). exact Hl. }
    eapply IH; [exact He|exact Hws| | | | |exact Eg]; auto.
    + intros s' Hs'. apply Hst. simpl; auto.
    + exists (SS ++ [csigs s]). split; [apply any_prop_all2; auto|].
      rewrite any_prop_length, !app_length, HL. auto.
    + apply (@any_prop_so false a a1 _ (SS ++ [csigs s])); auto.
Qed.

Lemma wt_any_forall cp ss : forall i, wt_any cp i ss -> Forall wt ss.
Proof. induction ss; simpl; intros; constructor; try tauto. eapply IHss. apply H. Qed.

Lemma start_so s : wt s -> forall e ctx, sres (e_stop e) (start e ctx s).
Proof.
  induction s using sender_ind'; intros Hwt e0 ctx; try (intros HH; discriminate HH).
  - intros _. simpl. unfold impl; auto.
  - intros _. simpl. unfold impl; auto.
  - destruct Hwt. apply wrap_so; auto.
  - destruct Hwt as [Hw Hf]. cbn [start]. eapply bindr_so; [apply start_ok; auto|apply IHs; auto|reflexivity| |].
    + intros o Ho. simpl. unfold impl; auto.
    + intros c o Hc Hd. apply let_next_so; auto. intros Hk. apply H.
      destruct Hc as (sg & Hin & Hm). apply chan_eqb_eq in Hk.
      destruct (Hf sg (compl_args (fst c)) Hin) as (_ & Hx & _); auto.
      { rewrite (matches_chan _ _ Hm). auto. } { apply matches_args. auto. }
  - destruct Hwt as (Hw & Hw2 & Hf). cbn [start]. eapply bindr_so; [apply start_ok; auto|apply IHs1; auto|reflexivity| |].
    + intros o Ho. simpl. unfold impl; auto.
    + intros c' o Hc Hd. apply seq_next_so; auto.
  - destruct Hwt as (Hw & Hw2 & Hf). cbn [start]. eapply bindr_so; [apply start_ok; auto|apply IHs1; auto|reflexivity| |].
    + intros o Ho. simpl. unfold impl; auto.
    + intros c' o Hc Hd. apply fin_next_so; auto.
  - destruct Hwt as (Hw & Hf). cbn [start]. eapply bindr_so; [apply start_ok; auto|apply IHs; auto|reflexivity| |].
    + intros o Ho. simpl. unfold impl; auto.
    + intros c' o Hc Hd. apply con_next_so; auto. unfold impl; auto.
  - intros _. simpl. unfold impl; auto.
  - intros _. simpl. unfold impl; auto.
  - apply wrap_so; auto.
  - destruct Hwt. apply wrap_so; auto.
  - destruct Hwt. apply wrap_so; auto.
  - intros _. simpl. unfold impl; auto.
  - simpl. destruct n; [intros HH; discriminate HH|]. intros _. simpl. unfold impl; auto.
  - cbn [start]. intros Hl. simpl in Hl |- *. apply (IHs Hwt {| e_stop := false; e_sch := e_sch e0 |} ctx Hl).
  - rewrite start_when_all. destruct Hwt as [Hne Hall].
    change (wt_all cp 0 ss) in Hall. pose proof (wt_all_forall cp ss 0 Hall) as Hws. cbv zeta.
    set (ws := wa_static cp ss).
    destruct (wa_go e0 ctx ws 0 ss (wa_init ws (length ss) e0) []) as [[[w os] out] t] eqn:E.
    intros _. simpl. eapply wa_go_so; [exact Hws| | | | | |exact E].
    + intros s Hs. rewrite Forall_forall in H, Hws. apply H; auto.
    + intros Hu. unfold wa_init, impl. rewrite Hu. simpl. destruct (e_stop e0); auto.
    + unfold wsrc_ok, wa_init. destruct (_ && _); simpl; congruence.
    + exists []. simpl. auto.
    + simpl. auto.
  - rewrite start_when_any. destruct Hwt as [Hne Hall].
    change (wt_any cp 0 ss) in Hall. pose proof (wt_any_forall cp ss 0 Hall) as Hws. cbv zeta.
    destruct (e_stop e0) eqn:Ee; [intros HH; discriminate HH|].
    destruct (any_go e0 ctx cp 0 ss _ []) as [[[w os] out] t] eqn:E.
    intros _. simpl. eapply any_go_so; [exact Ee|exact Hws| | | | |exact E].
    + intros s Hs. rewrite Forall_forall in H, Hws. apply H; auto.
    + simpl. congruence.
    + exists []. simpl. auto.
    + simpl. auto.
Qed.

Lemma feed_so o : forall Sg b p k c r,
  opok Sg o -> so b o -> leaf_at o p = Some k -> leaf_may k c -> feed o p c = Some r -> sres b r.
Proof.
  induction o using op_ind'; intros Sg b p k0 c0 r Hok Hs Hlf Hmay Hfeed.
  - discriminate.
  - simpl in *. destruct p; [|discriminate]. injection Hfeed as <-. discriminate.
  - simpl in *. destruct p; [|discriminate]. injection Hfeed as <-. discriminate.
  - cbn [feed] in Hfeed. destruct (feed o p c0) eqn:Ef; [|discriminate]. injection Hfeed as <-.
    destruct Hok as (S & A & _). apply wrap_so; eauto.
  - cbn [feed] in Hfeed. destruct (feed o p c0) eqn:Ef; [|discriminate]. injection Hfeed as <-.
    destruct Hok as (S & A & B & C). destruct Hs as [He Hs].
    eapply bindr_so; [eapply feed_ok; eauto|eapply IHo; eauto|reflexivity| |].
    + intros o' Ho. simpl. auto.
    + intros c o' Hc Hd. apply let_next_so; auto. intros Hk.
      destruct Hc as (sg & Hin & Hm). apply chan_eqb_eq in Hk.
      destruct (C sg (compl_args (fst c)) Hin) as (_ & Hx & _); auto.
      { rewrite (matches_chan _ _ Hm). auto. } { apply matches_args. auto. }
      intros Hl. eapply so_mono; [apply start_so; eauto|]. auto.
  - cbn [feed] in Hfeed. destruct (feed o p c0) eqn:Ef; [|discriminate]. injection Hfeed as <-.
    apply pass_so; eauto.
  - cbn [feed] in Hfeed. destruct (feed o p c0) eqn:Ef; [|discriminate]. injection Hfeed as <-.
    destruct Hok as (S & A & B & C). destruct Hs as [He Hs].
    eapply bindr_so; [eapply feed_ok; eauto|eapply IHo; eauto|reflexivity| |].
    + intros o' Ho. simpl. auto.
    + intros c' o' Hc Hd. apply seq_next_so; auto.
      intros Hl. eapply so_mono; [apply start_so; eauto|]. auto.
  - cbn [feed] in Hfeed. destruct (feed o p c0) eqn:Ef; [|discriminate]. injection Hfeed as <-.
    apply pass_so; eauto.
  - cbn [feed] in Hfeed. destruct (feed o p c0) eqn:Ef; [|discriminate]. injection Hfeed as <-.
    destruct Hok as (S & A & B & C). destruct Hs as [He Hs].
    eapply bindr_so; [eapply feed_ok; eauto|eapply IHo; eauto|reflexivity| |].
    + intros o' Ho. simpl. auto.
    + intros c' o' Hc Hd. apply fin_next_so; auto.
      intros Hl. eapply so_mono; [apply start_so; eauto|]. auto.
  - cbn [feed] in Hfeed. destruct (feed o p c0) eqn:Ef; [|discriminate]. injection Hfeed as <-.
    destruct Hok as (S & A & _). apply wrap_so; eauto.
  - cbn [feed] in Hfeed. destruct (feed o p c0) eqn:Ef; [|discriminate]. injection Hfeed as <-.
    destruct Hok as (S & A & B & C). destruct Hs as [He Hs].
    eapply bindr_so; [eapply feed_ok; eauto|eapply IHo; eauto|reflexivity| |].
    + intros o' Ho. simpl. auto.
    + intros c' o' Hc Hd. apply con_next_so; auto.
  - cbn [feed] in Hfeed. destruct (feed o p c0) eqn:Ef; [|discriminate]. injection Hfeed as <-.
    destruct Hok as (S & A & _). apply wrap_so; eauto.
  - cbn [feed] in Hfeed. destruct (feed o p c0) eqn:Ef; [|discriminate]. injection Hfeed as <-.
    destruct Hok as (S & A & _). apply wrap_so; eauto.
  - cbn [feed] in Hfeed. destruct (feed o p c0) eqn:Ef; [|discriminate]. injection Hfeed as <-.
    destruct Hok as (S & t & A & _). apply wrap_so; eauto.
  - cbn [feed] in Hfeed. destruct (feed o p c0) eqn:Ef; [|discriminate]. injection Hfeed as <-.
    destruct Hok as (S & A & _). apply wrap_so; eauto.
  - cbn [feed] in Hfeed. destruct (feed o p c0) eqn:Ef; [|discriminate]. injection Hfeed as <-.
    destruct Hok as (A & B & C). destruct Hs as [He Hs].
    eapply bindr_so; [eapply feed_ok; eauto|eapply IHo; eauto|reflexivity| |].
    + intros o' Ho. simpl. auto.
    + intros c' o' Hc Hd. apply rep_next_so; auto.
  - cbn [feed] in Hfeed. destruct (feed o p c0) eqn:Ef; [|discriminate]. injection Hfeed as <-.
    destruct Hok as (A & B & C). destruct Hs as [He Hs].
    eapply bindr_so; [eapply feed_ok; eauto|eapply IHo; eauto|reflexivity| |].
    + intros o' Ho. simpl. auto.
    + intros c' o' Hc Hd. apply repn_next_so; auto.
  - cbn [feed] in Hfeed. destruct (feed o p c0) eqn:Ef; [|discriminate]. injection Hfeed as <-.
    intros Hl. simpl in *. eapply IHo; eauto.
  - destruct p as [|i p]; [discriminate|]. rewrite feed_when in Hfeed. rewrite leaf_when in Hlf.
    destruct (nth_error os i) as [o|] eqn:Eo; [|discriminate].
    destruct (feed o p c0) as [r0|] eqn:Ef; [|discriminate].
    destruct (wa_calls ws i (r_calls r0) w) as [[w1 out] t] eqn:Ec. injection Hfeed as <-.
    destruct Hok as (SS & HC & Hlen & HW & HA). destruct Hs as [Hsrc HB].
    pose proof (leaf_live _ _ Hlf) as Hlive. pose proof (nth_error_In _ _ Eo) as Hin.
    destruct (nth_error SS i) as [T|] eqn:ET.
    2:{ apply nth_error_None in ET. assert (i < length os) by (apply nth_error_Some; congruence). lia. }
    assert (HT : opok T o) by (eapply all2_nth; eauto).
    pose proof HB as HB0. rewrite allp_forall in HB0.
    assert (Hr0 : sres (b || (ws_uses ws && w_src w)) r0).
    { rewrite Forall_forall in H. eapply H; eauto. }
    assert (HA' : all2 SS (upd os i (r_op r0))).
    { eapply all2_upd; eauto. intros Hl. destruct (feed_ok _ _ _ _ HT Hlf Hmay Ef) as [_ [(_ & _ & ?)|(c & _ & _ & Hd)]]; auto.
      congruence. }
    intros _. simpl. destruct (wa_calls_src _ _ _ _ Ec) as [C D]. split; auto.
    eapply wa_prop_so; eauto. apply allp_upd; auto.
  - destruct p as [|i p]; [discriminate|]. rewrite feed_any in Hfeed. rewrite leaf_any in Hlf.
    destruct (nth_error os i) as [o|] eqn:Eo; [|discriminate].
    destruct (feed o p c0) as [r0|] eqn:Ef; [|discriminate].
    destruct (any_calls cp i (r_calls r0) a) as [[w1 out] t] eqn:Ec. injection Hfeed as <-.
    destruct Hok as (SS & HC & Hlen & HW & HA). destruct Hs as [Hsrc HB].
    pose proof (leaf_live _ _ Hlf) as Hlive. pose proof (nth_error_In _ _ Eo) as Hin.
    destruct (nth_error SS i) as [T|] eqn:ET.
    2:{ apply nth_error_None in ET. assert (i < length os) by (apply nth_error_Some; congruence). lia. }
    assert (HT : opok T o) by (eapply all2_nth; eauto).
    pose proof HB as HB0. rewrite allp_forall in HB0.
    assert (Hr0 : sres (b || a_src a) r0).
    { rewrite Forall_forall in H. eapply H; eauto. }
    assert (HA' : all2 SS (upd os i (r_op r0))).
    { eapply all2_upd; eauto. intros Hl. destruct (feed_ok _ _ _ _ HT Hlf Hmay Ef) as [_ [(_ & _ & ?)|(c & _ & _ & Hd)]]; auto.
      congruence. }
    intros _. simpl. destruct (any_calls_src _ _ _ _ Ec) as (C & D & _). split; auto.
    eapply any_prop_so; eauto. apply allp_upd; auto.
Qed.

(** ** Whole runs *)
Definition has_stop (evs : list event) : bool :=
  existsb (fun ev => match ev with EStop => true | _ => false end) evs.

Lemma run_so Sg r evs r' : run r evs r' -> okres Sg r -> forall b, sres b r -> sres (b || has_stop evs) r'.
Proof.
  induction 1; intros Hok b Hs.
  - rewrite orb_false_r. auto.
  - assert (Hok1 : okres Sg (mkres (r_op r1) (r_calls r ++ r_calls r1) (r_obs r ++ r_obs r1))).
    { eapply run_okres; [|exact Hok]. econstructor; eauto. constructor. }
    assert (Hs1 : sres (b || has_stop [ev]) (mkres (r_op r1) (r_calls r ++ r_calls r1) (r_obs r ++ r_obs r1))).
    { destruct Hok as [_ [(_ & Hl & Ho)|(c & _ & _ & Hd)]].
      - specialize (Hs Hl). destruct ev as [p c|]; simpl in *.
        + rewrite orb_false_r. destruct H as (k & Hk & Hm). exact (@feed_so _ _ _ _ _ _ _ Ho Hs Hk Hm H0).
        + injection H0 as <-. intros _. simpl. rewrite orb_true_r. eapply so_stop; eauto.
      - destruct (@step_dead _ _ _ Hd H H0) as (_ & _ & _ & Hd1). intros Hl. simpl in Hl. congruence. }
    specialize (IHrun Hok1 _ Hs1). simpl in *. rewrite orb_false_r, <- orb_assoc in IHrun. exact IHrun.
Qed.

Lemma shielded_when ws w os i p :
  shielded (OWhen ws w os) (i :: p) =
  match nth_error os i with None => false | Some o => shielded o p end.
Proof.
  simpl. match goal with |- ?f os i = _ =>
    assert (E : forall l j, f l j = match nth_error l j with
                                    | None => false | Some o => shielded o p end) end.
  { induction l; destruct j; simpl; auto. }
  apply E.
Qed.
Lemma shielded_any ws w os i p :
  shielded (OAny ws w os) (i :: p) =
  match nth_error os i with None => false | Some o => shielded o p end.
Proof.
  simpl. match goal with |- ?f os i = _ =>
    assert (E : forall l j, f l j = match nth_error l j with
                                    | None => false | Some o => shielded o p end) end.
  { induction l; destruct j; simpl; auto. }
  apply E.
Qed.

Lemma so_leaf o : forall p k, so true o -> leaf_at o p = Some k -> shielded o p = false -> leaf_stopped k = true.
Proof.
  induction o using op_ind'; intros p k0 Hs Hl Hsh;
    try (simpl in *; try discriminate; try (destruct Hs as [? Hs]); eauto; fail).
  - simpl in *. destruct p; [|discriminate]. injection Hl as <-. simpl. auto.
  - simpl in *. destruct p; [|discriminate]. injection Hl as <-. simpl. auto.
  - destruct p as [|i p]; [discriminate|]. rewrite leaf_when in Hl. rewrite shielded_when in Hsh.
    destruct (nth_error os i) as [o|] eqn:E; [|discriminate]. destruct Hs as [_ Hs].
    rewrite allp_forall in Hs. rewrite Forall_forall in H. pose proof (nth_error_In _ _ E).
    eapply H; eauto. apply Hs; auto. eapply leaf_live; eauto.
  - destruct p as [|i p]; [discriminate|]. rewrite leaf_any in Hl. rewrite shielded_any in Hsh.
    destruct (nth_error os i) as [o|] eqn:E; [|discriminate]. destruct Hs as [_ Hs].
    rewrite allp_forall in Hs. rewrite Forall_forall in H. pose proof (nth_error_In _ _ E).
    eapply H; eauto. apply Hs; auto. eapply leaf_live; eauto.
Qed.

Theorem stop_reaches_leaves s e ctx evs r :
  wt s -> run (start e ctx s) evs r -> e_stop e = true \/ In EStop evs ->
  forall p k, leaf_at (r_op r) p = Some k -> shielded (r_op r) p = false -> leaf_stopped k = true.
Proof.
  intros Hw Hr Hst p k Hl Hsh.
  assert (E : e_stop e || has_stop evs = true).
  { destruct Hst as [->|Hin]; auto. apply orb_true_iff. right. apply existsb_exists. exists EStop. auto. }
  pose proof (@run_so (csigs s) _ _ _ Hr (start_ok s Hw e ctx) (e_stop e) (start_so s Hw e ctx)) as HS.
  rewrite E in HS. eapply so_leaf; eauto. apply HS. eapply leaf_live; eauto.
Qed.

(** a stop request by itself completes nothing and has no other visible effect *)
Theorem stop_is_silent r r' : run r [EStop] r' -> r_calls r' = r_calls r /\ r_obs r' = r_obs r.
Proof.
  intros H. inversion H as [|? ? ? r1 ? Hv Hs Hr]; subst. simpl in Hs. injection Hs as <-.
  inversion Hr; subst. simpl. rewrite !app_nil_r. auto.
Qed.

(** ** when_all: from the first failure on, the siblings are asked to stop *)
Definition failure (cp : nat -> compl -> option nat) (ss : list sender) (log : list item) : Prop :=
  (exists i v x, In (AChild i (Err v, x)) log) \/
  (exists i x, In (AChild i (Stop, x)) log) \/
  (exists i vs x ex, In (AChild i (Val vs, x)) log /\ cp i (Val vs) = Some ex /\
                     forallb (fun s => sends KVal (csigs s)) ss = true).

Lemma first_error_in cp b log i v x : In (AChild i (Err v, x)) log -> first_error cp b log <> None.
Proof. intros Hin Hf. eapply first_error_none_err; eauto. Qed.

Lemma stopped_leaf_when Sg cp ss e ctx evs r rs log :
  let ws := wa_static cp ss in
  wt (WhenAll cp ss) -> run (start e ctx (WhenAll cp ss)) evs r ->
  r_op r = OWhen ws (wfold ws (length ss) log) (map r_op rs) ->
  okres Sg (start e ctx (WhenAll cp ss)) ->
  ws_uses ws = true -> w_st (wfold ws (length ss) log) <> WStarted ->
  forall p k, leaf_at (r_op r) p = Some k -> shielded (r_op r) p = false -> leaf_stopped k = true.
Proof.
  intros ws Hw Hr Ho Hok Hu Hst p k Hl Hsh.
  pose proof (@run_so Sg _ _ _ Hr Hok (e_stop e) (start_so _ Hw e ctx)) as HS.
  specialize (HS (leaf_live _ _ Hl)). rewrite Ho in *. destruct HS as [Hsrc HB].
  specialize (Hsrc Hu Hst). rewrite Hu, Hsrc, orb_true_r in HB. cbn [andb] in HB.
  eapply so_leaf; [|exact Hl|exact Hsh]. cbn [so]. split; [intros _ _; exact Hsrc|].
  rewrite Hu, Hsrc. exact HB.
Qed.

Theorem when_all_failure_stops_siblings cp ss e ctx evs r :
  wt (WhenAll cp ss) -> run (start e ctx (WhenAll cp ss)) evs r ->
  exists rs log,
    node_log ctx e (ws_uses (wa_static cp ss) && e_stop e) ss evs rs log /\
    (failure cp ss log ->
     forall p k, leaf_at (r_op r) p = Some k -> shielded (r_op r) p = false -> leaf_stopped k = true).
Proof.
  intros Hw Hr. pose proof Hw as [Hne Hall]. pose proof (wt_all_forall cp ss 0 Hall) as Hws.
  destruct (@winvr_run cp ss e ctx _ _ _ Hws Hr [] (winvr_start cp e ctx Hws Hne)) as (rs & log & HN & Ho & Hc).
  exists rs, log. split; [exact HN|]. intros Hf.
  pose proof (node_log_ok Hws HN) as Hok.
  pose proof (wfold_state cp Hok) as HS. cbv zeta in HS.
  assert (Hu : ws_uses (wa_static cp ss) = true /\ w_st (wfold (wa_static cp ss) (length ss) log) <> WStarted).
  { assert (Hsome : first_error cp (ws_values (wa_static cp ss)) log <> None ->
              w_st (wfold (wa_static cp ss) (length ss) log) <> WStarted).
    { destruct (first_error cp _ log); [|congruence]. destruct HS as [-> _]. congruence. }
    destruct Hf as [(i & v & x & Hin)|[(i & x & Hin)|(i & vs & x & ex & Hin & Hcp & Hv)]];
      destruct (Hok _ _ Hin) as (s & Hs & Hcf); pose proof (nth_error_In _ _ Hs) as His.
    - split.
      + unfold wa_static. simpl. apply existsb_exists. exists (csigs s). split; [apply in_map; auto|].
        apply sends_conforms in Hcf. simpl in Hcf. rewrite Hcf. auto.
      + apply Hsome. eapply first_error_in; eauto.
    - assert (Hu : ws_uses (wa_static cp ss) = true).
      { unfold wa_static. simpl. apply existsb_exists. exists (csigs s). split; [apply in_map; auto|].
        apply sends_conforms in Hcf. simpl in Hcf. rewrite Hcf, orb_true_r. auto. }
      split; auto. destruct (first_error cp _ log); [destruct HS as [-> _]; congruence|].
      rewrite HS, Hu. assert (Hss : stop_seen log = true) by (apply existsb_exists; eexists; split; [exact Hin|auto]).
      rewrite Hss. simpl. congruence.
    - split.
      + unfold wa_static. simpl. apply existsb_exists. exists (csigs s). split; [apply in_map; auto|].
        destruct (wt_all_nth cp ss 0 Hall i Hs) as (_ & _ & Hcpok). simpl in Hcpok.
        destruct (Hcpok _ _ Hcf Hcp) as (sg & Hsg & _ & Hnt).
        rewrite (all_nt_false _ _ Hsg Hnt). simpl. rewrite orb_true_r. auto.
      + apply Hsome. assert (Ev : ws_values (wa_static cp ss) = true).
        { rewrite <- Hv. unfold wa_static. simpl. clear. induction ss; simpl; f_equal; auto. }
        rewrite Ev. intros Hn. pose proof (@first_error_none_in _ _ _ _ _ Hn Hin). congruence. }
  destruct Hu as [Hu Hst].
  eapply (@stopped_leaf_when (csigs (WhenAll cp ss))); eauto. apply start_ok; auto.
Qed.
