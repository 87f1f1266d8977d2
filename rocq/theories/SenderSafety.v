(** * SenderSafety: start and feed preserve the typed invariant. *)

From Coq Require Import List Arith Bool Lia.
From Verif Require Import SenderModel SenderSpec SenderProofs.
Import ListNotations.
Set Implicit Arguments.

(** ** Lists *)

Lemma length_upd {A} (l : list A) i x : length (upd l i x) = length l.
Proof. revert i; induction l; destruct i; simpl; auto. Qed.

Lemma nth_upd_eq {A} (l : list A) i x : i < length l -> nth_error (upd l i x) i = Some x.
Proof. revert i; induction l; destruct i; simpl; intros; try lia; auto. apply IHl; lia. Qed.

Lemma nth_upd_neq {A} (l : list A) i j x : i <> j -> nth_error (upd l i x) j = nth_error l j.
Proof. revert i j; induction l; destruct i, j; simpl; intros; try congruence; auto. Qed.

Lemma map_upd {A B} (f : A -> B) l i x : map f (upd l i x) = upd (map f l) i (f x).
Proof. revert i; induction l; destruct i; simpl; auto. f_equal; auto. Qed.

Lemma upd_same {A} (l : list A) i x : nth_error l i = Some x -> upd l i x = l.
Proof. revert i; induction l; destruct i; simpl; intros; try congruence. f_equal; auto. Qed.

Lemma count_app l l' : count (l ++ l') = count l + count l'.
Proof. induction l; simpl; auto. rewrite IHl. lia. Qed.

Lemma count_upd l i : nth_error l i = Some true -> S (count (upd l i false)) = count l.
Proof.
  revert i; induction l; destruct i; simpl; intros; try congruence.
  - injection H as ->. auto.
  - rewrite <- (IHl _ H). lia.
Qed.

Lemma count_le l : count l <= length l.
Proof. induction l; simpl; auto. destruct a; lia. Qed.

Lemma count_zero l : count l = 0 -> forall i, i < length l -> nth_error l i = Some false.
Proof.
  induction l; simpl; intros; [lia|]. destruct a; [lia|].
  destruct i; simpl; auto. apply IHl; auto; lia.
Qed.

Lemma count_live os : existsb live os = negb (count (map live os) =? 0).
Proof.
  induction os; simpl; auto. destruct (live a); simpl; auto.
Qed.

(** ** when_all *)

Lemma all_sigs_err SS S s Sg i :
  incl (all_sigs SS) Sg -> nth_error SS i = Some S -> In s S -> sig_chan s <> KVal -> In s Sg.
Proof.
  intros Hi Hn Hs Hk. apply Hi. unfold all_sigs. rewrite !in_app_iff. right; right.
  apply in_flat_map. exists S. split; [eapply nth_error_In; eauto|]. apply in_drop_vals; auto.
Qed.

Lemma forallb_false_in {A} (f : A -> bool) l x : In x l -> f x = false -> forallb f l = false.
Proof.
  intros Hx Hf. destruct (forallb f l) eqn:E; auto. rewrite forallb_forall in E.
  rewrite (E _ Hx) in Hf. discriminate.
Qed.

Lemma all_sigs_eptr SS S s Sg i :
  incl (all_sigs SS) Sg -> nth_error SS i = Some S -> In s S -> forallb nt (sig_args s) = false ->
  In eptr_sig Sg.
Proof.
  intros Hi Hn Hs Hk. apply Hi. unfold all_sigs. rewrite !in_app_iff. left.
  rewrite (@forallb_false_in _ all_nt SS S); [simpl; auto|eapply nth_error_In; eauto|].
  eapply all_nt_false; eauto.
Qed.

Lemma single_hd S ts : single_val S -> In (SVal ts) S -> hd [] (vals_of S) = ts.
Proof.
  unfold single_val. intros Hl Hi.
  assert (H : In ts (vals_of S)). { apply in_flat_map. exists (SVal ts). simpl; auto. }
  destruct (vals_of S) as [|a [|b l]]; simpl in *; try tauto; try lia.
Qed.

(** storing the completion of child [i] *)
Lemma wa_store_ok Sg ws SS w lv i S c :
  wcond Sg ws SS -> winv Sg ws SS w lv -> nth_error SS i = Some S -> nth_error lv i = Some true ->
  conforms S c ->
  let w' := wa_store ws i c w in
  w_cnt w' = w_cnt w /\
  length (w_vals w') = length SS /\
  (w_st w' = WError -> exists e, w_err w' = Some e /\ conforms Sg (Err e)) /\
  (forall j T, nth_error SS j = Some T -> nth_error (upd lv i false) j = Some false ->
     child_done ws w' j T).
Proof.
  intros (Hinc & Hne & Hss & Hv & Hcp) (Wc & Wl & We & Wd) HS Hlv [s [Hs Hm]] w'.
  destruct (Hcp _ _ HS) as [Hsv Hcpi].
  assert (Hil : i < length (w_vals w)).
  { rewrite Wl. apply nth_error_Some. congruence. }
  assert (Hother : forall v', w_st v' = w_st w \/ w_st v' = WError \/
                              (w_st v' = WStopped /\ ws_sends_stopped ws = true) ->
            (forall j, j <> i -> nth_error (w_vals v') j = nth_error (w_vals w) j) ->
            forall j T, j <> i -> nth_error SS j = Some T ->
            nth_error (upd lv i false) j = Some false -> child_done ws v' j T).
  { intros v' Hst Hvals j T Hj HT Hf. rewrite nth_upd_neq in Hf by auto.
    specialize (Wd _ _ HT Hf). unfold child_done in *. rewrite (Hvals _ Hj).
    destruct Hst as [Hst|[Hst|Hst]]; [rewrite Hst|..]; tauto. }
  assert (Hsuff : forall v',
            w_cnt v' = w_cnt w -> length (w_vals v') = length SS ->
            (w_st v' = WError -> exists e, w_err v' = Some e /\ conforms Sg (Err e)) ->
            (w_st v' = w_st w \/ w_st v' = WError \/
                 (w_st v' = WStopped /\ ws_sends_stopped ws = true)) ->
            (forall j, j <> i -> nth_error (w_vals v') j = nth_error (w_vals w) j) ->
            child_done ws v' i S ->
            w_cnt v' = w_cnt w /\ length (w_vals v') = length SS /\
            (w_st v' = WError -> exists e, w_err v' = Some e /\ conforms Sg (Err e)) /\
            (forall j T, nth_error SS j = Some T -> nth_error (upd lv i false) j = Some false ->
               child_done ws v' j T)).
  { intros v' A B C D E F. split; [auto|split; [auto|split; [auto|]]].
    intros j T HT Hf. destruct (Nat.eq_dec j i) as [->|Hj]; [congruence|].
    eapply Hother; eauto. }
  assert (Herr : forall cpe x, (forall y, cpe = Some y -> In eptr_sig Sg) ->
            (cpe = None -> conforms Sg (Err x)) ->
            let v' := wa_set_error cpe x w in
            w_cnt v' = w_cnt w /\ length (w_vals v') = length SS /\
            (w_st v' = WError -> exists e, w_err v' = Some e /\ conforms Sg (Err e)) /\
            (forall j T, nth_error SS j = Some T -> nth_error (upd lv i false) j = Some false ->
               child_done ws v' j T)).
  { intros cpe x H1 H2 v'. unfold v', wa_set_error. destruct (w_st w) eqn:Est.
    - apply Hsuff; simpl; auto; [|left; reflexivity].
      intros _. eexists; split; [reflexivity|]. destruct cpe; [apply conforms_eptr; eauto|auto].
    - apply Hsuff; auto. left; auto.
    - apply Hsuff; simpl; auto; [|left; reflexivity].
      intros _. eexists; split; [reflexivity|]. destruct cpe; [apply conforms_eptr; eauto|auto]. }
  unfold w', wa_store. destruct c as [vs|e|]; destruct s; simpl in Hm; try tauto.
  - (* value *)
    assert (Hsend : sends KVal S = true) by (eapply sends_in; eauto).
    destruct (ws_values ws) eqn:Ews.
    + destruct (ws_cp ws i (Val vs)) eqn:Ecp.
      * destruct (Hcpi (Val vs) n) as (s' & Hs' & Hm' & Hn'); auto. { exists (SVal ts); auto. }
        apply Herr; [discriminate|]. intros _. apply conforms_eptr.
        eapply all_sigs_eptr; eauto.
      * apply Hsuff; simpl; auto.
        -- rewrite length_upd; auto.
        -- intros j Hj. apply nth_upd_neq; auto.
        -- right; right. split; auto. intros _. exists vs. split; [simpl; apply nth_upd_eq; auto|].
           rewrite (single_hd _ Hsv Hs). auto.
    + apply Hsuff; auto. right; right. split; auto. congruence.
  - (* error *)
    apply Herr.
    + intros y Hy. destruct (Hcpi (Err e) y) as (s' & Hs' & Hm' & Hn'); auto. { exists (SErr t); auto. }
      eapply all_sigs_eptr; eauto.
    + intros _. exists (SErr t). split; auto. eapply all_sigs_err; eauto. simpl; congruence.
  - (* stopped *)
    assert (Hst : ws_sends_stopped ws = true).
    { rewrite Hss. apply existsb_exists. exists S. split; [eapply nth_error_In; eauto|].
      eapply sends_in; eauto. }
    destruct (w_st w) eqn:Est.
    + apply Hsuff; simpl; auto; [discriminate|right; left; auto].
    + apply Hsuff; auto. left; assumption.
    + apply Hsuff; auto; [intros HH; congruence|]. right; left; auto.
Qed.

Lemma cat_opt_typed : forall (SS : list (list sig)) vals,
  length vals = length SS ->
  (forall i S, nth_error SS i = Some S -> exists vs, nth_error vals i = Some (Some vs) /\
      Forall2 has_ty vs (hd [] (vals_of S))) ->
  exists vs, cat_opt vals = Some vs /\
    Forall2 has_ty vs (concat (map (fun S => hd [] (vals_of S)) SS)).
Proof.
  induction SS; destruct vals; simpl; intros Hl H; try discriminate.
  - exists []. auto.
  - destruct (H 0 a eq_refl) as (vs & Hv & Ht). simpl in Hv. injection Hv as ->.
    destruct (IHSS vals) as (r & Hr & Htr); [lia|intros i T Hi; apply (H (S i) T Hi)|].
    rewrite Hr. exists (vs ++ r). split; auto. apply Forall2_app; auto.
Qed.

Lemma wa_complete_ok Sg ws SS w lv x :
  wcond Sg ws SS -> winv Sg ws SS w lv -> length lv = length SS -> w_cnt w = 0 ->
  exists c, wa_complete ws w x = ([(c, x)], []) /\ conforms Sg c.
Proof.
  intros (Hinc & Hne & Hss & Hv & Hcp) (Wc & Wl & We & Wd) Hlen Hz.
  assert (Hall : forall i, i < length lv -> nth_error lv i = Some false).
  { apply count_zero. lia. }
  assert (HD : forall i S, nth_error SS i = Some S -> child_done ws w i S).
  { intros i S HS. apply Wd; auto. apply Hall. rewrite Hlen. apply nth_error_Some. congruence. }
  assert (Hval : (forall i S, nth_error SS i = Some S ->
             sends KVal S = true /\ (ws_values ws = true ->
             exists vs, nth_error (w_vals w) i = Some (Some vs) /\
                        Forall2 has_ty vs (hd [] (vals_of S)))) ->
           exists c, (if ws_values ws then
                  match cat_opt (w_vals w) with
                  | Some vs => ([(Val vs, x)], [])
                  | None => ([], [OUb])
                  end
                else ([], [])) = ([(c, x)], []) /\ conforms Sg c).
  { intros HV.
    assert (Hvt : ws_values ws = true).
    { rewrite Hv. apply forallb_forall. intros S HS. apply In_nth_error in HS.
      destruct HS as [i Hi]. apply (HV _ _ Hi). }
    rewrite Hvt.
    destruct (@cat_opt_typed SS (w_vals w)) as (vs & Hvs & Hty); auto.
    { intros i S HS. apply (HV _ _ HS); auto. }
    rewrite Hvs. exists (Val vs). split; auto.
    exists (SVal (concat (map (fun S => hd [] (vals_of S)) SS))). split; [apply Hinc|exact Hty].
    unfold all_sigs. rewrite !in_app_iff. right; left. rewrite <- Hv, Hvt. simpl; auto. }
  unfold wa_complete. destruct (w_st w) eqn:Est.
  - apply Hval. intros i S HS. destruct (HD _ _ HS) as [A|[[A _]|A]]; try congruence; auto.
  - destruct We as (e & He & Hc); auto. rewrite He. exists (Err e). auto.
  - destruct (ws_sends_stopped ws) eqn:Ess.
    + exists Stop. split; auto. symmetry in Hss. apply existsb_exists in Hss.
      destruct Hss as (S & HS & Hsd). unfold sends in Hsd. apply existsb_exists in Hsd.
      destruct Hsd as (s & Hs & Hk). apply chan_eqb_eq in Hk.
      destruct s; simpl in Hk; try discriminate.
      apply In_nth_error in HS. destruct HS as [i Hi].
      exists SStop. split; [|simpl; auto]. eapply all_sigs_err; eauto. simpl; congruence.
    + apply Hval. intros i S HS. destruct (HD _ _ HS) as [A|[[_ A]|A]]; try congruence; auto.
Qed.

(** one child completes *)
Lemma wa_calls_ok Sg ws SS w lv i S (c : call) :
  wcond Sg ws SS -> winv Sg ws SS w lv -> nth_error SS i = Some S -> nth_error lv i = Some true ->
  length lv <= length SS ->
  conforms S (fst c) ->
  exists w1 out t, wa_calls ws i [c] w = (w1, out, t) /\
    winv Sg ws SS w1 (upd lv i false) /\ ~ In OUb t /\
    ((w_cnt w1 <> 0 /\ out = []) \/ (w_cnt w1 = 0 /\ exists c', out = [c'] /\ conforms Sg (fst c'))).
Proof.
  intros HC HW HS Hlv Hlen Hc.
  destruct (wa_store_ok i HC HW HS Hlv Hc) as (A & B & C & D).
  pose proof HW as (Wc & _).
  pose proof (count_upd _ _ Hlv) as Hcu.
  set (w' := wa_store ws i (fst c) w) in *.
  set (w1 := {| w_st := w_st w'; w_err := w_err w'; w_vals := w_vals w';
                w_cnt := w_cnt w' - 1; w_src := w_src w' |}).
  assert (HW1 : winv Sg ws SS w1 (upd lv i false)).
  { unfold w1. split; [|split; [|split]]; simpl; auto. rewrite length_upd. lia. }
  unfold wa_calls, wa_arrive. fold w'. fold w1.
  destruct (w_cnt w' =? 1) eqn:E1.
  - apply Nat.eqb_eq in E1.
    assert (Hz : w_cnt w1 = 0) by (unfold w1; simpl; lia).
    destruct (@wa_complete_ok Sg ws SS w1 (upd lv i false) (snd c)) as (c' & Hc' & Hcf); auto.
    { rewrite length_upd. destruct HW1 as [H _]. rewrite Hz, length_upd in H. lia. }
    rewrite Hc'. exists w1, [(c', snd c)], []. split; auto. split; auto. split; auto.
    right. split; auto. exists (c', snd c). auto.
  - exists w1, [], []. split; auto. split; auto. split; auto. left. split; auto.
    apply Nat.eqb_neq in E1. destruct HW1 as [H _]. rewrite H. simpl.
    intros Hz. rewrite length_upd in Hz. lia.
Qed.

Lemma wa_prop_live w w' os : map live (wa_prop w w' os) = map live os.
Proof. unfold wa_prop. destruct (_ && _); auto. apply map_live_stop. Qed.
Lemma wa_prop_length w w' os : length (wa_prop w w' os) = length os.
Proof. unfold wa_prop. destruct (_ && _); auto. apply map_length. Qed.
Lemma all2_map_stop SS os : all2 SS os -> all2 SS (map stop_op os).
Proof.
  apply all2_stop. apply Forall_forall. intros; apply opok_stop; auto.
Qed.
Lemma wa_prop_all2 w w' SS os : all2 SS os -> all2 SS (wa_prop w w' os).
Proof. unfold wa_prop. destruct (_ && _); auto. apply all2_map_stop. Qed.
Lemma any_prop_live w w' os : map live (any_prop w w' os) = map live os.
Proof. unfold any_prop. destruct (_ && _); auto. apply map_live_stop. Qed.
Lemma any_prop_length w w' os : length (any_prop w w' os) = length os.
Proof. unfold any_prop. destruct (_ && _); auto. apply map_length. Qed.
Lemma any_prop_all2 w w' SS os : all2 SS os -> all2 SS (any_prop w w' os).
Proof. unfold any_prop. destruct (_ && _); auto. apply all2_map_stop. Qed.

Lemma all2_app SS os o S :
  all2 SS os -> nth_error SS (length os) = Some S -> (live o = true -> opok S o) ->
  all2 SS (os ++ [o]).
Proof.
  revert SS; induction os; intros [|T SS]; simpl; intros HA HS Ho; try discriminate; try tauto.
  - injection HS as ->. auto.
  - destruct HA. split; auto.
Qed.

Lemma all2_upd SS os o i S :
  all2 SS os -> nth_error SS i = Some S -> (live o = true -> opok S o) ->
  all2 SS (upd os i o).
Proof.
  revert SS i; induction os; intros [|T SS] [|i]; simpl; intros HA HS Ho; try discriminate; try tauto.
  - injection HS as ->. tauto.
  - destruct HA. split; auto.
Qed.

Lemma all2_nth SS os i o S :
  all2 SS os -> nth_error SS i = Some S -> nth_error os i = Some o -> live o = true -> opok S o.
Proof.
  revert SS i; induction os; intros [|T SS] [|i]; simpl; intros HA HS Ho Hl; try discriminate; try tauto.
  - injection HS as ->. injection Ho as ->. tauto.
  - destruct HA. eapply IHos; eauto.
Qed.

(** the loop that starts the children of when_all *)
Definition wa_go (e : env) (ctx : nat) (ws : wstatic) :=
  fix go (i : nat) (ss : list sender) (w : wstate) (os : list op)
    : wstate * list op * list call * list obs :=
    match ss with
    | [] => (w, os, [], [])
    | s :: ss =>
        let r := start (wa_env ws w e) ctx s in
        let '(w1, out1, t1) := wa_calls ws i (r_calls r) w in
        let '(w2, os2, out2, t2) := go (S i) ss w1 (wa_prop w w1 (os ++ [r_op r])) in
        (w2, os2, out1 ++ out2, r_obs r ++ t1 ++ t2)
    end.

Lemma start_when_all e ctx cp ss :
  start e ctx (WhenAll cp ss) =
  let ws := wa_static cp ss in
  let '(w, os, cs, t) := wa_go e ctx ws 0 ss (wa_init ws (length ss) e) [] in
  mkres (OWhen ws w os) cs t.
Proof. reflexivity. Qed.

Definition any_go (e : env) (ctx : nat) (cp : nat -> compl -> option nat) :=
  fix go (i : nat) (ss : list sender) (a : astate) (os : list op)
    : astate * list op * list call * list obs :=
    match ss with
    | [] => (a, os, [], [])
    | s :: ss =>
        let r := start {| e_stop := a_src a; e_sch := e_sch e |} ctx s in
        let '(a1, out1, t1) := any_calls cp i (r_calls r) a in
        let '(a2, os2, out2, t2) := go (S i) ss a1 (any_prop a a1 (os ++ [r_op r])) in
        (a2, os2, out1 ++ out2, r_obs r ++ t1 ++ t2)
    end.

Lemma start_when_any e ctx cp ss :
  start e ctx (WhenAny cp ss) =
  let a0 := {| a_res := None; a_cnt := length ss; a_src := e_stop e; a_pstop := e_stop e |} in
  if e_stop e then mkres (OAny cp a0 []) [(Stop, ctx)] []
  else let '(a, os, cs, t) := any_go e ctx cp 0 ss a0 [] in mkres (OAny cp a os) cs t.
Proof. reflexivity. Qed.

Lemma winv_snoc Sg ws SS w lv :
  winv Sg ws SS w lv -> length lv < length SS -> winv Sg ws SS w (lv ++ [true]).
Proof.
  intros (A & B & C & D) Hl. split; [|split; [|split]]; auto.
  - rewrite count_app, app_length. simpl. lia.
  - intros i S HS Hf. apply D with (S := S); auto.
    destruct (Nat.lt_ge_cases i (length lv)).
    + rewrite nth_error_app1 in Hf; auto.
    + rewrite nth_error_app2 in Hf; auto. destruct (i - length lv) as [|[|]]; simpl in Hf; congruence.
Qed.

Lemma upd_snoc {A} (l : list A) x y : upd (l ++ [x]) (length l) y = l ++ [y].
Proof. induction l; simpl; auto. f_equal; auto. Qed.

Lemma wa_go_ok Sg e ctx ws SS :
  wcond Sg ws SS ->
  forall ss i w os,
    (forall j s, nth_error ss j = Some s ->
       nth_error SS (i + j) = Some (csigs s) /\
       forall e' x, okres (csigs s) (start e' x s)) ->
    i + length ss = length SS ->
    length os = i -> winv Sg ws SS w (map live os) -> all2 SS os ->
    (w_cnt w <> 0) ->
    exists w2 os2 out t, wa_go e ctx ws i ss w os = (w2, os2, out, t) /\
      length os2 = length SS /\ winv Sg ws SS w2 (map live os2) /\ all2 SS os2 /\
      ~ In OUb t /\
      ((w_cnt w2 <> 0 /\ out = []) \/
       (w_cnt w2 = 0 /\ exists c, out = [c] /\ conforms Sg (fst c))).
Proof.
  intros HC. induction ss as [|s ss IH]; intros i w os Hss Hlen Hi HW HA Hnz.
  - simpl in *. exists w, os, [], []. repeat split; auto. lia. apply HW. apply HW. apply HW.
    destruct HW as (_ & _ & _ & HW); auto.
  - simpl. destruct (Hss 0 s eq_refl) as [HS Hst]. rewrite Nat.add_0_r in HS.
    destruct (Hst (wa_env ws w e) ctx) as [Hub Hok].
    assert (Hil : i < length SS) by (simpl in Hlen; lia).
    assert (HW' : winv Sg ws SS w (map live os ++ [true])).
    { apply winv_snoc; auto. rewrite map_length; lia. }
    assert (Hss' : forall j s0, nth_error ss j = Some s0 ->
              nth_error SS (S i + j) = Some (csigs s0) /\
              (forall e' x, okres (csigs s0) (start e' x s0))).
    { intros j s0 Hj. specialize (Hss (S j) s0 Hj). rewrite Nat.add_succ_r in Hss. exact Hss. }
    destruct Hok as [(Hc & Hl & Ho)|(c & Hc & Hcf & Hl)]; rewrite Hc.
    + (* child still running *)
      simpl. destruct (IH (S i) w (wa_prop w w (os ++ [r_op (start (wa_env ws w e) ctx s)])))
        as (w2 & os2 & out & t & Hgo & R1 & R2 & R3 & R4 & R5); auto.
      * simpl in Hlen; lia.
      * rewrite wa_prop_length, app_length. simpl. lia.
      * rewrite wa_prop_live, map_app. simpl. rewrite Hl. auto.
      * apply wa_prop_all2. eapply all2_app; eauto. rewrite Hi. eauto.
      * rewrite Hgo. exists w2, os2, out, (r_obs (start (wa_env ws w e) ctx s) ++ t).
        repeat split; auto; try apply R2. rewrite in_app_iff; tauto.
    + (* child completed inline *)
      destruct (@wa_calls_ok Sg ws SS w (map live os ++ [true]) i (csigs s) c)
        as (w1 & out1 & t1 & E1 & HW1 & Hub1 & Hout); auto.
      { rewrite nth_error_app2; rewrite map_length; [|lia]. rewrite Hi, Nat.sub_diag; auto. }
      { rewrite app_length, map_length; simpl; lia. }
      rewrite E1.
      assert (Hu : upd (map live os ++ [true]) i false = map live (os ++ [r_op (start (wa_env ws w e) ctx s)])).
      { rewrite map_app. simpl. rewrite Hl. rewrite <- Hi, <- (map_length live os). apply upd_snoc. }
      rewrite Hu in HW1.
      assert (HA1 : all2 SS (wa_prop w w1 (os ++ [r_op (start (wa_env ws w e) ctx s)]))).
      { apply wa_prop_all2. eapply all2_app; eauto. rewrite Hi; eauto. congruence. }
      assert (HL1 : length (wa_prop w w1 (os ++ [r_op (start (wa_env ws w e) ctx s)])) = S i).
      { rewrite wa_prop_length, app_length; simpl; lia. }
      destruct Hout as [[Hnz1 ->]|[Hz (c' & -> & Hcf')]].
      * destruct (IH (S i) w1 (wa_prop w w1 (os ++ [r_op (start (wa_env ws w e) ctx s)])))
          as (w2 & os2 & out & t & Hgo & R1 & R2 & R3 & R4 & R5); auto.
        -- simpl in Hlen; lia.
        -- rewrite wa_prop_live; auto.
        -- rewrite Hgo. exists w2, os2, out, (r_obs (start (wa_env ws w e) ctx s) ++ t1 ++ t).
           repeat split; auto; try apply R2. rewrite !in_app_iff; tauto.
      * destruct ss as [|s' ss].
        -- simpl. eexists _, _, _, _. split; [reflexivity|].
           simpl in Hlen. repeat split.
           ++ rewrite HL1; lia.
           ++ rewrite wa_prop_live; apply HW1.
           ++ apply HW1.
           ++ apply HW1.
           ++ rewrite wa_prop_live. destruct HW1 as (_ & _ & _ & HW1). auto.
           ++ auto.
           ++ rewrite !in_app_iff; simpl; tauto.
           ++ right. split; auto. exists c'. auto.
        -- exfalso. destruct HW1 as [HW1 _]. rewrite Hz, map_length, app_length in HW1.
           simpl in *. lia.
Qed.

(** ** when_any *)
Lemma any_calls_ok Sg cp SS a lv i S (c : call) :
  acond Sg cp SS -> ainv Sg SS a lv -> nth_error SS i = Some S -> nth_error lv i = Some true ->
  length lv <= length SS ->
  conforms S (fst c) ->
  exists a1 out t, any_calls cp i [c] a = (a1, out, t) /\
    ainv Sg SS a1 (upd lv i false) /\ ~ In OUb t /\
    ((a_cnt a1 <> 0 /\ out = []) \/ (a_cnt a1 = 0 /\ exists c', out = [c'] /\ conforms Sg (fst c'))).
Proof.
  intros (Hinc & Hne & Hcp) (Ac & Ar & Ad) HS Hlv Hlen Hc.
  pose proof (count_upd _ _ Hlv) as Hcu.
  assert (HSg : forall s, In s S -> In s Sg).
  { intros s Hs. apply Hinc. unfold any_sigs. rewrite !in_app_iff. right; right.
    apply in_concat. exists S. split; auto. eapply nth_error_In; eauto. }
  assert (Hst : In SStop Sg).
  { apply Hinc. unfold any_sigs. rewrite !in_app_iff. right; left. simpl; auto. }
  set (a' := any_store cp i (fst c) a).
  assert (Hres : exists x, a_res a' = Some x /\ conforms Sg x).
  { unfold a', any_store. destruct (a_res a) eqn:Er; [exists c0; auto|].
    simpl. eexists. split; [reflexivity|]. destruct (cp i (fst c)) eqn:Ecp.
    - destruct (Hcp _ _ HS _ _ Hc Ecp) as (s & Hs & Hm & Hn). apply conforms_eptr.
      apply Hinc. unfold any_sigs. rewrite in_app_iff. left.
      rewrite (@forallb_false_in _ all_nt SS S); [simpl; auto|eapply nth_error_In; eauto|].
      eapply all_nt_false; eauto.
    - eapply conforms_incl; eauto. }
  assert (Hcnt : a_cnt a' = a_cnt a).
  { unfold a', any_store. destruct (a_res a); auto. }
  destruct Hres as (x & Hx & Hxc).
  set (a1 := {| a_res := a_res a'; a_cnt := a_cnt a' - 1; a_src := a_src a'; a_pstop := a_pstop a' |}).
  assert (HA1 : ainv Sg SS a1 (upd lv i false)).
  { unfold a1. split; [|split]; simpl.
    - rewrite length_upd. lia.
    - intros y Hy. congruence.
    - intros; congruence. }
  unfold any_calls, any_arrive. fold a'. fold a1.
  destruct (a_cnt a' =? 1) eqn:E1.
  - apply Nat.eqb_eq in E1.
    assert (Hz : a_cnt a1 = 0) by (unfold a1; simpl; lia).
    destruct (a_pstop a').
    + exists a1, [(Stop, snd c)], []. split; auto. split; auto. split; auto. right.
      split; auto. eexists. split; [reflexivity|]. exists SStop. simpl; auto.
    + rewrite Hx. exists a1, [(x, snd c)], []. split; auto. split; auto. split; auto. right.
      split; auto. eexists. split; [reflexivity|]. auto.
  - exists a1, [], []. split; auto. split; auto. split; auto. left. split; auto.
    apply Nat.eqb_neq in E1. destruct HA1 as [H _]. rewrite H. simpl.
    intros Hz. rewrite length_upd in Hz. lia.
Qed.

Lemma ainv_snoc Sg SS a lv :
  ainv Sg SS a lv -> length lv < length SS -> ainv Sg SS a (lv ++ [true]).
Proof.
  intros (A & B & C) Hl. split; [|split]; auto.
  - rewrite count_app, app_length. simpl. lia.
  - intros i Hf. apply C with i; auto.
    destruct (Nat.lt_ge_cases i (length lv)).
    + rewrite nth_error_app1 in Hf; auto.
    + rewrite nth_error_app2 in Hf; auto. destruct (i - length lv) as [|[|]]; simpl in Hf; congruence.
Qed.

Lemma any_go_ok Sg e ctx cp SS :
  acond Sg cp SS ->
  forall ss i a os,
    (forall j s, nth_error ss j = Some s ->
       nth_error SS (i + j) = Some (csigs s) /\
       forall e' x, okres (csigs s) (start e' x s)) ->
    i + length ss = length SS ->
    length os = i -> ainv Sg SS a (map live os) -> all2 SS os ->
    (a_cnt a <> 0) ->
    exists a2 os2 out t, any_go e ctx cp i ss a os = (a2, os2, out, t) /\
      length os2 = length SS /\ ainv Sg SS a2 (map live os2) /\ all2 SS os2 /\
      ~ In OUb t /\
      ((a_cnt a2 <> 0 /\ out = []) \/
       (a_cnt a2 = 0 /\ exists c, out = [c] /\ conforms Sg (fst c))).
Proof.
  intros HC. induction ss as [|s ss IH]; intros i a os Hss Hlen Hi HW HA Hnz.
  - simpl in *. exists a, os, [], []. split; auto. split; [lia|]. split; auto.
  - simpl. destruct (Hss 0 s eq_refl) as [HS Hst]. rewrite Nat.add_0_r in HS.
    set (e' := {| e_stop := a_src a; e_sch := e_sch e |}).
    destruct (Hst e' ctx) as [Hub Hok].
    assert (Hil : i < length SS) by (simpl in Hlen; lia).
    assert (HW' : ainv Sg SS a (map live os ++ [true])).
    { apply ainv_snoc; auto. rewrite map_length; lia. }
    assert (Hss' : forall j s0, nth_error ss j = Some s0 ->
              nth_error SS (S i + j) = Some (csigs s0) /\
              (forall e' x, okres (csigs s0) (start e' x s0))).
    { intros j s0 Hj. specialize (Hss (S j) s0 Hj). rewrite Nat.add_succ_r in Hss. exact Hss. }
    destruct Hok as [(Hc & Hl & Ho)|(c & Hc & Hcf & Hl)]; rewrite Hc.
    + simpl. destruct (IH (S i) a (any_prop a a (os ++ [r_op (start e' ctx s)])))
        as (w2 & os2 & out & t & Hgo & R1 & R2 & R3 & R4 & R5); auto.
      * simpl in Hlen; lia.
      * rewrite any_prop_length, app_length. simpl. lia.
      * rewrite any_prop_live, map_app. simpl. rewrite Hl. auto.
      * apply any_prop_all2. eapply all2_app; eauto. rewrite Hi. eauto.
      * rewrite Hgo. exists w2, os2, out, (r_obs (start e' ctx s) ++ t).
        split; auto. split; auto. split; auto. split; auto. split; auto.
        rewrite in_app_iff; tauto.
    + destruct (@any_calls_ok Sg cp SS a (map live os ++ [true]) i (csigs s) c)
        as (w1 & out1 & t1 & E1 & HW1 & Hub1 & Hout); auto.
      { rewrite nth_error_app2; rewrite map_length; [|lia]. rewrite Hi, Nat.sub_diag; auto. }
      { rewrite app_length, map_length; simpl; lia. }
      rewrite E1.
      assert (Hu : upd (map live os ++ [true]) i false = map live (os ++ [r_op (start e' ctx s)])).
      { rewrite map_app. simpl. rewrite Hl. rewrite <- Hi, <- (map_length live os). apply upd_snoc. }
      rewrite Hu in HW1.
      assert (HA1 : all2 SS (any_prop a w1 (os ++ [r_op (start e' ctx s)]))).
      { apply any_prop_all2. eapply all2_app; eauto. rewrite Hi; eauto. congruence. }
      assert (HL1 : length (any_prop a w1 (os ++ [r_op (start e' ctx s)])) = S i).
      { rewrite any_prop_length, app_length; simpl; lia. }
      destruct Hout as [[Hnz1 ->]|[Hz (c' & -> & Hcf')]].
      * destruct (IH (S i) w1 (any_prop a w1 (os ++ [r_op (start e' ctx s)])))
          as (w2 & os2 & out & t & Hgo & R1 & R2 & R3 & R4 & R5); auto.
        -- simpl in Hlen; lia.
        -- rewrite any_prop_live; auto.
        -- rewrite Hgo. exists w2, os2, out, (r_obs (start e' ctx s) ++ t1 ++ t).
           split; auto. split; auto. split; auto. split; auto. split; auto.
           rewrite !in_app_iff; tauto.
      * destruct ss as [|s' ss].
        -- simpl. eexists _, _, _, _. split; [reflexivity|].
           simpl in Hlen. split; [rewrite HL1; lia|]. split; [rewrite any_prop_live; auto|].
           split; auto. split.
           ++ rewrite !in_app_iff; simpl; tauto.
           ++ right. split; auto. exists c'. auto.
        -- exfalso. destruct HW1 as [HW1 _]. rewrite Hz, map_length, app_length in HW1.
           simpl in *. lia.
Qed.

(** ** start *)

Definition wt_all (cp : nat -> compl -> option nat) :=
  fix all (i : nat) (ss : list sender) : Prop :=
    match ss with
    | [] => True
    | s :: ss => (wt s /\ single_val (csigs s) /\ cp_ok (cp i) (csigs s)) /\ all (S i) ss
    end.
Definition wt_any (cp : nat -> compl -> option nat) :=
  fix all (i : nat) (ss : list sender) : Prop :=
    match ss with
    | [] => True
    | s :: ss => (wt s /\ cp_ok (cp i) (csigs s)) /\ all (S i) ss
    end.

Lemma wt_all_nth cp ss : forall i, wt_all cp i ss -> forall j s, nth_error ss j = Some s ->
  wt s /\ single_val (csigs s) /\ cp_ok (cp (i + j)) (csigs s).
Proof.
  induction ss; intros i H [|j] s Hs; simpl in *; try discriminate.
  - injection Hs as ->. rewrite Nat.add_0_r. tauto.
  - rewrite Nat.add_succ_r. apply (IHss (S i)); tauto.
Qed.
Lemma wt_any_nth cp ss : forall i, wt_any cp i ss -> forall j s, nth_error ss j = Some s ->
  wt s /\ cp_ok (cp (i + j)) (csigs s).
Proof.
  induction ss; intros i H [|j] s Hs; simpl in *; try discriminate.
  - injection Hs as ->. rewrite Nat.add_0_r. tauto.
  - rewrite Nat.add_succ_r. apply (IHss (S i)); tauto.
Qed.

Lemma nth_map_inv {A B} (f : A -> B) l i y :
  nth_error (map f l) i = Some y -> exists x, nth_error l i = Some x /\ y = f x.
Proof.
  revert i; induction l; destruct i; simpl; intros; try discriminate; eauto.
  injection H as <-. eauto.
Qed.

Lemma starts_on_ok cthr cnt sch sg s e :
  wt s -> (forall y, cthr = Some y -> cnt = false) ->
  opok (seq_sigs cnt (cont_sigs (SVal [] :: sg) [SVal []]) (csigs s))
       (starts_on_op cthr cnt sch sg s e) /\ live (starts_on_op cthr cnt sch sg s e) = true.
Proof.
  intros Hw Hc. split; auto. simpl. exists (cont_sigs (SVal [] :: sg) [SVal []]).
  split; [|split; [auto|split; [auto|apply incl_refl]]].
  exists (SVal [] :: drop_vals sg). split; [apply incl_refl|]. split.
  - intros x Hx. unfold cont_sigs. rewrite !in_app_iff. right; left.
    unfold drop_vals in *. simpl in *. apply filter_In in Hx. tauto.
  - exists (SVal []). split; simpl; auto.
Qed.

Lemma okres_running Sg o t : opok Sg o /\ live o = true -> ~ In OUb t -> okres Sg (mkres o [] t).
Proof. intros [A B] H. split; auto. Qed.

Lemma start_ok : forall s, wt s -> forall e ctx, okres (csigs s) (start e ctx s).
Proof.
  induction s using sender_ind'; intros Hwt e0 ctx.
  - simpl. apply okres_done; auto. exists (SVal ts). simpl in *; auto.
  - simpl. apply okres_done; auto. exists (SErr t). simpl in *; auto.
  - simpl. apply okres_done; auto. exists SStop. simpl in *; auto.
  - apply okres_running; simpl; [split; auto; apply incl_refl|intuition congruence].
  - apply okres_running; simpl; auto. split; auto. intros x [->|Hx]; simpl; auto.
    right. apply drop_vals_incl; auto.
  - destruct Hwt as [Hw Hf]. eapply wrap_ok; [apply IHs; auto|reflexivity| |].
    + intros o Ho. simpl. exists (csigs s). split; auto. split; auto. apply incl_refl.
    + intros c Hc. eapply fun_conf; eauto. apply incl_refl.
  - destruct Hwt as [Hw Hf]. eapply bindr_ok; [apply IHs; auto|reflexivity| |].
    + intros o Ho. simpl. exists (csigs s). split; auto. split; auto. apply incl_refl.
    + intros c o Hc Hl. eapply let_next_ok; eauto. apply incl_refl.
  - destruct Hwt as (H1 & H2 & H3). eapply bindr_ok; [apply IHs1; auto|reflexivity| |].
    + intros o Ho. simpl. exists (csigs s1). split; auto. split; auto. split; auto. apply incl_refl.
    + intros c' o Hc Hl. eapply seq_next_ok; eauto. apply incl_refl.
  - destruct Hwt as (H1 & H2 & H3). eapply bindr_ok; [apply IHs1; auto|reflexivity| |].
    + intros o Ho. simpl. exists (csigs s1). split; auto. split; auto. split; auto. apply incl_refl.
    + intros c' o Hc Hl. eapply fin_next_ok; eauto. apply incl_refl.
  - destruct Hwt as [Hw Hf]. eapply bindr_ok; [apply IHs; auto|reflexivity| |].
    + intros o Ho. simpl. exists (csigs s). split; auto. split; auto. apply incl_refl.
    + intros c o Hc Hl. eapply con_next_ok; eauto. apply incl_refl.
  - destruct Hwt as [Hw Hf]. apply okres_running; auto. apply starts_on_ok; auto.
  - destruct Hwt as (Hw & Hc & Hcp). apply okres_running; auto.
    destruct (@starts_on_ok c n sch sg s e0 Hw Hc). split; auto.
    simpl in *. eexists. split; [exact H|]. split; auto. apply incl_refl.
  - eapply wrap_ok; [apply IHs; auto|reflexivity| |].
    + intros o Ho. simpl. exists (csigs s). split; auto. apply incl_refl.
    + intros c Hc. eapply var_conf; eauto. apply incl_refl.
  - destruct Hwt as (Hw & t & H1 & H2 & H3). eapply wrap_ok; [apply IHs; auto|reflexivity| |].
    + intros o Ho. simpl. exists (csigs s), t. split; auto. split; auto. apply incl_refl.
    + intros c Hc. eapply opt_conf; eauto. apply incl_refl.
  - destruct Hwt as (Hw & H1). eapply wrap_ok; [apply IHs; auto|reflexivity| |].
    + intros o Ho. simpl. exists (csigs s). split; auto. split; auto. apply incl_refl.
    + intros cc Hc. eapply bulk_conf; eauto. apply incl_refl.
  - pose proof Hwt as (Hw & _ & _ & H2 & _). apply okres_running; auto. split; auto.
    split; [exact Hwt|]. split; [apply incl_refl|]. apply rep_child_ok; eauto.
  - pose proof Hwt as (Hn & Hw & H0 & _ & H2 & _). simpl. destruct n.
    + apply okres_done; auto. destruct Hn as [Hn|Hn]; [congruence|].
      unfold sends in Hn. apply existsb_exists in Hn. destruct Hn as (x & Hx & Hk).
      apply chan_eqb_eq in Hk. destruct x; simpl in Hk; try discriminate.
      exists (SVal []). split; [|constructor]. cbn [csigs]. unfold repn_sigs. apply in_or_app. left.
      apply decay_args_incl. unfold seq_sigs, tramp_sg. simpl. right. apply in_or_app. left.
      rewrite <- (H0 _ Hx). auto.
    + apply okres_running; auto. split; auto.
      split; [|split; [apply incl_refl|apply rep_child_ok; eauto]].
      destruct Hwt as (_ & R). split; [left; discriminate|exact R].
  - apply pass_ok; auto.
  - rewrite start_when_all. destruct Hwt as [Hne Hall].
    change (wt_all cp 0 ss) in Hall. pose proof (wt_all_nth cp ss 0 Hall) as Hn.
    set (ws := wa_static cp ss). set (SS := map csigs ss).
    assert (HC : wcond (csigs (WhenAll cp ss)) ws SS).
    { split; [apply incl_refl|]. split; [unfold SS; destruct ss; simpl; congruence|].
      split; auto. split; auto. intros i S HS. apply nth_map_inv in HS.
      destruct HS as (s & Hs & ->). destruct (Hn _ _ Hs) as (A & B & C). auto. }
    destruct (@wa_go_ok (csigs (WhenAll cp ss)) e0 ctx ws SS HC ss 0
                (wa_init ws (length ss) e0) [])
      as (w2 & os2 & out & t & Hgo & R1 & R2 & R3 & R4 & R5); auto.
    + intros j s Hj. split; [simpl; unfold SS; rewrite nth_error_map, Hj; auto|].
      rewrite Forall_forall in H. intros; apply H; [eapply nth_error_In; eauto|].
      apply (Hn _ _ Hj).
    + unfold SS. rewrite map_length. auto.
    + unfold wa_init. destruct (_ && _); (split; [|split; [|split]]); simpl;
        unfold SS; rewrite ?map_length, ?repeat_length; try lia; try congruence;
        intros [|i]; simpl; congruence.
    + simpl. auto.
    + unfold wa_init. destruct ss; [congruence|]. destruct (_ && _); simpl; auto.
    + cbv zeta. rewrite Hgo. split; [exact R4|].
      destruct R2 as [Hcnt R2']. rewrite map_length, R1, Nat.sub_diag in Hcnt.
      destruct R5 as [[Hz ->]|[Hz (c & -> & Hc)]].
      * left. simpl. split; auto. split.
        -- rewrite count_live. destruct (Nat.eqb_spec (count (map live os2)) 0); auto. lia.
        -- exists SS. split; [exact HC|]. split; auto. split; auto.
           split; [rewrite map_length; lia|auto].
      * right. exists c. split; auto. split; auto. simpl. rewrite count_live.
        rewrite (proj2 (Nat.eqb_eq _ _)); auto. lia.
  - rewrite start_when_any. destruct Hwt as [Hne Hall].
    change (wt_any cp 0 ss) in Hall. pose proof (wt_any_nth cp ss 0 Hall) as Hn.
    set (SS := map csigs ss). cbv zeta.
    destruct (e_stop e0).
    { apply okres_done; auto. exists SStop. split; simpl; auto. unfold any_sigs.
      rewrite !in_app_iff. simpl. auto. }
    assert (HC : acond (csigs (WhenAny cp ss)) cp SS).
    { split; [apply incl_refl|]. split; [unfold SS; destruct ss; simpl; congruence|].
      intros i S HS. apply nth_map_inv in HS.
      destruct HS as (s & Hs & ->). destruct (Hn _ _ Hs) as (A & B). auto. }
    destruct (@any_go_ok (csigs (WhenAny cp ss)) e0 ctx cp SS HC ss 0
                {| a_res := None; a_cnt := length ss; a_src := false; a_pstop := false |} [])
      as (w2 & os2 & out & t & Hgo & R1 & R2 & R3 & R4 & R5); auto.
    + intros j s Hj. split; [simpl; unfold SS; rewrite nth_error_map, Hj; auto|].
      rewrite Forall_forall in H. intros; apply H; [eapply nth_error_In; eauto|].
      apply (Hn _ _ Hj).
    + unfold SS. rewrite map_length. auto.
    + split; [|split]; simpl; unfold SS; rewrite ?map_length; try lia; try congruence;
        intros [|i]; simpl; congruence.
    + simpl. auto.
    + simpl. destruct ss; simpl; congruence.
    + rewrite Hgo. split; [exact R4|].
      destruct R2 as [Hcnt R2']. rewrite map_length, R1, Nat.sub_diag in Hcnt.
      destruct R5 as [[Hz ->]|[Hz (c & -> & Hc)]].
      * left. simpl. split; auto. split.
        -- rewrite count_live. destruct (Nat.eqb_spec (count (map live os2)) 0); auto. lia.
        -- exists SS. split; [exact HC|]. split; auto. split; auto.
           split; [rewrite map_length; lia|auto].
      * right. exists c. split; auto. split; auto. simpl. rewrite count_live.
        rewrite (proj2 (Nat.eqb_eq _ _)); auto. lia.
Qed.
