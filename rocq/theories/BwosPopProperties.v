(** * BwosPopProperties: C26, the owner gets a task back right after push_back, whatever the thieves do.
    (static_thread_pool relies on it: a worker that moved pending tasks to its local queue must not find
    that queue empty and go to sleep, include/exec/static_thread_pool.hpp L989-1002 and L1154-1165.) *)
From Coq Require Import List Arith Bool Lia ZArith NArith.
From Verif Require Import Conc BwosModel BwosSpec BwosProofs.
Import ListNotations.
Set Implicit Arguments.

Definition thief_event (e : event) : bool := match e with EClaim _ _ | ESteal _ _ => true | _ => false end.

(** the owner's last call was push_back with at least one task, and it has returned *)
Fixpoint after_push (l : list event) : bool :=
  match l with
  | EClaim _ _ :: l | ESteal _ _ :: l => after_push l
  | EPushRet _ :: l => match pushing l with Some (_ :: _, _) => true | _ => false end
  | _ => false
  end.
Lemma after_push_thief lt l : forallb thief_event lt = true -> after_push (lt ++ l) = after_push l.
Proof. induction lt as [|e lt IH]; simpl; auto. destruct e; simpl; try discriminate; auto. Qed.

Section Params.
Variables nb bs : nat.
Notation ostep := (ostep nb bs).
Notation tstep := (tstep nb bs).
Notation reachable := (reachable nb bs).
Hypothesis BS : 0 < bs.

(** the block after the current one can be written *)
Definition wr (s : state) (o : word) : Prop :=
  next_ix nb (snd o) <> snd o /\ stail (blks s (next_ix nb (snd o))) = (sub1 (fst (increase nb o)), bs).
Definition hd (s : state) (o : word) : nat := snd (head (blks s (snd o))).
Definition tl (s : state) (o : word) : nat := tail (blks s (snd o)).

Record kinv (s : state) : Prop := {
  k1 : match opc_ s with
       | OIdle => hd s (last s) = bs -> wr s (last s)
       | PW _ _ _ | PA _ _ | GG | GL => hd s (own s) = bs -> wr s (own s)
       | GT => wr s (own s)
       | PR3 _ _ | PR4 _ _ | PL _ _ => hd s (own s) = 0
       | _ => True
       end;
  k2 : after_push (log s) = true ->
       match opc_ s with
       | OIdle => hd s (last s) < tl s (last s)
       | GG => hd s (own s) < tl s (own s)
       | _ => False
       end;
  k3 : match opc_ s with
       | PW _ rest w => forall vs acc, pushing (log s) = Some (vs, acc) -> w ++ rest = [] -> vs = []
       | PA _ rest | PS _ rest | PG1 _ rest | PG2 _ rest _ | PR1 _ rest | PR2 _ rest | PR3 _ rest | PR4 _ rest | PL _ rest => rest <> []
       | _ => True
       end;
  k4 : forall l1 l2, log s = l1 ++ EPop None :: l2 -> after_push l2 = false }.

Lemma wr_fset s s' o b' : blks s' = fset (blks s) (snd o) b' -> wr s o -> wr s' o.
Proof. intros E [A B]. split; auto. rewrite E, fset_other by auto. auto. Qed.

(** what a thief changes *)
Lemma tstep_frame s t a s' : tstep t a s = Some s' ->
  opc_ s' = opc_ s /\ own s' = own s /\ last s' = last s /\
  (exists lt, log s' = lt ++ log s /\ forallb thief_event lt = true) /\
  (forall i, head (blks s' i) = head (blks s i) /\ tail (blks s' i) = tail (blks s i)) /\
  (forall i, (forall th sp, nth_error (thr s) t = Some (TC th sp) -> snd sp < bs) ->
     snd (stail (blks s i)) = bs -> stail (blks s' i) = stail (blks s i)).
Proof.
  intros E. unfold BwosModel.tstep in E. destruct (nth_error (thr s) t) as [p|] eqn:Ht; [|discriminate].
  assert (L0 : exists lt, log s = lt ++ log s /\ forallb thief_event lt = true) by (exists []; auto).
  assert (L1 : forall e, thief_event e = true -> exists lt, e :: log s = lt ++ log s /\ forallb thief_event lt = true).
  { intros e He. exists [e]. simpl. rewrite He. auto. }
  destruct a, p; try discriminate;
    repeat match type of E with context [if ?x then _ else _] => destruct x eqn:? end;
    inversion E; subst; cbn; (split; [auto|split; [auto|split; [auto|split; [auto|split]]]]);
    try (intros; split; reflexivity); try (intros; reflexivity);
    try (intros i; unfold fset; destruct (Nat.eqb_spec i (snd thief)); subst; auto; fail);
    try (intros j; unfold fset; destruct (Nat.eqb_spec j i); subst; auto; fail).
  - intros i C Hi. unfold fset. destruct (Nat.eqb_spec i (snd thief)); auto. subst i.
    apply word_eqb_eq in Heqb. specialize (C _ _ eq_refl). rewrite Heqb in Hi. lia.
Qed.
Lemma kinv_tstep s t a s' gs go : inv nb bs s gs go -> kinv s -> tstep t a s = Some s' -> kinv s'.
Proof.
  intros I K E. destruct (tstep_frame _ _ _ E) as (E1 & E2 & E3 & (lt & E4 & E4') & E5 & E6).
  assert (C : forall th sp, nth_error (thr s) t = Some (TC th sp) -> snd sp < bs).
  { intros th sp H. pose proof (i_tok I _ H) as T. simpl in T. tauto. }
  assert (HD : forall o, hd s' o = hd s o) by (intros o; unfold hd; destruct (E5 (snd o)) as [-> _]; auto).
  assert (TL : forall o, tl s' o = tl s o) by (intros o; unfold tl; destruct (E5 (snd o)) as [_ ->]; auto).
  assert (WR : forall o, wr s o -> wr s' o).
  { intros o [A B]. split; auto. rewrite E6; auto. rewrite B. auto. }
  constructor; rewrite ?E1, ?E2, ?E3, ?E4.
  - pose proof (k1 K) as H. destruct (opc_ s); rewrite ?HD; auto.
  - rewrite after_push_thief by auto. intros A. pose proof (k2 K A) as H. destruct (opc_ s); rewrite ?HD, ?TL; auto.
  - pose proof (k3 K) as H. destruct (opc_ s); auto.
    replace (pushing (lt ++ log s)) with (pushing (log s)); auto.
    clear - E4'. induction lt as [|e lt IH]; simpl in *; auto. destruct e; simpl in *; try discriminate; auto.
  - intros l1 l2 H. rewrite <- E4 in H. revert H. rewrite E4. clear - E4' K. revert l1. induction lt as [|e lt IH]; simpl in *; intros l1 H.
    + eapply (k4 K); eauto.
    + destruct l1 as [|e' l1]; simpl in H; injection H as -> H; [discriminate|].
      apply andb_true_iff in E4'. eapply IH; [tauto|eauto].
Qed.
Lemma hist4 l e : (forall l1 l2, l = l1 ++ EPop None :: l2 -> after_push l2 = false) ->
  (e = EPop None -> after_push l = false) ->
  forall l1 l2, e :: l = l1 ++ EPop None :: l2 -> after_push l2 = false.
Proof.
  intros H He l1 l2 E. destruct l1 as [|e' l1]; simpl in E; injection E as -> E; subst; eauto.
Qed.
Lemma hist4_push w l : (forall l1 l2, l = l1 ++ EPop None :: l2 -> after_push l2 = false) ->
  forall l1 l2, rev (map EPush w) ++ l = l1 ++ EPop None :: l2 -> after_push l2 = false.
Proof.
  intros H. assert (F : Forall (fun e => e <> EPop None) (rev (map EPush w))).
  { apply Forall_forall. intros e He. apply in_rev, in_map_iff in He. destruct He as (v & <- & _). discriminate. }
  induction F as [|e m He Fm IH]; simpl; auto. intros l1 l2 E. eapply hist4 with (e := e); eauto. congruence.
Qed.
Lemma pushing_push w l : pushing (rev (map EPush w) ++ l) = match pushing l with Some (vs, acc) => Some (vs, acc ++ w) | None => None end.
Proof.
  induction w as [|v w IH] using rev_ind; simpl.
  - destruct (pushing l) as [[? ?]|]; rewrite ?app_nil_r; auto.
  - rewrite map_app, rev_app_distr. simpl. rewrite IH. destruct (pushing l) as [[? ?]|]; auto. rewrite app_assoc. auto.
Qed.
Lemma kinv_ostep s a s' gs go : inv nb bs s gs go -> kinv s -> ostep a s = Some s' -> kinv s'.
Proof.
  intros I K E. pose proof (k1 K) as K1. pose proof (k2 K) as K2. pose proof (k3 K) as K3. pose proof (k4 K) as K4.
  pose proof (i_cur I) as CU. pose proof (i_nb I) as NB. pose proof (i_rng I) as RG.
  assert (WF : wfb bs (blks s (go mod nb))) by (apply (i_wf I); apply Nat.mod_upper_bound; lia).
  assert (FREE : S go < gs + nb -> wr s (enc nb go)).
  { intros L. destruct (i_free I (c := S go)) as [F _]; [lia|]. unfold wr. rewrite increase_enc by auto. cbn [fst snd enc].
    rewrite next_ix_mod by auto. split; auto. intros X.
    assert (S go = go) by (eapply mod_inj with (g := gs); eauto; lia). lia. }
  unfold BwosModel.ostep in E. destruct a, (opc_ s) as [|bulk r w|bulk r|bulk r|bulk r|bulk r e|bulk r|bulk r|bulk r|bulk r|bulk r| | |v0| |] eqn:Epc; try discriminate.
  all: try (assert (OW : own s = enc nb go) by (apply I; congruence); rewrite OW in *; cbn [snd enc] in * ).
  - (* push *) inversion E; subst. constructor; cbn; auto.
    + discriminate.
    + intros vs acc H. injection H as <- <-. discriminate.
    + apply hist4; auto; discriminate.
  - (* bulk *) inversion E; subst. constructor; cbn; auto.
    + discriminate.
    + intros ws acc H. injection H as <- <-. auto.
    + apply hist4; auto; discriminate.
  - (* pop *) inversion E; subst. constructor; cbn; auto.
  - (* PW *) simpl in CU. destruct CU as ([CU1 CU2] & CU3 & CU4). destruct WF as (W1 & W2 & W3 & W4 & W5).
    rewrite (@cl_full bs) in W4 by (rewrite CU1; auto). destruct r as [|v r].
    + inversion E; subst. unfold w_blk. constructor; cbn.
      * rewrite (i_last I) by (rewrite Epc; auto). unfold hd. cbn. rewrite ?OW; cbn [snd enc]; rewrite ?fset_same. simpl. intros H.
        eapply wr_fset; [|apply K1; exact H]. cbn. rewrite ?OW. reflexivity.
      * rewrite pushing_push. pose proof (i_pend I) as P. rewrite Epc in P. destruct P as (vs & acc & P1 & P2 & P3).
        rewrite P1. destruct vs as [|x vs]; [discriminate|]. intros _.
        rewrite (i_last I) by (rewrite Epc; auto). unfold hd, tl. cbn. rewrite ?OW. cbn [snd enc]. rewrite fset_same. simpl.
        destruct w as [|y w]; [|simpl; lia]. specialize (K3 _ _ P1 eq_refl). discriminate.
      * auto.
      * apply hist4; [|discriminate]. apply hist4_push; auto.
    + destruct ((tail (blks s (go mod nb)) + length w <? bs) && (bulk || (length w =? 0))) eqn:F.
      * inversion E; subst. unfold w_blk. constructor; cbn; auto.
        -- unfold hd. cbn. rewrite ?OW. cbn [snd enc]. rewrite fset_same. simpl. intros H.
           eapply wr_fset; [|apply K1; exact H]. cbn. rewrite ?OW. reflexivity.
        -- intros vs acc _ H. destruct w; discriminate.
      * destruct bulk; inversion E; subst; constructor; cbn; auto; try discriminate.
        -- unfold hd. cbn. rewrite ?OW. cbn [snd enc]. rewrite fset_same. simpl. intros H.
           eapply wr_fset; [|apply K1; exact H]. cbn. rewrite ?OW. reflexivity.
        -- intros A. exfalso. revert A. destruct w as [|y w] using rev_ind.
           ++ simpl. intros A. destruct (K2 A).
           ++ rewrite map_app, rev_app_distr. simpl. discriminate.
        -- apply hist4_push; auto.
        -- rewrite ?OW. auto.
  - (* PA *) simpl in CU. destruct CU as ([CU1 CU2] & CU3). destruct WF as (W1 & W2 & W3 & W4 & W5).
    rewrite (@cl_full bs) in W4 by (rewrite CU1; auto).
    assert (FAIL : ~ wr s (enc nb go) -> kinv (w_log (w_opc s OIdle) [EPushRet r])).
    { intros NW. constructor; cbn; auto.
      - rewrite (i_last I) by (rewrite Epc; auto). auto.
      - intros _. rewrite (i_last I) by (rewrite Epc; auto). unfold hd, tl. cbn. rewrite CU3.
        destruct (Nat.eq_dec (snd (head (blks s (go mod nb)))) bs) as [X|X]; [|lia]. exfalso. apply NW, K1. exact X.
      - apply hist4; auto; discriminate. }
    destruct (Nat.eqb_spec (next_ix nb (go mod nb)) (go mod nb)) as [X|X].
    + inversion E; subst. apply FAIL. intros [A _]. auto.
    + destruct (word_eqb _ _) eqn:Wq; inversion E; subst.
      * constructor; cbn; auto.
      * apply FAIL. intros [_ A]. unfold next_owner in Wq. rewrite ?OW in Wq. cbn [snd enc] in A.
        rewrite (proj2 (word_eqb_eq _ _) A) in Wq. discriminate.
  - (* PS *) inversion E; subst. destruct (_ =? _); constructor; cbn; auto.
  - inversion E; subst. constructor; cbn; auto.
  - inversion E; subst. constructor; cbn; auto.
  - destruct (_ =? _); inversion E; subst; auto. constructor; cbn; auto.
  - inversion E; subst. constructor; cbn; auto. unfold hd. cbn. rewrite ?OW. cbn. rewrite fset_same. auto.
  - inversion E; subst. constructor; cbn; auto. unfold hd in *. cbn. rewrite ?OW. cbn in *. rewrite fset_same. simpl. auto.
  - inversion E; subst. constructor; cbn; auto. unfold hd in *. cbn. rewrite ?OW. cbn in *. rewrite fset_same. simpl. auto.
  - (* PL *) inversion E; subst. constructor; cbn; auto.
    + rewrite ?OW. unfold hd in *. cbn in *. lia.
    + intros vs acc _ H. congruence.
  - (* GG *) simpl in CU. destruct WF as (W1 & W2 & W3 & W4 & W5). rewrite (cl_owned CU) in W4.
    assert (NE : after_push (log s) = true -> (tail (blks s (go mod nb)) =? 0) || (snd (head (blks s (go mod nb))) =? tail (blks s (go mod nb))) = false).
    { intros A. specialize (K2 A). unfold hd, tl in K2. cbn in K2. apply orb_false_iff. rewrite !Nat.eqb_neq. lia. }
    destruct (_ || _) eqn:F.
    + assert (AF : after_push (log s) = false) by (destruct (after_push (log s)); auto; specialize (NE eq_refl); discriminate).
      destruct (word_eqb _ _); inversion E; subst; constructor; cbn; auto.
      * rewrite (i_last I) by (rewrite Epc; auto). auto.
      * discriminate.
      * apply hist4; auto.
      * congruence.
    + inversion E; subst. unfold w_blk. constructor; cbn; auto.
      * rewrite (i_last I) by (rewrite Epc; auto). unfold hd. cbn. rewrite ?OW. cbn. rewrite fset_same. simpl. intros H.
        eapply wr_fset; [|apply K1; exact H]. cbn. rewrite ?OW. reflexivity.
      * discriminate.
      * apply hist4; auto. discriminate.
  - inversion E; subst. constructor; cbn; auto.
  - (* GR2 *) simpl in CU. destruct CU as ([C0 C1] & C2 & ->). pose proof (i_near I) as NR. rewrite Epc in NR. simpl in NR.
    destruct go as [|g]; [lia|].
    inversion E; subst. unfold w_blk. constructor; cbn; auto.
    + rewrite decrease_enc by auto. unfold wr. rewrite increase_enc by auto. cbn [fst snd enc]. rewrite next_ix_mod by auto. split.
      * intros X. assert (S g = g) by (eapply mod_inj with (g := gs); eauto; lia). lia.
      * cbn. rewrite ?OW. cbn [snd enc]. rewrite fset_same. auto.
  - (* GT *) simpl in CU. destruct CU as (C0 & C1 & C2).
    inversion E; subst. unfold w_blk. constructor; cbn; auto.
    intros _. rewrite ?OW. eapply wr_fset; [|exact K1]. cbn. rewrite ?OW. reflexivity.
  - (* GL *) inversion E; subst. constructor; cbn; auto.
    + rewrite ?OW. auto.
    + intros A; destruct (K2 A).
Qed.

Lemma kinv_init rg k : 0 < nb -> kinv (init bs rg k).
Proof.
  intros NB. constructor; cbn; auto; try discriminate.
  - unfold hd. cbn. lia.
  - intros [|]; discriminate.
Qed.
Lemma kinv_reach s : reachable s -> kinv s.
Proof.
  induction 1 as [rg k NB|s a s' R IH E|s t a s' R IH E].
  - apply kinv_init; auto.
  - destruct (reachable_inv R) as (gs & go & I). eapply kinv_ostep; eauto.
  - destruct (reachable_inv R) as (gs & go & I). eapply kinv_tstep; eauto.
Qed.

(** after push_back of at least one task (accepted or not), the owner's next pop_back returns a task,
    whatever the thieves do in between *)
Theorem C26_pop_after_push_not_null s l1 r lt rest l2 vs acc : reachable s ->
  log s = l1 ++ EPop r :: lt ++ EPushRet rest :: l2 ->
  forallb thief_event lt = true ->
  pushing l2 = Some (vs, acc) -> vs <> [] ->
  exists v, r = Some v.
Proof.
  intros R E T P NV. destruct r as [v|]; [eauto|]. exfalso. pose proof (k4 (kinv_reach R) _ _ E) as F.
  rewrite after_push_thief in F by auto. simpl in F. rewrite P in F. destruct vs; congruence.
Qed.
End Params.

(** ** a concrete run *)
Inductive act := O (a : oaction) | T (t : tid) (a : taction).
Fixpoint runs (nb bs : nat) (l : list act) (s : state) : option state :=
  match l with
  | [] => Some s
  | O a :: l => match BwosModel.ostep nb bs a s with Some s' => runs nb bs l s' | None => None end
  | T t a :: l => match BwosModel.tstep nb bs t a s with Some s' => runs nb bs l s' | None => None end
  end.
Definition rep (n : nat) (a : act) := repeat a n.
(** two blocks of one: 7 is granted and stolen between push_back and pop_back; 8 is kept for the owner *)
Example ex_pop : option_map log (runs 2 1 ([O (OBulk [7; 8])] ++ rep 13 (O OGo) ++ [T 0 TSteal] ++ rep 5 (T 0 TGo) ++ [O OPop; O OGo])
    (init 1 (fun _ _ => 0) 1)) =
  Some [EPop (Some 8); ESteal 0 (Some 7); EClaim 0 7; EPushRet []; EPush 8; EPush 7; EPushCall [7; 8]].
Proof. vm_compute. reflexivity. Qed.

Print Assumptions C26_pop_after_push_not_null.
