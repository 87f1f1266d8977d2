(** * SenderEquiv: laws of the sender algebra as behavioural equivalences.

    Two senders are equivalent when every run (sequence of leaf completions and stop requests)
    of one is a run of the other with the same completion calls on the receiver (same datums,
    same execution context, at the same point of the run) and the same leaf starts and bulk
    calls.  Calls of the adaptors' own functions are not compared (a fused function is called
    once instead of twice), nor is UB (SenderProperties proves that there is none). *)

From Coq Require Import List Arith Bool Lia.
From Verif Require Import SenderModel SenderSpec SenderProofs SenderSafety SenderRun SenderLaws.
Import ListNotations.
Set Implicit Arguments.

Definition visible (o : obs) : bool :=
  match o with OStart _ _ _ | OIndex _ _ => true | OCall _ _ | OUb => false end.
Definition vis (t : list obs) : list obs := filter visible t.

Definition same (r r' : res) : Prop := r_calls r = r_calls r' /\ vis (r_obs r) = vis (r_obs r').

Definition equiv (A B : sender) : Prop :=
  forall e ctx evs,
    (forall r, run (start e ctx A) evs r -> exists r', run (start e ctx B) evs r' /\ same r r') /\
    (forall r', run (start e ctx B) evs r' -> exists r, run (start e ctx A) evs r /\ same r r').

Lemma vis_app t t' : vis (t ++ t') = vis t ++ vis t'.
Proof. apply filter_app. Qed.
Lemma vis_destroy o : vis (destroy o) = [].
Proof. unfold destroy. destruct (live o); auto. Qed.

Section Sim.
  Variable R : op -> op -> Prop.
  Variable Sg : list sig.

  Definition simres (r r' : res) : Prop :=
    same r r' /\ live (r_op r) = live (r_op r') /\
    (live (r_op r) = true -> R (r_op r) (r_op r')).

  Hypothesis Rstop : forall o o', R o o' -> R (stop_op o) (stop_op o').
  Hypothesis Rleaf : forall o o' p, R o o' -> leaf_at o p = leaf_at o' p.
  Hypothesis Rfeed : forall o o' p k c r r',
      R o o' -> opok Sg o -> leaf_at o p = Some k -> leaf_may k c -> feed o p c = Some r ->
      feed o' p c = Some r' -> simres r r'.

  Definition acc (r r1 : res) := mkres (r_op r1) (r_calls r ++ r_calls r1) (r_obs r ++ r_obs r1).

  Lemma no_leaf_dead o p : live o = false -> leaf_at o p = None.
  Proof. intros H. destruct (leaf_at o p) eqn:E; auto. apply leaf_live in E. congruence. Qed.

  Lemma sim_leaf r r' p : simres r r' -> leaf_at (r_op r) p = leaf_at (r_op r') p.
  Proof.
    intros (_ & Hl & HR). destruct (live (r_op r)) eqn:E.
    - apply Rleaf; auto.
    - rewrite !no_leaf_dead; auto.
  Qed.

  Lemma sim_step r r' ev r1 r1' :
    okres Sg r -> simres r r' -> valid_event (r_op r) ev ->
    step (r_op r) ev = Some r1 -> step (r_op r') ev = Some r1' -> simres (acc r r1) (acc r' r1').
  Proof.
    intros Hok Hs Hv E1 E2. pose proof (sim_leaf) as SL. destruct Hs as ((Sc & So) & Hl & HR).
    destruct ev as [p c|]; cbn [step] in *.
    - destruct Hv as (k & Hk & Hm). pose proof (leaf_live _ _ Hk) as Hlive.
      destruct Hok as [_ [(Hc & _ & Ho)|(c0 & _ & _ & Hd)]]; [|congruence].
      destruct (@Rfeed _ _ _ _ _ _ _ (HR Hlive) Ho Hk Hm E1 E2) as ((A & B) & C & D).
      split; [split|]; simpl; [congruence| |split; auto]. rewrite !vis_app. congruence.
    - injection E1 as <-. injection E2 as <-. split; [split|]; simpl.
      + rewrite !app_nil_r. auto.
      + rewrite !app_nil_r. auto.
      + rewrite !live_stop. split; auto.
  Qed.

  Lemma sim_run_fwd r evs rf :
    run r evs rf -> okres Sg r -> forall r', simres r r' -> exists rf', run r' evs rf' /\ same rf rf'.
  Proof.
    induction 1; intros Hok r0' Hs.
    - exists r0'. split; [constructor|]. apply Hs.
    - assert (E' : exists r1', step (r_op r0') ev = Some r1').
      { destruct ev as [p c|]; cbn [step] in *; [|eauto]. destruct H as (k & Hk & Hm).
        rewrite (sim_leaf _ Hs) in Hk. eapply step_total; eauto. }
      destruct E' as (r1' & E').
      destruct (IHrun ltac:(eapply run_okres; [|exact Hok]; econstructor; eauto; constructor) _
                  (sim_step _ Hok Hs H H0 E')) as (rf' & Hr' & Hs').
      exists rf'. split; auto. econstructor; eauto.
      destruct ev as [p c|]; simpl in *; auto. destruct H as (k & Hk & Hm). exists k. split; auto.
      rewrite <- (sim_leaf _ Hs). auto.
  Qed.

  Lemma sim_run_bwd r' evs rf' :
    run r' evs rf' -> forall r, okres Sg r -> simres r r' -> exists rf, run r evs rf /\ same rf rf'.
  Proof.
    induction 1; intros r0 Hok Hs.
    - exists r0. split; [constructor|]. apply Hs.
    - assert (Hv : valid_event (r_op r0) ev).
      { destruct ev as [p c|]; simpl in *; auto. destruct H as (k & Hk & Hm). exists k. split; auto.
        rewrite (sim_leaf _ Hs). auto. }
      assert (E' : exists r2, step (r_op r0) ev = Some r2).
      { destruct ev as [p c|]; cbn [step] in *; [|eauto]. destruct Hv as (k & Hk & Hm).
        eapply step_total; eauto. }
      destruct E' as (r2 & E').
      destruct (IHrun (acc r0 r2)) as (rf & Hr' & Hs').
      { eapply run_okres; [|exact Hok]. econstructor; eauto. constructor. }
      { exact (sim_step _ Hok Hs Hv E' H0). }
      exists rf. split; auto. econstructor; eauto.
  Qed.

  Lemma sim_equiv A B :
    wt A -> csigs A = Sg -> (forall e ctx, simres (start e ctx A) (start e ctx B)) -> equiv A B.
  Proof.
    intros Hw HS H e ctx evs. split.
    - intros r Hr. eapply sim_run_fwd; eauto. rewrite <- HS. apply start_ok; auto.
    - intros r Hr. eapply sim_run_bwd; eauto. rewrite <- HS. apply start_ok; auto.
  Qed.
End Sim.

(** ** just(vs) | let_value(f)  is  f(vs) *)
Theorem just_let_value fid lt thr f ts vs :
  wt (Let KVal fid lt thr f (Just ts vs)) -> thr vs = None ->
  equiv (Let KVal fid lt thr f (Just ts vs)) (f vs).
Proof.
  intros Hw Ht. pose proof Hw as Hw0. destruct Hw as [_ Hf].
  apply (@sim_equiv (fun o o' => o = OLet2 o') (csigs (Let KVal fid lt thr f (Just ts vs)))); auto.
  - intros o o' ->. reflexivity.
  - intros o o' p ->. reflexivity.
  - intros o o' p k c r r' -> _ Hk Hm E1 E2. cbn [feed] in E1. rewrite E2 in E1. injection E1 as <-.
    split; [split; auto|]. simpl. auto.
  - intros e ctx. simpl. unfold bindr, let_next. simpl. rewrite Ht. unfold simres, same. simpl.
    rewrite app_nil_r. auto.
Qed.

(** ** s | let_value(just)  is  s   (a sender with a single value completion) *)
Inductive rlet (k : chan) fid lt thr f (g : compl -> Prop) : op -> op -> Prop :=
| rl1 e o : rlet k fid lt thr f g (OLet1 k fid lt thr f e o) o.

Theorem let_value_just fid lt thr f s :
  wt (Let KVal fid lt thr f s) -> (forall vs, thr vs = None /\ exists ts, f vs = Just ts vs) ->
  equiv (Let KVal fid lt thr f s) s.
Proof.
  intros Hw Hjust. pose proof Hw as Hw0. destruct Hw as [Hws Hf].
  assert (Hb : forall e r, okres (csigs s) r ->
            simres (rlet KVal fid lt thr f (fun _ => True))
              (bindr (OLet1 KVal fid lt thr f e)
                 (let_next KVal fid thr (fun args c => start e c (f args)) (OLet1 KVal fid lt thr f e)) r) r).
  { intros e r [_ [(Hc & Hl & _)|(c & Hc & _ & Hd)]]; unfold bindr; rewrite Hc; simpl.
    - split; [split; auto|]. simpl. split; auto. intros _. constructor.
    - unfold let_next, fwd. destruct c as [[vs|v|] x]; simpl.
      + destruct (Hjust vs) as (-> & ts & ->).
        split; [split|]; simpl; auto; [|rewrite Hd; split; auto; discriminate].
        rewrite vis_app. simpl. rewrite vis_app, vis_destroy. simpl. rewrite app_nil_r. auto.
      + split; [split|]; simpl; auto; [|rewrite Hd; split; auto; discriminate].
        rewrite app_nil_r. auto.
      + split; [split|]; simpl; auto; [|rewrite Hd; split; auto; discriminate].
        rewrite app_nil_r. auto. }
  match goal with |- equiv ?A _ => apply (@sim_equiv (fun o o' => rlet KVal fid lt thr f (fun _ => True) o o' /\ opok (csigs s) o') (csigs A)); auto end.
  - intros o o' [H Ho]. inversion H; subst. split; [simpl; constructor|apply opok_stop; auto].
  - intros o o' p [H Ho]. inversion H; subst. reflexivity.
  - intros o o' p k c r r' [H Ho'] Ho Hk Hm E1 E2. inversion H; subst. cbn [feed] in E1.
    rewrite E2 in E1. injection E1 as <-.
    assert (Hok : okres (csigs s) r') by (eapply feed_ok; eauto).
    destruct (Hb e r' Hok) as (X & Y & Z). split; auto. split; auto.
    intros Hl. split; auto. destruct Hok as [_ [(_ & _ & ?)|(c0 & _ & _ & Hd)]]; auto. congruence.
  - intros e ctx. pose proof (start_ok s Hws e ctx) as Hok. destruct (Hb e _ Hok) as (X & Y & Z).
    split; auto. split; auto. intros Hl. split; auto.
    destruct Hok as [_ [(_ & _ & ?)|(c0 & _ & _ & Hd)]]; auto.
    exfalso. rewrite <- Y in Hd. clear - Hl Hd. cbn [start] in Hl. congruence.
Qed.

(** ** then(f) | then(g)  is  then(g . f) *)
Definition compose_fun (f g : list val -> fres) (vs : list val) : fres :=
  match f vs with FRet ws => g ws | FThrow x => FThrow x end.

Theorem then_then fid1 fid2 fid ft1 ft2 ft f g s :
  wt (Fun KVal fid2 ft2 g (Fun KVal fid1 ft1 f s)) ->
  equiv (Fun KVal fid2 ft2 g (Fun KVal fid1 ft1 f s)) (Fun KVal fid ft (compose_fun f g) s).
Proof.
  intros Hw.
  assert (Hb : forall r, same (wrap (OFun KVal fid2 ft2 g) (fun_handle KVal fid2 g)
                            (wrap (OFun KVal fid1 ft1 f) (fun_handle KVal fid1 f) r))
                         (wrap (OFun KVal fid ft (compose_fun f g)) (fun_handle KVal fid (compose_fun f g)) r) /\
            r_op (wrap (OFun KVal fid2 ft2 g) (fun_handle KVal fid2 g)
                            (wrap (OFun KVal fid1 ft1 f) (fun_handle KVal fid1 f) r)) =
              OFun KVal fid2 ft2 g (OFun KVal fid1 ft1 f (r_op r)) /\
            r_op (wrap (OFun KVal fid ft (compose_fun f g)) (fun_handle KVal fid (compose_fun f g)) r) =
              OFun KVal fid ft (compose_fun f g) (r_op r)).
  { intros r. unfold wrap. destruct (r_calls r) as [|[[vs|v|] x] rest]; simpl.
    - unfold same; simpl; auto.
    - unfold fun_handle, compose_fun. simpl. destruct (f vs) as [ws|ex]; simpl.
      + destruct (g ws); unfold same; simpl; rewrite !vis_app; simpl; rewrite !app_nil_r; auto.
      + unfold same; simpl; rewrite !vis_app; simpl; rewrite !app_nil_r; auto.
    - unfold same; simpl. rewrite !app_nil_r; auto.
    - unfold same; simpl. rewrite !app_nil_r; auto. }
  apply (@sim_equiv (fun o o' => exists o0, o = OFun KVal fid2 ft2 g (OFun KVal fid1 ft1 f o0) /\
                                   o' = OFun KVal fid ft (compose_fun f g) o0)
           (csigs (Fun KVal fid2 ft2 g (Fun KVal fid1 ft1 f s)))); auto.
  - intros o o' (o0 & -> & ->). exists (stop_op o0). auto.
  - intros o o' p (o0 & -> & ->). reflexivity.
  - intros o o' p k c r r' (o0 & -> & ->) _ Hk Hm E1 E2. cbn [feed] in E1, E2.
    destruct (feed o0 p c) as [r0|]; [|discriminate]. injection E1 as <-. injection E2 as <-.
    destruct (Hb r0) as (A & B & C). split; auto. simpl option_map in *. rewrite B, C. split; auto. eauto.
  - intros e ctx. simpl. destruct (Hb (start e ctx s)) as (A & B & C). split; auto. rewrite B, C. split; auto. eauto.
Qed.

(** ** sequence is associative *)
Inductive rseq (n1 n2 n3 n4 : bool) (b c : sender) : op -> op -> Prop :=
| rs1 e o : rseq n1 n2 n3 n4 b c (OSeq1 None n2 c e (OSeq1 None n1 b e o)) (OSeq1 None n4 (Seq None n3 b c) e o)
| rs2 e o : rseq n1 n2 n3 n4 b c (OSeq1 None n2 c e (OSeq2 o)) (OSeq2 (OSeq1 None n3 c e o))
| rs3 o : rseq n1 n2 n3 n4 b c (OSeq2 o) (OSeq2 (OSeq2 o)).

(** at most one call, made by a finished child *)
Definition tidy (r : res) : Prop :=
  r_calls r = [] \/ exists c, r_calls r = [c] /\ live (r_op r) = false.
Lemma okres_tidy S r : okres S r -> tidy r.
Proof. intros [_ [(A & _)|(c & A & _ & B)]]; [left|right]; eauto. Qed.

Section SeqAssoc.
  Variables (n1 n2 n3 n4 : bool) (b c : sender).
  Let R := rseq n1 n2 n3 n4 b c.

  Lemma seq_sim2 e r : tidy r ->
    simres R
      (bindr (OSeq1 None n2 c e) (seq_next None (fun x => start e x c) (OSeq1 None n2 c e))
             (pass OSeq2 r))
      (pass OSeq2 (bindr (OSeq1 None n3 c e) (seq_next None (fun x => start e x c) (OSeq1 None n3 c e)) r)).
  Proof.
    intros Ht. unfold bindr, pass. simpl. destruct Ht as [Hc|(cc & Hc & Hd)]; rewrite Hc; simpl.
    - split; [split; auto|]. split; auto. intros _. constructor.
    - unfold seq_next, fwd. destruct (fst cc); simpl.
      + split; [split|]; cbn [r_calls r_obs r_op]; [auto|rewrite !vis_app, !vis_destroy; auto|].
        split; auto. intros _. constructor.
      + split; [split; auto|]. simpl. rewrite Hd. split; auto. discriminate.
      + split; [split; auto|]. simpl. rewrite Hd. split; auto. discriminate.
  Qed.

  Lemma seq_sim1 e r : tidy r -> (forall x, tidy (start e x b)) ->
    simres R
      (bindr (OSeq1 None n2 c e) (seq_next None (fun x => start e x c) (OSeq1 None n2 c e))
        (bindr (OSeq1 None n1 b e) (seq_next None (fun x => start e x b) (OSeq1 None n1 b e)) r))
      (bindr (OSeq1 None n4 (Seq None n3 b c) e)
             (seq_next None (fun x => start e x (Seq None n3 b c)) (OSeq1 None n4 (Seq None n3 b c) e)) r).
  Proof.
    intros Ht Hb. destruct Ht as [Hc|(cc & Hc & Hd)].
    - unfold bindr. rewrite Hc. simpl. split; [split; auto|]. split; auto. intros _. constructor.
    - destruct cc as [[vs|v|] x].
      + specialize (Hb x). pose proof (seq_sim2 e Hb) as H2.
        unfold bindr at 2 3. rewrite Hc. cbn [seq_next fst snd start]. rewrite !app_nil_r.
        set (B := bindr (OSeq1 None n3 c e) (seq_next None (fun x => start e x c) (OSeq1 None n3 c e)) (start e x b)) in *.
        destruct H2 as ((A1 & A2) & A3 & A4).
        unfold bindr, pass in *. cbn [r_calls r_op r_obs] in *.
        destruct (r_calls (start e x b)) as [|c0 rest].
        * cbn [r_calls r_op r_obs] in *. split; [split; [exact A1|]|split; [exact A3|exact A4]].
          cbn [r_obs]. rewrite !vis_app, !vis_destroy. cbn [app]. rewrite A2. auto.
        * cbn [r_calls r_op r_obs] in *. split; [split; [exact A1|]|split; [exact A3|exact A4]].
          cbn [r_obs]. rewrite !vis_app, !vis_destroy. cbn [app]. rewrite <- A2.
          rewrite !vis_app, !app_assoc. auto.
      + unfold bindr. rewrite Hc. simpl. unfold same, simres. simpl. rewrite Hd.
        unfold same; simpl. rewrite !app_nil_r. split; auto. split; auto. discriminate.
      + unfold bindr. rewrite Hc. simpl. unfold same, simres. simpl. rewrite Hd.
        unfold same; simpl. rewrite !app_nil_r. split; auto. split; auto. discriminate.
  Qed.

  Theorem sequence_assoc a :
    wt (Seq None n2 (Seq None n1 a b) c) ->
    equiv (Seq None n2 (Seq None n1 a b) c) (Seq None n4 a (Seq None n3 b c)).
  Proof.
    intros Hw. pose proof Hw as ((Ha & Hb & _) & Hcw & _).
    assert (Htb : forall e x, tidy (start e x b)) by (intros; eapply okres_tidy, start_ok; auto).
    apply (@sim_equiv R (csigs (Seq None n2 (Seq None n1 a b) c))); auto.
    - intros o o' H. destruct H; constructor.
    - intros o o' p H. destruct H; reflexivity.
    - intros o o' p k cc r r' H Ho Hk Hm E1 E2. destruct H; cbn [feed] in E1, E2.
      + destruct Ho as (S1 & Ho & _). destruct Ho as (S2 & Ho & _).
        destruct (feed o p cc) as [r0|] eqn:E; [|discriminate]. injection E1 as <-. injection E2 as <-.
        apply seq_sim1; auto. eapply okres_tidy, feed_ok; eauto.
      + destruct Ho as (S1 & Ho & _). simpl in Ho.
        destruct (feed o p cc) as [r0|] eqn:E; [|discriminate]. injection E1 as <-. injection E2 as <-.
        apply seq_sim2; auto. eapply okres_tidy, feed_ok; eauto.
      + destruct (feed o p cc) as [r0|] eqn:E; [|discriminate]. injection E1 as <-. injection E2 as <-.
        split; [split; auto|]. simpl. split; auto. intros _. constructor.
    - intros e ctx. apply seq_sim1; auto. eapply okres_tidy, start_ok; auto.
  Qed.
End SeqAssoc.

(** ** upon_error / upon_stopped / let_error / let_stopped over just: nothing happens *)
Theorem fun_other_channel k fid ft f s :
  wt (Fun k fid ft f s) -> sends k (csigs s) = false -> equiv (Fun k fid ft f s) s.
Proof.
  intros Hw Hk. pose proof Hw as (Hws & _).
  assert (Hb : forall r, okres (csigs s) r ->
     simres (fun o o' => o = OFun k fid ft f o' /\ opok (csigs s) o') (wrap (OFun k fid ft f) (fun_handle k fid f) r) r).
  { intros r Hok. pose proof Hok as [_ [(Hc & Hl & Ho)|(c & Hc & Hcf & Hd)]]; unfold wrap; rewrite Hc; simpl.
    - split; [split; auto|]. simpl. auto.
    - unfold fun_handle. destruct (chan_eqb (compl_chan (fst c)) k) eqn:E.
      + apply chan_eqb_eq in E. apply sends_conforms in Hcf. congruence.
      + split; [split|]; simpl; auto. { rewrite app_nil_r. auto. } rewrite Hd. split; auto. discriminate. }
  apply (@sim_equiv (fun o o' => o = OFun k fid ft f o' /\ opok (csigs s) o') (csigs (Fun k fid ft f s))); auto.
  - intros o o' [-> Ho]. split; auto. apply opok_stop; auto.
  - intros o o' p [-> Ho]. reflexivity.
  - intros o o' p k0 c r r' [-> Ho] _ Hk0 Hm E1 E2. cbn [feed] in E1. rewrite E2 in E1. injection E1 as <-.
    apply Hb. eapply feed_ok; eauto.
  - intros e ctx. apply Hb. apply start_ok; auto.
Qed.

(** ** let_value is associative: (s | let_value(f)) | let_value(g)  is
    s | let_value(x -> f(x) | let_value(g)) *)
Definition nothr : copyfn := fun _ => None.

Lemma vis_call fid vs o t : vis (OCall fid vs :: destroy o ++ t) = vis t.
Proof. change (vis (destroy o ++ t) = vis t). rewrite vis_app, vis_destroy. auto. Qed.

Lemma let_next_val fid st mk vs x o :
  let_next KVal fid nothr st mk (Val vs, x) o =
  mkres (OLet2 (r_op (st vs x))) (r_calls (st vs x)) (OCall fid vs :: destroy o ++ r_obs (st vs x)).
Proof. reflexivity. Qed.
Lemma bindr_one mk h r c : r_calls r = [c] ->
  bindr mk h r = mkres (r_op (h c (r_op r))) (r_calls (h c (r_op r))) (r_obs r ++ r_obs (h c (r_op r))).
Proof. intros H. unfold bindr. rewrite H. rewrite app_nil_r. reflexivity. Qed.

Section LetAssoc.
  Variables (fid1 fid2 fid3 fid4 : nat) (lt1 lt2 lt3 lt4 : lty) (f g : list val -> sender).
  Definition fg (vs : list val) : sender := Let KVal fid3 lt3 nothr g (f vs).

  Inductive rlt : op -> op -> Prop :=
  | rlt1 e o : rlt (OLet1 KVal fid2 lt2 nothr g e (OLet1 KVal fid1 lt1 nothr f e o))
                   (OLet1 KVal fid4 lt4 nothr fg e o)
  | rlt2 e o : rlt (OLet1 KVal fid2 lt2 nothr g e (OLet2 o)) (OLet2 (OLet1 KVal fid3 lt3 nothr g e o))
  | rlt3 o : rlt (OLet2 o) (OLet2 (OLet2 o)).

  Lemma let_sim2 e r : tidy r ->
    simres rlt
      (bindr (OLet1 KVal fid2 lt2 nothr g e)
             (let_next KVal fid2 nothr (fun args x => start e x (g args)) (OLet1 KVal fid2 lt2 nothr g e))
             (pass OLet2 r))
      (pass OLet2 (bindr (OLet1 KVal fid3 lt3 nothr g e)
             (let_next KVal fid3 nothr (fun args x => start e x (g args)) (OLet1 KVal fid3 lt3 nothr g e)) r)).
  Proof.
    intros Ht. unfold bindr, pass. simpl. destruct Ht as [Hc|(cc & Hc & Hd)]; rewrite Hc; simpl.
    - split; [split; auto|]. split; auto. intros _. constructor.
    - unfold let_next, fwd, nothr. destruct (fst cc); simpl.
      + split; [split|]; cbn [r_calls r_obs r_op]; [auto| |].
        * rewrite !vis_app. f_equal.
        * split; auto. intros _. constructor.
      + split; [split; auto|]. simpl. rewrite Hd. split; auto. discriminate.
      + split; [split; auto|]. simpl. rewrite Hd. split; auto. discriminate.
  Qed.

  Lemma let_sim1 e r S : tidy r -> (forall cc, r_calls r = [cc] -> conforms S (fst cc)) ->
    (forall vs x, conforms S (Val vs) -> tidy (start e x (f vs))) ->
    simres rlt
      (bindr (OLet1 KVal fid2 lt2 nothr g e)
             (let_next KVal fid2 nothr (fun args x => start e x (g args)) (OLet1 KVal fid2 lt2 nothr g e))
        (bindr (OLet1 KVal fid1 lt1 nothr f e)
               (let_next KVal fid1 nothr (fun args x => start e x (f args)) (OLet1 KVal fid1 lt1 nothr f e)) r))
      (bindr (OLet1 KVal fid4 lt4 nothr fg e)
             (let_next KVal fid4 nothr (fun args x => start e x (fg args)) (OLet1 KVal fid4 lt4 nothr fg e)) r).
  Proof.
    intros Ht Hcf Hb. destruct Ht as [Hc|(cc & Hc & Hd)].
    - unfold bindr. rewrite Hc. simpl. split; [split; auto|]. split; auto. intros _. constructor.
    - specialize (Hcf _ Hc). destruct cc as [[vs|v|] x].
      + specialize (Hb vs x Hcf). pose proof (let_sim2 e Hb) as H2.
        rewrite !(bindr_one _ _ _ Hc), !let_next_val. unfold fg at 1 2 3. cbn [start].
        unfold mkres. cbn [r_op r_calls r_obs].
        set (B := bindr (OLet1 KVal fid3 lt3 nothr g e)
             (let_next KVal fid3 nothr (fun args x => start e x (g args)) (OLet1 KVal fid3 lt3 nothr g e)) (start e x (f vs))) in *.
        destruct H2 as ((A1 & A2) & A3 & A4). cbn [r_calls r_op r_obs].
        unfold bindr, pass in A1, A2, A3, A4 |- *. cbn [r_calls r_op r_obs] in *.
        destruct (r_calls (start e x (f vs))) as [|c0 rest].
        * cbn [r_calls r_op r_obs] in *. split; [split; [exact A1|]|split; [exact A3|exact A4]].
          cbn [r_obs]. rewrite !(vis_app (r_obs r)), !vis_call. f_equal. exact A2.
        * cbn [r_calls r_op r_obs] in *. split; [split; [exact A1|]|split; [exact A3|exact A4]].
          cbn [r_obs]. rewrite <- app_assoc. rewrite !(vis_app (r_obs r)). f_equal.
          rewrite <- app_comm_cons, <- app_assoc, !vis_call. exact A2.
      + unfold bindr. rewrite Hc. simpl. unfold same, simres. simpl. rewrite Hd.
        unfold same; simpl. rewrite !app_nil_r. split; auto. split; auto. discriminate.
      + unfold bindr. rewrite Hc. simpl. unfold same, simres. simpl. rewrite Hd.
        unfold same; simpl. rewrite !app_nil_r. split; auto. split; auto. discriminate.
  Qed.

  Theorem let_assoc s :
    wt (Let KVal fid2 lt2 nothr g (Let KVal fid1 lt1 nothr f s)) ->
    equiv (Let KVal fid2 lt2 nothr g (Let KVal fid1 lt1 nothr f s)) (Let KVal fid4 lt4 nothr fg s).
  Proof.
    intros Hw. pose proof Hw as ((Hs & Hf) & Hg).
    assert (HF : forall S, (forall sg vs, In sg S -> sig_chan sg = KVal -> Forall2 has_ty vs (sig_args sg) ->
                   (forall e, nothr vs = Some e -> l_nothrow lt1 (sig_args sg) = false) /\
                   wt (f vs) /\ incl (csigs (f vs)) (l_sigs lt1 (sig_args sg))) ->
                 forall e vs x, conforms S (Val vs) -> tidy (start e x (f vs))).
    { intros S H e vs x (sg & Hin & Hm). destruct sg; simpl in Hm; try tauto.
      destruct (H _ _ Hin eq_refl Hm) as (_ & Hwt & _). eapply okres_tidy, start_ok; auto. }
    apply (@sim_equiv rlt (csigs (Let KVal fid2 lt2 nothr g (Let KVal fid1 lt1 nothr f s)))); auto.
    - intros o o' H. destruct H; constructor.
    - intros o o' p H. destruct H; reflexivity.
    - intros o o' p k cc r r' H Ho Hk Hm E1 E2. destruct H; cbn [feed] in E1, E2.
      + destruct Ho as (S1 & Ho & _). destruct Ho as (S2 & Ho & _ & Ho2).
        destruct (feed o p cc) as [r0|] eqn:E; [|discriminate]. injection E1 as <-. injection E2 as <-.
        assert (Hok : okres S2 r0) by (eapply feed_ok; eauto).
        apply (@let_sim1 e r0 S2); auto.
        * eapply okres_tidy; eauto.
        * intros c1 Hc1. destruct Hok as [_ [(Hc & _)|(c2 & Hc & Hcf & _)]]; rewrite Hc in Hc1; [discriminate|].
          injection Hc1 as <-; auto.
        * intros. eapply HF; eauto.
      + destruct Ho as (S1 & Ho & _). simpl in Ho.
        destruct (feed o p cc) as [r0|] eqn:E; [|discriminate]. injection E1 as <-. injection E2 as <-.
        apply let_sim2; auto. eapply okres_tidy, feed_ok; eauto.
      + destruct (feed o p cc) as [r0|] eqn:E; [|discriminate]. injection E1 as <-. injection E2 as <-.
        split; [split; auto|]. simpl. split; auto. intros _. constructor.
    - intros e ctx. pose proof (start_ok s Hs e ctx) as Hok. apply (@let_sim1 e (start e ctx s) (csigs s)); auto.
      + eapply okres_tidy; eauto.
      + intros c1 Hc1. destruct Hok as [_ [(Hc & _)|(c2 & Hc & Hcf & _)]]; rewrite Hc in Hc1; [discriminate|].
          injection Hc1 as <-; auto.
      + intros. eapply HF; eauto.
  Qed.
End LetAssoc.
