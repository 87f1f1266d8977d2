(** * SenderProofs: the typed invariant of operation states, and its preservation. *)

From Coq Require Import List Arith Bool Lia.
From Verif Require Import SenderModel SenderSpec.
Import ListNotations.
Set Implicit Arguments.

(** ** Induction principles for the nested types *)

Section SenderInd.
  Variable P : sender -> Prop.
  Hypothesis HJust : forall ts vs, P (Just ts vs).
  Hypothesis HJustError : forall t e, P (JustError t e).
  Hypothesis HJustStopped : P JustStopped.
  Hypothesis HLeaf : forall l sg, P (Leaf l sg).
  Hypothesis HSchedule : forall l sg, P (Schedule l sg).
  Hypothesis HFun : forall k fid ft f s, P s -> P (Fun k fid ft f s).
  Hypothesis HLet : forall k fid lt thr f s, P s -> (forall vs, P (f vs)) -> P (Let k fid lt thr f s).
  Hypothesis HSeq : forall c n s1 s2, P s1 -> P s2 -> P (Seq c n s1 s2).
  Hypothesis HFinally : forall cp s1 s2, P s1 -> P s2 -> P (Finally cp s1 s2).
  Hypothesis HContinuesOn : forall cp sch sg s, P s -> P (ContinuesOn cp sch sg s).
  Hypothesis HStartsOn : forall c n sch sg s, P s -> P (StartsOn c n sch sg s).
  Hypothesis HOn : forall cp c n sch sg osg s, P s -> P (On cp c n sch sg osg s).
  Hypothesis HIntoVariant : forall cp s, P s -> P (IntoVariant cp s).
  Hypothesis HStoppedAsOptional : forall cp s, P s -> P (StoppedAsOptional cp s).
  Hypothesis HBulk : forall fid n fnt f s, P s -> P (Bulk fid n fnt f s).
  Hypothesis HRepeatUntil : forall c c2 cp cnt s, P s -> P (RepeatUntil c c2 cp cnt s).
  Hypothesis HRepeatN : forall c c2 cp cnt n s, P s -> P (RepeatN c c2 cp cnt n s).
  Hypothesis HShield : forall s, P s -> P (Shield s).
  Hypothesis HWhenAll : forall cp ss, Forall P ss -> P (WhenAll cp ss).
  Hypothesis HWhenAny : forall cp ss, Forall P ss -> P (WhenAny cp ss).
  Fixpoint sender_ind' (s : sender) : P s :=
    let all := fix all (ss : list sender) : Forall P ss :=
                 match ss with
                 | [] => Forall_nil _
                 | s :: ss => Forall_cons _ (sender_ind' s) (all ss)
                 end in
    match s with
    | Just ts vs => HJust ts vs
    | JustError t e => HJustError t e
    | JustStopped => HJustStopped
    | Leaf l sg => HLeaf l sg
    | Schedule l sg => HSchedule l sg
    | Fun k fid ft f s => HFun k fid ft f (sender_ind' s)
    | Let k fid lt thr f s =>
        HLet k fid lt thr f (sender_ind' s) (fun vs => sender_ind' (f vs))
    | Seq c n s1 s2 => HSeq c n (sender_ind' s1) (sender_ind' s2)
    | Finally cp s1 s2 => HFinally cp (sender_ind' s1) (sender_ind' s2)
    | ContinuesOn cp sch sg s => HContinuesOn cp sch sg (sender_ind' s)
    | StartsOn c n sch sg s => HStartsOn c n sch sg (sender_ind' s)
    | On cp c n sch sg osg s => HOn cp c n sch sg osg (sender_ind' s)
    | IntoVariant cp s => HIntoVariant cp (sender_ind' s)
    | StoppedAsOptional cp s => HStoppedAsOptional cp (sender_ind' s)
    | Bulk fid n fnt f s => HBulk fid n fnt f (sender_ind' s)
    | RepeatUntil c c2 cp cnt s => HRepeatUntil c c2 cp cnt (sender_ind' s)
    | RepeatN c c2 cp cnt n s => HRepeatN c c2 cp cnt n (sender_ind' s)
    | Shield s => HShield (sender_ind' s)
    | WhenAll cp ss => HWhenAll cp (all ss)
    | WhenAny cp ss => HWhenAny cp (all ss)
    end.
End SenderInd.

Section OpInd.
  Variable P : op -> Prop.
  Hypothesis H1 : P ODone.
  Hypothesis H2 : forall l sg stp, P (OLeaf l sg stp).
  Hypothesis H3 : forall l sg stp, P (OSched l sg stp).
  Hypothesis H4 : forall k fid ft f o, P o -> P (OFun k fid ft f o).
  Hypothesis H5 : forall k fid lt thr f e o, P o -> P (OLet1 k fid lt thr f e o).
  Hypothesis H6 : forall o, P o -> P (OLet2 o).
  Hypothesis H7 : forall c n s e o, P o -> P (OSeq1 c n s e o).
  Hypothesis H8 : forall o, P o -> P (OSeq2 o).
  Hypothesis H9 : forall cp s e o, P o -> P (OFin1 cp s e o).
  Hypothesis H10 : forall st o, P o -> P (OFin2 st o).
  Hypothesis H11 : forall cp sch sg e o, P o -> P (OCon1 cp sch sg e o).
  Hypothesis H12 : forall st o, P o -> P (OCon2 st o).
  Hypothesis H13 : forall cp o, P o -> P (OVar cp o).
  Hypothesis H14 : forall cp o, P o -> P (OOpt cp o).
  Hypothesis H15 : forall fid n fnt f o, P o -> P (OBulk fid n fnt f o).
  Hypothesis H16 : forall c c2 cp n s e k o, P o -> P (ORep c c2 cp n s e k o).
  Hypothesis H17 : forall c c2 cp n s e k o, P o -> P (ORepN c c2 cp n s e k o).
  Hypothesis H18 : forall o, P o -> P (OShield o).
  Hypothesis H19 : forall ws w os, Forall P os -> P (OWhen ws w os).
  Hypothesis H20 : forall cp a os, Forall P os -> P (OAny cp a os).
  Fixpoint op_ind' (o : op) : P o :=
    let all := fix all (os : list op) : Forall P os :=
                 match os with
                 | [] => Forall_nil _
                 | o :: os => Forall_cons _ (op_ind' o) (all os)
                 end in
    match o with
    | ODone => H1
    | OLeaf l sg stp => H2 l sg stp
    | OSched l sg stp => H3 l sg stp
    | OFun k fid ft f o => H4 k fid ft f (op_ind' o)
    | OLet1 k fid lt thr f e o => H5 k fid lt thr f e (op_ind' o)
    | OLet2 o => H6 (op_ind' o)
    | OSeq1 c n s e o => H7 c n s e (op_ind' o)
    | OSeq2 o => H8 (op_ind' o)
    | OFin1 cp s e o => H9 cp s e (op_ind' o)
    | OFin2 st o => H10 st (op_ind' o)
    | OCon1 cp sch sg e o => H11 cp sch sg e (op_ind' o)
    | OCon2 st o => H12 st (op_ind' o)
    | OVar cp o => H13 cp (op_ind' o)
    | OOpt cp o => H14 cp (op_ind' o)
    | OBulk fid n fnt f o => H15 fid n fnt f (op_ind' o)
    | ORep c c2 cp n s e k o => H16 c c2 cp n s e k (op_ind' o)
    | ORepN c c2 cp n s e k o => H17 c c2 cp n s e k (op_ind' o)
    | OShield o => H18 (op_ind' o)
    | OWhen ws w os => H19 ws w (all os)
    | OAny cp a os => H20 cp a (all os)
    end.
End OpInd.

(** ** The invariant *)

Fixpoint count (l : list bool) : nat :=
  match l with [] => 0 | b :: l => (if b then 1 else 0) + count l end.

Definition child_done (ws : wstatic) (w : wstate) (i : nat) (S : list sig) : Prop :=
  w_st w = WError \/
  (w_st w = WStopped /\ ws_sends_stopped ws = true) \/
  (sends KVal S = true /\
   (ws_values ws = true ->
    exists vs, nth_error (w_vals w) i = Some (Some vs) /\ Forall2 has_ty vs (hd [] (vals_of S)))).

Definition winv (Sg : list sig) (ws : wstatic) (SS : list (list sig)) (w : wstate)
           (lv : list bool) : Prop :=
  w_cnt w = count lv + (length SS - length lv) /\
  length (w_vals w) = length SS /\
  (w_st w = WError -> exists e, w_err w = Some e /\ conforms Sg (Err e)) /\
  (forall i S, nth_error SS i = Some S -> nth_error lv i = Some false -> child_done ws w i S).

Definition wcond (Sg : list sig) (ws : wstatic) (SS : list (list sig)) : Prop :=
  incl (all_sigs SS) Sg /\ SS <> [] /\
  ws_sends_stopped ws = existsb (sends KStop) SS /\
  ws_values ws = forallb (sends KVal) SS /\
  (forall i S, nth_error SS i = Some S -> single_val S /\ cp_ok (ws_cp ws i) S).

Definition ainv (Sg : list sig) (SS : list (list sig)) (a : astate) (lv : list bool) : Prop :=
  a_cnt a = count lv + (length SS - length lv) /\
  (forall c, a_res a = Some c -> conforms Sg c) /\
  (forall i, nth_error lv i = Some false -> a_res a <> None).

Definition acond (Sg : list sig) (cp : nat -> compl -> option nat) (SS : list (list sig)) : Prop :=
  incl (any_sigs SS) Sg /\ SS <> [] /\
  (forall i S, nth_error SS i = Some S -> cp_ok (cp i) S).

Definition all2g (P : list sig -> op -> Prop) :=
  fix all2 (SS : list (list sig)) (os : list op) {struct os} : Prop :=
    match os, SS with
    | [], _ => True
    | o :: os, T :: SS => (live o = true -> P T o) /\ all2 SS os
    | _ :: _, [] => False
    end.

(** [opok Sg o]: [o] is running and every completion it can still make conforms to [Sg]. *)
Fixpoint opok (Sg : list sig) (o : op) {struct o} : Prop :=
  match o with
  | ODone => False
  | OLeaf _ sg _ => incl sg Sg
  | OSched _ sg _ => incl (SVal [] :: drop_vals sg) Sg
  | OFun k _ ft f o => exists S, opok S o /\ fun_ok k ft f S /\ incl (fun_sigs k ft S) Sg
  | OLet1 k _ lt thr f _ o =>
      exists S, opok S o /\ incl (let_sigs k lt S) Sg /\
        forall sg vs, In sg S -> sig_chan sg = k -> Forall2 has_ty vs (sig_args sg) ->
          (forall e, thr vs = Some e -> l_nothrow lt (sig_args sg) = false) /\
          wt (f vs) /\ incl (csigs (f vs)) (l_sigs lt (sig_args sg))
  | OLet2 o => opok Sg o
  | OSeq1 cthr cnt s2 _ o =>
      exists S, opok S o /\ wt s2 /\ (forall e, cthr = Some e -> cnt = false) /\
        incl (seq_sigs cnt S (csigs s2)) Sg
  | OSeq2 o => opok Sg o
  | OFin1 cp s2 _ o =>
      exists S, opok S o /\ wt s2 /\ fin_cp_ok cp S /\ incl (fin_sigs S (csigs s2)) Sg
  | OFin2 st o =>
      exists S, opok S o /\ incl (drop_vals S) Sg /\
        match st with Some c => conforms Sg c | None => sends KVal S = false end
  | OCon1 cp _ sg _ o =>
      exists S, opok S o /\ cp_ok cp S /\ incl (cont_sigs (SVal [] :: sg) S) Sg
  | OCon2 st o => exists S, opok S o /\ incl (drop_vals S) Sg /\ conforms Sg st
  | OVar _ o => exists S, opok S o /\ incl (var_sigs S) Sg
  | OOpt cp o =>
      exists S t, opok S o /\ incl (opt_sigs S) Sg /\ In (SVal [t]) S /\
        (forall ts, In (SVal ts) S -> ts = [t]) /\
        (forall v e, has_ty v t -> cp [v] = Some e -> nt t = false)
  | OBulk _ n fnt f o =>
      exists S, opok S o /\ incl (bulk_sigs fnt S) Sg /\
        forall ts vs i e, In (SVal ts) S -> Forall2 has_ty vs ts -> i < n ->
          f i vs = Some e -> fnt = false
  | ORep cthr cthr2 cp cnt s _ _ o =>
      wt (RepeatUntil cthr cthr2 cp cnt s) /\ incl (rep_sigs cnt (csigs s)) Sg /\
      opok (seq_sigs cnt (SVal [] :: tramp_sg) (csigs s)) o
  | ORepN cthr cthr2 cp cnt s _ k o =>
      wt (RepeatN cthr cthr2 cp cnt 1 s) /\ incl (repn_sigs cnt (csigs s)) Sg /\
      opok (seq_sigs cnt (SVal [] :: tramp_sg) (csigs s)) o
  | OShield o => opok Sg o
  | OWhen ws w os =>
      exists SS, wcond Sg ws SS /\ length os = length SS /\ winv Sg ws SS w (map live os) /\
        all2g opok SS os
  | OAny cp a os =>
      exists SS, acond Sg cp SS /\ length os = length SS /\ ainv Sg SS a (map live os) /\
        all2g opok SS os
  end.

Notation all2 := (all2g opok).

Definition okres (Sg : list sig) (r : res) : Prop :=
  ~ In OUb (r_obs r) /\
  ((r_calls r = [] /\ live (r_op r) = true /\ opok Sg (r_op r)) \/
   (exists c, r_calls r = [c] /\ conforms Sg (fst c) /\ live (r_op r) = false)).

(** ** Basic facts *)

Lemma conforms_incl S S' c : conforms S c -> incl S S' -> conforms S' c.
Proof. intros [s [Hi Hm]] H. exists s. split; auto. Qed.

Lemma matches_chan c s : matches c s -> sig_chan s = compl_chan c.
Proof. destruct c, s; simpl; tauto. Qed.

Lemma matches_args c s : matches c s -> Forall2 has_ty (compl_args c) (sig_args s).
Proof. destruct c, s; simpl; try tauto; auto. Qed.

Lemma chan_eqb_eq a b : chan_eqb a b = true <-> a = b.
Proof. destruct a, b; simpl; split; congruence. Qed.

Lemma sends_in k S s : In s S -> sig_chan s = k -> sends k S = true.
Proof.
  intros Hi Hc. unfold sends. apply existsb_exists. exists s. split; auto.
  apply chan_eqb_eq; auto.
Qed.

Lemma sends_conforms S c : conforms S c -> sends (compl_chan c) S = true.
Proof. intros [s [Hi Hm]]. eapply sends_in; eauto. apply matches_chan; auto. Qed.

Lemma conforms_eptr S e : In eptr_sig S -> conforms S (Err (VEptr e)).
Proof. intros. exists eptr_sig. split; auto. simpl. constructor. Qed.

Lemma in_drop_vals s S : In s S -> sig_chan s <> KVal -> In s (drop_vals S).
Proof.
  intros. unfold drop_vals. apply filter_In. split; auto. destruct s; simpl in *; congruence.
Qed.

Lemma conforms_drop_vals S c : conforms S c -> compl_chan c <> KVal -> conforms (drop_vals S) c.
Proof.
  intros [s [Hi Hm]] Hc. exists s. split; auto. apply in_drop_vals; auto.
  rewrite (matches_chan _ _ Hm); auto.
Qed.

Lemma drop_vals_incl S : incl (drop_vals S) S.
Proof. intros s Hs. unfold drop_vals in Hs. apply filter_In in Hs. tauto. Qed.

Lemma incl_flat_map {A B} (f : A -> list B) l l' : incl l l' -> incl (flat_map f l) (flat_map f l').
Proof.
  intros H x Hx. apply in_flat_map in Hx. destruct Hx as [y [Hy Hx]].
  apply in_flat_map. exists y; auto.
Qed.

Lemma opok_incl o : forall S S', opok S o -> incl S S' -> opok S' o.
Proof.
  induction o using op_ind'; intros S S' Hok Hi; simpl in *; auto.
  - eapply incl_tran; eauto.
  - eapply incl_tran; eauto.
  - destruct Hok as (T & A & B & C). exists T. repeat split; eauto using incl_tran.
  - destruct Hok as (T & A & B & C). exists T. split; [|split]; eauto using incl_tran.
  - eauto.
  - destruct Hok as (T & A & B & C & D). exists T. split; [|split; [|split]]; eauto using incl_tran.
  - eauto.
  - destruct Hok as (T & A & B & C & D). exists T. split; [|split; [|split]]; eauto using incl_tran.
  - destruct Hok as (T & A & B & C). exists T. split; [|split]; eauto using incl_tran.
    destruct st; eauto using conforms_incl.
  - destruct Hok as (T & A & B & C). exists T. split; [|split]; eauto using incl_tran.
  - destruct Hok as (T & A & B & C). exists T. split; [|split]; eauto using incl_tran, conforms_incl.
  - destruct Hok as (T & A & B). exists T. split; eauto using incl_tran.
  - destruct Hok as (T & t & A & B & C). exists T, t. split; [|split]; eauto using incl_tran.
  - destruct Hok as (T & A & B & C). exists T. split; [|split]; eauto using incl_tran.
  - destruct Hok as (A & B & C). split; [|split]; eauto using incl_tran.
  - destruct Hok as (A & B & C). split; [|split]; eauto using incl_tran.
  - eauto.
  - destruct Hok as [T [Hc [Hl [Hw Ha]]]]. exists T. split; [|split; [auto|split; auto]].
    + destruct Hc as [Hc1 Hc2]. split; eauto using incl_tran.
    + destruct Hw as [Hw1 [Hw2 [Hw3 Hw4]]]. split; [|split; [|split]]; auto.
      intros He. destruct (Hw3 He) as [e [He1 He2]]. exists e. eauto using conforms_incl.
  - destruct Hok as [T [Hc [Hl [Hw Ha]]]]. exists T. split; [|split; [auto|split; auto]].
    + destruct Hc as [Hc1 Hc2]. split; eauto using incl_tran.
    + destruct Hw as [Hw1 [Hw2 Hw3]]. split; [|split]; auto.
      intros. eauto using conforms_incl.
Qed.

(** ** Stop requests preserve everything *)

Lemma live_stop o : live (stop_op o) = live o.
Proof.
  induction o using op_ind'; simpl; auto.
  - assert (E : existsb live (map stop_op os) = existsb live os).
    { induction H as [|x l Hx Hl IH]; simpl; auto. rewrite Hx, IH; auto. }
    destruct (ws_uses ws); simpl; auto.
    destruct (w_cnt w =? 0); simpl; auto.
    destruct (w_st w); simpl; auto.
  - assert (E : existsb live (map stop_op os) = existsb live os).
    { induction H as [|x l Hx Hl IH]; simpl; auto. rewrite Hx, IH; auto. }
    destruct (a_cnt a =? 0); simpl; auto. destruct (a_src a); auto.
Qed.

Lemma map_live_stop os : map live (map stop_op os) = map live os.
Proof. rewrite map_map. apply map_ext. apply live_stop. Qed.

Lemma all2_stop os :
  Forall (fun o => forall S, opok S o -> opok S (stop_op o)) os ->
  forall SS, all2 SS os -> all2 SS (map stop_op os).
Proof.
  induction 1; intros SS; simpl; auto.
  destruct SS; auto. intros [A B]. split.
  - rewrite live_stop. auto.
  - apply IHForall; auto.
Qed.

Lemma winv_ext Sg ws SS w w' lv :
  w_cnt w' = w_cnt w -> w_vals w' = w_vals w -> w_st w' <> WError ->
  (w_st w' = w_st w \/ (w_st w = WStarted)) ->
  winv Sg ws SS w lv -> winv Sg ws SS w' lv.
Proof.
  intros Ec Ev Hn Hs [A [B [C D]]]. unfold winv. rewrite Ec, Ev.
  split; [auto|split; [auto|split]].
  - intros; congruence.
  - intros i S Hi Hl. specialize (D _ _ Hi Hl). unfold child_done in *. rewrite Ev.
    destruct D as [D|[[D1 D2]|D]]; auto.
    + destruct Hs as [Hs|Hs]; [left|]; congruence.
    + destruct Hs as [Hs|Hs]; [right; left; split|]; congruence.
Qed.

Lemma opok_stop o : forall S, opok S o -> opok S (stop_op o).
Proof.
  induction o using op_ind'; intros S Hok; simpl in *; auto.
  - destruct Hok as (T & A & B & C). exists T. auto.
  - destruct Hok as (T & A & B & C). exists T. auto.
  - destruct Hok as (T & A & B & C & D). exists T. auto.
  - destruct Hok as (T & A & B & C & D). exists T. auto.
  - destruct Hok as (T & A & B & C). exists T. auto.
  - destruct Hok as (T & A & B & C). exists T. auto.
  - destruct Hok as (T & A & B & C). exists T. auto.
  - destruct Hok as (T & A & B). exists T. auto.
  - destruct Hok as (T & t & A & B & C). exists T, t. auto.
  - destruct Hok as (T & A & B & C). exists T. auto.
  - destruct Hok as (A & B & C). auto.
  - destruct Hok as (A & B & C). auto.
  - destruct Hok as [T [Hc [Hl [Hw Ha]]]].
    assert (Ha' := all2_stop H T Ha).
    destruct (ws_uses ws).
    + destruct (w_cnt w =? 0); [simpl; exists T; auto|].
      destruct (w_st w) eqn:Es; [|simpl; exists T; auto..].
      exists T. split; auto. split; [rewrite map_length; auto|]. split; auto.
      rewrite map_live_stop. apply (@winv_ext S ws T w); simpl; auto; congruence.
    + exists T. split; auto. split; [rewrite map_length; auto|]. split; auto.
      rewrite map_live_stop; auto.
  - destruct Hok as [T [Hc [Hl [Hw Ha]]]].
    assert (Ha' := all2_stop H T Ha).
    exists T. split; auto.
    destruct (a_cnt a =? 0); [|destruct (a_src a)];
      (split; [rewrite ?map_length; auto|split; [|auto]]); rewrite ?map_live_stop; exact Hw.
Qed.

(** ** Handlers *)

Lemma wrap_ok S Sg mk h r :
  okres S r ->
  (forall o, live (mk o) = live o) ->
  (forall o, opok S o -> opok Sg (mk o)) ->
  (forall c, conforms S (fst c) ->
     exists c' t, h c = ([c'], t) /\ conforms Sg (fst c') /\ ~ In OUb t) ->
  okres Sg (wrap mk h r).
Proof.
  intros [Hub [[Hc [Hl Ho]]|[c [Hc [Hf Hl]]]]] Hlive Hop Hh; unfold wrap; rewrite Hc.
  - split; auto. left. simpl. rewrite Hlive. auto.
  - destruct (Hh c Hf) as (c' & t & E & Hf' & Hn). rewrite E. split.
    + simpl. rewrite in_app_iff. tauto.
    + right. exists c'. simpl. rewrite Hlive. auto.
Qed.

Lemma pass_ok Sg mk r :
  okres Sg r -> (forall o, live (mk o) = live o) -> (forall o, opok Sg o -> opok Sg (mk o)) ->
  okres Sg (pass mk r).
Proof.
  intros [Hub [[Hc [Hl Ho]]|[c [Hc [Hf Hl]]]]] Hlive Hop; (split; [exact Hub|]); simpl.
  - left. rewrite Hlive. auto.
  - right. exists c. rewrite Hlive. auto.
Qed.

Lemma bindr_ok S Sg mk h r :
  okres S r ->
  (forall o, live (mk o) = live o) ->
  (forall o, opok S o -> opok Sg (mk o)) ->
  (forall c o, conforms S (fst c) -> live o = false -> okres Sg (h c o)) ->
  okres Sg (bindr mk h r).
Proof.
  intros [Hub [[Hc [Hl Ho]]|[c [Hc [Hf Hl]]]]] Hlive Hop Hh; unfold bindr; rewrite Hc.
  - split; auto. left. simpl. rewrite Hlive. auto.
  - destruct (Hh c (r_op r) Hf Hl) as [Hub2 H2]. split; simpl.
    + rewrite in_app_iff. tauto.
    + rewrite app_nil_r. exact H2.
Qed.

Lemma okres_incl S S' r : okres S r -> incl S S' -> okres S' r.
Proof.
  intros [Hub [[Hc [Hl Ho]]|[c [Hc [Hf Hl]]]]] Hi; split; auto.
  - left. eauto using opok_incl.
  - right. exists c. eauto using conforms_incl.
Qed.

Lemma destroy_dead o : live o = false -> destroy o = [].
Proof. unfold destroy. intros ->. auto. Qed.

Lemma okres_done Sg c o t :
  conforms Sg (fst c) -> live o = false -> ~ In OUb t -> okres Sg (mkres o [c] t).
Proof. intros. split; auto. right. exists c. auto. Qed.

(** then / upon_* *)
Lemma fun_conf k fid ft f S Sg c :
  fun_ok k ft f S -> incl (fun_sigs k ft S) Sg -> conforms S (fst c) ->
  exists c' t, fun_handle k fid f c = ([c'], t) /\ conforms Sg (fst c') /\ ~ In OUb t.
Proof.
  intros Hf Hi [s [Hs Hm]]. unfold fun_handle.
  rewrite <- (matches_chan _ _ Hm).
  destruct (chan_eqb (sig_chan s) k) eqn:E.
  - apply chan_eqb_eq in E.
    specialize (Hf s (compl_args (fst c)) Hs E (matches_args _ _ Hm)).
    destruct (f (compl_args (fst c))) as [vs|e].
    + eexists _, _. split; [reflexivity|]. split; simpl; [|intuition congruence].
      exists (SVal (f_ret ft (sig_args s))). split; auto.
      apply Hi. apply in_flat_map. exists s. split; auto.
      rewrite (proj2 (chan_eqb_eq _ _) E). simpl; auto.
    + eexists _, _. split; [reflexivity|]. split; simpl; [|intuition congruence].
      apply conforms_eptr. apply Hi. apply in_flat_map. exists s. split; auto.
      rewrite (proj2 (chan_eqb_eq _ _) E), Hf. simpl; auto.
  - exists c, []. split; auto. split; auto.
    exists s. split; auto. apply Hi. apply in_flat_map. exists s. split; auto.
    rewrite E. simpl; auto.
Qed.

Lemma var_conf cp S Sg c :
  incl (var_sigs S) Sg -> conforms S (fst c) ->
  exists c' t, (var_handle cp c, @nil obs) = ([c'], t) /\ conforms Sg (fst c') /\ ~ In OUb t.
Proof.
  intros Hi [s [Hs Hm]]. unfold var_handle.
  destruct (fst c) as [vs| e |] eqn:Ec.
  - destruct (cp vs).
    + eexists _, _. split; [reflexivity|]. split; simpl; auto.
      apply conforms_eptr. apply Hi. unfold var_sigs. apply in_or_app. right. simpl. auto.
    + eexists _, _. split; [reflexivity|]. split; simpl; auto.
      exists (SVal [TVar (vals_of S)]). split.
      * apply Hi. unfold var_sigs. apply in_or_app. right. simpl. auto.
      * simpl. constructor; auto. destruct s; simpl in Hm; try tauto.
        apply ht_var with ts; auto. apply in_flat_map. eexists. split; eauto. simpl; auto.
  - exists c, []. split; auto. split; auto. rewrite Ec.
    apply conforms_incl with (drop_vals S); [|eapply incl_tran; [|exact Hi]; intros x Hx; apply in_or_app; auto].
    apply conforms_drop_vals; [exists s; auto|]. simpl; congruence.
  - exists c, []. split; auto. split; auto. rewrite Ec.
    apply conforms_incl with (drop_vals S); [|eapply incl_tran; [|exact Hi]; intros x Hx; apply in_or_app; auto].
    apply conforms_drop_vals; [exists s; auto|]. simpl; congruence.
Qed.

Lemma opt_conf cp S Sg t c :
  incl (opt_sigs S) Sg -> In (SVal [t]) S -> (forall ts, In (SVal ts) S -> ts = [t]) ->
  (forall v e, has_ty v t -> cp [v] = Some e -> nt t = false) ->
  conforms S (fst c) ->
  exists c' tr, (opt_handle cp c, @nil obs) = ([c'], tr) /\ conforms Sg (fst c') /\ ~ In OUb tr.
Proof.
  intros Hi Ht Hu Hcp [s [Hs Hm]]. unfold opt_handle.
  assert (HV : In (SVal [TOpt t]) Sg).
  { apply Hi. apply in_flat_map. exists (SVal [t]). simpl; auto. }
  destruct (fst c) as [vs| e |] eqn:Ec; destruct s; simpl in Hm; try tauto.
  - rewrite (Hu _ Hs) in *. inversion Hm as [|v tt vs' l' Hv Hn]; subst. inversion Hn; subst.
    destruct (cp [v]) eqn:Ecp.
    + eexists _, _. split; [reflexivity|]. split; simpl; auto.
      apply conforms_eptr. apply Hi. apply in_flat_map. exists (SVal [t]). split; auto.
      rewrite (Hcp _ _ Hv Ecp). simpl; auto.
    + eexists _, _. split; [reflexivity|]. split; simpl; auto.
      exists (SVal [TOpt t]). split; auto. repeat constructor; auto.
  - exists c, []. split; auto. split; auto. rewrite Ec. exists (SErr t0). split; auto.
    apply Hi. apply in_flat_map. exists (SErr t0). simpl; auto.
  - eexists _, _. split; [reflexivity|]. split; simpl; auto.
    exists (SVal [TOpt t]). split; auto. repeat constructor.
Qed.

Lemma bulk_loop_no_ub fid f vs : forall todo i, ~ In OUb (snd (bulk_loop fid f vs i todo)).
Proof.
  induction todo; intros i; simpl; auto.
  destruct (f i vs); simpl; [intuition congruence|].
  specialize (IHtodo (S i)). destruct (bulk_loop fid f vs (S i) todo); simpl in *.
  intuition congruence.
Qed.

Lemma bulk_loop_throw fid f vs : forall todo i e,
  fst (bulk_loop fid f vs i todo) = Some e -> exists j e', i <= j < i + todo /\ f j vs = Some e'.
Proof.
  induction todo; intros i e; simpl; [discriminate|].
  destruct (f i vs) eqn:E; simpl.
  - intros _. exists i, n. split; auto. lia.
  - destruct (bulk_loop fid f vs (S i) todo) eqn:El; simpl. intros ->.
    destruct (IHtodo (S i) e) as (j & e' & Hj & Hf); [rewrite El; auto|].
    exists j, e'. split; auto. lia.
Qed.

Lemma bulk_conf fid n fnt f S Sg c :
  incl (bulk_sigs fnt S) Sg ->
  (forall ts vs i e, In (SVal ts) S -> Forall2 has_ty vs ts -> i < n ->
     f i vs = Some e -> fnt = false) ->
  conforms S (fst c) ->
  exists c' t, bulk_handle fid n f c = ([c'], t) /\ conforms Sg (fst c') /\ ~ In OUb t.
Proof.
  intros Hi Hf [s [Hs Hm]]. unfold bulk_handle.
  assert (Hfwd : conforms Sg (fst c)).
  { exists s. split; auto. apply Hi. apply in_flat_map. exists s. split; auto.
    destruct s; simpl; auto. }
  destruct (fst c) as [vs| e |] eqn:Ec.
  - destruct (bulk_loop fid f vs 0 n) as [[e|] t] eqn:El.
    + eexists _, _. split; [reflexivity|]. split; simpl.
      * destruct s; simpl in Hm; try tauto.
        destruct (@bulk_loop_throw fid f vs n 0 e) as (j & e' & Hj & Hfj); [rewrite El; auto|].
        assert (Hj' : j < n) by lia.
        apply conforms_eptr. apply Hi. apply in_flat_map. eexists. split; eauto.
        rewrite (Hf _ _ _ _ Hs Hm Hj' Hfj). simpl; auto.
      * generalize (bulk_loop_no_ub fid f vs n 0). rewrite El. auto.
    + exists c, t. split; auto. rewrite Ec. split; auto.
      generalize (bulk_loop_no_ub fid f vs n 0). rewrite El. auto.
  - exists c, []. rewrite Ec. auto.
  - exists c, []. rewrite Ec. auto.
Qed.

Lemma fin2_conf S Sg st c :
  incl (drop_vals S) Sg ->
  match st with Some x => conforms Sg x | None => sends KVal S = false end ->
  conforms S (fst c) ->
  exists c' t, fin2_handle st c = ([c'], t) /\ conforms Sg (fst c') /\ ~ In OUb t.
Proof.
  intros Hi Hst Hc. unfold fin2_handle.
  destruct (fst c) as [vs| e |] eqn:Ec.
  - destruct st.
    + eexists _, _. split; [reflexivity|]. simpl; auto.
    + apply sends_conforms in Hc. simpl in Hc. congruence.
  - exists c, []. split; auto. rewrite Ec. split; auto.
    eapply conforms_incl; [apply conforms_drop_vals; eauto; simpl; congruence|auto].
  - exists c, []. split; auto. rewrite Ec. split; auto.
    eapply conforms_incl; [apply conforms_drop_vals; eauto; simpl; congruence|auto].
Qed.

Lemma con2_conf S Sg st c :
  incl (drop_vals S) Sg -> conforms Sg st -> conforms S (fst c) ->
  exists c' t, con2_handle st c = ([c'], t) /\ conforms Sg (fst c') /\ ~ In OUb t.
Proof.
  intros Hi Hst Hc. unfold con2_handle.
  destruct (fst c) as [vs| e |] eqn:Ec.
  - eexists _, _. split; [reflexivity|]. simpl; auto.
  - exists c, []. split; auto. rewrite Ec. split; auto.
    eapply conforms_incl; [apply conforms_drop_vals; eauto; simpl; congruence|auto].
  - exists c, []. split; auto. rewrite Ec. split; auto.
    eapply conforms_incl; [apply conforms_drop_vals; eauto; simpl; congruence|auto].
Qed.

(** let_* *)
Lemma let_next_ok k fid lt thr f mk S Sg start2 c o :
  incl (let_sigs k lt S) Sg ->
  (forall sg vs, In sg S -> sig_chan sg = k -> Forall2 has_ty vs (sig_args sg) ->
     (forall e, thr vs = Some e -> l_nothrow lt (sig_args sg) = false) /\
     wt (f vs) /\ incl (csigs (f vs)) (l_sigs lt (sig_args sg))) ->
  (forall vs x, wt (f vs) -> okres (csigs (f vs)) (start2 vs x)) ->
  (forall o, live (mk o) = live o) ->
  conforms S (fst c) -> live o = false ->
  okres Sg (let_next k fid thr start2 mk c o).
Proof.
  intros Hi Hf Hst Hmk [s [Hs Hm]] Hl. unfold let_next.
  rewrite <- (matches_chan _ _ Hm).
  destruct (chan_eqb (sig_chan s) k) eqn:E.
  - pose proof (proj1 (chan_eqb_eq _ _) E) as E'.
    destruct (Hf s _ Hs E' (matches_args _ _ Hm)) as [H1 [H2 H3]].
    destruct (thr (compl_args (fst c))) as [e|] eqn:Et.
    + apply okres_done; simpl; [|rewrite Hmk; auto|intuition congruence].
      apply conforms_eptr. apply Hi. apply in_flat_map. exists s. split; auto.
      rewrite E, (H1 _ eq_refl). apply in_or_app. simpl; auto.
    + rewrite (destroy_dead _ Hl). simpl.
      specialize (Hst _ (snd c) H2).
      assert (Hok : okres Sg (start2 (compl_args (fst c)) (snd c))).
      { eapply okres_incl; eauto. intros x Hx. apply Hi. apply in_flat_map. exists s.
        split; auto. rewrite E. apply in_or_app; auto. }
      destruct Hok as [Hub Hok]. split; simpl; [intuition congruence|exact Hok].
  - apply okres_done; auto; [|rewrite Hmk; auto].
    exists s. split; auto. apply Hi. apply in_flat_map. exists s. split; auto.
    rewrite E. simpl; auto.
Qed.

Lemma seq_next_ok cthr cnt mk S S2 Sg start2 c o :
  incl (seq_sigs cnt S S2) Sg ->
  (forall e, cthr = Some e -> cnt = false) ->
  (forall x, okres S2 (start2 x)) ->
  (forall o, live (mk o) = live o) ->
  conforms S (fst c) -> live o = false ->
  okres Sg (seq_next cthr start2 mk c o).
Proof.
  intros Hi Hf Hst Hmk Hc Hl. unfold seq_next, seq_sigs in *.
  assert (Hfwd : compl_chan (fst c) <> KVal -> okres Sg (fwd mk c o)).
  { intros Hn. apply okres_done; auto; [|rewrite Hmk; auto].
    assert (Hd := conforms_drop_vals Hc Hn).
    destruct (sends KVal S).
    - eapply conforms_incl; [exact Hd|]. eapply incl_tran; [|exact Hi].
      intros x Hx. apply in_or_app; auto.
    - exact (conforms_incl Hc Hi). }
  destruct (fst c) as [vs| e |] eqn:Ec; try (apply Hfwd; simpl; congruence).
  apply sends_conforms in Hc. simpl in Hc. rewrite Hc in Hi.
  destruct cthr as [e|].
  - apply okres_done; simpl; [|rewrite Hmk; auto|auto].
    apply conforms_eptr. apply Hi. rewrite !in_app_iff. rewrite (Hf _ eq_refl). simpl; auto.
  - rewrite (destroy_dead _ Hl).
    assert (Hok : okres Sg (start2 (snd c))).
    { eapply okres_incl; eauto. intros x Hx. apply Hi. rewrite !in_app_iff. auto. }
    destruct Hok as [Hub Hok]. split; simpl; auto.
Qed.

Lemma decay_args_incl k S : incl S (decay_args k S).
Proof.
  intros s Hs. apply in_flat_map. exists s. split; auto.
  destruct (chan_eqb _ _); simpl; auto.
Qed.

Lemma decay_args_eptr k S s :
  In s S -> sig_chan s = k -> forallb nt (sig_args s) = false -> In eptr_sig (decay_args k S).
Proof.
  intros Hs Hk Hn. apply in_flat_map. exists s. split; auto.
  rewrite (proj2 (chan_eqb_eq _ _) Hk), Hn. simpl; auto.
Qed.

Lemma fin_next_ok cp S S2 Sg start2 c o :
  incl (fin_sigs S S2) Sg -> fin_cp_ok cp S ->
  (forall x, okres S2 (start2 x)) ->
  conforms S (fst c) -> live o = false ->
  okres Sg (fin_next cp (sends KVal S2) start2 c o).
Proof.
  intros Hi Hcp Hst Hc Hl. unfold fin_next, fin_sigs in *.
  rewrite (destroy_dead _ Hl).
  assert (Hrun : forall st,
    incl (drop_vals S2) Sg ->
    match st with Some x => conforms Sg x | None => sends KVal S2 = false end ->
    okres Sg (wrap (OFin2 st) (fin2_handle st) (start2 (snd c)))).
  { intros st Hd Hs. eapply wrap_ok; [apply (Hst (snd c))|reflexivity| |].
    - intros o' Ho'. simpl. exists S2. auto.
    - intros c' Hc'. eapply fin2_conf; eauto. }
  destruct (sends KVal S2) eqn:E.
  - destruct (cp (fst c)) eqn:Ecp.
    + apply okres_done; simpl; auto.
      destruct (Hcp _ _ Hc Ecp) as (ts & Hts & Hm & Hn).
      apply conforms_eptr. apply Hi. apply in_or_app. left.
      apply decay_args_eptr with (SVal ts); auto.
    + destruct (Hrun (Some (fst c))) as [Hub Hok].
      * intros x Hx. apply Hi. apply in_or_app; auto.
      * eapply conforms_incl; [exact Hc|]. intros x Hx. apply Hi. apply in_or_app. left.
        apply decay_args_incl; auto.
      * split; auto.
  - destruct (Hrun None) as [Hub Hok]; auto; [|split; auto].
    intros x Hx. apply Hi. apply in_or_app. right. apply drop_vals_incl; auto.
Qed.

Lemma all_nt_false S s : In s S -> forallb nt (sig_args s) = false -> all_nt S = false.
Proof.
  intros Hs Hn. unfold all_nt. destruct (forallb _ S) eqn:E; auto.
  rewrite forallb_forall in E. specialize (E _ Hs). congruence.
Qed.

Lemma con_next_ok cp sch sg e mk S Sg c o :
  incl (cont_sigs (SVal [] :: sg) S) Sg -> cp_ok cp S ->
  (forall o, live (mk o) = live o) ->
  conforms S (fst c) -> live o = false ->
  okres Sg (con_next cp sch sg e mk c o).
Proof.
  intros Hi Hcp Hmk Hc Hl. unfold con_next, cont_sigs in *.
  assert (HS : incl S (decay_args KErr (decay_args KVal S))).
  { eapply incl_tran; apply decay_args_incl. }
  destruct (cp (fst c)) eqn:Ecp.
  - apply okres_done; simpl; [|rewrite Hmk; auto|auto].
    destruct (Hcp _ _ Hc Ecp) as (s & Hs & Hm & Hn).
    apply conforms_eptr. apply Hi. rewrite !in_app_iff. right; right.
    rewrite (@all_nt_false _ s); auto. simpl; auto.
  - rewrite (destroy_dead _ Hl). split; auto. left. simpl. split; auto. split; auto.
    exists (SVal [] :: drop_vals sg). split; [apply incl_refl|]. split.
    + intros x Hx. apply Hi. rewrite !in_app_iff. right; left.
      unfold drop_vals in *. simpl in *. apply filter_In in Hx. destruct Hx as [Hx _].
      exact Hx.
    + eapply conforms_incl; [exact Hc|]. intros x Hx. apply Hi. apply in_or_app; auto.
Qed.

(** repeat_until / repeat_n *)
Lemma rep_child_ok cthr2 cnt s e x :
  wt s -> (forall y, cthr2 = Some y -> cnt = false) ->
  opok (seq_sigs cnt (SVal [] :: tramp_sg) (csigs s)) (rep_child cthr2 cnt s e x) /\
  live (rep_child cthr2 cnt s e x) = true.
Proof.
  intros Hw Ht. split; auto. simpl. exists (SVal [] :: tramp_sg).
  split; [apply incl_refl|]. split; auto. split; auto. apply incl_refl.
Qed.

Lemma rep_child_sig cnt S s :
  In s (seq_sigs cnt (SVal [] :: tramp_sg) S) -> s = SStop \/ In s S \/ (s = eptr_sig /\ cnt = false).
Proof.
  unfold seq_sigs, tramp_sg. simpl. intros [H|H]; auto.
  apply in_app_or in H. destruct H as [H|H]; auto.
  destruct cnt; simpl in H; [tauto|]. destruct H; auto; tauto.
Qed.

Lemma rep_next_ok cthr cthr2 cp cnt s e k Sg c o :
  wt (RepeatUntil cthr cthr2 cp cnt s) -> incl (rep_sigs cnt (csigs s)) Sg ->
  conforms (seq_sigs cnt (SVal [] :: tramp_sg) (csigs s)) (fst c) -> live o = false ->
  okres Sg (rep_next cthr cthr2 cp cnt s e k c o).
Proof.
  intros Hwt Hi [sg [Hs Hm]] Hl. pose proof Hwt as (Hw & Hb & H1 & H2 & H3 & H4).
  unfold rep_next, rep_sigs in *. rewrite (destroy_dead _ Hl).
  apply rep_child_sig in Hs.
  destruct (fst c) as [vs|x|] eqn:Ec.
  - destruct sg; simpl in Hm; try tauto.
    destruct Hs as [Hs|[Hs|[Hs _]]]; try discriminate.
    destruct (forallb _ vs).
    + apply okres_done; simpl; auto. exists (SVal []). split; [|simpl; constructor].
      apply Hi. rewrite in_app_iff. left. apply in_flat_map. exists (SVal ts). simpl; auto.
    + destruct (cthr (S k)) eqn:Et.
      * apply okres_done; simpl; auto. apply conforms_eptr. apply Hi.
        rewrite !in_app_iff, (H1 _ _ Et). simpl; auto.
      * split; auto. left. simpl. split; auto. split; auto. split; [exact Hwt|]. split; auto.
        apply rep_child_ok; eauto.
  - destruct sg; simpl in Hm; try tauto.
    destruct Hs as [Hs|[Hs|[Hs Hcnt]]]; try discriminate.
    + destruct (cp x) eqn:Ex.
      * apply okres_done; simpl; auto. apply conforms_eptr. apply Hi. rewrite in_app_iff. left.
        apply in_flat_map. exists (SErr t). split; auto. rewrite (H3 _ _ _ Hs Hm Ex). simpl; auto.
      * apply okres_done; auto. rewrite Ec. exists (SErr t). split; auto.
        apply Hi. rewrite in_app_iff. left. apply in_flat_map. exists (SErr t). simpl; auto.
    + injection Hs as ->. destruct (cp x) eqn:Ex.
      * exfalso; eauto.
      * apply okres_done; auto. rewrite Ec. exists eptr_sig. split; auto.
        apply Hi. rewrite !in_app_iff, Hcnt. simpl; auto.
  - apply okres_done; auto. rewrite Ec. exists SStop. split; simpl; auto. apply Hi.
    rewrite !in_app_iff. simpl; auto.
Qed.

Lemma repn_next_ok cthr cthr2 cp cnt s e k Sg c o :
  wt (RepeatN cthr cthr2 cp cnt 1 s) -> incl (repn_sigs cnt (csigs s)) Sg ->
  conforms (seq_sigs cnt (SVal [] :: tramp_sg) (csigs s)) (fst c) -> live o = false ->
  okres Sg (repn_next cthr cthr2 cp cnt s e k c o).
Proof.
  intros Hwt Hi [sg [Hs Hm]] Hl. pose proof Hwt as (_ & Hw & Hb & H1 & H2 & H3 & H4).
  unfold repn_next, repn_sigs in *. rewrite (destroy_dead _ Hl).
  pose proof (rep_child_sig Hs) as Hs'.
  assert (Hsg : In sg Sg).
  { apply Hi. apply in_or_app. left. apply decay_args_incl; auto. }
  destruct (fst c) as [vs|x|] eqn:Ec.
  - destruct sg; simpl in Hm; try tauto.
    destruct Hs' as [Hs'|[Hs'|[Hs' _]]]; try discriminate.
    rewrite (Hb _ Hs') in *.
    destruct (k - 1).
    + apply okres_done; simpl; auto. exists (SVal []). split; auto. constructor.
    + destruct (cthr (S n)) eqn:Et.
      * apply okres_done; simpl; auto. apply conforms_eptr. apply Hi.
        rewrite !in_app_iff, (H1 _ _ Et). simpl; auto.
      * split; auto. left. simpl. split; auto. split; auto. split; [exact Hwt|]. split; auto.
        apply rep_child_ok; eauto.
  - destruct sg; simpl in Hm; try tauto.
    destruct (cp x) eqn:Ex.
    + apply okres_done; simpl; auto. apply conforms_eptr. apply Hi. rewrite in_app_iff. left.
      destruct Hs' as [Hs'|[Hs'|[Hs' Hcnt]]]; try discriminate.
      * apply decay_args_eptr with (SErr t); auto. simpl. rewrite (H3 _ _ _ Hs' Hm Ex); auto.
      * injection Hs' as ->. exfalso; eauto.
    + apply okres_done; auto. rewrite Ec. exists (SErr t). auto.
  - apply okres_done; auto. rewrite Ec. exists sg. auto.
Qed.
