(** * StopLog: facts about the event history, on top of the invariant. *)

From Coq Require Import List Arith Bool Lia.
From Verif Require Import StopModel StopProofs StopSteps.
Import ListNotations.
Set Implicit Arguments.

Definition is_invoke (c : cb) (e : event) : bool :=
  match e with EvInvoke _ c' _ => c' =? c | _ => false end.
Definition is_win (e : event) : bool := match e with EvRet _ true => true | _ => false end.
Fixpoint count (p : event -> bool) (l : list event) : nat :=
  match l with [] => 0 | e :: l => (if p e then 1 else 0) + count p l end.

Definition ran (p : phase) : nat := match p with GExec | GDone | GInl => 1 | _ => 0 end.
Definition constructed (l : lifetime) : Prop :=
  match l with LLive | LInl | LDel _ | LDead => True | _ => False end.

Definition del_started (l : lifetime) : Prop := match l with LDel _ | LDead => True | _ => False end.

Record LInv (s : state) (g : ghost) : Prop := {
  l_inv : forall c, count (is_invoke c) (log s) = ran (ph g c);
  l_win : count is_win (log s) = match ntf g with NFin _ => 1 | _ => 0 end;
  l_ret : forall t b, In (EvRet t b) (log s) -> stopb s = true;
  l_ds : forall t c, In (EvDelStart t c) (log s) -> del_started (life s c);
  l_dd : forall t c, In (EvDelDone t c) (log s) -> life s c = LDead;
  l_inl : forall t c, In (EvInvoke t c true) (log s) -> ph g c = GInl /\
            (life s c = LReg t \/ constructed (life s c));
  l_not : forall t c, In (EvInvoke t c false) (log s) -> notif s = Some t /\ (ph g c = GExec \/ ph g c = GDone);
  l_rs : forall t c, In (EvRegStart t c true) (log s) -> (ph g c = GOut \/ ph g c = GInl) /\ stopb s = true;
  l_rd : forall t c, In (EvRegDone t c) (log s) -> constructed (life s c);
  l_iinl : forall c, ph g c = GInl -> stopb s = true;
  l_aft : forall t c, In (FReqAfter c) (thr s t) \/ In (FReqCompl c) (thr s t) -> In (EvInvokeEnd t c) (log s);
  l_end : forall t c b, In (EvInvoke t c b) (log s) -> ph g c = GDone \/ (ph g c = GInl /\ constructed (life s c)) ->
          In (EvInvokeEnd t c) (log s) }.

Lemma LInv_init : LInv init ginit.
Proof. constructor; simpl; intuition; discriminate. Qed.

Lemma log_pop s c : log (pop_head s c) = log s.
Proof. unfold pop_head; simpl. destruct (next s c); reflexivity. Qed.
Lemma life_pop s c : life (pop_head s c) = life s.
Proof. unfold pop_head; simpl. destruct (next s c); reflexivity. Qed.
Lemma stopb_pop s c : stopb (pop_head s c) = stopb s.
Proof. unfold pop_head; simpl. destruct (next s c); reflexivity. Qed.
Lemma notif_pop s c : notif (pop_head s c) = notif s.
Proof. unfold pop_head; simpl. destruct (next s c); reflexivity. Qed.
Lemma thr_pop s c : thr (pop_head s c) = thr s.
Proof. unfold pop_head; simpl. destruct (next s c); reflexivity. Qed.
Lemma log_push s c : log (push_front s c) = log s.
Proof. unfold push_front; simpl. destruct (head s); reflexivity. Qed.
Lemma life_push s c : life (push_front s c) = life s.
Proof. unfold push_front; simpl. destruct (head s); reflexivity. Qed.
Lemma stopb_push s c : stopb (push_front s c) = stopb s.
Proof. unfold push_front; simpl. destruct (head s); reflexivity. Qed.
Lemma notif_push s c : notif (push_front s c) = notif s.
Proof. unfold push_front; simpl. destruct (head s); reflexivity. Qed.
Lemma thr_push s c : thr (push_front s c) = thr s.
Proof. unfold push_front; simpl. destruct (head s); reflexivity. Qed.
Ltac unl := unfold unlink; simpl;
  match goal with |- context [prevp ?s ?c] => destruct (prevp s c); simpl end;
  repeat match goal with |- context [match ?x with _ => _ end] => destruct x; simpl end; reflexivity.
Lemma log_unl s c : log (unlink s c) = log s. Proof. unl. Qed.
Lemma life_unl s c : life (unlink s c) = life s. Proof. unl. Qed.
Lemma stopb_unl s c : stopb (unlink s c) = stopb s. Proof. unl. Qed.
Lemma notif_unl s c : notif (unlink s c) = notif s. Proof. unl. Qed.
Lemma thr_unl s c : thr (unlink s c) = thr s. Proof. unl. Qed.
#[local] Hint Rewrite log_pop life_pop stopb_pop notif_pop thr_pop log_push life_push stopb_push notif_push
  thr_push log_unl life_unl stopb_unl notif_unl thr_unl : stopf.

Ltac norm := simpl; autorewrite with stopf; simpl.


Ltac fwd := repeat match goal with
  | H : @eq event _ _ \/ _ |- _ => destruct H as [H|H]; [try discriminate H; inversion H; subst; clear H|]
  | Hi : In ?e (log ?s), H : forall t b, In (EvRet t b) (log ?s) -> _ |- _ => 
      match e with EvRet _ _ => pose proof (H _ _ Hi); revert Hi end
  | Hi : In ?e (log ?s), H : forall t c, In (EvDelStart t c) (log ?s) -> _ |- _ => 
      match e with EvDelStart _ _ => pose proof (H _ _ Hi); revert Hi end
  | Hi : In ?e (log ?s), H : forall t c, In (EvDelDone t c) (log ?s) -> _ |- _ => 
      match e with EvDelDone _ _ => pose proof (H _ _ Hi); revert Hi end
  | Hi : In ?e (log ?s), H : forall t c, In (EvInvoke t c true) (log ?s) -> _ |- _ => 
      match e with EvInvoke _ _ true => pose proof (H _ _ Hi); revert Hi end
  | Hi : In ?e (log ?s), H : forall t c, In (EvInvoke t c false) (log ?s) -> _ |- _ => 
      match e with EvInvoke _ _ false => pose proof (H _ _ Hi); revert Hi end
  | Hi : In ?e (log ?s), H : forall t c, In (EvRegStart t c true) (log ?s) -> _ |- _ => 
      match e with EvRegStart _ _ true => pose proof (H _ _ Hi); revert Hi end
  | Hi : In ?e (log ?s), H : forall t c, In (EvRegDone t c) (log ?s) -> _ |- _ => 
      match e with EvRegDone _ _ => pose proof (H _ _ Hi); revert Hi end
  end; intros.
Ltac lrw := repeat match goal with
  | E : life ?s ?c = _, H : context [life ?s ?c] |- _ => match H with E => fail 1 | _ => rewrite E in H; simpl in H end
  | E : life ?s ?c = _ |- context [life ?s ?c] => rewrite E; simpl
  end.
Ltac gen := intros; fwd; try solve [auto]; sets; lrw; simpl in *;
  solve [intuition (eauto; congruence)].
Ltac cnt := let c0 := fresh "c" in
  intros;
  repeat match goal with E : ntf ?g = _, H : context [ntf ?g] |- _ =>
           match H with E => fail 1 | _ => rewrite E in H end end;
  match goal with
  | H1 : forall c, count (is_invoke c) (log ?s) = _ |- context [count (is_invoke ?c0) (log ?s)] =>
      pose proof (H1 c0); sets; try congruence; 
      repeat match goal with E : ph ?g ?c = _, H : context [ph ?g ?c] |- _ => match H with E => fail 1 | _ => rewrite E in H end end;
      simpl in *; first [lia|congruence]
  | H2 : count is_win (log ?s) = _ |- context [count is_win (log ?s)] =>
      rewrite H2; simpl; first [reflexivity | match goal with |- context [ntf ?g] => destruct (ntf g); simpl in *; solve [congruence | intuition congruence] end
        | match goal with Hst : stopb ?s = match ntf ?g with _ => _ end |- _ => destruct (ntf g); simpl in *; congruence end]
  end.
Ltac aft := let t0 := fresh "t" in let c0 := fresh "c" in let Hx := fresh "Hx" in
  intros t0 c0 Hx; sets; simpl in Hx;
  intuition (try discriminate;
    try match goal with E : FReqAfter _ = FReqAfter _ |- _ => inversion E; subst
                      | E : FReqCompl _ = FReqCompl _ |- _ => inversion E; subst end; eauto 8 using in_eq).
Ltac endt := let t0 := fresh "t" in let c0 := fresh "c" in let b0 := fresh "b" in
  let Hi := fresh "Hi" in let Hc := fresh "Hc" in
  intros t0 c0 b0 Hi Hc; fwd; repeat right;
  match goal with H12 : forall t c b, In (EvInvoke t c b) (log ?s) -> _ |- _ => eapply H12; [eassumption|] end;
  sets; lrw; simpl in *; intuition congruence.
Ltac endx := let t0 := fresh "t" in let c0 := fresh "c" in let b0 := fresh "b" in
  let Hi := fresh "Hi" in let Hc := fresh "Hc" in
  intros t0 c0 b0 Hi Hc; fwd;
  match goal with Hi : In (EvInvoke _ _ ?b) _ |- _ => destruct b end; fwd; sets; lrw; simpl in *;
  intuition (try congruence; repeat match goal with E : Some _ = Some _ |- _ => inversion E; subst; clear E end; eauto 6 using in_eq).

#[local] Opaque pop_head push_front unlink.

Lemma LInv_step s g t a s' : Inv s g -> LInv s g -> step t a s = Some s' -> LInv s' (gstep t a s g).
Proof.
  intros HI HL Hs.
  pose proof (l_inv HL) as H1. pose proof (l_win HL) as H2. pose proof (l_ret HL) as H3.
  pose proof (l_ds HL) as H4. pose proof (l_dd HL) as H5. pose proof (l_inl HL) as H6.
  pose proof (l_not HL) as H7. pose proof (l_rs HL) as H8. pose proof (l_rd HL) as H9.
  pose proof (l_iinl HL) as H10. pose proof (l_aft HL) as H11. pose proof (l_end HL) as H12.
  pose proof (i_life HI) as Hlf. pose proof (i_stop HI) as Hst. pose proof (i_ntf HI) as Hnt.
  pose proof (i_frames HI t) as Hfr. pose proof (i_run HI) as Hrun. pose proof (i_cur HI) as Hcur.
  assert (Hgin : forall c, head s = Some c -> ph g c = GIn).
  { intros c E. apply (i_in HI). pose proof (i_seg HI) as Hsg. apply seg_head in Hsg. apply first_in; congruence. }
  pose proof (i_prev HI) as Hpv.
  clear HI HL.
  assert (H11a : forall t c, In (FReqAfter c) (thr s t) -> In (EvInvokeEnd t c) (log s)) by auto.
  assert (H11b : forall t c, In (FReqCompl c) (thr s t) -> In (EvInvokeEnd t c) (log s)) by auto.
  clear H11. pose proof (H11a t) as Hta. pose proof (H11b t) as Htb.
  destruct a; simpl in Hs; simpl gstep.
  - destruct (at_user (thr s t)) eqn:Hau; [|discriminate]. inversion Hs; subst s'; clear Hs.
    constructor; norm; auto; try solve [cnt]; try gen; try solve [aft]; try solve [endt]; try solve [endx].
  - destruct (at_user (thr s t)) eqn:Hau; [|discriminate].
    pose proof (Hlf c) as Hlc. destruct (life s c) eqn:Elc; try discriminate. simpl in Hlc.
    inversion Hs; subst s'; clear Hs.
    constructor; norm; auto; try solve [cnt]; try gen; try solve [aft]; try solve [endt]; try solve [endx].
  - destruct (at_user (thr s t)) eqn:Hau; [|discriminate].
    pose proof (Hlf c) as Hlc. destruct (life s c) eqn:Elc; try discriminate; simpl in Hlc;
    inversion Hs; subst s'; clear Hs;
    constructor; norm; auto; try solve [cnt]; try gen; try solve [aft]; try solve [endt]; try solve [endx].
  - destruct (thr s t) as [|[] fs] eqn:Et; try discriminate.
    + pose proof (Hfr _ (or_introl eq_refl)) as (E1 & E2 & E3 & E4). simpl in Hs.
    unfold ntf_ok in Hnt; rewrite E1 in Hnt.
    destruct (rvar s) as [[]|] eqn:Erv; inversion Hs; subst s'; clear Hs; constructor; norm; auto; try solve [cnt]; try gen; try solve [aft]; try solve [endt]; try solve [endx].
    + pose proof (Hfr _ (or_introl eq_refl)) as (E1 & E2). inversion Hs; subst s'; clear Hs; constructor; norm; auto; try solve [cnt]; try gen; try solve [aft]; try solve [endt]; try solve [endx].
  - destruct (thr s t) as [|f fs] eqn:Et; try discriminate. pose proof (Hfr _ (or_introl eq_refl)) as Hf0.
    clear Hfr.
    assert (Hta' : forall c, In (FReqAfter c) fs -> In (EvInvokeEnd t c) (log s)) by (intros; apply Hta; simpl; auto).
    assert (Htb' : forall c, In (FReqCompl c) fs -> In (EvInvokeEnd t c) (log s)) by (intros; apply Htb; simpl; auto).
    destruct f; simpl in Hf0; try discriminate.
    all: repeat match goal with H : _ /\ _ |- _ => destruct H end.
    all: repeat match goal with
      | H : (if ?b then _ else _) = Some _ |- _ => destruct b eqn:?; try discriminate
      | H : match ?b with _ => _ end = Some _ |- _ => destruct b eqn:?; try discriminate end.
    all: inversion Hs; subst s'; clear Hs.
    all: unfold ntf_ok in Hnt; repeat match goal with E : ntf ?g = _, H : context [ntf ?g] |- _ =>
           match H with E => fail 1 | _ => rewrite E in H end end.
    all: repeat match goal with |- context [if rptr ?s ?c then _ else _] => destruct (rptr s c) end.
    all: repeat match goal with |- context [match rvar ?s with _ => _ end] => destruct (rvar s) end.
    all: try match goal with H : forall c, Some ?c0 = Some c -> @?P c |- _ => pose proof (H _ eq_refl) end.
    all: try match goal with E : prevp ?s ?c = _, Hpv : forall c, popped (ph ?g c) -> _, H : ph ?g ?c = GIn \/ popped (ph ?g ?c) |- _ =>
           assert (ph g c = GIn) by (destruct H as [H|H]; [exact H|apply Hpv in H; congruence]) end.
    all: constructor; norm; auto; try solve [cnt]; try solve [gen]; try solve [aft]; try solve [endt]; try solve [endx].
    (* FReqCompl: the function has returned *)
    intros t0 c0 b Hi Hc. destruct (Nat.eq_dec c0 c) as [->|Hne].
    + destruct b; [destruct (H6 _ _ Hi); congruence|]. destruct (H7 _ _ Hi) as [Hn _].
      assert (t0 = t) by congruence; subst. apply Htb; simpl; auto.
    + rewrite set_neq in Hc by auto. eauto.
Qed.

Lemma LInv_reach s g : greach s g -> LInv s g.
Proof. induction 1; [apply LInv_init|eapply LInv_step; eauto using Inv_reach]. Qed.

