(** * StopSteps: the invariant is preserved by the steps of the API functions. *)

From Coq Require Import List Arith Bool Lia.
From Verif Require Import StopModel StopProofs.
Import ListNotations.
Set Implicit Arguments.

Ltac inv_con := constructor; simpl; auto; try (unfold ntf_ok in *; simpl; solve [auto]).

Lemma Inv_FReq0 s g t  fs s' : Inv s g -> thr s t = FReq0 :: fs -> step t AStep s = Some s' ->
  Inv s' (gstep t AStep s g).
Proof.
  intros HI Et Hs.
  pose proof (i_frames HI) as Hfr. pose proof (i_tail HI) as Htl. pose proof (i_keys HI) as Hky.
  pose proof (i_own HI) as Hown. pose proof (i_run HI) as Hrun. pose proof (i_lock HI) as Hlk.
  pose proof (i_stop HI) as Hst. pose proof (i_seg HI) as Hseg. pose proof (i_nd HI) as Hnd.
  pose proof (i_in HI) as Hin. pose proof (i_life HI) as Hlf. pose proof (i_cur HI) as Hcur.
  pose proof (i_ntf HI) as Hnt. pose proof (i_prev HI) as Hpv. pose proof (i_rptr HI) as Hrp.
  pose proof (i_compl HI) as Hco. pose proof (i_done HI) as Hdo. pose proof (i_rv HI) as Hrv.
  pose proof (i_ub HI) as Hub. pose proof (i_reg HI) as Hreg. pose proof (i_del HI) as Hdel.
  pose proof (Hfr t) as Hft. pose proof (Hky t) as Hkt. pose proof (fun f fs E => Htl t f fs E) as Htt.
  simpl in Hs; simpl gstep. rewrite Et in Hft, Hkt, Htt, Hs |- *.
  pose proof (Htt _ _ eq_refl) as Hfs. pose proof (Hft _ (or_introl eq_refl)) as Hf0.
  pose proof (fun f (H : In f fs) => Hft f (or_intror H)) as Hff. clear Htt.
  pose proof (fun f' k => @key_top _ fs f' k Hkt) as Hkn. simpl in Hf0, Hkn.
  destruct (stopb s) eqn:Estop.
  { inversion Hs; subst s'; clear Hs. inv_con; try congruence.
  + intros t' f Hf. stk Hf.
    * pose proof (Hff _ Hf). pose proof (Hfs _ Hf). fsolve f.
    * specialize (Hfr _ _ Hf). fsolve f.
  + rep_tail.
  + rep_keys.
  + rep_own_same.
  + rep_run.
  + rep_reg.
  + rep_del. }
  destruct (lockb s) eqn:Elock; [discriminate|]. inversion Hs; subst s'; clear Hs.
  destruct (own g) eqn:Eown; [discriminate|].
  unfold ntf_ok in Hnt. destruct (ntf g) eqn:Entf; try discriminate. destruct Hnt as [Hn1 Hn2].
  inv_con.
  + intros t' f Hf. stk Hf.
    * destruct Hf as [<-|Hf]; [simpl; rewrite ?set_eq; auto 10|]. pose proof (Hff _ Hf). pose proof (Hfs _ Hf). fsolve f.
    * specialize (Hfr _ _ Hf). fsolve f.
  + rep_tail.
  + intros t'. sets; simpl; auto. simpl in Hkt. constructor; auto. intro Hk.
    apply in_keys in Hk as (f & Hf & Hk). pose proof (Hff _ Hf). pose proof (Hfs _ Hf). fsolve f.
  + own_now.
  + run_now.
  + intros c H. destruct (Hcur _ H) as (? & ?); congruence.
  + rep_reg.
  + rep_del.
Qed.

Lemma Inv_FReqSet s g t  fs s' : Inv s g -> thr s t = FReqSet :: fs -> step t AStep s = Some s' ->
  Inv s' (gstep t AStep s g).
Proof.
  intros HI Et Hs.
  pose proof (i_frames HI) as Hfr. pose proof (i_tail HI) as Htl. pose proof (i_keys HI) as Hky.
  pose proof (i_own HI) as Hown. pose proof (i_run HI) as Hrun. pose proof (i_lock HI) as Hlk.
  pose proof (i_stop HI) as Hst. pose proof (i_seg HI) as Hseg. pose proof (i_nd HI) as Hnd.
  pose proof (i_in HI) as Hin. pose proof (i_life HI) as Hlf. pose proof (i_cur HI) as Hcur.
  pose proof (i_ntf HI) as Hnt. pose proof (i_prev HI) as Hpv. pose proof (i_rptr HI) as Hrp.
  pose proof (i_compl HI) as Hco. pose proof (i_done HI) as Hdo. pose proof (i_rv HI) as Hrv.
  pose proof (i_ub HI) as Hub. pose proof (i_reg HI) as Hreg. pose proof (i_del HI) as Hdel.
  pose proof (Hfr t) as Hft. pose proof (Hky t) as Hkt. pose proof (fun f fs E => Htl t f fs E) as Htt.
  simpl in Hs; simpl gstep. rewrite Et in Hft, Hkt, Htt, Hs |- *.
  pose proof (Htt _ _ eq_refl) as Hfs. pose proof (Hft _ (or_introl eq_refl)) as Hf0.
  pose proof (fun f (H : In f fs) => Hft f (or_intror H)) as Hff. clear Htt.
  pose proof (fun f' k => @key_top _ fs f' k Hkt) as Hkn. simpl in Hf0, Hkn.
  destruct Hf0 as (E1 & E2). inversion Hs; subst s'; clear Hs.
  assert (Hnr : forall f, In f fs -> is_run f = false).
  { intros f Hf. specialize (Hkn f None eq_refl Hf). destruct f; simpl in *; congruence. }
  unfold ntf_ok in Hnt. rewrite E2 in Hnt, Hst. destruct Hnt as [Hn1 Hn2].
  inv_con.
  + intros t' f Hf. stk Hf.
    * destruct Hf as [<-|Hf]; [simpl; rewrite ?set_eq; auto 10|]. pose proof (Hff _ Hf). pose proof (Hnr _ Hf). pose proof (Hfs _ Hf). fsolve f.
    * specialize (Hfr _ _ Hf). pose proof Hn2 as Hn2'.
      destruct f; simpl in *; unfold popped in *; try specialize (Hn2' c); intuition congruence.
  + rep_tail.
  + rep_keys.
  + own_keep.
  + run_now.
  + intros c H. destruct (Hcur _ H) as (? & ?); congruence.
  + rep_reg.
  + rep_del.
Qed.

Lemma Inv_FReqLoop s g t  fs s' : Inv s g -> thr s t = FReqLoop :: fs -> step t AStep s = Some s' ->
  Inv s' (gstep t AStep s g).
Proof.
  intros HI Et Hs.
  pose proof (i_frames HI) as Hfr. pose proof (i_tail HI) as Htl. pose proof (i_keys HI) as Hky.
  pose proof (i_own HI) as Hown. pose proof (i_run HI) as Hrun. pose proof (i_lock HI) as Hlk.
  pose proof (i_stop HI) as Hst. pose proof (i_seg HI) as Hseg. pose proof (i_nd HI) as Hnd.
  pose proof (i_in HI) as Hin. pose proof (i_life HI) as Hlf. pose proof (i_cur HI) as Hcur.
  pose proof (i_ntf HI) as Hnt. pose proof (i_prev HI) as Hpv. pose proof (i_rptr HI) as Hrp.
  pose proof (i_compl HI) as Hco. pose proof (i_done HI) as Hdo. pose proof (i_rv HI) as Hrv.
  pose proof (i_ub HI) as Hub. pose proof (i_reg HI) as Hreg. pose proof (i_del HI) as Hdel.
  pose proof (Hfr t) as Hft. pose proof (Hky t) as Hkt. pose proof (fun f fs E => Htl t f fs E) as Htt.
  simpl in Hs; simpl gstep. rewrite Et in Hft, Hkt, Htt, Hs |- *.
  pose proof (Htt _ _ eq_refl) as Hfs. pose proof (Hft _ (or_introl eq_refl)) as Hf0.
  pose proof (fun f (H : In f fs) => Hft f (or_intror H)) as Hff. clear Htt.
  pose proof (fun f' k => @key_top _ fs f' k Hkt) as Hkn. simpl in Hf0, Hkn.
  destruct Hf0 as (E1 & E2).
  assert (Hnr : forall f, In f fs -> is_run f = false).
  { intros f Hf. specialize (Hkn f None eq_refl Hf). destruct f; simpl in *; congruence. }
  destruct (head s) as [c|] eqn:Eh.
  2:{ inversion Hs; subst s'; clear Hs.
  assert (El : lst g = []) by (destruct (lst g); auto; simpl in Hseg; intuition congruence).
  inv_con; try congruence.
  + intros t' f Hf. stk Hf.
    * destruct Hf as [<-|Hf]; [simpl; rewrite ?set_eq; auto 10|]. pose proof (Hff _ Hf). pose proof (Hfs _ Hf). fsolve f.
    * specialize (Hfr _ _ Hf). fsolve f.
  + rep_tail.
  + rep_keys.
  + own_keep.
  + rewrite E2. run_now.
  + rep_reg.
  + rep_del. }
  inversion Hs; subst s'; clear Hs.
  destruct (lst g) as [|c' l'] eqn:El; [simpl in Hseg; congruence|].
  pose proof Hseg as Hseg'. simpl in Hseg'. destruct Hseg' as (Hc & Hpc & Hseg').
  inversion Hc; subst c'. clear Hc. inversion Hnd as [|? ? Hnc Hnd']; subst.
  assert (Hphc : ph g c = GIn) by (apply Hin; simpl; auto).
  assert (Hex : forall x, In x (c :: l') -> exists_b (life s x) = true)
    by (intros x Hx; eapply in_exists; eauto; rewrite El; auto).
  pose proof (seg_head _ _ _ _ _ Hseg') as Hfl.
  rewrite pop_head_eq; auto.
  2:{ apply Hex; simpl; auto. }
  2:{ intros h Hh; apply Hex; right. apply first_in; congruence. }
  unfold ntf_ok in Hnt. rewrite E2 in Hnt, Hst.
  assert (Hpvx : forall x, x <> c -> ~ In x l' ->
    (match next s c with Some h => set (set (prevp s) c PNull) h PHead | None => set (prevp s) c PNull end) x = prevp s x).
  { intros x Hx Hnx. rewrite Hfl. destruct (first l') as [h|] eqn:En; [|apply set_neq; auto].
    rewrite set_neq; [apply set_neq; auto|].
    intro; subst. apply Hnx. apply first_in; auto. }
  inv_con.
  + intros t' f Hf. stk Hf.
    * destruct Hf as [<-|Hf]; [simpl; rewrite set_eq; auto|].
      pose proof (Hff _ Hf). pose proof (Hnr _ Hf). pose proof (Hfs _ Hf). fsolve f.
    * specialize (Hfr _ _ Hf). fsolve f.
  + rep_tail.
  + rep_keys.
  + own_keep.
  + run_now.
  + eapply seg_ext with (pv := match next s c with Some n => set (prevp s) n PHead | None => prevp s end);
      [| |eapply seg_reprev; eauto]; auto.
    intros x Hx. assert (x <> c) by (intro; subst; contradiction).
    destruct (next s c); sets; auto; congruence.
  + intros x. specialize (Hin x). simpl in Hin. sets; intuition congruence.
  + intros x. specialize (Hlf x). sets; auto. rewrite Hphc in Hlf. unfold life_ok, popped in *.
    destruct (life s c) eqn:Elc; intuition try congruence.
    exfalso. destruct (Hreg _ _ Elc) as (f & Hf & Hk). specialize (Hfr _ _ Hf).
    destruct f; simpl in *; try discriminate; inversion Hk; subst; intuition congruence.
  + intros x. specialize (Hcur x). sets; [eauto|]. intros H; destruct (Hcur H) as (? & ?); congruence.
  + intros x H. destruct (Nat.eq_dec x c) as [->|Hne].
    * rewrite Hfl. destruct (first l') as [h|] eqn:En; [|apply set_eq]. rewrite set_neq; [apply set_eq|].
      intro; subst. apply Hnc. apply first_in; auto.
    * rewrite set_neq in H by auto. rewrite Hpvx; auto.
      intro Hx. assert (ph g x = GIn) by (apply Hin; simpl; auto). unfold popped in H; intuition congruence.
  + intros x H. specialize (Hrp _ H). sets; auto. intuition congruence.
  + intros x H. specialize (Hco _ H). sets; auto. congruence.
  + intros x. specialize (Hdo x). sets; auto. discriminate.
  + intros x. specialize (Hrv x). sets; auto. discriminate.
  + rep_reg.
  + rep_del.
Qed.

Lemma Inv_FReqPopped s g t c fs s' : Inv s g -> thr s t = FReqPopped c :: fs -> step t AStep s = Some s' ->
  Inv s' (gstep t AStep s g).
Proof.
  intros HI Et Hs.
  pose proof (i_frames HI) as Hfr. pose proof (i_tail HI) as Htl. pose proof (i_keys HI) as Hky.
  pose proof (i_own HI) as Hown. pose proof (i_run HI) as Hrun. pose proof (i_lock HI) as Hlk.
  pose proof (i_stop HI) as Hst. pose proof (i_seg HI) as Hseg. pose proof (i_nd HI) as Hnd.
  pose proof (i_in HI) as Hin. pose proof (i_life HI) as Hlf. pose proof (i_cur HI) as Hcur.
  pose proof (i_ntf HI) as Hnt. pose proof (i_prev HI) as Hpv. pose proof (i_rptr HI) as Hrp.
  pose proof (i_compl HI) as Hco. pose proof (i_done HI) as Hdo. pose proof (i_rv HI) as Hrv.
  pose proof (i_ub HI) as Hub. pose proof (i_reg HI) as Hreg. pose proof (i_del HI) as Hdel.
  pose proof (Hfr t) as Hft. pose proof (Hky t) as Hkt. pose proof (fun f fs E => Htl t f fs E) as Htt.
  simpl in Hs; simpl gstep. rewrite Et in Hft, Hkt, Htt, Hs |- *.
  pose proof (Htt _ _ eq_refl) as Hfs. pose proof (Hft _ (or_introl eq_refl)) as Hf0.
  pose proof (fun f (H : In f fs) => Hft f (or_intror H)) as Hff. clear Htt.
  pose proof (fun f' k => @key_top _ fs f' k Hkt) as Hkn. simpl in Hf0, Hkn.
  destruct Hf0 as (E1 & E2 & E3). inversion Hs; subst s'; clear Hs.
  rewrite E2 in Hst. inv_con; try congruence.
  + intros t' f Hf. stk Hf.
    * destruct Hf as [<-|Hf]; [simpl; rewrite ?set_eq; auto 10|]. pose proof (Hff _ Hf). pose proof (Hfs _ Hf). fsolve f.
    * specialize (Hfr _ _ Hf). fsolve f.
  + rep_tail.
  + rep_keys.
  + rewrite E2. run_now.
  + rewrite E2; auto.
  + rep_reg.
  + rep_del.
Qed.

Lemma Inv_FReqUnlk s g t c fs s' : Inv s g -> thr s t = FReqUnlk c :: fs -> step t AStep s = Some s' ->
  Inv s' (gstep t AStep s g).
Proof.
  intros HI Et Hs.
  pose proof (i_frames HI) as Hfr. pose proof (i_tail HI) as Htl. pose proof (i_keys HI) as Hky.
  pose proof (i_own HI) as Hown. pose proof (i_run HI) as Hrun. pose proof (i_lock HI) as Hlk.
  pose proof (i_stop HI) as Hst. pose proof (i_seg HI) as Hseg. pose proof (i_nd HI) as Hnd.
  pose proof (i_in HI) as Hin. pose proof (i_life HI) as Hlf. pose proof (i_cur HI) as Hcur.
  pose proof (i_ntf HI) as Hnt. pose proof (i_prev HI) as Hpv. pose proof (i_rptr HI) as Hrp.
  pose proof (i_compl HI) as Hco. pose proof (i_done HI) as Hdo. pose proof (i_rv HI) as Hrv.
  pose proof (i_ub HI) as Hub. pose proof (i_reg HI) as Hreg. pose proof (i_del HI) as Hdel.
  pose proof (Hfr t) as Hft. pose proof (Hky t) as Hkt. pose proof (fun f fs E => Htl t f fs E) as Htt.
  simpl in Hs; simpl gstep. rewrite Et in Hft, Hkt, Htt, Hs |- *.
  pose proof (Htt _ _ eq_refl) as Hfs. pose proof (Hft _ (or_introl eq_refl)) as Hf0.
  pose proof (fun f (H : In f fs) => Hft f (or_intror H)) as Hff. clear Htt.
  pose proof (fun f' k => @key_top _ fs f' k Hkt) as Hkn. simpl in Hf0, Hkn.
  destruct Hf0 as (E1 & E2). inversion Hs; subst s'; clear Hs.
  assert (Hnr : forall f, In f fs -> is_run f = false).
  { intros f Hf. specialize (Hkn f None eq_refl Hf). destruct f; simpl in *; congruence. }
  assert (Hnp : forall x, x <> c -> ph g x <> GExec).
  { intros x Hx H. destruct (Hcur x (or_intror H)) as (? & ?). rewrite E1 in *. congruence. }
  assert (Hld : exists_b (life s c) = true).
  { specialize (Hlf c). rewrite E2 in Hlf. unfold life_ok, popped in Hlf.
    destruct (life s c); simpl; auto; intuition congruence. }
  inv_con; try congruence.
  + intros t' f Hf. stk Hf.
    * destruct Hf as [<-|Hf]; [simpl; rewrite !set_eq; repeat split; auto; destruct (life s c); try discriminate; congruence|].
      pose proof (Hff _ Hf). pose proof (Hnr _ Hf). pose proof (Hfs _ Hf). fsolve f.
    * specialize (Hfr _ _ Hf). fsolve f.
  + rep_tail.
  + rep_keys.
  + rep_own_same.
  + rewrite E1. run_now.
  + intros x. rewrite Hin. sets; intuition congruence.
  + intros x. specialize (Hlf x). sets; auto. rewrite E2 in Hlf. unfold life_ok, popped in *.
    destruct (life s c); intuition congruence.
  + intros x. specialize (Hcur x). sets; eauto.
  + unfold ntf_ok in *; simpl. rewrite E1 in *; auto.
  + intros x H. apply Hpv. unfold popped in *; sets; auto.
  + intros x H. specialize (Hrp x). sets; auto.
  + intros x H. specialize (Hco _ H). sets; auto. congruence.
  + intros x. specialize (Hdo x). sets; auto. discriminate.
  + rep_reg.
  + rep_del.
  + unfold touch; simpl. now rewrite Hub, Hld.
Qed.

Lemma Inv_FReqAfter s g t c fs s' : Inv s g -> thr s t = FReqAfter c :: fs -> step t AStep s = Some s' ->
  Inv s' (gstep t AStep s g).
Proof.
  intros HI Et Hs.
  pose proof (i_frames HI) as Hfr. pose proof (i_tail HI) as Htl. pose proof (i_keys HI) as Hky.
  pose proof (i_own HI) as Hown. pose proof (i_run HI) as Hrun. pose proof (i_lock HI) as Hlk.
  pose proof (i_stop HI) as Hst. pose proof (i_seg HI) as Hseg. pose proof (i_nd HI) as Hnd.
  pose proof (i_in HI) as Hin. pose proof (i_life HI) as Hlf. pose proof (i_cur HI) as Hcur.
  pose proof (i_ntf HI) as Hnt. pose proof (i_prev HI) as Hpv. pose proof (i_rptr HI) as Hrp.
  pose proof (i_compl HI) as Hco. pose proof (i_done HI) as Hdo. pose proof (i_rv HI) as Hrv.
  pose proof (i_ub HI) as Hub. pose proof (i_reg HI) as Hreg. pose proof (i_del HI) as Hdel.
  pose proof (Hfr t) as Hft. pose proof (Hky t) as Hkt. pose proof (fun f fs E => Htl t f fs E) as Htt.
  simpl in Hs; simpl gstep. rewrite Et in Hft, Hkt, Htt, Hs |- *.
  pose proof (Htt _ _ eq_refl) as Hfs. pose proof (Hft _ (or_introl eq_refl)) as Hf0.
  pose proof (fun f (H : In f fs) => Hft f (or_intror H)) as Hff. clear Htt.
  pose proof (fun f' k => @key_top _ fs f' k Hkt) as Hkn. simpl in Hf0, Hkn.
  destruct Hf0 as (E1 & E2 & E3 & E4). inversion Hs; subst s'; clear Hs.
  assert (Hnr : forall f, In f fs -> is_run f = false).
  { intros f Hf. specialize (Hkn f None eq_refl Hf). destruct f; simpl in *; congruence. }
  assert (Hld : exists_b (life s c) = true).
  { specialize (Hlf c). rewrite E2 in Hlf. unfold life_ok, popped in Hlf.
    destruct (life s c); simpl; auto; intuition congruence. }
  inv_con; try congruence.
  + intros t' f Hf. stk Hf.
    * destruct Hf as [<-|Hf]; [simpl; rewrite ?set_eq; auto 10|]. pose proof (Hff _ Hf). pose proof (Hnr _ Hf). pose proof (Hfs _ Hf). fsolve f.
    * specialize (Hfr _ _ Hf). fsolve f.
  + rep_tail.
  + rep_keys.
  + rep_own_same.
  + rewrite E1. run_now.
  + intros x H. specialize (Hrp x). sets; auto.
  + rep_reg.
  + rep_del.
  + unfold touch; simpl. now rewrite Hub, Hld.
Qed.

Lemma Inv_FReqCompl s g t c fs s' : Inv s g -> thr s t = FReqCompl c :: fs -> step t AStep s = Some s' ->
  Inv s' (gstep t AStep s g).
Proof.
  intros HI Et Hs.
  pose proof (i_frames HI) as Hfr. pose proof (i_tail HI) as Htl. pose proof (i_keys HI) as Hky.
  pose proof (i_own HI) as Hown. pose proof (i_run HI) as Hrun. pose proof (i_lock HI) as Hlk.
  pose proof (i_stop HI) as Hst. pose proof (i_seg HI) as Hseg. pose proof (i_nd HI) as Hnd.
  pose proof (i_in HI) as Hin. pose proof (i_life HI) as Hlf. pose proof (i_cur HI) as Hcur.
  pose proof (i_ntf HI) as Hnt. pose proof (i_prev HI) as Hpv. pose proof (i_rptr HI) as Hrp.
  pose proof (i_compl HI) as Hco. pose proof (i_done HI) as Hdo. pose proof (i_rv HI) as Hrv.
  pose proof (i_ub HI) as Hub. pose proof (i_reg HI) as Hreg. pose proof (i_del HI) as Hdel.
  pose proof (Hfr t) as Hft. pose proof (Hky t) as Hkt. pose proof (fun f fs E => Htl t f fs E) as Htt.
  simpl in Hs; simpl gstep. rewrite Et in Hft, Hkt, Htt, Hs |- *.
  pose proof (Htt _ _ eq_refl) as Hfs. pose proof (Hft _ (or_introl eq_refl)) as Hf0.
  pose proof (fun f (H : In f fs) => Hft f (or_intror H)) as Hff. clear Htt.
  pose proof (fun f' k => @key_top _ fs f' k Hkt) as Hkn. simpl in Hf0, Hkn.
  destruct Hf0 as (E1 & E2 & E3 & E4 & E5). inversion Hs; subst s'; clear Hs.
  assert (Hnr : forall f, In f fs -> is_run f = false).
  { intros f Hf. specialize (Hkn f None eq_refl Hf). destruct f; simpl in *; congruence. }
  assert (Hnp : forall x, x <> c -> ph g x <> GExec /\ ph g x <> GPop).
  { intros x Hx; split; intros H; [destruct (Hcur x (or_intror H)) as (? & ?)|destruct (Hcur x (or_introl H)) as (? & ?)];
    rewrite E1 in *; congruence. }
  assert (Hld : exists_b (life s c) = true).
  { specialize (Hlf c). rewrite E2 in Hlf. unfold life_ok, popped in Hlf.
    destruct (life s c); simpl; auto; intuition congruence. }
  rewrite E1 in Hst. unfold ntf_ok in Hnt; rewrite E1 in Hnt.
  inv_con; try congruence.
  + intros t' f Hf. stk Hf.
    * destruct Hf as [<-|Hf]; [simpl; rewrite ?set_eq; auto 10|]. pose proof (Hff _ Hf). pose proof (Hnr _ Hf). pose proof (Hfs _ Hf). fsolve f.
    * specialize (Hfr _ _ Hf). fsolve f.
  + rep_tail.
  + rep_keys.
  + rep_own_same.
  + run_now.
  + intros x. rewrite Hin. sets; intuition congruence.
  + intros x. specialize (Hlf x). sets; auto. rewrite E2 in Hlf. unfold life_ok, popped in *.
    destruct (life s c); intuition congruence.
  + intros x. specialize (Hnp x). sets; [intuition discriminate|]. intuition congruence.
  + intros x H. apply Hpv. unfold popped in *; sets; auto.
  + intros x H. specialize (Hrp x H). specialize (Hnp x). sets; auto. intuition congruence.
  + intros x H. specialize (Hco x). sets; auto.
  + intros x H. specialize (Hdo x). sets; auto.
  + intros x H. specialize (Hnp x). sets; [discriminate|]. intuition congruence.
  + rep_reg.
  + rep_del.
  + unfold touch; simpl. now rewrite Hub, Hld.
Qed.
Lemma Inv_FReqRelock s g t  fs s' : Inv s g -> thr s t = FReqRelock :: fs -> step t AStep s = Some s' ->
  Inv s' (gstep t AStep s g).
Proof.
  intros HI Et Hs.
  pose proof (i_frames HI) as Hfr. pose proof (i_tail HI) as Htl. pose proof (i_keys HI) as Hky.
  pose proof (i_own HI) as Hown. pose proof (i_run HI) as Hrun. pose proof (i_lock HI) as Hlk.
  pose proof (i_stop HI) as Hst. pose proof (i_seg HI) as Hseg. pose proof (i_nd HI) as Hnd.
  pose proof (i_in HI) as Hin. pose proof (i_life HI) as Hlf. pose proof (i_cur HI) as Hcur.
  pose proof (i_ntf HI) as Hnt. pose proof (i_prev HI) as Hpv. pose proof (i_rptr HI) as Hrp.
  pose proof (i_compl HI) as Hco. pose proof (i_done HI) as Hdo. pose proof (i_rv HI) as Hrv.
  pose proof (i_ub HI) as Hub. pose proof (i_reg HI) as Hreg. pose proof (i_del HI) as Hdel.
  pose proof (Hfr t) as Hft. pose proof (Hky t) as Hkt. pose proof (fun f fs E => Htl t f fs E) as Htt.
  simpl in Hs; simpl gstep. rewrite Et in Hft, Hkt, Htt, Hs |- *.
  pose proof (Htt _ _ eq_refl) as Hfs. pose proof (Hft _ (or_introl eq_refl)) as Hf0.
  pose proof (fun f (H : In f fs) => Hft f (or_intror H)) as Hff. clear Htt.
  pose proof (fun f' k => @key_top _ fs f' k Hkt) as Hkn. simpl in Hf0, Hkn.
  destruct (lockb s) eqn:Elock; [discriminate|]. inversion Hs; subst s'; clear Hs.
  destruct (own g) eqn:Eown; [discriminate|].
  inv_con; try congruence.
  + intros t' f Hf. stk Hf.
    * destruct Hf as [<-|Hf]; [simpl; rewrite ?set_eq; auto 10|]. pose proof (Hff _ Hf). pose proof (Hfs _ Hf). fsolve f.
    * specialize (Hfr _ _ Hf). fsolve f.
  + rep_tail.
  + rep_keys.
  + own_now.
  + rewrite Hf0. run_now.
  + rep_reg.
  + rep_del.
Qed.

Lemma Inv_FReqFinish s g t  fs s' : Inv s g -> thr s t = FReqFinish :: fs -> step t AStep s = Some s' ->
  Inv s' (gstep t AStep s g).
Proof.
  intros HI Et Hs.
  pose proof (i_frames HI) as Hfr. pose proof (i_tail HI) as Htl. pose proof (i_keys HI) as Hky.
  pose proof (i_own HI) as Hown. pose proof (i_run HI) as Hrun. pose proof (i_lock HI) as Hlk.
  pose proof (i_stop HI) as Hst. pose proof (i_seg HI) as Hseg. pose proof (i_nd HI) as Hnd.
  pose proof (i_in HI) as Hin. pose proof (i_life HI) as Hlf. pose proof (i_cur HI) as Hcur.
  pose proof (i_ntf HI) as Hnt. pose proof (i_prev HI) as Hpv. pose proof (i_rptr HI) as Hrp.
  pose proof (i_compl HI) as Hco. pose proof (i_done HI) as Hdo. pose proof (i_rv HI) as Hrv.
  pose proof (i_ub HI) as Hub. pose proof (i_reg HI) as Hreg. pose proof (i_del HI) as Hdel.
  pose proof (Hfr t) as Hft. pose proof (Hky t) as Hkt. pose proof (fun f fs E => Htl t f fs E) as Htt.
  simpl in Hs; simpl gstep. rewrite Et in Hft, Hkt, Htt, Hs |- *.
  pose proof (Htt _ _ eq_refl) as Hfs. pose proof (Hft _ (or_introl eq_refl)) as Hf0.
  pose proof (fun f (H : In f fs) => Hft f (or_intror H)) as Hff. clear Htt.
  pose proof (fun f' k => @key_top _ fs f' k Hkt) as Hkn. simpl in Hf0, Hkn.
  destruct Hf0 as (E1 & E2 & E3). inversion Hs; subst s'; clear Hs.
  assert (Hnr : forall f, In f fs -> is_run f = false).
  { intros f Hf. specialize (Hkn f None eq_refl Hf). destruct f; simpl in *; congruence. }
  unfold ntf_ok in Hnt. rewrite E2 in Hnt, Hst.
  inv_con; try congruence.
  + intros t' f Hf. stk Hf.
    * pose proof (Hff _ Hf). pose proof (Hfs _ Hf). pose proof (Hnr _ Hf). fsolve f.
    * specialize (Hfr _ _ Hf). fsolve f.
  + rep_tail.
  + rep_keys.
  + intros c H. destruct (Hcur _ H) as (? & ?); congruence.
  + rep_reg.
  + rep_del.
Qed.

Lemma Inv_FReg0 s g t c fs s' : Inv s g -> thr s t = FReg0 c :: fs -> step t AStep s = Some s' ->
  Inv s' (gstep t AStep s g).
Proof.
  intros HI Et Hs.
  pose proof (i_frames HI) as Hfr. pose proof (i_tail HI) as Htl. pose proof (i_keys HI) as Hky.
  pose proof (i_own HI) as Hown. pose proof (i_run HI) as Hrun. pose proof (i_lock HI) as Hlk.
  pose proof (i_stop HI) as Hst. pose proof (i_seg HI) as Hseg. pose proof (i_nd HI) as Hnd.
  pose proof (i_in HI) as Hin. pose proof (i_life HI) as Hlf. pose proof (i_cur HI) as Hcur.
  pose proof (i_ntf HI) as Hnt. pose proof (i_prev HI) as Hpv. pose proof (i_rptr HI) as Hrp.
  pose proof (i_compl HI) as Hco. pose proof (i_done HI) as Hdo. pose proof (i_rv HI) as Hrv.
  pose proof (i_ub HI) as Hub. pose proof (i_reg HI) as Hreg. pose proof (i_del HI) as Hdel.
  pose proof (Hfr t) as Hft. pose proof (Hky t) as Hkt. pose proof (fun f fs E => Htl t f fs E) as Htt.
  simpl in Hs; simpl gstep. rewrite Et in Hft, Hkt, Htt, Hs |- *.
  pose proof (Htt _ _ eq_refl) as Hfs. pose proof (Hft _ (or_introl eq_refl)) as Hf0.
  pose proof (fun f (H : In f fs) => Hft f (or_intror H)) as Hff. clear Htt.
  pose proof (fun f' k => @key_top _ fs f' k Hkt) as Hkn. simpl in Hf0, Hkn.
  destruct Hf0 as (E1 & E2). destruct (stopb s) eqn:Estop.
  - rewrite rd_ok in Hs by (auto; now rewrite E1). inversion Hs; subst s'; clear Hs.
    inv_con; try congruence.
  + intros t' f Hf. stk Hf.
    * destruct Hf as [<-|Hf]; [simpl; rewrite ?set_eq; auto 10|]. pose proof (Hff _ Hf). pose proof (Hfs _ Hf). pose proof (Hkn f _ eq_refl Hf). fsolve f.
    * specialize (Hfr _ _ Hf). fsolve f.
  + rep_tail.
  + rep_keys.
  + rep_own_same.
  + rep_run.
  + intros x. rewrite Hin. sets; intuition congruence.
  + intros x. specialize (Hlf x). sets; auto. rewrite E1. simpl; auto.
  + intros x. specialize (Hcur x). sets; [intuition discriminate|auto].
  + unfold ntf_ok in *; simpl. destruct (ntf g); auto; destruct Hnt as [Hn1 Hn2]; split; auto;
    intros x; specialize (Hn2 x); unfold popped in *; sets; intuition discriminate.
  + intros x H. unfold popped in *; sets; auto. intuition discriminate.
  + intros x H. specialize (Hrp _ H). sets; auto. intuition congruence.
  + intros x H. specialize (Hco _ H). sets; auto. congruence.
  + intros x. specialize (Hdo x). sets; auto. discriminate.
  + intros x. specialize (Hrv x). sets; auto. discriminate.
  + rep_reg.
  + rep_del.
  - destruct (lockb s) eqn:Elock; [discriminate|]. inversion Hs; subst s'; clear Hs.
    destruct (own g) eqn:Eown; [discriminate|].
    inv_con; try congruence.
  + intros t' f Hf. stk Hf.
    * destruct Hf as [<-|Hf]; [simpl; rewrite ?set_eq; auto 10|]. pose proof (Hff _ Hf). pose proof (Hfs _ Hf). pose proof (Hkn f _ eq_refl Hf). fsolve f.
    * specialize (Hfr _ _ Hf). fsolve f.
  + rep_tail.
  + rep_keys.
  + own_now.
  + rep_run.
  + rep_reg.
  + rep_del.
Qed.

Lemma Inv_FRegHold s g t c fs s' : Inv s g -> thr s t = FRegHold c :: fs -> step t AStep s = Some s' ->
  Inv s' (gstep t AStep s g).
Proof.
  intros HI Et Hs.
  pose proof (i_frames HI) as Hfr. pose proof (i_tail HI) as Htl. pose proof (i_keys HI) as Hky.
  pose proof (i_own HI) as Hown. pose proof (i_run HI) as Hrun. pose proof (i_lock HI) as Hlk.
  pose proof (i_stop HI) as Hst. pose proof (i_seg HI) as Hseg. pose proof (i_nd HI) as Hnd.
  pose proof (i_in HI) as Hin. pose proof (i_life HI) as Hlf. pose proof (i_cur HI) as Hcur.
  pose proof (i_ntf HI) as Hnt. pose proof (i_prev HI) as Hpv. pose proof (i_rptr HI) as Hrp.
  pose proof (i_compl HI) as Hco. pose proof (i_done HI) as Hdo. pose proof (i_rv HI) as Hrv.
  pose proof (i_ub HI) as Hub. pose proof (i_reg HI) as Hreg. pose proof (i_del HI) as Hdel.
  pose proof (Hfr t) as Hft. pose proof (Hky t) as Hkt. pose proof (fun f fs E => Htl t f fs E) as Htt.
  simpl in Hs; simpl gstep. rewrite Et in Hft, Hkt, Htt, Hs |- *.
  pose proof (Htt _ _ eq_refl) as Hfs. pose proof (Hft _ (or_introl eq_refl)) as Hf0.
  pose proof (fun f (H : In f fs) => Hft f (or_intror H)) as Hff. clear Htt.
  pose proof (fun f' k => @key_top _ fs f' k Hkt) as Hkn. simpl in Hf0, Hkn.
  destruct Hf0 as (E1 & E2 & E3 & E4). inversion Hs; subst s'; clear Hs.
  assert (Hex : forall x, In x (lst g) -> exists_b (life s x) = true)
    by (intros x Hx; eapply in_exists; eauto).
  pose proof (seg_head _ _ _ _ _ Hseg) as Hfl.
  assert (Hnc : ~ In c (lst g)) by (rewrite Hin; congruence).
  rewrite push_front_eq; auto.
  2:{ now rewrite E2. }
  2:{ intros h Hh; apply Hex. apply first_in; congruence. }
  assert (Hpvx : forall x, x <> c -> ~ In x (lst g) ->
    (match head s with Some h => set (set (prevp s) c PHead) h (PNext c) | None => set (prevp s) c PHead end) x = prevp s x).
  { intros x Hx Hnx. rewrite Hfl. destruct (first (lst g)) as [h|] eqn:En; [|apply set_neq; auto].
    rewrite set_neq; [apply set_neq; auto|].
    intro; subst. apply Hnx. apply first_in; auto. }
  inv_con; try congruence.
  + intros t' f Hf. stk Hf.
    * destruct Hf as [<-|Hf]; [simpl; rewrite ?set_eq; auto 10|]. pose proof (Hff _ Hf). pose proof (Hfs _ Hf). pose proof (Hkn f _ eq_refl Hf). fsolve f.
    * specialize (Hfr _ _ Hf). fsolve f.
  + rep_tail.
  + rep_keys.
  + own_keep.
  + rep_run.
  + split; auto. rewrite set_eq. split.
    * rewrite Hfl. destruct (first (lst g)) as [h|] eqn:En; [|apply set_eq]. rewrite set_neq; [apply set_eq|].
      intro; subst. apply Hnc, first_in; auto.
    * eapply seg_ext with (nx := next s) (pv := match head s with Some n => set (prevp s) n (PNext c) | None => prevp s end);
      [| |eapply seg_reprev; eauto].
      -- intros x Hx. apply set_neq. intro; subst; auto.
      -- intros x Hx. assert (x <> c) by (intro; subst; auto). destruct (head s); sets; auto; congruence.
  + constructor; auto.
  + intros x. specialize (Hin x). sets; intuition congruence.
  + intros x. specialize (Hlf x). sets; auto. rewrite E2. simpl; auto.
  + intros x. specialize (Hcur x). sets; [intuition discriminate|auto].
  + unfold ntf_ok in *; simpl. destruct (ntf g); try congruence. destruct Hnt as [Hn1 Hn2]; split; auto;
    intros x; specialize (Hn2 x); unfold popped in *; sets; intuition discriminate.
  + intros x H. destruct (Nat.eq_dec x c) as [->|Hne]; [rewrite set_eq in H; unfold popped in H; intuition discriminate|].
    rewrite set_neq in H by auto. rewrite Hpvx; auto. rewrite Hin. unfold popped in H; intuition congruence.
  + intros x H. specialize (Hrp _ H). sets; auto. intuition congruence.
  + intros x H. specialize (Hco _ H). sets; auto. congruence.
  + intros x. specialize (Hdo x). sets; auto. discriminate.
  + intros x. specialize (Hrv x). sets; auto. discriminate.
  + rep_reg.
  + rep_del.
Qed.

Lemma Inv_FRegUnlock s g t c fs s' : Inv s g -> thr s t = FRegUnlock c :: fs -> step t AStep s = Some s' ->
  Inv s' (gstep t AStep s g).
Proof.
  intros HI Et Hs.
  pose proof (i_frames HI) as Hfr. pose proof (i_tail HI) as Htl. pose proof (i_keys HI) as Hky.
  pose proof (i_own HI) as Hown. pose proof (i_run HI) as Hrun. pose proof (i_lock HI) as Hlk.
  pose proof (i_stop HI) as Hst. pose proof (i_seg HI) as Hseg. pose proof (i_nd HI) as Hnd.
  pose proof (i_in HI) as Hin. pose proof (i_life HI) as Hlf. pose proof (i_cur HI) as Hcur.
  pose proof (i_ntf HI) as Hnt. pose proof (i_prev HI) as Hpv. pose proof (i_rptr HI) as Hrp.
  pose proof (i_compl HI) as Hco. pose proof (i_done HI) as Hdo. pose proof (i_rv HI) as Hrv.
  pose proof (i_ub HI) as Hub. pose proof (i_reg HI) as Hreg. pose proof (i_del HI) as Hdel.
  pose proof (Hfr t) as Hft. pose proof (Hky t) as Hkt. pose proof (fun f fs E => Htl t f fs E) as Htt.
  simpl in Hs; simpl gstep. rewrite Et in Hft, Hkt, Htt, Hs |- *.
  pose proof (Htt _ _ eq_refl) as Hfs. pose proof (Hft _ (or_introl eq_refl)) as Hf0.
  pose proof (fun f (H : In f fs) => Hft f (or_intror H)) as Hff. clear Htt.
  pose proof (fun f' k => @key_top _ fs f' k Hkt) as Hkn. simpl in Hf0, Hkn.
  destruct Hf0 as (E1 & E2 & E3 & E4). inversion Hs; subst s'; clear Hs.
  inv_con; try congruence.
  + intros t' f Hf. stk Hf.
    * pose proof (Hff _ Hf). pose proof (Hfs _ Hf). pose proof (Hkn f _ eq_refl Hf). fsolve f.
    * specialize (Hfr _ _ Hf). fsolve f.
  + rep_tail.
  + rep_keys.
  + rep_run.
  + intros x. specialize (Hlf x). sets; auto. rewrite E3. simpl; auto.
  + intros x H. specialize (Hrp _ H). sets; auto. intuition congruence.
  + intros x H. specialize (Hdo _ H). sets; auto. congruence.
  + intros c0 t0 H. destruct (Nat.eq_dec c0 c) as [->|Hne]; [rewrite set_eq in H; discriminate|].
    rewrite set_neq in H by auto. destruct (Hreg _ _ H) as (f & Hf & Hk). exists f; split; auto.
    sets; auto. rewrite Et in Hf; destruct Hf as [<-|Hf]; auto. simpl in Hk; congruence.
  + intros c0 t0 H. destruct (Nat.eq_dec c0 c) as [->|Hne]; [rewrite set_eq in H; discriminate|].
    rewrite set_neq in H by auto. destruct (Hdel _ _ H) as (f & fs' & Hf & Hk). exists f, fs'; split; auto.
    destruct (Nat.eq_dec t0 t) as [->|]; [|rewrite set_neq; auto].
    rewrite Et in Hf; inversion Hf; subst; simpl in Hk; congruence.
Qed.

Lemma Inv_FDel0 s g t c fs s' : Inv s g -> thr s t = FDel0 c :: fs -> step t AStep s = Some s' ->
  Inv s' (gstep t AStep s g).
Proof.
  intros HI Et Hs.
  pose proof (i_frames HI) as Hfr. pose proof (i_tail HI) as Htl. pose proof (i_keys HI) as Hky.
  pose proof (i_own HI) as Hown. pose proof (i_run HI) as Hrun. pose proof (i_lock HI) as Hlk.
  pose proof (i_stop HI) as Hst. pose proof (i_seg HI) as Hseg. pose proof (i_nd HI) as Hnd.
  pose proof (i_in HI) as Hin. pose proof (i_life HI) as Hlf. pose proof (i_cur HI) as Hcur.
  pose proof (i_ntf HI) as Hnt. pose proof (i_prev HI) as Hpv. pose proof (i_rptr HI) as Hrp.
  pose proof (i_compl HI) as Hco. pose proof (i_done HI) as Hdo. pose proof (i_rv HI) as Hrv.
  pose proof (i_ub HI) as Hub. pose proof (i_reg HI) as Hreg. pose proof (i_del HI) as Hdel.
  pose proof (Hfr t) as Hft. pose proof (Hky t) as Hkt. pose proof (fun f fs E => Htl t f fs E) as Htt.
  simpl in Hs; simpl gstep. rewrite Et in Hft, Hkt, Htt, Hs |- *.
  pose proof (Htt _ _ eq_refl) as Hfs. pose proof (Hft _ (or_introl eq_refl)) as Hf0.
  pose proof (fun f (H : In f fs) => Hft f (or_intror H)) as Hff. clear Htt.
  pose proof (fun f' k => @key_top _ fs f' k Hkt) as Hkn. simpl in Hf0, Hkn.
  destruct Hf0 as (E1 & E2). destruct (lockb s) eqn:Elock; [discriminate|]. inversion Hs; subst s'; clear Hs.
  destruct (own g) eqn:Eown; [discriminate|].
  inv_con; try congruence.
  + intros t' f Hf. stk Hf.
    * destruct Hf as [<-|Hf]; [simpl; rewrite ?set_eq; auto 10|]. pose proof (Hff _ Hf). pose proof (Hfs _ Hf). fsolve f.
    * specialize (Hfr _ _ Hf). fsolve f.
  + rep_tail.
  + rep_keys.
  + own_now.
  + rep_run.
  + rep_reg.
  + rep_del.
Qed.

Lemma Inv_FDelHold s g t c old fs s' : Inv s g -> thr s t = FDelHold c old :: fs -> step t AStep s = Some s' ->
  Inv s' (gstep t AStep s g).
Proof.
  intros HI Et Hs.
  pose proof (i_frames HI) as Hfr. pose proof (i_tail HI) as Htl. pose proof (i_keys HI) as Hky.
  pose proof (i_own HI) as Hown. pose proof (i_run HI) as Hrun. pose proof (i_lock HI) as Hlk.
  pose proof (i_stop HI) as Hst. pose proof (i_seg HI) as Hseg. pose proof (i_nd HI) as Hnd.
  pose proof (i_in HI) as Hin. pose proof (i_life HI) as Hlf. pose proof (i_cur HI) as Hcur.
  pose proof (i_ntf HI) as Hnt. pose proof (i_prev HI) as Hpv. pose proof (i_rptr HI) as Hrp.
  pose proof (i_compl HI) as Hco. pose proof (i_done HI) as Hdo. pose proof (i_rv HI) as Hrv.
  pose proof (i_ub HI) as Hub. pose proof (i_reg HI) as Hreg. pose proof (i_del HI) as Hdel.
  pose proof (Hfr t) as Hft. pose proof (Hky t) as Hkt. pose proof (fun f fs E => Htl t f fs E) as Htt.
  simpl in Hs; simpl gstep. rewrite Et in Hft, Hkt, Htt, Hs |- *.
  pose proof (Htt _ _ eq_refl) as Hfs. pose proof (Hft _ (or_introl eq_refl)) as Hf0.
  pose proof (fun f (H : In f fs) => Hft f (or_intror H)) as Hff. clear Htt.
  pose proof (fun f' k => @key_top _ fs f' k Hkt) as Hkn. simpl in Hf0, Hkn.
  destruct Hf0 as (E1 & E2 & E3 & E4).
  assert (Hld : exists_b (life s c) = true) by (now rewrite E2).
  destruct (prevp s c) as [| |pp] eqn:Epc.
  - (* not in the list *)
    assert (E5 : popped (ph g c)).
    { destruct E3 as [E3|]; auto. exfalso. apply Hin in E3.
      eapply seg_in_prev; eauto. discriminate. }
    rewrite rd_ok in Hs by auto. inversion Hs; subst s'; clear Hs.
    inv_con; try congruence.
  + intros t' f Hf. stk Hf.
    * destruct Hf as [<-|Hf]; [simpl; rewrite ?set_eq; auto 10|]. pose proof (Hff _ Hf). pose proof (Hfs _ Hf). fsolve f.
    * specialize (Hfr _ _ Hf). fsolve f.
  + rep_tail.
  + rep_keys.
  + own_keep.
  + rep_run.
  + rep_reg.
  + rep_del.
  - rewrite rd_ok in Hs by auto.
    assert (E5 : ph g c = GIn).
    { destruct E3 as [E3|E3]; auto. apply Hpv in E3. congruence. }
    assert (Hcl : In c (lst g)) by (apply Hin; auto).
    assert (Hex : forall x, In x (lst g) -> exists_b (life s x) = true)
      by (intros x Hx; eapply in_exists; eauto).
    rewrite unlink_eq in Hs; [ | auto | auto | congruence
      | intros h Hh; apply Hex; eapply seg_next_in; eauto
      | intros q Hq; apply Hex; destruct (@seg_prev_in _ _ _ _ _ _ _ Hseg Hcl Hq); auto; discriminate
      | intros q Hq; eapply seg_prev_neq; eauto; discriminate ].
    inversion Hs; subst s'; clear Hs.
    assert (Hpvx : forall x, ~ In x (lst g) -> unl_pv (next s) (prevp s) c x = prevp s x).
    { intros x Hx. unfold unl_pv. destruct (next s c) as [n|] eqn:En; auto. apply set_neq.
      intro; subst. apply Hx. eapply seg_next_in; eauto. }
    inv_con; try congruence.
  + intros t' f Hf. stk Hf.
    * destruct Hf as [<-|Hf]; [simpl; rewrite ?set_eq; auto 10|]. pose proof (Hff _ Hf). pose proof (Hfs _ Hf). fsolve f.
    * specialize (Hfr _ _ Hf). fsolve f.
  + rep_tail.
  + rep_keys.
  + own_keep.
  + rep_run.
  + apply seg_unlink; auto.
  + apply nodup_rem; auto.
  + intros x. rewrite in_rem, Hin. sets; intuition congruence.
  + intros x. specialize (Hlf x). sets; auto. rewrite E2. simpl; auto.
  + intros x. specialize (Hcur x). sets; [intuition discriminate|auto].
  + unfold ntf_ok in *; simpl. destruct (ntf g); auto;
    try (destruct Hnt as [Hn1 Hn2]; split; auto; intros x; specialize (Hn2 x); unfold popped in *; sets; intuition discriminate).
    destruct Hnt as [Hn1 Hn2]. rewrite Hn2 in Hcl; destruct Hcl.
  + intros x H. destruct (Nat.eq_dec x c) as [->|Hne]; [rewrite set_eq in H; unfold popped in H; intuition discriminate|].
    rewrite set_neq in H by auto. rewrite Hpvx; auto. rewrite Hin. unfold popped in H; intuition congruence.
  + intros x H. specialize (Hrp _ H). sets; auto. intuition congruence.
  + intros x H. specialize (Hco _ H). sets; auto. congruence.
  + intros x. specialize (Hdo x). sets; auto. discriminate.
  + intros x. specialize (Hrv x). sets; auto. discriminate.
  + rep_reg.
  + rep_del.

  - rewrite rd_ok in Hs by auto.
    assert (E5 : ph g c = GIn).
    { destruct E3 as [E3|E3]; auto. apply Hpv in E3. congruence. }
    assert (Hcl : In c (lst g)) by (apply Hin; auto).
    assert (Hex : forall x, In x (lst g) -> exists_b (life s x) = true)
      by (intros x Hx; eapply in_exists; eauto).
    rewrite unlink_eq in Hs; [ | auto | auto | congruence
      | intros h Hh; apply Hex; eapply seg_next_in; eauto
      | intros q Hq; apply Hex; destruct (@seg_prev_in _ _ _ _ _ _ _ Hseg Hcl Hq); auto; discriminate
      | intros q Hq; eapply seg_prev_neq; eauto; discriminate ].
    inversion Hs; subst s'; clear Hs.
    assert (Hpvx : forall x, ~ In x (lst g) -> unl_pv (next s) (prevp s) c x = prevp s x).
    { intros x Hx. unfold unl_pv. destruct (next s c) as [n|] eqn:En; auto. apply set_neq.
      intro; subst. apply Hx. eapply seg_next_in; eauto. }
    inv_con; try congruence.
  + intros t' f Hf. stk Hf.
    * destruct Hf as [<-|Hf]; [simpl; rewrite ?set_eq; auto 10|]. pose proof (Hff _ Hf). pose proof (Hfs _ Hf). fsolve f.
    * specialize (Hfr _ _ Hf). fsolve f.
  + rep_tail.
  + rep_keys.
  + own_keep.
  + rep_run.
  + apply seg_unlink; auto.
  + apply nodup_rem; auto.
  + intros x. rewrite in_rem, Hin. sets; intuition congruence.
  + intros x. specialize (Hlf x). sets; auto. rewrite E2. simpl; auto.
  + intros x. specialize (Hcur x). sets; [intuition discriminate|auto].
  + unfold ntf_ok in *; simpl. destruct (ntf g); auto;
    try (destruct Hnt as [Hn1 Hn2]; split; auto; intros x; specialize (Hn2 x); unfold popped in *; sets; intuition discriminate).
    destruct Hnt as [Hn1 Hn2]. rewrite Hn2 in Hcl; destruct Hcl.
  + intros x H. destruct (Nat.eq_dec x c) as [->|Hne]; [rewrite set_eq in H; unfold popped in H; intuition discriminate|].
    rewrite set_neq in H by auto. rewrite Hpvx; auto. rewrite Hin. unfold popped in H; intuition congruence.
  + intros x H. specialize (Hrp _ H). sets; auto. intuition congruence.
  + intros x H. specialize (Hco _ H). sets; auto. congruence.
  + intros x. specialize (Hdo x). sets; auto. discriminate.
  + intros x. specialize (Hrv x). sets; auto. discriminate.
  + rep_reg.
  + rep_del.

Qed.

Lemma Inv_FDelUnlinked s g t c old fs s' : Inv s g -> thr s t = FDelUnlinked c old :: fs -> step t AStep s = Some s' ->
  Inv s' (gstep t AStep s g).
Proof.
  intros HI Et Hs.
  pose proof (i_frames HI) as Hfr. pose proof (i_tail HI) as Htl. pose proof (i_keys HI) as Hky.
  pose proof (i_own HI) as Hown. pose proof (i_run HI) as Hrun. pose proof (i_lock HI) as Hlk.
  pose proof (i_stop HI) as Hst. pose proof (i_seg HI) as Hseg. pose proof (i_nd HI) as Hnd.
  pose proof (i_in HI) as Hin. pose proof (i_life HI) as Hlf. pose proof (i_cur HI) as Hcur.
  pose proof (i_ntf HI) as Hnt. pose proof (i_prev HI) as Hpv. pose proof (i_rptr HI) as Hrp.
  pose proof (i_compl HI) as Hco. pose proof (i_done HI) as Hdo. pose proof (i_rv HI) as Hrv.
  pose proof (i_ub HI) as Hub. pose proof (i_reg HI) as Hreg. pose proof (i_del HI) as Hdel.
  pose proof (Hfr t) as Hft. pose proof (Hky t) as Hkt. pose proof (fun f fs E => Htl t f fs E) as Htt.
  simpl in Hs; simpl gstep. rewrite Et in Hft, Hkt, Htt, Hs |- *.
  pose proof (Htt _ _ eq_refl) as Hfs. pose proof (Hft _ (or_introl eq_refl)) as Hf0.
  pose proof (fun f (H : In f fs) => Hft f (or_intror H)) as Hff. clear Htt.
  pose proof (fun f' k => @key_top _ fs f' k Hkt) as Hkn. simpl in Hf0, Hkn.
  destruct Hf0 as (E1 & E2 & E3 & E4). inversion Hs; subst s'; clear Hs.
  inv_con; try congruence.
  + intros t' f Hf. stk Hf.
    * pose proof (Hff _ Hf). pose proof (Hfs _ Hf). fsolve f.
    * specialize (Hfr _ _ Hf). fsolve f.
  + rep_tail.
  + rep_keys.
  + rep_run.
  + intros x. specialize (Hlf x). sets; auto. rewrite E3. simpl; auto.
  + intros x H. specialize (Hrp _ H). sets; auto.
  + intros x H. specialize (Hdo _ H). sets; auto.
  + intros c0 t0 H. destruct (Nat.eq_dec c0 c) as [->|Hne]; [rewrite set_eq in H; discriminate|].
    rewrite set_neq in H by auto. destruct (Hreg _ _ H) as (f & Hf & Hk). exists f; split; auto.
    sets; auto. rewrite Et in Hf; destruct Hf as [<-|Hf]; auto. simpl in Hk; congruence.
  + intros c0 t0 H. destruct (Nat.eq_dec c0 c) as [->|Hne]; [rewrite set_eq in H; discriminate|].
    rewrite set_neq in H by auto. destruct (Hdel _ _ H) as (f & fs' & Hf & Hk). exists f, fs'; split; auto.
    destruct (Nat.eq_dec t0 t) as [->|]; [|rewrite set_neq; auto].
    rewrite Et in Hf; inversion Hf; subst; simpl in Hk; congruence.
Qed.

Lemma Inv_FDelNot s g t c old nt fs s' : Inv s g -> thr s t = FDelNot c old nt :: fs -> step t AStep s = Some s' ->
  Inv s' (gstep t AStep s g).
Proof.
  intros HI Et Hs.
  pose proof (i_frames HI) as Hfr. pose proof (i_tail HI) as Htl. pose proof (i_keys HI) as Hky.
  pose proof (i_own HI) as Hown. pose proof (i_run HI) as Hrun. pose proof (i_lock HI) as Hlk.
  pose proof (i_stop HI) as Hst. pose proof (i_seg HI) as Hseg. pose proof (i_nd HI) as Hnd.
  pose proof (i_in HI) as Hin. pose proof (i_life HI) as Hlf. pose proof (i_cur HI) as Hcur.
  pose proof (i_ntf HI) as Hnt. pose proof (i_prev HI) as Hpv. pose proof (i_rptr HI) as Hrp.
  pose proof (i_compl HI) as Hco. pose proof (i_done HI) as Hdo. pose proof (i_rv HI) as Hrv.
  pose proof (i_ub HI) as Hub. pose proof (i_reg HI) as Hreg. pose proof (i_del HI) as Hdel.
  pose proof (Hfr t) as Hft. pose proof (Hky t) as Hkt. pose proof (fun f fs E => Htl t f fs E) as Htt.
  simpl in Hs; simpl gstep. rewrite Et in Hft, Hkt, Htt, Hs |- *.
  pose proof (Htt _ _ eq_refl) as Hfs. pose proof (Hft _ (or_introl eq_refl)) as Hf0.
  pose proof (fun f (H : In f fs) => Hft f (or_intror H)) as Hff. clear Htt.
  pose proof (fun f' k => @key_top _ fs f' k Hkt) as Hkn. simpl in Hf0, Hkn.
  destruct Hf0 as (E1 & E2 & E3 & E4 & E5). inversion Hs; subst s'; clear Hs.
  inv_con; try congruence.
  + intros t' f Hf. stk Hf.
    * destruct Hf as [<-|Hf]; [simpl; rewrite ?set_eq; auto 10|]. pose proof (Hff _ Hf). pose proof (Hfs _ Hf). fsolve f.
    * specialize (Hfr _ _ Hf). fsolve f.
  + rep_tail.
  + rep_keys.
  + rep_run.
  + rep_reg.
  + rep_del.
Qed.

Lemma Inv_FDelCmp s g t c nt fs s' : Inv s g -> thr s t = FDelCmp c nt :: fs -> step t AStep s = Some s' ->
  Inv s' (gstep t AStep s g).
Proof.
  intros HI Et Hs.
  pose proof (i_frames HI) as Hfr. pose proof (i_tail HI) as Htl. pose proof (i_keys HI) as Hky.
  pose proof (i_own HI) as Hown. pose proof (i_run HI) as Hrun. pose proof (i_lock HI) as Hlk.
  pose proof (i_stop HI) as Hst. pose proof (i_seg HI) as Hseg. pose proof (i_nd HI) as Hnd.
  pose proof (i_in HI) as Hin. pose proof (i_life HI) as Hlf. pose proof (i_cur HI) as Hcur.
  pose proof (i_ntf HI) as Hnt. pose proof (i_prev HI) as Hpv. pose proof (i_rptr HI) as Hrp.
  pose proof (i_compl HI) as Hco. pose proof (i_done HI) as Hdo. pose proof (i_rv HI) as Hrv.
  pose proof (i_ub HI) as Hub. pose proof (i_reg HI) as Hreg. pose proof (i_del HI) as Hdel.
  pose proof (Hfr t) as Hft. pose proof (Hky t) as Hkt. pose proof (fun f fs E => Htl t f fs E) as Htt.
  simpl in Hs; simpl gstep. rewrite Et in Hft, Hkt, Htt, Hs |- *.
  pose proof (Htt _ _ eq_refl) as Hfs. pose proof (Hft _ (or_introl eq_refl)) as Hf0.
  pose proof (fun f (H : In f fs) => Hft f (or_intror H)) as Hff. clear Htt.
  pose proof (fun f' k => @key_top _ fs f' k Hkt) as Hkn. simpl in Hf0, Hkn.
  destruct Hf0 as (E1 & E2 & E3).
  assert (Hld : exists_b (life s c) = true) by (now rewrite E1).
  rewrite rd_ok in Hs by auto.
  destruct (match nt with Some n => n =? t | None => false end) eqn:Ecmp.
  - (* destroyed on the notifying thread *)
    assert (Hnt' : notif s = Some t).
    { destruct nt; [|discriminate]. apply Nat.eqb_eq in Ecmp. congruence. }
    assert (Hno : ph g c <> GPop).
    { intro Hp. destruct (Hcur c (or_introl Hp)) as (t0 & Ht0). unfold ntf_ok in Hnt. rewrite Ht0 in Hnt.
      rewrite Ht0 in Hrun. destruct Hrun as (f & Hf & Hr & Hc). assert (t0 = t) by congruence; subst t0.
      rewrite Et in Hf. destruct Hf as [<-|Hf]; [discriminate|].
      pose proof (Hfs _ Hf). pose proof (Hff _ Hf). destruct f; simpl in *; try discriminate.
      inversion Hc; subst. intuition congruence. }
    assert (Hgx : ph g c = GExec -> rptr s c = true /\ rvar s = Some false).
    { intro Hp. destruct (Hcur c (or_intror Hp)) as (t0 & Ht0). unfold ntf_ok in Hnt. rewrite Ht0 in Hnt.
      rewrite Ht0 in Hrun. destruct Hrun as (f & Hf & Hr & Hc). assert (t0 = t) by congruence; subst t0.
      rewrite Et in Hf. destruct Hf as [<-|Hf]; [discriminate|].
      pose proof (Hfs _ Hf). pose proof (Hff _ Hf). destruct f; simpl in *; try discriminate.
      inversion Hc; subst. destruct H0 as (_ & _ & H0 & _). apply H0. congruence. }
    assert (Hdis : (ph g c = GExec /\ rptr s c = true /\ rvar s = Some false) \/ (ph g c = GDone /\ rptr s c = false)).
    { destruct E2 as [E2|[E2|E2]]; [congruence|left; auto|right; split; auto].
      destruct (rptr s c) eqn:Er; auto. destruct (Hrp _ Er); congruence. }
    destruct Hdis as [(Hp & Hr & Hv)|(Hp & Hr)]; rewrite Hr in Hs; [rewrite Hv in Hs|];
    inversion Hs; subst s'; clear Hs.
    * inv_con; try congruence.
      assert (Hone : forall x, ph g x = GExec -> x = c).
      { intros x Hx. destruct (Hcur c (or_intror Hp)) as (t0 & Ht0). destruct (Hcur x (or_intror Hx)) as (t1 & Ht1). congruence. }
      ++ intros t' f Hf. stk Hf.
        ** pose proof (Hff _ Hf). pose proof (Hfs _ Hf). destruct f; simpl in *; try discriminate.
           --- assert (c0 = c) by (apply Hone; tauto); subst. rewrite set_eq. intuition congruence.
           --- sets; intuition congruence.
        ** specialize (Hfr _ _ Hf). destruct (Hcur c (or_intror Hp)) as (t0 & Ht0).
           unfold ntf_ok in Hnt. rewrite Ht0 in Hnt. fsolve f.
      ++ rep_tail.
      ++ rep_keys.
      ++ rep_own_same.
      ++ rep_run.
      ++ intros x. specialize (Hlf x). sets; auto. rewrite Hp. simpl; auto.
      ++ intros x H. specialize (Hrp _ H). sets; auto.
      ++ intros x H. specialize (Hdo _ H). sets; auto.
      ++ intros c0 t0 H. destruct (Nat.eq_dec c0 c) as [->|Hne]; [rewrite set_eq in H; discriminate|].
    rewrite set_neq in H by auto. destruct (Hreg _ _ H) as (f & Hf & Hk). exists f; split; auto.
    sets; auto. rewrite Et in Hf; destruct Hf as [<-|Hf]; auto. simpl in Hk; congruence.
      ++ intros c0 t0 H. destruct (Nat.eq_dec c0 c) as [->|Hne]; [rewrite set_eq in H; discriminate|].
    rewrite set_neq in H by auto. destruct (Hdel _ _ H) as (f & fs' & Hf & Hk). exists f, fs'; split; auto.
    destruct (Nat.eq_dec t0 t) as [->|]; [|rewrite set_neq; auto].
    rewrite Et in Hf; inversion Hf; subst; simpl in Hk; congruence.
    * inv_con; try congruence.
      ++ intros t' f Hf. stk Hf.
        ** pose proof (Hff _ Hf). pose proof (Hfs _ Hf). fsolve f.
        ** specialize (Hfr _ _ Hf). fsolve f.
      ++ rep_tail.
      ++ rep_keys.
      ++ rep_own_same.
      ++ rep_run.
      ++ intros x. specialize (Hlf x). sets; auto. rewrite Hp. simpl; auto.
      ++ intros x H. specialize (Hrp _ H). sets; auto.
      ++ intros x H. specialize (Hdo _ H). sets; auto.
      ++ intros c0 t0 H. destruct (Nat.eq_dec c0 c) as [->|Hne]; [rewrite set_eq in H; discriminate|].
    rewrite set_neq in H by auto. destruct (Hreg _ _ H) as (f & Hf & Hk). exists f; split; auto.
    sets; auto. rewrite Et in Hf; destruct Hf as [<-|Hf]; auto. simpl in Hk; congruence.
      ++ intros c0 t0 H. destruct (Nat.eq_dec c0 c) as [->|Hne]; [rewrite set_eq in H; discriminate|].
    rewrite set_neq in H by auto. destruct (Hdel _ _ H) as (f & fs' & Hf & Hk). exists f, fs'; split; auto.
    destruct (Nat.eq_dec t0 t) as [->|]; [|rewrite set_neq; auto].
    rewrite Et in Hf; inversion Hf; subst; simpl in Hk; congruence.
  - inversion Hs; subst s'; clear Hs.
    assert (E4 : notif s <> Some t).
    { intro Hn. rewrite Hn in E3; subst nt. rewrite Nat.eqb_refl in Ecmp; discriminate. }
    inv_con; try congruence.
  + intros t' f Hf. stk Hf.
    * destruct Hf as [<-|Hf]; [simpl; rewrite ?set_eq; auto 10|]. pose proof (Hff _ Hf). pose proof (Hfs _ Hf). fsolve f.
    * specialize (Hfr _ _ Hf). fsolve f.
  + rep_tail.
  + rep_keys.
  + rep_own_same.
  + rep_run.
  + rep_reg.
  + rep_del.
Qed.

Lemma Inv_FDelSpin s g t c fs s' : Inv s g -> thr s t = FDelSpin c :: fs -> step t AStep s = Some s' ->
  Inv s' (gstep t AStep s g).
Proof.
  intros HI Et Hs.
  pose proof (i_frames HI) as Hfr. pose proof (i_tail HI) as Htl. pose proof (i_keys HI) as Hky.
  pose proof (i_own HI) as Hown. pose proof (i_run HI) as Hrun. pose proof (i_lock HI) as Hlk.
  pose proof (i_stop HI) as Hst. pose proof (i_seg HI) as Hseg. pose proof (i_nd HI) as Hnd.
  pose proof (i_in HI) as Hin. pose proof (i_life HI) as Hlf. pose proof (i_cur HI) as Hcur.
  pose proof (i_ntf HI) as Hnt. pose proof (i_prev HI) as Hpv. pose proof (i_rptr HI) as Hrp.
  pose proof (i_compl HI) as Hco. pose proof (i_done HI) as Hdo. pose proof (i_rv HI) as Hrv.
  pose proof (i_ub HI) as Hub. pose proof (i_reg HI) as Hreg. pose proof (i_del HI) as Hdel.
  pose proof (Hfr t) as Hft. pose proof (Hky t) as Hkt. pose proof (fun f fs E => Htl t f fs E) as Htt.
  simpl in Hs; simpl gstep. rewrite Et in Hft, Hkt, Htt, Hs |- *.
  pose proof (Htt _ _ eq_refl) as Hfs. pose proof (Hft _ (or_introl eq_refl)) as Hf0.
  pose proof (fun f (H : In f fs) => Hft f (or_intror H)) as Hff. clear Htt.
  pose proof (fun f' k => @key_top _ fs f' k Hkt) as Hkn. simpl in Hf0, Hkn.
  destruct Hf0 as (E1 & E2 & E3). destruct (completed s c) eqn:Ec; [|discriminate].
  rewrite rd_ok in Hs by (auto; now rewrite E1). inversion Hs; subst s'; clear Hs.
  pose proof (Hco _ Ec) as Hp.
  inv_con; try congruence.
  + intros t' f Hf. stk Hf.
    * pose proof (Hff _ Hf). pose proof (Hfs _ Hf). fsolve f.
    * specialize (Hfr _ _ Hf). fsolve f.
  + rep_tail.
  + rep_keys.
  + rep_own_same.
  + rep_run.
  + intros x. specialize (Hlf x). sets; auto. rewrite Hp. simpl; auto.
  + intros x H. specialize (Hrp _ H). sets; auto.
  + intros x H. specialize (Hdo _ H). sets; auto.
  + intros c0 t0 H. destruct (Nat.eq_dec c0 c) as [->|Hne]; [rewrite set_eq in H; discriminate|].
    rewrite set_neq in H by auto. destruct (Hreg _ _ H) as (f & Hf & Hk). exists f; split; auto.
    sets; auto. rewrite Et in Hf; destruct Hf as [<-|Hf]; auto. simpl in Hk; congruence.
  + intros c0 t0 H. destruct (Nat.eq_dec c0 c) as [->|Hne]; [rewrite set_eq in H; discriminate|].
    rewrite set_neq in H by auto. destruct (Hdel _ _ H) as (f & fs' & Hf & Hk). exists f, fs'; split; auto.
    destruct (Nat.eq_dec t0 t) as [->|]; [|rewrite set_neq; auto].
    rewrite Et in Hf; inversion Hf; subst; simpl in Hk; congruence.
Qed.

Theorem Inv_step s g t a s' : Inv s g -> step t a s = Some s' -> Inv s' (gstep t a s g).
Proof.
  intros HI Hs. destruct a; try (eapply Inv_user; eauto; discriminate).
  destruct (thr s t) as [|f fs] eqn:Et; [simpl in Hs; rewrite Et in Hs; discriminate|].
  destruct f;
    eauto using Inv_FReq0, Inv_FReqSet, Inv_FReqLoop, Inv_FReqPopped, Inv_FReqUnlk, Inv_FReqAfter,
      Inv_FReqCompl, Inv_FReqRelock, Inv_FReqFinish, Inv_FReg0, Inv_FRegHold, Inv_FRegUnlock,
      Inv_FDel0, Inv_FDelHold, Inv_FDelUnlinked, Inv_FDelNot, Inv_FDelCmp, Inv_FDelSpin;
    simpl in Hs; rewrite Et in Hs; discriminate.
Qed.

Theorem Inv_reach s g : greach s g -> Inv s g.
Proof. induction 1; [apply Inv_init|eapply Inv_step; eauto]. Qed.
