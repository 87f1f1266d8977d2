(** * StopProofs: the invariant of the inplace_stop_source state machine.

    Ghost state: who owns the spin lock, how far the one running request_stop is, the phase of
    each callback, and the abstract list of registered callbacks.  The invariant ties them to the
    concrete state of StopModel. *)

From Coq Require Import List Arith Bool Lia.
From Verif Require Import StopModel.
Import ListNotations.
Set Implicit Arguments.

Inductive phase := GOut | GIn | GPop | GExec | GDone | GRem | GInl.
Inductive nstate := NoStop | NSet (t : tid) | NRun (t : tid) (cur : option cb) | NFin (t : tid).

Record ghost := { own : option tid; ntf : nstate; ph : cb -> phase; lst : list cb }.

Definition ginit : ghost := {| own := None; ntf := NoStop; ph := fun _ => GOut; lst := [] |}.

Definition g_own (g : ghost) o := {| own := o; ntf := ntf g; ph := ph g; lst := lst g |}.
Definition g_ntf (g : ghost) n := {| own := own g; ntf := n; ph := ph g; lst := lst g |}.
Definition g_ph (g : ghost) c p := {| own := own g; ntf := ntf g; ph := set (ph g) c p; lst := lst g |}.
Definition g_lst (g : ghost) l := {| own := own g; ntf := ntf g; ph := ph g; lst := l |}.

Definition rem (c : cb) (l : list cb) := filter (fun x => negb (x =? c)) l.

(** ghost transition, alongside [step] *)
Definition gstep (t : tid) (a : action) (s : state) (g : ghost) : ghost :=
  match a with
  | AReturn =>
      match thr s t with
      | FReqExec c :: _ =>
          match rvar s with
          | Some true => g_ntf (g_ph g c GDone) (NRun t None)
          | _ => g
          end
      | _ => g
      end
  | AStep =>
      match thr s t with
      | [] => g
      | f :: _ =>
          match f with
          | FReq0 => if stopb s then g else g_ntf (g_own g (Some t)) (NSet t)
          | FReqSet => g_ntf g (NRun t None)
          | FReqLoop =>
              match head s with
              | None => g
              | Some c => g_lst (g_ntf (g_ph g c GPop) (NRun t (Some c))) (tl (lst g))
              end
          | FReqPopped c => g_own g None
          | FReqUnlk c => g_ph g c GExec
          | FReqCompl c => g_ntf (g_ph g c GDone) (NRun t None)
          | FReqRelock => g_own g (Some t)
          | FReqFinish => g_ntf (g_own g None) (NFin t)
          | FReg0 c => if stopb s then g_ph g c GInl else g_own g (Some t)
          | FRegHold c => g_lst (g_ph g c GIn) (c :: lst g)
          | FRegUnlock _ => g_own g None
          | FDel0 _ => g_own g (Some t)
          | FDelHold c _ =>
              match prevp s c with
              | PNull => g
              | _ => g_lst (g_ph g c GRem) (rem c (lst g))
              end
          | FDelUnlinked _ _ => g_own g None
          | FDelNot _ _ _ => g_own g None
          | _ => g
          end
      end
  | _ => g
  end.

Inductive greach : state -> ghost -> Prop :=
| gr_init : greach init ginit
| gr_step s g t a s' : greach s g -> step t a s = Some s' -> greach s' (gstep t a s g).

Lemma reachable_greach s : reachable s -> exists g, greach s g.
Proof.
  induction 1 as [|s t a s' Hr [g IH] Hs].
  - exists ginit; constructor.
  - exists (gstep t a s g); econstructor; eauto.
Qed.

(** ** Doubly linked list segments *)
Fixpoint seg (nx : cb -> option cb) (pv : cb -> ploc) (p : ploc) (h : option cb) (l : list cb) : Prop :=
  match l with
  | [] => h = None
  | c :: l' => h = Some c /\ pv c = p /\ seg nx pv (PNext c) (nx c) l'
  end.

Lemma set_eq A (f : nat -> A) x v : set f x v x = v.
Proof. unfold set; now rewrite Nat.eqb_refl. Qed.
Lemma set_neq A (f : nat -> A) x y v : y <> x -> set f x v y = f y.
Proof. unfold set; intros H; apply Nat.eqb_neq in H; now rewrite H. Qed.

Lemma seg_ext nx pv nx' pv' l : forall p h,
  (forall c, In c l -> nx' c = nx c) -> (forall c, In c l -> pv' c = pv c) ->
  seg nx pv p h l -> seg nx' pv' p h l.
Proof.
  induction l as [|c l IH]; simpl; intros p h Hn Hp H; auto.
  destruct H as (-> & H2 & H3). repeat split.
  - rewrite Hp; auto.
  - rewrite Hn by auto. apply IH; auto.
Qed.

(** changing the first element's prev pointer *)
Lemma seg_reprev nx pv p p' h l :
  NoDup l -> seg nx pv p h l ->
  seg nx (match h with Some n => set pv n p' | None => pv end) p' h l.
Proof.
  destruct l as [|c l]; simpl; intros Hnd H; subst; auto.
  destruct H as (-> & H2 & H3). inversion Hnd; subst.
  repeat split.
  - apply set_eq.
  - eapply seg_ext; [| |exact H3]; intros; auto.
    apply set_neq; intro; subst; contradiction.
Qed.

Definition first (l : list cb) : option cb := match l with [] => None | c :: _ => Some c end.

Lemma seg_head nx pv p h l : seg nx pv p h l -> h = first l.
Proof. destruct l; simpl; intuition. Qed.

Lemma first_in l h : first l = Some h -> In h l.
Proof. destruct l; simpl; intros E; inversion E; auto. Qed.

Lemma in_rem c x l : In x (rem c l) <-> In x l /\ x <> c.
Proof.
  unfold rem; rewrite filter_In. destruct (Nat.eqb_spec x c); simpl; intuition congruence.
Qed.
Lemma nodup_rem c l : NoDup l -> NoDup (rem c l).
Proof. apply NoDup_filter. Qed.
Lemma rem_notin c l : ~ In c l -> rem c l = l.
Proof.
  induction l as [|x l IH]; simpl; intros H; auto.
  destruct (Nat.eqb_spec x c); simpl; [intuition|]. now rewrite IH by intuition.
Qed.

(** members of a segment: neighbours are members *)
Lemma seg_next_in nx pv l : forall h p c n,
  seg nx pv p h l -> In c l -> nx c = Some n -> In n l.
Proof.
  induction l as [|x l IH]; simpl; intros h p c n H Hin Hn; [destruct Hin|].
  destruct H as (-> & H2 & H3). destruct Hin as [->|Hin].
  - destruct l; simpl in H3; [congruence|]. destruct H3 as (H3 & _). rewrite H3 in Hn.
    inversion Hn; subst; simpl; auto.
  - right; eapply IH; eauto.
Qed.
(** unlinking an element of a segment *)
Definition unl_nx (nx : cb -> option cb) (pv : cb -> ploc) c :=
  match pv c with PNext p => set nx p (nx c) | _ => nx end.
Definition unl_pv (nx : cb -> option cb) (pv : cb -> ploc) c :=
  match nx c with Some n => set pv n (pv c) | None => pv end.

Lemma seg_unlink_in nx pv c l : forall q,
  NoDup (q :: l) -> In c l -> pv c <> PHead ->
  seg nx pv (PNext q) (nx q) l ->
  seg (unl_nx nx pv c) (unl_pv nx pv c) (PNext q) (unl_nx nx pv c q) (rem c l).
Proof.
  induction l as [|x l IH]; intros q Hnd Hin Hnh H; [destruct Hin|].
  simpl in H. destruct H as (H1 & H2 & H3).
  inversion Hnd as [|? ? Hq Hnd']; subst. inversion Hnd' as [|? ? Hx Hnd'']; subst.
  destruct (Nat.eq_dec x c) as [->|Hne].
  - assert (Hr : rem c (c :: l) = l).
    { unfold rem; simpl; rewrite Nat.eqb_refl; simpl. apply rem_notin; auto. }
    rewrite Hr. unfold unl_nx, unl_pv. rewrite H2. rewrite set_eq.
    eapply seg_ext with (nx := nx); [| | eapply seg_reprev; eauto].
    + intros y Hy; apply set_neq. intro; subst; apply Hq; simpl; auto.
    + intros y Hy. destruct (nx c); auto.
  - assert (Hr : rem c (x :: l) = x :: rem c l).
    { unfold rem; simpl. destruct (Nat.eqb_spec x c); [congruence|reflexivity]. }
    rewrite Hr. simpl. destruct Hin as [->|Hin]; [congruence|].
    assert (Hcq : c <> q) by (intro; subst; apply Hq; simpl; auto).
    assert (Hpv : exists p, pv c = PNext p /\ In p (x :: l) /\ p <> c).
    { clear - Hin H3 Hx Hnd''. revert x H3 Hx Hnd'' Hin.
      induction l as [|y l IH]; intros x H3 Hx Hnd Hin; [destruct Hin|].
      simpl in H3. destruct H3 as (Ha & Hb & Hc). inversion Hnd; subst.
      destruct Hin as [->|Hin].
      - exists x; simpl; repeat split; auto. intro; subst; apply Hx; simpl; auto.
      - destruct (IH y Hc ltac:(auto) ltac:(auto) Hin) as (p & ? & ? & ?). exists p; repeat split; auto.
        simpl; auto. }
    destruct Hpv as (p & Hp1 & Hp2 & Hp3).
    repeat split.
    + unfold unl_nx; rewrite Hp1. rewrite set_neq; auto. intro; subst; apply Hq; auto.
    + unfold unl_pv. destruct (nx c) as [n|] eqn:En; auto.
      destruct (Nat.eq_dec x n) as [->|]; [|rewrite set_neq; auto].
      (* the successor of c would be x, the head: impossible *)
      exfalso. apply Hx. eapply seg_next_in; eauto.
    + apply IH; auto.
Qed.

Lemma seg_unlink nx pv h c l :
  NoDup l -> In c l -> seg nx pv PHead h l ->
  seg (unl_nx nx pv c) (unl_pv nx pv c) PHead
      (match pv c with PHead => nx c | _ => h end) (rem c l).
Proof.
  intros Hnd Hin H. destruct l as [|x l]; [destruct Hin|].
  simpl in H; destruct H as (-> & H2 & H3). inversion Hnd as [|? ? Hx Hnd']; subst.
  destruct (Nat.eq_dec x c) as [->|Hne].
  - assert (Hr : rem c (c :: l) = l).
    { unfold rem; simpl; rewrite Nat.eqb_refl; simpl. apply rem_notin; auto. }
    rewrite Hr. rewrite H2. unfold unl_nx, unl_pv. rewrite H2.
    eapply seg_reprev; eauto.
  - assert (Hr : rem c (x :: l) = x :: rem c l).
    { unfold rem; simpl. destruct (Nat.eqb_spec x c); [congruence|reflexivity]. }
    destruct Hin as [->|Hin]; [congruence|].
    assert (Hnh : exists p, pv c = PNext p).
    { clear - Hin H3. revert x H3. induction l as [|y l IH]; intros x H3; [destruct Hin|].
      simpl in H3; destruct H3 as (Ha & Hb & Hc). destruct Hin as [->|Hin]; eauto. }
    destruct Hnh as (p & Hp). rewrite Hr, Hp. simpl. repeat split.
    + unfold unl_pv. destruct (nx c) as [n|] eqn:En; auto.
      destruct (Nat.eq_dec x n) as [->|]; [|rewrite set_neq; auto].
      exfalso. apply Hx. eapply seg_next_in; eauto.
    + apply seg_unlink_in; auto. rewrite Hp; discriminate.
Qed.

Lemma seg_in_prev nx pv l : forall h p c, seg nx pv p h l -> p <> PNull -> In c l -> pv c <> PNull.
Proof.
  induction l as [|x l IH]; simpl; intros h p c H Hp Hin; [destruct Hin|].
  destruct H as (-> & H2 & H3). destruct Hin as [->|Hin]; [congruence|].
  eapply IH; eauto. discriminate.
Qed.

Lemma seg_prev_in nx pv l : forall h p c q,
  seg nx pv p h l -> In c l -> pv c = PNext q -> In q l \/ p = PNext q.
Proof.
  induction l as [|x l IH]; simpl; intros h p c q H Hin Hq; [destruct Hin|].
  destruct H as (-> & H2 & H3). destruct Hin as [->|Hin]; [right; congruence|].
  destruct (IH _ _ _ _ H3 Hin Hq) as [|E]; auto. inversion E; auto.
Qed.

Lemma seg_prev_neq nx pv l : forall h p c q,
  NoDup l -> seg nx pv p h l -> In c l -> pv c = PNext q -> p <> PNext c -> q <> c.
Proof.
  induction l as [|x l IH]; simpl; intros h p c q Hnd H Hin Hq Hp; [destruct Hin|].
  destruct H as (-> & H2 & H3). inversion Hnd; subst. destruct Hin as [->|Hin]; [congruence|].
  eapply IH; eauto. intro E; inversion E; subst; contradiction.
Qed.

(** ** The invariant *)
Definition user_frame (f : frame) : bool :=
  match f with FReqExec _ | FRegInline _ => true | _ => false end.

(** the frame holds the spin lock *)
Definition in_cs (f : frame) : bool :=
  match f with
  | FReqSet | FReqLoop | FReqPopped _ | FReqFinish | FRegHold _ | FRegUnlock _
  | FDelHold _ _ | FDelUnlinked _ _ | FDelNot _ _ _ => true
  | _ => false
  end.

(** the frame is the running (winning) request_stop *)
Definition is_run (f : frame) : bool :=
  match f with
  | FReqSet | FReqLoop | FReqPopped _ | FReqUnlk _ | FReqExec _ | FReqAfter _ | FReqCompl _
  | FReqRelock | FReqFinish => true
  | _ => false
  end.

Definition run_cb (f : frame) : option cb :=
  match f with
  | FReqPopped c | FReqUnlk c | FReqExec c | FReqAfter c | FReqCompl c => Some c
  | _ => None
  end.

Definition popped (p : phase) : Prop := p = GPop \/ p = GExec \/ p = GDone.

Definition frame_ok (g : ghost) (s : state) (t : tid) (f : frame) : Prop :=
  match f with
  | FReq0 => True
  | FReqSet => own g = Some t /\ ntf g = NSet t
  | FReqLoop => own g = Some t /\ ntf g = NRun t None
  | FReqPopped c => own g = Some t /\ ntf g = NRun t (Some c) /\ ph g c = GPop
  | FReqUnlk c => ntf g = NRun t (Some c) /\ ph g c = GPop
  | FReqExec c => ntf g = NRun t (Some c) /\ ph g c = GExec /\
                  (life s c <> LDead -> rptr s c = true /\ rvar s = Some false) /\
                  (life s c = LDead -> rvar s = Some true)
  | FReqAfter c =>
      ntf g = NRun t (Some c) /\ ph g c = GExec /\ life s c <> LDead /\ rvar s = Some false
  | FReqCompl c =>
      ntf g = NRun t (Some c) /\ ph g c = GExec /\ life s c <> LDead /\ rvar s = Some false /\
      rptr s c = false
  | FReqRelock => ntf g = NRun t None
  | FReqFinish => own g = Some t /\ ntf g = NRun t None /\ lst g = []
  | FReg0 c => life s c = LReg t /\ ph g c = GOut
  | FRegHold c => own g = Some t /\ life s c = LReg t /\ ph g c = GOut /\ stopb s = false
  | FRegUnlock c => own g = Some t /\ life s c = LReg t /\ ph g c = GIn /\ stopb s = false
  | FRegInline c => life s c = LReg t /\ ph g c = GInl
  | FDel0 c => life s c = LDel t /\ (ph g c = GIn \/ popped (ph g c))
  | FDelHold c old => own g = Some t /\ life s c = LDel t /\ (ph g c = GIn \/ popped (ph g c)) /\
                      old = stopb s
  | FDelUnlinked c old => own g = Some t /\ life s c = LDel t /\ ph g c = GRem /\ old = stopb s
  | FDelNot c old nt => own g = Some t /\ life s c = LDel t /\ popped (ph g c) /\ old = stopb s /\
                        nt = notif s
  | FDelCmp c nt => life s c = LDel t /\ popped (ph g c) /\ nt = notif s
  | FDelSpin c => life s c = LDel t /\ popped (ph g c) /\ notif s <> Some t
  end.

Definition key (f : frame) : option (option cb) :=
  match f with
  | FReqSet | FReqLoop | FReqPopped _ | FReqUnlk _ | FReqExec _ | FReqAfter _ | FReqCompl _
  | FReqRelock | FReqFinish => Some None
  | FReg0 c | FRegHold c | FRegUnlock c | FRegInline c => Some (Some c)
  | _ => None
  end.

(** the callback a destructor frame destroys *)
Definition del_cb (f : frame) : option cb :=
  match f with
  | FDel0 c | FDelHold c _ | FDelUnlinked c _ | FDelNot c _ _ | FDelCmp c _ | FDelSpin c => Some c
  | _ => None
  end.

(** keys of a stack, top first *)
Fixpoint keys (fs : list frame) : list (option cb) :=
  match fs with
  | [] => []
  | f :: fs => match key f with Some k => k :: keys fs | None => keys fs end
  end.

Definition life_ok (l : lifetime) (p : phase) : Prop :=
  match l with
  | LNone => p = GOut
  | LReg _ => p = GOut \/ p = GIn \/ p = GInl
  | LLive => p = GIn \/ popped p
  | LInl => p = GInl
  | LDel _ => p = GIn \/ p = GRem \/ popped p
  | LDead => p = GRem \/ p = GExec \/ p = GDone \/ p = GInl
  end.

Definition ntf_ok (g : ghost) (s : state) : Prop :=
  match ntf g with
  | NoStop | NSet _ => notif s = None /\ forall c, ~ popped (ph g c)
  | NRun t cur => notif s = Some t
  | NFin t => notif s = Some t /\ lst g = []
  end.

Record Inv (s : state) (g : ghost) : Prop := {
  i_frames : forall t f, In f (thr s t) -> frame_ok g s t f;
  i_tail : forall t f fs, thr s t = f :: fs -> forall f', In f' fs -> user_frame f' = true;
  i_keys : forall t, NoDup (keys (thr s t));
  i_own : forall t, own g = Some t -> exists f fs, thr s t = f :: fs /\ in_cs f = true;
  i_run : match ntf g with
          | NSet t => exists f, In f (thr s t) /\ is_run f = true /\ run_cb f = None
          | NRun t cur => exists f, In f (thr s t) /\ is_run f = true /\ run_cb f = cur
          | _ => True
          end;
  i_lock : lockb s = match own g with Some _ => true | None => false end;
  i_stop : stopb s = match ntf g with NoStop => false | _ => true end;
  i_seg : seg (next s) (prevp s) PHead (head s) (lst g);
  i_nd : NoDup (lst g);
  i_in : forall c, In c (lst g) <-> ph g c = GIn;
  i_life : forall c, life_ok (life s c) (ph g c);
  i_cur : forall c, ph g c = GPop \/ ph g c = GExec -> exists t, ntf g = NRun t (Some c);
  i_ntf : ntf_ok g s;
  i_prev : forall c, popped (ph g c) -> prevp s c = PNull;
  i_rptr : forall c, rptr s c = true -> life s c = LDead \/ ph g c = GExec;
  i_compl : forall c, completed s c = true -> ph g c = GDone;
  i_done : forall c, ph g c = GDone -> completed s c = true \/ life s c = LDead;
  i_rv : forall c, ph g c = GExec -> rvar s <> None;
  i_reg : forall c t, life s c = LReg t -> exists f, In f (thr s t) /\ key f = Some (Some c);
  i_del : forall c t, life s c = LDel t -> exists f fs, thr s t = f :: fs /\ del_cb f = Some c;
  i_ub : ub s = false }.

(** ** The list operations as single updates *)
Definition w_list (s : state) h nx pv : state :=
  {| stopb := stopb s; lockb := lockb s; head := h; notif := notif s; next := nx; prevp := pv;
     rptr := rptr s; rvar := rvar s; completed := completed s; life := life s; thr := thr s;
     log := log s; ub := ub s |}.

Lemma touch_ok s c : ub s = false -> exists_b (life s c) = true -> touch s c = false.
Proof. intros H1 H2; unfold touch; now rewrite H1, H2. Qed.

Lemma pop_head_eq s c :
  ub s = false -> exists_b (life s c) = true ->
  (forall h, next s c = Some h -> exists_b (life s h) = true) ->
  pop_head s c = w_list s (next s c) (next s)
    (match next s c with Some h => set (set (prevp s) c PNull) h PHead | None => set (prevp s) c PNull end).
Proof.
  intros H1 H2 H3. unfold pop_head, w_prevp, w_head, rd, w_ub, w_list, touch; simpl.
  destruct (next s c) as [h|] eqn:E; simpl; rewrite H1, H2; simpl; auto.
  now rewrite (H3 h eq_refl).
Qed.

Lemma push_front_eq s c :
  ub s = false -> exists_b (life s c) = true ->
  (forall h, head s = Some h -> exists_b (life s h) = true) ->
  push_front s c = w_list s (Some c) (set (next s) c (head s))
    (match head s with Some h => set (set (prevp s) c PHead) h (PNext c) | None => set (prevp s) c PHead end).
Proof.
  intros H1 H2 H3. unfold push_front, w_prevp, w_next, w_head, w_list, touch; simpl.
  destruct (head s) as [h|] eqn:E; simpl; rewrite H1, H2; simpl; auto.
  now rewrite (H3 h eq_refl).
Qed.

Lemma unlink_eq s c :
  ub s = false -> exists_b (life s c) = true -> prevp s c <> PNull ->
  (forall h, next s c = Some h -> exists_b (life s h) = true) ->
  (forall p, prevp s c = PNext p -> exists_b (life s p) = true) ->
  (forall p, prevp s c = PNext p -> p <> c) ->
  unlink s c = w_list s (match prevp s c with PHead => next s c | _ => head s end)
    (unl_nx (next s) (prevp s) c) (unl_pv (next s) (prevp s) c).
Proof.
  intros H1 H2 Hp H3 H4 H5.
  unfold unlink, unl_nx, unl_pv, w_prevp, w_next, w_head, rd, w_ub, w_list, touch; simpl.
  destruct (prevp s c) as [| |p] eqn:E; [congruence| |]; simpl.
  - destruct (next s c) as [h|] eqn:En; simpl; rewrite H1, H2; simpl; auto.
    now rewrite E, (H3 h eq_refl).
  - rewrite set_neq by (intro; subst; eapply H5; eauto).
    destruct (next s c) as [h|] eqn:En; simpl; rewrite H1, H2; simpl;
    rewrite (H4 p eq_refl); simpl; auto. now rewrite E, (H3 h eq_refl).
Qed.

Lemma in_exists s g c : Inv s g -> In c (lst g) -> exists_b (life s c) = true.
Proof.
  intros HI Hin. apply (i_in HI) in Hin. pose proof (i_life HI c) as H. rewrite Hin in H.
  unfold life_ok, popped in H. destruct (life s c); simpl; auto; intuition congruence.
Qed.

Lemma rd_ok s c : ub s = false -> exists_b (life s c) = true -> rd s c = s.
Proof.
  intros H1 H2. unfold rd, w_ub. rewrite touch_ok by auto. rewrite <- H1. now destruct s.
Qed.

Lemma Inv_init : Inv init ginit.
Proof.
  constructor; simpl; auto; try congruence; try (intros; contradiction); try (intros; solve [constructor]); try discriminate;
  unfold ntf_ok, popped; simpl; intuition (try discriminate; auto).
Qed.

Lemma keys_tail f fs : NoDup (keys (f :: fs)) -> NoDup (keys fs).
Proof. simpl. destruct (key f); auto. now inversion 1. Qed.

Lemma key_in f fs k : In f fs -> key f = Some k -> In k (keys fs).
Proof.
  induction fs as [|x fs IH]; simpl; [tauto|]. intros [->|Hin] Hk.
  - rewrite Hk; simpl; auto.
  - destruct (key x); simpl; auto.
Qed.

Lemma in_keys k fs : In k (keys fs) -> exists f, In f fs /\ key f = Some k.
Proof.
  induction fs as [|x fs IH]; simpl; [tauto|].
  destruct (key x) eqn:E; simpl.
  - intros [->|H]; [eauto|]. destruct (IH H) as (f & ? & ?); eauto.
  - intros H; destruct (IH H) as (f & ? & ?); eauto.
Qed.

Lemma key_top f fs f' k : NoDup (keys (f :: fs)) -> key f = Some k -> In f' fs -> key f' <> Some k.
Proof.
  intros Hnd Hk Hin Hk'. simpl in Hnd. rewrite Hk in Hnd. inversion Hnd; subst.
  eapply key_in in Hk'; eauto.
Qed.

Ltac sets := unfold set in *;
  repeat match goal with
  | |- context [?x =? ?y] => destruct (Nat.eqb_spec x y); subst
  | H : context [?x =? ?y] |- _ => destruct (Nat.eqb_spec x y); subst
  end.

Ltac stk H := (* H : In f (set (thr s) t stack t') *)
  unfold set in H;
  match type of H with context [if ?x =? ?y then _ else _] =>
    destruct (Nat.eqb_spec x y); [subst|] end.

Ltac fsolve f :=
  destruct f; simpl in *; try discriminate; unfold popped in *; sets; intuition congruence.

(** the stack invariants when an activation is pushed from user code *)
Ltac push_tail :=
  match goal with Htl : forall t f fs, thr ?s t = f :: fs -> _, Hau : at_user (thr ?s ?t) = true |- _ =>
    let t' := fresh "t'" in let f := fresh "f" in let fs := fresh "fs" in let E := fresh "E" in
    let f' := fresh "f'" in let Hf' := fresh "Hf'" in
    intros t' f fs E f' Hf'; stk E; [|eapply Htl; eauto];
    inversion E; subst; destruct (thr s t) as [|x xs] eqn:Et; [destruct Hf'|];
    destruct Hf' as [<-|Hf']; [destruct x; simpl in *; auto; discriminate|eapply Htl; eauto]
  end.
Ltac push_own :=
  match goal with Hown : forall t, own _ = Some t -> _, Hau : at_user (thr ?s ?t) = true |- _ =>
    let t' := fresh "t'" in let Ho := fresh "Ho" in
    intros t' Ho; destruct (Hown _ Ho) as (f & fs & E & Hc);
    sets; [|eauto]; exfalso; rewrite E in Hau; destruct f; discriminate
  end.
Ltac push_run :=
  match goal with Hrun : match ntf ?g with _ => _ end |- _ =>
    destruct (ntf g); auto; destruct Hrun as (f & ? & ? & ?); exists f; sets; simpl; auto
  end.

(** the same when the top activation F0 (Et : thr s t = F0 :: fs) is replaced or popped *)
Ltac rep_frames :=
  match goal with Hft : forall f, In f (thr ?s ?t) -> _, Hfr : forall t f, In f (thr ?s t) -> _ |- _ =>
    let t' := fresh "t'" in let f := fresh "f" in let Hf := fresh "Hf" in
    intros t' f Hf; stk Hf
  end.
Ltac rep_tail :=
  match goal with Htl : forall t f fs, thr ?s t = f :: fs -> _, Et : thr ?s ?t = ?F0 :: ?fs |- _ =>
    let t' := fresh "t'" in let f := fresh "f" in let fs' := fresh "fs" in let E := fresh "E" in
    let f' := fresh "f'" in let Hf' := fresh "Hf'" in
    intros t' f fs' E f' Hf'; stk E; [|eapply Htl; eauto];
    first [ eapply Htl; [exact Et|]; simpl; solve [auto]
          | inversion E; subst; eapply Htl; [exact Et|]; simpl; solve [auto] ]
  end.
Ltac rep_keys :=
  match goal with Hkt : NoDup (keys (_ :: _)) |- _ =>
    let t' := fresh "t'" in
    intros t'; sets; simpl in *; auto; inversion Hkt; subst; auto
  end.
Ltac rep_own_same := (* ownership unchanged, F0 not in the critical section *)
  match goal with Hown : forall t, own _ = Some t -> _, Et : thr ?s ?t = ?F0 :: ?fs |- _ =>
    let t' := fresh "t'" in let Ho := fresh "Ho" in
    intros t' Ho; destruct (Hown _ Ho) as (f & fs' & E & Hc);
    destruct (Nat.eq_dec t' t) as [->|Hne]; [exfalso; rewrite Et in E; inversion E; subst; discriminate
    |exists f, fs'; rewrite set_neq by auto; auto]
  end.
Ltac rep_run := (* F0 is not the running request_stop *)
  match goal with Hrun : match ntf ?g with _ => _ end, Et : thr ?s ?t = ?F0 :: ?fs |- _ =>
    destruct (ntf g); auto; destruct Hrun as (f & Hrf & Hrr & ?); exists f; sets; simpl; auto;
    rewrite Et in Hrf; destruct Hrf as [<-|Hrf]; try discriminate; simpl; auto
  end.

(** constructor and destructor activations *)
Ltac push_reg :=
  match goal with Hreg : forall c t, life ?s c = LReg t -> _ |- _ =>
    let c0 := fresh "c" in let t0 := fresh "t" in let H := fresh "H" in
    intros c0 t0 H; destruct (Hreg c0 t0 H) as (f & Hf & Hk); exists f; sets; simpl; auto
  end.
Ltac push_del :=
  match goal with Hdel : forall c t, life ?s c = LDel t -> _, Hau : at_user (thr ?s ?t) = true |- _ =>
    let c0 := fresh "c" in let t0 := fresh "t" in let H := fresh "H" in
    intros c0 t0 H; destruct (Hdel c0 t0 H) as (f & fs & Hf & Hk);
    destruct (Nat.eq_dec t0 t) as [->|?];
    [exfalso; rewrite Hf in Hau; destruct f; discriminate | rewrite set_neq by auto; eauto]
  end.
Ltac rep_reg :=
  match goal with Hreg : forall c t, life ?s c = LReg t -> _, Et : thr ?s ?t = ?F0 :: ?fs |- _ =>
    let c0 := fresh "c" in let t0 := fresh "t" in let H := fresh "H" in
    intros c0 t0 H; destruct (Hreg c0 t0 H) as (f & Hf & Hk);
    destruct (Nat.eq_dec t0 t) as [->|?];
    [ rewrite set_eq; rewrite Et in Hf; destruct Hf as [<-|Hf];
      [first [discriminate Hk | eexists; split; [left; reflexivity|exact Hk]] | exists f; simpl; auto]
    | exists f; rewrite set_neq by auto; auto ]
  end.
Ltac rep_del :=
  match goal with Hdel : forall c t, life ?s c = LDel t -> _, Et : thr ?s ?t = ?F0 :: ?fs |- _ =>
    let c0 := fresh "c" in let t0 := fresh "t" in let H := fresh "H" in
    intros c0 t0 H; destruct (Hdel c0 t0 H) as (f & fs' & Hf & Hk);
    destruct (Nat.eq_dec t0 t) as [->|?];
    [ rewrite set_eq; rewrite Et in Hf; inversion Hf; subst;
      first [discriminate Hk | eexists; eexists; split; [reflexivity|exact Hk]]
    | exists f, fs'; rewrite set_neq by auto; auto ]
  end.

(** frames of the stepping thread that stay on its stack *)
Lemma frames_upd (g g' : ghost) s s' t st :
  (forall t', t' <> t -> thr s' t' = thr s t') -> thr s' t = st ->
  (forall f, In f st -> frame_ok g' s' t f) ->
  (forall t' f, t' <> t -> frame_ok g s t' f -> frame_ok g' s' t' f) ->
  (forall t' f, In f (thr s t') -> frame_ok g s t' f) ->
  forall t' f, In f (thr s' t') -> frame_ok g' s' t' f.
Proof.
  intros H1 H2 H3 H4 H5 t' f Hin. destruct (Nat.eq_dec t' t) as [->|Hne].
  - rewrite H2 in Hin; auto.
  - rewrite H1 in Hin by auto; auto.
Qed.


Ltac own_now := (* t takes the lock *)
  let t' := fresh "t'" in let Ho := fresh "Ho" in
  intros t' Ho; inversion Ho; subst; rewrite set_eq; eexists; eexists; split; [reflexivity|reflexivity].
Ltac own_keep := (* t holds and keeps the lock *)
  let t' := fresh "t'" in let Ho := fresh "Ho" in
  intros t' Ho;
  match goal with E1 : own _ = Some ?t |- _ =>
    assert (t' = t) by congruence; subst; rewrite set_eq; eexists; eexists; split; [reflexivity|reflexivity] end.
Ltac run_now := eexists; rewrite set_eq; split; [left; reflexivity|split; reflexivity].

Lemma Inv_user s g t a s' : a <> AStep -> Inv s g -> step t a s = Some s' -> Inv s' (gstep t a s g).
Proof.
  intros Hna HI Hs.
  pose proof (i_frames HI) as Hfr. pose proof (i_tail HI) as Htl. pose proof (i_keys HI) as Hky.
  pose proof (i_own HI) as Hown. pose proof (i_run HI) as Hrun. pose proof (i_lock HI) as Hlk.
  pose proof (i_stop HI) as Hst. pose proof (i_seg HI) as Hseg. pose proof (i_nd HI) as Hnd.
  pose proof (i_in HI) as Hin. pose proof (i_life HI) as Hlf. pose proof (i_cur HI) as Hcur.
  pose proof (i_ntf HI) as Hnt. pose proof (i_prev HI) as Hpv. pose proof (i_rptr HI) as Hrp.
  pose proof (i_compl HI) as Hco. pose proof (i_done HI) as Hdo. pose proof (i_rv HI) as Hrv.
  pose proof (i_ub HI) as Hub. pose proof (i_reg HI) as Hreg. pose proof (i_del HI) as Hdel.
  pose proof (Hfr t) as Hft. pose proof (Hky t) as Hkt. pose proof (fun f fs E => Htl t f fs E) as Htt.
  destruct a; simpl in Hs; simpl gstep.
  - (* ARequest *)
    destruct (at_user (thr s t)) eqn:Hau; [|discriminate]. inversion Hs; subst s'; clear Hs.
    constructor; simpl; auto.
    + intros t' f Hf. stk Hf.
      * destruct Hf as [<-|Hf]; simpl; auto. specialize (Hft _ Hf). destruct f; auto.
      * specialize (Hfr _ _ Hf). destruct f; auto.
    + push_tail.
    + intros t'. sets; simpl; auto.
    + push_own.
    + push_run.
    + push_reg.
    + push_del.
  - (* ACtor *)
    destruct (at_user (thr s t)) eqn:Hau; [|discriminate].
    pose proof (Hlf c) as Hlc. destruct (life s c) eqn:Elc; try discriminate.
    inversion Hs; subst s'; clear Hs. simpl in Hlc.
    assert (Hnk : forall t' f, In f (thr s t') -> key f = Some (Some c) -> False).
    { intros t' f Hf Hk. specialize (Hfr _ _ Hf).
      destruct f; simpl in *; try discriminate; inversion Hk; subst; intuition congruence. }
    constructor; simpl; auto.
    + intros t' f Hf. stk Hf.
      * destruct Hf as [<-|Hf]; simpl; [rewrite set_eq; auto|].
        specialize (Hft _ Hf). fsolve f.
      * specialize (Hfr _ _ Hf). fsolve f.
    + push_tail.
    + intros t'. sets; simpl; auto. constructor; auto. intro Hk.
      apply in_keys in Hk as (f & Hf & Hk). eauto.
    + push_own.
    + push_run.
    + intros c0. sets; auto. rewrite Hlc. simpl; auto.
    + intros c0 H; specialize (Hrp _ H). sets; auto. intuition congruence.
    + intros c0 H; specialize (Hdo _ H). sets; auto. intuition congruence.
    + intros c0 t0 H. destruct (Nat.eq_dec c0 c) as [->|Hne].
      * rewrite set_eq in H. inversion H; subst. rewrite set_eq. eexists; split; [left; reflexivity|reflexivity].
      * rewrite set_neq in H by auto. revert c0 t0 H Hne. clear - Hreg. intros c0 t0 H _. revert c0 t0 H. push_reg.
    + intros c0 t0 H. destruct (Nat.eq_dec c0 c) as [->|Hne].
      * rewrite set_eq in H. discriminate.
      * rewrite set_neq in H by auto. revert c0 t0 H Hne. clear - Hdel Hau. intros c0 t0 H _. revert c0 t0 H. push_del.
  - (* ADtor *)
    destruct (at_user (thr s t)) eqn:Hau; [|discriminate].
    pose proof (Hlf c) as Hlc. destruct (life s c) eqn:Elc; try discriminate;
    inversion Hs; subst s'; clear Hs; simpl in Hlc.
    + constructor; simpl; auto.
      * intros t' f Hf. stk Hf.
        -- destruct Hf as [<-|Hf]; simpl; [rewrite set_eq; auto|].
           specialize (Hft _ Hf). fsolve f.
        -- specialize (Hfr _ _ Hf). fsolve f.
      * push_tail.
      * intros t'. sets; simpl; auto.
      * push_own.
      * push_run.
      * intros c0. sets; auto. simpl. unfold popped in *; intuition congruence.
      * intros c0 H; specialize (Hrp _ H). sets; auto. intuition congruence.
      * intros c0 H; specialize (Hdo _ H). sets; auto. intuition congruence.
      * intros c0 t0 H. destruct (Nat.eq_dec c0 c) as [->|Hne].
        -- rewrite set_eq in H. discriminate.
        -- rewrite set_neq in H by auto. revert c0 t0 H Hne. clear - Hreg. intros c0 t0 H _. revert c0 t0 H. push_reg.
      * intros c0 t0 H. destruct (Nat.eq_dec c0 c) as [->|Hne].
        -- rewrite set_eq in H. inversion H; subst. rewrite set_eq. eexists; eexists; split; reflexivity.
        -- rewrite set_neq in H by auto. revert c0 t0 H Hne. clear - Hdel Hau. intros c0 t0 H _. revert c0 t0 H. push_del.
    + constructor; simpl; auto.
      * intros t' f Hf.
        specialize (Hfr _ _ Hf). fsolve f.
      * intros c0. sets; auto. simpl. unfold popped in *; intuition congruence.
      * intros c0 H; specialize (Hrp _ H). sets; auto. 
      * intros c0 H; specialize (Hdo _ H). sets; auto. 
      * intros c0 t0 H; sets; [discriminate|auto].
      * intros c0 t0 H; sets; [discriminate|auto].
  - (* AReturn *)
    destruct (thr s t) as [|F0 fs] eqn:Et; [discriminate|].
    pose proof (Htt _ _ eq_refl) as Hfs. pose proof (Hft _ (or_introl eq_refl)) as Hf0.
    pose proof (fun f H => Hft f (or_intror H)) as Hff. clear Htt.
    pose proof (fun f' k => @key_top F0 fs f' k Hkt) as Hkn.
    destruct F0; try discriminate; simpl in Hf0, Hkn.
    + (* request_stop: the function returned *)
      destruct Hf0 as (E1 & E2 & E3 & E4).
      assert (Hnr : forall f, In f fs -> is_run f = false).
      { intros f Hf. specialize (Hkn f None eq_refl Hf). destruct f; simpl in *; congruence. }
      assert (Hrv' : rvar s = Some false /\ life s c <> LDead \/ rvar s = Some true /\ life s c = LDead).
      { destruct (life s c); intuition congruence. }
      destruct Hrv' as [[Erv El]|[Erv El]]; simpl in Hs; rewrite Erv in Hs |- *;
      inversion Hs; subst s'; clear Hs.
      * constructor; simpl; auto.
        -- intros t' f Hf. stk Hf.
           ++ destruct Hf as [<-|Hf]; simpl; auto.
              pose proof (Hff _ Hf). fsolve f.
           ++ specialize (Hfr _ _ Hf). fsolve f.
        -- rep_tail.
        -- rep_keys.
        -- rep_own_same.
        -- rewrite E1. eexists; rewrite set_eq; split; [left; reflexivity|split; reflexivity].
        -- rep_reg.
        -- rep_del.
      * constructor; simpl; auto.
        -- intros t' f Hf. stk Hf.
           ++ destruct Hf as [<-|Hf]; simpl; auto.
              pose proof (Hff _ Hf). pose proof (Hnr _ Hf). fsolve f.
           ++ specialize (Hfr _ _ Hf). fsolve f.
        -- rep_tail.
        -- rep_keys.
        -- rep_own_same.
        -- eexists; rewrite set_eq; split; [left; reflexivity|split; reflexivity].
        -- rewrite E1 in Hst; auto.
        -- intros c0. rewrite Hin. sets; intuition congruence.
        -- intros c0. specialize (Hlf c0). sets; auto. rewrite El; simpl; auto.
        -- intros c0. specialize (Hcur c0). sets; [intuition discriminate|].
           intros H; destruct (Hcur H) as (t0 & Ht0). rewrite E1 in Ht0. inversion Ht0; congruence.
        -- unfold ntf_ok in *; simpl. rewrite E1 in Hnt. auto.
        -- intros c0 H. apply Hpv. unfold popped in *. sets; auto.
        -- intros c0 H. specialize (Hrp _ H). sets; auto.
        -- intros c0 H. specialize (Hco _ H). sets; auto. 
        -- intros c0. specialize (Hdo c0). sets; auto.
        -- intros c0 H. specialize (Hcur c0). sets; [discriminate|].
           destruct (Hcur (or_intror H)) as (t0 & Ht0). rewrite E1 in Ht0. inversion Ht0; congruence.
        -- rep_reg.
        -- rep_del.
    + (* the constructor's inline call returned *)
      destruct Hf0 as (E1 & E2). inversion Hs; subst s'; clear Hs.
      constructor; simpl; auto.
      * intros t' f Hf. stk Hf.
        -- pose proof (Hff _ Hf). pose proof (Hkn f _ eq_refl Hf). pose proof (Hfs _ Hf). fsolve f.
        -- specialize (Hfr _ _ Hf). fsolve f.
      * rep_tail.
      * rep_keys.
      * rep_own_same.
      * rep_run.
      * intros c0. specialize (Hlf c0). sets; auto.
      * intros c0 H. specialize (Hrp _ H). sets; auto. rewrite E1 in Hrp; intuition congruence.
      * intros c0 H. specialize (Hdo _ H). sets; auto. rewrite E1 in Hdo; intuition congruence.
      * intros c0 t0 H. destruct (Nat.eq_dec c0 c) as [->|Hne]; [rewrite set_eq in H; discriminate|].
        rewrite set_neq in H by auto. destruct (Hreg _ _ H) as (f & Hf & Hk). exists f; split; auto.
        sets; auto. rewrite Et in Hf; destruct Hf as [<-|Hf]; auto. simpl in Hk; congruence.
      * intros c0 t0 H. destruct (Nat.eq_dec c0 c) as [->|Hne]; [rewrite set_eq in H; discriminate|].
        rewrite set_neq in H by auto. revert c0 t0 H Hne. clear - Hdel Et. intros c0 t0 H _. revert c0 t0 H. rep_del.
  - congruence.
Qed.
