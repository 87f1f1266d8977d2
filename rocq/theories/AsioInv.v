(** C63: the invariant of the model of Asio operations, and the steps of the environment. *)
From Coq Require Import List Bool Arith Lia.
From Verif Require Import Conc AsioModel AsioSpec.
Import ListNotations.
Set Implicit Arguments.

(** ** The invariant *)
Inductive ph := GNone (o : option nat) | GAvail | GPend (t : nat) | GAband (t : nat) | GCompl (t : nat) | GDead.
Definition finb g := match g with GCompl _ | GDead => true | _ => false end.
Definition cbidle c := match c with CbNo | CbDone => True | _ => False end.
Definition mown (m : option (nat * nat)) t := match m with Some (t', _) => t' = t | None => False end.
(** [a]: the kind of the call above *)
Definition recok (g : ph) (m : option (nat * nat)) (c : cbst) (t : nat) (a : option kind) (r : rec) : Prop :=
  match kd r, at_ r with
  | KStart, PLock => own r = false /\ a = None /\ g = GNone (Some t) /\ c = CbNo
  | KStart, PBody => own r = negb (finb g) /\ c = CbNo
  | KStart, PEmp => own r = negb (finb g) /\ c = CbNo /\ a = None
  | KStart, PEng => own r = true /\ finb g = false /\ (a = None \/ a = Some KStop)
  | KRun, PLock => own r = false /\ a = None /\ finb g = false /\ (g = GAvail \/ mown m t)
  | KRun, PBody => own r = negb (finb g)
  | KStart, PEnd | KRun, PEnd => own r = negb (finb g) /\ a = None
  | KDtor, PLock => own r = false /\ a = None /\ g = GPend t
  | KDtor, PEnd => own r = true /\ a = None /\ g = GAband t
  | KInv, PLock => own r = false /\ a = None /\ g = GPend t
  | KStop, PLock => own r = false /\ a = None /\ c = CbRun t /\ g <> GDead
  | KStop, PBody => own r = true /\ c = CbRun t /\ g <> GDead
  | KStop, _ => False
  | _, PReset | _, PCompl => own r = false /\ a = None /\ g = GCompl t
  | _, _ => False
  end.
Fixpoint recsok g m c t a st : Prop := match st with [] => True | r :: st => recok g m c t a r /\ recsok g m c t (Some (kd r)) st end.
Fixpoint owns (st : list rec) : nat := match st with [] => 0 | r :: st => (if own r then 1 else 0) + owns st end.
Fixpoint ids (st : list rec) : list nat := match st with [] => [] | r :: st => if own r && is_frame (kd r) then length st :: ids st else ids st end.
Definition isstop r := match kd r with KStop => true | _ => false end.
Fixpoint nstop (st : list rec) : nat := match st with [] => 0 | r :: st => (if isstop r then 1 else 0) + nstop st end.
(** the lowest record that owns the mutex is a frame *)
Fixpoint botf (st : list rec) : Prop := match st with [] => False | r :: st => botf st \/ (owns st = 0 /\ own r = true /\ is_frame (kd r) = true) end.
Definition wait (st : list rec) := match st with mkr KRun PLock _ :: _ => True | _ => False end.
Definition haspeng (st : list rec) := exists o, In (mkr KStart PEng o) st.
Definition dep_of (m : option (nat * nat)) t := match m with Some (t', n) => if t' =? t then n else 0 | None => 0 end.
Definition frs_of (m : option (nat * nat)) (f : list nat) t := match m with Some (t', n) => if t' =? t then f else [] | None => [] end.
Definition nst c t := match c with CbRun t' => if t' =? t then 1 else 0 | _ => 0 end.

Record thok g s t : Prop := mkt {
  t_rec : recsok g (mtx s) (cb s) t None (stk s t);
  t_own : owns (stk s t) = dep_of (mtx s) t;
  t_ids : ids (stk s t) = frs_of (mtx s) (frs s) t;
  t_stop : nstop (stk s t) = nst (cb s) t;
  t_wait : wait (stk s t) <-> In t (wr s) }.
Definition abandoned_in l := exists e o, In (ECons false e o) l.
Definition invoked_in l := exists e o, In (ECons true e o) l.
Definition complok s t :=
  match stk s t with
  | mkr k PReset _ :: _ => (eng s = true \/ cbidle (cb s)) /\ (if is_frame k then aband s = true else invoked_in (log s))
  | mkr k PCompl _ :: _ => cbidle (cb s) /\ (if is_frame k then aband s = true else invoked_in (log s))
  | _ => False
  end.
Definition pendok s t :=
  match stk s t with
  | mkr KInv PLock _ :: _ => invoked_in (log s)
  | mkr KDtor PLock _ :: _ => abandoned_in (log s)
  | _ => False
  end.
Definition alive s := started s = true /\ dead s = false /\ completions (log s) = 0.
Definition phok g s : Prop :=
  match g with
  | GNone None => started s = false /\ (forall t, stk s t = []) /\ mtx s = None /\ hav s = false /\ aband s = false /\ dead s = false /\ cb s = CbNo /\ log s = []
  | GNone (Some t) => started s = true /\ (forall t', stk s t' = if t' =? t then [mkr KStart PLock false] else []) /\ mtx s = None /\ hav s = false /\ aband s = false /\ dead s = false /\ cb s = CbNo /\ log s = []
  | GAvail => alive s /\ hav s = true /\ aband s = false
  | GPend t => alive s /\ hav s = false /\ aband s = false /\ nstop (stk s t) = 0 /\ pendok s t
  | GAband t => alive s /\ hav s = false /\ aband s = true /\ mown (mtx s) t /\ botf (stk s t)
  | GCompl t => alive s /\ hav s = false /\ nstop (stk s t) = 0 /\ complok s t
  | GDead => started s = true /\ dead s = true /\ hav s = false /\ cbidle (cb s) /\ completions (log s) = 1
  end.
Record inv (g : ph) (s : state) : Prop := mki {
  v_ph : phok g s;
  v_th : forall t, thok g s t;
  v_eng : finb g = false -> eng s = true \/ cb s = CbNo \/ exists t, haspeng (stk s t);
  v_ex : g <> GDead -> (ex s = true <-> In EThrow (log s));
  v_hav : hav s = true -> forall i e o, ~ In (ECons i e o) (log s);
  v_m : match mtx s with Some (_, 0) => False | _ => True end;
  v_frs : mtx s = None -> frs s = [];
  v_aband : aband s = true -> abandoned_in (log s);
  v_bad : ~ In EBad (log s);
  v_chan : forall c, In (ECompl c) (log s) -> (c = CErr <-> In EThrow (log s)) /\ (c = CVal -> invoked_in (log s)) /\ (c = CStp -> abandoned_in (log s));
  v_emit : forall l1 l2 c, log s = l1 ++ ECompl c :: l2 -> ~ In EEmit l1 }.

Lemma inv_init : inv (GNone None) init.
Proof.
  constructor; cbn; auto; try tauto; try discriminate.
  - intros t. constructor; cbn; auto. tauto.
  - split; [discriminate|tauto].
  - intros [|]; discriminate.
Qed.

(** *** Stacks *)
Lemma recsok_in : forall g m c t st a r, recsok g m c t a st -> In r st -> exists a', recok g m c t a' r /\ ((a' = a /\ exists st', st = r :: st') \/ a' <> None).
Proof.
  intros g m c t st. induction st as [|r0 st IH]; cbn; intros a r R I; [tauto|]. destruct R as [R1 R2]. destruct I as [<-|I]; [exists a; split; auto; left; split; eauto|].
  destruct (IH _ _ R2 I) as [a' [X [[-> Y]|Y]]]; [exists (Some (kd r0)) | exists a']; (split; [auto | right; auto; discriminate]).
Qed.
Lemma recsok_mono : forall g m c g' m' c' t st a, recsok g m c t a st -> (forall a' r, In r st -> recok g m c t a' r -> recok g' m' c' t a' r) -> recsok g' m' c' t a st.
Proof. intros g m c g' m' c' t st. induction st as [|r st IH]; cbn; intros a R H; auto. destruct R as [R1 R2]. split; [apply H; auto|]. apply IH; auto. Qed.
Lemma recok_none : forall g m c t a r, recok g m c t a r -> recok g m c t None r.
Proof. intros g m c t a [k p o]. unfold recok. destruct k, p; cbn; intuition. Qed.
Lemma recsok_none : forall g m c t a st, recsok g m c t a st -> recsok g m c t None st.
Proof. intros g m c t a [|r st]; cbn; auto. intros [R1 R2]. split; auto. eapply recok_none; eauto. Qed.
Lemma owns_in : forall st r, owns st = 0 -> In r st -> own r = false.
Proof. induction st as [|r0 st IH]; cbn; intros r O I; [tauto|]. destruct (own r0) eqn:E; [lia|]. destruct I as [<-|I]; auto. Qed.
Lemma nstop_in : forall st r, nstop st = 0 -> In r st -> isstop r = false.
Proof. induction st as [|r0 st IH]; cbn; intros r O I; [tauto|]. destruct (isstop r0) eqn:E; [lia|]. destruct I as [<-|I]; auto. Qed.
Lemma nstop_emitting : forall st, emitting st = false <-> nstop st = 0.
Proof. induction st as [|[k p o] st IH]; cbn; [tauto|]. destruct k; cbn; rewrite ?IH; intuition lia. Qed.
Lemma recsok_wait : forall g m c t st o, recsok g m c t None st -> In (mkr KRun PLock o) st -> wait st.
Proof.
  intros g m c t st o R I. destruct (@recsok_in _ _ _ _ _ _ _ R I) as [a [X [[_ [st' ->]]|Y]]]; cbn; auto. unfold recok in X. cbn in X. elim Y. tauto.
Qed.
Lemma ids_owns : forall st, nstop st = 0 -> (forall r, In r st -> own r = true -> is_frame (kd r) = true \/ isstop r = true) -> length (ids st) = owns st.
Proof.
  induction st as [|r st IH]; cbn; intros N H; auto. assert (N1 : isstop r = false /\ nstop st = 0) by (destruct (isstop r); split; auto; lia). destruct N1 as [N1 N2]. rewrite <- IH by auto.
  destruct (own r) eqn:E; cbn; auto. destruct (H r (or_introl eq_refl) E) as [X|X]; [rewrite X; auto|congruence].
Qed.
Lemma ids_owns0 : forall st, owns st = 0 -> ids st = [].
Proof. induction st as [|r st IH]; cbn; auto. destruct (own r); cbn; [lia|auto]. Qed.
Lemma botf_owns : forall st, botf st -> 0 < owns st.
Proof. induction st as [|r st IH]; cbn; [tauto|]. intros [B|(O & W & F)]; [apply IH in B; lia|rewrite W; lia]. Qed.
Lemma botf_ids : forall st, botf st -> ids st <> [].
Proof. induction st as [|r st IH]; cbn; [tauto|]. intros [B|(O & W & F)]; [apply IH in B; destruct (own r && is_frame (kd r)); auto; discriminate|rewrite W, F; discriminate]. Qed.
Lemma botf_nostop : forall st, nstop st = 0 -> 0 < owns st -> (forall r, In r st -> own r = true -> is_frame (kd r) = true \/ isstop r = true) -> botf st.
Proof.
  induction st as [|r st IH]; cbn; intros N O H; [lia|]. destruct (Nat.eq_dec (owns st) 0) as [Z|Z].
  - destruct (own r) eqn:E; [|lia]. destruct (H r (or_introl eq_refl) E) as [X|X]; auto. rewrite X in N. lia.
  - left. apply IH; auto; destruct (isstop r); lia.
Qed.
Lemma rec_own : forall g m c t a r, recok g m c t a r -> own r = true -> is_frame (kd r) = true \/ isstop r = true.
Proof. intros g m c t a [k p o]. unfold recok. destruct k, p; cbn; intuition congruence. Qed.
Lemma recs_own : forall g m c t a st, recsok g m c t a st -> forall r, In r st -> own r = true -> is_frame (kd r) = true \/ isstop r = true.
Proof. intros g m c t a st R r I. destruct (@recsok_in _ _ _ _ _ _ _ R I) as [a' [X _]]. eapply rec_own; eauto. Qed.
(** below the top, a stop callback owns the mutex *)
Lemma recs_stop_below : forall g m c t k st, recsok g m c t (Some k) st -> owns st = 0 -> nstop st = 0.
Proof.
  intros g m c t k st. revert k. induction st as [|[k0 p o] st IH]; cbn; [auto|]. intros k [R1 R2] O. destruct o; [discriminate|]. rewrite (IH _ R2) by auto.
  destruct k0; auto. unfold recok in R1. destruct p; cbn in R1; intuition discriminate.
Qed.
Lemma recs_below_pc : forall g m c t k st r, recsok g m c t (Some k) st -> In r st -> at_ r = PBody \/ (at_ r = PEng /\ 0 < nstop (mkr k PBody false :: st)).
Proof.
  intros g m c t k st. revert k. induction st as [|[k0 p o] st IH]; cbn; [tauto|]. intros k r [R1 R2] I. destruct I as [<-|I].
  - cbn. unfold recok in R1. destruct k0, p; cbn in R1; intuition (try discriminate); auto; subst; try discriminate. right. split; auto. match goal with H : Some _ = Some _ |- _ => injection H as -> end. cbn. lia.
  - destruct (IH _ _ R2 I) as [X|[X Y]]; auto. right. split; auto. cbn in *. unfold isstop in *. cbn in *. destruct k, k0; lia.
Qed.
(** with no stop callback below, what is below the top does not depend on the phase, but for the frames' mutex *)
Lemma release_ids : forall st f, (forall i, In i (ids st) -> In i f) -> (forall i, In i f -> i < length st -> In i (ids st)) -> owns (release f st) = owns st - length (ids st) /\ ids (release f st) = [].
Proof.
  induction st as [|r st IH]; intros f H1 H2; [cbn; auto|].
  assert (NL : forall l i, In i (ids l) -> i < length l). { clear. induction l as [|r l IH]; cbn; [tauto|]. intros i. destruct (own r && is_frame (kd r)); [intros [<-|I]; [lia|]|intros I]; apply IH in I; lia. }
  assert (OL : forall l, length (ids l) <= owns l). { clear. induction l as [|r l IH]; cbn; auto. destruct (own r); cbn; [destruct (is_frame (kd r)); cbn; lia|lia]. }
  destruct (IH f) as [A B].
  { intros i I. apply H1. cbn. destruct (own r && is_frame (kd r)); cbn; auto. }
  { intros i I L. specialize (H2 i I ltac:(cbn; lia)). cbn in H2. destruct (own r && is_frame (kd r)); auto. destruct H2 as [<-|]; auto. lia. }
  pose proof (OL st). cbn -[existsb]. destruct (existsb (Nat.eqb (length st)) f) eqn:E; cbn -[existsb].
  - rewrite A, B. apply existsb_exists in E. destruct E as [x [X1 X2]]. apply Nat.eqb_eq in X2. subst x. specialize (H2 _ X1 ltac:(cbn; lia)). cbn in H2.
    destruct (own r && is_frame (kd r)) eqn:F.
    + apply andb_prop in F. destruct F as [F1 F2]. rewrite F1. cbn. split; auto.
    + apply NL in H2. lia.
  - rewrite A, B. destruct (own r && is_frame (kd r)) eqn:F.
    + exfalso. assert (X : In (length st) f) by (apply H1; cbn; rewrite F; cbn; auto). assert (Y : existsb (Nat.eqb (length st)) f = true); [|congruence]. apply existsb_exists. exists (length st). split; auto. apply Nat.eqb_refl.
    + split; auto. destruct (own r); lia.
Qed.

(** *** Steps *)
Lemma thok_other : forall g s g' s' t', thok g s t' -> stk s' t' = stk s t' ->
  (forall a r, In r (stk s t') -> recok g (mtx s) (cb s) t' a r -> recok g' (mtx s') (cb s') t' a r) ->
  dep_of (mtx s') t' = dep_of (mtx s) t' -> frs_of (mtx s') (frs s') t' = frs_of (mtx s) (frs s) t' -> nst (cb s') t' = nst (cb s) t' -> (In t' (wr s') <-> In t' (wr s)) -> thok g' s' t'.
Proof.
  intros g s g' s' t' [A B C D E] H1 H2 H3 H4 H5 H6. constructor; rewrite ?H1, ?H3, ?H4, ?H5, ?H6; auto. eapply recsok_mono; eauto.
Qed.
Lemma nocompl : forall l, completions l = 0 -> forall c, ~ In (ECompl c) l.
Proof.
  intros l H c I. unfold completions in H. destruct (filter is_compl l) eqn:E; [|discriminate]. assert (X : In (ECompl c) (filter is_compl l)) by (apply filter_In; auto). rewrite E in X. destruct X.
Qed.
Lemma nocompl_app : forall l, completions l = 0 -> forall l1 l2 c, l = l1 ++ ECompl c :: l2 -> False.
Proof. intros l H l1 l2 c E. apply (@nocompl _ H c). rewrite E. apply in_app_iff. cbn. auto. Qed.
Lemma lockable_other : forall m t t' f, lockable m t = true -> t' <> t -> dep_of m t' = 0 /\ frs_of m f t' = [] /\ ~ mown m t'.
Proof.
  intros [[u n]|] t t' f L N; cbn in *; auto. apply Nat.eqb_eq in L. subst u. destruct (Nat.eqb_spec t t'); [congruence|]. auto.
Qed.
Lemma held_other : forall t n t' f, t' <> t -> dep_of (held t n) t' = 0 /\ frs_of (held t n) f t' = [] /\ ~ mown (held t n) t'.
Proof. intros t [|n] t' f N; cbn; auto. destruct (Nat.eqb_spec t t'); [congruence|]. auto. Qed.
Lemma held_same : forall t n, dep_of (held t n) t = n.
Proof. intros t [|n]; cbn; auto. rewrite Nat.eqb_refl. auto. Qed.
Lemma held_frs : forall t n f, (n = 0 -> f = []) -> frs_of (held t n) f t = f.
Proof. intros t [|n] f H; cbn; [rewrite H; auto|]. rewrite Nat.eqb_refl. auto. Qed.
Lemma lockable_depth : forall m t, lockable m t = true -> dep_of m t = depth m.
Proof. intros [[u n]|] t; cbn; auto. intros ->. auto. Qed.
Lemma lockable_frs : forall m t f, lockable m t = true -> (m = None -> f = []) -> frs_of m f t = f.
Proof. intros [[u n]|] t f; cbn; [intros ->; auto|]. intros _ H. rewrite H; auto. Qed.
Lemma held_v_m : forall t n, match held t n with Some (_, 0) => False | _ => True end.
Proof. intros t [|n]; cbn; auto. Qed.

Lemma started_phase : forall g s, phok g s -> started s = false -> g = GNone None.
Proof. intros [[t|]| | | | |] s P H; cbn in P; unfold alive in P; auto; exfalso; intuition congruence. Qed.
Lemma hav_phase : forall g s, phok g s -> hav s = true -> g = GAvail.
Proof. intros [[t|]| | | | |] s P H; cbn in P; auto; exfalso; intuition congruence. Qed.
(** a phase with a living operation *)
Lemma alive_phase : forall g s, phok g s -> g <> GDead -> dead s = false /\ completions (log s) = 0.
Proof. intros [[t|]| | | | |] s P H; cbn in P; unfold alive in P; try (split; [tauto|]); try tauto; try congruence; replace (log s) with (@nil event) by (symmetry; tauto); auto. Qed.

Ltac upd_th t := let t' := fresh "t'" in let N := fresh "N" in intros t'; destruct (Nat.eq_dec t' t) as [->|N].

Lemma step_start : forall g s t s', inv g s -> step s (AStart t) = Some s' -> exists g', inv g' s'.
Proof.
  intros g s t s' I H. cbn in H. destruct (started s) eqn:St; [discriminate|]. destruct (stk s t) eqn:E; [|discriminate]. injection H as <-.
  pose proof (@started_phase _ _ (v_ph I) St). subst g. destruct I as [P T En Ex H M F A B C Em]. cbn in P. destruct P as (P1 & P2 & P3 & P4 & P5 & P6 & P7 & P8).
  exists (GNone (Some t)). constructor; cbn; auto.
  - repeat (split; auto). upd_th t; [rewrite Nat.eqb_refl; apply fset_same|]. rewrite (@fset_other _ _ _ _ _ N). apply Nat.eqb_neq in N. rewrite N. auto.
  - upd_th t.
    + destruct (T t) as [T1 T2 T3 T4 T5]. rewrite E in *. constructor; cbn; rewrite ?fset_same; cbn; auto.
    + apply (fun q1 q2 q3 q4 q5 q6 => @thok_other _ _ _ _ _ (T t') q1 q2 q3 q4 q5 q6); cbn; auto; [apply (@fset_other _ _ _ _ _ N)| |tauto]. rewrite P2. intros a r [].
  - intros _. apply Ex. discriminate.
Qed.

Lemma step_run : forall g s t s', inv g s -> step s (ARun t) = Some s' -> exists g', inv g' s'.
Proof.
  intros g s t s' I H. cbn in H. destruct (user_code (stk s t)) eqn:U; [|discriminate]. destruct (hav s || in_frame s t) eqn:HF; [|discriminate]. injection H as <-.
  destruct I as [P T En Ex H M F A B C Em]. exists g.
  assert (G : finb g = false /\ (g = GAvail \/ mown (mtx s) t)).
  { apply orb_prop in HF. destruct HF as [X|X]; [rewrite (@hav_phase _ _ P X); auto|]. unfold in_frame in X. destruct (mtx s) as [[u n]|] eqn:Em1; [|discriminate]. destruct (frs s) as [|i fr] eqn:Ef; [discriminate|].
    apply Nat.eqb_eq in X. subst u. split; [|right; cbn; auto]. destruct (T t) as [T1 T2 T3 T4 T5]. rewrite Em1, Ef in T3. cbn in T3. rewrite Nat.eqb_refl in T3.
    destruct (finb g) eqn:FG; auto. exfalso. assert (X : ids (stk s t) = []); [|congruence]. clear - T1 FG. revert T1. generalize (@None kind). induction (stk s t) as [|[k p o] st IH]; cbn; intros a R; auto. destruct R as [R1 R2].
    rewrite (IH _ R2). destruct o; auto. unfold recok in R1. rewrite FG in R1. destruct k, p; cbn in *; intuition (try congruence). subst g. discriminate. }
  assert (NT : forall t', (match g with GPend u | GCompl u => t' = u | _ => False end) -> t' <> t).
  { intros t' X ->. destruct g; try tauto; subst; cbn in P; unfold pendok, complok in P; destruct (stk s t0) as [|[k p o] st]; try tauto; destruct p; cbn in U; try discriminate; destruct k; tauto. }
  constructor; cbn; auto.
  - destruct g as [[u|]| |u|u|u|]; cbn in *; auto; try (destruct G as [G _]; discriminate).
    + destruct G as [_ [G|G]]; [discriminate|]. destruct P as (_ & _ & P & _). rewrite P in G. destruct G.
    + destruct G as [_ [G|G]]; [discriminate|]. destruct P as (_ & _ & P & _). rewrite P in G. destruct G.
    + unfold pendok in *. cbn. rewrite (@fset_other _ _ _ _ _ (NT u eq_refl)). auto.
    + destruct P as (P1 & P2 & P3 & P4 & P5). split; [auto|]. repeat (split; auto). destruct (Nat.eq_dec u t) as [->|N]; [rewrite fset_same; cbn; auto|rewrite (@fset_other _ _ _ _ _ N); auto].
  - upd_th t.
    + destruct (T t) as [T1 T2 T3 T4 T5]. constructor; cbn; rewrite ?fset_same; cbn; auto.
      * split; [unfold recok; cbn; intuition|]. destruct (stk s t) as [|[k p o] st]; cbn in *; auto. destruct T1 as [T1 TT]. split; auto. destruct p; try discriminate. unfold recok in *. destruct k; cbn in *; auto.
      * tauto.
    + apply (fun q1 q2 q3 q4 q5 q6 => @thok_other _ _ _ _ _ (T t') q1 q2 q3 q4 q5 q6); cbn; auto; [apply (@fset_other _ _ _ _ _ N)|]. split; [intros [X|X]; congruence || auto|auto].
  - intros X. destruct (En X) as [Y|[Y|[u Y]]]; auto. right; right. exists u. destruct (Nat.eq_dec u t) as [->|N]; [rewrite fset_same|rewrite (@fset_other _ _ _ _ _ N); auto]. destruct Y as [o Y]. exists o. cbn. auto.
Qed.
Lemma haspeng_upd : forall (f : nat -> list rec) t st, (forall o, In (mkr KStart PEng o) (f t) -> In (mkr KStart PEng o) st) -> (exists u, haspeng (f u)) -> exists u, haspeng (fset f t st u).
Proof. intros f t st H [u [o X]]. exists u. destruct (Nat.eq_dec u t) as [->|N]; [rewrite fset_same; exists o; auto|rewrite (@fset_other _ _ _ _ _ N); exists o; auto]. Qed.
Lemma notwait : forall g s t' o, thok g s t' -> ~ In t' (wr s) -> ~ In (mkr KRun PLock o) (stk s t').
Proof. intros g s t' o T N X. apply N. apply (t_wait T). eapply recsok_wait; eauto. apply (t_rec T). Qed.
Lemma noown_frames : forall g s t' r, thok g s t' -> dep_of (mtx s) t' = 0 -> In r (stk s t') -> own r = false.
Proof. intros g s t' r T D I. eapply owns_in; eauto. rewrite (t_own T). auto. Qed.
Lemma nostop_recs : forall g s t' r, thok g s t' -> nst (cb s) t' = 0 -> In r (stk s t') -> kd r <> KStop.
Proof. intros g s t' r T D I X. assert (Y : isstop r = false) by (eapply nstop_in; eauto; rewrite (t_stop T); auto). unfold isstop in Y. rewrite X in Y. discriminate. Qed.
Lemma user_code_below : forall g m c t a k st, user_code st = true -> recsok g m c t a st -> recsok g m c t (Some k) st.
Proof.
  intros g m c t a k [|[k0 p o] st] U R; cbn in *; auto. destruct R as [R1 R2]. split; auto. destruct p; try discriminate. unfold recok in *. destruct k0; cbn in *; auto.
Qed.

Lemma step_cons : forall g s t i s', inv g s -> step s (ACons t i) = Some s' -> polite (log s') -> exists g', inv g' s'.
Proof.
  intros g s t i s' I H PL. cbn in H. destruct (user_code (stk s t)) eqn:U; [|discriminate]. destruct (hav s) eqn:Hv; [|discriminate]. injection H as <-.
  destruct PL as [PL _]. specialize (PL _ _ _ (or_introl eq_refl)). destruct PL as [PL1 PL2]. destruct (wr s) eqn:W; [|discriminate]. clear PL2. apply nstop_emitting in PL1.
  pose proof (@hav_phase _ _ (v_ph I) Hv). subst g. destruct I as [P T En Ex H M F A B C Em]. cbn in P. destruct P as (P1 & P2 & P3). exists (GPend t).
  destruct P1 as (Q1 & Q2 & Q3).
  constructor; cbn; auto; try discriminate.
  - split; [split; auto|]. rewrite fset_same. cbn. repeat (split; auto). { destruct i; cbn; auto. } unfold pendok. cbn. rewrite fset_same. destruct i; do 2 eexists; cbn; left; reflexivity.
  - upd_th t.
    + destruct (T t) as [T1 T2 T3 T4 T5]. constructor; cbn; rewrite ?fset_same; cbn; auto.
      * split; [unfold recok; destruct i; cbn; auto|]. apply (@recsok_mono GAvail (mtx s) (cb s)); [eapply user_code_below; eauto|]. intros a [k p o] X. unfold recok. destruct k, p; cbn; try (solve [intuition congruence]).
        exfalso. apply (@notwait _ _ _ o (T t)); auto. rewrite W. auto.
      * destruct i; cbn; auto.
      * rewrite W. destruct i; cbn; tauto.
    + apply (fun q1 q2 q3 q4 q5 q6 => @thok_other _ _ _ _ _ (T t') q1 q2 q3 q4 q5 q6); cbn; auto; [apply (@fset_other _ _ _ _ _ N)| |rewrite W; tauto].
      intros a [k p o] X. unfold recok. destruct k, p; cbn; try (solve [intuition congruence]). exfalso. apply (@notwait _ _ _ o (T t')); auto. rewrite W. auto.
  - intros _. destruct (En eq_refl) as [X|[X|X]]; auto. right; right. eapply haspeng_upd; eauto. cbn; auto.
  - intros _. specialize (Ex ltac:(discriminate)). rewrite Ex. intuition discriminate.
  - intros X. destruct (A X) as (e & o & Y). exists e, o. cbn. auto.
  - intros [X|X]; [discriminate|auto].
  - intros c [X|X]; [discriminate|]. elim (@nocompl _ Q3 c X).
  - intros l1 l2 c X. exfalso. refine (@nocompl_app _ _ l1 l2 c X). cbn. auto.
Qed.

(** the bodies of start() and run_() end *)
Lemma step_body : forall g s t k o st b, inv g s -> stk s t = mkr k PBody o :: st -> k = KStart \/ k = KRun ->
  (b = true -> g <> GDead) ->
  exists g', inv g' (if b then w_ex (emit (w_stk s t (mkr k (after k) o :: st)) EThrow) else w_stk s t (mkr k (after k) o :: st)).
Proof.
  intros g s t k o st b [P T En Ex H M F A B C Em] E K NB. exists g.
  assert (NT : forall u, (match g with GPend u' | GCompl u' => u = u' | _ => False end) -> u <> t).
  { intros u X ->. destruct g; try tauto; subst; cbn in P; unfold pendok, complok in P; rewrite E in P; destruct k; tauto. }
  assert (PH : phok g (w_stk s t (mkr k (after k) o :: st))).
  { destruct g as [[u|]| |u|u|u|]; cbn in *; auto.
    - destruct P as (_ & P & _). specialize (P t). rewrite E in P. destruct (t =? u); discriminate.
    - destruct P as (_ & P & _). rewrite P in E. discriminate.
    - unfold pendok in *. cbn. rewrite (@fset_other _ _ _ _ _ (NT u eq_refl)). auto.
    - destruct P as (P1 & P2 & P3 & P4 & P5). repeat (split; auto). destruct (Nat.eq_dec u t) as [->|N]; [rewrite fset_same; rewrite E in P5; cbn in *; auto|rewrite (@fset_other _ _ _ _ _ N); auto].
    - unfold complok in *. cbn. rewrite (@fset_other _ _ _ _ _ (NT u eq_refl)). auto. }
  assert (TH : forall t', thok g (w_stk s t (mkr k (after k) o :: st)) t').
  { upd_th t.
    - destruct (T t) as [T1 T2 T3 T4 T5]. rewrite E in *. constructor; cbn in *; rewrite ?fset_same; cbn; auto.
      + destruct T1 as [T1 TT]. split; auto. unfold recok in *. destruct K as [-> | ->]; cbn in *; intuition.
      + rewrite <- T5. destruct K as [-> | ->]; cbn; tauto.
    - apply (fun q1 q2 q3 q4 q5 q6 => @thok_other _ _ _ _ _ (T t') q1 q2 q3 q4 q5 q6); cbn; auto; [apply (@fset_other _ _ _ _ _ N)|tauto]. }
  assert (EN : finb g = false -> eng s = true \/ cb s = CbNo \/ (exists t0, haspeng (fset (stk s) t (mkr k (after k) o :: st) t0))).
  { intros X. destruct (En X) as [Y|[Y|Y]]; auto. right; right. eapply haspeng_upd; eauto. rewrite E. intros o' [Z|Z]; [discriminate|cbn; auto]. }
  destruct b; cbn.
  - specialize (NB eq_refl). destruct (@alive_phase _ _ P NB) as [D0 NC].
    constructor; cbn; auto.
    + destruct g as [[u|]| |u|u|u|]; cbn in *; unfold alive, pendok, complok in *; cbn in *; auto; try tauto.
      * destruct PH as (_ & PH & _). specialize (PH t). rewrite fset_same in PH. destruct K as [-> | ->], (t =? u); discriminate.
      * destruct PH as (_ & PH & _). specialize (PH t). rewrite fset_same in PH. discriminate.
      * rewrite (@fset_other _ _ _ _ _ (NT u eq_refl)) in *. destruct PH as (PH1 & PH2 & PH3 & PH4 & PH5). split; [auto|]. repeat (split; auto). destruct (stk s u) as [|[k0 p0 o0] st0]; auto. destruct k0, p0; auto; destruct PH5 as (e & o' & X); exists e, o'; cbn; auto.
      * rewrite (@fset_other _ _ _ _ _ (NT u eq_refl)) in *. destruct PH as (PH1 & PH2 & PH3 & PH4). split; [auto|]. repeat (split; auto). destruct (stk s u) as [|[k0 p0 o0] st0]; auto.
        destruct p0; auto; (destruct PH4 as [X Y]; split; auto; destruct (is_frame k0); auto; destruct Y as (e & o' & Y); exists e, o'; cbn; auto).
    + intros t'. destruct (TH t') as [T1 T2 T3 T4 T5]. constructor; auto.
    + tauto.
    + intros X i e o0 [Y|Y]; [discriminate|]. eapply H; eauto.
    + intros X. destruct (A X) as (e & o' & Y). exists e, o'. cbn. auto.
    + intros [X|X]; [discriminate|auto].
    + intros c [X|X]; [discriminate|]. elim (@nocompl _ NC c X).
    + intros l1 l2 c X. exfalso. refine (@nocompl_app _ _ l1 l2 c X). cbn. auto.
  - constructor; cbn; auto.
Qed.
Lemma recsok_mono_below : forall g m c g' m' c' t st k, recsok g m c t (Some k) st -> (forall k' r, In r st -> recok g m c t (Some k') r -> recok g' m' c' t (Some k') r) -> recsok g' m' c' t (Some k) st.
Proof. intros g m c g' m' c' t st. induction st as [|r st IH]; cbn; intros a R H; auto. destruct R as [R1 R2]. split; [apply H; auto|]. apply IH; auto. Qed.
Lemma own_top : forall g s t r st, thok g s t -> stk s t = r :: st -> own r = true -> mtx s = Some (t, S (owns st)).
Proof.
  intros g s t r st T E O. pose proof (t_own T) as X. rewrite E in X. cbn in X. rewrite O in X. cbn in X. unfold dep_of in X. destruct (mtx s) as [[u n]|]; [|discriminate]. destruct (Nat.eqb_spec u t); [|discriminate]. congruence.
Qed.
Ltac oth T t' N := apply (fun q1 q2 q3 q4 q5 q6 => @thok_other _ _ _ _ _ (T t') q1 q2 q3 q4 q5 q6); cbn; auto; [apply (@fset_other _ _ _ _ _ N)|..].
Ltac nclog NC := match goal with
  | |- forall c, In (ECompl c) _ -> _ => let c := fresh "c" in let X := fresh "X" in intros c X; repeat (destruct X as [X|X]; [discriminate|]); elim (@nocompl _ NC c X)
  | |- forall l1 l2 c, _ = l1 ++ _ -> _ => let X := fresh "X" in intros ? ? ? X; exfalso; refine (@nocompl_app _ _ _ _ _ X); cbn; auto
  end.

Lemma step_stopret : forall g s t o st, inv g s -> stk s t = mkr KStop PBody o :: st ->
  exists g', inv g' (w_cb (w_mtx (w_stk (touch s) t st) (held t (depth (mtx s) - 1)) (frs s)) (eng s) CbDone).
Proof.
  intros g s t o st I E. destruct I as [P T En Ex H M F A B C Em]. exists g.
  assert (R := t_rec (T t)). rewrite E in R. cbn in R. destruct R as [R1 R2]. unfold recok in R1. cbn in R1. destruct R1 as (-> & CB & GD).
  destruct (@alive_phase _ _ P GD) as [D0 NC]. pose proof (own_top (T t) E eq_refl) as MT.
  assert (N0 : nstop st = 0). { pose proof (t_stop (T t)) as X. rewrite E, CB in X. cbn in X. rewrite Nat.eqb_refl in X. lia. }
  assert (NT : forall u, (match g with GPend u' | GCompl u' => u = u' | _ => False end) -> u <> t).
  { intros u X ->. destruct g; try tauto; subst; cbn in P; unfold pendok, complok in P; rewrite E in P; tauto. }
  unfold touch. rewrite D0. constructor; cbn; auto.
  - destruct g as [[u|]| |u|u|u|]; cbn in *; auto.
    + destruct P as (_ & _ & P & _). congruence.
    + destruct P as (_ & _ & P & _). congruence.
    + unfold pendok in *. cbn. rewrite (@fset_other _ _ _ _ _ (NT u eq_refl)). auto.
    + destruct P as (P1 & P2 & P3 & P4 & P5). split; [exact P1|]. split; [auto|]. split; [auto|]. rewrite MT in *. cbn in P4. subst u. rewrite fset_same. rewrite E in P5. cbn in P5. destruct P5 as [P5|P5]; [|intuition discriminate].
      split; auto. cbn. rewrite Nat.sub_0_r. pose proof (botf_owns _ P5). destruct (owns st); [lia|cbn; auto].
    + unfold complok in *. cbn. rewrite (@fset_other _ _ _ _ _ (NT u eq_refl)). destruct P as (P1 & P2 & P3 & P4). repeat (split; auto). destruct (stk s u) as [|[k0 p0 o0] st0]; auto. destruct p0; auto; cbn; tauto.
    + congruence.
  - upd_th t.
    + destruct (T t) as [T1 T2 T3 T4 T5]. rewrite E in *. cbn in *. constructor; cbn; rewrite ?fset_same; cbn; auto.
      * apply (@recsok_none _ _ _ _ (Some KStop)). eapply recsok_mono_below; eauto. intros k' [k p o] X. assert (Y := nstop_in _ _ N0 X). unfold recok. destruct k, p; cbn in *; intuition congruence.
      * rewrite held_same, MT. cbn. lia.
      * rewrite T3, MT. cbn. rewrite Nat.eqb_refl, Nat.sub_0_r. rewrite held_frs; auto. intros X. rewrite MT in T3. cbn in T3. rewrite Nat.eqb_refl in T3. rewrite <- T3. apply ids_owns0; auto.
      * rewrite <- T5. split; [|tauto]. destruct st as [|[k p o] st']; cbn; auto. cbn in R2. unfold recok in R2. destruct k, p; cbn in R2; intuition congruence.
    + destruct (@held_other t (depth (mtx s) - 1) t' (frs s) N) as (X1 & X2 & X3). oth T t' N.
      * intros a r I X. assert (Y := @nostop_recs _ _ _ r (T t')). rewrite CB in Y. cbn in Y. destruct (Nat.eqb_spec t t') as [Z|Z]; [congruence|]. specialize (Y eq_refl I). rewrite MT in X. cbn in X.
        destruct r as [k p o]. unfold recok in *. cbn in *. destruct k, p; cbn in *; intuition congruence.
      * rewrite X1, MT. cbn. destruct (Nat.eqb_spec t t'); [congruence|auto].
      * rewrite X2, MT. cbn. destruct (Nat.eqb_spec t t'); [congruence|auto].
      * rewrite CB. cbn. destruct (Nat.eqb_spec t t'); [congruence|auto].
      * tauto.
  - intros X. destruct (En X) as [Y|[Y|Y]]; auto; [congruence|]. right; right. eapply haspeng_upd; eauto. rewrite E. intros o' [Z|Z]; [discriminate|auto].
  - apply held_v_m.
  - intros X. rewrite MT in X. cbn in X. rewrite Nat.sub_0_r in X. destruct (owns st) eqn:Z; [|discriminate]. pose proof (t_ids (T t)) as Y. rewrite E, MT in Y. cbn in Y. rewrite Nat.eqb_refl in Y. rewrite <- Y. apply ids_owns0; auto.
Qed.
