(** C63: an Asio operation used as a sender completes exactly once and is not used afterwards. The specification is AsioSpec.v, the invariant AsioInv.v. *)
From Coq Require Import List Bool Arith Lia.
From Verif Require Import Conc AsioModel AsioSpec AsioInv.
Import ListNotations.
Set Implicit Arguments.

(** ** Examples and refutations *)
(** the initiation posts; another thread runs the handler while start() is still running; stop is requested meanwhile *)
Definition ex_ok := [AStart 0; AStep 0; ARun 0; AStep 0; ARun 1; ARet 0; AStep 0; ARet 0; AStep 0; AStop 2; AStep 0; AStep 0; AStep 1; ACons 1 true; AStep 1; AStep 2; ARet 2; AStep 1; AStep 1; ARet 1; AStep 1].
Example ex_ok_log : option_map (fun s => (rev (log s), stk s 0, stk s 1, stk s 2)) (runs ex_ok init) =
  Some ([ECons true false false; EEmit; ECompl CVal], [], [], []).
Proof. vm_compute. reflexivity. Qed.
(** the initiation throws and takes the handler with it *)
Example ex_throw_log : option_map (fun s => rev (log s)) (runs [AStart 0; AStep 0; ACons 0 false; AStep 0; AStep 0; AThrow 0; AStep 0; AStep 0; AStep 0; AStep 0; AStep 0] init) = Some [ECons false false false; EThrow; ECompl CErr].
Proof. vm_compute. reflexivity. Qed.

(** Refuted: the cancellation signal's handler completes the operation before emit() returns (as an executor's dispatch may): the mutex is unlocked after the operation state was destroyed. *)
Theorem asio_inline_cancellation_refuted : exists s, reachable s /\ In EBad (log s) /\ (forall l1 l2 c, log s = l1 ++ ECompl c :: l2 -> ~ In EThrow l1) /\
  (forall i e o, In (ECons i e o) (log s) -> o = false).
Proof.
  destruct (runs [AStart 0; AStep 0; ARet 0; AStep 0; AStep 0; AStep 0; AStop 1; AStep 1; ACons 1 true; AStep 1; AStep 1; AStep 1; ARet 1] init) as [s|] eqn:E; [|vm_compute in E; discriminate].
  exists s. split; [eexists; exact E|]. vm_compute in E. injection E as <-. cbn. split; [tauto|]. split.
  - intros l1 l2 c H X. assert (Y : In EThrow (l1 ++ ECompl c :: l2)) by (apply in_app_iff; auto). rewrite <- H in Y. cbn in Y. intuition discriminate.
  - intros i e o [H|[H|[H|[H|[]]]]]; inversion H; auto.
Qed.
(** Refuted: the initiation completes the operation inline, then throws: the exception is stored into a destroyed operation state. *)
Theorem asio_throw_after_completion_refuted : exists s, reachable s /\ In EBad (log s) /\ (forall i e o, In (ECons i e o) (log s) -> e = false /\ o = false).
Proof.
  destruct (runs [AStart 0; AStep 0; ACons 0 true; AStep 0; AStep 0; AStep 0; AThrow 0] init) as [s|] eqn:E; [|vm_compute in E; discriminate].
  exists s. split; [eexists; exact E|]. vm_compute in E. injection E as <-. cbn. split; [tauto|]. intros i e o [H|[H|[H|[H|[]]]]]; inversion H; auto.
Qed.

(** Refuted: while one thread waits for the mutex to run a function through the executor, the handler is invoked inside the initiation: the waiting thread locks a destroyed mutex. *)
Theorem asio_overlap_refuted : exists s, reachable s /\ In EBad (log s) /\ (forall i e o, In (ECons i e o) (log s) -> e = false) /\ ~ In EThrow (log s).
Proof.
  destruct (runs [AStart 0; AStep 0; ARun 1; ACons 0 true; AStep 0; AStep 0; AStep 0; AStep 1] init) as [s|] eqn:E; [|vm_compute in E; discriminate].
  exists s. split; [eexists; exact E|]. vm_compute in E. injection E as <-. cbn. split; [tauto|]. split; [|intuition discriminate]. intros i e o H. repeat (destruct H as [H|H]; [inversion H; auto|]). destruct H.
Qed.

(** ** The remaining steps *)
Lemma step_stop : forall g s t s', inv g s -> step s (AStop t) = Some s' -> exists g', inv g' s'.
Proof.
  intros g s t s' I H. cbn in H. destruct (user_code (stk s t)) eqn:U; [|discriminate]. destruct (stopq s) eqn:SQ; [discriminate|]. injection H as <-.
  destruct I as [P T En Ex H M F A B C Em]. exists g.
  assert (X : inv g (w_stopq s)). { constructor; try assumption. intros t'. destruct (T t'). constructor; auto. }
  destruct (cb s) eqn:CB; auto. clear X.
  assert (GD : g <> GDead). { intros ->. cbn in P. rewrite CB in P. cbn in P. tauto. }
  destruct (@alive_phase _ _ P GD) as [D0 NC].
  assert (NS : forall u, nstop (stk s u) = 0). { intros u. rewrite (t_stop (T u)), CB. auto. }
  assert (NT : forall u, (match g with GPend u' | GCompl u' => u = u' | _ => False end) -> u <> t).
  { intros u X ->. destruct g; try tauto; subst; cbn in P; unfold pendok, complok in P; destruct (stk s t0) as [|[k p o] st]; try tauto; destruct p; cbn in U; try discriminate; destruct k; tauto. }
  constructor; cbn; auto.
  - destruct g as [[u|]| |u|u|u|]; cbn in *; auto.
    + destruct P as (_ & _ & _ & _ & _ & _ & P & _). congruence.
    + destruct P as (_ & _ & _ & _ & _ & _ & P & _). congruence.
    + unfold pendok in *. cbn. rewrite (@fset_other _ _ _ _ _ (NT u eq_refl)). auto.
    + destruct P as (P1 & P2 & P3 & P4 & P5). repeat (split; auto). destruct (Nat.eq_dec u t) as [->|N]; [rewrite fset_same; cbn; auto|rewrite (@fset_other _ _ _ _ _ N); auto].
    + unfold complok in *. cbn. rewrite (@fset_other _ _ _ _ _ (NT u eq_refl)). destruct P as (P1 & P2 & P3 & P4). repeat (split; auto). rewrite CB in P4. exact P4.
    + congruence.
  - upd_th t.
    + destruct (T t) as [T1 T2 T3 T4 T5]. constructor; cbn; rewrite ?fset_same; cbn; auto.
      * split; [unfold recok; cbn; auto|]. eapply recsok_mono_below; [eapply user_code_below; eauto|]. intros k' r X Y. assert (Z := nstop_in _ _ (NS t) X). rewrite CB in Y. destruct r as [k p o]. unfold recok in *. destruct k, p; cbn in *; intuition congruence.
      * rewrite NS, Nat.eqb_refl. auto.
      * rewrite <- T5. split; [tauto|]. intros X. destruct (stk s t) as [|[k p o] st]; auto. cbn in U, X. destruct k, p; tauto || discriminate.
    + oth T t' N; [| |tauto].
      * intros a r I X. assert (Y := nstop_in _ _ (NS t') I). rewrite CB in X. destruct r as [k p o]. unfold recok in *. destruct k, p; cbn in *; intuition congruence.
      * rewrite CB. cbn. destruct (Nat.eqb_spec t t'); [congruence|auto].
  - intros X. destruct (En X) as [Y|[Y|Y]]; auto; [congruence|]. right; right. eapply haspeng_upd; eauto. cbn; auto.
Qed.

(** *** Locking the mutex *)
Lemma recok_below_m : forall g m c t k r m', recok g m c t (Some k) r -> recok g m' c t (Some k) r.
Proof. intros g m c t k [k0 p o] m'. unfold recok. destruct k0, p; cbn; intuition discriminate. Qed.
Lemma top_rec : forall g s t r st, inv g s -> stk s t = r :: st -> recok g (mtx s) (cb s) t None r /\ recsok g (mtx s) (cb s) t (Some (kd r)) st.
Proof. intros g s t r st I E. pose proof (t_rec (v_th I t)) as X. rewrite E in X. exact X. Qed.

Lemma lock_th : forall g g' s s' t k p' st, inv g s -> stk s t = mkr k PLock false :: st -> lockable (mtx s) t = true -> p' <> PLock ->
  (g' = g \/ (g = GPend t /\ g' = GAband t) \/ (g = GNone (Some t) /\ g' = GAvail)) ->
  stk s' = fset (stk s) t (mkr k p' true :: st) -> mtx s' = held t (S (depth (mtx s))) -> frs s' = (if is_frame k then length st :: frs s else frs s) -> cb s' = cb s ->
  recok g' (mtx s') (cb s) t None (mkr k p' true) ->
  (forall t', t' <> t -> (In t' (wr s') <-> In t' (wr s))) -> ~ In t (wr s') -> forall t', thok g' s' t'.
Proof.
  intros g g' s s' t k p' st I E L NP G H1 H2 H3 H4 RO W1 W2. destruct (@top_rec _ _ _ _ _ I E) as [R1 R2]. destruct I as [P T En Ex H M F A B C Em].
  assert (FB : finb g' = finb g) by (destruct G as [->|[[-> ->]|[-> ->]]]; auto).
  upd_th t.
  - destruct (T t) as [T1 T2 T3 T4 T5]. rewrite E in *. constructor; rewrite ?H1, ?fset_same, ?H4; cbn.
    + split; auto. cbn in R2. eapply recsok_mono_below; eauto. intros k' [k0 p0 o0] X Y. apply recok_below_m with (m := mtx s). clear - Y FB G. unfold recok in *. destruct k0, p0; cbn in *; rewrite ?FB; intuition (subst; congruence || auto; try discriminate).
    + rewrite H2, held_same. cbn in T2. rewrite T2. rewrite lockable_depth; auto.
    + cbn in T3. rewrite T3, H2, H3. rewrite (@lockable_frs _ _ _ L F). cbn. rewrite Nat.eqb_refl. auto.
    + auto.
    + destruct k, p'; try congruence; tauto.
  - destruct (@lockable_other _ _ _ (frs s) L N) as (X1 & X2 & X3). destruct (@held_other t (S (depth (mtx s))) t' (frs s') N) as (Y1 & Y2 & Y3). rewrite <- H2 in Y1, Y2, Y3.
    apply (fun q1 q2 q3 q4 q5 q6 => @thok_other _ _ _ _ _ (T t') q1 q2 q3 q4 q5 q6); auto.
    + rewrite H1. apply (@fset_other _ _ _ _ _ N).
    + intros a [k0 p0 o0] X Y. rewrite H4. clear - Y FB G X3 N. unfold recok in *. destruct k0, p0; cbn in *; rewrite ?FB; intuition (subst; congruence || auto; try discriminate).
    + congruence.
    + congruence.
    + rewrite H4. auto.
Qed.

Lemma lock_start : forall g s t o st, inv g s -> stk s t = mkr KStart PLock o :: st -> lockable (mtx s) t = true ->
  exists g', inv g' (w_hav (set_top (w_mtx (touch s) (held t (S (depth (mtx s)))) (length st :: frs s)) t (mkr KStart PBody true) st) true).
Proof.
  intros g s t o st I E L. destruct (@top_rec _ _ _ _ _ I E) as [R1 R2]. unfold recok in R1. cbn in R1. destruct R1 as (-> & _ & -> & CB).
  assert (TH := fun s' => @lock_th (GNone (Some t)) GAvail s s' t KStart PBody st I E L ltac:(discriminate)).
  destruct I as [P T En Ex H M F A B C Em]. cbn in P. destruct P as (P1 & P2 & P3 & P4 & P5 & P6 & P7 & P8). unfold touch. rewrite P6. exists GAvail. constructor; cbn; auto.
  - split; auto. split; [auto|]. split; auto. cbn. rewrite P8. auto.
  - apply TH; cbn; auto.
    + tauto.
    + intros X. apply (t_wait (T t)) in X. rewrite E in X. exact X.
  - intros X. apply Ex. discriminate.
  - intros _ i e o. rewrite P8. cbn. tauto.
  - intros X. discriminate.
Qed.

Lemma lock_run : forall g s t o st, inv g s -> stk s t = mkr KRun PLock o :: st -> lockable (mtx s) t = true ->
  exists g', inv g' (w_wr (set_top (w_mtx (touch s) (held t (S (depth (mtx s)))) (length st :: frs s)) t (mkr KRun PBody true) st) (remove Nat.eq_dec t (wr s))).
Proof.
  intros g s t o st I E L. destruct (@top_rec _ _ _ _ _ I E) as [R1 R2]. unfold recok in R1. cbn in R1. destruct R1 as (-> & _ & FB & GM).
  assert (TH := fun s' => @lock_th g g s s' t KRun PBody st I E L ltac:(discriminate)).
  destruct I as [P T En Ex H M F A B C Em]. destruct (@alive_phase _ _ P) as [D0 NC]; [intros ->; discriminate|]. unfold touch. rewrite D0. exists g. constructor; cbn; auto.
  - destruct g as [[u|]| |u|u|u|]; cbn in *; auto; try discriminate.
    + destruct P as (_ & _ & P & _). rewrite P in GM. destruct GM as [X|[]]. discriminate.
    + destruct P as (_ & _ & P & _). rewrite P in GM. destruct GM as [X|[]]. discriminate.
    + assert (N : u <> t). { intros ->. unfold pendok in P. rewrite E in P. tauto. } unfold pendok in *. cbn. rewrite (@fset_other _ _ _ _ _ N). auto.
    + destruct P as (P1 & P2 & P3 & P4 & P5). split; [exact P1|]. repeat (split; auto). { destruct (mtx s) as [[v n]|]; [|destruct P4]. cbn in *. apply Nat.eqb_eq in L. congruence. }
      destruct (Nat.eq_dec u t) as [->|N]; [rewrite fset_same; rewrite E in P5; cbn in *; intuition discriminate|rewrite (@fset_other _ _ _ _ _ N); auto].
  - apply TH; cbn; auto.
    + unfold recok. cbn. rewrite FB. auto.
    + intros t' N. split; intros X; [apply in_remove in X; tauto|apply in_in_remove; auto].
    + intros X. apply in_remove in X. tauto.
  - intros X. destruct (En X) as [Y|[Y|Y]]; auto. right; right. eapply haspeng_upd; eauto. rewrite E. intros o' [Z|Z]; [discriminate|cbn; auto].
  - discriminate.
Qed.

Lemma lock_stop : forall g s t o st, inv g s -> stk s t = mkr KStop PLock o :: st -> lockable (mtx s) t = true ->
  exists g', inv g' (emit (set_top (w_mtx (touch s) (held t (S (depth (mtx s)))) (frs s)) t (mkr KStop PBody true) st) EEmit).
Proof.
  intros g s t o st I E L. destruct (@top_rec _ _ _ _ _ I E) as [R1 R2]. unfold recok in R1. cbn in R1. destruct R1 as (-> & _ & CB & GD).
  assert (TH := fun s' => @lock_th g g s s' t KStop PBody st I E L ltac:(discriminate)).
  destruct I as [P T En Ex H M F A B C Em]. destruct (@alive_phase _ _ P GD) as [D0 NC]. unfold touch. rewrite D0. exists g. constructor; cbn; auto.
  - destruct g as [[u|]| |u|u|u|]; cbn in *; auto; try discriminate.
    + destruct P as (_ & _ & _ & _ & _ & _ & P & _). congruence.
    + destruct P as (_ & _ & _ & _ & _ & _ & P & _). congruence.
    + assert (N : u <> t). { intros ->. unfold pendok in P. rewrite E in P. tauto. } unfold pendok in *. cbn. rewrite (@fset_other _ _ _ _ _ N). destruct P as (P1 & P2 & P3 & P4 & P5). repeat (split; auto).
      destruct (stk s u) as [|[k0 p0 o0] st0]; auto. destruct k0, p0; auto; destruct P5 as (e & o' & X); exists e, o'; cbn; auto.
    + destruct P as (P1 & P2 & P3 & P4 & P5). split; [exact P1|]. repeat (split; auto). { destruct (mtx s) as [[v n]|]; [|destruct P4]. cbn in *. apply Nat.eqb_eq in L. congruence. }
      destruct (Nat.eq_dec u t) as [->|N]; [rewrite fset_same; rewrite E in P5; cbn in *; intuition discriminate|rewrite (@fset_other _ _ _ _ _ N); auto].
    + assert (N : u <> t). { intros ->. unfold complok in P. rewrite E in P. tauto. } unfold complok in *. cbn. rewrite (@fset_other _ _ _ _ _ N). destruct P as (P1 & P2 & P3 & P4). split; [exact P1|]. repeat (split; auto).
      destruct (stk s u) as [|[k0 p0 o0] st0]; auto. destruct p0; auto; (destruct P4 as [X Y]; split; auto; destruct (is_frame k0); auto; destruct Y as (e & o' & Y); exists e, o'; cbn; auto).
  - apply TH; cbn; auto.
    + tauto.
    + intros X. apply (t_wait (T t)) in X. rewrite E in X. exact X.
  - intros X. destruct (En X) as [Y|[Y|Y]]; auto. right; right. eapply haspeng_upd; eauto. rewrite E. intros o' [Z|Z]; [discriminate|cbn; auto].
  - intros _. rewrite (Ex GD). intuition discriminate.
  - intros X i e o [Y|Y]; [discriminate|]. eapply H; eauto.
  - discriminate.
  - intros X. destruct (A X) as (e & o' & Y). exists e, o'. cbn. auto.
  - intros [X|X]; [discriminate|auto].
  - intros c [X|X]; [discriminate|]. elim (@nocompl _ NC c X).
  - intros l1 l2 c X. exfalso. refine (@nocompl_app _ _ l1 l2 c X). cbn. auto.
Qed.

Lemma lock_dtor : forall g s t o st, inv g s -> stk s t = mkr KDtor PLock o :: st -> lockable (mtx s) t = true ->
  exists g', inv g' (w_aband (set_top (w_mtx (touch s) (held t (S (depth (mtx s)))) (length st :: frs s)) t (mkr KDtor PEnd true) st)).
Proof.
  intros g s t o st I E L. destruct (@top_rec _ _ _ _ _ I E) as [R1 R2]. unfold recok in R1. cbn in R1. destruct R1 as (-> & _ & ->).
  assert (TH := fun s' => @lock_th (GPend t) (GAband t) s s' t KDtor PEnd st I E L ltac:(discriminate)).
  destruct I as [P T En Ex H M F A B C Em]. cbn in P. destruct P as (P1 & P2 & P3 & P4 & P5). unfold pendok in P5. rewrite E in P4, P5. unfold touch. rewrite (proj1 (proj2 P1)). exists (GAband t). constructor; cbn; auto.
  - split; [exact P1|]. repeat (split; auto). rewrite fset_same. cbn. destruct (Nat.eq_dec (owns st) 0) as [Z|Z]; auto. left. apply botf_nostop; [cbn in P4; lia|lia|]. eapply recs_own; eauto.
  - apply TH; cbn; auto.
    + tauto.
    + intros X. apply (t_wait (T t)) in X. rewrite E in X. exact X.
  - intros X. destruct (En eq_refl) as [Y|[Y|Y]]; auto. right; right. eapply haspeng_upd; eauto. rewrite E. intros o' [Z|Z]; [discriminate|cbn; auto].
  - intros _. apply Ex. discriminate.
  - discriminate.
Qed.

Lemma release_nstop : forall f st, nstop (release f st) = nstop st.
Proof. induction st as [|r st IH]; cbn; auto. rewrite IH. destruct (existsb (Nat.eqb (length st)) f); auto. Qed.
Lemma release_recs : forall f t m c m' st k, recsok (GPend t) m c t (Some k) st -> nstop (mkr k PBody false :: st) = 0 -> owns (release f st) = 0 ->
  recsok (GCompl t) m' c t (Some k) (release f st).
Proof.
  intros f t m c m'. induction st as [|r st IH]; intros k R N O; auto. pose proof (@recs_below_pc _ _ _ _ _ _ r R (or_introl eq_refl)) as PB. destruct PB as [PB|[_ PB]]; [|lia].
  destruct R as [R1 R2]. cbn -[existsb] in *. set (b := existsb (Nat.eqb (length st)) f) in *.
  assert (K : kd (if b then mkr (kd r) (at_ r) false else r) = kd r /\ at_ (if b then mkr (kd r) (at_ r) false else r) = at_ r) by (destruct b; auto).
  set (r' := if b then mkr (kd r) (at_ r) false else r) in *. clearbody r'. clear b. destruct K as [K1 K2]. destruct (own r') eqn:OR; [discriminate|]. split.
  - unfold recok in *. rewrite K1, K2, OR. rewrite PB in *. unfold isstop in N. cbn in N. destruct (kd r); cbn in *; tauto || lia.
  - rewrite K1. apply IH; auto. unfold isstop in *. cbn in *. destruct (kd r), k; lia.
Qed.
(** when the mutex is available to [t], only [t] can be in emplace() *)
Lemma peng_here : forall g s t, inv g s -> lockable (mtx s) t = true -> (exists u, haspeng (stk s u)) -> haspeng (stk s t).
Proof.
  intros g s t I L [u [o X]]. destruct (Nat.eq_dec u t) as [->|N]; [exists o; auto|]. exfalso. destruct (@lockable_other _ _ _ (frs s) L N) as (Y & _).
  pose proof (@noown_frames _ _ _ _ (v_th I u) Y X) as Z. cbn in Z. subst o. destruct (@recsok_in _ _ _ _ _ _ _ (t_rec (v_th I u)) X) as [a [Z _]]. unfold recok in Z. cbn in Z. intuition discriminate.
Qed.

Lemma lock_inv : forall g s t o st, inv g s -> stk s t = mkr KInv PLock o :: st -> lockable (mtx s) t = true ->
  exists g', inv g' (set_top (w_mtx (touch s) (held t (depth (mtx s) - length (frs s))) []) t (mkr KInv PReset false) (release (frs s) st)).
Proof.
  intros g s t o st I E L. destruct (@top_rec _ _ _ _ _ I E) as [R1 R2]. unfold recok in R1. cbn in R1. destruct R1 as (-> & _ & ->). pose proof (fun X => @peng_here _ _ _ I L X) as PE.
  destruct I as [P T En Ex H M F A B C Em]. cbn in P. destruct P as (P1 & P2 & P3 & P4 & P5). unfold pendok in P5. rewrite E in P4, P5. cbn in P4, R2. unfold touch. rewrite (proj1 (proj2 P1)).
  pose proof (t_own (T t)) as TO. pose proof (t_ids (T t)) as TI. rewrite E in TO, TI. cbn in TO, TI. rewrite (@lockable_depth _ _ L) in TO. rewrite (@lockable_frs _ _ _ L F) in TI.
  assert (OI : length (ids st) = owns st). { apply ids_owns; [auto|]. eapply recs_own; eauto. }
  destruct (@release_ids st (frs s)) as [O1 O2]; [rewrite TI; auto|rewrite TI; auto|]. rewrite OI, Nat.sub_diag in O1.
  rewrite <- TO, <- TI, OI, Nat.sub_diag. cbn [held]. rewrite TI. exists (GCompl t). constructor; cbn; auto; try discriminate.
  - split; [exact P1|]. split; [auto|]. rewrite fset_same. cbn. split; [rewrite release_nstop; auto|]. unfold complok. cbn. rewrite fset_same. cbn. split; auto. destruct (En eq_refl) as [X|[X|X]]; [auto|right; rewrite X; cbn; auto|].
    apply PE in X. destruct X as [o X]. rewrite E in X. destruct X as [X|X]; [discriminate|]. destruct (@recs_below_pc _ _ _ _ _ _ _ R2 X) as [Y|[_ Y]]; [discriminate|]. cbn in Y. lia.
  - upd_th t.
    + destruct (T t) as [T1 T2 T3 T4 T5]. rewrite E in *. constructor; cbn; rewrite ?fset_same; cbn; auto.
      * split; [unfold recok; cbn; auto|]. eapply release_recs; eauto.
      * rewrite release_nstop. auto.
    + destruct (@lockable_other _ _ _ (frs s) L N) as (X1 & X2 & X3). oth T t' N; auto; [|tauto].
      intros a r X Y. pose proof (@noown_frames _ _ _ _ (T t') X1 X) as Z. destruct r as [k0 p0 o0]. unfold recok in *. cbn in Z. subst o0. destruct k0, p0; cbn in *; intuition congruence.
  - intros _. apply Ex. discriminate.
Qed.

(** *** start() registers the stop callback *)
Fixpoint bs (st : list rec) : Prop := match st with [] => True | r :: st => (kd r = KStart -> st = []) /\ bs st end.
Lemma pendcompl_not : forall g s t r st, phok g s -> stk s t = r :: st -> (forall u, g = GPend u -> u = t -> at_ r = PLock /\ (kd r = KInv \/ kd r = KDtor)) /\ (forall u, g = GCompl u -> u = t -> at_ r = PReset \/ at_ r = PCompl).
Proof.
  intros g s t r st P E. split; intros u -> ->; cbn in P.
  - destruct P as (_ & _ & _ & _ & P). unfold pendok in P. rewrite E in P. destruct r as [k p o]. destruct k, p; cbn; tauto.
  - destruct P as (_ & _ & _ & P). unfold complok in P. rewrite E in P. destruct r as [k p o]. destruct p; cbn; tauto.
Qed.
Lemma step_emp : forall g s t st, inv g s -> stk s t = mkr KStart PEmp true :: st -> bs (stk s t) ->
  exists g', inv g' (if stopq s then w_cb (w_stk s t (mkr KStop PLock false :: mkr KStart PEng true :: st)) (eng s) (CbRun t) else w_cb (set_top s t (mkr KStart PEng true) st) (eng s) CbReg) /\ dead s = false.
Proof.
  intros g s t st I E BS. destruct (@top_rec _ _ _ _ _ I E) as [R1 R2]. unfold recok in R1. cbn in R1. destruct R1 as (FB & CB & _). pose proof (own_top (v_th I t) E eq_refl) as MT.
  rewrite E in BS. cbn in BS. destruct BS as [BS _]. specialize (BS eq_refl). subst st. destruct (finb g) eqn:FG; [discriminate|]. clear FB. pose proof (@pendcompl_not _ _ _ _ _ (v_ph I) E) as [NP _]. cbn in NP.
  destruct I as [P T En Ex H M F A B C Em]. destruct (@alive_phase _ _ P) as [D0 NC]; [intros ->; discriminate|]. exists g. split; [|auto].
  assert (GEN : forall pre c', (pre = [] /\ c' = CbReg) \/ (pre = [mkr KStop PLock false] /\ c' = CbRun t) -> inv g (w_cb (w_stk s t (pre ++ [mkr KStart PEng true])) (eng s) c')).
  { intros pre c' PC. constructor; cbn; auto.
    - destruct g as [[u|]| |u|u|u|]; cbn in *; auto; try discriminate.
      + destruct P as (_ & _ & P & _). congruence.
      + destruct P as (_ & _ & P & _). congruence.
      + assert (N : u <> t) by (intros ->; specialize (NP _ eq_refl eq_refl); destruct NP; discriminate). unfold pendok in *. cbn. rewrite (@fset_other _ _ _ _ _ N). auto.
      + destruct P as (P1 & P2 & P3 & P4 & P5). split; [exact P1|]. repeat (split; auto). rewrite MT in P4. cbn in P4. subst u. rewrite fset_same. destruct PC as [[-> _]|[-> _]]; cbn; auto.
    - upd_th t.
      + destruct (T t) as [T1 T2 T3 T4 T5]. rewrite E in *. rewrite CB in T4. cbn in T2, T3, T4, T5. destruct PC as [[-> ->]|[-> ->]]; constructor; cbn; rewrite ?fset_same, ?Nat.eqb_refl; cbn; auto.
        split; [split; auto; split; auto; split; auto; intros X; rewrite X in FG; discriminate|]. auto.
      + oth T t' N.
        * intros a r X Y. assert (DP : dep_of (mtx s) t' = 0) by (rewrite MT; cbn; destruct (Nat.eqb_spec t t'); congruence). pose proof (@noown_frames _ _ _ _ (T t') DP X) as Z. rewrite CB in Y. destruct r as [k0 p0 o0]. cbn in Z. subst o0.
          unfold recok in *. rewrite FG in *. destruct k0, p0; cbn in *; try (solve [intuition congruence]). exfalso. destruct Y as (_ & _ & -> & _). cbn in P. destruct P as (_ & _ & P & _). congruence.
        * rewrite CB. cbn. destruct PC as [[_ ->]|[_ ->]]; cbn; auto. destruct (Nat.eqb_spec t t'); congruence.
        * tauto.
    - intros _. right; right. exists t. rewrite fset_same. exists true. apply in_app_iff. cbn. auto. }
  destruct (stopq s).
  - apply (GEN [mkr KStop PLock false]). auto.
  - apply (GEN []). auto.
Qed.
(** the innermost call goes on, and nothing else changes *)
Lemma step_top : forall g s t k p p' o st e, inv g s -> stk s t = mkr k p o :: st -> k = KStart -> (p = PEmp /\ o = false /\ p' = PEnd /\ e = eng s) \/ (p = PEng /\ p' = PEnd /\ e = true) ->
  exists g', inv g' (w_cb (set_top s t (mkr k p' o) st) e (cb s)) /\ (p = PEng -> dead s = false).
Proof.
  intros g s t k p p' o st e I E -> PP. destruct (@top_rec _ _ _ _ _ I E) as [R1 R2]. pose proof (@pendcompl_not _ _ _ _ _ (v_ph I) E) as [NP NC]. cbn in NP, NC.
  assert (PX : p' = PEnd /\ (p = PEmp \/ p = PEng)) by intuition. destruct PX as [-> PX].
  destruct I as [P T En Ex H M F A B C Em].
  assert (RO : recok g (mtx s) (cb s) t None (mkr KStart PEnd o)). { unfold recok in *. cbn in *. destruct PX as [-> | ->]; cbn in *; [tauto|]. destruct R1 as (-> & -> & _). auto. }
  assert (FG : p = PEng -> finb g = false). { intros ->. unfold recok in R1. cbn in R1. tauto. }
  exists g. split.
  - constructor; cbn; auto.
    + destruct g as [[u|]| |u|u|u|]; cbn in *; auto.
      * destruct P as (_ & P & _). specialize (P t). rewrite E in P. destruct PX as [-> | ->], (t =? u); discriminate.
      * destruct P as (_ & P & _). specialize (P t). rewrite E in P. discriminate.
      * assert (N : u <> t) by (intros ->; specialize (NP _ eq_refl eq_refl); destruct PX as [-> | ->], NP; discriminate). unfold pendok in *. cbn. rewrite (@fset_other _ _ _ _ _ N). auto.
      * destruct P as (P1 & P2 & P3 & P4 & P5). split; [exact P1|]. repeat (split; auto). destruct (Nat.eq_dec u t) as [->|N]; [rewrite fset_same; rewrite E in P5; cbn in *; auto|rewrite (@fset_other _ _ _ _ _ N); auto].
      * assert (N : u <> t) by (intros ->; specialize (NC _ eq_refl eq_refl); destruct PX as [-> | ->], NC; discriminate). assert (EE : e = eng s) by (destruct PP as [PP|PP]; [tauto|]; destruct PP as [PP _]; specialize (FG PP); discriminate). subst e.
        unfold complok in *. cbn. rewrite (@fset_other _ _ _ _ _ N). auto.
    + upd_th t.
      * destruct (T t) as [T1 T2 T3 T4 T5]. rewrite E in *. constructor; cbn in *; rewrite ?fset_same; cbn; auto. 
      * oth T t' N. tauto.
    + intros X. destruct PP as [(_ & Y & _ & _)|(_ & _ & ->)]; [|auto]. exfalso. clear - RO X Y. unfold recok in RO. cbn in RO. rewrite X in RO. destruct RO as [-> _]. discriminate.
  - intros X. destruct (@alive_phase _ _ P) as [D0 _]; auto. intros ->. specialize (FG X). discriminate.
Qed.

(** *** The end of a frame *)
Lemma below_nowait : forall g m c t k st, recsok g m c t (Some k) st -> ~ wait st.
Proof. intros g m c t k [|[k0 p o] st]; cbn; [tauto|]. intros [R _]. unfold recok in R. destruct k0, p; cbn in *; try tauto. intuition discriminate. Qed.
Lemma below_own : forall g m c t k st, recsok g m c t (Some k) st -> finb g = false -> owns st = 0 -> st = [].
Proof. intros g m c t k [|[k0 p o] st]; cbn; auto. intros [R _] FB O. destruct o; [discriminate|]. unfold recok in R. rewrite FB in R. destruct k0, p; cbn in *; intuition discriminate. Qed.
Lemma end_kind : forall g m c t k o, recok g m c t None (mkr k PEnd o) -> is_frame k = true /\ (o = negb (finb g)).
Proof. intros g m c t k o R. unfold recok in R. destruct k; cbn in R; try tauto; (split; [reflexivity|]); intuition. subst. auto. Qed.

Lemma step_end_pop : forall g s t k st, inv g s -> stk s t = mkr k PEnd true :: st -> (tl (frs s) <> [] \/ aband s = false) ->
  exists g', inv g' (w_stk (w_mtx s (held t (depth (mtx s) - 1)) (tl (frs s))) t st) /\ dead s = false.
Proof.
  intros g s t k st I E AB. destruct (@top_rec _ _ _ _ _ I E) as [R1 R2]. destruct (@end_kind _ _ _ _ _ _ R1) as [KF FB]. pose proof (own_top (v_th I t) E eq_refl) as MT. pose proof (@pendcompl_not _ _ _ _ _ (v_ph I) E) as [NP _]. cbn in NP, R2.
  destruct I as [P T En Ex H M F A B C Em]. destruct (finb g) eqn:FG; [discriminate|]. clear FB. destruct (@alive_phase _ _ P) as [D0 NC]; [intros ->; discriminate|].
  assert (FI : frs s = length st :: ids st). { pose proof (t_ids (T t)) as X. rewrite E, MT in X. cbn in X. rewrite KF, Nat.eqb_refl in X. cbn in X. auto. }
  rewrite FI in *. cbn [tl] in *. rewrite MT. cbn [depth]. replace (S (owns st) - 1) with (owns st) by lia. exists g. split; [|auto]. constructor; cbn; auto.
  - destruct g as [[u|]| |u|u|u|]; cbn in *; auto; try discriminate.
    + destruct P as (_ & _ & P & _). congruence.
    + destruct P as (_ & _ & P & _). congruence.
    + assert (N : u <> t) by (intros ->; specialize (NP _ eq_refl eq_refl); destruct NP; discriminate). unfold pendok in *. cbn. rewrite (@fset_other _ _ _ _ _ N). auto.
    + destruct P as (P1 & P2 & P3 & P4 & P5). split; [exact P1|]. split; [auto|]. split; [auto|]. rewrite MT in P4. cbn in P4. subst u. rewrite fset_same. rewrite E in P5. cbn in P5.
      assert (BF : botf st). { destruct P5 as [P5|(P5 & _)]; auto. rewrite (ids_owns0 _ P5) in AB. destruct AB; congruence. } split; auto. pose proof (botf_owns _ BF). destruct (owns st); [lia|]. cbn. auto.
  - upd_th t.
    + destruct (T t) as [T1 T2 T3 T4 T5]. rewrite E in *. constructor; cbn; rewrite ?fset_same; cbn; auto.
      * apply (@recsok_none _ _ _ _ (Some k)). eapply recsok_mono_below; eauto. intros k' r X. apply recok_below_m.
      * rewrite held_same. auto.
      * rewrite held_frs; auto. apply ids_owns0.
      * cbn in T4. destruct k; cbn in T4; try discriminate; auto.
      * rewrite <- T5. pose proof (@below_nowait _ _ _ _ _ _ R2). destruct k; cbn; tauto.
    + destruct (@held_other t (owns st) t' (ids st) N) as (X1 & X2 & X3). assert (Z : (t =? t') = false) by (apply Nat.eqb_neq; auto). oth T t' N.
      * intros a [k0 p0 o0] X Y. rewrite MT in Y. unfold recok in *. destruct k0, p0; cbn in *; auto. intuition congruence.
      * rewrite X1, MT. cbn. rewrite Z. auto.
      * rewrite X2, MT. cbn. rewrite Z. auto.
      * tauto.
  - intros X. destruct (En eq_refl) as [Y|[Y|Y]]; auto. right; right. eapply haspeng_upd; eauto. rewrite E. intros o' [Z|Z]; [discriminate|cbn; auto].
  - apply held_v_m.
  - intros X. apply ids_owns0. destruct (owns st); auto. discriminate.
Qed.

Lemma step_end_compl : forall g s t k st, inv g s -> stk s t = mkr k PEnd true :: st -> tl (frs s) = [] -> aband s = true ->
  exists g', inv g' (set_top (w_mtx s (held t (depth (mtx s) - 1)) []) t (mkr k PReset false) st) /\ dead s = false.
Proof.
  intros g s t k st I E TF AB. destruct (@top_rec _ _ _ _ _ I E) as [R1 R2]. destruct (@end_kind _ _ _ _ _ _ R1) as [KF FB]. pose proof (own_top (v_th I t) E eq_refl) as MT. pose proof (@pendcompl_not _ _ _ _ _ (v_ph I) E) as [NP _]. cbn in NP, R2.
  destruct (finb g) eqn:FG; [discriminate|]. clear FB. assert (PE := fun X => @peng_here _ _ t I X).
  destruct I as [P T En Ex H M F A B C Em].
  assert (FI : frs s = length st :: ids st). { pose proof (t_ids (T t)) as X. rewrite E, MT in X. cbn in X. rewrite KF, Nat.eqb_refl in X. cbn in X. auto. }
  rewrite FI in TF. cbn in TF. destruct g as [[u|]| |u|u|u|]; try discriminate; try (exfalso; cbn in P; intuition congruence).
  cbn in P. destruct P as (P1 & P2 & P3 & P4 & P5). rewrite MT in P4. cbn in P4. subst u. rewrite E in P5. cbn in P5. assert (O : owns st = 0). { destruct P5 as [P5|(P5 & _)]; auto. apply botf_ids in P5. congruence. }
  pose proof (@below_own _ _ _ _ _ _ R2 eq_refl O). subst st. clear TF O P5 R2. rewrite MT. cbn. assert (NS : nst (cb s) t = 0). { rewrite <- (t_stop (T t)), E. destruct k; cbn in *; auto; discriminate. }
  exists (GCompl t). split; [|apply P1]. constructor; cbn; auto; try discriminate.
  - split; [exact P1|]. split; [auto|]. rewrite fset_same. split; [destruct k; cbn in *; auto; discriminate|]. unfold complok. cbn. rewrite fset_same, KF. split; auto. destruct (En eq_refl) as [X|[X|X]]; [auto|right; rewrite X; cbn; auto|].
    apply PE in X; [|rewrite MT; cbn; apply Nat.eqb_refl]. destruct X as [o X]. rewrite E in X. destruct X as [X|[]]; discriminate.
  - upd_th t.
    + destruct (T t) as [T1 T2 T3 T4 T5]. rewrite E in *. constructor; cbn; rewrite ?fset_same; cbn; auto.
      * split; auto. unfold recok. cbn. destruct k; cbn in *; auto; discriminate.
    + assert (Z : (t =? t') = false) by (apply Nat.eqb_neq; auto). oth T t' N; [|rewrite MT; cbn; rewrite Z; auto|rewrite MT; cbn; rewrite Z; auto|tauto].
      intros a r X Y. assert (X1 : dep_of (mtx s) t' = 0) by (rewrite MT; cbn; rewrite Z; auto). pose proof (@noown_frames _ _ _ _ (T t') X1 X) as W. rewrite MT in Y. destruct r as [k0 p0 o0]. cbn in W. subst o0.
      unfold recok in *. destruct k0, p0; cbn in *; intuition congruence.
  - intros _. apply Ex. discriminate.
Qed.

Lemma step_end_noown : forall g s t k st, inv g s -> stk s t = mkr k PEnd false :: st -> exists g', inv g' (w_stk s t st).
Proof.
  intros g s t k st I E. destruct (@top_rec _ _ _ _ _ I E) as [R1 R2]. destruct (@end_kind _ _ _ _ _ _ R1) as [KF FB]. pose proof (@pendcompl_not _ _ _ _ _ (v_ph I) E) as [_ NP]. cbn in NP, R2.
  destruct I as [P T En Ex H M F A B C Em]. destruct (finb g) eqn:FG; [|discriminate]. clear FB. exists g. constructor; cbn; auto.
  - destruct g as [[u|]| |u|u|u|]; cbn in *; auto; try discriminate.
    assert (N : u <> t) by (intros ->; specialize (NP _ eq_refl eq_refl); destruct NP; discriminate). unfold complok in *. cbn. rewrite (@fset_other _ _ _ _ _ N). auto.
  - upd_th t.
    + destruct (T t) as [T1 T2 T3 T4 T5]. rewrite E in *. constructor; cbn; rewrite ?fset_same; cbn; auto.
      * apply (@recsok_none _ _ _ _ (Some k)). auto.
      * cbn in T4. destruct k; cbn in T4; try discriminate; auto.
      * rewrite <- T5. pose proof (@below_nowait _ _ _ _ _ _ R2). destruct k; cbn; tauto.
    + oth T t' N. tauto.
  - rewrite FG. discriminate.
Qed.

(** *** Completion *)
Lemma step_reset : forall g s t k o st s', inv g s -> stk s t = mkr k PReset o :: st -> step s (AStep t) = Some s' -> exists g', inv g' s'.
Proof.
  intros g s t k o st s' I E S. destruct (@top_rec _ _ _ _ _ I E) as [R1 R2]. assert (X : o = false /\ g = GCompl t). { unfold recok in R1. destruct k; cbn in R1; tauto. } destruct X as [-> ->].
  destruct I as [P T En Ex H M F A B C Em]. cbn in P. destruct P as (P1 & P2 & P3 & P4). unfold complok in P4. rewrite E in P4. cbn in S. rewrite E in S. unfold touch in S. rewrite (proj1 (proj2 P1)) in S.
  assert (X : exists c', s' = w_cb (set_top s t (mkr k PCompl false) st) false c' /\ cbidle c' /\ (c' = cb s \/ (cb s = CbReg /\ c' = CbNo)) \/ (s' = set_top s t (mkr k PCompl false) st /\ cbidle (cb s) /\ eng s = false)).
  { change (eng (set_top s t (mkr k PCompl false) st)) with (eng s) in S. change (cb (set_top s t (mkr k PCompl false) st)) with (cb s) in S. destruct (eng s) eqn:EN.
    - destruct (cb s) as [| |t'|] eqn:CB.
      + injection S as <-. exists CbNo. left. cbn. auto.
      + injection S as <-. exists CbNo. left. cbn. auto.
      + destruct (Nat.eqb_spec t' t) as [->|]; [|discriminate]. pose proof (t_stop (T t)) as X. rewrite P3, CB in X. cbn in X. rewrite Nat.eqb_refl in X. discriminate.
      + injection S as <-. exists CbDone. left. cbn. auto.
    - injection S as <-. exists CbNo. right. destruct P4 as [[X|X] _]; [discriminate|auto]. }
  assert (GEN : forall e c', cbidle c' -> (c' = cb s \/ (cb s = CbReg /\ c' = CbNo)) -> inv (GCompl t) (w_cb (set_top s t (mkr k PCompl false) st) e c')).
  { intros e c' CI CC. constructor; cbn; auto; try discriminate.
    - split; [exact P1|]. split; [auto|]. rewrite fset_same. split; [rewrite E in P3; exact P3|]. unfold complok. cbn. rewrite fset_same. tauto.
    - upd_th t.
      + destruct (T t) as [T1 T2 T3 T4 T5]. rewrite E in *. constructor; cbn; rewrite ?fset_same; cbn; auto.
        * split; [unfold recok; destruct k; cbn in *; try tauto; unfold recok in R1; cbn in R1; tauto|]. cbn in R2. eapply recsok_mono_below; eauto. intros k' [k0 p0 o0] X0 Y. clear - Y CC. unfold recok in *. destruct k0, p0; cbn in *; intuition (subst; congruence || auto).
        * transitivity (nst (cb s) t); [exact T4|]. destruct CC as [-> | [-> ->]]; auto.
      + oth T t' N; [| |tauto].
        * intros a [k0 p0 o0] X0 Y. clear - Y CC. unfold recok in *. destruct k0, p0; cbn in *; intuition (subst; congruence || auto).
        * destruct CC as [-> | [-> ->]]; auto.
    }
  exists (GCompl t). destruct X as [c' [(-> & X1 & X2)|(-> & X1 & X2)]]; [apply GEN; auto|]. specialize (GEN (eng s) (cb s) X1 (or_introl eq_refl)). destruct s. exact GEN.
Qed.

Lemma step_compl : forall g s t k o st, inv g s -> stk s t = mkr k PCompl o :: st ->
  exists g', inv g' (w_dead (emit (w_stk s t st) (ECompl (if ex s then CErr else match k with KInv => CVal | _ => CStp end)))) /\ dead s = false.
Proof.
  intros g s t k o st I E. destruct (@top_rec _ _ _ _ _ I E) as [R1 R2]. assert (X : o = false /\ g = GCompl t /\ k <> KStop). { unfold recok in R1. destruct k; cbn in R1; try tauto; repeat (split; try tauto); discriminate. } destruct X as (-> & -> & NK).
  destruct I as [P T En Ex H M F A B C Em]. cbn in P. destruct P as (P1 & P2 & P3 & P4). unfold complok in P4. rewrite E in P3, P4. destruct P4 as [CI P4]. cbn in R2.
  assert (NST : forall u, nst (cb s) u = 0) by (intros u; destruct (cb s); auto; destruct CI).
  exists GDead. split; [|apply P1]. set (c := if ex s then CErr else match k with KInv => CVal | _ => CStp end). constructor; cbn; auto; try discriminate.
  - destruct P1 as (Q1 & Q2 & Q3). repeat (split; auto).
  - upd_th t.
    + destruct (T t) as [T1 T2 T3 T4 T5]. rewrite E in *. constructor; cbn; rewrite ?fset_same; cbn; auto.
      * apply (@recsok_none _ _ _ _ (Some k)). eapply recsok_mono_below; eauto. intros k' r X Y. assert (W : isstop r = false) by (eapply nstop_in; [|exact X]; cbn in P3; lia). destruct r as [k0 p0 o0]. unfold recok in *. destruct k0, p0; cbn in *; intuition (try congruence).
      * cbn in T4. rewrite <- T4. destruct k; auto. congruence.
      * rewrite <- T5. pose proof (@below_nowait _ _ _ _ _ _ R2). destruct k; cbn; tauto.
    + oth T t' N; [|tauto]. intros a r X Y. pose proof (@nostop_recs _ _ _ r (T t') (NST t') X) as W. destruct r as [k0 p0 o0]. unfold recok in *. destruct k0, p0; cbn in *; intuition (try congruence).
  - congruence.
  - intros X. congruence.
  - intros X. destruct (A X) as (e & o' & Y). exists e, o'. cbn. auto.
  - intros [X|X]; [discriminate|auto].
  - assert (EX : ex s = true <-> In EThrow (log s)) by (apply Ex; discriminate). intros c0 [X|X]; [|elim (@nocompl _ (proj2 (proj2 P1)) c0 X)]. injection X as <-. split; [|split].
    + subst c. destruct (ex s).
      * split; auto. intros _. right. tauto.
      * split; [destruct k; discriminate|]. intros [X|X]; [discriminate|]. apply EX in X. discriminate.
    + intros X. subst c. destruct (ex s); [discriminate|]. destruct k; try discriminate. cbn in P4. destruct P4 as (e & o' & Y). exists e, o'. cbn. auto.
    + intros X. subst c. destruct (ex s); [discriminate|]. destruct k; try discriminate; try congruence; cbn in P4; destruct (A P4) as (e & o' & Y); exists e, o'; cbn; auto.
  - intros l1 l2 c0 X Y. destruct l1 as [|e l1]; [destruct Y|]. cbn in X. injection X as _ X. exact (@nocompl_app _ (proj2 (proj2 P1)) _ _ _ X).
Qed.

(** *** All steps *)
Lemma bs_release : forall f st, bs st -> bs (release f st).
Proof.
  induction st as [|r st IH]; cbn -[existsb]; auto. intros [X Y]. split; auto. intros K. assert (kd r = KStart) by (destruct (existsb (Nat.eqb (length st)) f); auto). rewrite X; auto.
Qed.
Lemma bs_upd : forall (f : nat -> list rec) t st, (forall u, bs (f u)) -> bs st -> forall u, bs (fset f t st u).
Proof. intros f t st H X u. destruct (Nat.eq_dec u t) as [->|N]; [rewrite fset_same; auto|rewrite (@fset_other _ _ _ _ _ N); auto]. Qed.
Lemma touch_stk : forall s, stk (touch s) = stk s.
Proof. intros s. unfold touch. destruct (dead s); auto. Qed.
Lemma touch_log : forall s, exists l, log (touch s) = l ++ log s.
Proof. intros s. unfold touch. destruct (dead s); [exists [EBad]|exists []]; auto. Qed.
Ltac step_cases H :=
  repeat match type of H with
    | context [match ?x with _ => _ end] => destruct x eqn:?; try discriminate
    end; try (injection H as <-).
Lemma step_bs : forall s a s', step s a = Some s' -> (forall u, bs (stk s u)) -> forall u, bs (stk s' u).
Proof.
  intros s a s' H B. assert (Z : forall t, bs (stk s t)) by auto. destruct a as [t|t|t i|t|t|t|t]; cbn -[touch] in H; specialize (Z t); step_cases H; cbn -[touch] in *; auto; rewrite ?touch_stk; auto; apply bs_upd; auto; cbn;
    try (match goal with E : stk s _ = _ |- _ => rewrite E in Z; cbn in Z end); try (solve [intuition (auto; try discriminate)]); try (split; [discriminate|auto]).
  all: try (solve [repeat (match goal with |- _ /\ _ => split end; try discriminate; auto); apply bs_release; tauto]).
Qed.
Lemma step_log : forall s a s', step s a = Some s' -> exists l, log s' = l ++ log s.
Proof.
  intros s a s' H. destruct (touch_log s) as [l0 L0]. destruct a; cbn -[touch] in H; step_cases H; cbn -[touch] in *.
  all: try (solve [exists []; auto]); try (solve [exists l0; auto]).
  all: try (solve [eexists [_]; reflexivity]).
  all: unfold touch; cbn; destruct (dead s); cbn; try (solve [eexists [_]; reflexivity]); try (solve [eexists [_; _]; reflexivity]).
Qed.
Lemma runs_log : forall l s s', runs l s = Some s' -> exists l0, log s' = l0 ++ log s.
Proof.
  induction l as [|a l IH]; cbn; intros s s' H; [injection H as <-; exists []; auto|]. destruct (step s a) as [s1|] eqn:S; [|discriminate]. destruct (IH _ _ H) as [l1 L1]. destruct (step_log _ _ S) as [l2 L2].
  exists (l1 ++ l2). rewrite L1, L2, app_assoc. auto.
Qed.
Lemma polite_suffix : forall l l0, polite (l ++ l0) -> polite l0.
Proof.
  intros l l0 [P1 P2]. split; [intros i e o X; apply (P1 i); apply in_app_iff; auto|]. intros l1 l2 c E X. apply (P2 (l ++ l1) l2 c); [rewrite E, app_assoc; auto|]. apply in_app_iff; auto.
Qed.
Lemma compl_in : forall l, completions l = 1 -> exists l1 l2 c, l = l1 ++ ECompl c :: l2.
Proof.
  intros l H. unfold completions in H. destruct (filter is_compl l) as [|e r] eqn:E; [discriminate|]. assert (X : In e (filter is_compl l)) by (rewrite E; cbn; auto). apply filter_In in X. destruct X as [X1 X2]. destruct e; try discriminate.
  apply in_split in X1. destruct X1 as [l1 [l2 X]]. eauto.
Qed.

Lemma inv_step : forall g s a s', inv g s -> (forall u, bs (stk s u)) -> step s a = Some s' -> polite (log s') -> exists g', inv g' s'.
Proof.
  intros g s a s' I B S PL. destruct a as [t|t|t i|t|t|t|t].
  - eapply step_start; eauto.
  - eapply step_run; eauto.
  - eapply step_cons; eauto.
  - assert (GD : forall e, (exists l, log s' = l ++ log s /\ In e l /\ e = EThrow) -> g <> GDead).
    { intros e (l & L & X & ->) ->. destruct I as [P _ _ _ _ _ _ _ _ _ _]. cbn in P. destruct P as (_ & _ & _ & _ & P). destruct (compl_in _ P) as (l1 & l2 & c & E). destruct PL as [_ PL]. apply (PL (l ++ l1) l2 c); [rewrite L, E, app_assoc; auto|]. apply in_app_iff; auto. }
    cbn -[touch] in S. destruct (stk s t) as [|[k p o] st] eqn:E; [discriminate|]. destruct k; try discriminate; destruct p; try discriminate; injection S as <-.
    + assert (G : g <> GDead). { apply (GD EThrow). unfold touch. cbn. destruct (dead s); cbn; [exists [EBad; EThrow]|exists [EThrow]]; cbn; auto. }
      destruct (@alive_phase _ _ (v_ph I) G) as [D0 _]. destruct (@step_body _ s t KStart o st true I E (or_introl eq_refl) (fun _ => G)) as [g' X]. exists g'. unfold touch. cbn. rewrite D0. exact X.
    + assert (G : g <> GDead). { apply (GD EThrow). unfold touch. cbn. destruct (dead s); cbn; [exists [EBad; EThrow]|exists [EThrow]]; cbn; auto. }
      destruct (@alive_phase _ _ (v_ph I) G) as [D0 _]. destruct (@step_body _ s t KRun o st true I E (or_intror eq_refl) (fun _ => G)) as [g' X]. exists g'. unfold touch. cbn. rewrite D0. exact X.
  - cbn -[touch] in S. destruct (stk s t) as [|[k p o] st] eqn:E; [discriminate|]. destruct k; try discriminate; destruct p; try discriminate; injection S as <-.
    + apply (@step_body _ s t KStart o st false I E (or_introl eq_refl)). discriminate.
    + apply (@step_body _ s t KRun o st false I E (or_intror eq_refl)). discriminate.
    + eapply step_stopret; eauto.
  - eapply step_stop; eauto.
  - pose proof S as S0. cbn -[touch tl held Nat.sub lockable] in S. destruct (stk s t) as [|[k p o] st] eqn:E; [discriminate|]. destruct p; try discriminate.
    + destruct (lockable (mtx s) t) eqn:L; [|discriminate].
      assert (T1 : forall s0, mtx (touch s0) = mtx s0 /\ frs (touch s0) = frs s0 /\ wr (touch s0) = wr s0) by (intros s0; unfold touch; destruct (dead s0); auto).
      destruct (T1 s) as (T2 & T3 & T4). rewrite T2, T3, T4 in S. destruct k; injection S as <-.
      * eapply lock_start; eauto.
      * eapply lock_run; eauto.
      * eapply lock_dtor; eauto.
      * eapply lock_inv; eauto.
      * eapply lock_stop; eauto.
    + destruct (@top_rec _ _ _ _ _ I E) as [R1 _]. unfold recok in R1. destruct k; cbn in R1; try tauto. destruct o.
      * specialize (B t). destruct (@step_emp _ _ _ _ I E B) as (g' & X & D0). exists g'. unfold touch in S. rewrite D0 in S. destruct (stopq s); injection S as <-; exact X.
      * injection S as <-. destruct (@step_top _ _ _ KStart PEmp PEnd false st (eng s) I E eq_refl) as (g' & X & _); [auto|]. exists g'. destruct s; exact X.
    + destruct (@top_rec _ _ _ _ _ I E) as [R1 _]. unfold recok in R1. destruct k; cbn in R1; try tauto. destruct (@step_top _ _ _ KStart PEng PEnd o st true I E eq_refl) as (g' & X & D0); [auto|]. unfold touch in S. rewrite (D0 eq_refl) in S. injection S as <-. exists g'. exact X.
    + destruct o.
      * destruct (tl (frs s)) as [|i fr] eqn:TF; [destruct (aband s) eqn:AB|].
        -- destruct (@step_end_compl _ _ _ _ _ I E TF AB) as (g' & X & D0). unfold touch in S. rewrite D0 in S. cbn -[tl held Nat.sub] in S. rewrite ?TF, ?AB in S. injection S as <-. exists g'. exact X.
        -- destruct (@step_end_pop _ _ _ _ _ I E (or_intror AB)) as (g' & X & D0). unfold touch in S. rewrite D0 in S. cbn -[tl held Nat.sub] in S. rewrite ?TF, ?AB in S. injection S as <-. exists g'. rewrite ?TF in X. exact X.
        -- destruct (@step_end_pop _ _ _ _ _ I E) as (g' & X & D0); [left; rewrite TF; discriminate|]. unfold touch in S. rewrite D0 in S. cbn -[tl held Nat.sub] in S. rewrite ?TF in S. injection S as <-. exists g'. rewrite ?TF in X. exact X.
      * injection S as <-. eapply step_end_noown; eauto.
    + eapply step_reset; eauto.
    + destruct (@step_compl _ _ _ _ _ _ I E) as (g' & X & D0). unfold touch in S. rewrite D0 in S. injection S as <-. exists g'. exact X.
Qed.
Lemma inv_runs : forall l s s', runs l s = Some s' -> polite (log s') -> (exists g, inv g s) -> (forall u, bs (stk s u)) -> (exists g, inv g s') /\ (forall u, bs (stk s' u)).
Proof.
  induction l as [|a l IH]; cbn; intros s s' H PL [g I] B; [injection H as <-; eauto|]. destruct (step s a) as [s1|] eqn:S; [|discriminate]. apply (IH s1); auto; [|eapply step_bs; eauto].
  destruct (runs_log _ _ H) as [l0 L0]. eapply inv_step; eauto. rewrite L0 in PL. eapply polite_suffix; eauto.
Qed.
Lemma inv_reach : forall s, reachable s -> polite (log s) -> exists g, inv g s.
Proof. intros s [l R] PL. apply (@inv_runs l init s R PL); [exists (GNone None); apply inv_init|cbn; auto]. Qed.

(** ** Theorems *)
(** With a polite environment, the operation state is not used after the receiver was completed. *)
Theorem asio_safe_partial : forall s, reachable s -> polite (log s) -> ~ In EBad (log s).
Proof. intros s R P. destruct (inv_reach R P) as [g I]. apply (v_bad I). Qed.
(** The receiver is completed at most once *)
Theorem asio_once_partial : forall s, reachable s -> polite (log s) -> completions (log s) <= 1.
Proof. intros s R P. destruct (inv_reach R P) as [g I]. destruct (match g with GDead => true | _ => false end) eqn:G. { destruct g; try discriminate. pose proof (v_ph I) as X. cbn in X. lia. } destruct (@alive_phase _ _ (v_ph I)) as [_ X]; [intros ->; discriminate|]. lia. Qed.
(** and exactly once, once the handler was invoked or destroyed and every call has returned. *)
Theorem asio_completes_partial : forall s, reachable s -> polite (log s) -> (exists i e o, In (ECons i e o) (log s)) -> idle s -> completions (log s) = 1.
Proof.
  intros s R P (i & e & o & X) ID. destruct (inv_reach R P) as [g I]. pose proof (v_ph I) as PH. destruct g as [[u|]| |u|u|u|]; cbn in PH.
  - destruct PH as (_ & _ & _ & _ & _ & _ & _ & L). rewrite L in X. destruct X.
  - destruct PH as (_ & _ & _ & _ & _ & _ & _ & L). rewrite L in X. destruct X.
  - destruct PH as (_ & H & _). elim (v_hav I H i e o X).
  - destruct PH as (_ & _ & _ & _ & H). unfold pendok in H. rewrite ID in H. destruct H.
  - destruct PH as (_ & _ & _ & _ & H). rewrite ID in H. destruct H.
  - destruct PH as (_ & _ & _ & H). unfold complok in H. rewrite ID in H. destruct H.
  - tauto.
Qed.
(** It is completed with set_error if and only if something was thrown; otherwise with set_value only if the handler was invoked, with set_stopped only if it was destroyed uninvoked. *)
Theorem asio_channel_partial : forall s c, reachable s -> polite (log s) -> In (ECompl c) (log s) ->
  (c = CErr <-> In EThrow (log s)) /\ (c = CVal -> exists e o, In (ECons true e o) (log s)) /\ (c = CStp -> exists e o, In (ECons false e o) (log s)).
Proof. intros s c R P X. destruct (inv_reach R P) as [g I]. exact (v_chan I c X). Qed.
(** The cancellation signal is not emitted after the receiver was completed. *)
Theorem asio_no_signal_after_completion_partial : forall s l1 l2 c, reachable s -> polite (log s) -> log s = l1 ++ ECompl c :: l2 -> ~ In EEmit l1.
Proof. intros s l1 l2 c R P X. destruct (inv_reach R P) as [g I]. exact (@v_emit _ _ I l1 l2 c X). Qed.
(** No deadlock: while a call is in progress, some call goes on, or is in user code and may return. *)
Lemma goes_on : forall g s t r st, inv g s -> stk s t = r :: st -> at_ r <> PReset -> lockable (mtx s) t = true -> exists a s', (a = AStep t \/ a = ARet t) /\ step s a = Some s'.
Proof.
  intros g s t [k p o] st I E NR L. destruct (@top_rec _ _ _ _ _ I E) as [R1 _]. destruct p; cbn in NR; try congruence.
  all: try (solve [destruct (step s (AStep t)) as [s'|] eqn:S; [exists (AStep t), s'; auto|]; exfalso; cbn -[touch lockable] in S; rewrite E in S; rewrite ?L in S; destruct k;
    repeat (match type of S with context [match ?x with _ => _ end] => destruct x; try discriminate end); discriminate]).
  exists (ARet t). cbn -[touch]. rewrite E. unfold recok in R1. destruct k; cbn in R1; try tauto; eexists; (split; [right; reflexivity|reflexivity]).
Qed.
Theorem asio_no_deadlock_partial : forall s t, reachable s -> polite (log s) -> stk s t <> [] -> exists u a s', (a = AStep u \/ a = ARet u) /\ step s a = Some s'.
Proof.
  intros s t R P NE. destruct (inv_reach R P) as [g I].
  destruct (mtx s) as [[u n]|] eqn:MT.
  - exists u. pose proof (t_own (v_th I u)) as O. pose proof (v_m I) as M. rewrite MT in O, M. cbn in O. rewrite Nat.eqb_refl in O. destruct (stk s u) as [|r st] eqn:E; [cbn in O; subst n; destruct M|].
    eapply goes_on; eauto; [|rewrite MT; cbn; apply Nat.eqb_refl]. intros X. assert (N0 : owns (stk s u) = 0); [|rewrite E in N0; rewrite N0 in O; subst n; destruct M].
    destruct (@top_rec _ _ _ _ _ I E) as [R1 _]. assert (G : g = GCompl u) by (unfold recok in R1; rewrite X in R1; destruct (kd r); tauto). subst g.
    pose proof (v_ph I) as PH. cbn in PH. destruct PH as (_ & _ & NS & _). pose proof (t_rec (v_th I u)) as TR. clear - NS TR. revert NS TR. generalize (@None kind). induction (stk s u) as [|[k p o] st IH]; cbn; auto. intros a NS [R1 R2].
    rewrite (IH (Some k)); auto; [|destruct k; cbn in NS; lia]. unfold recok in R1. destruct o; auto. destruct k, p; cbn in *; intuition (discriminate || lia).
  - assert (LK : forall u, lockable (mtx s) u = true) by (intros u; rewrite MT; auto). destruct (stk s t) as [|r st] eqn:E; [congruence|].
    destruct (at_ r) eqn:AR; try (exists t; eapply goes_on; eauto; congruence).
    destruct (@top_rec _ _ _ _ _ I E) as [R1 _]. assert (G : g = GCompl t) by (unfold recok in R1; rewrite AR in R1; destruct (kd r); tauto). subst g.
    assert (D : (exists u, u <> t /\ cb s = CbRun u) \/ exists s', step s (AStep t) = Some s').
    { cbn -[touch]. rewrite E. destruct r as [k p o]. cbn in AR. subst p. assert (X : forall s0, eng (touch s0) = eng s0 /\ cb (touch s0) = cb s0) by (intros s0; unfold touch; destruct (dead s0); auto). destruct (X s) as [X1 X2]. rewrite X1, X2. destruct (eng s); eauto. destruct (cb s) as [| |u|]; eauto.
      destruct (Nat.eqb_spec u t); eauto. }
    destruct D as [(u & N & CB)|[s' S]]; [|exists t, (AStep t), s'; auto]. pose proof (t_stop (v_th I u)) as TS. rewrite CB in TS. cbn in TS. rewrite Nat.eqb_refl in TS. destruct (stk s u) as [|r' st'] eqn:E'; [discriminate|].
    exists u. eapply goes_on; eauto. intros X. destruct (@top_rec _ _ _ _ _ I E') as [R2 _]. unfold recok in R2. rewrite X in R2. destruct (kd r'); try tauto; destruct R2 as (_ & _ & R2); congruence.
Qed.
(** the hypotheses are met *)
Example asio_nontrivial : exists s, reachable s /\ polite (log s) /\ (exists i e o, In (ECons i e o) (log s)) /\ idle s /\ In EEmit (log s) /\ In (ECompl CVal) (log s).
Proof.
  destruct (runs ex_ok init) as [s|] eqn:E; [|vm_compute in E; discriminate]. exists s. split; [eexists; exact E|]. vm_compute in E. injection E as <-. cbn. split; [split|].
  - intros i e o [H|[H|[H|[]]]]; inversion H; auto.
  - intros l1 l2 c H X. assert (Y : In EThrow (l1 ++ ECompl c :: l2)) by (apply in_app_iff; auto). rewrite <- H in Y. cbn in Y. intuition discriminate.
  - split; [exists true, false, false; auto|]. split; [|auto]. intros t. destruct t as [|[|[|t]]]; reflexivity.
Qed.
