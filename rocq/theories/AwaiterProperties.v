(** C48: awaiting a sender. *)
From Coq Require Import List ZArith Bool Arith Lia.
From Verif Require Import Conc AwaiterModel AwaiterProofs.
Import ListNotations.
Set Implicit Arguments.
Open Scope nat_scope.

(** ** Histories *)
Lemma runs_app a : forall b s, runs (a ++ b) s = match runs a s with Some s1 => runs b s1 | None => None end.
Proof. induction a as [|x a IH]; simpl; intros b s; [reflexivity|]. destruct (step x s); auto. Qed.
Lemma reach_step s a s' : reachable s -> step a s = Some s' -> reachable s'.
Proof.
  intros [n [m [acts H]]] E. exists n, m, (acts ++ [a]). rewrite runs_app, H. simpl. rewrite E. reflexivity.
Qed.
Lemma reach_ind (P : state -> Prop) :
  (forall n m, P (init n m)) -> (forall s a s', reachable s -> P s -> step a s = Some s' -> P s') ->
  forall s, reachable s -> P s.
Proof.
  intros P0 PS s [n [m [acts H]]].
  assert (G : forall acts s0, reachable s0 -> P s0 -> forall s1, runs acts s0 = Some s1 -> P s1).
  { clear H. induction acts0 as [|a r IH]; simpl; intros s0 R0 H0 s1 H; [injection H as <-; exact H0|].
    destruct (step a s0) as [s2|] eqn:E; [|discriminate].
    exact (IH _ (reach_step _ R0 E) (PS _ _ _ R0 H0 E) _ H). }
  apply (G acts (init n m)); auto. exists n, m, []. reflexivity.
Qed.

(** ** What the record of events says about the state *)
Definition is_res (c g : nat) (e : event) : bool :=
  match e with EResume c' g' _ => Nat.eqb c' c && Nat.eqb g' g | _ => false end.
Definition resumes (c g : nat) (l : list event) : nat := cnt (is_res c g) l.

Record linv (s : state) (c : nat) (x : coro) : Prop := {
  l_await : forall g, In (EAwait c g) (log s) -> g <= gen x;
  l_ret : forall g, In (ERet c g) (log s) -> g < gen x \/ (g = gen x /\ ap x <> AStart);
  l_comp : forall g o, In (EComplete c g o) (log s) -> In (EResume c g o) (log s) \/ (g = gen x /\ sus x = true /\ res x = Some o);
  l_res : forall o, res x = Some o -> In (EComplete c (gen x) o) (log s);
  l_res2 : forall g o, In (EResume c g o) (log s) -> In (EComplete c g o) (log s) /\ (g < gen x \/ (g = gen x /\ sus x = false));
  l_one : forall g, resumes c g (log s) <= 1;
  l_g : forall g, gen x < g -> resumes c g (log s) = 0;
  l_s : sus x = true -> resumes c (gen x) (log s) = 0
}.

Lemma resumes_in c g l : 0 < resumes c g l <-> exists o, In (EResume c g o) l.
Proof.
  unfold resumes. rewrite cnt_pos. split.
  - intros [e [A B]]. destruct e; try discriminate B. simpl in B. apply andb_prop in B. destruct B as [B1 B2].
    apply Nat.eqb_eq in B1, B2. subst. eauto.
  - intros [o A]. exists (EResume c g o). simpl. rewrite !Nat.eqb_refl. auto.
Qed.
Definition ecor (e : event) : nat := match e with EAwait c _ | ERet c _ | EComplete c _ _ | EResume c _ _ => c end.
Lemma l_same s s' c x x' : linv s c x -> log s' = log s -> gen x' = gen x -> sus x' = sus x -> res x' = res x ->
  (ap x' = AStart -> ap x = AStart) -> linv s' c x'.
Proof.
  intros [A B C D E F G H] L Hg Hs Hr Ha. constructor; rewrite ?L, ?Hg, ?Hs, ?Hr; auto.
  intros g K. destruct (B _ K) as [K'|[K1 K2]]; [left; exact K'|right]. split; [exact K1|]. intros Z. apply K2. auto.
Qed.
Lemma l_other s s' c x e : linv s c x -> log s' = e :: log s -> ecor e <> c -> linv s' c x.
Proof.
  intros [A B C D E F G H] L N.
  assert (I1 : forall e', ecor e' = c -> In e' (e :: log s) -> In e' (log s)) by (intros e' Ee [<-|K]; [congruence|exact K]).
  assert (R : forall g, resumes c g (e :: log s) = resumes c g (log s)).
  { intros g. unfold resumes; simpl. replace (is_res c g e) with false; [reflexivity|].
    destruct e; simpl; auto. simpl in N. destruct (Nat.eqb_spec c0 c); [contradiction|reflexivity]. }
  constructor; rewrite ?L.
  - intros g K. apply A. apply I1; auto.
  - intros g K. apply B. apply I1; auto.
  - intros g o K. apply I1 in K; [|reflexivity]. destruct (C _ _ K); [left; right; auto|auto].
  - intros o K. right. auto.
  - intros g o K. apply I1 in K; [|reflexivity]. destruct (E _ _ K). split; [right|]; auto.
  - intros g. rewrite R. auto.
  - intros g. rewrite R. auto.
  - rewrite R. auto.
Qed.

(** what a step looks like from a coroutine's point of view *)
Lemma linv_step s a s' : reachable s -> (forall c x, nth_error (cors s) c = Some x -> linv s c x) -> step a s = Some s' ->
  forall c x, nth_error (cors s') c = Some x -> linv s' c x.
Proof.
  intros R L H c0 x0 X0. pose proof (reach_inv R) as I.
  destruct a as [t|t|t|t|t c o]; cbn [step] in H.
  - destruct (nth_error (thr s) t) as [[|f st]|] eqn:T; try discriminate H.
    destruct (nth_error (cors s) (fc f)) as [x|] eqn:X; [|discriminate H].
    destruct (@i_f _ I t _ f T) as [y [Y1 Y2]]; [left; reflexivity|]. rewrite X in Y1. injection Y1 as <-.
    pose proof (i_c I _ X) as C. destruct f as [c g r]; cbn [fc fg frole] in *. subst g. specialize (L c0) as L0. pose proof (L _ _ X) as Lc.
    assert (Res : forall o, res x = Some o -> sus x = true -> linv (emit (set_stack (set_cor s c (resumed x)) t (fr c (gen x) Body :: st)) (EResume c (gen x) o)) c (resumed x)).
    { intros o Ro S. destruct Lc as [A B C' D E F G K]. constructor; simpl.
      - intros g [Z|Z]; [discriminate|auto].
      - intros g [Z|Z]; [discriminate|]. destruct (B _ Z) as [|[-> _]]; [auto|right; split; [reflexivity|discriminate]].
      - intros g o' [Z|Z]; [discriminate|]. destruct (C' _ _ Z) as [|[-> [_ Z']]]; [auto|]. left. left. congruence.
      - intros o' Z. right. auto.
      - intros g o' [Z|Z]; [injection Z as <- <-; split; [right; auto|right; auto]|]. destruct (E _ _ Z) as [Z1 Z2]. split; [auto|].
        destruct Z2 as [|[_ Z2]]; [auto|congruence].
      - intros g. unfold resumes; simpl. rewrite Nat.eqb_refl. simpl. fold (resumes c g (log s)).
        destruct (Nat.eqb_spec (gen x) g) as [<-|]; [rewrite (K S); lia|specialize (F g); lia].
      - intros g Z. unfold resumes; simpl. fold (resumes c g (log s)). rewrite Nat.eqb_refl. destruct (Nat.eqb_spec (gen x) g); [lia|]. simpl. auto.
      - discriminate. }
    destruct r; [| |discriminate H].
    + unfold await_step in H. destruct (ap x) eqn:Ap; try discriminate H.
      assert (S : sus x = true) by (apply (@sus_a s c x I X); congruence).
      assert (A : condA t x) by (apply (c_hA C _ T); rewrite wt; simpl; pose proof (w_nn c Await st); lia). unfold condA in A.
      destruct (is_none (tid x)) eqn:Tn; injection H as <-; simpl in X0; rewrite (nth_upd _ _ _ _ X) in X0.
      * apply is_none_eq in Tn. rewrite Tn in A.
        assert (Rn : res x <> None) by (destruct (dp x); try discriminate; [destruct A as [[_ A]|[A _]]; [discriminate|exact A]|destruct A as [t' [A _]]; discriminate|contradiction]).
        unfold result. destruct (res x) as [o|] eqn:Ro; [|congruence].
        destruct (Nat.eqb_spec c c0) as [<-|Nc]; [injection X0 as <-; exact (Res _ eq_refl S)|].
        eapply l_other; [exact (L0 _ X0)|reflexivity|exact Nc].
      * destruct (Nat.eqb_spec c c0) as [<-|Nc].
        -- injection X0 as <-. eapply l_same; [exact Lc|reflexivity..|discriminate].
        -- eapply l_same; [exact (L0 _ X0)|reflexivity..|auto].
    + unfold done_step in H.
      assert (Nd0 : dp x <> DNone) by (intros E; rewrite E in H; discriminate H).
      assert (S : sus x = true) by (apply (@sus_d s c x I X); exact Nd0).
      assert (Rn : res x <> None) by (apply (c_r C); exact Nd0).
      destruct (dp x) eqn:Dp; try discriminate H.
      1-3: injection H as <-; simpl in X0; rewrite (nth_upd _ _ _ _ X) in X0; (destruct (Nat.eqb_spec c c0) as [<-|Nc];
             [injection X0 as <-; eapply l_same; [exact Lc|reflexivity..|auto]|eapply l_same; [exact (L0 _ X0)|reflexivity..|auto]]).
      * destruct (is_none (tid x)); [|discriminate H].
        injection H as <-; simpl in X0; rewrite (nth_upd _ _ _ _ X) in X0; (destruct (Nat.eqb_spec c c0) as [<-|Nc];
             [injection X0 as <-; eapply l_same; [exact Lc|reflexivity..|auto]|eapply l_same; [exact (L0 _ X0)|reflexivity..|auto]]).
      * injection H as <-; simpl in X0; rewrite (nth_upd _ _ _ _ X) in X0. unfold result. destruct (res x) as [o|] eqn:Ro; [|congruence].
        destruct (Nat.eqb_spec c c0) as [<-|Nc]; [injection X0 as <-; exact (Res _ eq_refl S)|].
        eapply l_other; [exact (L0 _ X0)|reflexivity|exact Nc].
  - destruct (nth_error (thr s) t) as [[|f st]|] eqn:T; try discriminate H.
    destruct (frole f) eqn:Rf; try discriminate H. destruct (nth_error (cors s) (fc f)) as [x|] eqn:X; [|discriminate H].
    injection H as <-. simpl in X0. rewrite (nth_upd _ _ _ _ X) in X0. pose proof (L _ _ X) as [A B C D E F G K].
    destruct (Nat.eqb_spec (fc f) c0) as [<-|Nc]; [injection X0 as <-|eapply l_other; [exact (L _ _ X0)|reflexivity|exact Nc]].
    assert (S : sus x = false).
    { pose proof (c_b (i_c I _ X)) as Bd. pose proof (@sumz_ge _ _ _ (w_nn (fc f) Body) _ _ T) as B'.
      assert (P : (0 < w (fc f) Body (f :: st))%Z) by (apply w_pos; exists f; simpl; auto).
      destruct (sus x); [simpl in Bd; lia|reflexivity]. }
    constructor; simpl.
    + intros g [Z|Z]; [injection Z as <-; lia|]. apply A in Z. lia.
    + intros g [Z|Z]; [discriminate|]. left. destruct (B _ Z) as [|[-> _]]; lia.
    + intros g o [Z|Z]; [discriminate|]. destruct (C _ _ Z) as [|[_ [Z' _]]]; [auto|congruence].
    + discriminate.
    + intros g o [Z|Z]; [discriminate|]. destruct (E _ _ Z) as [Z1 Z2]. split; [auto|]. left. lia.
    + intros g. apply F.
    + intros g Z. apply G. lia.
    + intros _. apply G. lia.
  - destruct (nth_error (thr s) t) as [[|f st]|] eqn:T; try discriminate H.
    destruct (frole f) eqn:Rf; try discriminate H. injection H as <-. eapply l_same; [exact (L _ _ X0)|reflexivity..|auto].
  - destruct (nth_error (thr s) t) as [[|f st]|] eqn:T; try discriminate H.
    destruct (frole f) eqn:Rf; try discriminate H. destruct (nth_error (cors s) (fc f)) as [x|] eqn:X; [|discriminate H].
    destruct (ap x) eqn:Ap; try discriminate H.
    destruct (@i_f _ I t _ f T) as [y [Y1 Y2]]; [left; reflexivity|]. rewrite X in Y1. injection Y1 as <-.
    injection H as <-. simpl in X0. rewrite (nth_upd _ _ _ _ X) in X0. pose proof (L _ _ X) as [A B C D E F G K].
    destruct (Nat.eqb_spec (fc f) c0) as [<-|Nc]; [injection X0 as <-|eapply l_other; [exact (L _ _ X0)|reflexivity|exact Nc]].
    constructor; simpl; auto.
    + intros g [Z|Z]; [discriminate|]. auto.
    + intros g [Z|Z]; [injection Z as <-; right; split; [congruence|discriminate]|]. destruct (B _ Z) as [|[-> Z']]; [auto|congruence].
    + intros g o [Z|Z]; [discriminate|]. destruct (C _ _ Z); auto.
    + intros g o [Z|Z]; [discriminate|]. destruct (E _ _ Z). auto.
  - destruct (nth_error (thr s) t) as [st|] eqn:T; [|discriminate H].
    destruct (nth_error (cors s) c) as [x|] eqn:X; [|discriminate H].
    destruct (user_code (cors s) st && sus x && is_none (res x)) eqn:Gd; [|discriminate H].
    apply andb_prop in Gd. destruct Gd as [Gd Rn]. apply andb_prop in Gd. destruct Gd as [_ S]. apply is_none_eq in Rn.
    injection H as <-. simpl in X0. rewrite (nth_upd _ _ _ _ X) in X0. pose proof (L _ _ X) as [A B C D E F G K].
    destruct (Nat.eqb_spec c c0) as [<-|Nc]; [injection X0 as <-|eapply l_other; [exact (L _ _ X0)|reflexivity|exact Nc]].
    constructor; simpl; auto.
    + intros g [Z|Z]; [discriminate|]. auto.
    + intros g [Z|Z]; [discriminate|]. auto.
    + intros g o' [Z|Z]; [injection Z as <- <-; auto|]. destruct (C _ _ Z) as [|[_ [_ Z']]]; [auto|congruence].
    + intros o' Z. injection Z as <-. auto.
    + intros g o' [Z|Z]; [discriminate|]. destruct (E _ _ Z). auto.
Qed.
Lemma reach_linv s : reachable s -> forall c x, nth_error (cors s) c = Some x -> linv s c x.
Proof.
  intros R. induction R as [n m|s a s' R IH H] using reach_ind.
  - intros c x H. simpl in H. apply nth_repeat_some in H. subst x. constructor; simpl; try contradiction; auto; discriminate.
  - exact (linv_step _ R IH H).
Qed.

(** ** The theorems *)
(** An await is over at most once. *)
Theorem C48_resumed_once : forall s, reachable s -> forall c g, c < length (cors s) -> resumes c g (log s) <= 1.
Proof.
  intros s R c g H. apply nth_error_Some in H. destruct (nth_error (cors s) c) as [x|] eqn:X; [|congruence].
  apply (l_one (reach_linv R _ X)).
Qed.

Lemma step_len s a s' : step a s = Some s' -> length (cors s') = length (cors s).
Proof.
  intros H. destruct a as [t|t|t|t|t c o]; cbn [step] in H; unfold await_step, done_step in H;
  repeat match type of H with match ?x with _ => _ end = Some _ => destruct x; try discriminate H end;
  injection H as <-; simpl; rewrite ?upd_length; reflexivity.
Qed.
Lemma step_log1 s a s' : step a s = Some s' -> log s' = log s \/ exists e, log s' = e :: log s.
Proof.
  intros H. destruct a as [t|t|t|t|t c o]; cbn [step] in H; unfold await_step, done_step in H;
  repeat match type of H with match ?x with _ => _ end = Some _ => destruct x; try discriminate H end;
  injection H as <-; simpl; eauto.
Qed.
(** events concern coroutines that exist *)
Lemma log_cor s : reachable s -> forall e, In e (log s) -> ecor e < length (cors s).
Proof.
  intros R. induction R as [n m|s a s' R IH H] using reach_ind; [contradiction|].
  intros e He. rewrite (step_len _ _ H).
  assert (G : forall e, In e (log s') -> In e (log s) \/ nth_error (cors s) (ecor e) <> None).
  { clear e He. intros e He. destruct a as [t|t|t|t|t c o]; cbn [step] in H; unfold await_step, done_step in H;
    repeat match type of H with match ?x with _ => _ end = Some _ => let E := fresh "E" in destruct x eqn:E; try discriminate H end;
    injection H as <-; simpl in He; auto; destruct He as [<-|He]; auto; right; simpl; congruence. }
  destruct (G _ He) as [K|K]; [exact (IH _ K)|]. apply nth_error_Some. exact K.
Qed.

(** It is over only after the operation has completed, and with its result. *)
Theorem C48_result : forall s, reachable s -> forall l1 l2 c g o,
  log s = l1 ++ EResume c g o :: l2 -> In (EComplete c g o) l2.
Proof.
  intros s R. induction R as [n m|s a s' R IH H] using reach_ind; intros l1 l2 c g o L.
  - destruct l1; discriminate.
  - destruct (step_log1 _ _ H) as [E|[e E]]; [apply (IH l1); congruence|].
    destruct l1 as [|y l1]; rewrite E in L; injection L as -> L; [|apply (IH l1); exact L].
    assert (R' := reach_step _ R H). assert (K : In (EResume c g o) (log s')) by (rewrite E; left; reflexivity).
    pose proof (log_cor R' _ K) as Lc. simpl in Lc. apply nth_error_Some in Lc.
    destruct (nth_error (cors s') c) as [x|] eqn:X; [|congruence].
    destruct (l_res2 (reach_linv R' _ X) _ _ K) as [Z _]. rewrite E in Z. destruct Z as [Z|Z]; [discriminate|]. congruence.
Qed.

(** While the library has a call on some thread that uses the awaiter, the
    coroutine is suspended at that very await: the awaiter, which lives in the
    coroutine's frame, exists. *)
Theorem C48_no_use_after_resume : forall s, reachable s -> forall t st c g r,
  nth_error (thr s) t = Some st -> In (fr c g r) st -> r <> Body ->
  exists x, nth_error (cors s) c = Some x /\ gen x = g /\ sus x = true /\ forall o, ~ In (EResume c g o) (log s).
Proof.
  intros s R t st c g r T Hf Nr. pose proof (reach_inv R) as I.
  destruct (i_f I _ _ T Hf) as [x [X G]]. simpl in *. exists x. split; [exact X|]. split; [auto|].
  assert (P : (0 < w c r st)%Z) by (apply w_pos; exists (fr c g r); auto).
  pose proof (@sumz_ge _ _ _ (w_nn c r) _ _ T) as Q. pose proof (i_c I _ X) as C.
  assert (S : sus x = true).
  { destruct r; [apply (@sus_a s c x I X)|apply (@sus_d s c x I X)|congruence].
    - pose proof (c_a C) as Z. intros E. rewrite E in Z. simpl in Z. lia.
    - pose proof (c_d C) as Z. intros E. rewrite E in Z. simpl in Z. lia. }
  split; [exact S|]. intros o K. pose proof (l_s (reach_linv R _ X) S) as Z.
  assert (0 < resumes c (gen x) (log s)) by (apply resumes_in; exists o; congruence). lia.
Qed.

(** The body of a coroutine runs on one thread at a time, and not while the
    coroutine is suspended. *)
Theorem C48_body_exclusive : forall s, reachable s -> forall t st u su c g h,
  nth_error (thr s) t = Some st -> In (fr c g Body) st -> nth_error (thr s) u = Some su -> In (fr c h Body) su -> t = u.
Proof.
  intros s R t st u su c g h T Hf U Hu. pose proof (reach_inv R) as I.
  destruct (i_f I _ _ T Hf) as [x [X _]]. simpl in X. pose proof (c_b (i_c I _ X)) as B.
  apply (@one_w (thr s) (w c Body) (w_nn c Body)) with (st := st) (su := su); auto.
  - destruct (sus x); simpl in B; lia.
  - apply w_pos. exists (fr c g Body); auto.
  - apply w_pos. exists (fr c h Body); auto.
Qed.

(** *** Progress *)
(** a call of __done, or the exchange of await_suspend, is at the top of its thread's stack *)
Definition idle_frame (cs : list coro) (f : frame) : Prop :=
  match frole f with
  | Done => False
  | Body => True
  | Await => exists x, nth_error cs (fc f) = Some x /\ ap x = AStart
  end.
Definition tops (s : state) : Prop := forall t f st, nth_error (thr s) t = Some (f :: st) -> forall f', In f' st -> idle_frame (cors s) f'.
Lemma idle_upd cs c x x' f : nth_error cs c = Some x -> (fc f = c -> frole f = Await -> ap x = AStart -> ap x' = AStart) ->
  idle_frame cs f -> idle_frame (upd cs c x') f.
Proof.
  unfold idle_frame. intros X H. destruct (frole f); auto. intros [y [Y A]]. rewrite (nth_upd _ _ _ _ X).
  destruct (Nat.eqb_spec c (fc f)) as [->|]; [|eauto]. exists x'. split; [reflexivity|]. apply H; auto. congruence.
Qed.
Lemma uniq_top s c x t f st u f0 su f1 : inv s -> nth_error (cors s) c = Some x -> ap x <> ANone ->
  nth_error (thr s) t = Some (f :: st) -> fc f = c -> frole f = Await ->
  nth_error (thr s) u = Some (f0 :: su) -> In f1 su -> fc f1 = c -> frole f1 = Await -> False.
Proof.
  intros I X A T F1 F2 U H G1 G2. pose proof (c_a (i_c I _ X)) as Z.
  assert (Z1 : za (ap x) = 1%Z) by (destruct (ap x); [contradiction|reflexivity..]).
  assert (P : (0 < w c Await su)%Z) by (apply w_pos; eauto).
  assert (Q : isf c Await f = true) by (unfold isf; rewrite F1, F2, Nat.eqb_refl; reflexivity).
  destruct (Nat.eq_dec t u) as [<-|N].
  - rewrite T in U. injection U as -> ->. pose proof (@sumz_ge _ _ _ (w_nn c Await) _ _ T) as B. rewrite w_cons, Q in B. lia.
  - pose proof (@sumz_ge2 _ _ _ (w_nn c Await) _ _ _ _ N T U) as B. rewrite !w_cons, Q in B. pose proof (w_nn c Await st).
    destruct (isf c Await f0); lia.
Qed.

Lemma tops_inv s : reachable s -> tops s.
Proof.
  intros R. induction R as [n m|s a s' R IH H] using reach_ind.
  - intros t f st H f' Hf. exfalso. simpl in H. destruct (Nat.lt_ge_cases t n) as [L|L].
    + rewrite nth_error_app1 in H by (rewrite map_length, seq_length; exact L). rewrite nth_error_map in H.
      destruct (nth_error (seq 0 n) t); [|discriminate]. injection H as <- <-. destruct Hf.
    + rewrite nth_error_app2 in H by (rewrite map_length, seq_length; exact L). apply nth_repeat_some in H. discriminate.
  - pose proof (reach_inv R) as I.
    (* the change of one coroutine, and of the top of one stack *)
    assert (K : forall t f st st' c x x', nth_error (thr s) t = Some (f :: st) -> nth_error (cors s) c = Some x ->
       (ap x = AStart -> ap x' = AStart \/ (fc f = c /\ frole f = Await)) ->
       (forall f0 st0, st' = f0 :: st0 -> incl st0 st) ->
       forall e, tops (mk (upd (thr s) t st') (upd (cors s) c x') e)).
    { intros t f st st' c x x' T X A Inc e u f0 su U f1 H1. simpl in *.
      rewrite (nth_upd _ _ _ _ T) in U.
      assert (G : exists v fv sv, nth_error (thr s) v = Some (fv :: sv) /\ In f1 sv).
      { destruct (Nat.eqb_spec t u) as [->|]; [|eauto]. injection U as U. exists u, f, st. split; [exact T|]. apply (Inc f0 su U). exact H1. }
      destruct G as [v [fv [sv [V Hv]]]]. apply (@idle_upd _ _ x); [exact X| |exact (IH _ _ _ V _ Hv)].
      intros Ec Er As. destruct (A As) as [|[F1 F2]]; [auto|]. exfalso.
      exact (@uniq_top s c x t f st v fv sv f1 I X ltac:(congruence) T F1 F2 V Hv Ec Er). }
    assert (K1 : forall t f st c x x', nth_error (thr s) t = Some (f :: st) -> nth_error (cors s) c = Some x ->
       (ap x = AStart -> ap x' = AStart \/ (fc f = c /\ frole f = Await)) ->
       forall e, tops (mk (thr s) (upd (cors s) c x') e)).
    { intros t f st c x x' T X A e. rewrite <- (upd_id (thr s) t T). apply (@K t f st (f :: st) c x); auto.
      intros f0 st0 E. injection E as <- <-. apply incl_refl. }
    destruct a as [t|t|t|t|t c o]; cbn [step] in H.
    + destruct (nth_error (thr s) t) as [[|f st]|] eqn:T; try discriminate H.
      destruct (nth_error (cors s) (fc f)) as [x|] eqn:X; [|discriminate H].
      assert (P1 : forall f0 st0 (b : frame), b :: st = f0 :: st0 -> incl st0 st) by (intros f0 st0 b E; injection E as _ <-; apply incl_refl).
      assert (P2 : forall f0 st0, st = f0 :: st0 -> incl st0 st) by (intros f0 st0 ->; apply incl_tl, incl_refl).
      unfold await_step, done_step in H. destruct (frole f) eqn:Rf; [| |discriminate H].
      * destruct (ap x) eqn:Ap; try discriminate H. destruct (is_none (tid x)); injection H as <-.
        -- apply (@K t f st _ _ x); auto. intros f0 st0 E. exact (P1 _ _ _ E).
        -- apply (@K t f st _ _ x); auto.
      * assert (Nd0 : dp x <> DNone) by (intros E; rewrite E in H; discriminate H).
        destruct (dp x) eqn:Dp; try discriminate H.
        -- injection H as <-. apply (@K1 t f st _ x _ T X); auto.
        -- injection H as <-. apply (@K t f st _ _ x); auto.
        -- injection H as <-. apply (@K1 t f st _ x _ T X); auto.
        -- destruct (is_none (tid x)); [|discriminate H]. injection H as <-. apply (@K1 t f st _ x _ T X); auto.
        -- injection H as <-. apply (@K t f st _ _ x); auto; [|intros f0 st0 E; exact (P1 _ _ _ E)].
           intros As. exfalso. pose proof (i_c I _ X) as C.
           assert (P : (0 < sumz (w (fc f) Await) (thr s))%Z) by (rewrite (c_a C), As; reflexivity).
           apply sumz_pos_ex in P; destruct P as [u [su [U P]]]; pose proof (c_hA C _ U P) as A; unfold condA in A; rewrite Dp in A; exact A.
    + destruct (nth_error (thr s) t) as [[|f st]|] eqn:T; try discriminate H.
      destruct (frole f) eqn:Rf; try discriminate H. destruct (nth_error (cors s) (fc f)) as [x|] eqn:X; [|discriminate H].
      injection H as <-. apply (@K t f st _ _ x); auto. intros f0 st0 E. injection E as _ <-. apply incl_refl.
    + destruct (nth_error (thr s) t) as [[|f st]|] eqn:T; try discriminate H.
      destruct (frole f) eqn:Rf; try discriminate H. injection H as <-.
      intros u f0 su U f1 H1. simpl in *. rewrite (nth_upd _ _ _ _ T) in U. destruct (Nat.eqb_spec t u) as [->|]; [|exact (IH _ _ _ U _ H1)].
      injection U as ->. apply (IH _ _ _ T). right. exact H1.
    + destruct (nth_error (thr s) t) as [[|f st]|] eqn:T; try discriminate H.
      destruct (frole f) eqn:Rf; try discriminate H. destruct (nth_error (cors s) (fc f)) as [x|] eqn:X; [|discriminate H].
      destruct (ap x) eqn:Ap; try discriminate H. injection H as <-. apply (@K1 t f st _ x _ T X); auto.
    + destruct (nth_error (thr s) t) as [st|] eqn:T; [|discriminate H].
      destruct (nth_error (cors s) c) as [x|] eqn:X; [|discriminate H].
      destruct (user_code (cors s) st && sus x && is_none (res x)) eqn:Gd; [|discriminate H].
      apply andb_prop in Gd. destruct Gd as [Gd _]. apply andb_prop in Gd. destruct Gd as [Uc _]. injection H as <-.
      intros u f0 su U f1 H1. simpl in *. rewrite (nth_upd _ _ _ _ T) in U.
      apply (@idle_upd _ _ x); [exact X|auto|].
      destruct (Nat.eqb_spec t u) as [->|]; [|exact (IH _ _ _ U _ H1)]. injection U as _ <-.
      destruct st as [|f2 st2]; [contradiction|]. destruct H1 as [->|H1]; [|exact (IH _ _ _ T _ H1)].
      unfold user_code in Uc. unfold idle_frame. destruct (frole f1); [|discriminate|exact Logic.I].
      destruct (nth_error (cors s) (fc f1)) as [y|]; [|discriminate]. exists y. split; [reflexivity|]. destruct (ap y); congruence.
Qed.

Definition lib_only (acts : list action) : Prop := forall a, In a acts -> exists t, a = ALib t.
Definition by_lib (s s' : state) : Prop := exists acts, lib_only acts /\ runs acts s = Some s'.
Lemma by_one s t s1 s2 : step (ALib t) s = Some s1 -> by_lib s1 s2 -> by_lib s s2.
Proof.
  intros H [acts [L R]]. exists (ALib t :: acts). split.
  - intros a [<-|K]; [eauto|auto].
  - cbn [runs]. rewrite H. exact R.
Qed.
Lemma by_none s : by_lib s s. Proof. exists []. split; [intros a []|reflexivity]. Qed.

Lemma top_done s c x : reachable s -> nth_error (cors s) c = Some x -> dp x <> DNone ->
  exists t st, nth_error (thr s) t = Some (fr c (gen x) Done :: st).
Proof.
  intros R X N. pose proof (reach_inv R) as I. pose proof (i_c I _ X) as C.
  assert (P : (0 < sumz (w c Done) (thr s))%Z) by (rewrite (c_d C); destruct (dp x); [congruence|reflexivity..]).
  apply sumz_pos_ex in P. destruct P as [t [st [T P]]]. apply w_pos in P. destruct P as [f [F1 [F2 F3]]].
  destruct (i_f I _ _ T F1) as [y [Y1 Y2]]. rewrite F2, X in Y1. injection Y1 as <-.
  exists t. destruct st as [|f0 st]; [contradiction|]. destruct F1 as [->|F1].
  - exists st. rewrite T. destruct f; simpl in *. congruence.
  - exfalso. pose proof (@tops_inv s R _ _ _ T _ F1) as Q. unfold idle_frame in Q. rewrite F3 in Q. exact Q.
Qed.
Lemma top_exch s c x : reachable s -> nth_error (cors s) c = Some x -> ap x = AExch ->
  exists t st, nth_error (thr s) t = Some (fr c (gen x) Await :: st).
Proof.
  intros R X N. pose proof (reach_inv R) as I. pose proof (i_c I _ X) as C.
  assert (P : (0 < sumz (w c Await) (thr s))%Z) by (rewrite (c_a C), N; reflexivity).
  apply sumz_pos_ex in P. destruct P as [t [st [T P]]]. apply w_pos in P. destruct P as [f [F1 [F2 F3]]].
  destruct (i_f I _ _ T F1) as [y [Y1 Y2]]. rewrite F2, X in Y1. injection Y1 as <-.
  exists t. destruct st as [|f0 st]; [contradiction|]. destruct F1 as [->|F1].
  - exists st. rewrite T. destruct f; simpl in *. congruence.
  - exfalso. pose proof (@tops_inv s R _ _ _ T _ F1) as Q. unfold idle_frame in Q. rewrite F3 in Q. destruct Q as [y [Q1 Q2]]. congruence.
Qed.

Section Go.
Variables (c g : nat) (o : outcome).
Definition goes (s : state) : Prop := exists s', by_lib s s' /\ In (EResume c g o) (log s').
Lemma goes_one s t s1 : step (ALib t) s = Some s1 -> goes s1 -> goes s.
Proof. intros H [s2 [B L]]. exists s2. split; [exact (by_one _ _ H B)|exact L]. Qed.

Lemma go_res s x : reachable s -> nth_error (cors s) c = Some x -> gen x = g -> res x = Some o -> dp x = DRes -> goes s.
Proof.
  intros R X G Ro D. destruct (@top_done s c x R X ltac:(congruence)) as [t [st T]].
  eapply goes_one with (t := t).
  - cbn [step]. rewrite T. cbn [fc fg frole]. rewrite X. unfold done_step. rewrite D. reflexivity.
  - eexists. split; [apply by_none|]. simpl. left. unfold result. rewrite Ro, G. reflexivity.
Qed.
Lemma go_none n : forall s x, match dp x with DLoad => 2 | DExch => 1 | DSpin => 1 | _ => 0 end = n ->
  reachable s -> nth_error (cors s) c = Some x -> gen x = g -> res x = Some o -> sus x = true -> ap x = ANone -> goes s.
Proof.
  induction n as [n IH] using lt_wf_ind. intros s x M R X G Ro S A. pose proof (reach_inv R) as I.
  pose proof (c_n (i_c I _ X) S A) as N. unfold condN in N.
  assert (Nd : dp x <> DNone) by (intros E; rewrite E in N; destruct N; congruence).
  destruct (@top_done s c x R X Nd) as [t [st T]].
  assert (Sx : step (ALib t) s = done_step t c (gen x) x st s) by (cbn [step]; rewrite T; cbn [fc fg frole]; rewrite X; reflexivity).
  destruct (dp x) eqn:D; try congruence; try contradiction.
  - unfold done_step in Sx. rewrite D, N in Sx. cbn [is_none eqo] in Sx.
    eapply goes_one; [exact Sx|]. apply (IH 1%nat) with (x := with_dp x DExch); auto; try lia; try exact (reach_step _ R Sx).
    simpl. apply (nth_upd_same _ _ _ X).
  - unfold done_step in Sx. rewrite D, N in Sx. cbn [is_none eqo] in Sx.
    eapply goes_one; [exact Sx|]. apply (IH 0%nat) with (x := mkc (gen x) (sus x) (Some t) (res x) (ap x) DRes); auto; try lia; try exact (reach_step _ R Sx).
    simpl. apply (nth_upd_same _ _ _ X).
  - unfold done_step in Sx. rewrite D, N in Sx. cbn [is_none eqo] in Sx.
    eapply goes_one; [exact Sx|]. apply (IH 0%nat) with (x := with_dp x DRes); auto; try lia; try exact (reach_step _ R Sx).
    simpl. apply (nth_upd_same _ _ _ X).
  - exact (@go_res s x R X G Ro D).
Qed.
End Go.

(** Once the operation has completed and its start() has returned, the coroutine
    goes on by steps of the library alone. *)
Theorem C48_resumed : forall s, reachable s -> forall c g o,
  In (EComplete c g o) (log s) -> In (ERet c g) (log s) ->
  exists acts s', lib_only acts /\ runs acts s = Some s' /\ In (EResume c g o) (log s').
Proof.
  intros s R c g o Hc Hr.
  assert (G : goes c g o s); [|destruct G as [s' [[acts [A B]] L]]; exists acts, s'; auto].
  pose proof (log_cor R _ Hc) as Lc. simpl in Lc. apply nth_error_Some in Lc.
  destruct (nth_error (cors s) c) as [x|] eqn:X; [clear Lc|congruence].
  pose proof (reach_linv R _ X) as L. pose proof (reach_inv R) as I.
  destruct (l_comp L _ _ Hc) as [K|[-> [S Ro]]]; [exists s; split; [apply by_none|exact K]|].
  destruct (l_ret L _ Hr) as [K|[_ K]]; [lia|].
  destruct (ap x) eqn:A; [|congruence|].
  - exact (@go_none c (gen x) o _ s x eq_refl R X eq_refl Ro S A).
  - destruct (@top_exch s c x R X A) as [t [st T]].
    assert (Sx : step (ALib t) s = await_step t c (gen x) x st s) by (cbn [step]; rewrite T; cbn [fc fg frole]; rewrite X; reflexivity).
    unfold await_step in Sx. rewrite A in Sx. destruct (is_none (tid x)).
    + eapply goes_one; [exact Sx|]. eexists. split; [apply by_none|]. simpl. left. unfold result. rewrite Ro. reflexivity.
    + eapply goes_one; [exact Sx|]. pose proof (reach_step _ R Sx) as R'. 
      eapply go_none with (x := mkc (gen x) (sus x) None (res x) ANone (dp x)); [reflexivity|exact R'|..]; auto.
      simpl. apply (nth_upd_same _ _ _ X).
Qed.

(** ** Cases *)
(** Coroutine 0 awaits on thread 0; its operation completes on thread 1 while
    start() is running; thread 1 waits for await_suspend, then goes on with the
    coroutine, which awaits again and completes inside start(). *)
Example await_run :
  option_map log (runs [AAwait 0; AComplete 1 0 (Value 7); ALib 1; ALib 1; AReturn 0; ALib 0; ALib 1; ALib 1;
                        AAwait 1; AComplete 1 0 Stopped; ALib 1; ALib 1; AReturn 1; ALib 1; AEnd 1] (init 1 1))
  = Some [EResume 0 2 Stopped; ERet 0 2; EComplete 0 2 Stopped; EAwait 0 2; EResume 0 1 (Value 7); ERet 0 1;
          EComplete 0 1 (Value 7); EAwait 0 1].
Proof. reflexivity. Qed.

(** Both threads use the awaiter at once. *)
Example await_both : exists s, reachable s /\ nth_error (thr s) 0 = Some [fr 0 1 Await] /\ nth_error (thr s) 1 = Some [fr 0 1 Done] /\
  In (EComplete 0 1 (Value 7)) (log s) /\ In (ERet 0 1) (log s).
Proof.
  destruct (runs [AAwait 0; AComplete 1 0 (Value 7); ALib 1; ALib 1; AReturn 0] (init 1 1)) as [s|] eqn:E; [|discriminate].
  exists s. split; [do 3 eexists; exact E|]. injection E as <-. simpl. tauto.
Qed.

(** ** What does not hold *)
(** A completion that arrives on another thread while start() is running keeps
    that thread until start() has returned.  Two awaited operations whose start()
    each completes the other one therefore block each other for ever, although
    both have completed. *)
Theorem C48_deadlock_refuted : exists s, reachable s /\
  In (EComplete 0 1 (Value 5)) (log s) /\ In (EComplete 1 1 (Value 6)) (log s) /\
  forall acts s', runs acts s = Some s' -> forall c o, ~ In (EResume c 1 o) (log s').
Proof.
  destruct (runs [AAwait 0; AAwait 1; AComplete 0 1 (Value 6); AComplete 1 0 (Value 5); ALib 0; ALib 0; ALib 1; ALib 1] (init 2 0)) as [s|] eqn:E; [|discriminate].
  exists s. split; [do 3 eexists; exact E|].
  assert (P : s = mk [[fr 1 1 Done; fr 0 1 Await]; [fr 0 1 Done; fr 1 1 Await]]
                     [mkc 1 true (Some 1) (Some (Value 5)) AStart DSpin; mkc 1 true (Some 0) (Some (Value 6)) AStart DSpin]
                     [EComplete 0 1 (Value 5); EComplete 1 1 (Value 6); EAwait 1 1; EAwait 0 1]) by (injection E as <-; reflexivity).
  clear E. subst s. split; [simpl; auto|]. split; [simpl; auto|].
  intros [|a acts] s' H c o; cbn [runs] in H.
  - injection H as <-. simpl. intuition discriminate.
  - exfalso. destruct a as [[|[|[|t]]]|[|[|[|t]]]|[|[|[|t]]]|[|[|[|t]]]|[|[|[|t]]] [|[|[|c']]] o']; discriminate H.
Qed.
