(** Invariant of the model of awaiting senders. *)
From Coq Require Import List ZArith Bool Arith Lia.
From Verif Require Import Conc AwaiterModel.
Import ListNotations.
Set Implicit Arguments.
Open Scope Z_scope.
Arguments Z.add : simpl never. Arguments Z.sub : simpl never. Arguments Z.of_nat : simpl never.

Definition roleb (a b : role) : bool :=
  match a, b with Await, Await | Done, Done | Body, Body => true | _, _ => false end.
Arguments roleb : simpl nomatch.
Lemma roleb_eq a b : roleb a b = true <-> a = b.
Proof. destruct a, b; simpl; split; congruence. Qed.
Definition isf (c : nat) (r : role) (f : frame) : bool := Nat.eqb (fc f) c && roleb (frole f) r.
Definition w (c : nat) (r : role) (st : list frame) : Z := Z.of_nat (cnt (isf c r) st).
Lemma w_nn c r st : 0 <= w c r st. Proof. unfold w. lia. Qed.
Lemma w_nil c r : w c r [] = 0. Proof. reflexivity. Qed.
Lemma w_cons c r f st : w c r (f :: st) = (if isf c r f then 1 else 0) + w c r st.
Proof. unfold w. cbn [cnt]. destruct (isf c r f); lia. Qed.
Lemma w_pos c r st : 0 < w c r st <-> exists f, In f st /\ fc f = c /\ frole f = r.
Proof.
  unfold w. split.
  - intros H. destruct (proj1 (cnt_pos (isf c r) st)) as [f [A B]]; [lia|]. exists f. unfold isf in B.
    apply andb_prop in B. destruct B as [B1 B2]. apply Nat.eqb_eq in B1. apply roleb_eq in B2. auto.
  - intros [f [A [<- <-]]]. enough (0 < cnt (isf (fc f) (frole f)) st)%nat by lia. apply cnt_pos. exists f.
    split; [exact A|]. unfold isf. rewrite Nat.eqb_refl. destruct (frole f); reflexivity.
Qed.
Definition isf_fr c r c' g r' : isf c r (fr c' g r') = Nat.eqb c' c && roleb r' r := eq_refl.

Definition za (a : apc) : Z := match a with ANone => 0 | _ => 1 end.
Definition zd (d : dpc) : Z := match d with DNone => 0 | _ => 1 end.
Definition zb (b : bool) : Z := if b then 0 else 1.

(** [t] is the thread in await_suspend *)
Definition condA (t : nat) (x : coro) : Prop :=
  match dp x with
  | DNone => (res x = None /\ tid x = Some t) \/ (res x <> None /\ tid x = None)
  | DLoad | DStore | DExch => tid x = Some t
  | DSpin => exists t', tid x = Some t' /\ t' <> t
  | DRes => False
  end.
(** [t] is the thread in __done *)
Definition condD (t : nat) (x : coro) : Prop :=
  match dp x with
  | DStore => tid x = Some t
  | DExch => tid x <> Some t
  | DSpin => tid x = None \/ tid x = Some t
  | _ => True
  end.
(** await_suspend is over *)
Definition condN (x : coro) : Prop :=
  match dp x with
  | DNone => res x = None /\ tid x = None
  | DLoad | DExch | DSpin => tid x = None
  | DStore => False
  | DRes => True
  end.

Record cinv (th : list (list frame)) (c : nat) (x : coro) : Prop := {
  c_a : sumz (w c Await) th = za (ap x);
  c_d : sumz (w c Done) th = zd (dp x);
  c_b : sumz (w c Body) th <= zb (sus x);
  c_s : sus x = false -> ap x = ANone /\ dp x = DNone;
  c_r : dp x <> DNone -> res x <> None;
  c_g : sus x = false -> gen x <> 0%nat -> res x <> None;
  c_hA : forall t st, nth_error th t = Some st -> 0 < w c Await st -> condA t x;
  c_hD : forall t st, nth_error th t = Some st -> 0 < w c Done st -> condD t x;
  c_n : sus x = true -> ap x = ANone -> condN x
}.

(** __done above await_suspend *)
Fixpoint order (st : list frame) : Prop :=
  match st with
  | [] => True
  | f :: r => (frole f = Await -> w (fc f) Done r = 0) /\ order r
  end.

Record inv (s : state) : Prop := {
  i_c : forall c x, nth_error (cors s) c = Some x -> cinv (thr s) c x;
  i_o : forall t st, nth_error (thr s) t = Some st -> order st;
  i_f : forall t st f, nth_error (thr s) t = Some st -> In f st ->
        exists x, nth_error (cors s) (fc f) = Some x /\ fg f = gen x
}.

Lemma upd_id A (l : list A) : forall i a, nth_error l i = Some a -> upd l i a = l.
Proof. induction l as [|b l IH]; intros [|i] a H; simpl in *; try discriminate; [congruence|]. rewrite IH; auto. Qed.
Lemma sumz_ext A (f g : A -> Z) l : (forall x, In x l -> f x = g x) -> sumz f l = sumz g l.
Proof. induction l as [|a l IH]; simpl; intros H; [reflexivity|]. rewrite (H a), IH; auto. Qed.

(** a coroutine the step does not concern *)
Lemma other th t st st' c x : nth_error th t = Some st -> (forall r, w c r st' = w c r st) ->
  cinv th c x -> cinv (upd th t st') c x.
Proof.
  intros T W [A B C D E G HA HD N].
  assert (Sz : forall r, sumz (w c r) (upd th t st') = sumz (w c r) th).
  { intros r. rewrite (@sumz_upd _ (w c r) th t st' st T), W. lia. }
  constructor; rewrite ?Sz; auto.
  - intros u su H P. rewrite (nth_upd _ _ _ _ T) in H. destruct (Nat.eqb_spec t u); [subst|]; [|eauto].
    injection H as <-. rewrite W in P. eauto.
  - intros u su H P. rewrite (nth_upd _ _ _ _ T) in H. destruct (Nat.eqb_spec t u); [subst|]; [|eauto].
    injection H as <-. rewrite W in P. eauto.
Qed.

(** the general step: stack [t] and coroutine [c] change *)
Lemma step_inv s t st st' c x x' e :
  inv s -> nth_error (thr s) t = Some st -> nth_error (cors s) c = Some x ->
  (forall c' r, c' <> c -> w c' r st' = w c' r st) ->
  cinv (upd (thr s) t st') c x' -> order st' ->
  (forall f, In f st' -> In f st /\ (fc f = c -> gen x' = gen x) \/ (fc f = c /\ fg f = gen x')) ->
  (gen x' = gen x \/ forall u su r, nth_error (upd (thr s) t st') u = Some su -> 0 < w c r su -> u = t /\ forall f, In f st' -> fc f = c -> fg f = gen x') ->
  inv (mk (upd (thr s) t st') (upd (cors s) c x') e).
Proof.
  intros I T X W C O F G. constructor; simpl.
  - intros c' y H. rewrite (nth_upd _ _ _ _ X) in H. destruct (Nat.eqb_spec c c') as [->|Nc]; [injection H as <-; exact C|].
    apply (@other _ _ st); auto. exact (i_c I _ H).
  - intros u su H. rewrite (nth_upd _ _ _ _ T) in H. destruct (t =? u)%nat; [injection H as <-; exact O|exact (i_o I _ H)].
  - intros u su f H Hf. pose proof H as H'. rewrite (nth_upd _ _ _ _ T) in H.
    assert (K : (fc f = c /\ fg f = gen x') \/ fc f <> c /\ exists v sv, nth_error (thr s) v = Some sv /\ In f sv).
    { destruct (Nat.eq_dec (fc f) c) as [Ec|Nc]; [left; split; [exact Ec|]|right; split; [exact Nc|]].
      - destruct G as [G|G].
        + destruct (Nat.eqb_spec t u) as [->|Nt].
          * injection H as <-. destruct (F _ Hf) as [[F1 _]|[_ F1]]; [|exact F1].
            destruct (i_f I _ _ T F1) as [y [Y1 Y2]]. rewrite Ec, X in Y1. injection Y1 as <-. congruence.
          * destruct (i_f I _ _ H Hf) as [y [Y1 Y2]]. rewrite Ec, X in Y1. injection Y1 as <-. congruence.
        + destruct (G u su (frole f) H') as [-> G1]; [apply w_pos; exists f; auto|].
          rewrite Nat.eqb_refl in H. injection H as <-. exact (G1 _ Hf Ec).
      - destruct (Nat.eqb_spec t u) as [->|Nt].
        + injection H as <-. destruct (F _ Hf) as [[F1 _]|[F1 _]]; [eauto|congruence].
        + eauto. }
    rewrite (nth_upd _ _ _ _ X). destruct K as [[<- K]|[Nc [v [sv [V1 V2]]]]].
    + rewrite Nat.eqb_refl. eauto.
    + destruct (i_f I _ _ V1 V2) as [y [Y1 Y2]]. destruct (Nat.eqb_spec c (fc f)); [congruence|]. eauto.
Qed.

Lemma step_inv_same s c x x' e t st :
  inv s -> nth_error (thr s) t = Some st -> nth_error (cors s) c = Some x -> gen x' = gen x -> cinv (thr s) c x' ->
  inv (mk (thr s) (upd (cors s) c x') e).
Proof.
  intros I T X G C. rewrite <- (upd_id (thr s) t T). apply (@step_inv s t st st c x x' e); auto.
  - rewrite (upd_id _ _ T). exact C.
  - exact (i_o I _ T).
Qed.
Lemma step_inv_stack s t st st' e :
  inv s -> nth_error (thr s) t = Some st -> (forall c r, w c r st' <= w c r st) -> (forall c r, r <> Body -> w c r st' = w c r st) ->
  order st' -> (forall f, In f st' -> In f st) -> inv (mk (upd (thr s) t st') (cors s) e).
Proof.
  intros I T W1 W2 O F. constructor; simpl.
  - intros c x H. destruct (i_c I _ H) as [A B C D E G HA HD N].
    constructor; auto.
    + rewrite (@sumz_upd _ (w c Await) (thr s) t st' st T), W2; [lia|discriminate].
    + rewrite (@sumz_upd _ (w c Done) (thr s) t st' st T), W2; [lia|discriminate].
    + rewrite (@sumz_upd _ (w c Body) (thr s) t st' st T). specialize (W1 c Body). lia.
    + intros u su Hu P. rewrite (nth_upd _ _ _ _ T) in Hu. destruct (Nat.eqb_spec t u); [subst|]; [|eauto].
      injection Hu as <-. specialize (W1 c Await). apply (HA _ _ T). lia.
    + intros u su Hu P. rewrite (nth_upd _ _ _ _ T) in Hu. destruct (Nat.eqb_spec t u); [subst|]; [|eauto].
      injection Hu as <-. specialize (W1 c Done). apply (HD _ _ T). lia.
  - intros u su H. rewrite (nth_upd _ _ _ _ T) in H. destruct (t =? u)%nat; [injection H as <-; exact O|exact (i_o I _ H)].
  - intros u su f H Hf. rewrite (nth_upd _ _ _ _ T) in H. destruct (Nat.eqb_spec t u); [subst|].
    + injection H as <-. exact (i_f I _ _ T (F _ Hf)).
    + exact (i_f I _ _ H Hf).
Qed.

Lemma inv_init n m : inv (init n m).
Proof.
  assert (Th : forall t st, nth_error (thr (init n m)) t = Some st -> st = [] \/ (st = [fr t 0 Body] /\ (t < n)%nat)).
  { intros t st H. simpl in H. destruct (Nat.lt_ge_cases t n) as [L|L].
    - rewrite nth_error_app1 in H by (rewrite map_length, seq_length; exact L).
      rewrite nth_error_map in H. assert (E : nth_error (seq 0 n) t = Some t).
      { rewrite nth_error_nth' with (d := 0%nat) by (rewrite seq_length; exact L). rewrite seq_nth; auto. }
      rewrite E in H. injection H as <-. auto.
    - rewrite nth_error_app2 in H by (rewrite map_length, seq_length; exact L). apply nth_repeat_some in H. auto. }
  assert (Sz : forall c r, sumz (w c r) (thr (init n m)) = if roleb Body r && (c <? n)%nat then 1 else 0).
  { intros c r. simpl. rewrite sumz_app, (sumz_repeat (w c r) []) by apply w_nil.
    assert (K : forall k a, sumz (w c r) (map (fun c => [fr c 0 Body]) (seq a k)) = if roleb Body r && (a <=? c)%nat && (c <? a + k)%nat then 1 else 0).
    { induction k as [|k IH]; intros a; cbn [sumz map seq].
      - destruct (roleb Body r); simpl; [|reflexivity]. destruct (Nat.leb_spec a c), (Nat.ltb_spec c (a + 0)); simpl; try reflexivity; lia.
      - rewrite IH, w_cons, w_nil, isf_fr. destruct (roleb Body r); cbn [andb]; rewrite ?andb_false_r, ?andb_true_r; [|lia].
        destruct (Nat.eqb_spec a c), (Nat.leb_spec (S a) c), (Nat.leb_spec a c), (Nat.ltb_spec c (S a + k)), (Nat.ltb_spec c (a + S k)); cbn [andb]; lia. }
    rewrite K. cbn [Nat.leb Nat.add]. destruct (roleb Body r), (c <? n)%nat; simpl; lia. }
  assert (NW : forall c r t st, nth_error (thr (init n m)) t = Some st -> r <> Body -> w c r st = 0).
  { intros c r t st H N. destruct (Th _ _ H) as [->|[-> _]]; [reflexivity|]. rewrite w_cons, isf_fr. destruct r; simpl; try congruence; rewrite andb_false_r; reflexivity. }
  constructor.
  - intros c x H. simpl in H. pose proof (nth_repeat_some _ _ _ H) as ->. simpl in H.
    constructor; rewrite ?Sz; simpl; auto; try congruence; try lia.
    + destruct (c <? n)%nat; lia.
    + intros t st T P. rewrite (NW c Await t st T) in P; [lia|discriminate].
    + intros t st T P. rewrite (NW c Done t st T) in P; [lia|discriminate].
  - intros t st H. destruct (Th _ _ H) as [->|[-> _]]; simpl; [exact Logic.I|]. split; [discriminate|exact Logic.I].
  - intros t st f H Hf. destruct (Th _ _ H) as [->|[-> L]]; [destruct Hf|]. destruct Hf as [<-|[]].
    simpl. exists (mkc 0 false None None ANone DNone). split; [|reflexivity].
    assert (K : forall k i, (i < k)%nat -> nth_error (repeat (mkc 0 false None None ANone DNone) k) i = Some (mkc 0 false None None ANone DNone)).
    { induction k; intros [|i] Hi; simpl; auto; try lia. apply IHk. lia. }
    apply K. exact L.
Qed.

(** ** Preservation *)
Lemma none_w th (f : list frame -> Z) : (forall st, 0 <= f st) -> sumz f th = 0 -> forall t st, nth_error th t = Some st -> f st = 0.
Proof. intros N Z t st H. pose proof (@sumz_ge _ f th N _ _ H). specialize (N st). lia. Qed.
Lemma one_w th (f : list frame -> Z) : (forall st, 0 <= f st) -> sumz f th <= 1 -> forall t st u su, nth_error th t = Some st ->
  nth_error th u = Some su -> 0 < f st -> 0 < f su -> t = u.
Proof.
  intros N Z t st u su H K P Q. destruct (Nat.eq_dec t u) as [E|E]; [exact E|].
  pose proof (@sumz_ge2 _ f th N _ _ _ _ E H K). lia.
Qed.
Lemma is_none_eq A (a : option A) : is_none a = true <-> a = None.
Proof. destruct a; simpl; split; congruence. Qed.
Lemma is_none_neq A (a : option A) : is_none a = false <-> a <> None.
Proof. destruct a; simpl; split; congruence. Qed.
Lemma eqo_eq a t : eqo a t = true <-> a = Some t.
Proof. destruct a as [n|]; simpl; [|split; discriminate]. rewrite Nat.eqb_eq. split; congruence. Qed.
Lemma eqo_neq a t : eqo a t = false <-> a <> Some t.
Proof. rewrite <- eqo_eq. destruct (eqo a t); split; congruence. Qed.

Ltac szs T := rewrite (@sumz_upd _ _ _ _ _ _ T); rewrite ?w_cons, ?isf_fr, ?Nat.eqb_refl; cbn [andb roleb].

Section Step.
Variables (s : state) (t c : nat) (x : coro) (g : nat) (st : list frame).
Hypothesis I : inv s.
Hypothesis X : nth_error (cors s) c = Some x.

Lemma wn c' g' r c0 r0 st0 : c' <> c0 -> w c0 r0 (fr c' g' r :: st0) = w c0 r0 st0.
Proof. intros N. rewrite w_cons, isf_fr. destruct (Nat.eqb_spec c' c0); [contradiction|]. simpl. lia. Qed.
Lemma wt c' g' r r' st0 : w c' r' (fr c' g' r :: st0) = (if roleb r r' then 1 else 0) + w c' r' st0.
Proof. rewrite w_cons, isf_fr, Nat.eqb_refl. reflexivity. Qed.

Lemma sus_a : ap x <> ANone -> sus x = true.
Proof. intros N. destruct (sus x) eqn:E; [reflexivity|]. destruct (c_s (i_c I _ X) E). contradiction. Qed.
Lemma sus_d : dp x <> DNone -> sus x = true.
Proof. intros N. destruct (sus x) eqn:E; [reflexivity|]. destruct (c_s (i_c I _ X) E). contradiction. Qed.

Lemma inv_resume r (e : list event) : nth_error (thr s) t = Some (fr c g r :: st) ->
  (r = Await /\ ap x <> ANone /\ dp x = DNone) \/ (r = Done /\ ap x = ANone /\ dp x <> DNone) ->
  res x <> None ->
  inv (mk (upd (thr s) t (fr c g Body :: st)) (upd (cors s) c (resumed x)) e).
Proof.
  intros T R N. pose proof (i_c I _ X) as C.
  assert (G : g = gen x).
  { destruct (@i_f _ I t _ (fr c g r) T) as [y [Y1 Y2]]; [left; reflexivity|]. simpl in *. rewrite X in Y1. injection Y1 as <-. exact Y2. }
  assert (S : sus x = true) by (destruct R as [[_ [R _]]|[_ [_ R]]]; [apply sus_a|apply sus_d]; exact R).
  assert (Za : sumz (w c Await) (upd (thr s) t (fr c g Body :: st)) = 0 /\ sumz (w c Done) (upd (thr s) t (fr c g Body :: st)) = 0).
  { pose proof (c_a C); pose proof (c_d C). destruct R as [[-> [A D]]|[-> [A D]]]; split; szs T; rewrite H || rewrite H0.
    all: try rewrite D; try rewrite A; cbn [za zd]; try lia; destruct (ap x), (dp x); cbn [za zd]; try congruence; try lia. }
  destruct Za as [Za Zd].
  apply (@step_inv s t (fr c g r :: st) _ c x); auto.
  - intros c' r' Nc. rewrite !wn by congruence. reflexivity.
  - constructor; simpl; auto.
    + szs T. pose proof (c_b C) as B. rewrite S in B. simpl in B. destruct R as [[-> _]|[-> _]]; cbn [andb roleb]; lia.
    + intros u su H P. rewrite (@none_w _ _ (w_nn c Await) Za _ _ H) in P. lia.
    + intros u su H P. rewrite (@none_w _ _ (w_nn c Done) Zd _ _ H) in P. lia.
    + discriminate.
  - pose proof (i_o I _ T) as [_ O]. split; [discriminate|exact O].
  - intros f [<-|Hf]; [right; auto|left; split; [right; exact Hf|reflexivity]].
Qed.
End Step.

Lemma inv_lib s t s' : inv s -> step (ALib t) s = Some s' -> inv s'.
Proof.
  intros I H. cbn [step] in H.
  destruct (nth_error (thr s) t) as [[|f st]|] eqn:T; try discriminate H.
  destruct (nth_error (cors s) (fc f)) as [x|] eqn:X; [|discriminate H].
  pose proof (i_c I _ X) as C. destruct f as [c g r]; cbn [fc fg frole] in *.
  pose proof (i_o I _ T) as [O1 O2]. cbn [fc frole] in O1.
  destruct r; [| |discriminate H].
  - unfold await_step in H. destruct (ap x) eqn:Ap; try discriminate H.
    assert (A := c_hA C _ T ltac:(rewrite wt; simpl; pose proof (w_nn c Await st); lia)). unfold condA in A.
    specialize (O1 eq_refl).
    destruct (is_none (tid x)) eqn:Tn; injection H as <-.
    + apply is_none_eq in Tn. apply (@inv_resume s t c x g st I X Await _ T).
      * left. split; [reflexivity|]. split; [congruence|]. rewrite Tn in A. destruct (dp x); try discriminate; auto.
        { destruct A as [t' [A _]]. discriminate. } { contradiction. }
      * rewrite Tn in A. destruct (dp x); try discriminate; [destruct A as [[_ A]|[A _]]; [discriminate|exact A]|destruct A as [t' [A _]]; discriminate|contradiction].
    + apply is_none_neq in Tn.
      assert (NS : dp x <> DStore).
      { intros E. rewrite E in A. assert (P : 0 < sumz (w c Done) (thr s)) by (rewrite (c_d C), E; reflexivity).
        apply sumz_pos_ex in P. destruct P as [u [su [U P]]]. pose proof (c_hD C _ U P) as D. unfold condD in D. rewrite E, A in D.
        injection D as ->. rewrite T in U. injection U as <-. rewrite wt in P. simpl in P. lia. }
      assert (Za : sumz (w c Await) (upd (thr s) t st) = 0).
      { rewrite (@sumz_upd _ _ _ _ _ _ T), wt, (c_a C), Ap. simpl. lia. }
      apply (@step_inv s t (fr c g Await :: st) _ c x); auto.
      * intros c' r Nc. rewrite wn by congruence. reflexivity.
      * constructor; simpl; auto.
        -- rewrite (@sumz_upd _ _ _ _ _ _ T), wt, (c_d C). simpl. lia.
        -- rewrite (@sumz_upd _ _ _ _ _ _ T), wt. pose proof (c_b C). simpl. lia.
        -- intros E. destruct (c_s C E). auto.
        -- exact (c_r C).
        -- exact (c_g C).
        -- intros u su H P. rewrite (@none_w _ _ (w_nn c Await) Za _ _ H) in P. lia.
        -- intros u su H P. rewrite (nth_upd _ _ _ _ T) in H. destruct (Nat.eqb_spec t u) as [<-|Nt]; [injection H as <-|].
           ++ lia.
           ++ pose proof (c_hD C _ H P) as D. unfold condD in *. simpl. destruct (dp x); auto; congruence.
        -- intros _ _. unfold condN; simpl. destruct (dp x); auto; try congruence. destruct A as [[A _]|[_ A]]; [auto|contradiction].
      * intros f Hf. left. split; [right; exact Hf|reflexivity].
  - unfold done_step in H.
    assert (D : condD t x) by (apply (c_hD C _ T); rewrite wt; simpl; pose proof (w_nn c Done st); lia).
    assert (Nd0 : dp x <> DNone) by (intros E; rewrite E in H; discriminate H).
    assert (S : sus x = true) by (apply (@sus_d s c x I X); exact Nd0).
    assert (Rn : res x <> None) by (apply (c_r C); exact Nd0). clear Nd0.
    unfold condD in D. destruct (dp x) eqn:Dp; try discriminate H.
    + (* DLoad *)
      injection H as <-. apply (@step_inv_same s c x _ _ t _ I T X); [reflexivity|].
      assert (Nd : (if eqo (tid x) t then DStore else DExch) <> DNone) by (destruct (eqo _ _); discriminate).
      constructor; simpl; try exact (c_a C); try exact (c_b C); auto.
      * rewrite (c_d C), Dp. destruct (eqo _ _); reflexivity.
      * congruence.
      * intros u su U P. pose proof (c_hA C _ U P) as A. unfold condA in *. rewrite Dp in A. simpl. destruct (eqo (tid x) t); exact A.
      * intros u su U P. unfold condD; simpl.
        assert (u = t) by (apply (@one_w (thr s) (w c Done) (w_nn c Done) ltac:(rewrite (c_d C), Dp; simpl; lia) u su t _ U T P); rewrite wt; simpl; pose proof (w_nn c Done st); lia).
        subst u. destruct (eqo (tid x) t) eqn:E; [apply eqo_eq|apply eqo_neq]; exact E.
      * intros _ E. pose proof (c_n C S E) as N. unfold condN in *; simpl. rewrite Dp in N. rewrite N. simpl. reflexivity.
    + (* DStore *)
      injection H as <-.
      assert (Zd : sumz (w c Done) (upd (thr s) t st) = 0).
      { rewrite (@sumz_upd _ _ _ _ _ _ T), wt, (c_d C), Dp. simpl. lia. }
      apply (@step_inv s t (fr c g Done :: st) _ c x); auto.
      * intros c' r Nc. rewrite wn by congruence. reflexivity.
      * constructor; simpl; auto.
        -- rewrite (@sumz_upd _ _ _ _ _ _ T), wt, (c_a C). simpl. lia.
        -- rewrite (@sumz_upd _ _ _ _ _ _ T), wt. pose proof (c_b C). simpl. lia.
        -- congruence.
        -- intros u su U P. unfold condA; simpl. auto.
        -- intros u su U P. rewrite (@none_w _ _ (w_nn c Done) Zd _ _ U) in P. lia.
        -- intros _ E. pose proof (c_n C S E) as N. unfold condN in N. rewrite Dp in N. contradiction.
      * intros f Hf. left. split; [right; exact Hf|reflexivity].
    + (* DExch *)
      injection H as <-. apply (@step_inv_same s c x _ _ t _ I T X); [reflexivity|].
      constructor; simpl; try exact (c_a C); try exact (c_b C); auto.
      * rewrite (c_d C), Dp. destruct (is_none _); reflexivity.
      * congruence.
      * intros u su U P. pose proof (c_hA C _ U P) as A. unfold condA in *. rewrite Dp in A. simpl. rewrite A. simpl.
        exists t. split; [reflexivity|]. intros ->. congruence.
      * intros u su U P. unfold condD; simpl.
        assert (u = t) by (apply (@one_w (thr s) (w c Done) (w_nn c Done) ltac:(rewrite (c_d C), Dp; simpl; lia) u su t _ U T P); rewrite wt; simpl; pose proof (w_nn c Done st); lia).
        subst u. destruct (is_none _); auto.
      * intros _ E. pose proof (c_n C S E) as N. unfold condN in *; simpl. rewrite Dp in N. rewrite N. simpl. exact Logic.I.
    + (* DSpin *)
      destruct (is_none (tid x)) eqn:Tn; [|discriminate H]. apply is_none_eq in Tn.
      injection H as <-. apply (@step_inv_same s c x _ _ t _ I T X); [reflexivity|].
      constructor; simpl; try exact (c_a C); try exact (c_b C); auto.
      * rewrite (c_d C), Dp. reflexivity.
      * congruence.
      * intros u su U P. pose proof (c_hA C _ U P) as A. unfold condA in A. rewrite Dp in A. destruct A as [t' [A _]]. congruence.
      * intros u su U P. exact Logic.I.
      * intros _ E. exact Logic.I.
    + (* DRes *)
      injection H as <-. apply (@inv_resume s t c x g st I X Done _ T); [|exact Rn].
      right. split; [reflexivity|]. split; [|congruence].
      destruct (ap x) eqn:Ap; [reflexivity|exfalso..].
      all: assert (P : 0 < sumz (w c Await) (thr s)) by (rewrite (c_a C), Ap; reflexivity).
      all: apply sumz_pos_ex in P; destruct P as [u [su [U P]]]; pose proof (c_hA C _ U P) as A; unfold condA in A; rewrite Dp in A; exact A.
Qed.

Lemma inv_user s a s' : inv s -> (forall t, a <> ALib t) -> step a s = Some s' -> inv s'.
Proof.
  intros I NL H. destruct a as [t|t|t|t|t c o]; cbn [step] in H.
  - exfalso. exact (NL t eq_refl).
  - (* AAwait *)
    destruct (nth_error (thr s) t) as [[|f st]|] eqn:T; try discriminate H.
    destruct f as [c g r]; cbn [fc fg frole] in *. destruct r; try discriminate H.
    destruct (nth_error (cors s) c) as [x|] eqn:X; [|discriminate H]. injection H as <-.
    pose proof (i_c I _ X) as C. pose proof (i_o I _ T) as [_ O2].
    assert (B1 : sumz (w c Body) (thr s) = 1 /\ sus x = false).
    { pose proof (c_b C) as B. pose proof (@sumz_ge _ _ _ (w_nn c Body) _ _ T) as B'. rewrite wt in B'. simpl in B'.
      pose proof (w_nn c Body st). destruct (sus x); simpl in B; split; auto; lia. }
    destruct B1 as [B1 S]. destruct (c_s C S) as [Ap Dp].
    assert (Za : sumz (w c Await) (thr s) = 0) by (rewrite (c_a C), Ap; reflexivity).
    assert (Zd : sumz (w c Done) (thr s) = 0) by (rewrite (c_d C), Dp; reflexivity).
    assert (Zt : w c Await st = 0 /\ w c Done st = 0 /\ w c Body st = 0).
    { pose proof (@none_w _ _ (w_nn c Await) Za _ _ T) as A1. pose proof (@none_w _ _ (w_nn c Done) Zd _ _ T) as A2.
      rewrite wt in A1, A2. simpl in A1, A2. split; [lia|]. split; [lia|].
      pose proof (@sumz_ge _ _ _ (w_nn c Body) _ _ T) as B'. rewrite wt in B'. simpl in B'. pose proof (w_nn c Body st). lia. }
    destruct Zt as [Z1 [Z2 Z3]].
    apply (@step_inv s t (fr c g Body :: st) _ c x); auto.
    + intros c' r Nc. rewrite !wn by congruence. reflexivity.
    + constructor; simpl; auto; try congruence.
      * szs T. lia.
      * szs T. lia.
      * szs T. lia.
      * intros u su U P. unfold condA; simpl. left. split; [reflexivity|]. f_equal.
        rewrite (nth_upd _ _ _ _ T) in U. destruct (Nat.eqb_spec t u) as [<-|Nt]; [reflexivity|].
        rewrite (@none_w _ _ (w_nn c Await) Za _ _ U) in P. lia.
      * intros u su U P. exact Logic.I.
    + split; [|exact O2]. intros _. simpl. exact Z2.
    + intros f [<-|Hf]; [right; auto|left]. split; [right; exact Hf|]. intros E. exfalso.
      destruct f as [c1 g1 r1]; simpl in E; subst c1.
      assert (P : 0 < w c r1 st) by (apply w_pos; exists (fr c g1 r1); auto). destruct r1; lia.
    + right. intros u su r U P.
      assert (Eu : u = t).
      { rewrite (nth_upd _ _ _ _ T) in U. destruct (Nat.eqb_spec t u) as [E|E]; [auto|]. exfalso.
        destruct r; [rewrite (@none_w _ _ (w_nn c Await) Za _ _ U) in P|rewrite (@none_w _ _ (w_nn c Done) Zd _ _ U) in P|]; try lia.
        pose proof (@sumz_ge2 _ _ _ (w_nn c Body) _ _ _ _ E T U) as G. rewrite wt in G. simpl in G. lia. }
      split; [exact Eu|]. intros f [<-|Hf] E; [reflexivity|exfalso].
      destruct f as [c1 g1 r1]; simpl in E; subst c1.
      assert (Q : 0 < w c r1 st) by (apply w_pos; exists (fr c g1 r1); auto). destruct r1; lia.
  - (* AEnd *)
    destruct (nth_error (thr s) t) as [[|f st]|] eqn:T; try discriminate H.
    destruct (frole f) eqn:R; try discriminate H. injection H as <-.
    pose proof (i_o I _ T) as [_ O2].
    apply (@step_inv_stack s t (f :: st) st _ I T); auto.
    + intros c r. rewrite w_cons. destruct (isf c r f); lia.
    + intros c r Nr. rewrite w_cons. unfold isf. rewrite R. destruct r; try congruence; cbn [roleb]; rewrite andb_false_r; lia.
    + intros f' Hf. right. exact Hf.
  - (* AReturn *)
    destruct (nth_error (thr s) t) as [[|f st]|] eqn:T; try discriminate H.
    destruct (frole f) eqn:R; try discriminate H.
    destruct (nth_error (cors s) (fc f)) as [x|] eqn:X; [|discriminate H].
    destruct (ap x) eqn:Ap; try discriminate H. injection H as <-.
    pose proof (i_c I _ X) as C.
    apply (@step_inv_same s (fc f) x _ _ t _ I T X); [reflexivity|].
    constructor; simpl; try exact (c_d C); try exact (c_b C); try exact (c_r C); try exact (c_g C).
    + rewrite (c_a C), Ap. reflexivity.
    + intros E. destruct (c_s C E). congruence.
    + exact (c_hA C).
    + exact (c_hD C).
    + discriminate.
  - (* AComplete *)
    destruct (nth_error (thr s) t) as [st|] eqn:T; [|discriminate H].
    destruct (nth_error (cors s) c) as [x|] eqn:X; [|discriminate H].
    destruct (user_code (cors s) st && sus x && is_none (res x)) eqn:G; [|discriminate H]. injection H as <-.
    apply andb_prop in G. destruct G as [G Rn]. apply andb_prop in G. destruct G as [_ S]. apply is_none_eq in Rn.
    pose proof (i_c I _ X) as C.
    assert (Dp : dp x = DNone) by (destruct (dp x) eqn:E; auto; exfalso; apply (c_r C); congruence).
    apply (@step_inv s t st _ c x); auto.
    + intros c' r Nc. rewrite !wn by congruence. reflexivity.
    + constructor; simpl; auto; try congruence.
      * szs T. rewrite (c_a C). lia.
      * szs T. rewrite (c_d C), Dp. simpl. lia.
      * szs T. pose proof (c_b C) as B. lia.
      * intros u su U P. rewrite (nth_upd _ _ _ _ T) in U.
        assert (K : condA u x).
        { destruct (Nat.eqb_spec t u) as [<-|Nt]; [injection U as <-; rewrite wt in P; simpl in P; apply (c_hA C _ T); lia|exact (c_hA C _ U P)]. }
        unfold condA in *; simpl. rewrite Dp in K. destruct K as [[_ K]|[K _]]; [exact K|congruence].
      * intros u su U P. exact Logic.I.
      * intros _ E. pose proof (c_n C S E) as N. unfold condN in *. rewrite Dp in N. simpl. tauto.
    + split; [discriminate|exact (i_o I _ T)].
    + intros f [<-|Hf]; [right; auto|left; split; [exact Hf|reflexivity]].
Qed.

Lemma step_ok s a s' : inv s -> step a s = Some s' -> inv s'.
Proof.
  intros I H. destruct a; [exact (inv_lib _ I H)|eapply inv_user; [exact I| |exact H]; discriminate..].
Qed.
Lemma runs_inv acts : forall s s', inv s -> runs acts s = Some s' -> inv s'.
Proof.
  induction acts as [|a l IH]; simpl; intros s s' I H; [injection H as <-; exact I|].
  destruct (step a s) as [s1|] eqn:E; [|discriminate]. exact (IH _ _ (step_ok _ I E) H).
Qed.
Lemma reach_inv s : reachable s -> inv s.
Proof. intros [n [m [acts H]]]. exact (runs_inv _ (inv_init n m) H). Qed.
