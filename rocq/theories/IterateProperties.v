(** C54: exec::iterate, and the pipeline iterate | transform_each | ignore_all_values. *)
From Coq Require Import List Bool Arith Lia.
From Verif Require Import Conc IterateModel.
Import ListNotations.
Set Implicit Arguments.

(** ** Specification *)
(** the values sent so far, oldest first *)
Definition sent (l : list event) : list nat := rev (flat_map (fun e => match e with EItem v => [v] | _ => [] end) l).
Definition isDone e := match e with EDone _ => true | _ => false end.
Definition isNext e := match e with ENext => true | _ => false end.
Definition completions (l : list event) : nat := length (filter isDone l).
(** how often set_next was called *)
Definition offered (l : list event) : nat := length (filter isNext l).
Definition prefix (l1 l2 : list nat) := exists l, l2 = l1 ++ l.
(** [f] applied to the elements in order until one does not complete with set_value *)
Fixpoint result (f : nat -> outcome) (l : list nat) : final :=
  match l with
  | [] => FVal
  | v :: l => match f v with OVal => result f l | OErr e => FErr e | OStp => FStp end
  end.
Fixpoint visited (f : nat -> outcome) (l : list nat) : list nat :=
  match l with [] => [] | v :: l => v :: match f v with OVal => visited f l | _ => [] end end.
(** the steps made by the sequence and its receiver (not by the environment) *)
Definition own (a : action) := match a with AStop | AGone => false | _ => true end.
Definition throwing (a : action) := match a with AStart t | ANextValue t => t | _ => false end.

Lemma completions_cnt l : completions l = cnt isDone l.
Proof. unfold completions. induction l as [|e l IH]; [reflexivity|]. cbn. destruct (isDone e); cbn; rewrite IH; reflexivity. Qed.
Lemma offered_cnt l : offered l = cnt isNext l.
Proof. unfold offered. induction l as [|e l IH]; [reflexivity|]. cbn. destruct (isNext e); cbn; rewrite IH; reflexivity. Qed.

Ltac cases H := repeat match goal with
  | H : context[match ?x with _ => _ end] |- _ => match type of H with _ = Some _ => destruct x eqn:?; try discriminate H end end;
  try (injection H as <-).
Ltac opn := unfold start_next, run_item, use, emit, set_ph in *; cbn [ph pos stop gone log] in *.

(** ** iterate *)
(** The receiver is completed at most once, and nothing happens afterwards. *)
Lemma done_inv g : forall l s s', runs g l s = Some s' ->
  (cnt isDone (log s) = 0 /\ ph s <> PEnd \/ (exists c r, log s = EDone c :: r /\ cnt isDone r = 0) /\ ph s = PEnd) ->
  (cnt isDone (log s') = 0 /\ ph s' <> PEnd \/ (exists c r, log s' = EDone c :: r /\ cnt isDone r = 0) /\ ph s' = PEnd).
Proof.
  induction l as [|a l IH]; intros s s' H I; [injection H as <-; auto|]. cbn [runs] in H.
  destruct (step g s a) as [s1|] eqn:E; [|discriminate]. apply (IH _ _ H). clear H IH.
  unfold step in E. destruct a; cases E; auto.
  all: destruct I as [[I1 I2]|[_ I2]]; [|try congruence].
  all: unfold start_next, run_item, use, emit, set_ph in *.
  all: repeat match goal with |- context[if ?b then _ else _] => destruct b end; cbn [ph pos stop gone log cnt isDone].
  all: repeat match goal with |- context[match ?x with Some _ => _ | None => _ end] => destruct x end; cbn [ph pos stop gone log cnt isDone].
  all: try (left; split; [assumption|congruence]).
  all: right; split; [eexists; eexists; split; [reflexivity|]; cbn [cnt isDone]; assumption|reflexivity].
Qed.
Theorem iterate_completes_once g l s : runs g l init = Some s ->
  completions (log s) <= 1 /\ (forall c later before, log s = later ++ EDone c :: before -> later = []).
Proof.
  intros H. rewrite completions_cnt. apply done_inv in H; [|left; split; [reflexivity|discriminate]].
  destruct H as [[H _]|[[c [r [H1 H2]]] _]].
  - split; [lia|]. intros c later before E. rewrite E, cnt_app in H. cbn in H. lia.
  - rewrite H1. cbn. split; [lia|]. intros c' [|e later] before E; auto. exfalso. injection E as _ E. rewrite E, cnt_app in H2. cbn in H2. lia.
Qed.

Record inv g s : Prop := {
  i_1 : sent (log s) = firstn (pos s) (items g);
  i_2 : pos s <= length (items g);
  i_3 : ph s = PItem 0 -> pos s < length (items g);
  i_4 : forall k, ph s = PItem k -> k <= 1;
  i_5 : ~ In EOob (log s);
  i_6 : cnt isNext (log s) <= pos s + 1 /\ (ph s = PInit -> cnt isNext (log s) = 0 /\ pos s = 0) /\ (forall k, ph s = PItem (S k) -> cnt isNext (log s) = pos s) /\
        (ph s = PItem 0 -> cnt isNext (log s) = pos s + 1)
}.
Lemma sent_cons e l : sent (e :: l) = sent l ++ match e with EItem v => [v] | _ => [] end.
Proof. unfold sent. cbn. rewrite rev_app_distr. destruct e; reflexivity. Qed.
Lemma firstn_S A (l : list A) : forall n v, nth_error l n = Some v -> firstn (S n) l = firstn n l ++ [v].
Proof. induction l as [|x l IH]; intros [|n] v H; try discriminate; cbn in *; [injection H as ->; reflexivity|]. rewrite <- (IH _ _ H). reflexivity. Qed.
Lemma inv_step g s a s' : once g = true -> inv g s -> step g s a = Some s' -> inv g s'.
Proof.
  intros O [I1 I2 I3 I4 I5 I6] E. unfold step in E. rewrite O in E.
  assert (SN : forall t, (ph s = PInit \/ exists k, ph s = PItem (S k)) -> inv g (start_next g s t)).
  { intros t P. assert (N : cnt isNext (log s) = pos s).
    { destruct P as [P|[k P]]; [destruct (proj1 (proj2 I6) P); lia|apply I6 with (k := k); exact P]. }
    unfold start_next, use. destruct (owned g && gone s); opn; destruct (Nat.eqb_spec (pos s) (length (items g))); destruct t;
      constructor; cbn [ph pos stop gone log]; rewrite ?sent_cons, ?app_nil_r; auto; try discriminate; try lia;
      try (cbn [In]; intros [X|X]; [discriminate|]; repeat (destruct X as [X|X]; [discriminate|]); auto; fail);
      try (intros k [= <-]; lia); cbn [cnt isNext]; repeat split; intros; try discriminate; try lia. }
  destruct a; destruct (ph s) as [|k|] eqn:P; cbn [andb] in E; try discriminate E.
  - injection E as <-. apply SN; auto.
  - cases E. destruct k; [|discriminate]. specialize (I3 eq_refl).
    unfold run_item, use. destruct (nth_error (items g) (pos s)) as [v|] eqn:N; [|apply nth_error_None in N; lia].
    destruct (owned g && gone s); opn; rewrite N; constructor; cbn [ph pos stop gone log]; rewrite ?sent_cons, ?app_nil_r, ?I1; auto; try lia;
      try (symmetry; apply firstn_S; exact N); try discriminate; try (intros k [= <-]; lia);
      try (cbn [In]; intros [X|X]; [discriminate|]; repeat (destruct X as [X|X]; [discriminate|]); auto; fail);
      cbn [cnt isNext]; destruct I6 as [A [B [C D]]]; specialize (D eq_refl); repeat split; intros; try discriminate; try lia.
  - cases E. destruct k; [discriminate|]. apply SN; eauto.
  - injection E as <-. opn. constructor; cbn [ph pos stop gone log]; rewrite ?sent_cons, ?app_nil_r; auto; try discriminate.
    + intros [X|X]; [discriminate|auto].
    + cbn [cnt isNext]. repeat split; intros; try discriminate. lia.
  - injection E as <-. constructor; cbn [ph pos stop gone log]; rewrite ?P; auto.
  - injection E as <-. constructor; cbn [ph pos stop gone log]; rewrite ?P; auto.
  - injection E as <-. constructor; cbn [ph pos stop gone log]; rewrite ?P; auto.
  - injection E as <-. constructor; cbn [ph pos stop gone log]; rewrite ?P; auto.
  - injection E as <-. constructor; cbn [ph pos stop gone log]; rewrite ?P; auto.
  - injection E as <-. constructor; cbn [ph pos stop gone log]; rewrite ?P; auto.
Qed.
Lemma inv_init g : inv g init.
Proof. constructor; cbn; auto; try discriminate; try lia. repeat split; intros; try discriminate; lia. Qed.
Lemma inv_runs g : once g = true -> forall l s s', inv g s -> runs g l s = Some s' -> inv g s'.
Proof.
  intros O. induction l as [|a l IH]; intros s s' I H; [injection H as <-; auto|]. cbn [runs] in H.
  destruct (step g s a) eqn:E; [|discriminate]. eauto using inv_step.
Qed.

(** If the receiver runs each item at most once, the values are sent in order, each at most once, and the
    iterator stays inside the range; set_next is called at most once per element. *)
Theorem iterate_in_order_partial g l s : once g = true -> runs g l init = Some s ->
  prefix (sent (log s)) (items g) /\ ~ In EOob (log s) /\ offered (log s) <= length (items g).
Proof.
  intros O H. pose proof (inv_runs O l (inv_init g) H) as [I1 I2 I3 I4 I5 I6]. rewrite offered_cnt. split; [|split]; auto.
  - exists (skipn (pos s) (items g)). rewrite I1, firstn_skipn. reflexivity.
  - destruct (ph s) as [|[|k]|] eqn:P.
    + destruct (proj1 (proj2 I6) eq_refl). lia.
    + destruct I6 as [_ [_ [_ D]]]. specialize (D eq_refl). specialize (I3 eq_refl). lia.
    + destruct I6 as [_ [_ [D _]]]. specialize (D k eq_refl). lia.
    + clear I3 I4. revert H. clear - O P. (* the last set_next was made while in range *)
      enough (G : forall l s s', inv g s -> cnt isNext (log s) <= length (items g) -> runs g l s = Some s' -> cnt isNext (log s') <= length (items g)).
      { apply G; [apply inv_init|cbn; lia]. }
      clear - O. induction l as [|a l IH]; intros s s' I N H; [injection H as <-; auto|]. cbn [runs] in H.
      destruct (step g s a) as [s1|] eqn:E; [|discriminate]. apply (IH s1 s'); auto. { eapply inv_step; eauto. }
      clear IH H. destruct I as [_ I2 _ _ _ [A [B [C D]]]]. unfold step in E. destruct a; destruct (ph s) as [|k|] eqn:P; cbn [andb] in E; try discriminate E; cases E; auto;
        unfold start_next, run_item, use; repeat match goal with |- context[if ?b then _ else _] => destruct b eqn:? end; opn;
        repeat match goal with |- context[match ?x with Some _ => _ | None => _ end] => destruct x end; cbn [cnt isNext log]; try lia;
        repeat match goal with H : (_ =? _) = false |- _ => apply Nat.eqb_neq in H end;
        try (destruct (B eq_refl); lia); try (rewrite O in *; destruct k; [discriminate|]; specialize (C k eq_refl); lia); auto.
Qed.
Lemma end_inv g : once g = true -> forall l s s', inv g s -> runs g l s = Some s' -> ~ In ANextStopped l ->
  (In (EDone CVal) (log s) -> ph s = PEnd /\ pos s = length (items g)) -> In (EDone CVal) (log s') -> ph s' = PEnd /\ pos s' = length (items g).
Proof.
  intros O. induction l as [|a l IH]; intros s s' I H N Q D; [injection H as <-; auto|]. cbn [runs] in H.
  destruct (step g s a) as [s1|] eqn:E; [|discriminate]. apply (IH s1 s'); auto. { eapply inv_step; eauto. } { intros X; apply N; right; exact X. }
  clear IH H D. pose proof I as [_ I2 _ _ _ _]. assert (NP : (ph s <> PEnd /\ a <> AStop /\ a <> AGone) \/ (log s1 = log s /\ pos s1 = pos s /\ ph s1 = ph s)).
  { unfold step in E. destruct a, (ph s); try discriminate E; try (injection E as <-; right; repeat split; reflexivity); left; repeat split; congruence. }
  destruct NP as [NP|[-> [-> ->]]]; auto.
  unfold step in E. destruct a; destruct (ph s) as [|k|] eqn:P; cbn [andb] in E; try discriminate E; try tauto; cases E; try (exfalso; apply N; left; reflexivity);
    unfold start_next, run_item, use; repeat match goal with |- context[if ?b then _ else _] => destruct b eqn:? end; opn;
    repeat match goal with |- context[match ?x with Some _ => _ | None => _ end] => destruct x end; cbn [log pos]; intros X;
    repeat match goal with H : (_ =? _) = true |- _ => apply Nat.eqb_eq in H end; auto;
    repeat (destruct X as [X|X]; [discriminate X|]).
  all: try (destruct (Q X); discriminate).
Qed.
(** If moreover no next sender is stopped and the sequence completes with a value, every element was sent exactly once. *)
Theorem iterate_value_means_all_partial g l s : once g = true -> runs g l init = Some s -> ~ In ANextStopped l ->
  In (EDone CVal) (log s) -> sent (log s) = items g.
Proof.
  intros O H N D. destruct (@end_inv g O l init s (inv_init g) H N ltac:(cbn; tauto) D) as [_ X].
  rewrite (i_1 (inv_runs O l (inv_init g) H)), X. apply firstn_all.
Qed.

(** Why it completes as it does. *)
Theorem iterate_completion_reason g l s c : runs g l init = Some s -> In (EDone c) (log s) ->
  match c with
  | CVal => True
  | CStp => In AStop l /\ In ANextStopped l
  | CErr => exists a, In a l /\ throwing a = true
  end.
Proof.
  intros H D.
  enough (G : forall l s s', runs g l s = Some s' -> In (EDone c) (log s') -> In (EDone c) (log s) \/
    match c with CVal => True | CStp => (stop s = true \/ In AStop l) /\ In ANextStopped l | CErr => exists a, In a l /\ throwing a = true end).
  { destruct (G l init s H D) as [[]|X]. destruct c; auto. destruct X as [[X|X] Y]; [discriminate|auto]. }
  clear H D l s. induction l as [|a l IH]; intros s s' H D; [injection H as <-; auto|]. cbn [runs] in H.
  destruct (step g s a) as [s1|] eqn:E; [|discriminate].
  assert (W : (In (EDone c) (log s1) -> In (EDone c) (log s) \/
    match c with CVal => True | CStp => stop s = true /\ a = ANextStopped | CErr => throwing a = true end) /\ (stop s1 = true -> stop s = true \/ a = AStop)).
  { clear IH H D. unfold step in E. destruct a; destruct (ph s) as [|k|] eqn:P; cbn [andb] in E; try discriminate E; cases E; (split; [intros X|auto]);
    unfold start_next, run_item, use in *; repeat match goal with X : context[if ?b then _ else _] |- _ => destruct b eqn:? end; opn;
    repeat match goal with X : context[match ?x with Some _ => _ | None => _ end] |- _ => destruct x end; cbn [log pos stop In] in *;
    repeat match goal with |- context[if ?b then _ else _] => destruct b eqn:? end; cbn [log pos stop In] in *;
    auto; repeat (destruct X as [X|X]; [try discriminate X; try (injection X as <-; auto; fail)|]); auto.
    all: congruence. }
  destruct W as [W1 W2]. destruct (IH _ _ H D) as [X|X].
  - destruct (W1 X) as [Y|Y]; auto. right. destruct c; auto.
    + exists a. split; [left; reflexivity|exact Y].
    + destruct Y as [Y1 ->]. split; [auto|left; reflexivity].
  - right. destruct c; auto.
    + destruct X as [b [X1 X2]]. exists b. split; [right; exact X1|exact X2].
    + destruct X as [X1 X2]. split; [|right; exact X2]. destruct X1 as [X1|X1]; [destruct (W2 X1) as [Y|Y]; [auto|right; left; auto]|right; right; exact X1].
Qed.

(** Running each item exactly once, the sequence makes at most two steps per element and two more. *)
Definition rest g s := match ph s with PInit => 2 * (length (items g) - pos s) + 2 | PItem 0 => 2 * (length (items g) - pos s) + 1
  | PItem (S _) => 2 * (length (items g) - pos s) + 2 | PEnd => 0 end.
Lemma rest_step g s a s' : once g = true -> inv g s -> step g s a = Some s' -> rest g s' + (if own a then 1 else 0) <= rest g s.
Proof.
  intros O I E. pose proof I as [_ I2 I3 _ _ _]. unfold step in E. rewrite O in E. unfold rest.
  destruct a; destruct (ph s) as [|k|] eqn:P; cbn [andb] in E; try discriminate E; cases E; cbn [own];
    unfold start_next, run_item, use; repeat match goal with |- context[if ?b then _ else _] => destruct b eqn:? end; opn;
    repeat match goal with |- context[match ?x with Some _ => _ | None => _ end] => destruct x end; cbn [ph pos stop gone log];
    rewrite ?P; try lia; try (destruct k; try discriminate; try (specialize (I3 eq_refl)); lia).
  all: try (destruct k; lia).
Qed.
Theorem iterate_terminates_partial g l s : once g = true -> runs g l init = Some s ->
  length (filter own l) <= 2 * length (items g) + 2.
Proof.
  intros O H. enough (G : forall l s s', inv g s -> runs g l s = Some s' -> rest g s' + length (filter own l) <= rest g s).
  { specialize (G l init s (inv_init g) H). unfold rest in G at 2. cbn in G. lia. }
  clear H l s. induction l as [|a l IH]; intros s s' I H; [injection H as <-; cbn; lia|]. cbn [runs] in H.
  destruct (step g s a) as [s1|] eqn:E; [|discriminate]. pose proof (rest_step a O I E) as R.
  pose proof (IH s1 s' (inv_step a O I E) H) as Q. cbn [filter]. destruct (own a); cbn [length] in *; lia.
Qed.

(** The range is not used after it was destroyed, if it does not live in the sender or the sender lives long enough. *)
Theorem iterate_no_dangling_partial g l s : runs g l init = Some s -> owned g = false \/ ~ In AGone l -> ~ In EDangling (log s).
Proof.
  intros H C. enough (G : forall l s s', runs g l s = Some s' -> (owned g = false \/ (gone s = false /\ ~ In AGone l)) ->
    ~ In EDangling (log s) -> ~ In EDangling (log s')).
  { apply (G l init s H); [destruct C; auto|cbn; tauto]. }
  clear H C l s. induction l as [|a l IH]; intros s s' H C N; [injection H as <-; auto|]. cbn [runs] in H.
  destruct (step g s a) as [s1|] eqn:E; [|discriminate].
  assert (U : owned g && gone s = false) by (destruct C as [->|[-> _]]; [reflexivity|apply andb_false_r]).
  apply (IH s1 s' H).
  - destruct C as [C|[C1 C2]]; auto. right. split; [|intros X; apply C2; right; exact X].
    clear H IH. unfold step in E. destruct a, (ph s) as [|k|]; try discriminate E; cases E; auto; try (exfalso; apply C2; left; reflexivity);
    unfold start_next, run_item, use; try rewrite U; opn; repeat match goal with |- context[if ?b then _ else _] => destruct b eqn:? end; auto.
  - clear H IH. unfold step in E. destruct a, (ph s) as [|k|]; try discriminate E; cases E; auto;
    unfold start_next, run_item, use; try rewrite U; opn; repeat match goal with |- context[if ?b then _ else _] => destruct b eqn:? end; cbn [log In]; 
    repeat match goal with |- context[match ?x with Some _ => _ | None => _ end] => destruct x end; intuition discriminate.
Qed.

(** ** The pipeline iterate | transform_each(f) | ignore_all_values *)
Definition all_val (f : nat -> outcome) l := forall v, In v l -> f v = OVal.
Lemma result_app f : forall l1 l2, all_val f l1 -> result f (l1 ++ l2) = result f l2.
Proof. induction l1 as [|v l1 IH]; intros l2 A; auto. cbn. rewrite (A v (or_introl eq_refl)). apply IH. intros w W; apply A; right; exact W. Qed.
Lemma visited_app f : forall l1 l2, all_val f l1 -> visited f (l1 ++ l2) = l1 ++ visited f l2.
Proof. induction l1 as [|v l1 IH]; intros l2 A; auto. cbn. rewrite (A v (or_introl eq_refl)), IH; auto. intros w W; apply A; right; exact W. Qed.

Definition pthrow a := match a with PStart t | PFinish t => t | _ => false end.
(** what the pipeline's state means; [q]: stop was requested, [t]: something threw *)
Definition pinv g f q t p : Prop :=
  let s := it p in let n := pos s in
  sent (log s) = firstn n (items g) /\ stop s = q /\ match ph s with
  | PInit => n = 0 /\ cur p = None /\ res p = None /\ out p = []
  | PItem 0 => n < length (items g) /\ all_val f (firstn n (items g)) /\ res p = None /\ out p = []
  | PItem (S _) => exists m v, n = S m /\ nth_error (items g) m = Some v /\ cur p = Some v /\ all_val f (firstn m (items g)) /\ res p = None /\ out p = []
  | PEnd => exists x, out p = [x] /\     (x = result f (items g) /\ sent (log s) = visited f (items g) \/ x = FStp /\ q = true /\ sent (log s) = visited f (items g) \/ x = FExc /\ t = true)
  end.
Lemma dones_app l0 x : dones l0 (x ++ l0) = flat_map (fun e => match e with EDone c => [c] | _ => [] end) x.
Proof. unfold dones. rewrite app_length. replace (length x + length l0 - length l0) with (length x) by lia. rewrite firstn_app, firstn_all, Nat.sub_diag. cbn. rewrite app_nil_r. reflexivity. Qed.
Definition done_of (e : event) : list compl := match e with EDone c => [c] | _ => [] end.
Lemma dones1 a l : dones l (a :: l) = done_of a.
Proof. etransitivity; [exact (dones_app l [a])|]. apply app_nil_r. Qed.
Lemma dones2 a b l : dones l (a :: b :: l) = done_of a ++ done_of b.
Proof. etransitivity; [exact (dones_app l [a; b])|]. cbn. rewrite app_nil_r. reflexivity. Qed.
Lemma dones3 a b c l : dones l (a :: b :: c :: l) = done_of a ++ done_of b ++ done_of c.
Proof. etransitivity; [exact (dones_app l [a; b; c])|]. cbn. rewrite app_nil_r. reflexivity. Qed.
Lemma dones_same l : dones l l = []. Proof. apply (dones_app l []). Qed.
Definition isPStop a := match a with PStop => true | _ => false end.
Lemma pinv_step g f p a p' q t : pinv g f q t p -> pstep g f p a = Some p' -> pinv g f (q || isPStop a) (t || pthrow a) p'.
Proof.
  intros I E.
  assert (SN : forall th c r s1, pos (it p) <= length (items g) -> sent (log (it p)) = firstn (pos (it p)) (items g) -> stop (it p) = q ->
     all_val f (firstn (pos (it p)) (items g)) -> r = None -> out p = [] -> s1 = start_next g (it p) th -> c = None ->
     pinv g f (q || false) (t || th) (lift p s1 c r)).
  { intros th c r s1 L S1 Q A -> O -> ->. rewrite orb_false_r. unfold pinv, lift. cbn [it cur res out]. unfold start_next, use. rewrite O.
    destruct (owned g && gone (it p)); opn; destruct (Nat.eqb_spec (pos (it p)) (length (items g))) as [e|e]; try (destruct th); cbn [ph pos stop gone log];
    rewrite ?dones1, ?dones2, ?dones3;
    cbn [done_of app map finish visit]; rewrite ?sent_cons, ?app_nil_r, ?orb_true_r; (split; [exact S1|split; [exact Q|]]).
    all: try (eexists; split; [reflexivity|]; right; right; split; reflexivity).
    all: try (repeat split; auto; lia).
    all: eexists; split; [reflexivity|]; left; rewrite e, firstn_all in A; split;
      [rewrite <- (app_nil_r (items g)), result_app by exact A; reflexivity|
       rewrite S1, e, firstn_all; rewrite <- (app_nil_r (items g)) at 2; rewrite visited_app by exact A; cbn; rewrite app_nil_r; reflexivity]. }
  destruct I as [I1 [I2 I3]]. unfold pstep in E. destruct a as [th| |th|].
  - unfold step in E. destruct (ph (it p)); try discriminate. injection E as <-. destruct I3 as [P0 [C [R O]]]. cbn [isPStop pthrow].
    apply SN; auto; [rewrite P0; lia|rewrite P0; intros v []].
  - destruct (ph (it p)) as [|[|k]|] eqn:P; try discriminate. unfold step in E. rewrite P in E. rewrite andb_false_r in E. injection E as <-.
    destruct I3 as [L [A [R O]]]. cbn [isPStop pthrow]. rewrite !orb_false_r.
    destruct (nth_error (items g) (pos (it p))) as [v|] eqn:N; [|apply nth_error_None in N; lia].
    unfold pinv, lift. cbn [it cur res out]. unfold run_item, use. rewrite O, R.
    destruct (owned g && gone (it p)); opn; rewrite N; cbn [ph pos stop gone log];
    rewrite ?dones1, ?dones2; cbn [done_of app map]; rewrite !sent_cons, ?app_nil_r, I1;
    (split; [symmetry; apply firstn_S; exact N|split; [exact I2|]]); exists (pos (it p)), v; repeat split; auto.
  - destruct (ph (it p)) as [|[|k]|] eqn:P; try discriminate. destruct I3 as [m [v [Pm [N [C [A [R O]]]]]]]. rewrite C in E. cbn [isPStop pthrow].
    assert (FS : firstn (pos (it p)) (items g) = firstn m (items g) ++ [v]) by (rewrite Pm; apply firstn_S; exact N).
    assert (LP : pos (it p) <= length (items g)) by (rewrite Pm; apply nth_error_Some; congruence).
    assert (SK : items g = firstn m (items g) ++ v :: skipn (S m) (items g)).
    { rewrite <- (firstn_skipn (S m) (items g)) at 1. rewrite (firstn_S _ _ N), <- app_assoc. reflexivity. }
    rewrite R in E. destruct (f v) eqn:F.
    + unfold step in E. rewrite P, andb_false_r in E. injection E as <-. apply SN; auto.
      rewrite FS. intros w W. apply in_app_or in W. destruct W as [W|[<-|[]]]; auto.
    + unfold step in E. rewrite P in E. injection E as <-. unfold pinv, lift. cbn [it cur res out]. opn.
      rewrite dones1. cbn [done_of app map]. rewrite O, orb_false_r, sent_cons, app_nil_r. split; [exact I1|split; [exact I2|]].
      eexists. split; [reflexivity|]. assert (V : sent (log (it p)) = visited f (items g)) by (rewrite I1, FS; transitivity (visited f (firstn m (items g) ++ v :: skipn (S m) (items g))); [rewrite visited_app by exact A; cbn; rewrite F; reflexivity|f_equal; symmetry; exact SK]).
      destruct (stop (it p)) eqn:SS; cbn [finish visit]; [right; left; auto|left; split; auto]. transitivity (result f (firstn m (items g) ++ v :: skipn (S m) (items g))); [rewrite result_app by exact A; cbn; rewrite F; reflexivity|f_equal; symmetry; exact SK].
    + unfold step in E. rewrite P in E. injection E as <-. unfold pinv, lift. cbn [it cur res out]. opn.
      rewrite dones1. cbn [done_of app map]. rewrite O, orb_false_r, sent_cons, app_nil_r. split; [exact I1|split; [exact I2|]].
      eexists. split; [reflexivity|]. assert (V : sent (log (it p)) = visited f (items g)) by (rewrite I1, FS; transitivity (visited f (firstn m (items g) ++ v :: skipn (S m) (items g))); [rewrite visited_app by exact A; cbn; rewrite F; reflexivity|f_equal; symmetry; exact SK]).
      destruct (stop (it p)) eqn:SS; cbn [finish visit]; [right; left; auto|left; split; auto]. transitivity (result f (firstn m (items g) ++ v :: skipn (S m) (items g))); [rewrite result_app by exact A; cbn; rewrite F; reflexivity|f_equal; symmetry; exact SK].
  - cbn [step] in E. assert (E' : Some (lift p (mks (ph (it p)) (pos (it p)) true (gone (it p)) (log (it p))) (cur p) (res p)) = Some p') by (destruct (ph (it p)); exact E).
    injection E' as <-. cbn [isPStop pthrow]. rewrite orb_true_r, orb_false_r. unfold pinv, lift. cbn [it cur res out ph pos stop gone log].
    rewrite dones_same. cbn [map app]. split; [exact I1|split; [reflexivity|]].
    destruct (ph (it p)) as [|[|k]|]; auto. destruct I3 as [x [O X]]. exists x. split; auto. intuition.
Qed.
Lemma pinv_init g f : pinv g f false false pinit.
Proof. unfold pinv. cbn. repeat split. Qed.
Lemma pinv_runs g f : forall l p p' q t, pinv g f q t p -> pruns g f l p = Some p' -> pinv g f (q || existsb isPStop l) (t || existsb pthrow l) p'.
Proof.
  induction l as [|a l IH]; intros p p' q t I H; [injection H as <-; cbn; rewrite !orb_false_r; exact I|]. cbn [pruns] in H.
  destruct (pstep g f p a) as [p1|] eqn:E; [|discriminate]. cbn [existsb]. rewrite !orb_assoc. eapply IH; eauto. eapply pinv_step; eauto.
Qed.

(** The receiver of the pipeline is completed at most once. If nothing threw and no stop was requested: with the first
    result that is not a value, or with a value if there is none; and exactly the elements up to and including that one were visited,
    in order. If stop was requested it may instead be completed with set_stopped. *)
Theorem pipeline_result g f l p : pruns g f l pinit = Some p ->
  length (out p) <= 1 /\ prefix (sent (log (it p))) (items g) /\ forall x, In x (out p) ->
    (x = result f (items g) /\ sent (log (it p)) = visited f (items g)) \/
    (x = FStp /\ In PStop l /\ sent (log (it p)) = visited f (items g)) \/
    (x = FExc /\ exists a, In a l /\ pthrow a = true).
Proof.
  intros H. apply (pinv_runs l (pinv_init g f)) in H. cbn [orb] in H. destruct H as [I1 [I2 I3]].
  assert (PR : prefix (sent (log (it p))) (items g)) by (exists (skipn (pos (it p)) (items g)); rewrite I1, firstn_skipn; reflexivity).
  destruct (ph (it p)) as [|[|k]|].
  - destruct I3 as [_ [_ [_ ->]]]. split; [cbn; lia|split; [exact PR|intros x []]].
  - destruct I3 as [_ [_ [_ ->]]]. split; [cbn; lia|split; [exact PR|intros x []]].
  - destruct I3 as [m [v [_ [_ [_ [_ [_ ->]]]]]]]. split; [cbn; lia|split; [exact PR|intros x []]].
  - destruct I3 as [x [-> X]]. split; [cbn; lia|split; [exact PR|]]. intros y [<-|[]].
    destruct X as [X|[[X1 [X2 X3]]|[X1 X2]]]; auto.
    + right; left. split; auto. apply existsb_exists in X2. destruct X2 as [a [A1 A2]]. destruct a; try discriminate. auto.
    + right; right. split; auto. apply existsb_exists in X2. exact X2.
Qed.
(** It is always able to make its next step until it completes. *)
Theorem pipeline_progress g f l p : once g = true -> pruns g f l pinit = Some p -> out p = [] ->
  exists a p', isPStop a = false /\ pstep g f p a = Some p'.
Proof.
  intros O H N. apply (pinv_runs l (pinv_init g f)) in H. destruct H as [_ [_ I3]].
  destruct (ph (it p)) as [|[|k]|] eqn:P.
  - exists (PStart false). eexists. split; [reflexivity|]. cbn. rewrite P. reflexivity.
  - exists PRun. eexists. split; [reflexivity|]. cbn. rewrite P, andb_false_r. reflexivity.
  - destruct I3 as [m [v [_ [_ [C _]]]]]. exists (PFinish false). unfold pstep. rewrite P, C. destruct (f v); unfold step; rewrite P, ?andb_false_r; eexists; split; reflexivity.
  - destruct I3 as [x [X _]]. congruence.
Qed.

(** ** Concrete cases *)
Definition g3 := mkcfg [4; 7; 9] true false.
Definition f7 v := if v =? 7 then OErr 1 else OVal.
Example iterate_example :
  option_map (fun s => (sent (log s), log s)) (runs g3 [AStart false; ARun; ANextValue false; ARun; ANextValue false; ARun; ANextValue false] init)
  = Some ([4; 7; 9], [EDone CVal; EItem 9; ENext; EItem 7; ENext; EItem 4; ENext]).
Proof. vm_compute. reflexivity. Qed.
Example pipeline_example :
  option_map (fun p => (out p, sent (log (it p)))) (pruns g3 f7 [PStart false; PRun; PFinish false; PRun; PFinish false] pinit) = Some ([FErr 1], [4; 7]) /\ option_map (fun p => (out p, sent (log (it p)))) (pruns g3 (fun _ => OVal) [PStart false; PRun; PFinish false; PRun; PFinish false; PRun; PFinish false] pinit) = Some ([FVal], [4; 7; 9]) /\ result f7 (items g3) = FErr 1.
Proof. repeat split; vm_compute; reflexivity. Qed.

(** ** Refuted statements *)
(** "The error of the first failing item is delivered": not if stop is requested before the item fails. *)
Theorem pipeline_error_not_lost_refuted :
  ~ (forall g f l p x, pruns g f l pinit = Some p -> In x (out p) -> ~ (exists a, In a l /\ pthrow a = true) ->
       (exists v e, In v (sent (log (it p))) /\ f v = OErr e) -> exists e, x = FErr e).
Proof.
  intros H. specialize (H g3 f7 [PStart false; PRun; PFinish false; PRun; PStop; PFinish false] _ FStp eq_refl (or_introl eq_refl)).
  destruct H as [e H]; [|exists 7, 1; split; [right; left; reflexivity|reflexivity]|discriminate H].
  intros [a [A B]]. cbn in A. repeat (destruct A as [<-|A]; [discriminate B|]). exact A.
Qed.
(** "The iterator stays inside the range" when an item may be run twice, as in transform_each(repeat_n(2)). *)
Theorem iterate_in_range_refuted : ~ (forall g l s, runs g l init = Some s -> ~ In EOob (log s)).
Proof. intros H. apply (H (mkcfg [1] false false) [AStart false; ARun; ARun] _ eq_refl). left. reflexivity. Qed.
(** "Every element is offered exactly once" when an item may be dropped: the same element is offered for ever. *)
Theorem iterate_offers_once_refuted :
  ~ (forall g, exists n, forall l s, runs g l init = Some s -> offered (log s) <= n).
Proof.
  intros H. destruct (H (mkcfg [1] false false)) as [n B].
  assert (G : forall k s, ph s = PItem 0 -> pos s = 0 -> gone s = false -> exists s', runs (mkcfg [1] false false) (repeat (ANextValue false) k) s = Some s' /\    offered (log s') = k + offered (log s)).
  { induction k as [|k IH]; intros s P Q R; [exists s; split; reflexivity|]. cbn [repeat runs step]. rewrite P. cbn [once andb].
    unfold start_next, use. cbn [owned andb items length]. rewrite Q. cbn [Nat.eqb]. unfold emit, set_ph. cbn [ph pos stop gone log].
    destruct (IH (mks (PItem 0) (pos s) (stop s) (gone s) (ENext :: log s)) eq_refl Q R) as [s' [S1 S2]]. exists s'. split; [exact S1|].
    rewrite S2. unfold offered. cbn. lia. }
  destruct (G (S n) (start_next (mkcfg [1] false false) init false) eq_refl eq_refl eq_refl) as [s' [S1 S2]].
  specialize (B (AStart false :: repeat (ANextValue false) (S n)) s' S1). lia.
Qed.
(** "The operation does not depend on the sender it was connected from": the iterators point into a container in the sender. *)
Theorem iterate_no_dangling_refuted : ~ (forall g l s, once g = true -> runs g l init = Some s -> ~ In EDangling (log s)).
Proof. intros H. apply (H (mkcfg [1] true true) [AGone; AStart false] _ eq_refl eq_refl). right. left. reflexivity. Qed.
