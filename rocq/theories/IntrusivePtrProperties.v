(** * C43: intrusive_ptr frees exactly once, when the last reference goes away *)

From Coq Require Import List Arith Bool NArith ZArith Lia.
From Verif Require Import Conc IntrusivePtrModel.
Import ListNotations.
Set Implicit Arguments.
Arguments Z.add : simpl never.
Arguments Z.sub : simpl never.
Arguments Z.of_nat : simpl never.
Arguments Z.of_N : simpl never.
Arguments N.pow : simpl never.
Arguments N.div : simpl never.
Arguments N.add : simpl never.
Arguments N.sub : simpl never.
Arguments N.lor : simpl never.
Arguments N.ldiff : simpl never.
Arguments N.eqb : simpl never.
Arguments N.testbit : simpl never.

(** ** Specification *)
Definition points_to (o : obj) (d : option obj) : bool := match d with Some x => x =? o | None => false end.
Definition releasing (o : obj) (p : pc) : bool := match p with Dec x => x =? o | _ => false end.
(** the references to o: pointer variables, references held without one, and those being given up *)
Definition references (s : state) (o : obj) : nat :=
  cnt (points_to o) (slots s) + cnt (releasing o) (thr s) +
  match nth_error (mem s) o with Some b => man b | None => 0 end.
Definition deletions (o : obj) (l : list event) : nat :=
  cnt (fun e => match e with EDelete x => x =? o | _ => false end) l.
Definition created (o : obj) (l : list event) : Prop := In (ENew o) l.
(** the value a reserved bit shall have *)
Fixpoint bit_of (o : obj) (i : N) (l : list event) : bool :=
  match l with
  | [] => false
  | ESet x j :: l => if (x =? o) && (j =? i)%N then true else bit_of o i l
  | EClear x j :: l => if (x =? o) && (j =? i)%N then false else bit_of o i l
  | _ :: l => bit_of o i l
  end.

(** ** Arithmetic of the word *)
Section Params.
Variable R : N.
Notation increment := (increment R).
Notation count := (count R).
Notation step := (step R).
Notation reachable := (reachable R).

Lemma inc_pos : (0 < increment)%N.
Proof. unfold IntrusivePtrModel.increment. apply N.neq_0_lt_0. apply N.pow_nonzero. lia. Qed.
Lemma count_shift b : count b = N.shiftr b R.
Proof. unfold IntrusivePtrModel.count, IntrusivePtrModel.increment. rewrite N.shiftr_div_pow2. auto. Qed.
Lemma count_inc b : count (b + increment)%N = (count b + 1)%N.
Proof.
  unfold IntrusivePtrModel.count. replace (b + increment)%N with (b + 1 * increment)%N by lia.
  apply N.div_add. pose proof inc_pos; lia.
Qed.
Lemma count_ge b : (0 < count b)%N -> (increment <= b)%N.
Proof.
  intros H. unfold IntrusivePtrModel.count in H. destruct (N.lt_ge_cases b increment) as [L|L]; auto.
  rewrite N.div_small in H by auto. lia.
Qed.
Lemma count_dec b : (0 < count b)%N -> count (b - increment)%N = (count b - 1)%N.
Proof.
  intros H. pose proof (count_ge _ H) as L.
  replace (count b) with (count ((b - increment) + increment)%N) by (f_equal; lia).
  rewrite count_inc. lia.
Qed.
Lemma count_set b i : (i < R)%N -> count (N.lor b (2 ^ i))%N = count b.
Proof.
  intros H. rewrite !count_shift, N.shiftr_lor. rewrite (N.shiftr_div_pow2 (2 ^ i)), N.div_small, N.lor_0_r; auto.
  apply N.pow_lt_mono_r; lia.
Qed.
Lemma count_clear b i : (i < R)%N -> count (N.ldiff b (2 ^ i))%N = count b.
Proof.
  intros H. rewrite !count_shift, N.shiftr_ldiff. rewrite (N.shiftr_div_pow2 (2 ^ i)), N.div_small, N.ldiff_0_r; auto.
  apply N.pow_lt_mono_r; lia.
Qed.
Lemma bit_inc b i : (i < R)%N -> N.testbit (b + increment) i = N.testbit b i.
Proof.
  intros H. rewrite <- (N.mod_pow2_bits_low (b + increment) R i H), <- (N.mod_pow2_bits_low b R i H).
  f_equal. unfold IntrusivePtrModel.increment. replace (b + 2 ^ R)%N with (b + 1 * 2 ^ R)%N by lia.
  apply N.mod_add. apply N.pow_nonzero. lia.
Qed.
Lemma bit_dec b i : (i < R)%N -> (0 < count b)%N -> N.testbit (b - increment) i = N.testbit b i.
Proof.
  intros H H'. pose proof (count_ge _ H'). rewrite <- (bit_inc (b - increment) H). f_equal. lia.
Qed.
Lemma bit_set b i j : N.testbit (N.lor b (2 ^ j)) i = if (j =? i)%N then true else N.testbit b i.
Proof.
  rewrite N.lor_spec, N.pow2_bits_eqb. destruct (N.eqb_spec j i); rewrite ?orb_true_r, ?orb_false_r; auto.
Qed.
Lemma bit_clear b i j : N.testbit (N.ldiff b (2 ^ j)) i = if (j =? i)%N then false else N.testbit b i.
Proof.
  rewrite N.ldiff_spec, N.pow2_bits_eqb. destruct (N.eqb_spec j i); simpl; rewrite ?andb_false_r, ?andb_true_r; auto.
Qed.
Lemma bit_low_inc i : (i < R)%N -> N.testbit increment i = false.
Proof. intros H. unfold IntrusivePtrModel.increment. apply N.pow2_bits_false. lia. Qed.

(** ** Invariant *)
Definition ws (o : obj) (d : option obj) : Z := match d with Some x => if x =? o then 1 else 0 | None => 0 end.
Definition wd (o : obj) (p : pc) : Z := match p with Dec x => if x =? o then 1 else 0 | _ => 0 end.
Definition wl (o : obj) (p : pc) : Z := match p with Del x => if x =? o then 1 else 0 | _ => 0 end.
Lemma ws_nn o d : (0 <= ws o d)%Z. Proof. destruct d; simpl; try lia. destruct (_ =? _); lia. Qed.
Lemma wd_nn o d : (0 <= wd o d)%Z. Proof. destruct d; simpl; try lia. destruct (_ =? _); lia. Qed.
Lemma wl_nn o d : (0 <= wl o d)%Z. Proof. destruct d; simpl; try lia. destruct (_ =? _); lia. Qed.

Definition okb (b : block) (refs dels : Z) : Prop :=
  if alive b then Z.of_N (count (bits b)) = refs /\ (dels = if (refs =? 0)%Z then 1 else 0)%Z
  else refs = 0%Z /\ dels = 0%Z.

Record inv (s : state) : Prop := {
  i_obj : forall o b, nth_error (mem s) o = Some b ->
    okb b (Z.of_nat (man b) + sumz (ws o) (slots s) + sumz (wd o) (thr s)) (sumz (wl o) (thr s));
  i_none : forall o, length (mem s) <= o ->
    sumz (ws o) (slots s) = 0%Z /\ sumz (wd o) (thr s) = 0%Z /\ sumz (wl o) (thr s) = 0%Z;
  i_ok : forall o, ~ In (EAccess o false) (log s);
  i_del : forall o b, nth_error (mem s) o = Some b -> deletions o (log s) = if alive b then 0 else 1;
  i_del0 : forall o, length (mem s) <= o -> deletions o (log s) = 0 /\ forall i, bit_of o i (log s) = false;
  i_new : forall o, o < length (mem s) -> created o (log s);
  i_new' : forall o, created o (log s) -> o < length (mem s);
  i_bit : forall o b i, nth_error (mem s) o = Some b -> (i < R)%N -> bit i (bits b) = bit_of o i (log s);
  i_isset : forall o i r l1 l2, log s = l2 ++ EIsSet o i r :: l1 -> r = bit_of o i l1 }.

Lemma held_slot s x o : inv s -> nth_error (slots s) x = Some (Some o) ->
  exists b, nth_error (mem s) o = Some b /\ alive b = true /\ (0 < Z.of_N (count (bits b)))%Z.
Proof.
  intros J H. pose proof (sumz_ge (ws o) _ (ws_nn o) _ H) as G. simpl in G. rewrite Nat.eqb_refl in G.
  destruct (nth_error (mem s) o) as [b|] eqn:E.
  - exists b. split; auto. pose proof (i_obj J _ E) as K. unfold okb in K.
    pose proof (sumz_nonneg (wd o) (thr s) (wd_nn o)).
    destruct (alive b); [|lia]. split; auto. lia.
  - apply nth_error_None in E. destruct (i_none J E). lia.
Qed.
Lemma held_dec s t o : inv s -> nth_error (thr s) t = Some (Dec o) ->
  exists b, nth_error (mem s) o = Some b /\ alive b = true /\ (0 < Z.of_N (count (bits b)))%Z.
Proof.
  intros J H. pose proof (sumz_ge (wd o) _ (wd_nn o) _ H) as G. simpl in G. rewrite Nat.eqb_refl in G.
  destruct (nth_error (mem s) o) as [b|] eqn:E.
  - exists b. split; auto. pose proof (i_obj J _ E) as K. unfold okb in K.
    pose proof (sumz_nonneg (ws o) (slots s) (ws_nn o)).
    destruct (alive b); [|lia]. split; auto. lia.
  - apply nth_error_None in E. destruct (i_none J E) as (? & ? & ?). lia.
Qed.
Lemma held_del s t o : inv s -> nth_error (thr s) t = Some (Del o) ->
  exists b, nth_error (mem s) o = Some b /\ alive b = true /\ man b = 0 /\
    sumz (ws o) (slots s) = 0%Z /\ sumz (wd o) (thr s) = 0%Z /\ sumz (wl o) (thr s) = 1%Z /\ count (bits b) = 0%N.
Proof.
  intros J H. pose proof (sumz_ge (wl o) _ (wl_nn o) _ H) as G. simpl in G. rewrite Nat.eqb_refl in G.
  destruct (nth_error (mem s) o) as [b|] eqn:E.
  - exists b. split; auto. pose proof (i_obj J _ E) as K. unfold okb in K.
    pose proof (sumz_nonneg (ws o) (slots s) (ws_nn o)).
    pose proof (sumz_nonneg (wd o) (thr s) (wd_nn o)).
    destruct (alive b); [|lia]. split; auto. destruct K as [K1 K2].
    destruct (Z.eqb_spec (Z.of_nat (man b) + sumz (ws o) (slots s) + sumz (wd o) (thr s)) 0); [|lia].
    repeat split; lia.
  - apply nth_error_None in E. destruct (i_none J E) as (? & ? & ?). lia.
Qed.

(** steps that change only pointer variables and program counters, keeping the number of references *)
Lemma inv_slots s s' : inv s ->
  mem s' = mem s -> log s' = log s ->
  (forall o, sumz (ws o) (slots s') + sumz (wd o) (thr s') = sumz (ws o) (slots s) + sumz (wd o) (thr s))%Z ->
  (forall o, sumz (wl o) (thr s') = sumz (wl o) (thr s)) ->
  inv s'.
Proof.
  intros J Em El E1 E2. destruct J. constructor; rewrite ?Em, ?El; auto.
  - intros o b H. rewrite E2. replace (Z.of_nat (man b) + sumz (ws o) (slots s') + sumz (wd o) (thr s'))%Z
      with (Z.of_nat (man b) + sumz (ws o) (slots s) + sumz (wd o) (thr s))%Z by (specialize (E1 o); lia). auto.
  - intros o H. destruct (i_none0 o H) as (A & B & C).
    pose proof (sumz_nonneg (ws o) (slots s') (ws_nn o)). pose proof (sumz_nonneg (wd o) (thr s') (wd_nn o)).
    specialize (E1 o). rewrite E2. lia.
Qed.

Lemma deletions_cons e o l : deletions o (e :: l) = (match e with EDelete x => if x =? o then 1 else 0 | _ => 0 end) + deletions o l.
Proof. unfold deletions. simpl. destruct e; auto. Qed.

(** steps that access the word of an existing block *)
Lemma inv_access s s' o b b' es : inv s ->
  nth_error (mem s) o = Some b -> alive b = true -> alive b' = true ->
  mem s' = upd (mem s) o b' ->
  log s' = es ++ EAccess o true :: log s ->
  (es = [] \/ (exists i, es = [EIsSet o i (bit i (bits b))] /\ (i < R)%N) \/ (exists i, es = [ESet o i]) \/ (exists i, es = [EClear o i])) ->
  (forall o', o' <> o -> sumz (ws o') (slots s') + sumz (wd o') (thr s') = sumz (ws o') (slots s) + sumz (wd o') (thr s))%Z ->
  (forall o', o' <> o -> sumz (wl o') (thr s') = sumz (wl o') (thr s)) ->
  (Z.of_N (count (bits b')) - Z.of_N (count (bits b)) =
    (Z.of_nat (man b') + sumz (ws o) (slots s') + sumz (wd o) (thr s')) -
    (Z.of_nat (man b) + sumz (ws o) (slots s) + sumz (wd o) (thr s)))%Z ->
  (sumz (wl o) (thr s') = if (Z.of_N (count (bits b')) =? 0)%Z then 1 else 0)%Z ->
  (forall i, (i < R)%N -> bit i (bits b') = bit_of o i (log s')) ->
  inv s'.
Proof.
  intros J Eb Al Al' Em El Hes E1 E2 E3 E4 E5.
  assert (Hl : length (mem s') = length (mem s)) by (rewrite Em, upd_length; auto).
  assert (Hd : forall x, deletions x (log s') = deletions x (log s)).
  { intros x. rewrite El. destruct Hes as [-> |[(i & -> & _)|[(i & ->)|(i & ->)]]]; simpl app; rewrite ?deletions_cons; auto. }
  assert (Hb : forall x i, x <> o -> bit_of x i (log s') = bit_of x i (log s)).
  { intros x i N. rewrite El. destruct Hes as [-> |[(j & -> & _)|[(j & ->)|(j & ->)]]]; simpl; auto;
    destruct (Nat.eqb_spec o x); try congruence; auto. }
  assert (Ho : o < length (mem s)) by (apply nth_error_Some; congruence).
  constructor.
  - intros x c H. rewrite Em in H. rewrite (nth_upd _ _ _ _ Eb) in H. destruct (Nat.eqb_spec o x) as [<-|N].
    + injection H as <-. pose proof (i_obj J _ Eb) as K. unfold okb in *. rewrite Al in K. rewrite Al'.
      destruct K as [K1 K2].
      assert (X : Z.of_N (count (bits b')) = (Z.of_nat (man b') + sumz (ws o) (slots s') + sumz (wd o) (thr s'))%Z) by lia.
      rewrite X in E4. split; auto.
    + pose proof (i_obj J _ H) as K. rewrite E2 by auto.
      replace (Z.of_nat (man c) + sumz (ws x) (slots s') + sumz (wd x) (thr s'))%Z
        with (Z.of_nat (man c) + sumz (ws x) (slots s) + sumz (wd x) (thr s))%Z; auto.
      specialize (E1 x). lia.
  - intros x H. rewrite Hl in H. destruct (i_none J H) as (A & B & C).
    pose proof (sumz_nonneg (ws x) (slots s') (ws_nn x)). pose proof (sumz_nonneg (wd x) (thr s') (wd_nn x)).
    specialize (E1 x). rewrite E2 by lia. lia.
  - intros x H. rewrite El in H. apply in_app_iff in H. destruct H as [H|[H|H]].
    + destruct Hes as [-> |[(j & -> & _)|[(j & ->)|(j & ->)]]]; simpl in H; try tauto; destruct H as [H|H]; try discriminate; tauto.
    + discriminate.
    + apply (i_ok J _ H).
  - intros x c H. rewrite Hd. rewrite Em in H. rewrite (nth_upd _ _ _ _ Eb) in H. destruct (Nat.eqb_spec o x) as [<-|N].
    + injection H as <-. rewrite Al'. rewrite (i_del J _ Eb), Al. auto.
    + apply (i_del J _ H).
  - intros x H. rewrite Hl in H. rewrite Hd. destruct (i_del0 J H) as [A B]. split; auto.
    intros i. rewrite Hb by lia. auto.
  - intros x H. rewrite Hl in H. rewrite El. apply in_app_iff. right; right. apply (i_new J H).
  - intros x H. rewrite Hl. unfold created in H. rewrite El in H. apply in_app_iff in H. destruct H as [H|[H|H]].
    + destruct Hes as [-> |[(j & -> & _)|[(j & ->)|(j & ->)]]]; simpl in H; try tauto; destruct H as [H|H]; try discriminate; tauto.
    + discriminate.
    + apply (i_new' J _ H).
  - intros x c i H Hi. rewrite Em in H. rewrite (nth_upd _ _ _ _ Eb) in H. destruct (Nat.eqb_spec o x) as [<-|N].
    + injection H as <-. auto.
    + rewrite Hb by auto. apply (i_bit J _ H Hi).
  - intros x i r l1 l2 H. rewrite El in H.
    destruct Hes as [-> |[(j & -> & Hj)|[(j & ->)|(j & ->)]]]; simpl in H.
    + destruct l2; simpl in H; [discriminate|]. injection H as _ H. eapply (i_isset J); exact H.
    + destruct l2; simpl in H.
      * injection H as <- <- <- <-. simpl. apply (i_bit J _ Eb Hj).
      * injection H as _ H. destruct l2; simpl in H; [discriminate|]. injection H as _ H. eapply (i_isset J); exact H.
    + destruct l2; simpl in H; [discriminate|]. injection H as _ H. destruct l2; simpl in H; [discriminate|].
      injection H as _ H. eapply (i_isset J); exact H.
    + destruct l2; simpl in H; [discriminate|]. injection H as _ H. destruct l2; simpl in H; [discriminate|].
      injection H as _ H. eapply (i_isset J); exact H.
Qed.

Ltac sl H := rewrite (sumz_upd _ _ _ _ H).
Ltac neq := repeat match goal with |- context [?a =? ?b] => destruct (Nat.eqb_spec a b); try congruence; subst end; try lia.

(** the deletion *)
Lemma inv_delete s t o b : inv s -> nth_error (thr s) t = Some (Del o) -> nth_error (mem s) o = Some b ->
  inv (ev (w_thr (ev (w_mem s (upd (mem s) o (kill b))) (EAccess o (alive b))) t Idle) (EDelete o)).
Proof.
  intros J Ht Eb. destruct (held_del _ J Ht) as (b0 & E0 & Al & Mn & A & B & C & D).
  rewrite Eb in E0. injection E0 as <-. rewrite Al.
  assert (Ho : o < length (mem s)) by (apply nth_error_Some; congruence).
  assert (X : forall x, sumz (wd x) (upd (thr s) t Idle) = sumz (wd x) (thr s)).
  { intros x. sl Ht. simpl. lia. }
  assert (Y : forall x, sumz (wl x) (upd (thr s) t Idle) = (sumz (wl x) (thr s) - if Nat.eqb o x then 1 else 0)%Z).
  { intros x. sl Ht. simpl. lia. }
  constructor; simpl.
  - intros x c H. rewrite X, Y. rewrite (nth_upd _ _ _ _ Eb) in H. destruct (Nat.eqb_spec o x) as [<-|N].
    + injection H as <-. unfold okb. simpl. lia.
    + pose proof (i_obj J _ H). rewrite Z.sub_0_r. auto.
  - intros x H. rewrite upd_length in H. destruct (i_none J H) as (? & ? & ?). rewrite X, Y. neq.
  - intros x [H|[H|H]]; try discriminate. apply (i_ok J _ H).
  - intros x c H. rewrite !deletions_cons. rewrite (nth_upd _ _ _ _ Eb) in H. destruct (Nat.eqb_spec o x) as [<-|N].
    + injection H as <-. simpl. rewrite (i_del J _ Eb), Al. auto.
    + rewrite (i_del J _ H). auto.
  - intros x H. rewrite upd_length in H. destruct (i_del0 J H) as [P Q]. rewrite !deletions_cons. split; [|auto].
    destruct (Nat.eqb_spec o x); [lia|]. lia.
  - intros x H. rewrite upd_length in H. right; right. apply (i_new J H).
  - intros x [H|[H|H]]; try discriminate. rewrite upd_length. apply (i_new' J _ H).
  - intros x c i H Hi. rewrite (nth_upd _ _ _ _ Eb) in H. destruct (Nat.eqb_spec o x) as [<-|N].
    + injection H as <-. simpl. apply (i_bit J _ Eb Hi).
    + apply (i_bit J _ H Hi).
  - intros x i r l1 l2 H. destruct l2; simpl in H; [discriminate|]. injection H as _ H.
    destruct l2; simpl in H; [discriminate|]. injection H as _ H. eapply (i_isset J); exact H.
Qed.

(** the creation *)
Lemma inv_make s x : inv s -> nth_error (slots s) x = Some None ->
  inv (ev (w_slot (w_mem s (mem s ++ [{| bits := increment; alive := true; man := 0 |}])) x (Some (length (mem s))))
          (ENew (length (mem s)))).
Proof.
  intros J Hx. set (n := length (mem s)).
  assert (Y : forall o, sumz (ws o) (upd (slots s) x (Some n)) = (sumz (ws o) (slots s) + if Nat.eqb n o then 1 else 0)%Z).
  { intros o. sl Hx. simpl. lia. }
  destruct (i_none J (le_n n)) as (A & B & C).
  assert (Hn : forall o c, nth_error (mem s ++ [{| bits := increment; alive := true; man := 0 |}]) o = Some c ->
    (o <> n /\ nth_error (mem s) o = Some c) \/ (o = n /\ c = {| bits := increment; alive := true; man := 0 |})).
  { intros o c H. destruct (Nat.lt_ge_cases o n) as [L|L].
    - rewrite nth_error_app1 in H by auto. left; split; auto; lia.
    - rewrite nth_error_app2 in H by auto. fold n in H. destruct (o - n) as [|k] eqn:E; simpl in H.
      + injection H as <-. right; split; auto; lia.
      + destruct k; discriminate. }
  constructor; simpl.
  - intros o c H. rewrite Y. destruct (Hn _ _ H) as [[N H']|[-> ->]].
    + destruct (Nat.eqb_spec n o); [congruence|]. rewrite Z.add_0_r. apply (i_obj J _ H').
    + rewrite Nat.eqb_refl, A, B, C. unfold okb; simpl. split; [|reflexivity].
      replace increment with (0 + increment)%N by lia. rewrite count_inc.
      unfold IntrusivePtrModel.count. rewrite N.div_0_l; [reflexivity|]. pose proof inc_pos. lia.
  - intros o H. rewrite app_length in H. simpl in H. fold n in H. assert (L : length (mem s) <= o) by (unfold n in *; lia).
    destruct (i_none J L) as (? & ? & ?). rewrite Y. destruct (Nat.eqb_spec n o); [lia|]. lia.
  - intros o [H|H]; [discriminate|]. apply (i_ok J _ H).
  - intros o c H. rewrite deletions_cons. destruct (Hn _ _ H) as [[N H']|[-> ->]].
    + apply (i_del J _ H').
    + simpl. apply (i_del0 J (le_n n)).
  - intros o H. rewrite app_length in H. simpl in H. rewrite deletions_cons. simpl. apply (i_del0 J). lia.
  - intros o H. rewrite app_length in H. simpl in H. destruct (Nat.eq_dec o n) as [->|N]; [left; auto|].
    right. apply (i_new J). unfold n in *. lia.
  - intros o H. rewrite app_length. simpl. destruct H as [H|H]; [injection H as <-; lia|]. pose proof (i_new' J _ H). lia.
  - intros o c i H Hi. destruct (Hn _ _ H) as [[N H']|[-> ->]].
    + apply (i_bit J _ H' Hi).
    + destruct (i_del0 J (le_n n)) as [_ Q]. simpl. rewrite Q. apply bit_low_inc. auto.
  - intros o i r l1 l2 H. destruct l2; simpl in H; [discriminate|]. injection H as _ H. eapply (i_isset J); exact H.
Qed.

Lemma upd_upd_swap s x y (d d' : option obj) o : nth_error (slots s) x = Some d -> nth_error (slots s) y = Some d' ->
  sumz (ws o) (upd (upd (slots s) x d') y d) = sumz (ws o) (slots s).
Proof.
  intros Hx Hy. assert (H : nth_error (upd (slots s) x d') y = Some (if x =? y then d' else d')).
  { rewrite (nth_upd _ _ _ _ Hx). destruct (Nat.eqb_spec x y); auto. }
  replace (if x =? y then d' else d') with d' in H by (destruct (x =? y); auto).
  sl H. sl Hx. lia.
Qed.

(** steps that move a reference between a variable, a thread and the client's own references *)
Lemma inv_quiet s s' o b k : inv s -> nth_error (mem s) o = Some b ->
  mem s' = upd (mem s) o (set_man (fun _ => k) b) -> log s' = log s ->
  (forall o', o' <> o -> sumz (ws o') (slots s') + sumz (wd o') (thr s') = sumz (ws o') (slots s) + sumz (wd o') (thr s))%Z ->
  (Z.of_nat k + sumz (ws o) (slots s') + sumz (wd o) (thr s') =
   Z.of_nat (man b) + sumz (ws o) (slots s) + sumz (wd o) (thr s))%Z ->
  (forall o', sumz (wl o') (thr s') = sumz (wl o') (thr s)) ->
  inv s'.
Proof.
  intros J Eb Em El E1 E2 E3.
  assert (Hl : length (mem s') = length (mem s)) by (rewrite Em, upd_length; auto).
  assert (Hn : forall x c, nth_error (mem s') x = Some c ->
    (x <> o /\ nth_error (mem s) x = Some c) \/ (x = o /\ c = set_man (fun _ => k) b)).
  { intros x c H. rewrite Em, (nth_upd _ _ _ _ Eb) in H. destruct (Nat.eqb_spec o x) as [<-|N]; [|auto].
    injection H as <-. auto. }
  assert (Ho : o < length (mem s)) by (apply nth_error_Some; congruence).
  constructor; rewrite ?Hl, ?El; try apply J.
  - intros x c H. rewrite E3. destruct (Hn _ _ H) as [[N H']|[-> ->]].
    + pose proof (i_obj J _ H') as K. specialize (E1 x N).
      replace (Z.of_nat (man c) + sumz (ws x) (slots s') + sumz (wd x) (thr s'))%Z
        with (Z.of_nat (man c) + sumz (ws x) (slots s) + sumz (wd x) (thr s))%Z by lia. auto.
    + pose proof (i_obj J _ Eb) as K. simpl man. rewrite E2. auto.
  - intros x H. destruct (i_none J H) as (A & B & C).
    pose proof (sumz_nonneg (ws x) (slots s') (ws_nn x)). pose proof (sumz_nonneg (wd x) (thr s') (wd_nn x)).
    specialize (E1 x). rewrite E3. lia.
  - intros x c H. destruct (Hn _ _ H) as [[N H']|[-> ->]]; [apply (i_del J _ H')|]. simpl. apply (i_del J _ Eb).
  - intros x c i H Hi. destruct (Hn _ _ H) as [[N H']|[-> ->]]; [apply (i_bit J _ H' Hi)|]. simpl. apply (i_bit J _ Eb Hi).
Qed.

Lemma inv_step a s s' : inv s -> step a s = Some s' -> inv s'.
Proof.
  intros J H. destruct a; simpl in H.
  - (* make *) destruct (nth_error (slots s) x) as [[?|]|] eqn:Ex; try discriminate. injection H as <-. apply inv_make; auto.
  - (* copy *) destruct (nth_error (slots s) x) as [[?|]|] eqn:Ex; try discriminate.
    destruct (nth_error (slots s) y) as [[o|]|] eqn:Ey; try discriminate.
    + destruct (held_slot _ J Ey) as (b & Eb & Al & Pc). unfold inc_ref, access in H. rewrite Eb in H. simpl in H.
      rewrite Al in H. injection H as <-.
      eapply inv_access with (b' := set_bits (fun b => b + increment)%N b) (es := []); eauto; simpl.
      * intros o' N. sl Ex. simpl. neq.
      * rewrite count_inc. sl Ex. simpl. rewrite Nat.eqb_refl. lia.
      * pose proof (i_obj J _ Eb) as K. unfold okb in K. rewrite Al in K. destruct K as [K1 K2]. rewrite K2, <- K1, count_inc.
        destruct (Z.eqb_spec (Z.of_N (count (bits b))) 0); [lia|]. destruct (Z.eqb_spec (Z.of_N (count (bits b) + 1)) 0); lia.
      * intros i Hi. unfold bit. rewrite bit_inc by auto. apply (i_bit J _ Eb Hi).
    + injection H as <-; auto.
  - (* move *) destruct (nth_error (slots s) x) as [[?|]|] eqn:Ex; try discriminate.
    destruct (nth_error (slots s) y) as [d|] eqn:Ey; try discriminate. injection H as <-.
    apply inv_slots with (s := s); auto; simpl; intros o.
    rewrite (upd_upd_swap s y x o Ey Ex). auto.
  - (* assign copy *) destruct (nth_error (thr s) t) as [[| |]|] eqn:Et; try discriminate.
    destruct (nth_error (slots s) x) as [old|] eqn:Ex; try discriminate.
    destruct (nth_error (slots s) y) as [[o|]|] eqn:Ey; try discriminate.
    + destruct (held_slot _ J Ey) as (b & Eb & Al & Pc). unfold inc_ref, access in H. rewrite Eb in H. simpl in H.
      rewrite Al in H. injection H as <-.
      eapply inv_access with (b' := set_bits (fun b => b + increment)%N b) (es := []); eauto; simpl.
      * destruct old; auto.
      * destruct old; auto.
      * intros o' N. destruct old; simpl; sl Ex; try sl Et; simpl; neq.
      * intros o' N. destruct old; simpl; try sl Et; simpl; neq.
      * rewrite count_inc. destruct old; simpl; sl Ex; try sl Et; simpl; rewrite ?Nat.eqb_refl; neq.
      * pose proof (i_obj J _ Eb) as K. unfold okb in K. rewrite Al in K. destruct K as [K1 K2].
        replace (sumz (wl o) (thr (drop _ t old))) with (sumz (wl o) (thr s)) by (destruct old; simpl; try sl Et; simpl; lia).
        rewrite K2, <- K1, count_inc.
        destruct (Z.eqb_spec (Z.of_N (count (bits b))) 0); [lia|]. destruct (Z.eqb_spec (Z.of_N (count (bits b) + 1)) 0); lia.
      * intros i Hi. unfold bit. rewrite bit_inc by auto. destruct old; simpl; apply (i_bit J _ Eb Hi).
    + injection H as <-. apply inv_slots with (s := s); auto; try (destruct old; reflexivity); intros o;
      destruct old; simpl; try sl Ex; try sl Et; simpl; neq.
  - (* assign move *) destruct (nth_error (thr s) t) as [[| |]|] eqn:Et; try discriminate.
    destruct (nth_error (slots s) x) as [old|] eqn:Ex; try discriminate.
    destruct (nth_error (slots s) y) as [d|] eqn:Ey; try discriminate.
    destruct (nth_error (upd (slots s) y None) x) as [old'|] eqn:Ex'; try discriminate. injection H as <-.
    apply inv_slots with (s := s); auto; try (destruct old'; reflexivity); intros o;
    destruct old'; simpl; try sl Ex'; try sl Ey; try sl Et; simpl; neq.
  - (* destroy *) destruct (nth_error (thr s) t) as [[| |]|] eqn:Et; try discriminate.
    destruct (nth_error (slots s) x) as [old|] eqn:Ex; try discriminate. injection H as <-.
    apply inv_slots with (s := s); auto; try (destruct old; reflexivity); intros o;
    destruct old; simpl; try sl Ex; try sl Et; simpl; neq.
  - (* swap *) destruct (nth_error (slots s) x) as [d|] eqn:Ex; try discriminate.
    destruct (nth_error (slots s) y) as [d'|] eqn:Ey; try discriminate. injection H as <-.
    apply inv_slots with (s := s); auto; simpl; intros o. rewrite (upd_upd_swap s x y o Ex Ey). auto.
  - (* release *) destruct (nth_error (slots s) x) as [[o|]|] eqn:Ex; try discriminate.
    destruct (nth_error (mem s) o) as [b|] eqn:Eb; try discriminate. injection H as <-.
    apply inv_quiet with (s := s) (o := o) (b := b) (k := S (man b)); auto; simpl.
    + intros x' N. sl Ex. simpl. neq.
    + sl Ex. simpl. rewrite Nat.eqb_refl. lia.
  - (* inc *) destruct (nth_error (slots s) y) as [[o|]|] eqn:Ey; try discriminate.
    destruct (held_slot _ J Ey) as (b & Eb & Al & Pc). unfold access in H. rewrite Eb in H. simpl in H.
    rewrite Al in H. injection H as <-.
    eapply inv_access with (b' := set_man S (set_bits (fun b => b + increment)%N b)) (es := []); eauto; simpl.
    + rewrite count_inc. lia.
    + pose proof (i_obj J _ Eb) as K. unfold okb in K. rewrite Al in K. destruct K as [K1 K2]. rewrite K2, <- K1, count_inc.
      destruct (Z.eqb_spec (Z.of_N (count (bits b))) 0); [lia|]. destruct (Z.eqb_spec (Z.of_N (count (bits b) + 1)) 0); lia.
    + intros i Hi. unfold bit. rewrite bit_inc by auto. apply (i_bit J _ Eb Hi).
  - (* dec *) destruct (nth_error (thr s) t) as [[| |]|] eqn:Et; try discriminate.
    destruct (nth_error (mem s) o) as [b|] eqn:Eb; try discriminate.
    destruct (man b) as [|k] eqn:Em; try discriminate. injection H as <-.
    apply inv_quiet with (s := s) (o := o) (b := b) (k := k); auto; simpl.
    + intros x' N. sl Et. simpl. neq.
    + sl Et. simpl. rewrite Nat.eqb_refl. lia.
    + intros x'. sl Et. simpl. lia.
  - (* set bit *) destruct (nth_error (slots s) y) as [[o|]|] eqn:Ey; try discriminate.
    destruct (N.ltb_spec b R) as [L|L]; try discriminate.
    destruct (held_slot _ J Ey) as (k & Eb & Al & Pc). unfold access in H. rewrite Eb in H. simpl in H.
    rewrite Al in H. injection H as <-.
    eapply inv_access with (b' := set_bits (fun v => N.lor v (2 ^ b)) k) (es := [ESet o b]); eauto; simpl.
    + rewrite count_set by auto. lia.
    + pose proof (i_obj J _ Eb) as K. unfold okb in K. rewrite Al in K. destruct K as [K1 K2]. rewrite K2, <- K1, count_set; auto.
    + intros i Hi. unfold bit. rewrite bit_set, Nat.eqb_refl. simpl. destruct (b =? i)%N; auto. apply (i_bit J _ Eb Hi).
  - (* clear bit *) destruct (nth_error (slots s) y) as [[o|]|] eqn:Ey; try discriminate.
    destruct (N.ltb_spec b R) as [L|L]; try discriminate.
    destruct (held_slot _ J Ey) as (k & Eb & Al & Pc). unfold access in H. rewrite Eb in H. simpl in H.
    rewrite Al in H. injection H as <-.
    eapply inv_access with (b' := set_bits (fun v => N.ldiff v (2 ^ b)) k) (es := [EClear o b]); eauto; simpl.
    + rewrite count_clear by auto. lia.
    + pose proof (i_obj J _ Eb) as K. unfold okb in K. rewrite Al in K. destruct K as [K1 K2]. rewrite K2, <- K1, count_clear; auto.
    + intros i Hi. unfold bit. rewrite bit_clear, Nat.eqb_refl. simpl. destruct (b =? i)%N; auto. apply (i_bit J _ Eb Hi).
  - (* is set *) destruct (nth_error (slots s) y) as [[o|]|] eqn:Ey; try discriminate.
    destruct (N.ltb_spec b R) as [L|L]; try discriminate.
    destruct (held_slot _ J Ey) as (k & Eb & Al & Pc). unfold access in H. rewrite Eb in H. simpl in H.
    rewrite Al in H. injection H as <-.
    eapply inv_access with (b' := k) (es := [EIsSet o b (bit b (bits k))]); eauto; simpl.
    + lia.
    + pose proof (i_obj J _ Eb) as K. unfold okb in K. rewrite Al in K. destruct K as [K1 K2]. rewrite K2, <- K1; auto.
    + intros i Hi. apply (i_bit J _ Eb Hi).
  - (* thread step *) destruct (nth_error (thr s) t) as [[|o|o]|] eqn:Et; try discriminate.
    + destruct (held_dec _ J Et) as (b & Eb & Al & Pc). unfold access in H. rewrite Eb in H. simpl in H.
      rewrite Al in H. injection H as <-.
      assert (Pc' : (0 < count (bits b))%N) by lia.
      eapply inv_access with (b' := set_bits (fun v => v - increment)%N b) (es := []); eauto; simpl.
      * intros o' N. sl Et. destruct (count (bits b) =? 1)%N; simpl; neq.
      * intros o' N. sl Et. destruct (count (bits b) =? 1)%N; simpl; neq.
      * rewrite count_dec by auto. sl Et. destruct (count (bits b) =? 1)%N; simpl; rewrite ?Nat.eqb_refl; lia.
      * pose proof (i_obj J _ Eb) as K. unfold okb in K. rewrite Al in K. destruct K as [K1 K2].
        rewrite count_dec by auto. sl Et. rewrite K2, <- K1.
        destruct (Z.eqb_spec (Z.of_N (count (bits b))) 0); [lia|].
        destruct (N.eqb_spec (count (bits b)) 1); destruct (Z.eqb_spec (Z.of_N (count (bits b) - 1)) 0);
        simpl; rewrite ?Nat.eqb_refl; lia.
      * intros i Hi. unfold bit. rewrite bit_dec by auto. apply (i_bit J _ Eb Hi).
    + destruct (nth_error (mem s) o) as [b|] eqn:Eb; try discriminate. unfold access in H. rewrite Eb in H. simpl in H.
      injection H as <-. apply inv_delete; auto.
Qed.

Lemma inv_reach s : reachable s -> inv s.
Proof.
  induction 1 as [k n|s a s' Hr IH Hs]; [|eapply inv_step; eauto].
  constructor; simpl; try tauto.
  - intros [|o] b; discriminate.
  - intros o _. rewrite !sumz_repeat by reflexivity. auto.
  - intros [|o] b; discriminate.
  - intros o L. lia.
  - intros o [].

  - intros [|o] b i; discriminate.
  - intros o i r l1 [|]; discriminate.
Qed.

(** ** The theorems *)
Lemma cnt_ws o l : Z.of_nat (cnt (points_to o) l) = sumz (ws o) l.
Proof. induction l as [|[x|] l IH]; simpl; auto. destruct (x =? o); rewrite ?Nat2Z.inj_add, IH; auto. Qed.
Lemma cnt_wd o l : Z.of_nat (cnt (releasing o) l) = sumz (wd o) l.
Proof. induction l as [|[|x|x] l IH]; simpl; auto. destruct (x =? o); rewrite ?Nat2Z.inj_add, IH; auto. Qed.

(** no access to a control block happens after its deletion, for every number of threads, variables
    and interleaving *)
Theorem C43_no_access_after_deletion s o : reachable s -> ~ In (EAccess o false) (log s).
Proof. intros H. apply (i_ok (inv_reach H)). Qed.

(** an object is deleted at most once *)
Theorem C43_deleted_at_most_once s o : reachable s -> deletions o (log s) <= 1.
Proof.
  intros H. pose proof (inv_reach H) as J. destruct (nth_error (mem s) o) as [b|] eqn:E.
  - rewrite (i_del J _ E). destruct (alive b); lia.
  - apply nth_error_None in E. destruct (i_del0 J E). lia.
Qed.

(** while any reference exists (a pointer variable, a reference held without one, or one being given
    up) the object is not deleted *)
Theorem C43_not_deleted_while_referenced s o : reachable s -> 0 < references s o -> deletions o (log s) = 0.
Proof.
  intros H G. pose proof (inv_reach H) as J. unfold references in G. pose proof (cnt_ws o (slots s)) as A.
  pose proof (cnt_wd o (thr s)) as B. destruct (nth_error (mem s) o) as [b|] eqn:E.
  - rewrite (i_del J _ E). pose proof (i_obj J _ E) as K. unfold okb in K. destruct (alive b); auto. lia.
  - apply nth_error_None in E. destruct (i_del0 J E). lia.
Qed.

(** no leak: an object that was made and has no reference left is deleted, or a thread is just doing so *)
Theorem C43_no_leak s o : reachable s -> created o (log s) -> references s o = 0 ->
  deletions o (log s) = 1 \/ exists t, nth_error (thr s) t = Some (Del o).
Proof.
  intros H Hc G. pose proof (inv_reach H) as J. unfold references in G. pose proof (cnt_ws o (slots s)) as A.
  pose proof (cnt_wd o (thr s)) as B. destruct (nth_error (mem s) o) as [b|] eqn:E.
  - rewrite (i_del J _ E). pose proof (i_obj J _ E) as K. unfold okb in K. destruct (alive b); auto. right.
    destruct K as [K1 K2].
    destruct (Z.eqb_spec (Z.of_nat (man b) + sumz (ws o) (slots s) + sumz (wd o) (thr s)) 0); [|lia].
    destruct (@sumz_pos_ex _ (wl o) (thr s)) as (t & p & Ht & Hp); [lia|].
    destruct p as [|x|x]; simpl in Hp; try lia. destruct (Nat.eqb_spec x o) as [->|]; [eauto|lia].
  - apply nth_error_None in E. pose proof (i_new' J _ Hc). lia.
Qed.

Theorem C43_no_leak_idle s o : reachable s -> created o (log s) -> (forall t p, nth_error (thr s) t = Some p -> p = Idle) ->
  references s o = 0 -> deletions o (log s) = 1.
Proof.
  intros H Hc Hi G. destruct (C43_no_leak _ H Hc G) as [|(t & Ht)]; auto. specialize (Hi _ _ Ht). discriminate.
Qed.

(** the part of the word above the reserved bits is the number of references, and the reserved bits are
    what the last __set_bit/__clear_bit made them, whatever the reference counting does *)
Theorem C43_word s o b : reachable s -> nth_error (mem s) o = Some b -> alive b = true ->
  count (bits b) = N.of_nat (references s o) /\
  forall i, (i < R)%N -> bit i (bits b) = bit_of o i (log s).
Proof.
  intros H E Al. pose proof (inv_reach H) as J. split.
  - pose proof (i_obj J _ E) as K. unfold okb in K. rewrite Al in K. unfold references. rewrite E.
    pose proof (cnt_ws o (slots s)). pose proof (cnt_wd o (thr s)). lia.
  - intros i Hi. apply (i_bit J _ E Hi).
Qed.

(** __is_set returns what the last __set_bit/__clear_bit of this bit of this object made it *)
Theorem C43_is_set s o i r l1 l2 : reachable s -> log s = l2 ++ EIsSet o i r :: l1 -> r = bit_of o i l1.
Proof. intros H E. eapply (i_isset (inv_reach H)). exact E. Qed.

(** a thread giving up a reference is never blocked *)
Theorem C43_progress s t p : reachable s -> nth_error (thr s) t = Some p -> p <> Idle ->
  exists s', step (AGo t) s = Some s'.
Proof.
  intros H E N. pose proof (inv_reach H) as J. simpl. rewrite E. unfold access. destruct p as [|o|o]; [congruence| |].
  - destruct (held_dec _ J E) as (b & Eb & _). rewrite Eb. simpl. eauto.
  - destruct (held_del _ J E) as (b & Eb & _). rewrite Eb. simpl. eauto.
Qed.

End Params.

(** ** Concrete runs *)
Fixpoint runs (R : N) (l : list action) (s : state) : option state :=
  match l with [] => Some s | a :: l => match step R a s with Some s' => runs R l s' | None => None end end.
Lemma runs_reach R l s s' : reachable R s -> runs R l s = Some s' -> reachable R s'.
Proof.
  revert s. induction l as [|a l IH]; simpl; intros s Hr H; [congruence|].
  destruct (step R a s) eqn:E; [|discriminate]. eapply IH; [|eauto]. econstructor; eauto.
Qed.

(** two threads drop the last two references concurrently while one reserved bit is set: one deletion *)
Definition demo : list action :=
  [AMake 0; ACopy 1 0; ASetBit 1 1; AAssignCopy 0 1 1; AGo 0; AIsSet 0 1; AIsSet 0 0;
   ADestroy 0 0; ADestroy 1 1; AGo 1; AGo 0; AGo 0].
Example demo_log : option_map log (runs 2 demo (init 2 2)) =
  Some [EDelete 0; EAccess 0 true; EAccess 0 true; EAccess 0 true; EIsSet 0 0 false; EAccess 0 true; EIsSet 0 1 true; EAccess 0 true;
        EAccess 0 true; EAccess 0 true; ESet 0 1; EAccess 0 true; EAccess 0 true; ENew 0].
Proof. vm_compute. reflexivity. Qed.
Example demo_hyp : exists s, reachable 2 s /\ created 0 (log s) /\ references s 0 = 0 /\ deletions 0 (log s) = 1 /\
  exists s1, reachable 2 s1 /\ 0 < references s1 0 /\ 
    exists b, nth_error (mem s1) 0 = Some b /\ alive b = true /\ bits b = 10%N.
Proof.
  destruct (runs 2 demo (init 2 2)) as [s|] eqn:E; [|vm_compute in E; discriminate].
  destruct (runs 2 [AMake 0; ACopy 1 0; ASetBit 1 1] (init 2 2)) as [s1|] eqn:E1; [|vm_compute in E1; discriminate].
  exists s. split; [eapply runs_reach; [constructor|eauto]|].
  vm_compute in E. injection E as <-. split; [vm_compute; tauto|]. split; [reflexivity|]. split; [reflexivity|].
  exists s1. split; [eapply runs_reach; [constructor|eauto]|].
  vm_compute in E1. injection E1 as <-. split; [vm_compute; auto|]. eexists. split; [reflexivity|]. split; reflexivity.
Qed.

Print Assumptions C43_no_access_after_deletion.
Print Assumptions C43_deleted_at_most_once.
Print Assumptions C43_not_deleted_while_referenced.
Print Assumptions C43_no_leak.
Print Assumptions C43_no_leak_idle.
Print Assumptions C43_word.
Print Assumptions C43_is_set.
Print Assumptions C43_progress.
