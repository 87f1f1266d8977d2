(** C73: owners of file descriptors and mapped memory (exec::safe_file_descriptor, exec::memory_mapped_region). *)
From Coq Require Import List ZArith Bool Arith Lia.
From Verif Require Import Conc HandleModel.
Import ListNotations.
Set Implicit Arguments.
Open Scope Z_scope.

(** ** Specification, over the system calls only (newest first) *)

(** Every close or unmap releases something that is open, that the same party opened, and with the length it was opened with. *)
Fixpoint proper (l : list ev) : Prop :=
  match l with
  | [] => True
  | EOpen k v n f :: r => holder r k v = None /\ proper r
  | EClose k v n f :: r => holder r k v = Some (n, f) /\ proper r
  end.

(** The one use the classes do not guard against: handing an object's raw descriptor to reset. *)
Definition usual (a : label) : Prop := match a with LResetOf _ _ => False | _ => True end.

(** ** Invariant *)
Record inv (s : st) : Prop := {
  i_proper : proper (log s);
  i_held : forall i o, slots s i = Some o -> isset o = true -> holder (log s) (okind o) (oval o) = Some (osize o, false);
  i_own : forall k v n, holder (log s) k v = Some (n, false) -> exists i, slots s i = Some (mko k v n) /\ isset (mko k v n) = true;
  i_uniq : forall i j o p, slots s i = Some o -> slots s j = Some p -> isset o = true -> okind o = okind p -> oval o = oval p -> i = j
}.

Lemma keqb_eq a b : keqb a b = true <-> a = b.
Proof. destruct a, b; simpl; split; congruence. Qed.
Lemma fset_eq A (f : nat -> A) i x : fset f i x i = x.
Proof. unfold fset. now rewrite Nat.eqb_refl. Qed.
Lemma fset_ne A (f : nat -> A) i j x : i <> j -> fset f i x j = f j.
Proof. unfold fset. intros N. destruct (Nat.eqb_spec j i); congruence. Qed.

Lemma key_dec (k k' : kind) (v v' : Z) : keqb k' k && (v' =? v) = true <-> k' = k /\ v' = v.
Proof. rewrite andb_true_iff, keqb_eq, Z.eqb_eq. tauto. Qed.

Lemma holder_open_same k v n f l : holder (EOpen k v n f :: l) k v = Some (n, f).
Proof. simpl. replace (keqb k k && (v =? v)) with true; auto. symmetry; apply key_dec; auto. Qed.
Lemma holder_close_same k v n f l : holder (EClose k v n f :: l) k v = None.
Proof. simpl. replace (keqb k k && (v =? v)) with true; auto. symmetry; apply key_dec; auto. Qed.
Lemma holder_open_other k v n f l k' v' : ~ (k = k' /\ v = v') -> holder (EOpen k v n f :: l) k' v' = holder l k' v'.
Proof. simpl. intros N. destruct (keqb k k' && (v =? v')) eqn:E; auto. apply key_dec in E; tauto. Qed.
Lemma holder_close_other k v n f l k' v' : ~ (k = k' /\ v = v') -> holder (EClose k v n f :: l) k' v' = holder l k' v'.
Proof. simpl. intros N. destruct (keqb k k' && (v =? v')) eqn:E; auto. apply key_dec in E; tauto. Qed.

Lemma kv_dec (k k' : kind) (v v' : Z) : {k = k' /\ v = v'} + {~ (k = k' /\ v = v')}.
Proof. destruct (Z.eq_dec v v'), k, k'; subst; try (left; auto; fail); right; intros [? ?]; congruence. Qed.

Lemma isset_empty k : isset (empty k) = false.
Proof. destruct k; reflexivity. Qed.

Lemma mayopen_spec l k v : mayopen l k v = true -> v <> -1 /\ v <> null k /\ holder l k v = None.
Proof.
  unfold mayopen. rewrite !andb_true_iff, !negb_true_iff, !Z.eqb_neq. intros [[A B] C].
  destruct (holder l k v); try discriminate. auto.
Qed.

(** Replacing place i, whose resource (if any) was dropped, by an object that holds nothing. *)
Lemma inv_drop s i o e :
  inv s -> slots s i = Some o -> (e = None \/ exists p, e = Some p /\ isset p = false) ->
  inv (put s i e (drop o (log s))).
Proof.
  intros I H He. destruct I as [I1 I2 I3 I4].
  assert (NE : forall j p, fset (slots s) i e j = Some p -> isset p = true -> j <> i /\ slots s j = Some p).
  { intros j p Hj S. destruct (Nat.eq_dec j i) as [->|N].
    - rewrite fset_eq in Hj. destruct He as [->|(q & -> & Q)]; [discriminate|]. inversion Hj; subst. congruence.
    - rewrite fset_ne in Hj; auto. }
  unfold put, drop. destruct (isset o) eqn:So.
  - constructor; simpl slots; simpl log.
    + split; eauto.
    + intros j p Hj S. destruct (NE _ _ Hj S) as [N Hs].
      rewrite holder_close_other; [eauto|]. intros [A B]. apply N. symmetry. eapply I4; eauto.
    + intros k v n Hk. destruct (kv_dec (okind o) k (oval o) v) as [[<- <-]|N].
      { rewrite holder_close_same in Hk. discriminate. }
      rewrite holder_close_other in Hk; auto. destruct (I3 _ _ _ Hk) as (j & A & B). exists j. split; auto.
      rewrite fset_ne; auto. intros <-. apply N. rewrite A in H. inversion H; subst. auto.
    + intros j j' p p' A B S. destruct (NE _ _ A S) as [N A'].
      destruct (Nat.eq_dec j' i) as [->|N'].
      * rewrite fset_eq in B. destruct He as [->|(q & -> & Q)]; [discriminate|]. inversion B; subst.
        intros E1 E2. exfalso. unfold isset in *. rewrite <- E1, <- E2 in Q. congruence.
      * rewrite fset_ne in B; auto. intros. eapply I4; eauto.
  - constructor; simpl slots; simpl log; auto.
    + intros j p Hj S. destruct (NE _ _ Hj S). eauto.
    + intros k v n Hk. destruct (I3 _ _ _ Hk) as (j & A & B). exists j. split; auto.
      rewrite fset_ne; auto. intros <-. rewrite A in H. inversion H; subst. congruence.
    + intros j j' p p' A B S. destruct (NE _ _ A S) as [N A'].
      destruct (Nat.eq_dec j' i) as [->|N'].
      * rewrite fset_eq in B. destruct He as [->|(q & -> & Q)]; [discriminate|]. inversion B; subst.
        intros E1 E2. exfalso. unfold isset in *. rewrite <- E1, <- E2 in Q. congruence.
      * rewrite fset_ne in B; auto. intros. eapply I4; eauto.
Qed.

(** Filling an empty place with an object that holds nothing. *)
Lemma inv_fill s i p :
  inv s -> slots s i = None -> isset p = false -> inv (put s i (Some p) (log s)).
Proof.
  intros [I1 I2 I3 I4] H Sp.
  assert (NE : forall j q, fset (slots s) i (Some p) j = Some q -> isset q = true -> j <> i /\ slots s j = Some q).
  { intros j q Hj S. destruct (Nat.eq_dec j i) as [->|N].
    - rewrite fset_eq in Hj. inversion Hj; subst. congruence.
    - rewrite fset_ne in Hj; auto. }
  unfold put. constructor; simpl slots; simpl log; auto.
  - intros j q Hj S. destruct (NE _ _ Hj S). eauto.
  - intros k v n Hk. destruct (I3 _ _ _ Hk) as (j & A & B). exists j. split; auto.
    rewrite fset_ne; auto. congruence.
  - intros j j' q q' A B S E1 E2. destruct (NE _ _ A S) as [N A'].
    assert (S' : isset q' = true) by (unfold isset in *; rewrite <- E1, <- E2; auto).
    destruct (NE _ _ B S') as [N' B']. eauto.
Qed.

(** Opening a resource for a place that holds nothing. *)
Lemma inv_open s i k v n :
  inv s -> (slots s i = None \/ exists p, slots s i = Some p /\ isset p = false) -> mayopen (log s) k v = true ->
  inv (put s i (Some (mko k v n)) (EOpen k v n false :: log s)).
Proof.
  intros [I1 I2 I3 I4] H M. destruct (mayopen_spec _ _ _ M) as (M1 & M2 & M3).
  assert (Sv : isset (mko k v n) = true) by (unfold isset; simpl; apply negb_true_iff, Z.eqb_neq; auto).
  assert (NK : forall j q, slots s j = Some q -> isset q = true -> ~ (k = okind q /\ v = oval q)).
  { intros j q Hj S [-> ->]. rewrite (I2 _ _ Hj S) in M3. discriminate. }
  unfold put. constructor; simpl slots; simpl log.
  - split; auto.
  - intros j q Hj S. destruct (Nat.eq_dec j i) as [->|N].
    + rewrite fset_eq in Hj. inversion Hj; subst. apply holder_open_same.
    + rewrite fset_ne in Hj; auto. rewrite holder_open_other; eauto.
  - intros k' v' n' Hk. destruct (kv_dec k k' v v') as [[<- <-]|N].
    + rewrite holder_open_same in Hk. inversion Hk; subst. exists i. rewrite fset_eq. auto.
    + rewrite holder_open_other in Hk; auto. destruct (I3 _ _ _ Hk) as (j & A & B). exists j. split; auto.
      rewrite fset_ne; auto. intros <-. destruct H as [H|(p & H & Q)]; congruence.
  - intros j j' q q' A B S E1 E2. unfold fset in A, B.
    destruct (Nat.eqb_spec j i); destruct (Nat.eqb_spec j' i); subst; auto.
    + inversion A; subst. simpl in *. exfalso.
      assert (S' : isset q' = true) by (unfold isset in *; rewrite <- E1, <- E2; auto).
      eapply NK; eauto.
    + inversion B; subst. simpl in *. exfalso. eapply NK; eauto.
    + eauto.
Qed.

(** Handing over: the object at j goes to the place i, which holds nothing or does not exist; j keeps nothing. *)
Lemma inv_move s i j p :
  inv s -> (slots s i = None \/ exists q, slots s i = Some q /\ isset q = false) -> slots s j = Some p -> i <> j ->
  inv (mks (fset (fset (slots s) i (Some p)) j (Some (empty (okind p)))) (log s)).
Proof.
  intros [I1 I2 I3 I4] H Hj Nij.
  assert (NE : forall x q, fset (fset (slots s) i (Some p)) j (Some (empty (okind p))) x = Some q -> isset q = true ->
             (x = i /\ q = p) \/ (x <> i /\ x <> j /\ slots s x = Some q)).
  { intros x q Hx S. destruct (Nat.eq_dec x j) as [->|N].
    - rewrite fset_eq in Hx. inversion Hx; subst. rewrite isset_empty in S. discriminate.
    - rewrite fset_ne in Hx; auto. destruct (Nat.eq_dec x i) as [->|N'].
      + rewrite fset_eq in Hx. inversion Hx; auto.
      + rewrite fset_ne in Hx; auto. }
  constructor; simpl slots; simpl log; auto.
  - intros x q Hx S. destruct (NE _ _ Hx S) as [[-> ->]|(_ & _ & E)]; eauto.
  - intros k v n Hk. destruct (I3 _ _ _ Hk) as (x & A & B). destruct (Nat.eq_dec x j) as [->|N].
    + exists i. rewrite fset_ne; auto. rewrite fset_eq. split; congruence.
    + exists x. split; auto. rewrite fset_ne; auto. rewrite fset_ne; auto.
      intros <-. destruct H as [H|(q & H & Q)]; congruence.
  - intros x y q q' A B S E1 E2.
    assert (S' : isset q' = true) by (unfold isset in *; rewrite <- E1, <- E2; auto).
    destruct (NE _ _ A S) as [[-> ->]|(N1 & N2 & A')]; destruct (NE _ _ B S') as [[-> ->]|(N3 & N4 & B')]; auto.
    + exfalso. apply N4. symmetry. eapply I4; eauto.
    + exfalso. apply N2. eapply I4; eauto.
    + eauto.
Qed.

Lemma fset_fset A (f : nat -> A) i x y : forall j, fset (fset f i x) i y j = fset f i y j.
Proof. intros j. unfold fset. destruct (j =? i)%nat; auto. Qed.

Lemma inv_ext s s' : inv s -> (forall i, slots s' i = slots s i) -> log s' = log s -> inv s'.
Proof.
  intros [I1 I2 I3 I4] E L. constructor; rewrite ?L; auto.
  - intros i o H S. rewrite E in H. eauto.
  - intros k v n H. destruct (I3 _ _ _ H) as (i & A & B). exists i. rewrite E. auto.
  - intros i j o p A B. rewrite E in A, B. eauto.
Qed.

Lemma adopt_open k v n : v <> -1 -> adopt k v n = mko k v (lenof k n).
Proof. intros N. destruct k; simpl; auto. destruct (Z.eqb_spec v (-1)); congruence. Qed.

Lemma step_inv s a s' : inv s -> usual a -> step s a = Some s' -> inv s'.
Proof.
  intros I U H. destruct a; simpl in H, U.
  - destruct (slots s i) eqn:E; inversion H; subst. apply inv_fill; auto. apply isset_empty.
  - destruct (slots s i) eqn:E; [discriminate|]. destruct (mayopen (log s) k v) eqn:M; [|discriminate].
    inversion H; subst. rewrite adopt_open by (apply mayopen_spec in M; tauto). apply inv_open; auto.
  - destruct (slots s i) eqn:E; inversion H; subst. apply inv_fill; auto. destruct k; reflexivity.
  - destruct (slots s i) eqn:E; [discriminate|]. destruct (slots s j) eqn:E'; inversion H; subst.
    apply inv_move; auto. congruence.
  - destruct (slots s i) as [o|] eqn:E; [|discriminate]. destruct (slots s j) as [p|] eqn:E'; [|discriminate].
    destruct (keqb (okind o) (okind p)) eqn:K; [|discriminate]. apply keqb_eq in K.
    destruct (Nat.eqb_spec i j) as [->|N]; inversion H; subst; auto.
    assert (I' : inv (put s i (Some (empty (okind o))) (drop o (log s)))).
    { apply inv_drop; auto. right. exists (empty (okind o)). split; auto. apply isset_empty. }
    eapply inv_ext; [eapply (@inv_move _ i j p I')| |reflexivity]; auto.
    + right. exists (empty (okind o)). unfold put; simpl. rewrite fset_eq. split; auto. apply isset_empty.
    + unfold put; simpl. rewrite fset_ne; auto.
    + intros x. unfold put; simpl. unfold fset. destruct (x =? j)%nat; auto. destruct (x =? i)%nat; auto.
  - destruct (slots s i) as [o|] eqn:E; [|discriminate]. destruct o as [k w n]. destruct k; [|discriminate].
    destruct (mayopen (log s) Fd v) eqn:M; inversion H; subst.
    unfold drop. simpl okind in *; simpl oval in *; simpl osize in *. destruct (isset (mko Fd w n)) eqn:S.
    + (* the new descriptor is open before the old one is closed *)
      destruct (mayopen_spec _ _ _ M) as (M1 & M2 & M3).
      pose proof I as [I1 I2 I3 I4]. pose proof (I2 _ _ E S) as Hw. simpl in Hw.
      assert (Nwv : w <> v) by (intros ->; congruence).
      assert (Sv : isset (mko Fd v 0) = true) by (unfold isset; simpl; apply negb_true_iff, Z.eqb_neq; auto).
      assert (NE : forall x q, fset (slots s) i (Some (mko Fd v 0)) x = Some q ->
                (x = i /\ q = mko Fd v 0) \/ (x <> i /\ slots s x = Some q)).
      { intros x q Hx. unfold fset in Hx. destruct (Nat.eqb_spec x i); [left; inversion Hx; auto|right; auto]. }
      unfold put. constructor; simpl slots; simpl log.
      * simpl. destruct (v =? w) eqn:Q; [apply Z.eqb_eq in Q; congruence|]. auto.
      * intros x q Hx Sq. destruct (NE _ _ Hx) as [[-> ->]|[N Hq]].
        -- simpl okind; simpl oval; simpl osize. rewrite holder_close_other by (intros [_ ?]; congruence). apply holder_open_same.
        -- rewrite holder_close_other by (intros [A B]; apply N; symmetry; eapply I4; eauto).
           rewrite holder_open_other; [eauto|]. intros [A B]. specialize (I2 _ _ Hq Sq). rewrite <- A, <- B in I2. congruence.
      * intros k' v' n' Hk. destruct (kv_dec Fd k' w v') as [[<- <-]|N]; [rewrite holder_close_same in Hk; discriminate|].
        rewrite holder_close_other in Hk; auto. destruct (kv_dec Fd k' v v') as [[<- <-]|N'].
        -- rewrite holder_open_same in Hk. inversion Hk; subst. exists i. rewrite fset_eq. auto.
        -- rewrite holder_open_other in Hk; auto. destruct (I3 _ _ _ Hk) as (x & A & B). exists x. split; auto.
           rewrite fset_ne; auto. intros <-. apply N. rewrite A in E. inversion E; subst; auto.
      * intros x y q q' A B Sq E1 E2.
        assert (Sq' : isset q' = true) by (unfold isset in *; rewrite <- E1, <- E2; auto).
        destruct (NE _ _ A) as [[-> ->]|[N A']]; destruct (NE _ _ B) as [[-> ->]|[N' B']]; auto.
        -- exfalso. specialize (I2 _ _ B' Sq'). rewrite <- E1, <- E2 in I2. simpl in I2. congruence.
        -- exfalso. specialize (I2 _ _ A' Sq). rewrite E1, E2 in I2. simpl in I2. congruence.
        -- eauto.
    + apply inv_open; auto. right. eauto.
  - destruct (slots s i) as [o|] eqn:E; [|discriminate]. destruct o as [k w n]. destruct k; inversion H; subst.
    apply inv_drop; auto. right. eexists. split; eauto.
  - tauto.
  - destruct (slots s i) as [o|] eqn:E; inversion H; subst. apply inv_drop; auto.
  - destruct (mayopen (log s) k v) eqn:M; inversion H; subst.
    destruct (mayopen_spec _ _ _ M) as (M1 & M2 & M3). destruct I as [I1 I2 I3 I4].
    constructor; simpl slots; simpl log; auto.
    + split; auto.
    + intros x q Hx S. rewrite holder_open_other; [eauto|]. intros [-> ->]. rewrite (I2 _ _ Hx S) in M3. discriminate.
    + intros k' v' n' Hk. destruct (kv_dec k k' v v') as [[<- <-]|N].
      * rewrite holder_open_same in Hk. discriminate.
      * rewrite holder_open_other in Hk; auto.
  - destruct (holder (log s) k v) as [[n []]|] eqn:E; inversion H; subst.
    destruct I as [I1 I2 I3 I4]. constructor; simpl slots; simpl log; auto.
    + split; auto.
    + intros x q Hx S. rewrite holder_close_other; [eauto|]. intros [-> ->]. rewrite (I2 _ _ Hx S) in E. discriminate.
    + intros k' v' n' Hk. destruct (kv_dec k k' v v') as [[<- <-]|N].
      * rewrite holder_close_same in Hk. discriminate.
      * rewrite holder_close_other in Hk; auto.
Qed.

Lemma inv_init : inv init.
Proof. constructor; simpl; auto; intros; discriminate. Qed.

Lemma run_inv ls : forall s s', inv s -> (forall a, In a ls -> usual a) -> run s ls = Some s' -> inv s'.
Proof.
  induction ls as [|a ls IH]; intros s s' I U H; simpl in H; [inversion H; subst; auto|].
  destruct (step s a) eqn:E; [|discriminate].
  eapply IH; [eapply step_inv; eauto; apply U; left; auto | intros b Hb; apply U; right; auto | auto].
Qed.

(** ** Theorems *)

(** Whatever the program does with its objects - and whatever the rest of the process does with its own descriptors -
    every close and every munmap the objects make releases a resource they opened, once, and with its length. *)
Theorem handle_releases_once_partial ls s :
  (forall a, In a ls -> usual a) -> run init ls = Some s -> proper (log s).
Proof. intros U H. eapply i_proper, run_inv; eauto. apply inv_init. Qed.

(** While an object says it holds something, what it gives as native_handle()/data() and size() is open and is its own,
    and no other object holds it. *)
Theorem handle_valid_while_held_partial ls s i o :
  (forall a, In a ls -> usual a) -> run init ls = Some s ->
  slots s i = Some o -> isset o = true ->
  holder (log s) (okind o) (oval o) = Some (osize o, false) /\
  forall j p, slots s j = Some p -> okind p = okind o -> oval p = oval o -> j = i.
Proof.
  intros U H Hi S. pose proof (run_inv _ inv_init U H) as I. split; [eapply i_held; eauto|].
  intros j p Hj K V. symmetry. eapply i_uniq with (o := o); eauto.
Qed.

(** What was opened for the objects and is not released is held by one of them; so when none is left nothing leaks. *)
Theorem handle_no_leak_partial ls s :
  (forall a, In a ls -> usual a) -> run init ls = Some s ->
  (forall k v n, holder (log s) k v = Some (n, false) -> exists i, slots s i = Some (mko k v n)) /\
  ((forall i, slots s i = None) -> forall k v n, holder (log s) k v <> Some (n, false)).
Proof.
  intros U H. pose proof (run_inv _ inv_init U H) as I. split.
  - intros k v n Hk. destruct (i_own I _ _ Hk) as (i & A & _). eauto.
  - intros Z k v n Hk. destruct (i_own I _ _ Hk) as (i & A & _). rewrite Z in A. discriminate.
Qed.

(** Assigning an object to itself changes nothing and makes no system call; after any other assignment, and after a
    move construction, the target has what the source had and the source holds nothing. *)
Theorem handle_move i j s s' :
  step s (LAssign i j) = Some s' \/ step s (LMove i j) = Some s' ->
  (i = j -> slots s' = slots s /\ log s' = log s) /\
  (i <> j -> slots s' i = slots s j /\ exists p, slots s' j = Some p /\ isset p = false /\ osize p = 0).
Proof.
  intros [H|H]; simpl in H.
  - destruct (slots s i) eqn:E; [|discriminate]. destruct (slots s j) eqn:E'; [|discriminate].
    destruct (keqb _ _); [|discriminate]. destruct (Nat.eqb_spec i j) as [->|N]; inversion H; subst; simpl.
    + split; auto. congruence.
    + split; [congruence|]. intros _. rewrite fset_ne, fset_eq, fset_eq by auto. split; auto.
      eexists. split; [reflexivity|]. split; [apply isset_empty|reflexivity].
  - destruct (slots s i) eqn:E; [discriminate|]. destruct (slots s j) eqn:E'; inversion H; subst; simpl.
    assert (i <> j) by congruence. split; [congruence|]. intros _. rewrite fset_ne, fset_eq, fset_eq by auto. split; auto.
    eexists. split; [reflexivity|]. split; [apply isset_empty|reflexivity].
Qed.

(** ** The constructor of the io_uring context *)

Lemma run_app l1 : forall l2 s, run s (l1 ++ l2) = match run s l1 with Some s' => run s' l2 | None => None end.
Proof. induction l1; intros; simpl; auto. destruct (step s a); auto. Qed.

Lemma usual_unwind b n a : In a (unwind b n) -> usual a.
Proof. unfold unwind. rewrite in_map_iff. intros (x & <- & _). exact I. Qed.

Definition allusual (l : list label) : Prop := forall a, In a l -> usual a.
Lemma allusual_map b x r n k : allusual (fst k) -> allusual (fst (map_into b x r n k)).
Proof.
  intros H a. destruct r; simpl.
  - intros [<-|[<-|[<-|Ha]]]; simpl; auto.
  - intros [<-|[<-|[<-|[<-|[<-|[]]]]]]; simpl; auto.
Qed.
Lemma allusual_ctor b sg r1 r2 r3 r4 r5 n1 n2 n3 : allusual (fst (ctor b sg r1 r2 r3 r4 r5 n1 n2 n3)).
Proof.
  unfold ctor. destruct r1 as [v|e].
  - destruct r2 as [v2|e2]; simpl fst.
    + intros a [<-|[<-|[<-|[<-|[<-|Ha]]]]]; simpl; auto.
      revert a Ha. do 2 apply allusual_map. destruct sg; [intros ? []|]. apply allusual_map. intros ? [].
    + intros a. cbn. intuition; subst; exact I.
  - intros a. cbn. intuition; subst; exact I.
Qed.

(** Places b..b+4 (and the temporary b+5) are the only ones touched by the constructor: when it throws they are all gone again. *)
Definition free (s : st) (b : nat) : Prop := forall i, (b <= i < b + 6)%nat -> slots s i = None.
Definition same_but (s s' : st) (b : nat) : Prop := forall i, ~ (b <= i < b + 6)%nat -> slots s' i = slots s i.

Definition target (a : label) (i : nat) : Prop :=
  match a with
  | LDefault x _ | LNew x _ _ _ | LFail x _ _ | LReset x _ | LResetFail x | LDestroy x => i = x
  | LMove x y | LAssign x y => i = x \/ i = y
  | LResetOf x _ => i = x
  | _ => False
  end.

Lemma step_frame s a s' i : step s a = Some s' -> ~ target a i -> slots s' i = slots s i.
Proof.
  intros H N. destruct a; simpl in H, N.
  all: repeat match type of H with
       | match slots ?x ?y with _ => _ end = _ => let E := fresh "E" in destruct (slots x y) eqn:E; try discriminate
       | (if ?b then _ else _) = _ => let E := fresh "E" in destruct b eqn:E; try discriminate
       | match ?o with mko _ _ _ => _ end = _ => destruct o
       | match ?k with Fd => _ | Map => _ end = _ => destruct k; try discriminate
       | match holder ?l ?k ?v with _ => _ end = _ => destruct (holder l k v) as [[? []]|]; try discriminate
       end.
  all: inversion H; subst; clear H; simpl; auto.
  all: unfold fset; repeat match goal with |- context [(?y =? ?x)%nat] => destruct (Nat.eqb_spec y x); [exfalso; intuition congruence|] end.
  all: try reflexivity.
Qed.

Lemma run_frame ls : forall s s' i, run s ls = Some s' -> (forall a, In a ls -> ~ target a i) -> slots s' i = slots s i.
Proof.
  induction ls as [|a ls IH]; intros s s' i H N; simpl in H; [inversion H; auto|].
  destruct (step s a) eqn:E; [|discriminate].
  rewrite (IH _ _ _ H) by (intros b Hb; apply N; right; auto). eapply step_frame; eauto. apply N. left; auto.
Qed.

Lemma unwind_clears b n : forall s s', run s (unwind b n) = Some s' -> forall i, (b <= i < b + n)%nat -> slots s' i = None.
Proof.
  induction n as [|n IH]; intros s s' H i L; [lia|].
  unfold unwind in *. rewrite seq_S, rev_app_distr in H. simpl in H.
  destruct (slots s (b + n)%nat) eqn:E; [|discriminate].
  destruct (Nat.eq_dec i (b + n)) as [->|Ne].
  - rewrite (@run_frame _ _ _ _ H); [simpl; apply fset_eq|].
    intros a Ha. apply in_map_iff in Ha. destruct Ha as (x & <- & Hx). apply in_rev in Hx. apply in_seq in Hx. simpl. lia.
  - eapply IH; eauto. lia.
Qed.

Lemma place b i k : (b <= i < b + 6)%nat -> ~ (b <= k < b + 6)%nat -> k <> i.
Proof. intros A B ->. auto. Qed.

Definition local (b : nat) (l : list label) : Prop := forall a i, In a l -> target a i -> (b <= i < b + 6)%nat.
Lemma local_app b l1 l2 : local b l1 -> local b l2 -> local b (l1 ++ l2).
Proof. intros A B a i H T. apply in_app_iff in H. destruct H; eauto. Qed.
Lemma local_unwind b n : (n <= 6)%nat -> local b (unwind b n).
Proof.
  intros L a i H T. unfold unwind in H. apply in_map_iff in H. destruct H as (x & <- & Hx).
  apply in_rev in Hx. apply in_seq in Hx. simpl in T. lia.
Qed.
Lemma local_map b x r n k : (x < 6)%nat -> local b (fst k) -> local b (fst (map_into b x r n k)).
Proof.
  intros L H. destruct r; simpl; [|apply local_unwind; lia].
  intros a i [<-|[<-|[<-|Ha]]] T; simpl in T; try lia. eauto.
Qed.
Lemma local_ctor b sg r1 r2 r3 r4 r5 n1 n2 n3 : local b (fst (ctor b sg r1 r2 r3 r4 r5 n1 n2 n3)).
Proof.
  unfold ctor. destruct r1 as [v|e]; [destruct r2 as [v2|e2]|]; cbn [fst].
  - apply local_app; [intros a i [<-|[<-|[<-|[]]]] T; simpl in T; lia|].
    apply local_app; [intros a i [<-|[<-|[]]] T; simpl in T; lia|].
    apply local_map; [lia|]. apply local_map; [lia|]. destruct sg; [intros ? ? []|]. apply local_map; [lia|]. intros ? ? [].
  - apply local_app; [intros a i [<-|[<-|[<-|[]]]] T; simpl in T; lia|].
    apply local_app; [intros a i [<-|[<-|[]]] T; simpl in T; lia|]. apply local_unwind. lia.
  - apply local_app; [intros a i [<-|[<-|[<-|[]]]] T; simpl in T; lia|]. apply local_unwind. lia.
Qed.

(** A list of labels that ends by destroying the first n members, and whose earlier labels touch only these (and leave the temporary gone). *)
Lemma map_throw_clears b x r n k c s s' :
  (forall s0 s1, slots s0 (b + 5)%nat = None -> run s0 (fst k) = Some s1 -> snd k = Throws c -> forall i, (b <= i < b + 6)%nat -> slots s1 i = None) ->
  (x < 5)%nat -> slots s (b + 5)%nat = None -> run s (fst (map_into b x r n k)) = Some s' -> snd (map_into b x r n k) = Throws c ->
  forall i, (b <= i < b + 6)%nat -> slots s' i = None.
Proof.
  intros K L T H R i Hi. destruct r as [v|e].
  - cbn [map_into fst snd] in H, R.
    change (LNew (b + 5) Map v n :: LAssign (b + x) (b + 5) :: LDestroy (b + 5) :: fst k)
      with ([LNew (b + 5) Map v n; LAssign (b + x) (b + 5); LDestroy (b + 5)] ++ fst k) in H.
    rewrite run_app in H. destruct (run s [LNew (b + 5) Map v n; LAssign (b + x) (b + 5); LDestroy (b + 5)]) as [s1|] eqn:E; [|discriminate].
    refine (K s1 s' _ H R i Hi). cbn [run] in E.
    destruct (step s _) as [sa|]; [|discriminate]. destruct (step sa _) as [sb|]; [|discriminate].
    destruct (step sb (LDestroy (b + 5))) as [sc|] eqn:E3; [|discriminate]. inversion E; subst.
    simpl in E3. destruct (slots sb (b + 5)%nat); inversion E3; subst. simpl. apply fset_eq.
  - cbn [map_into fst snd] in H, R. destruct (Nat.eq_dec i (b + 5)) as [->|N].
    + rewrite (@run_frame _ _ _ _ H); auto. intros a Ha Ta.
      assert (Ha' := Ha). unfold unwind in Ha. apply in_map_iff in Ha. destruct Ha as (y & <- & Hy).
      apply in_rev in Hy. apply in_seq in Hy. simpl in Ta. lia.
    + eapply unwind_clears; eauto. lia.
Qed.

(** If any of the system calls of the constructor of the io_uring context fails, whatever was acquired before is released:
    what the objects of the process hold afterwards is what they held before. And the destructor releases what a completed constructor acquired. *)
Theorem io_uring_ctor_no_leak b single r1 r2 r3 r4 r5 n1 n2 n3 ls0 s s' ls :
  (forall a, In a ls0 -> usual a) -> run init ls0 = Some s -> free s b ->
  (exists c, ctor b single r1 r2 r3 r4 r5 n1 n2 n3 = (ls, Throws c)) \/
  (exists ls1, ctor b single r1 r2 r3 r4 r5 n1 n2 n3 = (ls1, Done) /\ ls = ls1 ++ dtor b) ->
  run s ls = Some s' ->
  proper (log s') /\
  forall k v n, holder (log s') k v = Some (n, false) <-> holder (log s) k v = Some (n, false).
Proof.
  intros U H0 F C H.
  assert (UL : allusual ls /\ local b ls).
  { pose proof (@allusual_ctor b single r1 r2 r3 r4 r5 n1 n2 n3) as A.
    pose proof (@local_ctor b single r1 r2 r3 r4 r5 n1 n2 n3) as B.
    destruct C as [[c E]|(ls1 & E & ->)]; rewrite E in A, B; simpl in A, B; split; auto.
    - intros a Ha. apply in_app_iff in Ha. destruct Ha as [Ha|Ha]; [auto|eapply usual_unwind; eauto].
    - apply local_app; auto. apply local_unwind. lia. }
  destruct UL as [UL LL].
  pose proof (run_inv _ inv_init U H0) as I. pose proof (run_inv _ I UL H) as I'.
  assert (SB : same_but s s' b).
  { intros i N. apply (@run_frame _ _ _ i H). intros a Ha T. apply N. eapply LL; eauto. }
  assert (CL : forall i, (b <= i < b + 6)%nat -> slots s' i = None).
  { assert (F5 : forall sx : st, (forall i, slots sx i = None -> slots sx i = None)) by auto.
    destruct C as [[c E]|(ls1 & E & ->)].
    - unfold ctor in E. destruct r1 as [v|e]; [destruct r2 as [v2|e2]|].
      + assert (R : snd (map_into b 0 r3 n1 (map_into b 2 r4 n2 (if single then ([], Done) else map_into b 1 r5 n3 ([], Done)))) = Throws c) by (inversion E; auto).
        apply (f_equal fst) in E. cbn [fst] in E. subst ls. rewrite run_app in H.
        set (p1 := [LDefault b Map; LDefault (b + 1) Map; LDefault (b + 2) Map]) in *.
        destruct (run s p1) as [s1|] eqn:E1; [|discriminate]. rewrite run_app in H.
        set (p2 := [LNew (b + 3) Fd v 0; LNew (b + 4) Fd v2 0]) in *.
        destruct (run s1 p2) as [s2|] eqn:E2; [|discriminate].
        assert (T5 : slots s2 (b + 5)%nat = None).
        { rewrite (@run_frame _ _ _ _ E2), (@run_frame _ _ _ _ E1); [apply F; lia| |];
            intros a Ha Ta; cbn in Ha; repeat destruct Ha as [<-|Ha]; cbn in Ta; try lia; destruct Ha. }
        eapply map_throw_clears; [| |exact T5|exact H|exact R]; [|lia].
        intros sa sb Ta Ha Ra. eapply map_throw_clears; [| |exact Ta|exact Ha|exact Ra]; [|lia].
        intros sc sd Tc Hc Rc. destruct single; [discriminate|].
        eapply map_throw_clears; [| |exact Tc|exact Hc|exact Rc]; [|lia]. intros; discriminate.
      + apply (f_equal fst) in E. cbn [fst] in E. subst ls. rewrite app_assoc, run_app in H.
        destruct (run s _) as [s1|] eqn:E1; [|discriminate].
        intros i Hi. destruct (Nat.eq_dec i (b + 5)) as [->|N]; [|eapply unwind_clears; eauto; lia].
        rewrite (@run_frame _ _ _ _ H), (@run_frame _ _ _ _ E1); [apply F; lia| |];
          intros a Ha Ta; cbn in Ha; repeat destruct Ha as [<-|Ha]; cbn in Ta; try lia; destruct Ha.
      + apply (f_equal fst) in E. cbn [fst] in E. subst ls. rewrite run_app in H.
        destruct (run s _) as [s1|] eqn:E1; [|discriminate].
        intros i Hi. destruct (le_lt_dec (b + 3) i) as [N|N]; [|eapply unwind_clears; eauto; lia].
        rewrite (@run_frame _ _ _ _ H), (@run_frame _ _ _ _ E1); [apply F; lia| |];
          intros a Ha Ta; cbn in Ha; repeat destruct Ha as [<-|Ha]; cbn in Ta; try lia; destruct Ha.
    - rewrite run_app in H. destruct (run s ls1) as [s1|] eqn:E1; [|discriminate].
      intros i Hi. destruct (Nat.eq_dec i (b + 5)) as [->|N]; [|eapply unwind_clears; eauto; lia].
      assert (T1 : slots s1 (b + 5)%nat = None).
      2:{ rewrite (@run_frame _ _ _ _ H); auto. intros a Ha Ta. unfold dtor in Ha; cbn in Ha.
          repeat destruct Ha as [<-|Ha]; cbn in Ta; try lia; destruct Ha. }
      unfold ctor in E. destruct r1 as [v|e]; [destruct r2 as [v2|e2]|discriminate]; [|discriminate].
      inversion E as [[EL ER]]. clear E F5.
      destruct r3 as [v3|]; [|discriminate]. destruct r4 as [v4|]; [|discriminate]. cbn in ER, EL.
      assert (EL' : exists pre, ls1 = pre ++ [LDestroy (b + 5)]).
      { destruct single.
        - rewrite <- EL. eexists [_;_;_;_;_;_;_;_;_;_]. reflexivity.
        - destruct r5 as [v5|]; [|discriminate]. rewrite <- EL. eexists [_;_;_;_;_;_;_;_;_;_;_;_;_]. reflexivity. }
      destruct EL' as [pre ->]. rewrite run_app in E1. destruct (run s pre) as [sp|]; [|discriminate].
      cbn in E1. destruct (slots sp (b + 5)%nat); inversion E1; subst. simpl. apply fset_eq. }
  split; [eapply i_proper; eauto|].
  intros k v n. split; intros Hk.
  - destruct (i_own I' _ _ Hk) as (i & A & B).
    assert (N : ~ (b <= i < b + 6)%nat) by (intros L; rewrite (CL _ L) in A; discriminate).
    rewrite (SB _ N) in A. apply (i_held I _ A B).
  - destruct (i_own I _ _ Hk) as (i & A & B).
    assert (N : ~ (b <= i < b + 6)%nat) by (intros L; rewrite (F _ L) in A; discriminate).
    rewrite <- (SB _ N) in A. apply (i_held I' _ A B).
Qed.

(** The error code of a failing constructor is the errno of the call that failed - except for the first call. *)
Theorem io_uring_ctor_error_partial b single rv r2 r3 r4 r5 n1 n2 n3 ls c :
  ctor b single (ROk rv) r2 r3 r4 r5 n1 n2 n3 = (ls, Throws c) ->
  exists r, In r [r2; r3; r4; r5] /\ r = RErr c.
Proof.
  unfold ctor, map_into. destruct r2 as [?|e2]; [|intros H; inversion H; subst; exists (RErr c); simpl; auto].
  destruct r3 as [?|e3]; [|intros H; inversion H; subst; exists (RErr c); simpl; auto].
  destruct r4 as [?|e4]; [|intros H; inversion H; subst; exists (RErr c); simpl; auto].
  destruct single; [intros H; inversion H|].
  destruct r5 as [?|e5]; [intros H; inversion H|intros H; inversion H; subst; exists (RErr c); simpl; auto 6].
Qed.

(** ** What is not true of the code *)

(** When io_uring_setup fails the exception says EPERM (1), whatever the reason was (here ENOSYS, 38). *)
Theorem io_uring_setup_error_refuted :
  forall b single e r2 r3 r4 r5 n1 n2 n3, snd (ctor b single (RErr e) r2 r3 r4 r5 n1 n2 n3) = Throws 1.
Proof. reflexivity. Qed.

(** reset with the object's own descriptor closes it and keeps it; the number is reused by others, whose descriptor the destructor then closes. *)
Theorem handle_reset_self_refuted :
  exists s, run init [LNew 0 Fd 3 0; LResetOf 0 0; LForeignOpen Fd 3 0; LDestroy 0] = Some s /\
    log s = [EClose Fd 3 0 false; EOpen Fd 3 0 true; EClose Fd 3 0 false; EOpen Fd 3 0 false] /\ ~ proper (log s).
Proof. eexists. split; [vm_compute; reflexivity|]. split; [reflexivity|]. simpl. intros (A & _). discriminate. Qed.

(** reset with the descriptor of another object makes both close it. *)
Theorem handle_reset_other_refuted :
  exists s, run init [LNew 0 Fd 3 0; LDefault 1 Fd; LResetOf 1 0; LDestroy 1; LDestroy 0] = Some s /\ ~ proper (log s).
Proof. eexists. split; [vm_compute; reflexivity|]. simpl. intros (A & _). discriminate. Qed.

(** A region made from a failed mmap says it is empty but has the size that was asked for. *)
Theorem region_failed_size_refuted :
  exists s o, run init [LFail 0 Map 4096] = Some s /\ slots s 0%nat = Some o /\ isset o = false /\ oval o = 0 /\ osize o = 4096.
Proof. eexists. eexists. split; [vm_compute; reflexivity|]. vm_compute. auto. Qed.

(** ** The hypotheses are met *)
Example handle_use :
  option_map (fun s => (log s, holder (log s) Fd 4, holder (log s) Map 4096)) (run init
    [LNew 0 Fd 3 0; LMove 1 0; LForeignOpen Fd 7 0; LNew 2 Map 4096 100; LDefault 3 Map; LAssign 3 2; LReset 1 4; LAssign 3 3;
     LForeignClose Fd 7; LReset 1 3; LAssign 0 1; LDestroy 2; LDestroy 3; LResetFail 0; LNew 4 Fd 4 0])
  = Some ([EOpen Fd 4 0 false; EClose Fd 3 0 false; EClose Map 4096 100 false; EClose Fd 4 0 false; EOpen Fd 3 0 false; EClose Fd 7 0 true;
           EClose Fd 3 0 false; EOpen Fd 4 0 false; EOpen Map 4096 100 false; EOpen Fd 7 0 true; EOpen Fd 3 0 false], Some (0, false), None).
Proof. vm_compute. reflexivity. Qed.

Example ctor_use :
  let c := ctor 0 false (ROk 3) (ROk 4) (ROk 4096) (ROk 8192) (ROk 16384) 100 200 300 in
  option_map log (run init (fst c ++ dtor 0)) =
  Some [EClose Map 4096 100 false; EClose Map 16384 300 false; EClose Map 8192 200 false; EClose Fd 3 0 false; EClose Fd 4 0 false;
        EOpen Map 16384 300 false; EOpen Map 8192 200 false; EOpen Map 4096 100 false; EOpen Fd 4 0 false; EOpen Fd 3 0 false] /\ snd c = Done.
Proof. vm_compute. auto. Qed.

Example ctor_fails :
  let c := ctor 0 true (ROk 3) (ROk 4) (ROk 4096) (RErr 12) (ROk 16384) 100 200 300 in
  option_map log (run init (fst c)) =
  Some [EClose Map 4096 100 false; EClose Fd 3 0 false; EClose Fd 4 0 false;
        EOpen Map 4096 100 false; EOpen Fd 4 0 false; EOpen Fd 3 0 false] /\ snd c = Throws 12.
Proof. vm_compute. auto. Qed.
