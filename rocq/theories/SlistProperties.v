(** C71: the intrusive singly linked list behaves as a list, over every history of operations on any number of lists. *)
From Coq Require Import List Arith Bool Lia.
From Verif Require Import Conc SlistModel.
Import ListNotations.
Set Implicit Arguments.

(** ** Specification: the operations on lists of items. What a correct user may do: an item is pushed only while it is in no list, a list that is popped is not empty. *)
Definition lists := nat -> list nat.
Definition put (ls : lists) (i : nat) (l : list nat) : lists := fun j => if j =? i then l else ls j.
Inductive spec (n : nat) : op -> lists -> result -> lists -> Prop :=
| SPush ls i x : x < n -> (forall j, ~ In x (ls j)) -> spec n (Push i x) ls RNone (put ls i (x :: ls i))
| SPop ls i x l : ls i = x :: l -> spec n (Pop i) ls (RItem (Some x)) (put ls i l)
| SRemove ls i x : In x (ls i) -> spec n (Remove i x) ls (RItem (Some x)) (put ls i (List.remove Nat.eq_dec x (ls i)))
| SAbsent ls i x : ~ In x (ls i) -> spec n (Remove i x) ls (RItem None) ls
| SSwap ls i j : spec n (Swap i j) ls RNone (put (put ls i (ls j)) j (ls i))
| SMove ls i j : spec n (Move i j) ls RNone (put (put ls j []) i (ls j))
| SClear ls i : spec n (Clear i) ls RNone (put ls i [])
| SFront ls i : spec n (Front i) ls (RItem (hd_error (ls i))) ls
| SWalk ls i : spec n (Walk i) ls (RItems (ls i)) ls.
Inductive specs (n : nat) : list op -> lists -> list result -> lists -> Prop :=
| SNil ls : specs n [] ls [] ls
| SCons a ops ls r ls' rs ls'' : spec n a ls r ls' -> specs n ops ls' rs ls'' -> specs n (a :: ops) ls (r :: rs) ls''.

(** ** Proof *)
Fixpoint chain (nx : nat -> option nat) (o : option nat) (l : list nat) : Prop :=
  match l with [] => o = None | x :: l => o = Some x /\ chain nx (nx x) l end.
Lemma chain_fun nx l : forall o l', chain nx o l -> chain nx o l' -> l = l'.
Proof. induction l as [|x l IH]; intros o [|y l'] C C'; simpl in *; auto; try (destruct C; congruence); try (destruct C'; congruence). destruct C as [-> C], C' as [E C']. inversion E; subst. f_equal. eapply IH; eauto. Qed.
Lemma chain_split nx l1 : forall o x l2, chain nx o (l1 ++ x :: l2) -> chain nx (nx x) l2.
Proof. induction l1; simpl; intros o x l2 [E C]; auto. eapply IHl1; eauto. Qed.
Lemma chain_nodup nx l : forall o, chain nx o l -> NoDup l.
Proof.
  induction l as [|x l IH]; intros o C; [constructor|]. destruct C as [-> C]. constructor; [|eapply IH; eauto].
  intros X. apply in_split in X. destruct X as (l1 & l2 & ->). pose proof (@chain_split _ _ _ _ _ C) as D.
  pose proof (@chain_fun _ _ _ _ C D) as E. apply (f_equal (@length _)) in E. rewrite app_length in E. simpl in E. lia.
Qed.
Lemma chain_frame nx y v l : forall o, ~ In y l -> chain nx o l -> chain (fset nx y v) o l.
Proof.
  induction l as [|x l IH]; intros o N C; auto. destruct C as [-> C]. simpl in *. split; auto. unfold fset at 2. destruct (Nat.eqb_spec x y); [subst; tauto|]. apply IH; tauto.
Qed.
Lemma eqo_true a x : eqo a x = true <-> a = Some x.
Proof. destruct a as [y|]; simpl; [|split; discriminate]. rewrite Nat.eqb_eq. split; intros H; [subst; auto|inversion H; auto]. Qed.
Lemma notin_remove (x : nat) l : ~ In x l -> List.remove Nat.eq_dec x l = l.
Proof. apply notin_remove. Qed.

Lemma scan_absent nx x l : forall o fuel, chain nx o l -> length l <= fuel -> eqo o x = false -> ~ In x l -> scan fuel nx o x = Some (nx, None).
Proof.
  induction l as [|c l IH]; intros o fuel C F E N.
  - simpl in C; subst. destruct fuel; auto.
  - destruct C as [-> C]. destruct fuel; simpl in *; [lia|]. destruct (eqo (nx c) x) eqn:Q.
    + apply eqo_true in Q. rewrite Q in C. destruct l as [|y l]; simpl in C; [discriminate|]. destruct C as [D _]. inversion D; subst. simpl in N. tauto.
    + apply IH; auto. lia.
Qed.
Lemma scan_present nx x l : forall o fuel, chain nx o l -> length l <= fuel -> eqo o x = false -> In x l ->
  exists nx', scan fuel nx o x = Some (nx', Some x) /\ chain nx' o (List.remove Nat.eq_dec x l) /\ forall y, ~ In y l -> nx' y = nx y.
Proof.
  induction l as [|c l IH]; intros o fuel C F E N; [destruct N|].
  pose proof (@chain_nodup _ _ _ C) as ND. inversion ND as [|? ? NC ND']; subst.
  destruct C as [-> C]. destruct fuel; simpl in F; [lia|]. simpl in E. apply Nat.eqb_neq in E. destruct N as [N|N]; [congruence|].
  cbn [scan]. destruct (eqo (nx c) x) eqn:Q.
  - apply eqo_true in Q. eexists. split; [reflexivity|]. rewrite Q in C. destruct l as [|y l]; simpl in C; [discriminate|]. destruct C as [D C]. inversion D; subst y.
    inversion ND' as [|? ? NX _]; subst. simpl. destruct (Nat.eq_dec x c) as [|_]; [congruence|]. destruct (Nat.eq_dec x x) as [_|]; [|congruence].
    rewrite notin_remove by auto. split.
    + simpl. split; auto. unfold fset at 2. rewrite Nat.eqb_refl. apply chain_frame; auto. simpl in NC. tauto.
    + intros y Y. unfold fset. destruct (Nat.eqb_spec y c); auto. subst. tauto.
  - destruct (IH (nx c) fuel C ltac:(lia) Q N) as (nx' & S & C' & K). exists nx'. split; auto. split.
    + simpl. destruct (Nat.eq_dec x c); [congruence|]. simpl. split; auto. rewrite K by auto. auto.
    + intros y Y. apply K. simpl in Y. tauto.
Qed.
Lemma walk_spec nx l : forall o fuel, chain nx o l -> length l <= fuel -> walk fuel nx o = Some l.
Proof. induction l as [|x l IH]; intros o fuel C F; [simpl in C; subst; destruct fuel; auto|]. destruct C as [-> C]. destruct fuel; simpl in *; [lia|]. rewrite (IH (nx x) fuel C); auto. lia. Qed.

Record repr (n : nat) (s : store) (ls : lists) : Prop := {
  R_chain : forall i, chain (next s) (head s i) (ls i);
  R_disj : forall i j x, In x (ls i) -> In x (ls j) -> i = j;
  R_below : forall i x, In x (ls i) -> x < n }.
Lemma repr_len n s ls i : repr n s ls -> length (ls i) <= n.
Proof.
  intros [C _ B]. rewrite <- (seq_length n 0). apply NoDup_incl_length; [eapply chain_nodup; apply C|]. intros x X. apply in_seq. specialize (B _ _ X). lia.
Qed.
Lemma put_same ls i l : put ls i l i = l.
Proof. unfold put. rewrite Nat.eqb_refl. auto. Qed.
Lemma put_other ls i j l : j <> i -> put ls i l j = ls j.
Proof. unfold put. intros. destruct (Nat.eqb_spec j i); congruence. Qed.
Ltac eqs := repeat match goal with
  | |- context [Nat.eqb ?a ?b] => destruct (Nat.eqb_spec a b); subst
  | H : context [Nat.eqb ?a ?b] |- _ => destruct (Nat.eqb_spec a b); subst end.

Lemma step_ok n s ls a r ls' : repr n s ls -> spec n a ls r ls' -> exists s', step n a s = Some (s', r) /\ repr n s' ls'.
Proof.
  intros R S. assert (L := fun i => repr_len i R). destruct R as [C D B]. destruct S as [ls i x X N|ls i x l E|ls i x X|ls i x X|ls i j|ls i j|ls i|ls i|ls i]; simpl.
  - eexists. split; [reflexivity|]. constructor; simpl; unfold put.
    + intros j. unfold fset at 2. destruct (Nat.eqb_spec j i) as [->|]; [|apply chain_frame; auto]. simpl. split; auto. unfold fset at 2. rewrite Nat.eqb_refl. apply chain_frame; auto.
    + intros j k y Y Z. destruct (Nat.eqb_spec j i), (Nat.eqb_spec k i); subst; auto; simpl in *.
      * destruct Y as [<-|Y]; [exfalso; eapply N; eauto|eauto].
      * destruct Z as [<-|Z]; [exfalso; eapply N; eauto|eauto].
      * eauto.
    + intros j y Y. destruct (Nat.eqb_spec j i); [|eauto]. destruct Y as [<-|Y]; eauto.
  - pose proof (C i) as Ci. rewrite E in Ci. destruct Ci as [H Ci]. unfold pop. rewrite H. eexists. split; [reflexivity|]. constructor; simpl; unfold put, fset.
    + intros j. eqs; auto.
    + intros j k y Y Z. eapply D; [|]; [instantiate (1 := y)|]; eqs; auto; rewrite E; simpl; auto.
    + intros j y Y. apply (B j). eqs; auto. rewrite E; simpl; auto.
  - pose proof (@chain_nodup _ _ _ (C i)) as ND. assert (SUB : forall y, In y (List.remove Nat.eq_dec x (ls i)) -> In y (ls i)) by (intros y Y; apply in_remove in Y; tauto).
    assert (G : forall s', (forall j, chain (next s') (head s' j) (put ls i (List.remove Nat.eq_dec x (ls i)) j)) -> repr n s' (put ls i (List.remove Nat.eq_dec x (ls i)))).
    { intros s' K. constructor; auto; unfold put.
      - intros j k y Y Z. apply (D j k y); [eqs; auto|]. clear Y. eqs; auto.
      - intros j y Y. apply (B j). eqs; auto. }
    destruct (eqo (head s i) x) eqn:Q.
    + apply eqo_true in Q. unfold pop. rewrite Q. eexists. split; [reflexivity|]. apply G. intros j. simpl. pose proof (C i) as Ci. rewrite Q in Ci.
      destruct (ls i) as [|y l] eqn:E; simpl in Ci; [discriminate|]. destruct Ci as [Y Ci]. inversion Y; subst y. inversion ND; subst.
      unfold put, fset. destruct (Nat.eqb_spec j i) as [->|]; auto. simpl. destruct (Nat.eq_dec x x); [|congruence]. rewrite notin_remove by auto. auto.
    + destruct (@scan_present _ _ _ _ _ (C i) (L i) Q X) as (nx' & SC & C' & K). rewrite SC. eexists. split; [reflexivity|]. apply G. intros j. simpl.
      destruct (Nat.eq_dec j i) as [->|NE]; [rewrite put_same; auto|rewrite put_other by auto].
      assert (FR : forall l o, (forall y, In y l -> ~ In y (ls i)) -> chain (next s) o l -> chain nx' o l).
      { induction l as [|y l IH]; intros o Y CH; auto. destruct CH as [-> CH]. simpl. split; auto. rewrite K by (apply Y; simpl; auto). apply IH; auto. intros z Z; apply Y; simpl; auto. }
      apply FR; auto. intros y Y Z. apply NE. eapply D; eauto.
  - assert (Q : eqo (head s i) x = false).
    { destruct (eqo (head s i) x) eqn:Q; auto. apply eqo_true in Q. pose proof (C i) as Ci. rewrite Q in Ci. destruct (ls i) as [|y l]; simpl in Ci; [discriminate|]. destruct Ci as [Y _]. inversion Y; subst. exfalso; apply X; simpl; auto. }
    rewrite Q, (@scan_absent (next s) x (ls i)) by auto. eexists. split; [reflexivity|]. destruct s; constructor; auto.
  - eexists. split; [reflexivity|]. constructor; simpl; unfold put, fset.
    + intros k. eqs; auto.
    + intros k m y Y Z. eqs; auto; try (specialize (D _ _ _ Y Z)); subst; congruence.
    + intros k y Y. eqs; eauto.
  - eexists. split; [reflexivity|]. constructor; simpl; unfold put, fset.
    + intros k. eqs; simpl; auto.
    + intros k m y Y Z. eqs; auto; simpl in *; try tauto; try (specialize (D _ _ _ Y Z)); subst; congruence.
    + intros k y Y. eqs; simpl in *; try tauto; eauto.
  - eexists. split; [reflexivity|]. constructor; simpl; unfold put, fset.
    + intros k. eqs; simpl; auto.
    + intros k m y Y Z. eqs; simpl in *; try tauto; eauto.
    + intros k y Y. eqs; simpl in *; try tauto; eauto.
  - exists s. split; [|constructor; auto]. pose proof (C i) as Ci. destruct (ls i); simpl in *; [rewrite Ci; auto|destruct Ci as [-> _]; auto].
  - exists s. rewrite (@walk_spec _ _ _ _ (C i) (L i)). split; [auto|constructor; auto].
Qed.

(** Over every history a correct user can produce, with any number of lists and items, the code returns what the operations on lists return, ends every loop, fails no assertion, and leaves the lists it should. *)
Theorem slist_refines n ops : forall s ls rs ls', repr n s ls -> specs n ops ls rs ls' -> exists s', run n ops s = Some (s', rs) /\ repr n s' ls'.
Proof.
  induction ops as [|a ops IH]; intros s ls rs ls' R S; inversion S as [|? ? ? ? ls1 ? ? S1 S2]; subst; simpl; [eauto|].
  destruct (step_ok R S1) as (s1 & -> & R1). destruct (IH _ _ _ _ R1 S2) as (s2 & -> & R2). eauto.
Qed.
Theorem slist_history n nx ops rs ls : specs n ops (fun _ => []) rs ls ->
  exists s, run n ops (init nx) = Some (s, rs) /\ forall i, walk n (next s) (head s i) = Some (ls i).
Proof.
  intros S. assert (R0 : repr n (init nx) (fun _ => [])) by (constructor; simpl; auto; tauto).
  destruct (slist_refines R0 S) as (s & E & R). exists s. split; auto. intros i. apply walk_spec; [apply R|eapply repr_len; eauto].
Qed.
(** Removing the item an iterator stands on leaves the iterator able to go on: it then visits the rest. *)
Theorem slist_remove_current n s ls i l1 x l2 s' r : repr n s ls -> ls i = l1 ++ x :: l2 -> step n (Remove i x) s = Some (s', r) -> walk n (next s') (next s' x) = Some l2.
Proof.
  intros R E T. assert (X : In x (ls i)) by (rewrite E; apply in_or_app; simpl; auto).
  destruct (step_ok R (SRemove n ls i x X)) as (s1 & T1 & R1). rewrite T in T1. inversion T1; subst s1 r. clear T1.
  pose proof (R_chain R i) as C. rewrite E in C. pose proof (@chain_split _ _ _ _ _ C) as C2. pose proof (repr_len i R) as L. rewrite E, app_length in L. simpl in L.
  pose proof (@chain_nodup _ _ _ C) as ND. apply NoDup_remove in ND. destruct ND as [ND NX].
  pose proof (R_chain R1 i) as C1. rewrite put_same, E in C1.
  rewrite remove_app in C1. rewrite (notin_remove x l1) in C1 by (intros Y; apply NX; apply in_or_app; auto). simpl in C1. destruct (Nat.eq_dec x x) as [_|]; [|congruence].
  rewrite (notin_remove x l2) in C1 by (intros Y; apply NX; apply in_or_app; auto).
  (* the next pointer of x itself is not touched *)
  assert (K : next s' x = next s x).
  { simpl in T. destruct (eqo (head s i) x) eqn:Q.
    - unfold pop in T. destruct (head s i); inversion T; auto.
    - destruct (@scan_present _ _ _ _ _ (R_chain R i) (repr_len i R) Q X) as (nx' & SC & _ & K). rewrite SC in T. inversion T; subst; simpl.
      clear -SC Q C. revert Q C SC. generalize (head s i). revert n. induction l1 as [|c l1 IH]; intros n o Q C SC.
      + simpl in C. destruct C as [-> _]. simpl in Q. rewrite Nat.eqb_refl in Q. discriminate.
      + destruct C as [-> C]. destruct n; simpl in SC; [discriminate|]. destruct (eqo (next s c) x) eqn:W.
        * inversion SC. unfold fset. destruct (Nat.eqb_spec x c) as [->|]; auto. 
        * eapply IH; eauto. }
  rewrite K. apply walk_spec; [|lia].
  assert (T2 : chain (next s') (next s x) l2); auto.
  destruct l2 as [|y l2]; [exact C2|]. destruct C2 as [Y C2]. split; auto. eapply chain_split; exact C1.
Qed.
(** The full claim, that any item may be pushed, is false: an item pushed twice closes a cycle, and iteration never ends. *)
Theorem slist_push_twice_refuted : exists s, (forall n, exists rs, run n [Push 0 1; Push 0 1] (init (fun _ => None)) = Some (s, rs)) /\ forall n, walk n (next s) (head s 0) = None.
Proof.
  eexists. split; [intros n; eexists; reflexivity|]. intros n. cbn [head next].
  match goal with |- walk n ?nx ?o = None => set (f := nx); replace o with (Some 1) by reflexivity end. assert (F : f 1 = Some 1) by reflexivity.
  clearbody f. induction n; simpl; auto. rewrite F, IHn. auto.
Qed.

(** ** Examples *)
Example ex_specs : specs 9 [Push 0 3; Push 0 4; Push 1 5; Remove 0 3; Remove 0 7; Move 1 0; Front 1; Pop 1; Walk 1] (fun _ => [])
  [RNone; RNone; RNone; RItem (Some 3); RItem None; RNone; RItem (Some 4); RItem (Some 4); RItems []]
  (put (put (put (put (put (put (put (fun _ => []) 0 [3]) 0 [4; 3]) 1 [5]) 0 [4]) 0 []) 1 [4]) 1 []).
Proof.
  repeat match goal with
  | |- specs _ [] _ _ _ => constructor
  | |- specs _ (_ :: _) _ _ _ => econstructor
  end; try (apply SPush; [lia|intros [|[|j]]; simpl; intuition; discriminate]).
  - apply SRemove. simpl. auto.
  - apply SAbsent. simpl. intuition; discriminate.
  - apply SMove.
  - apply SFront.
  - apply SPop. reflexivity.
  - apply SWalk.
Qed.
