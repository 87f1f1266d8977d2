(** * QueueProperties: C21, C22 (stdexec::__intrusive_queue). *)
From Coq Require Import List Arith Bool Lia.
From Verif Require Import Conc QueueModel QueueSpec QueueProofs.
Import ListNotations.
Set Implicit Arguments.

(** ** C21: on a queue that holds the nodes l, each operation is defined (no null dereference),
    yields a queue that holds the expected list, and writes only to the nodes named by only_on *)

Theorem C21_push_back : forall h q l x, holds h q l -> ~ In x l -> exists h' q',
  push_back h q x = Some (h', q') /\ holds h' q' (l ++ [x]) /\ only_on (x :: l) h h'.
Proof. intros; apply push_back_ok; auto. Qed.

Theorem C21_push_front : forall h q l x, holds h q l -> ~ In x l -> exists h' q',
  push_front h q x = Some (h', q') /\ holds h' q' (x :: l) /\ only_on [x] h h'.
Proof. intros; apply push_front_ok; auto. Qed.

Theorem C21_pop_front : forall h q x l, holds h q (x :: l) -> exists q',
  pop_front h q = Some (q', Some x) /\ holds h q' l.
Proof. intros; apply pop_front_ok; auto. Qed.

Theorem C21_append : forall h q o l m, holds h q l -> holds h o m -> disjoint l m -> exists h' q',
  append h q o = Some (h', q') /\ holds h' q' (l ++ m) /\ only_on l h h'.
Proof. intros; apply append_ok; auto. Qed.

Theorem C21_prepend : forall h q o l m, holds h q l -> holds h o m -> disjoint l m -> exists h' q',
  prepend h q o = Some (h', q') /\ holds h' q' (m ++ l) /\ only_on m h h'.
Proof. intros; apply prepend_ok; auto. Qed.

(** moving a queue: the new one has the elements, the old one is empty *)
Theorem C21_move : forall h q l, holds h q l -> holds h (fst (move q)) l /\ holds h (snd (move q)) [].
Proof. intros h q l H. simpl. split; auto. repeat split; simpl; auto; constructor. Qed.
Theorem C21_make : forall h p l fuel, lseg h p l None -> NoDup l -> length l <= fuel ->
  exists q', make fuel h p = Some q' /\ holds h q' l.
Proof. intros; apply make_ok; auto. Qed.

Theorem C21_make_reversed : forall h p l fuel, lseg h p l None -> NoDup l -> length l <= fuel ->
  exists h' q', make_reversed fuel h p = Some (h', q') /\ holds h' q' (rev l) /\ only_on l h h'.
Proof. intros; apply make_reversed_ok; auto. Qed.

Theorem C21_empty_clear : forall h q l, holds h q l ->
  (empty q = true <-> l = []) /\ holds h (clear q) [].
Proof. intros h q l H. split; [eapply empty_spec; eauto|]. repeat split; auto; constructor. Qed.

Theorem C21_iteration : forall h q l fuel, holds h q l -> length l <= fuel ->
  iterate fuel h q (ibegin q) = Some l.
Proof.
  intros h q l fuel H F. assert (E : ibegin q = at_pos l 0).
  { unfold ibegin, at_pos. simpl. f_equal. destruct H as [H _]. eapply lseg_head; eauto. }
  rewrite E. apply (iterate_ok l [] H F).
Qed.

(** front() / back() *)
Theorem C21_front_back : forall h q l, holds h q l -> qhead q = head_ptr l /\ qtail q = last_ptr l.
Proof. intros h q l [H [T _]]. split; [eapply lseg_head; eauto|auto]. Qed.

(** operations on one queue do not disturb a queue with other nodes *)
Theorem C21_disjoint_untouched : forall h h' ql q l, holds h q l -> only_on ql h h' ->
  disjoint ql l -> holds h' q l.
Proof.
  intros h h' ql q l H O D. eapply holds_frame; [exact H|]. intros x Hx. apply O. intros K. apply (D x); auto.
Qed.

(** ** C22 *)

(** exactly when splice does what it should: it must not insert before the first element of a
    non-empty queue; a range starting at other's first element must be the whole of other and go
    to the end; any other range must leave something behind it in other *)
Theorem C22_splice_correct_iff_partial : forall h q o a1 a2 b1 m b2,
  holds h q (a1 ++ a2) -> holds h o (b1 ++ m ++ b2) -> disjoint (a1 ++ a2) (b1 ++ m ++ b2) ->
  m <> [] ->
  (exists h' q' o',
     splice h q (at_pos (a1 ++ a2) (length a1)) o
       (at_pos (b1 ++ m ++ b2) (length b1)) (at_pos (b1 ++ m ++ b2) (length (b1 ++ m)))
       = Some (h', q', o') /\
     holds h' q' (a1 ++ m ++ a2) /\ holds h' o' (b1 ++ b2) /\ only_on (a1 ++ b1 ++ m) h h')
  <-> (a1 <> [] \/ a2 = []) /\ (b1 = [] -> a2 = [] /\ b2 = []) /\ (b1 <> [] -> b2 <> []).
Proof.
  intros. split.
  - intros C. eapply splice_correct_safe; eauto.
  - intros C. eapply splice_safe_correct; eauto.
Qed.

(** an empty range changes nothing *)
Theorem C22_splice_empty_range : forall h q pos o i, splice h q pos o i i = Some (h, q, o).
Proof.
  intros. unfold splice, ieqb. rewrite !ptr_eqb_refl. reflexivity.
Qed.

(** taking a prefix of other into an empty queue that is then cleared (static_thread_pool.hpp
    L979-987) leaves other with the rest *)
Theorem C22_splice_prefix_then_clear : forall h o m b2, holds h o (m ++ b2) -> m <> [] ->
  exists q' o', splice h qempty (ibegin qempty) o (ibegin o) (at_pos (m ++ b2) (length m))
    = Some (h, q', o') /\ holds h o' b2.
Proof.
  intros h o m b2 H Hm. unfold splice.
  pose proof (@first_ne_last h qempty o [] [] [] m b2) as F. simpl in F.
  assert (E : ibegin o = at_pos (m ++ b2) 0).
  { unfold ibegin, at_pos. simpl. f_equal. destruct H as [H _]. eapply lseg_head; eauto. }
  rewrite E, F; auto; [|repeat split; auto; constructor|intros x []].
  rewrite <- E. unfold ibegin at 1. simpl iitem. rewrite ptr_eqb_refl. simpl.
  do 2 eexists. split; [reflexivity|].
  destruct H as [H1 [H2 H3]]. apply lseg_app in H1. destruct H1 as [p [_ H1]].
  apply NoDup_app_iff in H3. destruct H3 as [_ [H3 _]].
  assert (P : head_ptr (skipn (length m) (m ++ b2)) = head_ptr b2).
  { rewrite skipn_app, skipn_all, Nat.sub_diag; auto. }
  repeat split; simpl; auto; rewrite P.
  - rewrite <- (@lseg_head _ _ _ H1). auto.
  - destruct b2; simpl; auto. rewrite H2. apply last_ptr_app2. discriminate.
Qed.

(** The full statement of C22 is false.  Moving the first node of [4;5] into [1;2] before 2 loses
    the node 2 and puts 5 in both queues. *)
Definition h0 : heap := fun n => match n with 1 => Some 2 | 4 => Some 5 | _ => None end.
Definition q12 := {| qhead := Some 1; qtail := Some 2 |}.
Definition q45 := {| qhead := Some 4; qtail := Some 5 |}.
Example q12_holds : holds h0 q12 [1; 2] /\ holds h0 q45 [4; 5].
Proof. repeat split; auto; repeat constructor; simpl; intuition discriminate. Qed.

Theorem C22_splice_refuted :
  exists h q o l1 l2 l3 h' q' o',
    holds h q (l1 ++ l2) /\ holds h o l3 /\ disjoint (l1 ++ l2) l3 /\
    splice h q (at_pos (l1 ++ l2) (length l1)) o (at_pos l3 0) (at_pos l3 1) = Some (h', q', o') /\
    ~ holds h' q' (l1 ++ firstn 1 l3 ++ l2) /\ lseg h' (qhead q') [1; 4; 5] None.
Proof.
  exists h0, q12, q45, [1], [2], [4; 5]. do 3 eexists. split; [apply q12_holds|].
  split; [apply q12_holds|]. split; [intros x Hx Hy; simpl in *; lia|].
  split; [reflexivity|]. split.
  - intros [H _]. simpl in H. destruct H as [_ [_ [H _]]]. discriminate.
  - simpl; auto.
Qed.

(** non-vacuity of the safe case: the middle node of [4;5;6] moves between 1 and 2 *)
Definition h1 : heap := fun n => match n with 1 => Some 2 | 4 => Some 5 | 5 => Some 6 | _ => None end.
Example splice_demo :
  match splice h1 q12 (at_pos [1; 2] 1) {| qhead := Some 4; qtail := Some 6 |}
          (at_pos [4; 5; 6] 1) (at_pos [4; 5; 6] 2) with
  | Some (h', q', o') => iterate 5 h' q' (ibegin q') = Some [1; 5; 2] /\
                         iterate 5 h' o' (ibegin o') = Some [4; 6]
  | None => False
  end.
Proof. split; reflexivity. Qed.

Example ops_demo :
  match push_back h0 q12 9 with
  | Some (h', q') => iterate 5 h' q' (ibegin q') = Some [1; 2; 9]
  | None => False
  end.
Proof. reflexivity. Qed.

Print Assumptions C21_push_back.
Print Assumptions C21_make_reversed.
Print Assumptions C21_iteration.
Print Assumptions C22_splice_correct_iff_partial.
Print Assumptions C22_splice_prefix_then_clear.
Print Assumptions C22_splice_refuted.
Print Assumptions C21_move.
