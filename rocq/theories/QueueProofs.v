(** * QueueProofs: the intrusive queue operations implement list operations. *)
From Coq Require Import List Arith Bool Lia.
From Verif Require Import Conc QueueModel QueueSpec.
Import ListNotations.
Set Implicit Arguments.

Lemma ptr_eqb_eq a b : ptr_eqb a b = true <-> a = b.
Proof.
  destruct a, b; simpl; try (split; congruence). rewrite Nat.eqb_eq. split; congruence.
Qed.
Lemma ptr_eqb_refl a : ptr_eqb a a = true.
Proof. apply ptr_eqb_eq; auto. Qed.

Lemma lseg_app h l1 : forall l2 p r, lseg h p (l1 ++ l2) r <-> exists m, lseg h p l1 m /\ lseg h m l2 r.
Proof.
  induction l1 as [|x l1 IH]; simpl; intros.
  - split; [eauto|intros [m [-> H]]; auto].
  - rewrite IH. split; [intros [H1 [m [H2 H3]]]; eauto|intros [m [[H1 H2] H3]]; eauto].
Qed.

Lemma lseg_frame h h' l : forall p r, lseg h p l r -> (forall x, In x l -> h' x = h x) -> lseg h' p l r.
Proof.
  induction l as [|x l IH]; simpl; intros p r H F; auto.
  destruct H as [-> H]. split; auto. rewrite F; auto.
Qed.

Lemma lseg_head h l p : lseg h p l None -> p = head_ptr l.
Proof. destruct l; simpl; [auto|tauto]. Qed.

Lemma last_ptr_app l x : last_ptr (l ++ [x]) = Some x.
Proof. unfold last_ptr. rewrite rev_app_distr; auto. Qed.
Lemma last_ptr_none l : last_ptr l = None -> l = [].
Proof.
  unfold last_ptr. intros H. destruct (rev l) eqn:E; [|discriminate].
  rewrite <- (rev_involutive l), E; auto.
Qed.
Lemma last_ptr_cons x l : l <> [] -> last_ptr (x :: l) = last_ptr l.
Proof.
  intros N. destruct (exists_last N) as [l' [y ->]].
  change (x :: l' ++ [y]) with ((x :: l') ++ [y]). rewrite !last_ptr_app; auto.
Qed.
Lemma last_ptr_app2 l l2 : l2 <> [] -> last_ptr (l ++ l2) = last_ptr l2.
Proof.
  intros N. destruct (exists_last N) as [l' [y ->]]. rewrite app_assoc, !last_ptr_app; auto.
Qed.
Lemma last_ptr_in l x : last_ptr l = Some x -> In x l.
Proof.
  intros H. destruct l as [|y l] using rev_ind; [discriminate|].
  rewrite last_ptr_app in H. inversion H; subst. apply in_or_app; right; left; auto.
Qed.
Lemma head_ptr_app a b : a <> [] -> head_ptr (a ++ b) = head_ptr a.
Proof. destruct a; simpl; congruence. Qed.

(** changing the next pointer of the last node of a chain *)
Lemma lseg_relink h l x p r r' : ~ In x l -> lseg h p (l ++ [x]) r -> lseg (fset h x r') p (l ++ [x]) r'.
Proof.
  intros N H. apply lseg_app in H. destruct H as [m [H1 [-> H2]]].
  apply lseg_app. exists (Some x). split.
  - eapply lseg_frame; eauto. intros y Hy. apply fset_other. intros ->; auto.
  - simpl. split; auto. apply fset_same.
Qed.

Lemma NoDup_snoc (l : list nat) x : NoDup (l ++ [x]) <-> NoDup l /\ ~ In x l.
Proof.
  split.
  - intros H. split; [eapply NoDup_remove_1 in H; rewrite app_nil_r in H; auto|].
    apply NoDup_remove_2 in H. rewrite app_nil_r in H; auto.
  - intros [H N]. apply NoDup_app_comm || idtac.
    induction l as [|y l IH]; simpl; [constructor; auto; constructor|].
    inversion H; subst. constructor.
    + rewrite in_app_iff. intros [K|[K|[]]]; auto. subst. apply N; left; auto.
    + apply IH; auto. intros K; apply N; right; auto.
Qed.

Lemma NoDup_app_iff (a b : list nat) : NoDup (a ++ b) <-> NoDup a /\ NoDup b /\ disjoint a b.
Proof.
  unfold disjoint. induction a as [|x a IH]; simpl.
  - split; [intros; repeat split; auto; constructor|tauto].
  - split.
    + intros H. inversion H; subst. apply IH in H3. destruct H3 as [H3 [H4 H5]].
      repeat split; auto.
      * constructor; auto. intros K; apply H2, in_or_app; auto.
      * intros y [<-|Hy] Hb; [apply H2, in_or_app; auto|eauto].
    + intros [H1 [H2 H3]]. inversion H1; subst. constructor.
      * rewrite in_app_iff. intros [K|K]; [auto|]. eapply H3; [left; reflexivity|auto].
      * apply IH. repeat split; auto. intros y Hy Hb. eapply H3; eauto.
Qed.

Lemma holds_empty h l : holds h qempty l -> l = [].
Proof. intros [H [H2 _]]. apply last_ptr_none. auto. Qed.
Lemma holds_nil h q : holds h q [] -> q = qempty.
Proof. intros [H [H2 _]]. simpl in H. unfold last_ptr in H2; simpl in H2. destruct q; simpl in *; subst; auto. Qed.

Lemma holds_frame h h' q l : holds h q l -> (forall x, In x l -> h' x = h x) -> holds h' q l.
Proof. intros [H1 [H2 H3]] F. repeat split; auto. eapply lseg_frame; eauto. Qed.

Lemma empty_spec h q l : holds h q l -> (empty q = true <-> l = []).
Proof.
  intros [H _]. apply lseg_head in H. unfold empty, is_null. rewrite H, ptr_eqb_eq.
  destruct l; simpl; split; congruence.
Qed.
Lemma tail_null_spec h q l : holds h q l -> (is_null (qtail q) = true <-> l = []).
Proof.
  intros [_ [H _]]. unfold is_null. rewrite H, ptr_eqb_eq. split.
  - apply last_ptr_none. - intros ->; auto.
Qed.

(** ** push_back, push_front, pop_front *)
Lemma push_back_ok h q l x : holds h q l -> ~ In x l -> exists h' q',
  push_back h q x = Some (h', q') /\ holds h' q' (l ++ [x]) /\ only_on (x :: l) h h'.
Proof.
  intros H N. pose proof (tail_null_spec H) as T. unfold push_back. simpl.
  destruct (is_null (qtail q)) eqn:E.
  - assert (l = []) by (apply T; auto). subst. do 2 eexists. split; [reflexivity|].
    split; [|intros y Hy; apply fset_other; intros ->; apply Hy; left; auto].
    repeat split; auto; simpl; [apply fset_same|constructor; auto; constructor].
  - destruct H as [H1 [H2 H3]].
    destruct l as [|z l _] using rev_ind; [exfalso; assert (false = true) by (apply T; auto); discriminate|].
    rewrite H2, last_ptr_app. simpl. do 2 eexists. split; [reflexivity|].
    apply NoDup_snoc in H3. destruct H3 as [H3 H4].
    assert (z <> x) by (intros ->; apply N, in_or_app; right; left; auto).
    split.
    + repeat split; simpl.
      * apply lseg_app. exists (Some x). split.
        -- apply lseg_relink with (r := None); auto.
           eapply lseg_frame; [exact H1|]. intros y Hy. apply fset_other. intros ->; auto.
        -- simpl. split; auto. rewrite fset_other; auto. apply fset_same.
      * rewrite last_ptr_app; auto.
      * apply NoDup_snoc. split; auto. apply NoDup_snoc; auto.
    + intros y Hy. simpl in Hy. rewrite in_app_iff in Hy. simpl in Hy.
      rewrite !fset_other; auto; intros ->; tauto.
Qed.

Lemma push_front_ok h q l x : holds h q l -> ~ In x l -> exists h' q',
  push_front h q x = Some (h', q') /\ holds h' q' (x :: l) /\ only_on [x] h h'.
Proof.
  intros H N. pose proof (tail_null_spec H) as T. unfold push_front. simpl.
  do 2 eexists. split; [reflexivity|]. destruct H as [H1 [H2 H3]].
  split; [|intros y Hy; apply fset_other; intros ->; apply Hy; left; auto].
  repeat split; simpl.
  - rewrite fset_same. eapply lseg_frame; eauto. intros y Hy. apply fset_other. intros ->; auto.
  - destruct (is_null (qtail q)) eqn:E.
    + assert (l = []) by (apply T; auto). subst; auto.
    + rewrite H2. rewrite last_ptr_cons; auto. intros ->. assert (false = true) by (apply T; auto).
      discriminate.
  - constructor; auto.
Qed.

Lemma pop_front_ok h q x l : holds h q (x :: l) -> exists q',
  pop_front h q = Some (q', Some x) /\ holds h q' l.
Proof.
  intros [[H1 H1'] [H2 H3]]. unfold pop_front. rewrite H1. simpl. eexists. split; [reflexivity|].
  inversion H3; subst. pose proof (@lseg_head _ _ _ H1') as E. repeat split; simpl; auto.
  unfold is_null. rewrite E. destruct l; simpl; auto.
  all: try (rewrite H2; apply last_ptr_cons; congruence).
Qed.

Lemma pop_front_empty_ub h q : holds h q [] -> pop_front h q = None.
Proof. intros H. rewrite (holds_nil H). reflexivity. Qed.

(** ** append, prepend *)
Lemma append_ok h q o l m : holds h q l -> holds h o m -> disjoint l m -> exists h' q',
  append h q o = Some (h', q') /\ holds h' q' (l ++ m) /\ only_on l h h'.
Proof.
  intros Hq Ho D. pose proof (empty_spec Hq) as E1. pose proof (empty_spec Ho) as E2.
  unfold append. destruct (empty o) eqn:Eo.
  - assert (m = []) by (apply E2; auto). subst. rewrite app_nil_r. do 2 eexists.
    split; [reflexivity|]. split; auto. intros y _; auto.
  - assert (Nm : m <> []) by (intros K; assert (false = true) by (apply E2; auto); discriminate).
    destruct Hq as [H1 [H2 H3]], Ho as [H4 [H5 H6]]. destruct (empty q) eqn:Eq.
    + assert (l = []) by (apply E1; auto). subst. do 2 eexists.
      split; [reflexivity|]. split; [repeat split; auto|intros y _; auto].
    + destruct l as [|z l _] using rev_ind;
        [exfalso; assert (false = true) by (apply E1; auto); discriminate|].
      rewrite H2, last_ptr_app. simpl. do 2 eexists. split; [reflexivity|].
      assert (Nz : ~ In z m) by (intros K; apply (D z); auto; apply in_or_app; right; left; auto).
      pose proof H3 as H3'. apply NoDup_snoc in H3. destruct H3 as [H3 H7].
      split.
      * repeat split; simpl.
        -- apply lseg_app. exists (qhead o). split; [eapply lseg_relink; eauto|].
           eapply lseg_frame; eauto. intros y Hy. apply fset_other. intros ->; auto.
        -- rewrite last_ptr_app2; auto.
        -- apply NoDup_app_iff; auto.
      * intros y Hy. apply fset_other. intros ->. apply Hy, in_or_app; right; left; auto.
Qed.

Lemma prepend_ok h q o l m : holds h q l -> holds h o m -> disjoint l m -> exists h' q',
  prepend h q o = Some (h', q') /\ holds h' q' (m ++ l) /\ only_on m h h'.
Proof.
  intros Hq Ho D. pose proof (tail_null_spec Hq) as E1. pose proof (empty_spec Ho) as E2.
  unfold prepend. destruct (empty o) eqn:Eo.
  - assert (m = []) by (apply E2; auto). subst. simpl. do 2 eexists.
    split; [reflexivity|]. split; auto. intros y _; auto.
  - destruct Hq as [H1 [H2 H3]], Ho as [H4 [H5 H6]].
    destruct m as [|z m _] using rev_ind;
        [exfalso; assert (false = true) by (apply E2; auto); discriminate|].
    rewrite H5, last_ptr_app. simpl. do 2 eexists. split; [reflexivity|].
    assert (Nz : ~ In z l) by (intros K; apply (D z); auto; apply in_or_app; right; left; auto).
    pose proof H6 as H6'. apply NoDup_snoc in H6. destruct H6 as [H6 H7].
    split.
    + repeat split; simpl.
      * apply lseg_app. exists (qhead q). split; [eapply lseg_relink; eauto|].
        eapply lseg_frame; eauto. intros y Hy. apply fset_other. intros ->; auto.
      * destruct (is_null (qtail q)) eqn:E.
        -- assert (l = []) by (apply E1; auto). subst. rewrite app_nil_r, last_ptr_app; auto.
        -- rewrite H2, last_ptr_app2; auto. intros ->. assert (false = true) by (apply E1; auto).
           discriminate.
      * apply NoDup_app_iff; repeat split; auto. intros y Hy Hl. eapply D; eauto.
    + intros y Hy. apply fset_other. intros ->. apply Hy, in_or_app; right; left; auto.
Qed.

(** ** make, make_reversed *)
Lemma rev_loop_ok : forall l fuel h p acc nh, lseg h p l None -> lseg h nh acc None ->
  NoDup (l ++ acc) -> length l <= fuel -> exists h',
  rev_loop fuel h p nh = Some (h', head_ptr (rev l ++ acc)) /\
  lseg h' (head_ptr (rev l ++ acc)) (rev l ++ acc) None /\ only_on l h h'.
Proof.
  induction l as [|x l IH]; intros fuel h p acc nh H1 H2 N F; simpl in *.
  - subst p. pose proof (@lseg_head _ _ _ H2). subst nh.
    exists h. destruct fuel; simpl; (split; [reflexivity|split; [auto|intros y _; auto]]).
  - destruct H1 as [-> H1]. destruct fuel as [|fuel]; [lia|]. simpl.
    inversion N as [|? ? N1 N2]; subst.
    assert (Nx : ~ In x l) by (intros K; apply N1, in_or_app; auto).
    assert (Nx' : ~ In x acc) by (intros K; apply N1, in_or_app; auto).
    destruct (IH fuel (fset h x nh) (h x) (x :: acc) (Some x)) as [h' [E1 [E2 E3]]].
    + eapply lseg_frame; eauto. intros y Hy. apply fset_other. intros ->; auto.
    + simpl. split; auto. rewrite fset_same. eapply lseg_frame; eauto.
      intros y Hy. apply fset_other. intros ->; auto.
    + apply NoDup_app_iff in N2. destruct N2 as [N2 [N3 N4]].
      apply NoDup_app_iff. repeat split; auto; [constructor; auto|].
      intros y Hy [<-|Hy']; [auto|eapply N4; eauto].
    + lia.
    + rewrite <- app_assoc. simpl. exists h'. split; [exact E1|]. split; [exact E2|].
      intros y Hy. simpl in Hy. rewrite E3; [|tauto]. apply fset_other. intros ->; tauto.
Qed.

Lemma make_reversed_ok h p l fuel : lseg h p l None -> NoDup l -> length l <= fuel ->
  exists h' q', make_reversed fuel h p = Some (h', q') /\ holds h' q' (rev l) /\ only_on l h h'.
Proof.
  intros H N F. destruct (@rev_loop_ok l fuel h p [] None H) as [h' [E1 [E2 E3]]]; auto.
  - reflexivity.
  - rewrite app_nil_r; auto.
  - rewrite app_nil_r in *. unfold make_reversed. rewrite E1. do 2 eexists. split; [reflexivity|].
    split; [|auto]. repeat split; simpl; auto; [|apply NoDup_rev; auto].
    unfold last_ptr. rewrite rev_involutive. rewrite (@lseg_head _ _ _ H). destruct l; auto.
Qed.

Lemma make_loop_ok : forall l fuel h x, lseg h (h x) l None -> length l <= fuel ->
  make_loop fuel h x = Some (match rev l with [] => x | y :: _ => y end).
Proof.
  induction l as [|y l IH]; intros fuel h x H F; simpl in H.
  - destruct fuel; simpl; rewrite H; auto.
  - destruct H as [Hx H]. destruct fuel as [|fuel]; simpl in F; [lia|].
    simpl. rewrite Hx. rewrite (IH fuel h y); [|auto|lia]. simpl.
    destruct (rev l); auto.
Qed.

Lemma make_ok h p l fuel : lseg h p l None -> NoDup l -> length l <= fuel ->
  exists q', make fuel h p = Some q' /\ holds h q' l.
Proof.
  intros H N F. destruct l as [|x l]; simpl in H.
  - subst. exists qempty. repeat split; auto.
  - destruct H as [-> H]. simpl in F. unfold make. rewrite (@make_loop_ok l fuel h x H); [|lia].
    eexists. split; [reflexivity|]. repeat split; simpl; auto.
    unfold last_ptr. simpl. destruct (rev l); auto.
Qed.

(** ** iteration *)
Lemma at_pos_app a b : at_pos (a ++ b) (length a) = {| ipred := last_ptr a; iitem := head_ptr b |}.
Proof.
  unfold at_pos. rewrite firstn_app, skipn_app, Nat.sub_diag, firstn_all, skipn_all. simpl.
  rewrite app_nil_r; auto.
Qed.

Lemma iterate_ok h q : forall b a fuel, holds h q (a ++ b) -> length b <= fuel ->
  iterate fuel h q (at_pos (a ++ b) (length a)) = Some b.
Proof.
  induction b as [|x b IH]; intros a fuel H F; rewrite at_pos_app.
  - destruct H as [_ [H2 _]]. rewrite app_nil_r in H2.
    destruct fuel; simpl; unfold ieqb, iend; simpl; rewrite H2, ptr_eqb_refl; auto.
  - destruct fuel as [|fuel]; simpl in F; [lia|]. cbn [iterate].
    unfold ieqb, iend. simpl. rewrite andb_false_r. simpl.
    assert (E : inext h {| ipred := last_ptr a; iitem := Some x |}
              = at_pos ((a ++ [x]) ++ b) (length (a ++ [x]))).
    { rewrite at_pos_app, last_ptr_app. unfold inext; simpl. f_equal.
      destruct H as [H _]. apply lseg_app in H. destruct H as [m [_ [_ H]]].
      apply lseg_head in H; auto. }
    rewrite E. rewrite IH; [auto| |lia]. rewrite <- app_assoc; auto.
Qed.

(** ** splice *)
Lemma last_fset_miss h l x v : ~ In x l -> only_on [x] h (fset h x v).
Proof. intros _ y Hy. apply fset_other. intros ->. apply Hy; left; auto. Qed.

Lemma lseg_last_next h p l x r : lseg h p (l ++ [x]) r -> h x = r.
Proof. intros H. apply lseg_app in H. destruct H as [m [_ [_ H]]]. simpl in H. auto. Qed.

Definition splice_safe (a1 a2 b1 b2 : list nat) : Prop :=
  (a1 <> [] \/ a2 = []) /\ (b1 = [] -> a2 = [] /\ b2 = []) /\ (b1 <> [] -> b2 <> []).

Section Splice.
Variables (h : heap) (q o : queue) (a1 a2 b1 m b2 : list nat).
Hypothesis Hq : holds h q (a1 ++ a2).
Hypothesis Ho : holds h o (b1 ++ m ++ b2).
Hypothesis D : disjoint (a1 ++ a2) (b1 ++ m ++ b2).
Hypothesis Hm : m <> [].

Let pos := at_pos (a1 ++ a2) (length a1).
Let first := at_pos (b1 ++ m ++ b2) (length b1).
Let last := at_pos (b1 ++ m ++ b2) (length (b1 ++ m)).

Lemma pos_eq : pos = {| ipred := last_ptr a1; iitem := head_ptr a2 |}.
Proof. apply at_pos_app. Qed.
Lemma first_eq : first = {| ipred := last_ptr b1; iitem := head_ptr m |}.
Proof. unfold first. rewrite at_pos_app. f_equal. apply head_ptr_app; auto. Qed.
Lemma last_eq : last = {| ipred := last_ptr m; iitem := head_ptr b2 |}.
Proof.
  unfold last. rewrite app_assoc, at_pos_app. f_equal. apply last_ptr_app2; auto.
Qed.

Lemma nd : NoDup (a1 ++ a2) /\ NoDup (b1 ++ m ++ b2).
Proof. destruct Hq as [_ [_ A]], Ho as [_ [_ B]]. auto. Qed.

Lemma first_ne_last : ieqb first last = false.
Proof.
  rewrite first_eq, last_eq. unfold ieqb. simpl.
  destruct nd as [_ N]. destruct m as [|x m']; [congruence|].
  destruct b2 as [|y b2']; simpl; [rewrite andb_false_r; auto|].
  destruct (Nat.eqb_spec x y) as [->|]; [|rewrite andb_false_r; auto].
  exfalso. apply NoDup_app_iff in N. destruct N as [_ [N _]]. apply NoDup_app_iff in N.
  destruct N as [_ [_ N]]. apply (N y); left; auto.
Qed.

Lemma head_o : ptr_eqb (qhead o) (iitem first) = true <-> b1 = [].
Proof.
  rewrite ptr_eqb_eq, first_eq. simpl. destruct Ho as [H1 [_ N]]. rewrite (@lseg_head _ _ _ H1).
  destruct m as [|x m']; [congruence|]. destruct b1 as [|z b1']; simpl.
  - split; auto.
  - split; [|discriminate]. intros K. inversion K; subst. exfalso.
    simpl in N. inversion N as [|? ? N1 _]; subst. apply N1. apply in_or_app; right; left; auto.
Qed.

(** where the chains lead *)
Lemma o_parts : exists p1 p2, lseg h (qhead o) b1 p1 /\ lseg h p1 m p2 /\ lseg h p2 b2 None /\
  p1 = head_ptr m /\ p2 = head_ptr b2.
Proof.
  destruct Ho as [H _]. apply lseg_app in H. destruct H as [p1 [H1 H]].
  apply lseg_app in H. destruct H as [p2 [H2 H3]]. exists p1, p2. repeat split; auto.
  - destruct m; [congruence|]. simpl in H2. tauto.
  - eapply lseg_head; eauto.
Qed.
Lemma q_parts : exists p1, lseg h (qhead q) a1 p1 /\ lseg h p1 a2 None /\ p1 = head_ptr a2.
Proof.
  destruct Hq as [H _]. apply lseg_app in H. destruct H as [p1 [H1 H]].
  exists p1. repeat split; auto. eapply lseg_head; eauto.
Qed.

Lemma empty_q : empty q = true <-> a1 = [] /\ a2 = [].
Proof. rewrite (empty_spec Hq). split; [apply app_eq_nil|intros [-> ->]; auto]. Qed.

End Splice.

Definition correct h q o a1 a2 b1 m b2 : Prop := exists h' q' o',
  splice h q (at_pos (a1 ++ a2) (length a1)) o (at_pos (b1 ++ m ++ b2) (length b1))
    (at_pos (b1 ++ m ++ b2) (length (b1 ++ m))) = Some (h', q', o') /\
  holds h' q' (a1 ++ m ++ a2) /\ holds h' o' (b1 ++ b2) /\ only_on (a1 ++ b1 ++ m) h h'.

Lemma splice_safe_correct h q o a1 a2 b1 m b2 :
  holds h q (a1 ++ a2) -> holds h o (b1 ++ m ++ b2) -> disjoint (a1 ++ a2) (b1 ++ m ++ b2) ->
  m <> [] -> splice_safe a1 a2 b1 b2 -> correct h q o a1 a2 b1 m b2.
Proof.
  intros Hq Ho D Hm [S1 [S2 S3]]. unfold correct, splice.
  pose proof (first_ne_last _ _ _ _ Hq Ho D Hm) as first_ne_last. pose proof (head_o _ _ _ _ Ho D Hm) as head_o.
  pose proof (first_eq b1 b2 Hm) as first_eq. pose proof (last_eq b1 b2 Hm) as last_eq.
  pose proof (pos_eq a1 a2) as pos_eq. pose proof (empty_q _ _ _ _ _ Hq D) as empty_q.
  pose proof (o_parts _ _ _ _ Ho D Hm) as o_parts. pose proof (q_parts a1 a2 Hq) as q_parts.
  pose proof (nd _ _ _ _ _ Hq Ho) as nd.
  set (first := at_pos (b1 ++ m ++ b2) (length b1)) in *.
  set (last := at_pos (b1 ++ m ++ b2) (length (b1 ++ m))) in *.
  set (pos := at_pos (a1 ++ a2) (length a1)) in *. clearbody first last pos.
  rewrite first_ne_last.
  destruct nd as [Na Nb]. apply NoDup_app_iff in Na. destruct Na as [Na1 [Na2 Da]].
  apply NoDup_app_iff in Nb. destruct Nb as [Nb1 [Nb2 Db]].
  apply NoDup_app_iff in Nb2. destruct Nb2 as [Nm [Nb2 Dm]].
  destruct o_parts as [p1 [p2 [O1 [O2 [O3 [P1 P2]]]]]].
  destruct q_parts as [p3 [Q1 [Q2 P3]]].
  assert (Dam : forall x, In x a1 \/ In x a2 -> In x b1 \/ In x m \/ In x b2 -> False).
  { intros x Ha Hb. apply (D x); rewrite ?in_app_iff; auto. }
  destruct (ptr_eqb (qhead o) (iitem first)) eqn:EH.
  - (* whole of other, at the end *)
    assert (b1 = []) by (apply head_o; auto). destruct S2 as [-> ->]; auto. subst b1.
    rewrite first_eq, last_eq, pos_eq. simpl. simpl in *. subst p2 p3.
    destruct (empty q) eqn:EQ.
    + destruct empty_q as [K _]. destruct (K eq_refl) as [-> _]. do 3 eexists. split; [reflexivity|].
      rewrite app_nil_r. simpl. split; [|split].
      * repeat split; simpl; auto. rewrite <- P1; subst p1; auto.
      * repeat split; auto; try constructor.
      * intros x _; auto.
    + destruct a1 as [|z a _] using rev_ind; [exfalso; destruct empty_q as [_ K]; specialize (K (conj eq_refl eq_refl)); discriminate|].
      rewrite last_ptr_app. simpl. do 3 eexists. split; [reflexivity|]. rewrite app_nil_r.
      apply NoDup_snoc in Na1. destruct Na1 as [Na1 Nz].
      assert (Nzm : ~ In z m) by (intros K; eapply Dam; eauto; left; apply in_or_app; right; left; auto).
      split; [|split].
      * repeat split; simpl.
        -- apply lseg_app. exists (head_ptr m). split; [eapply lseg_relink; eauto|].
           rewrite <- P1. eapply lseg_frame; eauto. intros y Hy. apply fset_other. intros ->; auto.
        -- rewrite last_ptr_app2; auto.
        -- apply NoDup_app_iff. split; [apply NoDup_snoc; auto|split; auto].
           intros x Hx Hx'. eapply Dam; eauto.
      * repeat split; auto; try constructor.
      * intros x Hx. apply fset_other. intros ->. apply Hx. rewrite !in_app_iff. simpl. tauto.
  - (* from the middle *)
    assert (Nb1' : b1 <> []) by (intros K; apply head_o in K; congruence).
    assert (Nb2' : b2 <> []) by auto.
    assert (ER : exists y b, b1 = b ++ [y]) by (destruct (exists_last Nb1') as [b [y ->]]; eauto).
    assert (EM : exists w mm, m = mm ++ [w]) by (destruct (exists_last Hm) as [b [y ->]]; eauto).
    destruct ER as [y [b ->]], EM as [w [mm EM]].
    rewrite first_eq, last_eq, pos_eq. simpl. rewrite last_ptr_app.
    assert (LM : last_ptr m = Some w) by (rewrite EM; apply last_ptr_app). rewrite LM. simpl.
    apply NoDup_snoc in Nb1. destruct Nb1 as [Nb1 Ny].
    assert (Iw : In w m) by (rewrite EM; apply in_or_app; right; left; auto).
    assert (Iy : In y (b ++ [y])) by (apply in_or_app; right; left; auto).
    assert (Nym : ~ In y m) by (intros K; eapply Db; [exact Iy|]; apply in_or_app; auto).
    assert (Nyb2 : ~ In y b2) by (intros K; eapply Db; [exact Iy|]; apply in_or_app; auto).
    assert (Nwb : ~ In w (b ++ [y])) by (intros K; eapply Db; [exact K|]; apply in_or_app; auto).
    assert (Nwb2 : ~ In w b2) by (intros K; eapply Dm; eauto).
    assert (Nya : ~ In y a1) by (intros K; eapply Dam; eauto).
    assert (Nya2 : ~ In y a2) by (intros K; eapply Dam; eauto).
    assert (Nwa : ~ In w a1) by (intros K; eapply Dam; eauto).
    assert (Nwa2 : ~ In w a2) by (intros K; eapply Dam; eauto).
    set (h1 := fset (fset h y (head_ptr b2)) w (head_ptr a2)).
    assert (L1 : lseg h1 (qhead o) (b ++ [y]) (head_ptr b2)).
    { eapply lseg_frame; [eapply lseg_relink; [auto|exact O1]|]. intros x Hx. unfold h1.
      apply fset_other. intros ->; auto. }
    assert (L2 : lseg h1 (head_ptr m) m (head_ptr a2)).
    { rewrite EM at 2. unfold h1. eapply lseg_relink with (r := p2).
      - rewrite EM in Nm. apply NoDup_snoc in Nm. tauto.
      - rewrite <- EM, <- P1. eapply lseg_frame; eauto. intros x Hx. apply fset_other.
        intros ->; auto. }
    assert (L3 : lseg h1 (head_ptr b2) b2 None).
    { subst p2. eapply lseg_frame; eauto. intros x Hx. unfold h1. rewrite !fset_other; auto; intros ->; auto. }
    assert (L4 : lseg h1 (qhead q) a1 p3).
    { eapply lseg_frame; eauto. intros x Hx. unfold h1. rewrite !fset_other; auto; intros ->; auto. }
    assert (L5 : lseg h1 (head_ptr a2) a2 None).
    { subst p3. eapply lseg_frame; eauto. intros x Hx. unfold h1. rewrite !fset_other; auto; intros ->; auto. }
    destruct (empty q) eqn:EQ.
    + destruct empty_q as [K _]. destruct (K eq_refl) as [-> ->]. do 3 eexists. split; [reflexivity|].
      rewrite app_nil_r. simpl. split; [|split].
      * repeat split; simpl; auto.
      * repeat split; simpl.
        -- apply lseg_app. eauto.
        -- destruct Ho as [_ [T _]]. rewrite T. rewrite !app_assoc, !last_ptr_app2; auto.
        -- apply NoDup_app_iff. split; [apply NoDup_snoc; auto|split; auto].
           intros x Hx Hx'. eapply Db; eauto. apply in_or_app; auto.
      * intros x Hx. rewrite !in_app_iff in Hx. unfold h1.
        rewrite !fset_other; auto; intros ->; simpl in Hx; tauto.
    + destruct S1 as [S1|S1].
      2:{ subst a2. assert (a1 <> []) by (intros ->; destruct empty_q as [_ K]; specialize (K (conj eq_refl eq_refl)); discriminate).
          clear S2. revert H. intros S1. 
          assert (EA : exists z a, a1 = a ++ [z]) by (destruct (exists_last S1) as [b' [y' ->]]; eauto).
          destruct EA as [z [a ->]]. rewrite last_ptr_app. simpl. do 3 eexists. split; [reflexivity|].
          rewrite app_nil_r. apply NoDup_snoc in Na1. destruct Na1 as [Na1 Nz].
          assert (Iz : In z (a ++ [z])) by (apply in_or_app; right; left; auto).
          split; [|split].
          - repeat split; simpl.
            + apply lseg_app. exists (head_ptr m). split; [eapply lseg_relink; eauto|].
              eapply lseg_frame; eauto. intros x Hx. apply fset_other. intros ->; eapply Dam; eauto.
            + rewrite last_ptr_app2; auto.
            + apply NoDup_app_iff. split; [apply NoDup_snoc; auto|split; auto].
              intros x Hx Hx'. eapply Dam; eauto.
          - repeat split; simpl.
            + eapply lseg_frame; [apply lseg_app; eauto|]. intros x Hx. apply fset_other.
              intros ->. eapply Dam; eauto. apply in_app_iff in Hx. tauto.
            + destruct Ho as [_ [T _]]. rewrite T. rewrite !app_assoc, !last_ptr_app2; auto.
            + apply NoDup_app_iff. split; [apply NoDup_snoc; auto|split; auto].
              intros x Hx Hx'. eapply Db; eauto. apply in_or_app; auto.
          - intros x Hx. rewrite !in_app_iff in Hx. unfold h1.
            rewrite !fset_other; auto; intros ->; simpl in Hx; rewrite ?in_app_iff in Iz; simpl in Iz; tauto. }
      assert (EA : exists z a, a1 = a ++ [z]) by (destruct (exists_last S1) as [b' [y' ->]]; eauto).
      destruct EA as [z [a ->]]. rewrite last_ptr_app. simpl. do 3 eexists. split; [reflexivity|].
      apply NoDup_snoc in Na1. destruct Na1 as [Na1 Nz].
      assert (Iz : In z (a ++ [z])) by (apply in_or_app; right; left; auto).
      split; [|split].
      * repeat split; simpl.
        -- apply lseg_app. exists (head_ptr m). split; [eapply lseg_relink; eauto|].
           apply lseg_app. exists (head_ptr a2). split.
           ++ eapply lseg_frame; eauto. intros x Hx. apply fset_other. intros ->; eapply Dam; eauto.
           ++ eapply lseg_frame; eauto. intros x Hx. apply fset_other. intros ->; eapply Da; eauto.
        -- destruct a2 as [|c a2']; simpl.
           ++ rewrite app_nil_r, last_ptr_app2; auto.
           ++ destruct Hq as [_ [T _]]. rewrite T. rewrite !app_assoc, !last_ptr_app2; auto; discriminate.
        -- apply NoDup_app_iff. split; [apply NoDup_snoc; auto|split].
           ++ apply NoDup_app_iff. split; [auto|split; auto]. intros x Hx Hx'. eapply Dam; eauto.
           ++ intros x Hx Hx'. apply in_app_iff in Hx'. destruct Hx'; [eapply Dam; eauto|eapply Da; eauto].
      * repeat split; simpl.
        -- eapply lseg_frame; [apply lseg_app; eauto|]. intros x Hx. apply fset_other.
           intros ->. eapply Dam; eauto. apply in_app_iff in Hx. tauto.
        -- destruct Ho as [_ [T _]]. rewrite T. rewrite !app_assoc, !last_ptr_app2; auto.
        -- apply NoDup_app_iff. split; [apply NoDup_snoc; auto|split; auto].
           intros x Hx Hx'. eapply Db; eauto. apply in_or_app; auto.
      * intros x Hx. rewrite !in_app_iff in Hx. unfold h1.
        rewrite !fset_other; auto; intros ->; simpl in Hx; rewrite ?in_app_iff in Iz; simpl in Iz; tauto.
Qed.

(** and only then *)
Lemma splice_correct_safe h q o a1 a2 b1 m b2 :
  holds h q (a1 ++ a2) -> holds h o (b1 ++ m ++ b2) -> disjoint (a1 ++ a2) (b1 ++ m ++ b2) ->
  m <> [] -> correct h q o a1 a2 b1 m b2 -> splice_safe a1 a2 b1 b2.
Proof.
  intros Hq Ho D Hm [h' [q' [o' [E [C1 [C2 _]]]]]]. unfold splice in E.
  pose proof (first_ne_last _ _ _ _ Hq Ho D Hm) as first_ne_last. pose proof (head_o _ _ _ _ Ho D Hm) as head_o.
  pose proof (first_eq b1 b2 Hm) as first_eq. pose proof (last_eq b1 b2 Hm) as last_eq.
  pose proof (pos_eq a1 a2) as pos_eq. pose proof (empty_q _ _ _ _ _ Hq D) as empty_q.
  pose proof (o_parts _ _ _ _ Ho D Hm) as o_parts. pose proof (q_parts a1 a2 Hq) as q_parts.
  pose proof (nd _ _ _ _ _ Hq Ho) as nd.
  set (first := at_pos (b1 ++ m ++ b2) (length b1)) in *.
  set (last := at_pos (b1 ++ m ++ b2) (length (b1 ++ m))) in *.
  set (pos := at_pos (a1 ++ a2) (length a1)) in *. clearbody first last pos.
  rewrite first_ne_last in E.
  destruct nd as [Na Nb].
  apply NoDup_app_iff in Nb. destruct Nb as [Nb1 [Nb2 Db]].
  apply NoDup_app_iff in Nb2. destruct Nb2 as [Nm [Nb2 Dm]].
  destruct o_parts as [p1 [p2 [O1 [O2 [O3 [P1 P2]]]]]].
  assert (Dam : forall x, In x a1 \/ In x a2 -> In x b1 \/ In x m \/ In x b2 -> False).
  { intros x Ha Hb. apply (D x); rewrite ?in_app_iff; auto. }
  assert (EM : exists w mm, m = mm ++ [w]) by (destruct (exists_last Hm) as [b [y ->]]; eauto).
  destruct EM as [w [mm EM]].
  assert (Iw : In w m) by (rewrite EM; apply in_or_app; right; left; auto).
  assert (Sa : a1 <> [] \/ a2 = []).
  { destruct a1 as [|x a1']; [|left; discriminate]. right.
    destruct a2 as [|x a2']; auto. exfalso.
    assert (EQ : empty q = false).
    { destruct (empty q) eqn:EQ; auto. destruct empty_q as [K _]. destruct (K eq_refl); discriminate. }
    rewrite EQ in E. rewrite pos_eq in E.
    cbn [ipred iitem last_ptr rev store] in E.
    destruct (if ptr_eqb (qhead o) (iitem first) then _ else _) as [[? ?]|]; discriminate. }
  split; [exact Sa|].
  (* next pointer of the last moved node in the final heap *)
  assert (F : h' w = head_ptr a2).
  { destruct C1 as [C1 _]. apply lseg_app in C1. destruct C1 as [r1 [_ C1]].
    apply lseg_app in C1. destruct C1 as [r2 [C1 C1']]. pose proof (@lseg_head _ _ _ C1'). subst r2.
    rewrite EM in C1. eapply lseg_last_next; eauto. }
  split.
  - intros Hb1. destruct (ptr_eqb (qhead o) (iitem first)) eqn:EH;
      [|exfalso; apply head_o in Hb1; congruence].
    assert (W : h w = head_ptr b2).
    { rewrite <- P2. rewrite EM in O2. eapply lseg_last_next; eauto. }
    assert (W' : h' w = h w).
    { destruct (empty q).
      - inversion E; subst; auto.
      - rewrite pos_eq in E. cbn [ipred iitem] in E.
        destruct (last_ptr a1) as [z|] eqn:LA; simpl in E; [|discriminate].
        inversion E; subst. apply fset_other. intros ->.
        eapply (Dam z); [left; apply last_ptr_in; auto|auto]. }
    rewrite F, W in W'. destruct a2 as [|x a2'], b2 as [|y b2']; simpl in W'; try discriminate; auto.
    inversion W'; subst. exfalso. apply (Dam y); [right; left; auto|right; right; left; auto].
  - intros Hb1 ->. destruct (ptr_eqb (qhead o) (iitem first)) eqn:EH; [exfalso; apply Hb1, head_o; auto|].
    assert (T : qtail o' = last_ptr b1) by (destruct C2 as [_ [T _]]; rewrite app_nil_r in T; auto).
    assert (T' : qtail o' = qtail o).
    { destruct (store h (ipred first) (iitem last)) as [ha|]; [|discriminate].
      destruct (store ha (ipred last) (iitem pos)) as [hb|]; [|discriminate].
      destruct (empty q); [inversion E; auto|].
      destruct (store hb (ipred pos) (iitem first)); [|discriminate]. inversion E; auto. }
    destruct Ho as [_ [T'' _]]. rewrite T, T'', app_nil_r, last_ptr_app2 in T'; auto.
    rewrite EM, last_ptr_app in T'. apply last_ptr_in in T'. eapply Db; eauto.
    rewrite app_nil_r. exact Iw.
Qed.



