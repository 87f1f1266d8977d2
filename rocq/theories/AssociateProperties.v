(** * AssociateProperties: C28 (associate part). *)
From Coq Require Import List Arith Bool Lia.
From Verif Require Import AssociateModel AssociateSpec.
Import ListNotations.
Set Implicit Arguments.

Definition newed (l : list event) (x : nat) : bool :=
  existsb (fun e => match e with ENew y => x =? y | _ => false end) l.
Definition startd (l : list event) (x : nat) : bool :=
  existsb (fun e => match e with EStart y => x =? y | _ => false end) l.
Definition stopd (l : list event) (x : nat) : bool :=
  existsb (fun e => match e with EStopped y => x =? y | _ => false end) l.
Definition live (l : list event) (a : aid) : Prop := n_ok a l = 1 /\ n_dis a l = 0.

Definition good (strict : bool) (e : event) (l : list event) : Prop :=
  match e with
  | ENew x => alive l x = false
  | EDel x => alive l x = true
  | EOk a x => n_ok a l = 0 /\ n_dis a l = 0
  | EFail x => True
  | EMove x y => alive l x = true /\ alive l y = false
  | EDis a => live l a /\ (strict = true -> forall x, under l x = Some a -> alive l x = false)
  | EStart x => alive l x = true /\ (exists a, under l x = Some a /\ live l a) /\ startd l x = false /\ stopd l x = false
  | EStopped x => newed l x = false /\ startd l x = false /\ stopd l x = false
  end.
Fixpoint hist (strict : bool) (l : list event) : Prop :=
  match l with [] => True | e :: l => good strict e l /\ hist strict l end.
Lemma hist_split b l1 : forall e l2, hist b (l1 ++ e :: l2) -> good b e l2.
Proof. induction l1; simpl; intros e l2 H; [tauto|]. apply IHl1. tauto. Qed.

Definition holds (o : obj) : option aid := match o with Data a | Op a _ => a | Dead => None end.
Definition pok (l : list event) (x : nat) (o : option obj) : Prop :=
  match o with
  | Some (Data (Some a)) => alive l x = true /\ under l x = Some a /\ live l a /\ startd l x = false /\ stopd l x = false
  | Some (Data None) => alive l x = false /\ startd l x = false /\ stopd l x = false
  | Some (Op (Some a) b) => alive l x = true /\ under l x = Some a /\ live l a /\ startd l x = b /\ stopd l x = false
  | Some (Op None b) => alive l x = false /\ newed l x = false /\ startd l x = false /\ stopd l x = b
  | Some Dead => alive l x = false /\ (stopd l x = true -> newed l x = false /\ startd l x = false)
  | None => alive l x = false /\ newed l x = false /\ under l x = None /\ startd l x = false /\ stopd l x = false
  end.
Record inv (strict : bool) (s : state) : Prop := {
  i_hist : hist strict (log s);
  i_pok : forall x, pok (log s) x (nth_error (objs s) x);
  i_dist : forall x y o p a, nth_error (objs s) x = Some o -> nth_error (objs s) y = Some p ->
           holds o = Some a -> holds p = Some a -> x = y;
  i_hold : forall a, n_ok a (log s) = n_dis a (log s) \/ (live (log s) a /\ exists x o, nth_error (objs s) x = Some o /\ holds o = Some a);
  i_fresh : forall a, nexta s <= a -> n_ok a (log s) = 0 /\ n_dis a (log s) = 0 /\ forall x, under (log s) x <> Some a }.

Lemma setn_length l : forall i o, length (setn l i o) = length l.
Proof. induction l; destruct i; simpl; intros; auto. Qed.
Lemma nth_setn l : forall i o j, nth_error (setn l i o) j =
  if j =? i then match nth_error l i with Some _ => Some o | None => None end else nth_error l j.
Proof.
  induction l as [|c l IH]; intros [|i] o [|j]; simpl; auto; destruct (_ =? _); auto.
Qed.
Lemma nth_push (l : list obj) o j : nth_error (l ++ [o]) j = if j =? length l then Some o else nth_error l j.
Proof.
  destruct (Nat.eqb_spec j (length l)) as [->|N].
  - rewrite nth_error_app2 by lia. rewrite Nat.sub_diag. reflexivity.
  - destruct (lt_dec j (length l)).
    + apply nth_error_app1; auto.
    + rewrite (proj2 (nth_error_None l j)) by lia. apply nth_error_None. rewrite app_length. simpl. lia.
Qed.

Lemma nok_cons a e l : n_ok a (e :: l) = (if is_ok a e then 1 else 0) + n_ok a l.
Proof. unfold n_ok. simpl. destruct (is_ok a e); auto. Qed.
Lemma ndis_cons a e l : n_dis a (e :: l) = (if is_dis a e then 1 else 0) + n_dis a l.
Proof. unfold n_dis. simpl. destruct (is_dis a e); auto. Qed.
Arguments n_ok : simpl never.
Arguments n_dis : simpl never.
Lemma newed_alive l x : newed l x = false -> alive l x = false.
Proof.
  induction l as [|e l IH]; simpl; auto. intros H. apply orb_false_elim in H. destruct H as [H1 H2].
  destruct e; auto; rewrite ?H1; auto. destruct (_ =? _); auto.
Qed.
Lemma len_none (l : list obj) : nth_error l (length l) = None.
Proof. apply nth_error_None. auto. Qed.
Lemma holder_alive s b x o a : inv b s -> nth_error (objs s) x = Some o -> holds o = Some a ->
  alive (log s) x = true /\ under (log s) x = Some a /\ live (log s) a.
Proof. intros I H E. pose proof (i_pok I x) as P. rewrite H in P. destruct o as [q|q st|]; simpl in *; subst; tauto || discriminate. Qed.
Lemma alive_holder s b x : inv b s -> alive (log s) x = true -> exists o a, nth_error (objs s) x = Some o /\ holds o = Some a /\ under (log s) x = Some a.
Proof.
  intros I H. pose proof (i_pok I x) as P. destruct (nth_error (objs s) x) as [o|].
  - exists o. destruct o as [[a|]|[a|] st|]; simpl in *; try (destruct P; congruence); exists a; tauto.
  - simpl in P. destruct P; congruence.
Qed.

Ltac nn := repeat match goal with
  | |- context [?a =? ?b] => destruct (Nat.eqb_spec a b); subst
  | H : context [?a =? ?b] |- _ => destruct (Nat.eqb_spec a b); subst
  end; simpl in *.
Ltac cnts := simpl in *; unfold live in *; rewrite ?nok_cons, ?ndis_cons in *; simpl in *.

(** moving the association out of x into a new object *)
Lemma inv_moved b s x a o : inv b s -> nth_error (objs s) x = Some (Data (Some a)) ->
  (o = Data (Some a) \/ o = Op (Some a) false) ->
  inv b (emit (push (put s x (Data None)) o) [EMove x (length (objs s)); ENew (length (objs s)); EDel x]).
Proof.
  intros I Hx Ho. set (y := length (objs s)).
  assert (X : x <> y) by (intros ->; unfold y in Hx; rewrite len_none in Hx; discriminate).
  pose proof (i_pok I x) as Px. rewrite Hx in Px. simpl in Px. destruct Px as (Px1 & Px2 & Px3 & Px4 & Px5).
  pose proof (i_pok I y) as Py. unfold y in Py at 2. rewrite len_none in Py. simpl in Py. destruct Py as (Py1 & Py2 & Py3 & Py4 & Py5).
  assert (HO : holds o = Some a) by (destruct Ho as [-> | ->]; auto).
  constructor; simpl.
  - repeat split; auto. apply Nat.eqb_neq in X. rewrite X. auto. apply I.
  - intros z. rewrite nth_push, nth_setn, setn_length. fold y.
    pose proof (i_pok I z) as Pz.
    destruct (Nat.eqb_spec z y) as [->|Zy].
    + apply Nat.eqb_neq in X. rewrite Nat.eqb_sym in X.
      destruct Ho as [-> | ->]; simpl; rewrite X, Nat.eqb_refl; cnts; auto.
    + destruct (Nat.eqb_spec z x) as [->|Zx].
      * rewrite Hx. simpl. rewrite Nat.eqb_refl. auto.
      * apply Nat.eqb_neq in Zy, Zx. destruct (nth_error (objs s) z) as [[[q|]|[q|] st|]|]; cnts; rewrite Zy, Zx; simpl; auto.
  - intros u v o1 o2 q. rewrite !nth_push, !nth_setn, setn_length, Hx. fold y.
    destruct (Nat.eqb_spec u y), (Nat.eqb_spec v y), (Nat.eqb_spec u x), (Nat.eqb_spec v x); subst; intros E1 E2 H1 H2; auto; try congruence;
      try (inversion E1; subst; discriminate); try (inversion E2; subst; discriminate).
    + inversion E1; subst. exfalso. apply n1. eapply (i_dist I); [exact E2|exact Hx|exact H2|]. simpl. congruence.
    + inversion E2; subst. exfalso. apply n0. eapply (i_dist I); [exact E1|exact Hx|exact H1|]. simpl. congruence.
    + eapply (i_dist I); eauto.
  - intros q. cnts. destruct (i_hold I q) as [E|[L (z & p & Hz & Hp)]]; [left; exact E|].
    right. split; [exact L|]. destruct (Nat.eq_dec z x) as [->|Zx].
    + exists y, o. rewrite nth_push, setn_length. fold y. rewrite Nat.eqb_refl. split; auto. rewrite Hx in Hz; inversion Hz; subst p; simpl in Hp; congruence.
    + exists z, p. rewrite nth_push, nth_setn, setn_length. fold y.
      assert (z <> y) by (intros ->; unfold y in Hz; rewrite len_none in Hz; discriminate).
      apply Nat.eqb_neq in Zx, H. rewrite Zx, H. auto.
  - intros q Q. destruct (i_fresh I Q) as (F1 & F2 & F3). cnts. repeat split; auto.
    intros z. destruct (z =? y); auto.
Qed.
(** ... when the construction inside the new object throws *)
Lemma inv_moved_throw s x a : inv false s -> nth_error (objs s) x = Some (Data (Some a)) ->
  inv false (emit (push (put s x (Data None)) Dead) [EMove x (length (objs s)); EDis a; EDel x]).
Proof.
  intros I Hx. set (y := length (objs s)).
  assert (X : x <> y) by (intros ->; unfold y in Hx; rewrite len_none in Hx; discriminate).
  pose proof (i_pok I x) as Px. rewrite Hx in Px. simpl in Px. destruct Px as (Px1 & Px2 & Px3 & Px4 & Px5).
  pose proof (i_pok I y) as Py. unfold y in Py at 2. rewrite len_none in Py. simpl in Py. destruct Py as (Py1 & Py2 & Py3 & Py4 & Py5).
  constructor; simpl.
  - repeat split; auto; cnts; try lia; try discriminate. apply I.
  - intros z. rewrite nth_push, nth_setn, setn_length. fold y.
    pose proof (i_pok I z) as Pz.
    destruct (Nat.eqb_spec z y) as [->|Zy].
    + apply Nat.eqb_neq in X. rewrite Nat.eqb_sym in X. simpl. rewrite X. split; auto; congruence.
    + destruct (Nat.eqb_spec z x) as [->|Zx].
      * rewrite Hx. simpl. rewrite Nat.eqb_refl. auto.
      * pose proof Zy as Zy'. pose proof Zx as Zx'. apply Nat.eqb_neq in Zy, Zx.
        destruct (nth_error (objs s) z) as [[[q|]|[q|] st|]|] eqn:Ez; cnts; rewrite ?Zy, ?Zx; simpl; auto.
        -- destruct (Nat.eqb_spec q a) as [->|]; simpl; auto. exfalso. apply Zx'. eapply (i_dist I); [exact Ez|exact Hx|reflexivity|reflexivity].
        -- destruct (Nat.eqb_spec q a) as [->|]; simpl; auto. exfalso. apply Zx'. eapply (i_dist I); [exact Ez|exact Hx|reflexivity|reflexivity].
  - intros u v o1 o2 q. rewrite !nth_push, !nth_setn, setn_length, Hx. fold y.
    destruct (Nat.eqb_spec u y), (Nat.eqb_spec v y), (Nat.eqb_spec u x), (Nat.eqb_spec v x); subst; intros E1 E2 H1 H2; auto; try congruence;
      try (inversion E1; subst; discriminate); try (inversion E2; subst; discriminate).
    eapply (i_dist I); eauto.
  - intros q. cnts. destruct (Nat.eqb_spec q a) as [->|Qa]; [left; simpl; lia|].
    destruct (i_hold I q) as [E|[L (z & p & Hz & Hp)]]; [left; exact E|].
    right. split; [exact L|]. exists z, p. rewrite nth_push, nth_setn, setn_length. fold y.
    assert (z <> y) by (intros ->; unfold y in Hz; rewrite len_none in Hz; discriminate).
    assert (z <> x) by (intros ->; rewrite Hx in Hz; inversion Hz; subst; simpl in Hp; congruence).
    apply Nat.eqb_neq in H, H0. rewrite H, H0. auto.
  - intros q Q. destruct (i_fresh I Q) as (F1 & F2 & F3). cnts. repeat split; auto.
    + destruct (Nat.eqb_spec q a) as [->|]; auto. destruct Px3. lia.
    + intros z. destruct (z =? y); auto.
Qed.
(** an object without association is replaced by another, or a new one appears *)
Lemma inv_quiet b s x o : inv b s -> nth_error (objs s) x = Some (Data None) -> (o = Data None \/ o = Dead) -> inv b (put s x o).
Proof.
  intros I Hx Ho. constructor; simpl; try apply I.
  - intros z. rewrite nth_setn. pose proof (i_pok I z) as Pz. destruct (Nat.eqb_spec z x) as [->|]; auto.
    rewrite Hx in *. simpl in Pz. destruct Ho as [-> | ->]; simpl; intuition congruence.
  - intros u v o1 o2 q. rewrite !nth_setn, Hx.
    destruct (Nat.eqb_spec u x), (Nat.eqb_spec v x); subst; intros E1 E2 H1 H2; auto;
      try (inversion E1; subst; destruct Ho; subst; discriminate); try (inversion E2; subst; destruct Ho; subst; discriminate).
    eapply (i_dist I); eauto.
  - intros q. destruct (i_hold I q) as [E|[L (z & p & Hz & Hp)]]; auto. right. split; auto. exists z, p. rewrite nth_setn.
    destruct (Nat.eqb_spec z x) as [->|]; auto. rewrite Hx in Hz. inversion Hz; subst; discriminate.
Qed.
Lemma inv_push b s o : inv b s -> (o = Data None \/ o = Op None false) -> inv b (push s o).
Proof.
  intros I Ho. assert (HN : holds o = None) by (destruct Ho as [-> | ->]; auto).
  pose proof (i_pok I (length (objs s))) as Py. rewrite len_none in Py. simpl in Py.
  constructor; simpl; try apply I.
  - intros z. rewrite nth_push. destruct (Nat.eqb_spec z (length (objs s))) as [->|]; [|apply I].
    destruct Ho as [-> | ->]; simpl; tauto.
  - intros u v o1 o2 q. rewrite !nth_push.
    destruct (Nat.eqb_spec u (length (objs s))), (Nat.eqb_spec v (length (objs s))); subst; intros E1 E2 H1 H2; auto; try congruence.
    eapply (i_dist I); eauto.
  - intros q. destruct (i_hold I q) as [E|[L (z & p & Hz & Hp)]]; auto. right. split; auto. exists z, p. rewrite nth_push.
    destruct (Nat.eqb_spec z (length (objs s))) as [->|]; auto. rewrite len_none in Hz. discriminate.
Qed.
(** a new association for a new object *)
Lemma inv_new b s (lv : list event) : inv b s ->
  (lv = [ENew (length (objs s)); EOk (nexta s) (length (objs s))] \/ lv = [EOk (nexta s) (length (objs s)); ENew (length (objs s))]) ->
  inv b (emit (push (fresh s) (Data (Some (nexta s)))) lv).
Proof.
  intros I Hlv. set (y := length (objs s)) in *. set (a := nexta s) in *.
  pose proof (i_pok I y) as Py. unfold y in Py at 2. rewrite len_none in Py. simpl in Py. destruct Py as (Py1 & Py2 & Py3 & Py4 & Py5).
  destruct (i_fresh I (le_n _)) as (F1 & F2 & F3). fold a in F1, F2, F3.
  assert (EA : forall z, alive (rev lv ++ log s) z = if z =? y then true else alive (log s) z).
  { destruct Hlv as [-> | ->]; auto. }
  assert (EU : forall z, under (rev lv ++ log s) z = if z =? y then Some a else under (log s) z).
  { destruct Hlv as [-> | ->]; auto. }
  assert (EO : forall q, n_ok q (rev lv ++ log s) = (if q =? a then 1 else 0) + n_ok q (log s)).
  { intros q. destruct Hlv as [-> | ->]; simpl rev; simpl app; cnts; auto. }
  assert (ED : forall q, n_dis q (rev lv ++ log s) = n_dis q (log s)).
  { intros q. destruct Hlv as [-> | ->]; simpl rev; simpl app; cnts; auto. }
  assert (ES : forall z, startd (rev lv ++ log s) z = startd (log s) z /\ stopd (rev lv ++ log s) z = stopd (log s) z).
  { intros z. destruct Hlv as [-> | ->]; auto. }
  assert (EN : forall z, newed (rev lv ++ log s) z = (z =? y) || newed (log s) z).
  { intros z. destruct Hlv as [-> | ->]; auto. }
  constructor; unfold emit; cbn [log objs nexta push fresh].
  - destruct Hlv as [-> | ->]; simpl; cnts; repeat split; auto; apply I.
  - intros z. rewrite nth_push. fold y. pose proof (i_pok I z) as Pz. destruct (ES z) as [S1 S2].
    destruct (Nat.eqb_spec z y) as [->|Zy].
    + simpl. unfold live. rewrite EA, EU, EO, ED, S1, S2, !Nat.eqb_refl. repeat split; auto; lia.
    + apply Nat.eqb_neq in Zy.
      assert (N : forall q, live (log s) q -> live (rev lv ++ log s) q).
      { intros q [L1 L2]. split; rewrite ?EO, ?ED; auto; destruct (Nat.eqb_spec q a) as [->|]; auto; lia. }
      destruct (nth_error (objs s) z) as [[[q|]|[q|] st|]|]; simpl in *; rewrite ?EA, ?EU, ?S1, ?S2, ?EN, Zy; simpl; intuition.
  - intros u v o1 o2 q. rewrite !nth_push. fold y.
    destruct (Nat.eqb_spec u y), (Nat.eqb_spec v y); subst; intros E1 E2 H1 H2; auto.
    + inversion E1; subst. simpl in H1. inversion H1; subst. destruct (holder_alive v I E2 H2) as (_ & _ & L & _). fold a in L. lia.
    + inversion E2; subst. simpl in H2. inversion H2; subst. destruct (holder_alive u I E1 H1) as (_ & _ & L & _). fold a in L. lia.
    + eapply (i_dist I); eauto.
  - intros q. unfold live. rewrite EO, ED. destruct (Nat.eqb_spec q a) as [->|Qa].
    + right. split; [lia|]. exists y, (Data (Some a)). rewrite nth_push. fold y. rewrite Nat.eqb_refl. auto.
    + destruct (i_hold I q) as [E|[L (z & p & Hz & Hp)]]; [left; auto|]. right. split; [exact L|]. exists z, p. rewrite nth_push. fold y.
      destruct (Nat.eqb_spec z y) as [->|]; auto. unfold y in Hz. rewrite len_none in Hz. discriminate.
  - intros q Q. destruct (@i_fresh _ _ I q) as (G1 & G2 & G3); [lia|]. rewrite EO, ED.
    destruct (Nat.eqb_spec q a) as [->|]; [unfold a in Q; lia|]. repeat split; auto. intros z. rewrite EU. destruct (z =? y); auto. congruence.
Qed.
Lemma inv_new_throw b s : inv b s -> inv b (emit (push (fresh s) Dead) [EOk (nexta s) (length (objs s)); EDis (nexta s)]).
Proof.
  intros I. set (y := length (objs s)) in *. set (a := nexta s) in *.
  pose proof (i_pok I y) as Py. unfold y in Py at 2. rewrite len_none in Py. simpl in Py. destruct Py as (Py1 & Py2 & Py3 & Py4 & Py5).
  destruct (i_fresh I (le_n _)) as (F1 & F2 & F3). fold a in F1, F2, F3.
  constructor; simpl.
  - cnts. rewrite Nat.eqb_refl. repeat split; auto; try lia; try apply I.
    intros _ z. destruct (Nat.eqb_spec z y) as [->|]; auto. intros K. exfalso. eapply F3; eauto.
  - intros z. rewrite nth_push. fold y. pose proof (i_pok I z) as Pz. destruct (Nat.eqb_spec z y) as [->|Zy].
    + simpl. split; auto; congruence.
    + apply Nat.eqb_neq in Zy.
      assert (N : forall q, live (log s) q -> live (EDis a :: EOk a y :: log s) q).
      { intros q [L1 L2]. cnts. destruct (Nat.eqb_spec q a) as [->|]; simpl; auto. lia. }
      destruct (nth_error (objs s) z) as [[[q|]|[q|] st|]|]; simpl in *; rewrite ?Zy; intuition.
  - intros u v o1 o2 q. rewrite !nth_push. fold y.
    destruct (Nat.eqb_spec u y), (Nat.eqb_spec v y); subst; intros E1 E2 H1 H2; auto;
      try (inversion E1; subst; discriminate); try (inversion E2; subst; discriminate).
    eapply (i_dist I); eauto.
  - intros q. cnts. destruct (i_hold I q) as [E|[L (z & p & Hz & Hp)]]; [left; lia|].
    destruct (Nat.eqb_spec q a) as [->|]; [destruct L; lia|]. right. split; [exact L|]. exists z, p. rewrite nth_push. fold y.
    destruct (Nat.eqb_spec z y) as [->|]; auto. unfold y in Hz. rewrite len_none in Hz. discriminate.
  - intros q Q. destruct (@i_fresh _ _ I q) as (G1 & G2 & G3); [lia|]. cnts.
    destruct (Nat.eqb_spec q a) as [->|]; [unfold a in Q; lia|]. repeat split; auto. intros z. destruct (z =? y); auto. congruence.
Qed.
Lemma inv_log b s lv : inv b s -> (lv = [EFail (length (objs s))] \/ lv = [ENew (length (objs s)); EFail (length (objs s)); EDel (length (objs s))]) ->
  inv b (emit (push s (Data None)) lv).
Proof.
  intros I Hlv. pose proof (i_pok I (length (objs s))) as Py. rewrite len_none in Py. simpl in Py. destruct Py as (Py1 & Py2 & Py3 & Py4 & Py5).
  constructor; unfold emit; cbn [log objs nexta push].
  - destruct Hlv as [-> | ->]; simpl; rewrite ?Nat.eqb_refl; repeat split; auto; apply I.
  - intros z. rewrite nth_push. pose proof (i_pok I z) as Pz. destruct (Nat.eqb_spec z (length (objs s))) as [->|Zy].
    + destruct Hlv as [-> | ->]; simpl; rewrite ?Nat.eqb_refl; auto.
    + apply Nat.eqb_neq in Zy. destruct Hlv as [-> | ->]; simpl rev; simpl app;
        destruct (nth_error (objs s) z) as [[[q|]|[q|] st|]|]; cnts; rewrite ?Zy; simpl; auto.
  - intros u v o1 o2 q. rewrite !nth_push.
    destruct (Nat.eqb_spec u (length (objs s))), (Nat.eqb_spec v (length (objs s))); subst; intros E1 E2 H1 H2; auto;
      try (inversion E1; subst; discriminate); try (inversion E2; subst; discriminate).
    eapply (i_dist I); eauto.
  - intros q. assert (E0 : n_ok q (rev lv ++ log s) = n_ok q (log s) /\ n_dis q (rev lv ++ log s) = n_dis q (log s))
      by (destruct Hlv as [-> | ->]; simpl rev; simpl app; cnts; auto).
    destruct E0 as [E1 E2]. unfold live. rewrite E1, E2. destruct (i_hold I q) as [E|[L (z & p & Hz & Hp)]]; [left; auto|]. right. split; [exact L|]. exists z, p. rewrite nth_push.
    destruct (Nat.eqb_spec z (length (objs s))) as [->|]; auto. rewrite len_none in Hz. discriminate.
  - intros q Q. destruct (@i_fresh _ _ I q) as (G1 & G2 & G3); [lia|]. destruct Hlv as [-> | ->]; simpl rev; simpl app; cnts; auto.
Qed.
Lemma inv_destroy b s x o a : inv b s -> nth_error (objs s) x = Some o -> holds o = Some a ->
  inv b (emit (put s x Dead) [EDel x; EDis a]).
Proof.
  intros I Hx Ho. destruct (holder_alive x I Hx Ho) as (A1 & A2 & A3).
  assert (ST : stopd (log s) x = false).
  { pose proof (i_pok I x) as P. rewrite Hx in P. destruct o as [[q|]|[q|] st|]; simpl in *; try discriminate; tauto. }
  constructor; simpl.
  - cnts. repeat split; auto; try lia; try apply I.
    intros _ z Hz. destruct (Nat.eqb_spec z x) as [->|N]; auto. destruct (alive (log s) z) eqn:Az; auto.
    destruct (alive_holder z I Az) as (o' & a' & H1 & H2 & H3). exfalso. apply N. eapply (i_dist I); eauto. congruence.
  - intros z. rewrite nth_setn, Hx. pose proof (i_pok I z) as Pz. destruct (Nat.eqb_spec z x) as [->|N].
    + cnts. rewrite Nat.eqb_refl. split; auto; congruence.
    + pose proof N as N'. apply Nat.eqb_neq in N.
      assert (L : forall q st, nth_error (objs s) z = Some st -> holds st = Some q -> q <> a).
      { intros q st Hz Hq ->. apply N'. eapply (i_dist I); eauto. }
      destruct (nth_error (objs s) z) as [[[q|]|[q|] st|]|]; cnts; rewrite ?N; simpl; auto.
      * destruct (Nat.eqb_spec q a) as [->|]; simpl; auto. exfalso. eapply L; eauto; reflexivity.
      * destruct (Nat.eqb_spec q a) as [->|]; simpl; auto. exfalso. eapply L; eauto; reflexivity.
  - intros u v o1 o2 q. rewrite !nth_setn, Hx.
    destruct (Nat.eqb_spec u x), (Nat.eqb_spec v x); subst; intros E1 E2 H1 H2; auto;
      try (inversion E1; subst; discriminate); try (inversion E2; subst; discriminate).
    eapply (i_dist I); eauto.
  - intros q. cnts. destruct (Nat.eqb_spec q a) as [->|Qa]; [left; simpl; lia|].
    destruct (i_hold I q) as [E|[L (z & p & Hz & Hp)]]; [left; exact E|]. right. split; [exact L|]. exists z, p. rewrite nth_setn.
    destruct (Nat.eqb_spec z x) as [->|]; auto. exfalso. congruence.
  - intros q Q. destruct (i_fresh I Q) as (F1 & F2 & F3). cnts. repeat split; auto.
    destruct (Nat.eqb_spec q a) as [->|]; auto. lia.
Qed.
Lemma inv_start b s x a : inv b s -> nth_error (objs s) x = Some (Op a false) ->
  inv b (emit (put s x (Op a true)) [match a with Some _ => EStart x | None => EStopped x end]).
Proof.
  intros I Hx. pose proof (i_pok I x) as Px. rewrite Hx in Px.
  constructor; simpl.
  - destruct a as [a|]; simpl in *; repeat split; try tauto; try apply I. exists a. tauto.
  - intros z. rewrite nth_setn, Hx. pose proof (i_pok I z) as Pz. destruct (Nat.eqb_spec z x) as [->|N].
    + destruct a as [a|]; cnts; rewrite Nat.eqb_refl; simpl; tauto.
    + apply Nat.eqb_neq in N. destruct a as [a|], (nth_error (objs s) z) as [[[q|]|[q|] st|]|]; cnts; rewrite ?N; simpl; auto.
  - intros u v o1 o2 q. rewrite !nth_setn, Hx.
    destruct (Nat.eqb_spec u x), (Nat.eqb_spec v x); subst; intros E1 E2 H1 H2; auto.
    + inversion E1; subst. simpl in H1. eapply (i_dist I); [exact Hx|exact E2|exact H1|exact H2].
    + inversion E2; subst. simpl in H2. eapply (i_dist I); [exact E1|exact Hx|exact H1|exact H2].
    + eapply (i_dist I); eauto.
  - intros q. assert (E0 : forall e, (e = EStart x \/ e = EStopped x) -> n_ok q (e :: log s) = n_ok q (log s) /\ n_dis q (e :: log s) = n_dis q (log s))
      by (intros e [-> | ->]; cnts; auto).
    destruct (E0 (match a with Some _ => EStart x | None => EStopped x end)) as [E1 E2]; [destruct a; auto|].
    unfold live. rewrite E1, E2. destruct (i_hold I q) as [E|[L (z & p & Hz & Hp)]]; [left; exact E|]. right. split; [exact L|].
    destruct (Nat.eq_dec z x) as [->|N].
    + exists x, (Op a true). rewrite nth_setn, Nat.eqb_refl, Hx. split; auto. rewrite Hx in Hz. inversion Hz; subst. auto.
    + exists z, p. rewrite nth_setn. apply Nat.eqb_neq in N. rewrite N. auto.
  - intros q Q. destruct (i_fresh I Q) as (F1 & F2 & F3). destruct a; cnts; auto.
Qed.

Lemma inv_copy b s a ok thr : inv b s -> inv b (copy_data s a ok thr).
Proof.
  intros I. destruct a as [a|]; simpl; [|apply inv_push; auto]. destruct ok; [|apply inv_log; auto].
  destruct thr; [apply inv_new_throw; auto|apply inv_new; auto].
Qed.
Lemma inv_connect b s x a thr : inv b s -> nth_error (objs s) x = Some (Data a) -> (thr = true -> b = false) -> inv b (connect_data s x a thr).
Proof.
  intros I Hx Ht. destruct a as [a|]; simpl.
  - destruct thr; [rewrite (Ht eq_refl) in *; apply inv_moved_throw; auto|apply inv_moved with (a := a); auto].
  - apply inv_push; auto. apply inv_quiet; auto.
Qed.
Lemma inv_move b s x a thr : inv b s -> nth_error (objs s) x = Some (Data a) -> (thr = true -> b = false) -> inv b (move_data s x a thr).
Proof.
  intros I Hx Ht. destruct a as [a|]; simpl.
  - destruct thr; [rewrite (Ht eq_refl) in *; apply inv_moved_throw; auto|apply inv_moved with (a := a); auto].
  - apply inv_push; auto. apply inv_quiet; auto.
Qed.
Lemma connect_moved s x a thr : nth_error (objs s) x = Some (Data a) -> nth_error (objs (connect_data s x a thr)) x = Some (Data None).
Proof.
  intros H. assert (N : x <> length (objs s)) by (intros ->; rewrite len_none in H; discriminate). apply Nat.eqb_neq in N.
  destruct a as [a|]; simpl; [destruct thr; simpl|]; rewrite nth_push, nth_setn, setn_length, N, Nat.eqb_refl, H; auto.
Qed.
Lemma inv_step b c s s' : inv b s -> step c s = Some s' -> (no_throw c = false -> b = false) -> inv b s'.
Proof.
  intros I E T. assert (T' : forall t, no_throw c = negb t -> t = true -> b = false) by (intros t H ->; auto).
  destruct c as [ok|x ok t|x t|x t|x ok t|x|x]; cbn [step] in E.
  - inversion E; subst. destruct ok; [apply inv_new; auto|apply inv_log; auto].
  - destruct (nth_error (objs s) x) as [[a|a st|]|] eqn:Hx; inversion E; subst. apply inv_copy; auto.
  - destruct (nth_error (objs s) x) as [[a|a st|]|] eqn:Hx; inversion E; subst. apply inv_move; auto; apply T'; auto.
  - destruct (nth_error (objs s) x) as [[a|a st|]|] eqn:Hx; inversion E; subst. apply inv_connect; auto; apply T'; auto.
  - destruct (nth_error (objs s) x) as [[a|a st|]|] eqn:Hx; try discriminate.
    destruct (nth_error (objs (copy_data s a ok false)) (length (objs s))) as [[q|q st|]|] eqn:Hy; inversion E; subst.
    apply inv_quiet; auto; [|apply connect_moved; auto]. apply inv_connect; auto; [apply inv_copy; auto|apply T'; auto].
  - destruct (nth_error (objs s) x) as [[a|[a|] [|]|]|] eqn:Hx; inversion E; subst; apply (inv_start x I Hx).
  - destruct (nth_error (objs s) x) as [[[a|]|[a|] st|]|] eqn:Hx; inversion E; subst;
      try (eapply inv_destroy; eauto; reflexivity).
    + apply inv_quiet; auto.
    + constructor; simpl; try apply I.
      * intros z. rewrite nth_setn, Hx. pose proof (i_pok I z) as Pz. destruct (Nat.eqb_spec z x) as [->|]; auto.
        rewrite Hx in Pz. simpl in *. tauto.
      * intros u v o1 o2 q. rewrite !nth_setn, Hx.
        destruct (Nat.eqb_spec u x), (Nat.eqb_spec v x); subst; intros E1 E2 H1 H2; auto;
          try (inversion E1; subst; discriminate); try (inversion E2; subst; discriminate).
        eapply (i_dist I); eauto.
      * intros q. destruct (i_hold I q) as [E1|[L (z & p & Hz & Hp)]]; auto. right. split; auto. exists z, p. rewrite nth_setn.
        destruct (Nat.eqb_spec z x) as [->|]; auto. rewrite Hx in Hz. inversion Hz; subst; discriminate.
Qed.
Lemma inv_init b : inv b init.
Proof.
  constructor; simpl; auto.
  - intros x. destruct x; simpl; auto.
  - intros [|x] y o p a; discriminate.
  - intros a _. repeat split; auto. discriminate.
Qed.
Lemma reachable_inv s : reachable s -> inv false s.
Proof. induction 1; [apply inv_init|]. eapply inv_step; eauto. Qed.
Lemma reachable_nt_inv s : reachable_nt s -> inv true s.
Proof. induction 1; [apply inv_init|]. eapply inv_step; eauto; congruence. Qed.

(** ** theorems *)

(** Each successful try_associate is followed by at most one release of that association, which
    happens after it; when all sender and operation objects are gone each has been released exactly
    once, and no wrapped sender or child operation is left over. *)
Theorem C28_associate_releases_once : forall s, reachable s ->
  (forall a, n_dis a (log s) <= n_ok a (log s) <= 1) /\
  ((forall o, In o (objs s) -> o = Dead) ->
     (forall a, n_dis a (log s) = n_ok a (log s)) /\ forall x, alive (log s) x = false).
Proof.
  intros s R. apply reachable_inv in R. split.
  - intros a. destruct (i_hold R a) as [E|[[L1 L2] _]]; [|lia]. rewrite E. split; auto.
    rewrite <- E. generalize (i_hist R). clear. induction (log s) as [|e l IH]; simpl; intros H; [unfold n_ok; simpl; auto|].
    destruct H as [G H]. rewrite nok_cons. destruct e; simpl; auto. destruct (Nat.eqb_spec a a0); subst; auto.
    destruct G as [G _]. rewrite G. auto.
  - intros D. split.
    + intros a. destruct (i_hold R a) as [E|[_ (x & o & Hx & Ho)]]; auto. rewrite (D o) in Ho; [discriminate|]. eapply nth_error_In; eauto.
    + intros x. destruct (alive (log s) x) eqn:E; auto. destruct (alive_holder x R E) as (o & a & Hx & Ho & _).
      rewrite (D o) in Ho; [discriminate|]. eapply nth_error_In; eauto.
Qed.

(** The child operation is started only while it is alive and protected by an association that was
    obtained and not yet released, at most once; an operation whose association failed completes with
    set_stopped, at most once, and then no child operation is ever constructed or started in it. *)
Theorem C28_child_runs_only_associated : forall s, reachable s -> forall l1 x l2, log s = l1 ++ EStart x :: l2 ->
  alive l2 x = true /\ (exists a, under l2 x = Some a /\ n_ok a l2 = 1 /\ n_dis a l2 = 0) /\
  ~ In (EStart x) l2 /\ ~ In (EStopped x) (log s).
Proof.
  intros s R l1 x l2 E. apply reachable_inv in R. pose proof (i_hist R) as H. rewrite E in H. apply hist_split in H.
  destruct H as (G1 & G2 & G3 & G4). split; auto. split; auto. split.
  - intros K. assert (startd l2 x = true); [|congruence]. apply existsb_exists. exists (EStart x). rewrite Nat.eqb_refl. auto.
  - intros K. assert (S1 : stopd (log s) x = true) by (apply existsb_exists; exists (EStopped x); rewrite Nat.eqb_refl; auto).
    assert (S2 : startd (log s) x = true) by (apply existsb_exists; exists (EStart x); rewrite Nat.eqb_refl, E; split; auto; apply in_or_app; right; left; auto).
    pose proof (i_pok R x) as P. destruct (nth_error (objs s) x) as [[[q|]|[q|] st|]|]; simpl in P; intuition congruence.
Qed.
Theorem C28_failed_association_stops : forall s, reachable s -> forall x, In (EStopped x) (log s) ->
  ~ In (ENew x) (log s) /\ ~ In (EStart x) (log s) /\
  length (filter (fun e => match e with EStopped y => x =? y | _ => false end) (log s)) = 1.
Proof.
  intros s R x K. apply reachable_inv in R.
  assert (S1 : stopd (log s) x = true) by (apply existsb_exists; exists (EStopped x); rewrite Nat.eqb_refl; auto).
  pose proof (i_pok R x) as P.
  assert (N : newed (log s) x = false /\ startd (log s) x = false).
  { destruct (nth_error (objs s) x) as [[[q|]|[q|] st|]|]; simpl in P; intuition congruence. }
  destruct N as [N1 N2]. repeat split.
  - intros K1. assert (newed (log s) x = true); [|congruence]. apply existsb_exists. exists (ENew x). rewrite Nat.eqb_refl. auto.
  - intros K1. assert (startd (log s) x = true); [|congruence]. apply existsb_exists. exists (EStart x). rewrite Nat.eqb_refl. auto.
  - generalize (i_hist R) K. clear. induction (log s) as [|e l IH]; simpl; intros H K; [tauto|]. destruct H as [G H].
    destruct K as [->|K].
    + simpl in *. rewrite Nat.eqb_refl. simpl. f_equal. destruct G as (_ & _ & G). clear - G.
      induction l as [|e l IH]; auto. simpl in *. apply orb_false_elim in G. destruct G as [G1 G2]. rewrite G1. auto.
    + specialize (IH H K). destruct e; auto. destruct (Nat.eqb_spec x x0) as [->|]; auto.
      exfalso. simpl in G. destruct G as (_ & _ & G). assert (stopd l x0 = true); [|congruence].
      apply existsb_exists. exists (EStopped x0). rewrite Nat.eqb_refl. auto.
Qed.
(** starting an operation does one of the two, depending on the result of try_associate *)
Theorem C28_start_runs_or_stops : forall s x s', reachable s -> step (Start x) s = Some s' ->
  (under (log s) x <> None /\ alive (log s) x = true /\ log s' = EStart x :: log s) \/
  (alive (log s) x = false /\ log s' = EStopped x :: log s).
Proof.
  intros s x s' R E. apply reachable_inv in R. pose proof (i_pok R x) as P. simpl in E.
  destruct (nth_error (objs s) x) as [[a|[a|] [|]|]|]; inversion E; subst; simpl in *; [left|right]; intuition congruence.
Qed.
(** No object is constructed over a live one or destroyed twice *)
Theorem C28_union_members : forall s, reachable s ->
  (forall l1 x l2, log s = l1 ++ ENew x :: l2 -> alive l2 x = false) /\
  (forall l1 x l2, log s = l1 ++ EDel x :: l2 -> alive l2 x = true).
Proof.
  intros s R. apply reachable_inv in R. pose proof (i_hist R) as H.
  split; intros l1 x l2 E; rewrite E in H; apply hist_split in H; auto.
Qed.
(** The association outlives what it protects: when it is released, the wrapped sender and the child
    operation obtained under it have been destroyed - provided no construction throws *)
Theorem C28_association_outlives_child : forall s, reachable_nt s -> forall l1 a l2, log s = l1 ++ EDis a :: l2 ->
  forall x, under l2 x = Some a -> alive l2 x = false.
Proof.
  intros s R l1 a l2 E. apply reachable_nt_inv in R. pose proof (i_hist R) as H. rewrite E in H. apply hist_split in H.
  simpl in H. apply H. auto.
Qed.

Fixpoint runs (l : list action) (s : state) : option state :=
  match l with [] => Some s | a :: l => match step a s with Some s' => runs l s' | None => None end end.
Lemma runs_reachable l : forall s s', reachable s -> runs l s = Some s' -> reachable s'.
Proof.
  induction l as [|a l IH]; simpl; intros s s' R E; [inversion E; subst; auto|].
  destruct (step a s) eqn:Q; [|discriminate]. eapply IH; [|exact E]. econstructor; eauto.
Qed.
(** ... with a throwing connect the wrapped sender is destroyed AFTER the association protecting it
    was released (the by-value parameter __parts outlives the member __assoc_, L198-210) *)
Theorem C28_association_outlives_sender_refuted : exists s, reachable s /\ exists l1 a l2 x,
  log s = l1 ++ EDis a :: l2 /\ under l2 x = Some a /\ alive l2 x = true.
Proof.
  destruct (runs [Make true; ConnectMove 0 true] init) as [s|] eqn:E; [|discriminate]. exists s.
  split; [eapply runs_reachable; [constructor|exact E]|]. simpl in E. inversion E; subst. simpl.
  exists [EDel 0], 0, [EMove 0 1; EOk 0 0; ENew 0], 0. auto.
Qed.
(** a sender copied once successfully and once unsuccessfully; both operations run *)
Example C28_associate_ex : option_map log (runs [Make true; ConnectCopy 0 false false; ConnectMove 0 false; Start 2; Start 3;
    Destroy 0; Destroy 2; Destroy 3] init) =
  Some [EDis 0; EDel 3; EStart 3; EStopped 2; EDel 0; ENew 3; EMove 0 3; EFail 1; EOk 0 0; ENew 0].
Proof. reflexivity. Qed.

Print Assumptions C28_associate_releases_once.
Print Assumptions C28_child_runs_only_associated.
Print Assumptions C28_failed_association_stops.
Print Assumptions C28_start_runs_or_stops.
Print Assumptions C28_union_members.
Print Assumptions C28_association_outlives_child.
Print Assumptions C28_association_outlives_sender_refuted.
