(** C76: materialize and dematerialize, just_from, unless_stop_requested. *)
From Coq Require Import List Bool Arith Lia.
From Verif Require Import ReifyModel.
Import ListNotations.
Set Implicit Arguments.

(** ** Specification *)
(** Signatures describe what an operation does: every completion it calls has a signature in the list. *)
Definition described (l : list compl) (sigs : list sig) : Prop := forall c, In c l -> In (compl_sig c) sigs.
(** What a value completion of materialize says: which completion happened, and with what. *)
Definition says (c : compl) (args : list arg) : Prop :=
  match c with
  | Val l => args = ATag TgValue :: l
  | Err a => args = ATag TgError :: [a]
  | Stp => args = ATag TgStopped :: []
  end.

(** ** materialize *)

(** Every completion becomes a value completion that says what it was; nothing is added or lost; the order is kept. *)
Theorem materialize_says l : exists v, map mat l = map Val v /\ Forall2 says l v.
Proof.
  induction l as [|c l [v [E F]]]; [exists []; simpl; auto|].
  destruct c as [a|a|]; simpl; rewrite E.
  - exists ((ATag TgValue :: a) :: v). simpl. split; auto. constructor; simpl; auto.
  - exists ([ATag TgError; a] :: v). split; auto. constructor; simpl; auto.
  - exists ([ATag TgStopped] :: v). split; auto. constructor; simpl; auto.
Qed.

(** What was said determines what happened. *)
Theorem materialize_injective c c' : mat c = mat c' -> c = c'.
Proof. destruct c, c'; simpl; congruence. Qed.

(** Its signatures describe it if the child's describe the child, and contain nothing that no child with these signatures does. *)
Theorem materialize_signatures l sigs :
  (described l sigs -> described (map mat l) (map mat_sig sigs)) /\
  (forall s, In s (map mat_sig sigs) -> exists c, In (compl_sig c) sigs /\ compl_sig (mat c) = s) /\
  (forall s, In s (map mat_sig sigs) -> exists l, s = SVal l).
Proof.
  assert (K : forall c, compl_sig (mat c) = mat_sig (compl_sig c)) by (intros []; reflexivity).
  assert (A : forall t, exists a, arg_ty a = t) by (intros [t|n]; [exists (ATag t)|exists (AVal n 0)]; reflexivity).
  assert (L : forall l, exists r, map arg_ty r = l).
  { induction l0 as [|t l0 [r R]]; [exists []; auto|]. destruct (A t) as [a <-]. exists (a :: r). simpl. now rewrite R. }
  split; [|split].
  - intros D c Hc. apply in_map_iff in Hc. destruct Hc as (c' & <- & Hc). rewrite K. apply in_map. auto.
  - intros s Hs. apply in_map_iff in Hs. destruct Hs as (s' & <- & Hs).
    assert (exists c, compl_sig c = s') as [c C].
    { destruct s' as [ts|t|]; [destruct (L ts) as [r <-]; exists (Val r)|destruct (A t) as [a <-]; exists (Err a)|exists Stp]; reflexivity. }
    exists c. rewrite K, C. auto.
  - intros s Hs. apply in_map_iff in Hs. destruct Hs as ([] & <- & _); simpl; eauto.
Qed.

(** ** dematerialize *)

Lemma all_map A B (f : A -> option B) (g : B -> A) l : (forall x, f (g x) = Some x) -> all f (map g l) = Some l.
Proof. intros H. induction l as [|x l IH]; simpl; auto. now rewrite H, IH. Qed.
Lemma all_in A B (f : A -> option B) l r x : all f l = Some r -> In x l -> exists y, f x = Some y /\ In y r.
Proof.
  revert r. induction l as [|z l IH]; intros r H Hx; [destruct Hx|]. simpl in H.
  destruct (f z) eqn:E; [|discriminate]. destruct (all f l) eqn:E'; [|discriminate]. inversion H; subst.
  destruct Hx as [<-|Hx]; [exists b; simpl; auto|]. destruct (IH _ eq_refl Hx) as (y & Y & I). exists y. simpl; auto.
Qed.

(** Materializing and then dematerializing gives back the completions of the sender, and its signatures. *)
Theorem dematerialize_materialize l sigs :
  all demat (map mat l) = Some l /\ all demat_sig (map mat_sig sigs) = Some sigs.
Proof. split; apply all_map; intros []; reflexivity. Qed.

(** The other way round: it gives back every value completion that says something. *)
Theorem materialize_dematerialize c args : says c args -> demat (Val args) = Some c /\ mat c = Val args.
Proof. destruct c; simpl; intros ->; auto. Qed.

(** If the signatures of the child can be transformed then so can everything it does, and the result describes it. *)
Theorem dematerialize_signatures l sigs sigs' :
  described l sigs -> all demat_sig sigs = Some sigs' -> exists l', all demat l = Some l' /\ described l' sigs'.
Proof.
  intros D S. induction l as [|c l IH]; [exists []; split; auto; intros ? []|].
  destruct IH as (l' & E & D'). { intros x Hx. apply D. right; auto. }
  assert (H : exists c', demat c = Some c' /\ In (compl_sig c') sigs').
  { destruct (all_in _ _ _ S (D c (or_introl eq_refl))) as (s' & F & I).
    destruct c as [[|[[]|] a]|a|]; simpl in F; try discriminate; try (inversion F; subst; eexists; split; [reflexivity|auto]; fail).
    - destruct a as [|x [|]]; simpl in F; try discriminate. inversion F; subst. eexists; split; [reflexivity|auto].
    - destruct a; simpl in F; try discriminate. inversion F; subst. eexists; split; [reflexivity|auto]. }
  destruct H as (c' & C & I). exists (c' :: l'). simpl. rewrite C, E. split; auto.
  intros x [<-|Hx]; auto.
Qed.

(** ** just_from *)

(** If the function calls its sink once and returns, or throws without having called it, there is exactly one completion: what was given to the sink, or the exception. *)
Theorem just_from_once_partial t f l :
  just_from t f = Some l ->
  (forall a, f_calls f = [a] -> f_throws f = false -> exists c, l = [c] /\ with_tag t a = Some c) /\
  (f_calls f = [] -> f_throws f = true -> l = [Err eptr]) /\
  (length l = 1 <-> length (f_calls f) + (if f_throws f then 1 else 0) = 1).
Proof.
  unfold just_from. intros H.
  assert (AL : forall r, all (with_tag t) (f_calls f) = Some r -> length r = length (f_calls f)).
  { clear. generalize (f_calls f). induction l as [|a l IH]; simpl; intros r H; [inversion H; auto|].
    destruct (with_tag t a); [|discriminate]. destruct (all (with_tag t) l); [|discriminate]. inversion H; simpl; auto. }
  destruct (all (with_tag t) (f_calls f)) as [r|] eqn:E; [|discriminate]. specialize (AL _ eq_refl).
  assert (L : l = r ++ (if f_throws f then [Err eptr] else [])).
  { destruct (f_nothrow f); [destruct (f_throws f)|]; inversion H; auto. now rewrite app_nil_r. }
  subst l. split; [|split].
  - intros a A T. rewrite T, app_nil_r. rewrite A in E. simpl in E. destruct (with_tag t a) as [c|]; inversion E. eauto.
  - intros A T. rewrite T. rewrite A in E. inversion E. reflexivity.
  - rewrite app_length, AL. destruct (f_throws f); simpl; lia.
Qed.

(** The declared signatures describe it if the function declares all it gives to the sink, and is noexcept for the receiver's sink when it is for the probe. *)
Theorem just_from_signatures_partial t f l sigs :
  just_from t f = Some l -> just_from_sigs t f = Some sigs ->
  (forall a, In a (f_calls f) -> In (map arg_ty a) (f_decl f)) -> (f_probe_nothrow f = true -> f_nothrow f = true) ->
  described l sigs.
Proof.
  unfold just_from, just_from_sigs. intros H S D N.
  destruct (all (with_tag t) (f_calls f)) as [r|] eqn:E; [|discriminate].
  destruct (all (sig_tag t) (f_decl f)) as [d|] eqn:E'; [|discriminate].
  assert (R : forall c, In c r -> In (compl_sig c) d).
  { intros c Hc.
    assert (exists a, In a (f_calls f) /\ with_tag t a = Some c) as (a & Ha & W).
    { clear - E Hc. revert r E Hc. generalize (f_calls f). induction l as [|a l IH]; simpl; intros r E Hc; [inversion E; subst; destruct Hc|].
      destruct (with_tag t a) eqn:W; [|discriminate]. destruct (all (with_tag t) l); [|discriminate]. inversion E; subst.
      destruct Hc as [<-|Hc]; [exists a; auto|]. destruct (IH _ eq_refl Hc) as (b & B & W'). exists b; auto. }
    destruct (all_in _ _ _ E' (D _ Ha)) as (s & Sg & I).
    replace (compl_sig c) with s; auto.
    destruct t; simpl in W, Sg; [inversion W; subst; inversion Sg; auto| |].
    - destruct a as [|x [|]]; try discriminate. inversion W; subst. simpl in Sg. inversion Sg; auto.
    - destruct a; try discriminate. inversion W; subst. simpl in Sg. inversion Sg; auto. }
  intros c Hc. destruct (f_nothrow f) eqn:NT.
  - destruct (f_throws f); inversion H; subst. specialize (R _ Hc). destruct (f_probe_nothrow f); inversion S; subst; auto. apply in_or_app; auto.
  - destruct (f_probe_nothrow f); [specialize (N eq_refl); discriminate|]. inversion S; subst. inversion H; subst.
    apply in_app_or in Hc. apply in_or_app. destruct Hc as [Hc|Hc]; [auto|]. right. destruct (f_throws f); [destruct Hc as [<-|[]]; simpl; auto|destruct Hc].
Qed.

(** ** unless_stop_requested *)
(** If stop was requested when it is started the child is not started and the operation completes as stopped; if not it is the child. One completion either way, and described. *)
Theorem unless_stop_right u s child sigs :
  (u = true -> s = false) ->
  (s = true -> unless_stop u s child = (false, [Stp])) /\
  (s = false -> unless_stop u s child = (true, child)) /\
  (length child = 1 -> length (snd (unless_stop u s child)) = 1) /\
  (described child sigs -> described (snd (unless_stop u s child)) (unless_stop_sigs u sigs)).
Proof.
  intros U. unfold unless_stop, unless_stop_sigs. destruct u, s; simpl; repeat split; try congruence; auto; try (specialize (U eq_refl); discriminate).
  - intros _ c [<-|[]]. apply in_or_app; simpl; auto.
  - intros D c Hc. apply in_or_app; auto.
Qed.

(** ** What is not true of the code *)
(** just_from: a function that throws after it called the sink completes the receiver twice - first the value, then the exception; *)
Theorem just_from_throw_after_refuted : exists f, just_from TgValue f = Some [Val [AVal 1 5]; Err eptr].
Proof. exists (mkf [[AVal 1 5]] true false false [[Ty 1]]). reflexivity. Qed.
(** one that does not call the sink never completes it; *)
Theorem just_from_silent_refuted : exists f, just_from TgValue f = Some [] /\ f_throws f = false /\ just_from_sigs TgValue f = Some [SVal [Ty 1]].
Proof. exists (mkf [] false true true [[Ty 1]]). auto. Qed.
(** one that gives the sink something other than what it returns the type of completes with an undeclared signature; *)
Theorem just_from_undeclared_refuted :
  exists f l sigs, just_from TgValue f = Some l /\ just_from_sigs TgValue f = Some sigs /\ length l = 1 /\ ~ described l sigs.
Proof.
  exists (mkf [[AVal 2 5]] false true true [[Ty 1]]), [Val [AVal 2 5]], [SVal [Ty 1]]. repeat split.
  intros D. destruct (D _ (or_introl eq_refl)) as [H|[]]. discriminate.
Qed.
(** and one that is noexcept only for the probe sends an exception that is not declared. *)
Theorem just_from_noexcept_refuted :
  exists f l sigs, just_from TgStopped f = Some l /\ just_from_sigs TgStopped f = Some sigs /\ length l = 1 /\ ~ described l sigs.
Proof.
  exists (mkf [] true false true [[]]), [Err eptr], [SStp]. repeat split.
  intros D. destruct (D _ (or_introl eq_refl)) as [H|[]]. discriminate.
Qed.

(** ** The hypotheses are met *)
Example reify_use :
  map mat [Val [AVal 1 5; AVal 2 6]; Err (AVal 3 7); Stp] =
    [Val [ATag TgValue; AVal 1 5; AVal 2 6]; Val [ATag TgError; AVal 3 7]; Val [ATag TgStopped]] /\
  all demat_sig [SVal [TyTag TgValue; Ty 1]; SErr (Ty 2); SVal [TyTag TgStopped]] = Some [SVal [Ty 1]; SErr (Ty 2); SStp] /\
  described [Val [ATag TgValue; AVal 1 9]] [SVal [TyTag TgValue; Ty 1]; SErr (Ty 2)].
Proof. repeat split. intros c [<-|[]]. simpl. auto. Qed.
Example just_from_use :
  let f := mkf [[AVal 4 1]] false false false [[Ty 4]; [Ty 5]] in
  just_from TgError f = Some [Err (AVal 4 1)] /\ just_from_sigs TgError f = Some [SErr (Ty 4); SErr (Ty 5); SErr ty_eptr].
Proof. auto. Qed.
