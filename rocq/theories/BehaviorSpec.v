(** Specification of completion behaviours (comments of
    __completion_behavior.hpp L60-73), independent of the bit encoding. *)
From Coq Require Import List Bool NArith.
From Verif Require Import BehaviorModel.
Import ListNotations.

(** What a behaviour promises about one completion of an operation started on
    context [c], that completed on context [d], inline ([i = true]) or not. *)
Definition permits (b : behavior) (c : nat) (i : bool) (d : nat) : Prop :=
  (is_always_asynchronous b = true -> i = false) /\
  (may_be_asynchronous b = false -> i = true) /\
  (is_affine b = true -> d = c).

(** The attributes of [s] are true on channel [t]. *)
Definition truthful_on (st : bool) (s : snd) (t : tag) : Prop :=
  forall c i d, runs st s c t i d -> permits (attr s t) c i d.

Definition truthful (st : bool) (s : snd) : Prop := forall t, truthful_on st s t.

(** A user's sender whose attributes are true, channel by channel. *)
Definition user_honest (adv : tag -> option behavior) (outs : list (tag * uplace)) : Prop :=
  forall t p b, In (t, p) outs -> adv t = Some b ->
  forall c, permits b c (fst (uresult c p)) (Datatypes.snd (uresult c p)).

(** ... and whose channels all promise the same: each answer it gives is true of
    all its completions. *)
Definition user_uniform (adv : tag -> option behavior) (outs : list (tag * uplace)) : Prop :=
  forall t t' p b, In (t', p) outs -> adv t = Some b ->
  forall c, permits b c (fst (uresult c p)) (Datatypes.snd (uresult c p)).

(** Senders built from just, schedule, user senders satisfying [U], then /
    upon_error / upon_stopped (the ones allowed by [T]), sequence, when_all,
    continues_on, starts_on and bulk - no let and no affine. *)
Inductive built (U : (tag -> option behavior) -> list (tag * uplace) -> Prop)
                (T : tag -> Prop) : snd -> Prop :=
| b_just t : built U T (Just t)
| b_sched s : built U T (Sched s)
| b_user adv outs : U adv outs -> built U T (User adv outs)
| b_then t a th : T t -> built U T a -> built U T (Then t a th)
| b_seq a b : built U T a -> built U T b -> built U T (Seq a b)
| b_all l : (forall a, In a l -> built U T a) -> built U T (WhenAll l)
| b_cont a s : built U T a -> built U T (ContinuesOn a s)
| b_starts s a : built U T (StartsOn s a)
| b_bulk a th : built U T a -> built U T (Bulk a th).
