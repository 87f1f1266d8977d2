(** * AssociateSpec: vocabulary for histories of associate senders (newest event first). *)
From Coq Require Import List Arith Bool.
From Verif Require Import AssociateModel.
Import ListNotations.

(** the wrapped sender / child operation inside object x is alive *)
Fixpoint alive (l : list event) (x : nat) : bool :=
  match l with
  | [] => false
  | ENew y :: l => if x =? y then true else alive l x
  | EDel y :: l => if x =? y then false else alive l x
  | _ :: l => alive l x
  end.
(** the association that protects whatever lives in object x *)
Fixpoint under (l : list event) (x : nat) : option aid :=
  match l with
  | [] => None
  | EOk a y :: l => if x =? y then Some a else under l x
  | EMove z y :: l => if x =? y then under l z else under l x
  | _ :: l => under l x
  end.
Definition is_ok (a : aid) (e : event) : bool := match e with EOk b _ => a =? b | _ => false end.
Definition is_dis (a : aid) (e : event) : bool := match e with EDis b => a =? b | _ => false end.
Definition n_ok (a : aid) (l : list event) : nat := length (filter (is_ok a) l).
Definition n_dis (a : aid) (l : list event) : nat := length (filter (is_dis a) l).
