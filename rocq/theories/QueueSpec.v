(** * QueueSpec: what a well formed intrusive queue is. *)
From Coq Require Import List Arith Bool.
From Verif Require Import Conc QueueModel.
Import ListNotations.
Set Implicit Arguments.

(** following the next pointers from p visits exactly l and ends at r *)
Fixpoint lseg (h : heap) (p : ptr) (l : list nat) (r : ptr) : Prop :=
  match l with
  | [] => p = r
  | x :: l => p = Some x /\ lseg h (h x) l r
  end.

Definition last_ptr (l : list nat) : ptr := match rev l with [] => None | x :: _ => Some x end.
Definition head_ptr (l : list nat) : ptr := match l with [] => None | x :: _ => Some x end.

(** the queue holds exactly the nodes l, in this order *)
Definition holds (h : heap) (q : queue) (l : list nat) : Prop :=
  lseg h (qhead q) l None /\ qtail q = last_ptr l /\ NoDup l.

(** h' differs from h only on nodes of l *)
Definition only_on (l : list nat) (h h' : heap) : Prop := forall x, ~ In x l -> h' x = h x.

(** the iterator at position i of a queue holding l *)
Definition at_pos (l : list nat) (i : nat) : iter :=
  {| ipred := last_ptr (firstn i l); iitem := head_ptr (skipn i l) |}.

Definition disjoint (a b : list nat) : Prop := forall x, In x a -> In x b -> False.
