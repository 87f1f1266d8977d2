(** * BwosSpec: the work-stealing queue as a double-ended queue, over the event log (newest first). *)
From Coq Require Import List Arith Bool.
From Verif Require Import BwosModel.
Import ListNotations.

(** [deque l q]: after history l the queue holds q (front to back).  push_back appends, pop_back
    removes the last task, a thief removes some task; pop_back reports "empty" only if it is. *)
Inductive deque : list event -> list task -> Prop :=
| d_nil : deque [] []
| d_push l q v : deque l q -> deque (EPush v :: l) (q ++ [v])
| d_pop l q v : deque l (q ++ [v]) -> deque (EPop (Some v) :: l) q
| d_pop_none l : deque l [] -> deque (EPop None :: l) []
| d_claim l q1 q2 t v : deque l (q1 ++ v :: q2) -> deque (EClaim t v :: l) (q1 ++ q2)
| d_call l q vs : deque l q -> deque (EPushCall vs :: l) q
| d_ret l q vs : deque l q -> deque (EPushRet vs :: l) q
| d_steal l q t v : deque l q -> deque (ESteal t v :: l) q.

(** the task thief t has taken but not returned yet *)
Fixpoint holding (t : tid) (l : list event) : option task :=
  match l with
  | [] => None
  | EClaim u v :: l => if u =? t then Some v else holding t l
  | ESteal u _ :: l => if u =? t then None else holding t l
  | _ :: l => holding t l
  end.
(** the push_back call in progress: its argument and the tasks accepted so far *)
Fixpoint pushing (l : list event) : option (list task * list task) :=
  match l with
  | [] => None
  | EPushCall vs :: _ => Some (vs, [])
  | EPushRet _ :: _ => None
  | EPush v :: l => match pushing l with Some (vs, acc) => Some (vs, acc ++ [v]) | None => None end
  | _ :: l => pushing l
  end.

(** how often v was put in / handed out *)
Definition n_pushed (v : task) (l : list event) : nat :=
  length (filter (fun e => match e with EPush u => u =? v | _ => false end) l).
Definition n_popped (v : task) (l : list event) : nat :=
  length (filter (fun e => match e with EPop (Some u) => u =? v | _ => false end) l).
Definition n_claimed (v : task) (l : list event) : nat :=
  length (filter (fun e => match e with EClaim _ u => u =? v | _ => false end) l).
Definition n_stolen (v : task) (l : list event) : nat :=
  length (filter (fun e => match e with ESteal _ (Some u) => u =? v | _ => false end) l).
