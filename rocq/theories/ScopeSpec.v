(** * ScopeSpec: the scope's state machine as in [exec.simple.counting.mem], over the event log. *)
From Coq Require Import List Arith Bool NArith.
From Verif Require Import ScopeModel.
Import ListNotations.

(** the seven states of [exec.simple.counting.general] *)
Inductive sstate :=
| unused | open | closed | open_joining | closed_joining | unused_closed | joined.

(** effect of one event on (state, count); None = not allowed in this state *)
Definition spec_step (e : event) (x : sstate * N) : option (sstate * N) :=
  let (st, c) := x in
  match e with
  | EAssoc _ =>                                             (* paragraph 5 *)
      if (c =? max_associations)%N then None else
      match st with
      | unused | open => Some (open, c + 1)%N
      | open_joining => Some (open_joining, c + 1)%N
      | _ => None
      end
  | EDis _ =>                                               (* paragraph 8 *)
      if (c =? 0)%N then None else
      match st with
      | open_joining | closed_joining => Some (if (c =? 1)%N then joined else st, c - 1)%N
      | open | closed => Some (st, c - 1)%N
      | _ => None
      end
  | EClose _ =>                                             (* paragraph 2 *)
      Some (match st with
            | unused => unused_closed
            | open => closed
            | open_joining => closed_joining
            | _ => st
            end, c)
  | EJoining _ _ =>                                         (* paragraph 9 *)
      if (c =? 0)%N then Some (joined, c)
      else match st with
           | open | open_joining => Some (open_joining, c)
           | closed | closed_joining => Some (closed_joining, c)
           | _ => None
           end
  | _ => Some (st, c)
  end.

(** the history is newest first *)
Fixpoint spec_run (l : list event) : option (sstate * N) :=
  match l with
  | [] => Some (unused, 0%N)
  | e :: l => match spec_run l with Some x => spec_step e x | None => None end
  end.

Definition n_assoc (l : list event) : nat :=
  length (filter (fun e => match e with EAssoc _ => true | _ => false end) l).
Definition n_rel (l : list event) : nat :=
  length (filter (fun e => match e with ERel _ => true | _ => false end) l).
Definition n_dis (l : list event) : nat :=
  length (filter (fun e => match e with EDis _ => true | _ => false end) l).
Definition n_done (j : nat) (l : list event) : nat :=
  length (filter (fun e => match e with EDone _ i => i =? j | _ => false end) l).
Definition n_join (j : nat) (l : list event) : nat :=
  length (filter (fun e => match e with EJoin _ i => i =? j | _ => false end) l).
Definition thread_of (e : event) : tid :=
  match e with ETry t | EAssoc t | EFail t | ERel t | EDis t | EClose t | EJoin t _ | EJoining t _ | EDone t _ => t end.
