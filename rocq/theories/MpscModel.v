(** * MpscModel: stdexec::__intrusive_mpsc_queue at pointer level.

    Models include/stdexec/__detail/__intrusive_mpsc_queue.hpp L39-106: any number of producers in
    push_back, one consumer in pop_front.  Node 0 is the stub.  Nodes are addresses and may be
    reused as soon as pop_front has returned them.  One transition per atomic access.

    Simplifications: sequential consistency.  Ghost state, never read by transitions: [chain] (the
    nodes in exchange order, from the consumer's tail on); [busy] expresses the caller's obligation
    that a node be pushed at most once before it is returned. *)

From Coq Require Import List Arith Bool.
From Verif Require Import Conc QueueModel.
Import ListNotations.
Set Implicit Arguments.

Definition tid := nat.
Definition stub : nat := 0.

Inductive pc :=
| Idle
| PNull (n : nat)              (* L53 *)
| PXchg (n : nat)              (* L54 *)
| PLink (prev n : nat).        (* L55 *)

Inductive cpc :=
| CIdle
| C0                           (* L61-63 *)
| C1                           (* L73 *)
| C3                           (* L84 *)
| C4                           (* push_back(&stub): L53 *)
| C5                           (* L54 *)
| C6 (prev : nat)              (* L55 *)
| C7.                          (* L95 *)

Inductive event :=
| EEnq (n : nat)               (* a producer's exchange put n in the queue *)
| ELink (n : nat) (was_stub : bool)  (* push_back of n completes, returning was_stub *)
| ECall                        (* pop_front entered *)
| EDeq (n : nat)               (* pop_front returned n *)
| ENull.                       (* pop_front returned null *)

Record state := {
  head : nat;                  (* __head_ *)
  tail : nat;                  (* __tail_ *)
  next : nat -> ptr;           (* _Next of every node *)
  thr : list pc;
  con : cpc;
  log : list event;            (* newest first *)
  busy : nat -> bool;          (* ghost *)
  chain : list nat }.          (* ghost *)

(** L41-49 *)
Definition init (k : nat) (h : nat -> ptr) : state :=
  {| head := stub; tail := stub; next := fset h stub None; thr := repeat Idle k; con := CIdle;
     log := []; busy := fun _ => false; chain := [stub] |}.

Definition w_head s v := {| head := v; tail := tail s; next := next s; thr := thr s; con := con s; log := log s; busy := busy s; chain := chain s |}.
Definition w_tail s v := {| head := head s; tail := v; next := next s; thr := thr s; con := con s; log := log s; busy := busy s; chain := chain s |}.
Definition w_next s n v := {| head := head s; tail := tail s; next := fset (next s) n v; thr := thr s; con := con s; log := log s; busy := busy s; chain := chain s |}.
Definition w_thr s t p := {| head := head s; tail := tail s; next := next s; thr := upd (thr s) t p; con := con s; log := log s; busy := busy s; chain := chain s |}.
Definition w_con s c := {| head := head s; tail := tail s; next := next s; thr := thr s; con := c; log := log s; busy := busy s; chain := chain s |}.
Definition w_log s e := {| head := head s; tail := tail s; next := next s; thr := thr s; con := con s; log := e :: log s; busy := busy s; chain := chain s |}.
Definition w_busy s n b := {| head := head s; tail := tail s; next := next s; thr := thr s; con := con s; log := log s; busy := fset (busy s) n b; chain := chain s |}.
Definition w_chain s c := {| head := head s; tail := tail s; next := next s; thr := thr s; con := con s; log := log s; busy := busy s; chain := c |}.

Inductive action :=
| APush (n : nat)              (* a producer calls push_back(n) *)
| AProd                        (* next instruction of a producer *)
| APop                         (* the consumer calls pop_front *)
| ACons                        (* next instruction of the consumer *)
| AWrite (n : nat) (v : ptr).  (* the owner of a node that is not in use writes it *)

(** L71, L78-79, L99-100: advance the tail to nx and return the old tail *)
Definition advance (s : state) (nx : nat) : state := w_chain (w_tail s nx) (List.tl (chain s)).
Definition return_tail (s : state) (nx : nat) : state :=
  w_log (w_busy (w_con (advance s nx) CIdle) (tail s) false) (EDeq (tail s)).
Definition return_null (s : state) : state := w_log (w_con s CIdle) ENull.

Definition cons_step (s : state) : option state :=
  match con s with
  | CIdle => None
  | C0 =>
      match next s (tail s) with                                         (* L63 *)
      | None => if tail s =? stub then Some (return_null s)              (* L67-70 *)
                else Some (w_con s C3)
      | Some nx => if tail s =? stub then Some (w_con (advance s nx) C1) (* L71 *)
                   else Some (return_tail s nx)                          (* L76-79 *)
      end
  | C1 =>
      match next s (tail s) with                                         (* L73 *)
      | None => Some (w_con s C3)
      | Some nx => Some (return_tail s nx)
      end
  | C3 => if tail s =? head s then Some (w_con s C4) else Some (return_null s)   (* L84-90 *)
  | C4 => Some (w_con (w_next s stub None) C5)                           (* L93: L53 *)
  | C5 => Some (w_con (w_chain (w_head s stub) (chain s ++ [stub])) (C6 (head s)))  (* L54 *)
  | C6 p => Some (w_con (w_next s p (Some stub)) C7)                     (* L55 *)
  | C7 =>
      match next s (tail s) with                                         (* L95 *)
      | None => Some (return_null s)
      | Some nx => Some (return_tail s nx)
      end
  end.

Definition step (t : tid) (a : action) (s : state) : option state :=
  match a with
  | APush n =>
      match nth_error (thr s) t with
      | Some Idle => if busy s n || (n =? stub) then None
                     else Some (w_thr (w_busy s n true) t (PNull n))
      | _ => None
      end
  | AProd =>
      match nth_error (thr s) t with
      | Some (PNull n) => Some (w_thr (w_next s n None) t (PXchg n))     (* L53 *)
      | Some (PXchg n) =>                                                (* L54 *)
          Some (w_log (w_thr (w_chain (w_head s n) (chain s ++ [n])) t (PLink (head s) n)) (EEnq n))
      | Some (PLink p n) =>                                              (* L55-56 *)
          Some (w_log (w_thr (w_next s p (Some n)) t Idle) (ELink n (p =? stub)))
      | _ => None
      end
  | APop => match con s with CIdle => Some (w_log (w_con s C0) ECall) | _ => None end
  | ACons => cons_step s
  | AWrite n v => if busy s n || (n =? stub) then None else Some (w_next s n v)
  end.

Inductive reachable : state -> Prop :=
| r_init k h : reachable (init k h)
| r_step s t a s' : reachable s -> step t a s = Some s' -> reachable s'.
