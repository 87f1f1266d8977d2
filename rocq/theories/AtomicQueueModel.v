(** * AtomicQueueModel: the lock-free intrusive queues, at pointer level.

    Models include/stdexec/__detail/__atomic_intrusive_queue.hpp L43-88 (push, pop_all) and
    include/exec/detail/atomic_intrusive_queue.hpp L28-104 (try_push_front, push_front, prepend,
    pop_all, pop_all_reversed), any number of threads.  Nodes are addresses that may be reused: a
    node handed out by a pop may be pushed again at once (ABA).  One transition per access to
    __head_ or write of a node's next pointer; turning a detached chain into a queue (make,
    make_reversed, QueueModel.v) is one transition, it touches only the detached nodes.

    Simplifications: sequential consistency.  [busy], [ghost] and the list in PTaken are ghost
    state: the transitions never read [ghost] or that list; [busy] expresses the caller's
    obligation that a node be in at most one queue at a time and not be written to meanwhile. *)

From Coq Require Import List Arith Bool.
From Verif Require Import Conc QueueModel QueueSpec.
Import ListNotations.
Set Implicit Arguments.

Definition tid := nat.

(** which function a thread is executing.  l: the nodes it pushes, l's last node is written *)
Inductive kind := KPush | KTry.
Inductive pc :=
| Idle
| QLoad (k : kind) (l : list nat)               (* exec L49, L57, L70; stdexec L51 *)
| QStore (k : kind) (l : list nat) (old : ptr)  (* exec L50, L60, L71/L76; stdexec L54 *)
| QCas (k : kind) (l : list nat) (old : ptr)    (* exec L51, L62, L72; stdexec L56 *)
| PXchg (r : bool)                              (* stdexec L82 *)
| PLoad (r : bool)                              (* exec L94; r = reversed *)
| PCas (r : bool) (old : ptr)                   (* exec L96 *)
| PTaken (r : bool) (p : ptr) (g : list nat).   (* exec L83/L88; stdexec L83 *)

Inductive event :=
| EPush (t : tid) (l : list nat) (was_empty : bool)  (* l entered the queue *)
| EFail (t : tid) (l : list nat) (was_empty : bool)  (* try_push_front failed *)
| ETake (t : tid)                                    (* t emptied the queue *)
| EPop (t : tid) (r : bool) (l : list nat).          (* t's pop returned l *)

Record state := {
  head : ptr;                  (* __head_ *)
  nxt : heap;                  (* _NextPtr of every node *)
  thr : list pc;
  log : list event;            (* newest first *)
  busy : nat -> bool;          (* ghost *)
  ghost : list nat }.          (* ghost: the contents *)

Definition init (n : nat) (h : heap) : state :=
  {| head := None; nxt := h; thr := repeat Idle n; log := []; busy := fun _ => false; ghost := [] |}.

Definition w_h s h := {| head := h; nxt := nxt s; thr := thr s; log := log s; busy := busy s; ghost := ghost s |}.
Definition w_n s n := {| head := head s; nxt := n; thr := thr s; log := log s; busy := busy s; ghost := ghost s |}.
Definition w_t s t p := {| head := head s; nxt := nxt s; thr := upd (thr s) t p; log := log s; busy := busy s; ghost := ghost s |}.
Definition w_l s e := {| head := head s; nxt := nxt s; thr := thr s; log := e :: log s; busy := busy s; ghost := ghost s |}.
Definition w_b s b := {| head := head s; nxt := nxt s; thr := thr s; log := log s; busy := b; ghost := ghost s |}.
Definition w_g s g := {| head := head s; nxt := nxt s; thr := thr s; log := log s; busy := busy s; ghost := g |}.

(** mark / unmark a list of nodes as in use *)
Definition mark (b : nat -> bool) (l : list nat) (v : bool) : nat -> bool :=
  fun x => if existsb (Nat.eqb x) l then v else b x.

(** is l a null-terminated chain without repetitions starting at its first node? *)
Fixpoint chainb (h : heap) (p : ptr) (l : list nat) : bool :=
  match l with
  | [] => is_null p
  | x :: l => ptr_eqb p (Some x) && chainb h (h x) l
  end.
Fixpoint nodupb (l : list nat) : bool :=
  match l with [] => true | x :: l => negb (existsb (Nat.eqb x) l) && nodupb l end.

Inductive action :=
| APush (x : nat)                 (* push / push_front *)
| ATryPush (x : nat)              (* try_push_front *)
| APrepend (l : list nat)         (* prepend of a non-empty queue holding l *)
| APopAll (r : bool)              (* exec: pop_all / pop_all_reversed *)
| APopAllX                        (* stdexec: pop_all *)
| AStep (fuel : nat)
| ASpurious                       (* compare_exchange_weak fails spuriously *)
| AWrite (x : nat) (v : ptr).     (* the owner of a node not in use writes its next pointer *)

Definition push_to (k : kind) (t : tid) (l : list nat) (old : ptr) (s : state) : state :=
  w_l (w_t (w_g (w_h s (head_ptr l)) (l ++ ghost s)) t Idle) (EPush t l (is_null old)).

Definition step (t : tid) (a : action) (s : state) : option state :=
  match a with
  | AWrite x v => if busy s x then None else Some (w_n s (fset (nxt s) x v))
  | _ =>
    match nth_error (thr s) t with
    | None => None
    | Some p =>
      match a, p with
      | APush x, Idle => if busy s x then None
                         else Some (w_t (w_b s (mark (busy s) [x] true)) t (QLoad KPush [x]))
      | ATryPush x, Idle => if busy s x then None
                         else Some (w_t (w_b s (mark (busy s) [x] true)) t (QLoad KTry [x]))
      | APrepend l, Idle =>
          if existsb (busy s) l || negb (nodupb l) || negb (chainb (nxt s) (head_ptr l) l)
             || match l with [] => true | _ => false end then None
          else Some (w_t (w_b s (mark (busy s) l true)) t (QLoad KPush l))
      | APopAll r, Idle => Some (w_t s t (PLoad r))
      | APopAllX, Idle => Some (w_t s t (PXchg true))
      | AStep _, QLoad k l => Some (w_t s t (QStore k l (head s)))
      | AStep _, QStore k l old =>
          match store (nxt s) (last_ptr l) old with
          | Some h => Some (w_t (w_n s h) t (QCas k l old))
          | None => None
          end
      | AStep _, QCas KPush l old =>
          if ptr_eqb (head s) old then Some (push_to KPush t l old s)
          else Some (w_t s t (QStore KPush l (head s)))
      | AStep _, QCas KTry l old =>
          if ptr_eqb (head s) old then Some (push_to KTry t l old s)
          else Some (w_l (w_t (w_b s (mark (busy s) l false)) t Idle) (EFail t l (is_null (head s))))
      | ASpurious, QCas KPush l old => Some (w_t s t (QStore KPush l (head s)))
      | AStep _, PXchg r =>
          Some (w_l (w_t (w_g (w_h s None) []) t (PTaken r (head s) (ghost s))) (ETake t))
      | AStep _, PLoad r => Some (w_t s t (PCas r (head s)))
      | AStep _, PCas r old =>
          if ptr_eqb (head s) old then
            Some (w_l (w_t (w_g (w_h s None) []) t (PTaken r (head s) (ghost s))) (ETake t))
          else Some (w_t s t (PCas r (head s)))
      | ASpurious, PCas r old => Some (w_t s t (PCas r (head s)))
      | AStep fuel, PTaken r p g =>
          match (if r then make_reversed fuel (nxt s) p
                 else match make fuel (nxt s) p with Some q => Some (nxt s, q) | None => None end) with
          | Some (h, q) =>
              match iterate fuel h q (ibegin q) with
              | Some l => Some (w_l (w_t (w_b (w_n s h) (mark (busy s) l false)) t Idle) (EPop t r l))
              | None => None
              end
          | None => None
          end
      | _, _ => None
      end
    end
  end.

Inductive reachable : state -> Prop :=
| r_init n h : reachable (init n h)
| r_step s t a s' : reachable s -> step t a s = Some s' -> reachable s'.
