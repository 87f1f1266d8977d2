(** Model of exec::async_scope: nest and when_empty / on_empty
    (/repo/include/exec/async_scope.hpp L52-250).

    Any number of nested operations and of when_empty operations, each on a
    thread of its own (two operations on one thread are the interleavings where
    they do not overlap).  One step per access to [__active_], to the mutex, and
    to the waiter list (which is only accessed under the mutex; the load of
    [__active_] and the push_back that follows it under the mutex, L91-95, are
    one step).  Sequential consistency; the intrusive queue is a list (C21). *)
From Coq Require Import List ZArith Bool Arith.
From Verif Require Import Conc.
Import ListNotations.
Set Implicit Arguments.
Open Scope Z_scope.

(** A nested operation.
    [N0]: connected; [N1]: counted (L222-227), the child runs; [N2]: the child
    has completed and the receiver has been completed (L171-199), about to lock
    the mutex L156; [N3]: mutex held, at fetch_sub L157; [NLast]: it was the
    last one, about to take the waiters L159; [NRel ws]: about to unlock L160,
    [NRel0]: about to unlock at the end of the scope L169 (not the last);
    [NNotify ws]: mutex released, in the loop L163-168; [NDone]. *)
Inductive npc :=
| N0 | N1 | N2 | N3 | NLast | NRel (ws : list nat) | NRel0 | NNotify (ws : list nat) | NDone.

(** A when_empty operation.  [W0]; [W1]: mutex held, at the load L91; [WQ]: in
    the waiter list, mutex held (return L94 unlocks); [WWait]; [WGo]: scope
    empty, about to unlock L96; [WStart]: about to start the wrapped operation
    L97; [WDone]: started. *)
Inductive wpc := W0 | W1 | WQ | WWait | WGo | WStart | WDone.

Inductive event :=
| EAdd (i : nat)      (* nested operation i was counted *)
| EDone (i : nat)     (* its receiver was completed *)
| ESub (i : nat)      (* it was uncounted *)
| EUnlock (i : nat)   (* its last access to the scope *)
| EWStart (j : nat)   (* when_empty operation j got the mutex in start() *)
| ENotify (j : nat).  (* its wrapped operation is started *)

Record state := mk {
  nests : list npc;
  whens : list wpc;
  active : Z;            (* __active_ *)
  locked : bool;         (* __lock_ *)
  waiters : list nat;    (* __waiters_ *)
  log : list event       (* newest first *)
}.

Definition init (n m : nat) : state :=
  mk (repeat N0 n) (repeat W0 m) 0 false [] [].

Inductive action := ANest (i : nat) | AWhen (j : nat).

Definition set_n (s : state) (i : nat) (p : npc) : state :=
  mk (upd (nests s) i p) (whens s) (active s) (locked s) (waiters s) (log s).
Definition set_w (s : state) (j : nat) (p : wpc) : state :=
  mk (nests s) (upd (whens s) j p) (active s) (locked s) (waiters s) (log s).
Definition set_active (s : state) (x : Z) : state :=
  mk (nests s) (whens s) x (locked s) (waiters s) (log s).
Definition set_lock (s : state) (b : bool) : state :=
  mk (nests s) (whens s) (active s) b (waiters s) (log s).
Definition set_waiters (s : state) (q : list nat) : state :=
  mk (nests s) (whens s) (active s) (locked s) q (log s).
Definition emit (s : state) (e : event) : state :=
  mk (nests s) (whens s) (active s) (locked s) (waiters s) (e :: log s).

(** One step of nested operation [i]. *)
Definition nest_step (i : nat) (p : npc) (s : state) : option state :=
  match p with
  | N0 => Some (emit (set_active (set_n s i N1) (active s + 1)) (EAdd i))
  | N1 => Some (emit (set_n s i N2) (EDone i))
  | N2 => if locked s then None else Some (set_lock (set_n s i N3) true)
  | N3 => Some (emit (set_active (set_n s i (if active s =? 1 then NLast else NRel0)) (active s - 1))
                     (ESub i))
  | NLast => Some (set_waiters (set_n s i (NRel (waiters s))) [])
  | NRel ws => Some (emit (set_lock (set_n s i (NNotify ws)) false) (EUnlock i))
  | NRel0 => Some (emit (set_lock (set_n s i NDone) false) (EUnlock i))
  | NNotify [] => Some (set_n s i NDone)
  | NNotify (j :: ws) =>
      match nth_error (whens s) j with
      | Some WWait => Some (emit (set_w (set_n s i (NNotify ws)) j WDone) (ENotify j))
      | _ => None        (* __notify_waiter on an operation that is not waiting *)
      end
  | NDone => None
  end.

(** One step of when_empty operation [j]. *)
Definition when_step (j : nat) (p : wpc) (s : state) : option state :=
  match p with
  | W0 => if locked s then None else Some (emit (set_lock (set_w s j W1) true) (EWStart j))
  | W1 => if active s =? 0 then Some (set_w s j WGo)
          else Some (set_waiters (set_w s j WQ) (waiters s ++ [j]))
  | WQ => Some (set_lock (set_w s j WWait) false)
  | WGo => Some (set_lock (set_w s j WStart) false)
  | WStart => Some (emit (set_w s j WDone) (ENotify j))
  | WWait | WDone => None
  end.

Definition step (a : action) (s : state) : option state :=
  match a with
  | ANest i => match nth_error (nests s) i with Some p => nest_step i p s | None => None end
  | AWhen j => match nth_error (whens s) j with Some p => when_step j p s | None => None end
  end.

Fixpoint runs (l : list action) (s : state) : option state :=
  match l with
  | [] => Some s
  | a :: r => match step a s with Some s' => runs r s' | None => None end
  end.

Definition reachable (n m : nat) (s : state) : Prop := exists l, runs l (init n m) = Some s.
