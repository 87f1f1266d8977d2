(** * AssociateModel: the associate sender.

    Models include/stdexec/__detail/__associate.hpp L53-286: the class __associate_data (constructor,
    copy and move constructors, release, destructor) and its operation state (constructors, __run,
    destructor).  Objects are numbered in order of creation.  Each member function is one step which
    appends the observable effects of its sub-steps, in program order, to the log.  The result of
    try_associate is a choice of the environment (ScopeModel describes which results are possible);
    [thr] says whether the construction of the inner object throws.

    Simplifications: the union of sender and nothing (L147-150) / receiver and child operation
    (L192-196) is not a separate field: which member is alive is decided by the association, as in the
    code; liveness of the members is read off the log.  The receiver of an unassociated operation is
    not tracked.  token.wrap does not throw. *)
From Coq Require Import List Arith Bool.
Import ListNotations.
Set Implicit Arguments.

Definition aid := nat.

Inductive event :=
| ENew (x : nat)               (* the wrapped sender / child operation inside object x is constructed *)
| EDel (x : nat)               (* ... is destroyed *)
| EOk (a : aid) (x : nat)      (* try_associate succeeds, giving association a, for object x *)
| EFail (x : nat)              (* try_associate fails for object x *)
| EMove (x y : nat)            (* the association of x is moved into y *)
| EDis (a : aid)               (* association a is released *)
| EStart (x : nat)             (* the child operation in x is started *)
| EStopped (x : nat).          (* x completes its receiver with set_stopped *)

Inductive obj :=
| Data (a : option aid)                    (* __associate_data L54-152 *)
| Op (a : option aid) (started : bool)     (* __op_state L184-244 *)
| Dead.

Record state := { objs : list obj; nexta : aid; log : list event (* newest first *) }.
Definition init : state := {| objs := []; nexta := 0; log := [] |}.

Definition emit (s : state) (l : list event) : state :=
  {| objs := objs s; nexta := nexta s; log := rev l ++ log s |}.
Fixpoint setn (l : list obj) (i : nat) (o : obj) : list obj :=
  match l, i with [], _ => [] | _ :: l, 0 => o :: l | x :: l, S i => x :: setn l i o end.
Definition put (s : state) (x : nat) (o : obj) : state :=
  {| objs := setn (objs s) x o; nexta := nexta s; log := log s |}.
Definition push (s : state) (o : obj) : state :=
  {| objs := objs s ++ [o]; nexta := nexta s; log := log s |}.
Definition fresh (s : state) : state := {| objs := objs s; nexta := S (nexta s); log := log s |}.

Inductive action :=
| Make (ok : bool)                       (* associate(sndr, token): L85-104 *)
| Copy (x : nat) (ok thr : bool)         (* L106-116 *)
| Move (x : nat) (thr : bool)            (* L118-121, L131-135, L138-145 *)
| ConnectMove (x : nat) (thr : bool)     (* L212-214, L198-210 *)
| ConnectCopy (x : nat) (ok thr : bool)  (* L216-219, L198-210 *)
| Start (x : nat)                        (* __run L233-243 *)
| Destroy (x : nat).                     (* L123-129, L221-231 *)

(** the private constructor taking released parts, L138-145: the association is moved from x into a
    new object y, then the sender is move-constructed, then (end of the caller's full expression) the
    unique_ptr destroys the old sender.  If the construction throws, the member __assoc_ of y is
    destroyed first, the parameter __parts afterwards. *)
Definition move_data (s : state) (x : nat) (a : option aid) (thr : bool) : state :=
  let y := length (objs s) in
  match a with
  | None => push (put s x (Data None)) (Data None)
  | Some a =>
      if thr then emit (push (put s x (Data None)) Dead) [EMove x y; EDis a; EDel x]
      else emit (push (put s x (Data None)) (Data (Some a))) [EMove x y; ENew y; EDel x]
  end.
(** __op_state's constructor, L198-210 *)
Definition connect_data (s : state) (x : nat) (a : option aid) (thr : bool) : state :=
  let y := length (objs s) in
  match a with
  | None => push (put s x (Data None)) (Op None false)
  | Some a =>
      if thr then emit (push (put s x (Data None)) Dead) [EMove x y; EDis a; EDel x]
      else emit (push (put s x (Data None)) (Op (Some a) false)) [EMove x y; ENew y; EDel x]
  end.
(** the copy constructor, L106-116; a disengaged association's try_associate yields a disengaged one *)
Definition copy_data (s : state) (a : option aid) (ok thr : bool) : state :=
  let y := length (objs s) in
  match a with
  | None => push s (Data None)
  | Some _ =>
      if ok then
        let b := nexta s in
        if thr then emit (push (fresh s) Dead) [EOk b y; EDis b]
        else emit (push (fresh s) (Data (Some b))) [EOk b y; ENew y]
      else emit (push s (Data None)) [EFail y]
  end.

Definition step (c : action) (s : state) : option state :=
  match c with
  | Make ok =>
      let y := length (objs s) in
      Some (if ok then emit (push (fresh s) (Data (Some (nexta s)))) [ENew y; EOk (nexta s) y]
            else emit (push s (Data None)) [ENew y; EFail y; EDel y])     (* the guard, L93 *)
  | Copy x ok thr =>
      match nth_error (objs s) x with
      | Some (Data a) => Some (copy_data s a ok thr)
      | _ => None
      end
  | Move x thr =>
      match nth_error (objs s) x with
      | Some (Data a) => Some (move_data s x a thr)
      | _ => None
      end
  | ConnectMove x thr =>
      match nth_error (objs s) x with
      | Some (Data a) => Some (connect_data s x a thr)
      | _ => None
      end
  | ConnectCopy x ok thr =>
      match nth_error (objs s) x with
      | Some (Data a) =>
          let y := length (objs s) in
          let s1 := copy_data s a ok false in                             (* the temporary y *)
          match nth_error (objs s1) y with
          | Some (Data b) => Some (put (connect_data s1 y b thr) y Dead)  (* ~__associate_data of y: released *)
          | _ => None
          end
      | _ => None
      end
  | Start x =>
      match nth_error (objs s) x with
      | Some (Op (Some a) false) => Some (emit (put s x (Op (Some a) true)) [EStart x])
      | Some (Op None false) => Some (emit (put s x (Op None true)) [EStopped x])
      | _ => None
      end
  | Destroy x =>
      match nth_error (objs s) x with
      | Some (Data (Some a)) => Some (emit (put s x Dead) [EDel x; EDis a])
      | Some (Op (Some a) _) => Some (emit (put s x Dead) [EDel x; EDis a])
      | Some (Data None) => Some (put s x Dead)
      | Some (Op None _) => Some (put s x Dead)
      | _ => None
      end
  end.

Inductive reachable : state -> Prop :=
| r_init : reachable init
| r_step s c s' : reachable s -> step c s = Some s' -> reachable s'.
(** executions in which no inner construction throws *)
Definition no_throw (c : action) : bool :=
  match c with Copy _ _ t | Move _ t | ConnectMove _ t | ConnectCopy _ _ t => negb t | _ => true end.
Inductive reachable_nt : state -> Prop :=
| n_init : reachable_nt init
| n_step s c s' : reachable_nt s -> no_throw c = true -> step c s = Some s' -> reachable_nt s'.
