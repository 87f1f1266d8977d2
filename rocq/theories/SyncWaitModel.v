(** * SyncWaitModel: stdexec::sync_wait (include/stdexec/__detail/__sync_wait.hpp L91-160, L385-408)
    on top of the run_loop of RunLoopModel.v.

    Thread 0 calls sync_wait.  The sender is arbitrary: its operation may run on any number of
    threads, may schedule operations on the loop (L64-68), and completes the receiver once, on any
    thread, at any time after start().  Simplifications: connect does not throw; make_exception_ptr does not
    throw; moving the optional out of apply_sender (L408) does not throw. *)

From Coq Require Import List Arith Bool.
From Verif Require Import Conc RunLoopModel.
Import ListNotations.
Set Implicit Arguments.

Definition val := nat.
(** exceptions: whatever a non-null exception_ptr refers to; std::system_error; an error datum thrown as such *)
Inductive exn := XOther (e : nat) | XSystem (code : nat) | XDatum (e : nat).
Inductive error := ErrPtr (p : option exn) | ErrCode (code : nat) | ErrDatum (e : nat).
(** how the operation completes; for set_value, also what copying the values into the tuple throws, if anything *)
Inductive completion := CValue (vs : list val) (throws : option exn) | CError (e : error) | CStopped.
(** what sync_wait does *)
Inductive result := Returns (r : option (list val)) | Throws (x : exn).

Inductive event := SComplete (t : tid) (c : completion) | SResult (r : result).
Record state := {
  loop : RunLoopModel.state;          (* __local_state.__loop_ L94 *)
  eptr : option exn;                  (* __local_state.__eptr_ L93 *)
  values : option (list val);         (* __result L389 *)
  slog : list event }.                (* ghost, newest first *)
Definition s_loop s l := {| loop := l; eptr := eptr s; values := values s; slog := slog s |}.

(** the receiver's completion functions L103-155 before they call finish() *)
Definition store (c : completion) (s : state) : state :=
  match c with
  | CValue vs None => {| loop := loop s; eptr := eptr s; values := Some vs; slog := slog s |}      (* L108 *)
  | CValue vs (Some x) => {| loop := loop s; eptr := Some x; values := values s; slog := slog s |} (* L112 *)
  | CError (ErrPtr p) => {| loop := loop s; eptr := p; values := values s; slog := slog s |}       (* L134 *)
  | CError (ErrCode k) => {| loop := loop s; eptr := Some (XSystem k); values := values s; slog := slog s |}  (* L138 *)
  | CError (ErrDatum e) => {| loop := loop s; eptr := Some (XDatum e); values := values s; slog := slog s |}  (* L142 *)
  | CStopped => s                                                                                  (* L148-151 *)
  end.

(** L402-408 *)
Definition get (s : state) : result := match eptr s with Some x => Throws x | None => Returns (values s) end.

Inductive action :=
| XLoop (t : tid) (a : RunLoopModel.action)    (* the operation uses the loop's scheduler; run() goes on *)
| XComplete (t : tid) (c : completion)         (* thread t completes the receiver *)
| XRun                                         (* start(__op) has returned, run() is called L397-400 *)
| XGet.                                        (* run() has returned *)

(** finish() and run() are called by sync_wait only: the environment exposes just the scheduler *)
Definition foreign (a : RunLoopModel.action) : bool := match a with AFinish | ARun => false | _ => true end.
Definition completed (s : state) : bool := existsb (fun e => match e with SComplete _ _ => true | _ => false end) (slog s).
Definition returned (s : state) : bool := existsb (fun e => match e with SResult _ => true | _ => false end) (slog s).

Definition step (canstop : op -> bool) (x : action) (s : state) : option state :=
  match x with
  | XLoop t a =>
      if foreign a then match RunLoopModel.step canstop t a (loop s) with Some l => Some (s_loop s l) | None => None end else None
  | XComplete t c =>
      if completed s then None else            (* an operation completes once *)
      match RunLoopModel.step canstop t AFinish (loop s) with
      | Some l => let s1 := store c s in
                  Some {| loop := l; eptr := eptr s1; values := values s1; slog := SComplete t c :: slog s |}
      | None => None
      end
  | XRun => match RunLoopModel.step canstop 0 ARun (loop s) with Some l => Some (s_loop s l) | None => None end
  | XGet =>
      match run (loop s) with
      | RDone => if returned s then None else
                 Some {| loop := loop s; eptr := eptr s; values := values s; slog := SResult (get s) :: slog s |}
      | _ => None
      end
  end.
Definition init (n : nat) : state := {| loop := RunLoopModel.init n; eptr := None; values := None; slog := [] |}.
Inductive reachable (canstop : op -> bool) : state -> Prop :=
| r_init n : reachable canstop (init n)
| r_step s x s' : reachable canstop s -> step canstop x s = Some s' -> reachable canstop s'.
