(** Model of what happens when a coroutine awaits a sender that is not known to
    complete inline: __sender_awaiter<_, _> and __async_receiver
    (/repo/include/stdexec/__detail/__as_awaitable.hpp L114-361).

    Any number of coroutines and threads.  A thread has a stack of activities:
    await_suspend of a coroutine, a call of the receiver's completion function, or
    the body of a resumed coroutine.  The user's code runs in a body, inside the
    start() of an awaited operation, or at the bottom of a thread; it may await the
    next sender (body only), return, and complete any awaited operation that is
    not completed.  One step per access of [__thread_id_]; sequential consistency.
    Simplified: a coroutine awaits again and again or ends; [unhandled_stopped]
    (L149) counts as resuming the coroutine with the outcome stopped; the
    STDEXEC_MSVC_CORO_DESTROY_BUG_WORKAROUND branch (L350-354) is not modelled. *)
From Coq Require Import List ZArith Bool Arith.
From Verif Require Import Conc.
Import ListNotations.
Set Implicit Arguments.

(** What the operation completes with: set_value, set_error, set_stopped. *)
Inductive outcome := Value (v : Z) | Error (e : Z) | Stopped.

(** await_suspend L329-356. [AStart]: inside start() L336; [AExch]: at L347;
    [ANone]: over. *)
Inductive apc := ANone | AStart | AExch.
(** __done L275-305.  [DLoad]: at L279; [DStore]: at L286; [DExch]: at L291;
    [DSpin]: at L298; [DRes]: at L304; [DNone]: not called or over. *)
Inductive dpc := DNone | DLoad | DStore | DExch | DSpin | DRes.

(** A coroutine with its current awaiter. *)
Record coro := mkc {
  gen : nat;                   (* number of awaits begun *)
  sus : bool;                  (* suspended at await number [gen]: the awaiter exists *)
  tid : option nat;            (* __thread_id_ L183; None: std::thread::id{} *)
  res : option outcome;        (* __result_ L158, and set_stopped *)
  ap : apc; dp : dpc
}.

Inductive role := Await | Done | Body.
(** Activity of coroutine [c], for its await number [g]. *)
Record frame := fr { fc : nat; fg : nat; frole : role }.

Inductive event :=
| EAwait (c g : nat)                   (* c awaits for the g-th time *)
| ERet (c g : nat)                     (* start() of that operation has returned *)
| EComplete (c g : nat) (o : outcome)  (* the operation completes *)
| EResume (c g : nat) (o : outcome).   (* c goes on, having awaited o *)

Record state := mk {
  thr : list (list frame);   (* top first *)
  cors : list coro;
  log : list event           (* newest first *)
}.

Definition set_cor s c v := mk (thr s) (upd (cors s) c v) (log s).
Definition set_stack s t v := mk (upd (thr s) t v) (cors s) (log s).
Definition emit s e := mk (thr s) (cors s) (e :: log s).

Definition eqo (a : option nat) (t : nat) : bool := match a with Some x => Nat.eqb x t | None => false end.
Definition is_none A (a : option A) : bool := match a with None => true | _ => false end.

(** the awaiting coroutine goes on: __get_continuation L142-155, and the frame
    of the coroutine runs on this thread *)
Definition resumed (x : coro) : coro := mkc (gen x) false (tid x) (res x) ANone DNone.
Definition result (x : coro) : outcome := match res x with Some o => o | None => Stopped end.

(** One step of await_suspend; [st]: the stack below. *)
Definition await_step (t c g : nat) (x : coro) (st : list frame) (s : state) : option state :=
  match ap x with
  | AExch =>                                               (* L347-349 *)
      if is_none (tid x)
      then Some (emit (set_stack (set_cor s c (resumed x)) t (fr c g Body :: st)) (EResume c g (result x)))
      else Some (set_stack (set_cor s c (mkc (gen x) (sus x) None (res x) ANone (dp x))) t st)
  | _ => None
  end.

Definition with_dp (x : coro) (d : dpc) : coro := mkc (gen x) (sus x) (tid x) (res x) (ap x) d.

(** One step of __done. *)
Definition done_step (t c g : nat) (x : coro) (st : list frame) (s : state) : option state :=
  match dp x with
  | DLoad => Some (set_cor s c (with_dp x (if eqo (tid x) t then DStore else DExch)))      (* L279-281 *)
  | DStore => Some (set_stack (set_cor s c (mkc (gen x) (sus x) None (res x) (ap x) DNone)) t st)  (* L286 *)
  | DExch => Some (set_cor s c (mkc (gen x) (sus x) (Some t) (res x) (ap x)                (* L291-292 *)
                                    (if is_none (tid x) then DRes else DSpin)))
  | DSpin => if is_none (tid x) then Some (set_cor s c (with_dp x DRes)) else None         (* L298 *)
  | DRes => Some (emit (set_stack (set_cor s c (resumed x)) t (fr c g Body :: st)) (EResume c g (result x)))  (* L304 *)
  | DNone => None
  end.

Inductive action :=
| ALib (t : nat)                             (* the library's code on t goes on *)
| AAwait (t : nat)                           (* the body on t awaits *)
| AEnd (t : nat)                             (* the body on t ends (its coroutine is done) *)
| AReturn (t : nat)                          (* the start() on t returns *)
| AComplete (t c : nat) (o : outcome).       (* the user's code on t completes the operation c awaits *)

(** May the user's code run, given the top of the stack? *)
Definition user_code (cs : list coro) (st : list frame) : bool :=
  match st with
  | [] => true
  | f :: _ => match frole f with
              | Body => true
              | Await => match nth_error cs (fc f) with
                         | Some x => match ap x with AStart => true | _ => false end
                         | None => false end
              | Done => false
              end
  end.

Definition step (a : action) (s : state) : option state :=
  match a with
  | ALib t =>
      match nth_error (thr s) t with
      | Some (f :: st) =>
          match nth_error (cors s) (fc f) with
          | Some x => match frole f with
                      | Await => await_step t (fc f) (fg f) x st s
                      | Done => done_step t (fc f) (fg f) x st s
                      | Body => None
                      end
          | None => None
          end
      | _ => None
      end
  | AAwait t =>                                            (* L322-336 *)
      match nth_error (thr s) t with
      | Some (f :: st) =>
          match frole f, nth_error (cors s) (fc f) with
          | Body, Some x =>
              let g := S (gen x) in
              Some (emit (set_stack (set_cor s (fc f) (mkc g true (Some t) None AStart DNone)) t (fr (fc f) g Await :: st))
                         (EAwait (fc f) g))
          | _, _ => None
          end
      | _ => None
      end
  | AEnd t =>
      match nth_error (thr s) t with
      | Some (f :: st) => match frole f with Body => Some (set_stack s t st) | _ => None end
      | _ => None
      end
  | AReturn t =>
      match nth_error (thr s) t with
      | Some (f :: st) =>
          match frole f, nth_error (cors s) (fc f) with
          | Await, Some x => match ap x with
                             | AStart => Some (emit (set_cor s (fc f) (mkc (gen x) (sus x) (tid x) (res x) AExch (dp x))) (ERet (fc f) (fg f)))
                             | _ => None end
          | _, _ => None
          end
      | _ => None
      end
  | AComplete t c o =>                                     (* L255-272 *)
      match nth_error (thr s) t, nth_error (cors s) c with
      | Some st, Some x =>
          if user_code (cors s) st && sus x && is_none (res x)
          then Some (emit (set_stack (set_cor s c (mkc (gen x) (sus x) (tid x) (Some o) (ap x) DLoad)) t
                                     (fr c (gen x) Done :: st)) (EComplete c (gen x) o))
          else None
      | _, _ => None
      end
  end.

Fixpoint runs (l : list action) (s : state) : option state :=
  match l with
  | [] => Some s
  | a :: r => match step a s with Some s' => runs r s' | None => None end
  end.

(** [n] coroutines, the body of number [c] running on thread [c]; [m] more
    threads. *)
Definition init (n m : nat) : state :=
  mk (map (fun c => [fr c 0 Body]) (seq 0 n) ++ repeat [] m) (repeat (mkc 0 false None None ANone DNone) n) [].

Definition reachable (s : state) : Prop := exists n m acts, runs acts (init n m) = Some s.
