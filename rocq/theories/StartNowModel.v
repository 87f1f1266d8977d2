(** Model of exec::start_now, /repo/include/exec/start_now.hpp L54-214 ("SN"): n senders started eagerly into one storage
    object, and the senders async_wait() that wait for all of them.

    Any number of children, each completing on any thread at any time after it was started (also while start_now is still starting the others),
    any number of waiters; one step per access to __pending_ and __joiner_; sequential consistency.
    Not modelled: the async scope in which the children are nested (see ScopeModel, AsyncScopeModel), the stop source, and children that fail (rejected
    at compile time, SN L108-109). *)
From Coq Require Import List Bool Arith.
From Verif Require Import Conc.
Import ListNotations.
Set Implicit Arguments.

(** __joiner_, SN L74: &__empty_joiner_, null, or a waiting operation. *)
Inductive joiner := JEmpty | JNull | JOp (w : nat).
(** A child: not yet started; running; its receiver is in __complete() before L86; before L88; about to call the joiner found at L89; has returned. *)
Inductive child := CNew | CRun | CDec | CExch | CJoin (w : nat) | CEnd.
(** An operation of async_wait(): not started; in start() before L137; found the CAS failing, about to call join() L139;
    registered; its receiver has been completed, L146. *)
Inductive waiter := WNew | WCas | WJoin | WReg | WDone.

(** What can be observed, newest first: child i is started; the receiver of child i is called (it has completed); waiter w is started;
    the receiver of waiter w is completed; an access to the storage object. *)
Inductive event := EStart (i : nat) | EDone (i : nat) | EWait (w : nat) | EJoined (w : nat) | EAcc.

Record state := mks { nn : nat; started : nat; pend : nat; jo : joiner; ch : nat -> child; wt : nat -> waiter; log : list event }.
(** __storage_base's constructor, SN L78-82 *)
Definition init n := mks n 0 n (if n =? 0 then JNull else JEmpty) (fun _ => CNew) (fun _ => WNew) [].
Definition w_ch s i v := mks (nn s) (started s) (pend s) (jo s) (fset (ch s) i v) (wt s) (log s).
Definition w_wt s i v := mks (nn s) (started s) (pend s) (jo s) (ch s) (fset (wt s) i v) (log s).
Definition w_pend s v := mks (nn s) (started s) v (jo s) (ch s) (wt s) (log s).
Definition w_jo s v := mks (nn s) (started s) (pend s) v (ch s) (wt s) (log s).
Definition w_started s v := mks (nn s) v (pend s) (jo s) (ch s) (wt s) (log s).
Definition emit s e := mks (nn s) (started s) (pend s) (jo s) (ch s) (wt s) (e :: log s).

Inductive action :=
| AStart              (* the constructor starts the next child, SN L195 *)
| AComplete (i : nat) (* child i completes: calls set_value or set_stopped of its receiver, SN L103-114 *)
| AChild (i : nat)    (* child i's thread goes on in __complete(), SN L84-94 *)
| AWait (w : nat)     (* the user starts an operation of async_wait(): only after start_now has returned *)
| AWaiter (w : nat).  (* the thread in its start() goes on, SN L134-141 *)

Definition step (s : state) (a : action) : option state :=
  match a with
  | AStart => if started s <? nn s then Some (emit (w_ch (w_started s (S (started s))) (started s) CRun) (EStart (started s))) else None
  | AComplete i => match ch s i with CRun => Some (emit (w_ch s i CDec) (EDone i)) | _ => None end
  | AChild i =>
      match ch s i with
      | CDec => Some (emit (w_ch (w_pend s (pend s - 1)) i (if pend s =? 1 then CExch else CEnd)) EAcc)          (* L86 *)
      | CExch => Some (emit (w_ch (w_jo s JNull) i (match jo s with JOp w => CJoin w | _ => CEnd end)) EAcc)     (* L88-89; the empty joiner does nothing, L58 *)
      | CJoin w => Some (emit (w_wt (w_ch s i CEnd) w WDone) (EJoined w))                                        (* L91, L143-147 *)
      | _ => None
      end
  | AWait w => if started s =? nn s then match wt s w with WNew => Some (emit (w_wt s w WCas) (EWait w)) | _ => None end else None
  | AWaiter w =>
      match wt s w with
      | WCas => Some (emit (match jo s with JEmpty => w_wt (w_jo s (JOp w)) w WReg | _ => w_wt s w WJoin end) EAcc)  (* L137 *)
      | WJoin => Some (emit (w_wt s w WDone) (EJoined w))                                                            (* L139 *)
      | _ => None
      end
  end.
Fixpoint runs (l : list action) (s : state) : option state :=
  match l with
  | [] => Some s
  | a :: l => match step s a with Some s' => runs l s' | None => None end
  end.
