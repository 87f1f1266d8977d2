(** Model of the operation of an any_sender whose receiver needs an inplace_stop_token
    (/repo/include/exec/any_sender_of.hpp, "AS"): _any_opstate (AS L464-484) and _state<Receiver, inplace_stop_token>
    (AS L351-394): a stop source in the operation state, to which a callback on the receiver's stop token
    (__forward_stop_request, /repo/include/stdexec/stop_token.hpp L472-480, "ST") forwards stop requests.
    exec::task and parallel_scheduler use the same arrangement.

    Threads: the one that starts the operation, the one that requests stop of the receiver's stop source, and one on which the
    child may complete.  The child may register one callback with its token, in start(), and completes once, at
    any time after it was started: in start(), inside its stop callback or on the third thread.  It destroys its
    callback before it completes.  One step per access to the lock of a stop source,
    to a callback's flags, and per call; sequential consistency.  The receiver's stop source is an inplace_stop_source that
    outlives the operation; the receiver destroys the operation when it is completed.  *)
From Coq Require Import List Bool.
Import ListNotations.
Set Implicit Arguments.

(** A stop callback (ST L227-255): not constructed; in the list of its source; taken out and running; running, but destroyed by its own
    thread; has run; constructed when stop had been requested already (its source is null); destroyed. *)
Inductive cbs := CbNone | CbReg | CbRun | CbRem | CbDone | CbNull | CbGone.
(** Completion by the child: it destroys its own callback, _state::set_value (set_error, set_stopped) destroys the forwarding
    callback (AS L356-374), the receiver is completed. *)
Inductive cmp := Q1 | Q2 | Q3.
(** request_stop of the operation's own source, ST L263-297: about to lock; lock held; in the child's callback; the child completes in
    its callback; the callback has returned (L286); about to lock again (L292); about to unlock (L295). *)
Inductive inn := I0 | I1 | I2 | IQ (q : cmp) | I3 | I4 | I5.
(** The requesting thread: not called; flag set; in the forwarding callback; it has returned; request_stop has returned. *)
Inductive rpc := R0 | R1 | RCb (i : inn) | R3 | REnd.
(** start(), AS L475-479: not called; about to register; callback runs inline (ST L455-467); about to start the child; in the child's callback, run inline;
    the child completes; done. *)
Inductive spc := S0 | S1 | SCb (i : inn) | S2 | S3 | SQ (q : cmp) | SEnd.
(** The third thread. *)
Inductive cpc := C0 | CQ (q : cmp) | CEnd.

(** [EReq], [EReqRet]: request_stop of the receiver's source is called, returns; [EStart]; [EStop]: the child's token becomes stop_requested; [ECb]: the child's callback is called;
    [EDone]: the receiver is completed; [EUaf]: the operation state is used after that. *)
Inductive event := EReq | EReqRet | EStart | EStop | ECb | EDone | EUaf.

Record core := mkc {
  outer : bool;      (* stop was requested of the receiver's source *)
  inner : bool;      (* stop was requested of _stop_source_, AS L392 *)
  fwd : cbs;         (* _callback_, AS L393 *)
  ccb : cbs;         (* the child's callback *)
  decided : bool;    (* the child has decided to complete *)
  started : bool;    (* the child was started *)
  dead : bool;       (* the receiver was completed and has destroyed the operation *)
  rp : rpc; sp : spc; cp : cpc
}.
Definition init := mkc false false CbNone CbNone false false false R0 S0 C0.

Definition w_outer s := mkc true (inner s) (fwd s) (ccb s) (decided s) (started s) (dead s) (rp s) (sp s) (cp s).
Definition w_inner s := mkc (outer s) true (fwd s) (ccb s) (decided s) (started s) (dead s) (rp s) (sp s) (cp s).
Definition w_fwd s x := mkc (outer s) (inner s) x (ccb s) (decided s) (started s) (dead s) (rp s) (sp s) (cp s).
Definition w_ccb s x := mkc (outer s) (inner s) (fwd s) x (decided s) (started s) (dead s) (rp s) (sp s) (cp s).
Definition w_decided s := mkc (outer s) (inner s) (fwd s) (ccb s) true (started s) (dead s) (rp s) (sp s) (cp s).
Definition w_started s := mkc (outer s) (inner s) (fwd s) (ccb s) (decided s) true (dead s) (rp s) (sp s) (cp s).
Definition w_dead s := mkc (outer s) (inner s) (fwd s) (ccb s) (decided s) (started s) true (rp s) (sp s) (cp s).
Definition w_rp s x := mkc (outer s) (inner s) (fwd s) (ccb s) (decided s) (started s) (dead s) x (sp s) (cp s).
Definition w_sp s x := mkc (outer s) (inner s) (fwd s) (ccb s) (decided s) (started s) (dead s) (rp s) x (cp s).
Definition w_cp s x := mkc (outer s) (inner s) (fwd s) (ccb s) (decided s) (started s) (dead s) (rp s) (sp s) x.

(** a use of the operation state *)
Definition touch s : list event := if dead s then [EUaf] else [].

(** __remove_callback_, ST L381-422, of a callback that may be running: [same]: the caller is the notifying thread.  None: it waits. *)
Definition remove (c : cbs) (same : bool) : option cbs :=
  match c with
  | CbRun => if same then Some CbRem else None
  | _ => Some CbGone
  end.
(** A step of the completion by a thread; [same1], [same2]: it is the thread that runs the child's, the forwarding callback. The result: the
    new state, the next position (None: the receiver has been completed), events. *)
Definition cmp_step s (q : cmp) (same1 same2 : bool) : option (core * option cmp * list event) :=
  match q with
  | Q1 => match remove (ccb s) same1 with Some c => Some (w_ccb s c, Some Q2, touch s) | None => None end
  | Q2 => match remove (fwd s) same2 with Some c => Some (w_fwd s c, Some Q3, touch s) | None => None end
  | Q3 => Some (w_dead s, None, touch s ++ [EDone])
  end.
(** A step of request_stop of the operation's own source; [b]: the child completes in its callback. [onR]: on the requesting thread. Next position None: it has returned. *)
Definition inn_step s (i : inn) (b onR : bool) : option (core * option inn * list event) :=
  match i with
  | I0 => Some (w_inner s, Some I1, touch s ++ [EStop])
  | I1 => match ccb s with
          | CbReg => Some (w_ccb s CbRun, Some I2, touch s ++ [ECb])
          | _ => Some (s, Some I5, touch s)
          end
  | I2 => if b then if decided s then None else Some (w_decided s, Some (IQ Q1), [])
          else Some (s, Some I3, [])
  | IQ q => match cmp_step s q true onR with
            | Some (s, Some q, l) => Some (s, Some (IQ q), l)
            | Some (s, None, l) => Some (s, Some I3, l)
            | None => None
            end
  | I3 => match ccb s with
          | CbRem => Some (w_ccb s CbGone, Some I4, [])
          | _ => Some (w_ccb s CbDone, Some I4, touch s)
          end
  | I4 => Some (s, Some I1, touch s)
  | I5 => Some (s, None, touch s)
  end.

Inductive action :=
| AReq               (* request_stop() of the receiver's stop source *)
| AStart             (* start() *)
| AR (b : bool)      (* the requesting thread takes a step; b: the child completes in its callback *)
| AS (b : bool)      (* the starting thread takes a step; b: the child registers a callback, completes *)
| ACompl             (* the child decides to complete on the third thread *)
| AC.                (* the third thread takes a step *)

(** The requesting thread, ST L263-297 for the receiver's source. *)
Definition r_step s (b : bool) : option (core * list event) :=
  match rp s with
  | R1 => match fwd s with
          | CbReg => Some (w_rp (w_fwd s CbRun) (RCb I0), [])
          | _ => Some (w_rp s REnd, [EReqRet])
          end
  | RCb i => match inn_step s i b true with
             | Some (s, Some i, l) => Some (w_rp s (RCb i), l)
             | Some (s, None, l) => Some (w_rp s R3, l)
             | None => None
             end
  | R3 => match fwd s with
          | CbRem => Some (w_rp (w_fwd s CbGone) REnd, [EReqRet])
          | _ => Some (w_rp (w_fwd s CbDone) REnd, touch s ++ [EReqRet])
          end
  | _ => None
  end.
(** The starting thread. *)
Definition s_step s (b : bool) : option (core * list event) :=
  match sp s with
  | S1 => (* _register_callback, AS L382-387 *)
      if outer s then Some (w_sp (w_fwd s CbNull) (SCb I0), touch s) else Some (w_sp (w_fwd s CbReg) S2, touch s)
  | SCb i => match inn_step s i b false with
             | Some (s, Some i, l) => Some (w_sp s (SCb i), l)
             | Some (s, None, l) => Some (w_sp s S2, l)
             | None => None
             end
  | S2 => (* AS L478; b: the child registers a callback *)
      let l := touch s in
      let s := w_started s in
      if b then if inner s then Some (w_sp (w_ccb s CbNull) S3, l ++ [ECb]) else Some (w_sp (w_ccb s CbReg) S3, l)
      else Some (w_sp s S3, l)
  | S3 => if b then if decided s then None else Some (w_sp (w_decided s) (SQ Q1), [])
          else Some (w_sp s SEnd, [])
  | SQ q => match cmp_step s q false false with
            | Some (s, Some q, l) => Some (w_sp s (SQ q), l)
            | Some (s, None, l) => Some (w_sp s SEnd, l)
            | None => None
            end
  | _ => None
  end.
Definition c_step s : option (core * list event) :=
  match cp s with
  | CQ q => match cmp_step s q false false with
            | Some (s, Some q, l) => Some (w_cp s (CQ q), l)
            | Some (s, None, l) => Some (w_cp s CEnd, l)
            | None => None
            end
  | _ => None
  end.
Definition step s (a : action) : option (core * list event) :=
  match a with
  | AReq => match rp s with R0 => Some (w_rp (w_outer s) R1, [EReq]) | _ => None end
  | AStart => match sp s with S0 => Some (w_sp s S1, [EStart]) | _ => None end
  | AR b => r_step s b
  | AS b => s_step s b
  | ACompl => match cp s with C0 => if started s && negb (decided s) then Some (w_cp (w_decided s) (CQ Q1), []) else None | _ => None end
  | AC => c_step s
  end.
(** Executions, with the events in reverse order. *)
Fixpoint runs (l : list action) (s : core) (log : list event) : option (core * list event) :=
  match l with
  | [] => Some (s, log)
  | a :: l => match step s a with Some (s', es) => runs l s' (rev es ++ log) | None => None end
  end.

(** ** The stop token that the backend of a scheduler sees *)
(** The receiver's stop token: one that cannot be stopped, an inplace_stop_token, another type. *)
Inductive token := TNever | TInplace | TOther.
(** Operations on the two schedulers behind a type-erased backend. *)
Inductive schedop := ParSchedule | ParBulk | TaskSchedule | TaskBulk.
(** Whether a stop request of the receiver reaches the token that try_query<inplace_stop_token>(get_stop_token) returns to the backend:
    /repo/include/stdexec/__detail/__parallel_scheduler_backend.hpp L283-313 (the token of __source_ for other types, to which a callback forwards if
    __register_stop_callback, L225-234, is called); __parallel_scheduler.hpp L215 calls it, __task_scheduler.hpp L313-316
    does not; __parallel_scheduler.hpp L444-456: nothing but inplace_stop_token; __task_scheduler.hpp L809, L821: the environment of
    bulk operations cannot be stopped. *)
Definition registers (o : schedop) : bool := match o with ParSchedule => true | _ => false end.
Definition backend_sees (o : schedop) (t : token) : bool :=
  match o, t with
  | TaskBulk, _ => false
  | _, TNever => false
  | _, TInplace => true
  | ParBulk, TOther => false
  | _, TOther => registers o
  end.
