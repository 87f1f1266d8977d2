(** Model of the operations of exec::windows_thread_pool (/repo/include/exec/windows/windows_thread_pool.hpp): schedule (L160-400, "W") and
    schedule_at / schedule_after (L527-728, "T"), which have the same protocol, on a thread pool work object or a thread pool timer.

    One operation state; any interleaving of: the thread S that connects and starts it, the thread R that calls request_stop() on the receiver's stop source (once, at any time), the pool thread P
    that runs the callback, the clock, and the destruction of the operation state at any time after it has completed (possibly at once, while the threads are still running).
    The operations of one pool share nothing but the pool handle, so one operation is the general case.
    Simplified: the stop source is that of StopTokenModel, reduced to its contract (one request; the callback runs once, in the requesting thread, or in the constructor if the stop was
    requested before; destroying a callback waits until it has finished unless done from inside it).  The Windows functions are modelled by their documentation:
    SubmitThreadpoolWork queues the callback; SetThreadpoolTimer arms the timer, which queues the callback when it expires; WaitForThreadpool{Work,Timer}Callbacks(.., TRUE) removes the queued callback
    and waits for a running one, but does not disarm a timer; CloseThreadpool{Work,Timer} disarms the timer and does not stop a queued callback.
    All interleavings are sequentially consistent. *)
From Coq Require Import List Bool NArith.
Import ListNotations.
Set Implicit Arguments.

(** W L405-425, T L707-721 *)
Definition submit_complete_flag := 1%N.
Definition stop_requested_flag := 2%N.
Definition starting_flag := 4%N.
Definition running_flag := 8%N.
Definition has (w f : N) : bool := negb (N.eqb (N.land w f) 0).

(** A thread inside request_stop (W L333-371, T L659-681): QLoad the load L335, QCas the loop L337-350 with the value it expects; and inside complete_with_done (W L373-387, T L683-691): QWait L376,
    QDes L381, QSet L385; QEnd: about to return. *)
Inductive qpc := QLoad | QCas (e : N) | QWait | QDes | QSet | QEnd.
(** S: SCreate, SAlloc the constructor (W L191-223, T L531-565); SCall start L227-237; SCons L239, SInl the callback run by that constructor; SCopy L244; SSub L246; SAdd L251; SCwd L261; SDel L271; SPlain L278. *)
Inductive spc := SCreate | SAlloc | SCall | SCons | SInl (q : qpc) | SCopy | SSub | SAdd | SCwd (q : qpc) | SDel | SPlain | SEnd | SThrew.
Inductive rpc := RNo | RRun (q : qpc) | RDone.
(** P: PStart L298, PDes L315, PRun L317, PNull L327, PVal L330 (or L288), PRet: about to return; then the callback is over. *)
Inductive ppc := PIdle | PStart | PDes | PRun | PNull | PVal | PRet | POver.
(** the callback in the hands of the system: not submitted, waiting for the timer, queued, taken by P, removed *)
Inductive job := JNone | JArmed | JQueued | JTaken | JGone.
(** the stop callback object *)
Inductive cbst := CNone | CLive | CDead.
(** the heap block of the state word *)
Inductive blk := BNo | BLive | BFreed.

(** timed, stoppable: which operation it is. state: op.state_ is not null. *)
Record st := mk { timed : bool; stoppable : bool; sp : spc; rp : rpc; pp : ppc; jb : job; cb : cbst; stop : bool; word : N; bl : blk; state : bool; valued : bool; stopped : bool; opened : bool; destroyed : bool }.
Definition init t k := mk t k SCreate RNo PIdle JNone CNone false 0 BNo false false false false false.
Definition w_sp s v := mk (timed s) (stoppable s) v (rp s) (pp s) (jb s) (cb s) (stop s) (word s) (bl s) (state s) (valued s) (stopped s) (opened s) (destroyed s).
Definition w_rp s v := mk (timed s) (stoppable s) (sp s) v (pp s) (jb s) (cb s) (stop s) (word s) (bl s) (state s) (valued s) (stopped s) (opened s) (destroyed s).
Definition w_pp s v := mk (timed s) (stoppable s) (sp s) (rp s) v (jb s) (cb s) (stop s) (word s) (bl s) (state s) (valued s) (stopped s) (opened s) (destroyed s).
Definition w_jb s v := mk (timed s) (stoppable s) (sp s) (rp s) (pp s) v (cb s) (stop s) (word s) (bl s) (state s) (valued s) (stopped s) (opened s) (destroyed s).
Definition w_cb s v := mk (timed s) (stoppable s) (sp s) (rp s) (pp s) (jb s) v (stop s) (word s) (bl s) (state s) (valued s) (stopped s) (opened s) (destroyed s).
Definition w_stop s v := mk (timed s) (stoppable s) (sp s) (rp s) (pp s) (jb s) (cb s) v (word s) (bl s) (state s) (valued s) (stopped s) (opened s) (destroyed s).
Definition w_word s v := mk (timed s) (stoppable s) (sp s) (rp s) (pp s) (jb s) (cb s) (stop s) v (bl s) (state s) (valued s) (stopped s) (opened s) (destroyed s).
Definition w_bl s v := mk (timed s) (stoppable s) (sp s) (rp s) (pp s) (jb s) (cb s) (stop s) (word s) v (state s) (valued s) (stopped s) (opened s) (destroyed s).
Definition w_state s v := mk (timed s) (stoppable s) (sp s) (rp s) (pp s) (jb s) (cb s) (stop s) (word s) (bl s) v (valued s) (stopped s) (opened s) (destroyed s).
Definition w_val s := mk (timed s) (stoppable s) (sp s) (rp s) (pp s) (jb s) (cb s) (stop s) (word s) (bl s) (state s) true (stopped s) (opened s) (destroyed s).
Definition w_stpd s := mk (timed s) (stoppable s) (sp s) (rp s) (pp s) (jb s) (cb s) (stop s) (word s) (bl s) (state s) (valued s) true (opened s) (destroyed s).
Definition w_open s v := mk (timed s) (stoppable s) (sp s) (rp s) (pp s) (jb s) (cb s) (stop s) (word s) (bl s) (state s) (valued s) (stopped s) v (destroyed s).
Definition w_destroyed s := mk (timed s) (stoppable s) (sp s) (rp s) (pp s) (jb s) (cb s) (stop s) (word s) (bl s) (state s) (valued s) (stopped s) (opened s) true.

(** The observable events: the system object is made and closed; the block is allocated and freed; start() is called; stop is requested, request_stop() returns; the work is submitted
    (timer: armed); the timer expires; the pool begins to run the callback; a cancelling wait has returned; the operation completes, with a value (on the pool thread) or stopped; it is destroyed; the constructor threw; something forbidden:
    access to an operation that has been destroyed, to a freed block or a null pointer, destroying a stop callback that is not there or the operation with the stop callback still in it, a failed assertion. *)
Inductive event := EOpen | EClose | EAlloc | EFree | ECall | EReq | EReqRet | ESubmit | EExpire | EBegin | EWaited | EValue | EStopped | EDestroy | EThrow | EBad.

Definition touch s : list event := if destroyed s then [EBad] else [].
(** access to the word through the operation, and through a copied pointer *)
Definition block s : list event := match bl s with BLive => [] | _ => [EBad] end.
Definition deref s : list event := touch s ++ if state s then block s else [EBad].

(** the threads, for "does the thread run the stop callback" *)
Inductive who := TS | TR | TP.
Definition in_callback (s : st) (t : who) : bool := match rp s with RRun _ => match t with TR => false | _ => true end | _ => false end.
(** stopCallback_.__destroy() by thread t; None: it has to wait *)
Definition destroy_cb (t : who) s : option (st * list event) :=
  if in_callback s t then None else Some (w_cb s CDead, touch s ++ match cb s with CLive => [] | _ => [EBad] end).
(** WaitForThreadpoolWorkCallbacks / WaitForThreadpoolTimerCallbacks with cancelPending *)
Definition running s := match pp s with PIdle | POver => false | _ => true end.
Definition wait s : option (st * list event) :=
  if running s then None
  else Some (match jb s with JQueued => w_jb s JGone | _ => s end, touch s ++ [EWaited]).

(** One step of a thread t at q; fail: compare_exchange_weak fails spuriously. *)
Definition qstep (t : who) (q : qpc) (fail : bool) s : option (st * list event * qpc) :=
  match q with
  | QLoad => Some (s, deref s, QCas (word s))
  | QCas e =>
      let a := if has e running_flag then [EBad] else [] in
      if has e starting_flag then Some (s, a, QEnd)
      else if negb fail && N.eqb (word s) e
      then Some (w_word s (N.lor e stop_requested_flag), deref s ++ a, if has e submit_complete_flag then QWait else QEnd)
      else Some (s, deref s ++ a, QCas (word s))
  | QWait => match wait s with Some (s', e) => Some (s', e, QDes) | None => None end
  | QDes => match destroy_cb t s with Some (s', e) => Some (s', e, QSet) | None => None end
  | QSet => Some (w_stpd s, touch s ++ [EStopped], QEnd)
  | QEnd => None
  end.

(** W L246, L278; T L604, L621 *)
Definition submit s := w_jb s (if timed s then JArmed else JQueued).

(** Thread S; fail: the system object or the block cannot be made, the CAS fails. *)
Definition sstep (s : st) (fail : bool) : option (st * list event) :=
  match sp s with
  | SCreate => if fail then Some (w_sp s SThrew, [EThrow])
               else Some (w_sp (w_open s true) (if stoppable s then SAlloc else SCall), [EOpen])
  | SAlloc => if fail then Some (w_sp (w_open s false) SThrew, [EClose; EThrow])
              else Some (w_sp (w_state (w_bl s BLive) true) SCall, [EAlloc])
  | SCall => if state s
             then if stop s then Some (w_sp (w_stpd s) SEnd, touch s ++ [ECall; EStopped])
                  else Some (w_sp s SCons, touch s ++ [ECall])
             else Some (w_sp s SPlain, touch s ++ [ECall])
  | SCons => Some (w_sp (w_cb s CLive) (if stop s then SInl QLoad else SCopy), touch s)
  | SInl QEnd => Some (w_sp s SCopy, [])
  | SInl q => match qstep TS q fail s with Some (s', e, q') => Some (w_sp s' (SInl q'), e) | None => None end
  | SCopy => Some (w_sp s SSub, touch s ++ if state s then [] else [EBad])
  | SSub => Some (w_sp (submit s) SAdd, touch s ++ [ESubmit])
  | SAdd =>
      let p := word s in
      let s' := w_word s (p + submit_complete_flag)%N in
      if has p stop_requested_flag then Some (w_sp s' (SCwd QWait), block s)
      else if has p running_flag then Some (w_sp s' SDel, block s)
      else Some (w_sp s' SEnd, block s)
  | SCwd QEnd => Some (w_sp s SEnd, [])
  | SCwd q => match qstep TS q fail s with Some (s', e, q') => Some (w_sp s' (SCwd q'), e) | None => None end
  | SDel => Some (w_sp (w_bl s BFreed) SEnd, block s ++ [EFree])
  | SPlain => Some (w_sp (submit s) SEnd, touch s ++ [ESubmit])
  | SEnd | SThrew => None
  end.

(** request_stop() on the source, and thread R in the callback. *)
Definition request s : option (st * list event) :=
  if stop s then None
  else match cb s with
       | CLive => Some (w_rp (w_stop s true) (RRun QLoad), [EReq])
       | _ => Some (w_rp (w_stop s true) RDone, [EReq; EReqRet])
       end.
Definition rstep s fail : option (st * list event) :=
  match rp s with
  | RRun QEnd => Some (w_rp s RDone, [EReqRet])
  | RRun q => match qstep TR q fail s with Some (s', e, q') => Some (w_rp s' (RRun q'), e) | None => None end
  | _ => None
  end.

(** The pool thread: it takes the queued callback; stoppable_work_callback / stoppable_timer_callback (W L291-331, T L636-657) or the unstoppable one (W L283-289, T L628-634). *)
Definition pstep s : option (st * list event) :=
  match pp s with
  | PIdle => match jb s with JQueued => Some (w_pp (w_jb s JTaken) (if stoppable s then PStart else PVal), [EBegin]) | _ => None end
  | PStart => let p := word s in
              Some (w_pp (w_word s (p + starting_flag)%N) (if has p stop_requested_flag then PRet else PDes), deref s)
  | PDes => match destroy_cb TP s with Some (s', e) => Some (w_pp s' PRun, e) | None => None end
  | PRun => let p := word s in
            Some (w_pp (w_word s (p + running_flag)%N) (if N.eqb p starting_flag then PNull else PVal), deref s)
  | PNull => Some (w_pp (w_state s false) PVal, touch s)
  | PVal => Some (w_pp (w_val s) PRet, touch s ++ [EValue])
  | PRet => Some (w_pp s POver, [])
  | POver => None
  end.

Inductive act := AS (fail : bool) | AReq | AR (fail : bool) | AP | AClock | ADestroy.
(** the operation may be destroyed once it has completed, or before it is started: W L183-188, T L570-575 *)
Definition may_destroy s := negb (destroyed s) && (valued s || stopped s || match sp s with SCall => true | _ => false end).
Definition destroy s : st * list event :=
  let s1 := w_open (match jb s with JArmed => w_jb s JGone | _ => s end) false in
  let bad := match cb s with CLive => [EBad] | _ => [] end ++ (if opened s then [] else [EBad]) in
  let s2 := match sp s with SCall => w_sp s1 SEnd | _ => s1 end in
  if state s then (w_destroyed (w_bl s2 BFreed), EDestroy :: bad ++ [EClose] ++ block s ++ [EFree])
  else (w_destroyed s2, EDestroy :: bad ++ [EClose]).
Definition step1 s (a : act) : option (st * list event) :=
  match a with
  | AS f => sstep s f
  | AReq => request s
  | AR f => rstep s f
  | AP => pstep s
  | AClock => match jb s with JArmed => Some (w_jb s JQueued, [EExpire]) | _ => None end
  | ADestroy => if may_destroy s then Some (destroy s) else None
  end.

(** The whole history, newest first. *)
Record cfg := mkc { cur : st; log : list event }.
Definition start t k := mkc (init t k) [].
Definition step (c : cfg) (a : act) : option cfg :=
  match step1 (cur c) a with Some (s, es) => Some (mkc s (rev es ++ log c)) | None => None end.
Fixpoint runs (l : list act) (c : cfg) : option cfg :=
  match l with
  | [] => Some c
  | a :: l => match step c a with Some c' => runs l c' | None => None end
  end.
