(** Model of exec::timed_thread_context and its schedule_at operations
    (/repo/include/exec/timed_thread_scheduler.hpp L126-363).

    Any number of operations; each has a thread that starts it and a thread on
    which stop is requested; the context's own thread runs [run()].  One step per
    atomic access; a critical section of [ready_mutex_] is one step; every access
    of the command queue is a step of MpscModel.v.  Sequential consistency.
    Simplified: the heap is a list sorted by (time, order of insertion), which is
    what C25 proves of intrusive_heap; stop callbacks are linearisable (C04-C07):
    a request runs a registered callback, registering after the request runs it
    inline, reset() waits for a callback running on another thread;
    [stop_callback_.reset()] and the completion that follows it are one step
    (nobody else uses the operation then); the clock is an integer that advances
    at any moment; the counters do not overflow. *)
From Coq Require Import List ZArith Bool Arith.
From Verif Require Import Conc MpscModel.
Import ListNotations.
Set Implicit Arguments.
Open Scope Z_scope.

(** Nodes of the command queue: operation [i] has its schedule command and its
    stop command (0 is the queue's stub).  The starting thread and the stopping
    thread of [i] have these numbers, too. *)
Definition nodeS (i : nat) : nat := S (2 * i).
Definition nodeK (i : nat) : nat := S (S (2 * i)).
Definition op_of (n : nat) : nat := Nat.div2 (pred n).
Definition is_stop (n : nat) : bool := Nat.even n.

Inductive outcome := Value | Stopped.

(** start() L314-328 and schedule(this) L212-239.
    [S0]: not started; [S1]: at emplace L316; [S2]: at the compare_exchange L319;
    [SA]: it failed, at reset L325; [S3]: at fetch_add L214; [SP]: in push_back
    L232; [S5]: at the mutex L234; [S6]: at fetch_sub L238; [SF n]: context
    closed, at fetch_sub L280; [SFc n]: at reset L283; [SG n]: at L227; [SD]:
    start() has returned. *)
Inductive spc := S0 | S1 | S2 | SA | S3 | SP | S5 | S6 | SF (n : Z) | SFc (n : Z) | SG (n : Z) | SD.

(** The stop token and its callback: request_stop() L349-355, schedule(&stop_op_).
    [KNone]: no request, no callback; [KReg]: registered; [KReqd]: requested, no
    callback registered or running; [K1]: at fetch_add L351; [K2]: at fetch_add
    L214; [KP]: in push_back; [K5], [K6]: L234, L238; [KF n]: closed, at fetch_sub
    L303; [KFc n]: at reset L307; [KG n]: at L227. *)
Inductive kpc := KNone | KReg | KReqd | K1 | K2 | KP | K5 | K6 | KF (n : Z) | KFc (n : Z) | KG (n : Z).

(** run() L152-210.
    [R0]: calls pop_front L156; [RPop]: in pop_front; [RCmd n]: got node [n];
    [RT i]: erased from the heap, at fetch_sub L280 of set_stopped_ L170; [RTc i]:
    at L283; [RV i]: at fetch_sub L303 of the stop command's set_value_ L172;
    [RVc i]: at L307; [RNow]: L175; [RF t]: at the loop L177, [t]: now; [RX i t]:
    popped, at fetch_sub L290; [RXc i t]: at L293; [RW dl]: waiting L185; [RC]: at
    the compare_exchange L193; [RD]: in the loop L201; [RY i]: at fetch_sub L280;
    [RYc i]: at L283; [RExit]. *)
Inductive rpc :=
| R0 | RPop | RCmd (n : nat) | RT (i : nat) | RTc (i : nat) | RV (i : nat) | RVc (i : nat)
| RNow | RF (t : Z) | RX (i : nat) (t : Z) | RXc (i : nat) (t : Z) | RW (dl : Z)
| RC | RD | RY (i : nat) | RYc (i : nat) | RExit.

Record oper := mko { tm : Z; ref : Z; sp : spc; kp : kpc }.

Inductive event :=
| EStart (i : nat)                    (* start() called *)
| EReq (i : nat)                      (* stop requested of operation i *)
| EComp (i : nat) (o : outcome) (t : Z)  (* its receiver completed, at time t *)
| ERet (i : nat)                      (* start() has returned *)
| EStop.                              (* the context's destructor requests stop L137 *)

Record state := mk {
  mq : MpscModel.state;     (* command_queue_ *)
  ops : list oper;
  heap : list nat;          (* heap_ *)
  rp : rpc;
  nsub : Z;                 (* n_submissions_in_flight_ *)
  ready : bool;             (* ready_ *)
  stopq : bool;             (* stop_requested_ *)
  clock : Z;
  log : list event          (* newest first *)
}.

(** L129; the value does not matter as long as it is very negative *)
Definition context_closed : Z := - 2 ^ 62.
(** L183, in ticks *)
Definition two_seconds : Z := 2000.

Definition set_mq s v := mk v (ops s) (heap s) (rp s) (nsub s) (ready s) (stopq s) (clock s) (log s).
Definition set_op s i v := mk (mq s) (upd (ops s) i v) (heap s) (rp s) (nsub s) (ready s) (stopq s) (clock s) (log s).
Definition set_heap s v := mk (mq s) (ops s) v (rp s) (nsub s) (ready s) (stopq s) (clock s) (log s).
Definition set_rp s v := mk (mq s) (ops s) (heap s) v (nsub s) (ready s) (stopq s) (clock s) (log s).
Definition set_nsub s v := mk (mq s) (ops s) (heap s) (rp s) v (ready s) (stopq s) (clock s) (log s).
Definition set_ready s v := mk (mq s) (ops s) (heap s) (rp s) (nsub s) v (stopq s) (clock s) (log s).
Definition set_stop s := mk (mq s) (ops s) (heap s) (rp s) (nsub s) (ready s) true (clock s) (log s).
Definition set_clock s v := mk (mq s) (ops s) (heap s) (rp s) (nsub s) (ready s) (stopq s) v (log s).
Definition emit s e := mk (mq s) (ops s) (heap s) (rp s) (nsub s) (ready s) (stopq s) (clock s) (e :: log s).

Definition w_ref o v := mko (tm o) v (sp o) (kp o).
Definition w_sp o v := mko (tm o) (ref o) v (kp o).
Definition w_kp o v := mko (tm o) (ref o) (sp o) v.

Definition time_of (s : state) (i : nat) : Z :=
  match nth_error (ops s) i with Some o => tm o | None => 0 end.

(** heap_.insert L162 with [when_ = {time_point_, submission_counter_++}]: behind
    everything that is not later *)
Fixpoint insert (tmf : nat -> Z) (i : nat) (h : list nat) : list nat :=
  match h with
  | [] => [i]
  | j :: r => if tmf j <=? tmf i then j :: insert tmf i r else i :: h
  end.

(** [stop_callback_.reset()]; [None]: has to wait for the running callback. *)
Definition reset (k : kpc) : option kpc :=
  match k with KReg => Some KNone | KNone => Some KNone | KReqd => Some KReqd | _ => None end.

(** reset and complete, by a thread other than the one running the callback *)
Definition finish (s : state) (i : nat) (o : oper) (x : outcome) : option state :=
  match reset (kp o) with
  | Some k => Some (emit (set_op s i (w_kp o k)) (EComp i x (clock s)))
  | None => None
  end.

(** One step inside push_back by the thread with number [t]; the result of the
    call when it is over. *)
Definition push_step (t : nat) (s : state) : option (state * option bool) :=
  match MpscModel.step t AProd (mq s) with
  | Some m => Some (set_mq s m, match nth_error (thr (mq s)) t with
                                | Some (PLink p _) => Some (Nat.eqb p stub)
                                | _ => None end)
  | None => None
  end.

(** A step of the thread starting operation [i]. *)
Definition s_step (i : nat) (o : oper) (s : state) : option state :=
  match sp o with
  | S1 => match kp o with
          | KNone => Some (set_op s i (w_sp (w_kp o KReg) S2))
          | KReqd => Some (set_op s i (w_sp (w_ref o (ref o + 1)) S2))   (* the callback runs inline: L351 *)
          | _ => None
          end
  | S2 => if ref o =? 0 then Some (set_op s i (w_sp (w_ref o 1) S3)) else Some (set_op s i (w_sp o SA))
  | SA => finish s i (w_sp o SD) Stopped                                  (* L325-326 *)
  | S3 => if nsub s <? 0 then Some (set_op (set_nsub s (nsub s + 1)) i (w_sp o (SF (nsub s))))
          else match MpscModel.step (nodeS i) (APush (nodeS i)) (mq s) with
               | Some m => Some (set_op (set_mq (set_nsub s (nsub s + 1)) m) i (w_sp o SP))
               | None => None
               end
  | SP => match push_step (nodeS i) s with
          | Some (s', Some true) => Some (set_op s' i (w_sp o S5))
          | Some (s', Some false) => Some (set_op s' i (w_sp o S6))
          | Some (s', None) => Some s'
          | None => None
          end
  | S5 => Some (set_op (set_ready s true) i (w_sp o S6))                  (* L234-236 *)
  | S6 => Some (emit (set_op (set_nsub s (nsub s - 1)) i (w_sp o SD)) (ERet i))
  | SF n => Some (set_op s i (w_sp (w_ref o (ref o - 1)) (if ref o =? 1 then SFc n else SG n)))
  | SFc n => finish s i (w_sp o (SG n)) Stopped
  | SG n => Some (emit (set_op (if nsub s =? n then set_nsub s context_closed else s) i (w_sp o SD)) (ERet i))
  | S0 | SD => None
  end.

(** A step of the stop callback of operation [i]. *)
Definition k_step (i : nat) (o : oper) (s : state) : option state :=
  match kp o with
  | K1 => Some (set_op s i (w_kp (w_ref o (ref o + 1)) (if ref o =? 1 then K2 else KReqd)))
  | K2 => if nsub s <? 0 then Some (set_op (set_nsub s (nsub s + 1)) i (w_kp o (KF (nsub s))))
          else match MpscModel.step (nodeK i) (APush (nodeK i)) (mq s) with
               | Some m => Some (set_op (set_mq (set_nsub s (nsub s + 1)) m) i (w_kp o KP))
               | None => None
               end
  | KP => match push_step (nodeK i) s with
          | Some (s', Some true) => Some (set_op s' i (w_kp o K5))
          | Some (s', Some false) => Some (set_op s' i (w_kp o K6))
          | Some (s', None) => Some s'
          | None => None
          end
  | K5 => Some (set_op (set_ready s true) i (w_kp o K6))
  | K6 => Some (set_op (set_nsub s (nsub s - 1)) i (w_kp o KReqd))
  | KF n => Some (set_op s i (w_kp (w_ref o (ref o - 1)) (if ref o =? 1 then KFc n else KG n)))
  | KFc n => Some (emit (set_op s i (w_kp o (KG n))) (EComp i Stopped (clock s)))   (* reset on its own thread *)
  | KG n => Some (set_op (if nsub s =? n then set_nsub s context_closed else s) i (w_kp o KReqd))
  | KNone | KReg | KReqd => None
  end.

(** fetch_sub of [ref_count_] by the run thread: continue with [c] if it was the
    last reference, else with [d]. *)
Definition drop_ref (s : state) (i : nat) (c d : rpc) : option state :=
  match nth_error (ops s) i with
  | Some o => Some (set_rp (set_op s i (w_ref o (ref o - 1))) (if ref o =? 1 then c else d))
  | None => None
  end.
Definition end_op (s : state) (i : nat) (x : outcome) (d : rpc) : option state :=
  match nth_error (ops s) i with
  | Some o => match finish s i o x with Some s' => Some (set_rp s' d) | None => None end
  | None => None
  end.

(** A step of the run thread. *)
Definition r_step (s : state) : option state :=
  match rp s with
  | R0 => match MpscModel.step 0%nat APop (mq s) with
          | Some m => Some (set_rp (set_mq s m) RPop) | None => None end
  | RPop => match MpscModel.step 0%nat ACons (mq s) with
            | Some m => Some (set_rp (set_mq s m)
                (match con m with
                 | CIdle => match MpscModel.log m with EDeq n :: _ => RCmd n | _ => RNow end
                 | _ => RPop end))
            | None => None
            end
  | RCmd n =>
      let i := op_of n in
      if is_stop n then
        (if in_dec Nat.eq_dec i (heap s)
         then Some (set_rp (set_heap s (remove Nat.eq_dec i (heap s))) (RT i))   (* L168 *)
         else Some (set_rp s (RV i)))
      else Some (set_rp (set_heap s (insert (time_of s) i (heap s))) R0)         (* L161-162 *)
  | RT i => drop_ref s i (RTc i) (RV i)
  | RTc i => end_op s i Stopped (RV i)
  | RV i => drop_ref s i (RVc i) R0
  | RVc i => end_op s i Stopped R0
  | RNow => Some (set_rp s (RF (clock s)))
  | RF t => match heap s with
            | i :: h => if time_of s i <=? t then Some (set_rp (set_heap s h) (RX i t))
                        else Some (set_rp s (RW (time_of s i)))
            | [] => Some (set_rp s (RW (t + two_seconds)))
            end
  | RX i t => drop_ref s i (RXc i t) (RF t)
  | RXc i t => end_op s i Value (RF t)
  | RW dl => if ready s || stopq s || (dl <=? clock s)
             then Some (set_rp (set_ready s false) (if stopq s then RC else R0)) else None
  | RC => if nsub s =? 0 then Some (set_rp (set_nsub s context_closed) RD) else None
  | RD => match heap s with
          | i :: h => Some (set_rp (set_heap s h) (RY i))
          | [] => Some (set_rp s RExit)
          end
  | RY i => drop_ref s i (RYc i) RD
  | RYc i => end_op s i Stopped RD
  | RExit => None
  end.

Inductive action :=
| AStart (i : nat)    (* the user calls start() *)
| AReq (i : nat)      (* stop is requested of operation i *)
| AStop               (* the context is being destroyed *)
| ATick               (* time passes *)
| AS (i : nat)        (* the starting thread of i goes on *)
| AK (i : nat)        (* its stop callback goes on *)
| AR.                 (* the run thread goes on *)

Definition step (a : action) (s : state) : option state :=
  match a with
  | AStart i => match nth_error (ops s) i with
                | Some o => match sp o with
                            | S0 => Some (emit (set_op s i (w_sp o S1)) (EStart i))
                            | _ => None end
                | None => None end
  | AReq i => match nth_error (ops s) i with
              | Some o => match kp o with
                          | KNone => Some (emit (set_op s i (w_kp o KReqd)) (EReq i))
                          | KReg => Some (emit (set_op s i (w_kp o K1)) (EReq i))
                          | _ => None end
              | None => None end
  | AStop => if stopq s then None else Some (emit (set_stop s) EStop)
  | ATick => Some (set_clock s (clock s + 1))
  | AS i => match nth_error (ops s) i with Some o => s_step i o s | None => None end
  | AK i => match nth_error (ops s) i with Some o => k_step i o s | None => None end
  | AR => r_step s
  end.

Fixpoint runs (l : list action) (s : state) : option state :=
  match l with
  | [] => Some s
  | a :: r => match step a s with Some s' => runs r s' | None => None end
  end.

(** One operation per element of [l], scheduled for that time; the clock shows
    [c]. *)
Definition init (l : list Z) (c : Z) : state :=
  mk (MpscModel.init (S (2 * length l)) (fun _ => None)) (map (fun t => mko t 0 S0 KNone) l) [] R0 0
     false false c [].

Definition reachable (s : state) : Prop := exists l c acts, runs acts (init l c) = Some s.
