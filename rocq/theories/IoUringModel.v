(** * IoUringModel: exec::io_uring_context
    Models include/exec/linux/io_uring_context.hpp (with STDEXEC_HAS_IO_URING_ASYNC_CANCELLATION):
    the context's request queue, submission and completion queues, the run loop, the wake-up operation,
    schedule() and schedule_after() operations and their stop operations, and an abstract kernel.

    Threads: any number of client threads start operations, request stop of receivers or of the context,
    call wakeup()/finish(); at most one thread is inside run_until_stopped()/run_until_empty() (the code
    throws otherwise). Every access to a shared location is one step unless a comment says otherwise.

    Not modelled: failing system calls (io_uring_setup, mmap, eventfd, write, a negative result of
    io_uring_enter other than EINTR), reset(), the fallback without async cancellation, and the memory
    orders (executions are sequentially consistent). *)
From Coq Require Import List ZArith Bool Arith.
From Verif Require Import Conc.
Import ListNotations.
Set Implicit Arguments.
Open Scope Z_scope.

(** A task node: operation i, the stop operation embedded in schedule_after operation i (L872-941), or
    the context's wake-up operation (L341-387). *)
Inductive tref := TOp (i : nat) | TStop (i : nat) | TWake.
Definition teq (a b : tref) : bool :=
  match a, b with
  | TOp i, TOp j | TStop i, TStop j => Nat.eqb i j
  | TWake, TWake => true
  | _, _ => false
  end.

(** The configuration: which operations are schedule_after operations (the others are schedule
    operations), and the sizes of the two rings (io_uring_params sq_entries, cq_entries). *)
Record cfg := mkcfg { aft : nat -> bool; sqn : nat; cqn : nat }.

(** Where the thread that calls start() on an operation is (L814-824 calling L470-500). [PRef]: the
    submission was refused; [PEnd]: start() returned. *)
Inductive cpc := PNew | PPush | PDec | PWake | PEnd | PRef.

(** Where a stop callback's call of __stop_operation::start is (L928-940 calling L470-500); [KFin]: the
    submission was refused and the last reference dropped, so this thread completes the operation. *)
Inductive kpc := KCas | KSub | KPush | KDec | KWake | KFin.

(** A stop callback held in an optional: not constructed, registered, running on another thread, finished
    or destroyed. *)
Inductive cbs := CbNone | CbReg | CbRun (k : kpc) | CbDone.

(** reset() of the optional holding a callback *)
Definition unreg (b : cbs) : cbs := match b with CbNone => CbNone | _ => CbDone end.

(** One operation (L831-866, L872-1068, L1095-1220). [n] is __n_ops_; [rreq]: the receiver's stop token
    has a stop requested; [fin] (ghost): the receiver has been completed (the operation may be destroyed);
    [exp]: the time given to schedule_after has passed since the kernel got it; [kcan]: the kernel
    cancelled it. *)
Record op := mkop {
  pc : cpc; n : Z; ccb : cbs; rcb : cbs; rreq : bool; fin : bool; exp : bool; kcan : bool
}.
Definition op0 := mkop PNew 0 CbNone CbNone false false false false.

Definition w_pc x p := mkop p (n x) (ccb x) (rcb x) (rreq x) (fin x) (exp x) (kcan x).
Definition w_n x v := mkop (pc x) v (ccb x) (rcb x) (rreq x) (fin x) (exp x) (kcan x).
Definition w_ccb x v := mkop (pc x) (n x) v (rcb x) (rreq x) (fin x) (exp x) (kcan x).
Definition w_rcb x v := mkop (pc x) (n x) (ccb x) v (rreq x) (fin x) (exp x) (kcan x).
Definition w_rreq x := mkop (pc x) (n x) (ccb x) (rcb x) true (fin x) (exp x) (kcan x).
Definition w_fin x := mkop (pc x) (n x) (ccb x) (rcb x) (rreq x) true (exp x) (kcan x).
Definition w_exp x := mkop (pc x) (n x) (ccb x) (rcb x) (rreq x) (fin x) true (kcan x).
Definition w_kcan x := mkop (pc x) (n x) (ccb x) (rcb x) (rreq x) (fin x) (exp x) true.

(** What the receivers and the callers of run see. [EDone i r b]: operation i completed with r, on the
    thread running the context iff b. [EBad]: an object was used after its operation completed, or a node
    was linked into a list while still linked. [EAssert]: a STDEXEC_ASSERT fails. [ERet b]: run returned,
    having closed the context iff b. [EThrow]: run threw because the context is running. *)
Inductive res := RVal | RStp.
Inductive event := EDone (i : nat) (r : res) (b : bool) | EBad | EAssert | ERet (b : bool) | EThrow.

(** Which call of __completion_queue::complete the runner is in (L507 and L522; L591; L623). *)
Inductive wh := WSome | WEnter | WDrain.

(** The local variables of __submission_queue::submit (L236-290); [dr]: the call of L617. *)
Record frame := mkf { dr : bool; st : bool; room : nat; todo : list tref; pnd : list tref; rdy : list tref }.

(** Where the runner returns to after a task's __complete_ function. *)
Inductive kont := KComp (w : wh) (r : list tref) | KRdy (w : wh) (r : list tref) | KSubm (f : frame).

(** Stages of a final completion: reset __on_context_stop_, reset __on_receiver_stop_, complete the
    receiver (L1048-1060, L922-924). *)
Inductive fst3 := FC | FR | FD.

(** Where the runner is. *)
Inductive rpc :=
| RIdle | RPop0 | RTop
| RComp (w : wh) (r : list tref) | RRdy (w : wh) (r : list tref)
| RPop (w : wh) | RRead
| RSub (f : frame) | RRegC (i : nat) (f : frame) | RRegR (i : nat) (f : frame) | RRegS (i : nat) (f : frame)
| RFin (g : fst3) (i : nat) (c : bool) (k : kont)
| RCheck | RWait | RExit | RClose | RDPop | RRet (b : bool).

(** The state of the context, L731-741. [infl] is __n_submissions_in_flight_ (-1: closed), [req] is
    __requests_ (newest first), [pend] is __pending_, [sq] the submission ring's entries not yet entered,
    [kern] the requests the kernel holds, [cq] the completion ring (with "res is -ECANCELED"), [evfd] the
    event file descriptor's counter. Ghost: [ever] (a stop of the context was requested at some time),
    [nruns] (number of runs so far), [log] (newest first). *)
Record state := mks {
  ops : nat -> op;
  infl : Z; brk : bool; stop : bool; ever : bool;
  ntot : Z;
  req : list tref; pend : list tref; sq : list tref; kern : list tref; cq : list (tref * bool);
  evfd : nat; rp : rpc; nruns : nat; log : list event
}.

(** L731-741: a new context. *)
Definition init : state :=
  mks (fun _ => op0) 0 false false false 0 [] [] [] [] [] 0 RIdle 0 [].

Definition set_op s i x := mks (fset (ops s) i x) (infl s) (brk s) (stop s) (ever s) (ntot s) (req s) (pend s)
  (sq s) (kern s) (cq s) (evfd s) (rp s) (nruns s) (log s).
Definition set_rp s r := mks (ops s) (infl s) (brk s) (stop s) (ever s) (ntot s) (req s) (pend s)
  (sq s) (kern s) (cq s) (evfd s) r (nruns s) (log s).
Definition set_infl s v := mks (ops s) v (brk s) (stop s) (ever s) (ntot s) (req s) (pend s)
  (sq s) (kern s) (cq s) (evfd s) (rp s) (nruns s) (log s).
Definition set_brk s v := mks (ops s) (infl s) v (stop s) (ever s) (ntot s) (req s) (pend s)
  (sq s) (kern s) (cq s) (evfd s) (rp s) (nruns s) (log s).
Definition set_stop s v e := mks (ops s) (infl s) (brk s) v e (ntot s) (req s) (pend s)
  (sq s) (kern s) (cq s) (evfd s) (rp s) (nruns s) (log s).
Definition set_ntot s v := mks (ops s) (infl s) (brk s) (stop s) (ever s) v (req s) (pend s)
  (sq s) (kern s) (cq s) (evfd s) (rp s) (nruns s) (log s).
Definition set_req s v := mks (ops s) (infl s) (brk s) (stop s) (ever s) (ntot s) v (pend s)
  (sq s) (kern s) (cq s) (evfd s) (rp s) (nruns s) (log s).
Definition set_pend s v := mks (ops s) (infl s) (brk s) (stop s) (ever s) (ntot s) (req s) v
  (sq s) (kern s) (cq s) (evfd s) (rp s) (nruns s) (log s).
Definition set_ring s a b c := mks (ops s) (infl s) (brk s) (stop s) (ever s) (ntot s) (req s) (pend s)
  a b c (evfd s) (rp s) (nruns s) (log s).
Definition set_ev s v := mks (ops s) (infl s) (brk s) (stop s) (ever s) (ntot s) (req s) (pend s)
  (sq s) (kern s) (cq s) v (rp s) (nruns s) (log s).
Definition set_nruns s v := mks (ops s) (infl s) (brk s) (stop s) (ever s) (ntot s) (req s) (pend s)
  (sq s) (kern s) (cq s) (evfd s) (rp s) v (log s).
Definition emit s e := mks (ops s) (infl s) (brk s) (stop s) (ever s) (ntot s) (req s) (pend s)
  (sq s) (kern s) (cq s) (evfd s) (rp s) (nruns s) (e :: log s).

(** Log an event if a condition holds. *)
Definition emit_if (b : bool) s e := mks (ops s) (infl s) (brk s) (stop s) (ever s) (ntot s) (req s) (pend s)
  (sq s) (kern s) (cq s) (evfd s) (rp s) (nruns s) (if b then e :: log s else log s).

(** Using operation i's storage: an error once the operation has completed. *)
Definition touch s i := emit_if (fin (ops s i)) s EBad.

Definition nonempty (l : list tref) : bool := match l with [] => false | _ => true end.
Definition has (t : tref) (l : list tref) : bool := existsb (teq t) l.
Fixpoint rem1 (t : tref) (l : list tref) : list tref :=
  match l with [] => [] | x :: l => if teq t x then l else x :: rem1 t l end.

(** The lists the runner holds in local variables. *)
Definition f_lists (f : frame) : list tref := todo f ++ pnd f ++ rdy f.
Definition k_lists (k : kont) : list tref :=
  match k with KComp _ r | KRdy _ r => r | KSubm f => f_lists f end.
Definition r_lists (r : rpc) : list tref :=
  match r with
  | RComp _ r | RRdy _ r => r
  | RSub f | RRegC _ f | RRegR _ f | RRegS _ f => f_lists f
  | RFin _ _ _ k => k_lists k
  | _ => []
  end.
(** every list a node can be linked in *)
Definition linked s : list tref := req s ++ pend s ++ r_lists (rp s).

Definition go (k : kont) : rpc :=
  match k with KComp w r => RComp w r | KRdy w r => RRdy w r | KSubm f => RSub f end.

(** L744-750 __wakeup_operation::start (on the running thread; one step). *)
Definition wake_start s :=
  set_pend (emit_if (negb (stop s) && has TWake (linked s)) s EBad)
    (if stop s then pend s else TWake :: pend s).

(** A task's __complete_ function called by the runner, with [c] = (res == -ECANCELED).
    TWake: L372-376. schedule(): L851-862 (the three reads are one step). schedule_after(): L1044-1062.
    Stop operation: L918-926. *)
Definition handle (g : cfg) s t (c : bool) (k : kont) : state :=
  let s := set_rp s (go k) in
  match t with
  | TWake => wake_start s
  | TOp i =>
      let s := touch s i in let x := ops s i in
      if aft g i then
        set_rp (set_op s i (w_n x (n x - 1))) (if n x =? 1 then RFin FC i c k else go k)
      else
        set_op (emit s (EDone i (if c || stop s || rreq x then RStp else RVal) true)) i (w_fin x)
  | TStop i =>
      let s := touch s i in let x := ops s i in
      set_rp (set_op s i (w_n x (n x - 1))) (if n x =? 1 then RFin FC i true k else go k)
  end.

(** A stop callback run inline by the constructor of the callback on the running thread: L928-940 with
    L470-500, in one step (only the runner closes the context, and only it takes from the request queue). *)
Definition inline_stop s i :=
  let x := ops s i in
  let b := (n x =? 1) && negb (infl s =? -1) in
  set_ev (set_req (set_op (emit_if (b && has (TStop i) (linked s)) s EBad) i (if b then w_n x 2 else x))
            (if b then TStop i :: req s else req s)) (if b then S (evfd s) else evfd s).

Definition ready (g : cfg) (t : tref) : bool := match t with TOp i => negb (aft g i) | _ => false end.

Definition sub_room (g : cfg) s (m : Z) : nat :=
  Nat.min (Z.to_nat m) (sqn g - length (sq s)).

(** one entry written to the submission ring (L269-272, and L516/L530; L617 drops the count) *)
Definition put s t (f : frame) :=
  set_rp (set_ring (set_ntot (emit_if (dr f) s EAssert) (if dr f then ntot s else ntot s + 1))
            (sq s ++ [t]) (kern s) (cq s))
    (RSub (mkf (dr f) (st f) (pred (room f)) (todo f) (pnd f) (rdy f))).

(** L247-288: one iteration of the submission loops. *)
Definition sub_step (g : cfg) s (f : frame) : state :=
  match todo f with
  | [] =>
      if dr f then set_rp (emit_if (nonempty (pnd f)) s EAssert) (RComp WDrain (rdy f))
      else set_rp (set_pend s (pnd f)) (if nonempty (rdy f) then RComp WSome (rdy f) else RCheck)
  | t :: r =>
      let f := mkf (dr f) (st f) (room f) r (pnd f) (rdy f) in
      if ready g t then set_rp s (RSub (mkf (dr f) (st f) (room f) r (pnd f) (rdy f ++ [t])))
      else match room f with
      | O => set_rp s (RSub (mkf (dr f) (st f) 0 r (pnd f ++ [t]) (rdy f)))
      | S _ =>
          match t with
          | TWake => if st f then handle g s TWake true (KSubm f) else put s t f
          | TStop i => put (touch s i) t (mkf (dr f) false (room f) r (pnd f) (rdy f))
          | TOp i =>
              let s := touch s i in let x := ops s i in
              let s := emit_if (negb (n x =? 0)) s EAssert in
              set_rp (set_op s i (w_n x (n x + 1))) (RRegC i f)
          end
      end
  end.

(** One step of the thread inside run_until_stopped (L537-625), run_some (L505-535). *)
Definition r_step (g : cfg) s : option state :=
  match rp s with
  | RIdle => None
  | RPop0 => Some (set_rp (set_req (set_pend s (pend s ++ rev (req s))) []) RTop)
  | RTop =>
      Some (set_rp s (if (0 <? ntot s) || nonempty (pend s)
                      then RComp WSome [] else RExit))
  | RComp w r =>
      match cq s with
      | (t, c) :: q =>
          let s := set_ring s (sq s) (kern s) q in
          let s := set_ntot s (match w with WDrain => ntot s | _ => ntot s - 1 end) in
          Some (handle g s t c (KComp w r))
      | [] => Some (set_rp s (RRdy w r))
      end
  | RRdy w r =>
      match r with
      | t :: r => Some (handle g s t false (KRdy w r))
      | [] => Some (set_rp s (match w with WDrain => RRet true | _ => RPop w end))
      end
  | RPop w =>
      let s := set_req (set_pend s (pend s ++ rev (req s))) [] in
      Some (set_rp s (match w with WSome => RRead | _ => RTop end))
  | RRead =>
      Some (set_rp (set_pend s [])
              (RSub (mkf false (stop s) (sub_room g s (Z.of_nat (cqn g) - ntot s)) (pend s) [] [])))
  | RSub f => Some (sub_step g s f)
  | RRegC i f =>
      let s := touch s i in
      let s := if stop s then let s := inline_stop s i in set_op s i (w_ccb (ops s i) CbDone)
               else set_op s i (w_ccb (ops s i) CbReg) in
      Some (set_rp s (RRegR i f))
  | RRegR i f =>
      let s := touch s i in
      let s := if rreq (ops s i) then let s := inline_stop s i in set_op s i (w_rcb (ops s i) CbDone)
               else set_op s i (w_rcb (ops s i) CbReg) in
      Some (set_rp s (RRegS i f))
  | RRegS i f =>
      let s := touch s i in
      Some (if st f then handle g s (TOp i) true (KSubm f) else put s (TOp i) f)
  | RFin FC i c k =>
      (* the destructor of a callback waits while the callback runs on another thread *)
      match ccb (ops s i) with
      | CbRun _ => None
      | _ => Some (set_rp (set_op (touch s i) i (w_ccb (ops s i) (unreg (ccb (ops s i))))) (RFin FR i c k))
      end
  | RFin FR i c k =>
      match rcb (ops s i) with
      | CbRun _ => None
      | _ => Some (set_rp (set_op (touch s i) i (w_rcb (ops s i) (unreg (rcb (ops s i))))) (RFin FD i c k))
      end
  | RFin FD i c k =>
      let s := touch s i in let x := ops s i in
      Some (set_rp (set_op (emit s (EDone i (if c || stop s || rreq x then RStp else RVal) true)) i (w_fin x)) (go k))
  | RCheck =>
      if (ntot s =? 0) || ((ntot s =? 1) && brk s) then Some (set_rp (set_brk s false) RExit)
      else Some (set_rp (set_ring s [] (kern s ++ sq s) (cq s)) RWait)
  | RWait => match cq s with [] => None | _ => Some (set_rp s (RComp WEnter [])) end
  | RExit =>
      if stop s && negb (nonempty (pend s))
      then Some (set_rp (emit_if (negb (ntot s =? 0)) s EAssert) RClose)
      else Some (set_rp s (RRet false))
  | RClose =>
      if infl s =? 0 then Some (set_rp (set_infl s (-1)) RDPop)
      else if infl s =? -1 then Some (set_rp s RDPop) else None
  | RDPop =>
      Some (set_rp (set_req (set_pend s []) [])
              (RSub (mkf true true (sub_room g s (Z.of_nat (cqn g))) (pend s ++ rev (req s)) [] [])))
  | RRet b => Some (set_rp (emit s (ERet b)) RIdle)
  end.

(** start() of operation i: L814-824, L470-500. A refused schedule() completes at once (L488, L851-862);
    for a refused schedule_after(), L1044-1046 decrement __n_ops_ from 0 to -1 and do nothing more. *)
Definition c_step (g : cfg) s i : option state :=
  let x := ops s i in
  match pc x with
  | PNew =>
      if infl s =? -1 then
        if aft g i then Some (set_op s i (w_pc (w_n x (n x - 1)) PRef))
        else Some (set_op (emit s (EDone i RStp false)) i (w_fin (w_pc x PRef)))
      else Some (set_infl (set_op s i (w_pc x PPush)) (infl s + 1))
  | PPush =>
      Some (set_req (set_op (emit_if (has (TOp i) (linked s)) s EBad) i (w_pc x PDec))
              (TOp i :: req s))
  | PDec => Some (set_infl (set_op s i (w_pc x PWake)) (infl s - 1))
  | PWake => Some (set_ev (set_op s i (w_pc x PEnd)) (S (evfd s)))
  | _ => None
  end.

(** A stop callback of operation i running on another thread: [c] = true for the context's callback.
    L987-995, L928-940, L470-500, L918-926. *)
Definition getcb (c : bool) x := if c then ccb x else rcb x.
Definition setcb (c : bool) x v := if c then w_ccb x v else w_rcb x v.

Definition k_step (s : state) (c : bool) i : option state :=
  let x := ops s i in
  match getcb c x with
  | CbReg => if (if c then stop s else rreq x) then Some (set_op s i (setcb c x (CbRun KCas))) else None
  | CbRun KCas =>
      let s := touch s i in
      if n x =? 1 then Some (set_op s i (setcb c (w_n x 2) (CbRun KSub)))
      else Some (set_op s i (setcb c x CbDone))
  | CbRun KSub =>
      let s := touch s i in
      if infl s =? -1 then
        Some (set_op s i (setcb c (w_n x (n x - 1)) (if n x =? 1 then CbRun KFin else CbDone)))
      else Some (set_infl (set_op s i (setcb c x (CbRun KPush))) (infl s + 1))
  | CbRun KPush =>
      let s := touch s i in
      Some (set_req (set_op (emit_if (has (TStop i) (linked s)) s EBad) i (setcb c x (CbRun KDec)))
              (TStop i :: req s))
  | CbRun KDec => Some (set_infl (set_op s i (setcb c x (CbRun KWake))) (infl s - 1))
  | CbRun KWake => let s := touch s i in Some (set_ev (set_op s i (setcb c x CbDone)) (S (evfd s)))
  | CbRun KFin =>
      (* its own callback is destroyed from inside itself, which does not wait *)
      match getcb (negb c) x with
      | CbRun _ => None
      | _ => Some (set_op (emit (touch s i) (EDone i RStp false)) i (w_fin (w_ccb (w_rcb x (unreg (rcb x))) (unreg (ccb x)))))
      end
  | _ => None
  end.

(** The actions of the environment and of the threads. *)
Inductive action :=
| AStart (i : nat)        (* the thread in start() of operation i takes a step *)
| ACb (c : bool) (i : nat)  (* the thread running a stop callback of operation i takes a step *)
| ARStop (i : nat)        (* the stop source of operation i's receiver gets a stop request *)
| AStop                   (* request_stop() of the context, L440-444: the flag; its tail is [AWake] *)
| AWake                   (* wakeup(), L419; tail of request_stop() L443 and of finish() L465 *)
| ABrk                    (* finish(), L462-466: the flag *)
| ARun (e : bool)         (* run_until_stopped() (false) or run_until_empty() (true), L537-564, L716-720 *)
| AR                      (* the running thread takes a step *)
| AIntr                   (* io_uring_enter is interrupted while waiting (EINTR or a short count), L585-590 *)
| AExpire (i : nat)       (* the time of operation i passes *)
| AKSee (i : nat)         (* the kernel finds the target of a cancel request *)
| AKDone (t : tref) (c : bool).  (* the kernel completes a request; [c]: with -ECANCELED *)

Definition step (g : cfg) (s : state) (a : action) : option state :=
  match a with
  | AStart i => c_step g s i
  | ACb c i => k_step s c i
  | ARStop i => Some (set_op s i (w_rreq (ops s i)))
  | AStop => Some (set_stop s true true)
  | AWake => Some (set_ev s (S (evfd s)))
  | ABrk => Some (set_brk s true)
  | ARun e =>
      let s := set_brk s (e || brk s) in
      match rp s with
      | RIdle =>
          let s := set_nruns s (S (nruns s)) in
          if infl s =? -1 then Some (set_rp (set_infl (set_stop s false (ever s)) 0) RPop0)
          else Some (set_rp (wake_start s) RPop0)
      | _ => Some (emit s EThrow)
      end
  | AR => r_step g s
  | AIntr => match rp s with RWait => Some (set_rp s (RComp WEnter [])) | _ => None end
  | AExpire i => if has (TOp i) (kern s) then Some (set_op s i (w_exp (ops s i))) else None
  | AKSee i =>
      if has (TStop i) (kern s) && has (TOp i) (kern s) then Some (set_op s i (w_kcan (ops s i))) else None
  | AKDone t c =>
      if has t (kern s) then
        let done s := set_ring s (sq s) (rem1 t (kern s)) (cq s ++ [(t, c)]) in
        match t with
        | TWake => match evfd s with O => None | S _ => if c then None else Some (set_ev (done s) 0) end
        | TOp i => if (if c then kcan (ops s i) else exp (ops s i)) then Some (done s) else None
        | TStop i => if c then None else
            Some (if has (TOp i) (kern s) then set_op (done s) i (w_kcan (ops s i)) else done s)
        end
      else None
  end.

Fixpoint runs (g : cfg) (l : list action) (s : state) : option state :=
  match l with
  | [] => Some s
  | a :: l => match step g s a with Some s' => runs g l s' | None => None end
  end.

Definition reach g s := exists l, runs g l init = Some s.

Lemma runs_app g l1 : forall l2 s,
  runs g (l1 ++ l2) s = match runs g l1 s with Some s' => runs g l2 s' | None => None end.
Proof. induction l1; intros; simpl; auto. destruct (step g s a); auto. Qed.

Lemma reach_ind' g (P : state -> Prop) :
  P init -> (forall s a s', reach g s -> P s -> step g s a = Some s' -> P s') -> forall s, reach g s -> P s.
Proof.
  intros H0 Hs s [l H]. revert s H.
  induction l using rev_ind; intros s H; [injection H as <-; exact H0|].
  rewrite runs_app in H. destruct (runs g l init) as [s1|] eqn:E; [|discriminate].
  simpl in H. destruct (step g s1 x) as [s2|] eqn:E2; [|discriminate]. injection H as <-.
  apply Hs with (s := s1) (a := x); [exists l; exact E|apply IHl; reflexivity|exact E2].
Qed.

(** The run() sender's operation, L651-682: run, then complete the receiver. [throws]: run_until_...()
    threw; [stopped]: stop_requested() afterwards. Returns the completions delivered, in order. *)
Inductive rcompl := RunError | RunStopped | RunValue.
Definition run_op_start (throws stopped : bool) : list rcompl :=
  (if throws then [RunError] else []) ++ [if stopped then RunStopped else RunValue].
