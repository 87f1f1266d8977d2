(** * RunLoopModel: stdexec::run_loop as a concurrent state machine.

    Models include/stdexec/__detail/__run_loop.hpp L50-215 together with the parts of
    __atomic_intrusive_queue.hpp L43-88 it uses.  Any number of threads call start() on
    operations of the loop and finish(); one thread (number 0) calls run(), once; completion
    handlers executed by run() are arbitrary user code that may itself call start() of other
    operations and finish().  One transition per atomic instruction.

    Simplifications: sequential consistency; the pending chain hanging off __head_ is a list (most
    recent first), its pointer-level representation is the subject of AtomicQueueModel.v;
    __task_count_ is an integer without wrap-around (2^64 operations); each operation is started
    at most once (the operation-state contract) and run() is called at most once. *)

From Coq Require Import List Arith Bool ZArith.
From Verif Require Import Conc.
Import ListNotations.
Set Implicit Arguments.

Definition op := nat.
Definition tid := nat.

(** a node of the queue: an operation state or the static __noop_task (L210, L215) *)
Inductive task := TOp (o : op) | TNoop.

Inductive signal := SValue | SStopped.

(** what a client thread is doing inside the loop's functions.  [k] = the push is made by
    finish() *)
Inductive pc :=
| Idle
| StAdd (o : op)                               (* start() L174, before fetch_add(1) *)
| PuLoad (x : task)                            (* push L51 *)
| PuCas (x : task) (old : option task)         (* push L54-56 *)
| PuNotify (x : task)                          (* push L68 *)
| FiAdd                                        (* finish() L96 *)
| FiXchg                                       (* L97 *)
| FiDec1                                       (* L105 *)
| FiDec2.                                      (* L109 *)

(** what the thread that runs the loop is doing.  [d]: in the drain loop (second loop of run);
    [l]: tasks of the popped batch not yet executed; [n]: __task_count *)
Inductive rpc :=
| RNone                                        (* run() not called yet *)
| RTop                                         (* L65 *)
| RWait                                        (* wait_for_item, before the test *)
| RSleep                                       (* wait_for_item, blocked *)
| RPop (d : bool)                              (* L184 *)
| RIter (d : bool) (l : list task) (n : nat)   (* L195-203, l = rest of the batch *)
| RUser (d : bool) (o : op) (l : list task) (n : nat) (* inside o's completion handler *)
| RSub (d : bool) (n : nat)                    (* L206 *)
| RCheck                                       (* L79 *)
| RDone.                                       (* returned *)

Inductive event :=
| EStart (t : tid) (o : op)                    (* start() entered *)
| ECount (o : op)                              (* start() announced o (fetch_add) *)
| EEnq (o : op)                                (* o entered the queue *)
| EExec (o : op) (g : signal)                  (* run() completes o with g *)
| EStop (o : op)                               (* stop requested on o's receiver's token *)
| EFinish (t : tid)                            (* finish() entered *)
| EFinished (t : tid)                          (* finish() returned *)
| ERun                                         (* run() entered *)
| ERet.                                        (* run() returned *)

Record state := {
  queue : list task;           (* the chain from __head_, most recently pushed first *)
  count : Z;                   (* __task_count_ *)
  fin : bool;                  (* __finishing_ *)
  run : rpc;
  thr : list pc;
  stopreq : op -> bool;        (* token of o's receiver: stop_requested() *)
  log : list event }.          (* newest first *)

Definition init (n : nat) : state :=
  {| queue := []; count := 0; fin := false; run := RNone; thr := repeat Idle n;
     stopreq := fun _ => false; log := [] |}.

Definition w_q (s : state) q := {| queue := q; count := count s; fin := fin s; run := run s;
  thr := thr s; stopreq := stopreq s; log := log s |}.
Definition w_c (s : state) c := {| queue := queue s; count := c; fin := fin s; run := run s;
  thr := thr s; stopreq := stopreq s; log := log s |}.
Definition w_f (s : state) := {| queue := queue s; count := count s; fin := true; run := run s;
  thr := thr s; stopreq := stopreq s; log := log s |}.
Definition w_r (s : state) r := {| queue := queue s; count := count s; fin := fin s; run := r;
  thr := thr s; stopreq := stopreq s; log := log s |}.
Definition w_t (s : state) t p := {| queue := queue s; count := count s; fin := fin s; run := run s;
  thr := upd (thr s) t p; stopreq := stopreq s; log := log s |}.
Definition w_s (s : state) o := {| queue := queue s; count := count s; fin := fin s; run := run s;
  thr := thr s; stopreq := fset (stopreq s) o true; log := log s |}.
Definition w_l (s : state) e := {| queue := queue s; count := count s; fin := fin s; run := run s;
  thr := thr s; stopreq := stopreq s; log := e :: log s |}.

Definition task_eqb (a b : task) : bool :=
  match a, b with TOp x, TOp y => x =? y | TNoop, TNoop => true | _, _ => false end.
Definition otask_eqb (a b : option task) : bool :=
  match a, b with Some x, Some y => task_eqb x y | None, None => true | _, _ => false end.
Definition hd_of (q : list task) : option task := match q with [] => None | x :: _ => Some x end.

(** thread t may call functions of the loop: thread 0 only outside run() or inside a completion
    handler *)
Definition may_call (s : state) (t : tid) : bool :=
  match t with
  | 0 => match run s with RNone | RUser _ _ _ _ | RDone => true | _ => false end
  | _ => true
  end.

(** has o been started? *)
Fixpoint started (o : op) (l : list event) : bool :=
  match l with
  | [] => false
  | EStart _ o' :: l => (o =? o') || started o l
  | _ :: l => started o l
  end.

Inductive action :=
| AStart (o : op)     (* thread calls start() of a new operation *)
| AFinish             (* thread calls finish() *)
| AStep               (* next instruction of the call in progress *)
| ASpurious           (* compare_exchange_weak fails spuriously *)
| AStopReq (o : op)   (* somebody requests stop on o's token *)
| ARun                (* thread 0 calls run() *)
| ARunStep            (* next instruction of run() *)
| AWake               (* the blocked wait returns to its test without a notification *)
| AReturn.            (* the completion handler executed by run() returns *)

(** one instruction of start() / finish() / push of a client thread *)
Definition client (t : tid) (p : pc) (s : state) : option state :=
  match p with
  | Idle => None
  | StAdd o => Some (w_l (w_t (w_c s (count s + 1)) t (PuLoad (TOp o))) (ECount o))   (* L174 *)
  | PuLoad x => Some (w_t s t (PuCas x (hd_of (queue s))))                           (* L51 *)
  | PuCas x old =>
      if otask_eqb old (hd_of (queue s)) then                                        (* L56 *)
        let s1 := w_q s (x :: queue s) in
        let s2 := match x with TOp o => w_l s1 (EEnq o) | TNoop => s1 end in
        match old with
        | None => Some (w_t s2 t (PuNotify x))
        | Some _ => Some (w_t s2 t (match x with TOp _ => Idle | TNoop => FiDec1 end)) (* L61-64 *)
        end
      else Some (w_t s t (PuCas x (hd_of (queue s))))
  | PuNotify x =>                                                                    (* L68 *)
      let s1 := match run s with RSleep => w_r s RWait | _ => s end in
      Some (w_t s1 t (match x with TOp _ => Idle | TNoop => FiDec1 end))
  | FiAdd => Some (w_t (w_c s (count s + 2)) t FiXchg)                               (* L96 *)
  | FiXchg => if fin s then Some (w_t s t FiDec2) else Some (w_t (w_f s) t (PuLoad TNoop)) (* L97 *)
  | FiDec1 => Some (w_l (w_t (w_c s (count s - 1)) t Idle) (EFinished t))            (* L105 *)
  | FiDec2 => Some (w_l (w_t (w_c s (count s - 2)) t Idle) (EFinished t))            (* L109 *)
  end%Z.

(** __execute_impl L142-159: which completion; [canstop o]: the token type is not unstoppable *)
Definition sig_of (canstop : op -> bool) (s : state) (o : op) : signal :=
  if canstop o then if stopreq s o then SStopped else SValue else SValue.

(** one instruction of run() L62-87 and __execute_all L181-208 *)
Definition runner (canstop : op -> bool) (s : state) : option state :=
  match run s with
  | RTop => Some (w_r s (if fin s then RPop true else RWait))                        (* L65 *)
  | RWait => Some (w_r s (match queue s with [] => RSleep | _ => RPop false end))    (* L67 *)
  | RPop d =>
      match queue s with
      | [] => Some (w_r s (if d then RCheck else RTop))                              (* L188-191 *)
      | q => Some (w_r (w_q s []) (RIter d (rev q) 0))                               (* L184 *)
      end
  | RIter d [] n => Some (w_r s (RSub d n))
  | RIter d (TNoop :: l) n => Some (w_r s (RIter d l (S n)))                         (* L210 *)
  | RIter d (TOp o :: l) n =>
      Some (w_l (w_r s (RUser d o l n)) (EExec o (sig_of canstop s o)))              (* L200 *)
  | RSub d n => Some (w_r (w_c s (count s - Z.of_nat n)) (if d then RPop true else RTop)) (* L206 *)
  | RCheck => if (count s =? 0)%Z then Some (w_l (w_r s RDone) ERet)                 (* L79 *)
              else Some (w_r s (RPop true))
  | RNone | RSleep | RUser _ _ _ _ | RDone => None
  end.

Definition step (canstop : op -> bool) (t : tid) (a : action) (s : state) : option state :=
  match a with
  | AStart o =>
      match nth_error (thr s) t with
      | Some Idle => if may_call s t && negb (started o (log s))
                     then Some (w_l (w_t s t (StAdd o)) (EStart t o)) else None
      | _ => None
      end
  | AFinish =>
      match nth_error (thr s) t with
      | Some Idle => if may_call s t then Some (w_l (w_t s t FiAdd) (EFinish t)) else None
      | _ => None
      end
  | AStep => match nth_error (thr s) t with Some p => client t p s | None => None end
  | ASpurious =>
      match nth_error (thr s) t with
      | Some (PuCas x _) => Some (w_t s t (PuCas x (hd_of (queue s))))
      | _ => None
      end
  | AStopReq o => Some (w_l (w_s s o) (EStop o))
  | ARun =>
      match nth_error (thr s) 0, run s with
      | Some Idle, RNone => Some (w_l (w_r s RTop) ERun)
      | _, _ => None
      end
  | ARunStep => match nth_error (thr s) 0 with Some Idle => runner canstop s | _ => None end
  | AWake => match run s with RSleep => Some (w_r s RWait) | _ => None end
  | AReturn =>
      match nth_error (thr s) 0, run s with
      | Some Idle, RUser d _ l n => Some (w_r s (RIter d l (S n)))                   (* L201 *)
      | _, _ => None
      end
  end.

(** every state some interleaving of n threads reaches *)
Inductive reachable (canstop : op -> bool) : state -> Prop :=
| r_init n : reachable canstop (init n)
| r_step s t a s' : reachable canstop s -> step canstop t a s = Some s' -> reachable canstop s'.
