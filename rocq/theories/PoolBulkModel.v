(** * PoolBulkModel: bulk on static_thread_pool (include/exec/static_thread_pool.hpp L1345-1523).
    The predecessor completes; if with values and a non-zero shape, one task per agent is pushed
    (bulk_enqueue L926-941), and each task is executed by whichever pool thread takes it, all
    interleaved; one step per access to the shared state and per call of the function.
    Simplifications: the pool's queues are represented by the index of the queue a task was pushed
    to (which is what run() L793-808 passes to execute_: pop, try_remote and try_steal all report
    the index of the queue the task was found in, L992, L1007, L1028); the values are not
    represented; exceptions are numbers; sequentially consistent atomics; std::vector and tuple
    mechanics are not modelled; the shape is non-negative (asserted in even_share). *)

From Coq Require Import List Arith Bool NArith.
From Verif Require Import Conc EvenShareModel.
Import ListNotations.
Set Implicit Arguments.

Definition exn := nat.

(** how the predecessor completes; for set_value: whether storing the values throws (L1480-1492) *)
Inductive up := UVal (copy : option exn) | UErr (e : exn) | UStop.
Inductive out := DVal | DErr (e : exn) | DStop.

(** program counter of the task with a given number (do_execute_ L1403-1448) *)
Inductive apc :=
| ANew                                  (* not pushed yet *)
| AQueued (q : nat)                     (* in queue q of the pool *)
| ARun (tid : nat) (cur stop : nat)     (* calling the function; [cur] next index, [stop] end of the share *)
| AThrew (tid : nat) (e : exn)          (* L1429-1434 *)
| AStore (e : exn)                      (* L1436 *)
| AFin                                  (* L1418, L1440 *)
| ALast                                 (* L1419, L1442-1445 *)
| ADone.

Inductive phase := PWait | PEnq (i : nat) | POver.

Inductive event :=
| EUp (u : up)                          (* the predecessor completed *)
| ECall (t : nat) (i : nat)             (* agent t calls f(i) *)
| EChunk (t : nat) (b e : nat)          (* agent t calls f(b, e) *)
| EThrow (t : nat) (e : exn)            (* that call threw e *)
| EOut (o : out).                       (* the receiver is completed *)

Record state := {
  ph : phase;
  ag : list apc;                        (* tasks_ *)
  fin : nat;                            (* finished_threads_ *)
  twe : nat;                            (* thread_with_exception_ *)
  exc : option exn;                     (* exception_ *)
  log : list event }.                   (* ghost, newest first *)

Definition w_ph s v := {| ph := v; ag := ag s; fin := fin s; twe := twe s; exc := exc s; log := log s |}.
Definition w_ag s t p := {| ph := ph s; ag := upd (ag s) t p; fin := fin s; twe := twe s; exc := exc s; log := log s |}.
Definition w_fin s v := {| ph := ph s; ag := ag s; fin := v; twe := twe s; exc := exc s; log := log s |}.
Definition w_twe s v := {| ph := ph s; ag := ag s; fin := fin s; twe := v; exc := exc s; log := log s |}.
Definition w_exc s v := {| ph := ph s; ag := ag s; fin := fin s; twe := twe s; exc := v; log := log s |}.
Definition ev s e := {| ph := ph s; ag := ag s; fin := fin s; twe := twe s; exc := exc s; log := e :: log s |}.

Section Params.
Variable shape : nat.
Variable threads : nat.                 (* available_parallelism() *)
Variable parallelize : bool.            (* par / par_unseq policy, L242 *)
Variable chunked : bool.                (* bulk_chunked / bulk_unchunked through __as_bulk_chunked_fn, L245-257 *)
Variable nothrow : bool.                (* the function is noexcept, L1415 *)

(** L1377-1388 *)
Definition num_agents : nat := if parallelize then Nat.min shape threads else 1.

Definition share (rank size : nat) : nat * nat :=
  let (b, e) := even_share (N.of_nat shape) (N.of_nat rank) (N.of_nat size) in
  (N.to_nat b, N.to_nat e).

(** L1365-1372 *)
Definition init : state :=
  {| ph := PWait; ag := repeat ANew num_agents; fin := 0; twe := num_agents; exc := None; log := [] |}.

Inductive action :=
| AUp (u : up)                          (* the predecessor completes *)
| AEnq                                  (* the loop in bulk_enqueue *)
| AStart (t : nat)                      (* some pool thread executes task t *)
| ACall (t : nat) (r : option exn)      (* task t goes on calling the function; the call returns or throws *)
| AGo (t : nat).                        (* task t: next access to the shared state *)

Definition step (a : action) (s : state) : option state :=
  match a with
  | AUp u =>
      match ph s with
      | PWait =>
          match u with
          | UVal None => if shape =? 0 then Some (ev (ev (w_ph s POver) (EUp u)) (EOut DVal))   (* L1500 *)
                         else Some (ev (w_ph s (PEnq 0)) (EUp u))                              (* L1494-1496 *)
          | UVal (Some e) | UErr e => Some (ev (ev (w_ph s POver) (EUp u)) (EOut (DErr e)))     (* L1488, L1509 *)
          | UStop => Some (ev (ev (w_ph s POver) (EUp u)) (EOut DStop))                         (* L1514 *)
          end
      | _ => None
      end
  | AEnq =>
      match ph s with
      | PEnq i => if i <? num_agents then Some (w_ph (w_ag s i (AQueued (i mod threads))) (PEnq (S i)))  (* L932-933 *)
                  else Some (w_ph s POver)
      | _ => None
      end
  | AStart t =>
      match nth_error (ag s) t with
      | Some (AQueued q) => let (b, e) := share q num_agents in Some (w_ag s t (ARun q b e))   (* L1405-1410 *)
      | _ => None
      end
  | ACall t r =>
      match nth_error (ag s) t with
      | Some (ARun tid cur stop) =>
          if nothrow && match r with Some _ => true | None => false end then None
          else if chunked then                                                                 (* L1411, L1425 *)
            match r with
            | None => Some (ev (w_ag s t AFin) (EChunk t cur stop))
            | Some x => Some (ev (ev (w_ag s t (AThrew tid x)) (EChunk t cur stop)) (EThrow t x))
            end
          else if cur =? stop then Some (w_ag s t AFin)                                        (* __bulk.hpp L189 *)
          else match r with                                                                    (* __bulk.hpp L191 *)
               | None => Some (ev (w_ag s t (ARun tid (S cur) stop)) (ECall t cur))
               | Some x => Some (ev (ev (w_ag s t (AThrew tid x)) (ECall t cur)) (EThrow t x))
               end
      | _ => None
      end
  | AGo t =>
      match nth_error (ag s) t with
      | Some (AThrew tid x) =>
          if twe s =? num_agents then Some (w_twe (w_ag s t (AStore x)) tid)                   (* L1429-1434 *)
          else Some (w_ag s t AFin)
      | Some (AStore x) => Some (w_exc (w_ag s t AFin) (Some x))                               (* L1436 *)
      | Some AFin =>
          Some (w_fin (w_ag s t (if S (fin s) =? num_agents then ALast else ADone)) (S (fin s)))  (* L1418, L1440 *)
      | Some ALast =>
          Some (ev (w_ag s t ADone) (EOut (match exc s with Some x => DErr x | None => DVal end)))  (* L1419, L1442-1445 *)
      | _ => None
      end
  end.

Inductive reachable : state -> Prop :=
| r_init : 0 < threads -> (N.of_nat shape < word)%N -> reachable init
| r_step s a s' : reachable s -> step a s = Some s' -> reachable s'.

End Params.
