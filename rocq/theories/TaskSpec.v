(** What a task is supposed to do (C51): its body runs from top to bottom like an
    ordinary function; awaiting a task runs that task; a stopped sender or task
    abandons everything up to the receiver; cleanup actions run at the end of the
    coroutine that registered them, the last one first. *)
From Coq Require Import List ZArith Bool Arith.
From Verif Require Import TaskModel.
Import ListNotations.
Set Implicit Arguments.

Section Spec.
  Variable ins : nat -> res.      (* how the sender awaited at time [n] completes *)
  Variable rqs : nat -> bool.     (* stop is requested of the receiver at time [n] *)

  (** Stop has been requested before time [n]. *)
  Definition requested (n : nat) : bool := existsb rqs (seq 0 n).

  (** A cleanup action from time [n] on: what user code runs, when it ends, and
      whether it ends well. *)
  Fixpoint cleanup (a : act) (n : nat) : list Z * nat * bool :=
    match a with
    | ADone => ([], n, true)
    | AThrow _ => ([], n, false)
    | AMark m k => let '(ms, n', ok) := cleanup k n in (m :: ms, n', ok)
    | ASend kv ke =>
        match ins n with
        | RVal v => cleanup (kv v) (S n)
        | RErr e => cleanup (ke e) (S n)
        | RStp => ([], S n, false)
        end
    end.

  (** Does a cleanup action with filter [f] run if the result is [r]? *)
  Definition applies (f : option disp) (r : res) : bool :=
    match f, r with
    | None, _ | Some DSucceeded, RVal _ | Some DFailed, RErr _ | Some DStopped, RStp => true
    | _, _ => false
    end.

  (** A task from time [n] on: what user code runs, when it ends, and the result;
      [None]: std::terminate. *)
  Fixpoint eval (b : body) (n : nat) : list Z * nat * option res :=
    match b with
    | BRet v => ([], n, Some (RVal v))
    | BThrow e => ([], n, Some (RErr e))
    | BStop => ([], n, Some RStp)
    | BMark m k => let '(ms, n', r) := eval k n in (m :: ms, n', r)
    | BPoll k => eval (k (requested (S n))) (S n)
    | BSend kv ke =>
        match ins n with
        | RVal v => eval (kv v) (S n)
        | RErr e => eval (ke e) (S n)
        | RStp => ([], S n, Some RStp)
        end
    | BTask _ _ t kv ke =>
        let '(ms, n1, r) := eval t n in
        match r with
        | Some (RVal v) => let '(ms', n', r') := eval (kv v) n1 in (ms ++ ms', n', r')
        | Some (RErr e) => let '(ms', n', r') := eval (ke e) n1 in (ms ++ ms', n', r')
        | _ => (ms, n1, r)
        end
    | BExit f a k =>
        let '(ms, n1, r) := eval k n in
        match r with
        | Some v => if applies f v
                    then let '(ms', n', ok) := cleanup a n1 in (ms ++ ms', n', if ok then r else None)
                    else (ms, n1, r)
        | None => (ms, n1, r)
        end
    end.

  (** The programs that the compiler accepts: co_yield with_stopped only in a
      stdexec::task; on_coroutine_succeeded/failed/stopped only in an exec::task. *)
  Fixpoint wf (k : kind) (b : body) : Prop :=
    match b with
    | BRet _ | BThrow _ => True
    | BStop => k = KStd
    | BMark _ b => wf k b
    | BPoll f => forall v, wf k (f v)
    | BSend kv ke => (forall v, wf k (kv v)) /\ (forall e, wf k (ke e))
    | BTask k' _ t kv ke => k' <> KExit /\ wf k' t /\ (forall v, wf k (kv v)) /\ (forall e, wf k (ke e))
    | BExit f _ b => (f = None \/ k = KExec) /\ wf k b
    end.
End Spec.

(** What happened, oldest first. *)
Definition marks (l : list event) : list Z := rev (flat_map (fun e => match e with EMark m => [m] | _ => [] end) l).
Definition delivered (l : list event) : list res := rev (flat_map (fun e => match e with EDeliver r => [r] | _ => [] end) l).
Definition kills (c : nat) (l : list event) : nat :=
  length (filter (fun e => match e with EKill d => d =? c | _ => false end) l).
