(** * TrampolineModel: exec::trampoline_scheduler (include/exec/trampoline_scheduler.hpp L47-324)

    One thread (all the state is thread_local, L50).  User code is arbitrary: whenever it runs
    (outside any operation, or inside the completion of the operation on top of the stack) it may start another
    operation, of any trampoline scheduler, or return.  Simplifications: completions do not throw
    (they are noexcept, L146); the addresses of stack variables are arbitrary integers chosen with
    each call; integer overflow of the depth counter is not modelled. *)

From Coq Require Import List Arith Bool ZArith.
From Verif Require Import Conc.
Import ListNotations.
Set Implicit Arguments.

Definition op := nat.
Inductive signal := Value | Stopped.
Inductive event :=
| EStart (o : op)                          (* start() is called *)
| EDefer (o : op)                          (* ... and puts the operation in the list L171-188 *)
| EDrain (o : op)                          (* the operation is taken out of the list L291-324 *)
| EExec (o : op) (s : signal) (depth : nat)(* the operation completes; depth: number of completions on the stack, this one included *)
| EReturn.                                 (* the outermost start() returns *)

(** __state L47-77 *)
Record tstate := {
  max_size : Z; max_depth : nat;
  origin : Z; depth : nat;
  head : option op; tail : option op }.
Record state := {
  cur : option tstate;                     (* __current_ *)
  nxt : op -> option op;                   (* __next_ of each operation *)
  stack : list op;                         (* ghost: the operations whose execute() is running, innermost first *)
  next : op;                               (* ghost: the next fresh operation *)
  log : list event }.                      (* ghost, newest first *)

Inductive action :=
| AStart (msize : Z) (mdepth : nat) (addr : Z) (stop : bool)  (* user code calls start() on a new operation *)
| AReturn (addr : Z) (stop : bool).                           (* the user code of the innermost completion returns *)
(** [stop]: what stop_requested() says if the operation is executed now; [addr]: &__current_state L161, &__op L318 *)

(** __execute_impl L211-229 *)
Definition completion (stop : bool) : signal := if stop then Stopped else Value.
(** execute operation o: its completion runs on top of the stack *)
Definition execute (o : op) (stop : bool) (s : state) : state :=
  {| cur := cur s; nxt := nxt s; stack := o :: stack s; next := next s;
     log := EExec o (completion stop) (S (length (stack s))) :: log s |}.
Definition s_cur s c := {| cur := c; nxt := nxt s; stack := stack s; next := next s; log := log s |}.
Definition s_nxt s f := {| cur := cur s; nxt := f; stack := stack s; next := next s; log := log s |}.
Definition s_log s e := {| cur := cur s; nxt := nxt s; stack := stack s; next := next s; log := e :: log s |}.

(** L171-188 *)
Definition defer (o : op) (t : tstate) (s : state) : state :=
  let t' h := {| max_size := max_size t; max_depth := max_depth t; origin := origin t; depth := depth t; head := h; tail := Some o |} in
  s_log (match tail t with
         | Some p => s_cur (s_nxt s (fset (nxt s) p (Some o))) (Some (t' (head t)))
         | None => s_cur s (Some (t' (Some o)))
         end) (EDefer o).

(** start() L148-192 *)
Definition start (msize : Z) (mdepth : nat) (addr : Z) (stop : bool) (s0 : state) : state :=
  let o := next s0 in
  let s := {| cur := cur s0; nxt := nxt s0; stack := stack s0; next := S o; log := EStart o :: log s0 |} in
  match cur s with
  | None =>                                                                  (* L152-157 *)
      execute o stop (s_cur s (Some {| max_size := msize; max_depth := mdepth; origin := 0; depth := 1; head := None; tail := None |}))
  | Some t =>
      if (Z.abs (addr - origin t) <? max_size t)%Z && (depth t <? max_depth t)  (* L162-166 *)
      then execute o stop (s_cur s (Some {| max_size := max_size t; max_depth := max_depth t; origin := origin t; depth := S (depth t); head := head t; tail := tail t |}))
      else defer o t s
  end.

(** one turn of the loop of __drain() L294-323, or its end and the destructor L61-64 *)
Definition drain (addr : Z) (stop : bool) (s : state) : state :=
  match cur s with
  | Some t =>
      match head t with
      | Some o =>
          let h := nxt s o in
          execute o stop (s_log (s_cur (s_nxt s (fset (nxt s) o None))
            (Some {| max_size := max_size t; max_depth := max_depth t; origin := addr; depth := 1;
                     head := h; tail := match h with Some _ => tail t | None => None end |})) (EDrain o))
      | None => s_log (s_cur s None) EReturn
      end
  | None => s
  end.

Definition step (c : action) (s : state) : option state :=
  match c with
  | AStart msize mdepth addr stop => Some (start msize mdepth addr stop s)
  | AReturn addr stop =>
      match stack s with
      | [] => None
      | _ :: r =>
          let s1 := {| cur := cur s; nxt := nxt s; stack := r; next := next s; log := log s |} in
          Some (match r with [] => drain addr stop s1 | _ => s1 end)
      end
  end.
Definition init : state := {| cur := None; nxt := fun _ => None; stack := []; next := 0; log := [] |}.
Inductive reachable : state -> Prop :=
| r_init : reachable init
| r_step s c s' : reachable s -> step c s = Some s' -> reachable s'.
