(** Model of coroutine tasks: stdexec::task
    (/repo/include/stdexec/__detail/__task.hpp), exec::basic_task
    (/repo/include/exec/task.hpp), at_coroutine_exit
    (/repo/include/exec/at_coroutine_exit.hpp), on_coroutine_succeeded/stopped/failed
    (/repo/include/exec/on_coro_disposition.hpp), and a task that is connected to a
    receiver (/repo/include/stdexec/__detail/__connect_awaitable.hpp).

    Coroutine frames live in a heap and refer to each other by number; using a
    destroyed one ends in [GBad].  A coroutine's code is a tree that branches on what
    it awaits.  The outcomes of the senders that are awaited, and the moment at which
    stop is requested of the receiver, are arbitrary functions of time.
    Simplified: one coroutine runs at a time (a task is sequential; C48 is about the
    hand-over between threads); the receiver destroys the operation state as soon as
    it is completed; a task's typed errors (with_error) are numbers, like exceptions;
    allocation succeeds; a cleanup action awaits senders (a task is one of them, by
    C51 itself); reschedule_coroutine_on and the change of scheduler after each await
    (C31, C46) are left out. *)
From Coq Require Import List ZArith Bool Arith.
From Verif Require Import Conc.
Import ListNotations.
Set Implicit Arguments.

(** What an awaited sender, and a task, completes with. *)
Inductive res := RVal (v : Z) | RErr (e : Z) | RStp.
(** exec/task.hpp L381-386 *)
Inductive disp := DSucceeded | DFailed | DStopped.

(** The body of a cleanup action. *)
Inductive act :=
| ADone
| AThrow (e : Z)
| AMark (m : Z) (k : act)                        (* some code of the user *)
| ASend (kv ke : Z -> act).                      (* co_await a sender; [ke]: it threw *)

(** [KStd]: stdexec::task; [KExec]: exec::basic_task. *)
Inductive kind := KStd | KExec | KExit.

(** The code of a task. *)
Inductive body :=
| BRet (v : Z)                                   (* co_return *)
| BThrow (e : Z)                                 (* an exception leaves the body; co_yield with_error *)
| BStop                                          (* co_yield with_stopped{} (stdexec::task) *)
| BMark (m : Z) (k : body)                       (* some code of the user *)
| BPoll (k : bool -> body)                       (* get_stop_token(env).stop_requested() *)
| BSend (kv ke : Z -> body)                      (* co_await a sender; [ke]: it threw *)
| BTask (kd : kind) (own : bool) (t : body) (kv ke : Z -> body)
                                                 (* co_await a task; [own]: its stop token is of another
                                                    type than that of the awaiting coroutine *)
| BExit (f : option disp) (a : act) (k : body).  (* co_await at_coroutine_exit(a), on_coroutine_*(a) *)

(** A coroutine_handle: the operation state of connect_awaitable or a coroutine. *)
Inductive ptr := PRoot | PCo (c : nat).

(** Where a coroutine stands.  [SBody]: (about) to run; [SWaitS]: a sender it awaited
    has stopped; [SWaitT n]: awaits task [n]; [SFin]: done; [SAct0], [SAct]: a cleanup
    coroutine, before and after it has looked at the disposition of [p]. *)
Inductive cst :=
| SBody (b : body)
| SWaitS
| SWaitT (n : nat) (kv ke : Z -> body)
| SFin
| SAct0 (f : option disp) (p : nat) (a : act)
| SAct (a : act).

Record coro := mkc {
  kd : kind;
  par : ptr;               (* __continuation_ *)
  st : cst;
  dat : option res;        (* the result: __result_/__errors_ (task), __data_ (basic_task) *)
  own : bool;              (* the awaiter still owns the frame *)
  alive : bool;            (* the frame has not been destroyed *)
  src : option nat;        (* the stop source behind its stop token; [None]: the receiver's *)
  cb : bool;               (* its stop callback is registered *)
  flag : bool;             (* its own stop source is stopped *)
  stopd : bool             (* __is_stopped_ of a cleanup coroutine *)
}.

Definition w_par x v := mkc (kd x) v (st x) (dat x) (own x) (alive x) (src x) (cb x) (flag x) (stopd x).
Definition w_st x v := mkc (kd x) (par x) v (dat x) (own x) (alive x) (src x) (cb x) (flag x) (stopd x).
Definition w_dat x v := mkc (kd x) (par x) (st x) (Some v) (own x) (alive x) (src x) (cb x) (flag x) (stopd x).
Definition w_own x := mkc (kd x) (par x) (st x) (dat x) false (alive x) (src x) (cb x) (flag x) (stopd x).
Definition w_dead x := mkc (kd x) (par x) (st x) (dat x) (own x) false (src x) (cb x) (flag x) (stopd x).
Definition w_cb x := mkc (kd x) (par x) (st x) (dat x) (own x) (alive x) (src x) false (flag x) (stopd x).
Definition w_flag x := mkc (kd x) (par x) (st x) (dat x) (own x) (alive x) (src x) (cb x) true (stopd x).
Definition w_stopd x := mkc (kd x) (par x) (st x) (dat x) (own x) (alive x) (src x) (cb x) (flag x) true.

(** What runs next. *)
Inductive ctl :=
| GGo (q : ptr)                          (* [q] is resumed *)
| GStop (q : ptr) (pend : option nat)    (* unhandled_stopped() of [q]; after that [pend] is destroyed *)
| GKill (c : nat) (next : ctl)           (* frame [c] is destroyed *)
| GDeliver (r : res)                     (* the receiver is completed with a value or an error *)
| GEnd
| GTerm                                  (* std::terminate *)
| GBad.                                  (* a destroyed frame, or no result, was used *)

Inductive event :=
| EMark (m : Z)            (* user code *)
| EKill (c : nat)          (* a frame is destroyed *)
| EDeliver (r : res).      (* the receiver is completed *)

Record state := mk { heap : list coro; g : ctl; tm : nat; rq : bool; log : list event (* newest first *) }.
Definition set_g s v := mk (heap s) v (tm s) (rq s) (log s).
Definition set_co s c x := mk (upd (heap s) c x) (g s) (tm s) (rq s) (log s).
Definition emit s e := mk (heap s) (g s) (tm s) (rq s) (e :: log s).
Definition alloc s x := mk (heap s ++ [x]) (g s) (tm s) (rq s) (log s).
Definition get (s : state) (c : nat) : option coro :=
  match nth_error (heap s) c with Some x => if alive x then Some x else None | None => None end.

(** The stop token of coroutine [x]; [None]: its source is gone. *)
Definition token (s : state) (x : coro) : option bool :=
  match src x with
  | None => Some (rq s)
  | Some m => match get s m with Some y => Some (flag y) | None => None end
  end.

Definition is_kexec (k : kind) : bool := match k with KExec => true | _ => false end.
Definition dispo (d : option res) : disp :=                         (* exec/task.hpp L582-593 *)
  match d with Some (RVal _) => DSucceeded | Some (RErr _) => DFailed | _ => DStopped end.
Definition disp_eqb (a b : disp) : bool :=
  match a, b with DSucceeded, DSucceeded | DFailed, DFailed | DStopped, DStopped => true | _, _ => false end.

Section Run.
  (** [ins n]: how the sender awaited at time [n] completes; [rqs n]: stop is
      requested of the receiver's stop token before that. *)
  Variable ins : nat -> res.
  Variable rqs : nat -> bool.

  (** Time passes; a stop request of the receiver's token runs the callbacks, which
      are registered on one another (__forward_stop_request). *)
  Definition tick (s : state) : state :=
    let b := rq s || rqs (tm s) in
    mk (if b then map (fun x => if cb x then w_flag x else x) (heap s) else heap s) (g s) (S (tm s)) b (log s).

  (** A task is done: final_suspend, __completed L566-574; basic_task L553-557.
      stdexec::task unregisters its stop callback. *)
  Definition finish (s : state) (c : nat) (x : coro) (r : res) : state :=
    let y := w_st (w_dat x r) SFin in
    set_g (set_co s c (if is_kexec (kd x) then y else w_cb y)) (GGo (par x)).

  (** The code of task [c] goes on. *)
  Definition b_step (s : state) (c : nat) (x : coro) (b : body) : state :=
    match b with
    | BRet v => finish s c x (RVal v)
    | BThrow e => finish s c x (RErr e)
    | BStop => set_g (set_co s c (w_st x SWaitS)) (GStop (PCo c) None)               (* L568-571 *)
    | BMark m k => emit (set_co s c (w_st x (SBody k))) (EMark m)
    | BPoll k =>
        let s1 := tick s in
        match get s1 c with
        | Some y => match token s1 y with
                    | Some v => set_co s1 c (w_st y (SBody (k v)))
                    | None => set_g s1 GBad end
        | None => set_g s1 GBad
        end
    | BSend kv ke =>
        let s1 := tick s in
        match get s1 c with
        | Some y => match ins (tm s) with
                    | RVal v => set_co s1 c (w_st y (SBody (kv v)))
                    | RErr e => set_co s1 c (w_st y (SBody (ke e)))
                    | RStp => set_g (set_co s1 c (w_st y SWaitS)) (GStop (PCo c) None)
                    end
        | None => set_g s1 GBad
        end
    | BTask k o t kv ke =>                                            (* task L474-489, L537-549; basic_task L672-685 *)
        let n := length (heap s) in
        match token s x with
        | Some v => set_g (alloc (set_co s c (w_st x (SWaitT n kv ke)))
                             (mkc k (PCo c) (SBody t) None true true (if o then Some n else src x) o (o && v) false))
                          (GGo (PCo n))
        | None => set_g s GBad
        end
    | BExit f a k =>                                                  (* at_coroutine_exit.hpp L164-185 *)
        let n := length (heap s) in
        alloc (set_co s c (w_par (w_st x (SBody k)) (PCo n)))
              (mkc KExit (par x) (SAct0 f c a) None true true None false false false)
    end.

  (** The code of cleanup coroutine [c] goes on. *)
  Definition a_step (s : state) (c : nat) (x : coro) (a : act) : state :=
    match a with
    | ADone => if stopd x then set_g (set_co s c (w_st x SFin)) (GStop (par x) (Some c))     (* L196-202 *)
               else set_g (set_co s c (w_st x SFin)) (GKill c (GGo (par x)))
    | AThrow e => set_g s GTerm                                                             (* L240-243 *)
    | AMark m k => emit (set_co s c (w_st x (SAct k))) (EMark m)
    | ASend kv ke =>
        let s1 := tick s in
        match get s1 c with
        | Some y => match ins (tm s) with
                    | RVal v => set_co s1 c (w_st y (SAct (kv v)))
                    | RErr e => set_co s1 c (w_st y (SAct (ke e)))
                    | RStp => set_g s1 GTerm                                                (* L65-68 *)
                    end
        | None => set_g s1 GBad
        end
    end.

  Definition step (s : state) : option state :=
    match g s with
    | GGo PRoot =>                                     (* __connect_awaitable.hpp L470-491; await_resume *)
        match get s 0 with
        | Some x => match dat x with
                    | Some r => Some (set_g s (GKill 0 (GDeliver r)))
                    | None => Some (set_g s GBad) end
        | None => Some (set_g s GBad)
        end
    | GDeliver r => Some (set_g (emit s (EDeliver r)) GEnd)
    | GGo (PCo c) =>
        match get s c with
        | Some x =>
            match st x with
            | SBody b => Some (b_step s c x b)
            | SWaitT n kv ke =>                        (* await_resume: task L551-563; basic_task L687-699 *)
                match get s n with
                | Some y => match dat y with
                            | Some (RVal v) => Some (set_g (set_co s c (w_st x (SBody (kv v)))) (GKill n (GGo (PCo c))))
                            | Some (RErr e) => Some (set_g (set_co s c (w_st x (SBody (ke e)))) (GKill n (GGo (PCo c))))
                            | _ => Some (set_g s GBad) end
                | None => Some (set_g s GBad)
                end
            | SAct0 f p a =>                           (* on_coro_disposition.hpp L56-61, L209-230 *)
                match f with
                | None => Some (set_co s c (w_st x (SAct a)))
                | Some d => match get s p with
                            | Some y => Some (set_co s c (w_st x (SAct (if disp_eqb d (dispo (dat y)) then a else ADone))))
                            | None => Some (set_g s GBad) end
                end
            | SAct a => Some (a_step s c x a)
            | SWaitS | SFin => Some (set_g s GBad)
            end
        | None => Some (set_g s GBad)
        end
    | GStop PRoot pend =>                              (* __connect_awaitable.hpp L90-96, L493-496 *)
        let k := match pend with Some a => GKill a GEnd | None => GEnd end in
        match nth_error (heap s) 0 with
        | Some x => Some (set_g (emit s (EDeliver RStp)) (if own x then GKill 0 k else k))
        | None => Some (set_g s GBad)
        end
    | GStop (PCo c) pend =>
        match get s c with
        | Some x =>
            match kd x with
            | KStd => Some (set_g (set_co s c (w_own (w_cb x))) (GKill c (GStop (par x) pend)))      (* L577-584 *)
            | KExec => Some (set_g s (GStop (par x) pend))                              (* __with_awaitable_senders.hpp L63-66 *)
            | KExit => let s1 := set_co s c (w_stopd x) in                              (* at_coroutine_exit.hpp L246-250 *)
                       Some (set_g s1 (match pend with Some a => GKill a (GGo (PCo c)) | None => GGo (PCo c) end))
            end
        | None => Some (set_g s GBad)
        end
    | GKill c k =>
        match get s c with
        | Some x =>
            let s1 := emit (set_co s c (w_dead x)) (EKill c) in
            match st x with
            | SWaitT n _ _ => match nth_error (heap s) n with             (* its awaiter owns task [n] *)
                              | Some y => Some (set_g s1 (if own y then GKill n k else k))
                              | None => Some (set_g s GBad) end
            | _ => Some (set_g s1 k)
            end
        | None => Some (set_g s GBad)
        end
    | GEnd | GTerm | GBad => None
    end.

  Inductive steps : state -> state -> Prop :=
  | steps_refl s : steps s s
  | steps_cons s s1 s2 : step s = Some s1 -> steps s1 s2 -> steps s s2.

  (** A task is connected to a receiver and started.  [o]: the receiver's stop token
      is of another type than the task's. *)
  Definition init (k : kind) (o : bool) (t : body) : state :=
    let b := rqs 0 in
    mk [mkc k PRoot (SBody t) None true true (if o then Some 0 else None) o (o && b) false] (GGo (PCo 0)) 1 b [].
End Run.
