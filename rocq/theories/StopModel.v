(** * StopModel: inplace_stop_source / inplace_stop_callback as a concurrent state machine.

    Models include/stdexec/stop_token.hpp L124-422 and L451-470 (the callback base's
    registration).  Any number of threads, any number of callbacks, every interleaving of the
    atomic steps below.  A thread is a stack of activations (request_stop, a callback's
    constructor, a callback's destructor); the function of a callback is arbitrary user code,
    which may itself construct and destroy callbacks and call request_stop, so activations nest.

    Simplifications: sequentially consistent interleaving (no weak memory); the load/CAS retry
    loops are one atomic step that is enabled when the CAS can succeed (a failing iteration
    changes nothing); the straight-line writes made while the lock is held are one step, and so
    are L281-284 (variables read only by the same thread).  That the lock is exclusive is NOT
    assumed, it is proved.  Touching the memory of a callback outside its lifetime, or a
    request_stop local after its scope, raises the [ub] flag. *)

From Coq Require Import List Arith Bool.
Import ListNotations.
Set Implicit Arguments.

Definition tid := nat.
Definition cb := nat.

(** where a callback's __prev_ptr_ points *)
Inductive ploc := PNull | PHead | PNext (c : cb).

(** lifetime of a callback object (user level).  LReg t: its constructor is running on t;
    LLive: constructed and __source_ != nullptr; LInl: constructed and __source_ == nullptr (the
    function was run by the constructor); LDel t: its destructor is running on t. *)
Inductive lifetime := LNone | LReg (t : tid) | LLive | LInl | LDel (t : tid) | LDead.

(** one activation and its program counter *)
Inductive frame :=
| FReq0                    (* request_stop L265: before the try-lock *)
| FReqSet                  (* L268: lock held, before writing __notifying_thread_ *)
| FReqLoop                 (* L271: lock held, before the loop test *)
| FReqPopped (c : cb)      (* L279: lock held, c unlinked, before unlocking *)
| FReqUnlk (c : cb)        (* L281-284: before executing c *)
| FReqExec (c : cb)        (* inside c's function *)
| FReqAfter (c : cb)       (* L288 *)
| FReqCompl (c : cb)       (* L289 *)
| FReqRelock               (* L292 *)
| FReqFinish               (* L295: lock held, list empty *)
| FReg0 (c : cb)           (* constructor: before the try-lock of __try_add_callback_ L363 *)
| FRegHold (c : cb)        (* L368: lock held, before linking *)
| FRegUnlock (c : cb)      (* L376: lock held, linked *)
| FRegInline (c : cb)      (* inside c's function, called by the constructor *)
| FDel0 (c : cb)           (* destructor: __remove_callback_ L384 before locking *)
| FDelHold (c : cb) (old : bool)      (* L386: lock held; old = stop bit of __old_state *)
| FDelUnlinked (c : cb) (old : bool)  (* L395: lock held, unlinked *)
| FDelNot (c : cb) (old : bool) (nt : option tid) (* L400: lock held, nt = __notifying_thread *)
| FDelCmp (c : cb) (nt : option tid)  (* L404 *)
| FDelSpin (c : cb).                  (* L416 *)

Inductive event :=
| EvCall (t : tid)                         (* request_stop called *)
| EvRet (t : tid) (b : bool)               (* request_stop returned b *)
| EvRegStart (t : tid) (c : cb) (stopped : bool) (* constructor entered; stop_requested() then *)
| EvRegDone (t : tid) (c : cb)             (* constructor done *)
| EvInvoke (t : tid) (c : cb) (inl : bool) (* c's function entered; inl: by its constructor *)
| EvInvokeEnd (t : tid) (c : cb)           (* c's function returned *)
| EvDelStart (t : tid) (c : cb)            (* destructor entered *)
| EvDelDone (t : tid) (c : cb).            (* destructor done *)

Record state := {
  stopb : bool;                 (* __state_ & __stop_requested_flag_ *)
  lockb : bool;                 (* __state_ & __locked_flag_ *)
  head : option cb;             (* __callbacks_ *)
  notif : option tid;           (* __notifying_thread_ *)
  next : cb -> option cb;       (* __next_ *)
  prevp : cb -> ploc;           (* __prev_ptr_ *)
  rptr : cb -> bool;            (* __removed_during_callback_ != nullptr *)
  rvar : option bool;           (* request_stop's __removed_during_callback, None = out of scope *)
  completed : cb -> bool;       (* __callback_completed_ *)
  life : cb -> lifetime;
  thr : tid -> list frame;
  log : list event;             (* newest first *)
  ub : bool }.

Definition set {A} (f : nat -> A) (x : nat) (v : A) : nat -> A :=
  fun y => if y =? x then v else f y.

Definition init : state :=
  {| stopb := false; lockb := false; head := None; notif := None; next := fun _ => None;
     prevp := fun _ => PNull; rptr := fun _ => false; rvar := None; completed := fun _ => false;
     life := fun _ => LNone; thr := fun _ => []; log := []; ub := false |}.

(** the callback object exists *)
Definition exists_b (l : lifetime) : bool := match l with LNone | LDead => false | _ => true end.

(** ** Record updates *)
Definition w_state (s : state) (st lk : bool) : state :=
  {| stopb := st; lockb := lk; head := head s; notif := notif s; next := next s; prevp := prevp s;
     rptr := rptr s; rvar := rvar s; completed := completed s; life := life s; thr := thr s;
     log := log s; ub := ub s |}.
Definition w_thr (s : state) (t : tid) (fs : list frame) : state :=
  {| stopb := stopb s; lockb := lockb s; head := head s; notif := notif s; next := next s;
     prevp := prevp s; rptr := rptr s; rvar := rvar s; completed := completed s; life := life s;
     thr := set (thr s) t fs; log := log s; ub := ub s |}.
Definition w_log (s : state) (e : event) : state :=
  {| stopb := stopb s; lockb := lockb s; head := head s; notif := notif s; next := next s;
     prevp := prevp s; rptr := rptr s; rvar := rvar s; completed := completed s; life := life s;
     thr := thr s; log := e :: log s; ub := ub s |}.
Definition w_life (s : state) (c : cb) (l : lifetime) : state :=
  {| stopb := stopb s; lockb := lockb s; head := head s; notif := notif s; next := next s;
     prevp := prevp s; rptr := rptr s; rvar := rvar s; completed := completed s;
     life := set (life s) c l; thr := thr s; log := log s; ub := ub s |}.
Definition w_notif (s : state) (t : tid) : state :=
  {| stopb := stopb s; lockb := lockb s; head := head s; notif := Some t; next := next s;
     prevp := prevp s; rptr := rptr s; rvar := rvar s; completed := completed s; life := life s;
     thr := thr s; log := log s; ub := ub s |}.
Definition w_head (s : state) (h : option cb) : state :=
  {| stopb := stopb s; lockb := lockb s; head := h; notif := notif s; next := next s;
     prevp := prevp s; rptr := rptr s; rvar := rvar s; completed := completed s; life := life s;
     thr := thr s; log := log s; ub := ub s |}.
(** writes to a callback's memory: UB if the callback does not exist *)
Definition touch (s : state) (c : cb) : bool := ub s || negb (exists_b (life s c)).
Definition w_next (s : state) (c : cb) (v : option cb) : state :=
  {| stopb := stopb s; lockb := lockb s; head := head s; notif := notif s; next := set (next s) c v;
     prevp := prevp s; rptr := rptr s; rvar := rvar s; completed := completed s; life := life s;
     thr := thr s; log := log s; ub := touch s c |}.
Definition w_prevp (s : state) (c : cb) (v : ploc) : state :=
  {| stopb := stopb s; lockb := lockb s; head := head s; notif := notif s; next := next s;
     prevp := set (prevp s) c v; rptr := rptr s; rvar := rvar s; completed := completed s;
     life := life s; thr := thr s; log := log s; ub := touch s c |}.
Definition w_rptr (s : state) (c : cb) (v : bool) : state :=
  {| stopb := stopb s; lockb := lockb s; head := head s; notif := notif s; next := next s;
     prevp := prevp s; rptr := set (rptr s) c v; rvar := rvar s; completed := completed s;
     life := life s; thr := thr s; log := log s; ub := touch s c |}.
Definition w_completed (s : state) (c : cb) : state :=
  {| stopb := stopb s; lockb := lockb s; head := head s; notif := notif s; next := next s;
     prevp := prevp s; rptr := rptr s; rvar := rvar s; completed := set (completed s) c true;
     life := life s; thr := thr s; log := log s; ub := touch s c |}.
Definition w_rvar (s : state) (v : option bool) : state :=
  {| stopb := stopb s; lockb := lockb s; head := head s; notif := notif s; next := next s;
     prevp := prevp s; rptr := rptr s; rvar := v; completed := completed s; life := life s;
     thr := thr s; log := log s; ub := ub s |}.
Definition w_ub (s : state) (b : bool) : state :=
  {| stopb := stopb s; lockb := lockb s; head := head s; notif := notif s; next := next s;
     prevp := prevp s; rptr := rptr s; rvar := rvar s; completed := completed s; life := life s;
     thr := thr s; log := log s; ub := b |}.
(** a read of callback memory *)
Definition rd (s : state) (c : cb) : state := w_ub s (touch s c).

(** ** List surgery, with the lock held *)

(** request_stop L273-277 (the head is Some c) *)
Definition pop_head (s : state) (c : cb) : state :=
  let s := w_prevp s c PNull in                            (* L274 *)
  let s := w_head (rd s c) (next s c) in                   (* L275 *)
  match head s with
  | Some h => w_prevp s h PHead                            (* L276-277 *)
  | None => s
  end.

(** __try_add_callback_ L368-374 *)
Definition push_front (s : state) (c : cb) : state :=
  let s := w_next s c (head s) in                          (* L368 *)
  let s := w_prevp s c PHead in                            (* L369 *)
  let s := match head s with
           | Some h => w_prevp s h (PNext c)               (* L370-373 *)
           | None => s
           end in
  w_head s (Some c).                                       (* L374 *)

(** __remove_callback_ L390-394 *)
Definition unlink (s : state) (c : cb) : state :=
  let s := rd s c in
  let s := match prevp s c with                            (* L390 *)
           | PNull => w_ub s true
           | PHead => w_head s (next s c)
           | PNext p => w_next s p (next s c)
           end in
  match next s c with                                      (* L391-394 *)
  | Some n => w_prevp s n (prevp s c)
  | None => s
  end.

(** ** Steps *)

(** What a thread does next: start an API call or return from a callback's function (only from
    user code), or execute the next step of the current activation. *)
Inductive action := ARequest | ACtor (c : cb) | ADtor (c : cb) | AReturn | AStep.

(** the thread is running user code: the thread's own, or a callback's function *)
Definition at_user (fs : list frame) : bool :=
  match fs with
  | [] => true
  | FReqExec _ :: _ | FRegInline _ :: _ => true
  | _ => false
  end.

Definition step (t : tid) (a : action) (s : state) : option state :=
  match a with
  | ARequest =>
      if at_user (thr s t) then Some (w_log (w_thr s t (FReq0 :: thr s t)) (EvCall t)) else None
  | ACtor c =>
      (* a new callback object *)
      if at_user (thr s t) then
        match life s c with
        | LNone => Some (w_log (w_life (w_thr s t (FReg0 c :: thr s t)) c (LReg t))
                               (EvRegStart t c (stopb s)))
        | _ => None
        end
      else None
  | ADtor c =>
      if at_user (thr s t) then
        match life s c with
        | LLive => Some (w_log (w_life (w_thr s t (FDel0 c :: thr s t)) c (LDel t)) (EvDelStart t c))
        | LInl => (* __source_ == nullptr: nothing to do, L243 *)
            Some (w_log (w_log (w_life s c LDead) (EvDelStart t c)) (EvDelDone t c))
        | _ => None
        end
      else None
  | AReturn =>
      match thr s t with
      | FReqExec c :: fs =>                                        (* L286 *)
          let s := w_log s (EvInvokeEnd t c) in
          match rvar s with
          | Some false => Some (w_thr s t (FReqAfter c :: fs))
          | Some true => Some (w_thr (w_rvar s None) t (FReqRelock :: fs))
          | None => Some (w_ub s true)
          end
      | FRegInline c :: fs =>
          Some (w_log (w_log (w_life (w_thr s t fs) c LInl) (EvInvokeEnd t c)) (EvRegDone t c))
      | _ => None
      end
  | AStep =>
      match thr s t with
      | [] => None
      | f :: fs =>
          match f with
          | FReq0 =>                                               (* L265, L324-358 *)
              if stopb s then Some (w_log (w_thr s t fs) (EvRet t false))
              else if lockb s then None
              else Some (w_thr (w_state s true true) t (FReqSet :: fs))
          | FReqSet => Some (w_thr (w_notif s t) t (FReqLoop :: fs))     (* L268 *)
          | FReqLoop =>                                                  (* L271 *)
              match head s with
              | None => Some (w_thr s t (FReqFinish :: fs))
              | Some c => Some (w_thr (pop_head s c) t (FReqPopped c :: fs))
              end
          | FReqPopped c => Some (w_thr (w_state s true false) t (FReqUnlk c :: fs))  (* L279 *)
          | FReqUnlk c =>                                                (* L281-284 *)
              Some (w_log (w_thr (w_rptr (w_rvar s (Some false)) c true) t (FReqExec c :: fs))
                          (EvInvoke t c false))
          | FReqExec _ => None
          | FReqAfter c => Some (w_thr (w_rptr s c false) t (FReqCompl c :: fs))      (* L288 *)
          | FReqCompl c =>                                               (* L289 *)
              Some (w_thr (w_rvar (w_completed s c) None) t (FReqRelock :: fs))
          | FReqRelock =>                                                (* L292 *)
              if lockb s then None else Some (w_thr (w_state s (stopb s) true) t (FReqLoop :: fs))
          | FReqFinish =>                                                (* L295-296 *)
              Some (w_log (w_thr (w_state s true false) t fs) (EvRet t true))
          | FReg0 c =>                                                   (* L363 *)
              if stopb s then                                            (* L459-463 *)
                Some (w_log (w_thr (rd s c) t (FRegInline c :: fs)) (EvInvoke t c true))
              else if lockb s then None
              else Some (w_thr (w_state s false true) t (FRegHold c :: fs))
          | FRegHold c => Some (w_thr (push_front s c) t (FRegUnlock c :: fs))        (* L368-374 *)
          | FRegUnlock c =>                                              (* L376 *)
              Some (w_log (w_life (w_thr (w_state s false false) t fs) c LLive) (EvRegDone t c))
          | FRegInline _ => None
          | FDel0 c =>                                                   (* L384 *)
              if lockb s then None
              else Some (w_thr (w_state s (stopb s) true) t (FDelHold c (stopb s) :: fs))
          | FDelHold c old =>                                            (* L386-399 *)
              match prevp s c with
              | PNull => Some (w_thr (rd s c) t (FDelNot c old (notif s) :: fs))
              | _ => Some (w_thr (unlink (rd s c) c) t (FDelUnlinked c old :: fs))
              end
          | FDelUnlinked c old =>                                        (* L395 *)
              Some (w_log (w_life (w_thr (w_state s old false) t fs) c LDead) (EvDelDone t c))
          | FDelNot c old nt =>                                          (* L400 *)
              Some (w_thr (w_state s old false) t (FDelCmp c nt :: fs))
          | FDelCmp c nt =>                                              (* L404-413 *)
              if match nt with Some n => n =? t | None => false end then
                let s := rd s c in
                let s := if rptr s c then
                           match rvar s with
                           | Some _ => w_rvar s (Some true)              (* L408 *)
                           | None => w_ub s true
                           end
                         else s in
                Some (w_log (w_life (w_thr s t fs) c LDead) (EvDelDone t c))
              else Some (w_thr s t (FDelSpin c :: fs))
          | FDelSpin c =>                                                (* L416 *)
              if completed s c
              then Some (w_log (w_life (w_thr (rd s c) t fs) c LDead) (EvDelDone t c))
              else None
          end
      end
  end.

Inductive reachable : state -> Prop :=
| reach_init : reachable init
| reach_step s t a s' : reachable s -> step t a s = Some s' -> reachable s'.
