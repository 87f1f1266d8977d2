(** Model of async_scope::spawn_future
    (/repo/include/exec/async_scope.hpp L274-425, L486-707).

    Any number of futures spawned into one scope.  For each of them: the thread of
    the consumer (creates the future, drops it or connects, starts or drops the
    operation), the thread on which the spawned operation completes, the thread
    that requests stop of the consumer's token and the one that requests stop of
    the scope.  One step per critical section of [__mutex_] (everything in it is
    protected by the mutex), per completion, per stop callback, per destruction;
    sequential consistency.  Every step that touches the shared state when it has
    been freed is recorded.
    Simplified: locking does not throw; stop sources and callbacks are
    linearisable (C15-C17); delivering a result is one step. *)
From Coq Require Import List ZArith Bool Arith.
From Verif Require Import Conc.
Import ListNotations.
Set Implicit Arguments.

(** What the spawned operation completes with. [Exc]: storing the result threw
    L569-573. *)
Inductive outcome := Val (v : Z) | Err (e : Z) | Stp | Exc.

(** __complete_ L314-362.  [C0]: at L318; [C1]: at L321; [C2 o]: at L331/L349;
    [C3]: at L332/L350; [C4]: leaving, L319 deletes the state. *)
Inductive cpc := C0 | C1 | C2 (o : outcome) | C3 | C4.
(** The consumer.  [UNew]: at L702; [UF]: has the future; [UFd]: in ~__future at
    L662; [UFx]: L706 deletes the state; [UO]: has an unstarted operation; [UOd]:
    in ~__future_opstate at L388; [UOx]: L367 after L393; [UOy]: L365 deletes the
    state; [UOz]: L367 after L395; [US]: in start at L408; [USub]: subscribed;
    [UC]: in __complete_; [UEnd]. *)
Inductive upc := UNew | UF | UFd | UFx | UO | UOd | UOx | UOy | UOz | US | USub | UC (c : cpc) | UEnd.
(** The spawned operation.  [WRun]; [W1 o]: at L580/L589/L597; [WDel]: at L549;
    [WSub b]: at L553; [WC]: in __complete_; [WEnd]. *)
Inductive wpc := WRun | W1 (o : outcome) | WDel | WSub (b : bool) | WC (c : cpc) | WEnd.
(** A stop callback: not there, registered, running, over. *)
Inductive cb := CbNone | CbReg | CbRun | CbRan.
Inductive fstep := SCreated | SFuture | SNoFuture | SDeleted.   (* L274-281 *)

Inductive event :=
| EOp (o : outcome)        (* the spawned operation completes *)
| EStart                   (* the future's operation is started *)
| EReq                     (* the consumer requests stop *)
| EDeliver (o : outcome)   (* the future's receiver completes *)
| EDrop                    (* the future or its unstarted operation is dropped *)
| EFree                    (* the shared state is deleted *)
| ETerm                    (* std::terminate L326/L341 *)
| EUaf (callback : bool).  (* the deleted state is accessed [by the consumer's stop callback] *)

Record fut := mkf {
  up : upc; wp : wpc;
  stp : fstep;             (* __step_ *)
  nof : bool;              (* __no_future_ *)
  dat : option outcome;    (* __data_ *)
  sub : bool;              (* __subscribers_ *)
  fcon : cb;               (* __forward_consumer_ *)
  fsco : cb;               (* __forward_scope_ *)
  ssrc : bool;             (* __stop_source_ requested *)
  preq : bool;             (* the consumer's token *)
  dead : bool;             (* the state has been deleted *)
  log : list event         (* newest first *)
}.

Definition set_up f v := mkf v (wp f) (stp f) (nof f) (dat f) (sub f) (fcon f) (fsco f) (ssrc f) (preq f) (dead f) (log f).
Definition set_wp f v := mkf (up f) v (stp f) (nof f) (dat f) (sub f) (fcon f) (fsco f) (ssrc f) (preq f) (dead f) (log f).
Definition set_stp f v := mkf (up f) (wp f) v (nof f) (dat f) (sub f) (fcon f) (fsco f) (ssrc f) (preq f) (dead f) (log f).
Definition set_nof f := mkf (up f) (wp f) (stp f) true (dat f) (sub f) (fcon f) (fsco f) (ssrc f) (preq f) (dead f) (log f).
Definition set_dat f v := mkf (up f) (wp f) (stp f) (nof f) (Some v) (sub f) (fcon f) (fsco f) (ssrc f) (preq f) (dead f) (log f).
Definition set_sub f v := mkf (up f) (wp f) (stp f) (nof f) (dat f) v (fcon f) (fsco f) (ssrc f) (preq f) (dead f) (log f).
Definition set_fcon f v := mkf (up f) (wp f) (stp f) (nof f) (dat f) (sub f) v (fsco f) (ssrc f) (preq f) (dead f) (log f).
Definition set_fsco f v := mkf (up f) (wp f) (stp f) (nof f) (dat f) (sub f) (fcon f) v (ssrc f) (preq f) (dead f) (log f).
Definition set_ssrc f := mkf (up f) (wp f) (stp f) (nof f) (dat f) (sub f) (fcon f) (fsco f) true (preq f) (dead f) (log f).
Definition set_preq f := mkf (up f) (wp f) (stp f) (nof f) (dat f) (sub f) (fcon f) (fsco f) (ssrc f) true (dead f) (log f).
Definition set_dead f := mkf (up f) (wp f) (stp f) (nof f) (dat f) (sub f) (fcon f) (fsco f) (ssrc f) (preq f) true (log f).
Definition emit f e := mkf (up f) (wp f) (stp f) (nof f) (dat f) (sub f) (fcon f) (fsco f) (ssrc f) (preq f) (dead f) (e :: log f).

(** the shared state is accessed *)
Definition touch (c : bool) (f : fut) : fut := if dead f then emit f (EUaf c) else f.
(** the shared state is deleted: ~__future_state_base L497-511 accesses it *)
Definition free (f : fut) : fut := emit (set_dead (set_stp (touch false f) SDeleted)) EFree.

(** destroying a stop callback waits for a running one *)
Definition reset (c : cb) : option cb := match c with CbRun => None | _ => Some CbNone end.

(** A step of __complete_; the next position ([None]: over). *)
Definition c_step (c : cpc) (f : fut) : option (option cpc * fut) :=
  match c with
  | C0 => match reset (fcon f) with Some k => Some (Some C1, set_fcon f k) | None => None end
  | C1 => let f := touch false f in                                   (* L321-355 *)
          if nof f || match stp f with SFuture => false | _ => true end then Some (None, emit f ETerm)
          else if preq f then Some (Some (C2 Stp), f)
          else match dat f with Some o => Some (Some (C2 o), f) | None => Some (None, emit f ETerm) end
  | C2 o => Some (Some C3, emit (touch false f) (EDeliver o))         (* the datums are in the state *)
  | C3 => Some (Some C4, touch false f)
  | C4 => Some (None, free f)
  end.

(** A step of the library on the consumer's thread. *)
Definition u_step (f : fut) : option fut :=
  match up f with
  | UNew => Some (set_up (set_stp (touch false f) SFuture) UF)                  (* L702-703 *)
  | UFd => let f := touch false f in                                            (* L662-672 *)
           match dat f with
           | Some _ => Some (set_up f UFx)
           | None => Some (set_up (set_stp (set_nof f) SNoFuture) UEnd)
           end
  | UFx => Some (set_up (free f) UEnd)
  | UOd => let f := touch false f in                                            (* L388-398 *)
           match dat f with
           | Some _ => Some (set_up f UOx)
           | None => Some (set_up (set_stp (set_nof f) SNoFuture) UOz)
           end
  | UOx => match reset (fcon f) with Some k => Some (set_up (set_fcon f k) UOy) | None => None end
  | UOy => Some (set_up (free f) UEnd)
  | UOz => match reset (fcon f) with Some k => Some (set_up (set_fcon f k) UEnd) | None => None end
  | US => let f := touch false f in                                             (* L408-417 *)
          match dat f with
          | Some _ => Some (set_up f (UC C0))
          | None => Some (set_up (set_sub f true) USub)
          end
  | UC c => match c_step c f with
            | Some (Some c', f') => Some (set_up f' (UC c'))
            | Some (None, f') => Some (set_up f' UEnd)
            | None => None end
  | UF | UO | USub | UEnd => None
  end.

(** A step of the library on the thread of the spawned operation. *)
Definition w_step (f : fut) : option fut :=
  match wp f with
  | W1 o =>                                                                     (* L576-600, L538-552 *)
      match reset (fsco f) with
      | Some k =>
          let f1 := set_sub (set_fsco (set_dat (touch false f) o) k) false in
          if nof f1 then Some (set_wp (set_stp f1 SDeleted) WDel)
          else Some (set_wp f1 (WSub (sub f)))
      | None => None
      end
  | WDel => Some (set_wp (free f) WEnd)                                         (* L549 *)
  | WSub b => if b then Some (set_wp (set_up f UEnd) (WC C0)) else Some (set_wp f WEnd)
  | WC c => match c_step c f with
            | Some (Some c', f') => Some (set_wp f' (WC c'))
            | Some (None, f') => Some (set_wp f' WEnd)
            | None => None end
  | WRun | WEnd => None
  end.

Inductive act :=
| ALibU | ALibW
| AConnect                 (* connect() L676-682 *)
| ADropF                   (* ~__future *)
| AStart                   (* start() *)
| ADropO                   (* ~__future_opstate, not started *)
| AOp (o : outcome)        (* the spawned operation completes *)
| AReq                     (* stop is requested of the consumer's token *)
| ACon                     (* the consumer's stop callback runs L290-293 *)
| ASco | AScoEnd.          (* request_stop of the scope invokes the callback; it runs *)

(** [q]: stop has been requested of the scope. *)
Definition f_step (q : bool) (a : act) (f : fut) : option fut :=
  match a with
  | ALibU => u_step f
  | ALibW => w_step f
  | AConnect => match up f with                                                 (* L371-381 *)
                | UF => Some (set_up (if preq f then set_ssrc (set_fcon (touch false f) CbRan) else set_fcon f CbReg) UO)
                | _ => None end
  | ADropF => match up f with UF => Some (emit (set_up f UFd) EDrop) | _ => None end
  | AStart => match up f with UO => Some (emit (set_up f US) EStart) | _ => None end
  | ADropO => match up f with UO => Some (emit (set_up f UOd) EDrop) | _ => None end
  | AOp o => match wp f with WRun => Some (emit (set_wp f (W1 o)) (EOp o)) | _ => None end
  | AReq => if preq f then None else
            Some (emit (match fcon f with CbReg => set_fcon (set_preq f) CbRun | _ => set_preq f end) EReq)
  | ACon => match fcon f with CbRun => Some (set_fcon (set_ssrc (touch true f)) CbRan) | _ => None end
  | ASco => if q then match fsco f with CbReg => Some (set_fsco f CbRun) | _ => None end else None
  | AScoEnd => match fsco f with CbRun => Some (set_fsco (set_ssrc (touch false f)) CbRan) | _ => None end
  end.

Record state := mk { futs : list fut; sreq : bool (* stop requested of the scope *) }.

Inductive action :=
| ASpawn                   (* spawn_future: L489-495, L619-638 *)
| AScopeStop               (* request_stop of the scope *)
| AFut (i : nat) (a : act).

Definition new_fut (q : bool) : fut :=
  mkf UNew WRun SCreated false None false CbNone (if q then CbRan else CbReg) q false false [].

Definition step (a : action) (s : state) : option state :=
  match a with
  | ASpawn => Some (mk (futs s ++ [new_fut (sreq s)]) (sreq s))
  | AScopeStop => if sreq s then None else Some (mk (futs s) true)
  | AFut i a => match nth_error (futs s) i with
                | Some f => match f_step (sreq s) a f with
                            | Some f' => Some (mk (upd (futs s) i f') (sreq s))
                            | None => None end
                | None => None end
  end.

Fixpoint runs (l : list action) (s : state) : option state :=
  match l with
  | [] => Some s
  | a :: r => match step a s with Some s' => runs r s' | None => None end
  end.

Definition init : state := mk [] false.
Definition reachable (s : state) : Prop := exists acts, runs acts init = Some s.

(** The stop token in the environment of the spawned operation: __env_ L493-494,
    which __future_receiver::get_env L602-605 returns. *)
Definition op_stop (s : state) : bool := sreq s.
