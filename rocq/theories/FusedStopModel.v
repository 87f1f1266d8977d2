(** Model of the stop token that stop_when gives to its child: __fused_token and its callback_type
    (/repo/include/stdexec/__detail/__stop_when.hpp L95-165).

    One callback object registered on two stop sources, numbered by [bool] (true: __tkn1_).  Threads: the
    one that constructs the callback object; for each source the one that requests stop of it; the one that
    destroys the object, which may be the one that runs the user's function.  A callback object may be
    registered on any pair of tokens, and callback objects do not share state, so one object is all there is.
    One step per atomic access, registration, removal, and begin and end of the user's function; sequential
    consistency.
    The two sources behave as C15-C18 prove of inplace_stop_source: a stop request runs a registered
    callback on the requesting thread; registering after the request runs it inline; removing a callback
    that is running on another thread waits for it, on its own thread it does not. *)
From Coq Require Import List Bool Arith.
Import ListNotations.
Set Implicit Arguments.

(** L139-147, L152-158: where an invocation of one of the two inner callbacks is: about to exchange
    __called_, about to call __fn_, inside __fn_, back from __fn_. *)
Inductive inv := IXchg | ICall | IFn | IEnd.

(** One inner callback (L149-150, L162-163): not constructed, in the source's list, taken out by the stop
    request (or run inline by its constructor), destroyed. *)
Inductive cbs := CNew | CReg | CRan | CGone.
(** The thread that requests stop of a source: not called; the flag is set; in an invocation of the inner
    callback; returned. *)
Inductive rpc := R0 | RFlag | RInv (i : inv) | REnd.

(** The constructing thread, L120-134: before cb1 ([KNext true]), before cb2 (members
    are initialised in order of their declaration), running one of them inline, done. *)
Inductive cpc := KNext (k : bool) | KInv (k : bool) (i : inv) | KDone.
(** The destructor: not called; about to destroy cb2, cb1 (reverse order of declaration); returned. *)
Inductive dpc := D0 | D2 | D1 | DEnd.

(** What can be observed, newest first.  [EReq k]: request_stop of source k was called (first time);
    [EReqRet k]: that call has run its callbacks.  [ECtor], [EDtor b], [EDtorRet]: the constructor has
    returned; the destructor was called (b: from inside the function); the destructor has returned.
    [ECall], [ERet]: the user's function is entered and left.  [EUaf]: a member is used after the destructor returned, except
    that the function itself may return. *)
Inductive event := EReq (k : bool) | EReqRet (k : bool) | ECtor | EDtor (b : bool) | EDtorRet | ECall | ERet | EUaf.

Record state := mks {
  rp : bool -> rpc;
  cb : bool -> cbs;
  called : bool;                  (* L161 *)
  kp : cpc; dp : dpc;
  din : bool;                     (* the destructor runs inside the function *)
  log : list event
}.
Definition init := mks (fun _ : bool => R0) (fun _ : bool => CNew) false (KNext true) D0 false [].

Definition bset (A : Type) (f : bool -> A) (k : bool) (v : A) := fun j : bool => if Bool.eqb j k then v else f j.
Definition w_rp s k v := mks (bset (rp s) k v) (cb s) (called s) (kp s) (dp s) (din s) (log s).
Definition w_cb s k v := mks (rp s) (bset (cb s) k v) (called s) (kp s) (dp s) (din s) (log s).
Definition w_called s := mks (rp s) (cb s) true (kp s) (dp s) (din s) (log s).
Definition w_kp s v := mks (rp s) (cb s) (called s) v (dp s) (din s) (log s).
Definition w_dp s v b := mks (rp s) (cb s) (called s) (kp s) v b (log s).
Definition emit s e := mks (rp s) (cb s) (called s) (kp s) (dp s) (din s) (e :: log s).
Definition requested s k := match rp s k with R0 => false | _ => true end.

(** Using a member of the object. *)
Definition touch (s : state) := match dp s with DEnd => emit s EUaf | _ => s end.

(** The next step of an invocation, L152-158: its effect and its next position. *)
Definition inv_eff (s : state) (i : inv) : state :=
  match i with IXchg => w_called (touch s) | ICall => emit (touch s) ECall | IFn => emit s ERet | IEnd => s end.
Definition inv_next s (i : inv) : inv :=
  match i with IXchg => if called s then IEnd else ICall | ICall => IFn | _ => IEnd end.

(** After one inner callback is constructed: the next one, or the constructor returns. *)
Definition next_k (k : bool) (s : state) := if k then w_kp s (KNext false) else emit (w_kp s KDone) ECtor.

(** The constructor, L123-124 (L132-133): registers, or runs inline if stop has been requested. *)
Definition k_step s :=
  match kp s with
  | KNext k => Some (if requested s k then w_kp (w_cb s k CRan) (KInv k IXchg) else next_k k (w_cb s k CReg))
  | KInv k IEnd => Some (next_k k s)
  | KInv k i => Some (w_kp (inv_eff s i) (KInv k (inv_next s i)))
  | KDone => None
  end.

(** The thread requesting stop of source k.  While the function runs the destructor it does not return. *)
Definition r_step s k :=
  match rp s k with
  | RFlag => match cb s k with
             | CReg => Some (w_rp (w_cb s k CRan) k (RInv IXchg))
             | _ => Some (emit (w_rp s k REnd) (EReqRet k))
             end
  | RInv IEnd => Some (emit (w_rp s k REnd) (EReqRet k))
  | RInv i =>
      match i, dp s, din s with
      | IFn, D2, true | IFn, D1, true => None
      | _, _, _ => Some (w_rp (inv_eff s i) k (RInv (inv_next s i)))
      end
  | _ => None
  end.

(** The destructor of an inner callback: waits while the callback runs on another thread. *)
Definition destroy s k :=
  match rp s k with
  | RInv IFn => if din s then Some (w_cb s k CGone) else None
  | RInv _ => match cb s k with CRan => None | _ => Some (w_cb s k CGone) end
  | _ => Some (w_cb s k CGone)
  end.

(** The function is running on the thread of a stop request. *)
Definition in_fn s := match rp s true, rp s false with RInv IFn, _ => true | _, RInv IFn => true | _, _ => false end.

Inductive action :=
| AReq (k : bool)       (* request_stop() of a source *)
| AK                    (* the constructing thread takes a step *)
| AR (k : bool)         (* the requesting thread of source k takes a step *)
| ADtor (b : bool)      (* the destructor is called; b: from inside the function *)
| AD.                   (* the destructor takes a step *)

Definition step (s : state) (a : action) : option state :=
  match a with
  | AReq k => match rp s k with R0 => Some (emit (w_rp s k RFlag) (EReq k)) | _ => None end
  | AK => k_step s
  | AR k => r_step s k
  | ADtor b =>
      match kp s, dp s with
      | KDone, D0 => if negb b || in_fn s then Some (emit (w_dp s D2 b) (EDtor b)) else None
      | _, _ => None
      end
  | AD =>
      match dp s with
      | D2 => match destroy s false with Some s => Some (w_dp s D1 (din s)) | None => None end
      | D1 => match destroy s true with Some s => Some (emit (w_dp s DEnd (din s)) EDtorRet) | None => None end
      | _ => None
      end
  end.

Fixpoint runs (l : list action) (s : state) : option state :=
  match l with
  | [] => Some s
  | a :: l => match step s a with Some s' => runs l s' | None => None end
  end.
Definition reach s := exists l, runs l init = Some s.
