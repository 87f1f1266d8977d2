(** Model of exec::split and exec::ensure_started: the reference-counted shared
    state (/repo/include/exec/detail/shared.hpp L137-535).

    Any number of handles (copies of the split sender and the operation states
    connected from them; each owns one std::shared_ptr to the shared state), one
    stop token per handle, one upstream operation.  Each handle, each stop
    request and the upstream completion runs on a thread of its own (what runs
    inline on one thread is one of the interleavings, since none of these calls
    is made with the mutex held).  One step per access to shared memory; a
    critical section of [__mutex_] is one step: every access to [__waiters_] is
    in one.  Sequential consistency.  Simplified: stop callbacks are
    linearisable (proved of inplace_stop_source in C04-C07): a request runs a
    registered callback, registering after the request runs it inline,
    reset() waits for a callback running on another thread.  The intrusive list
    is a list.  The value stored by __complete is the result, a copy that throws
    included. *)
From Coq Require Import List ZArith Bool Arith.
From Verif Require Import Conc.
Import ListNotations.
Set Implicit Arguments.
Open Scope Z_scope.

(** What a completion delivers: set_stopped, or anything else (numbered). *)
Inductive result := RStopped | RVal (v : nat).

(** [__detach] followed by the release of the handle's own reference
    (L416-427 and the end of the full expression / member destruction):
    [D1] at the load of [__started_ref_] L419; [D2 b] at use_count L423, [b]:
    the loaded pointer is non-null; [D3 b] about to drop the loaded pointer;
    [D4] about to drop the handle's own reference. *)
Inductive dpc := D1 | D2 (b : bool) | D3 (b : bool) | D4.

(** A handle.
    [HU]: does not exist yet; [HS]: a sender, or an operation not yet started;
    [H1]: start() called, about to register the stop callback L187;
    [H2]: at the stop_requested() test L194;
    [H3]: __try_start, at test_and_set L354;
    [H4]: at the compare_exchange L358;
    [H5]: at the test of the stop source L376, then start L387 (or
          __notify_waiters L383);
    [H6]: in __try_add_waiter L393-414;
    [H7]: already completed: __notify, at reset L249; [H8]: about to complete L250;
    [HQ]: in the waiter list (or taken out of it by the completing thread);
    [HX]: taken out of the list by its stop callback;
    [HC]: completed with the shared result, operation state alive;
    [HF1]: start() gives up, at reset L206; [HF d]: detaching L207; [HFc]: about
          to call set_stopped L208;
    [HD c d]: being destroyed, detaching (L169-175, L501-507), [c]: it had
          completed; [HG c]: gone, holds no reference, [c]: it has completed. *)
Inductive hpc :=
| HU | HS | H1 | H2 | H3 | H4 | H5 | H6 | H7 | H8 | HQ | HX | HC
| HF1 | HF (d : dpc) | HFc | HD (c : bool) (d : dpc) | HG (c : bool).

(** The stop token of a handle and its callback (operator() L212-236).
    [KNone]: no request, no callback; [KReg]: callback registered; [KReqd]:
    requested, no callback running or registered; [KRun]: the callback runs, at
    the mutex L216; [KDet d]: it took the handle out of the list, L234;
    [KFin]: about to call set_stopped L235. *)
Inductive kpc := KNone | KReg | KReqd | KRun | KDet (d : dpc) | KFin.

(** The upstream operation.  [U0] connected; [U1] started; [U2] completed, the
    result is stored, at the swap L305; [UN ws] in the loop L309; [UC j ws]
    notifying [j]: its callback is reset, about to complete it; [U5] at
    [__set_completed] L322; [UD] over. *)
Inductive upc := U0 | U1 | U2 | UN (ws : list nat) | UC (j : nat) (ws : list nat) | U5 | UD.

Inductive event :=
| EUpStart                   (* upstream started *)
| EUp (r : result)           (* upstream completed *)
| EUpReq                     (* stop requested of upstream *)
| EStart (k : nat)           (* handle k: start() called *)
| EReq (k : nat)             (* stop requested of handle k *)
| EComp (k : nat) (r : result) (* handle k's receiver completed *)
| EDrop (k : nat)            (* handle k's sender or operation state destroyed *)
| EOver (k : nat)            (* sender k overwritten by assignment *)
| EFree.                     (* shared state destroyed *)

Record state := mk {
  hs : list hpc;
  ks : list kpc;
  up : upc;
  flag : bool;                  (* __started_ *)
  sref : bool;                  (* __started_ref_ non-null *)
  rc : Z;                       (* reference count of the shared state *)
  waiters : option (list nat);  (* __waiters_; None: the tombstone *)
  stopreq : bool;               (* __stop_source_ *)
  res : result;                 (* __results_ *)
  log : list event              (* newest first *)
}.

Definition set_h s k p := mk (upd (hs s) k p) (ks s) (up s) (flag s) (sref s) (rc s) (waiters s) (stopreq s) (res s) (log s).
Definition set_k s k p := mk (hs s) (upd (ks s) k p) (up s) (flag s) (sref s) (rc s) (waiters s) (stopreq s) (res s) (log s).
Definition set_up s u := mk (hs s) (ks s) u (flag s) (sref s) (rc s) (waiters s) (stopreq s) (res s) (log s).
Definition set_flag s := mk (hs s) (ks s) (up s) true (sref s) (rc s) (waiters s) (stopreq s) (res s) (log s).
Definition set_sref s b := mk (hs s) (ks s) (up s) (flag s) b (rc s) (waiters s) (stopreq s) (res s) (log s).
Definition set_rc s z := mk (hs s) (ks s) (up s) (flag s) (sref s) z (waiters s) (stopreq s) (res s) (log s).
Definition set_waiters s q := mk (hs s) (ks s) (up s) (flag s) (sref s) (rc s) q (stopreq s) (res s) (log s).
Definition set_stopreq s := mk (hs s) (ks s) (up s) (flag s) (sref s) (rc s) (waiters s) true (res s) (log s).
Definition set_res s r := mk (hs s) (ks s) (up s) (flag s) (sref s) (rc s) (waiters s) (stopreq s) r (log s).
Definition emit s e := mk (hs s) (ks s) (up s) (flag s) (sref s) (rc s) (waiters s) (stopreq s) (res s) (e :: log s).

(** std::shared_ptr: one reference less; the last one destroys the shared state. *)
Definition release (s : state) : state :=
  let s := set_rc s (rc s - 1) in
  if rc s =? 0 then emit s EFree else s.

(** [__detach] L416-427; [None]: finished, reference released. *)
Definition det_step (d : dpc) (s : state) : state * option dpc :=
  match d with
  | D1 => if sref s then (set_rc s (rc s + 1), Some (D2 true)) else (s, Some (D2 false))
  | D2 b => (if b && (rc s =? 3)
             then (if stopreq s then s else emit (set_stopreq s) EUpReq) else s, Some (D3 b))
  | D3 b => (if b then release s else s, Some D4)
  | D4 => (release s, None)
  end.

Definition stop_requested (p : kpc) : bool :=
  match p with KNone | KReg => false | _ => true end.

(** [__on_stop_.reset()]; [None]: has to wait for the running callback. *)
Definition reset (p : kpc) : option kpc :=
  match p with KReg => Some KNone | KNone => Some KNone | KReqd => Some KReqd | _ => None end.

(** A step of handle [k], callback state [c]. *)
Definition h_step (k : nat) (p : hpc) (c : kpc) (s : state) : option state :=
  match p with
  | H1 => (* L187; requested already: the callback runs inline, finds nothing to remove *)
      Some (set_k (set_h s k H2) k (match c with KNone => KReg | x => x end))
  | H2 => Some (set_h s k (if stop_requested c then HF1 else H3))
  | H3 => if flag s then Some (set_h s k H6) else Some (set_flag (set_h s k H4))
  | H4 => if sref s then Some (set_h s k H6)
          else Some (set_rc (set_sref (set_h s k H5) true) (rc s + 1))
  | H5 => if stopreq s then Some (set_up (set_h s k H6) U2)
          else Some (emit (set_up (set_h s k H6) U1) EUpStart)
  | H6 => match waiters s with
          | None => Some (set_h s k H7)
          | Some q => if stop_requested c then Some (set_h s k HF1)
                      else Some (set_waiters (set_h s k HQ) (Some (k :: q)))
          end
  | H7 => match reset c with Some c' => Some (set_k (set_h s k H8) k c') | None => None end
  | H8 => Some (emit (set_h s k HC) (EComp k (res s)))
  | HF1 => match reset c with Some c' => Some (set_k (set_h s k (HF D1)) k c') | None => None end
  | HF d => let (s', r) := det_step d s in
            Some (set_h s' k (match r with Some d' => HF d' | None => HFc end))
  | HFc => Some (emit (set_h s k (HG true)) (EComp k RStopped))
  | HD b d => let (s', r) := det_step d s in
              Some (set_h s' k (match r with Some d' => HD b d' | None => HG b end))
  | HU | HS | HQ | HX | HC | HG _ => None
  end.

(** A step of the stop callback of handle [k]. *)
Definition k_step (k : nat) (c : kpc) (s : state) : option state :=
  match c with
  | KRun => match waiters s with
            | Some q => if in_dec Nat.eq_dec k q
                        then Some (set_k (set_h (set_waiters s (Some (remove Nat.eq_dec k q))) k HX) k (KDet D1))
                        else Some (set_k s k KReqd)
            | None => Some (set_k s k KReqd)
            end
  | KDet d => let (s', r) := det_step d s in
              Some (set_k s' k (match r with Some d' => KDet d' | None => KFin end))
  | KFin => Some (emit (set_k (set_h s k (HG true)) k KReqd) (EComp k RStopped))
  | KNone | KReg | KReqd => None
  end.

(** A step of the thread on which upstream completes, after the result is stored. *)
Definition u_step (s : state) : option state :=
  match up s with
  | U2 => match waiters s with
          | Some q => Some (set_up (set_waiters s None) (UN q))
          | None => None                     (* the assertion L308 *)
          end
  | UN [] => Some (set_up s U5)
  | UN (j :: ws) =>
      match nth_error (ks s) j with
      | Some c => match reset c with Some c' => Some (set_up (set_k s j c') (UC j ws)) | None => None end
      | None => None
      end
  | UC j ws => Some (emit (set_up (set_h s j HC) (UN ws)) (EComp j (res s)))
  | U5 => Some (release (set_sref (set_up s UD) false))
  | U0 | U1 | UD => None
  end.

Inductive action :=
| AStart (k : nat)        (* the user starts operation k *)
| ADrop (k : nat)         (* the user destroys sender / operation state k *)
| AOver (k : nat)         (* the user assigns another sender to sender k: the
                             defaulted operator= L495-499 drops the reference
                             without [__detach] *)
| ACopy (k k' : nat)      (* the user copies sender k: handle k' *)
| AReq (k : nat)          (* stop is requested of k's token *)
| AUp (r : result)        (* upstream completes *)
| AH (k : nat)            (* handle k runs on *)
| AK (k : nat)            (* its stop callback runs on *)
| AU.                     (* the completing thread runs on *)

Definition step (a : action) (s : state) : option state :=
  match a with
  | AStart k => match nth_error (hs s) k with
                | Some HS => Some (emit (set_h s k H1) (EStart k)) | _ => None end
  | ADrop k => match nth_error (hs s) k with
               | Some HS => Some (emit (set_h s k (HD false D1)) (EDrop k))
               | Some HC => Some (emit (set_h s k (HD true D1)) (EDrop k))
               | _ => None end
  | AOver k => match nth_error (hs s) k with
               | Some HS => Some (emit (set_h s k (HD false D4)) (EOver k)) | _ => None end
  | ACopy k k' => match nth_error (hs s) k, nth_error (hs s) k' with
                  | Some HS, Some HU => Some (set_rc (set_h s k' HS) (rc s + 1))
                  | _, _ => None end
  | AReq k => match nth_error (ks s) k with
              | Some KNone => Some (emit (set_k s k KReqd) (EReq k))
              | Some KReg => Some (emit (set_k s k KRun) (EReq k))
              | _ => None end
  | AUp r => match up s with
             | U1 => Some (emit (set_res (set_up s U2) r) (EUp r)) | _ => None end
  | AH k => match nth_error (hs s) k, nth_error (ks s) k with
            | Some p, Some c => h_step k p c s | _, _ => None end
  | AK k => match nth_error (ks s) k with Some c => k_step k c s | None => None end
  | AU => u_step s
  end.

Fixpoint runs (l : list action) (s : state) : option state :=
  match l with
  | [] => Some s
  | a :: r => match step a s with Some s' => runs r s' | None => None end
  end.

(** [split]: [n + 1] senders exist (or operations connected from them), [m] more
    may be copied from them. *)
Definition split_init (n m : nat) : state :=
  mk (repeat HS (1 + n) ++ repeat HU m) (repeat KNone (1 + n + m)) U0 false false (1 + Z.of_nat n)
     (Some []) false RStopped [].

(** [ensure_started]: the sender is returned after [__try_start] (ensure_started.hpp
    L67-78); it is move-only. *)
Definition es_init : state :=
  mk [HS] [KNone] U1 true true 2 (Some []) false RStopped [EUpStart].

Definition from (s0 s : state) : Prop := exists l, runs l s0 = Some s.
Definition split_reach (s : state) : Prop := exists n m, from (split_init n m) s.
Definition es_reach (s : state) : Prop := from es_init s.
