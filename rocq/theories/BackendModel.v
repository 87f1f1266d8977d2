(** Model of the current backend of parallel_scheduler and its replacement: __instance_data,
    /repo/include/stdexec/__detail/__parallel_scheduler_default_impl.hpp L331-400 ("DI"), behind
    query_parallel_scheduler_backend() (get_parallel_scheduler) and set_parallel_scheduler_backend().

    Any number of threads; one step per access to the lock, the instance pointer and the factory, and per call of a factory;
    sequential consistency.  Instances are numbered in the order in which factories make them; factories do not
    fail.  Factory 0 is the default one (DI L380). *)
From Coq Require Import List Bool Arith.
From Verif Require Import Conc.
Import ListNotations.
Set Implicit Arguments.

(** A thread: outside; in __get_current_instance, DI L338-358; in __set_backend_factory, DI L361-375. *)
Inductive pc :=
| Idle
| G0                          (* L341: about to lock *)
| G1                          (* L342: lock held, about to copy the instance *)
| G2 (o : option nat)         (* L343: about to unlock; then L344-347 *)
| G3                          (* L351: about to load the factory and call it *)
| G4 (i : nat)                (* L354: about to lock *)
| G5 (i : nat)                (* L355: lock held, about to store the new instance *)
| G6 (i : nat)                (* L356: about to unlock and return it *)
| S0 (f : nat)                (* L365: about to exchange the factory *)
| S1 (f old : nat)            (* L367: about to call the new factory *)
| S2 (f old i : nat)          (* L369: about to lock *)
| S3 (f old i : nat)          (* L370: lock held, about to exchange the instance *)
| S4 (f old i : nat).         (* L371: about to unlock; then it returns *)

(** What can be observed, newest first. [EGet t i]: thread t's call returns the instance i; [ESet t f old i]: thread t's replacement by factory f returns
    the factory old; i is the instance that f has made. *)
Inductive event := EGetCall (t : nat) | EGet (t i : nat) | ESetCall (t f : nat) | ESet (t f old i : nat).

Record state := mks { lk : bool; inst : option nat; fac : nat; next : nat; made : nat -> nat; th : nat -> pc; log : list event }.
Definition init := mks false None 0 0 (fun _ => 0) (fun _ => Idle) [].
Definition w_lk s v := mks v (inst s) (fac s) (next s) (made s) (th s) (log s).
Definition w_inst s v := mks (lk s) v (fac s) (next s) (made s) (th s) (log s).
Definition w_fac s v := mks (lk s) (inst s) v (next s) (made s) (th s) (log s).
Definition make s f := mks (lk s) (inst s) (fac s) (S (next s)) (fset (made s) (next s) f) (th s) (log s).
Definition w_th s t v := mks (lk s) (inst s) (fac s) (next s) (made s) (fset (th s) t v) (log s).
Definition emit s e := mks (lk s) (inst s) (fac s) (next s) (made s) (th s) (e :: log s).

Inductive action := AGet (t : nat) | ASet (t f : nat) | AStep (t : nat).
(** __acquire_instance_lock, L388-394 *)
Definition acquire s t p : option state := if lk s then None else Some (w_th (w_lk s true) t p).
Definition step (s : state) (a : action) : option state :=
  match a with
  | AGet t => match th s t with Idle => Some (emit (w_th s t G0) (EGetCall t)) | _ => None end
  | ASet t f => match th s t with Idle => Some (emit (w_th s t (S0 f)) (ESetCall t f)) | _ => None end
  | AStep t =>
      match th s t with
      | Idle => None
      | G0 => acquire s t G1
      | G1 => Some (w_th s t (G2 (inst s)))
      | G2 (Some i) => Some (emit (w_th (w_lk s false) t Idle) (EGet t i))
      | G2 None => Some (w_th (w_lk s false) t G3)
      | G3 => Some (w_th (make s (fac s)) t (G4 (next s)))
      | G4 i => acquire s t (G5 i)
      | G5 i => Some (w_th (w_inst s (Some i)) t (G6 i))
      | G6 i => Some (emit (w_th (w_lk s false) t Idle) (EGet t i))
      | S0 f => Some (w_th (w_fac s f) t (S1 f (fac s)))
      | S1 f old => Some (w_th (make s f) t (S2 f old (next s)))
      | S2 f old i => acquire s t (S3 f old i)
      | S3 f old i => Some (w_th (w_inst s (Some i)) t (S4 f old i))
      | S4 f old i => Some (emit (w_th (w_lk s false) t Idle) (ESet t f old i))
      end
  end.
Fixpoint runs (l : list action) (s : state) : option state :=
  match l with
  | [] => Some s
  | a :: l => match step s a with Some s' => runs l s' | None => None end
  end.
