(** Model of bulk on the pools that derive from exec::thread_pool_base (/repo/include/exec/thread_pool_base.hpp, "TP"; asio, tbb and taskflow pools) and on
    exec::libdispatch_queue (/repo/include/exec/libdispatch_queue.hpp, "LQ"): bulk_shared_state, bulk_receiver.

    One thread runs the receiver's set_value (the enqueuer), the pool runs each enqueued task on some thread; one step per access of an atomic and per call of the function.
    The receiver destroys the operation state as soon as it is completed.
    Simplified: the values of the predecessor are not modelled; enqueue() and reserve() do not fail; std::uint32_t has [W] values. *)
From Coq Require Import List Bool Arith ZArith.
From Verif Require Import Conc.
Import ListNotations.
Set Implicit Arguments.

(** [Base]: TP; [Disp]: LQ *)
Inductive lib := Base | Disp.
(** The enqueuer: before the predecessor completes; at the loop condition for task i (TP L545-551, LQ L464); has returned. *)
Inductive enq := EPre | ELoop (i : nat) | EEnd.
(** A task: not enqueued; enqueued; in the function; it threw, before the compare_exchange; has won it; before the fetch_add; is the last; is over. *)
Inductive tpc := TNone | TQueued | TCall | TCas | TExc | TFin | TLast | TDone.
Inductive compl := CVal | CErr (t : option nat) | CStp.   (** [CErr (Some t)]: the exception of task t; [CErr None]: of the predecessor or of copying its values *)
(** [ECall t]: the function is called by task t; [EThrow t]: and throws; [EBad o]: the operation state is used after the completion, by a task or (None) by the enqueuer *)
Inductive event := ECall (t : nat) | EThrow (t : nat) | ECompl (c : compl) | EBad (o : option nat).

Record state := mks { en : enq; tk : list tpc; fin : nat; twe : nat; exc : option nat; dead : bool; log : list event }.
(** [n] tasks: num_agents_required(), TP L206-212, or the shape, LQ L429-432; thread_with_exception_ starts as the number of tasks, TP L227, LQ L426. *)
Definition init (W n : nat) := mks EPre (repeat TNone n) 0 (n mod W) None false [].
Definition w_en s v := mks v (tk s) (fin s) (twe s) (exc s) (dead s) (log s).
Definition w_tk s t v := mks (en s) (upd (tk s) t v) (fin s) (twe s) (exc s) (dead s) (log s).
Definition w_fin s v := mks (en s) (tk s) v (twe s) (exc s) (dead s) (log s).
Definition w_twe s v := mks (en s) (tk s) (fin s) v (exc s) (dead s) (log s).
Definition w_exc s v := mks (en s) (tk s) (fin s) (twe s) v (dead s) (log s).
Definition emit s e := mks (en s) (tk s) (fin s) (twe s) (exc s) (dead s) (e :: log s).
Definition touch s o := if dead s then emit s (EBad o) else s.
(** complete the receiver *)
Definition complete s c := let s := emit s (ECompl c) in mks (en s) (tk s) (fin s) (twe s) (exc s) true (log s).

(** What the predecessor does; [PValThrow]: it sends values, and storing them throws *)
Inductive pred := PVal | PValThrow | PErr | PStp.
Inductive action := APred (p : pred) | AEnq | ATask (t : nat) (thr : bool).

Definition step (W : nat) (l : lib) (s : state) (a : action) : option state :=
  let n := length (tk s) in
  match a with
  | APred p =>
      match en s with
      | EPre => Some match p with
          | PVal => if n =? 0 then w_en (complete s CVal) EEnd else w_en s (ELoop 0)        (* TP L332-340, LQ L493-502 *)
          | PValThrow | PErr => w_en (complete s (CErr None)) EEnd                          (* TP L321-325, L343-348; LQ L482-486, L505-509 *)
          | PStp => w_en (complete s CStp) EEnd                                             (* TP L350-354, LQ L511-514 *)
          end
      | _ => None
      end
  | AEnq =>
      match en s with
      | ELoop i =>
          let s := match l with Base => s | Disp => touch s None end in                     (* LQ L464 reads shared_state_.shape_; TP L547 reads a local *)
          if i <? n then Some (w_en (w_tk s i TQueued) (ELoop (S i)))                       (* TP L549; LQ L466-467 *)
          else Some (w_en s EEnd)
      | _ => None
      end
  | ATask t thr =>
      let total := n mod W in                                                               (* TP L232; LQ L356 *)
      match nth_error (tk s) t with
      | Some TQueued => Some (emit (w_tk (touch s (Some t)) t TCall) (ECall t))             (* TP L234-238, L249 *)
      | Some TCall => Some (if thr then emit (w_tk s t TCas) (EThrow t) else w_tk s t TFin)
      | Some TCas =>                                                                        (* TP L253-258 *)
          let s := touch s (Some t) in
          if twe s =? total then Some (w_twe (w_tk s t TExc) (t mod W)) else Some (w_tk s t TFin)
      | Some TExc => Some (w_exc (w_tk (touch s (Some t)) t TFin) (Some t))                 (* TP L260 *)
      | Some TFin =>                                                                        (* TP L264-265 *)
          let s := touch s (Some t) in
          Some (w_fin (w_tk s t (if fin s =? (total + W - 1) mod W then TLast else TDone)) ((S (fin s)) mod W))
      | Some TLast => Some (complete (w_tk (touch s (Some t)) t TDone) (match exc s with Some x => CErr (Some x) | None => CVal end))   (* TP L267-278 *)
      | _ => None
      end
  end.
Fixpoint runs W l (al : list action) (s : state) : option state :=
  match al with
  | [] => Some s
  | a :: al => match step W l s a with Some s' => runs W l al s' | None => None end
  end.
Definition reachable W l n s := exists al, runs W l al (init W n) = Some s.

(** num_agents_required(), TP L206-212, for a signed Shape of [b] bits and std::uint32_t; the conversions are modulo powers of two. *)
Definition to_signed (b x : Z) : Z := ((x + 2 ^ (b - 1)) mod 2 ^ b - 2 ^ (b - 1))%Z.
Definition num_agents (b shape par : Z) : Z := (Z.min shape (to_signed b par) mod 2 ^ 32)%Z.
