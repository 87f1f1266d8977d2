(** Model of the operation behind exec::asio::completion_token, /repo/include/exec/asio/completion_token.hpp ("CT"): an Asio operation as a sender.
    The operation state has a recursive mutex, a list of frames (the calls that hold the mutex and will complete the operation if the handler is abandoned),
    a pending exception and a stop callback that emits Asio's cancellation signal.

    Any number of threads, each with a stack of calls into the operation state; one step per lock, unlock, access of the stop callback and completion.
    What is accessed only with the mutex held is combined with that step.  The receiver destroys the operation state as soon as it is completed.
    The environment (Asio, the initiation, the functions it runs) may: run functions through the associated executor on any thread, as long as the
    handler exists or the thread is inside such a call already; invoke the handler, or destroy it, once (it is movable only), on any thread and
    from any place that runs user code; throw from the initiation or from a function run by the executor; stop may be requested once, at any time.
    Simplified: the executor of Asio (CT L527-570) is the environment; a value that cannot be converted (CT L336-339) is not modelled; registering
    the stop callback does not throw. *)
From Coq Require Import List Bool Arith.
From Verif Require Import Conc.
Import ListNotations.
Set Implicit Arguments.

(** A call into the operation state: start(), CT L380-411; run_(), L249-266; ~completion_handler, L300-310; the handler's operator(), L313-344;
    on_stop_request_, L270-274. *)
Inductive kind := KStart | KRun | KDtor | KInv | KStop.
(** PLock: about to lock the mutex; PBody: in user code (the initiation, the function, emit()); PEmp: L406; PEng: registered, in emplace(), L408; PEnd: in ~frame_(), L204; PReset: L215, L324;
    PCompl: about to complete the receiver. *)
Inductive pc := PLock | PBody | PEmp | PEng | PEnd | PReset | PCompl.
(** [own]: its lock object l_ or l owns the mutex *)
Record rec := mkr { kd : kind; at_ : pc; own : bool }.
Definition is_frame (k : kind) := match k with KStart | KRun | KDtor => true | _ => false end.

Inductive compl := CVal | CErr | CStp.
(** The stop callback: none, registered, running on a thread, has run *)
Inductive cbst := CbNo | CbReg | CbRun (t : nat) | CbDone.
(** What can be observed, newest first. [ECons inv emitting overlap]: the handler is invoked (inv) or destroyed, by a thread that is emitting the
    cancellation signal for this operation (emitting), while another thread waits to run a function through the executor (overlap);
    [EThrow]: the initiation or a function throws; [EEmit]: the cancellation signal is emitted; [ECompl]: the receiver is completed; [EBad]: the operation state is used after that. *)
Inductive event := ECons (inv emitting overlap : bool) | EThrow | EEmit | ECompl (c : compl) | EBad.

Record state := mks {
  stk : nat -> list rec;           (* innermost call first *)
  mtx : option (nat * nat);        (* m_: owner and depth *)
  frs : list nat;                  (* frames_: the positions in the owner's stack *)
  hav : bool;                      (* the handler exists *)
  aband : bool; ex : bool;         (* abandoned_, ex_ *)
  eng : bool; cb : cbst;           (* callback_: the optional's flag; the callback *)
  stopq : bool; dead : bool; started : bool;
  wr : list nat;                   (* the threads that wait in run_() (not in the program) *)
  log : list event }.
Definition init := mks (fun _ => []) None [] false false false false CbNo false false false [] [].

Definition w_stk s t v := mks (fset (stk s) t v) (mtx s) (frs s) (hav s) (aband s) (ex s) (eng s) (cb s) (stopq s) (dead s) (started s) (wr s) (log s).
Definition w_mtx s v f := mks (stk s) v f (hav s) (aband s) (ex s) (eng s) (cb s) (stopq s) (dead s) (started s) (wr s) (log s).
Definition w_hav s v := mks (stk s) (mtx s) (frs s) v (aband s) (ex s) (eng s) (cb s) (stopq s) (dead s) (started s) (wr s) (log s).
Definition w_aband s := mks (stk s) (mtx s) (frs s) (hav s) true (ex s) (eng s) (cb s) (stopq s) (dead s) (started s) (wr s) (log s).
Definition w_ex s := mks (stk s) (mtx s) (frs s) (hav s) (aband s) true (eng s) (cb s) (stopq s) (dead s) (started s) (wr s) (log s).
Definition w_cb s e v := mks (stk s) (mtx s) (frs s) (hav s) (aband s) (ex s) e v (stopq s) (dead s) (started s) (wr s) (log s).
Definition w_stopq s := mks (stk s) (mtx s) (frs s) (hav s) (aband s) (ex s) (eng s) (cb s) true (dead s) (started s) (wr s) (log s).
Definition w_dead s := mks (stk s) (mtx s) (frs s) (hav s) (aband s) (ex s) (eng s) (cb s) (stopq s) true (started s) (wr s) (log s).
Definition w_started s := mks (stk s) (mtx s) (frs s) (hav s) (aband s) (ex s) (eng s) (cb s) (stopq s) (dead s) true (wr s) (log s).
Definition w_wr s v := mks (stk s) (mtx s) (frs s) (hav s) (aband s) (ex s) (eng s) (cb s) (stopq s) (dead s) (started s) v (log s).
Definition emit s e := mks (stk s) (mtx s) (frs s) (hav s) (aband s) (ex s) (eng s) (cb s) (stopq s) (dead s) (started s) (wr s) (e :: log s).

(** every use of the operation state *)
Definition touch s := if dead s then emit s EBad else s.
(** the recursive mutex *)
Definition depth (m : option (nat * nat)) := match m with Some (_, n) => n | None => 0 end.
Definition lockable (m : option (nat * nat)) t := match m with Some (t', _) => t' =? t | None => true end.
Definition held t n : option (nat * nat) := match n with 0 => None | _ => Some (t, n) end.

(** user code runs: the thread is idle, or in the body of a call *)
Definition user_code (st : list rec) := match st with [] => true | r :: _ => match at_ r with PBody => true | _ => false end end.
Definition emitting (st : list rec) := existsb (fun r => match kd r with KStop => true | _ => false end) st.
(** the thread is inside a frame *)
Definition in_frame s t := match mtx s, frs s with Some (t', _), _ :: _ => t' =? t | _, _ => false end.
(** frame_::release(), CT L233-246: the frames in the list give up the mutex; a frame is known by its position from the bottom of the stack *)
Fixpoint release (f : list nat) (st : list rec) : list rec :=
  match st with
  | [] => []
  | r :: st => (if existsb (Nat.eqb (length st)) f then mkr (kd r) (at_ r) false else r) :: release f st
  end.

Inductive action :=
| AStart (t : nat)                 (* start() *)
| ARun (t : nat)                   (* the executor runs a function, or is asked to, CT L527-570 *)
| ACons (t : nat) (inv : bool)     (* the handler is invoked, or destroyed *)
| AThrow (t : nat)                 (* the body of the innermost call throws *)
| ARet (t : nat)                   (* it returns *)
| AStop (t : nat)                  (* stop is requested *)
| AStep (t : nat).                 (* the innermost call goes on *)

Definition set_top s t (r : rec) st := w_stk s t (r :: st).
(** the end of the body *)
Definition after k := match k with KStart => PEmp | _ => PEnd end.

Definition step (s : state) (a : action) : option state :=
  match a with
  | AStart t => if started s then None else match stk s t with [] => Some (w_started (w_stk s t [mkr KStart PLock false])) | _ => None end
  | ARun t => if user_code (stk s t) && (hav s || in_frame s t) then Some (w_wr (w_stk s t (mkr KRun PLock false :: stk s t)) (t :: wr s)) else None
  | ACons t i =>
      if user_code (stk s t) && hav s then
        Some (emit (w_hav (w_stk s t (mkr (if i then KInv else KDtor) PLock false :: stk s t)) false)
                   (ECons i (emitting (stk s t)) (match wr s with [] => false | _ => true end)))
      else None
  | AThrow t =>
      match stk s t with
      | mkr KStart PBody o :: st => Some (w_ex (touch (emit (set_top s t (mkr KStart PEmp o) st) EThrow)))    (* L396-399 *)
      | mkr KRun PBody o :: st => Some (w_ex (touch (emit (set_top s t (mkr KRun PEnd o) st) EThrow)))        (* L261-264 *)
      | _ => None
      end
  | ARet t =>
      match stk s t with
      | mkr KStart PBody o :: st => Some (set_top s t (mkr KStart PEmp o) st)
      | mkr KRun PBody o :: st => Some (set_top s t (mkr KRun PEnd o) st)
      | mkr KStop PBody o :: st => Some (w_cb (w_mtx (w_stk (touch s) t st) (held t (depth (mtx s) - 1)) (frs s)) (eng s) CbDone)   (* ~lock_guard, L272 *)
      | _ => None
      end
  | AStop t =>
      if user_code (stk s t) && negb (stopq s) then
        Some (match cb s with
              | CbReg => w_cb (w_stk (w_stopq s) t (mkr KStop PLock false :: stk s t)) (eng s) (CbRun t)
              | _ => w_stopq s
              end)
      else None
  | AStep t =>
      match stk s t with
      | [] => None
      | mkr k p o :: st =>
          match p with
          | PLock =>
              if lockable (mtx s) t then
                let s := touch s in
                let lk := w_mtx s (held t (S (depth (mtx s)))) in
                match k with
                | KStart => Some (w_hav (set_top (lk (length st :: frs s)) t (mkr k PBody true) st) true)                               (* L196-199, L389 *)
                | KRun => Some (w_wr (set_top (lk (length st :: frs s)) t (mkr k PBody true) st) (remove Nat.eq_dec t (wr s)))
                | KDtor => Some (w_aband (set_top (lk (length st :: frs s)) t (mkr k PEnd true) st))                                    (* L307-309 *)
                | KInv => Some (set_top (w_mtx s (held t (depth (mtx s) - length (frs s))) []) t (mkr k PReset false) (release (frs s) st))   (* L317-323 *)
                | KStop => Some (emit (set_top (lk (frs s)) t (mkr k PBody true) st) EEmit)                                             (* L272-273 *)
                end
              else None
          | PBody => None
          | PEmp =>
              if o then
                let s := touch s in
                if stopq s then Some (w_cb (w_stk s t (mkr KStop PLock false :: mkr k PEng o :: st)) (eng s) (CbRun t))                (* the callback runs inline *)
                else Some (w_cb (set_top s t (mkr k PEng o) st) (eng s) CbReg)
              else Some (set_top s t (mkr k PEnd o) st)
          | PEng => Some (w_cb (set_top (touch s) t (mkr k PEnd o) st) true (cb s))
          | PEnd =>
              if o then
                let s := w_mtx (touch s) (held t (depth (mtx s) - 1)) (tl (frs s)) in
                match frs s with
                | [] => if aband s then Some (set_top s t (mkr k PReset false) st) else Some (w_stk s t st)                            (* L210-214 *)
                | _ => Some (w_stk s t st)
                end
              else Some (w_stk s t st)
          | PReset =>
              let s := set_top (touch s) t (mkr k PCompl o) st in
              if eng s then
                match cb s with
                | CbRun t' => if t' =? t then Some (w_cb s false (cb s)) else None     (* waits for the callback, unless it runs on this thread *)
                | CbReg => Some (w_cb s false CbNo)
                | c => Some (w_cb s false c)
                end
              else Some s
          | PCompl =>
              Some (w_dead (emit (w_stk (touch s) t st) (ECompl (if ex s then CErr else match k with KInv => CVal | _ => CStp end))))
          end
      end
  end.
Fixpoint runs (l : list action) (s : state) : option state :=
  match l with
  | [] => Some s
  | a :: l => match step s a with Some s' => runs l s' | None => None end
  end.
Definition reachable s := exists l, runs l init = Some s.
