(** * WhenAllConcModel: when_all's atomic protocol under real concurrency
    (include/stdexec/__detail/__when_all.hpp L562-663 and L788-884).

    Every atomic operation of the code is one step.  The agents are
    - the thread that calls start() (L788-798): registers the stop callback, then starts the children;
    - one agent per child: its completion (L836-884), on any thread, at any time after its start;
    - the parent's stop callback (L562-588), run by the thread that requests stop, or inline in the
      constructor of the callback if stop was requested before;
    - the parent, which may request stop at any time.

    Simplifications: sequentially consistent interleavings (memory orders are not modelled); the values
    and errors are numbers; `__stop_source_.request_stop()` is one step of this model, and children that
    complete inside it are steps of other agents between the step before and the step after it.  The stop
    callback object of the parent's token is modelled by its contract, which is proved of
    inplace_stop_callback in StopProperties: the callback runs at most once; destroying it unregisters
    it, waiting for a callback running on another thread (not on the same thread). *)
From Coq Require Import List Arith Bool ZArith.
From Verif Require Import Conc.
Import ListNotations.
Local Open Scope Z_scope.

Definition tid := nat.

(** what a child reports to its receiver; [RThrow]: set_value whose decay-copy throws (L876-879) *)
Inductive res := RVal (v : nat) | RThrow (e : nat) | RErr (e : nat) | RStop.
(** what when_all reports to its receiver *)
Inductive out := DVal (vs : list (option nat)) | DErr (e : option nat) | DStop.
(** __state_t *)
Inductive st := Started | Error | Stopped.

Inductive cpc :=
| CNot                     (* not started *)
| CRun                     (* started, running *)
| CX (t : tid) (e : nat)   (* L806: exchange(__error) *)
| CS (t : tid)             (* L854: CAS started -> stopped *)
| CQ (t : tid) (oe : option nat)  (* L811, L856: request_stop on the children *)
| CE (t : tid) (e : nat)   (* L818-828: store the error *)
| CArr (t : tid)           (* L606: fetch_sub *)
| CK0 (t : tid)            (* L617: destroy the stop callback *)
| CK1 (t : tid)            (* L620-648: complete the receiver *)
| CDone.

Inductive fpc :=
| FNot                     (* not run *)
| F0 (t : tid)             (* L569: fetch_add *)
| F1 (t : tid)             (* L575: CAS started -> stopped *)
| FQ (t : tid)             (* L579: request_stop *)
| FArr (t : tid)           (* L606: fetch_sub *)
| FK0 (t : tid)            (* L617 *)
| FK1 (t : tid)            (* L620-648 *)
| FDone.

Inductive spc := SNot | SWait | SRun (i : nat) | SDone.

Inductive event :=
| EReqParent               (* the parent requests stop *)
| ERes (i : nat) (r : res) (* child i completes with r *)
| EStopChildren            (* stop is requested on the children's source *)
| ELate                    (* the stop callback increments a count that is already zero *)
| EOut (o : out).          (* the receiver is completed *)

Record state := {
  count : Z;               (* __count_ *)
  sta : st;                (* __state_ *)
  errs : option nat;       (* __errors_ *)
  vals : nat -> option nat;(* __values_ *)
  parent : bool;           (* the parent's stop_requested() *)
  reg : bool;              (* the callback is registered with the parent's source *)
  fp : fpc;
  sp : spc;
  chl : list cpc;
  log : list event }.      (* ghost, newest first *)

Definition w_count s v := {| count := v; sta := sta s; errs := errs s; vals := vals s; parent := parent s; reg := reg s; fp := fp s; sp := sp s; chl := chl s; log := log s |}.
Definition w_sta s v := {| count := count s; sta := v; errs := errs s; vals := vals s; parent := parent s; reg := reg s; fp := fp s; sp := sp s; chl := chl s; log := log s |}.
Definition w_errs s v := {| count := count s; sta := sta s; errs := v; vals := vals s; parent := parent s; reg := reg s; fp := fp s; sp := sp s; chl := chl s; log := log s |}.
Definition w_vals s i v := {| count := count s; sta := sta s; errs := errs s; vals := fset (vals s) i v; parent := parent s; reg := reg s; fp := fp s; sp := sp s; chl := chl s; log := log s |}.
Definition w_parent s v := {| count := count s; sta := sta s; errs := errs s; vals := vals s; parent := v; reg := reg s; fp := fp s; sp := sp s; chl := chl s; log := log s |}.
Definition w_reg s v := {| count := count s; sta := sta s; errs := errs s; vals := vals s; parent := parent s; reg := v; fp := fp s; sp := sp s; chl := chl s; log := log s |}.
Definition w_fp s v := {| count := count s; sta := sta s; errs := errs s; vals := vals s; parent := parent s; reg := reg s; fp := v; sp := sp s; chl := chl s; log := log s |}.
Definition w_sp s v := {| count := count s; sta := sta s; errs := errs s; vals := vals s; parent := parent s; reg := reg s; fp := fp s; sp := v; chl := chl s; log := log s |}.
Definition w_chl s i v := {| count := count s; sta := sta s; errs := errs s; vals := vals s; parent := parent s; reg := reg s; fp := fp s; sp := sp s; chl := upd (chl s) i v; log := log s |}.
Definition ev s e := {| count := count s; sta := sta s; errs := errs s; vals := vals s; parent := parent s; reg := reg s; fp := fp s; sp := sp s; chl := chl s; log := e :: log s |}.

Section Params.
Variable n : nat.                 (* number of children; 0 < n *)
Variable uses sends_stopped : bool.  (* __uses_stop_source L459 and _SendsStopped L726: fixed by the children's types *)

(** L728: the count starts at the number of children *)
Definition init : state :=
  {| count := Z.of_nat n; sta := Started; errs := None; vals := fun _ => None; parent := false; reg := false;
     fp := FNot; sp := SNot; chl := repeat CNot n; log := [] |}.

(** the thread running the stop callback, if it is inside it *)
Definition cb_tid (f : fpc) : option tid :=
  match f with F0 t | F1 t | FQ t | FArr t | FK0 t | FK1 t => Some t | FNot | FDone => None end.
(** thread t is executing the callback's own code (not nested code called by request_stop) *)
Definition busy (f : fpc) (t : tid) : bool :=
  match f with F0 u | F1 u | FArr u | FK0 u | FK1 u => Nat.eqb u t | FQ _ | FNot | FDone => false end.
(** destroying the callback object from thread t has to wait *)
Definition must_wait (f : fpc) (t : tid) : bool :=
  match cb_tid f with Some u => negb (Nat.eqb u t) | None => false end.

(** L620-648: the completion chosen by __complete *)
Definition outcome (s : state) : out :=
  match sta s with
  | Stopped => if sends_stopped then DStop else DVal (map (vals s) (seq 0 n))
  | Started => DVal (map (vals s) (seq 0 n))
  | Error => DErr (errs s)
  end.

(** which completions a child's type allows: a child that may fail or stop makes __uses_stop_source true
    (L452-459), one that may stop makes _SendsStopped true (L726) *)
Definition allowed (r : res) : bool :=
  match r with RVal _ => true | RThrow _ | RErr _ => uses | RStop => uses && sends_stopped end.

Inductive action :=
| AStart (t : tid)                    (* start() on thread t *)
| AGoS                                (* the starting thread goes on *)
| AParent                             (* the parent requests stop *)
| ATake (t : tid)                     (* the requesting thread t begins to run the callback *)
| AGoF                                (* the callback goes on *)
| ARes (i : nat) (t : tid) (r : res)  (* child i completes on thread t with r *)
| AGoC (i : nat).                     (* child i's completion goes on *)

Definition step (a : action) (s : state) : option state :=
  match a with
  | AStart t =>
      match sp s with
      | SNot => if uses then
                  if parent s then Some (w_fp (w_sp s SWait) (F0 t))       (* L794: already requested: runs inline *)
                  else Some (w_reg (w_sp s (SRun 0)) true)                 (* L794 *)
                else Some (w_sp s (SRun 0))                                (* L792 *)
      | _ => None
      end
  | AGoS =>
      match sp s with
      | SWait => match fp s with FDone => Some (w_sp s (SRun 0)) | _ => None end
      | SRun i => if (i <? n)%nat then Some (w_chl (w_sp s (SRun (S i))) i CRun)  (* L797 *)
                  else Some (w_sp s SDone)
      | _ => None
      end
  | AParent => if parent s then None else Some (ev (w_parent s true) EReqParent)
  | ATake t =>
      if parent s && reg s then
        match fp s with FNot => Some (w_reg (w_fp s (F0 t)) false) | _ => None end
      else None
  | AGoF =>
      match fp s with
      | F0 t => let s1 := w_fp (w_count s (count s + 1)) (F1 t) in
                Some (if count s =? 0 then ev s1 ELate else s1)            (* L569 *)
      | F1 t => match sta s with
                | Started => Some (w_fp (w_sta s Stopped) (FQ t))          (* L575 *)
                | _ => Some (w_fp s (FArr t))
                end
      | FQ t => Some (ev (w_fp s (FArr t)) EStopChildren)                  (* L579 *)
      | FArr t => Some (w_fp (w_count s (count s - 1)) (if count s =? 1 then FK0 t else FDone))  (* L606 *)
      | FK0 t => Some (w_fp (w_reg s false) (FK1 t))                       (* L617, on the callback's own thread *)
      | FK1 t => Some (ev (w_fp s FDone) (EOut (outcome s)))               (* L620-648 *)
      | FNot | FDone => None
      end
  | ARes i t r =>
      match nth_error (chl s) i with
      | Some CRun =>
          if allowed r && negb (busy (fp s) t) then
            match r with
            | RVal v => Some (ev (w_chl (w_vals s i (Some v)) i (CArr t)) (ERes i r))    (* L868 *)
            | RThrow e | RErr e => Some (ev (w_chl s i (CX t e)) (ERes i r))             (* L845, L878 *)
            | RStop => Some (ev (w_chl s i (CS t)) (ERes i r))                           (* L847 *)
            end
          else None
      | _ => None
      end
  | AGoC i =>
      match nth_error (chl s) i with
      | Some (CX t e) => if busy (fp s) t then None else
          Some (w_chl (w_sta s Error) i
                  (match sta s with Started => CQ t (Some e) | Stopped => CE t e | Error => CArr t end))  (* L806-832 *)
      | Some (CS t) => if busy (fp s) t then None else
          match sta s with
          | Started => Some (w_chl (w_sta s Stopped) i (CQ t None))        (* L854 *)
          | _ => Some (w_chl s i (CArr t))
          end
      | Some (CQ t oe) => if busy (fp s) t then None else
          Some (ev (w_chl s i (match oe with Some e => CE t e | None => CArr t end)) EStopChildren)  (* L811, L856 *)
      | Some (CE t e) => if busy (fp s) t then None else
          Some (w_chl (w_errs s (Some e)) i (CArr t))                      (* L818-828 *)
      | Some (CArr t) => if busy (fp s) t then None else
          Some (w_chl (w_count s (count s - 1)) i (if count s =? 1 then CK0 t else CDone))  (* L606 *)
      | Some (CK0 t) => if busy (fp s) t || (uses && must_wait (fp s) t) then None else
          Some (w_chl (if uses then w_reg s false else s) i (CK1 t))       (* L615-618 *)
      | Some (CK1 t) => if busy (fp s) t then None else
          Some (ev (w_chl s i CDone) (EOut (outcome s)))                   (* L620-648 *)
      | _ => None
      end
  end.

Inductive reachable : state -> Prop :=
| r_init : (0 < n)%nat -> (sends_stopped = true -> uses = true) -> reachable init
| r_step s a s' : reachable s -> step a s = Some s' -> reachable s'.

End Params.
