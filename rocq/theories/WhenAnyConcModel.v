(** * WhenAnyConcModel: exec::when_any's atomic protocol under real concurrency
    (include/exec/when_any.hpp L76-237).

    As in WhenAllConcModel: every atomic operation is one step of one of the agents (the starting thread,
    one agent per child, the parent's stop callback); sequentially consistent interleavings; the stop
    callback object is modelled by its contract. *)
From Coq Require Import List Arith Bool ZArith.
From Verif Require Import Conc.
Import ListNotations.
Local Open Scope Z_scope.

Definition tid := nat.

(** what a child reports; [RThrow e]: a completion whose copy into the result storage throws e (L138-142) *)
Inductive res := RVal (v : nat) | RErr (e : nat) | RStop | RThrow (e : nat).
(** L128-143: what is stored in __result_ *)
Definition stored (r : res) : res := match r with RThrow e => RErr e | _ => r end.

Inductive cpc :=
| CNot | CRun
| CX (t : tid) (r : res)   (* L122: CAS on __emplaced_ *)
| CE (t : tid) (r : res)   (* L128-143: store the result *)
| CQ (t : tid)             (* L145: request_stop *)
| CArr (t : tid)           (* L154: fetch_sub *)
| CK0 (t : tid)            (* L156: destroy the stop callback *)
| CK1 (t : tid)            (* L157-163: complete *)
| CDone.
Inductive fpc :=
| FNot
| F0 (t : tid)             (* L92: fetch_add *)
| FQ (t : tid)             (* L94: request_stop *)
| FArr (t : tid)           (* L97, L154 *)
| FK0 (t : tid) | FK1 (t : tid) | FDone.
Inductive spc := SNot | SWait | SChk | SRun (i : nat) | SDone
| SStopped.                (* L231: completed with set_stopped, no child was started *)

Inductive event :=
| EReqParent               (* the parent requests stop *)
| ERes (i : nat) (r : res) (* child i completes with r (at its first atomic operation, L122) *)
| EStopChildren            (* stop is requested on the children's source *)
| ELate                    (* the stop callback increments a count that is already zero *)
| EOut (o : option res).   (* the receiver is completed with the content of __result_ *)

Record state := {
  count : Z;               (* __count_ *)
  emplaced : bool;         (* __emplaced_ *)
  result : option res;     (* __result_ *)
  inner : bool;            (* __stop_source_.stop_requested() *)
  parent : bool;           (* the receiver's token: stop_requested() *)
  reg : bool;              (* the callback is registered with the parent's source *)
  fp : fpc;
  sp : spc;
  chl : list cpc;
  log : list event }.      (* ghost, newest first *)

Definition w_count s v := {| count := v; emplaced := emplaced s; result := result s; inner := inner s; parent := parent s; reg := reg s; fp := fp s; sp := sp s; chl := chl s; log := log s |}.
Definition w_emplaced s v := {| count := count s; emplaced := v; result := result s; inner := inner s; parent := parent s; reg := reg s; fp := fp s; sp := sp s; chl := chl s; log := log s |}.
Definition w_result s v := {| count := count s; emplaced := emplaced s; result := v; inner := inner s; parent := parent s; reg := reg s; fp := fp s; sp := sp s; chl := chl s; log := log s |}.
Definition w_inner s v := {| count := count s; emplaced := emplaced s; result := result s; inner := v; parent := parent s; reg := reg s; fp := fp s; sp := sp s; chl := chl s; log := log s |}.
Definition w_parent s v := {| count := count s; emplaced := emplaced s; result := result s; inner := inner s; parent := v; reg := reg s; fp := fp s; sp := sp s; chl := chl s; log := log s |}.
Definition w_reg s v := {| count := count s; emplaced := emplaced s; result := result s; inner := inner s; parent := parent s; reg := v; fp := fp s; sp := sp s; chl := chl s; log := log s |}.
Definition w_fp s v := {| count := count s; emplaced := emplaced s; result := result s; inner := inner s; parent := parent s; reg := reg s; fp := v; sp := sp s; chl := chl s; log := log s |}.
Definition w_sp s v := {| count := count s; emplaced := emplaced s; result := result s; inner := inner s; parent := parent s; reg := reg s; fp := fp s; sp := v; chl := chl s; log := log s |}.
Definition w_chl s i v := {| count := count s; emplaced := emplaced s; result := result s; inner := inner s; parent := parent s; reg := reg s; fp := fp s; sp := sp s; chl := upd (chl s) i v; log := log s |}.
Definition ev s e := {| count := count s; emplaced := emplaced s; result := result s; inner := inner s; parent := parent s; reg := reg s; fp := fp s; sp := sp s; chl := chl s; log := e :: log s |}.

Section Params.
Variable n : nat.          (* number of children; when_any() of no sender does not compile, L296 *)

(** L79-82, L219 *)
Definition init : state :=
  {| count := Z.of_nat n; emplaced := false; result := None; inner := false; parent := false; reg := false;
     fp := FNot; sp := SNot; chl := repeat CNot n; log := [] |}.

Definition cb_tid (f : fpc) : option tid :=
  match f with F0 t | FQ t | FArr t | FK0 t | FK1 t => Some t | FNot | FDone => None end.
Definition busy (f : fpc) (t : tid) : bool :=
  match f with F0 u | FArr u | FK0 u | FK1 u => Nat.eqb u t | FQ _ | FNot | FDone => false end.
Definition must_wait (f : fpc) (t : tid) : bool :=
  match cb_tid f with Some u => negb (Nat.eqb u t) | None => false end.

(** L157-163 *)
Definition outcome (s : state) : option res := if parent s then Some RStop else result s.

Inductive action :=
| AStart (t : tid) | AGoS | AParent | ATake (t : tid) | AGoF
| ARes (i : nat) (t : tid) (r : res) | AGoC (i : nat).

Definition step (a : action) (s : state) : option state :=
  match a with
  | AStart t =>
      match sp s with
      | SNot => if parent s then Some (w_fp (w_sp s SWait) (F0 t))         (* L227: already requested: runs inline *)
                else Some (w_reg (w_sp s SChk) true)                       (* L227 *)
      | _ => None
      end
  | AGoS =>
      match sp s with
      | SWait => match fp s with FDone => Some (w_sp s SChk) | _ => None end
      | SChk => if inner s then Some (ev (w_sp s SStopped) (EOut (Some RStop)))   (* L229-232 *)
                else Some (w_sp s (SRun 0))
      | SRun i => if (i <? n)%nat then Some (w_chl (w_sp s (SRun (S i))) i CRun)  (* L235 *)
                  else Some (w_sp s SDone)
      | _ => None
      end
  | AParent => if parent s then None else Some (ev (w_parent s true) EReqParent)
  | ATake t =>
      if parent s && reg s then
        match fp s with FNot => Some (w_reg (w_fp s (F0 t)) false) | _ => None end
      else None
  | AGoF =>
      match fp s with
      | F0 t => let s1 := w_fp (w_count s (count s + 1)) (FQ t) in
                Some (if count s =? 0 then ev s1 ELate else s1)            (* L92 *)
      | FQ t => Some (ev (w_inner (w_fp s (FArr t)) true) EStopChildren)   (* L94 *)
      | FArr t => Some (w_fp (w_count s (count s - 1)) (if count s =? 1 then FK0 t else FDone))  (* L154 *)
      | FK0 t => Some (w_fp (w_reg s false) (FK1 t))                       (* L156 *)
      | FK1 t => Some (ev (w_fp s FDone) (EOut (outcome s)))               (* L157-163 *)
      | FNot | FDone => None
      end
  | ARes i t r =>
      match nth_error (chl s) i with
      | Some CRun => if busy (fp s) t then None else Some (w_chl s i (CX t r))    (* L184-199 *)
      | _ => None
      end
  | AGoC i =>
      match nth_error (chl s) i with
      | Some (CX t r) => if busy (fp s) t then None else
          Some (ev (w_chl (w_emplaced s true) i (if emplaced s then CArr t else CE t r)) (ERes i r))  (* L122 *)
      | Some (CE t r) => if busy (fp s) t then None else
          Some (w_chl (w_result s (Some (stored r))) i (CQ t))             (* L128-143 *)
      | Some (CQ t) => if busy (fp s) t then None else
          Some (ev (w_chl (w_inner s true) i (CArr t)) EStopChildren)      (* L145 *)
      | Some (CArr t) => if busy (fp s) t then None else
          Some (w_chl (w_count s (count s - 1)) i (if count s =? 1 then CK0 t else CDone))  (* L154 *)
      | Some (CK0 t) => if busy (fp s) t || must_wait (fp s) t then None else
          Some (w_chl (w_reg s false) i (CK1 t))                           (* L156 *)
      | Some (CK1 t) => if busy (fp s) t then None else
          Some (ev (w_chl s i CDone) (EOut (outcome s)))                   (* L157-163 *)
      | _ => None
      end
  end.

Inductive reachable : state -> Prop :=
| r_init : (0 < n)%nat -> reachable init
| r_step s a s' : reachable s -> step a s = Some s' -> reachable s'.

End Params.
