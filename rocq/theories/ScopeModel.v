(** * ScopeModel: simple_counting_scope / counting_scope, the packed (count, state) word and the list
    of registered join operations.

    Models include/stdexec/__detail/__counting_scopes.hpp L60-205 (join operation) and L261-719
    (__base_scope) with one transition per atomic access, for any number of threads each executing
    any sequence of try_associate / disassociate / close / start of a join-sender.  A violated
    STDEXEC_ASSERT makes the step undefined (None), so "never stuck" theorems cover the assertions.

    Simplifications: sequential consistency; "the join operation completes" is one event, whether
    inline (set_value, L193-196) or by starting the schedule operation (L166-172), whose own
    completion belongs to the scheduler; the union of __scope_ and __next_ (L65-74) is one field per
    join operation because __scope_ is not read after registration began.  Once an operation has
    completed its memory may hold anything (the argument of AGo). *)

From Coq Require Import List Arith Bool NArith.
From Verif Require Import Conc QueueModel.
Import ListNotations.
Set Implicit Arguments.

Definition tid := nat.

(** L538-540 *)
Definition c_closed : N := 1.
Definition c_join_needed : N := 2.
Definition c_join_running : N := 4.
(** L269-270: std::numeric_limits<std::size_t>::max() >> 3, for a 64-bit size_t *)
Definition max_associations : N := N.shiftr (2 ^ 64 - 1) 3.
(** L569-572 *)
Definition is_unused (b : N) : bool := (N.land b c_join_needed =? 0)%N.
(** L575-578 *)
Definition is_open (b : N) : bool := (N.land b c_closed =? 0)%N.
(** L582-585 *)
Definition is_closed (b : N) : bool := negb (is_open b).
(** L591-594 *)
Definition is_joined (b : N) : bool := (b =? c_closed)%N.
(** L597-600 *)
Definition is_joining (b : N) : bool := negb (N.land b c_join_running =? 0)%N.
(** L604-607 *)
Definition is_join_needed (b : N) : bool := negb (is_unused b).
(** L610-616: (bits & ~closed) == 0 *)
Definition destructible (b : N) : bool := (N.ldiff b c_closed =? 0)%N.
(** L620-623 *)
Definition count (b : N) : N := N.shiftr b 3.
(** L627-630 *)
Definition state_of (b : N) : N := N.land b 7.
(** L634-644 *)
Definition make_bits (c s : N) : N := N.lor (N.shiftl c 3) (state_of s).

(** the contents of __registered_join_ops_ (L564): the scope's own address, or a possibly-null
    pointer to a join operation *)
Inductive regs := RThis | RPtr (p : ptr).
Definition regs_eqb (a b : regs) : bool :=
  match a, b with RThis, RThis => true | RPtr p, RPtr q => ptr_eqb p q | _, _ => false end.

Inductive pc :=
| Idle
| TACas (old : N)              (* __try_associate: loop L352-388 *)
| DACas (old : N)              (* __disassociate: loop L438-452 *)
| DAExch                       (* L697 *)
| DARun (ops : ptr)            (* loop L709-717 *)
| JCas (j : nat) (old : N)     (* __start_join_sender: loop L473-534 *)
| JLoad (j : nat)              (* __register: L652 *)
| JReg (j : nat) (head : regs).  (* __register: loop L654-680 *)

Inductive event :=
| ETry (t : tid)               (* try_associate called (bits loaded) *)
| EAssoc (t : tid)             (* ... succeeds *)
| EFail (t : tid)              (* ... fails *)
| ERel (t : tid)               (* an association object is given up: disassociate called *)
| EDis (t : tid)               (* the count is decremented *)
| EClose (t : tid)
| EJoin (t : tid) (j : nat)    (* the join operation j is started *)
| EJoining (t : tid) (j : nat) (* ... takes effect on the state *)
| EDone (t : tid) (j : nat).   (* the join operation j completes *)

Record state := {
  bits : N;                    (* L554 *)
  reg : regs;                  (* L564 *)
  next : nat -> ptr;           (* L73, per join operation *)
  held : nat;                  (* ghost: engaged association objects held by users *)
  njoin : nat;                 (* ghost: number of join operations started *)
  thr : list pc;
  log : list event }.          (* ghost, newest first *)

Definition init (k : nat) (nx : nat -> ptr) : state :=
  {| bits := 0; reg := RPtr None; next := nx; held := 0; njoin := 0; thr := repeat Idle k; log := [] |}.

Definition w_bits s v := {| bits := v; reg := reg s; next := next s; held := held s; njoin := njoin s; thr := thr s; log := log s |}.
Definition w_reg s v := {| bits := bits s; reg := v; next := next s; held := held s; njoin := njoin s; thr := thr s; log := log s |}.
Definition w_next s x v := {| bits := bits s; reg := reg s; next := fset (next s) x v; held := held s; njoin := njoin s; thr := thr s; log := log s |}.
Definition w_held s v := {| bits := bits s; reg := reg s; next := next s; held := v; njoin := njoin s; thr := thr s; log := log s |}.
Definition w_njoin s v := {| bits := bits s; reg := reg s; next := next s; held := held s; njoin := v; thr := thr s; log := log s |}.
Definition w_thr s t p := {| bits := bits s; reg := reg s; next := next s; held := held s; njoin := njoin s; thr := upd (thr s) t p; log := log s |}.
Definition w_log s e := {| bits := bits s; reg := reg s; next := next s; held := held s; njoin := njoin s; thr := thr s; log := e :: log s |}.

Inductive action :=
| ATry                         (* call try_associate *)
| ADis                         (* destroy an engaged association *)
| AClose                       (* call close *)
| AJoin                        (* start a new join operation *)
| AGo (junk : ptr)             (* next instruction of the call in progress *)
| ASpur.                       (* next instruction, a compare_exchange_weak failing spuriously *)

(** L352-388, one iteration *)
Definition ta_new (old : N) : N := make_bits (count old + 1) (N.lor (state_of old) c_join_needed).   (* L327-345 *)
Definition step_ta (t : tid) (old : N) (spur : bool) (s : state) : option state :=
  if is_closed old || (count old =? max_associations)%N then             (* L363-368 *)
    if spur then None else Some (w_log (w_thr s t Idle) (EFail t))
  else if (max_associations <=? count old)%N then None                   (* L333 assert *)
  else if negb spur && (bits s =? old)%N then
    Some (w_log (w_held (w_thr (w_bits s (ta_new old)) t Idle) (held s + 1)) (EAssoc t))   (* L390 *)
  else Some (w_thr s t (TACas (bits s))).                                (* failure reloads *)

(** L409-427 *)
Definition da_new (old : N) : N :=
  let new_count := (count old - 1)%N in
  let new_state := if (new_count =? 0)%N && is_joining old then c_closed else state_of old in
  make_bits new_count new_state.
(** L438-464, one iteration *)
Definition step_da (t : tid) (old : N) (spur : bool) (s : state) : option state :=
  if (count old =? 0)%N then None                                        (* L436, L424 asserts *)
  else if negb spur && (bits s =? old)%N then
    let new := da_new old in
    if is_joined new then Some (w_log (w_thr (w_bits s new) t DAExch) (EDis t))   (* L454-459 *)
    else if negb (negb (is_joining new) || (0 <? count new)%N) then None  (* L462 assert *)
    else Some (w_log (w_thr (w_bits s new) t Idle) (EDis t))
  else Some (w_thr s t (DACas (bits s))).

(** L473-534, one iteration *)
Definition step_jn (t : tid) (j : nat) (old : N) (spur : bool) (s : state) : option state :=
  if (count old =? 0)%N then                                             (* L481 *)
    let new := make_bits (count old) c_closed in                         (* L483 *)
    if negb (is_joined new) then None else                               (* L485 assert *)
    if negb spur && (bits s =? old)%N then
      Some (w_log (w_log (w_thr (w_bits s new) t Idle) (EJoining t j)) (EDone t j))   (* L500, L209-212 *)
    else Some (w_thr s t (JCas j (bits s)))
  else
    if negb (is_join_needed old) then None else                          (* L509 assert *)
    let new := N.lor old c_join_running in                               (* L512 *)
    if negb (is_joining new) then None else                              (* L514 assert *)
    if negb spur && (bits s =? old)%N then
      Some (w_log (w_thr (w_bits s new) t (JLoad j)) (EJoining t j))     (* L530 *)
    else Some (w_thr s t (JCas j (bits s))).

Definition step (t : tid) (a : action) (s : state) : option state :=
  do p <- nth_error (thr s) t;
  match a, p with
  | ATry, Idle => Some (w_log (w_thr s t (TACas (bits s))) (ETry t))     (* L350 *)
  | ADis, Idle =>
      match held s with
      | 0 => None                                                        (* only an owner calls it *)
      | S h => Some (w_log (w_held (w_thr s t (DACas (bits s))) h) (ERel t))   (* L431 *)
      end
  | AClose, Idle => Some (w_log (w_bits s (N.lor (bits s) c_closed)) (EClose t))   (* L322 *)
  | AJoin, Idle =>
      Some (w_log (w_njoin (w_thr s t (JCas (njoin s) (bits s))) (S (njoin s))) (EJoin t (njoin s)))   (* L471 *)
  | AGo _, TACas old => step_ta t old false s
  | ASpur, TACas old => step_ta t old true s
  | AGo _, DACas old => step_da t old false s
  | ASpur, DACas old => step_da t old true s
  | AGo _, DAExch =>
      match reg s with                                                   (* L697 *)
      | RThis => None                                                    (* L702 assert *)
      | RPtr p => Some (w_thr (w_reg s RThis) t (DARun p))
      end
  | AGo _, DARun None => Some (w_thr s t Idle)
  | AGo junk, DARun (Some j) =>                                          (* L715-716 *)
      Some (w_log (w_next (w_thr s t (DARun (next s j))) j junk) (EDone t j))
  | AGo _, JCas j old => step_jn t j old false s
  | ASpur, JCas j old => step_jn t j old true s
  | AGo _, JLoad j => Some (w_thr s t (JReg j (reg s)))                  (* L652 *)
  | AGo junk, JReg j RThis => Some (w_log (w_next (w_thr s t Idle) j junk) (EDone t j))   (* L656-660, L530 *)
  | AGo _, JReg j (RPtr h) =>
      let s := w_next s j h in                                           (* L665 *)
      if regs_eqb (reg s) (RPtr h) then Some (w_thr (w_reg s (RPtr (Some j))) t Idle)   (* L669 *)
      else Some (w_thr s t (JReg j (reg s)))
  | ASpur, JReg j (RPtr h) => Some (w_thr (w_next s j h) t (JReg j (reg s)))
  | _, _ => None
  end.

Inductive reachable : state -> Prop :=
| r_init k nx : reachable (init k nx)
| r_step s t a s' : reachable s -> step t a s = Some s' -> reachable s'.

(** ~__base_scope L280-303: true = std::terminate *)
Definition destroy_terminates (s : state) : bool := negb (destructible (bits s)).
