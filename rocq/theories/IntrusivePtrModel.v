(** * IntrusivePtrModel: __intrusive_ptr (include/stdexec/__detail/__intrusive_ptr.hpp L49-400).
    Any number of control blocks, pointer variables and threads.  A pointer variable is a slot
    (null, or the number of a control block; a variable that is not alive is null).  The accesses of
    one operation to its own pointer variables are one step (different threads using the same
    variable without synchronisation is a data race); every access to a reference count is a step of
    its own, and so is the deletion that follows the fetch_sub.
    [man] counts the references a client holds without a pointer variable: those made by
    __inc_ref() or __release_() and not given back with __dec_ref().
    Simplifications: the value's own state is not represented; the reference count does not wrap
    around (2^64 / 2^ReservedBits references at one time); sequentially consistent atomics. *)

From Coq Require Import List Arith Bool NArith.
From Verif Require Import Conc.
Import ListNotations.
Set Implicit Arguments.

Definition tid := nat.
Definition obj := nat.

Record block := {
  bits : N;               (* __ref_count_ *)
  alive : bool;           (* not deleted *)
  man : nat }.

Inductive pc := Idle | Dec (o : obj) | Del (o : obj).   (* about to fetch_sub L139; to delete L142 *)

Inductive event :=
| ENew (o : obj)
| EDelete (o : obj)                       (* the control block and the value are destroyed *)
| EAccess (o : obj) (ok : bool)           (* an access to the control block; ok: it existed *)
| ESet (o : obj) (b : N) | EClear (o : obj) (b : N)
| EIsSet (o : obj) (b : N) (r : bool).    (* __is_set returned r *)

Record state := {
  mem : list block;
  slots : list (option obj);
  thr : list pc;
  log : list event }.                     (* ghost, newest first *)

Definition w_mem s v := {| mem := v; slots := slots s; thr := thr s; log := log s |}.
Definition w_slot s x v := {| mem := mem s; slots := upd (slots s) x v; thr := thr s; log := log s |}.
Definition w_thr s t p := {| mem := mem s; slots := slots s; thr := upd (thr s) t p; log := log s |}.
Definition ev s e := {| mem := mem s; slots := slots s; thr := thr s; log := e :: log s |}.

Section Params.
Variable R : N.                           (* _ReservedBits *)
(** L52, L108 *)
Definition increment : N := (2 ^ R)%N.
(** L58-61 *)
Definition count (b : N) : N := (b / increment)%N.
(** L63-68 *)
Definition bit (i : N) (b : N) : bool := N.testbit b i.

(** an access to the word of control block o, updating it with f *)
Definition access (s : state) (o : obj) (f : block -> block) : option state :=
  match nth_error (mem s) o with
  | Some b => Some (ev (w_mem s (upd (mem s) o (f b))) (EAccess o (alive b)))
  | None => None
  end.
Definition set_bits (v : N -> N) (b : block) := {| bits := v (bits b); alive := alive b; man := man b |}.
Definition set_man (v : nat -> nat) (b : block) := {| bits := bits b; alive := alive b; man := v (man b) |}.
Definition kill (b : block) := {| bits := bits b; alive := false; man := man b |}.

(** __inc_ref_ L131-135 *)
Definition inc_ref (s : state) (o : obj) : option state := access s o (set_bits (fun b => b + increment)%N).

Inductive action :=
| AMake (x : nat)                         (* make_intrusive into x *)
| ACopy (x y : nat)                       (* x(y), copy constructor; also __intrusive_from_this on y's object *)
| AMove (x y : nat)                       (* x(move(y)) *)
| AAssignCopy (t : tid) (x y : nat)       (* x = y *)
| AAssignMove (t : tid) (x y : nat)       (* x = move(y) *)
| ADestroy (t : tid) (x : nat)            (* ~x, x.reset() *)
| ASwap (x y : nat)
| ARelease (x : nat)                      (* x.__release_() *)
| AInc (y : nat)                          (* __inc_ref() on the object y points to *)
| ADec (t : tid) (o : obj)                (* __dec_ref() giving back a reference held without a variable *)
| ASetBit (y : nat) (b : N) | AClearBit (y : nat) (b : N) | AIsSet (y : nat) (b : N)
| AGo (t : tid).

(** the destructor of a pointer holding p, run by thread t: L201-207 *)
Definition drop (s : state) (t : tid) (p : option obj) : state :=
  match p with Some o => w_thr s t (Dec o) | None => s end.

Definition step (a : action) (s : state) : option state :=
  match a with
  | AMake x =>
      match nth_error (slots s) x with
      | Some None =>
          let o := length (mem s) in
          Some (ev (w_slot (w_mem s (mem s ++ [{| bits := increment; alive := true; man := 0 |}])) x (Some o)) (ENew o))   (* L117-124 *)
      | _ => None
      end
  | ACopy x y =>
      match nth_error (slots s) x, nth_error (slots s) y with
      | Some None, Some (Some o) => option_map (fun s => w_slot s x (Some o)) (inc_ref s o)   (* L227-231, L305-312 *)
      | Some None, Some None => Some s
      | _, _ => None
      end
  | AMove x y =>
      match nth_error (slots s) x, nth_error (slots s) y with
      | Some None, Some d => Some (w_slot (w_slot s y None) x d)             (* L223-225; x and y are different *)
      | _, _ => None
      end
  | AAssignCopy t x y =>
      match nth_error (thr s) t, nth_error (slots s) x, nth_error (slots s) y with
      | Some Idle, Some old, Some (Some o) =>                                (* L244-247: copy, then move assignment *)
          option_map (fun s => drop (w_slot s x (Some o)) t old) (inc_ref s o)
      | Some Idle, Some old, Some None => Some (drop (w_slot s x None) t old)
      | _, _, _ => None
      end
  | AAssignMove t x y =>
      match nth_error (thr s) t, nth_error (slots s) x, nth_error (slots s) y with
      | Some Idle, Some _, Some d =>                                         (* L237-242 *)
          let s1 := w_slot s y None in
          match nth_error (slots s1) x with
          | Some old => Some (drop (w_slot s1 x d) t old)
          | None => None
          end
      | _, _, _ => None
      end
  | ADestroy t x =>
      match nth_error (thr s) t, nth_error (slots s) x with
      | Some Idle, Some d => Some (drop (w_slot s x None) t d)               (* L255-263 *)
      | _, _ => None
      end
  | ASwap x y =>
      match nth_error (slots s) x, nth_error (slots s) y with
      | Some d, Some d' => Some (w_slot (w_slot s x d') y d)                 (* L265-268 *)
      | _, _ => None
      end
  | ARelease x =>
      match nth_error (slots s) x with
      | Some (Some o) =>                                                     (* L212-216 *)
          match nth_error (mem s) o with
          | Some b => Some (w_slot (w_mem s (upd (mem s) o (set_man S b))) x None)
          | None => None
          end
      | _ => None
      end
  | AInc y =>
      match nth_error (slots s) y with
      | Some (Some o) => access s o (fun b => set_man S (set_bits (fun v => v + increment)%N b))   (* L326-333 *)
      | _ => None
      end
  | ADec t o =>
      match nth_error (thr s) t, nth_error (mem s) o with
      | Some Idle, Some b =>
          match man b with
          | S k => Some (w_thr (w_mem s (upd (mem s) o (set_man (fun _ => k) b))) t (Dec o))   (* L335-342 *)
          | O => None
          end
      | _, _ => None
      end
  | ASetBit y b =>
      match nth_error (slots s) y with
      | Some (Some o) => if (b <? R)%N then                                  (* L159 static_assert *)
          option_map (fun s => ev s (ESet o b)) (access s o (set_bits (fun v => N.lor v (2 ^ b))))   (* L157-163 *)
          else None
      | _ => None
      end
  | AClearBit y b =>
      match nth_error (slots s) y with
      | Some (Some o) => if (b <? R)%N then                                  (* L169 static_assert *)
          option_map (fun s => ev s (EClear o b)) (access s o (set_bits (fun v => N.ldiff v (2 ^ b))))   (* L167-173 *)
          else None
      | _ => None
      end
  | AIsSet y b =>
      match nth_error (slots s) y with
      | Some (Some o) => if (b <? R)%N then                                  (* L66 static_assert *)
          match nth_error (mem s) o with
          | Some k => option_map (fun s => ev s (EIsSet o b (bit b (bits k)))) (access s o (fun b => b))   (* L150-154 *)
          | None => None
          end
          else None
      | _ => None
      end
  | AGo t =>
      match nth_error (thr s) t with
      | Some (Dec o) =>                                                      (* L137-145 *)
          match nth_error (mem s) o with
          | Some b => option_map (fun s => w_thr s t (if (count (bits b) =? 1)%N then Del o else Idle))
                        (access s o (set_bits (fun v => v - increment)%N))
          | None => None
          end
      | Some (Del o) =>                                                      (* L142, L126-129 *)
          match nth_error (mem s) o with
          | Some b => option_map (fun s => ev (w_thr s t Idle) (EDelete o)) (access s o kill)
          | None => None
          end
      | _ => None
      end
  end.

Definition init (nslots nthreads : nat) : state :=
  {| mem := []; slots := repeat None nslots; thr := repeat Idle nthreads; log := [] |}.
Inductive reachable : state -> Prop :=
| r_init k n : reachable (init k n)
| r_step s a s' : reachable s -> step a s = Some s' -> reachable s'.

End Params.
