(** Model of the owners of kernel resources in /repo/include/exec/linux:
    - safe_file_descriptor: safe_file_descriptor.hpp L21-46, detail/safe_file_descriptor.hpp L26-75;
    - memory_mapped_region: memory_mapped_region.hpp L23-48, detail/memory_mapped_region.hpp L26-77;
    - their use by the constructor of __context_base: io_uring_context.hpp L63-150.
    A program owns any number of such objects, at places numbered by nat, and runs their member functions in any order and over any objects;
    the rest of the process opens and closes descriptors and maps and unmaps memory meanwhile.
    The kernel hands out any number that is not in use (for a descriptor: not necessarily the lowest; for a mapping: its base address), so numbers are reused after a close.
    Simplified: close and munmap of a resource in use succeed (their results are ignored by the code); overlapping mappings are not produced by the kernel and a mapping is named by its base address. *)
From Coq Require Import List ZArith Bool Arith.
From Verif Require Import Conc.
Import ListNotations.
Set Implicit Arguments.
Open Scope Z_scope.

Inductive kind := Fd | Map.
Definition keqb (a b : kind) : bool := match a, b with Fd, Fd | Map, Map => true | _, _ => false end.

(** The calls the kernel sees. f: made by code that does not use these classes. n: the length given to mmap and munmap, 0 for a descriptor. *)
Inductive ev :=
| EOpen (k : kind) (v n : Z) (f : bool)
| EClose (k : kind) (v n : Z) (f : bool).

(** Who has resource v of kind k open after the calls l (newest first), and with what length. *)
Fixpoint holder (l : list ev) (k : kind) (v : Z) : option (Z * bool) :=
  match l with
  | [] => None
  | EOpen k' v' n f :: r => if keqb k' k && (v' =? v) then Some (n, f) else holder r k v
  | EClose k' v' _ _ :: r => if keqb k' k && (v' =? v) then None else holder r k v
  end.

(** An object: its kind, __fd_ or __ptr_, and __size_ (0 for a descriptor). *)
Record obj := mko { okind : kind; oval : Z; osize : Z }.
Record st := mks { slots : nat -> option obj; log : list ev }.

(** The value that means "nothing": -1 (safe_file_descriptor.hpp L23) or nullptr (memory_mapped_region.hpp L25). *)
Definition null (k : kind) : Z := match k with Fd => -1 | Map => 0 end.
Definition empty (k : kind) : obj := mko k (null k) 0.
(** operator bool: detail/safe_file_descriptor.hpp L62-65, detail/memory_mapped_region.hpp L64-67 *)
Definition isset (o : obj) : bool := negb (oval o =? null (okind o)).
(** The constructors from a raw value: detail/safe_file_descriptor.hpp L26-28; detail/memory_mapped_region.hpp L26-34, where MAP_FAILED (-1) becomes nullptr and the size is kept. *)
Definition adopt (k : kind) (v n : Z) : obj :=
  match k with
  | Fd => mko Fd v 0
  | Map => mko Map (if v =? -1 then 0 else v) n
  end.
(** "if (__fd_ != -1) close(__fd_)": detail/safe_file_descriptor.hpp L39-42, L55-58; "if (__ptr_) munmap(__ptr_, __size_)": detail/memory_mapped_region.hpp L38-41, L54-57 *)
Definition drop (o : obj) (l : list ev) : list ev :=
  if isset o then EClose (okind o) (oval o) (osize o) false :: l else l.

Inductive label :=
| LDefault (i : nat) (k : kind)          (* default constructor *)
| LNew (i : nat) (k : kind) (v n : Z)    (* constructed from the result v of a successful system call *)
| LFail (i : nat) (k : kind) (n : Z)     (* constructed from the result of a failed system call: -1 or MAP_FAILED *)
| LMove (i j : nat)                      (* i is move-constructed from j *)
| LAssign (i j : nat)                    (* i = std::move(j), also with i = j *)
| LReset (i : nat) (v : Z)               (* i.reset(::open(..)), the call succeeds with v *)
| LResetFail (i : nat)                   (* i.reset(::open(..)), the call fails; also i.reset() *)
| LResetOf (i j : nat)                   (* i.reset(j.native_handle()), also with i = j *)
| LDestroy (i : nat)
| LForeignOpen (k : kind) (v n : Z)
| LForeignClose (k : kind) (v : Z).

Definition put (s : st) (i : nat) (o : option obj) (l : list ev) : st := mks (fset (slots s) i o) l.

(** What the kernel may return: not a failure value, not in use. *)
Definition mayopen (l : list ev) (k : kind) (v : Z) : bool :=
  negb (v =? -1) && negb (v =? null k) && match holder l k v with None => true | Some _ => false end.
Definition lenof (k : kind) (n : Z) : Z := match k with Fd => 0 | Map => n end.

Definition step (s : st) (a : label) : option st :=
  match a with
  | LDefault i k =>
      match slots s i with None => Some (put s i (Some (empty k)) (log s)) | Some _ => None end
  | LNew i k v n =>
      match slots s i with
      | None => if mayopen (log s) k v then Some (put s i (Some (adopt k v n)) (EOpen k v (lenof k n) false :: log s)) else None
      | Some _ => None
      end
  | LFail i k n =>
      match slots s i with None => Some (put s i (Some (adopt k (-1) n)) (log s)) | Some _ => None end
  (* detail/safe_file_descriptor.hpp L30-32, detail/memory_mapped_region.hpp L44-47 *)
  | LMove i j =>
      match slots s i, slots s j with
      | None, Some o => Some (mks (fset (fset (slots s) i (Some o)) j (Some (empty (okind o)))) (log s))
      | _, _ => None
      end
  (* detail/safe_file_descriptor.hpp L34-46, detail/memory_mapped_region.hpp L49-62 *)
  | LAssign i j =>
      match slots s i, slots s j with
      | Some o, Some p =>
          if keqb (okind o) (okind p) then
            if (i =? j)%nat then Some s
            else Some (mks (fset (fset (slots s) i (Some p)) j (Some (empty (okind p)))) (drop o (log s)))
          else None
      | _, _ => None
      end
  (* detail/safe_file_descriptor.hpp L53-60; the argument is evaluated first *)
  | LReset i v =>
      match slots s i with
      | Some (mko Fd w n as o) =>
          if mayopen (log s) Fd v then Some (put s i (Some (mko Fd v 0)) (drop o (EOpen Fd v 0 false :: log s))) else None
      | _ => None
      end
  | LResetFail i =>
      match slots s i with
      | Some (mko Fd w n as o) => Some (put s i (Some (mko Fd (-1) 0)) (drop o (log s)))
      | _ => None
      end
  | LResetOf i j =>
      match slots s i, slots s j with
      | Some (mko Fd w n as o), Some (mko Fd v _) => Some (put s i (Some (mko Fd v 0)) (drop o (log s)))
      | _, _ => None
      end
  (* detail/safe_file_descriptor.hpp L48-51, detail/memory_mapped_region.hpp L36-42 *)
  | LDestroy i =>
      match slots s i with Some o => Some (put s i None (drop o (log s))) | None => None end
  | LForeignOpen k v n =>
      if mayopen (log s) k v then Some (mks (slots s) (EOpen k v (lenof k n) true :: log s)) else None
  | LForeignClose k v =>
      match holder (log s) k v with
      | Some (n, true) => Some (mks (slots s) (EClose k v n true :: log s))
      | _ => None
      end
  end.

Fixpoint run (s : st) (ls : list label) : option st :=
  match ls with [] => Some s | a :: ls => match step s a with Some s' => run s' ls | None => None end end.
Definition init : st := mks (fun _ => None) [].

(** ** The constructor of __context_base (io_uring_context.hpp L112-132)
    Its members are places b (submission ring), b+1 (completion ring), b+2 (entries), b+3 (ring descriptor), b+4 (event descriptor), in the order of their declaration L142-149; b+5 is the temporary of an assignment.
    A reply is the result of a system call, or the errno it fails with. *)
Inductive reply := ROk (v : Z) | RErr (errno : Z).
Inductive result := Done | Throws (code : Z).

(** Members already constructed are destroyed in reverse order when the constructor throws. *)
Definition unwind (b n : nat) : list label := map (fun i => LDestroy (b + i)%nat) (rev (seq 0 n)).

(** L126-131: x = __map_region(..) L101-107, then k; the error is errno *)
Definition map_into (b x : nat) (r : reply) (n : Z) (k : list label * result) : list label * result :=
  match r with
  | RErr e => (unwind b 5, Throws e)
  | ROk v => (LNew (b + 5) Map v n :: LAssign (b + x) (b + 5) :: LDestroy (b + 5) :: fst k, snd k)
  end.

Definition ctor (b : nat) (single : bool) (setup evfd sring sqes cring : reply) (n1 n2 n3 : Z) : list label * result :=
  let regions := [LDefault b Map; LDefault (b + 1) Map; LDefault (b + 2) Map] in
  match setup with
  (* L71-77: the result of ::syscall is -1, the error given is -rc *)
  | RErr e => (regions ++ unwind b 3, Throws (- (-1)))
  | ROk rv =>
      match evfd with
      (* L115, L117 *)
      | RErr e => (regions ++ [LNew (b + 3) Fd rv 0; LFail (b + 4) Fd 0] ++ unwind b 5, Throws e)
      | ROk evv =>
          let k := map_into b 0 sring n1 (map_into b 2 sqes n2
                     (if single then ([], Done) else map_into b 1 cring n3 ([], Done))) in
          (regions ++ [LNew (b + 3) Fd rv 0; LNew (b + 4) Fd evv 0] ++ fst k, snd k)
      end
  end.

(** The destructor: members in reverse order. *)
Definition dtor (b : nat) : list label := unwind b 5.
