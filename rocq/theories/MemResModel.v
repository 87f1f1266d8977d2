(** Model of the memory resource made from an allocator of bytes: allocate and deallocate of
    /repo/include/exec/__memory_resource_adaptor.hpp L146-251 ("MR"), which over-allocate, align by hand and hide the address of the upstream block behind the user's bytes.
    Addresses and sizes are integers; every addition of the code is done modulo 2^64 ([w64]).  The memory is a function from addresses to bytes.
    The upstream allocator returns any block inside the address space that is disjoint from its live blocks, with any contents; what is outside its live blocks may be
    overwritten at any time by anybody.  A call is one step: calls on the same resource do not overlap (the adaptor has no state but the allocator).
    Simplified: the placement new expressions of MR L195, L221 begin the lifetime of an array of bytes and write nothing; do_is_equal is not modelled. *)
From Coq Require Import ZArith List Bool.
Import ListNotations.
Open Scope Z_scope.
Set Implicit Arguments.

Definition W := 2 ^ 64.
Definition w64 (x : Z) := x mod W.
(** the size of a pointer *)
Definition PS := 8.

(** The standard's std::align as used in MR L183 (libstdc++ <bits/align.h>): the aligned pointer and the space that is left, or None for nullptr. *)
Definition std_align (align size ptr space : Z) : option (Z * Z) :=
  if space <? size then None else
  let aligned := Z.land (w64 (ptr - 1 + align)) (- align) in
  let diff := w64 (aligned - ptr) in
  if space - size <? diff then None else Some (aligned, space - diff).

Definition memory := Z -> Z.
Definition mset (m : memory) (x v : Z) : memory := fun y => if y =? x then v else m y.
(** memcpy of a pointer to and from memory (MR L196, L208), least significant byte first *)
Fixpoint store_n (k : nat) (m : memory) (x v : Z) : memory :=
  match k with O => m | S k => store_n k (mset m x (v mod 256)) (x + 1) (v / 256) end.
Fixpoint load_n (k : nat) (m : memory) (x : Z) : Z :=
  match k with O => 0 | S k => m x mod 256 + 256 * load_n k m (x + 1) end.
Definition store := store_n 8.
Definition load := load_n 8.

(** a block of the user's: pointer, size, binary logarithm of the alignment; one of the upstream allocator's: address, size *)
Definition ublock := (Z * Z * Z)%type.
Definition ablock := (Z * Z)%type.
Definition ueqb (x y : ublock) := match x, y with (p, b, k), (q, c, l) => (p =? q) && (b =? c) && (k =? l) end.
Definition aeqb (x y : ablock) := (fst x =? fst y) && (snd x =? snd y).
Definition uremove x (l : list ublock) := filter (fun y => negb (ueqb y x)) l.
Definition aremove x (l : list ablock) := filter (fun y => negb (aeqb y x)) l.
Definition umem x (l : list ublock) := existsb (ueqb x) l.
Definition amem x (l : list ablock) := existsb (aeqb x) l.

(** Calls as seen from outside: the user's allocate (with the pointer that is returned) and deallocate, the upstream allocator's allocate and deallocate;
    the upstream throws; something happens that the language or the upstream allocator forbids. *)
Inductive event := EAlloc (b k p : Z) | EFree (p b k : Z) | EUpAlloc (a n : Z) | EUpFree (a n : Z) | EThrow | EBad.
Record state := mk { mem : memory; ups : list ablock; usr : list ublock; log : list event }.
Definition init (m : memory) := mk m [] [] [].

(** MR L178, L210: the size of the upstream block *)
Definition up_size (b k : Z) := w64 (w64 (w64 (b + 2 ^ k) - 1) + PS).

Definition disjb (x y : ablock) := (fst x + snd x <=? fst y) || (fst y + snd y <=? fst x).
Definition inb (x : Z) (a : ablock) := (fst a <=? x) && (x <? fst a + snd a).

Inductive action :=
  | AAlloc (b k a : Z) (junk : memory)   (* allocate(b, 2^k); the upstream block is at a and contains junk *)
  | AAllocThrow (b k : Z)                (* the upstream allocator throws *)
  | AWrite (p b k off v : Z)             (* the user writes the byte off of the live block p *)
  | AFree (p b k : Z)                    (* deallocate(p, b, 2^k) of a live block *)
  | AScribble (x v : Z).                 (* anybody writes outside the live blocks of the upstream allocator *)

(** MR L163-199 *)
Definition allocate (s : state) (b k a : Z) (junk : memory) : state :=
  let n := up_size b k in
  let m := fun x => if inb x (a, n) then junk x else mem s x in
  let l := EUpAlloc a n :: log s in
  match std_align (2 ^ k) b a n with
  | None => mk m ((a, n) :: ups s) (usr s) (EBad :: l)
  | Some (p, sp) =>
      mk (store m (p + b) a) ((a, n) :: ups s) ((p, b, k) :: usr s) (EAlloc b k p :: (if sp <? b + PS then EBad :: l else l))
  end.
(** MR L201-223 *)
Definition deallocate (s : state) (p b k : Z) : state :=
  let a := load (mem s) (p + b) in
  let n := up_size b k in
  let l := EUpFree a n :: EFree p b k :: log s in
  mk (mem s) (aremove (a, n) (ups s)) (uremove (p, b, k) (usr s)) (if amem (a, n) (ups s) then l else EBad :: l).

Definition step (s : state) (c : action) : option state :=
  match c with
  | AAlloc b k a junk =>
      if (0 <=? b) && (b <? W) && (0 <=? k) && (k <? 64) && (0 <? a) && (a + up_size b k <=? W) && forallb (disjb (a, up_size b k)) (ups s)
      then Some (allocate s b k a junk) else None
  | AAllocThrow b k => Some (mk (mem s) (ups s) (usr s) (EThrow :: log s))
  | AWrite p b k off v => if umem (p, b, k) (usr s) && (0 <=? off) && (off <? b) then Some (mk (mset (mem s) (p + off) v) (ups s) (usr s) (log s)) else None
  | AFree p b k => if umem (p, b, k) (usr s) then Some (deallocate s p b k) else None
  | AScribble x v => if existsb (inb x) (ups s) then None else Some (mk (mset (mem s) x v) (ups s) (usr s) (log s))
  end.
Fixpoint runs (l : list action) (s : state) : option state :=
  match l with [] => Some s | a :: l => match step s a with Some s => runs l s | None => None end end.
Definition reachable (s : state) := exists m l, runs l (init m) = Some s.
