(** Model of how exec::task (stdexec::task) allocates its coroutine frames: /repo/include/stdexec/__detail/__task.hpp,
    __divmod L126-129, __memblock L131-134, __any_alloc L136-179, the promise's operator new and operator delete L741-784.
    A copy of the allocator is kept behind the frame, in the same block; operator delete finds it from the size of the frame alone.
    Addresses and sizes are integers, arithmetic on std::size_t and pointers is modulo 2^64.
    Any number of tasks with any allocators live at once; the allocators return any suitable memory that is not in use, so memory is reused; the coroutines write all over their frames.
    Simplified: a stored allocator is known by the allocator it is a copy of and its size; one call of operator new or delete is one step (calls by different threads touch different blocks). *)
From Coq Require Import List ZArith Bool.
Import ListNotations.
Set Implicit Arguments.
Open Scope Z_scope.

Definition w64 (x : Z) : Z := x mod 2 ^ 64.
(** __STDCPP_DEFAULT_NEW_ALIGNMENT__, the size and alignment of __memblock L131-134 *)
Definition blk : Z := 16.
(** L126-129 *)
Definition divmod (total chunk : Z) : Z := w64 (total / chunk + (if total mod chunk =? 0 then 0 else 1)).

(** An __any_alloc object: a copy of allocator hal, of size hsz. *)
Record hdr := mkh { hal : nat; hsz : Z }.

(** What the allocators and the program see. *)
Inductive ev :=
| EUpAlloc (al : nat) (a n : Z)   (* allocator al returned n blocks at a *)
| EUpFree (al : nat) (a n : Z)    (* deallocate(a, n) of (a copy of) allocator al *)
| EStore (al : nat) (x sz : Z)    (* a copy of the allocator is constructed at x *)
| EDrop (al : nat) (x : Z)        (* and destroyed *)
| EFrame (p bytes : Z)            (* operator new returns p *)
| EThrow                          (* operator new throws *)
| EBad.                           (* an object is used that is not there *)

Record st := mks { objs : Z -> option hdr; blocks : list (Z * Z * nat); frames : list (Z * Z); log : list ev }.
Definition init : st := mks (fun _ => None) [] [] [].
Definition emit (s : st) (e : ev) : st := mks (objs s) (blocks s) (frames s) (e :: log s).

Definition disj (a n : Z) (b : Z * Z * nat) : bool := let '(a', n', _) := b in (a + blk * n <=? a') || (a' + blk * n' <=? a).
(** What an allocator may return for n blocks: aligned memory in the address space that nobody uses. *)
Definition mayreturn (s : st) (a n : Z) : bool :=
  (0 <? a) && (a mod blk =? 0) && (a + blk * n <=? 2 ^ 64) && forallb (disj a n) (blocks s).

(** constructing and destroying an object at x; memory from a of length n is given back: no object there survives; a byte is written *)
Definition put (f : Z -> option hdr) (x : Z) (h : option hdr) : Z -> option hdr := fun y => if y =? x then h else f y.
Definition wipe (f : Z -> option hdr) (a n : Z) : Z -> option hdr := fun y => if (a <=? y) && (y <? a + n) then None else f y.
Definition scribble (f : Z -> option hdr) (x : Z) : Z -> option hdr :=
  fun y => match f y with Some h => if (y <=? x) && (x <? y + hsz h) then None else Some h | None => None end.

(** L763-776: operator new for an allocator whose stored form has sz bytes; its allocate returns a *)
Definition op_new (s : st) (al : nat) (sz bytes a : Z) : st :=
  let alloc_blocks := divmod sz blk in
  let promise_blocks := divmod bytes blk in
  let n := w64 (promise_blocks + alloc_blocks) in
  let loc := w64 (a + blk * promise_blocks) in
  mks (put (objs s) loc (Some (mkh al sz))) ((a, n, al) :: blocks s) ((a, bytes) :: frames s)
      (EFrame a bytes :: EStore al loc sz :: EUpAlloc al a n :: log s).

(** The deallocate of allocator al: the block is given back; what is in it is gone. *)
Definition upfree (s : st) (al : nat) (p n : Z) : st :=
  mks (wipe (objs s) p (blk * n)) (filter (fun b => negb (fst (fst b) =? p)) (blocks s)) (frames s) (EUpFree al p n :: log s).

(** L151-176 with this = loc *)
Definition deallocate (s : st) (loc p bytes : Z) : st :=
  match objs s loc with
  | None => emit s EBad                                          (* there is no allocator at loc *)
  | Some h =>
      let promise_blocks := divmod bytes blk in                  (* L157 *)
      let alloc_blocks := divmod (hsz h) blk in                  (* L161 *)
      if negb (w64 (p + blk * promise_blocks) =? loc) then emit s EBad else  (* L165 *)
      let alloc := hal h in                                      (* L169 *)
      let s := mks (put (objs s) loc None) (blocks s) (frames s) (EDrop alloc loc :: log s) in   (* L171 *)
      upfree s alloc p (w64 (promise_blocks + alloc_blocks))     (* L173 *)
  end.

(** L746-752 *)
Definition op_delete (s : st) (p bytes : Z) : st :=
  let promise_blocks := divmod bytes blk in
  let loc := w64 (p + blk * promise_blocks) in
  deallocate (mks (objs s) (blocks s) (filter (fun f => negb (fst f =? p)) (frames s)) (log s)) loc p bytes.

Inductive label :=
| LNew (al : nat) (sz bytes a : Z)      (* a task is made whose frame has bytes bytes *)
| LThrow (al : nat) (sz bytes : Z)      (* its allocator throws *)
| LWrite (p bytes off : Z)              (* a coroutine writes to its frame *)
| LDelete (p bytes : Z).                (* its frame is destroyed *)

Definition isframe (s : st) (p bytes : Z) : bool := existsb (fun f => (fst f =? p) && (snd f =? bytes)) (frames s).

Definition step (s : st) (l : label) : option st :=
  match l with
  | LNew al sz bytes a =>
      if (0 <? sz) && (sz <? 2 ^ 32) && (0 <=? bytes) && (bytes <? 2 ^ 64)
         && mayreturn s a (w64 (divmod bytes blk + divmod sz blk))
      then Some (op_new s al sz bytes a) else None
  | LThrow al sz bytes => Some (emit s EThrow)
  | LWrite p bytes off =>
      if isframe s p bytes && (0 <=? off) && (off <? bytes)
      then Some (mks (scribble (objs s) (p + off)) (blocks s) (frames s) (log s)) else None
  | LDelete p bytes => if isframe s p bytes then Some (op_delete s p bytes) else None
  end.

Fixpoint run (s : st) (ls : list label) : option st :=
  match ls with [] => Some s | l :: ls => match step s l with Some s' => run s' ls | None => None end end.
