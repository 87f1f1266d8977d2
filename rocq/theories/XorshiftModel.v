(** Model of the random numbers by which the threads of the pool choose whom to steal from: exec::xorshift, /repo/include/exec/detail/xorshift.hpp L39-91
    (used by /repo/include/exec/static_thread_pool.hpp L608 (seeding) and L1095 (choice)). Words are integers from 0 to 2^64 - 1. *)
From Coq Require Import ZArith.
Open Scope Z_scope.

Definition w64 (x : Z) : Z := x mod 2 ^ 64.
(** L56-58 *)
Definition default_seed : Z := 0xc1f651c67c62c6e0.
(** L69-72; r1, r2: what the two calls of the random device return (32 bits each). Simplified: which call is made first is unspecified in C++; the names are by operand. *)
Definition seed_of (r1 r2 : Z) : Z := Z.lor (w64 (Z.shiftl r1 31)) r2.
(** L77-79 *)
Definition s1 (x : Z) : Z := Z.lxor x (Z.shiftr x 11).
Definition s2 (x : Z) : Z := Z.lxor x (w64 (Z.shiftl x 31)).
Definition s3 (x : Z) : Z := Z.lxor x (Z.shiftr x 18).
Definition next (x : Z) : Z := s3 (s2 (s1 x)).
(** L76, L80 *)
Definition output (x : Z) : Z := Z.shiftr (w64 (x * 0xd989bcacc137dcd5)) 32 mod 2 ^ 32.
(** L74-81 *)
Definition call (x : Z) : Z * Z := (output x, next x).
(** L83-87 *)
Fixpoint discard (n : nat) (x : Z) : Z := match n with O => x | S n => discard n (snd (call x)) end.
(** The outputs of n calls. *)
Fixpoint outputs (n : nat) (x : Z) : list Z := match n with O => nil | S n => cons (fst (call x)) (outputs n (snd (call x))) end.
