(** * EvenShareModel: _pool_::even_share (include/exec/static_thread_pool.hpp L97-113).
    The computation is done in std::size_t (the usual arithmetic conversions of
    make_unsigned_t<Shape> and std::size_t; Shape has at most 64 bits), so every operation is taken
    modulo 2^64.  The final casts to Shape are the identity on values in [0,n] (proved to be the
    case).  The precondition n >= 0 (assert L101) is in the type. *)

From Coq Require Import NArith.
Local Open Scope N_scope.

Definition word : N := 2 ^ 64.
Definition wadd (a b : N) : N := (a + b) mod word.
Definition wsub (a b : N) : N := (a + word - b) mod word.
Definition wmul (a b : N) : N := (a * b) mod word.

(** L98-113 *)
Definition even_share (n rank size : N) : N * N :=
  let avg_per_thread := n / size in                                       (* L103 *)
  let n_big_share := wadd avg_per_thread 1 in                             (* L104 *)
  let big_shares := n mod size in                                         (* L105 *)
  let is_big_share := rank <? big_shares in                               (* L106 *)
  let begin := if is_big_share then wmul n_big_share rank                 (* L107-109 *)
               else wadd (wmul n_big_share big_shares) (wmul (wsub rank big_shares) avg_per_thread) in
  let end_ := wadd begin (if is_big_share then n_big_share else avg_per_thread) in   (* L110 *)
  (begin, end_).
