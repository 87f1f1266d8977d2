(** * BulkSeqModel: the default implementations of bulk, bulk_chunked and bulk_unchunked
    (include/stdexec/__detail/__bulk.hpp), what they do when the predecessor completes with
    set_value.  The shape is any integer (_Shape is any integral type, L136).  The user's function
    either returns or throws (a number).  A loop that has not ended after [fuel] iterations yields
    None (for a negative shape the loop of bulk_unchunked runs into signed overflow).
    Not modelled: the value arguments (passed to every call by reference). *)

From Coq Require Import List ZArith.
Import ListNotations.
Local Open Scope Z_scope.
Set Implicit Arguments.

Definition exn := nat.
Inductive out := DVal | DErr (e : exn).
Inductive call := CIndex (i : Z) | CChunk (b e : Z).

(** [for (i = b; i != e; ++i) f(i)]: __as_bulk_chunked_fn L186-193, and bulk_unchunked's loop L325-328 *)
Fixpoint for_loop (fuel : nat) (f : Z -> option exn) (b e : Z) : option (list call * option exn) :=
  if b =? e then Some ([], None)
  else match fuel with
       | O => None
       | S fuel =>
           match f b with
           | Some x => Some ([CIndex b], Some x)
           | None => match for_loop fuel f (b + 1) e with
                     | Some (l, r) => Some (CIndex b :: l, r)
                     | None => None
                     end
           end
       end.

Definition complete (r : list call * option exn) : list call * out :=
  (fst r, match snd r with None => DVal | Some x => DErr x end).

(** __unchunked_impl::__complete L311-339 *)
Definition bulk_unchunked (fuel : nat) (shape : Z) (f : Z -> option exn) : option (list call * out) :=
  option_map complete (for_loop fuel f 0 shape).

(** __chunked_impl::__complete L270-298, for a function object whose call f(b,e) makes the calls and
    has the result given by [F] *)
Definition bulk_chunked_with (shape : Z) (F : Z -> Z -> option (list call * option exn)) : option (list call * out) :=
  if 0 <? shape then option_map complete (F 0 shape)                      (* L284-287 *)
  else Some ([], DVal).
Definition bulk_chunked (shape : Z) (f : Z -> Z -> option exn) : option (list call * out) :=
  bulk_chunked_with shape (fun b e => Some ([CChunk b e], f b e)).

(** bulk: lowered to bulk_chunked with __as_bulk_chunked_fn, L423-436 *)
Definition bulk (fuel : nat) (shape : Z) (f : Z -> option exn) : option (list call * out) :=
  bulk_chunked_with shape (for_loop fuel f).
