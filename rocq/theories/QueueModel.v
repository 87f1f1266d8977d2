(** * QueueModel: stdexec::__intrusive_queue over an explicit heap.

    Models include/stdexec/__detail/__intrusive_queue.hpp L43-303.  A node is a number, the heap
    maps each node to its _Next member, a null pointer is None.  Dereferencing a null pointer is the
    outcome None of an operation ("undefined behaviour").  The while loops of make and
    make_reversed take fuel (the number of iterations allowed); the theorems give the fuel that
    suffices. *)

From Coq Require Import List Arith Bool.
From Verif Require Import Conc.
Import ListNotations.
Set Implicit Arguments.

Definition ptr := option nat.
Definition heap := nat -> ptr.

(** L301-302 *)
Record queue := { qhead : ptr; qtail : ptr }.
(** L47, L301-302 *)
Definition qempty : queue := {| qhead := None; qtail := None |}.

Definition ptr_eqb (a b : ptr) : bool :=
  match a, b with Some x, Some y => x =? y | None, None => true | _, _ => false end.
Definition is_null (p : ptr) : bool := ptr_eqb p None.

(** p->*_Next, p->*_Next = v *)
Definition load (h : heap) (p : ptr) : option ptr :=
  match p with Some n => Some (h n) | None => None end.
Definition store (h : heap) (p : ptr) (v : ptr) : option heap :=
  match p with Some n => Some (fset h n v) | None => None end.

Notation "'do' x <- a ; b" := (match a with Some x => b | None => None end)
  (at level 200, x pattern, a at level 100, b at level 200).

(** make_reversed L71-87: the loop L75-81 *)
Fixpoint rev_loop (fuel : nat) (h : heap) (lst new_head : ptr) : option (heap * ptr) :=
  match lst with
  | None => Some (h, new_head)
  | Some n =>
      match fuel with
      | 0 => None
      | S fuel => rev_loop fuel (fset h n new_head) (h n) (Some n)
      end
  end.
Definition make_reversed (fuel : nat) (h : heap) (lst : ptr) : option (heap * queue) :=
  do (h', nh) <- rev_loop fuel h lst None; Some (h', {| qhead := nh; qtail := lst |}).

(** make L89-103: the loop L98-101 *)
Fixpoint make_loop (fuel : nat) (h : heap) (n : nat) : option nat :=
  match h n with
  | None => Some n
  | Some m => match fuel with 0 => None | S fuel => make_loop fuel h m end
  end.
Definition make (fuel : nat) (h : heap) (lst : ptr) : option queue :=
  match lst with
  | None => Some qempty
  | Some n => do t <- make_loop fuel h n; Some {| qhead := lst; qtail := Some t |}
  end.

(** L105-115 *)
Definition empty (q : queue) : bool := is_null (qhead q).
Definition clear (q : queue) : queue := qempty.

(** L117-130 *)
Definition pop_front (h : heap) (q : queue) : option (queue * ptr) :=
  do nx <- load h (qhead q);
  let item := qhead q in
  do nx' <- load h item;
  Some ({| qhead := nx; qtail := if is_null nx' then None else qtail q |}, item).

(** L132-141 *)
Definition push_front (h : heap) (q : queue) (x : nat) : option (heap * queue) :=
  do h1 <- store h (Some x) (qhead q);
  Some (h1, {| qhead := Some x; qtail := if is_null (qtail q) then Some x else qtail q |}).

(** L143-156 *)
Definition push_back (h : heap) (q : queue) (x : nat) : option (heap * queue) :=
  do h1 <- store h (Some x) None;
  if is_null (qtail q) then Some (h1, {| qhead := Some x; qtail := Some x |})
  else do h2 <- store h1 (qtail q) (Some x); Some (h2, {| qhead := qhead q; qtail := Some x |}).

(** L158-172; the argument is left empty *)
Definition append (h : heap) (q o : queue) : option (heap * queue) :=
  if empty o then Some (h, q)
  else if empty q then Some (h, {| qhead := qhead o; qtail := qtail o |})
  else do h1 <- store h (qtail q) (qhead o); Some (h1, {| qhead := qhead q; qtail := qtail o |}).

(** L174-188; the argument is left empty *)
Definition prepend (h : heap) (q o : queue) : option (heap * queue) :=
  if empty o then Some (h, q)
  else do h1 <- store h (qtail o) (qhead q);
       Some (h1, {| qhead := qhead o; qtail := if is_null (qtail q) then qtail o else qtail q |}).

(** move construction / move assignment L49-64: (new, old) *)
Definition move (q : queue) : queue * queue := (q, qempty).

(** iterators L190-250 *)
Record iter := { ipred : ptr; iitem : ptr }.
Definition ibegin (q : queue) : iter := {| ipred := None; iitem := qhead q |}.
Definition iend (q : queue) : iter := {| ipred := qtail q; iitem := None |}.
Definition inext (h : heap) (i : iter) : iter :=
  {| ipred := iitem i;
     iitem := match iitem i with Some n => h n | None => None end |}.
Definition ieqb (a b : iter) : bool := ptr_eqb (ipred a) (ipred b) && ptr_eqb (iitem a) (iitem b).

(** the loop "for (it = begin(); it != end(); ++it) use( *it )": the items used; dereferencing a null
    item is UB (L208) *)
Fixpoint iterate (fuel : nat) (h : heap) (q : queue) (i : iter) : option (list nat) :=
  if ieqb i (iend q) then Some []
  else match iitem i, fuel with
       | Some n, S fuel => do l <- iterate fuel h q (inext h i); Some (n :: l)
       | _, _ => None
       end.

(** splice L252-288: (heap, this, other) *)
Definition splice (h : heap) (q : queue) (pos : iter) (o : queue) (first last : iter)
  : option (heap * queue * queue) :=
  if ieqb first last then Some (h, q, o)                                            (* L255 *)
  else
    do (h1, o1) <-
      (if ptr_eqb (qhead o) (iitem first) then                                      (* L261 *)
         Some (h, {| qhead := iitem last;
                     qtail := if is_null (iitem last) then None else qtail o |})
       else
         do ha <- store h (ipred first) (iitem last);                               (* L272 *)
         do hb <- store ha (ipred last) (iitem pos);                                (* L273 *)
         Some (hb, o));
    if empty q then Some (h1, {| qhead := iitem first; qtail := ipred last |}, o1)  (* L275 *)
    else
      do h2 <- store h1 (ipred pos) (iitem first);                                  (* L282 *)
      Some (h2, {| qhead := qhead q;
                   qtail := if is_null (iitem pos) then ipred last else qtail q |}, o1).
