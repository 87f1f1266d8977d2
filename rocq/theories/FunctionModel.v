(** Model of the parts of exec::function (/repo/include/exec/function.hpp) and of __static_vector (/repo/include/stdexec/__detail/__static_vector.hpp) that decide
    which function types are the same type and how the factory is stored.
    - __static_vector L92-177: the array __data_ and __size_; the constructor from an initializer list L101-107, resize L157-161, erase L163-173, operator+ L65-88, begin/end as offsets.
    - __canonicalize_impl L452-459, __canonicalize L461-467 of function.hpp: the types are numbers, their index (__mtypeid), ordered as __type_index is.
    - the storage of the factory: the members __args_ L370, __make_opstate_ L377, __make_sender_ L384 with the usual layout rules; the constraints L389-393; memcpy L402; the use L355.
    Simplified: std::ranges::sort is an insertion sort (SortedUnique below shows that the algorithm does not matter); std::ranges::unique leaves arbitrary values behind the new end, here a parameter `junk`;
    pointers have 8 bytes and alignment 8; value_type is trivial (copying does not fail). *)
From Coq Require Import List Arith Bool.
From Verif Require Import Conc.
Import ListNotations.
Set Implicit Arguments.

(** ** __static_vector *)
Record sv (A : Type) := mk_sv { data : list A; size : nat }.
Arguments mk_sv {A} _ _.
Definition contents {A} (v : sv A) : list A := firstn (size v) (data v).
Definition capacity {A} (v : sv A) : nat := length (data v).
(** L99: value-initialised; L101-107: at most _Capacity elements are copied *)
Definition sv_empty {A} (cap : nat) (d : A) : sv A := mk_sv (repeat d cap) 0.
Fixpoint put {A} (arr : list A) (at_ : nat) (xs : list A) : list A :=
  match xs with [] => arr | x :: xs => put (upd arr at_ x) (S at_) xs end.
Definition sv_init {A} (cap : nat) (d : A) (init : list A) : sv A :=
  let count := Nat.min (length init) cap in
  mk_sv (put (repeat d cap) 0 (firstn count init)) count.
(** L163-173: std::move(last, end(), first), an element at a time; None: an assertion L165-166 fails. The iterator returned is end() (L172). *)
Fixpoint shift {A} (arr : list A) (from to n : nat) : list A :=
  match n with
  | 0 => arr
  | S n => match nth_error arr from with Some x => shift (upd arr to x) (S from) (S to) n | None => arr end
  end.
Definition sv_erase {A} (v : sv A) (first last : nat) : option (sv A * nat) :=
  if (first <=? size v) && (first <=? last) && (last <=? size v) then
    let v' := if first =? last then v else mk_sv (shift (data v) last first (size v - last)) (size v - (last - first)) in
    Some (v', size v')
  else None.
(** L65-88 *)
Definition sv_plus {A} (d : A) (l r : sv A) : sv A :=
  if capacity l =? 0 then r else if capacity r =? 0 then l else
  mk_sv (put (put (repeat d (capacity l + capacity r)) 0 (contents l)) (size l) (contents r)) (size l + size r).

(** ** Canonical type lists *)
(** std::ranges::sort *)
Fixpoint insert (x : nat) (l : list nat) : list nat :=
  match l with [] => [x] | y :: l => if x <=? y then x :: y :: l else y :: insert x l end.
Fixpoint sort (l : list nat) : list nat := match l with [] => [] | x :: l => insert x (sort l) end.
(** std::ranges::unique: the values that stay *)
Fixpoint uniq (l : list nat) : list nat :=
  match l with [] => [] | [x] => [x] | x :: ((y :: _) as l') => if x =? y then uniq l' else x :: uniq l' end.

(** L452-459, junk: what unique leaves between the new end and the old one *)
Definition canonicalize_impl (junk : list nat) (v : sv nat) : option (sv nat) :=
  let sorted := sort (contents v) in
  let u := uniq sorted in
  let rest_begin := length u in
  let v' := mk_sv (u ++ firstn (size v - rest_begin) junk ++ skipn (size v) (data v)) (size v) in
  match sv_erase v' rest_begin (size v') with Some (w, _) => Some w | None => None end.
(** L461-467: capacity sizeof...(_Types); the result has the first size() types *)
Definition canonicalize (junk : list nat) (types : list nat) : option (list nat) :=
  match canonicalize_impl junk (sv_init (length types) 0 types) with Some v => Some (contents v) | None => None end.

(** ** Storage of the factory *)
Definition ptr := 8.
Definition buf_size := 2 * ptr.
Definition round_up (n a : nat) := ((n + (a - 1)) / a) * a.
(** the type of __args_: its size (0 if empty, because of no_unique_address) and its alignment *)
Definition off_ptr (args_size : nat) := round_up args_size ptr.
Definition off_buf (args_size : nat) := off_ptr args_size + ptr.
Definition fn_align (args_align : nat) := Nat.max args_align ptr.
(** L389-393: is a factory of this size accepted? (its alignment is not looked at) *)
Definition accepted (fac_size fac_align : nat) : bool := fac_size <=? buf_size.
(** L402, and reading the object back L355 *)
Definition store (bytes : list nat) : list nat := put (repeat 0 buf_size) 0 bytes.
Definition load (buf : list nat) (n : nat) : list nat := firstn n buf.
