(** Model of senders that turn completions into values and back, of senders made from a function, and of the check for stop before starting:
    - exec::materialize, exec::dematerialize: /repo/include/exec/materialize.hpp L23-132, L134-237;
    - exec::just_from, just_error_from, just_stopped_from: /repo/include/exec/just_from.hpp L54-216;
    - exec::unless_stop_requested: /repo/include/exec/unless_stop_requested.hpp L28-126.
    A completion carries arguments; an argument is a completion tag (set_value_t, set_error_t, set_stopped_t) or another value with its type.
    What an operation does to its receiver is the list of the completions it calls, in order (a correct one calls exactly one).
    Simplified: types are numbers, cv and reference qualifiers are left out; the exception_ptr type is ty_eptr. *)
From Coq Require Import List Bool Arith.
Import ListNotations.
Set Implicit Arguments.

Inductive tag := TgValue | TgError | TgStopped.
Inductive ty := TyTag (t : tag) | Ty (n : nat).
Inductive arg := ATag (t : tag) | AVal (n v : nat).          (* AVal n v: value v of type n *)
Inductive compl := Val (l : list arg) | Err (a : arg) | Stp.
Inductive sig := SVal (l : list ty) | SErr (t : ty) | SStp.

Definition arg_ty (a : arg) : ty := match a with ATag t => TyTag t | AVal n _ => Ty n end.
Definition compl_sig (c : compl) : sig := match c with Val l => SVal (map arg_ty l) | Err a => SErr (arg_ty a) | Stp => SStp end.

(** ** materialize *)
(** The receiver L37-56 *)
Definition mat (c : compl) : compl :=
  match c with
  | Val l => Val (ATag TgValue :: l)
  | Err a => Val [ATag TgError; a]
  | Stp => Val [ATag TgStopped]
  end.
(** L91-103 *)
Definition mat_sig (s : sig) : sig :=
  match s with
  | SVal l => SVal (TyTag TgValue :: l)
  | SErr t => SVal [TyTag TgError; t]
  | SStp => SVal [TyTag TgStopped]
  end.

(** ** dematerialize *)
(** The receiver L148-164; None: no overload of set_value takes the arguments, the program does not compile *)
Definition demat (c : compl) : option compl :=
  match c with
  | Val (ATag TgValue :: l) => Some (Val l)
  | Val [ATag TgError; a] => Some (Err a)
  | Val [ATag TgStopped] => Some Stp
  | Val _ => None
  | Err a => Some (Err a)
  | Stp => Some Stp
  end.
(** L200-208; None: the signatures cannot be computed *)
Definition demat_sig (s : sig) : option sig :=
  match s with
  | SVal (TyTag TgValue :: l) => Some (SVal l)
  | SVal [TyTag TgError; t] => Some (SErr t)
  | SVal [TyTag TgStopped] => Some SStp
  | SVal _ => None
  | SErr t => Some (SErr t)
  | SStp => Some SStp
  end.
Fixpoint all {A B} (f : A -> option B) (l : list A) : option (list B) :=
  match l with
  | [] => Some []
  | x :: l => match f x, all f l with Some y, Some r => Some (y :: r) | _, _ => None end
  end.

(** ** just_from: the tag is set_value, set_error or set_stopped (_just_from<JustTag>) *)
Definition ty_eptr : ty := Ty 0.
Definition eptr : arg := AVal 0 0.
(** What the function does: the argument lists it gives to the sink, in order, whether it then throws (and which value), whether a call with the receiver's sink and with the probe is noexcept,
    and the signatures of its return value when called with the probe L54-65, L108-125. *)
Record fn := mkf { f_calls : list (list arg); f_throws : bool; f_nothrow : bool; f_probe_nothrow : bool; f_decl : list (list ty) }.
Definition with_tag (t : tag) (l : list arg) : option compl :=
  match t, l with
  | TgValue, _ => Some (Val l)
  | TgError, [a] => Some (Err a)
  | TgStopped, [] => Some Stp
  | _, _ => None
  end.
Definition sig_tag (t : tag) (l : list ty) : option sig :=
  match t, l with
  | TgValue, _ => Some (SVal l)
  | TgError, [a] => Some (SErr a)
  | TgStopped, [] => Some SStp
  | _, _ => None
  end.
(** L88-105; None: std::terminate, or the program does not compile *)
Definition just_from (t : tag) (f : fn) : option (list compl) :=
  match all (with_tag t) (f_calls f) with
  | None => None
  | Some l =>
      if f_nothrow f then (if f_throws f then None else Some l)
      else Some (l ++ (if f_throws f then [Err eptr] else []))
  end.
(** L108-125 *)
Definition just_from_sigs (t : tag) (f : fn) : option (list sig) :=
  match all (sig_tag t) (f_decl f) with
  | None => None
  | Some l => Some (if f_probe_nothrow f then l else l ++ [SErr ty_eptr])
  end.

(** ** unless_stop_requested *)
(** unstoppable: the token of the receiver can never ask (L104-120); stopped: the token asks for stop when the operation is started (L58-68); the child does child. The first result: is the child started? *)
Definition unless_stop (unstoppable stopped : bool) (child : list compl) : bool * list compl :=
  if unstoppable then (true, child)
  else if stopped then (false, [Stp]) else (true, child).
(** L38-43 *)
Definition unless_stop_sigs (unstoppable : bool) (l : list sig) : list sig := if unstoppable then l else l ++ [SStp].
