(** Model of exec::iterate (/repo/include/exec/sequence/iterate.hpp L53-175), the sequence sender that offers
    the elements of a range to a sequence receiver one at a time, and of its use below exec::transform_each
    (/repo/include/exec/sequence/transform_each.hpp L62-101) and exec::ignore_all_values
    (/repo/include/exec/sequence/ignore_all_values.hpp L61-248).

    iterate is sequential: there is one item operation at a time.  What the sequence receiver does with an item (the sender
    returned by set_next) is arbitrary: it may run the item any number of times (the item sender's connect is
    const&, L97), and complete the next receiver with set_value or set_stopped, at any later time; set_next and connect may
    throw.  Stop may be requested at any time.
    Simplified: the trampoline that each item goes through (L158) is C39's subject: running an item is one step;
    elements are numbers; comparing, copying and dereferencing iterators does not throw. *)
From Coq Require Import List Bool Arith.
Import ListNotations.
Set Implicit Arguments.

(** [items]: the range.  [once]: the senders the receiver makes of its items run the item exactly once before completing
    with set_value, and at most once before completing with set_stopped.  [owned]: the range's elements live in the sender
    expression (a container), and it was connected as an lvalue (L183-185 take iterators of the range in
    the sender; connecting an rvalue does not compile for such ranges). *)
Record cfg := mkcfg { items : list nat; once : bool; owned : bool }.

(** Completions of the receiver of the sequence. *)
Inductive compl := CVal | CErr | CStp.
(** Newest first.  [ENext]: set_next was called; [EItem v]: an item operation sends v (L81);
    [EOob]: the iterator is dereferenced past the end (L81); [EDangling]: an iterator into a destroyed range is used;
    [EDone c]: the receiver is completed. *)
Inductive event := ENext | EItem (v : nat) | EOob | EDangling | EDone (c : compl).

(** Not started; an item operation is running, its item was run k times; completed. *)
Inductive phase := PInit | PItem (k : nat) | PEnd.
Record state := mks { ph : phase; pos : nat; (* __iterator_ *) stop : bool; gone : bool; (* the sender was destroyed *) log : list event }.
Definition init := mks PInit 0 false false [].

Definition emit s e := mks (ph s) (pos s) (stop s) (gone s) (e :: log s).
Definition set_ph s p := mks p (pos s) (stop s) (gone s) (log s).
(** every use of an iterator *)
Definition use g s := if owned g && gone s then emit s EDangling else s.

(** __start_next, L145-167.  [throws]: set_next or connect throws. *)
Definition start_next (g : cfg) s (throws : bool) : state :=
  let s := use g s in
  if pos s =? length (items g) then emit (set_ph s PEnd) (EDone CVal)
  else let s := emit s ENext in
       if throws then emit (set_ph s PEnd) (EDone CErr) else set_ph s (PItem 0).

(** The item operation's start, L79-82. *)
Definition run_item (g : cfg) s k : state :=
  let s := use g s in
  let s := emit s (match nth_error (items g) (pos s) with Some v => EItem v | None => EOob end) in
  mks (PItem (S k)) (S (pos s)) (stop s) (gone s) (log s).

Inductive action :=
| AStart (throws : bool)             (* start(), L169-172 *)
| ARun                               (* the item operation of the current item is started *)
| ANextValue (throws : bool)         (* the next receiver's set_value, L111-114 *)
| ANextStopped                       (* the next receiver's set_stopped, L116-119 *)
| AStop                              (* stop is requested of the receiver *)
| AGone.                             (* the sender expression is destroyed *)

Definition step (g : cfg) (s : state) (a : action) : option state :=
  match a, ph s with
  | AStart t, PInit => Some (start_next g s t)
  | ARun, PItem k => if once g && (0 <? k) then None else Some (run_item g s k)
  | ANextValue t, PItem k => if once g && (k =? 0) then None else Some (start_next g s t)
  | ANextStopped, PItem _ => Some (emit (set_ph s PEnd) (EDone (if stop s then CStp else CVal)))
  | AStop, _ => Some (mks (ph s) (pos s) true (gone s) (log s))
  | AGone, _ => Some (mks (ph s) (pos s) (stop s) true (log s))
  | _, _ => None
  end.
Fixpoint runs g (l : list action) (s : state) : option state :=
  match l with
  | [] => Some s
  | a :: l => match step g s a with Some s' => runs g l s' | None => None end
  end.

(** * iterate | transform_each(f) | ignore_all_values
    [f v] is how the transformed item completes.  Each item operation is started, and later completes. *)
Inductive outcome := OVal | OErr (e : nat) | OStp.
Inductive final := FVal | FErr (e : nat) | FStp | FExc.
(** [res]: the stored result (ignore_all_values L61-94: the first failure is kept); [out]: completions of
    the final receiver, newest first. *)
Record pipe := mkp { it : state; cur : option nat; res : option outcome; out : list final }.
Definition pinit := mkp init None None [].

Inductive paction := PStart (throws : bool) | PRun | PFinish (throws : bool) | PStop.

(** What ignore_all_values does when the sequence completes: L225-239, L80-90. *)
Definition visit (r : option outcome) : final :=
  match r with None | Some OVal => FVal | Some (OErr e) => FErr e | Some OStp => FStp end.
Definition finish r (c : compl) : final := match c with CVal => visit r | CErr => FExc | CStp => FStp end.
(** deliver the completions made by a step of iterate *)
Definition dones (l0 l1 : list event) : list compl :=
  flat_map (fun e => match e with EDone c => [c] | _ => [] end) (firstn (length l1 - length l0) l1).
Definition lift p (s' : state) c r : pipe :=
  mkp s' c r (map (finish r) (dones (log (it p)) (log s')) ++ out p).

Definition pstep (g : cfg) (f : nat -> outcome) (p : pipe) (a : paction) : option pipe :=
  match a with
  | PStart t => match step g (it p) (AStart t) with Some s' => Some (lift p s' None (res p)) | None => None end
  | PRun => (* the item is started: it sends its value to the adaptor *)
      match ph (it p) with
      | PItem 0 => match step g (it p) ARun with
                   | Some s' => Some (lift p s' (nth_error (items g) (pos (it p))) (res p))
                   | None => None end
      | _ => None
      end
  | PFinish t => (* the transformed item completes: item receiver L109-138, then the next receiver *)
      match ph (it p), cur p with
      | PItem (S _), Some v =>
          let r := match res p, f v with
                   | None, OErr e => Some (OErr e) | None, OStp => Some OStp | r, _ => r end in
          match step g (it p) (match f v with OVal => ANextValue t | _ => ANextStopped end) with
          | Some s' => Some (lift p s' None r)
          | None => None
          end
      | _, _ => None
      end
  | PStop => match step g (it p) AStop with Some s' => Some (lift p s' (cur p) (res p)) | None => None end
  end.
Fixpoint pruns g f (l : list paction) (p : pipe) : option pipe :=
  match l with
  | [] => Some p
  | a :: l => match pstep g f p a with Some p' => pruns g f l p' | None => None end
  end.
