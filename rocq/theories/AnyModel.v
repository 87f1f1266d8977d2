(** Model of the storage of stdexec's type-erased values, STDEXEC::__any::__any
    (/repo/include/stdexec/__detail/__any.hpp), on which any_sender, any_scheduler, any_receiver, the operation states of
    any_sender and task_scheduler rest: a buffer that either holds a tagged pointer (null, or to an object on the
    heap) or an object itself (its first word is then the object's vtable pointer, which is not tagged).

    Simplified: constant evaluation (STDEXEC_IF_CONSTEVAL) and the non-owning __any_ptr are not modelled; values are
    numbers; a value's constructor called with arguments other than a value is called from a noexcept function
    (__box, L492) so that throwing there terminates the program: not modelled. *)
From Coq Require Import List Bool Arith.
From Verif Require Import Conc.
Import ListNotations.
Set Implicit Arguments.

(** A type of values: sizeof and alignof of the object stored for it (__value_model, L718: vtable pointer, value and
    allocator), and whether it is nothrow move constructible. *)
Record ty := mkty { size : nat; align : nat; nothrow : bool }.
(** An interface: __buffer_size, __buffer_alignment (L794-800), and whether it extends __imovable. *)
Record iface := mkif { bsize : nat; balign : nat; movable : bool }.

(** What the buffer __buff_ (L1218) contains: a tagged null pointer; a tagged pointer to object o; object o;
    the vtable pointer of an object whose construction failed. *)
Inductive word := WNull | WHeap (o : nat) | WSitu (o : nat) | WJunk.

(** Newest first. [ECtor o v]: object o was constructed with value v; [EDtor o]: destroyed; [EUse o]: its value is moved or copied from or assigned to;
    [EAlloc]/[EFree]: memory for object o is allocated/released; [EBad]: a virtual function is called on a buffer that
    holds no object; [EMis o]: o was constructed in a buffer that is not sufficiently aligned for its type. *)
Inductive event := ECtor (o v : nat) | EDtor (o : nat) | EUse (o : nat) | EAlloc (o : nat) | EFree (o : nat) | EBad | EMis (o : nat).

(** [ifc p]: the interface of the any named p, None if there is no such object (names 0 and 1 are used for temporaries
    and parameters); [w p]: its buffer; [val o]: the value of object o, None if it was moved from; [oty o]: its type. *)
Record state := mks { ifc : nat -> option iface; w : nat -> word; next : nat; val : nat -> option nat; oty : nat -> ty; log : list event }.
Definition init := mks (fun _ => None) (fun _ => WNull) 1 (fun _ => None) (fun _ => mkty 0 1 true) [].

Definition emit s e := mks (ifc s) (w s) (next s) (val s) (oty s) (e :: log s).
Definition set_w s p x := mks (ifc s) (fset (w s) p x) (next s) (val s) (oty s) (log s).
Definition set_ifc s p i := mks (fset (ifc s) p i) (w s) (next s) (val s) (oty s) (log s).
Definition set_val s o v := mks (ifc s) (w s) (next s) (fset (val s) o v) (oty s) (log s).
Definition alloc_id s := mks (ifc s) (w s) (S (next s)) (val s) (oty s) (log s).

(** Where an exception is thrown: by the allocator; while the value is copied or moved into the by-value parameter of __box's
    constructor (L488; evaluated before any base of the model is initialised); or by the function
    of the __in_place_from constructor (L499, L507), called when the model's base classes have been initialised. *)
Inductive thr := TNone | TAlloc | TArgs | TBody.

(** __is_small, L356-372 (value models).  The alignment is not looked at. *)
Definition is_small (i : iface) (t : ty) : bool := (size t <=? bsize i) && (negb (movable i) || nothrow t).

(** object o of type t with value v is constructed *)
Definition construct s o (t : ty) (v : nat) :=
  mks (ifc s) (w s) (next s) (fset (val s) o (Some v)) (fset (oty s) o t) (ECtor o v :: log s).
(** __emplace_into, L638-669, for the any p, whose interface is i.  The result says whether it throws. *)
Definition emplace_into s p (i : iface) (t : ty) (v : nat) (x : thr) : state * bool :=
  let o := next s in
  let s := alloc_id s in
  if is_small i t then
    match x with
    | TNone | TAlloc => (* L654: construct_at in the buffer *)
        let s := construct (set_w s p (WSitu o)) o t v in
        (if balign i mod align t =? 0 then s else emit s (EMis o), false)
    | TArgs => (s, true)
    | TBody => (set_w s p WJunk, true)
    end
  else
    match x with
    | TAlloc => (s, true)
    | TArgs | TBody => (emit (emit s (EAlloc o)) (EFree o), true)   (* __dealloc_guard *)
    | TNone => (set_w (construct (emit s (EAlloc o)) o t v) p (WHeap o), false)
    end.

(** __reset_, L1183-1201; __delete_ of the model, L727-733 *)
Definition reset s p : state :=
  match w s p with
  | WNull => s
  | WSitu o => set_w (emit s (EDtor o)) p WNull
  | WHeap o => set_w (emit (emit s (EDtor o)) (EFree o)) p WNull
  | WJunk => set_w (emit s EBad) p WNull
  end.

(** the value of object o is moved from: the state, and the value *)
Definition take s o : state * nat := (set_val (emit s (EUse o)) o None, match val s o with Some v => v | None => 0 end).

Definition tagged (x : word) : bool := match x with WNull | WHeap _ => true | _ => false end.
Definition null (x : word) : bool := match x with WNull => true | _ => false end.

(** __move_to_empty, L1157-1180, from p to q (of the same interface); __move_to of the model, L737-748 *)
Definition move_to_empty s p q (i : iface) : state :=
  match w s p with
  | WHeap o => set_w (set_w s q (WHeap o)) p WNull
  | WSitu o => let '(s, v) := take s o in reset (fst (emplace_into s q i (oty s o) v TNone)) p
  | WNull | WJunk => emit s EBad
  end.
Definition swap_words s p q := set_w (set_w s p (w s q)) q (w s p).

(** swap, L1003-1032, when p or q is empty: used by the move constructor. *)
Definition swap1 s p q i : state :=
  if tagged (w s p) && tagged (w s q) then swap_words s p q
  else if null (w s p) then move_to_empty s q p i
  else move_to_empty s p q i.
(** Move constructor, L964-969: p is constructed from q. *)
Definition move_ctor s p q i : state := swap1 (set_ifc (set_w s p WNull) p (Some i)) p q i.
(** Destructor, L979-982. *)
Definition dtor s p : state := set_ifc (reset s p) p None.
(** swap, L1003-1032. *)
Definition swap s p q i : state :=
  if p =? q then s
  else if tagged (w s p) && tagged (w s q) then swap_words s p q
  else if null (w s p) then move_to_empty s q p i
  else if null (w s q) then move_to_empty s p q i
  else let s := move_ctor s 0 p i in
       let s := move_to_empty s q p i in
       let s := move_to_empty s 0 q i in
       dtor s 0.

(** Copy constructor, L971-977; __copy_to of the model, L751-761. If it throws, p is destroyed (the delegated constructor has
    completed). *)
Definition copy_ctor s p q i (x : thr) : state * bool :=
  let s := set_ifc (set_w s p WNull) p (Some i) in
  match w s q with
  | WNull => (s, false)
  | WJunk => (emit s EBad, false)
  | WSitu o | WHeap o =>
      let '(s, b) := emplace_into (emit s (EUse o)) p i (oty s o) (match val s o with Some v => v | None => 0 end) x in
      if b then (dtor s p, true) else (s, false)
  end.

(** __assign_from, L1952-1985, with __slice_to_, L810-837, from the any q into p, whose interface is i; [conv]: q's interface derives from p's (so pointers to its objects may be used). *)
Definition slice s q p i x : state * bool :=
  match w s q with
  | WNull | WJunk => (emit s EBad, false)
  | WSitu o | WHeap o =>
      let s := reset s p in
      let '(s, v) := take s o in
      let '(s, b) := emplace_into s p i (oty s o) v x in
      if b then (s, true) else (reset s q, false)
  end.
Definition assign_from s q p i (conv : bool) x : state * bool :=
  if null (w s q) then (s, false)
  else if negb conv then slice s q p i x
  else if tagged (w s q) then (set_w (set_w s p (w s q)) q WNull, false)
  else slice s q p i x.

(** The operations of a program. *)
Inductive op :=
| ONew (p : nat) (i : iface)                        (* __any() *)
| ONewValue (p : nat) (i : iface) (t : ty) (v : nat) (x : thr)  (* __any(value), L1863-1869 *)
| ONewFrom (p : nat) (i : iface) (t : ty) (v : nat) (x : thr)   (* __any(__in_place_from, fn), L1878-1883 *)
| OMove (p q : nat)                                 (* p is move constructed from q *)
| OCopy (p q : nat) (x : thr)                       (* p is copy constructed from q *)
| OConv (p q : nat) (i : iface) (conv : bool) (x : thr) (* p, with interface i, is constructed from std::move(q), L1886-1892 *)
| OAssign (p q : nat)                               (* p = std::move(q), L984-993 *)
| OCopyAssign (p q : nat) (x : thr)                 (* p = q, L995-1001 *)
| OConvAssign (p q : nat) (conv : bool) (x : thr)   (* p = std::move(q), another interface, L1913-1921 *)
| OEmplace (p : nat) (t : ty) (v : nat) (x : thr)   (* p = value, emplace(value): L1041-1046, L1904-1910 *)
| OSwap (p q : nat)
| OSet (p : nat) (v : nat)                          (* the value is assigned to, through __value *)
| OReset (p : nat)                                  (* __reset(p) *)
| ODestroy (p : nat).                               (* ~__any() *)

(** only the __in_place_from constructor calls a function that may throw there *)
Definition nobody (x : thr) : bool := match x with TBody => false | _ => true end.
Definition same_if (i j : iface) : bool := (bsize i =? bsize j) && (balign i =? balign j) && eqb (movable i) (movable j).
(** the name p can be given to a new object *)
Definition free_name s p : bool := (1 <? p) && match ifc s p with None => true | _ => false end.
(** the constructors of p after the default constructor, L1859-1883: on an exception p is destroyed *)
Definition construct_any s p i t v x : state * bool :=
  let '(s, b) := emplace_into (set_ifc (set_w s p WNull) p (Some i)) p i t v x in
  if b then (dtor s p, true) else (s, false).

Definition step (s : state) (a : op) : option (state * bool) :=
  match a with
  | ONew p i => if free_name s p then Some (set_ifc (set_w s p WNull) p (Some i), false) else None
  | ONewValue p i t v x => if free_name s p && nobody x then Some (construct_any s p i t v x) else None
  | ONewFrom p i t v x => if free_name s p then Some (construct_any s p i t v x) else None
  | OMove p q => match ifc s q with
      | Some i => if free_name s p && movable i then Some (move_ctor s p q i, false) else None
      | None => None end
  | OCopy p q x => match ifc s q with
      | Some i => if free_name s p && nobody x then Some (copy_ctor s p q i x) else None
      | None => None end
  | OConv p q i conv x => match ifc s q with
      | Some j => if free_name s p && movable i && movable j && nobody x then
            let s := move_ctor s 1 q j in               (* the parameter *)
            let s := set_ifc (set_w s p WNull) p (Some i) in
            let '(s, b) := assign_from s 1 p i conv x in
            let s := if b then dtor s p else s in
            Some (dtor s 1, b)
          else None
      | None => None end
  | OAssign p q => match ifc s p, ifc s q with
      | Some i, Some j => if movable i && same_if i j then Some (if p =? q then s else swap1 (reset s p) p q i, false) else None
      | _, _ => None end
  | OCopyAssign p q x => match ifc s p, ifc s q with
      | Some i, Some j =>
          if movable i && same_if i j && nobody x then
            if p =? q then Some (s, false)
            else let '(s, b) := copy_ctor s 1 q i x in
                 if b then Some (s, true) else Some (dtor (swap s 1 p i) 1, false)
          else None
      | _, _ => None end
  | OConvAssign p q conv x => match ifc s p, ifc s q with
      | Some i, Some j =>
          if negb (p =? q) && movable i && movable j && nobody x then
            let s := move_ctor s 1 q j in
            let '(s, b) := assign_from (reset s p) 1 p i conv x in
            Some (dtor s 1, b)
          else None
      | _, _ => None end
  | OEmplace p t v x => match ifc s p with
      | Some i => if nobody x then Some (emplace_into (reset s p) p i t v x) else None
      | None => None end
  | OSwap p q => match ifc s p, ifc s q with
      | Some i, Some j => if movable i && same_if i j then Some (swap s p q i, false) else None
      | _, _ => None end
  | OSet p v => match w s p with
      | WSitu o | WHeap o => Some (emit (set_val s o (Some v)) (EUse o), false)
      | WNull => None
      | WJunk => Some (emit s EBad, false)
      end
  | OReset p => match ifc s p with Some _ => Some (reset s p, false) | None => None end
  | ODestroy p => match ifc s p with Some _ => Some (dtor s p, false) | None => None end
  end.
(** The result of a program: the final state and, oldest first, whether each operation threw. *)
Fixpoint runs (l : list op) (s : state) : option (state * list bool) :=
  match l with
  | [] => Some (s, [])
  | a :: l => match step s a with
              | Some (s', b) => match runs l s' with Some (s'', bs) => Some (s'', b :: bs) | None => None end
              | None => None end
  end.
(** what a program sees: the value in p *)
Definition contents (s : state) (p : nat) : option nat :=
  match w s p with WSitu o | WHeap o => val s o | _ => None end.
