(** Model of __intrusive_slist (/repo/include/stdexec/__detail/__intrusive_slist.hpp L44-179), at the level of pointers:
    items are numbers, nil is None; the store has the __next_ member of every item and the __head_ of every list object (numbered too).
    Simplified: a loop over a list has fuel (Properties: the number of items is always enough; running out means that the loop does not end);
    a failed assertion stops the program (None). *)
From Coq Require Import List Arith Bool.
From Verif Require Import Conc.
Import ListNotations.
Set Implicit Arguments.

Record store := mk { next : nat -> option nat; head : nat -> option nat }.
Inductive op :=
| Push (i x : nat)      (* push_front, L91-95 *)
| Pop (i : nat)         (* pop_front, L85-89 *)
| Remove (i x : nat)    (* remove, L98-116 *)
| Swap (i j : nat)      (* swap, L57-60 *)
| Move (i j : nat)      (* i = std::move(j): L49-51, L62-66 *)
| Clear (i : nat)       (* clear, L79-82 *)
| Front (i : nat)       (* front, L74-77; None also means empty() *)
| Walk (i : nat).       (* for (item: list), L118-175 *)
Inductive result := RNone | RItem (x : option nat) | RItems (l : list nat).

Definition eqo (a : option nat) (x : nat) := match a with Some y => y =? x | None => false end.

(** L106-115: None: out of fuel *)
Fixpoint scan (fuel : nat) (nx : nat -> option nat) (cur : option nat) (x : nat) : option ((nat -> option nat) * option nat) :=
  match cur with
  | None => Some (nx, None)
  | Some c =>
      match fuel with
      | 0 => None
      | S fuel => if eqo (nx c) x then Some (fset nx c (nx x), Some x) else scan fuel nx (nx c) x
      end
  end.
Fixpoint walk (fuel : nat) (nx : nat -> option nat) (cur : option nat) : option (list nat) :=
  match cur with
  | None => Some []
  | Some c => match fuel with 0 => None | S fuel => match walk fuel nx (nx c) with Some l => Some (c :: l) | None => None end end
  end.
Definition pop (s : store) (i : nat) : option (store * option nat) :=
  match head s i with
  | None => None
  | Some x => Some (mk (next s) (fset (head s) i (next s x)), Some x)
  end.
Definition step (fuel : nat) (a : op) (s : store) : option (store * result) :=
  match a with
  | Push i x => Some (mk (fset (next s) x (head s i)) (fset (head s) i (Some x)), RNone)
  | Pop i => match pop s i with Some (s', r) => Some (s', RItem r) | None => None end
  | Remove i x =>
      if eqo (head s i) x then match pop s i with Some (s', r) => Some (s', RItem r) | None => None end
      else match scan fuel (next s) (head s i) x with Some (nx, r) => Some (mk nx (head s), RItem r) | None => None end
  | Swap i j => Some (mk (next s) (fset (fset (head s) i (head s j)) j (head s i)), RNone)
  | Move i j =>
      let tmp := head s j in                   (* the parameter is constructed, j is emptied *)
      let hd := fset (head s) j None in
      Some (mk (next s) (fset hd i tmp), RNone) (* swapped with the parameter, which is destroyed *)
  | Clear i => Some (mk (next s) (fset (head s) i None), RNone)
  | Front i => Some (s, RItem (head s i))
  | Walk i => match walk fuel (next s) (head s i) with Some l => Some (s, RItems l) | None => None end
  end.
Fixpoint run (fuel : nat) (ops : list op) (s : store) : option (store * list result) :=
  match ops with
  | [] => Some (s, [])
  | a :: ops => match step fuel a s with Some (s', r) => match run fuel ops s' with Some (s'', rs) => Some (s'', r :: rs) | None => None end | None => None end
  end.
Definition init (nx : nat -> option nat) : store := mk nx (fun _ => None).
