(** Model of exec::ignore_all_values (/repo/include/exec/sequence/ignore_all_values.hpp) over a sequence that offers its items in any way it likes, in particular at the same time on several threads (merge_each, merge).
    Modelled: __result_type L61-94 with its atomic word, a step for each access; the item receiver L103-144; the sequence receiver L205-248.
    The sequence is any sequence that keeps the contract of sequence senders: it starts items (any number, any order) while it runs and completes once, when every item it has started has completed.
    An item completes with any values, any error or stopped; the copy of an error may throw.
    Simplified: one total order of the steps (the relaxed compare-exchange L68, the release store L71 and the acquire load L82 are sequentially consistent). *)
From Coq Require Import List Arith Bool.
From Verif Require Import Conc.
Import ListNotations.
Set Implicit Arguments.

Inductive res := RV | RE (e : nat) | RS.
Definition ok (r : res) : bool := match r with RV => true | _ => false end.

(** An item: offered but not started, running, about to execute the compare-exchange L68, building the stored result L70, about to store 2 L71, about to complete the item operation (L113, L126, L137), over.
    r is what the item's sender completed with. *)
Inductive ipc := I0 | IRun | ICas (r : res) | IBuild (r : res) | ISet (r : res) | INote (r : res) | IDone (r : res).
(** The sequence: running, completed with a value and about to look at the result (L225-228), over, program terminated *)
Inductive qpc := QRun | QVisit | QOver | QTerm.

(** word: __emplaced_; slot: __result_ *)
Record st := mk { items : list ipc; word : nat; slot : option res; sq : qpc }.
Definition init n := mk (repeat I0 n) 0 None QRun.
Definition w_items s v := mk v (word s) (slot s) (sq s).
Definition w_word s v := mk (items s) v (slot s) (sq s).
Definition w_slot s v := mk (items s) (word s) v (sq s).
Definition w_sq s v := mk (items s) (word s) (slot s) v.

(** Events: item i starts; its sender completes with r; its item operation completes: with a value if r is one, stopped otherwise; the sequence completes with r; the receiver completes with r;
    the program is terminated; forbidden: reading a result that is not there. *)
Inductive event := EBegin (i : nat) | EItem (i : nat) (r : res) | ENext (i : nat) (r : res) | ESeq (r : res) | EComplete (r : res) | ETerm | EBad.

Definition quiet (p : ipc) : bool := match p with I0 | IDone _ => true | _ => false end.

(** An item starts; its sender completes with r; item i goes on (and the copy of its error throws or not); the sequence completes with r; the receiver of the sequence goes on. *)
Inductive label := LBegin (i : nat) | LItem (i : nat) (r : res) | LGo (i : nat) (throws : bool) | LSeq (r : res) | LVisit.

Definition set s i p := w_items s (upd (items s) i p).
Definition step (s : st) (l : label) : option (st * list event) :=
  match sq s, l with
  | QRun, LBegin i => match nth_error (items s) i with Some I0 => Some (set s i IRun, [EBegin i]) | _ => None end
  (* L109-138 *)
  | QRun, LItem i r => match nth_error (items s) i with
      | Some IRun => Some (set s i (if ok r then INote r else ICas r), [EItem i r])
      | _ => None end
  | QRun, LGo i throws => match nth_error (items s) i with
      (* L67-68 *)
      | Some (ICas r) => if word s =? 0 then Some (w_word (set s i (IBuild r)) 1, []) else Some (set s i (INote r), [])
      (* L70; __emplace is noexcept *)
      | Some (IBuild r) => if throws then Some (w_sq s QTerm, [ETerm]) else Some (w_slot (set s i (ISet r)) (Some r), [])
      (* L71 *)
      | Some (ISet r) => Some (w_word (set s i (INote r)) 2, [])
      (* L113, L126, L137 *)
      | Some (INote r) => Some (set s i (IDone r), [ENext i r])
      | _ => None end
  (* L225-239 *)
  | QRun, LSeq r => if forallb quiet (items s) then
        match r with RV => Some (w_sq s QVisit, [ESeq r]) | _ => Some (w_sq s QOver, [ESeq r; EComplete r]) end
      else None
  (* L80-90 *)
  | QVisit, LVisit => Some (w_sq s QOver, if word s =? 0 then [EComplete RV] else match slot s with Some r => [EComplete r] | None => [EBad] end)
  | _, _ => None
  end.

Definition cfg := (st * list event)%type.
Definition cstep (c : cfg) (l : label) : option cfg :=
  match step (fst c) l with Some (s, ev) => Some (s, rev ev ++ snd c) | None => None end.
Fixpoint runs (c : cfg) (ls : list label) : option cfg :=
  match ls with [] => Some c | l :: ls => match cstep c l with Some c' => runs c' ls | None => None end end.
Definition reachable n c := exists ls, runs (init n, []) ls = Some c.
