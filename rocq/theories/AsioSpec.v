(** C63: specification. *)
From Coq Require Import List Bool Arith.
From Verif Require Import Conc AsioModel.
Import ListNotations.
Set Implicit Arguments.

(** The handler is not invoked or destroyed by the very call that emits the cancellation signal; nor while another thread is about to run a function through the
    executor; and the initiation and the functions do not throw after the operation was completed. *)
Definition polite (l : list event) :=
  (forall i e o, In (ECons i e o) l -> e = false /\ o = false) /\ (forall l1 l2 c, l = l1 ++ ECompl c :: l2 -> ~ In EThrow l1).
Definition is_compl e := match e with ECompl _ => true | _ => false end.
Definition completions (l : list event) := length (filter is_compl l).
(** nobody is in a call *)
Definition idle s := forall t, stk s t = [].
