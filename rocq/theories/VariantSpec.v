(** Vocabulary of C65: what the users of __variant and __optional must respect, and what is counted. *)
From Coq Require Import List Bool Arith.
From Verif Require Import Conc VariantModel.
Import ListNotations.
Set Implicit Arguments.

Definition is_dtor o e := match e with EDtor u => u =? o | _ => false end.
Definition dtors o (l : list event) := cnt (is_dtor o) l.
Definition is_ctor o e := match e with ECtor _ _ u _ => u =? o | _ => false end.
Definition ctors o (l : list event) := cnt (is_ctor o) l.

(** the container an operation in progress works on, and the one it reads from *)
Definition target f := match f with FCtor v _ _ | FDtor v _ _ => v end.
Definition source f := match f with FDtor _ _ (KAssign q) => Some q | FDtor _ _ (KEmplace _ (Some (q, _))) => Some q | _ => None end.
(** a container that exists and is not involved in an operation in progress *)
Definition idle s v := alive (gc s v) = true /\ forall f, In f (stk s) -> target f <> v /\ source f <> Some v.
(** in the constructor of its content (at any depth) and in no other operation *)
Definition in_ctor s v := alive (gc s v) = true /\ exists k o, In (FCtor v k o) (stk s) /\ forall f, In f (stk s) -> (f = FCtor v k o \/ target f <> v) /\ source f <> Some v.
(** What user code may do: operations on idle containers, alternatives that exist, arguments not in the container itself; a container may be destroyed by the constructor of
    its own content, if that constructor then does not throw. *)
Definition polite (s : state) (a : action) : Prop :=
  match a with
  | ACreate o ts => o = true -> length ts = 1
  | AOp v (OpEmplace k a) => idle s v /\ k < length (cts (gc s v)) /\ match a with Some q => q <> v /\ idle s q | None => True end
  | AOp v (OpAssign q) => idle s v /\ idle s q /\ opt (gc s v) = false /\ opt (gc s q) = false /\ cts (gc s q) = cts (gc s v)
  | AOp v OpDestroy => idle s v \/ in_ctor s v
  | AOp v OpReset => idle s v /\ opt (gc s v) = true
  | AOp v OpGet => idle s v /\ idx (gc s v) <> None
  | ARet => True
  | AThrow => match stk s with FCtor v _ _ :: _ => alive (gc s v) = true | _ => False end
  end.
(** every history of polite users *)
Inductive reachable : state -> Prop :=
| r_init : reachable init
| r_step s a s' : reachable s -> polite s a -> step s a = Some s' -> reachable s'.
(** any history *)
Fixpoint runs (al : list action) (s : state) : option state :=
  match al with
  | [] => Some s
  | a :: al => match step s a with Some s' => runs al s' | None => None end
  end.
