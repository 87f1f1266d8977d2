(** Model of environments and of the environment an adaptor shows to its child
    (/repo/include/stdexec/__detail/__env.hpp, __write_env.hpp, __when_all.hpp,
    __stop_when.hpp, __sequence.hpp, __let.hpp, __basic_sender.hpp).

    Queries and values are numbers; query arguments are not modelled (they are
    passed through unchanged).  Whether an environment answers a query is a
    compile-time fact in the code ([__queryable_with]) and an [option] here. *)
From Coq Require Import List Bool Arith.
Import ListNotations.
Set Implicit Arguments.

Definition query := nat.
Definition value := nat.

(** - [User f]: an environment type written by the user;
    - [PropE q v]: [prop{q, v}] (__env.hpp L200-222);
    - [EnvE l]: [env{e1, ..., en}] (__env.hpp L252-272), [EnvE []] is [env<>];
    - [FwdE e]: [__fwd] (__env.hpp L64-81). *)
Inductive env :=
| User (f : query -> option value)
| PropE (q : query) (v : value)
| EnvE (l : list env)
| FwdE (e : env).

Section Queries.
  (** [forwarding_query(q)] (__query.hpp L172-192). *)
  Variable fwdq : query -> bool.

  (** Does the environment answer the query, and with what.  [env]: the first
      element that supports the query, found by index as in [__get_1st_env]
      (__env.hpp L226-247, L258-271); [__fwd]: only forwarding queries
      (L69-77). *)
  Fixpoint ask (e : env) (q : query) : option value :=
    match e with
    | User f => f q
    | PropE q' v => if q =? q' then Some v else None
    | EnvE l =>
        (fix first (l : list env) : option value :=
           match l with
           | [] => None
           | e' :: r => match ask e' q with Some v => Some v | None => first r end
           end) l
    | FwdE e' => if fwdq q then ask e' q else None
    end.
End Queries.

(** [__decays_to<_Env, env<>>]. *)
Definition is_empty (e : env) : bool :=
  match e with EnvE [] => true | _ => false end.

(** __env.hpp L86-101: [__fwd_env]. *)
Definition fwd_env (e : env) : env :=
  match e with
  | EnvE [] => e
  | FwdE _ => e
  | _ => FwdE e
  end.

(** __env.hpp L107-134: [__env::__join]. *)
Definition join (e1 e2 : env) : env :=
  if is_empty e1 then fwd_env e2
  else if is_empty e2 then e1
  else EnvE [e1; fwd_env e2].

(** The environment of the receiver an adaptor connects its child to, from the
    environment of its own receiver:
    - [LPass]: the default of __basic_sender.hpp L178-183 (then, upon_*, bulk,
      into_variant, ...), the first child of let_* (__let.hpp L252-255),
      continues_on (__continues_on.hpp L109-112), repeat_n
      (exec/repeat_n.hpp L103-106): unchanged;
    - [LFwd]: the first child of a sequence (__sequence.hpp L269-272);
    - [LAdd e]: write_env (__write_env.hpp L50-54), when_all's and stop_when's
      children (__when_all.hpp L417-421 and L768-778, __stop_when.hpp L89-93),
      the second child of let_* (__let.hpp L90-94);
    - [LAddFwd e]: the second child of a sequence (__sequence.hpp L239-242) and
      of finally (__finally.hpp L151-154). *)
Inductive layer :=
| LPass
| LFwd
| LAdd (e : env)
| LAddFwd (e : env).

Definition through (l : layer) (outer : env) : env :=
  match l with
  | LPass => outer
  | LFwd => fwd_env outer
  | LAdd e => join e outer
  | LAddFwd e => join e (fwd_env outer)
  end.

(** The environment seen below a stack of adaptors, outermost first. *)
Fixpoint below (ls : list layer) (outer : env) : env :=
  match ls with
  | [] => outer
  | l :: r => below r (through l outer)
  end.

(** [get_stop_token] on an environment: [__query] with default
    [never_stop_token] (__stop_token.hpp / __query.hpp L75-90): the default when
    nobody answers. *)
Definition ask_or (fwdq : query -> bool) (e : env) (q : query) (dflt : value) : value :=
  match ask fwdq e q with Some v => v | None => dflt end.

(** __unstoppable.hpp L38: [unstoppable = write_env(prop{get_stop_token, never_stop_token{}})]. *)
Definition get_stop_token : query := 0.
Definition never_stop_token : value := 0.
Definition unstoppable : layer := LAdd (PropE get_stop_token never_stop_token).
