(** * SenderModel: the sender algebra of stdexec as an operational model.

    A [sender] is an expression built from stdexec's factories and adaptors;
    [start] models connect + start, [feed] models the arrival of one completion
    signal from a leaf operation (a user sender or a scheduler), [stop_op] the
    arrival of a stop request from the receiver's stop token.

    Every handler below returns the LIST of completion calls that it makes on
    the receiver it was connected to (nothing in the representation forces that
    list to have length one), the new operation state, and the observable
    effects (user function calls, leaf starts, undefined behaviour).

    Conventions
    - exceptions thrown by user code at a node (function call, decay-copy,
      connect) are parameters of the node, so they range over all behaviours;
    - value categories (references, cv) are not modelled: a type is its decayed
      form; "decay-copying throws" is modelled by the per-node copy functions;
    - environments carry the receiver's stop token (its current state), and the
      scheduler returned by get_start_scheduler; other queries are modelled in
      EnvModel.v;
    - domains / transform_sender customisation are not modelled (default_domain). *)

From Coq Require Import List Arith Bool Lia.
Import ListNotations.
Set Implicit Arguments.

(** ** Types, values, completions, signatures *)

(** C++ value types. [TBase n nothrow]: a user type, with the answer to
    __nothrow_decay_copyable (stdexec/__detail/__concepts.hpp).
    TEptr: std::exception_ptr.  TVar: std::variant<std::tuple<..>..>.
    TOpt: std::optional<T>.  TBool: bool. *)
Inductive ty :=
| TBase (n : nat) (nothrow : bool)
| TBool
| TEptr
| TVar (alts : list (list ty))
| TOpt (t : ty).

Inductive val :=
| VBase (n : nat) (nothrow : bool) (x : nat)
| VBool (b : bool)
| VEptr (e : nat)
| VVar (args : list val)
| VOpt (o : option val).

Inductive has_ty : val -> ty -> Prop :=
| ht_base n b x : has_ty (VBase n b x) (TBase n b)
| ht_bool b : has_ty (VBool b) TBool
| ht_eptr e : has_ty (VEptr e) TEptr
| ht_var args alts a : In a alts -> Forall2 has_ty args a -> has_ty (VVar args) (TVar alts)
| ht_none t : has_ty (VOpt None) (TOpt t)
| ht_some v t : has_ty v t -> has_ty (VOpt (Some v)) (TOpt t).

(** __nothrow_decay_copyable<T> *)
Definition nt (t : ty) : bool :=
  match t with TBase _ b => b | TBool | TEptr => true | TVar _ => false | TOpt _ => false end.

(** A completion signal: set_value(vs...), set_error(e), set_stopped(). *)
Inductive compl := Val (vs : list val) | Err (e : val) | Stop.

Inductive chan := KVal | KErr | KStop.

Definition chan_eqb (a b : chan) : bool :=
  match a, b with KVal, KVal | KErr, KErr | KStop, KStop => true | _, _ => false end.

Definition compl_chan (c : compl) : chan :=
  match c with Val _ => KVal | Err _ => KErr | Stop => KStop end.
Definition compl_args (c : compl) : list val :=
  match c with Val vs => vs | Err e => [e] | Stop => [] end.

(** completion_signatures<...> entries: set_value_t(Ts...), set_error_t(E), set_stopped_t() *)
Inductive sig := SVal (ts : list ty) | SErr (t : ty) | SStop.

Definition sig_chan (s : sig) : chan :=
  match s with SVal _ => KVal | SErr _ => KErr | SStop => KStop end.
Definition sig_args (s : sig) : list ty :=
  match s with SVal ts => ts | SErr t => [t] | SStop => [] end.

Definition matches (c : compl) (s : sig) : Prop :=
  match c, s with
  | Val vs, SVal ts => Forall2 has_ty vs ts
  | Err e, SErr t => has_ty e t
  | Stop, SStop => True
  | _, _ => False
  end.

(** The completion [c] is allowed by the signature set [S]. *)
Definition conforms (S : list sig) (c : compl) : Prop := exists s, In s S /\ matches c s.

(** __eptr_completion_t (stdexec/__detail/__completion_signatures.hpp) *)
Definition eptr_sig : sig := SErr TEptr.
Definition unless (b : bool) : list sig := if b then [] else [eptr_sig].

Definition is_val (s : sig) : bool := match s with SVal _ => true | _ => false end.
Definition is_err (s : sig) : bool := match s with SErr _ => true | _ => false end.
Definition is_stop (s : sig) : bool := match s with SStop => true | _ => false end.
Definition sends (k : chan) (S : list sig) : bool :=
  existsb (fun s => chan_eqb (sig_chan s) k) S.
Definition drop_vals (S : list sig) : list sig := filter (fun s => negb (is_val s)) S.
Definition vals_of (S : list sig) : list (list ty) :=
  flat_map (fun s => match s with SVal ts => [ts] | _ => [] end) S.

(** __nothrow_decay_copyable_results_t: every argument of every signature *)
Definition all_nt (S : list sig) : bool := forallb (fun s => forallb nt (sig_args s)) S.

(** ** Sender expressions *)

(** Static type information of an invocable: result types (empty = void) and
    noexcept-ness for given argument types. *)
Record fty := { f_ret : list ty -> list ty; f_nothrow : list ty -> bool }.
(** ... and of a function returning a sender (the let family): the completion signatures of the
    sender type it returns; noexcept-ness of copy+invoke+connect together. *)
Record lty := { l_sigs : list ty -> list sig; l_nothrow : list ty -> bool }.

Inductive fres := FRet (vs : list val) | FThrow (e : nat).

Definition copyfn := list val -> option nat. (* Some e = the decay-copy throws e *)

Inductive sender :=
(* stdexec/__detail/__just.hpp L58-: just / just_error / just_stopped *)
| Just (ts : list ty) (vs : list val)
| JustError (t : ty) (e : val)
| JustStopped
(* an arbitrary asynchronous sender with declared signatures *)
| Leaf (l : nat) (sg : list sig)
(* schedule(sch): value completion on sch's context, plus further signatures *)
| Schedule (sch : nat) (sg : list sig)
(* then / upon_error / upon_stopped *)
| Fun (k : chan) (fid : nat) (ft : fty) (f : list val -> fres) (s : sender)
(* let_value / let_error / let_stopped *)
| Let (k : chan) (fid : nat) (lt : lty) (thr : copyfn) (f : list val -> sender) (s : sender)
(* __sequence / exec::sequence of two senders; [cthr]: connect(s2) throws *)
| Seq (cthr : option nat) (cnt : bool) (s1 s2 : sender)
(* __finally_ *)
| Finally (cp : compl -> option nat) (s1 s2 : sender)
(* continues_on *)
| ContinuesOn (cp : compl -> option nat) (sch : nat) (sg : list sig) (s : sender)
(* starts_on: lowered to sequence(continues_on(just(), sch), s) *)
| StartsOn (cthr : option nat) (cnt : bool) (sch : nat) (sg : list sig) (s : sender)
(* on(sch, s): lowered to continues_on(starts_on(sch, s), <start scheduler of the env>) *)
| On (cp : compl -> option nat) (cthr : option nat) (cnt : bool)
     (sch : nat) (sg oldsg : list sig) (s : sender)
| IntoVariant (cp : copyfn) (s : sender)
| StoppedAsOptional (cp : copyfn) (s : sender)
(* sequential bulk_unchunked; f i vs = Some e: the call for index i throws e *)
| Bulk (fid : nat) (n : nat) (fnt : bool) (f : nat -> list val -> option nat) (s : sender)
| RepeatUntil (cthr cthr2 : nat -> option nat) (cp : val -> option nat) (cnt : bool) (s : sender)
| RepeatN (cthr cthr2 : nat -> option nat) (cp : val -> option nat) (cnt : bool) (n : nat) (s : sender)
(* write_env(s, prop(get_stop_token, never_stop_token{})) *)
| Shield (s : sender)
| WhenAll (cp : nat -> compl -> option nat) (ss : list sender)
| WhenAny (cp : nat -> compl -> option nat) (ss : list sender).

(** ** Completion signatures: get_completion_signatures of each sender *)

(** then L53-83, upon_error, upon_stopped: transform the matching channel *)
Definition fun_sigs (k : chan) (ft : fty) (S : list sig) : list sig :=
  flat_map (fun s => if chan_eqb (sig_chan s) k
                     then SVal (f_ret ft (sig_args s)) :: unless (f_nothrow ft (sig_args s))
                     else [s]) S.

(** __let.hpp L555-627 *)
Definition let_sigs (k : chan) (lt : lty) (S : list sig) : list sig :=
  flat_map (fun s => if chan_eqb (sig_chan s) k
                     then l_sigs lt (sig_args s) ++ unless (l_nothrow lt (sig_args s))
                     else [s]) S.

(** __sequence.hpp L374-414 *)
Definition seq_sigs (cnt : bool) (S1 S2 : list sig) : list sig :=
  if sends KVal S1 then drop_vals S1 ++ S2 ++ unless cnt else S1.

(** __decay_arguments (__transform_completion_signatures.hpp L367-386) on one channel *)
Definition decay_args (k : chan) (S : list sig) : list sig :=
  flat_map (fun s => if chan_eqb (sig_chan s) k
                     then s :: unless (forallb nt (sig_args s)) else [s]) S.

(** __finally.hpp L298-348 *)
Definition fin_sigs (S1 S2 : list sig) : list sig :=
  if sends KVal S2 then decay_args KVal S1 ++ drop_vals S2 else drop_vals S1 ++ S2.

(** __continues_on.hpp L299-344 *)
Definition cont_sigs (sg S : list sig) : list sig :=
  let child := decay_args KErr (decay_args KVal S) in
  child ++ drop_vals sg ++ unless (all_nt child).

(** __into_variant.hpp L94-111 *)
Definition var_sigs (S : list sig) : list sig :=
  drop_vals S ++ [SVal [TVar (vals_of S)]; eptr_sig].

(** __stopped_as_optional.hpp L63-99 (single value, one argument) *)
Definition opt_sigs (S : list sig) : list sig :=
  flat_map (fun s => match s with
                     | SVal ts => match ts with
                                  | [t] => SVal [TOpt t] :: unless (nt t)
                                  | _ => [] end
                     | SErr t => [s]
                     | SStop => [] end) S.

(** __bulk.hpp L227-261 *)
Definition bulk_sigs (fnt : bool) (S : list sig) : list sig :=
  flat_map (fun s => match s with SVal ts => s :: unless fnt | _ => [s] end) S.

(** trampoline_scheduler's schedule sender, exec/trampoline_scheduler.hpp L244-255 *)
Definition tramp_sg : list sig := [SStop].

(** exec/repeat_until.hpp L235-313 (values convertible to bool without throwing) *)
Definition rep_sigs (cnt : bool) (S : list sig) : list sig :=
  flat_map (fun s => match s with
                     | SVal _ => [SVal []]
                     | SErr t => s :: unless (nt t)
                     | SStop => [s] end) S ++ unless cnt ++ tramp_sg.
(** exec/repeat_n.hpp L204-238: from the signatures of the bouncing sequence *)
Definition repn_sigs (cnt : bool) (S : list sig) : list sig :=
  decay_args KErr (seq_sigs cnt (SVal [] :: tramp_sg) S) ++ unless cnt.

(** __when_all.hpp L464-498 *)
Definition all_sigs (SS : list (list sig)) : list sig :=
  unless (forallb all_nt SS)
  ++ (if forallb (sends KVal) SS
      then [SVal (concat (map (fun S => hd [] (vals_of S)) SS))] else [])
  ++ flat_map drop_vals SS.

(** exec/when_any.hpp L46-70 *)
Definition any_sigs (SS : list (list sig)) : list sig :=
  unless (forallb all_nt SS) ++ [SStop] ++ concat SS.

Fixpoint csigs (s : sender) : list sig :=
  match s with
  | Just ts _ => [SVal ts]
  | JustError t _ => [SErr t]
  | JustStopped => [SStop]
  | Leaf _ sg => sg
  | Schedule _ sg => SVal [] :: sg
  | Fun k _ ft _ s => fun_sigs k ft (csigs s)
  | Let k _ lt _ _ s => let_sigs k lt (csigs s)
  | Seq _ cnt s1 s2 => seq_sigs cnt (csigs s1) (csigs s2)
  | Finally _ s1 s2 => fin_sigs (csigs s1) (csigs s2)
  | ContinuesOn _ _ sg s => cont_sigs (SVal [] :: sg) (csigs s)
  | StartsOn _ cnt _ sg s => seq_sigs cnt (cont_sigs (SVal [] :: sg) [SVal []]) (csigs s)
  | On _ _ cnt _ sg oldsg s =>
      cont_sigs (SVal [] :: oldsg)
                (seq_sigs cnt (cont_sigs (SVal [] :: sg) [SVal []]) (csigs s))
  | IntoVariant _ s => var_sigs (csigs s)
  | StoppedAsOptional _ s => opt_sigs (csigs s)
  | Bulk _ _ fnt _ s => bulk_sigs fnt (csigs s)
  | RepeatUntil _ _ _ cnt s => rep_sigs cnt (csigs s)
  | RepeatN _ _ _ cnt _ s => repn_sigs cnt (csigs s)
  | Shield s => csigs s
  | WhenAll _ ss => all_sigs (map csigs ss)
  | WhenAny _ ss => any_sigs (map csigs ss)
  end.

(** ** Operation states *)

(** What the receiver's environment answers: is stop requested on its token, and
    get_start_scheduler. *)
Record env := { e_stop : bool; e_sch : nat }.
Definition stop_env (e : env) : env := {| e_stop := true; e_sch := e_sch e |}.

(** A completion call on a receiver: which completion, on which execution context. *)
Definition call := (compl * nat)%type.

Inductive obs :=
| OCall (fid : nat) (args : list val)     (* a user function was invoked *)
| OIndex (fid : nat) (i : nat)            (* bulk: function invoked for index i *)
| OStart (l : nat) (ctx : nat) (stop : bool) (* leaf l started on ctx, its token's state *)
| OUb.                                    (* undefined behaviour *)

(** __when_all.hpp L595-663, __state_t: __started, __error, __stopped *)
Inductive wst := WStarted | WError | WStopped.
Record wstatic := {
  ws_cp : nat -> compl -> option nat;  (* decay-copy of child i's results throws *)
  ws_sends_stopped : bool;             (* _SendsStopped *)
  ws_uses : bool;                      (* __uses_stop_source *)
  ws_values : bool }.                  (* _ValuesTuple is not __ignore *)
Record wstate := {
  w_st : wst;                          (* __state_ *)
  w_err : option val;                  (* __errors_ *)
  w_vals : list (option (list val));   (* __values_ *)
  w_cnt : nat;                         (* __count_ *)
  w_src : bool }.                      (* __stop_source_.stop_requested() *)
(** exec/when_any.hpp L77-165 *)
Record astate := {
  a_res : option compl;                (* __emplaced_ / __result_ *)
  a_cnt : nat;
  a_src : bool;
  a_pstop : bool }.                    (* receiver's token: stop_requested() *)

Inductive op :=
| ODone
| OLeaf (l : nat) (sg : list sig) (stp : bool)
| OSched (sch : nat) (sg : list sig) (stp : bool)
| OFun (k : chan) (fid : nat) (ft : fty) (f : list val -> fres) (o : op)
| OLet1 (k : chan) (fid : nat) (lt : lty) (thr : copyfn) (f : list val -> sender) (e : env) (o : op)
| OLet2 (o : op)
| OSeq1 (cthr : option nat) (cnt : bool) (s2 : sender) (e2 : env) (o : op)
| OSeq2 (o : op)
| OFin1 (cp : compl -> option nat) (s2 : sender) (e : env) (o : op)
| OFin2 (stored : option compl) (o : op)
| OCon1 (cp : compl -> option nat) (sch : nat) (sg : list sig) (e : env) (o : op)
| OCon2 (stored : compl) (o : op)
| OVar (cp : copyfn) (o : op)
| OOpt (cp : copyfn) (o : op)
| OBulk (fid : nat) (n : nat) (fnt : bool) (f : nat -> list val -> option nat) (o : op)
| ORep (cthr cthr2 : nat -> option nat) (cp : val -> option nat) (cnt : bool) (s : sender) (e : env)
       (k : nat) (o : op)
| ORepN (cthr cthr2 : nat -> option nat) (cp : val -> option nat) (cnt : bool) (s : sender) (e : env)
        (k : nat) (o : op)
| OShield (o : op)
| OWhen (ws : wstatic) (w : wstate) (os : list op)
| OAny (cp : nat -> compl -> option nat) (a : astate) (os : list op).

Record res := { r_op : op; r_calls : list call; r_obs : list obs }.

(** A leaf operation is outstanding somewhere in [o]. *)
Fixpoint live (o : op) : bool :=
  match o with
  | ODone => false
  | OLeaf _ _ _ | OSched _ _ _ => true
  | OFun _ _ _ _ o | OLet1 _ _ _ _ _ _ o | OLet2 o | OSeq1 _ _ _ _ o | OSeq2 o
  | OFin1 _ _ _ o | OFin2 _ o | OCon1 _ _ _ _ o | OCon2 _ o | OVar _ o | OOpt _ o
  | OBulk _ _ _ _ o | ORep _ _ _ _ _ _ _ o | ORepN _ _ _ _ _ _ _ o | OShield o => live o
  | OWhen _ _ os | OAny _ _ os => existsb live os
  end.

(** Destroying an operation state that is still running is undefined behaviour. *)
Definition destroy (o : op) : list obs := if live o then [OUb] else [].

(** The stop request travels down: leaves see it through their token; when_all and
    when_any have registered a callback that forwards it to their own source. *)
Fixpoint stop_op (o : op) : op :=
  match o with
  | ODone => ODone
  | OLeaf l sg _ => OLeaf l sg true
  | OSched sch sg _ => OSched sch sg true
  | OFun k fid ft f o => OFun k fid ft f (stop_op o)
  | OLet1 k fid lt thr f e o => OLet1 k fid lt thr f (stop_env e) (stop_op o)
  | OLet2 o => OLet2 (stop_op o)
  | OSeq1 c n s2 e o => OSeq1 c n s2 (stop_env e) (stop_op o)
  | OSeq2 o => OSeq2 (stop_op o)
  | OFin1 cp s2 e o => OFin1 cp s2 (stop_env e) (stop_op o)
  | OFin2 st o => OFin2 st (stop_op o)
  | OCon1 cp sch sg e o => OCon1 cp sch sg (stop_env e) (stop_op o)
  | OCon2 st o => OCon2 st (stop_op o)
  | OVar cp o => OVar cp (stop_op o)
  | OOpt cp o => OOpt cp (stop_op o)
  | OBulk fid n fnt f o => OBulk fid n fnt f (stop_op o)
  | ORep c c2 cp n s e k o => ORep c c2 cp n s (stop_env e) k (stop_op o)
  | ORepN c c2 cp n s e k o => ORepN c c2 cp n s (stop_env e) k (stop_op o)
  | OShield o => OShield o
  (* __when_all.hpp L563-585: CAS started -> stopped, then request_stop *)
  | OWhen ws w os =>
      if ws_uses ws then
        if w_cnt w =? 0 then OWhen ws w os
        else match w_st w with
             | WStarted =>
                 OWhen ws {| w_st := WStopped; w_err := w_err w; w_vals := w_vals w;
                             w_cnt := w_cnt w; w_src := true |} (map stop_op os)
             | _ => OWhen ws w os
             end
      else OWhen ws w (map stop_op os)
  (* exec/when_any.hpp L86-101 *)
  | OAny cp a os =>
      OAny cp {| a_res := a_res a; a_cnt := a_cnt a; a_src := true; a_pstop := true |}
           (if a_cnt a =? 0 then os else if a_src a then os else map stop_op os)
  end.

(** *** Handlers: what each adaptor does when its child calls its receiver.
    A second call from an already completed child is passed on unchanged (it would show
    up as a second completion of the whole expression). *)

(** then/upon_*: __then.hpp L85-104 with __set_value_from, __receivers.hpp L443-467 *)
Definition fun_handle (k : chan) (fid : nat) (f : list val -> fres) (c : call)
  : list call * list obs :=
  if chan_eqb (compl_chan (fst c)) k then
    let args := compl_args (fst c) in
    match f args with
    | FRet vs => ([(Val vs, snd c)], [OCall fid args])
    | FThrow e => ([(Err (VEptr e), snd c)], [OCall fid args])
    end
  else ([c], []).

(** into_variant: __into_variant.hpp L67-92 *)
Definition var_handle (cp : copyfn) (c : call) : list call :=
  match fst c with
  | Val vs => match cp vs with
              | None => [(Val [VVar vs], snd c)]
              | Some e => [(Err (VEptr e), snd c)]
              end
  | _ => [c]
  end.

(** stopped_as_optional: __stopped_as_optional.hpp L109-143 *)
Definition opt_handle (cp : copyfn) (c : call) : list call :=
  match fst c with
  | Val vs => match cp vs with
              | None => [(Val [VOpt (hd_error vs)], snd c)]
              | Some e => [(Err (VEptr e), snd c)]
              end
  | Err _ => [c]
  | Stop => [(Val [VOpt None], snd c)]
  end.

(** bulk_unchunked: __bulk.hpp L311-344: calls f(0), f(1), ... until n or an exception *)
Fixpoint bulk_loop (fid : nat) (f : nat -> list val -> option nat) (vs : list val)
         (i todo : nat) : option nat * list obs :=
  match todo with
  | 0 => (None, [])
  | S todo =>
      match f i vs with
      | Some e => (Some e, [OIndex fid i])
      | None => let (r, t) := bulk_loop fid f vs (S i) todo in (r, OIndex fid i :: t)
      end
  end.
Definition bulk_handle (fid n : nat) (f : nat -> list val -> option nat) (c : call)
  : list call * list obs :=
  match fst c with
  | Val vs => match bulk_loop fid f vs 0 n with
              | (None, t) => ([c], t)
              | (Some e, t) => ([(Err (VEptr e), snd c)], t)
              end
  | _ => ([c], [])
  end.

(** Apply a pure handler to the first call made by the child. *)
Definition wrap (mk : op -> op) (h : call -> list call * list obs) (r : res) : res :=
  match r_calls r with
  | [] => {| r_op := mk (r_op r); r_calls := []; r_obs := r_obs r |}
  | c :: rest =>
      let (cs, t) := h c in
      {| r_op := mk (r_op r); r_calls := cs ++ rest; r_obs := r_obs r ++ t |}
  end.

Definition pass (mk : op -> op) (r : res) : res :=
  {| r_op := mk (r_op r); r_calls := r_calls r; r_obs := r_obs r |}.

(** Second-phase adaptors: [h c child_op] says what happens after the child's call. *)
Definition bindr (mk : op -> op) (h : call -> op -> res) (r : res) : res :=
  match r_calls r with
  | [] => {| r_op := mk (r_op r); r_calls := []; r_obs := r_obs r |}
  | c :: rest =>
      let r2 := h c (r_op r) in
      {| r_op := r_op r2; r_calls := r_calls r2 ++ rest; r_obs := r_obs r ++ r_obs r2 |}
  end.

Definition fwd (mk : op -> op) (c : call) (o : op) : res :=
  {| r_op := mk o; r_calls := [c]; r_obs := [] |}.

(** when_all: __set_error, L800-834 (the errors are stored only by the first one) *)
Definition wa_set_error (cperr : option nat) (e : val) (w : wstate) : wstate :=
  match w_st w with
  | WError => w
  | _ => {| w_st := WError;
            w_err := Some (match cperr with None => e | Some x => VEptr x end);
            w_vals := w_vals w; w_cnt := w_cnt w; w_src := true |}
  end.

Fixpoint upd {A} (l : list A) (i : nat) (x : A) : list A :=
  match l, i with
  | [], _ => []
  | _ :: t, 0 => x :: t
  | h :: t, S i => h :: upd t i x
  end.

(** when_all: __complete of child i, L836-881, without the final __arrive *)
Definition wa_store (ws : wstatic) (i : nat) (c : compl) (w : wstate) : wstate :=
  match c with
  | Err e => wa_set_error (ws_cp ws i c) e w
  | Stop => match w_st w with
            | WStarted => {| w_st := WStopped; w_err := w_err w; w_vals := w_vals w;
                             w_cnt := w_cnt w; w_src := true |}
            | _ => w
            end
  | Val vs =>
      if ws_values ws then
        match ws_cp ws i c with
        | None => {| w_st := w_st w; w_err := w_err w; w_vals := upd (w_vals w) i (Some vs);
                     w_cnt := w_cnt w; w_src := w_src w |}
        | Some x => wa_set_error None (VEptr x) w
        end
      else w
  end.

Fixpoint cat_opt (l : list (option (list val))) : option (list val) :=
  match l with
  | [] => Some []
  | None :: _ => None
  | Some vs :: t => match cat_opt t with Some r => Some (vs ++ r) | None => None end
  end.

(** when_all: __complete, L612-649 *)
Definition wa_complete (ws : wstatic) (w : wstate) (ctx : nat) : list call * list obs :=
  let values := if ws_values ws then
                  match cat_opt (w_vals w) with
                  | Some vs => ([(Val vs, ctx)], [])
                  | None => ([], [OUb])
                  end
                else ([], []) in
  match w_st w with
  | WStopped => if ws_sends_stopped ws then ([(Stop, ctx)], []) else values
  | WStarted => values
  | WError => match w_err w with Some e => ([(Err e, ctx)], []) | None => ([], [OUb]) end
  end.

(** when_all: __arrive, L604-610 *)
Definition wa_arrive (ws : wstatic) (w : wstate) (ctx : nat) : wstate * list call * list obs :=
  let w' := {| w_st := w_st w; w_err := w_err w; w_vals := w_vals w;
               w_cnt := w_cnt w - 1; w_src := w_src w |} in
  if w_cnt w =? 1 then
    let (cs, t) := wa_complete ws w' ctx in (w', cs, t)
  else (w', [], []).

(** all the calls made by child i, each one stored and then arriving *)
Fixpoint wa_calls (ws : wstatic) (i : nat) (cs : list call) (w : wstate)
  : wstate * list call * list obs :=
  match cs with
  | [] => (w, [], [])
  | c :: cs =>
      let '(w1, out1, t1) := wa_arrive ws (wa_store ws i (fst c) w) (snd c) in
      let '(w2, out2, t2) := wa_calls ws i cs w1 in
      (w2, out1 ++ out2, t1 ++ t2)
  end.

(** when the node's stop source flips to requested, the running children see it *)
Definition wa_prop (w w' : wstate) (os : list op) : list op :=
  if negb (w_src w) && w_src w' then map stop_op os else os.

(** when_any: notify, exec/when_any.hpp L117-148 *)
Definition any_store (cp : nat -> compl -> option nat) (i : nat) (c : compl) (a : astate) : astate :=
  match a_res a with
  | Some _ => a
  | None => {| a_res := Some (match cp i c with None => c | Some x => Err (VEptr x) end);
               a_cnt := a_cnt a; a_src := true; a_pstop := a_pstop a |}
  end.
(** when_any: __arrive, L150-165 *)
Definition any_arrive (a : astate) (ctx : nat) : astate * list call * list obs :=
  let a' := {| a_res := a_res a; a_cnt := a_cnt a - 1; a_src := a_src a; a_pstop := a_pstop a |} in
  if a_cnt a =? 1 then
    if a_pstop a then (a', [(Stop, ctx)], [])
    else match a_res a with
         | Some c => (a', [(c, ctx)], [])
         | None => (a', [], [OUb])
         end
  else (a', [], []).
Fixpoint any_calls (cp : nat -> compl -> option nat) (i : nat) (cs : list call) (a : astate)
  : astate * list call * list obs :=
  match cs with
  | [] => (a, [], [])
  | c :: cs =>
      let '(a1, out1, t1) := any_arrive (any_store cp i (fst c) a) (snd c) in
      let '(a2, out2, t2) := any_calls cp i cs a1 in
      (a2, out1 ++ out2, t1 ++ t2)
  end.
Definition any_prop (a a' : astate) (os : list op) : list op :=
  if negb (a_src a) && a_src a' then map stop_op os else os.

(** when_all: initial state (__mk_state_fn L710-730) *)
Definition wa_static (cp : nat -> compl -> option nat) (ss : list sender) : wstatic :=
  let SS := map csigs ss in
  {| ws_cp := cp;
     ws_sends_stopped := existsb (sends KStop) SS;
     ws_uses := existsb (fun S => sends KErr S || sends KStop S || negb (all_nt S)) SS;
     ws_values := forallb (sends KVal) SS |}.
(** __start L788-798: emplacing on_stop_ runs the callback inline if already requested *)
Definition wa_init (ws : wstatic) (n : nat) (e : env) : wstate :=
  if ws_uses ws && e_stop e
  then {| w_st := WStopped; w_err := None; w_vals := repeat None n; w_cnt := n; w_src := true |}
  else {| w_st := WStarted; w_err := None; w_vals := repeat None n; w_cnt := n; w_src := false |}.

(** the environment children of when_all see (__env_t L461-462, __get_env L768-778) *)
Definition wa_env (ws : wstatic) (w : wstate) (e : env) : env :=
  {| e_stop := if ws_uses ws then w_src w else e_stop e; e_sch := e_sch e |}.

(** *** start *)

(** the continuation of sequence: __sequence.hpp L294-309 *)
Definition seq_next (cthr : option nat) (start2 : nat -> res) (mk : op -> op)
           (c : call) (o : op) : res :=
  match fst c with
  | Val _ =>
      match cthr with
      | Some e => {| r_op := mk o; r_calls := [(Err (VEptr e), snd c)]; r_obs := [] |}
      | None => let r2 := start2 (snd c) in
                {| r_op := OSeq2 (r_op r2); r_calls := r_calls r2; r_obs := destroy o ++ r_obs r2 |}
      end
  | _ => fwd mk c o
  end.

(** the receiver of finally's final sender, __finally.hpp L128-148: a value completion of the
    final sender replays the stored result, any other completion is forwarded *)
Definition fin2_handle (stored : option compl) (c : call) : list call * list obs :=
  (match fst c with
   | Val _ => match stored with Some st => [(st, snd c)] | None => [] end
   | _ => [c]
   end, []).

(** finally: __store_result_and_start_next_op, __finally.hpp L178-206.  If the final sender has
    no value completion nothing is stored; if the copy of the results throws, the exception is
    delivered and the final sender never runs. *)
Definition fin_next (cp : compl -> option nat) (sendsval : bool) (start2 : nat -> res)
           (c : call) (o : op) : res :=
  let run stored :=
    let r2 := wrap (OFin2 stored) (fin2_handle stored) (start2 (snd c)) in
    {| r_op := r_op r2; r_calls := r_calls r2; r_obs := destroy o ++ r_obs r2 |} in
  if sendsval then
    match cp (fst c) with
    | None => run (Some (fst c))
    | Some e => {| r_op := ODone; r_calls := [(Err (VEptr e), snd c)]; r_obs := destroy o |}
    end
  else run None.

(** continues_on: __complete, __continues_on.hpp L358-386: store, then start schedule(sch) *)
Definition con_next (cp : compl -> option nat) (sch : nat) (sg : list sig) (e : env)
           (mk : op -> op) (c : call) (o : op) : res :=
  match cp (fst c) with
  | Some x => {| r_op := mk o; r_calls := [(Err (VEptr x), snd c)]; r_obs := [] |}
  | None => {| r_op := OCon2 (fst c) (OSched sch sg (e_stop e)); r_calls := []; r_obs := destroy o |}
  end.
(** continues_on: __receiver2, L87-115 *)
Definition con2_handle (stored : compl) (c : call) : list call * list obs :=
  (match fst c with Val _ => [(stored, snd c)] | _ => [c] end, []).

(** let: __impl, __let.hpp L188-218 and __start_next_fn L267-284 *)
Definition let_next (k : chan) (fid : nat) (thr : copyfn) (start2 : list val -> nat -> res)
           (mk : op -> op) (c : call) (o : op) : res :=
  if chan_eqb (compl_chan (fst c)) k then
    let args := compl_args (fst c) in
    match thr args with
    | Some e => {| r_op := mk o; r_calls := [(Err (VEptr e), snd c)]; r_obs := [OCall fid args] |}
    | None => let r2 := start2 args (snd c) in
              {| r_op := OLet2 (r_op r2); r_calls := r_calls r2;
                 r_obs := OCall fid args :: destroy o ++ r_obs r2 |}
    end
  else fwd mk c o.

(** repeat: the child is sequence(schedule(trampoline_scheduler{}), s), freshly connected
    for each iteration (exec/repeat_until.hpp L179-205, repeat_n.hpp L150-185).  The
    trampoline completes on the context on which it was started. *)
Definition rep_child (cthr2 : option nat) (cnt : bool) (s : sender) (e : env) (ctx : nat) : op :=
  OSeq1 cthr2 cnt s e (OSched ctx tramp_sg (e_stop e)).

(** repeat_until: __receiver, L66-139.  [k] counts the iterations (it only selects
    whether re-connecting throws). *)
Definition rep_next (cthr cthr2 : nat -> option nat) (cp : val -> option nat) (cnt : bool) (s : sender)
           (e : env) (k : nat) (c : call) (o : op) : res :=
  match fst c with
  | Val vs =>
      if forallb (fun v => match v with VBool b => b | _ => true end) vs
      then {| r_op := ODone; r_calls := [(Val [], snd c)]; r_obs := destroy o |}
      else match cthr (S k) with
           | Some x => {| r_op := ODone; r_calls := [(Err (VEptr x), snd c)]; r_obs := destroy o |}
           | None => {| r_op := ORep cthr cthr2 cp cnt s e (S k) (rep_child (cthr2 (S k)) cnt s e (snd c));
                        r_calls := []; r_obs := destroy o |}
           end
  | Err x => match cp x with
             | None => {| r_op := ODone; r_calls := [c]; r_obs := destroy o |}
             | Some y => {| r_op := ODone; r_calls := [(Err (VEptr y), snd c)]; r_obs := destroy o |}
             end
  | Stop => {| r_op := ODone; r_calls := [c]; r_obs := destroy o |}
  end.

(** repeat_n: __receiver L66-109 and __repeat L163-185; [k] = __count_ *)
Definition repn_next (cthr cthr2 : nat -> option nat) (cp : val -> option nat) (cnt : bool) (s : sender)
           (e : env) (k : nat) (c : call) (o : op) : res :=
  match fst c with
  | Val _ =>
      match k - 1 with
      | 0 => {| r_op := ODone; r_calls := [(Val [], snd c)]; r_obs := destroy o |}
      | S k' => match cthr (S k') with
                | Some x => {| r_op := ODone; r_calls := [(Err (VEptr x), snd c)]; r_obs := destroy o |}
                | None => {| r_op := ORepN cthr cthr2 cp cnt s e (S k') (rep_child (cthr2 (S k')) cnt s e (snd c));
                             r_calls := []; r_obs := destroy o |}
                end
      end
  | Err x => match cp x with
             | None => {| r_op := ODone; r_calls := [c]; r_obs := destroy o |}
             | Some y => {| r_op := ODone; r_calls := [(Err (VEptr y), snd c)]; r_obs := destroy o |}
             end
  | Stop => {| r_op := ODone; r_calls := [c]; r_obs := destroy o |}
  end.

Definition mkres o cs t := {| r_op := o; r_calls := cs; r_obs := t |}.

(** sequence(continues_on(just(), sch), s): just() completes inline, is stored, and the
    schedule operation is started; then s runs with sch as its start scheduler. *)
Definition starts_on_op (cthr : option nat) (cnt : bool) (sch : nat) (sg : list sig) (s : sender)
           (e : env) : op :=
  OSeq1 cthr cnt s {| e_stop := e_stop e; e_sch := sch |}
        (OCon2 (Val []) (OSched sch sg (e_stop e))).

Fixpoint start (e : env) (ctx : nat) (s : sender) {struct s} : res :=
  match s with
  | Just _ vs => mkres ODone [(Val vs, ctx)] []
  | JustError _ x => mkres ODone [(Err x, ctx)] []
  | JustStopped => mkres ODone [(Stop, ctx)] []
  | Leaf l sg => mkres (OLeaf l sg (e_stop e)) [] [OStart l ctx (e_stop e)]
  | Schedule sch sg => mkres (OSched sch sg (e_stop e)) [] []
  | Fun k fid ft f s => wrap (OFun k fid ft f) (fun_handle k fid f) (start e ctx s)
  | Let k fid lt thr f s =>
      bindr (OLet1 k fid lt thr f e)
            (let_next k fid thr (fun args c => start e c (f args)) (OLet1 k fid lt thr f e))
            (start e ctx s)
  | Seq cthr cnt s1 s2 =>
      bindr (OSeq1 cthr cnt s2 e)
            (seq_next cthr (fun c => start e c s2) (OSeq1 cthr cnt s2 e)) (start e ctx s1)
  | Finally cp s1 s2 =>
      bindr (OFin1 cp s2 e)
            (fin_next cp (sends KVal (csigs s2)) (fun c => start e c s2)) (start e ctx s1)
  | ContinuesOn cp sch sg s =>
      bindr (OCon1 cp sch sg e) (con_next cp sch sg e (OCon1 cp sch sg e)) (start e ctx s)
  | StartsOn cthr cnt sch sg s => mkres (starts_on_op cthr cnt sch sg s e) [] []
  | On cp cthr cnt sch sg oldsg s =>
      mkres (OCon1 cp (e_sch e) oldsg e (starts_on_op cthr cnt sch sg s e)) [] []
  | IntoVariant cp s => wrap (OVar cp) (fun c => (var_handle cp c, [])) (start e ctx s)
  | StoppedAsOptional cp s => wrap (OOpt cp) (fun c => (opt_handle cp c, [])) (start e ctx s)
  | Bulk fid n fnt f s => wrap (OBulk fid n fnt f) (bulk_handle fid n f) (start e ctx s)
  | RepeatUntil cthr cthr2 cp cnt s =>
      mkres (ORep cthr cthr2 cp cnt s e 0 (rep_child (cthr2 0) cnt s e ctx)) [] []
  | RepeatN cthr cthr2 cp cnt n s =>
      match n with
      | 0 => mkres ODone [(Val [], ctx)] []
      | _ => mkres (ORepN cthr cthr2 cp cnt s e n (rep_child (cthr2 n) cnt s e ctx)) [] []
      end
  | Shield s => pass OShield (start {| e_stop := false; e_sch := e_sch e |} ctx s)
  | WhenAll cp ss =>
      let ws := wa_static cp ss in
      let '(w, os, cs, t) :=
        (fix go (i : nat) (ss : list sender) (w : wstate) (os : list op)
          : wstate * list op * list call * list obs :=
          match ss with
          | [] => (w, os, [], [])
          | s :: ss =>
              let r := start (wa_env ws w e) ctx s in
              let '(w1, out1, t1) := wa_calls ws i (r_calls r) w in
              let '(w2, os2, out2, t2) := go (S i) ss w1 (wa_prop w w1 (os ++ [r_op r])) in
              (w2, os2, out1 ++ out2, r_obs r ++ t1 ++ t2)
          end) 0 ss (wa_init ws (length ss) e) [] in
      mkres (OWhen ws w os) cs t
  | WhenAny cp ss =>
      (* exec/when_any.hpp L225-237: stop already requested -> set_stopped, nothing started *)
      let a0 := {| a_res := None; a_cnt := length ss; a_src := e_stop e; a_pstop := e_stop e |} in
      if e_stop e then mkres (OAny cp a0 []) [(Stop, ctx)] []
      else
      let '(a, os, cs, t) :=
        (fix go (i : nat) (ss : list sender) (a : astate) (os : list op)
          : astate * list op * list call * list obs :=
          match ss with
          | [] => (a, os, [], [])
          | s :: ss =>
              let r := start {| e_stop := a_src a; e_sch := e_sch e |} ctx s in
              let '(a1, out1, t1) := any_calls cp i (r_calls r) a in
              let '(a2, os2, out2, t2) := go (S i) ss a1 (any_prop a a1 (os ++ [r_op r])) in
              (a2, os2, out1 ++ out2, r_obs r ++ t1 ++ t2)
          end) 0 ss a0 [] in
      mkres (OAny cp a os) cs t
  end.

(** *** feed: the leaf at [p] (child indices at when_all/when_any nodes) completes *)
Fixpoint feed (o : op) (p : list nat) (c : call) {struct o} : option res :=
  match o with
  | ODone => None
  | OLeaf _ _ _ | OSched _ _ _ => match p with [] => Some (mkres ODone [c] []) | _ => None end
  | OFun k fid ft f o =>
      option_map (wrap (OFun k fid ft f) (fun_handle k fid f)) (feed o p c)
  | OLet1 k fid lt thr f e o =>
      option_map (bindr (OLet1 k fid lt thr f e)
                        (let_next k fid thr (fun args c => start e c (f args))
                                  (OLet1 k fid lt thr f e))) (feed o p c)
  | OLet2 o => option_map (pass OLet2) (feed o p c)
  | OSeq1 cthr cnt s2 e o =>
      option_map (bindr (OSeq1 cthr cnt s2 e)
                        (seq_next cthr (fun c => start e c s2) (OSeq1 cthr cnt s2 e))) (feed o p c)
  | OSeq2 o => option_map (pass OSeq2) (feed o p c)
  | OFin1 cp s2 e o =>
      option_map (bindr (OFin1 cp s2 e)
                        (fin_next cp (sends KVal (csigs s2)) (fun c => start e c s2))) (feed o p c)
  | OFin2 st o => option_map (wrap (OFin2 st) (fin2_handle st)) (feed o p c)
  | OCon1 cp sch sg e o =>
      option_map (bindr (OCon1 cp sch sg e) (con_next cp sch sg e (OCon1 cp sch sg e))) (feed o p c)
  | OCon2 st o => option_map (wrap (OCon2 st) (con2_handle st)) (feed o p c)
  | OVar cp o => option_map (wrap (OVar cp) (fun c => (var_handle cp c, []))) (feed o p c)
  | OOpt cp o => option_map (wrap (OOpt cp) (fun c => (opt_handle cp c, []))) (feed o p c)
  | OBulk fid n fnt f o => option_map (wrap (OBulk fid n fnt f) (bulk_handle fid n f)) (feed o p c)
  | ORep cthr cthr2 cp cnt s e k o =>
      option_map (bindr (ORep cthr cthr2 cp cnt s e k) (rep_next cthr cthr2 cp cnt s e k)) (feed o p c)
  | ORepN cthr cthr2 cp cnt s e k o =>
      option_map (bindr (ORepN cthr cthr2 cp cnt s e k) (repn_next cthr cthr2 cp cnt s e k)) (feed o p c)
  | OShield o => option_map (pass OShield) (feed o p c)
  | OWhen ws w os =>
      match p with
      | [] => None
      | i :: p =>
          match (fix nth_feed (os : list op) (i : nat) : option res :=
                   match os, i with
                   | [], _ => None
                   | o :: _, 0 => feed o p c
                   | _ :: os, S i => nth_feed os i
                   end) os i with
          | None => None
          | Some r =>
              let '(w1, out, t) := wa_calls ws i (r_calls r) w in
              Some (mkres (OWhen ws w1 (wa_prop w w1 (upd os i (r_op r)))) out (r_obs r ++ t))
          end
      end
  | OAny cp a os =>
      match p with
      | [] => None
      | i :: p =>
          match (fix nth_feed (os : list op) (i : nat) : option res :=
                   match os, i with
                   | [], _ => None
                   | o :: _, 0 => feed o p c
                   | _ :: os, S i => nth_feed os i
                   end) os i with
          | None => None
          | Some r =>
              let '(a1, out, t) := any_calls cp i (r_calls r) a in
              Some (mkres (OAny cp a1 (any_prop a a1 (upd os i (r_op r)))) out (r_obs r ++ t))
          end
      end
  end.

(** The leaf addressed by [p]. *)
Inductive leafkind := LkUser (l : nat) (sg : list sig) (stp : bool)
                    | LkSched (sch : nat) (sg : list sig) (stp : bool).
Fixpoint leaf_at (o : op) (p : list nat) {struct o} : option leafkind :=
  match o with
  | ODone => None
  | OLeaf l sg stp => match p with [] => Some (LkUser l sg stp) | _ => None end
  | OSched sch sg stp => match p with [] => Some (LkSched sch sg stp) | _ => None end
  | OFun _ _ _ _ o | OLet1 _ _ _ _ _ _ o | OLet2 o | OSeq1 _ _ _ _ o | OSeq2 o
  | OFin1 _ _ _ o | OFin2 _ o | OCon1 _ _ _ _ o | OCon2 _ o | OVar _ o | OOpt _ o
  | OBulk _ _ _ _ o | ORep _ _ _ _ _ _ _ o | ORepN _ _ _ _ _ _ _ o | OShield o => leaf_at o p
  | OWhen _ _ os | OAny _ _ os =>
      match p with
      | [] => None
      | i :: p => (fix nth_leaf (os : list op) (i : nat) : option leafkind :=
                     match os, i with
                     | [], _ => None
                     | o :: _, 0 => leaf_at o p
                     | _ :: os, S i => nth_leaf os i
                     end) os i
      end
  end.

(** ** Runs *)

Inductive event := EComplete (p : list nat) (c : call) | EStop.

(** A leaf honours its contract: it completes with a declared signature; a scheduler
    delivers its value completion on its own execution context. *)
Definition leaf_may (k : leafkind) (c : call) : Prop :=
  match k with
  | LkUser _ sg _ => conforms sg (fst c)
  | LkSched sch sg _ =>
      (fst c = Val [] /\ snd c = sch) \/ (conforms (drop_vals sg) (fst c))
  end.

Definition valid_event (o : op) (ev : event) : Prop :=
  match ev with
  | EStop => True
  | EComplete p c => exists k, leaf_at o p = Some k /\ leaf_may k c
  end.

Definition step (o : op) (ev : event) : option res :=
  match ev with
  | EStop => Some (mkres (stop_op o) [] [])
  | EComplete p c => feed o p c
  end.

(** [run r evs r']: from result [r], the events [evs] (each valid when it happens) lead to
    [r'], which accumulates all completion calls on the outermost receiver and all effects. *)
Inductive run : res -> list event -> res -> Prop :=
| run_nil r : run r [] r
| run_cons r ev evs r1 r' :
    valid_event (r_op r) ev ->
    step (r_op r) ev = Some r1 ->
    run (mkres (r_op r1) (r_calls r ++ r_calls r1) (r_obs r ++ r_obs r1)) evs r' ->
    run r (ev :: evs) r'.
