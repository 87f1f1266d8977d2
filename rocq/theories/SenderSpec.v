(** * SenderSpec: the vocabulary in which the sender properties are stated.

    [wt s]: the user-supplied parts of the expression (functions, copy constructors, leaf
    senders) respect the types and noexcept-ness they declare, and the expression is one that
    stdexec accepts at compile time.  Nothing here talks about operation states. *)

From Coq Require Import List Arith Bool Lia.
From Verif Require Import SenderModel.
Import ListNotations.
Set Implicit Arguments.

(** A completion that the signature set [S] allows although its datums are not all nothrow
    decay-copyable: the only ones whose copy may throw. *)
Definition may_throw (S : list sig) (c : compl) : Prop :=
  exists s, In s S /\ matches c s /\ forallb nt (sig_args s) = false.
Definition cp_ok (cp : compl -> option nat) (S : list sig) : Prop :=
  forall c e, conforms S c -> cp c = Some e -> may_throw S c.

(** the function passed to then/upon_* honours its declared type *)
Definition fun_ok (k : chan) (ft : fty) (f : list val -> fres) (S : list sig) : Prop :=
  forall s vs, In s S -> sig_chan s = k -> Forall2 has_ty vs (sig_args s) ->
    match f vs with
    | FRet ws => Forall2 has_ty ws (f_ret ft (sig_args s))
    | FThrow _ => f_nothrow ft (sig_args s) = false
    end.

Definition single_val (S : list sig) : Prop := length (vals_of S) <= 1.

(** [finally]'s computed signatures account for throwing copies of the VALUE datums only
    (__finally.hpp L298-348), so copies of error datums are required not to throw. *)
Definition fin_cp_ok (cp : compl -> option nat) (S : list sig) : Prop :=
  forall c e, conforms S c -> cp c = Some e ->
    exists ts, In (SVal ts) S /\ matches c (SVal ts) /\ forallb nt ts = false.

Fixpoint wt (s : sender) : Prop :=
  match s with
  | Just ts vs => Forall2 has_ty vs ts
  | JustError t e => has_ty e t
  | JustStopped => True
  | Leaf _ _ => True
  | Schedule _ _ => True
  | Fun k _ ft f s => wt s /\ fun_ok k ft f (csigs s)
  | Let k _ lt thr f s =>
      wt s /\
      forall sg vs, In sg (csigs s) -> sig_chan sg = k -> Forall2 has_ty vs (sig_args sg) ->
        (forall e, thr vs = Some e -> l_nothrow lt (sig_args sg) = false) /\
        wt (f vs) /\ incl (csigs (f vs)) (l_sigs lt (sig_args sg))
  | Seq cthr cnt s1 s2 => wt s1 /\ wt s2 /\ (forall e, cthr = Some e -> cnt = false)
  | Finally cp s1 s2 => wt s1 /\ wt s2 /\ fin_cp_ok cp (csigs s1)
  | ContinuesOn cp _ _ s => wt s /\ cp_ok cp (csigs s)
  | StartsOn cthr cnt _ _ s => wt s /\ (forall e, cthr = Some e -> cnt = false)
  | On cp cthr cnt _ sg _ s =>
      wt s /\ (forall e, cthr = Some e -> cnt = false) /\
      cp_ok cp (seq_sigs cnt (cont_sigs (SVal [] :: sg) [SVal []]) (csigs s))
  | IntoVariant _ s => wt s
  | StoppedAsOptional cp s =>
      wt s /\ exists t, In (SVal [t]) (csigs s) /\
                (forall ts, In (SVal ts) (csigs s) -> ts = [t]) /\
                (forall v e, has_ty v t -> cp [v] = Some e -> nt t = false)
  | Bulk _ n fnt f s =>
      wt s /\ forall ts vs i e, In (SVal ts) (csigs s) -> Forall2 has_ty vs ts -> i < n ->
                f i vs = Some e -> fnt = false
  | RepeatUntil cthr cthr2 cp cnt s =>
      wt s /\ (forall ts, In (SVal ts) (csigs s) -> Forall (eq TBool) ts) /\
      (forall i e, cthr i = Some e -> cnt = false) /\
      (forall i e, cthr2 i = Some e -> cnt = false) /\
      (forall t x e, In (SErr t) (csigs s) -> has_ty x t -> cp x = Some e -> nt t = false) /\
      (forall x e, has_ty x TEptr -> cp x = Some e -> False)
  | RepeatN cthr cthr2 cp cnt n s =>
      (* repeat_n(0) completes with set_value() although the computed signatures contain
         set_value only if the child's do: see repeat_n_zero_signature_refuted *)
      (n <> 0 \/ sends KVal (csigs s) = true) /\
      wt s /\ (forall ts, In (SVal ts) (csigs s) -> ts = []) /\
      (forall i e, cthr i = Some e -> cnt = false) /\
      (forall i e, cthr2 i = Some e -> cnt = false) /\
      (forall t x e, In (SErr t) (csigs s) -> has_ty x t -> cp x = Some e -> nt t = false) /\
      (forall x e, has_ty x TEptr -> cp x = Some e -> False)
  | Shield s => wt s
  | WhenAll cp ss =>
      ss <> [] /\
      (fix all (i : nat) (ss : list sender) : Prop :=
         match ss with
         | [] => True
         | s :: ss => (wt s /\ single_val (csigs s) /\ cp_ok (cp i) (csigs s)) /\ all (S i) ss
         end) 0 ss
  | WhenAny cp ss =>
      ss <> [] /\
      (fix all (i : nat) (ss : list sender) : Prop :=
         match ss with
         | [] => True
         | s :: ss => (wt s /\ cp_ok (cp i) (csigs s)) /\ all (S i) ss
         end) 0 ss
  end.
