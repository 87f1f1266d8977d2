(** Model of the completion-behaviour attribute
    (/repo/include/stdexec/__detail/__completion_behavior.hpp), of the
    attributes senders and adaptors answer for it, and of the two places in the
    library that act on the answer: [affine] and the awaiter of [co_await].

    A behaviour is the 8-bit flag word of the code, here an [N]; all operations
    are the bit operations of the code. *)
From Coq Require Import List Bool NArith Arith.
Import ListNotations.
Set Implicit Arguments.
Open Scope N_scope.

Definition behavior := N.

(** __completion_behavior.hpp L51-56: the flag bits. *)
Definition not_affine_bit : N := 1.
Definition async_bit : N := 2.
Definition inline_bit : N := 4.

(** __completion_behavior.hpp L58-74. *)
Definition asynchronous : behavior := N.lor async_bit not_affine_bit.
Definition asynchronous_affine : behavior := async_bit.
Definition inline_completion : behavior := inline_bit.
Definition unknown : behavior := N.lor (N.lor not_affine_bit async_bit) inline_bit.

(** __completion_behavior.hpp L97-103: operator|. *)
Definition bor (a b : behavior) : behavior := N.lor a b.

(** __completion_behavior.hpp L112-131. *)
Definition is_affine (b : behavior) : bool := negb (negb (N.land b not_affine_bit =? 0)).
Definition is_always_asynchronous (b : behavior) : bool :=
  negb (negb (N.land b inline_bit =? 0)).
Definition may_be_asynchronous (b : behavior) : bool := negb (N.land b async_bit =? 0).

(** __completion_behavior.hpp L133-142: [__common], the fold [(__cbs | ...)]
    over a non-empty pack (a right fold in C++: [b1 | (b2 | (... | bn))]). *)
Fixpoint common (b : behavior) (l : list behavior) : behavior :=
  match l with
  | [] => b
  | b' :: r => bor b (common b' r)
  end.

(** The three completion channels. *)
Inductive tag := V | E | S.

Definition tag_eqb (a b : tag) : bool :=
  match a, b with V, V | E, E | S, S => true | _, _ => false end.

(** Schedulers: [inline_scheduler] (__inline_scheduler.hpp L38-44) and one that
    runs work on an execution context: run_loop (__run_loop.hpp L236-245) or
    static_thread_pool (exec/thread_pool_base.hpp L513-518).  Contexts are
    numbered; a thread pool counts as one context. *)
Inductive sched := SInline | SCtx (d : nat).

(** Where a sender written by a user may complete: inside [start], later on the
    context it was started on, or later on context [d]. *)
Inductive uplace := UInline | UHere | UOn (d : nat).

(** Sender expressions. *)
Inductive snd :=
| Just (t : tag)                              (* just / just_error / just_stopped *)
| Sched (s : sched)                           (* schedule(s) *)
| User (adv : tag -> option behavior)         (* a user's sender: its own attributes, *)
       (outs : list (tag * uplace))           (*   and how it may actually complete *)
| Then (t : tag) (a : snd) (throws : bool)    (* then / upon_error / upon_stopped *)
| Let (t : tag) (a k : snd) (throws : bool)   (* let_value / let_error / let_stopped *)
| Seq (a b : snd)                             (* __sequence(a, b) *)
| WhenAll (l : list snd)
| ContinuesOn (a : snd) (s : sched)
| StartsOn (s : sched) (a : snd)
| Bulk (a : snd) (throws : bool)
| Affine (a : snd) (s : sched).               (* affine(a), [s] the receiver's start scheduler *)

(** What a scheduler's schedule-sender answers.
    inline: set_value only (__inline_scheduler.hpp L38-43);
    run_loop / pool: set_value and set_stopped (__run_loop.hpp L236-245,
    thread_pool_base.hpp L513-518).  A query without an answer yields
    [unknown] (__completion_behavior.hpp L171-199). *)
Definition sched_attr (s : sched) (t : tag) : behavior :=
  match s, t with
  | SInline, V => inline_completion
  | SCtx _, V | SCtx _, S => asynchronous
  | _, _ => unknown
  end.

(** Completion signatures, seen as a set of channels.  [st]: the receiver's
    environment has a stop token that can be stopped (a schedule sender sends
    set_stopped only then, __run_loop.hpp L190-215). *)
Fixpoint sends (st : bool) (s : snd) (t : tag) : bool :=
  match s with
  | Just t' => tag_eqb t t'
  | Sched SInline => tag_eqb t V
  | Sched (SCtx _) => tag_eqb t V || (st && tag_eqb t S)
  | User _ outs => existsb (fun o => tag_eqb (fst o) t) outs
  | Then t' a th =>
      (negb (tag_eqb t t') && sends st a t)
      || (sends st a t' && (tag_eqb t V || (th && tag_eqb t E)))
  | Let t' a k th =>
      (negb (tag_eqb t t') && sends st a t)
      || (sends st a t' && (sends st k t || (th && tag_eqb t E)))
  | Seq a b => (negb (tag_eqb t V) && sends st a t) || sends st b t
  | WhenAll [] => tag_eqb t V
  | WhenAll l => existsb (fun a => sends st a t) l
  | ContinuesOn a s =>
      sends st a t
      || match s with SInline => false | SCtx _ => st && tag_eqb t S end
  | StartsOn s a =>
      sends st a t
      || match s with SInline => false | SCtx _ => st && tag_eqb t S end
  | Bulk a th => sends st a t || (th && tag_eqb t E)
  | Affine a _ => sends st a t
  end.

(** The answer to [__get_completion_behavior_t<t>] on the attributes of [s].
    - just: only for its own tag (__just.hpp L45-53);
    - then/upon_error: [__sync_attrs] of the child (__then.hpp L47-51,
      __queries.hpp L59-82), upon_stopped: the default [__fwd_env] of the child
      (__basic_sender.hpp L156-167): the child's answer per tag;
    - let_*: [__fwd_env] of the child, marked TODO in the code (__let.hpp
      L596-601): the child's answer;
    - sequence: common of both (__sequence.hpp L157-166);
    - when_all: common of the children, inline if there are none
      (__when_all.hpp L690-708);
    - continues_on: scheduler's | child's (__continues_on.hpp L267-277);
    - starts_on: no answer (__starts_on.hpp L47-128);
    - bulk: the child's (__bulk.hpp L200-215);
    - affine: inline if the child is, else asynchronous_affine
      (__affine.hpp L143-161). *)
Fixpoint attr (s : snd) (t : tag) : behavior :=
  match s with
  | Just t' => if tag_eqb t t' then inline_completion else unknown
  | Sched s => sched_attr s t
  | User adv _ => match adv t with Some b => b | None => unknown end
  | Then _ a _ => attr a t
  | Let _ a _ _ => attr a t
  | Seq a b => common (attr a t) [attr b t]
  | WhenAll [] => inline_completion
  | WhenAll (a :: l) => common (attr a t) (map (fun x => attr x t) l)
  | ContinuesOn a s => bor (sched_attr s t) (attr a t)
  | StartsOn _ _ => unknown
  | Bulk a _ => attr a t
  | Affine a _ =>
      if attr a t =? inline_completion then inline_completion else asynchronous_affine
  end.

(** __affine.hpp L47-61: [__already_affine] / [__is_affine]. *)
Definition already_affine (st : bool) (s : snd) (t : tag) : bool :=
  negb (sends st s t) || is_affine (attr s t).
Definition all_affine (st : bool) (s : snd) : bool :=
  already_affine st s V && already_affine st s E && already_affine st s S.

(** Semantics: [runs st s c t i d]: started on context [c], the operation of
    [s] may complete on channel [t]; [i]: before [start] returns, on the
    starting thread; [d]: the context it completes on.  A function passed to an
    adaptor runs where its input arrived.  when_all completes where its last
    child completes, with an error if some child failed, else stopped if some
    child was stopped (__when_all.hpp L570-640).  affine: the child itself if
    [__is_affine], otherwise the child followed by a hop to the start scheduler
    (__affine.hpp L90-131; the hop is unstoppable). *)
Definition all_tag (l : list (tag * bool * nat)) : tag :=
  if existsb (fun x => tag_eqb (fst (fst x)) E) l then E
  else if existsb (fun x => tag_eqb (fst (fst x)) S) l then S
  else V.

Definition uresult (c : nat) (p : uplace) : bool * nat :=
  match p with
  | UInline => (true, c)
  | UHere => (false, c)
  | UOn d => (false, d)
  end.

(** Completion of a schedule operation started on [c]. *)
Inductive hop (st : bool) : sched -> nat -> tag -> bool -> nat -> Prop :=
| hop_inline c : hop st SInline c V true c
| hop_value d c : hop st (SCtx d) c V false d
| hop_stopped d c : st = true -> hop st (SCtx d) c S false d.

Inductive runs (st : bool) : snd -> nat -> tag -> bool -> nat -> Prop :=
| r_just t c : runs st (Just t) c t true c
| r_sched s c t i d : hop st s c t i d -> runs st (Sched s) c t i d
| r_user adv outs t p c :
    In (t, p) outs ->
    runs st (User adv outs) c t (fst (uresult c p)) (Datatypes.snd (uresult c p))
| r_then t a th c i d : runs st a c t i d -> runs st (Then t a th) c V i d
| r_then_throw t a c i d : runs st a c t i d -> runs st (Then t a true) c E i d
| r_then_miss t a th t' c i d :
    t' <> t -> runs st a c t' i d -> runs st (Then t a th) c t' i d
| r_let t a k th c i d t' i' d' :
    runs st a c t i d -> runs st k d t' i' d' -> runs st (Let t a k th) c t' (i && i') d'
| r_let_throw t a k c i d : runs st a c t i d -> runs st (Let t a k true) c E i d
| r_let_miss t a k th t' c i d :
    t' <> t -> runs st a c t' i d -> runs st (Let t a k th) c t' i d
| r_seq a b c i d t' i' d' :
    runs st a c V i d -> runs st b d t' i' d' -> runs st (Seq a b) c t' (i && i') d'
| r_seq_first a b c t i d :
    t <> V -> runs st a c t i d -> runs st (Seq a b) c t i d
| r_all_nil c : runs st (WhenAll []) c V true c
| r_all l c ks t0 i d :
    runs_all st l c ks -> In (t0, i, d) ks -> runs st (WhenAll l) c (all_tag ks) i d
| r_cont a s c t i d i' d' :
    runs st a c t i d -> hop st s d V i' d' -> runs st (ContinuesOn a s) c t (i && i') d'
| r_cont_hop a s c t i d t' i' d' :
    runs st a c t i d -> hop st s d t' i' d' -> t' <> V ->
    runs st (ContinuesOn a s) c t' (i && i') d'
| r_starts a s c i d t' i' d' :
    hop st s c V i d -> runs st a d t' i' d' -> runs st (StartsOn s a) c t' (i && i') d'
| r_starts_hop a s c t i d :
    hop st s c t i d -> t <> V -> runs st (StartsOn s a) c t i d
| r_bulk a th c t i d : runs st a c t i d -> runs st (Bulk a th) c t i d
| r_bulk_throw a c i d : runs st a c V i d -> runs st (Bulk a true) c E i d
| r_affine_same a s c t i d :
    all_affine st a = true -> runs st a c t i d -> runs st (Affine a s) c t i d
| r_affine_hop a s c t i d i' d' :
    all_affine st a = false -> runs st a c t i d -> hop false s d V i' d' ->
    runs st (Affine a s) c t (i && i') d'
with runs_all (st : bool) : list snd -> nat -> list (tag * bool * nat) -> Prop :=
| ra_nil c : runs_all st [] c []
| ra_cons a l c t i d ks :
    runs st a c t i d -> runs_all st l c ks -> runs_all st (a :: l) c ((t, i, d) :: ks).

(** __as_awaitable.hpp L105-112: [__completes_inline]: for every channel, the
    sender never sends it or its behaviour equals [inline_completion]. *)
Definition awaits_inline (st : bool) (s : snd) : bool :=
  forallb (fun t => negb (sends st s t) || (attr s t =? inline_completion)) [V; E; S].

(** __as_awaitable.hpp L360-395: the inline awaiter connects and starts the
    operation inside [await_suspend], destroys it when [start] returns and
    resumes the coroutine; otherwise the operation lives in the coroutine frame
    until it completes (L310-357).  [destroyed_while_running]: some completion
    arrives after the operation was destroyed. *)
Definition destroyed_while_running (st : bool) (s : snd) : Prop :=
  awaits_inline st s = true /\ exists c t d, runs st s c t false d.
