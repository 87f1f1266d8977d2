(** Model of the schedulers behind a type-erased backend: parallel_scheduler
    (/repo/include/stdexec/__detail/__parallel_scheduler.hpp, here "PS"), its default backend
    (/repo/include/stdexec/__detail/__parallel_scheduler_default_impl.hpp, "DI"), task_scheduler
    (/repo/include/stdexec/__detail/__task_scheduler.hpp, "TS") and the receiver proxies between them
    (/repo/include/stdexec/__detail/__parallel_scheduler_backend.hpp, "PB").

    Simplified: the values of the predecessor are not modelled (the function gets references to them, the receiver gets them
    moved); a throw of the user's function depends on its arguments only; threads of the backend interleave at
    calls of the function. *)
From Coq Require Import List Bool Arith NArith Permutation.
Import ListNotations.
Set Implicit Arguments.

(** ** The default backend splits the index space *)
(** size_t arithmetic is modulo [W]. *)
Definition chunk_size (W avail size : nat) : nat :=       (* DI L282-285 *)
  if (0 <? avail) && ((3 * avail) mod W <? size) then size / avail / 2 else 1.
Definition num_chunks (W size chunk : nat) : nat := ((size + chunk - 1) mod W) / chunk.   (* DI L286 *)
Definition chunk_begin (W chunk k : nat) : nat := (k * chunk) mod W.                     (* __chunker::__begin, DI L206-209 *)
Definition chunk_end (W chunk size k : nat) : nat := Nat.min (chunk_begin W chunk (k + 1)) size.   (* __chunker::__end, DI L212-215 *)
(** The calls of bulk_item_receiver_proxy::execute by schedule_bulk_chunked, DI L274-304, if the pool's bulk calls the
    functor with the chunk indices ks (__bulk_chunked_functor, DI L219-228). *)
Definition default_chunked (W avail size : nat) (ks : list nat) : list (nat * nat) :=
  let c := chunk_size W avail size in map (fun k => (chunk_begin W c k, chunk_end W c size k)) ks.
(** schedule_bulk_unchunked, DI L306-326; __bulk_unchunked_functor, DI L231-239; __bulk_unchunked_fn, TS L647-655 *)
Definition default_unchunked (ks : list nat) : list (nat * nat) := map (fun k => (k, k + 1)) ks.

(** __ensure_alignment, DI L90-108: address and size of the storage; None is the empty span.
    alignof(T) is 2^k. *)
Definition ensure_alignment (p n : N) (k : N) : option (N * N) :=
  let a := N.pow 2 k in
  if N.eqb (N.modulo p a) 0 then Some (p, n)
  else if N.ltb n a then None
  else let q := N.ldiff (p + a - 1) (a - 1) in Some (q, n - (q - p))%N.
(** Where __construct_maybe_alloc, DI L119-134, puts an object of the given size: Some address inside the storage, None: on the heap. *)
Definition placement (p n : N) (size k : N) : option N :=
  match ensure_alignment p n k with
  | None => None
  | Some (q, m) => if N.eqb q 0 || N.ltb m size then None else Some q
  end.

(** ** What happens *)
Inductive obj := OPtr | OInner | OArgs | OPool.   (** the backend pointer; the operation of the predecessor; its values; the backend's operation *)
Inductive sig := Val | Err | Stp.
(** [ECall b e]: the user's function runs for the indices b to e-1 (bulk_unchunked calls it with b, and e = b+1);
    [ETerm]: std::terminate; [EUB]: an unreachable() is reached. *)
Inductive event := EC (o : obj) | ED (o : obj) | ECall (b e : nat) | ECompl (c : sig) | ETerm | EUB.

(** A bulk algorithm on one of the two schedulers: [par]: the policy is par or par_unseq. *)
Inductive impl := Task | Parallel.
Record bulk := mkb { im : impl; chunked : bool; par : bool; shape : nat }.
(** The number of items that is passed to the backend: TS L384-395, PS L534-545. *)
Definition count (b : bulk) : nat := match im b with Task => shape b | Parallel => if par b then shape b else 1 end.
(** The calls of the function by one call of execute(x, y): TS L425-490 and L522-541; PS L401-430. *)
Definition calls (b : bulk) (xy : nat * nat) : list (nat * nat) :=
  if chunked b then [if par b then xy else (0, shape b)]
  else map (fun i => (i, i + 1)) (seq (fst xy) (if par b then 1 else shape b)).
(** The body of execute: the first exception ends it.  TS L537-540: the receiver is completed; PS L401: execute is noexcept. *)
Fixpoint body (thr : nat * nat -> bool) (fail : event) (l : list (nat * nat)) : list event :=
  match l with
  | [] => []
  | x :: l => ECall (fst x) (snd x) :: if thr x then [fail] else body thr fail l
  end.
Definition execute (b : bulk) (thr : nat * nat -> bool) (xy : nat * nat) : list event :=
  body thr (match im b with Task => ECompl Err | Parallel => ETerm end) (calls b xy).
(** Interleavings of several threads. *)
Inductive shuffle (A : Type) : list (list A) -> list A -> Prop :=
| sh_nil ls : (forall l, In l ls -> l = []) -> shuffle ls []
| sh_cons ls1 x l ls2 t : shuffle (ls1 ++ l :: ls2) t -> shuffle (ls1 ++ (x :: l) :: ls2) (x :: t).
(** The program ends when it terminates. *)
Fixpoint cut (l : list event) : list event :=
  match l with [] => [] | ETerm :: _ => [ETerm] | e :: l => e :: cut l end.

(** ** Operations *)
(** What happens to an operation: it is destroyed without being started; its predecessor fails or is stopped; its predecessor
    sends values, and then: a stop was requested before; copying the values throws; the backend cannot allocate memory
    for its operation; the backend's operation is stopped; or it runs, [t] being the calls of execute, interleaved. *)
Inductive script := Unstarted | PredErr | PredStp | StopReq | ArgsThrow | AllocFail | PoolStp | Run (t : list event).

(** parallel_scheduler, schedule: __system_op, PS L197-236 (there is no destructor); schedule of the default backend,
    DI L257-272; __proxy_receiver, PB L387-423: destroys the backend's operation, then completes the proxy. *)
Definition par_schedule (x : script) : list event :=
  EC OPtr ::                                            (* PS L200-208 *)
  match x with
  | StopReq => [ECompl Stp]                             (* PS L216-220 *)
  | AllocFail => [ED OPtr; ECompl Err]                  (* PS L223, DI L268-271 *)
  | PoolStp => [ED OPtr; EC OPool; ED OPool; ECompl Stp]
  | Run _ => [ED OPtr; EC OPool; ED OPool; ECompl Val]
  | _ => []
  end.
(** parallel_scheduler, bulk: __system_bulk_op, PS L576-641 (there is no destructor); __bulk_intermediate_receiver, PS L500-567;
    __typed_forward_args_receiver, PS L359-398. *)
Definition par_bulk (x : script) : list event :=
  EC OInner ::                                          (* PS L626 *)
  match x with
  | Unstarted => []
  | PredErr => [ECompl Err]                             (* PS L555-559 *)
  | PredStp | StopReq => [ECompl Stp]                   (* PS L549-552, L513-518 *)
  | ArgsThrow => [ETerm]                                (* PS L511: noexcept *)
  | AllocFail => [EC OArgs; ED OInner; ED OArgs; ECompl Err]                       (* PS L523, L606, L383-389 *)
  | PoolStp => [EC OArgs; ED OInner; EC OPool; ED OPool; ED OArgs; ECompl Stp]     (* PS L392-398 *)
  | Run t => cut ([EC OArgs; ED OInner; EC OPool] ++ t ++ [ED OPool; ED OArgs; ECompl Val])   (* PS L371-380 *)
  end.
(** task_scheduler, schedule: __any_opstate, TS L302-323, its destructor destroys __backend_; __backend_for::schedule, TS L744-798. *)
Definition task_schedule (x : script) : list event :=
  EC OPtr ::
  match x with
  | Unstarted => [ED OPtr]
  | AllocFail => [EUB]                                  (* TS L763-766 *)
  | PoolStp | StopReq => [EC OPool; ED OPool; ECompl Stp; ED OPtr]
  | Run _ => [EC OPool; ED OPool; ECompl Val; ED OPtr]
  | _ => [ED OPtr]
  end.
(** task_scheduler, bulk: __bulk_opstate, TS L558-584, __bulk_state, TS L499-553, __bulk_receiver, TS L370-421. A stop request is not looked at. *)
Definition task_bulk (x : script) : list event :=
  EC OPtr :: EC OInner ::
  match x with
  | Unstarted => [ED OInner; ED OPtr]
  | PredErr => [ECompl Err; ED OInner; ED OPtr]
  | PredStp => [ECompl Stp; ED OInner; ED OPtr]
  | ArgsThrow => [ECompl Err; ED OInner; ED OPtr]       (* TS L397-400 *)
  | AllocFail => [EC OArgs; EUB]                        (* TS L769; __receiver_proxy_base<_, _, true>::set_error, PB L238-242 *)
  | StopReq | PoolStp => [ED OInner; ED OPtr]           (* cannot happen: the backend's operation cannot be stopped, TS L809 *)
  | Run t => [EC OArgs; EC OPool] ++ t ++ [ED OPool; ECompl Val; ED OInner; ED OPtr; ED OArgs]
  end.
Definition bulk_op (b : bulk) (x : script) : list event := match im b with Task => task_bulk x | Parallel => par_bulk x end.
Definition schedule_op (i : impl) (x : script) : list event := match i with Task => task_schedule x | Parallel => par_schedule x end.
