# Formal model of NVIDIA/stdexec in Rocq (Coq 8.16.1)

## Layout

* `rocq/theories/<Area>Model.v` – the model, definition by definition, each with the `/repo` file and lines it models.
* `rocq/theories/<Area>Spec.v` (where useful; otherwise a "Specification" section at the top of the properties file) –
  the vocabulary of the English property, independent of the model.
* `rocq/theories/<Area>Proofs*.v` – invariants, lemmas.
* `rocq/theories/<Area>Properties.v` – the theorems the manifest cites, each with concrete `Example`s whose
  hypotheses are met, and the `_refuted` theorems: executions of the model that contradict a stronger statement.
* `rocq/theories/Conc.v` – shared library (list update, counting, sums).
* `properties.jsonl` – the English properties; `MANIFEST.json` – which theorems prove which property;
  `seeded/LOG.jsonl` – wrong programs tried, and which theorems noticed.

## Modelling conventions

* **Concurrency**: every concurrent component is a small-step transition system over shared memory, one
  transition per atomic instruction of the code (CAS, exchange, fetch_add, critical section, …) of one thread; the
  number of threads is unbounded and the scheduler is the (universally quantified) choice of the next step. Memory is
  **sequentially consistent**: the memory orders of the source are not modelled. `compare_exchange_weak`
  may fail spuriously where that matters. A step that violates an assertion or touches freed memory is either
  impossible ("stuck", with a theorem that no reachable state is stuck) or sets a flag / logs an event (with a theorem
  that it never does).
* **Sender algebra**: single steps are *events* (a leaf operation completes, a stop request arrives); the
  reaction of the whole operation tree to an event is a function, in which every adaptor's handler says which
  calls it makes on its receiver (a list: nothing in the representation makes it have length one). Concurrency
  *inside* a handler (when_all's atomics etc.) is the subject of the separate concurrent models.
* **C++ types**: types are modelled by a small universe (`ty`); templates by dependently quantified functions
  with declared argument/result types and `noexcept` flags.
* Undefined behaviour (null dereference, use after free, …) is a distinct outcome/flag, never silently ignored.
* `size_t` is modelled by `nat`/`N`/`Z` with explicit bounds where wrap-around matters (even_share, bwos rounds).
* User code is arbitrary: a completion handler, a stop callback or a body may start, cancel or complete anything
  else the API lets it, at any nesting depth.

## Trusted base

* Coq 8.16.1's kernel (and its `vm_compute`, used only for concrete examples and refutations).
* `Print Assumptions` of every theorem in the manifest answers **Closed under the global context**: no axioms,
  neither of our own nor of the standard library. (The gate's `library_axioms` entry names
  `ssreflect.under` lemmas that come with a loaded standard library file; no theorem uses them.)
* No functors, module types, `Declare Module`, section-less variables, disabled kernel checks or plugins.
  Only the standard library is used.
* That the models describe the code. The models were written by reading `/repo` at the pinned commit; nothing is
  extracted from or run against the C++. Every definition cites the lines it models, and says where it simplifies.
* Sequential consistency, and that `std::mutex`, `std::condition_variable`, `std::atomic` wait/notify, `std::thread`,
  the allocator and (for C52) the Linux kernel's io_uring behave as their models say.

"partial" in the manifest means that the English property as written is not what is proved: in nearly all cases
because it is false of the code, in which case the theorem that refutes it is listed too and the theorems named
`_partial` carry the extra hypothesis. Within a partial property, theorems without a suffix prove one of the clauses
of the property in full.

## Per property: what is modelled and how it is proved

| id | status | modelled (theories/) | proof | what the full statement misses, if anything |
|----|----|----|----|----|
| C01 | proved | operation trees of all core adaptors: SenderModel (just*, read_env, schedule, user leaves, then/upon_*, let_*, bulk, sequence, when_all, when_any, continues_on, starts_on, on, finally, repeat_n, repeat_until, into_variant, stopped_as_*, write_env, unstoppable, stop_when, …) | invariant on operation trees by induction on the tree (SenderProofs, SenderSafety), lifted to all event sequences (SenderRun) |  |
| C02 | proved | same | same invariant: completed iff no leaf below is running |  |
| C03 | partial | `get_completion_signatures` of each adaptor as a function on signature sets (SenderModel `sigs`) | subject-reduction style induction on op trees | repeat_n(0) and finally with a throwing error copy deliver undeclared completions (refuted) |
| C04 | proved | SenderModel with a trace of user-function calls | case analysis of the handler, over all runs |  |
| C05 | proved | same | same |  |
| C06 | proved | when_all node (SenderWhen) | invariant relating stored results to the log of child completions |  |
| C07 | proved | same | same |  |
| C08 | proved | every completion carries the execution context on which it happens | induction on op trees | only value completions of continues_on are claimed; the error of a throwing copy arrives on the old context (refuted) |
| C09 | partial | finally | SenderFacts, all runs | if copying the result throws, the cleanup sender never runs (refuted) |
| C10 | proved | sequence | SenderFacts, all runs |  |
| C11 | proved | repeat_n, repeat_until | induction on the number of iterations |  |
| C12 | proved | into_variant, stopped_as_optional, stopped_as_error | all runs |  |
| C13 | proved | stop flag of each leaf computed from the sources on its path | induction on the tree (SenderStop) |  |
| C14 | proved | run equivalence of senders (SenderEquiv) | bisimulation between op trees |  |
| C15 | proved | inplace_stop_source at atomic-step granularity (StopModel) | global invariant (StopProofs, StopSteps) |  |
| C16 | proved | same, with the log of callback invocations | same (StopLog) |  |
| C17 | proved | same | same; deadlock freedom by a waits-for argument (StopFacts) | fairness is not modelled: "no deadlock" = some thread can move |
| C18 | proved | same, with lock and callback list | same |  |
| C19 | proved | run_loop at atomic-step granularity (RunLoopModel) | global invariant |  |
| C20 | proved | same | same; termination measure |  |
| C21 | proved | intrusive_queue over an explicit heap (QueueModel) | representation predicate, refinement to lists (QueueSpec) |  |
| C22 | partial | splice | same | false as stated: correct iff the spliced range ends the source queue (refuted otherwise); the use made by the thread pool is proved |
| C23 | proved | both atomic_intrusive_queues at pointer level with node reuse (AtomicQueueModel) | refinement to an abstract queue with ghost order |  |
| C24 | proved | MPSC queue at pointer level (MpscModel) | same |  |
| C25 | proved | intrusive_heap at pointer level (HeapModel) | refinement to complete ordered binary trees (HeapTree, HeapInv) |  |
| C26 | proved | bwos lifo_queue, rounds mod 2^32 (BwosModel) | global invariant, abstract deque (BwosSpec) |  |
| C27 | proved | counting_scope / simple_counting_scope (ScopeModel) | global invariant |  |
| C28 | proved | same, plus the associate sender (AssociateModel) | same |  |
| C29 | proved | same, against the state machine of [exec.simple.counting] in ScopeSpec | same |  |
| C30 | partial | spawn_future protocol (SpawnFutureModel) | global invariant | if the spawned operation completes inside the canceller's request_stop on another thread, the state is used after destruction (refuted) |
| C31 | proved | async_scope nest / when_empty (AsyncScopeModel) | global invariant, measure |  |
| C32 | proved | split: shared state (SharedModel) | global invariant, measure |  |
| C33 | partial | ensure_started: same | same | move-assignment of an unconnected sender does not request stop (refuted) |
| C34 | partial | when_all atomics (WhenAllConcModel) | global invariant; exact count of completions | a stop callback in the last window completes twice (refuted) |
| C35 | partial | when_any atomics (WhenAnyConcModel), when_any node (SenderAny) | same | same race (refuted) |
| C36 | proved | even_share modulo 2^64 (EvenShareModel) | arithmetic |  |
| C37 | proved | default bulk* (BulkSeqModel), thread-pool bulk (PoolBulkModel) | induction; global invariant | bulk_unchunked with a negative shape does not stop (refuted; outside the claim) |
| C38 | proved | worker loop, remote queues, sleep protocol of static_thread_pool (PoolModel) | global invariant | tasks queued at request_stop may never run (refuted; outside the claim) |
| C39 | proved | trampoline_scheduler (TrampolineModel) | stack-machine invariant |  |
| C40 | proved | sync_wait over RunLoopModel (SyncWaitModel) | composition of invariants |  |
| C41 | proved | completion_behavior bits (BehaviorModel, BehaviorSpec) | bit arithmetic, induction on lists |  |
| C42 | partial | environments, joins, adaptor environments (EnvModel) | induction on stacks | default adaptors pass non-forwarding queries (refuted) |
| C43 | proved | intrusive_ptr control block (IntrusivePtrModel) | global invariant |  |
| C44 | partial | RunLoopModel | global invariant | notify_one may be outstanding when run() returns (refuted) |
| C45 | partial | attributes of adaptors vs. an abstract semantics of where and when they complete (BehaviorModel) | induction on sender expressions | false for let_*, affine of an inline sender, and the error channels of sequence and when_all (refuted) |
| C46 | partial | the awaiter's choice by attribute (BehaviorModel) | same | same cause (refuted) |
| C47 | partial | timed_thread_context: command queue, heap, stop callbacks (TimedModel on MpscModel and HeapModel's specification) | global invariants (TimedProofs, TimedOrder, TimedLive, TimedStop) | shutdown and stop wake-up can be lost (refuted) |
| C48 | partial | awaiter of asynchronous senders, any nesting of activities (AwaiterModel) | stack invariant | the spin wait for start() can deadlock (refuted) |
| C49 | partial | merge_each (MergeEachModel) | global invariants (MergeEachProofs 1–3), measure | item that fails never completes; unstoppable receivers; a dangling access (refuted) |
| C50 | partial | async_scope::spawn_future (AsyncFutureModel) | global invariants, measure | consumer's stop request does not reach the operation; late callback (refuted) |
| C51 | partial | stdexec::task, exec::task, at_coroutine_exit, on_coroutine_*, connect_awaitable: heap of frames and continuations (TaskModel) | refinement to a recursive evaluator (TaskSpec) by simulation (TaskProofs, TaskThms) | a cleanup coroutine's frame is destroyed after the receiver was completed (refuted) |
| C52 | partial | io_uring_context with an abstract kernel (IoUringModel) | global invariants (IoUringProofs 1–7) | eleven executions refute the unrestricted statements |
| C53 | partial | fused token's callback on two abstract stop sources (FusedStopModel) | invariant on the finite control state, counting invariants on the log | request_stop may return while the callback runs on the other source's thread (refuted) |
| C54 | partial | iterate with an arbitrary sequence receiver, and the pipeline iterate into transform_each into ignore_all_values (IterateModel) | induction over executions | items run twice or dropped, an owning range connected as an lvalue, and stop during a failing item refute the unrestricted statements |
| C55 | partial | the buffer with its tagged pointer, emplace, move, copy, conversion, swap, assignment, reset and destruction with every throw point (AnyModel) | refinement of a map from names to optional values by induction over the program, with an invariant on object histories | a throwing in-place construction in the buffer and over-aligned small types refute the unrestricted statements; __any_ptr, constant evaluation not modelled |
| C56 | partial | count passed to the backend, execute() of both schedulers, chunk arithmetic of the default backend with wrap-around, interleavings of any conforming backend (SchedBackendModel) | permutation of the visited indices, by induction over interleavings | task_scheduler with sequential policies or throwing functions refutes the statement; values of the predecessor not modelled |
| C57 | partial | __ensure_alignment with its bit operations, the objects in the preallocated storage on every path (SchedBackendModel) | arithmetic over N, case analysis over paths with arbitrary interleavings | leaks of parallel_scheduler's operations that are stopped early refute the unrestricted statement |
| C58 | partial | _any_opstate and its forwarding callback, both stop sources step by step, a child with one stop callback that completes on any thread (StopBridgeModel); which token the scheduler backends see | the set of reachable control states is computed and its closure under every step checked by the kernel; theorems about arbitrary executions follow by induction | a child that completes inside its stop callback refutes the unrestricted statement |
| C59 | partial | __instance_data: the spin lock, the shared instance pointer, the atomic factory; any number of threads; a step per access | invariants over all interleavings, log predicates for the provisos; refutations by concrete runs | factories that throw; sharing counts of the instances; memory orders (sequentially consistent) |
| C60 | partial | the pending counter and joiner pointer of start_now, any number of children and waiters, a step per atomic access (StartNowModel) | global invariant | the async scope and stop source of the storage; false with two waiters (refuted) |
| C61 | partial | start_detached and spawn operations, the four kinds of submit_result, scope association count, close and join, each throwing step, the let_value submit path | finite control state of one operation explored and checked closed in the kernel, each log event tied to a state flag, invariant over any number of operations and the scope count | false without the proviso on early completion inside submit(); let_value loses a submit() exception (both refuted) |
| C62 | partial | allocate and deallocate of the adaptor over any allocator of bytes: 64-bit arithmetic, std::align with its bit mask, the pointer hidden in memory byte by byte, arbitrary contents and scribbling outside the live blocks (MemResModel) | invariant pairing each user block with its upstream block; arithmetic of the mask for powers of two | false for sizes that overflow (refuted); do_is_equal |
| C63 | partial | operation_state_base (recursive mutex, frames, ex_, abandoned_, stop callback), completion_handler, start(), run_(), on_stop_request_ of exec/asio/completion_token.hpp; any number of threads, each with a stack of calls | phase-indexed invariant over all stacks; deadlock freedom from it; two refutations by concrete runs | full statement false of the code (two refutations): proved for the environments described by polite in AsioSpec.v |
| C64 | partial | bulk_shared_state::apply, bulk_receiver and num_agents_required of thread_pool_base, and the same of libdispatch_queue: one step per atomic access, any number of tasks (PoolBaseModel) | invariant over all task states; measure for termination; index coverage from C36 | false for libdispatch's loop, for 2^32 tasks and for a narrow Shape (refuted); values of the predecessor |
| C65 | partial | __variant and __optional: __destroy, emplace, assignment, reset, destruction, access; a stack of user constructors and destructors that may start any operation (VariantModel) | invariant per container over the frames that work on it, and injectivity of storage | restrictions on re-entrance (polite in VariantSpec.v), each shown necessary by a refutation; swap; constant evaluation |
| C66 | partial | schedule and schedule_at/after operations of windows_thread_pool: constructor, start, request_stop, complete_with_done, the pool callback, destructor, as threads S, R, P; stop source and Windows calls by contract | the state space of one operation is finite: all its states and transitions are computed in Coq, checked, and the result is carried to histories of any length by induction; measure for termination | false for timers that expire after the cancelling wait (winpool_timer_refuted); relaxed memory |
| C67 | partial | ForkJoinModel: operation state of exec::fork_join with any number of branches, stored result, throwing connect and copy, when_all reduced to its result rule | invariant relating the log to the state; every event is allowed by the earlier ones (spec `allowed`), with the theorems for single completion, single destruction, same result, outcome and progress as corollaries | last sentence false of the code: forkjoin_connect_throw_refuted, forkjoin_no_branch_refuted |
| C68 | partial | IgnoreAllModel: the atomic word and the result slot of ignore_all_values with a step per access, any number of items on any threads, any sequence that completes after its items | inductive invariant over all interleavings; the result is characterised from the log alone (right_outcome, a_first_failure) | last sentence false of the code: ignoreall_throwing_copy_refuted, ignoreall_dropped_error_refuted |
| C69 | partial | The fixed-capacity vector as an array and a size (constructor, erase, concatenation, element by element), canonicalisation as sort, unique and erase with arbitrary values behind the new end, the storage of the factory as byte offsets and alignments. | Canonical lists are strictly increasing with the same elements; strictly increasing lists are determined by their elements, so equality of canonical lists is equality of the sets; erase and concatenation by the array lemmas; offsets by divisibility. | False for over-aligned factories: refuted. The vtable and the call path of function are not modelled. |
| C70 | partial | The two rings as shared memory: 32-bit wrapping indices, masks, the indirection array, entries written field by field, a kernel that takes and posts at any step (RingModel). | Invariants with absolute counters; indices equal the counters modulo 2^w, slots modulo 2^k, windows of at most 2^k counters have distinct slots; the log satisfies a specification of every return of submit and complete. | Stopped batches with a cancellation submit later tasks (refuted). Memory orders, failing system calls. |
| C71 | proved | The list at the level of next and head pointers; several list objects sharing the items (SlistModel). | Refinement: every step preserves the representation of disjoint finite chains; chains are acyclic because they are finite and determined; fuel bounded by the number of items by the pigeonhole principle. | Pushing an item that is already in a list: refuted. |
| C72 | partial | The table of threads sorted by node, the counting and picking functions, enqueue and bulk_enqueue, the victim lists, the prefix sums and index computation of the default policy with 32-bit int arithmetic (NumaModel). | A sorted table is the concatenation of its per-node segments; picking is indexing into the concatenation of the allowed segments, which has every allowed thread once; batches by the theorem about even_share; blocks by induction on the prefix sums. | Batches from outside ignore the constraints, no CPUs, indices from 2^31: refuted. Stealing (PoolModel) does not look at the constraints. lower_bound, upper_bound and sort by their contracts. |
| C73 | partial | HandleModel: safe_file_descriptor, memory_mapped_region (all members), __context_base constructor and destructor as sequences of them; kernel hands out any free number, foreign code opens and closes meanwhile | invariant: non-empty objects and open resources correspond one to one; specification over the log of system calls only | needs: no raw descriptor of an object passed to reset; refuted: reset(native_handle()), size of a failed region, error code of io_uring_setup |
| C74 | partial | TimePointModel: the two let_value adaptations of timed_scheduler.hpp over any clock and any native operation that meets its contract; filetime_clock's arithmetic on 64-bit words | arithmetic; contracts of the native operation and clock stated as separate specification | needs: steady clock and no overflow; refuted: extreme arguments, adjusted clocks, wrap below the epoch, undefined differences, truncation |
| C75 | partial | FrameModel: __divmod, the promise's operator new and delete, __any_alloc::__deallocate_ as a sequence of effects on a memory in which frames are written and memory is reused | invariant: one frame per block, the copy lies behind the frame inside the block; specification over the log (blocks returned, copies made and destroyed) | alignment above 16: refuted |
| C76 | partial | ReifyModel: receivers and signature transformations of materialize and dematerialize, operation and signatures of just_from for an arbitrary function, unless_stop_requested | round trip, injectivity, soundness and exactness of signatures over lists of arbitrary completions | just_from: needs a function that calls the sink once; refuted: throw after the sink, no call, undeclared result, noexcept only for the probe |
| C77 | partial | XorshiftModel: seeding, operator(), discard on 64-bit words | bit-level injectivity of each xor-shift by induction on bit positions; no tail and never 0 follow | refuted: seed 0, overlapping seed words; period length not proved |

## What is not modelled

* Weak memory: acquire/release/relaxed orders. All results are for sequentially consistent interleavings.
* Compile-time machinery: concepts, tag dispatch, `transform_sender` customisation, constexpr evaluation, and the
  translation of sender expressions to operation-state types. The sender algebra starts from the resulting semantics of
  each adaptor.
* Exceptions thrown by `connect` and by allocation, except where a model says so (associate, let, spawn_future).
* GPU code (`include/nvexec`), TBB / Taskflow / libdispatch / Windows thread-pool / ASIO back ends, Boost.
* `exec::any_sender` type erasure beyond what is listed above, `exec::reschedule`, `exec::create`,
  `exec::fork_join`, the parallel-scheduler replacement interface, and examples, unless a row says so.
* Liveness beyond "some thread can move", "every run of the library's own steps is finite" and "at rest nothing is
  left": fairness of the scheduler is not modelled.
