{"id": "C01", "title": "Exactly one completion signal per started operation", "statement": "Starting an operation state built from any nesting of sender adaptors results in at most one call to set_value/set_error/set_stopped on the connected receiver, and in exactly one once every leaf operation has completed.", "quantifier": "every sender expression over the modelled factories/adaptors, every interleaving of leaf completions, every choice of leaf outcomes and every instant of an external stop request", "why_tests_cant": "Expressions nest arbitrarily and leaf completions interleave in exponentially many orders; tests sample a few.", "anchors": ["include/stdexec/__detail/__basic_sender.hpp:__opstate", "include/stdexec/__detail/__let.hpp", "include/stdexec/__detail/__when_all.hpp", "include/stdexec/__detail/__finally.hpp", "include/stdexec/__detail/__sequence.hpp", "include/stdexec/__detail/__continues_on.hpp", "include/exec/repeat_until.hpp"]}
{"id": "C02", "title": "Structured concurrency: no child outlives its parent's completion", "statement": "When the receiver of a composed sender is completed, no operation started inside that sender is still running (so destroying the operation state is safe); while it is not completed, some leaf is still running (no lost completion).", "quantifier": "every sender expression, every schedule", "why_tests_cant": "Dangling children and lost completions show up only on particular interleavings.", "anchors": ["include/stdexec/__detail/__when_all.hpp", "include/stdexec/__detail/__let.hpp", "include/stdexec/__detail/__finally.hpp", "include/exec/repeat_n.hpp"]}
{"id": "C03", "title": "Completion signatures are sound", "statement": "Every completion delivered by an operation matches one of the signatures that get_completion_signatures computed for the sender, provided the leaves and user functions respect their own declared types/noexcept.", "quantifier": "every well-typed sender expression, every schedule, every value", "why_tests_cant": "Type-level computation is checked by tests only for particular instantiations.", "anchors": ["include/stdexec/__detail/__then.hpp:__get_completion_signatures", "include/stdexec/__detail/__let.hpp", "include/stdexec/__detail/__when_all.hpp", "include/stdexec/__detail/__sequence.hpp", "include/stdexec/__detail/__finally.hpp", "include/stdexec/__detail/__continues_on.hpp", "include/stdexec/__detail/__into_variant.hpp"]}
{"id": "C04", "title": "then/upon_error/upon_stopped call the function exactly on their channel", "statement": "then (upon_error, upon_stopped) invokes its function exactly once with the predecessor's datums iff the predecessor completes on the matching channel, completes with set_value(result) (or set_error(exception_ptr) if it throws) and forwards every other completion unchanged without invoking it.", "quantifier": "every predecessor, schedule, function and value", "why_tests_cant": "Universally quantified over functions and predecessor behaviours.", "anchors": ["include/stdexec/__detail/__then.hpp", "include/stdexec/__detail/__upon_error.hpp", "include/stdexec/__detail/__upon_stopped.hpp", "include/stdexec/__detail/__receivers.hpp:__set_value_from"]}
{"id": "C05", "title": "let_* runs the produced sender in place of the predecessor", "statement": "let_value/let_error/let_stopped invoke the function exactly once iff the predecessor completes on the matching channel, then run the returned sender and complete with exactly its completion; other channels are forwarded; a throwing function completes with set_error(exception_ptr).", "quantifier": "every predecessor, function, returned sender and schedule", "why_tests_cant": "Same", "anchors": ["include/stdexec/__detail/__let.hpp"]}
{"id": "C06", "title": "when_all concatenates values in argument order", "statement": "If every child of when_all completes with set_value, when_all completes with the concatenation of the children's values in argument order, independently of the order in which the children finish.", "quantifier": "every number of children, every completion order, all values", "why_tests_cant": "n! completion orders for unbounded n", "anchors": ["include/stdexec/__detail/__when_all.hpp:__complete,__state,__arrive"]}
{"id": "C07", "title": "when_all reports a failure and asks the siblings to stop", "statement": "If some child of when_all fails, when_all completes with set_error(first error to arrive) if any child errored, with set_stopped if children were only stopped; and from the first failure on, every still-running sibling's stop token reports stop_requested.", "quantifier": "every number of children, completion order, mix of outcomes", "why_tests_cant": "Same", "anchors": ["include/stdexec/__detail/__when_all.hpp:__set_error,__set_stopped"]}
{"id": "C08", "title": "continues_on / starts_on / on control the execution context", "statement": "A value completion of continues_on(s,sch) is delivered on sch's execution resource; starts_on(sch,s) starts s on sch; on(sch,s) starts s on sch and delivers the value completion back on the scheduler where on was started.", "quantifier": "every child sender, scheduler and schedule in which schedulers honour their contract", "why_tests_cant": "Depends on all interleavings and completions of the child", "anchors": ["include/stdexec/__detail/__continues_on.hpp", "include/stdexec/__detail/__starts_on.hpp", "include/stdexec/__detail/__on.hpp"]}
{"id": "C09", "title": "finally runs the cleanup sender and replays the result", "statement": "finally(s, c): c is started exactly once after s has completed (on any channel) and s's operation state has been destroyed, and s's completion is replayed unless c fails, in which case c's failure is delivered.", "quantifier": "every s, c, schedule", "why_tests_cant": "Same", "anchors": ["include/stdexec/__detail/__finally.hpp"]}
{"id": "C10", "title": "sequence runs senders one after another", "statement": "sequence(s1..sn) starts s(i+1) only after s(i) completed with set_value, completes with the last sender's completion, and stops at the first non-value completion.", "quantifier": "every list of senders and schedule", "why_tests_cant": "Same", "anchors": ["include/stdexec/__detail/__sequence.hpp"]}
{"id": "C11", "title": "repeat_until / repeat_n iterate the right number of times", "statement": "repeat_until(s) re-runs s until it produces true (or fails) and completes with set_value() exactly then; repeat_n(s,n) runs s exactly n times if no run fails; each run starts after the previous one has completed and been destroyed.", "quantifier": "every n, every sequence of results, every schedule", "why_tests_cant": "Unbounded number of iterations", "anchors": ["include/exec/repeat_until.hpp", "include/exec/repeat_n.hpp"]}
{"id": "C12", "title": "Channel-translation adaptors", "statement": "into_variant yields set_value(variant(tuple(args))) for every value completion; stopped_as_optional yields optional(v)/nullopt; stopped_as_error maps stopped to the given error; all else is forwarded.", "quantifier": "every child sender, completion and schedule", "why_tests_cant": "All values and completions", "anchors": ["include/stdexec/__detail/__into_variant.hpp", "include/stdexec/__detail/__stopped_as_optional.hpp", "include/stdexec/__detail/__stopped_as_error.hpp"]}
{"id": "C13", "title": "Stop requests reach every running leaf", "statement": "After the parent receiver's token is stop_requested, every running leaf operation whose environment is not explicitly shielded observes stop_requested; a stop request alone never completes anything by itself and never un-requests.", "quantifier": "every expression, schedule and instant of the stop request", "why_tests_cant": "Instants of cancellation are unbounded", "anchors": ["include/stdexec/__detail/__when_all.hpp:__forward_stop_request", "include/stdexec/__detail/__stop_when.hpp", "include/stdexec/__detail/__finally.hpp", "include/stdexec/__detail/__write_env.hpp"]}
{"id": "C14", "title": "Sender algebra laws", "statement": "then(f)|then(g) behaves as then(g.f) for non-throwing functions; just(v)|let_value(f) behaves as f(v); s|let_value(just) as s; nested sequences/let associate; upon_*/then on a non-matching just are identities.", "quantifier": "every sender, function and schedule", "why_tests_cant": "Equivalence over all schedules", "anchors": ["include/stdexec/__detail/__then.hpp", "include/stdexec/__detail/__let.hpp", "include/stdexec/__detail/__just.hpp"]}
{"id": "C15", "title": "request_stop returns true exactly once; stop_requested is stable", "statement": "On one inplace_stop_source at most one call of request_stop (over all threads) returns true, every call returns only after stop is requested, and once stop_requested() is true it stays true.", "quantifier": "every number of threads, callbacks and interleavings", "why_tests_cant": "Race windows", "anchors": ["include/stdexec/stop_token.hpp:inplace_stop_source::request_stop"]}
{"id": "C16", "title": "Stop callbacks run exactly when they should", "statement": "A registered inplace_stop_callback's function is invoked at most once; invoked inline by its constructor iff stop was already requested; invoked by request_stop before that call returns if it was registered before and not destroyed; never otherwise.", "quantifier": "every number of threads/callbacks, every interleaving", "why_tests_cant": "Race windows", "anchors": ["include/stdexec/stop_token.hpp:__register_callback_,request_stop,__try_add_callback_"]}
{"id": "C17", "title": "Destroying a stop callback synchronises with its invocation", "statement": "When ~inplace_stop_callback returns, the callback is not executing on any other thread and will never start; destroying it from inside its own invocation does not deadlock.", "quantifier": "every number of threads/callbacks, every interleaving", "why_tests_cant": "Race windows / use after free", "anchors": ["include/stdexec/stop_token.hpp:__remove_callback_"]}
{"id": "C18", "title": "The stop source's lock is a lock and callback list stays well formed", "statement": "At most one thread is inside the critical section of an inplace_stop_source, the doubly linked callback list always contains exactly the registered, not yet invoked and not yet removed callbacks, and no removed callback is ever dereferenced.", "quantifier": "every interleaving", "why_tests_cant": "Race windows", "anchors": ["include/stdexec/stop_token.hpp:__lock_,__unlock_"]}
{"id": "C19", "title": "run_loop executes each scheduled operation exactly once in FIFO order", "statement": "Every operation started on a run_loop is executed exactly once by the thread calling run(), operations are executed in the order in which they were enqueued, and an operation whose receiver's stop token is stop_requested at execution completes with set_stopped, otherwise with set_value.", "quantifier": "every number of producer threads, operations and interleavings", "why_tests_cant": "Interleavings", "anchors": ["include/stdexec/__detail/__run_loop.hpp"]}
{"id": "C20", "title": "run_loop::run returns only after finish and when no work is left", "statement": "run() does not return before finish() has been called, and when it returns every operation whose start() had begun by then has been executed; no finish() call still has an access to the loop left then; run() never sleeps while work or the finish request is queued without a wake-up under way; and once finish() was called and the callers are gone run() reaches its return.", "quantifier": "every interleaving of start/finish/run", "why_tests_cant": "Shutdown races", "anchors": ["include/stdexec/__detail/__run_loop.hpp:run,finish,__execute_all"]}
{"id": "C21", "title": "intrusive queue operations implement a FIFO list", "statement": "push_back/push_front/pop_front/append/prepend/make/make_reversed/clear/iteration on __intrusive_queue act on the linked nodes exactly like the corresponding list operations, touching no node outside the queue.", "quantifier": "every heap, every list length", "why_tests_cant": "Unbounded lists", "anchors": ["include/stdexec/__detail/__intrusive_queue.hpp"]}
{"id": "C22", "title": "intrusive queue splice moves exactly the given range", "statement": "splice(pos, other, first, last) moves [first,last) of other before pos and leaves both queues well formed.", "quantifier": "all lists and positions", "why_tests_cant": "Unbounded lists, boundary cases", "anchors": ["include/stdexec/__detail/__intrusive_queue.hpp:splice"]}
{"id": "C23", "title": "atomic intrusive queue loses and duplicates nothing", "statement": "Concurrent pushes and pop_alls on __atomic_intrusive_queue deliver each pushed item to exactly one pop_all, in push order per the queue's declared order; push reports 'was empty' truthfully.", "quantifier": "every number of threads and interleaving", "why_tests_cant": "Races, ABA", "anchors": ["include/stdexec/__detail/__atomic_intrusive_queue.hpp", "include/exec/detail/atomic_intrusive_queue.hpp"]}
{"id": "C24", "title": "MPSC queue delivers in order", "statement": "__intrusive_mpsc_queue hands every pushed node to the consumer at most once, in the order of the producers' exchange, never the stub, and pop_front returns null only if the queue is empty or a push is in progress.", "quantifier": "every number of producers and interleaving", "why_tests_cant": "Races", "anchors": ["include/stdexec/__detail/__intrusive_mpsc_queue.hpp"]}
{"id": "C25", "title": "intrusive heap is a priority queue", "statement": "insert/pop_front/erase on intrusive_heap keep a well-linked min-heap containing exactly the inserted and not removed nodes; front() has a minimal key; erase reports whether the node was present.", "quantifier": "every heap content, size and key order", "why_tests_cant": "Unbounded sizes and shapes", "anchors": ["include/exec/detail/intrusive_heap.hpp"]}
{"id": "C26", "title": "work-stealing queue hands out each task at most once", "statement": "bwos::lifo_queue: every task pushed is returned by at most one pop_back/steal_front, and nothing that was not pushed is returned.", "quantifier": "every interleaving of owner and thieves", "why_tests_cant": "Races", "anchors": ["include/exec/detail/bwos_lifo_queue.hpp"]}
{"id": "C27", "title": "join of a counting scope waits for every association", "statement": "A join-sender of a (simple_)counting_scope completes only after every association obtained before has been released, and every join-sender started is completed exactly once when the count drops to zero.", "quantifier": "every number of threads, associations, joiners, interleavings", "why_tests_cant": "Races", "anchors": ["include/stdexec/__detail/__counting_scopes.hpp"]}
{"id": "C28", "title": "closed or joined scopes admit no new work", "statement": "After close() (or after a join has completed) try_associate fails; a failed association makes the associated sender complete with set_stopped without running the child; the number of live associations never exceeds max_associations.", "quantifier": "every history", "why_tests_cant": "Races", "anchors": ["include/stdexec/__detail/__counting_scopes.hpp", "include/stdexec/__detail/__associate.hpp"]}
{"id": "C29", "title": "scope destruction terminates exactly when unsafe", "statement": "Destroying a counting scope calls terminate unless it is unused, unused-and-closed, or joined.", "quantifier": "every history of scope operations", "why_tests_cant": "All histories", "anchors": ["include/stdexec/__detail/__counting_scopes.hpp:~simple_counting_scope"]}
{"id": "C30", "title": "spawn_future delivers the result once and frees the state once", "statement": "For every interleaving of completion, consumption, cancellation and abandonment the future's receiver is completed exactly once if connected and started, with the operation's result (or set_stopped), and the shared state is destroyed exactly once and not touched afterwards.", "quantifier": "every interleaving", "why_tests_cant": "Races, use after free", "anchors": ["include/stdexec/__detail/__spawn_future.hpp"]}
{"id": "C31", "title": "async_scope: when_empty completes only when the scope is empty", "statement": "exec::async_scope's when_empty(sender)/on_empty() starts the sender it wraps exactly once, and only after an instant, later than its own start, at which every nested operation started so far had completed and had left the scope (a nested operation started after that instant may be running); no started when_empty operation is forgotten once the nested operations complete; each nested operation is counted and uncounted exactly once.", "quantifier": "every interleaving", "why_tests_cant": "Races", "anchors": ["include/exec/async_scope.hpp"]}
{"id": "C32", "title": "split starts upstream once and notifies every consumer exactly once", "statement": "However many copies of a split sender are connected and started, concurrently with completion and stop requests, the upstream operation is started at most once and each started consumer is completed exactly once, with the upstream's result or set_stopped.", "quantifier": "every number of consumers and interleaving", "why_tests_cant": "Races", "anchors": ["include/exec/detail/shared.hpp", "include/exec/split.hpp"]}
{"id": "C33", "title": "ensure_started is eager, single-consumer and cancels when abandoned", "statement": "ensure_started starts the operation immediately; dropping the sender without connecting it requests stop on the upstream operation; the shared state is freed exactly once.", "quantifier": "every interleaving", "why_tests_cant": "Races", "anchors": ["include/exec/detail/shared.hpp", "include/exec/ensure_started.hpp"]}
{"id": "C34", "title": "when_all completes once under real concurrency", "statement": "With children completing on different threads and a concurrent stop request from the parent, when_all's atomic protocol completes the receiver exactly once.", "quantifier": "every number of children, every interleaving of atomic steps", "why_tests_cant": "Races", "anchors": ["include/stdexec/__detail/__when_all.hpp:__forward_stop_request,__arrive,__complete"]}
{"id": "C35", "title": "when_any completes once, with the first result", "statement": "when_any completes exactly once, after all children finished, with the result of the child that finished first (or set_stopped if the parent requested stop), and asks the others to stop as soon as one finished.", "quantifier": "every number of children, every interleaving", "why_tests_cant": "Races", "anchors": ["include/exec/when_any.hpp"]}
{"id": "C36", "title": "even_share partitions the index space", "statement": "even_share(n, rank, size) for rank in [0,size) yields consecutive, disjoint ranges covering exactly [0,n), sizes differing by at most one.", "quantifier": "all n, size>0, rank", "why_tests_cant": "Unbounded arithmetic", "anchors": ["include/exec/static_thread_pool.hpp:even_share"]}
{"id": "C37", "title": "bulk visits each index exactly once", "statement": "bulk / bulk_chunked / bulk_unchunked call the function for every index in [0,shape) exactly once on success, forward the predecessor's values afterwards, stop at the first exception (sequential version) and report it with set_error; on the thread pool the last finishing agent completes the receiver exactly once.", "quantifier": "all shapes, agent counts, interleavings, functions", "why_tests_cant": "Unbounded", "anchors": ["include/stdexec/__detail/__bulk.hpp", "include/exec/static_thread_pool.hpp:_bulk_shared_state"]}
{"id": "C38", "title": "thread pool workers do not sleep on queued work", "statement": "A static_thread_pool worker that is waiting on its condition variable and that no thread is about to wake has no task in any of its queues (remote, pending, local) and no stop request; a pending wake-up is delivered. Every submitted task is executed at most once, none is lost while the pool runs, its queue index is the worker it was submitted to, and when all workers sleep every submitted task has been executed; workers exit only after a stop request and never deadlock.", "quantifier": "every interleaving of enqueue and sleep", "why_tests_cant": "Lost wake-up races", "anchors": ["include/exec/static_thread_pool.hpp:pop,notify,enqueue"]}
{"id": "C39", "title": "trampoline_scheduler executes each operation once with bounded recursion", "statement": "Every operation started on a trampoline_scheduler is executed exactly once before the outermost start returns, deferred operations in FIFO order, never nesting deeper than max_recursion_depth.", "quantifier": "every tree of nested starts, every depth", "why_tests_cant": "Unbounded recursion trees", "anchors": ["include/exec/trampoline_scheduler.hpp"]}
{"id": "C40", "title": "sync_wait returns the sender's result", "statement": "sync_wait returns only after the operation has completed and returns optional(values) for set_value, nullopt for set_stopped and throws the error (as is for exception_ptr, system_error for error_code) for set_error.", "quantifier": "every sender, schedule", "why_tests_cant": "All schedules", "anchors": ["include/stdexec/__detail/__sync_wait.hpp"]}
{"id": "C41", "title": "completion_behavior is a join semilattice with sound predicates", "statement": "The common completion behaviour of several senders is an upper bound: it is affine/always-async only if all are, may be asynchronous if any is; combination is order independent.", "quantifier": "all combinations", "why_tests_cant": "All combinations of any length", "anchors": ["include/stdexec/__detail/__completion_behavior.hpp"]}
{"id": "C42", "title": "Environment queries: leftmost wins, forwarding respected", "statement": "A query on a joined environment returns the answer of the first environment that has it; a receiver's environment seen by a child through an adaptor exposes only forwarding queries plus the adaptor's additions.", "quantifier": "all environments, queries and depths", "why_tests_cant": "Unbounded nesting", "anchors": ["include/stdexec/__detail/__env.hpp"]}
{"id": "C43", "title": "intrusive_ptr frees exactly once", "statement": "Under any interleaving of copies, moves, resets and destructions from any threads, the control block is destroyed exactly once, when the last reference goes away, and never accessed afterwards; reserved bits never disturb the count.", "quantifier": "every interleaving", "why_tests_cant": "Races", "anchors": ["include/stdexec/__detail/__intrusive_ptr.hpp"]}
{"id": "C44", "title": "run_loop may be destroyed when run() has returned", "statement": "After run() has returned, no start() call whose operation has been executed touches the loop any more.", "quantifier": "every interleaving of start/finish/run", "why_tests_cant": "Shutdown races, use after free", "anchors": ["include/stdexec/__detail/__run_loop.hpp:start,run", "include/stdexec/__detail/__atomic_intrusive_queue.hpp:push"]}
{"id": "C45", "title": "The completion behaviour a sender advertises is true", "statement": "If the attributes of a sender say its completion on a channel is inline, always asynchronous, or on the context that started it, then every completion of that sender on that channel is; adaptors preserve this for every composition, and affine(s) always completes on the context it was started on.", "quantifier": "all sender expressions, channels, starting contexts", "why_tests_cant": "Unbounded nesting of adaptors, and the wrong cases need a particular combination of channels", "anchors": ["include/stdexec/__detail/__completion_behavior.hpp", "include/stdexec/__detail/__affine.hpp", "include/stdexec/__detail/__sequence.hpp", "include/stdexec/__detail/__when_all.hpp", "include/stdexec/__detail/__continues_on.hpp", "include/stdexec/__detail/__let.hpp:__get_attrs", "include/stdexec/__detail/__queries.hpp:__sync_attrs"]}
{"id": "C46", "title": "co_await never destroys a running operation", "statement": "When a coroutine awaits a sender, the operation state is destroyed only after the sender has completed, also when the awaiter decided from the sender's attributes that it completes inline.", "quantifier": "all awaited sender expressions", "why_tests_cant": "Use after free that depends on what the awaited sender is made of", "anchors": ["include/stdexec/__detail/__as_awaitable.hpp:__sender_awaiter", "include/stdexec/__detail/__let.hpp:__get_attrs"]}
{"id": "C47", "title": "timed_thread_context completes schedule_at operations once, on time and in order", "statement": "An operation of timed_thread_context's scheduler completes at most once; with set_value no earlier than its time and with set_stopped only after stop was requested of it or of the context; nobody touches it after its completion; of two operations the one started first and not scheduled for a later time completes first; every started operation is eventually completed, in particular when the context is destroyed; a stop request made of a started operation completes it without waiting for its time; and the context's thread does not sleep past the time of a due operation.", "quantifier": "all numbers of operations, times, and interleavings of starts, stop requests, the context's thread and its destruction", "why_tests_cant": "Races between submission, cancellation and the sleeping thread", "anchors": ["include/exec/timed_thread_scheduler.hpp:timed_thread_context,run,schedule"]}
{"id": "C48", "title": "A coroutine awaiting an asynchronous sender is resumed exactly once", "statement": "A coroutine that awaits a sender that may complete asynchronously is resumed exactly once, after the operation has completed, with its result (the exception, or unhandled_stopped); nobody uses the awaiter once the coroutine runs again, its body runs on one thread at a time, and once the operation has completed and start() has returned the coroutine is resumed without waiting for anything else; completing awaited operations never blocks for ever.", "quantifier": "all numbers of coroutines and threads, all nestings of start(), completion and resumption, all interleavings", "why_tests_cant": "The window between start() returning and await_suspend giving up the frame is a few instructions wide", "anchors": ["include/stdexec/__detail/__as_awaitable.hpp:__sender_awaiter,__async_receiver"]}
{"id": "C49", "title": "merge_each completes once, after everything, with the first error", "statement": "exec::merge_each completes its receiver at most once, and only when no operation of the outer sequence, of a nested sequence or of a nested value is running and the next receiver of every item has been completed exactly once; nothing happens afterwards; it completes with set_value only if the outer sequence did and nothing failed, with an error iff an operation failed, namely the error that arrived first, with set_stopped only if the outer sequence was stopped or stop had been requested before it started; after a failure, and after a stop request, every running operation's stop token is stop_requested; it does complete once every operation has completed; errors are read only while the operation that reports them exists.", "quantifier": "any number of nested sequences and values, created while the merge runs, every interleaving of their completions and of a stop request", "why_tests_cant": "Races between completions on several threads, unbounded numbers of items", "anchors": ["include/exec/sequence/merge_each.hpp:__operation_base,__receive_nested_value,__receive_nested_values,__receive_nested_sequence,__operation"]}
{"id": "C50", "title": "async_scope::spawn_future delivers the result once and releases its state once", "statement": "The future returned by async_scope::spawn_future completes its receiver at most once, only after start() and only after the spawned operation has completed, with that operation's result or with stopped if the consumer's stop token was stopped; once started and the operation completed it does complete; the state shared by the future and the operation is released exactly once, after both are done with it, and is not accessed afterwards; a stop request of the scope or of the consumer reaches the spawned operation's stop token.", "quantifier": "Every number of futures, every interleaving of the consumer (drop, connect, start, drop of the operation), the spawned operation's completion, stop requests of the consumer and of the scope, and their callbacks", "why_tests_cant": "The races are between three threads and depend on which of them gets the mutex first; tests exercise one order and do not detect access to freed memory", "anchors": ["include/exec/async_scope.hpp:__future_state_base", "include/exec/async_scope.hpp:__future_opstate", "include/exec/async_scope.hpp:__future_receiver_base", "include/exec/async_scope.hpp:__future"]}
{"id": "C51", "title": "A coroutine task behaves like a function call and cleans up after itself", "statement": "A coroutine task (stdexec::task or exec::task) connected to a receiver and started runs its body from top to bottom; co_await of a sender or task yields its value or rethrows its error at that point, and if it is stopped, nothing of the awaiting bodies runs any more; actions registered with at_coroutine_exit (on_coroutine_succeeded/failed/stopped) run once each at the end of their coroutine, in reverse order (only for the matching outcome), also when the coroutine is stopped; the stop token in the body reports exactly the stop requests of the receiver; the receiver is completed exactly once with the body's result (unless a cleanup action throws or is stopped, which terminates the program); every coroutine frame is destroyed exactly once, before the receiver is completed, and never used afterwards.", "quantifier": "Every program (any nesting of tasks, awaits, handlers and cleanup actions), every outcome of the awaited senders and every moment of the stop request", "why_tests_cant": "Programs nest without bound and resume each other by symmetric transfer; tests run a few bodies and cannot see a leaked or twice destroyed frame on the paths they do not take", "anchors": ["include/stdexec/__detail/__task.hpp:task::__awaiter", "include/exec/task.hpp:basic_task", "include/exec/at_coroutine_exit.hpp:__task::__final_awaiter", "include/exec/on_coro_disposition.hpp", "include/stdexec/__detail/__connect_awaitable.hpp:__opstate", "include/stdexec/__detail/__with_awaitable_senders.hpp"]}
{"id": "C52", "title": "io_uring_context completes every operation once, on the running thread", "statement": "An operation of io_uring_context's scheduler (schedule, schedule_after) completes at most once; on the thread that runs the context; stopped only if a stop of the context or of its receiver was requested; with a value only after its time has passed; it is not used after it completed and no node is linked into two queues; no submitted operation is forgotten while the runner sleeps in the kernel; when the context has been stopped and run() has returned, every operation submitted has completed; operations submitted later complete with stopped; run() may be called again and run_until_empty() returns when nothing is left to do.", "quantifier": "Every number of operations, sizes of the rings, every interleaving of the starting threads, the running thread, the kernel, timer expiry, stop requests of the context and of the receivers and their callbacks", "why_tests_cant": "The order of kernel completions, wake-ups and stop callbacks cannot be controlled by a test; forgotten operations only show as a hang", "anchors": ["include/exec/linux/io_uring_context.hpp:__context", "include/exec/linux/io_uring_context.hpp:__wakeup_operation", "include/exec/linux/io_uring_context.hpp:__stoppable_task_facade", "include/exec/linux/io_uring_context.hpp:__stop_operation"]}
{"id": "C53", "title": "A fused stop callback runs once and is safe to destroy", "statement": "A callback registered with the stop token that stop_when gives its child is called at most once however many of the two stop sources are stopped, only if one was; if it is registered and not destroyed, a stop request of either source has it called; after its destructor returned (on any thread, also from inside the callback) nothing of it is used and it does not run; the destructor does not deadlock; when request_stop of a source returns, the callback has returned.", "quantifier": "Every interleaving of the construction, the two stop requests and the destruction, stop requested before or during construction", "why_tests_cant": "Races between two independent stop sources and the destructor", "anchors": ["include/stdexec/__detail/__stop_when.hpp:__fused_token::callback_type", "include/stdexec/__detail/__stop_when.hpp:__make_token_fn"]}
{"id": "C54", "title": "iterate offers every element once and in order; the pipeline delivers the first failure", "statement": "exec::iterate(range) offers the elements of the range in order, each exactly once, stays inside the range, does not use the range after the sender is destroyed, and completes its receiver exactly once: with a value when all elements have been processed, with stopped only if stop was requested and an item was stopped, with an error only if set_next or connect threw. iterate | transform_each(f) | ignore_all_values completes with the first result of f that is not a value, or with a value, having visited exactly the elements up to that one.", "quantifier": "Every range, every behaviour of the sequence receiver (running an item any number of times, completing the next sender either way, throwing), every moment of a stop request", "why_tests_cant": "Ranges are unbounded and the receiver is user code", "anchors": ["include/exec/sequence/iterate.hpp:__operation", "include/exec/sequence/iterate.hpp:__item_operation", "include/exec/sequence/iterate.hpp:__next_receiver", "include/exec/sequence/transform_each.hpp", "include/exec/sequence/ignore_all_values.hpp"]}
{"id": "C55", "title": "A type-erased any behaves like a value", "statement": "A type-erased any (the storage under any_sender, any_scheduler, any_receiver and their operation states) contains the value last put into it: constructing, emplacing, moving, copying, converting to another interface, swapping, resetting and destroying anys moves the values around as for ordinary values, no matter whether the value lives in the buffer or on the heap; an operation throws only if the allocator or a constructor of the value does, and then a failed copy leaves both anys unchanged and a failed emplacement leaves the any empty; every value is destroyed exactly once, is used only while it is alive and suitably aligned, and memory is released exactly once.", "quantifier": "Every program over any number of anys, interfaces and value types (every size, alignment, and nothrow-movability), every throw point", "why_tests_cant": "Whether a value is in the buffer depends on the type and the interface, and swap, move and conversion each treat the combinations differently; leaks, double destruction and misalignment do not show in tests", "anchors": ["include/stdexec/__detail/__any.hpp:__value_proxy_root", "include/stdexec/__detail/__any.hpp:__emplace_into", "include/stdexec/__detail/__any.hpp:__is_small", "include/stdexec/__detail/__any.hpp:__any", "include/exec/any_sender_of.hpp:_any_opstate_base"]}
{"id": "C56", "title": "bulk on parallel_scheduler and task_scheduler visits every index once and completes once", "statement": "bulk, bulk_chunked and bulk_unchunked on parallel_scheduler or task_scheduler call the function for every index below the shape exactly once (with a sequential policy in order, a chunked function then being called once), then send the predecessor's values on; the default backend splits the index space into non-empty chunks that cover it exactly, for every size and parallelism; a started operation completes exactly once, on every path (failing or stopped predecessor, stop request, failed allocation, throwing function).", "quantifier": "Every shape, policy, parallelism, backend that conforms to the interface, order and interleaving of the items, every place where the function throws", "why_tests_cant": "The chunking depends on the machine's parallelism, the interleaving on the pool; tests try a few shapes with one policy", "anchors": ["include/stdexec/__detail/__task_scheduler.hpp:__bulk_state::execute", "include/stdexec/__detail/__task_scheduler.hpp:__get_execute_bulk_fn", "include/stdexec/__detail/__parallel_scheduler.hpp:__typed_forward_args_receiver", "include/stdexec/__detail/__parallel_scheduler.hpp:__bulk_intermediate_receiver", "include/stdexec/__detail/__parallel_scheduler_default_impl.hpp:__generic_impl::schedule_bulk_chunked"]}
{"id": "C57", "title": "Operations of parallel_scheduler and task_scheduler manage their storage", "statement": "The backend's operation is constructed inside the storage the frontend provides, suitably aligned, or on the heap; the objects that take turns in that storage never overlap in time; every object an operation creates (reference to the backend, predecessor's operation, values, backend's operation) is destroyed exactly once by the time the operation is destroyed.", "quantifier": "Every address, size and alignment; every path through an operation: never started, stopped before start, failing or stopped predecessor, failed allocation, stopped by the backend, completed", "why_tests_cant": "Leaks and overlaps on the rare paths do not make a test fail", "anchors": ["include/stdexec/__detail/__parallel_scheduler.hpp:__system_op", "include/stdexec/__detail/__parallel_scheduler.hpp:__system_bulk_op", "include/stdexec/__detail/__parallel_scheduler_default_impl.hpp:__ensure_alignment", "include/stdexec/__detail/__parallel_scheduler_default_impl.hpp:__operation::__construct_maybe_alloc", "include/stdexec/__detail/__task_scheduler.hpp:__any_opstate", "include/stdexec/__detail/__task_scheduler.hpp:__bulk_opstate"]}
{"id": "C58", "title": "Stop requests pass through type-erased senders and schedulers", "statement": "The stop token the child of an any_sender sees is stopped only if stop was requested of the receiver's token, and when that request has returned and the child has been started and has not begun to complete, the child's token is stopped and its callback has been called; the receiver is completed at most once; nobody uses the operation state after that; nobody waits for ever. The backend of parallel_scheduler and task_scheduler sees the receiver's stop requests whatever the type of its stop token.", "quantifier": "Every interleaving of start(), the stop request (before, during or after start) and the completion of the child (in start(), in its stop callback, on another thread)", "why_tests_cant": "The destructor of the forwarding callback races with the stop request; an access to the destroyed stop source does not make a test fail", "anchors": ["include/exec/any_sender_of.hpp:_state", "include/exec/any_sender_of.hpp:_any_opstate", "include/stdexec/stop_token.hpp:__forward_stop_request", "include/stdexec/stop_token.hpp:inplace_stop_source::request_stop", "include/stdexec/__detail/__parallel_scheduler_backend.hpp:__stop_callback_for", "include/stdexec/__detail/__parallel_scheduler_backend.hpp:__receiver_proxy_base"]}
{"id": "C59", "title": "Replacing the parallel_scheduler backend takes effect", "statement": "get_parallel_scheduler / query_parallel_scheduler_backend return the process-wide backend: the instance installed by the latest completed set_parallel_scheduler_backend, or else one default instance created on first use; every instance returned was made by the default factory or by a factory passed to an earlier set; set returns the factory it has replaced; the internal lock protects the shared pointer and never deadlocks.", "quantifier": "every interleaving of any number of threads calling get and set any number of times", "why_tests_cant": "the races between first use, replacement and creation of an instance need particular interleavings of several threads at process start-up", "anchors": ["include/stdexec/__detail/__parallel_scheduler_default_impl.hpp:__instance_data::__get_current_instance", "include/stdexec/__detail/__parallel_scheduler_default_impl.hpp:__instance_data::__set_backend_factory"]}
{"id": "C60", "title": "start_now's async_wait waits for all the work", "statement": "start_now starts all its senders at once; an operation of async_wait() completes exactly once, after all of them have completed, whether it is started before, while or after they complete; after that no thread touches the storage object, so it may be destroyed.", "quantifier": "any number of senders completing on any thread at any time after they are started, any number of async_wait operations, every interleaving", "why_tests_cant": "whether the last completion and the waiter miss each other depends on the interleaving of two atomics; a second waiter is needed to see the failure", "anchors": ["include/exec/start_now.hpp:__storage_base::__complete", "include/exec/start_now.hpp:__operation::start", "include/exec/start_now.hpp:__storage"]}
{"id": "C61", "title": "Detached operations clean up after themselves", "statement": "An operation started by exec::start_detached or stdexec::spawn, or by the submit() path they are built on, allocates its memory once, is kept alive until its sender has completed, and then destroys and frees everything it made exactly once; if starting it throws, the exception reaches the caller after everything already made has been destroyed; an operation spawned into a scope has returned its memory before the scope's join completes; an exception thrown while the second operation of let_value is being submitted reaches the receiver as an error.", "quantifier": "every number of detached operations of every submit kind, every choice of throwing steps, completion before, during or after the starting call, every interleaving with close and join of the scope", "why_tests_cant": "completion may race with the return of the starting call and with the join, and each step of the start may throw; tests cover a few of those points", "anchors": ["include/exec/start_detached.hpp:__operation", "include/stdexec/__detail/__spawn.hpp:__spawn_state", "include/stdexec/__detail/__submit.hpp:submit_result", "include/stdexec/__detail/__optional.hpp:__emplace_from", "include/stdexec/__detail/__let.hpp:__opstate_base::__impl"]}
{"id": "C62", "title": "The memory resource adaptor returns aligned, disjoint blocks and gives back what it took", "statement": "A memory resource made from an allocator returns, for every size and alignment, a block with the alignment asked for that overlaps no other block in use; no other call changes the bytes of a block in use; deallocate returns to the allocator exactly the address and the size that were obtained for that block, once; a request that cannot be satisfied throws.", "quantifier": "every sequence of allocations, deallocations and writes, every size, power-of-two alignment and upstream address, every content of memory", "why_tests_cant": "the pointer arithmetic must be right for every size, alignment and address the allocator may return", "anchors": ["include/exec/__memory_resource_adaptor.hpp:allocate", "include/exec/__memory_resource_adaptor.hpp:deallocate"]}
{"id": "C63", "title": "An Asio operation used as a sender completes exactly once and is not touched afterwards", "statement": "For an Asio asynchronous operation initiated with exec::asio's completion token and connected to a receiver: the receiver is completed exactly once, once Asio has invoked the completion handler or destroyed it uninvoked and every call has returned; the operation state is never used after that completion; the completion is set_error iff the initiation or a function run through the associated executor threw, otherwise set_value only if the handler was invoked and set_stopped only if it was dropped; the cancellation signal is never emitted after completion; and no call into the operation can block for ever.", "quantifier": "every number of threads, every interleaving of start(), functions run through the associated executor (nested to any depth), invocation or destruction of the handler on any thread and from any nesting, exceptions, and a stop request at any time", "why_tests_cant": "The recursive mutex, the frame list and the stop callback interact across threads and nesting depths; tests with a real io_context only exercise a few interleavings and cannot see use-after-destruction windows.", "anchors": ["include/exec/asio/completion_token.hpp:operation_state_base", "include/exec/asio/completion_token.hpp:completion_handler", "include/exec/asio/completion_token.hpp:operation_state::start", "include/exec/asio/completion_token.hpp:executor"]}
{"id": "C64", "title": "bulk on a pool: one completion, every index once, the right channel", "statement": "For bulk on the pools built on thread_pool_base (asio, tbb, taskflow) and on libdispatch_queue: the receiver is completed exactly once, after every call of the function is over and with nothing done to the operation afterwards; on the value channel every index below the shape has been passed to the function exactly once and no call threw; on the error channel the exception is one that a call threw; a predecessor's error or stop is passed on without any call; and the operation always ends.", "quantifier": "every number of tasks, every interleaving of the submitting thread and the tasks, every set of throwing calls, every outcome of the predecessor", "why_tests_cant": "whether the last task to finish sees all the others' work, and whether the submitting loop outlives the operation, depends on the schedule", "anchors": ["include/exec/thread_pool_base.hpp:bulk_shared_state", "include/exec/thread_pool_base.hpp:bulk_receiver", "include/exec/libdispatch_queue.hpp:bulk_shared_state", "include/exec/libdispatch_queue.hpp:bulk_receiver"]}
{"id": "C65", "title": "Result storage: every stored object is destroyed exactly once", "statement": "The containers in which operations keep results and child operations (variant and optional): every object built in one is destroyed exactly once, and not at all if its constructor threw; nothing leaks; after a throw the container is valueless; the index names the type of the live object held; copies keep the type (and the index, if the types differ); self-assignment does nothing; and a container may be destroyed by the constructor of its own content (inline completion) without being touched afterwards.", "quantifier": "every history of operations on any number of containers, with constructors and destructors that start further operations on other containers, or destroy the container they are built in, and every set of throwing constructors", "why_tests_cant": "the re-entrant histories, in which a constructor's completion destroys the storage around it, are unbounded in number and depth", "anchors": ["include/stdexec/__detail/__variant.hpp:__variant", "include/stdexec/__detail/__optional.hpp:__optional"]}
{"id": "C66", "title": "Operations of windows_thread_pool: one completion, safe cancellation", "statement": "An operation of the Windows thread pool scheduler (schedule, schedule_at, schedule_after) completes exactly once once started, with a value on a pool thread or, only if a stop was requested, stopped; if the stop was requested before start() nothing is submitted, and if request_stop() returned before the pool began to run the callback no value is reported. Nothing touches the operation after the receiver has destroyed it, no thread is left waiting for ever, and the system object and the shared state word are released exactly once, also if the constructor throws.", "quantifier": "every interleaving of start(), request_stop(), the pool's callback, the expiry of the timer and the destruction of the operation by its receiver, every spurious CAS failure, and every failure of the constructor's system calls, for stoppable and unstoppable receivers, with and without a timer", "why_tests_cant": "start(), the callback and request_stop() meet in a four-flag word, in windows of a few instructions, and the operation may be destroyed while two of them are still running; tests reach the easy orders only", "anchors": ["include/exec/windows/windows_thread_pool.hpp:windows_thread_pool::_op", "include/exec/windows/windows_thread_pool.hpp:windows_thread_pool::_time_schedule_op"]}
{"id": "C67", "title": "fork_join gives every branch the predecessor's result", "statement": "sndr | fork_join(c0, c1, ...) runs the predecessor once, destroys it exactly once whatever happens (never started, completed, copy of the result threw), and every branch that looks at its input sees the same result: the predecessor's completion, or the exception thrown by copying it. The receiver is completed once, after all branches have ended, with the values of the branches in order, or the first error, or stopped. An exception thrown while connecting reaches the caller of connect, and a failure of the predecessor is never turned into success.", "quantifier": "all numbers of branches, all results and copy failures, all interleavings of the branches with each other and with a stop request, destruction at any allowed point", "why_tests_cant": "the orders of the branches and the points where an exception or a stop request can come are unbounded", "anchors": ["include/exec/fork_join.hpp:_opstate_t", "include/exec/fork_join.hpp:_cache_sndr_t", "include/stdexec/__detail/__when_all.hpp:when_all_t"]}
{"id": "C68", "title": "ignore_all_values reports the first failure of any item", "statement": "ignore_all_values over a sequence that offers items concurrently completes its receiver at most once, after every started item has completed. If the sequence completes with a value, the receiver gets a value exactly if no item failed, otherwise a failure of an item that was not preceded by the end of another failed item; the stored result is never read while it is being written. If the sequence fails or is stopped, that is what the receiver gets. An error whose copy throws is reported as an error and an item's error is never dropped.", "quantifier": "all numbers of items, all results, all interleavings of the items' completions on different threads", "why_tests_cant": "races between failing items have unboundedly many interleavings", "anchors": ["include/exec/sequence/ignore_all_values.hpp:__result_type", "include/exec/sequence/ignore_all_values.hpp:__item_receiver", "include/exec/sequence/ignore_all_values.hpp:__receiver"]}
{"id": "C69", "title": "function types ignore the order of signatures", "statement": "Two exec::function types whose signature and query lists have the same elements, in any order and with any repetitions, are the same type, and lists with different elements give different types; the fixed-capacity vector used for this keeps exactly the elements it should under construction, erasure and concatenation; the sender factory given to a function is stored in it byte for byte, aligned, without overlapping the arguments.", "quantifier": "all lists of types, vector contents and ranges, factories of any size and alignment", "why_tests_cant": "tests compare two or three literal signature lists and small lambdas; the claim is about every list, every capacity and every factory layout", "anchors": ["include/exec/function.hpp:__canonicalize", "include/exec/function.hpp:__function", "include/stdexec/__detail/__static_vector.hpp:__static_vector"]}
{"id": "C70", "title": "the rings shared with the kernel lose, duplicate and overwrite nothing", "statement": "For an io_uring_context: every task handed to the submission ring is taken by the kernel exactly once, in order; every call that submits a batch puts each task of the batch into exactly one of the ring, the ready list, the pending list or the cancelled ones, honouring the limit and leaving tasks pending only if the limit is reached or the ring is full; every completion the kernel posts is handled exactly once, in order, and a completion function sees its own completion as long as it runs; a call returns the number of completions it handled, at most a ringful.", "quantifier": "all ring sizes and index widths, all initial index values (wrap-around), all batches, limits and stop states, all interleavings with a kernel that consumes and posts at any time", "why_tests_cant": "tests issue a handful of operations on one machine, never wrap the 32-bit indices, and cannot control when the kernel reads or writes the rings", "anchors": ["include/exec/linux/io_uring_context.hpp:__submission_queue::submit", "include/exec/linux/io_uring_context.hpp:__completion_queue::complete"]}
{"id": "C71", "title": "the intrusive singly linked list behaves as a list", "statement": "Over every history of pushes, pops, removals, swaps, moves, clears and iterations on any number of lists, with an item in at most one list at a time, every operation returns what the same operation on lists of items returns, every loop ends, no assertion fails and no list is disturbed by operations on another; removing the item an iterator stands on lets the iterator go on with the rest.", "quantifier": "all histories of operations, all numbers of lists and items", "why_tests_cant": "tests run short literal sequences on one list; the claim is about every history and about sharing of the link fields between lists", "anchors": ["include/stdexec/__detail/__intrusive_slist.hpp:__intrusive_slist", "include/stdexec/__detail/__intrusive_slist.hpp:remove"]}
{"id": "C72", "title": "NUMA constraints are honoured when tasks are placed", "statement": "static_thread_pool puts a constrained task on a thread of an allowed NUMA node whenever there is one (on the caller's own queue if the caller is allowed), takes turns among the allowed threads, falls back to all threads if none is allowed, and never fails an assertion or reads out of range; a batch is enqueued completely, once and in order; the default policy deals thread indices to nodes in proportion to their CPUs.", "quantifier": "all thread counts, node assignments, masks, counter values, batches and CPU topologies", "why_tests_cant": "tests run on machines with one NUMA node and without libnuma, where every mask and node is the same", "anchors": ["include/exec/static_thread_pool.hpp:_static_thread_pool::random_thread_index_with_constraints", "include/exec/static_thread_pool.hpp:_static_thread_pool::bulk_enqueue", "include/exec/detail/numa.hpp:default_numa_policy::thread_index_to_node"]}
{"id": "C73", "title": "Owners of descriptors and mappings: every kernel resource is released exactly once", "statement": "A program that holds file descriptors and mapped memory in safe_file_descriptor and memory_mapped_region objects releases each of them exactly once, with the length it was mapped with, and never one that belongs to someone else, although the kernel reuses numbers; while an object is non-empty its descriptor or mapping is open and held by it alone; when all objects are gone nothing is left open; assigning an object to itself changes nothing; reset may be given any descriptor the caller has; a region made from a failed mapping is empty with size 0. The constructor of the io_uring context releases what it acquired when any of its system calls fails, and reports that call's error.", "quantifier": "every sequence of member function calls over any number of objects, every interleaving with the rest of the process opening and closing its own resources, every choice of numbers by the kernel, every set of failing system calls", "why_tests_cant": "descriptor numbers are reused by the kernel: a double close does harm only when another part of the process got the number in between, and failing system calls in a constructor are not reproducible", "anchors": ["include/exec/linux/safe_file_descriptor.hpp:safe_file_descriptor", "include/exec/linux/detail/safe_file_descriptor.hpp:reset", "include/exec/linux/detail/memory_mapped_region.hpp:memory_mapped_region", "include/exec/linux/io_uring_context.hpp:__context_base", "include/exec/linux/io_uring_context.hpp:__io_uring_setup"]}
{"id": "C74", "title": "Timed scheduling by means of the other operation; time point arithmetic", "statement": "For a scheduler that offers only schedule_at, schedule_after(d) never completes before d has passed since it was started (not since it was created); for one that offers only schedule_after, schedule_at(tp) never completes while the clock shows an earlier time; if the scheduler is punctual the result is late by no more than the time between reading the clock and starting the native operation. Every duration and time point of the scheduler's types may be given. The time points of the Windows clock obey the usual arithmetic: t+d-d = t, t < t+d for positive d, (t+d)-t = d, min() and max() bound all values, and the system's time is taken over without loss.", "quantifier": "every clock, every duration and time point, every delay between creating, starting, reading the clock, calling and completing", "why_tests_cant": "tests use small durations near the present, on a steady clock; overflow, clock adjustments, rounding and delays between two instructions are not met", "anchors": ["include/exec/timed_scheduler.hpp:schedule_after_t", "include/exec/timed_scheduler.hpp:schedule_at_t", "include/exec/windows/filetime_clock.hpp:filetime_clock", "include/exec/windows/filetime_clock.hpp:time_point"]}
{"id": "C75", "title": "The memory of task frames goes back where it came from", "statement": "Each coroutine frame of a task gets memory from the allocator the coroutine was given; the frame and the copy of the allocator kept with it fit into that memory without overlapping and are suitably aligned; when the frame is destroyed the copy is destroyed first and then the memory is given back to that same allocator, with the size that was asked for, exactly once - whatever other tasks with other allocators are created and destroyed meanwhile and whatever the coroutines write into their frames; a throwing allocator leaves nothing behind.", "quantifier": "every number of tasks, every frame size, every allocator type and size, every order of creation and destruction, every address the allocators return, every write of the coroutines", "why_tests_cant": "frame sizes are chosen by the compiler, and an error in rounding shows only for particular sizes; the memory is described by data placed behind the frame", "anchors": ["include/stdexec/__detail/__task.hpp:__divmod", "include/stdexec/__detail/__task.hpp:__any_alloc", "include/stdexec/__detail/__task.hpp:__promise::operator new", "include/stdexec/__detail/__task.hpp:__promise::operator delete"]}
{"id": "C76", "title": "Completions as values, senders from functions, and the check for stop", "statement": "materialize turns every completion of its sender into exactly one value completion that says which it was and with what, and dematerialize undoes it, for completions and for signatures; their signatures describe exactly what can happen. just_from, just_error_from and just_stopped_from complete exactly once, with what the function gave to the sink, or with the exception if it throws, and with a declared signature. unless_stop_requested starts its sender exactly if no stop was requested when it was started, and completes as stopped otherwise.", "quantifier": "every completion with any arguments (also tags as arguments), every list of signatures, every function given to just_from, every token", "why_tests_cant": "signature computations are templates over arbitrary lists of types; the functions are the user's", "anchors": ["include/exec/materialize.hpp:materialize", "include/exec/materialize.hpp:dematerialize", "include/exec/just_from.hpp:just_from", "include/exec/unless_stop_requested.hpp:unless_stop_requested"]}
{"id": "C77", "title": "Random choice of the thread to steal from", "statement": "The random number generator with which the threads of a pool choose whom to steal from never runs dry: from a non-zero seed it never reaches a state in which it only repeats one number, no two states have the same successor, and every state it visits is visited again before any other cycle is entered. Its outputs are between min() and max(), and discard(n) skips exactly n of them. Seeding from the random device gives a usable state, and different random numbers give different states.", "quantifier": "every 64-bit seed, every number of calls, every pair of numbers from the random device", "why_tests_cant": "there are 2^64 states", "anchors": ["include/exec/detail/xorshift.hpp:xorshift", "include/exec/static_thread_pool.hpp:_static_thread_pool"]}
