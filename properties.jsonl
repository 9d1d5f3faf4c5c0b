{"id": "C01", "title": "Channel values are never lost, duplicated or invented", "statement": "For channel<T>: at every moment the values already returned by completed reads together with the values still held by the channel (buffered, or given to a read that is about to resume) are, as a multiset, exactly the values of the writes that succeeded or whose value was already taken; the buffer never exceeds the capacity; a value is returned by at most one read and was passed to some write.", "quantifier": "every capacity, every number of readers and writers, every history of read/write/cancel/interrupt/close/executor steps that does not run into undefined behaviour, any value type", "why_tests_cant": "A test runs one or a few interleavings of the executor; the claim is about every interleaving of starts, resumptions, cancellations and closes, of any length.", "anchors": ["include/boost/cobalt/channel.hpp: channel<T>::read_op, channel<T>::write_op", "include/boost/cobalt/impl/channel.hpp: await_suspend, await_resume, close, cancel_impl"]}
{"id": "C02", "title": "Single-producer single-consumer channel preserves program order and never misbehaves", "statement": "When one coroutine writes and one coroutine reads, the sequence of values returned by successful reads is a prefix of the sequence of values passed to successful-or-pending writes in program order, no undefined behaviour or failed assertion is reachable, and the number of buffered values never exceeds the capacity.", "quantifier": "every capacity, every history of one reader and one writer with arbitrary cancellations and a close at any point", "why_tests_cant": "A test runs one or a few interleavings of the executor; the claim is about every interleaving of starts, resumptions, cancellations and closes, of any length.", "anchors": ["include/boost/cobalt/channel.hpp: channel<T>::read_op, channel<T>::write_op", "include/boost/cobalt/impl/channel.hpp: await_suspend, await_resume, close, cancel_impl"]}
{"id": "C03", "title": "Rendezvous channel (capacity 0) pairs each write with exactly one read", "statement": "With capacity 0 and any number of readers and writers, a write succeeds only by handing its value to one read, every read value comes from one write, nothing is ever buffered, and no undefined behaviour is reachable as long as each write is awaited where it is created and interrupted operations are destroyed promptly.", "quantifier": "every number of readers and writers and every history over a capacity-0 channel", "why_tests_cant": "A test runs one or a few interleavings of the executor; the claim is about every interleaving of starts, resumptions, cancellations and closes, of any length.", "anchors": ["include/boost/cobalt/channel.hpp: channel<T>::read_op, channel<T>::write_op", "include/boost/cobalt/impl/channel.hpp: await_suspend, await_resume, close, cancel_impl"]}
{"id": "C04", "title": "Cancelling a channel operation loses no data", "statement": "A read that completes with operation_aborted took no value from the channel, and a write that completes with operation_aborted put no value into it, now or later; no other operation's value is affected.", "quantifier": "every reachable channel state and every operation that completes as cancelled", "why_tests_cant": "A test runs one or a few interleavings of the executor; the claim is about every interleaving of starts, resumptions, cancellations and closes, of any length.", "anchors": ["include/boost/cobalt/channel.hpp: channel<T>::read_op, channel<T>::write_op", "include/boost/cobalt/impl/channel.hpp: await_suspend, await_resume, close, cancel_impl"]}
{"id": "C05", "title": "Closing a channel", "statement": "After close(), no operation stays waiting: every waiting operation is scheduled for resumption; reads return the remaining buffered values in order and afterwards broken_pipe; a write created after close() fails with broken_pipe and adds nothing.", "quantifier": "every reachable channel state at the time of close and every later history", "why_tests_cant": "A test runs one or a few interleavings of the executor; the claim is about every interleaving of starts, resumptions, cancellations and closes, of any length.", "anchors": ["include/boost/cobalt/channel.hpp: channel<T>::read_op, channel<T>::write_op", "include/boost/cobalt/impl/channel.hpp: await_suspend, await_resume, close, cancel_impl"]}
{"id": "C06", "title": "A waiting reader and a waiting writer never coexist", "statement": "At no time is a read waiting in the channel while a write is waiting in the channel, so two parties can never deadlock on each other.", "quantifier": "every reachable state, every number of readers and writers", "why_tests_cant": "A test runs one or a few interleavings of the executor; the claim is about every interleaving of starts, resumptions, cancellations and closes, of any length.", "anchors": ["include/boost/cobalt/channel.hpp: channel<T>::read_op, channel<T>::write_op", "include/boost/cobalt/impl/channel.hpp: await_suspend, await_resume, close, cancel_impl"]}
{"id": "C07", "title": "Each channel operation completes at most once", "statement": "The coroutine awaiting a channel operation is resumed at most once for that operation, whatever combination of hand-off, wake-up, cancellation, interruption and close hits it.", "quantifier": "every history", "why_tests_cant": "A test runs one or a few interleavings of the executor; the claim is about every interleaving of starts, resumptions, cancellations and closes, of any length.", "anchors": ["include/boost/cobalt/channel.hpp: channel<T>::read_op, channel<T>::write_op", "include/boost/cobalt/impl/channel.hpp: await_suspend, await_resume, close, cancel_impl"]}
{"id": "C08", "title": "Many readers or writers on a buffered channel never hit undefined behaviour", "statement": "With a buffered channel and several readers (or several writers), a reader that was woken always finds a value and a writer that was woken always finds room.", "quantifier": "every history with more than one reader or more than one writer", "why_tests_cant": "The failing interleaving needs a third operation to slip in between the wake-up being posted and the executor running it; tests with one reader and one writer never produce it.", "anchors": ["include/boost/cobalt/channel.hpp: channel<T>::read_op, channel<T>::write_op", "include/boost/cobalt/impl/channel.hpp: await_suspend, await_resume, close, cancel_impl"]}
{"id": "C09", "title": "No waiting reader is left behind while values are buffered", "statement": "Whenever the executor is idle (nothing posted), a waiting reader implies an empty buffer and a waiting writer implies a full buffer.", "quantifier": "every reachable state of every history, including cancellations that arrive after the wake-up was posted", "why_tests_cant": "A test runs one or a few interleavings of the executor; the claim is about every interleaving of starts, resumptions, cancellations and closes, of any length.", "anchors": ["include/boost/cobalt/channel.hpp: channel<T>::read_op, channel<T>::write_op", "include/boost/cobalt/impl/channel.hpp: await_suspend, await_resume, close, cancel_impl"]}
{"id": "C10", "title": "channel<void> counts correctly", "statement": "For channel<void>: successful writes minus successful reads equals the number of stored signals plus those handed over but not yet collected; stored signals stay between 0 and the limit for one reader and one writer; a signal is consumed by at most one read.", "quantifier": "every limit and every history", "why_tests_cant": "A test runs one or a few interleavings of the executor; the claim is about every interleaving of starts, resumptions, cancellations and closes, of any length.", "anchors": ["include/boost/cobalt/channel.hpp: channel<void>", "src/channel.cpp: channel<void>::close, read_op::await_resume, write_op::await_resume", "include/boost/cobalt/impl/channel.hpp: channel<void>::read_op::await_suspend, write_op::await_suspend"]}
{"id": "C11", "title": "channel<void> and channel<T> agree on draining after close", "statement": "After close(), signals (values) that were successfully written before the close can still be read before broken_pipe is reported, for channel<void> just as for channel<T>.", "quantifier": "every channel state at the time of close", "why_tests_cant": "A test checks one fill level; the claim compares two implementations over all states.", "anchors": ["include/boost/cobalt/channel.hpp: channel<T>::read_op, channel<T>::write_op", "include/boost/cobalt/impl/channel.hpp: await_suspend, await_resume, close, cancel_impl", "src/channel.cpp"]}
{"id": "C12", "title": "gather reports every child's own outcome in argument order", "statement": "co_await gather(...) finishes only when every child has finished, and the i-th element of its result is exactly the value or exception of the i-th argument; a failing child never cancels another one.", "quantifier": "every number of children, every completion order, every mix of ready, suspending, throwing children", "why_tests_cant": "A test runs one or a few interleavings of the executor; the claim is about every interleaving of starts, resumptions, cancellations and closes, of any length.", "anchors": ["include/boost/cobalt/detail/gather.hpp: gather_variadic_impl, gather_ranged_impl", "include/boost/cobalt/detail/fork.hpp: fork::shared_state, fork::promise_type"]}
{"id": "C13", "title": "join returns all values in order, or the first exception", "statement": "co_await join(...) finishes only when every started child has finished. It returns the values in argument order if no child fails; otherwise it rethrows the exception of the child that failed first, and every other child still running at that moment is cancelled (or interrupted) exactly once.", "quantifier": "every number of children, every completion order, every mix of outcomes", "why_tests_cant": "A test runs one or a few interleavings of the executor; the claim is about every interleaving of starts, resumptions, cancellations and closes, of any length.", "anchors": ["include/boost/cobalt/detail/join.hpp: join_variadic_impl, join_ranged_impl", "include/boost/cobalt/detail/fork.hpp: fork::shared_state, fork::promise_type"]}
{"id": "C14", "title": "race delivers the outcome of the first child to finish", "statement": "co_await race(...)/left_race(...) yields the index and outcome of the child that finished first; outcomes of later children never replace it; it finishes only when every child that was started has finished; children not yet finished when the winner finishes are interrupted or cancelled exactly once.", "quantifier": "every number of children, every start order, every completion order, every mix of outcomes", "why_tests_cant": "A test runs one or a few interleavings of the executor; the claim is about every interleaving of starts, resumptions, cancellations and closes, of any length.", "anchors": ["include/boost/cobalt/detail/race.hpp: race_variadic_impl, race_ranged_impl", "include/boost/cobalt/detail/fork.hpp: fork::shared_state, fork::promise_type"]}
{"id": "C15", "title": "race starts children in its chosen order and stops at the first ready one", "statement": "race starts each child at most once, in the chosen order (left-to-right for left_race, a permutation for race), and starts no further child once one has finished; in left_race, if several children are ready at once the leftmost wins.", "quantifier": "every number of children and every readiness pattern", "why_tests_cant": "Exponentially many readiness patterns.", "anchors": ["include/boost/cobalt/detail/race.hpp", "include/boost/cobalt/race.hpp"]}
{"id": "C16", "title": "An error of the winning race child is reported", "statement": "If the child that wins a race finishes with an exception, co_await race rethrows that exception, in every form of race (variadic or ranged, void or not, transaction or not), and as_tuple/as_result never touch a missing value.", "quantifier": "every form and every schedule", "why_tests_cant": "A test runs one or a few interleavings of the executor; the claim is about every interleaving of starts, resumptions, cancellations and closes, of any length.", "anchors": ["include/boost/cobalt/detail/race.hpp"]}
{"id": "C17", "title": "A combinator resumes its awaiter exactly once", "statement": "The coroutine awaiting race, join or gather is resumed exactly once, and only after the last running child has finished; if nothing is left running it is not suspended at all.", "quantifier": "every number of children, every completion order", "why_tests_cant": "A test runs one or a few interleavings of the executor; the claim is about every interleaving of starts, resumptions, cancellations and closes, of any length.", "anchors": ["include/boost/cobalt/detail/fork.hpp: fork::shared_state, fork::promise_type"]}
{"id": "C18", "title": "Cancellation sent to a combinator reaches every running child", "statement": "When the awaiting coroutine is cancelled while suspended in race, join or gather, the signal is delivered to every child still running and to no finished child.", "quantifier": "every set of running children and every time of cancellation", "why_tests_cant": "A test runs one or a few interleavings of the executor; the claim is about every interleaving of starts, resumptions, cancellations and closes, of any length.", "anchors": ["include/boost/cobalt/detail/race.hpp", "include/boost/cobalt/detail/join.hpp", "include/boost/cobalt/detail/gather.hpp"]}
{"id": "C19", "title": "At most one transaction per race", "statement": "Among the children of one race at most one may commit a transaction (e.g. a channel hand-off); once one committed, that child is the winner and all others are cancelled before the commit takes effect, and a second attempt is rejected.", "quantifier": "every schedule of transactions and completions", "why_tests_cant": "A test runs one or a few interleavings of the executor; the claim is about every interleaving of starts, resumptions, cancellations and closes, of any length.", "anchors": ["include/boost/cobalt/detail/race.hpp: transaction", "include/boost/cobalt/detail/fork.hpp: begin_transaction"]}
{"id": "C20", "title": "promise delivers its coroutine's outcome exactly once", "statement": "Awaiting (or get()ing) a promise yields exactly what its coroutine returned or threw; the outcome is delivered at most once, to the one awaiter, and the awaiter is resumed exactly once, whether the coroutine finishes before, during or after the await.", "quantifier": "every history of the handle (await, cancel, interrupt, move, attach/detach, destroy) interleaved with the coroutine's progress", "why_tests_cant": "A test runs one or a few interleavings of the executor; the claim is about every interleaving of starts, resumptions, cancellations and closes, of any length.", "anchors": ["include/boost/cobalt/detail/promise.hpp: promise_receiver, cobalt_promise", "include/boost/cobalt/promise.hpp"]}
{"id": "C21", "title": "Destroying an attached promise cancels, a detached one does not", "statement": "Destroying (or overwriting) a promise handle sends a cancellation to a still-running coroutine iff the promise is attached; it never destroys the running coroutine, and a finished coroutine is never signalled.", "quantifier": "every reachable handle state", "why_tests_cant": "A test runs one or a few interleavings of the executor; the claim is about every interleaving of starts, resumptions, cancellations and closes, of any length.", "anchors": ["include/boost/cobalt/detail/promise.hpp: promise_receiver, cobalt_promise", "include/boost/cobalt/promise.hpp"]}
{"id": "C22", "title": "Moved-from promise handles are inert", "statement": "After a promise is moved from (by construction or by assignment), awaiting the old handle fails with moved_from, and destroying or cancelling the old handle does not touch the coroutine.", "quantifier": "every history containing moves", "why_tests_cant": "A test runs one or a few interleavings of the executor; the claim is about every interleaving of starts, resumptions, cancellations and closes, of any length.", "anchors": ["include/boost/cobalt/detail/promise.hpp: promise_receiver, cobalt_promise", "include/boost/cobalt/promise.hpp"]}
{"id": "C23", "title": "task is lazy and runs at most once", "statement": "A task's body does not start before it is awaited or spawned; destroying an unstarted task destroys the body without running it; each start happens at most once per correct use, and the outcome goes to the awaiter exactly once.", "quantifier": "every history of handle operations and coroutine progress", "why_tests_cant": "A test runs one or a few interleavings of the executor; the claim is about every interleaving of starts, resumptions, cancellations and closes, of any length.", "anchors": ["include/boost/cobalt/detail/task.hpp", "include/boost/cobalt/task.hpp"]}
{"id": "C24", "title": "generator delivers exactly the yielded values in order", "statement": "The values obtained by successive co_awaits on a generator are exactly the values it co_yields, in order, followed by its co_return value or exception; none is skipped or repeated.", "quantifier": "every generator body, eager or lazy, every interleaving of producer and consumer steps", "why_tests_cant": "A test runs one or a few interleavings of the executor; the claim is about every interleaving of starts, resumptions, cancellations and closes, of any length.", "anchors": ["include/boost/cobalt/detail/generator.hpp: generator_receiver, generator_promise, generator_yield_awaitable", "include/boost/cobalt/generator.hpp"]}
{"id": "C25", "title": "generator pushes arrive in order", "statement": "For generator<Y, P>: the value pushed with the n-th co_await is the result of the n-th co_yield (lazy: of the initial await and then each co_yield), in order, none lost or repeated.", "quantifier": "every sequence of pushes and every schedule", "why_tests_cant": "A test runs one or a few interleavings of the executor; the claim is about every interleaving of starts, resumptions, cancellations and closes, of any length.", "anchors": ["include/boost/cobalt/detail/generator.hpp: generator_receiver, generator_promise, generator_yield_awaitable", "include/boost/cobalt/generator.hpp"]}
{"id": "C26", "title": "generator runs ahead by at most one value", "statement": "A generator never produces a second value before the first was taken, so at most one produced value is outstanding, and a lazy generator produces none before being awaited.", "quantifier": "every history", "why_tests_cant": "A test runs one or a few interleavings of the executor; the claim is about every interleaving of starts, resumptions, cancellations and closes, of any length.", "anchors": ["include/boost/cobalt/detail/generator.hpp: generator_receiver, generator_promise, generator_yield_awaitable", "include/boost/cobalt/generator.hpp"]}
{"id": "C27", "title": "with() always tears down exactly once with the right error", "statement": "co_await with(arg, func, teardown) runs func once and teardown exactly once after it, passing the exception func raised (null if none); the result is func's value if neither fails, func's exception if func failed, otherwise teardown's exception.", "quantifier": "every outcome of func and teardown, every form of with (sync/async, void/non-void)", "why_tests_cant": "Cross product of forms and outcomes, and arbitrary suspension in between.", "anchors": ["include/boost/cobalt/with.hpp", "include/boost/cobalt/detail/with.hpp"]}
{"id": "C28", "title": "wait_group bookkeeping", "statement": "wait_one removes exactly the promise whose completion it reports; reap removes exactly those that are finished and not consumed; wait leaves the group empty only of promises that finished; leaving the scope cancels with the configured type (by exception or normally) and then waits for all.", "quantifier": "every sequence of push_back/wait_one/wait/reap/cancel/await_exit and every completion order", "why_tests_cant": "A test runs one or a few interleavings of the executor; the claim is about every interleaving of starts, resumptions, cancellations and closes, of any length.", "anchors": ["include/boost/cobalt/wait_group.hpp", "include/boost/cobalt/detail/wait_group.hpp"]}
{"id": "C29", "title": "An awaited op resumes its coroutine exactly once with the completion's arguments", "statement": "Awaiting an op yields exactly the arguments its completion handler was called with; if the completion happens during initiation the coroutine continues without suspending, otherwise it is resumed exactly once; it is never resumed while initiation is still on the stack.", "quantifier": "every initiation function behaviour: complete at once, via the immediate executor, later, nested, or throw", "why_tests_cant": "A test runs one or a few interleavings of the executor; the claim is about every interleaving of starts, resumptions, cancellations and closes, of any length.", "anchors": ["include/boost/cobalt/op.hpp: op::awaitable_base", "include/boost/cobalt/detail/handler.hpp: completion_handler, completed_immediately_t, immediate executor"]}
{"id": "C30", "title": "Exceptions thrown by initiation are reported to the awaiting coroutine", "statement": "If an op's initiation throws, the awaiting coroutine is not left suspended and receives that exception, whatever completion form (plain, as_tuple, as_result) is used.", "quantifier": "every point at which initiation may throw", "why_tests_cant": "A test runs one or a few interleavings of the executor; the claim is about every interleaving of starts, resumptions, cancellations and closes, of any length.", "anchors": ["include/boost/cobalt/op.hpp: op::awaitable_base", "include/boost/cobalt/detail/handler.hpp: completion_handler, completed_immediately_t, immediate executor"]}
{"id": "C31", "title": "Small-buffer allocator never hands out overlapping or out-of-bounds memory", "statement": "Blocks handed out by the op's small-buffer allocator that are simultaneously alive never overlap, lie within the buffer or come from upstream, have at least the requested size, and memory from the buffer is reused only when nothing in it overlaps.", "quantifier": "every sequence of allocate/deallocate calls with any sizes, buffer size and buffer alignment", "why_tests_cant": "Unbounded histories of allocations and frees in every order.", "anchors": ["include/boost/cobalt/detail/sbo_resource.hpp"]}
{"id": "C32", "title": "Small-buffer allocator frees each block where it came from", "statement": "Every block is returned to the allocator it came from: blocks taken from upstream are freed upstream exactly once, blocks taken from the buffer never reach upstream; requested alignment is honoured.", "quantifier": "every matched sequence of allocate/deallocate, including size 0 and over-aligned requests", "why_tests_cant": "Corner cases at the exact end of the buffer.", "anchors": ["include/boost/cobalt/detail/sbo_resource.hpp"]}
{"id": "C33", "title": "Monotonic allocator blocks are disjoint, aligned and released once", "statement": "Blocks handed out by the combinator's monotonic allocator are pairwise disjoint, disjoint from its own bookkeeping, inside memory it owns, aligned as requested; release frees every chunk exactly once with the size and alignment it was allocated with.", "quantifier": "every sequence of allocation sizes/alignments and chunk sizes", "why_tests_cant": "All sizes and alignments and their order matter.", "anchors": ["include/boost/cobalt/detail/monotonic_resource.hpp"]}
{"id": "C34", "title": "Coroutine frames are freed with what they were allocated with", "statement": "The memory of a coroutine frame is returned to the memory resource it was allocated from, with the same address and byte count, and the frame never overlaps the stored bookkeeping.", "quantifier": "every frame size, every memory resource, every allocator size, both compiler configurations (with/without sized deallocation)", "why_tests_cant": "Quantifies over all frame and allocator sizes.", "anchors": ["include/boost/cobalt/this_coro.hpp: promise_memory_resource_base, allocate_coroutine, deallocate_coroutine", "include/boost/cobalt/composition.hpp: operator new/delete", "include/boost/cobalt/detail/main.hpp: operator new/delete"]}
{"id": "C35", "title": "Awaiting a thread never misses its end", "statement": "If a coroutine awaits a cobalt::thread, it is resumed exactly once when the thread's work ends (or continues at once if it already ended), whatever the interleaving of the two OS threads.", "quantifier": "every interleaving of the worker's shutdown steps with the awaiter's steps", "why_tests_cant": "OS-level interleavings are not controllable in tests.", "anchors": ["include/boost/cobalt/detail/thread.hpp: thread_awaitable", "src/thread.cpp: run_thread"]}
{"id": "C36", "title": "An exception escaping a thread reaches its awaiter", "statement": "If the thread's coroutine ends with an exception and the thread is awaited, the awaiter receives that exception.", "quantifier": "every interleaving", "why_tests_cant": "OS-level interleavings are not controllable in tests.", "anchors": ["include/boost/cobalt/detail/thread.hpp", "src/thread.cpp"]}
{"id": "C37", "title": "run() and spawn() deliver the task's outcome and restore thread state", "statement": "spawn invokes its completion handler exactly once with the task's exception or value; run returns that value or rethrows that exception and leaves the thread's executor and default memory resource as before the call.", "quantifier": "every task outcome, every prior thread state, every schedule", "why_tests_cant": "A test runs one or a few interleavings of the executor; the claim is about every interleaving of starts, resumptions, cancellations and closes, of any length.", "anchors": ["include/boost/cobalt/run.hpp", "include/boost/cobalt/detail/spawn.hpp", "src/this_thread.cpp"]}
{"id": "C38", "title": "Consuming bytes from a buffer sequence drops exactly those bytes", "statement": "seq += n makes the sequence denote exactly the bytes it denoted before, minus the first n (all of them if n exceeds the total), for mutable and const sequences.", "quantifier": "every list of buffers (empty ones included) and every n", "why_tests_cant": "Infinitely many buffer shapes.", "anchors": ["include/boost/cobalt/io/buffer.hpp: mutable_buffer_sequence, const_buffer_sequence"]}
{"id": "C39", "title": "Buffer sequence iteration is complete and consistent", "statement": "Iterating begin()..end() visits the head and then every tail buffer once in order; end()-begin() equals buffer_count(); iterator arithmetic and ordering comparisons agree with positions.", "quantifier": "every buffer sequence and every pair of positions", "why_tests_cant": "Infinitely many shapes; wrap-around of the size_t sentinel.", "anchors": ["include/boost/cobalt/io/buffer.hpp: mutable_buffer_sequence, const_buffer_sequence"]}
{"id": "C40", "title": "read/write transfer everything or say why not", "statement": "io::read/io::write (and _at) return success only if the whole buffer was transferred; the reported count is the sum of the partial transfers; every partial transfer continues exactly where the previous one stopped (buffer position and file offset); on error the count transferred so far is reported.", "quantifier": "every buffer sequence and every sequence of partial transfer sizes, errors and cancellation times", "why_tests_cant": "Unbounded sequence of partial transfers.", "anchors": ["src/io/read.cpp", "src/io/write.cpp", "include/boost/cobalt/io/ops.hpp"]}
{"id": "C41", "title": "Endpoint round trip", "statement": "An endpoint built from an address and port gives back that address, port, family, type and protocol, and its size() is the size of the socket address it stores.", "quantifier": "every address, port and constructor form", "why_tests_cant": "2^144 inputs.", "anchors": ["include/boost/cobalt/io/endpoint.hpp", "src/io/endpoint.cpp"]}
{"id": "C42", "title": "get_if/get accept an endpoint exactly when family, type and protocol are compatible", "statement": "get_if<P>(&ep) is null iff ep's family is not one P stands for, or both give a nonzero and different type, or both give a nonzero and different protocol; get throws exactly then.", "quantifier": "all protocols and endpoints", "why_tests_cant": "All combinations.", "anchors": ["include/boost/cobalt/io/endpoint.hpp: get_if, get"]}
{"id": "C43", "title": "Random access file reads and writes at the requested offset", "statement": "read_some_at/write_some_at transfer data at the given file offset.", "quantifier": "every offset and every previous file position", "why_tests_cant": "Tests use few offsets.", "anchors": ["src/io/random_access_file.cpp: initiate_async_read_some_at_helper"]}
{"id": "C44", "title": "throw_if_cancelled stops a cancelled coroutine at its next await", "statement": "Once a cancellation that passes the filter reached a coroutine, its next co_await of an ordinary awaitable throws operation_aborted unless throw_if_cancelled was switched off; resetting the cancellation state clears it; a filtered-out signal has no effect.", "quantifier": "every sequence of signals, filter changes, resets, throw_if_cancelled changes and awaits", "why_tests_cant": "Unbounded histories.", "anchors": ["include/boost/cobalt/this_coro.hpp: promise_cancellation_base, promise_throw_if_cancelled_base", "include/boost/cobalt/concepts.hpp: enable_awaitables"]}
{"id": "C45", "title": "as_tuple and as_result carry the same information as the throwing form", "statement": "co_await as_result(x)/as_tuple(x) never throws for failures of x and holds the value iff plain co_await x would return it, and the error iff it would throw it; interpret_as_result splits completion arguments accordingly.", "quantifier": "every awaitable outcome and every completion signature", "why_tests_cant": "All signatures and outcomes.", "anchors": ["include/boost/cobalt/result.hpp"]}
{"id": "C46", "title": "Each library error is reported as itself", "statement": "Each failure condition of the library is reported with its own distinct error code and message.", "quantifier": "all library errors", "why_tests_cant": "A test would have to know the mistake in advance.", "anchors": ["src/detail/exception.cpp", "include/boost/cobalt/error.hpp"]}
{"id": "C47", "title": "A composed operation completes exactly once", "statement": "An operation implemented as a coroutine over completion_handler calls its handler exactly once with the returned tuple; the awaiting coroutine continues inline if the composition finished during initiation and is resumed exactly once otherwise.", "quantifier": "every composition body (any number of inner awaits, finishing immediately or later)", "why_tests_cant": "A test runs one or a few interleavings of the executor; the claim is about every interleaving of starts, resumptions, cancellations and closes, of any length.", "anchors": ["include/boost/cobalt/composition.hpp"]}
{"id": "C48", "title": "co_main translates signals and returns the exit code", "statement": "SIGINT delivers a total, SIGTERM a terminal cancellation to co_main, each signal exactly once, for as long as co_main runs; the process exit code is the co_return value; after co_main returns no signal is delivered to it.", "quantifier": "every sequence of signals interleaved with co_main's progress", "why_tests_cant": "A test runs one or a few interleavings of the executor; the claim is about every interleaving of starts, resumptions, cancellations and closes, of any length.", "anchors": ["src/main.cpp", "include/boost/cobalt/detail/main.hpp"]}
{"id": "C49", "title": "Coroutine handles owned by the library are destroyed at most once", "statement": "A coroutine frame owned through a unique handle is destroyed at most once and never after ownership was released; resuming through an rvalue handle transfers ownership.", "quantifier": "every sequence of move, reset, release, resume, destroy on any number of handles", "why_tests_cant": "Unbounded histories and aliasing.", "anchors": ["include/boost/cobalt/unique_handle.hpp"]}
{"id": "C50", "title": "connect_pair leaks no descriptor", "statement": "connect_pair either leaves both sockets owning one end each, or returns an error and every descriptor it created is closed exactly once.", "quantifier": "every failure point", "why_tests_cant": "Failure points need fault injection.", "anchors": ["src/io/socket.cpp: connect_pair"]}
{"id": "C51", "title": "BOOST_COBALT_FOR visits every generated value", "statement": "BOOST_COBALT_FOR over a generator runs its body once per value the generator produces (its final co_return included), in order, and stops afterwards.", "quantifier": "every generator output sequence", "why_tests_cant": "Unbounded sequences.", "anchors": ["include/boost/cobalt/async_for.hpp", "include/boost/cobalt/generator.hpp: operator bool"]}
{"id": "C52", "title": "Racing channel reads loses no value", "statement": "In race(c1.read(), c2.read(), ...) the value of the winning channel is returned and no value is removed from the losing channels.", "quantifier": "every channel state and every schedule", "why_tests_cant": "A test runs one or a few interleavings of the executor; the claim is about every interleaving of starts, resumptions, cancellations and closes, of any length.", "anchors": ["include/boost/cobalt/channel.hpp: channel<T>::read_op, channel<T>::write_op", "include/boost/cobalt/impl/channel.hpp: await_suspend, await_resume, close, cancel_impl", "include/boost/cobalt/detail/race.hpp"]}
{"id": "C53", "title": "A single producer's values are received in order, whatever the readers do", "statement": "If only one coroutine writes to a buffered channel<T>, the values returned by successful reads followed by the values still buffered are exactly the values of its writes in order; with several writers, a value whose write completed before another write started is received first.", "quantifier": "every capacity >= 1, any number of readers, every history", "why_tests_cant": "A test runs one or a few interleavings of the executor; the claim is about every interleaving of starts, resumptions, cancellations and closes, of any length.", "anchors": ["include/boost/cobalt/channel.hpp: channel<T>::read_op, channel<T>::write_op", "include/boost/cobalt/impl/channel.hpp: await_suspend, await_resume, close, cancel_impl"]}
{"id": "C54", "title": "A combinator is not used after it resumed its awaiter", "statement": "No code of gather, join or race touches the combinator's own state after the awaiting coroutine was resumed (which may destroy it), neither from the remaining work of a child's completion nor from a later cancellation of the awaiting coroutine.", "quantifier": "every list of children, every interleaving of completions (also re-entrant ones) and cancellations", "why_tests_cant": "A test runs one or a few interleavings of the executor; the claim is about every interleaving of starts, resumptions, cancellations and closes, of any length.", "anchors": ["include/boost/cobalt/detail/race.hpp", "include/boost/cobalt/detail/gather.hpp", "include/boost/cobalt/detail/join.hpp", "include/boost/cobalt/detail/fork.hpp"]}
{"id": "C55", "title": "gather and join of an empty range complete", "statement": "Awaiting gather or join over an empty range completes with an empty result.", "quantifier": "both combinators over an empty range", "why_tests_cant": "An edge case a test must think of; the failure is undefined behaviour.", "anchors": ["include/boost/cobalt/detail/race.hpp", "include/boost/cobalt/detail/gather.hpp", "include/boost/cobalt/detail/join.hpp", "include/boost/cobalt/detail/fork.hpp"]}
{"id": "C56", "title": "The bookkeeping of each child is destroyed exactly once", "statement": "For every child of a combinator the internal frame that waits for it is destroyed at most once.", "quantifier": "every list of children and every schedule", "why_tests_cant": "A double destruction is undefined behaviour that a test need not notice.", "anchors": ["include/boost/cobalt/detail/race.hpp", "include/boost/cobalt/detail/gather.hpp", "include/boost/cobalt/detail/join.hpp", "include/boost/cobalt/detail/fork.hpp"]}
{"id": "C57", "title": "A combinator asks each child once whether it is ready", "statement": "gather, join and race call await_ready at most once per child (await_ready may have side effects).", "quantifier": "every list of children and every schedule", "why_tests_cant": "Needs all children behaviours.", "anchors": ["include/boost/cobalt/detail/race.hpp", "include/boost/cobalt/detail/gather.hpp", "include/boost/cobalt/detail/join.hpp", "include/boost/cobalt/detail/fork.hpp"]}
{"id": "C58", "title": "Interrupting a combinator interrupts every running child", "statement": "When a suspended gather, join or race is interrupted (it is a child of a race that has been decided) every child that still runs and is interruptible is interrupted.", "quantifier": "every list of children and every schedule", "why_tests_cant": "A test runs one or a few interleavings of the executor; the claim is about every interleaving of starts, resumptions, cancellations and closes, of any length.", "anchors": ["include/boost/cobalt/detail/race.hpp", "include/boost/cobalt/detail/gather.hpp", "include/boost/cobalt/detail/join.hpp", "include/boost/cobalt/detail/fork.hpp"]}
{"id": "C59", "title": "Seeking reports the new position or an error", "statement": "stream_file::seek moves the position to the requested place and returns the new position; a place before the start of the file leaves it where it is and returns an error.", "quantifier": "every offset, basis and previous position", "why_tests_cant": "Tests use few offsets.", "anchors": ["src/io/stream_file.cpp: stream_file::seek"]}
{"id": "C60", "title": "io::pipe reports failure in its result", "statement": "io::pipe() either returns two connected ends, each owning one new descriptor, or leaves no descriptor open; it reports a failure in the returned result and does not throw.", "quantifier": "every failure point and every history of other descriptors", "why_tests_cant": "Failure points need fault injection.", "anchors": ["src/io/pipe.cpp: pipe"]}
{"id": "C61", "title": "connect completes only what the endpoint leaves open", "statement": "A socket connecting to an endpoint keeps the family, type and protocol the endpoint specifies, and fills in its own type and protocol (stream/TCP, datagram/UDP, sequenced packet/SCTP) exactly where the endpoint leaves them zero; families other than IP and local are left alone.", "quantifier": "every kind of socket and every endpoint protocol", "why_tests_cant": "The combinations are unbounded.", "anchors": ["src/io/stream_socket.cpp: adopt_endpoint_", "src/io/datagram_socket.cpp: adopt_endpoint_", "src/io/seq_packet_socket.cpp: adopt_endpoint_"]}
{"id": "C62", "title": "A context behaves like a coroutine", "statement": "A coroutine made with experimental::make_context makes the same calls to its promise and to the objects it awaits, in the same order, hands the same results to its body and returns to its resumers at the same points as a compiler-made coroutine with the same body, promise type and awaited objects; it uses no released memory, and its promise, memory and local variables are released exactly once.", "quantifier": "every body, promise type, sequence of awaits, ways in which await_suspend ends (also after having resumed or destroyed the context), and history of resume, destroy and done", "why_tests_cant": "Bodies, awaitables and resumption orders are unbounded.", "anchors": ["include/boost/cobalt/experimental/context.hpp: make_context, context_frame, context", "include/boost/cobalt/experimental/frame.hpp: frame"]}
{"id": "C63", "title": "A detached coroutine is released when it ends", "statement": "A detached coroutine runs within the call that makes it until it first suspends; when its body ends, by returning or by an exception, its local variables, its promise and its memory are released, exactly once; an exception reaches whoever resumed it.", "quantifier": "every body and every history of suspensions, resumptions and destruction", "why_tests_cant": "A leak after an exception is not an observable test failure, and bodies are unbounded.", "anchors": ["include/boost/cobalt/detail/detached.hpp: detached_promise", "include/boost/cobalt/detached.hpp: detached"]}
{"id": "C64", "title": "The executor of a thread is the one it set, and it is alive", "statement": "this_thread::get_executor returns the executor this thread set last, throws bad_executor if there is none, is not affected by other threads, and never returns an executor whose execution context has been destroyed; has_executor tells whether it would throw; get_default_resource returns the resource this thread set last and set_default_resource the previous one.", "quantifier": "any number of threads and contexts, every history of set, get, construction and destruction", "why_tests_cant": "A test runs one or a few interleavings of the executor; the claim is about every interleaving of starts, resumptions, cancellations and closes, of any length.", "anchors": ["src/this_thread.cpp: get_executor, set_executor, this_thread_service", "include/boost/cobalt/this_thread.hpp"]}
{"id": "C65", "title": "A coroutine takes executor and memory from its arguments", "statement": "If a coroutine has an argument asio::executor_arg (std::allocator_arg) at any position, it uses the executor (the resource of the allocator) given as the next argument, that of the first tag if there are several; otherwise the one of the thread (for get_memory_resource_from_args_global: the global default).", "quantifier": "every argument list", "why_tests_cant": "Argument lists are unbounded.", "anchors": ["include/boost/cobalt/detail/this_thread.hpp: get_executor_from_args, get_memory_resource_from_args"]}
{"id": "C66", "title": "Moving a generator changes nothing for coroutine and consumers", "statement": "A generator can be moved to another object or assigned at any time. The consumers of the object it is in then get what the consumers of the old object would have got: values in order, none lost or repeated, the same exceptions, and the coroutine receives the pushed values; assigning to a generator ends the one that was there as its destructor would. An object that was moved from gives moved_from, and nothing of the generator.", "quantifier": "any number of generators, objects and awaiters; every order of moves, assignments, awaits, yields, cancellation and destruction", "why_tests_cant": "A test runs one or a few interleavings of the executor; the claim is about every interleaving of starts, resumptions, cancellations and closes, of any length.", "anchors": ["include/boost/cobalt/detail/generator.hpp: generator_receiver(generator_receiver &&), operator=, awaitable", "include/boost/cobalt/generator.hpp: generator::operator="]}
{"id": "C67", "title": "Timers are never early, and every wait ends once, for a reason", "statement": "A wait on a timer ends with success only after the clock has shown the expiry the timer had when the wait began; with operation_aborted only if the timer was reset, cancelled or destroyed, or the waiting coroutine cancelled, after the wait began. It ends at most once, and once the expiry is reached or one of these has happened the event loop ends it. If the timer has expired the wait does not suspend. expired() holds after a successful wait.", "quantifier": "any number of timers and waits, every history of resets, cancellations and clock readings", "why_tests_cant": "A test runs one or a few interleavings of the executor; the claim is about every interleaving of starts, resumptions, cancellations and closes, of any length.", "anchors": ["src/io/steady_timer.cpp", "src/io/system_timer.cpp", "include/boost/cobalt/io/ops.hpp: wait_op"]}
{"id": "C68", "title": "A sleep takes at least as long as asked for", "statement": "Awaiting sleep(d) ends with success not before d has passed since the call of sleep, and awaiting sleep(t) not before t, for every duration or time point in any unit.", "quantifier": "all durations, time points and units; every history of the clock and of awaits", "why_tests_cant": "A test runs one or a few interleavings of the executor; the claim is about every interleaving of starts, resumptions, cancellations and closes, of any length.", "anchors": ["src/io/sleep.cpp: steady_sleep", "include/boost/cobalt/io/sleep.hpp: sleep"]}
{"id": "C69", "title": "A channel can be destroyed at any time", "statement": "Destroying a channel returns. It closes the channel: the coroutines that wait in it get broken_pipe. Nothing that was started before uses the channel afterwards. Closing it and letting the executor run first leaves nobody waiting.", "quantifier": "every capacity, every history of the channel, every state in which it is destroyed, operations awaited directly or within combinators", "why_tests_cant": "A test runs one or a few interleavings of the executor; the claim is about every interleaving of starts, resumptions, cancellations and closes, of any length.", "anchors": ["include/boost/cobalt/impl/channel.hpp: ~channel", "src/channel.cpp: ~channel", "include/boost/cobalt/detail/fork.hpp: shared_state"]}
{"id": "C70", "title": "Cancelling a coroutine cancels what it waits for", "statement": "A cancellation sent to a coroutine reaches every operation that the coroutine waits for, directly or through other coroutines, with-blocks, combinators and composed operations, with the type that the cancellation filters on the way make of it, unless one of them stops it. It reaches no other operation, and in particular nothing that has already ended.", "quantifier": "every history of starting, awaiting, resuming and ending coroutines, chains and trees of awaits of every depth and width, every cancellation type, every choice of filters", "why_tests_cant": "A test runs one or a few interleavings of the executor; the claim is about every interleaving of starts, resumptions, cancellations and closes, of any length.", "anchors": ["include/boost/cobalt/detail/forward_cancellation.hpp: forward_cancellation", "include/boost/cobalt/this_coro.hpp: promise_cancellation_base", "include/boost/cobalt/detail/handler.hpp: completion_handler", "include/boost/cobalt/composition.hpp: composition_promise", "include/boost/cobalt/detail/with.hpp: with_impl", "include/boost/cobalt/detail/gather.hpp: gather_variadic_impl"]}
{"id": "C71", "title": "Waiting for a promise that somebody else awaits harms nobody else", "statement": "A promise has one awaiter. A second coroutine that waits for it, by co_await, gather, race or through a wait_group, gets an error, and the first does not notice: it is resumed with the outcome when the promise ends, and not before. No coroutine is destroyed or left waiting for an ended promise. wait_one takes exactly the promise that has returned out of the group; wait empties it.", "quantifier": "every history of awaiting, gathering, racing, pushing to and waiting on a wait_group, interrupting and ending, any number of coroutines and promises", "why_tests_cant": "A test runs one or a few interleavings of the executor; the claim is about every interleaving of starts, resumptions, cancellations and closes, of any length.", "anchors": ["include/boost/cobalt/detail/promise.hpp: promise_receiver::awaitable", "include/boost/cobalt/detail/race.hpp: race_ranged_impl", "include/boost/cobalt/detail/gather.hpp: gather_ranged_impl", "include/boost/cobalt/detail/wait_group.hpp: wait_one_op, wait_op", "include/boost/cobalt/detail/fork.hpp: fork"]}
{"id": "C72", "title": "After its handshake an ssl stream encrypts", "statement": "Once a handshake on an ssl::stream has succeeded, everything written to it is sent encrypted, everything read is decrypted, secure() is true, a second handshake is refused and shutdown ends the session. Before, data passes unchanged, secure() is false and shutdown is refused.", "quantifier": "every history of handshakes, reads, writes, shutdowns and moves of any number of streams", "why_tests_cant": "A test runs one or a few interleavings of the executor; the claim is about every interleaving of starts, resumptions, cancellations and closes, of any length.", "anchors": ["include/boost/cobalt/io/ssl.hpp: stream", "src/io/ssl.cpp: stream::initiate_write_some_, stream::handshake_op_, stream::shutdown_op_"]}
{"id": "C73", "title": "Moving a socket moves everything", "statement": "After a socket was move constructed, all operations of the new object (open, close, is_open, connect, read, write) act on the descriptor that it took over; the old one has none, and may be destroyed. A descriptor belongs to one object.", "quantifier": "every history of creating, opening, moving, closing and destroying sockets of all kinds", "why_tests_cant": "A test runs one or a few interleavings of the executor; the claim is about every interleaving of starts, resumptions, cancellations and closes, of any length.", "anchors": ["include/boost/cobalt/io/socket.hpp: socket", "src/io/stream_socket.cpp: stream_socket::stream_socket", "src/io/datagram_socket.cpp: datagram_socket::datagram_socket", "src/io/seq_packet_socket.cpp: seq_packet_socket::seq_packet_socket", "include/boost/cobalt/io/ssl.hpp: stream"]}
{"id": "C74", "title": "Every connection goes to one accept, in order", "statement": "The connections that arrive at an acceptor are handed out once each, in order of arrival, to the accepts in the order in which they were started. Each accept and wait ends once. A coroutine that is cancelled while it waits in accept ends with operation_aborted and takes no connection; no connection is accepted and closed without a coroutine having seen it, also when accept is raced against a timer.", "quantifier": "every history of arriving connections, accepts of both kinds, waits, cancellations, lost races, and destruction of the acceptor", "why_tests_cant": "A test runs one or a few interleavings of the executor; the claim is about every interleaving of starts, resumptions, cancellations and closes, of any length.", "anchors": ["include/boost/cobalt/io/acceptor.hpp: acceptor", "src/io/acceptor.cpp: accept_op::initiate, accept_stream_op::initiate, accept_seq_packet_op::initiate, wait_op::initiate", "include/boost/cobalt/composition.hpp: composition_promise", "include/boost/cobalt/detail/race.hpp: race_variadic_impl"]}
{"id": "C75", "title": "An acceptor can be set up", "statement": "An acceptor constructed with an endpoint accepts connections and fails no accept until it is destroyed. One constructed without becomes ready by bind and listen, each of which reports success or an error.", "quantifier": "every history of calls of bind, listen, accept and wait, for both constructors", "why_tests_cant": "A test runs one or a few interleavings of the executor; the claim is about every interleaving of starts, resumptions, cancellations and closes, of any length.", "anchors": ["include/boost/cobalt/io/acceptor.hpp: acceptor", "src/io/acceptor.cpp: acceptor::acceptor, acceptor::bind, acceptor::listen"]}
{"id": "C76", "title": "Racing generators in a loop loses nothing", "statement": "A coroutine that races generators again and again gets every value that they yield, each generator's values in order and none twice: a generator that loses a race is neither cancelled nor loses its value, which a later race gets. A race does not wait if one of its generators has a value. A generator's exception comes after its values. Other coroutines that await a generator are not affected by a race.", "quantifier": "every history of any number of races, in any order of starting their arguments, over any number of generators, interleaved with steps of the generators, of other consumers, cancellation and interruption", "why_tests_cant": "A test runs one or a few interleavings of the executor; the claim is about every interleaving of starts, resumptions, cancellations and closes, of any length.", "anchors": ["include/boost/cobalt/detail/race.hpp: race_variadic_impl, race_ranged_impl", "include/boost/cobalt/detail/generator.hpp: generator_receiver::awaitable", "include/boost/cobalt/detail/fork.hpp: fork"]}
{"id": "C77", "title": "A stackful coroutine can await", "statement": "A coroutine started with asio::spawn that awaits with experimental::await goes on exactly once per await, with what the awaitable gives; it is destroyed exactly once, when it has returned or when the handle it waits with is destroyed; nothing resumes or destroys it afterwards, and nothing is leaked.", "quantifier": "every sequence of awaits (ready, waiting, refusing, resuming at once, throwing) and asio operations, with resumption, destruction of handles, cancellation and posted functions at any point", "why_tests_cant": "A test runs one or a few interleavings of the executor; the claim is about every interleaving of starts, resumptions, cancellations and closes, of any length.", "anchors": ["include/boost/cobalt/experimental/yield_context.hpp: await, yield_context_frame", "include/boost/cobalt/experimental/frame.hpp: frame"]}
{"id": "C78", "title": "Combinators nest", "statement": "gather, join and race may be arguments of one another, to any depth. The coroutine that awaits such a nest continues exactly once, when no operation that was started is unfinished, with the result that the nest's structure gives: all results for gather; the values or the first failure for join; index and result of the argument that ended first for race. A race that is decided, or a join that has failed, signals every unfinished operation in it, however deep, with its own type, and nobody else. Cancelling the coroutine reaches exactly the others. Operations are only left out in races that are already decided.", "quantifier": "every nest of gather, join and race over operations, every order of completions with any values and errors, cancellation of any type at any point", "why_tests_cant": "A test runs one or a few interleavings of the executor; the claim is about every interleaving of starts, resumptions, cancellations and closes, of any length.", "anchors": ["include/boost/cobalt/detail/gather.hpp: gather_variadic_impl::awaitable", "include/boost/cobalt/detail/join.hpp: join_variadic_impl::awaitable", "include/boost/cobalt/detail/race.hpp: race_variadic_impl::awaitable, race_ranged_impl::awaitable", "include/boost/cobalt/detail/fork.hpp: fork"]}
{"id": "C79", "title": "A race over channel operations performs one of them", "statement": "co_await race(...) over any mixture of reads and writes of channels performs at most one of them: at most one member takes a value out of its channel or puts one in, the race returns its index and result, and every other member leaves its channel as it found it. No value is lost or duplicated, no operation outside the race fails because of it, and a decided race returns.", "quantifier": "any number of members and channels, any mixture of reads and writes, any limits, any interleaving with other readers, writers, close, cancellation and interruption", "why_tests_cant": "A test runs one or a few interleavings of the executor; the claim is about every interleaving of starts, resumptions, cancellations and closes, of any length.", "anchors": ["include/boost/cobalt/detail/race.hpp: race_variadic_impl::awaitable", "include/boost/cobalt/channel.hpp: channel::read_op, channel::write_op", "include/boost/cobalt/impl/channel.hpp: read_op::await_suspend, write_op::await_suspend"]}
{"id": "C80", "title": "What is made from noop behaves like a coroutine that returns at once", "statement": "A promise or generator made from noop{v} behaves, whatever is done with it afterwards, like one whose coroutine returned v before it was handed out; a task made from noop{v} behaves like one whose coroutine returns v as soon as it is started. The value is available at once to the first await, get or spawn.", "quantifier": "any history before and after: awaits, spawns, moves, assignments, cancellations, interruptions, destructions, other coroutines", "why_tests_cant": "A test runs one or a few interleavings of the executor; the claim is about every interleaving of starts, resumptions, cancellations and closes, of any length.", "anchors": ["include/boost/cobalt/noop.hpp: noop", "include/boost/cobalt/promise.hpp: promise(noop)", "include/boost/cobalt/detail/promise.hpp: promise_receiver(noop)", "include/boost/cobalt/task.hpp: task(noop)", "include/boost/cobalt/detail/task.hpp: task_receiver(noop)", "include/boost/cobalt/generator.hpp: generator(noop)", "include/boost/cobalt/detail/generator.hpp: generator_receiver(noop)"]}
{"id": "C81", "title": "gather and join over channel operations", "statement": "co_await gather(...) over any mixture of reads and writes of channels returns once, after every operation has ended exactly once, with the results in the order of the arguments, and never throws. join does the same if no operation fails, and otherwise throws the failure that happened first, after every operation has ended. They end with the last operation. Cancelling the await, or for join the failure of a member, makes them end after resumptions that are already posted, as long as no operation is interrupted by an enclosing race. When they return, what was put into each channel is what was got out of it, going by the results, and what is still in it, also if members meet each other. Nothing undefined happens unless a channel operation itself goes wrong.", "quantifier": "any number of members and channels, any mixture of reads and writes, several members on one channel, any limits, any interleaving with other readers, writers, close, cancellation and interruption", "why_tests_cant": "A test runs one or a few interleavings of the executor; the claim is about every interleaving of starts, resumptions, cancellations and closes, of any length.", "anchors": ["include/boost/cobalt/detail/gather.hpp: gather_variadic_impl::awaitable", "include/boost/cobalt/detail/join.hpp: join_variadic_impl::awaitable", "include/boost/cobalt/channel.hpp: channel::read_op, channel::write_op", "include/boost/cobalt/detail/fork.hpp: fork::shared_state"]}
{"id": "C82", "title": "looping over a channel with channel_reader", "statement": "BOOST_COBALT_FOR(auto v, channel_reader(c)) runs its body once for each read that gave a value, in that order; a failed read ends the loop with its exception. If nobody else reads, what the body saw is what was written except what is still in the channel, with one writer in the order of the writes and without undefined behaviour, and with limit 0 everything whose write succeeded. The loop ends by itself only if the channel was closed or, with operation_aborted, its coroutine was cancelled. If the channel is closed while the body runs, the loop leaves quietly after that turn; if it is closed while the loop waits, the loop throws, and in both cases the body does not run again. If the loop waits and nothing is scheduled, the channel is open and empty and nobody waits to write. (Values still in the buffer at the time of closing are not visited.)", "quantifier": "any limit, any number of turns, a body that may suspend or break, any interleaving with other readers, writers, close, cancellation and the executor", "why_tests_cant": "A test runs one or a few interleavings of the executor; the claim is about every interleaving of starts, resumptions, cancellations and closes, of any length.", "anchors": ["include/boost/cobalt/async_for.hpp: BOOST_COBALT_FOR_IMPL", "include/boost/cobalt/channel.hpp: channel_reader", "include/boost/cobalt/impl/channel.hpp: channel::read_op"]}
{"id": "C83", "title": "networks of coroutines connected by channels are deterministic", "statement": "Let coroutines of one thread interact only through channels, each with one coroutine that reads and one that writes, closed only by the one that writes (a channel<void> by nobody). Then nothing undefined happens, every read gives the next written value, or fails if the channel was closed and all earlier values were read, and every write succeeds unless the channel was closed. What a coroutine does and sees does not depend on the order in which coroutines are resumed and jobs are run, nor on the limits of the channels, except for how far it gets. If one schedule comes to rest, every schedule does, after boundedly many steps, with the same end for every coroutine; larger limits never make a coroutine do less. At rest a coroutine waits only to read from an open channel that has been read empty or to write to an open channel that is full.", "quantifier": "any number of coroutines and channels, any deterministic coroutines, any limits, any schedule", "why_tests_cant": "A test runs one or a few interleavings of the executor; the claim is about every interleaving of starts, resumptions, cancellations and closes, of any length.", "anchors": ["include/boost/cobalt/channel.hpp: channel", "include/boost/cobalt/impl/channel.hpp: channel::read_op, channel::write_op, channel::close", "src/channel.cpp: channel<void>"]}
{"id": "C84", "title": "a signal set loses no signal while it is registered", "statement": "From the moment a number is registered in a signal_set until it is removed, every occurrence of that signal is told to a coroutine that waits on the set or is kept for a later wait; with waits begun one after another it is told exactly once and in the order of arrival. Every set that has the number gets the occurrence. A coroutine is told a number only if that signal occurred while it was registered in that set, and an abort only if the wait, the set's waits or the set were cancelled or the set was destroyed. A wait resumes its coroutine at most once; while a coroutine waits, the set keeps nothing. The constructor with a list registers exactly these numbers or throws and leaves no registration. remove and clear forget what is kept and leave waits alone; cancel aborts the waits and forgets nothing. A signal gets the default handling only if no set has it.", "quantifier": "any number of sets, numbers and waits, any history of calls, signals, cancellations and races, any order of completions", "why_tests_cant": "A test runs one or a few interleavings of the executor; the claim is about every interleaving of starts, resumptions, cancellations and closes, of any length.", "anchors": ["include/boost/cobalt/io/signal_set.hpp: signal_set, wait_op_", "src/io/signal_set.cpp: signal_set::add, signal_set::remove, signal_set::clear, signal_set::cancel, wait_op_::initiate"]}
{"id": "C85", "title": "memory outlives what is in it", "statement": "Coroutine frames, results and buffers are allocated from the resource that this_thread::get_default_resource() gives, which is alive and belongs to the calling thread at every moment, inside and outside of run and on threads of the library. run and thread bring their own pool; run restores the default when it returns or throws. A pool is destroyed once, after everything that operations still pending in its context own. A program that touches nothing it has destroyed never touches memory of a destroyed pool, also not through results of run, through the destruction of a thread, or at the end of run; and no pool is used by a thread other than its own.", "quantifier": "any number of threads, nesting of run, frames, results and pending operations; any interleaving, with threads stopped, awaited, detached or ended by an exception at any point", "why_tests_cant": "A test runs one or a few interleavings of the executor; the claim is about every interleaving of starts, resumptions, cancellations and closes, of any length.", "anchors": ["include/boost/cobalt/run.hpp: run", "src/thread.cpp: run_thread, thread_promise::get_return_object", "include/boost/cobalt/thread.hpp: thread::~thread", "src/this_thread.cpp: get_default_resource, set_default_resource", "include/boost/cobalt/this_coro.hpp: promise_memory_resource_base", "include/boost/cobalt/detail/spawn.hpp: async_initiate_spawn"]}
{"id": "C86", "title": "a lookup gives its own answer once", "statement": "Every co_await of resolver::resolve or lookup ends once, in the order in which they were begun, with the system's complete answer for the host and service given, each endpoint once, or with an error; it is aborted only if its resolver is cancelled or destroyed meanwhile, or the awaiting coroutine is cancelled, and then it ends without waiting for the network. The event loop does not end before. The strings given are not used after resolve() has returned.", "quantifier": "any number of resolvers, lookups, strings and awaits; any interleaving of the program, the resolver's threads and the event loop, any answers", "why_tests_cant": "A test runs one or a few interleavings of the executor; the claim is about every interleaving of starts, resumptions, cancellations and closes, of any length.", "anchors": ["include/boost/cobalt/io/resolver.hpp: resolver, lookup", "src/io/resolver.cpp: transformer, resolve_op_::initiate, lookup::initiate"]}
{"id": "C87", "title": "connect attempts the endpoints in order and reports the first that accepts", "statement": "Every co_await of socket::connect ends once. Given a sequence it attempts the endpoints in order, each at most once, until one accepts, reports that one, and the socket is then connected to it; it fails only if there was none, with the error of the last one after all were attempted, or as aborted after cancel(), close() or a signal of any type, and then attempts no further endpoint. What is missing in an endpoint's protocol is filled in for the class of the socket. No descriptor is leaked or closed twice. Options set on an open socket stay.", "quantifier": "every sequence of endpoints, every answer of the system, open, options, close, cancel and cancellation at any point, any number of connects after another", "why_tests_cant": "A test runs one or a few interleavings of the executor; the claim is about every interleaving of starts, resumptions, cancellations and closes, of any length.", "anchors": ["include/boost/cobalt/io/socket.hpp: connect_op, ranged_connect_op", "src/io/socket.cpp: connect_op::initiate, ranged_connect_op::initiate, socket::open, socket::close, socket::cancel", "src/io/stream_socket.cpp: adopt_endpoint_"]}
{"id": "C88", "title": "a file object owns its descriptor", "statement": "Every descriptor that a file object opens or is given is at any time in exactly one place: in one object, with the program after release(), or closed, once. A failing open or assign changes nothing and leaks nothing. The functions of a file object act on its own file, also after it was moved; close, release and destruction end its pending operations as aborted, and so does cancel, which leaves the file open; every operation ends at most once, and its descriptor is open until then.", "quantifier": "any number of objects and descriptors, all sequences of open, assign, release, close, cancel, queries, moves, destruction and reads, every answer of the system, with and without BOOST_ASIO_HAS_FILE", "why_tests_cant": "A test runs one or a few interleavings of the executor; the claim is about every interleaving of starts, resumptions, cancellations and closes, of any length.", "anchors": ["include/boost/cobalt/io/file.hpp: file", "src/io/file.cpp: file::open, file::assign, file::release, file::close, file::cancel", "src/io/stream_file.cpp: stream_file", "src/io/random_access_file.cpp: random_access_file"]}
{"id": "C89", "title": "concurrent reads of a stream share it without loss", "statement": "What the reads of a stream socket get, in the order in which they take it, is what the peer sent, without loss, repetition or exchange, whatever is cancelled meanwhile; reads take it in the order in which they began, each once, at most what fits; a cancelled read has taken nothing. The end of the stream is reported after all bytes were taken. Every read and wait ends once, and ends when there is something for it, when its coroutine is cancelled, or after cancel() or close(). After a wait without error the next read does not wait.", "quantifier": "any number of coroutines that read and wait, all arrivals, sizes of buffers, cancellations and schedules", "why_tests_cant": "A test runs one or a few interleavings of the executor; the claim is about every interleaving of starts, resumptions, cancellations and closes, of any length.", "anchors": ["src/io/stream_socket.cpp: stream_socket::initiate_read_some_", "src/io/socket.cpp: socket::wait_op::ready, socket::wait_op::initiate, socket::bytes_readable, socket::cancel, socket::close", "include/boost/cobalt/io/ops.hpp: read_op", "include/boost/cobalt/op.hpp: op::awaitable_base"]}
{"id": "C90", "title": "concurrent writes to a stream", "statement": "Whatever other coroutines write, are cancelled or fail, what an io::write puts into the stream is the beginning of its buffer; it ends once, the count it gives is what it put there, all of it if there is no error. Errors have a reason; after a cancellation signal it writes nothing more and ends with its next completion; left alone it writes everything, however little the system takes at a time. The bytes of one write are together in the stream, and cancel() ends all writes.", "quantifier": "any number of coroutines that write, all contents, short transfers, errors, cancellations and schedules", "why_tests_cant": "A test runs one or a few interleavings of the executor; the claim is about every interleaving of starts, resumptions, cancellations and closes, of any length.", "anchors": ["include/boost/cobalt/io/write.hpp: write_all, write", "src/io/write.cpp: write_all::initiate", "src/io/stream_socket.cpp: stream_socket::initiate_write_some_", "src/io/socket.cpp: socket::cancel"]}
