# Formal model of boostorg/cobalt in Rocq

## 1. What this is

`rocq/theories/` holds a machine-checked model of boostorg/cobalt (source in
`/repo`, read as text, never built) and theorems about it.  Each component has

* `X_Model.v`  – the model: total, computable Gallina, one definition per code
  fragment, each with the file and lines it models and the simplifications made;
* `X_Spec.v`   – (where needed) a small specification that does not use the
  model's helpers;
* `X_Proofs.v` – lemmas, invariants, inductions;
* `X_Props.v`  – nothing but the property theorems (closed by `exact lemma`),
  `Print Assumptions` under each, and an `Example` showing that a concrete
  non-trivial case meets the hypotheses.

Names: `Cnn_...` for theorems of property Cnn in `properties.jsonl`;
suffix `_partial` when the theorem proves only part of the English claim;
suffix `_refuted` when the claim is false of the code and the theorem exhibits
a reachable counterexample (by `vm_compute` on the model).

## 2. Trusted base

* Coq 8.16.1's kernel (including `vm_compute`).
* What `Print Assumptions` lists: "Closed under the global context" for every
  theorem (no axioms, not even the standard library's).  A theorem that ends up
  needing a standard library axiom is listed in section 6.  A checker that lists every assumption of the loaded
  libraries shows seven names of `Coq.ssr.ssrunder.Under_rel` (`Under_rel`, `Over_rel`, `over_rel`, ...): these come with the standard
  library (loaded through `Lia`), no theorem here uses them.
* The correspondence between model and C++ text, by reading.  Every definition
  cites its source lines.
* General modelling conventions:
  * Cobalt is single-threaded per executor; coroutine code between two
    suspension points runs atomically.  A step of a model = one such run.
    `asio::post` appends to a bag of pending jobs; unless a theorem says FIFO,
    any pending job may run next, so theorems hold for every executor order.
  * Symmetric transfer (`await_suspend` returning another handle) resumes the
    target in the same step.
  * Undefined behaviour, failed `BOOST_ASSERT`s and dereferences of empty
    optionals/null handles are an explicit `Bad` outcome, never silently
    totalised.
  * C++ exceptions are explicit result values.  Memory exhaustion is not modelled
    except where an allocation failure is itself the subject.
  * C++ `size_t` arithmetic: modelled in `N`/`Z` with explicit wrap where wrap
    is relevant (iterator sentinel, void-channel counter).
* Not modelled: compiler code generation for coroutines, asio's internals (only
  the documented contracts: `post`, `cancellation_slot`, `cancellation_signal`),
  the kernel, SSL streams, experimental `yield_context`, Python/doc examples, template overload selection.

## 3. Plan per property

| Prop | What is modelled | How it is proved |
|---|---|---|
| C01 | `channel<T>` read/write ops, buffer, queues, posted jobs, cancel/interrupt/close/destroy (`Channel_Model`) | invariant over all step sequences: delivered ++ stored = accepted |
| C02 | same, restricted to one reader and one writer | invariant; `Bad` unreachable; program order |
| C03 | same, limit = 0 | invariant |
| C04 | same | step-local theorem + history ledger |
| C05 | same | state after close; later reads drain in order |
| C06 | same | invariant |
| C07 | same | invariant: resumptions counted per operation |
| C08 | same | refuted in general (stolen wake-up); positive for single reader / single writer |
| C09 | same | refuted (wake-up lost to cancellation); positive without cancellation of woken operations |
| C10 | `channel<void>` | invariants on counter |
| C11 | both channels | refuted: `channel<void>` drops stored signals on close |
| C12 | gather over abstract children on the fork runtime | invariant over schedules |
| C13 | join | idem |
| C14–C16, C18, C19 | race (variadic and ranged, void and value) | idem; refutations for the ranged-void/transaction error paths |
| C17 | fork use-count/coroutine hand-off | invariant |
| C20–C22 | promise receiver/promise with pointers made explicit | invariant over handle ops × coroutine progress; move-assign refuted |
| C23 | task | idem |
| C24–C26 | generator | refinement to a list producer |
| C27 | with | case analysis over all forms/outcomes |
| C28 | wait_group | invariants over op sequences; refutation for failing wait_one |
| C29, C30 | op/handler protocol | invariant over initiation behaviours |
| C31, C32 | sbo_resource over an address space | invariant; refuted corner cases |
| C33 | monotonic_resource | invariant; refuted alignment/bookkeeping overlap |
| C34 | frame layout computation | arithmetic |
| C35, C36 | thread shutdown/await protocol, interleaved at atomic-operation granularity | invariant over interleavings |
| C37 | spawn/run | case analysis/invariant |
| C38, C39 | buffer sequences | refinement to list of bytes; iterator with wrap-around sentinel |
| C40 | read_all/write_all loops | induction over partial transfers |
| C41, C42 | endpoints over byte layouts | round-trip laws |
| C43 | lseek call | refuted |
| C44 | cancellation state, await_transform | invariant |
| C45 | result conversions | round trip |
| C46 | error table | refuted |
| C47 | composition final_awaitable | invariant |
| C48 | main signal handling | invariant |
| C49 | unique_handle | invariant |
| C50 | connect_pair | case analysis over failure points |
| C51 | BOOST_COBALT_FOR on the generator | induction |
| C52 | race over channel reads, channels as in `Channel_Model` | composition; refuted if writers wait, invariant otherwise |
| C53 | `Channel_Model`, one writer, any readers | invariant; refuted for several writers |
| C54 | gather/join/race with the destruction of the combinator explicit | refuted; invariant for orderly runs |
| C55–C58 | same model (`Comb_Once.v`) | refuted by runs; what remains true (non-empty ranges, forks that suspended, variadic overloads, interruption of gather, race and variadic join) by invariants over all runs |
| C59 | seek of both configurations | case analysis; result refuted |
| C62 | `experimental::make_context` on documented fibers, beside a coroutine of the language driven by the same labels | forward simulation; refuted outside ordinary histories |
| C63 | the language coroutine with the promise functions of detached | invariant; refuted for exceptions |
| C64 | this_thread.cpp, any number of threads and contexts | invariant over the history; refuted across threads |
| C65 | get_executor_from_args, get_memory_resource_from_args | induction on the argument list |
| C66 | move construction and assignment of generators: any number of objects, coroutines and awaiters, with pointers between them | simulation: every generator's history is one of the unmoved generator of C24-C26; refuted for moves while awaited and for assigning to an ended generator |
| C67 | timers: any number of timers, waits, resets, cancellations, a clock moved arbitrarily; asio's timer as documented | invariant tying every pending, queued and finished wait to the events; termination of the scheduler by a measure; refuted: expired() after a wait |
| C68 | sleep: the same, with the 64 bit addition in the constructor and duration_cast | from C67 and that an object is created once; arithmetic for the conversion; refuted: the longest duration, fractions of a nanosecond |
| C69 | the destructor of a channel round by round, on every state of the channel model; operations awaited directly or by helpers of combinators; the time after it | the loop's measure, frame lemmas for a round, an invariant of the dead channel; refuted: waiters are told, it always returns, close() then destruction |
| C70 | coroutines, with, combinators' helpers, composed operations: whose slot each uses, what each await puts into a slot and what it leaves there; a signal runs the handlers | invariant with the chain of live users of every slot; induction on chains of awaits and on the run of a signal; refuted: composed operations, handlers left in a slot |
| C71 | promises with their one awaiter, any number of coroutines that await, gather, race and wait on a wait_group; interruption; destruction of promises | invariant tying every promise's awaiter to a waiting helper; refuted: race, wait_group and interrupted gather over promises that others await |
| C72 | ssl::stream: the flag upgraded_, handshake, shutdown, secure, reading and writing over the encrypted or the plain layer | invariant (the flag is never set); refuted for every operation after a handshake |
| C73 | socket objects with the reference of the base class to the asio member, move construction, descriptors | invariant: the reference is to the object's own member, descriptors have one owner; refuted for moved ssl::streams |
| C74 | io::acceptor: accept into a socket, accept that makes a socket, wait, cancellation, races, with asio's queue of operations and the backlog | invariant: connections are conserved in order; settled operations; refuted for accept() that is cancelled or raced |
| C75 | io::acceptor: both constructors, bind, listen | invariant: the descriptor never changes; refuted for the constructor without endpoint |
| C76 | race over generators, any number of races in a row, with the generators of C24-C26 | simulation: every generator goes through a history of Gen_Model; invariant that relates what the forks took to what the races gave; refuted for rvalue arguments, lazy generators and generators that others await |
| C77 | experimental::await from an asio::spawn coroutine: who is responsible for the coroutine (resumer, handler in the frame, posted destruction) | invariant: exactly one party is responsible; refuted for awaitables that refuse or throw, and for cancelled coroutines |
| C78 | any nest of gather, join and race over operations, as a tree interpreter (start, complete, signal) | a specification that computes from the order of completions when and with what every part ends; invariant relating the state of every part to it, by induction on the tree |
| C79 | race over any mixture of channel reads and writes, channels as in `Channel_Model` | as C52, with one abstract view of both kinds of operations; refuted if partners wait or the race meets itself, invariant otherwise |
| C80 | promise, task and generator made from noop, in `Promise_Model`, `Task_Model` and `Gen_Model` | simulation: a relation between the state with the noop and the state with a coroutine that returns the value, kept by every step; the task's coroutine makes its steps when it is started |
| C81 | gather and join over any mixture of channel reads and writes, channels as in `Channel_Model` | every part of a step is a run of channel steps plus an update that follows the completions (invariant `J`); for termination an invariant on the state of every started operation (`L`), and induction over the operations that have not ended |
| C82 | BOOST_COBALT_FOR over channel_reader as a coroutine beside any other use of the channel of `Channel_Model` | every step of the loop is a run of channel steps (`act`), so the channel theorems carry over; invariant `RI` on the loop's own read |
| C83 | any number of deterministic coroutines that read, write and close channels of `Channel_Model`, every order of continuations and jobs | invariant per channel with one reader and one writer (`N`, `NC`), then Kahn's argument on traces: comparable by induction on one trace, maximal if at rest |
| C84 | any number of signal sets, any history of their operations, waits, cancellations, races and signals, every order of posted completions | invariant (`J`), a ledger of the occurrences of one signal in one set (`ledger`), causes of completions (`H`) |
| C85 | any number of threads, nested calls of run, threads of the library, frames and results, pending operations; every interleaving | invariants over resources (`WR`), ownership (`WQ`), where pending objects come from (`G`) and the history (`T`) |
| C86 | any number of resolvers, lookups, strings, awaits and worker threads; every interleaving of user, workers and context | invariant `good` over histories (queue, workers, completions, tokens); simulation-free, by induction on the history |
| C87 | one socket of any class, any number of connects after another to one endpoint or a sequence, any answers of the system, close, cancel, open and signals at any point | invariants `good` and `sound` over histories by induction; `dead` and `cut` for what follows a signal |
| C88 | any number of file objects and descriptors, both configurations, open, assign, release, close, cancel, move, destruction and reads in any order | invariant `good` (a count of places per descriptor) over histories by induction |
| C89 | one connected stream socket, any number of coroutines reading and waiting, arrivals, end of stream, signals, cancel and close in any order | invariant `good` over histories by induction; `C89_stop` and `C89_progress` by giving the schedule |
| C90 | any number of coroutines in io::write on one stream, short transfers, errors, signals and cancel() in any order | invariant `good` over histories by induction; `C90_completes` by induction over what is left to write |

## 4. Findings

Each finding is a theorem with the suffix `_refuted` (a reachable
counterexample of the faithful model) unless said otherwise.

### Channels (`Channel_Props.v`)
* C08: stolen wake-up.  A woken reader (writer) is only *posted*; a second
  reader (writer) that arrives before it runs takes the value (room), and the
  woken one then calls `front()` on an empty buffer (pushes into a full
  circular buffer, overwriting the oldest value).
* C08: an interrupted read/write (the loser of a `race`) stays linked with a
  null `awaited_from` until its operation object is destroyed; a peer using
  the channel meanwhile resumes a null handle.
* C09: a woken operation that is cancelled before it runs completes with
  operation_aborted and does not pass the wake-up on: another reader stays
  suspended although the buffer holds a value.
* C05: a writer that was already woken when `close()` is called pushes into the
  closed channel and reports success, even after a reader got broken_pipe.
* C11: `channel<void>` reports broken_pipe after `close()` although signals are
  still stored; `channel<T>` drains.
* C53: with several writers a later write can overtake a value that was handed
  directly to a posted reader.

### gather, join, race (`Comb_Props.v`)
"Calm" = no child finishes and no transaction begins while another child is
being started.
* C14/C15: a race decided while a child is being started (its await_ready or
  await_suspend completes another child) goes on starting the rest, and these
  are never cancelled.
* C13: in the same situation join sends its one signal to a child that has not
  subscribed to it yet.
* C14: a child whose await_ready throws wins, but the others are not cancelled.
* C14: a race over a range of void awaitables stores the error of *any* child: a
  loser's error replaces the winner's success.
* C14: `interrupt_await` is called on the winner after it finished and several
  times on losers.
* C16: a void child that won through a transaction and fails: the error is lost.
  `as_tuple(race(...))` that ends with an error reads an empty optional.
* C18: a join/race that has cancelled its children swallows later cancellations.
* C19: a transaction that begins while a child is being started commits although
  that child is not cancelled.
* C54: cancelling the awaiting coroutine after the combinator finished calls a
  handler that points into the destroyed combinator (the slot is never cleared);
  a child completing inside the combinator's cancel loop lets it continue in a
  destroyed object.
* C55: gather/join of an empty range: `coroutine_handle` released is null.
* C56: the frame of the last fork that completes immediately is destroyed twice.
* C57: ranged gather/join call `await_ready` twice per child.
* C58: ranged join's `interrupt_await` tests only the first child's entry.

### promise (`Promise_Props.v`)
* C22: the move assignment, unlike the move constructor, does not mark the
  source as done.  Awaiting the moved-from promise waits for ever; destroying it
  after the coroutine ended reads the freed coroutine frame.
* C21: assigning to a promise whose coroutine has finished reads the freed frame
  through `reference` (`p = f(); co_await p; p = f();`).
* C22: a promise moved from after its coroutine threw holds neither value nor
  exception: awaiting it dereferences an empty optional.  Moved from after a
  `co_return`, it yields a moved-from value instead of `moved_from`.
* C21: a promise destroyed by a destructor of its own coroutine's local variables
  (after `co_return`, before the final suspension) is used by the final suspension.
* C20: a second await of a finished promise yields a moved-from value.
* C20: a promise moved while a coroutine awaits it: that coroutine gets
  `moved_from`, the value goes to the new handle.

### task, spawn, run (`Task_Props.v`, `Run_Props.v`)
* C23: `task::awaitable` has no check for a started task.  A second `co_await`
  while the first one is pending, or one after the first was interrupted, resumes
  the coroutine as if it was at its initial suspension point.
* C23: a task moved while it is awaited gives its awaiter `moved_from`; awaited
  twice it gives a moved-from value; moved from after its coroutine threw it
  dereferences an empty optional, also in `spawn`.
* C23: a task destroyed from a local destructor of its own coroutine dangles.
* C37: when the coroutine of a spawned task is destroyed from outside, the
  completion handler is destroyed without being called.
* C37: `run()` without a previous executor does not undo a `set_executor` of the
  task; `run()` of a task that can never continue throws `broken_promise`; the
  saved executor is used after the end of its context if the task destroyed it.

### generator (`Gen_Props.v`)
* C26, C24: `generator_yield_awaitable<Yield, void>::await_ready` does not test
  `!result` (the variant with a pushed value does).  If an await of a lazy
  generator is interrupted and the generator awaited again while its coroutine is
  busy, the next `co_yield` does not suspend: two values are outstanding, the
  consumer waits although there is a value, and an exception overtakes a value.
* C25: the value pushed with an interrupted await is dropped (eager), or kept and
  then overwritten by a later one, with a failed assertion (lazy).
* C25: after `get()` on an eager generator the next `co_await` resumes a coroutine
  that then reads an empty `optional<Push>`.
* C24: a generator awaited before it reaches `co_await this_coro::initial` resumes
  its consumer with "generator returned void".

### Memory resources (`Sbo_Props.v`, `Mono_Props.v`)
* C31: `sbo_resource::do_allocate` rounds the size up without a check: a request
  of nearly `SIZE_MAX` bytes becomes 0 and is "served" from the buffer.
* C32: an empty block handed out when the buffer is full has the end of the
  buffer as its address, and is given back upstream, where it did not come from.
* C32: alignments above `alignof(max_align_t)` are ignored.
* C33: `monotonic_resource` computes the padding from the wrong base, so blocks can
  be misaligned; the header of an upstream block is written behind the block, and
  can lie outside of it or overlap a block handed out earlier.

### op (`Op_Props.v`)
* C29: nested use of the handler's immediate executor resets the state from
  `maybe` to `initiating`; a completion after that resumes the coroutine inside
  its own `await_suspend` and the frame is used afterwards.
* C29: an exception inside a function run by the immediate executor leaves the
  state at `maybe`.  If the initiation catches it and completes later, the
  completion is taken for an immediate one and the coroutine is never resumed.
* C30: if that exception leaves the initiation, the handler's destructor destroys
  the awaiting coroutine, whose frame `await_suspend` then writes to.

### with, wait_group (`With_Props.v`, `Wg_Props.v`)
* C27: `with_impl` has no destructor.  When the awaiting coroutine is destroyed,
  the coroutine of `with()` goes on and resumes it; when `await_suspend` throws
  (no executor) or the value's move throws in `await_resume`, the coroutine is
  never destroyed.  Destroyed while func is suspended, it runs no teardown.
* C28: a `wait_one` that throws does not remove the failed promise, nor does `reap`;
  the next `wait_one` throws the same exception again.
* C28: `wait()` and `await_exit` clear the whole list, also promises pushed while
  they were waiting, which cancels those.

### Composed operations (`Comp_Props.v`)
* C47: `final_awaitable` calls the handler after `self_destroy`, whose destructor
  destroys the frame that holds the handler: every completion reads freed memory.
* C47: with `NO_SELF_DELETE` the frame is destroyed by a posted function, when
  the awaitable that owns the frame's memory can be gone already.
* C47: an exception during the initiation is reported but the frame leaks; one
  thrown after the first suspension escapes into the event loop and the awaiting
  coroutine is never resumed.
* C47: completing through the immediate executor resumes the outer coroutine
  inside its own `await_suspend`; destroying the composition destroys its awaiter.

### Buffers and transfers (`Buf_Props.v`)
* C39: the iterator of `begin()` has the offset SIZE_MAX, so `<`, `<=` and `<=>`
  put `begin()` behind every other position, `end()` included.
* C40 holds; note that a cancellation that arrives after the last byte reports
  `operation_aborted` together with the full count.

### Endpoints and files (`Ep_Props.v`, `File_Props.v`)
* C41: `size()` of every local endpoint is 8 (`sizeof` of an expression); that of a v6
  address given as text to `ip`, `tcp`, `udp` is 16 instead of 28.
* C41: `endpoint` meets the requirements of its own constructor from other endpoint
  types, which copies `size()` bytes and is chosen for non-const and temporary
  endpoints: copying or moving a local endpoint cuts its path to 6 characters and
  loses half of a v6 address.
* C41: an address given as a number is stored as it lies in memory, so the number
  asio's `to_uint` gives makes an endpoint with the reversed address.
* C42: `udp_v6` is declared with IPPROTO_ICMP: `get<udp>` refuses its endpoints.
* C43: without BOOST_ASIO_HAS_FILE, `lseek(fd, SEEK_SET, offset)` has its arguments
  swapped: offsets from 5 on are refused with EINVAL, 1 is the current position, 2
  and 4 the end, 2^32 the start of the file.
* C59: `stream_file::seek` reports 0 after every success (without HAS_FILE) or throws
  instead of returning an error (with it).

### Frame memory (C34)
- `C34_main_unsized_refuted`: `detail/main.hpp` without sized deallocation never stores the
  size it later reads and returns a pointer that is not the one allocated.

### cobalt::thread (C35, C36)
- `C35_tuple_refuted`: `co_await as_tuple(thr)` of a thread that is already done dereferences
  the empty `res` (detail/thread.hpp:199); the two other forms test it.
- `C35_no_suspension_refuted`: a thread whose coroutine returns without ever suspending destroys
  its frame, and with it the locked mutex, inside the job that holds a `lock_guard` on it (thread.cpp:49-50).
- `C35_destroyed_awaiter_refuted`: destroying a coroutine that waits for a thread leaves its
  handler in `thread_state::waitor`; with an owned thread `~std::thread` terminates.
- `C36_late_await_refuted`: `done` is set before the worker looks for a waiter, so a
  coroutine that awaits in between is told the failed thread succeeded, and the process is terminated.
- `C36_frame_leaked_refuted`: the frame of a thread coroutine that ends with an exception is never destroyed.

**C45 (as_result / as_tuple), refuted in five places.** `C45_result_partial` and `C45_tuple_partial`
say the wrapped form carries what the plain await returns or throws, for every awaitable and outcome
except the following, each with a counterexample.
* `C45_initiation_refuted`: an op whose initiation threw still throws through as_result and as_tuple
  (op.hpp 99-110 rethrow before the tag is looked at).
* `C45_race_refuted`: as_tuple of a race whose winner threw dereferences the empty `result`
  (race.hpp 358, 669).
* `C45_void_refuted`: as_tuple of promise<void>/task<void> is a bare exception_ptr, not a tuple
  (promise.hpp 235-239, task.hpp 217-218).
* `C45_join_refuted`: as_tuple of a successful variadic join returns std::current_exception()
  (join.hpp 244), which is not null below a catch block.
* `C45_thread_refuted`: as_tuple of a thread that is done already reads an empty optional.
Seen in the code, not in the model: join of values with as_result and join of a void range with either
form do not compile; exceptions of await_ready/await_suspend (channel "already awaited", thread
"expired") pass through the wrappers; the wrappers do not forward interrupt_await.

**C46 (error codes).** `C46_allocation_refuted`: detail::allocation_failed builds error::already_awaited
(exception.cpp 59-65). `C46_moved_from_refuted`: error::moved_from has value 0, so an error_code made of
it tests as success.

**C44 (throw_if_cancelled).** `C44_filtered_clears_refuted`: a signal the filter keeps out erases an earlier
one that passed, because asio assigns the filtered mask; the coroutine goes on.
`C44_deferred_refuted`: awaiting an asio operation directly (op.hpp 197-216) does not look at the
cancellation state, so a cancelled coroutine starts it.

**C48 (co_main).** `C48_dangling_refuted` and `C48_hang_refuted`: main.cpp 18-24, 41-50. If a signal's handler is
already queued when co_main returns, signal_set->cancel() does not remove it; the handler then emits
on the cancellation signal, which lived in the destroyed frame, and starts another wait, so that main
does not return until another signal arrives.

**C60 (found).** `io::pipe(executor)` declares an `error_code`, tests it and returns a `system::result`, but never
passes it to `boost::asio::connect_pipe` (pipe.cpp:128-138), so a failure is thrown and the error branch is dead code.
`C60_error_refuted` shows no failure is ever reported in the result; `C60_pipe` shows no descriptor leaks.

**C49 (contract).** `unique_handle` destroys what it owns: a coroutine that runs to its end through an lvalue
`handle()` and frees itself is destroyed a second time (`C49_lvalue_end_refuted`), and `release()` of an empty
`unique_handle<T>` evaluates `from_promise(*nullptr)` where `unique_handle<void>` returns null
(`C49_release_empty_refuted`). The C49 theorems assume the caller does neither.

**C51 (found).** `BOOST_COBALT_FOR` tests `operator bool` before each `co_await`.  Between `co_return v` and the end of the
coroutine (its local variables are being destroyed) the generator holds `v` but is not `done`: a loop that takes `v` in that window
finds the generator true, awaits it again and gets "cobalt::generator returned void" (`C51_returning_refuted`).  If nothing happens in
that window the loop never throws it (`C51_no_void_partial`).

**C52 (found).** A race over channel reads can lose values. A racing read that meets a *waiting* writer when it is started takes the
writer's value without starting a transaction (impl/channel.hpp:119-140 calls the writer's `begin_transaction`, never its own),
so each of several members can take one, and the race returns one (`C52_value_lost_refuted`: ordinary producers blocked on two
unbuffered channels). The same start resumes the writer's coroutine before the remaining members are
started; if it writes to another racing channel, a third writer gets "Another transaction already started"
(`C52_writer_throws_refuted`). `interrupt_await` resumes a read without unlinking it (channel.hpp:88-96): it stays in the
channel's queue with a null handle until the race's operands are destroyed, and a writer that comes in between resumes the null handle
(`C52_interrupted_read_refuted`). If no writer waits when the race is awaited, at most one value is taken, it is
the one returned, nothing is lost and a decided race returns (`C52_*_partial`).

**C79 (found).** The same for a "select" over reads and writes. A racing write that finds a waiting reader when it is started hands
its value over without begin_transaction of its own, so several members can each do so and the race reports one of
them (`C79_two_writes_refuted`: two values are sent, the caller is told of one). A race over a read and a write of the
same unbuffered channel meets itself and performs both (`C79_same_channel_refuted`). A *reader* outside the race can get "Another
transaction already started" (`C79_reader_throws_refuted`), and a read that finds an interrupted write in the
queue resumes a null handle (`C79_interrupted_write_refuted`). If no partner waits when the race is awaited and no channel
is both read and written by it, at most one operation has an effect, it is the one reported, nothing is lost or made up, and a decided race
returns (`C79_*_partial`).

**C80 (found).** Assigning to the promise of a coroutine that has ended accesses the destroyed frame, assigning to one made from noop does
not (`C80_promise_assign_refuted`): the noop is never worse. A task made from noop that is awaited after it was moved from gives a moved-from value,
the one of a coroutine reports that it was moved from (`C80_task_moved_refuted`). In all other uses they behave alike (`C80_promise`, `C80_task`,
`C80_generator`).

**C81 (found).** gather and join over channel operations. If join throws because a member failed, the values that other members have read are
gone: they were taken out of their channels and nobody gets them (`C81_join_loses_refuted`). If an enclosing race interrupts a
gather while one member's resumption is posted, another member's read has ended but stays in its channel; a write that finds it there resumes a null
handle (`C81_interrupted_refuted`, as in C79). Apart from that both do what they promise, also if members meet each other on one channel.

**C82 (found).** The loop over a channel_reader. Its condition is only whether the channel is open, so values that are in the buffer when the
channel is closed are never visited although their writes succeeded, and the loop ends without an error
(`C82_visits_everything_refuted`). A loop that waits when the channel is closed ends with an exception, not quietly
(`C82_ends_quietly_refuted`); if a writer was about to be resumed, the exception is operation_aborted although nobody cancelled anything, and
the writer's value stays behind (`C82_aborted_refuted`). A second reader can make the loop's read take a value from an empty buffer (`C82_other_reader_refuted`, as in C08).

**C83 (found).** Networks of coroutines connected by channels. What each coroutine sees is independent of the schedule if every channel has one
reader and one writer and only the writer closes it. It is not with two writers (`C83_two_writers_refuted`), nor if the reader
closes (`C83_reader_closes_refuted`), nor for a channel<void> that its writer closes: there a read after close fails even if something written before is
still there (`C83_void_closed_refuted`), while channel<T> gives the remaining values first.

**C84 (found).** Signal sets. While a number stays registered no occurrence is lost, and each is told exactly once if waits follow one another. But
kept occurrences are told by number, not by time (`C84_order_refuted`), two coroutines that wait on one set are both told
(`C84_two_waiters_refuted`), and a race over wait() can lose a signal that has arrived (`C84_race_refuted`): the completion was posted, another member won first.

**C85 (found).** Life time of memory. The default resource of a thread is always alive and run restores it; users who keep a simple rule are safe. But what run returns may point
into the pool that run destroys (`C85_run_result_refuted`; a plain vector is saved by being assigned to a default value in spawn, `C85_result`). Destroying a cobalt::thread
while one of its coroutines waits is a race: if the thread ends first, the frame is destroyed after its pool (`C85_thread_destroyed_refuted`), and always so if the thread is awaited and ends with an exception
(`C85_thread_threw_refuted`). A coroutine that is made in run and destroyed on another thread uses an unsynchronized pool from there (`C85_other_thread_refuted`). A thread stopped before its coroutine started
never destroys the frame, since the first handler owns the context it is stored in (`C85_never_started_refuted`, for every history).

**C86 (found).** Looking up names. A lookup that has begun cannot be ended: neither cancelling the coroutine (a race against a timer), nor cancel(), nor destroying the resolver has an
effect before the system answers (`C86_timeout_refuted`, for every continuation), and cancelled queries wait behind a slow one of somebody else (`C86_behind_refuted`). The system is asked with io::ip,
whose socket type is unspecified, and the type of each answer is dropped: every endpoint can appear several times (`C86_duplicates_refuted`). resolve() and lookup keep string_views until they are awaited
(`C86_dangling_refuted`). If the results find no memory the exception leaves run() and the coroutine is destroyed (`C86_memory_refuted`).

**C87 (found).** Connecting. s.cancel() during a connect to a sequence ends only the attempt in progress; the next endpoint is attempted (`C87_cancel_refuted`). So does close() followed by open() before the connect
has noticed (`C87_close_refuted`). A signal of type total is ignored by it (`C87_total_refuted`). If the system cannot open a socket for one endpoint, e.g. of IPv6, the following ones are not attempted, and the error is operation_aborted
(`C87_family_refuted`). A connect to a sequence closes an open socket first, so options and a bound address are lost (`C87_options_refuted`); the connect to one endpoint keeps them (`C87_keeps`).

**C88 (found).** File objects. With BOOST_ASIO_HAS_FILE the base class file has a reference to the member of the derived class, and the default move constructor copies it: after `stream_file b{std::move(a)}` b.close(), b.cancel(), b.release(), b.is_open(), b.size()
act on a's member (`C88_moved_close_refuted`), on a file that a has opened again (`C88_other_refuted`), or on a destroyed object (`C88_dangling_refuted`). Without it, open() of an open file, and one whose descriptor asio does not accept, leaks the descriptor
(`C88_leak_refuted`), and cancel() does nothing and reports success (`C88_cancel_refuted`).

**C89 (found).** After co_await s.wait() without error a read may wait nevertheless: another coroutine has read the bytes (`C89_wait_refuted`), or the event that ended the wait was fetched before the same coroutine read them (`C89_spurious_refuted`).
It does not if the wait did not suspend and nobody else reads (`C89_wait_partial`). The coroutines need not go on in the order in which they took their bytes (`C89_resume_refuted`).

**C90 (found).** Two io::write on one stream at the same time may be mixed (`C90_together_refuted`); a write that is alone is not (`C90_together_partial`).
cancel() does not stop an io::write whose write_some has been performed and not yet delivered: it goes on (`C90_cancel_refuted`). A cancelled io::write may report operation_aborted although everything was written (`C90_aborted_refuted`); the count is right.

**C62 (found).** A context does what a coroutine does in every ordinary history (`C62_same_partial`), but: `coroutine_handle::done()` is
never true, because `frame::resume_` is never cleared (`C62_never_done_refuted`, context.hpp:345, frame.hpp:20); if the final suspend does
not suspend, the fiber ends, its stack (with the frame) is freed and context.hpp:45 assigns to the freed frame, and the promise is never destroyed
(`C62_no_final_suspend_refuted`); an exception from `await_suspend` leaves `resume()` and the body stays suspended instead of getting it
(`C62_suspend_throws_refuted`); `ctx.yield` drops what `await_resume` returns (`C62_yield_value_refuted`, 266-271); a throwing `unhandled_exception`
(detached, thread) terminates the program (`C62_rethrow_refuted`); `destroy()` destroys the promise before the body's variables,
and these are destroyed before `return_value` sees the result (`C62_locals_order_refuted`).

**C63 (found).** A detached coroutine left by an exception is never released: `unhandled_exception` rethrows (detail/detached.hpp:78), so the
coroutine counts as suspended at its final suspend although that would not suspend, and no one has a handle to destroy it
(`C63_exception_leaks_refuted`, for every history).

**C64 (found).** The service that takes an executor away from a thread when its context is destroyed looks only at the thread that runs the
destructor (this_thread.cpp:70-75): if thread A has set the executor of a context that thread B destroys, `get_executor` in A returns an
executor of the destroyed context (`C64_dangling_refuted`). If every context is destroyed by the thread using it this cannot happen
(`C64_no_dangling_partial`).

**C66 (found).** (a) The move assignment of a generator reads `*reference` (detail/generator.hpp:132) whether or not the coroutine it points into
still exists; the destructor checks `done` first (119). So assigning to a generator whose coroutine has ended is a use after free
(`C66_assign_ended_refuted`, every such state), also if the generator was moved from before its coroutine ended (`C66_assign_moved_from_refuted`).
(b) An awaitable points to the generator object (181), and moving the object does not tell it: an await that is pending during the
move gets moved_from while the value goes to the new object (`C66_move_awaited_refuted`), and reads freed memory if the old object
is gone (`C66_move_awaited_destroyed_refuted`). (c) A moved-from `std::optional` stays engaged, so a generator moved from after its
coroutine ended still gives a value, for trivial types a duplicate (`C66_moved_from_value_refuted`). Without these, moving changes
nothing (`C66_as_unmoved_partial`).

**C67 (found).** `expired()` and the readiness test compare with `<` (steady_timer.cpp:38, 47-48; system_timer.cpp:37, 47-48), asio with `<=`. A wait
that ends with success just when the clock shows the expiry is followed by `expired() == false` (`C67_expired_after_wait_refuted`).
Not modelled: the documentation says that `cancel` may be called from another thread (doc/reference/io/steady_timer.adoc:24), but it only forwards to
asio's timer, which is not safe for that; and `cancel` is the one member without BOOST_COBALT_IO_DECL (steady_timer.hpp:35, system_timer.hpp:37).

**C68 (found).** (a) `sleep(d)` adds `now() + d` in 64 bits (sleep.cpp:14, 17): for `duration::max()` this overflows whenever the clock is past zero, while
`steady_timer{duration::max()}` is clamped by asio (`C68_longest_refuted`). (b) Durations in other units go through `duration_cast` (sleep.hpp:79), which
rounds towards zero: any duration that is not a whole number of nanoseconds is shortened (`C68_convert_refuted`), by less than a nanosecond (`C68_convert_bound`).

**C69 (found).** (a) The destructor of a channel is documented as "Closes the channel" (channel.hpp:54), but it destroys the waiting coroutines; nobody is told
broken_pipe (`C69_waiters_told_refuted`). (b) It resets the handle of the first operation and expects the operation to go away (impl/channel.hpp:44-48). If the
operation is the child of a race, join or gather that has other helpers, only the helper is destroyed and the operation stays linked: the loop never ends. The same
happens for a read or write that was interrupted (its handle is gone, it is still linked, C58) (`C69_always_returns_refuted`, exact for one waiting operation: `C69_returns_iff`).
(c) Operations that were completed but not resumed yet still use the channel: destroying a channel just after `close()` is a use after free if a read was waiting
(`C69_close_then_destroy_refuted`), and so is any other scheduled read, and any scheduled write that was neither closed nor cancelled (`C69_scheduled_use_refuted`).

**C70 (found).** (a) A composed operation (a coroutine that takes a `completion_handler`) never connects its cancellation state to the slot of its handler
(composition.hpp 18-24, 130-134): cancelling a coroutine that is in `io::read` or `io::write` (src/io/read.cpp, src/io/write.cpp) does nothing, and
`this_coro::cancelled`, which those loops and doc/reference/composition.adoc test, is always none (`C70_composed_refuted`). (b) `op` does not empty the slot when it is
complete (op.hpp 87-112; promises, tasks, generators, threads and channels do): a cancellation sent later goes to the operation that has ended (`C70_stale_op_refuted`).
(c) Combinators do not empty it either: a later cancellation uses the destroyed awaitable (`C70_stale_combinator_refuted`, the same cause as C54).

**C71 (found).** `interrupt_await` of a promise's awaitable resumes whoever awaits the promise, also if that is somebody else (detail/promise.hpp 252-259).
(a) A race over a promise that another coroutine awaits resumes that coroutine although the promise has not ended: it reads an empty result (`C71_race_steals_refuted`);
the same from a gather that is interrupted (`C71_interrupted_gather_refuted`). (b) A second `wait()` on a wait_group gets an error for each promise, then clears the list
(detail/wait_group.hpp 101-105), which destroys the coroutine in the first `wait()` (`C71_wait_twice_refuted`). (c) A second `wait_one()` resumes the first, which then takes an unfinished
promise out of the group and so ends it (`C71_wait_one_twice_refuted`). (d) `wait_one()` beside `wait()` is undefined behaviour (`C71_wait_and_wait_one_refuted`).
Plain `co_await` and gather are right: only the second awaiter gets the error (`C71_second_told`, `C71_gather_told`).

**C72 (found).** Nothing ever sets `ssl::stream::upgraded_` (io/ssl.hpp 138; src/io/ssl.cpp only reads it). After a successful handshake everything that is written
still goes to `next_layer()`, in the clear (`C72_plaintext_refuted`; `C72_all_clear` proves it of every write of every history), what is read is raw ciphertext (`C72_read_refuted`), `secure()` is false (`C72_secure_refuted`),
a second handshake is not refused (`C72_second_handshake_refuted`) and `shutdown()` always fails with no_protocol_option (`C72_shutdown_refuted`).

**C73 (found).** `ssl::stream` can be moved, by the implicit constructor, which copies the base class `socket` with its reference to the old object's member (io/socket.hpp 148; the other sockets
rebind it): `close`, `is_open`, `connect` of the new object act on the old one (`C73_ssl_move_refuted`), and on a dangling reference once that is gone (`C73_ssl_dangling_refuted`).

**C74 (found).** `acceptor::accept()`, the form that makes the socket, is a composition (src/io/acceptor.cpp 40-50), so a cancellation does not reach it (the gap of C70): cancelling its coroutine
changes nothing (`C74_cancel_ignored`, `C74_cancel_refuted`), and the class has neither `cancel` nor `close`. A race of `accept()` with a timer does not end when the timer does: it waits
for the next connection, takes it and closes it unseen (`C74_race_refuted`). Two accepts into the same socket: the second connection is closed (`C74_same_socket_refuted`).

**C75 (found).** `acceptor` has no `open`. `acceptor(executor)` leaves the descriptor closed, so `bind` and `listen` fail with bad_descriptor (`C75_setup_refuted`, `C75_default_dead`);
`acceptor(endpoint)` is bound already, so `bind` fails with invalid_argument. `bind` succeeds in no history (`C75_bind_never`).

**C76 (found).** Races over lvalue generators lose nothing (`C76_lvalues_partial`, `C76_values_partial`). With an rvalue argument among them a race can be decided while that argument is
started; it then goes on, because detail/race.hpp 319-323 looks only at the fork started last, and takes and drops a value that the next lvalue argument has ready (`C76_value_lost_refuted`).
A lazy generator without pushed values that lost a race goes on past the value it yields in the next race: that race waits although there is a value (`C76_waits_with_value_refuted`), and gets
an exception first (`C76_exception_first_refuted`); the same defect as in C24. A race over a generator that another coroutine awaits interrupts the await of that coroutine, which gets "returned void"
(`C76_other_awaiter_refuted`): cancel_all (274) runs before working[Idx] is cleared (275), and interrupt_await resumes whoever waits (detail/generator.hpp 326-327).

**C77 (found).** The frame of experimental::await takes the responsibility for the stackful coroutine before it is suspended (experimental/yield_context.hpp 48, 66), and gives it back only if its handle is
resumed. If await_suspend returns false (a promise or an operation that is done by then), or suspend_with throws because the coroutine is cancelled, the frame's destructor posts the destruction of the
coroutine, which goes on: it is destroyed in its next await and what it waited for resumes a coroutine that is gone (`C77_refused_then_waits_refuted`, `C77_cancelled_refuted`), or it is destroyed twice
(`C77_refused_twice_refuted`). The existing tests never await again (`C77_last_refusal_partial`). If await_suspend throws, the exception leaves the executor's run and the coroutine is never destroyed
(`C77_throws_refuted`). Apart from the model: `coroutine_handle<basic_yield_context>::resume` (27) calls `promiseresume`, which does not exist; it does not compile if used.

## 5. Modelled / not modelled, per component

### Channels
Modelled: `read`, `write`, `close`, `read_op`/`write_op` with `await_ready`,
`await_suspend`, `await_resume`, `interrupt_await`, `cancel_impl`, the destructor
of an operation (auto-unlink hook), the executor's posted jobs; `channel<T>` and
`channel<void>` share one model with a flag.
`~channel` is modelled in Chd_* (C69); channels cannot be moved. Not modelled: `begin_transaction` (see race),
allocation of the circular buffer, re-awaiting the same operation object,
copying/moving the values themselves.

### gather, join, race
Modelled (`Comb_Model.v`): the variadic and ranged awaitables of
detail/{gather,join,race}.hpp and detail/fork.hpp as one small-step machine with
an explicit call stack: start loops, await_impl/await_impl_step of every child,
cancel loops, interrupt_await, begin_transaction, last fork hand-off and use
count, cancellation slot of the awaiter, result assembly for plain, as_result
and as_tuple.  Children are arbitrary: at every point the environment chooses
ready/suspend/throw, completion (also from inside another child's code or the
combinator's loops), cancellation, interruption, transactions.
Not modelled: memory of the forks' monotonic buffer (see C33), the random
shuffle (any order is allowed), copies of results, `wait_group`'s use of race
(see C28), child awaitables that destroy the combinator.

### promise
Modelled (`Promise_Model.v`): `promise_receiver` with its pointer pair
(`reference` into the coroutine frame, `receiver` back), construction, move
construction, move assignment, destruction, `promise::{cancel, get, attach,
detach}`, await_ready/suspend/resume, `awaitable::interrupt_await`, the
cancellation forwarded to the coroutine, `return_value`, `unhandled_exception`,
`final_suspend`, `~cobalt_promise`, `promise(noop)`.
Not modelled: `promise<void>` (same protocol without a value), `ready()`,
`operator bool`, an awaiter interrupted after its handle was moved (reported as
`BMisplaced`), source locations, frame allocation (C34).

### task, spawn, run
Modelled (`Task_Model.v`): `task_receiver`, `task_promise`, move construction,
destruction, awaiting, `interrupt_await`, cancellation forwarding, `task(noop)`,
`async_initiate_spawn` for values (moves, immediate completion, the posted
completion handler, the dispatched start and its being dropped, cancellation).
(`Run_Model.v`): `run()`, `set_executor`, `set_default_resource`,
`this_thread_service::shutdown`, with arbitrary nested calls inside.
Not modelled: move assignment of tasks (defaulted, but the receiver it would assign has none),
`task<void>`, associated allocators and executors of the handler,
`use_future` (its result is `deliver`), several threads.

### generator
Modelled (`Gen_Model.v`): one `generator` and its coroutine: `generator_receiver`
(result and its buffer, exception, pushed value, lazy flag), the awaitable with
await_ready/suspend/resume and `interrupt_await`, the posted eager resumption,
`co_yield`, `co_return`, exceptions, `this_coro::initial`, the terminator,
`final_suspend`, `~generator_promise`, `cancel`, `get`, the destructor,
`generator(noop)`, `operator bool`; with and without a pushed value.
Not modelled: moving a generator, an awaitable object that is awaited twice,
`generator_with_awaitable` (its `g.cancel()` does not exist in `generator_base`,
so it cannot be instantiated), copies of the values.

### Memory resources
Modelled (`Sbo_Model.v`): `sbo_resource` with its buffer, size, upstream, on 64 bit
machine arithmetic; upstream is an oracle that answers with any block.
(`Mono_Model.v`): `monotonic_resource` of `detail/monotonic_resource.hpp`, its
chunks, headers, `release`, upstream as an oracle.
Not modelled: the contents of the memory, `do_is_equal`, throwing upstreams.

### op
Modelled (`Op_Model.v`): `op::awaitable_base` and `completion_handler` with the
immediate executor, for any program an initiation may be (calls, throws, nested
functions, try blocks, moving or dropping the handler) and any later activity.
Cancellation slots are in `Cfw_Model.v` (C70). Not modelled: the default
`op::ready` machinery, several threads, source locations.

### with
Modelled (`With_Model.v`): the four overloads of `with()` and `with_impl`.
Not modelled: overload selection, the argument's value (moved or copied to the
teardown), BOOST_NO_EXCEPTIONS. Forwarding of the cancellation slot: `Cfw_Model.v` (C70).

### wait_group
Modelled (`Wg_Model.v`): `push_back`, `size`, `reap`, `cancel`, `wait_one`, `wait`,
`co_await`, `await_exit`, with promises as finished/unfinished/result taken.
Not modelled: several coroutines waiting on one group, cancelling or destroying a
pending wait, moved-from promises in the group.

### Composed operations
Modelled (`Comp_Model.v`): the promise of a coroutine that returns void over a
`completion_handler`, `final_awaitable`, `self_destroy`, the posted destruction,
`op_awaitable`'s use of the handler, with any number of inner awaits.
Not modelled: the inner operations themselves (they complete at any time), the
executor of the handler, the results' types.

### Buffers and transfers
Modelled (`Buf_Model.v`): `mutable_buffer_sequence`/`const_buffer_sequence` (the same
code) with `operator+=`, `buffer_size`, `buffer_count` and iterators on size_t
arithmetic; the loops of `src/io/read.cpp` and `src/io/write.cpp`, stream and
random access, with any sequence of partial transfers, errors, cancellations.
Not modelled: the io_uring union variant of the sequence's head, comparing iterators of
different sequences, references kept from `operator*`, the bytes' contents
(buffers are intervals of addresses).

### Endpoints
Modelled (`Ep_Model.v`): `endpoint` on bytes of Linux's socket addresses (little endian):
all make functions, both copying constructors, the accessors, `get_if`, `get`, the
predefined protocols.
Not modelled: parsing and printing addresses, Windows, sctp, `resize`'s assertion.

### Files
Modelled (`File_Model.v`): `read_some_at`/`write_some_at` and `seek` of both configurations
on a regular file with Linux's lseek.
Not modelled: concurrent operations on one file, sparse files, failing reads and
writes, open/close/resize/sync (direct system calls).

### Frames and threads (Frame_*, Thread_*)
Modelled: the allocation functions of coroutine frames (this_coro.hpp 339-483, composition.hpp
95-126, detail/main.hpp 56-83), both with and without sized deallocation; the life of a
thread: creation, the worker's run and shutdown, the awaitable's three
steps and results, join, stopping, destruction of the awaiter (detail/thread.hpp 45-211, cobalt/thread.hpp
105-116, thread.cpp 21-89).
Not modelled: overflow of frame sizes, rebound allocators of a different size, the
configuration without pmr; cancellation of a thread, `get_executor`, `detach`, a second await of an
lvalue thread (its state has been moved out: it throws), weak memory orders.

**Res_Model.v** (C45): result.hpp and every tagged await_resume of promise, task, generator, channel,
op, race, gather, join, thread, wait_group, with their plain forms. Side effects of the awaits are in the
other models.

**Err_Model.v** (C46): error.hpp, error.cpp, detail/exception.cpp, and the throw sites' codes.

**Tic_Model.v** (C44): this_coro.hpp 89-331, enable_awaitables (concepts.hpp), enable_await_deferred
(op.hpp), reset_cancellation_source. asio's cancellation_state is modelled after its documented
behaviour and source. Not modelled: signals of a source that was replaced.

**Main_Model.v** (C48): main.cpp and the promise functions of detail/main.hpp; asio's signal set after its
documentation and source. Not modelled: the memory resources of main (108-122) and the allocation of the
frame (53-87).

- **unique_handle.hpp** (Handle_*): construction, move, reset, release, resume through lvalue and rvalue, destruction.
  Not: the noop_coroutine_promise specialization, source locations.
- **socket.cpp, stream/datagram/seq_packet_socket.{hpp,cpp}, pipe.cpp** (Sock_*): who owns which descriptor through
  open, close, assign, release, move, connect_pair, make_pair, pipe, destruction; adopt_endpoint_. Not: options,
  shutdown, the data operations (Op_*, Comp_*, Buf_* have the awaitable side), move assignment.

- **async_for.hpp** (For_*): the macro as a client of the generator model (one consumer, arbitrary bodies, break).  Not: loops over
  promises and other awaitables with operator bool.

- **race over channel reads** (Rch_*): the variadic race of detail/race.hpp 86-376 with channel reads as members: starting, the
  transaction function, cancel_all, interrupt_await, forwarded cancellation, the result; the channels are Channel_Model. Not: other kinds of
  members together with channels (Comb_* has those), ranged race, select-style writes as members, the frame memory of the forks.

- **experimental/context.hpp, frame.hpp** (Ctx_*): resume, destroy, do_resume (three forms), do_await, yield, make_context's invoker; fibers as
  documented by Boost.Context. Not: the overloads of `await` (they differ in how the awaitable is obtained), exceptions of
  `await_ready`/`initial_suspend`, stack allocators and the placement of the frame, a body that swallows forced_unwind.
- **detail/detached.hpp** (Ctx_*): initial/final suspend, unhandled_exception. Its other bases are those of promise and task.

- **this_thread.cpp, detail/this_thread.hpp** (Tls_*): everything but exceptions from `use_service` and `extract_executor` of a foreign executor type.

- **detail/generator.hpp, generator.hpp: moving** (Gmv_*): move constructor, move assignment, objects moved from, with all of what Gen_* has, for any number of generators. Not modelled: self-assignment; interrupting an awaiter of a generator that was moved meanwhile.

- **io/steady_timer, io/system_timer, io/sleep, wait_op of io/ops.hpp** (Tim_*): constructors, reset, cancel, expiry, expired, wait, sleep with its conversions, on a clock that is moved arbitrarily. asio's timer is modelled from its documentation. Not modelled: floating-point durations, timers on executors of other threads, destroying a suspended awaiter.

- **~channel** (Chd_*, impl/channel.hpp 41-50, src/channel.cpp 14-22): on all states of the channel model, with operations that belong to a combinator's helpers (fork.hpp 52-56). Not modelled: code in the destroyed frames that uses the channel.

- **cancellation through chains of awaits** (Cfw_*, this_coro.hpp 89-158, detail/forward_cancellation.hpp 31-40, detail/with.hpp 146-147, detail/handler.hpp 97-103 and 178-184, impl/channel.hpp 103-105, the combinators' `assign_cancellation`, detail/fork.hpp 121-135, composition.hpp 18-24). Not modelled: what the operation does when it is cancelled, threads, `spawn`.

- **several coroutines that wait for the same promises** (Paw_*, detail/promise.hpp 187-219 and 252-259 and 375-400, detail/gather.hpp 293-413, detail/race.hpp 473-486 and 507-662, detail/wait_group.hpp 41-54 and 93-106, detail/fork.hpp 51-56 and 147-163). Extends C28 (one coroutine in the wait_group at a time). Not modelled: cancellation signals (C70), threads, promises owned by a waiting coroutine.

- **socket objects, their move constructors, and ssl::stream** (Ssl_*, io/socket.hpp 142-149, src/io/socket.cpp 20-46, src/io/stream_socket.cpp, src/io/datagram_socket.cpp, src/io/seq_packet_socket.cpp, io/ssl.hpp 44-139, src/io/ssl.cpp). asio and OpenSSL are taken from their documentation. Not modelled: contents of the handshake, partial writes, operating system errors, socket options, certificates.

- **io::acceptor** (Acc_*, io/acceptor.hpp 20-108, src/io/acceptor.cpp, composition.hpp 18-24 and 130-134, detail/race.hpp 229-243 and 274 for the losers of a race). asio's acceptor is taken from its documentation. Not modelled: failures of the endpoint constructor, local_endpoint, the limit of the backlog, other errors of accept, moving the acceptor.

- **race over generators** (Rgn_*, detail/race.hpp, detail/fork.hpp 139-166, with Gen_Model for the generators). The nested cancel_all calls of forks that are resumed by interrupt_await are flattened. Executions are not followed beyond the destruction of a generator or coroutine that a fork waits for (C54, C66). Not modelled: arguments that are not generators (C14-C19 have those), `with_transaction`.

- **experimental::await** (Yld_*, experimental/yield_context.hpp and frame.hpp). asio/spawn.hpp is assumed as described at the top of Yld_Model.v. Not modelled: executors that run posted functions on other threads while the coroutine runs.

- **Combinators inside combinators** (Nst_*: detail/gather.hpp, join.hpp, race.hpp, fork.hpp). Every combinator is one level of a tree; the loops that start, finish and cancel children are those of the source. Not modelled there: interruptible arguments and transactions (C14-C19, C54, C76 have them for one combinator), frames of forks (C56), operations that complete inside the cancellation signal, ranges of combinators in gather and join (their awaitables can not be moved, so that this does not compile).

- **Races over channel reads and writes** (Sel_*: detail/race.hpp with channel.hpp and impl/channel.hpp). As Rch_* (C52), with write operations as members as well, and members that meet each other. Not modelled there: the shuffle, custom value types whose move throws.

- **noop** (Nop_*: noop.hpp 20-46 and the constructors from noop in promise.hpp 68, detail/promise.hpp 67 and 119, task.hpp 37, detail/task.hpp 66 and 125, generator.hpp 50, detail/generator.hpp 97). The constructors are the labels LNoop of the three models; that they agree with coroutines is C80. Not modelled: noop as an awaitable of its own (ready at once, gives its value), noop<void>.

- **gather and join over channel operations** (Gch_*: detail/gather.hpp 38-218, detail/join.hpp 37-280, detail/fork.hpp 139-166 and 245-249, with Channel_Model for the channels). One combinator with any number of members, each a read or write of any channel, beside any other use of these channels. Simplified: when the last fork ends inside interrupt_await of the combinator, the awaiting coroutine continues after the loop over the members, not inside. Not modelled: the ranged variants (the same code over a vector), as_result and as_tuple of join. Also not modelled: an operation of another race that meets a member on a channel and throws "another transaction already started" into it.

- **BOOST_COBALT_FOR over channel_reader** (Crd_*: async_for.hpp 10-15, channel.hpp 323-341, with Channel_Model for the channel). One loop with a body that may suspend and may leave the loop, beside any other use of the channel. Not modelled: channel<void> (the macro does not compile with it), destruction of the loop's coroutine while it waits.

- **Networks over channels** (Kpn_*: channel.hpp 57-182 and impl/channel.hpp 52-323 through Channel_Model). Any number of coroutines whose only interactions are read, write and close; each operation is a temporary of its co_await expression. The order in which resumed coroutines continue is left open, which includes the order of the code. Not modelled: cancellation and interruption in a network (C04, C52, C79, C81 treat them for one channel), other awaitables, more than one thread.

- **Signal sets** (Sig_*: io/signal_set.hpp 21-45, src/io/signal_set.cpp 13-52, op.hpp 26-97 and the treatment of losers in detail/race.hpp 229-243, 274). asio's basic_signal_set is modelled after its documentation and sources: registrations in the order of numbers, each with its undelivered occurrences; an occurrence wakes all that wait on the set. Not modelled: flags, async-signal-safety, failures of sigaction other than the rejection of a number, other handlers of the program, fork.

- **Memory resources** (Mrs_*: src/this_thread.cpp 24-46, run.hpp 16-57, src/thread.cpp 28-89, thread.hpp 104-116, detail/spawn.hpp 78-90, detail/this_thread.hpp 40-48, this_coro.hpp 333-395). Life times only: pools as names, objects as single blocks, contexts as reference counts with what their pending operations own. Not modelled: what pools do inside (C31-C33), code run by destructors, the allocator used by a thread that wakes the coroutine awaiting it, BOOST_COBALT_NO_PMR, set_default_resource called by the user.

- **Resolver** (Rsv_*: io/resolver.hpp 23-73, src/io/resolver.cpp 16-48). asio's resolver service with its queue, worker threads and cancellation tokens; strings as references to the program's strings; endpoints as protocol and address. Not modelled: flags, host and service names in the results, contexts that forbid threads, failure to allocate a query, several contexts.

- **Connect** (Dial_*: io/socket.hpp 105-143, src/io/socket.cpp 20-39 and 205-217, adopt_endpoint_ of the three socket classes). asio's async_connect, for a socket and for a range, after its documentation and sources. Not modelled: several connects of a socket at a time, other operations on it, the shortcut of the immediate executor (C29), errors of close, moving the socket.

- **File objects** (Fob_*: io/file.hpp 96-134, src/io/file.cpp, constructors and move constructors of stream_file and random_access_file). asio's basic_file and basic_stream_descriptor after their documentation. Not modelled here: contents and positions (File_*), errors of close, resize and sync, assignment of file objects (the reference member deletes it).

- **Reading** (Rdy_*: src/io/stream_socket.cpp 50-57, src/io/socket.cpp 27-39, 86-92 and 190-203, io/socket.hpp 87-103, op.hpp). asio's reactive sockets after their sources: one queue of reading operations, an attempt at once if it is empty, events fetched first and handled later. Not modelled: wait for writing or errors, errors of the connection, several threads, sockets on io_uring or Windows.

- **Writing** (Wrt_*: io/write.hpp 19-37, src/io/write.cpp 14-31, src/io/stream_socket.cpp 58-65, src/io/socket.cpp 34-39). Waiting write_some are performed in any order, a superset of asio's. Not modelled: close(), write_at, several threads.

## 6. Assumptions

Every theorem so far: "Closed under the global context".
