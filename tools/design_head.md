# Formal model of xoscar in Rocq (Coq 8.16.1)

## Method

* Models are total, computable Gallina functions over lists, options, `nat`/`N`/`Z` and
  association lists. Exceptions are values. Where a loop of the code may not end (proxy chains,
  unlimited retries, cyclic object graphs) the model is a step machine or takes fuel, and the
  theorems say for which inputs it ends, without bound on their size.
* Concurrency is a step function (or step relation) whose events are the scheduler's and the
  environment's choices: which task runs next, which reply arrives, who is cancelled, which
  connection fails, when an object is reclaimed. Code between two `await`s is one step, as in
  asyncio. Properties are proved for all event sequences, by induction with an invariant.
* Every definition of a model cites the file and lines in /repo it models and says what it
  simplifies. The head comment of each `XModel.v` lists what that model leaves out.
* Files: `XModel.v` (model), `XProofs.v` or similar (lemmas, where they are long), `XProps.v`
  (reading guide, specification, the theorems `Cnn_...`, a `Module Demo` with concrete cases that
  meet the hypotheses, `Print Assumptions`). The specification in `XProps.v` is written without the
  model's helpers; it only uses the model's entry points, its event and answer types, and the
  read-only state the user can observe.
* A property that the code does not have is kept in full as a definition (`Cnn_claim` or the body
  of the refutation), refuted by a concrete reachable witness (`..._refuted`), and what does hold is
  proved with the suffix `_partial`. Where possible the partial theorem is exact: it says precisely
  when the property holds (e.g. C12, C18, C51).
* Theorems are tested against wrong programs: `tools/mutate.py` applies the edits of
  `seeded/specs/*.py` to a scratch copy, rebuilds it and records which theorems fail in
  `seeded/LOG.jsonl`.

## What is modelled, and how it is proved

| id | model | source | how it is proved |
|----|-------|--------|------------------|
| C01–C03 | `Ser*`: object heaps, serializer stack machine with placeholders and spawning, deserializer | serialization/core.pyx | simulation between the machine and a recursive function; induction on finite trees; bisimulation of graphs for sharing and cycles |
| C04, C05 | `Framing*`: header encoder, frame writer and reader on byte streams cut anywhere | serialization/aio.py, communication/utils.py, socket.py | induction on the message list, prefix lemmas |
| C06 | `Message*`: header tuples with negative indexes, all thirteen classes | message.pyx | case analysis, induction on forwarding depth; MessageWireModel: a message as an object of SerModel's heap, composed with the serializer, the frames and the channel of C61 (the message code is parametric in the objects it passes on) |
| C07, C08 | `Caller*`: table of futures and listener of one connection | backends/core.py | trace invariant |
| C09, C14, C45 | `Pool*`: request handlers of one pool as interleaved tasks; `Wait*`: waiter of a call | backends/pool.py, backends/context.py | trace invariants |
| C10, C11 | `Lock*`: asyncio.Lock with its waiters, actor calls as tasks | core.pyx, CPython locks.py | trace invariant |
| C12 | `Result*` | core.pyx | induction, exact condition |
| C13 | `Batch*` | batch.py, core.pyx | induction on the batch |
| C15, C17 | `Main*`: main pool and sub pools exchanging control messages | backends/pool.py | trace invariants |
| C16, C20 | `Config*` | config.py, allocate_strategy.py | invariant of all histories |
| C18, C19 | `Router*` | router.py | graph argument on hops, trace invariant |
| C21, C43, C51 | `IndexProps`, `Layout*` | backends/pool.py, indigen/pool.py | arithmetic, positions of lists |
| C22–C24 | `Copy*` | backends/context.py, pool.py | loop invariant |
| C25, C26 | `Lru*` against a recency specification computed from the history | aio/lru.py | trace invariant |
| C27 | `Dispatch*` | _utils.pyx | history invariant |
| C28 | `Gen*` | api.py | trace invariant |
| C29, C30, C41, C44 | `Port*`, `Retry*`, `Size*`, `Addr*` (with `PyStr`) | utils.py | induction |
| C31, C32, C46 | `Percentile*`, `Profile*`, `Metric*` | metrics/, profiling.py | sortedness and permutation, trace invariants |
| C33 | `Cycle*` | debug.py and its callers; core.pyx 57-109 (which references are local) | invariant relating traces to the waiting graph |
| C34 | `Dummy*`: asyncio.Queue pair | communication/dummy.py, CPython queues.py | trace invariant |
| C35 | `Group*` | collective/core.py | sorting, injectivity of the joined decimals |
| C54, C48 | `StoreWire*`, `StoreSess*`: the store's bytes: partial send/recv, SendBuffer, request/reply/notification encoding; one connection over time | cpp/collective/rendezvous/include/utils.hpp, src/tcp_store.cpp | compositional reader/writer specifications, trace invariant |
| C55 | `Worker*`: life of the worker processes of a pool through creation, monitor recovery, append, remove and stop | backends/pool.py 1285-1490, backends/indigen/pool.py 149-163, 262-506 | transition relation, history invariant, counterexample histories |
| C56 | `Uv*`: installing packages with uv: sorting of requirements, dry-run plan, filtering, --no-deps installation | virtualenv/uv.py 118-308 | functional correctness with uv as a specified oracle; counterexample systems |
| C57 | `WaitFor*`: xoscar.wait_for as a transition system of event-loop callbacks | api.py 185-217 | history invariant |
| C58 | `Error*`: an error reply, its pickling, its rebuilding and its wrapping, over a chain of pools | message.pyx ErrorMessage, pool.py _ErrorProcessor/_send_channel, utils.py wrap_exception, serialization/exception.py | induction over the chain |
| C59 | `Coll*`: the Python and C++ layers over gloo as pointer arithmetic on the members' memories; gloo by its documentation | collective/process_group.py 177-331, common.py, cpp/collective/gloo/src | block lemmas on memories |
| C60 | `Nccl*`: programs of point-to-point calls with matching of sends and receives | collective/process_group.py 333-655 | exact characterisation of groups that can be created; matching |
| C61 | `Channel*`: tasks, objects that change, the serializing thread, frames and the receiver, on top of `Ser*` and `Framing*` | socket.py 78-104, aio.py 38-113, core.pyx 745-800 | invariant over all interleavings, composed with C01, C03, C04, C05 |
| C62 | `Order*`: the event loop's queue, readers of channels, request tasks, `asyncio.Lock` with cancelled waiters, local references, forwarders | pool.py 317-331, 386-445, 572-600, 679-732; core.pyx 284-333, 507-556; core.py 140-222; router.py 132-176 | invariants over all interleavings (each request in one place; per task, what is made = started ++ waiting ++ queued ++ in the channel); induction over the proxies |
| C63 | UcxModel: packets of a message and of a buffer copy, sending calls under the send lock (serialise, queue, packets, error, cancel, close), the reader with size-exact receives, skipping of empty buffers and the copy-to mode | invariant over all sender runs (whole items on the wire, then at most the beginning of one), packet-exact parsing lemmas, monotonicity of reading; general theorems for the two desynchronisations, concrete runs for the other refutations |
| C64 | MonitorModel: the monitor task (copy of the table of sub pools, one entry at a time, restart with its two awaits, replay), deaths and their discovery, appending and removing pools, wait calls and recovery events | invariants over all interleavings (table / copy agreement, waiters / events, downed processes), bounded-waiting invariants counted in rounds, a progress theorem; general theorems for the hanging waits, concrete runs for the other refutations |
| C65 | LinearModel: a whole call - invocation, request on a connection, request task, forwarding by proxies, the actor's lock, the method as a coroutine over the actor's state, reply, futures of all processes - with lost connections, dead processes, restarts, cancellations, damaged messages (LinearSpec: what one-after-the-other means) | token invariant (a call is in at most one place and begins at most once), simulation invariant (actor state = sequential execution of the calls begun), real-time order from the order of Begin events; for the untroubled case a balance invariant between futures and tokens, and a measure that shows that everything can finish |
| C66 | RoutesModel: the process-wide routing table under add_router/remove_router, the table each pool's configuration and router share, starting/appending/removing/syncing/stopping of any number of pools (RoutesSpec: who runs, what it has announced) | relational invariant between the specification's world and the table, for addresses that no two pools have at once, by induction on the history; order of announcement for the default pool; counterexamples for removed workers, default pool, proxies, late append, second stop |
| C67 | MembersModel: the shared configuration of a main pool, append_sub_pool/remove_sub_pool/recover_sub_pool cut at their awaits, sync messages with snapshots over several connections (MembersSpec: members from the history) | permutation invariant for the main pool's configuration in all histories; for workers the invariant 'last message on the way, or own view, is current unless a sync is still to be sent'; termination argument for everything under way; counterexamples |
| C68 | FateModel: the main process's number in the process table (alive, zombie, free, reused), one worker from fork through preexec_fn and the start of its thread, the kernel's parent-death signal, the checks of _check_ppid and _watch_main_pool with their sleeps, time in tenths of a second | invariants relating the timers to the history ('ticks since the number became free'); no-false-alarm by trace induction; counterexamples as families of runs of every length |
| C69 | UnwindModel: `deserialize`'s explicit stack with the unwinding of exceptions through `on_deserial_error`; LoadModel: one connection, calls with arguments/results that cannot be dumped or loaded | UnwindSpec gives a recursive reading of loading; the stack machine is proved to agree (mutual induction); LoadProps: trace invariant, termination measure; refuted by a concrete run in which an unloadable argument closes the connection of an innocent call |
| C70 | YieldModel: any number of actors with FIFO locks and states, methods as trees of segments ended by return/raise/yield/await/return of calls; generators acquire the lock per step (and once to be made); requests to cancel, which a waiting call passes on | YieldSpec: sequential reading of a method; YieldProofs: invariants on locks, histories and children; deadlock freedom by lexicographic induction on (level, position in the tree of calls); termination by well-foundedness of the multiset of remaining work; C62_generators_refuted by a concrete run |
| C71 | the same model (YieldModel: Cancel, Deliver, LeaveSending, Replied, Again; marks asked/got/left/replied/parent) | YieldProofs.K (marks against waits), YieldCancelProofs: nobody is left unless somebody leaves, methods that let CancelledError through (invariant per task), methods without yield; refutations by concrete runs (cancelled while sending; cancelled twice; tuple with an earlier failure; generator at the lock) |
| C72 | UCXInitializer: _get_options (flags, entries, names), init (precedence, CUDA context, os.environ replaced and restored, ucp.init without arguments), reset; histories of initialisations and environment changes (UcxConfModel, UcxConfSpec) | dictionaries against 'last entry' relations, spelling of names, induction on histories; refutation: flags and entries never reach UCX |
| C73 | NvModel: machines with GPUs, MIG slices and processes, NVML's and CUDA's numbering, CUDA_VISIBLE_DEVICES, get_device_count / get_device_info with their caches, get_index_and_uuid, get_compute_running_processes, get_cuda_context, the check in ucx.py | NvProps: numerals and entries of the variable specified separately; invariant 'every cached answer is the answer of a fresh process'; search by induction on GPUs and slices; refutations by concrete machines and, for UUID entries, for all |
| C74 | AFileModel: wrappers, an executor of k threads with its queue, files with arbitrary operations, events (threading.Event), cancellation, `async with`, `async for` over a file with a position | AFileSpec: order of effects read off the events only; AFileProofs/AFileProps/AFileEventProps: invariant over runs, linearisation by induction, blocked executors by induction over all continuations |
| C75 | CopyConcModel: any number of copies over channels, weak registries of references, buffers and files that vanish, the handlers at the receiver, cancellation | CopyConcProofs/CopyConcMain/CopyConcFiles/CopyConcProps: invariants over runs (what is covered by pending messages, what is written so far), termination by induction over messages left; counterexamples for two copies into one target and for the message under way of a cancelled copy |
| C76 | DelayModel: tasks made by tell_delay on an event loop (ready queue, timers with a clock resolution), both kinds of reference, failures, cancelling, arguments that change | DelayProofs/DelayOrder/DelayEffects/DelayProps: invariant linking queue, timers, what has begun and what was handed over to the tasks' phases; an order invariant for two calls; termination by induction over queue and timers; counterexamples for equal delays, changed arguments, late cancelling and a missing delay |
| C77 | ReminderModel: the blocks that debug_async_timeout surrounds, each with its reminding task, under options that change at any time; DEBUG_OSCAR with json.loads as a parameter | ReminderProps: invariant linking the sleeping task of a block to its reports; a second one for loops that are never late; counterexamples for switching off and for options that are not numbers |
| C78 | GenConcModel: the steps of any number of calls of __xoscar_next__ on one generator, with or without the lock of its actor, in a thread or a task, and their cancelling | GenConcProps: invariant linking the answers to the items while at most one call is in the generator; a weaker one for all executions; counterexamples for a StatelessActor and for cancelled calls |
| C79 | MlxModel: MLXSerislizer over the strided arrays of NdModel; the dtype names of MLX | MlxProps: an array is kept exactly if its dtype's name is an attribute of the module; counterexample for bool |
| C80 | BackendModel: the registry of backends, the client context's cache, create_actor_pool's dispatch and setup_cluster; the scheme of a URL | BackendProps: invariant that the cache agrees with the registry; the groups of a setup partition the nodes; counterexample for a backend registered after a call |
| C81 | IdModel: the id generator and its seeding in processes that start, fork, seed Python's random or become sub pools; idealised random numbers | IdProps: invariants (a seed is used by one process; the ids made lie before its position); counterexamples for a fork and for equal user seeds |
| C36, C37, C48, C49 | `Store*`: rendezvous store server and its clients' requests | cpp/collective/rendezvous | refinement to a map, trace invariants |
| C38 | `Recover*` | backends/pool.py, indigen/pool.py | induction |
| C39 | `Shm*`: byte-wise writer and reader in any interleaving | indigen/pool.py | invariant |
| C40 | `Nd*`: strided memory | serialization/numpy.py, numpy's C code | induction on dimensions |
| C42, C50 | `Ref*`: references, pools, lingering objects | core.pyx, _utils.pyx | case analysis, trace invariant |
| C47 | `Marker*`: JSON and Python literals, substitution, expression trees, requirement lists; packaging and the Python parser are parameters | virtualenv/core.py | induction; the evaluator is compared with a relational big-step semantics |
| C52, C53 | `Torch*`: tensors over storages, on top of `Nd*`; PyTorch, numpy and cupy functions from their sources | serialization/torch.py, cuda.py, scipy.py | as C40 |
| C73 | `Nv*`: GPUs, slices, processes, CUDA's and NVML's numbering, the module's caches; the drivers from their documentation | nvutils.py, ucx.py | invariant over histories of queries; search by induction |
| C74 | `AFile*`: asynchronous files and events on an executor; the executor and threading.Event from their documentation | aio/base.py, aio/file.py, aio/parallelism.py | invariant over runs, linearisation |
| C75 | `CopyConc*`: several copies at once, references whose objects vanish; splitting into messages from `CopyModel` | core.pyx 593-664, context.pyx, backends/context.py, backends/pool.py | invariants over runs, refutations |
| C76 | `Delay*`: tell_delay of both kinds of reference, sleep, the loop's queue and timers, CPython's heapq | core.pyx 204-219, 330-354 | invariants over runs, refutations |
| C77 | `Reminder*`: debug_async_timeout, _log_timeout, options and DEBUG_OSCAR | debug.py 39-110, its uses in context.py, pool.py, core.pyx | invariants over runs, refutations |
| C78 | `GenConc*`: concurrent and cancelled calls of __xoscar_next__ | api.py 420-486, core.pyx 578-590 | invariants over runs, refutations |
| C79 | `Mlx*`: serializer of MLX arrays | serialization/mlx.py 40-63 | proofs over strided arrays, refutation |
| C80 | `Backend*`: which backend serves an address | backend.py 50-67, api.py 173-182 and 312-324, context.pyx 256-268 | invariant over histories, refutation |
| C81 | `Id*`: ids made up by processes | _utils.pyx 34-35 and 139-177, indigen/pool.py 204-206 | invariants over runs, refutations |
