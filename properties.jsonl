{"id": "C01", "title": "serialize/deserialize round trip of values", "statement": "deserialize(*serialize(x)) is a value equal to x, for every x built from primitives, strings, bytes-like leaves, lists, tuples and dicts nested to any depth, and the buffers are consumed in exactly the order they were produced.", "quantifier": "all finite value trees, all shapes, all depths, all numbers of buffers per leaf", "why_tests_cant": "A test picks a handful of values; nesting depth, arity and buffer counts are unbounded.", "anchors": ["python/xoscar/serialization/core.pyx: serialize, deserialize, _serial_single, _deserial_single, ListSerializer, TupleSerializer, DictSerializer"]}
{"id": "C02", "title": "serialize/deserialize preserves sharing and cycles", "statement": "If two positions of the argument of serialize hold the same object, the same two positions of the deserialized value hold one object, and different objects stay different; lists and dicts may contain themselves.", "quantifier": "all finite object graphs", "why_tests_cant": "Aliasing patterns and cycles are unbounded; a wrong id assignment shows up only for particular orders of repeated objects.", "anchors": ["python/xoscar/serialization/core.pyx: _SerializeObjectOverflow, Serializer.serial context argument, Placeholder, _serialize_with_stack, _deserialize"]}
{"id": "C03", "title": "spawning does not change the serialized result", "statement": "For every spawn threshold, serialize_with_spawn gives a result that deserializes to the same value as plain serialize.", "quantifier": "all value trees and all thresholds", "why_tests_cant": "The hand-over from inline recursion to the spawned worker can happen at any object in the traversal.", "anchors": ["python/xoscar/serialization/core.pyx: serialize_with_spawn, _SerializeObjectOverflow, _serialize_with_stack"]}
{"id": "C04", "title": "stream framing round trip", "statement": "Whatever sequence of messages is sent on one socket connection, and however the transport cuts the byte stream, the receiver reads exactly that sequence of (header, buffers) in order, with nothing left over.", "quantifier": "all sequences of messages, all header/buffer sizes below 2^64", "why_tests_cant": "Boundaries between messages and buffer sizes (including empty buffers) are unbounded.", "anchors": ["python/xoscar/serialization/aio.py: AioSerializer, AioDeserializer", "python/xoscar/backends/communication/utils.py: write_buffers, read_buffers", "python/xoscar/backends/communication/socket.py: SocketChannel.send, SocketChannel.recv"]}
{"id": "C05", "title": "no message is invented from a damaged stream", "statement": "If the stream ends inside a message, or the version byte is not the supported one, recv raises and never delivers a message; messages completely received before are unaffected.", "quantifier": "all streams, all cut points, all version bytes", "why_tests_cant": "A crash can cut the stream at any byte.", "anchors": ["python/xoscar/serialization/aio.py: AioDeserializer._get_obj_header_bytes, AioDeserializer.run", "python/xoscar/backends/communication/socket.py: SocketChannel.recv"]}
{"id": "C06", "title": "every message type survives the wire", "statement": "For every message type and every field value, deserialization of a serialized message gives a message of the same type with equal fields, including nested forward messages of any depth; a message without its actor reference or with an unsupported protocol is refused when it is sent.", "quantifier": "all message types, all field values, all nesting depths of forwards", "why_tests_cant": "Fields are addressed by negative index relative to a tuple that each subclass extends; depth of nesting is unbounded.", "anchors": ["python/xoscar/backends/message.pyx: _MessageBase.serial, deserial_members, ForwardMessage, MessageSerializer"]}
{"id": "C07", "title": "a call completes only with the reply to that call", "statement": "Under every interleaving of concurrent calls, replies (in any order), cancellations and connection failures, a completed call holds the reply carrying its own message id, or an error; a reply never completes another call.", "quantifier": "all histories of send / reply / cancel / disconnect events of any length", "why_tests_cant": "Requires all interleavings of in-flight calls and replies.", "anchors": ["python/xoscar/backends/core.py: ActorCallerThreadLocal.call, _listen, _client_to_message_futures"]}
{"id": "C08", "title": "losing a connection fails every call waiting on it", "statement": "When the connection to a server closes or errors, every call still waiting on it is completed with an error rather than waiting forever.", "quantifier": "all sets of in-flight calls, including calls cancelled by their owners", "why_tests_cant": "The set of in-flight calls and their cancellation states at the crash is arbitrary.", "anchors": ["python/xoscar/backends/core.py: ActorCallerThreadLocal._listen"]}
{"id": "C09", "title": "exactly one reply per request, with the request's id", "statement": "For every request message the pool answers exactly once, with the request's message id, an ErrorMessage if the handler raised (also on cancellation) and the handler's result otherwise; if the reply itself cannot be sent for a reason other than a closed connection, one error reply is sent in its place.", "quantifier": "all requests, all handler outcomes, all send outcomes", "why_tests_cant": "All combinations of failing handlers and failing sends.", "anchors": ["python/xoscar/backends/pool.py: _ErrorProcessor, AbstractActorPool.process_message, _send_channel, _run_coro"]}
{"id": "C10", "title": "calls on one actor do not overlap", "statement": "Under every schedule, at any time at most one lock-protected method body of an actor is running, whether calls come through remote refs, local refs or on_receive; only methods marked no_lock or stateless actors may overlap.", "quantifier": "all schedules of any number of concurrent callers", "why_tests_cant": "All interleavings.", "anchors": ["python/xoscar/core.pyx: _BaseActor.__on_receive__, _FakeLock, LocalActorRef, _actor_method_wrapper"]}
{"id": "C11", "title": "waiting calls run in arrival order and the lock is never lost", "statement": "Locked calls on an actor (each step of a generator method counting as a call of its own) start in the order in which they arrived; when a running call finishes, fails or is cancelled, or a waiting call is cancelled, the next waiting call can start: whenever calls wait, one holds the lock or has been given it.", "quantifier": "all schedules, all outcomes including exceptions and cancellations", "why_tests_cant": "All interleavings and cancellation points.", "anchors": ["python/xoscar/core.pyx: _BaseActor.__on_receive__, _handle_actor_result, _actor_method_wrapper"]}
{"id": "C12", "title": "awaitables in a returned tuple are replaced in place", "statement": "If an actor method returns a tuple containing coroutines, the caller receives a tuple of the same length in which each coroutine is replaced by its own result and every other item is unchanged.", "quantifier": "all tuples and all subsets of positions holding coroutines", "why_tests_cant": "All mixes of plain and awaitable items at all positions.", "anchors": ["python/xoscar/core.pyx: _BaseActor._handle_actor_result"]}
{"id": "C13", "title": "batch and single call agree", "statement": "Calling an extensible actor method through a reference with batch(delay(...), ...) gives the list of results of the individual calls in order, whichever of the single or batch implementations the user supplied; calling it once gives the single element.", "quantifier": "all lists of calls, all argument lists, all user functions that agree with each other", "why_tests_cant": "All batch sizes and mixtures of args and kwargs.", "anchors": ["python/xoscar/batch.py: _ExtensibleWrapper, _ExtensibleCallable, extensible", "python/xoscar/core.pyx: ActorRefMethod.batch"]}
{"id": "C14", "title": "actor registry of a pool follows create and destroy", "statement": "In one pool, after any history of create/destroy/has calls, has_actor(ref) is true exactly for actors whose creation succeeded and that were not destroyed since; creating an existing uid raises ActorAlreadyExist and changes nothing; destroying or calling an unknown actor raises ActorNotExist and changes nothing.", "quantifier": "all histories, including failing __post_create__ and __pre_destroy__ hooks", "why_tests_cant": "All histories and all failing hooks.", "anchors": ["python/xoscar/backends/pool.py: ActorPoolBase.create_actor, has_actor, destroy_actor, actor_ref, _get_actor / send"]}
{"id": "C15", "title": "main pool's actor directory matches the sub pools", "statement": "After any history of creations and destructions through the main pool or directly in sub pools, the main pool says has_actor for exactly the actors that live in some pool, and directs calls to the pool in which the actor lives.", "quantifier": "all histories of creation/destruction, with failures at any point", "why_tests_cant": "All histories and failure points.", "anchors": ["python/xoscar/backends/pool.py: MainActorPoolBase.create_actor, destroy_actor, has_actor, send, actor_ref, SubActorPoolBase.create_actor, destroy_actor, handle_control_command"]}
{"id": "C16", "title": "allocation strategies pick the address they promise", "statement": "AddressSpecified gives that address; MainPool the main address; RandomSubPool a sub-pool address; ProcessIndex(i) the address of process i; RandomLabel an address with the label; each raises its documented error exactly when no such address exists.", "quantifier": "all pool configurations and all random choices", "why_tests_cant": "All configurations.", "anchors": ["python/xoscar/backends/allocate_strategy.py"]}
{"id": "C17", "title": "IdleLabel never hands one slot out twice", "statement": "Of the actors created with IdleLabel(label, mark) and not destroyed, no two share a process; NoIdleSlot is raised exactly when all processes with the label are taken.", "quantifier": "all sequences and interleavings of creations, failures and destructions", "why_tests_cant": "Concurrent creations interleave between choosing the address and recording the actor.", "anchors": ["python/xoscar/backends/allocate_strategy.py: IdleLabel", "python/xoscar/backends/pool.py: MainActorPoolBase.create_actor"]}
{"id": "C18", "title": "proxy lookup precedence and termination", "statement": "The proxy for an address is the entry for exactly this address, else for its host, else the wildcard, never the address itself; asking for the chain of proxies to any address returns a chain of such hops that ends at an address without proxy.", "quantifier": "all proxy configurations and addresses", "why_tests_cant": "All configurations, including circular ones.", "anchors": ["python/xoscar/backends/router.py: Router.get_proxy, get_proxies"]}
{"id": "C19", "title": "client cache never returns a closed or foreign connection", "statement": "get_client returns an open client connected to the requested destination; while a client is open, repeated requests by the same owner return the same client.", "quantifier": "all histories of get_client and close events", "why_tests_cant": "All histories.", "anchors": ["python/xoscar/backends/router.py: Router.get_client, _cache"]}
{"id": "C20", "title": "pool configuration mapping is consistent", "statement": "After any sequence of add/remove/reset operations, the internal address and process index reported for an external address are those of the pool that owns it, addresses with a label are exactly the addresses of pools added with it.", "quantifier": "all sequences of configuration updates", "why_tests_cant": "All sequences.", "anchors": ["python/xoscar/backends/config.py: ActorPoolConfig"]}
{"id": "C21", "title": "process indexes are unique", "statement": "Two processes started by main pools never get the same process index.", "quantifier": "all pids and counter values", "why_tests_cant": "All pids.", "anchors": ["python/xoscar/backends/pool.py: MainActorPoolBase.process_index_gen"]}
{"id": "C22", "title": "copy_to transfers buffers exactly", "statement": "After copy_to returns, each remote buffer holds exactly the bytes of its local buffer, for every list of buffers of any sizes and every block size.", "quantifier": "all buffer lists, sizes, block sizes", "why_tests_cant": "All size patterns relative to the block size.", "anchors": ["python/xoscar/backends/context.py: IndigenActorContext.copy_to_buffers", "python/xoscar/backends/pool.py: copy_to_buffers handlers"]}
{"id": "C23", "title": "copy_to respects the block size", "statement": "No single transfer message of copy_to carries more payload bytes than block_size.", "quantifier": "all buffer lists, sizes, block sizes", "why_tests_cant": "All size patterns relative to the block size.", "anchors": ["python/xoscar/backends/context.py: IndigenActorContext.copy_to_buffers"]}
{"id": "C24", "title": "copy_to to files writes the same content", "statement": "After copying file objects, each remote file received exactly the bytes read from the local file, in order and in pieces of at most block_size.", "quantifier": "all files and block sizes", "why_tests_cant": "All file lengths relative to block sizes.", "anchors": ["python/xoscar/backends/context.py: IndigenActorContext.copy_to_fileobjs", "python/xoscar/backends/pool.py: copy_to_fileobjs"]}
{"id": "C25", "title": "alru_cache is a bounded LRU cache", "statement": "After any sequence of calls, the cache holds at most maxsize entries, namely those most recently used; a value returned from the cache is the value computed for an equal key; concurrent calls with an equal key share one computation; hits+misses equals the number of calls.", "quantifier": "all call sequences, key patterns, maxsize values and interleavings", "why_tests_cant": "All histories.", "anchors": ["python/xoscar/aio/lru.py: alru_cache"]}
{"id": "C26", "title": "failures are not cached when cache_exceptions is off", "statement": "With cache_exceptions=False, a call whose computation failed or was cancelled is computed again by the next call with that key.", "quantifier": "all histories including cancelled computations", "why_tests_cant": "All histories.", "anchors": ["python/xoscar/aio/lru.py: _done_callback, alru_cache"]}
{"id": "C27", "title": "type dispatch picks the nearest registered ancestor", "statement": "The handler for an object is the one registered for the first class in its MRO that has one (named registration first), after any interleaving of register, unregister and lookups.", "quantifier": "all class hierarchies (MROs), all histories of register/unregister/lookup", "why_tests_cant": "All histories; caches make the result history-dependent.", "anchors": ["python/xoscar/_utils.pyx: TypeDispatcher"]}
{"id": "C28", "title": "remote generators yield the same items in the same order", "statement": "Iterating the proxy of a remote (async) generator yields exactly the items of the generator in order, then ends; an exception raised by the generator reaches the consumer; the generator's storage on the server is released at the end.", "quantifier": "all generators (any number of items, any outcome) and consumers stopping anywhere", "why_tests_cant": "All lengths and failure points.", "anchors": ["python/xoscar/api.py: IteratorWrapper, _AsyncGeneratorProxy / generator, Actor.__xoscar_next__, __xoscar_destroy_generator__"]}
{"id": "C29", "title": "get_next_port returns a free port in range", "statement": "get_next_port returns a port of the ephemeral range that is not occupied, if one is free; fails otherwise.", "quantifier": "all sets of occupied ports, all random starting points", "why_tests_cant": "All occupied sets.", "anchors": ["python/xoscar/utils.py: get_next_port"]}
{"id": "C30", "title": "retry_callable retries and reports", "statement": "A wrapped callable is invoked at most `times` times, returns the first success, raises at once an exception not listed, and raises the last failure when the attempts are exhausted; sync and async variants agree.", "quantifier": "all outcome sequences and retry counts", "why_tests_cant": "All sequences of outcomes.", "anchors": ["python/xoscar/utils.py: retry_callable"]}
{"id": "C31", "title": "percentile metrics report the percentile", "statement": "A percentile recorder calls back once per window with the requested order statistic of the values of that window.", "quantifier": "all sequences of recorded values and all window sizes", "why_tests_cant": "All sequences.", "anchors": ["python/xoscar/metrics/api.py: Percentile"]}
{"id": "C32", "title": "slow-call profile keeps the slowest calls", "statement": "The profiling result lists the ten slowest of the recorded calls.", "quantifier": "all sequences of recorded calls", "why_tests_cant": "All sequences.", "anchors": ["python/xoscar/profiling.py: _CallStats"]}
{"id": "C33", "title": "debug mode reports exactly real call cycles", "statement": "With cycle detection on, a send is reported (logged) when, and only when, the chain of awaiting, lock-holding messages from the sender leads back to an actor on it.", "quantifier": "all message chains", "why_tests_cant": "All chains.", "anchors": ["python/xoscar/debug.py: detect_cycle_send, record_message_trace"]}
{"id": "C34", "title": "in-process channels are reliable FIFO queues", "statement": "On a dummy channel, messages are received exactly once and in the order sent; after close no message is lost silently: recv and send raise.", "quantifier": "all interleavings of sends, receives and closes at both ends", "why_tests_cant": "All interleavings.", "anchors": ["python/xoscar/backends/communication/dummy.py"]}
{"id": "C35", "title": "collective groups give every member a unique consistent rank", "statement": "For any list of ranks, all members of a new group agree on its name and size, and their ranks in the group are 0..n-1, distinct; distinct groups have distinct names; non-members get None; illegal lists are refused.", "quantifier": "all rank lists, all orders, all members", "why_tests_cant": "All lists.", "anchors": ["python/xoscar/collective/core.py: RankActor.new_group, _process_group_name"]}
{"id": "C36", "title": "rendezvous store is a linearizable key-value store", "statement": "Replies of the rendezvous store to set, get, add, compare_set, append, delete, check, num_keys match a sequential map in processing order; concurrent adds lose no increment and return distinct running totals.", "quantifier": "all interleavings of requests by any number of clients", "why_tests_cant": "All interleavings.", "anchors": ["cpp/collective/rendezvous/src/tcp_store.cpp: TCPStoreMasterDaemon handlers"]}
{"id": "C37", "title": "waiting clients of the rendezvous store are woken", "statement": "A client waiting for keys is answered once each of them has been present since it asked, not earlier, and as soon as that is the case.", "quantifier": "all interleavings of waits and updates, client disconnects", "why_tests_cant": "All interleavings.", "anchors": ["cpp/collective/rendezvous/src/tcp_store.cpp: waitHandler, wakeupWaitingClients, compareSetHandler, queryFds"]}
{"id": "C38", "title": "a lost sub pool is restarted with its actors", "statement": "With auto recovery of actors, after a sub pool is lost and recovered every actor that the main pool had recorded there is created again with the same arguments, and each of them exactly once; without it the directory entry of the pool is emptied.", "quantifier": "all directories", "why_tests_cant": "All sets of actors.", "anchors": ["python/xoscar/backends/pool.py: process_sub_pool_lost, monitor_sub_pools", "python/xoscar/backends/indigen/pool.py: recover_sub_pool"]}
{"id": "C39", "title": "start-up hand-over through shared memory is never torn", "statement": "The parent reading the object the child puts in shared memory gets either nothing or the complete object, at every interleaving of the child's writes.", "quantifier": "all objects below the size limit, all read times", "why_tests_cant": "All interleavings of byte writes and reads.", "anchors": ["python/xoscar/backends/indigen/pool.py: _shm_put_object, _shm_get_object"]}
{"id": "C40", "title": "arrays keep shape, order and content over the wire", "statement": "Deserializing a serialized array gives equal elements at all indexes and the same shape, for C-ordered, Fortran-ordered and strided arrays.", "quantifier": "all shapes, strides and contents", "why_tests_cant": "All shapes and strides.", "anchors": ["python/xoscar/serialization/numpy.py: NDArraySerializer"]}
{"id": "C41", "title": "parse_readable_size", "statement": "For a number followed by an optional unit, the result is the number times the unit's value; unknown suffixes raise.", "quantifier": "all inputs", "why_tests_cant": "All inputs.", "anchors": ["python/xoscar/utils.py: parse_readable_size"]}
{"id": "C42", "title": "actor references compare by address and uid", "statement": "Two references are equal iff they denote the same address and uid, equal references hash equally, and sending a reference through serialization preserves equality.", "quantifier": "all references, local or remote", "why_tests_cant": "All pairs.", "anchors": ["python/xoscar/core.pyx: ActorRef, LocalActorRef"]}
{"id": "C43", "title": "create_actor_pool validates and lays out its processes", "statement": "create_actor_pool refuses lists of wrong length, and otherwise configures n_process sub pools plus a main pool with the labels, environments, schemes and ports given for each (port 0, chosen by the system, where none is given); process indexes and internal addresses are distinct within a configuration.", "quantifier": "all arguments", "why_tests_cant": "All argument shapes.", "anchors": ["python/xoscar/backends/pool.py: create_actor_pool", "python/xoscar/backends/indigen/pool.py: get_external_addresses"]}
{"id": "C44", "title": "wildcard addresses of references are resolved to the contacted address", "statement": "A reference obtained through address X never keeps a zero host (0.0.0.0 or ::) when X names a concrete host; the port is kept; other addresses are unchanged.", "quantifier": "all address pairs", "why_tests_cant": "All strings.", "anchors": ["python/xoscar/utils.py: fix_all_zero_ip, is_v4_zero_ip, is_v6_zero_ip", "python/xoscar/backends/context.py: actor_ref"]}
{"id": "C45", "title": "cancelling a call", "statement": "If the waiter of a call is cancelled, one cancel request for that call's id is sent to its destination; the running call is cancelled iff it is known there; the waiter then ends as the call ends if it was known, and with CancelledError otherwise.", "quantifier": "all interleavings of completion and cancellation", "why_tests_cant": "All interleavings.", "anchors": ["python/xoscar/backends/context.py: _wait", "python/xoscar/backends/pool.py: cancel"]}
{"id": "C46", "title": "metric recorders account for every value", "statement": "A counter reports the sum of all recorded values; a histogram's reported averages cover every value exactly once per interval; a metric created before init_metrics is connected to the backend at init.", "quantifier": "all sequences of record calls and times", "why_tests_cant": "All sequences.", "anchors": ["python/xoscar/metrics/backends/metric.py", "python/xoscar/metrics/api.py"]}
{"id": "C47", "title": "environment markers of packages are evaluated as written", "statement": "filter_requirements keeps a requirement iff its marker, after substituting variables, is true, keeps their order, and substitutes every occurrence of a variable with a quoted literal that reads back as its value.", "quantifier": "all requirement lists and marker expressions", "why_tests_cant": "All expressions.", "anchors": ["python/xoscar/virtualenv/core.py: eval_custom_marker, filter_requirements, substitute_variables"]}
{"id": "C48", "title": "a timed-out wait does not corrupt later answers", "statement": "Each rendezvous-store call that returns an answer returns the server's answer to that very call, also after an earlier wait has timed out.", "quantifier": "all interleavings of time-outs and updates", "why_tests_cant": "All interleavings.", "anchors": ["cpp/collective/rendezvous/src/tcp_store.cpp: TCPStore::doWait, check, waitHandler"]}
{"id": "C49", "title": "watchers of a rendezvous-store key are notified of its changes", "statement": "Each completed update notifies each client watching the key, once per registration and in order, with old and new value; nobody else is notified, and a watcher that leaves does not disturb the requests of others.", "quantifier": "all interleavings of registrations, updates and disconnects", "why_tests_cant": "All interleavings.", "anchors": ["cpp/collective/rendezvous/src/tcp_store.cpp: watchHandler, sendKeyUpdatesToClients, queryFds"]}
{"id": "C50", "title": "a reference always calls the actor that currently exists", "statement": "A call through a reference is executed by the actor that exists under the reference's address and uid at the time of the call, and fails with ActorNotExist when there is none, whether or not the caller lives in the same process.", "quantifier": "all histories of create, destroy, re-create and call, and all times at which destroyed objects are reclaimed", "why_tests_cant": "All histories and reclamation times.", "anchors": ["python/xoscar/core.pyx: LocalActorRef, LocalActorRefMethod._get_referent", "python/xoscar/backends/pool.py: create_actor, destroy_actor"]}
{"id": "C51", "title": "internal addresses on one machine are unique", "statement": "Two actor pools, whether of one main process or of different main processes of a machine, never get the same internal address.", "quantifier": "all process ids and counter states", "why_tests_cant": "All pairs of process ids.", "anchors": ["python/xoscar/backends/pool.py: process_index_gen", "python/xoscar/backends/indigen/pool.py: gen_internal_address", "python/xoscar/backends/communication/socket.py: UnixSocketServer.create"]}
{"id": "C52", "title": "torch tensors keep their content over the wire", "statement": "A torch tensor on the CPU or on CUDA that is sent to another actor arrives with the same shape, element size, requires_grad and elements, whatever view of its storage it is.", "quantifier": "all storages, offsets, shapes, strides and element sizes", "why_tests_cant": "All views of all storages.", "anchors": ["python/xoscar/serialization/torch.py: TorchTensorSerializer"]}
{"id": "C53", "title": "cupy arrays and sparse matrices keep their content over the wire", "statement": "A cupy array arrives with the same shape and elements whatever view of memory it is; a CSR matrix arrives with the same three arrays and shape however many buffers each of them takes.", "quantifier": "all views of memory; all numbers of buffers", "why_tests_cant": "All views of all memories.", "anchors": ["python/xoscar/serialization/cuda.py: CupySerializer", "python/xoscar/serialization/scipy.py: CsrMatrixSerializer"]}
{"id": "C54", "title": "rendezvous-store requests, replies and notifications arrive as they were sent", "statement": "Whatever the sizes and however the operating system splits, interrupts or fails the transfers, the server handles exactly the requests the client made, in order, the client reads exactly the replies the server sent, and a watcher is told exactly the changes announced; a request that arrives only in part is never executed, a multi-key one at most for some of its first keys.", "quantifier": "all requests, replies and notifications; all answers of the operating system to send and recv", "why_tests_cant": "All splits and failures of transfers.", "anchors": ["cpp/collective/rendezvous/include/utils.hpp: SYSCHECK, sendBytes, recvBytes, sendVector, recvVector, sendString, recvString", "cpp/collective/rendezvous/src/tcp_store.cpp: SendBuffer, TCPStoreMasterDaemon::query, callbackHandler, TCPStore"]}
{"id": "C55", "title": "worker processes do not outlive their pool", "statement": "When pool.stop() has returned, and when create_actor_pool has raised, no worker process started for the pool is alive; while the pool runs each living worker is listed or looked after by a call in progress, and a removed worker stays removed until it is appended anew.", "quantifier": "all histories of creation, worker exits and start failures, recovery, append, remove and stop", "why_tests_cant": "All histories and interleavings.", "anchors": ["python/xoscar/backends/pool.py: MainActorPoolBase.create, stop, stop_sub_pools, stop_sub_pool, monitor_sub_pools", "python/xoscar/backends/indigen/pool.py: wait_sub_pools_ready, _create_sub_pool_from_parent, append_sub_pool, remove_sub_pool, kill_sub_pool, recover_sub_pool"]}
{"id": "C56", "title": "after install_packages the requirements are met", "statement": "When install_packages returns, every given requirement is met by the version Python imports in the virtual environment, together with its dependencies; with skip_installed the packages the system already provides are left alone, and whatever installs without it installs with it.", "quantifier": "all requirements, system packages, environment contents, indexes and resolver answers", "why_tests_cant": "All states of system and environment and all histories of installations.", "anchors": ["python/xoscar/virtualenv/uv.py: _resolve_install_plan, _split_specs, _filter_packages_not_installed, install_packages"]}
{"id": "C57", "title": "wait_for returns the call's outcome or times out on time", "statement": "xoscar.wait_for returns or raises exactly what the call returned or raised, ends when the call ends, raises TimeoutError once the time is up whatever the call does, asks a call it gives up to cancel, and passes a cancellation of its caller on to the call.", "quantifier": "all interleavings of the call's end, the time-out, cancellation and event-loop callbacks", "why_tests_cant": "All interleavings.", "anchors": ["python/xoscar/api.py: wait_for"]}
{"id": "C58", "title": "an error raised by an actor reaches the caller as itself", "statement": "When an actor's method raises, the caller catches an instance of the same class with the same text, labelled once with the address and process that raised it, and with the same attributes, through any number of pools in between.", "quantifier": "all exceptions, classes and chains of pools, in one process or over sockets", "why_tests_cant": "All exceptions, classes and routes.", "anchors": ["python/xoscar/backends/message.pyx: ErrorMessage.as_instanceof_cause", "python/xoscar/backends/pool.py: _ErrorProcessor, _send_channel", "python/xoscar/backends/core.py: ActorCaller._listen", "python/xoscar/utils.py: wrap_exception", "python/xoscar/serialization/exception.py: ExceptionSerializer"]}
{"id": "C59", "title": "collective operations on numpy data deliver what they promise and touch nothing else", "statement": "After reduce, allreduce, gather, allgather, scatter, reduce_scatter, alltoall or broadcast each member's receive buffer holds the elements the operation defines, for the dtype and operator asked for, and no other byte of any member's memory has changed.", "quantifier": "all group sizes, roots, dtypes, shapes, contents and buffers", "why_tests_cant": "All sizes of groups and buffers.", "anchors": ["python/xoscar/collective/process_group.py: ProcessGroupGloo", "python/xoscar/collective/common.py: TypeMappingGloo, CollectiveReduceOp", "python/xoscar/collective/utils.py: convert_data_to_np_array", "cpp/collective/gloo/src: allreduce.cc, reduce.cc, gather.cc, allgather.cc, scatter.cc, reduce_scatter.cc, all_to_all.cc, broadcast.cc"]}
{"id": "C60", "title": "NCCL groups can be created for any ranks and exchange what they promise", "statement": "new_group with the nccl backend succeeds for every set of ranks and all members get the same unique id; gather, scatter and alltoall of such a group finish and deliver each member's data to its place.", "quantifier": "all worlds, groups, roots and buffers", "why_tests_cant": "All groups.", "anchors": ["python/xoscar/collective/process_group.py: ProcessGroupNCCL", "python/xoscar/collective/core.py: RankActor.new_group"]}
{"id": "C61", "title": "a socket channel delivers what is sent, once and in order", "statement": "What a task sends over a socket channel with send() is what recv() returns at the other end: an equal value, all or nothing, at most once, also when the bytes arrive in arbitrary pieces; when the connection breaks the first messages are received and nothing else. The messages of one task arrive in the order in which it sent them, those of several tasks in the order of their calls of send, and a message shows the objects as they were at one moment of the call.", "quantifier": "every sequence of sends by any number of tasks, values, changes of the objects meanwhile, cancellations, splitting of the byte stream and point of breakage", "why_tests_cant": "interleavings of tasks with the serializing thread, all object graphs and all cut points", "anchors": ["python/xoscar/backends/communication/socket.py: SocketChannel.send, recv", "python/xoscar/serialization/aio.py: AioSerializer, AioDeserializer", "python/xoscar/serialization/core.pyx: serialize_with_spawn", "python/xoscar/backends/communication/utils.py: write_buffers, read_buffers"]}
{"id": "C62", "title": "calls of one task on one actor start in the order in which they were made", "statement": "When a task makes several calls or tells on an actor one after the other, through a remote reference, through proxies or through a local reference, the methods start in this order: none is overtaken by a later one of the same task, unless it was cancelled or lost with a connection before it started. Each method runs at most once, one at a time, and every request that has been received is started.", "quantifier": "every number of tasks, channels and proxies, every interleaving of readers, request tasks, lock waiters, cancellations, failures and local callers", "why_tests_cant": "the order depends on the queues of the event loop, the waiters of the lock and the cancellation of any of them at any moment", "anchors": ["python/xoscar/backends/pool.py: on_new_channel, process_message, send, cancel, forward", "python/xoscar/core.pyx: __on_receive__, LocalActorRefMethod, __pyx_actor_method_wrapper", "python/xoscar/backends/context.py: send", "python/xoscar/backends/core.py: call, call_with_client", "python/xoscar/backends/router.py: get_client"]}
{"id": "C63", "title": "a UCX channel delivers what is sent, once and in order", "statement": "Every message and every set of raw buffers whose send over a UCX channel succeeds is handled by the receiver exactly once, unchanged, and after everything whose send had returned before it was sent; the receiver handles nothing that nobody sent, whatever calls are cancelled, fail or are concurrent; a call on a channel that was closed raises ChannelClosed.", "quantifier": "every number of concurrent sends and buffer copies, every interleaving of packets, cancellations, endpoint errors and closes, every message content, every moment at which the receiver reads", "why_tests_cant": "needs UCX hardware or emulation, and the failures depend on which packet a cancellation falls behind and on buffer sizes", "anchors": ["python/xoscar/backends/communication/ucx.py: UCXChannel.send, recv, send_buffers, recv_buffers, abort, close", "python/xoscar/serialization/aio.py: AioSerializer, get_header_length", "python/xoscar/backends/context.py: copy_to_buffers", "python/xoscar/backends/pool.py: _handle_ucx_meta_message, on_new_channel"]}
{"id": "C64", "title": "a lost worker process is noticed, reported once and replaced, and waiting for the restart works", "statement": "When a worker process of a main pool ends, on_process_down is called exactly once for it and, with auto_recover, a new process is started within two rounds of the monitor; on_process_down is never called for a process that is alive or was removed on purpose; wait_actor_pool_recovered called after the worker died returns once, and only once, the new process is up and its actors are back.", "quantifier": "every number of workers, appended or removed at any time, every moment of death and of its discovery, every number of concurrent waits, every failing restart", "why_tests_cant": "needs processes to die at chosen moments between two polls of the monitor and during its own awaits", "anchors": ["python/xoscar/backends/pool.py: MainActorPoolBase.start_monitor, monitor_sub_pools, process_sub_pool_lost, handle_control_command", "python/xoscar/backends/indigen/pool.py: append_sub_pool, remove_sub_pool, is_sub_pool_alive, recover_sub_pool", "python/xoscar/backends/context.py: wait_actor_pool_recovered, kill_actor"]}
{"id": "C65", "title": "a call on an actor takes effect at most once, and calls look as if they were made one after the other", "statement": "Whatever processes, connections and tasks are lost or cancelled: the methods called on an actor (with its default lock) have the effect and the results of some order of the calls in which each runs alone and at most once, every result a caller got is that of its own call in this order, and a call that was made after another one had returned its result comes later in the order. When the actor's process is restarted and the actor created again, its calls look so from the initial state on, and no call is executed in two of these lives. If nothing is lost or cancelled, every call and tell is executed and returns its result, through any number of proxies, and no set of calls can block each other as long as the methods end.", "quantifier": "every behaviour of the methods, every number of callers, processes, proxies, connections, every interleaving of requests, replies, awaits, cancellations, losses and crashes", "why_tests_cant": "the guarantee is about the existence of an order for every schedule and every crash point across several processes", "anchors": ["python/xoscar/backends/core.py: ActorCaller._listen, call_with_client, call", "python/xoscar/backends/context.py: send, _wait", "python/xoscar/backends/pool.py: on_new_channel, process_message, send, forward, _send_channel", "python/xoscar/core.pyx: __on_receive__, LocalActorRefMethod, __pyx_actor_method_wrapper"]}
{"id": "C66", "title": "a process finds its pools, whatever pools start, change and stop in it", "statement": "In a process in which any number of pools are made, gain and lose workers and are stopped: a call to a running pool of the process stays within the process; a call to a worker the pool has announced takes the worker's internal address; a call to an address that no pool of the process has goes to that address itself; proxies are used for the pools they were configured for; create_actor without an address goes to the same running pool as long as it runs.", "quantifier": "every sequence of starting, appending, removing, synchronising and stopping, every number of pools, every address", "why_tests_cant": "the routing table is one mutable object that all pools of a process edit; what it contains depends on the whole history", "anchors": ["python/xoscar/backends/router.py: add_router, remove_router, get_internal_address, external_address", "python/xoscar/backends/pool.py: _sync_pool_config, _set_global_router, create, stop", "python/xoscar/backends/config.py: external_to_internal_address_map, add_pool_conf, reset_pool_external_address, remove_pool_config", "python/xoscar/backends/indigen/pool.py: append_sub_pool, remove_sub_pool", "python/xoscar/backends/context.py: create_actor"]}
{"id": "C67", "title": "an actor pool and its workers agree on who belongs to the pool", "statement": "While workers are appended, removed, lost and restarted: get_pool_config asked at the main pool reports the main pool and exactly the workers that came up and were not removed; as soon as nothing is under way every living worker reports the same; create_actor with a strategy that chooses by itself chooses the main pool or one of these workers; overlapping append_sub_pool and remove_sub_pool calls never block each other.", "quantifier": "every interleaving of append_sub_pool and remove_sub_pool calls, configuration messages, failures, crashes and restarts; every number of workers", "why_tests_cant": "several coroutines change one shared configuration across awaits and send snapshots of it over several connections", "anchors": ["python/xoscar/backends/indigen/pool.py: append_sub_pool, remove_sub_pool, recover_sub_pool, _create_sub_pool_from_parent", "python/xoscar/backends/pool.py: handle_control_command, _sync_pool_config", "python/xoscar/backends/config.py: add_pool_conf, remove_pool_config, reset_pool_external_address", "python/xoscar/backends/allocate_strategy.py: Random"]}
{"id": "C68", "title": "a worker ends when the process of its main pool ends, and not before", "statement": "However the process of a main pool ends, the processes of its workers end too, at the latest when their periodic check finds the main process gone; and no worker is ended for this reason while the main process lives.", "quantifier": "every moment at which the main process ends (also before, during and after the start of a worker), every timing of the checks, of the parent of the main process waiting for it and of the reuse of its process number", "why_tests_cant": "crashes at every point of a start, races with the operating system's process table and periods of ten seconds cannot be enumerated", "anchors": ["python/xoscar/backends/indigen/fate_sharing.py: preexec_fn, set_kill_on_parent_death_linux, create_subprocess_exec", "python/xoscar/backends/indigen/pool.py: _start_sub_pool_in_child", "python/xoscar/backends/pool.py: SubActorPoolBase._watch_main_pool"]}
{"id": "C69", "title": "What cannot be transferred fails its own call, with the reason, and no other", "statement": "Calls are made concurrently over one connection, with arguments and results of which some cannot be serialized and some cannot be deserialized at the other end. A call fails only if its own argument or its own result could not be serialized or deserialized, and the exception says so: what could not be deserialized raises an error that names the message and carries the original exception. The other calls on the connection are not affected. No call gets two outcomes, a call whose argument could not be transferred is not executed, and no call is left waiting.", "quantifier": "every tree of components, any serializers and any place where one of them raises; every set of calls, every choice of which arguments and results can be serialized and deserialized, every interleaving", "why_tests_cant": "tests use one object that cannot be pickled, in one call at a time; which other calls are in flight and at what depth of the nested components the exception is raised cannot be enumerated", "anchors": ["python/xoscar/serialization/core.pyx: deserialize, Serializer.on_deserial_error", "python/xoscar/backends/message.pyx: MessageSerializer.on_deserial_error, DeserializeMessageFailed", "python/xoscar/backends/core.py: ActorCaller._listen, ActorCaller.call_with_client", "python/xoscar/backends/pool.py: on_new_channel, _send_channel, process_message"]}
{"id": "C70", "title": "a method that yields to other actors releases its own actor, does not deadlock, and gets the results of its own calls", "statement": "A method written as an async generator may wait for calls on other actors with yield. While it waits, its actor serves other calls; each yield gets the values of its own calls in their order, or the exception of the first that failed, raised at that place; the call returns what the method, executed as written, gives to Return. Between two waits the method is not interrupted by other methods of its actor. Actors that wait for each other only with yield never deadlock, in whatever pattern they call each other, and with methods that also await other actors (holding their own) there is no deadlock if these awaits go to lower levels of some layering of the actors; if no tree of calls is infinite, every call gets its outcome under every schedule.", "quantifier": "every set of actors and methods (any code between the waits, any results, any exceptions), every pattern of calls, every order in which requests arrive, locks are handed over and results come back", "why_tests_cant": "deadlocks depend on the pattern of calls and the interleaving of any number of tasks on any number of actors; termination is about all schedules", "anchors": ["python/xoscar/core.pyx: _BaseActor._run_actor_async_generator, __on_receive__, _handle_actor_result, __pyx_actor_method_wrapper"]}
{"id": "C71", "title": "cancelling a call cancels everything it waits for, and nothing goes on behind its back", "statement": "If a call is cancelled while its method waits for calls to other actors (await, yield, return), each of these calls is cancelled too, and so on down the tree; the cancelled call ends only when they have ended; a call that was cancelled before it got its actor never runs; a method that does not catch asyncio.CancelledError ends with it; a method that has started sees the cancellation and is executed to its end.", "quantifier": "all methods and trees of calls, all points at which cancellations arrive, all interleavings", "why_tests_cant": "the tree of calls, the point each call has reached and the order in which requests to cancel, results and locks arrive are unbounded; the refuting schedules need a cancellation within a particular await", "anchors": ["python/xoscar/backends/context.py: _wait, send, cancel", "python/xoscar/core.pyx: _handle_actor_result, _run_actor_async_generator, __on_receive__", "python/xoscar/backends/pool.py: cancel"]}
{"id": "C72", "title": "the UCX settings of a pool take effect, with the documented precedence, and leave the process environment alone", "statement": "When a UCX server is created or a UCX channel is opened with the setting 'ucx', UCX works, for each of its options, with the value of the variable UCX_<NAME> of the process environment if there is one, else with what the flags (tcp, nvlink, infiniband, rdmacm, cuda-copy) choose, else with the entry of 'environment' of that name (some-name is UCX_SOME_NAME, the last entry counts). UCX is initialised once per process, a failed attempt is repeated by the next, a CUDA context is made first exactly if the settings need one, and the environment of the process is the same before and after.", "quantifier": "all settings, process environments and histories of initialisations (successful or failing), changes of the environment and resets", "why_tests_cant": "the settings are combined with the environment of the machine, and UCX needs its hardware: a unit test sees neither what the library reads nor other combinations", "anchors": ["python/xoscar/backends/communication/ucx.py: UCXInitializer._get_options, UCXInitializer.init, UCXInitializer.reset"]}
{"id": "C73", "title": "GPU queries describe the devices visible to the process", "statement": "The device count is the number of devices CUDA shows the process (CUDA_VISIBLE_DEVICES); the information about the i-th device is about the i-th visible device and a number that names no visible device is refused; the process is told it has a CUDA context exactly if it uses a GPU or a slice of one, and the first such is described; index and UUID reported together belong to the same GPU; the UCX transport warns exactly if the context is not on the first visible device. No question changes the answer to another.", "quantifier": "all machines (GPUs, their split into slices, the processes that use them, the order of enumeration), values of the variable, processes and sequences of questions", "why_tests_cant": "the answers depend on the hardware, the drivers and the environment; a test machine has one configuration, if it has a GPU at all", "anchors": ["python/xoscar/nvutils.py: get_device_count, get_device_info, get_index_and_uuid, get_compute_running_processes, get_cuda_context", "python/xoscar/backends/communication/ucx.py: UCXInitializer.init"]}
{"id": "C74", "title": "Asynchronous files and events behave like the synchronous ones", "statement": "Whatever tasks do at the same time with asynchronous files, each file is as if the operations on it had been executed one after the other, every call gets exactly one answer and it is that of its operation at its place in this sequence; operations that are awaited in turn take effect in the order of the program; async for yields the lines of the file; concurrent readers together get the content, nothing twice; after async with the wrapper refuses operations and touches nothing; a call cancelled before it was started never happens; waiting for an event returns only if it was set since, set releases every wait that has begun, and waiting does not hold up operations on files.", "quantifier": "all numbers of threads of the executor, files, wrappers, events, operations with arbitrary effects, and interleavings of calls, threads, cancellations, set, clear and leaving async with", "why_tests_cant": "the order in which threads of an executor take and finish operations, and when a cancellation arrives, is not under a test's control", "anchors": ["python/xoscar/aio/base.py: _make_delegate_method, _make_proxy_method, AioBase", "python/xoscar/aio/file.py: AioFileObject", "python/xoscar/aio/parallelism.py: AioEvent"]}
{"id": "C75", "title": "Copies made at the same time do not mix", "statement": "Whatever copies run at the same time, when copy_to has returned each target buffer holds the content of its local buffer, provided the other copies into it carry the same content or went over the same channel and were over before; copies write to their targets only; a reference is to the buffer it was made for as long as that exists and to nothing else; what a copy writes to a file arrives in order and completely whatever others write to the same file, and nothing else gets into the file; a copy can always get to its end; after copy_to was cancelled it sends nothing more.", "quantifier": "all numbers of copies, channels, buffers, files and references, all block sizes, and all interleavings of beginning, sending, receiving, writing, replying, cancelling and objects vanishing", "why_tests_cant": "the interleaving of the messages of several copies, and when objects are collected or copies cancelled, is not under a test's control", "anchors": ["python/xoscar/context.pyx: copy_to, buffer_ref, file_object_ref", "python/xoscar/core.pyx: BufferRef, FileObjectRef", "python/xoscar/backends/context.py: _copy_to", "python/xoscar/backends/pool.py: handle_copy_to_buffers_message, handle_copy_to_fileobjs_message"]}
{"id": "C76", "title": "Delayed calls are made once, in time and in order", "statement": "tell_delay hands the call over at most once, not before its delay is over and, once the loop has got through what was ready, not after the loop first has nothing to do a delay later; what is handed over is the call's arguments as they are at that moment, to its actor; of two calls the one made first is begun first when its delay is shorter or both have none, and calls on actors of this pool reach them in the order in which they are begun; the task's outcome has its reason, a failure of a call to another pool is logged, and a refused connection is ignored if so asked; a call cancelled before it began is never made; every call can come to its end.", "quantifier": "all numbers of calls on actors of this pool and of others, all delays and clock resolutions, and all interleavings of calls, turns of tasks, timers, the passing of time, messages written or failed, cancelling, actors that come and go and arguments that change", "why_tests_cant": "the order of timers, the moment of a cancellation or of a failing connection and the interleaving with other tasks are not under a test's control; there are no tests of delayed calls that run for long enough to see them", "anchors": ["python/xoscar/core.pyx: ActorRefMethod.tell_delay, LocalActorRefMethod.tell_delay, LocalActorRefMethod.tell"]}
{"id": "C77", "title": "The debug mode's reminders of slow calls come in time and stop", "statement": "With a timeout of z > 0 seconds for calls, messages or locks in the debug options, a call to another pool, the processing of a message, or the holding of an actor's lock that lasts is reported after z, 3z, 6z, 10z, ... seconds: never before, on a loop that is never late exactly then, and otherwise as soon as the loop gets to it, naming a duration that has really passed; it is never reported after its end, so not at all if it ends within its timeout, nor if the option is None, 0 or negative or debugging was off when it began. Options change nothing but what is logged, switching debugging off ends the reminders, and DEBUG_OSCAR sets what it says.", "quantifier": "all numbers of calls, messages and lock holders that overlap in any way, all options and changes of them at any time, all clock resolutions, and all interleavings of their beginnings and ends, turns of the tasks that remind, and the passing of time; all values of DEBUG_OSCAR", "why_tests_cant": "the reminders are separate tasks whose turns fall anywhere between the beginning and the end of a call; tests only look for one message in a log after a fixed sleep", "anchors": ["python/xoscar/debug.py: debug_async_timeout, _log_timeout, set_debug_options, _reload_debug_opts_from_env, DebugOptions", "python/xoscar/backends/context.py: IndigenActorContext.send", "python/xoscar/backends/pool.py: process_message", "python/xoscar/core.pyx: __on_receive__, _run_actor_async_generator"]}
{"id": "C78", "title": "Several consumers of one remote generator share its items", "statement": "Calls for the next item of one remote generator, from any number of consumers at once, get its items in order and each exactly once; then one call gets the end or the error, and the generator is released; later calls are told that there is no such iterator. A consumer that gives up a call costs at most the item of that call, and nobody is told that the iteration has ended while there are items. Every call can come to its end.", "quantifier": "all generators (items, end or error, plain or asynchronous), actors with and without a lock, all numbers of calls and all interleavings of their steps, with calls given up at any moment", "why_tests_cant": "which call is in the generator when another one comes, or is cancelled, is up to threads and the loop; tests iterate with one consumer that never gives up", "anchors": ["python/xoscar/api.py: AsyncActorMixin.__xoscar_next__, __xoscar_destroy_generator__, IteratorWrapper.__anext__", "python/xoscar/core.pyx: _StatelessActor"]}
{"id": "C79", "title": "MLX arrays keep their content over the wire", "statement": "An MLX array that is sent arrives with the shape, the dtype and the items it had, however it lies in memory. What arrives is never misread: its shape and dtype are the sender's, and a buffer of the wrong size or format is refused.", "quantifier": "all arrays of MLX: every dtype, shape and strides (transposed, broadcast, reversed, empty, of no dimension)", "why_tests_cant": "whether the content survives depends on the dtype, the shape and the strides together; the tests send a few contiguous and transposed arrays, and only where MLX is installed", "anchors": ["python/xoscar/serialization/mlx.py: MLXSerislizer.serial, deserial"]}
{"id": "C80", "title": "An address is served by the backend of its scheme", "statement": "Every call and every new pool of an address goes to the backend that is registered for the address's scheme (the default one if it has none; letter case does not matter), whatever was called before; an unregistered scheme is a KeyError and no address a ValueError. A cluster setup tells every node, with its resources, to the driver of its scheme exactly once and in order, and never to another one.", "quantifier": "all sets of registered backends (later ones replacing earlier ones), all addresses, all histories of calls, pools and cluster setups", "why_tests_cant": "which backend answers depends on a cache that is filled by earlier calls; the tests use one or two schemes and a fresh process", "anchors": ["python/xoscar/backend.py: register_backend, get_backend", "python/xoscar/api.py: create_actor_pool, setup_cluster", "python/xoscar/context.pyx: ClientActorContext._get_backend_context"]}
{"id": "C81", "title": "Ids that are made up do not repeat", "statement": "An id that is made up, for an actor created without a uid, a message, a shared buffer or file, is never given out twice, by the same process or by another one.", "quantifier": "all histories of processes that start, fork, become sub pools, use or seed Python's random and make ids, in any order", "why_tests_cant": "a repetition shows only when two processes happen to have the same generator state; tests run in one process tree and never seed or fork in between", "anchors": ["python/xoscar/_utils.pyx: reset_id_random_seed, new_random_id, new_actor_id", "python/xoscar/backends/indigen/pool.py: MainActorPool._start_sub_pool"]}
