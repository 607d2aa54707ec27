STATUS = {
'C04': ('proved', 'all message sequences and all cuttings of the byte stream'),
'C05': ('proved', ''),
'C07': ('proved', 'every history of calls, replies, cancellations and failures on one connection'),
'C08': ('partial', 'proved for histories in which no waiting call was cancelled and no undeserializable reply is for an already failed call; the full claim is false of the code (C08_connection_loss_refuted, C08_waits_forever): core.py 115-138 calls set_exception on done futures, which kills the listener'),
'C09': ('proved', 'every interleaving of requests, user coroutines and channel failures in one pool (create/has/destroy/actor_ref/send/tell/cancel requests)'),
'C10': ('proved', 'lock of a stateful actor, including the implementation of asyncio.Lock'),
'C11': ('proved', ''),
'C12': ('partial', 'proved for at most one coroutine or coroutines forming a prefix of the tuple; otherwise the code raises (C12_otherwise_fails), core.pyx 444-446 indexes tasks by tuple position'),
'C14': ('partial', 'proved for histories without failing __post_create__ and without overlapping create/destroy of one uid; the full claim is false of the code (C14_registry_refuted, C14_overlap_refuted)'),
'C45': ('proved', 'server side in PoolProps, client side (_wait) in WaitProps'),
'C16': ('proved', 'all configurations reachable by any add/remove/reset history in which every pool has an external address'),
'C20': ('partial', 'proved for legal histories; false when a pool with two external addresses is removed (C20_config_refuted) and for the second move of a pool whose internal address is its external address (C20_second_move_refuted)'),
'C21': ('partial', 'indexes of one process differ, and those of processes with odd pids; false in general (C21_unique_refuted): pid << 16 + idx is pid << (16 + idx)'),
'C18': ('partial', 'precedence proved for all configurations; the chain is returned exactly when no loop of hops is reached; false otherwise (C18_terminates_refuted: get_proxies never returns)'),
'C19': ('partial', 'proved for histories in which the configuration does not change while a get_client call is in progress; false otherwise (C19_stale_client_refuted)'),
'C15': ('partial', 'proved for calm histories (operations on different uids overlap freely); the full claim is false: failing __pre_destroy__, failed direct creation, one uid in two pools, appended sub pools (C15_*_refuted)'),
'C17': ('partial', 'proved for histories without two creations in progress at one address and without lost connections; the full claim is false (C17_sharing_refuted, C17_lost_slot_refuted)'),
'C38': ('partial', 'proved when no creation is in progress at the address and the directory is not changed during recovery; false otherwise (C38_placeholder_refuted, C38_interrupted_refuted)'),
'C01': ('proved', 'for every value that denotes a finite tree of data, and every leaf serializer that is a round trip on its own'),
'C02': ('partial', 'proved for graphs without cycles, and for graphs with cycles through lists and dict values when no empty dict is held twice; the identity of empty dicts is lost, [e, e, x] with x = [x] comes back wrong and x = [(x,)] raises (C02_sharing_refuted, Demo.clash_out, Demo.in_tuple_out)'),
'C03': ('proved', 'for all thresholds and all finite object graphs: same header tree and buffers'),
'C22': ('partial', 'proved when the remote buffers exist, are different and have the sizes of the local ones; false otherwise: error replies are ignored (C22_silent_failure_refuted)'),
'C23': ('partial', 'proved when no proper prefix of the buffers fills whole blocks exactly; false otherwise, without any bound (C23_unbounded_refuted)'),
'C24': ('partial', 'proved when the remote files exist; false otherwise: error replies are ignored (C24_silent_failure_refuted)'),
'C06': ('proved', 'All thirteen classes, all attributes, forwards of any depth. Composition with the object-graph serializer (C01) and framing (C04) is by their identity on the header tuple and the sub-components. A LocalActorRef comes back as an ActorRef with the same address, uid and proxies.'),
'C25': ('proved', 'Any history of calls, completions, invalidate, cache_clear, close, open; maxsize None or any natural number. The answer of the next call is a function of the visible history.'),
'C26': ('partial', 'Proved for computations that raise; refuted for computations that are cancelled: fut._exception is None for a cancelled future, so the CancelledError is answered from the cache (C26_cancelled_refuted).'),
'C27': ('partial', 'Proved when no ancestor was registered between a lookup of the type and now (without an unregister after it) and classes registered by import path are not touched otherwise. Refuted in general: register does not clear the inherited-handler cache; pending path registrations replace later ones and survive unregister.'),
'C13': ('proved', 'Sync and async methods, with or without batch implementation, any number of calls with any mix of keyword arguments; failing calls: the answer is the error of one of them. Beyond the claim: for a wrapper kept by the caller inside the actor the same is proved only with a batch function or without NotImplementedError, and refuted otherwise (C13_held_wrapper_refuted).'),
'C28': ('partial', 'Exact behaviour proved for any history of creations, nexts, transfers, drops of any number of wrappers. Refuted: an error whose text contains "StopIteration" (e.g. "generator raised StopIteration") ends the iteration silently; a next after the end raises instead of ending again; a wrapper lost on the way leaks the generator.'),
'C29': ('proved', 'The failure is a ZeroDivisionError, not the SystemError the code intends (that statement is unreachable). Collisions between processes calling at the same time are outside the model: what the system reports is an arbitrary list per call.'),
'C30': ('partial', 'First decisive attempt decides, attempts bounded by max_retries, synchronous variant raises the last failure: proved. Refuted: the asynchronous variant returns None when the attempts are exhausted; the synchronous one with max_retries=0 fails on its own assertion.'),
'C41': ('partial', 'Result determined for every text (floats as exact rationals). Refuted part: only the first letter of a suffix is checked, so "10 mangoes" is 10 MiB.'),
'C44': ('proved', 'For all addresses [scheme://]host:port with a name, IPv4 or unbracketed hexadecimal IPv6 host. Bracketed IPv6 hosts, which the transports do not support, make the test raise ValueError (example).'),
'C36': ('proved', 'int64 overflow excluded by hypothesis for the running totals; get of a missing key / add on non-number closes the connection; requests during which a send failed may be partly applied'),
'C37': ('partial', 'proved for histories in which no send fails, clients send nothing while their wait is open and no compare_set creates a key; in each of these three cases the code violates the property (refuted: hang after a creating compare_set, hang/early wake-up after a failed send to a dead waiter, early wake-up after a timed-out wait)'),
'C48': ('partial', 'proved while clients are patient; refuted for timed-out waits: the late STOP_WAITING byte is read as READY by check, as the answer of the next wait, or as the first byte of the next number (an add returns 1280 instead of 5)'),
'C49': ('partial', 'notifications are exact in every history without failed sends; undisturbed only while all watchers stay connected; refuted: a departed watcher makes later updates fail, and a reused descriptor receives foreign notifications'),
'C31': ('partial', 'Proved: a recorder calls back once per complete window with the order statistic that the repository test documents (k-th smallest, k = window/100, /20, /10). Refuted: the usual meaning of P99 (99 percent of the values do not exceed it), and record_time_cost_percentile, which builds new recorders at each use, never calls back.'),
'C46': ('partial', 'Proved: with the console backend, and with either backend when (normalised) names differ and metrics are not shut down, every connected metric reports as specified, and a histogram counts every value exactly once. Refuted: prometheus metrics go silent after re-initialisation or with a name differing only in dot/colon; a counter with several tag sets exports totals over all tags.'),
'C32': ('partial', 'Proved: the nine slowest calls are always listed (distinct labels), all of up to ten, and the ten slowest when the last slow call is among them; call counts exact; per-task isolation. Refuted: heapreplace drops a slow call for a faster one; equal labels keep the faster duration.'),
'C33': ('partial', 'Proved: exact for awaited calls to other pools and tells; no false report unless local tells or background tasks occur. Refuted: cycles through local references (same pool) are never reported; a yield hides all callers further up; a method started by a local tell is reported although the teller does not wait.'),
'C34': ('partial', 'Proved: FIFO, exactly once, no receiver sleeps on a message (asyncio.Queue modelled with cancellation), send and recv raise after close, nothing accepted after close. Refuted: a receive already waiting when the channel is closed never ends unless it is cancelled.'),
'C35': ('proved', 'sha1 is a parameter: the theorems assume 40-character digests and no collision among the digest inputs of the lists actually asked for (stated as hypotheses). Creation of the native gloo/nccl group is one step that succeeds or raises.'),
'C39': ('proved', 'Objects are the bytes of their pickle; memory is sequentially consistent, bytes of one slice assignment are written and read in any order. pickle itself is not modelled.'),
'C40': ('proved', 'All non-object dtypes of positive item size; the dtype description itself (including reordered structured fields) is not modelled, only the item size. numpy functions modelled from its C source.'),
'C42': ('proved', 'Equality iff same address and uid, equivalence, hash, survival of serialization, and the argument forms of actor_ref; closed under the global context.'),
'C50': ('partial', 'Proved: references of callers elsewhere, and local references whose object has been reclaimed, call the current actor or fail with ActorNotExist. Refuted (C50_lingering_actor_refuted): a local reference keeps calling a destroyed actor while its object lingers (core.pyx LocalActorRefMethod._get_referent follows the weak reference without looking into the pool).'),
'C43': ('proved', 'Arguments of create_actor_pool: wrong lengths refused; otherwise layout exactly as asked, indexes and internal addresses distinct within the configuration.'),
'C51': ('partial', 'Proved within one process, the exact condition for a collision of two processes, and odd pids. Refuted (C51_processes_collide_refuted): pid << 16 + idx parses as pid << (16 + idx), so pid 8484 with counter 0 and pid 4242 with counter 1 get the same unix socket path.'),
'C47': ('partial', 'Proved for all lists, variables, environments and expression trees: whatever the evaluator answers is the unique value of a relational big-step semantics of the marker (with words, versions and sm_NN read as documented); filter_requirements returns exactly, in order, what is decided for each requirement; it answers whenever every and/or operand has a value; string variables of the basic plane read back as themselves; substitution replaces exactly the placeholders when no formatted value contains #. Refuted: no short circuit (has_cuda and cuda_version >= "12.1" raises TypeError without CUDA), a value that contains #b# is substituted again, characters beyond U+FFFF come back as two surrogates, extras are lost under a standard marker. packaging and ast.parse are parameters.'),
'C52': ('partial', 'Proved: a CPU tensor that is accepted arrives unchanged (all views), with the exact condition for being accepted; a CUDA tensor arrives unchanged if it starts at the beginning of its storage or is not contiguous. Refuted: a contiguous CUDA slice (x[2:]) arrives as the first elements of x because storage_offset is dropped (torch.py 87-98, 155-163); a 0-dimensional bfloat16 tensor (or one requiring grad) cannot be sent at all.'),
'C53': ('proved', 'cupy: for any dense copy function (cupy.array(copy=True) keeps the axis order, so it is a hypothesis about that function). CSR: for any serialize/deserialize pair that is a round trip.'),
'C54': ('proved', 'over arbitrary answers of the operating system; multiSet is not atomic when cut (stated in the theorem)'),
'C55': ('partial', "False in general (C55_no_worker_left_refuted, C55_failed_worker_refuted: a failed creation leaves the workers that did start running, because `error` in wait_sub_pools_ready is never set and create does not clean up; C55_stop_while_recovering_refuted: stop() during a recovery leaves the restarted worker; C55_removed_stays_removed_refuted: a worker removed while the monitor restarts it is listed again). Proved: the survivors of stop() are only workers that were being started or removed when it was called or started later; a stop in peace leaves nobody; while running each living worker is accounted for; leftovers stay."),
'C56': ('partial', "Proved: a plain installation serves all requirements; with skip_installed each named requirement is met (and served with all dependencies when the system does not meet it) if it comes from an index, no system package is on the path twice and none is shadowed by another version in the environment; what the system provides is left to it. Refuted: an older version in the environment shadows the system version that was checked (C56_shadowed_refuted); extras of installed packages are ignored; a new dependency version breaks a required system package; VCS urls are installed without dependencies; `pkg @ url` is not installed at all; with two copies on the path the wrong one is checked; the dry run ignores index_url."),
'C57': ('partial', "Proved: outcomes are truthful; a time-out is never held up by the call; the call is asked to cancel exactly when wait_for times out; wait_for ends when the call ends unless the call's exception is false as a truth value. Refuted: cancelling the caller of wait_for leaves the call running (C57_cancel_passes_on_refuted; only TimeoutError is caught in api.py 209); an exception with a false truth value makes wait_for hang without a time-out (line 200 tests `elif f.exception()`)."),
'C58': ('partial', 'Proved: an exception whose class can be pickled, rebuilt and instantiated bare arrives as its class, labelled once, with its args and its transparent attributes (C58_arrives_partial); the text arrives even for unpicklable ones (C58_text_arrives_partial); cancellations stay cancellations (C58_cancelled). Refuted: a constructor with other arguments makes the caller get a TypeError with nothing of the original (C58_lost_error_refuted), so does a __new__ that wants arguments (C58_picky_class_refuted); C fields such as errno are None at the caller (C58_native_fields_refuted); attributes that override a class default have the default (C58_class_default_refuted); attributes called address or pid are replaced (C58_address_refuted).'),
'C59': ('partial', 'Proved for C-contiguous arrays of one supported dtype with enough room: reduce, allreduce, gather, allgather, alltoall, reduce_scatter, broadcast (C59_allreduce, ...). Refuted: scatter delivers (C59_scatter_content_partial) but passes the total size as the size of every buffer, so that it always writes behind every receive buffer and reads behind the arrays of the root (C59_scatter_overflow_refuted, C59_scatter_refuted), and fails when a member that is not the root passes no list (C59_scatter_empty_list_refuted); strided arrays are sent and filled as if contiguous (C59_strided_send_refuted, C59_strided_recv_refuted); buffers that are too small are overrun (C59_small_buffer_refuted); the bitwise operators fail for integers too (C59_bitwise_refuted). gloo itself is assumed to do what its documentation says.'),
'C60': ('partial', 'Proved: a group other than the world can be created exactly if it consists of the first ranks of the world (C60_created_iff, C60_id_partial), because group ranks are used as world ranks; refuted for all others (C60_create_refuted). Proved: gather, scatter and alltoall of a group with rows of equal length. Refuted: a flat receive buffer passes the check of gather but does not work (C60_flat_buffer_refuted).'),
'C61': ('partial', 'Delivery, all or nothing, order per task proved for all interleavings (end to end: objects, serializer, thread, frames, pieces, receiver). Call order across tasks and one-moment snapshots hold for objects within the spawn threshold only: larger ones are finished by a thread, so that later messages overtake them and what arrives may show a state the objects never had (refuted).'),
'C62': ('partial', 'No overtaking, at most once, one at a time, nothing forgotten: proved for all interleavings and cancellations, over channels and local references, and through any number of proxies when no message of the task is large. Refuted: (1) through a proxy a message of more than 100 objects is serialised again in a thread and overtaken by a later small one of the same task; (2) a local tell that is not awaited is overtaken by a later call. (3) a call of a generator method is overtaken by any call that waits behind it, because it asks for the lock a second time before its code starts (C62_generators_refuted). Methods marked no_lock may overtake by design.'),
'C63': ('partial', 'proved for calls that are not cancelled between two of their packets and items without empty buffers whose copies name registered buffers of the right size; refuted otherwise: an empty buffer is sent but never received and breaks the channel (ucx.py 274-275); a cancelled send leaves half a message, and a message nobody sent can be delivered; a copy to an unknown buffer leaves raw data to be read as messages; calls waiting for the lock end with AttributeError after an abort'),
'C64': ('partial', 'Proved for all interleavings: a wait called when the death is known returns only after a new process is up, and within two rounds unless the restart fails or the pool is removed; without auto_recover it returns at once; on_process_down only for ended processes, and again for the same one only after a failed start; a noticed death is reported and replaced within two rounds; rounds never block. Refuted by the code: pools appended to a main pool created with n_process=0 are never monitored and waits for them hang; waits for unknown addresses hang; a wait issued before asyncio notices the death returns at once; a failed replay makes the wait return with the actors missing; without auto_recover (or after failed starts) on_process_down is repeated every half second; pools removed on purpose are reported lost or come back.'),
'C65': ('proved', 'For all methods, schedules, losses, crashes, and restarts of the actor with its process (each life of the actor starts from the initial state; a call is executed in one life only). Not covered: methods without the lock, generators and awaitables that run after the lock is released.'),
'C66': ('partial', 'Proved: routes to running pools and announced workers, and to addresses no pool ever had. Refuted (bugs): a worker removed with remove_sub_pool stays in the routing table, even after the pool stops, because the configuration and the router share one dictionary (C66_removed_worker_refuted); the default pool of create_actor changes when the first pool appends or removes a worker; proxies of stopped pools remain in use; an append that ends after stop brings the routes back; a second stop() removes the routes of a new pool on the same address.'),
'C67': ('partial', 'Proved: what the main pool reports in every history (members and appends that did not succeed), agreement of all workers when nothing is under way if nothing failed and either messages do not overtake each other or operations are made one at a time, and that everything can finish. Refuted (bugs): a failed append_sub_pool leaves host:0 in the configuration for ever, and while an append is under way host:0 is there too, so that create_actor with Random, RandomSubPool or IdleLabel may choose it; each sync drops the client cache, so the next one uses a new connection and may be overtaken by the older one; a worker restarted during an append never learns of the new worker.'),
'C68': ('partial', 'Proved: no worker is ended for this reason while the main process lives; with the parent-death signal a worker that got through preexec_fn ends with the main process; otherwise a worker whose checks work is gone when the main process number has been free for more than ten seconds, and a worker that starts later ends at its first check. Refuted: a main process that ends between fork and prctl (its parent not waiting for it) leaves a worker for ever (the code does not compare getppid after prctl); without the signal an unreaped main process, or one whose number is reused before the next check, keeps its workers alive for ever.'),

'C69': ('partial', 'Proved: deserialize always ends, with the first exception rewritten by the enclosing components; for a message the exception is DeserializeMessageFailed with the id of that message and the cause raised by a part (C69_deserialize_outcome, C69_failure_names_the_message); reasons other than ServerClosed are true; if all arguments can be loaded by the pool, calls fail only for their own reasons; a call whose argument cannot be transferred is never executed; at most one outcome per call; no call is left waiting. Refuted (C69_refuted): an argument the pool cannot load closes the whole connection (pool.py on_new_channel catches only EOFError/ConnectionError), so its caller gets ServerClosed without the reason, and every other call in flight on that connection fails with ServerClosed although it may be executed.'),
'C70': ('proved', 'For all methods, patterns of calls, schedules and cancellations (C71). Without losses of connections (C65); tuples in which only some items are awaitable are C12. Demo shows that awaiting with the lock held can deadlock if the layering is not kept.'),
'C71': ('partial', 'Proved for all trees and schedules: requests to cancel are passed on and arrive; a call cancelled before it got the lock never runs (any more). Proved with a restriction, and refuted without it: no call outlives its caller, unless the caller is cancelled while it still awaits the sending of the request (context.py 254: outside _wait) or is cancelled a second time while it waits for its calls to be cancelled; a cancelled call whose method does not catch CancelledError ends with it, if it waits for one call at a time (with several, the exception of one that failed before replaces the cancellation, core.pyx 444-452, and a method that handles this exception goes on); a started method is executed to its end, if it has no yield (a generator cancelled while it waits for the lock after a yield is dropped, its except/finally code is not executed under the lock, core.pyx 471). Not in the model: CancelMessage is sent without proxy_addresses, so behind a proxy it may fail or overtake the call.'),
'C72': ('partial', 'refuted: the options that the flags choose are not passed to ucp.init() (ucx.py 182) and the entries of "environment" only reach a plain dict bound to os.environ (176-179), so UCX sees neither (C72_settings_take_effect_refuted, C72_entries_take_effect_refuted). Proved for every history: only variables of the process environment count and they win as documented; what Python code sees in os.environ during the initialisation; environment restored; initialised once; failure repeated; CUDA context exactly when the documented settings need one.'),

'C73': ('partial', 'refuted in full: an entry that names no GPU hides the later ones from CUDA but is counted (C73_count_refuted); with a UUID in CUDA_VISIBLE_DEVICES every get_device_info of a visible device raises ValueError (C73_info_uuid_refuted); after a change of the variable the index of another device is reported (C73_changed_variable_refuted); with CUDA\'s default order the UCX transport warns about a correct context (C73_warning_refuted); get_cuda_context fails if the number of processes more than doubled during the query (C73_crowded_device_refuted). Proved for the other cases and for every sequence of queries.'),
'C74': ('partial', 'proved: linearisability, program order when awaited in turn or with one thread, lines, shared reading, after async with, cancelled in time, wait after set, set releases begun waits, progress. Refuted in full: un-awaited operations can take effect in another order with two threads (C74_two_threads_refuted); a call cancelled while a thread executes it still takes effect although its caller got CancelledError (C74_cancelled_too_late_refuted); waits for events occupy the threads of the executor and can hold up all files for ever, even when the waiting tasks are cancelled (C74_waits_hold_up_files_refuted); a wait that no thread has begun misses a set followed by clear (C74_set_then_clear_refuted)'),
'C75': ('partial', 'Proved for all interleavings; refuted: two simultaneous copies with different contents into one buffer or one file are mixed; the message under way of a cancelled copy is still written, in the middle of a later copy into the same file, or, over another channel, undoing a later copy into the same buffer.'),
'C76': ('partial', 'Proved: at most once, never taken back, not early, in time when the loop is idle, content and actor of what is handed over, order (the timer due first is begun first, calls without delay in order of call; local calls arrive as begun), reasons of outcomes, logging, cancelling before begun, every call can finish. Refuted: order of equal delays (heapq), arguments are those of the moment of sending and not of calling, a task may say cancelled although the call was delivered, a call without delay= fails silently with TypeError in its task. Missing: what the network does after sending (C07-C09), what the actor does (C10-C13).'),
'C33': ('partial', 'Proved: exact for awaited calls and tells through references that are not local; with the detection on from the start of the process no reference is local, so it is exact for these, actors of the same pool included (C33_exact_from_the_start_partial), and without background tasks nothing but cycles is reported. Refuted: cycles through local references (same pool, references made before set_debug_options switched the detection on) are never reported; a yield hides all callers further up; a method started by a local tell is reported although the teller does not wait.'),
'C77': ('partial', 'Proved for all interleavings: no report before its time, none after the end, reports as soon as the loop comes to rest, exactly z, 3z, 6z, ... on a loop that is never late, none when not asked for, DEBUG_OSCAR. Refuted: reminders of calls under way go on after debugging is switched off; an option that is not a number (e.g. a string in DEBUG_OSCAR) makes every call fail with TypeError (C77_only_logs_partial: exactly then). Within a block nothing else of the debug mode is modelled here (cycle detection: C33).'),
'C78': ('partial', 'Proved for all interleavings: nothing is given out twice, out of order or invented; exact on an Actor if only calls that wait for the lock are given up, and on a StatelessActor if calls do not overlap; released after the end; every call can end; a given-up call on a plain generator costs at most one item. Refuted: two calls at once on a StatelessActor end the iteration for all; giving up a call (e.g. wait_for with a timeout) on an async generator loses all the rest, and the next call is told that the iteration has ended; on a plain generator, the call after a given-up one can find its thread still in the generator, which ends the iteration for all, although the actor has a lock.'),
'C79': ('partial', "Proved: an array of any shape and strides keeps shape, dtype and items exactly if its dtype's name is an attribute of mlx.core, so for every dtype but bool; what arrives is never misread. Refuted: an array of bool (str of its dtype ends in bool, the attribute is bool_) fails on arrival with AttributeError."),
'C80': ('proved', "For backends registered before they are used, as importing the package does. The model takes of urlparse the scheme only. A backend registered again after a call gets new pools while calls go on to the old one (C80_register_late_refuted)."),
'C81': ('partial', "Randomness is idealised (different seeds, draws and positions give different numbers). Proved: no process makes an id twice; no two processes make the same one if no process forks after its first id and users give no two equal seeds to Python's random. Refuted: a process forked after its parent's first id repeats the parent's ids; two programs that both call random.seed with the same number before their first id make the same ids, so creating an actor without a uid fails in the second if the first one's exists on that pool."),
}
