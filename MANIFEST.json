{
 "claims": [
  {
   "property": "C01",
   "status": "proved",
   "theorems": [
    "C01_round_trip"
   ],
   "note": "for every value that denotes a finite tree of data, and every leaf serializer that is a round trip on its own"
  },
  {
   "property": "C02",
   "status": "partial",
   "theorems": [
    "C02_no_placeholder_stuck_partial",
    "C02_sharing_partial",
    "C02_no_frozen_cycle_partial",
    "C02_sharing_refuted"
   ],
   "note": "proved for graphs without cycles, and for graphs with cycles through lists and dict values when no empty dict is held twice; the identity of empty dicts is lost, [e, e, x] with x = [x] comes back wrong and x = [(x,)] raises (C02_sharing_refuted, Demo.clash_out, Demo.in_tuple_out)"
  },
  {
   "property": "C03",
   "status": "proved",
   "theorems": [
    "C03_spawn_same"
   ],
   "note": "for all thresholds and all finite object graphs: same header tree and buffers"
  },
  {
   "property": "C04",
   "status": "proved",
   "theorems": [
    "C04_stream_roundtrip",
    "C04_send_defined"
   ],
   "note": "all message sequences and all cuttings of the byte stream"
  },
  {
   "property": "C05",
   "status": "proved",
   "theorems": [
    "C05_truncated_stream",
    "C05_other_version_refused",
    "C05_delivery_accounts_for_bytes"
   ],
   "note": ""
  },
  {
   "property": "C06",
   "status": "proved",
   "theorems": [
    "C06_message_round_trip",
    "C06_wire_form_is_unambiguous",
    "C06_unsendable_is_refused",
    "C06_failure_names_the_message",
    "C06_over_a_channel"
   ],
   "note": "All thirteen classes, all attributes, forwards of any depth. Composition with the object-graph serializer (C01) and framing (C04) is by their identity on the header tuple and the sub-components. A LocalActorRef comes back as an ActorRef with the same address, uid and proxies."
  },
  {
   "property": "C07",
   "status": "proved",
   "theorems": [
    "C07_own_reply",
    "C07_completed_is_final",
    "C07_reply_completes_at_most_one_call",
    "C07_reply_is_delivered"
   ],
   "note": "every history of calls, replies, cancellations and failures on one connection"
  },
  {
   "property": "C08",
   "status": "partial",
   "theorems": [
    "C08_connection_loss_fails_all_partial",
    "C08_failure_is_server_closed_partial",
    "C08_connection_loss_refuted",
    "C08_waits_forever",
    "C08_waits_forever_late_reply"
   ],
   "note": "proved for histories in which no waiting call was cancelled and no undeserializable reply is for an already failed call; the full claim is false of the code (C08_connection_loss_refuted, C08_waits_forever): core.py 115-138 calls set_exception on done futures, which kills the listener"
  },
  {
   "property": "C09",
   "status": "proved",
   "theorems": [
    "C09_answer",
    "C09_at_most_one_answer",
    "C09_finished_is_answered",
    "C09_result_is_outcome",
    "C09_result_is_final"
   ],
   "note": "every interleaving of requests, user coroutines and channel failures in one pool (create/has/destroy/actor_ref/send/tell/cancel requests)"
  },
  {
   "property": "C10",
   "status": "proved",
   "theorems": [
    "C10_mutual_exclusion",
    "C10_body_runs_once",
    "C10_locked_iff_running",
    "C10_no_lock_runs_at_once",
    "C10_no_lock_disturbs_nobody"
   ],
   "note": "lock of a stateful actor, including the implementation of asyncio.Lock"
  },
  {
   "property": "C11",
   "status": "proved",
   "theorems": [
    "C11_arrival_order",
    "C11_no_overtaking",
    "C11_lock_never_lost",
    "C11_next_call_starts"
   ],
   "note": ""
  },
  {
   "property": "C12",
   "status": "partial",
   "theorems": [
    "C12_tuple_partial",
    "C12_async_tuple_partial",
    "C12_otherwise_fails",
    "C12_tuple_refuted",
    "C12_cancelled_raises"
   ],
   "note": "proved for at most one coroutine or coroutines forming a prefix of the tuple; otherwise the code raises (C12_otherwise_fails), core.pyx 444-446 indexes tasks by tuple position"
  },
  {
   "property": "C13",
   "status": "proved",
   "theorems": [
    "C13_batch_gives_single_results",
    "C13_batch_is_answered",
    "C13_single_call",
    "C13_mixed_methods_refused",
    "C13_empty_batch",
    "C13_held_wrapper_partial",
    "C13_held_wrapper_refuted",
    "C13_none_from_batch"
   ],
   "note": "Sync and async methods, with or without batch implementation, any number of calls with any mix of keyword arguments; failing calls: the answer is the error of one of them. Beyond the claim: for a wrapper kept by the caller inside the actor the same is proved only with a batch function or without NotImplementedError, and refuted otherwise (C13_held_wrapper_refuted)."
  },
  {
   "property": "C14",
   "status": "partial",
   "theorems": [
    "C14_create_existing_refused",
    "C14_unknown_actor_refused",
    "C14_registry_partial",
    "C14_registry_refuted",
    "C14_failed_creation_blocks_uid",
    "C14_overlap_refuted"
   ],
   "note": "proved for histories without failing __post_create__ and without overlapping create/destroy of one uid; the full claim is false of the code (C14_registry_refuted, C14_overlap_refuted)"
  },
  {
   "property": "C15",
   "status": "partial",
   "theorems": [
    "C15_directory_partial",
    "C15_one_creation_partial",
    "C15_directory_refuted",
    "C15_failed_creation_refuted",
    "C15_wrong_actor_refuted",
    "C15_appended_pool_refuted"
   ],
   "note": "proved for calm histories (operations on different uids overlap freely); the full claim is false: failing __pre_destroy__, failed direct creation, one uid in two pools, appended sub pools (C15_*_refuted)"
  },
  {
   "property": "C16",
   "status": "proved",
   "theorems": [
    "C16_address_specified",
    "C16_process_index",
    "C16_main_pool",
    "C16_random",
    "C16_random_sub_pool",
    "C16_random_label",
    "C16_idle_label"
   ],
   "note": "all configurations reachable by any add/remove/reset history in which every pool has an external address"
  },
  {
   "property": "C17",
   "status": "partial",
   "theorems": [
    "C17_no_sharing_partial",
    "C17_slot_partial",
    "C17_sharing_refuted",
    "C17_lost_slot_refuted"
   ],
   "note": "proved for histories without two creations in progress at one address and without lost connections; the full claim is false (C17_sharing_refuted, C17_lost_slot_refuted)"
  },
  {
   "property": "C18",
   "status": "partial",
   "theorems": [
    "C18_precedence",
    "C18_never_itself",
    "C18_chain",
    "C18_terminates_iff_partial",
    "C18_hops_bounded",
    "C18_terminates_refuted"
   ],
   "note": "precedence proved for all configurations; the chain is returned exactly when no loop of hops is reached; false otherwise (C18_terminates_refuted: get_proxies never returns)"
  },
  {
   "property": "C19",
   "status": "partial",
   "theorems": [
    "C19_open_and_right_partial",
    "C19_same_client_partial",
    "C19_stale_client_refuted"
   ],
   "note": "proved for histories in which the configuration does not change while a get_client call is in progress; false otherwise (C19_stale_client_refuted)"
  },
  {
   "property": "C20",
   "status": "partial",
   "theorems": [
    "C20_internal_address_partial",
    "C20_process_index_partial",
    "C20_lookups_and_errors_partial",
    "C20_addresses_with_label_partial",
    "C20_config_refuted",
    "C20_second_move_refuted",
    "C20_shared_address_refuted"
   ],
   "note": "proved for legal histories; false when a pool with two external addresses is removed (C20_config_refuted) and for the second move of a pool whose internal address is its external address (C20_second_move_refuted)"
  },
  {
   "property": "C21",
   "status": "partial",
   "theorems": [
    "C21_one_process_partial",
    "C21_collisions",
    "C21_odd_pids_partial",
    "C21_unique_refuted"
   ],
   "note": "indexes of one process differ, and those of processes with odd pids; false in general (C21_unique_refuted): pid << 16 + idx is pid << (16 + idx)"
  },
  {
   "property": "C22",
   "status": "partial",
   "theorems": [
    "C22_copied_partial",
    "C22_nothing_else",
    "C22_checked",
    "C22_silent_failure_refuted"
   ],
   "note": "proved when the remote buffers exist, are different and have the sizes of the local ones; false otherwise: error replies are ignored (C22_silent_failure_refuted)"
  },
  {
   "property": "C23",
   "status": "partial",
   "theorems": [
    "C23_block_size_partial",
    "C23_pieces_partial",
    "C23_unbounded_refuted",
    "C23_block_size_refuted"
   ],
   "note": "proved when no proper prefix of the buffers fills whole blocks exactly; false otherwise, without any bound (C23_unbounded_refuted)"
  },
  {
   "property": "C24",
   "status": "partial",
   "theorems": [
    "C24_files_partial",
    "C24_each_file_partial",
    "C24_unknown_file_reported",
    "C24_message_size",
    "C24_silent_failure_refuted"
   ],
   "note": "proved when the remote files exist; false otherwise: error replies are ignored (C24_silent_failure_refuted)"
  },
  {
   "property": "C25",
   "status": "proved",
   "theorems": [
    "C25_calls_answer_from_history",
    "C25_cache_info",
    "C25_invalidate",
    "C25_held_are_the_last_used",
    "C25_value_is_of_this_key",
    "C25_open"
   ],
   "note": "Any history of calls, completions, invalidate, cache_clear, close, open; maxsize None or any natural number. The answer of the next call is a function of the visible history."
  },
  {
   "property": "C26",
   "status": "partial",
   "theorems": [
    "C26_failed_is_computed_again_partial",
    "C26_cancelled_stays_cached_partial",
    "C26_cancelled_refuted"
   ],
   "note": "Proved for computations that raise; refuted for computations that are cancelled: fut._exception is None for a cancelled future, so the CancelledError is answered from the cache (C26_cancelled_refuted)."
  },
  {
   "property": "C27",
   "status": "partial",
   "theorems": [
    "C27_nearest_ancestor_partial",
    "C27_registered_before_lookups_partial",
    "C27_import_errors",
    "C27_stale_handler_refuted",
    "C27_path_replaces_later_class_refuted",
    "C27_unregister_misses_pending_refuted"
   ],
   "note": "Proved when no ancestor was registered between a lookup of the type and now (without an unregister after it) and classes registered by import path are not touched otherwise. Refuted in general: register does not clear the inherited-handler cache; pending path registrations replace later ones and survive unregister."
  },
  {
   "property": "C28",
   "status": "partial",
   "theorems": [
    "C28_exact_partial",
    "C28_items_in_order_partial",
    "C28_given_up",
    "C28_released_at_the_end",
    "C28_storage_partial",
    "C28_error_ends_silently_refuted",
    "C28_next_after_end_refuted",
    "C28_lost_wrapper_refuted"
   ],
   "note": "Exact behaviour proved for any history of creations, nexts, transfers, drops of any number of wrappers. Refuted: an error whose text contains \"StopIteration\" (e.g. \"generator raised StopIteration\") ends the iteration silently; a next after the end raises instead of ending again; a wrapper lost on the way leaks the generator."
  },
  {
   "property": "C29",
   "status": "proved",
   "theorems": [
    "C29_free_port_or_failure",
    "C29_never_twice",
    "C29_every_free_port_possible"
   ],
   "note": "The failure is a ZeroDivisionError, not the SystemError the code intends (that statement is unreachable). Collisions between processes calling at the same time are outside the model: what the system reports is an arbitrary list per call."
  },
  {
   "property": "C30",
   "status": "partial",
   "theorems": [
    "C30_first_decisive_attempt_decides",
    "C30_sync_exhausted_raises_last",
    "C30_unlimited_diverges",
    "C30_at_most_max_calls",
    "C30_async_exhausted_returns_None_partial",
    "C30_sync_zero_retries_assertion",
    "C30_async_reports_last_failure_refuted"
   ],
   "note": "First decisive attempt decides, attempts bounded by max_retries, synchronous variant raises the last failure: proved. Refuted: the asynchronous variant returns None when the attempts are exhausted; the synchronous one with max_retries=0 fails on its own assertion."
  },
  {
   "property": "C31",
   "status": "partial",
   "theorems": [
    "C31_callbacks_are_order_statistics",
    "C31_illegal_sizes_refused",
    "C31_order_statistic_unique",
    "C31_percentiles",
    "C31_usual_p99_refuted",
    "C31_time_cost_never_reported_refuted",
    "C31_every_argument_served"
   ],
   "note": "Proved: a recorder calls back once per complete window with the order statistic that the repository test documents (k-th smallest, k = window/100, /20, /10). Refuted: the usual meaning of P99 (99 percent of the values do not exceed it), and record_time_cost_percentile, which builds new recorders at each use, never calls back."
  },
  {
   "property": "C32",
   "status": "partial",
   "theorems": [
    "C32_nine_slowest_listed_partial",
    "C32_up_to_ten_listed_partial",
    "C32_ten_slowest_listed_partial",
    "C32_listed_calls_happened",
    "C32_at_most_ten",
    "C32_most_calls",
    "C32_pop_of_unknown_task",
    "C32_fast_call_drops_slow_one_refuted",
    "C32_same_label_keeps_faster_refuted"
   ],
   "note": "Proved: the nine slowest calls are always listed (distinct labels), all of up to ten, and the ten slowest when the last slow call is among them; call counts exact; per-task isolation. Refuted: heapreplace drops a slow call for a faster one; equal labels keep the faster duration."
  },
  {
   "property": "C33",
   "status": "partial",
   "theorems": [
    "C33_reports_are_cycles_partial",
    "C33_remote_calls_exact_partial",
    "C33_tells_not_reported",
    "C33_local_cycle_unreported_refuted",
    "C33_yield_hides_cycle_refuted",
    "C33_local_tell_reported_refuted",
    "C33_on_from_the_start_partial",
    "C33_exact_from_the_start_partial",
    "C33_tell_through_any_reference",
    "C33_switched_on_later_refuted"
   ],
   "note": "Proved: exact for awaited calls and tells through references that are not local; with the detection on from the start of the process no reference is local, so it is exact for these, actors of the same pool included (C33_exact_from_the_start_partial), and without background tasks nothing but cycles is reported. Refuted: cycles through local references (same pool, references made before set_debug_options switched the detection on) are never reported; a yield hides all callers further up; a method started by a local tell is reported although the teller does not wait."
  },
  {
   "property": "C34",
   "status": "partial",
   "theorems": [
    "C34_fifo_exactly_once",
    "C34_no_receiver_sleeps_on_a_message",
    "C34_closed_raises",
    "C34_nothing_accepted_after_close",
    "C34_receive_ends_once",
    "C34_waiting_receive_hangs_at_close_refuted"
   ],
   "note": "Proved: FIFO, exactly once, no receiver sleeps on a message (asyncio.Queue modelled with cancellation), send and recv raise after close, nothing accepted after close. Refuted: a receive already waiting when the channel is closed never ends unless it is cancelled."
  },
  {
   "property": "C35",
   "status": "proved",
   "theorems": [
    "C35_illegal_lists_refused",
    "C35_non_members_get_none",
    "C35_members_get_a_name",
    "C35_rank_and_size",
    "C35_members_agree_on_the_name",
    "C35_distinct_groups_distinct_names",
    "C35_group_ranks_partition"
   ],
   "note": "sha1 is a parameter: the theorems assume 40-character digests and no collision among the digest inputs of the lists actually asked for (stated as hypotheses). Creation of the native gloo/nccl group is one step that succeeds or raises."
  },
  {
   "property": "C36",
   "status": "proved",
   "theorems": [
    "C36_sequential_map",
    "C36_adds_are_running_totals",
    "C36_add_answers_distinct"
   ],
   "note": "int64 overflow excluded by hypothesis for the running totals; get of a missing key / add on non-number closes the connection; requests during which a send failed may be partly applied"
  },
  {
   "property": "C37",
   "status": "partial",
   "theorems": [
    "C37_contents_partial",
    "C37_waits_are_answered_partial",
    "C37_no_stray_answer_partial",
    "C37_compare_set_refuted",
    "C37_dead_waiter_refuted",
    "C37_early_after_failure_refuted",
    "C37_early_after_timeout_refuted"
   ],
   "note": "proved for histories in which no send fails, clients send nothing while their wait is open and no compare_set creates a key; in each of these three cases the code violates the property (refuted: hang after a creating compare_set, hang/early wake-up after a failed send to a dead waiter, early wake-up after a timed-out wait)"
  },
  {
   "property": "C38",
   "status": "partial",
   "theorems": [
    "C38_recovered_partial",
    "C38_not_recovered",
    "C38_placeholder_refuted",
    "C38_interrupted_refuted"
   ],
   "note": "proved when no creation is in progress at the address and the directory is not changed during recovery; false otherwise (C38_placeholder_refuted, C38_interrupted_refuted)"
  },
  {
   "property": "C39",
   "status": "proved",
   "theorems": [
    "C39_never_torn",
    "C39_delivered_once_finished",
    "C39_get_terminates",
    "C39_stays_inside_the_buffer",
    "C39_startup_handover"
   ],
   "note": "Objects are the bytes of their pickle; memory is sequentially consistent, bytes of one slice assignment are written and read in any order. pickle itself is not modelled."
  },
  {
   "property": "C40",
   "status": "proved",
   "theorems": [
    "C40_roundtrip",
    "C40_order_kept",
    "C40_sends_only_the_elements",
    "C40_in_bounds"
   ],
   "note": "All non-object dtypes of positive item size; the dtype description itself (including reordered structured fields) is not modelled, only the item size. numpy functions modelled from its C source."
  },
  {
   "property": "C41",
   "status": "partial",
   "theorems": [
    "C41_number_with_unit",
    "C41_percentage",
    "C41_unknown_first_letter_raises_partial",
    "C41_no_number_raises",
    "C41_numbers_unchanged",
    "C41_unknown_suffixes_raise_refuted"
   ],
   "note": "Result determined for every text (floats as exact rationals). Refuted part: only the first letter of a suffix is checked, so \"10 mangoes\" is 10 MiB."
  },
  {
   "property": "C42",
   "status": "proved",
   "theorems": [
    "C42_equal_iff_same_actor",
    "C42_equality_is_an_equivalence",
    "C42_equal_hash_equally",
    "C42_sending_preserves_equality",
    "C42_argument_forms",
    "C42_argument_forms_more"
   ],
   "note": "Equality iff same address and uid, equivalence, hash, survival of serialization, and the argument forms of actor_ref; closed under the global context."
  },
  {
   "property": "C43",
   "status": "proved",
   "theorems": [
    "C43_wrong_arguments_refused",
    "C43_layout_as_asked",
    "C43_internal_addresses_distinct"
   ],
   "note": "Arguments of create_actor_pool: wrong lengths refused; otherwise layout exactly as asked, indexes and internal addresses distinct within the configuration."
  },
  {
   "property": "C44",
   "status": "proved",
   "theorems": [
    "C44_wildcards_recognised",
    "C44_resolved",
    "C44_obtained_reference",
    "C44_wildcard_pools_not_registered"
   ],
   "note": "For all addresses [scheme://]host:port with a name, IPv4 or unbracketed hexadecimal IPv6 host. Bracketed IPv6 hosts, which the transports do not support, make the test raise ValueError (example)."
  },
  {
   "property": "C45",
   "status": "proved",
   "theorems": [
    "C45_server_cancel",
    "C45_not_cancelled",
    "C45_one_cancel_request",
    "C45_cancel_is_sent",
    "C45_cancelled_once"
   ],
   "note": "server side in PoolProps, client side (_wait) in WaitProps"
  },
  {
   "property": "C46",
   "status": "partial",
   "theorems": [
    "C46_console_reports_partial",
    "C46_distinct_names_reports_partial",
    "C46_unconnected_is_silent",
    "C46_counter_total",
    "C46_histogram_counts_every_value",
    "C46_reinitialised_prometheus_refuted",
    "C46_dot_and_colon_refuted",
    "C46_tagged_counter_refuted"
   ],
   "note": "Proved: with the console backend, and with either backend when (normalised) names differ and metrics are not shut down, every connected metric reports as specified, and a histogram counts every value exactly once. Refuted: prometheus metrics go silent after re-initialisation or with a name differing only in dot/colon; a counter with several tag sets exports totals over all tags."
  },
  {
   "property": "C47",
   "status": "partial",
   "theorems": [
    "C47_string_reads_back_partial",
    "C47_string_reads_back_refuted",
    "C47_literal_partial",
    "C47_substitution_partial",
    "C47_substitution_refuted",
    "C47_marker_meaning",
    "C47_marker_answered_partial",
    "C47_marker_answered_refuted",
    "C47_filter",
    "C47_filter_answers_partial",
    "C47_kept_as_written_refuted",
    "C47_system_package",
    "C47_other_package"
   ],
   "note": "Proved for all lists, variables, environments and expression trees: whatever the evaluator answers is the unique value of a relational big-step semantics of the marker (with words, versions and sm_NN read as documented); filter_requirements returns exactly, in order, what is decided for each requirement; it answers whenever every and/or operand has a value; string variables of the basic plane read back as themselves; substitution replaces exactly the placeholders when no formatted value contains #. Refuted: no short circuit (has_cuda and cuda_version >= \"12.1\" raises TypeError without CUDA), a value that contains #b# is substituted again, characters beyond U+FFFF come back as two surrogates, extras are lost under a standard marker. packaging and ast.parse are parameters."
  },
  {
   "property": "C48",
   "status": "partial",
   "theorems": [
    "C48_own_answer_bytes_partial",
    "C48_quiet_between_calls_partial",
    "C48_own_answer_bytes_refuted",
    "C48_wait_returns_early_refuted",
    "C48_wait_returns_when_answered_partial",
    "C48_answers_in_step_partial",
    "C48_timeout_refuted",
    "C48_impatient_refuted"
   ],
   "note": "proved while clients are patient; refuted for timed-out waits: the late STOP_WAITING byte is read as READY by check, as the answer of the next wait, or as the first byte of the next number (an add returns 1280 instead of 5)"
  },
  {
   "property": "C49",
   "status": "partial",
   "theorems": [
    "C49_watchers_are_notified",
    "C49_no_other_notification",
    "C49_undisturbed_partial",
    "C49_departed_watcher_refuted",
    "C49_foreign_notification_refuted"
   ],
   "note": "notifications are exact in every history without failed sends; undisturbed only while all watchers stay connected; refuted: a departed watcher makes later updates fail, and a reused descriptor receives foreign notifications"
  },
  {
   "property": "C50",
   "status": "partial",
   "theorems": [
    "C50_what_a_pool_holds",
    "C50_remote_references_exact_partial",
    "C50_exact_without_lingering_partial",
    "C50_identity_and_no_false_absence_partial",
    "C50_lingering_actor_refuted"
   ],
   "note": "Proved: references of callers elsewhere, and local references whose object has been reclaimed, call the current actor or fail with ActorNotExist. Refuted (C50_lingering_actor_refuted): a local reference keeps calling a destroyed actor while its object lingers (core.pyx LocalActorRefMethod._get_referent follows the weak reference without looking into the pool)."
  },
  {
   "property": "C51",
   "status": "partial",
   "theorems": [
    "C51_one_process_partial",
    "C51_collision_iff_partial",
    "C51_odd_pids_partial",
    "C51_processes_collide_refuted"
   ],
   "note": "Proved within one process, the exact condition for a collision of two processes, and odd pids. Refuted (C51_processes_collide_refuted): pid << 16 + idx parses as pid << (16 + idx), so pid 8484 with counter 0 and pid 4242 with counter 1 get the same unix socket path."
  },
  {
   "property": "C52",
   "status": "partial",
   "theorems": [
    "C52_cpu",
    "C52_cpu_accepted_partial",
    "C52_cpu_accepted_refuted",
    "C52_cuda_partial",
    "C52_cuda_format_kept",
    "C52_cuda_refuted",
    "C52_in_bounds"
   ],
   "note": "Proved: a CPU tensor that is accepted arrives unchanged (all views), with the exact condition for being accepted; a CUDA tensor arrives unchanged if it starts at the beginning of its storage or is not contiguous. Refuted: a contiguous CUDA slice (x[2:]) arrives as the first elements of x because storage_offset is dropped (torch.py 87-98, 155-163); a 0-dimensional bfloat16 tensor (or one requiring grad) cannot be sent at all."
  },
  {
   "property": "C53",
   "status": "proved",
   "theorems": [
    "C53_cupy",
    "C53_csr"
   ],
   "note": "cupy: for any dense copy function (cupy.array(copy=True) keeps the axis order, so it is a hypothesis about that function). CSR: for any serialize/deserialize pair that is a round trip."
  },
  {
   "property": "C54",
   "status": "proved",
   "theorems": [
    "C54_request_arrives",
    "C54_request_is_handled",
    "C54_cut_request",
    "C54_requests_in_order",
    "C54_reply_arrives",
    "C54_no_early_reply",
    "C54_who_reads",
    "C54_notifications_arrive",
    "C54_keys",
    "C54_user_keys_are_not_the_worker_count"
   ],
   "note": "over arbitrary answers of the operating system; multiSet is not atomic when cut (stated in the theorem)"
  },
  {
   "property": "C55",
   "status": "partial",
   "theorems": [
    "C55_survivors_of_stop_partial",
    "C55_stop_in_peace_partial",
    "C55_accounted_for",
    "C55_left_for_good",
    "C55_removed_stays_removed_partial",
    "C55_created_when_all_serve",
    "C55_listed_when_it_serves",
    "C55_no_worker_left_refuted",
    "C55_stop_while_recovering_refuted",
    "C55_failed_worker_refuted",
    "C55_removed_stays_removed_refuted"
   ],
   "note": "False in general (C55_no_worker_left_refuted, C55_failed_worker_refuted: a failed creation leaves the workers that did start running, because `error` in wait_sub_pools_ready is never set and create does not clean up; C55_stop_while_recovering_refuted: stop() during a recovery leaves the restarted worker; C55_removed_stays_removed_refuted: a worker removed while the monitor restarts it is listed again). Proved: the survivors of stop() are only workers that were being started or removed when it was called or started later; a stop in peace leaves nobody; while running each living worker is accounted for; leftovers stay."
  },
  {
   "property": "C56",
   "status": "partial",
   "theorems": [
    "C56_plain",
    "C56_skip_installed_partial",
    "C56_left_to_the_system",
    "C56_installs_only_news",
    "C56_nothing_to_do",
    "C56_shadowed_refuted",
    "C56_extras_refuted",
    "C56_broken_dependency_refuted",
    "C56_vcs_refuted",
    "C56_url_refuted",
    "C56_two_copies_refuted",
    "C56_index_refuted",
    "C56_requirements_met_refuted"
   ],
   "note": "Proved: a plain installation serves all requirements; with skip_installed each named requirement is met (and served with all dependencies when the system does not meet it) if it comes from an index, no system package is on the path twice and none is shadowed by another version in the environment; what the system provides is left to it. Refuted: an older version in the environment shadows the system version that was checked (C56_shadowed_refuted); extras of installed packages are ignored; a new dependency version breaks a required system package; VCS urls are installed without dependencies; `pkg @ url` is not installed at all; with two copies on the path the wrong one is checked; the dry run ignores index_url."
  },
  {
   "property": "C57",
   "status": "partial",
   "theorems": [
    "C57_truthful",
    "C57_time_up",
    "C57_asked_on_timeout",
    "C57_ends_with_the_call_partial",
    "C57_cancel_passes_on_refuted",
    "C57_ends_with_the_call_refuted"
   ],
   "note": "Proved: outcomes are truthful; a time-out is never held up by the call; the call is asked to cancel exactly when wait_for times out; wait_for ends when the call ends unless the call's exception is false as a truth value. Refuted: cancelling the caller of wait_for leaves the call running (C57_cancel_passes_on_refuted; only TimeoutError is caught in api.py 209); an exception with a false truth value makes wait_for hang without a time-out (line 200 tests `elif f.exception()`)."
  },
  {
   "property": "C58",
   "status": "partial",
   "theorems": [
    "C58_arrives_partial",
    "C58_values_arrive_partial",
    "C58_text_arrives_partial",
    "C58_cancelled",
    "C58_lost_error_refuted",
    "C58_picky_class_refuted",
    "C58_native_fields_refuted",
    "C58_class_default_refuted",
    "C58_address_refuted",
    "C58_faithful_refuted"
   ],
   "note": "Proved: an exception whose class can be pickled, rebuilt and instantiated bare arrives as its class, labelled once, with its args and its transparent attributes (C58_arrives_partial); the text arrives even for unpicklable ones (C58_text_arrives_partial); cancellations stay cancellations (C58_cancelled). Refuted: a constructor with other arguments makes the caller get a TypeError with nothing of the original (C58_lost_error_refuted), so does a __new__ that wants arguments (C58_picky_class_refuted); C fields such as errno are None at the caller (C58_native_fields_refuted); attributes that override a class default have the default (C58_class_default_refuted); attributes called address or pid are replaced (C58_address_refuted)."
  },
  {
   "property": "C59",
   "status": "partial",
   "theorems": [
    "C59_allreduce",
    "C59_reduce",
    "C59_gather",
    "C59_allgather",
    "C59_alltoall",
    "C59_reduce_scatter",
    "C59_broadcast",
    "C59_scatter_content_partial",
    "C59_scatter_overflow_refuted",
    "C59_scatter_refuted",
    "C59_scatter_empty_list_refuted",
    "C59_strided_send_refuted",
    "C59_strided_recv_refuted",
    "C59_small_buffer_refuted",
    "C59_bitwise_refuted",
    "C59_other_types_fail"
   ],
   "note": "Proved for C-contiguous arrays of one supported dtype with enough room: reduce, allreduce, gather, allgather, alltoall, reduce_scatter, broadcast (C59_allreduce, ...). Refuted: scatter delivers (C59_scatter_content_partial) but passes the total size as the size of every buffer, so that it always writes behind every receive buffer and reads behind the arrays of the root (C59_scatter_overflow_refuted, C59_scatter_refuted), and fails when a member that is not the root passes no list (C59_scatter_empty_list_refuted); strided arrays are sent and filled as if contiguous (C59_strided_send_refuted, C59_strided_recv_refuted); buffers that are too small are overrun (C59_small_buffer_refuted); the bitwise operators fail for integers too (C59_bitwise_refuted). gloo itself is assumed to do what its documentation says."
  },
  {
   "property": "C60",
   "status": "partial",
   "theorems": [
    "C60_created_iff",
    "C60_id_partial",
    "C60_create_refuted",
    "C60_alltoall",
    "C60_gather",
    "C60_scatter",
    "C60_flat_buffer_refuted"
   ],
   "note": "Proved: a group other than the world can be created exactly if it consists of the first ranks of the world (C60_created_iff, C60_id_partial), because group ranks are used as world ranks; refuted for all others (C60_create_refuted). Proved: gather, scatter and alltoall of a group with rows of equal length. Refuted: a flat receive buffer passes the check of gather but does not work (C60_flat_buffer_refuted)."
  },
  {
   "property": "C61",
   "status": "partial",
   "theorems": [
    "C61_delivered",
    "C61_graphs",
    "C61_connection_cut",
    "C61_all_or_nothing",
    "C61_task_order",
    "C61_small_at_once",
    "C61_call_order_partial",
    "C61_call_order_refuted",
    "C61_snapshot_refuted"
   ],
   "note": "Delivery, all or nothing, order per task proved for all interleavings (end to end: objects, serializer, thread, frames, pieces, receiver). Call order across tasks and one-moment snapshots hold for objects within the spawn threshold only: larger ones are finished by a thread, so that later messages overtake them and what arrives may show a state the objects never had (refuted)."
  },
  {
   "property": "C62",
   "status": "partial",
   "theorems": [
    "C62_no_overtaking",
    "C62_at_most_once",
    "C62_prefix",
    "C62_one_at_a_time",
    "C62_nothing_forgotten",
    "C62_never_stuck",
    "C62_through_proxies_partial",
    "C62_unawaited_tell_refuted",
    "C62_large_message_refuted",
    "C62_generators_refuted"
   ],
   "note": "No overtaking, at most once, one at a time, nothing forgotten: proved for all interleavings and cancellations, over channels and local references, and through any number of proxies when no message of the task is large. Refuted: (1) through a proxy a message of more than 100 objects is serialised again in a thread and overtaken by a later small one of the same task; (2) a local tell that is not awaited is overtaken by a later call. (3) a call of a generator method is overtaken by any call that waits behind it, because it asks for the lock a second time before its code starts (C62_generators_refuted). Methods marked no_lock may overtake by design."
  },
  {
   "property": "C63",
   "status": "partial",
   "theorems": [
    "C63_delivery_partial",
    "C63_whole_messages_first",
    "C63_reading_early",
    "C63_closed_refuses",
    "C63_calls_can_finish",
    "C63_empty_buffer_refuted",
    "C63_unknown_buffer_refuted",
    "C63_interrupted_send_refuted",
    "C63_closed_error_refuted"
   ],
   "note": "proved for calls that are not cancelled between two of their packets and items without empty buffers whose copies name registered buffers of the right size; refuted otherwise: an empty buffer is sent but never received and breaks the channel (ucx.py 274-275); a cancelled send leaves half a message, and a message nobody sent can be delivered; a copy to an unknown buffer leaves raw data to be read as messages; calls waiting for the lock end with AttributeError after an abort"
  },
  {
   "property": "C64",
   "status": "partial",
   "theorems": [
    "C64_wait_means_new_process_partial",
    "C64_wait_after_loss_partial",
    "C64_wait_returns_in_two_rounds",
    "C64_wait_without_recovery_returns",
    "C64_down_only_for_dead",
    "C64_down_once_partial",
    "C64_loss_noticed",
    "C64_rounds_go_on",
    "C64_appended_pools_unmonitored_refuted",
    "C64_wait_for_unknown_refuted",
    "C64_wait_too_early_refuted",
    "C64_wait_without_actors_refuted",
    "C64_down_again_and_again_refuted",
    "C64_removed_reported_refuted",
    "C64_removed_comes_back_refuted"
   ],
   "note": "Proved for all interleavings: a wait called when the death is known returns only after a new process is up, and within two rounds unless the restart fails or the pool is removed; without auto_recover it returns at once; on_process_down only for ended processes, and again for the same one only after a failed start; a noticed death is reported and replaced within two rounds; rounds never block. Refuted by the code: pools appended to a main pool created with n_process=0 are never monitored and waits for them hang; waits for unknown addresses hang; a wait issued before asyncio notices the death returns at once; a failed replay makes the wait return with the actors missing; without auto_recover (or after failed starts) on_process_down is repeated every half second; pools removed on purpose are reported lost or come back."
  },
  {
   "property": "C65",
   "status": "proved",
   "theorems": [
    "C65_calls_one_after_the_other",
    "C65_at_most_once",
    "C65_one_result",
    "C65_one_return",
    "C65_nothing_is_forgotten",
    "C65_no_deadlock",
    "C65_lost_connection_reported"
   ],
   "note": "For all methods, schedules, losses, crashes, and restarts of the actor with its process (each life of the actor starts from the initial state; a call is executed in one life only). Not covered: methods without the lock, generators and awaitables that run after the lock is released."
  },
  {
   "property": "C66",
   "status": "partial",
   "theorems": [
    "C66_own_addresses",
    "C66_other_addresses",
    "C66_former_addresses_partial",
    "C66_default_pool_partial",
    "C66_proxies_partial",
    "C66_removed_worker_refuted",
    "C66_default_pool_refuted",
    "C66_proxies_refuted",
    "C66_late_append_refuted",
    "C66_second_stop_refuted"
   ],
   "note": "Proved: routes to running pools and announced workers, and to addresses no pool ever had. Refuted (bugs): a worker removed with remove_sub_pool stays in the routing table, even after the pool stops, because the configuration and the router share one dictionary (C66_removed_worker_refuted); the default pool of create_actor changes when the first pool appends or removes a worker; proxies of stopped pools remain in use; an append that ends after stop brings the routes back; a second stop() removes the routes of a new pool on the same address."
  },
  {
   "property": "C67",
   "status": "partial",
   "theorems": [
    "C67_main_pool_knows_partial",
    "C67_all_know_partial",
    "C67_one_at_a_time_partial",
    "C67_can_finish",
    "C67_failed_append_refuted",
    "C67_append_under_way_refuted",
    "C67_overtaken_refuted",
    "C67_restarted_refuted"
   ],
   "note": "Proved: what the main pool reports in every history (members and appends that did not succeed), agreement of all workers when nothing is under way if nothing failed and either messages do not overtake each other or operations are made one at a time, and that everything can finish. Refuted (bugs): a failed append_sub_pool leaves host:0 in the configuration for ever, and while an append is under way host:0 is there too, so that create_actor with Random, RandomSubPool or IdleLabel may choose it; each sync drops the client cache, so the next one uses a new connection and may be overtaken by the older one; a worker restarted during an append never learns of the new worker."
  },
  {
   "property": "C68",
   "status": "partial",
   "theorems": [
    "C68_no_false_alarm",
    "C68_ends_with_the_main_process_partial",
    "C68_ten_seconds_partial",
    "C68_late_start_partial",
    "C68_refuted",
    "C68_ends_once",
    "C68_time_passes",
    "C68_zombie_refuted",
    "C68_number_reused_refuted"
   ],
   "note": "Proved: no worker is ended for this reason while the main process lives; with the parent-death signal a worker that got through preexec_fn ends with the main process; otherwise a worker whose checks work is gone when the main process number has been free for more than ten seconds, and a worker that starts later ends at its first check. Refuted: a main process that ends between fork and prctl (its parent not waiting for it) leaves a worker for ever (the code does not compare getppid after prctl); without the signal an unreaped main process, or one whose number is reused before the next check, keeps its workers alive for ever."
  },
  {
   "property": "C69",
   "status": "partial",
   "theorems": [
    "C69_deserialize_outcome",
    "C69_failure_names_the_message",
    "C69_reasons_are_true_partial",
    "C69_own_failures_partial",
    "C69_done",
    "C69_bad_argument_not_executed",
    "C69_at_most_one_outcome",
    "C69_no_call_hangs",
    "C69_refuted"
   ],
   "note": "Proved: deserialize always ends, with the first exception rewritten by the enclosing components; for a message the exception is DeserializeMessageFailed with the id of that message and the cause raised by a part (C69_deserialize_outcome, C69_failure_names_the_message); reasons other than ServerClosed are true; if all arguments can be loaded by the pool, calls fail only for their own reasons; a call whose argument cannot be transferred is never executed; at most one outcome per call; no call is left waiting. Refuted (C69_refuted): an argument the pool cannot load closes the whole connection (pool.py on_new_channel catches only EOFError/ConnectionError), so its caller gets ServerClosed without the reason, and every other call in flight on that connection fails with ServerClosed although it may be executed."
  },
  {
   "property": "C70",
   "status": "proved",
   "theorems": [
    "C70_executed_as_written",
    "C70_executed_as_written_uncancelled",
    "C70_reads",
    "C70_own_calls",
    "C70_one_after_the_other",
    "C70_await_keeps_the_actor",
    "C70_yield_releases",
    "C70_no_deadlock",
    "C70_yields_never_deadlock",
    "C70_all_calls_end"
   ],
   "note": "For all methods, patterns of calls, schedules and cancellations (C71). Without losses of connections (C65); tuples in which only some items are awaitable are C12. Demo shows that awaiting with the lock held can deadlock if the layering is not kept."
  },
  {
   "property": "C71",
   "status": "partial",
   "theorems": [
    "C71_no_orphans_partial",
    "C71_passed_on",
    "C71_arrives",
    "C71_second_cancel",
    "C71_cancelled_early",
    "C71_ends_cancelled_partial",
    "C71_executed_to_the_end_partial",
    "C71_no_orphans_sending_refuted",
    "C71_no_orphans_twice_refuted",
    "C71_ends_cancelled_refuted",
    "C71_executed_to_the_end_refuted"
   ],
   "note": "Proved for all trees and schedules: requests to cancel are passed on and arrive; a call cancelled before it got the lock never runs (any more). Proved with a restriction, and refuted without it: no call outlives its caller, unless the caller is cancelled while it still awaits the sending of the request (context.py 254: outside _wait) or is cancelled a second time while it waits for its calls to be cancelled; a cancelled call whose method does not catch CancelledError ends with it, if it waits for one call at a time (with several, the exception of one that failed before replaces the cancellation, core.pyx 444-452, and a method that handles this exception goes on); a started method is executed to its end, if it has no yield (a generator cancelled while it waits for the lock after a yield is dropped, its except/finally code is not executed under the lock, core.pyx 471). Not in the model: CancelMessage is sent without proxy_addresses, so behind a proxy it may fail or overtake the call."
  },
  {
   "property": "C72",
   "status": "partial",
   "theorems": [
    "C72_environment_wins_partial",
    "C72_nothing_is_invented",
    "C72_only_the_environment_counts",
    "C72_python_sees",
    "C72_python_sees_others",
    "C72_environment_restored",
    "C72_initialised_once",
    "C72_first_settings_stay",
    "C72_failure_is_retried",
    "C72_reset",
    "C72_cuda_context",
    "C72_settings_take_effect_refuted",
    "C72_entries_take_effect_refuted"
   ],
   "note": "refuted: the options that the flags choose are not passed to ucp.init() (ucx.py 182) and the entries of \"environment\" only reach a plain dict bound to os.environ (176-179), so UCX sees neither (C72_settings_take_effect_refuted, C72_entries_take_effect_refuted). Proved for every history: only variables of the process environment count and they win as documented; what Python code sees in os.environ during the initialisation; environment restored; initialised once; failure repeated; CUDA context exactly when the documented settings need one."
  },
  {
   "property": "C73",
   "status": "partial",
   "theorems": [
    "C73_answers_do_not_change",
    "C73_count_partial",
    "C73_count_unset_is_visible",
    "C73_count_kept",
    "C73_info_partial",
    "C73_info_uuid_refuted",
    "C73_index_and_uuid",
    "C73_context",
    "C73_no_device_no_context",
    "C73_crowded_device_refuted",
    "C73_warning_partial",
    "C73_count_refuted",
    "C73_info_refuted",
    "C73_changed_variable_refuted",
    "C73_warning_refuted"
   ],
   "note": "refuted in full: an entry that names no GPU hides the later ones from CUDA but is counted (C73_count_refuted); with a UUID in CUDA_VISIBLE_DEVICES every get_device_info of a visible device raises ValueError (C73_info_uuid_refuted); after a change of the variable the index of another device is reported (C73_changed_variable_refuted); with CUDA's default order the UCX transport warns about a correct context (C73_warning_refuted); get_cuda_context fails if the number of processes more than doubled during the query (C73_crowded_device_refuted). Proved for the other cases and for every sequence of queries."
  },
  {
   "property": "C74",
   "status": "partial",
   "theorems": [
    "C74_progress",
    "C74_waits_hold_up_files_refuted",
    "C74_wait_returns_after_set",
    "C74_set_releases",
    "C74_set_then_clear_refuted",
    "C74_lines",
    "C74_shared_reading",
    "C74_one_after_the_other",
    "C74_awaited_in_turn",
    "C74_one_thread_in_order",
    "C74_two_threads_refuted",
    "C74_after_exit",
    "C74_cancelled_in_time",
    "C74_cancelled_too_late_refuted"
   ],
   "note": "proved: linearisability, program order when awaited in turn or with one thread, lines, shared reading, after async with, cancelled in time, wait after set, set releases begun waits, progress. Refuted in full: un-awaited operations can take effect in another order with two threads (C74_two_threads_refuted); a call cancelled while a thread executes it still takes effect although its caller got CancelledError (C74_cancelled_too_late_refuted); waits for events occupy the threads of the executor and can hold up all files for ever, even when the waiting tasks are cancelled (C74_waits_hold_up_files_refuted); a wait that no thread has begun misses a set followed by clear (C74_set_then_clear_refuted)"
  },
  {
   "property": "C75",
   "status": "partial",
   "theorems": [
    "C75_copied",
    "C75_only_targets",
    "C75_reference",
    "C75_file_in_order",
    "C75_file_sources",
    "C75_can_finish",
    "C75_cancelled",
    "C75_same_buffer_refuted",
    "C75_same_file_refuted",
    "C75_cancelled_refuted",
    "C75_late_write_refuted"
   ],
   "note": "Proved for all interleavings; refuted: two simultaneous copies with different contents into one buffer or one file are mixed; the message under way of a cancelled copy is still written, in the middle of a later copy into the same file, or, over another channel, undoing a later copy into the same buffer."
  },
  {
   "property": "C76",
   "status": "partial",
   "theorems": [
    "C76_at_most_once",
    "C76_kept",
    "C76_not_early",
    "C76_in_time",
    "C76_content",
    "C76_unchanged_partial",
    "C76_order_partial",
    "C76_order_time_partial",
    "C76_local_order",
    "C76_outcome",
    "C76_logged",
    "C76_cancelled",
    "C76_can_finish",
    "C76_same_delay_refuted",
    "C76_arguments_refuted",
    "C76_cancelled_refuted",
    "C76_delivered_refuted",
    "C76_delivered_partial"
   ],
   "note": "Proved: at most once, never taken back, not early, in time when the loop is idle, content and actor of what is handed over, order (the timer due first is begun first, calls without delay in order of call; local calls arrive as begun), reasons of outcomes, logging, cancelling before begun, every call can finish. Refuted: order of equal delays (heapq), arguments are those of the moment of sending and not of calling, a task may say cancelled although the call was delivered, a call without delay= fails silently with TypeError in its task. Missing: what the network does after sending (C07-C09), what the actor does (C10-C13)."
  },
  {
   "property": "C77",
   "status": "partial",
   "theorems": [
    "C77_not_early",
    "C77_quiet",
    "C77_fast",
    "C77_in_time",
    "C77_exact",
    "C77_unasked",
    "C77_env",
    "C77_off_refuted",
    "C77_only_logs_refuted",
    "C77_only_logs_partial"
   ],
   "note": "Proved for all interleavings: no report before its time, none after the end, reports as soon as the loop comes to rest, exactly z, 3z, 6z, ... on a loop that is never late, none when not asked for, DEBUG_OSCAR. Refuted: reminders of calls under way go on after debugging is switched off; an option that is not a number (e.g. a string in DEBUG_OSCAR) makes every call fail with TypeError (C77_only_logs_partial: exactly then). Within a block nothing else of the debug mode is modelled here (cycle detection: C33)."
  },
  {
   "property": "C78",
   "status": "partial",
   "theorems": [
    "C78_items",
    "C78_actor_exact_partial",
    "C78_stateless_exact_partial",
    "C78_released",
    "C78_can_finish",
    "C78_cost_partial",
    "C78_cancelled_async_refuted",
    "C78_stateless_refuted",
    "C78_cancelled_thread_refuted"
   ],
   "note": "Proved for all interleavings: nothing is given out twice, out of order or invented; exact on an Actor if only calls that wait for the lock are given up, and on a StatelessActor if calls do not overlap; released after the end; every call can end; a given-up call on a plain generator costs at most one item. Refuted: two calls at once on a StatelessActor end the iteration for all; giving up a call (e.g. wait_for with a timeout) on an async generator loses all the rest, and the next call is told that the iteration has ended; on a plain generator, the call after a given-up one can find its thread still in the generator, which ends the iteration for all, although the actor has a lock."
  },
  {
   "property": "C79",
   "status": "partial",
   "theorems": [
    "C79_kept_partial",
    "C79_name_needed",
    "C79_all_but_bool_partial",
    "C79_bool_refuted",
    "C79_never_misread"
   ],
   "note": "Proved: an array of any shape and strides keeps shape, dtype and items exactly if its dtype's name is an attribute of mlx.core, so for every dtype but bool; what arrives is never misread. Refuted: an array of bool (str of its dtype ends in bool, the attribute is bool_) fails on arrival with AttributeError."
  },
  {
   "property": "C80",
   "status": "proved",
   "theorems": [
    "C80_scheme",
    "C80_same_backend",
    "C80_unregistered",
    "C80_no_address",
    "C80_setup",
    "C80_setup_never_wrong",
    "C80_setup_unregistered",
    "C80_register_late_refuted"
   ],
   "note": "For backends registered before they are used, as importing the package does. The model takes of urlparse the scheme only. A backend registered again after a call gets new pools while calls go on to the old one (C80_register_late_refuted)."
  },
  {
   "property": "C81",
   "status": "partial",
   "theorems": [
    "C81_one_process",
    "C81_distinct_partial",
    "C81_fork_refuted",
    "C81_seed_refuted",
    "C81_refuted"
   ],
   "note": "Randomness is idealised (different seeds, draws and positions give different numbers). Proved: no process makes an id twice; no two processes make the same one if no process forks after its first id and users give no two equal seeds to Python's random. Refuted: a process forked after its parent's first id repeats the parent's ids; two programs that both call random.seed with the same number before their first id make the same ids, so creating an actor without a uid fails in the second if the first one's exists on that pool."
  }
 ]
}