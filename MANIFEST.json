{
 "claims": [
  {
   "property": "C01",
   "status": "proved",
   "theorems": [
    "c01_int64_roundtrip",
    "c01_int_roundtrip",
    "c01_int32_roundtrip",
    "c01_encoding_size"
   ],
   "note": "Full range round trip for Int, Int64 and Int32 codecs."
  },
  {
   "property": "C02",
   "status": "proved",
   "theorems": [
    "c02_lexo_roundtrip",
    "c02_lexo_error_iff_length",
    "c02_lexo_decode_in_range"
   ],
   "note": "Round trip for every int64 and exact error condition."
  },
  {
   "property": "C03",
   "status": "partial",
   "theorems": [
    "c03_lexo_order_refuted",
    "c03_lexo_order_negative_refuted",
    "c03_lexo_order_partial"
   ],
   "note": "The documented ordering is refuted (magnitude is written little-endian; 255 vs 256, -256 vs -255). Proved for pairs of different sign class and for pairs in one 256-block."
  },
  {
   "property": "C04",
   "status": "partial",
   "theorems": [
    "c04_int_decode_total_refuted",
    "c04_int_decode_total_partial"
   ],
   "note": "Refuted for inputs shorter than 8 bytes (panic on empty, unsafe out-of-bounds read on 1..7); proved safe exactly for >= 8 bytes."
  },
  {
   "property": "C05",
   "status": "proved",
   "theorems": [
    "c05_commit_record_decodes",
    "c05_commit_key_identifies_partition",
    "c05_commit_key_differs_from_markers"
   ],
   "note": "Decode, key injectivity and distinctness from markers."
  },
  {
   "property": "C06",
   "status": "proved",
   "theorems": [
    "c06_watermark_is_last_commit",
    "c06_compaction_preserves_watermark"
   ],
   "note": "Any log of commits of one source topic and markers, and any compaction of it."
  },
  {
   "property": "C07",
   "status": "proved",
   "theorems": [
    "c07_sync_sees_prior_commits",
    "c07_start_beyond_prior_commits",
    "c07_call_keeps_its_partition"
   ],
   "note": "Transition system with any number of concurrent syncs, foreign markers, lost markers and late commits; one source topic, offsets below 2^63-1, marks never repeat (uuid), no record compacted away before it is read (C96). c07_sync_sees_prior_commits is the claim; c07_start_beyond_prior_commits is a corollary for commits that increase; c07_call_keeps_its_partition ties the recorded call to the action that made it: a call keeps the partition it was made for."
  },
  {
   "property": "C08",
   "status": "partial",
   "theorems": [
    "c08_topics_interfere_refuted",
    "c08_other_partitions_do_not_interfere_partial"
   ],
   "note": "Refuted: watermarks are keyed by partition number only. Proved for different partition numbers."
  },
  {
   "property": "C09",
   "status": "proved",
   "theorems": [
    "c09_commit_partition_valid",
    "c09_commit_record_destination"
   ],
   "note": "Range and destination of every commit record."
  },
  {
   "property": "C10",
   "status": "partial",
   "theorems": [
    "c10_first_registered_handler_partial",
    "c10_default_otherwise",
    "c10_reserved_state_delivers_twice_refuted"
   ],
   "note": "Proved for processors that do not return the reserved state 3 and whose decoder succeeds; refuted without that: a processor returning 3 makes the record reach a second handler."
  },
  {
   "property": "C11",
   "status": "proved",
   "theorems": [
    "c11_record_roundtrip",
    "c11_user_type_header_wins",
    "c11_set_record_type"
   ],
   "note": "Any sequence of builder calls; type, key, value, topic, partition and other headers survive."
  },
  {
   "property": "C12",
   "status": "partial",
   "theorems": [
    "c12_type_lost_refuted",
    "c12_type_always_lost",
    "c12_key_value_kept_partial"
   ],
   "note": "Refuted: ToKafkaRecord adds the type header to the wrong record, the returned record never has a type."
  },
  {
   "property": "C13",
   "status": "partial",
   "theorems": [
    "c13_configured_handler_consulted_iff",
    "c13_handler_ignored_refuted",
    "c13_nil_handler_crash_refuted",
    "c13_selected_handler_decides_partial"
   ],
   "note": "Refuted twice (handler ignored; nil handler crash) because the test looks at TxnErrorHandler; exact condition proved."
  },
  {
   "property": "C14",
   "status": "partial",
   "theorems": [
    "c14_entry_is_marker_iff",
    "c14_markers_recognised",
    "c14_swallowed_entry_refuted"
   ],
   "note": "Refuted for entries whose only header is gkes__mark and that have no type; exact characterisation proved."
  },
  {
   "property": "C15",
   "status": "partial",
   "theorems": [
    "c15_commit_after_completion_partial",
    "c15_commit_after_completion_arrived_partial",
    "c15_skipped_event_refuted"
   ],
   "note": "Refuted as stated (c15_skipped_event_refuted): when the commit error handler answers Continue, a later commit goes past the aborted events. Proved under: no answer Continue, and increasing accepted offsets per partition."
  },
  {
   "property": "C16",
   "status": "partial",
   "theorems": [
    "c16_increase_partial",
    "c16_one_above_highest_partial",
    "c16_no_gap_partial",
    "c16_skipped_event_refuted"
   ],
   "note": "Refuted as stated (c16_skipped_event_refuted, answer Continue). Proved under: no answer Continue; increasing accepted offsets for the first two theorems, one worker per partition in the process for the absence of gaps."
  },
  {
   "property": "C17",
   "status": "partial",
   "theorems": [
    "c17_call_order_partial",
    "c17_after_earlier_ended_partial",
    "c17_call_order_refuted",
    "c17_event_order_refuted"
   ],
   "note": "Refuted as stated (c17_call_order_refuted, c17_event_order_refuted): after a failed commit answered with Continue, the buffer of the failed node is flushed a second time by a later relinquishOwnership. Proved for executions without that answer."
  },
  {
   "property": "C18",
   "status": "partial",
   "theorems": [
    "c18_exactly_once_partial",
    "c18_sent_twice_refuted"
   ],
   "note": "Refuted as stated (c18_sent_twice_refuted): after a failed commit answered with Continue a buffered record is handed to Kafka twice. Proved for executions without that answer."
  },
  {
   "property": "C19",
   "status": "partial",
   "theorems": [
    "c19_exactly_once_partial"
   ],
   "note": "Proved under: no answer Continue of the commit error handler (false with it, see c16_skipped_event_refuted), one worker per partition in each process, and a process sends nothing after its successor has read the commit log (fencing)."
  },
  {
   "property": "C20",
   "status": "partial",
   "theorems": [
    "c20_marker_order_partial",
    "c20_stopped_partial",
    "c20_refuted"
   ],
   "note": "Refuted as stated (c20_refuted): the old owner's worker may still be committing when the new owner reads the commit log, because the marker that the new owner waits for is only ordered after commit records already written. Proved for the model of two consumers sharing one commit log when commit records precede the marker (c20_marker_order_partial) and when the old worker has stopped before the new one syncs (c20_stopped_partial)."
  },
  {
   "property": "C21",
   "status": "partial",
   "theorems": [
    "c21_limit_partial",
    "c21_refuted",
    "c21_checked_partial"
   ],
   "note": "refuted: the force-flush check is == MaxBatchSize; holds if no event produces more than one record (c21_limit_partial); with any number of records a transaction takes no event while its size stays exactly at the limit (c21_checked_partial)"
  },
  {
   "property": "C22",
   "status": "proved",
   "theorems": [
    "c22_bound",
    "c22_once",
    "c22_given_back",
    "c22_reused"
   ],
   "note": "Proved for one partition worker; handlers may queue any number of completion jobs at any time. An event waits for a slot only while as many other events as there are slots hold one, so slots are not lost (c22_reused). A second completion of an event is a panic in complete() that ends the process before a slot is given back."
  },
  {
   "property": "C23",
   "status": "partial",
   "theorems": [
    "c23_stop_partial",
    "c23_does_stop_partial",
    "c23_waiter",
    "c23_after_revoke_partial",
    "c23_refuted",
    "c23_stop_refuted"
   ],
   "note": "refuted twice: an event between the revocation check and addEventContext is processed; a partition with two workers in one process. Proved: with one worker per partition a stopped worker has nothing open; at most one event gets into a transaction after revocation; the waiter is never negative; and, while no commit has failed, a worker whose events are all resolved can stop (c23_does_stop_partial)"
  },
  {
   "property": "C24",
   "status": "partial",
   "theorems": [
    "c24_never_below",
    "c24_filtered_partial",
    "c24_strict_partial",
    "c24_any_order",
    "c24_handed",
    "c24_all_tested",
    "c24_refuted"
   ],
   "note": "The first half and the handing over of everything that passes the filter are proved for all deliveries; every record of a batch is tested, also when interjections come in between (c24_all_tested). The second half is refuted for deliveries out of order (c24_refuted) and proved for deliveries in order, with repetitions (c24_filtered_partial) and without (c24_strict_partial)."
  },
  {
   "property": "C25",
   "status": "proved",
   "theorems": [
    "c25_zero_config_uses_default",
    "c25_nonzero_config_accepted_iff_valid",
    "c25_default_acceptable"
   ],
   "note": "Zero config is replaced by the default, a non-zero config is accepted exactly if valid, the default itself is valid."
  },
  {
   "property": "C26",
   "status": "proved",
   "theorems": [
    "c26_no_overlap"
   ],
   "note": "Scheduler transition system (Scheduler/Model.v), any callers, goroutines and interleavings."
  },
  {
   "property": "C27",
   "status": "proved",
   "theorems": [
    "c27_key_order",
    "c27_caller_order"
   ],
   "note": "Order per key (queue insertion order) and per key and caller; exactly once."
  },
  {
   "property": "C28",
   "status": "partial",
   "theorems": [
    "c28_limits_partial",
    "c28_concurrency",
    "c28_configured_partial",
    "c28_depth_partial",
    "c28_keys_partial",
    "c28_raised_refuted",
    "c28_lowered_refuted"
   ],
   "note": "The three bounds hold for every run: running jobs never exceed the configured Concurrency (c28_concurrency); keys and per-key queues never exceed the largest limits configured so far (c28_limits_partial), hence the configured ones while the configuration is not changed and MaxConcurrentKeys is at least Concurrency (c28_configured_partial). A depth set at run time holds for each key not active then (c28_depth_partial), a key limit set at run time if no more keys than that are active then (c28_keys_partial). Refuted as stated: a MaxConcurrentKeys below Concurrency is raised to Concurrency (c28_raised_refuted), and lowering MaxConcurrentKeys at run time does not limit keys already active (c28_lowered_refuted)."
  },
  {
   "property": "C29",
   "status": "proved",
   "theorems": [
    "c29_bounded_fifo",
    "c29_answers"
   ],
   "note": "Complete list-queue semantics of asyncItemQueue with waiting senders."
  },
  {
   "property": "C30",
   "status": "partial",
   "theorems": [
    "c30_peek_sees_partial",
    "c30_peek_misses_refuted",
    "c30_stranded_refuted",
    "c30_finite_work_partial",
    "c30_all_done_partial"
   ],
   "note": "Full claim is false: c30_stranded_refuted (a job sent by a waiting sender into a drained queue is never seen by peek; the worker is re-enqueued for ever). Proved: as long as no enqueue is refused, work is finite and ends with every accepted job collected."
  },
  {
   "property": "C31",
   "status": "partial",
   "theorems": [
    "c31_lost_refuted",
    "c31_kept_partial"
   ],
   "note": "Full claim is false: c31_lost_refuted (shrink then grow leaves a worker in the replaced channel). Proved: nothing lost if the limit is only raised to at least the number of active keys."
  },
  {
   "property": "C32",
   "status": "partial",
   "theorems": [
    "c32_complete_unprocessed_refuted",
    "c32_closed_starts_nothing_refuted",
    "c32_open_partial"
   ],
   "note": "Full claim is false: c32_complete_unprocessed_refuted. Proved: never Complete while the run status is active."
  },
  {
   "property": "C33",
   "status": "partial",
   "theorems": [
    "c33_deadlock_refuted",
    "c33_room_partial"
   ],
   "note": "Full claim is false for every configuration and completion channel size: c33_deadlock_refuted. Proved: no blocking as long as a caller has at most as many outstanding jobs as its completion channel holds."
  },
  {
   "property": "C34",
   "status": "proved",
   "theorems": [
    "c34_limits"
   ],
   "note": "BatchItems are assumed to be given to Add once and not changed afterwards; the concurrency part also holds for maxConcurrentBatches 0"
  },
  {
   "property": "C35",
   "status": "proved",
   "theorems": [
    "c35_key_once"
   ],
   "note": ""
  },
  {
   "property": "C36",
   "status": "proved",
   "theorems": [
    "c36_order"
   ],
   "note": "order of adding is the order of the lock sections of AsyncBatcher.add"
  },
  {
   "property": "C37",
   "status": "proved",
   "theorems": [
    "c37_callbacks"
   ],
   "note": "delivered means AsyncJobComplete called; that it is delivered at all is c39"
  },
  {
   "property": "C38",
   "status": "partial",
   "theorems": [
    "c38_overtaken_refuted",
    "c38_order_partial"
   ],
   "note": "refuted: an empty BatchItems added first is completed after a non-empty one of the same key in the same executor (noops are completed after all items); proved whenever the first has items or the second has none"
  },
  {
   "property": "C39",
   "status": "proved",
   "theorems": [
    "c39_nothing_stuck"
   ],
   "note": "proved for any batch size; completing a callback (AsyncComplete to the partition worker) is one step, i.e. the partition worker is assumed to accept completions, see C80"
  },
  {
   "property": "C40",
   "status": "proved",
   "theorems": [
    "c40_plan_exactly_once",
    "c40_owned_is_reported"
   ],
   "note": "The hypothesis is weaker than asked for: one member that is not leaving (also Defunct) is enough. Partitions at or beyond the partition count that some member claims are kept in the plan. With no such member the plan is empty (c40_none). Map iteration orders and random numbers are oracle arguments. What a member owns is what it reported in its first entry for the topic (c40_owned_is_reported)."
  },
  {
   "property": "C41",
   "status": "proved",
   "theorems": [
    "c41_stays",
    "c41_goes",
    "c41_one_place"
   ],
   "note": "Owner means the first member in list order claiming the partition, which is how the leader resolves conflicting claims."
  },
  {
   "property": "C42",
   "status": "partial",
   "theorems": [
    "c42_at_most_one",
    "c42_none_while_moving",
    "c42_who_partial",
    "c42_instructed_is_active_refuted"
   ],
   "note": "At most one, none while moving, and the receiver and donor facts are proved for all groups. False in the code: 'the instructed member is active' - a Defunct member is put among the active ones (group_state.go:122-128), c42_instructed_is_active_refuted. Per topic: with several topics there is one instruction per topic; a source has one topic."
  },
  {
   "property": "C43",
   "status": "partial",
   "theorems": [
    "c43_leaving_gets_nothing_partial",
    "c43_leaving_gets_nothing_refuted"
   ],
   "note": "Proved for members that report InactiveMember. False for Defunct (after the graceful channel was closed): such a member is treated as active and gets orphaned partitions and prepare instructions."
  },
  {
   "property": "C44",
   "status": "proved",
   "theorems": [
    "c44_orphans",
    "c44_loads_stay_even",
    "c44_survivors"
   ],
   "note": "Active means not leaving (Defunct counts as active, see C43)."
  },
  {
   "property": "C45",
   "status": "partial",
   "theorems": [
    "c45_converges_partial",
    "c45_finitely_many_changes",
    "c45_never_stuck_partial",
    "c45_owner_or_receiver",
    "c45_one_owner",
    "c45_one_owner_midway"
   ],
   "note": "Proved in the group model of Group.v: one topic, members neither crash nor join on the way, a rebalance is one step (no partition has two owners also at the moments in between when only some members have received their assignment: c45_one_owner_midway), AdjustCooperative modelled from its documentation, and a preparation ends only while its partition is still reported as preparing. Without the last condition convergence is false (c81_group_is_stuck_refuted)."
  },
  {
   "property": "C46",
   "status": "proved",
   "theorems": [
    "c46_earliest_first",
    "c46_goes_on"
   ],
   "note": "Ties in departure time go to the smaller member id."
  },
  {
   "property": "C47",
   "status": "partial",
   "theorems": [
    "c47_behaves_as_a_set_partial",
    "c47_negative_partition_refuted"
   ],
   "note": "Proved for partitions 0..2^31-1 (all that Kafka uses); with a negative partition number the order of partitions is not the numeric one and the stated behaviour is refuted by a witness."
  },
  {
   "property": "C48",
   "status": "proved",
   "theorems": [
    "c48_closed_at_most_once",
    "c48_closed_iff_drained",
    "c48_leaving_again_is_harmless"
   ],
   "note": "Proved for all histories; parsed is a map, so of two entries for one topic the later counts, as in the code."
  },
  {
   "property": "C49",
   "status": "partial",
   "theorems": [
    "c49_no_markers",
    "c49_prefix_partial",
    "c49_refuted",
    "c49_round_partial"
   ],
   "note": "Proved for all executions: only changes of the log reach stores and waiters are released by their own marker. Proved for every bootstrap that starts from a settled state (nothing left over from earlier ones) with one assignment, perhaps after a preparation (any batching, foreign markers, concurrent writes): store content is exactly the changes before the marker. Refuted in general: forget does not revoke the store, a second preparation applies the log twice."
  },
  {
   "property": "C50",
   "status": "partial",
   "theorems": [
    "c50_marker_order_partial",
    "c50_refuted",
    "c50_lost_marker_refuted",
    "c50_round_partial"
   ],
   "note": "Refuted: the markers of the preparation and of the activation race, and a lost preparation marker has the same effect. Proved when the preparation marker precedes the activation marker in the log, for every bootstrap from a settled state."
  },
  {
   "property": "C51",
   "status": "proved",
   "theorems": [
    "c51_same_store",
    "c51_new_store",
    "c51_revoked_once",
    "c51_own_store",
    "c51_made_by_assign"
   ],
   "note": "Proved for every sequence of assign and revoke calls on partitionedChangeLog/partitionedStore; the calls are serialised by its mutex."
  },
  {
   "property": "C52",
   "status": "proved",
   "theorems": [
    "c52_behaves_as_a_map_and_reports_changes"
   ],
   "note": "Item type, key function and codec arbitrary; btree modelled as a sorted list with google/btree's search."
  },
  {
   "property": "C53",
   "status": "partial",
   "theorems": [
    "c53_replay_is_always_empty_refuted",
    "c53_refuted",
    "c53_log_suffices_partial"
   ],
   "note": "Refuted: ReceiveChange stores the decoded item only if decoding failed (simple_store.go:91), so replay of any log of decodable entries gives an empty store. Proved instead: the recorded log determines the contents."
  },
  {
   "property": "C54",
   "status": "proved",
   "theorems": [
    "c54_for_is_stable_and_in_range",
    "c54_trees_behave_as_one_map",
    "c54_unsupported_exponents"
   ],
   "note": "Proved for exponents 0..61; the other exponents are shown to panic or to give no shard."
  },
  {
   "property": "C55",
   "status": "partial",
   "theorems": [
    "c55_pops_in_priority_order_partial",
    "c55_push_after_max_refuted"
   ],
   "note": "Proved for every initial array, order with ties and operation sequence in which nothing is pushed while the maximum shown by Max is still parked in the last slot; the remaining case is refuted (Max, Push, Max shows a non-maximal item)."
  },
  {
   "property": "C56",
   "status": "partial",
   "theorems": [
    "c56_remove_takes_the_item_partial",
    "c56_update_keeps_the_items_partial",
    "c56_remove_keeps_the_order_partial",
    "c56_update_keeps_the_order_partial",
    "c56_remove_of_the_shown_max_partial",
    "c56_remove_of_a_pushed_item_refuted",
    "c56_remove_order_refuted",
    "c56_update_order_refuted"
   ],
   "note": "Refuted in general: Push does not set the item's index, and Remove/Update can break the order when down moves the replacement. Positive part: Remove takes exactly the given item when its index is right (always so without Push), and order survives when the replacement fits under the parent or the slot is a leaf. c56_remove_of_the_shown_max_partial: removing the item that Max has just shown needs neither condition."
  },
  {
   "property": "C57",
   "status": "partial",
   "theorems": [
    "c57_lists_refine_sequences_partial",
    "c57_init_of_a_filled_list_refuted"
   ],
   "note": "Proved for all operation sequences in which Init is only applied to empty lists (the code base uses Init on new lists only); Init on a filled list is refuted: its elements keep naming the list as owner."
  },
  {
   "property": "C58",
   "status": "partial",
   "theorems": [
    "c58_capacity",
    "c58_new_record_unshared_and_blank_partial",
    "c58_held_records_untouched_partial",
    "c58_released_is_reused",
    "c58_double_release_refuted",
    "c58_use_after_release_refuted"
   ],
   "note": "Capacity holds for any use. The rest is proved when a record is touched and released only between the NewRecord that returned it and its release (careful); refuted otherwise, by a double release (c58_double_release_refuted) and by writing to a record after its release (c58_use_after_release_refuted)."
  },
  {
   "property": "C59",
   "status": "proved",
   "theorems": [
    "c59_running_iff_no_ancestor_halted",
    "c59_halt_is_local"
   ],
   "note": "Halt/Fork as a tree of flags; any sequence of forks and halts."
  },
  {
   "property": "C60",
   "status": "proved",
   "theorems": [
    "c60_explicit_partition",
    "c60_auto_uses_override",
    "c60_auto_uses_default"
   ],
   "note": "Explicit, override and default cases."
  },
  {
   "property": "C61",
   "status": "proved",
   "theorems": [
    "c61_changes_stay_with_partition",
    "c61_not_stateful_no_records"
   ],
   "note": "RecordChange redirects every entry to change-log topic and event partition; Forward is covered by C11."
  },
  {
   "property": "C62",
   "status": "partial",
   "theorems": [
    "c62_callback_once_partial",
    "c62_errors_are_stored",
    "c62_can_finish",
    "c62_no_records_or_no_callback_refuted"
   ],
   "note": "Holds with at least one record and a callback; refuted with no records or a nil callback: Produce answers Incomplete but no job is ever scheduled. Trusted: the Kafka client calls each promise exactly once."
  },
  {
   "property": "C63",
   "status": "partial",
   "theorems": [
    "c63_never_twice_at_once",
    "c63_fires_again_partial",
    "c63_async_run_is_the_last_refuted"
   ],
   "note": "Never twice at once is proved for all executions (no further run before the completion of an Incomplete one has been processed), and firing again is proved for runs that complete synchronously; refuted for a scheduled interjection that completes asynchronously: its run is its last."
  },
  {
   "property": "C64",
   "status": "partial",
   "theorems": [
    "c64_reports_back_partial",
    "c64_at_most_once",
    "c64_unassigned_is_answered",
    "c64_revoked_before_it_ran_refuted"
   ],
   "note": "Partial: without revocation every one-off interjection has reported back or can still do so; a call made after the revocation is answered exactly once and not run; never answered twice, revocation or not. Refuted: an interjection accepted before the revocation and dropped by it is never answered (two ways)."
  },
  {
   "property": "C65",
   "status": "proved",
   "theorems": [
    "c65_jitter_bounds"
   ],
   "note": "Holds for all draws of the generator, with durations as integers and the factor from rand.Float64 as a rational in [0,1)."
  },
  {
   "property": "C66",
   "status": "partial",
   "theorems": [
    "c66_replication_factor_valid",
    "c66_commit_log_partitions_valid",
    "c66_min_insync_never_above_replication",
    "c66_min_insync_unset_refuted",
    "c66_min_insync_configured_partial",
    "c66_min_insync_equal_refuted"
   ],
   "note": "Replication factor and commit-log partitions always valid and kept if configured, min in-sync never above replication. Refuted twice: unset MinInSync with replication factor above 1 is not defaulted, and a configured MinInSync equal to the replication factor is lowered by one. Proved for a configured MinInSync of at least 1: the result is valid, and kept below the replication factor."
  },
  {
   "property": "C67",
   "status": "partial",
   "theorems": [
    "c67_success_means_agreement_partial",
    "c67_mismatch_is_an_error",
    "c67_rejected_topic_refuted",
    "c67_concurrent_creation_refuted"
   ],
   "note": "Proved when no create request is rejected per topic; refuted otherwise (per-topic errors are dropped)."
  },
  {
   "property": "C68",
   "status": "partial",
   "theorems": [
    "c68_other_error_crashes_refuted",
    "c68_destination_not_created_refuted",
    "c68_source_retry_partial",
    "c68_source_gives_up_partial",
    "c68_destination_error_partial"
   ],
   "note": "Refuted: any non-network error is a nil dereference, and CreateDestination creates nothing. Proved for network errors only."
  },
  {
   "property": "C69",
   "status": "partial",
   "theorems": [
    "c69_config_partial",
    "c69_config_cached",
    "c69_iam_credentials_refuted"
   ],
   "note": "Broker selection and error cases proved; refuted for IAM credentials: the error test is inverted, so a successful retrieval yields empty credentials."
  },
  {
   "property": "C70",
   "status": "partial",
   "theorems": [
    "c70_emit_never_blocks_partial",
    "c70_accepted_in_order",
    "c70_emit_after_close_refuted",
    "c70_commit_blocks_refuted"
   ],
   "note": "EmitMetric never blocks or panics until the metrics are shut down, and accepted metrics are handled in order; refuted after shutdown (send on a closed channel panics) and for the transaction and partition metrics (blocking send on a full buffer)."
  },
  {
   "property": "C71",
   "status": "proved",
   "theorems": [
    "c71_message_passes_iff_all_levels_allow",
    "c71_wrapping_only_suppresses",
    "c71_driver_messages",
    "c71_driver_silent_when_disabled",
    "c71_first_init_wins"
   ],
   "note": "All level combinations and any chain of wrappers."
  },
  {
   "property": "C72",
   "status": "partial",
   "theorems": [
    "c72_abs_partial",
    "c72_abs_smallest_refuted",
    "c72_min",
    "c72_max",
    "c72_minN",
    "c72_maxN",
    "c72_minN_any_order",
    "c72_maxN_any_order",
    "c72_nan_refuted",
    "c72_to_ptr_slice",
    "c72_ptr_slice_round_trip",
    "c72_to_struct_slice",
    "c72_map_keys",
    "c72_map_values",
    "c72_map_copy"
   ],
   "note": "Abs of the smallest value and Min/Max on NaN are refuted; everything else in the claim is proved for all inputs. Floats are represented by an arbitrary order, so the numeric float operations themselves are not modelled."
  },
  {
   "property": "C73",
   "status": "partial",
   "theorems": [
    "c73_nil_default_crash_refuted",
    "c73_default_present_partial"
   ],
   "note": "Refuted for a nil default processor; proved when one is present."
  },
  {
   "property": "C74",
   "status": "partial",
   "theorems": [
    "c74_commit_log_name_identifies_group",
    "c74_commit_and_change_log_distinct",
    "c74_change_log_name_collision_refuted",
    "c74_change_log_name_same_group_partial",
    "c74_change_log_name_no_underscore_partial"
   ],
   "note": "Commit-log names are injective and disjoint from change-log names. Refuted for generated change-log names (underscore ambiguity); proved inside one group and for names without underscore."
  },
  {
   "property": "C75",
   "status": "partial",
   "theorems": [
    "c75_named_cluster_partial",
    "c75_other_cluster_refuted"
   ],
   "note": "Right cluster when no other listed cluster name has the configured name as prefix; refuted otherwise: ListClusters filters by prefix and the first answer is used without comparing names."
  },
  {
   "property": "C76",
   "status": "partial",
   "theorems": [
    "c76_during_partial",
    "c76_refuted",
    "c76_round_partial"
   ],
   "note": "Refuted: send on the closed channel panics, send on the nil channel blocks for ever. Proved while the bootstrap is going on, for every bootstrap from a settled state."
  },
  {
   "property": "C77",
   "status": "partial",
   "theorems": [
    "c77_written_partial",
    "c77_refuted",
    "c77_round_partial"
   ],
   "note": "Refuted: the error of sendMarkerMessage is dropped and sync waits for ever. Proved when the marker is written, for every bootstrap from a settled state."
  },
  {
   "property": "C78",
   "status": "partial",
   "theorems": [
    "c78_stops_partial",
    "c78_refuted",
    "c78_starved_refuted"
   ],
   "note": "Refuted for the answer Continue: the aborted events are skipped (c78_refuted) and each failure takes a node out of the pool (c78_starved_refuted). Proved for the other answers."
  },
  {
   "property": "C79",
   "status": "partial",
   "theorems": [
    "c79_context_once",
    "c79_increasing_partial",
    "c79_order",
    "c79_delivery_order",
    "c79_again_partial",
    "c79_refuted",
    "c79_goes_down_refuted"
   ],
   "note": "Refuted when a record is delivered again before the first delivery is handed over (c79_refuted), and when offsets go down in a delivery (c79_goes_down_refuted). Order (c79_order, c79_delivery_order) and uniqueness of contexts are proved for all executions; uniqueness of offsets when the consumer delivers each offset once and in order (c79_increasing_partial); a record delivered again after it was handed over is not handed over again when offsets do not go down (c79_again_partial)."
  },
  {
   "property": "C80",
   "status": "partial",
   "theorems": [
    "c80_jobs_partial",
    "c80_add_partial",
    "c80_refuted",
    "c80_late_job_refuted"
   ],
   "note": "Refuted for add (c80_refuted: check and send are not atomic) and for a completion job sent for an event that is already complete (c80_late_job_refuted). Proved that these are the only ways (c80_add_partial), and that asyncJobs is open as long as a handed over event is not complete (c80_jobs_partial)."
  },
  {
   "property": "C81",
   "status": "partial",
   "theorems": [
    "c81_announced_is_not_owned_partial",
    "c81_announced_is_not_owned_refuted",
    "c81_group_is_stuck_refuted"
   ],
   "note": "False: an assignment that overtakes the preparation leaves the partition in ready for ever (PartitionsAssigned removed it before PartitionPrepared inserted it), and then no leader schedules any move while that member is active. Proved for histories in which a preparation ends only while its partition is still reported as preparing."
  },
  {
   "property": "C82",
   "status": "partial",
   "theorems": [
    "c82_nothing_else_is_given_up",
    "c82_forgotten_is_given_up_partial",
    "c82_forgotten_is_given_up_refuted"
   ],
   "note": "False with more than one partition to forget: the goroutines share the loop variable (go 1.19). Nothing but the named partitions is ever given up; with per-iteration values all of them are."
  },
  {
   "property": "C83",
   "status": "partial",
   "theorems": [
    "c83_announced_is_in_progress_partial",
    "c83_announced_is_in_progress_refuted"
   ],
   "note": "Proved for one topic and when forget goroutines see their own value and PartitionPreparationFailed, which nothing calls, is not called; false otherwise (a forgotten partition stays in sc.prepping, the next prepare instruction for it does nothing)."
  },
  {
   "property": "C84",
   "status": "partial",
   "theorems": [
    "c84_assignment_works_partial",
    "c84_assignment_works_refuted"
   ],
   "note": "False: without IncrementalBalanceStrategy sc.incrBalancer stays nil and assignPartitions (line 220) calls a method on it."
  },
  {
   "property": "C85",
   "status": "proved",
   "theorems": [
    "c85_done_means_stopped"
   ],
   "note": "Proved for all executions of the machine. The kafka client's Close is taken to call partitionsRevoked for everything it owns before it returns."
  },
  {
   "property": "C86",
   "status": "partial",
   "theorems": [
    "c86_settles",
    "c86_settled",
    "c86_one_partial",
    "c86_one_after_stop_partial",
    "c86_refuted"
   ],
   "note": "Refuted for two waiting goroutines: done holds one value and is never closed, so after Stop the second reader of Done() waits for ever (c86_refuted, for every continuation without StopNow or another error). Proved: steps that happen by themselves are bounded (c86_settles, c86_settled), and when they are over and done was signalled at least one waiting goroutine has been released (c86_one_partial), which is all of them when only one waits."
  },
  {
   "property": "C87",
   "status": "partial",
   "theorems": [
    "c87_returns_partial",
    "c87_or_interject_hangs",
    "c87_refuted"
   ],
   "note": "Refuted: Interject sends to a worker's one-place buffer while holding workerMux; after Halt nobody reads that buffer, so the second call waits for ever and client.Close, which needs workerMux to revoke, never returns (c87_refuted, for every continuation). Proved: without Interject calls every StopNow returns (c87_returns_partial); with them this deadlock is the only other end (c87_or_interject_hangs)."
  },
  {
   "property": "C88",
   "status": "partial",
   "theorems": [
    "c88_unhealthy",
    "c88_healthy",
    "c88_goes_on",
    "c88_stops_partial",
    "c88_stops_refuted",
    "c88_exit_partial",
    "c88_exits_only_then",
    "c88_exit_refuted"
   ],
   "note": "c88_unhealthy and c88_healthy hold for all executions. Stopping is proved without Interject calls (c88_stops_partial) and refuted with them (c88_stops_refuted, the deadlock of C87). The exit is proved when the handler never answered with a number other than the three constants (c88_exit_partial) and refuted otherwise: such an answer consumes closeOnFail, so a later FatallyExit blocks in Source.fail for ever (c88_exit_refuted)."
  },
  {
   "property": "C89",
   "status": "proved",
   "theorems": [
    "c89_no_gap",
    "c89_nothing_before_the_sync"
   ],
   "note": "Proved for one partition and one assignment; commits not going back is part of the statement (it is C16). kgo is taken to start where adjustOffsetsBeforeAssign says and to fetch without gaps."
  },
  {
   "property": "C90",
   "status": "partial",
   "theorems": [
    "c90_first_partial",
    "c90_refuted"
   ],
   "note": "Refuted (c90_refuted): adjustOffsetsBeforeAssign takes the event sources' own watermark whenever there is one, so events that another kind of consumer processed meanwhile are processed again. Proved when the commit log has nothing for the partition (c90_first_partial), the first migration."
  },
  {
   "property": "C91",
   "status": "partial",
   "theorems": [
    "c91_no_deadlock_partial",
    "c91_serial_partial",
    "c91_overlap_refuted",
    "c91_callback_refuted"
   ],
   "note": "c91_no_deadlock_partial: no callback calls Interject and no member is told to forget a partition; c91_serial_partial: no callback calls Interject and the kafka client makes its calls of ParseSyncAssignment, assignPartitions and revokePartitions one after the other. Both conditions are needed: c91_callback_refuted (a callback that calls Interject never ends: assignPartitions and revokePartitions run the callbacks with workerMux held), c91_overlap_refuted (ParseSyncAssignment waits with statusLock held for preppingMux, assignPartitions the reverse; whether the client serialises them is outside the code)."
  },
  {
   "property": "C92",
   "status": "partial",
   "theorems": [
    "c92_live_partial",
    "c92_drain_partial",
    "c92_commits_in_order",
    "c92_refuted"
   ],
   "note": "Holds when no interjections arrive (c92_live_partial, c92_drain_partial): after the last arrival the number of steps not due to the flush timer is bounded, and while something is not committed such a step is at most two timer steps away. False with interjections in every valid configuration with MaxBatchSize*PoolSize >= 2 (c92_refuted): events and interjections reach the worker through two channels, so it may take an interjection while an earlier event of the same partition is still in eventInput; it then waits for the producer of the interjection, the pool waits for a free node, and the committing node waits for that event. Handlers and jobs are assumed to end and commits to succeed; revocation is not part of this model."
  },
  {
   "property": "C93",
   "status": "partial",
   "theorems": [
    "c93_ends_partial",
    "c93_refuted"
   ],
   "note": "Refuted: a revoke does not end the bootstrap and the next assignment replaces the buffer without closing it, so the first populator waits for ever. Proved when the buffer of one bootstrap from a settled state has been closed. Not modelled: a populator that evaluates the buffer only after it was set to nil."
  },
  {
   "property": "C94",
   "status": "partial",
   "theorems": [
    "c94_synced_partial",
    "c94_refuted"
   ],
   "note": "Refuted: a partition revoked during its bootstrap goes on filling the revoked store. Proved when the worker had been released before the revoke, with the markers in the order of C50, for one assignment from a settled state."
  },
  {
   "property": "C95",
   "status": "partial",
   "theorems": [
    "c95_returns_partial",
    "c95_marker_is_sent",
    "c95_consumer_progress",
    "c95_lost_marker_refuted",
    "c95_compacted_marker_refuted"
   ],
   "note": "Refuted twice: a marker whose produce call fails (the error is dropped) and a marker compacted away before the consumer reaches it leave the call waiting for ever, whatever happens. Proved for a written marker that is not compacted away: the call, from the action that makes it, can return as soon as the consumer has received the records ahead of the marker and the marker; every call made can have its marker sent to the commit log partition of its source partition (c95_marker_is_sent); the consumer is never stuck (c95_consumer_progress, one source topic)."
  },
  {
   "property": "C96",
   "status": "partial",
   "theorems": [
    "c96_prefix_partial",
    "c96_exact_partial",
    "c96_refuted"
   ],
   "note": "Refuted: the former owner commits again after the marker, and compaction drops the older commit before the consumer reads it. Proved: without a commit of the partition after the marker the value is exact; in general it belongs to a prefix of the commits and misses an earlier one only in that case."
  },
  {
   "property": "C97",
   "status": "partial",
   "theorems": [
    "c97_others_go_on_partial",
    "c97_four_polls_partial",
    "c97_late_pause_refuted",
    "c97_earlier_worker_refuted"
   ],
   "note": "False as stated. Refuted twice: the goroutine of the new worker may not get to pause the partition before five polls have returned records of it (c97_late_pause_refuted; then nothing is polled until the state is there), and the worker of an earlier assignment that is still waiting resumes the partition (c97_earlier_worker_refuted, with every worker pausing at once). Proved: with no earlier worker of the partition waiting, and at most three polls with records of it before the pause, the poll loop never stands still at the new worker before it has got its state; and whatever earlier workers do, not before four polls have returned records of it."
  },
  {
   "property": "C98",
   "status": "partial",
   "theorems": [
    "c98_waits_only_for_a_full_worker_partial",
    "c98_goes_on_if_handlers_return_partial",
    "c98_everything_is_handled_partial",
    "c98_can_be_assigned_again",
    "c98_refuted"
   ],
   "note": "False as stated: c98_refuted (for every capacity) - one handler that does not return fills eventInput and the four places of partitionInput, then the poll loop waits in add and no partition gets anything, even after the partition is revoked. Proved: the loop waits only for a worker with four batches not begun (c98_waits_only_for_a_full_worker_partial), and if handlers return (and no worker still waiting for its state is full) every poll is dealt with after finitely many steps, in any order (c98_goes_on_if_handlers_return_partial); then the handler has got every record of the partition that polls returned since it was assigned (c98_everything_is_handled_partial). Missing: independence of the partitions, which the code does not provide. A partition that was revoked can be assigned again (and only then)."
  },
  {
   "property": "C99",
   "status": "partial",
   "theorems": [
    "c99_in_order_partial",
    "c99_everything_partial",
    "c99_two_starts_refuted",
    "c99_more_partitions_refuted"
   ],
   "note": "Proved for one call of Start (c99_in_order_partial; c99_everything_partial says the goroutine can always go on by itself until all is forwarded, as long as Stop was not called and the partition is not paused) and for offsets without gaps. False if Start is called twice (c99_two_starts_refuted) and for partitions beyond numPartitions, of which nothing is ever forwarded (c99_more_partitions_refuted)."
  },
  {
   "property": "C100",
   "status": "partial",
   "theorems": [
    "c100_pause_partial",
    "c100_resume_partial",
    "c100_resume_everything_partial",
    "c100_pause_refuted",
    "c100_resume_refuted"
   ],
   "note": "False as stated: records of the batch being handled are still forwarded after Pause and after ResumePartitionAt (c100_pause_refuted, c100_resume_refuted). Proved for one call of Start: what is forwarded afterwards is that rest and nothing else, or that rest followed by the records from the given offset on, in order, and the goroutine can go on until all of them are forwarded (c100_resume_everything_partial)."
  },
  {
   "property": "C101",
   "status": "partial",
   "theorems": [
    "c101_no_more_polls",
    "c101_ends_and_closes",
    "c101_ends_soon",
    "c101_never_started_refuted"
   ],
   "note": "Proved for every goroutine that was started: at most one more poll, then finitely many steps, one always being possible until it has ended, and the client is closed when one has ended. That pollConsumer returns is trusted (10 s timeout). False for a log that was never started: Stop leaves its client open (c101_never_started_refuted)."
  },
  {
   "property": "C102",
   "status": "partial",
   "theorems": [
    "c102_exactly_if_incremental_partial",
    "c102_single_strategy_partial",
    "c102_graceful_only_if_incremental",
    "c102_refuted"
   ],
   "note": "False if the broker can not be asked or reports no protocol (it does not while the group prepares a rebalance) and there is more than one strategy (c102_refuted). Proved: exact if the broker names the protocol, and for a single strategy always; never a graceful leave in a group that uses another protocol."
  },
  {
   "property": "C103",
   "status": "partial",
   "theorems": [
    "c103_idle_holds_no_items",
    "c103_idle_holds_no_keys_partial",
    "c103_keys_pile_up_refuted"
   ],
   "note": "Proved: an idle batcher holds no item, no placeholder and nothing pending, and the only keys it may still hold are those of BatchItems without items. Partial: without such BatchItems the assignments are empty. Refuted with them: reset deletes only the keys of normal items (async_batcher.go:139-147), so the assignments of a batcher that has completed everything can have any size."
  },
  {
   "property": "C104",
   "status": "partial",
   "theorems": [
    "c104_waits_for_calls_only_partial",
    "c104_waits_for_another_key_refuted"
   ],
   "note": "Partial: without BatchItems that have no items, an added item waits only for a running call with its key or for as many running calls as there are executors. Refuted with them: the key of a BatchItems without items stays assigned to its executor, so an item of that key waits for a call with another key while another executor is free."
  },
  {
   "property": "C105",
   "status": "partial",
   "theorems": [
    "c105_group_callbacks_in_order",
    "c105_activated_at_most_once",
    "c105_all_in_order_partial",
    "c105_activated_first_refuted",
    "c105_activated_after_revoked_refuted"
   ],
   "note": "Refuted: newPartitionWorker starts the goroutine before onPartitionsAssigned is called, so OnPartitionActivated can come before OnPartitionAssigned, and a worker whose partition is revoked while it bootstraps calls OnPartitionActivated after OnPartitionRevoked. Proved: the three callbacks of the group come in order, OnPartitionActivated at most once per assignment. c105_all_in_order_partial needs that no worker is activated during a call of the group and that every partition is activated before it is revoked."
  },
  {
   "property": "C106",
   "status": "proved",
   "theorems": [
    "c106_activated_means_ready",
    "c106_no_handler_before_activation"
   ],
   "note": "The callbacks themselves are taken to return; what they do is left out."
  },
  {
   "property": "C107",
   "status": "partial",
   "theorems": [
    "c107_handler_at_work_refuted",
    "c107_handlers_called_refuted",
    "c107_only_what_was_granted_partial",
    "c107_over_is_over"
   ],
   "note": "Refuted: revokePartitions does not wait for the worker; a handler can be at work when OnPartitionRevoked is called and any number of handlers can be called afterwards. c107_only_what_was_granted_partial: they are those that were given a producer before the worker was halted; c107_over_is_over: nothing is handled after the worker's loop has ended."
  },
  {
   "property": "C108",
   "status": "proved",
   "theorems": [
    "c108_callbacks_enclose_the_revocation_of_the_store",
    "c108_callbacks_enclose_the_revocation_of_the_worker",
    "c108_every_worker_told"
   ],
   "note": "Per partition; the callbacks themselves are taken to return."
  },
  {
   "property": "C109",
   "status": "proved",
   "theorems": [
    "c109_the_assigned_partitions",
    "c109_at_most_once",
    "c109_all_done_at_the_return",
    "c109_ended_has_begun",
    "c109_errors_have_a_reason",
    "c109_run_by_the_worker_of_the_partition",
    "c109_only_the_partitions_of_the_call"
   ],
   "note": "Proved for both calls. The statement leaves open what happens to an interjection lost by a revocation: then the call does not return (C111)."
  },
  {
   "property": "C110",
   "status": "proved",
   "theorems": [
    "c110_one_at_a_time"
   ],
   "note": "Proved; an Example shows that InterjectAll does not have this."
  },
  {
   "property": "C111",
   "status": "partial",
   "theorems": [
    "c111_returns_refuted",
    "c111_returns_partial"
   ],
   "note": "Refuted (c111_returns_refuted): an interjection that the worker has accepted is dropped when its partition is revoked; its channel is never closed, so the call never returns. The positive theorem has the condition that no partition is revoked between the call and the return: then the workers and the call can make only a bounded number of steps, and where none is possible the call has returned (the calls of the user's interjector are assumed to end)."
  },
  {
   "property": "C112",
   "status": "proved",
   "theorems": [
    "c112_hook_calls_are_arrivals",
    "c112_one_hook_at_a_time",
    "c112_stop_after_acceptance",
    "c112_return_after_stop"
   ],
   "note": "Proved. os/signal delivers without waiting, and arrivals after signal.Reset are outside the model."
  },
  {
   "property": "C113",
   "status": "partial",
   "theorems": [
    "c113_every_accepted_signal_closes_refuted",
    "c113_every_accepted_signal_closes_partial"
   ],
   "note": "Refuted (c113_every_accepted_signal_closes_refuted) with the hook of the documentation: the channel holds one signal, so SIGINT is lost if it arrives while the hook handles SIGUSR1 and another SIGUSR1 waits. The positive theorem has the condition that no other wanted signal has arrived since the last call of the hook."
  },
  {
   "property": "C114",
   "status": "partial",
   "theorems": [
    "c114_topic_refuted",
    "c114_partition_refuted",
    "c114_topic_partial",
    "c114_partition_partial"
   ],
   "note": "Refuted: ProduceAsync writes the default topic into the caller's record, and the client writes the chosen partition into it, so that a record used again with another producer goes to the first topic and partition. Partial: for the topic, all producers that have had the record before have the same default topic; for the partition, the record has not been sent before."
  },
  {
   "property": "C115",
   "status": "proved",
   "theorems": [
    "c115_own_outcome_once",
    "c115_produce_returns",
    "c115_sent_once"
   ],
   "note": "Proved for all orders of calls and answers; the kafka client is taken to call the promise of a record once, when it was written or has failed."
  },
  {
   "property": "C116",
   "status": "partial",
   "theorems": [
    "c116_deletes_its_topics",
    "c116_error_without_client",
    "c116_deletes_nothing_else",
    "c116_failure_is_reported_refuted",
    "c116_spares_other_sources_refuted",
    "c116_spares_other_sources_partial"
   ],
   "note": "Refuted: the results of both requests are dropped, so that nil is returned though nothing was deleted; the commit log is shared by all sources of the group and is deleted with the first. Proved without condition: nothing but the three topics is deleted, and all three if the clusters say so. Partial: another source is spared if its group and topic differ, the change log names are generated and the topic names have no underscore."
  },
  {
   "property": "C117",
   "status": "partial",
   "theorems": [
    "c117_first_value",
    "c117_last_value_refuted",
    "c117_last_value_partial",
    "c117_type_partial",
    "c117_type_refuted"
   ],
   "note": "HeaderValue returns the first header of the name, so a later WithHeader has no effect (c117_last_value_refuted), and after SetRecordType on a typed record RecordType() is the last type while HeaderValue gives the first (c117_type_refuted). Proved: the value is that of the first WithHeader of the name; equal to the last one if the name was set once; the type agrees if there is at most one type header."
  },
  {
   "property": "C118",
   "status": "partial",
   "theorems": [
    "c118_steps",
    "c118_order",
    "c118_each_value",
    "c118_returns_refuted",
    "c118_returns_once_refuted",
    "c118_returns_partial"
   ],
   "note": "The order of the steps is proved in full. The last part is refuted: done holds one value per end of the source, so that of two calls for one source only one returns (c118_returns_refuted; for all runs without StopNow c118_returns_once_refuted). c118_returns_partial has it for a source with one call and no other receiver of Done."
  },
  {
   "property": "C119",
   "status": "partial",
   "theorems": [
    "c119_only_committed_partial",
    "c119_off",
    "c119_all_committed_partial",
    "c119_nothing_below_partial",
    "c119_not_ahead_of_log_partial",
    "c119_same_as_log_partial",
    "c119_group_offset",
    "c119_skipped_event_refuted"
   ],
   "note": "Refuted as stated for the answer Continue (c119_skipped_event_refuted): the next transaction marks offsets beyond the events of the failed one. The _partial theorems exclude that answer; c119_nothing_below, c119_not_ahead_of_log and c119_same_as_log also need increasing accepted offsets of the partition. The group's offset is what franz-go documents (highest mark, no rewinds); marks of partitions the client no longer owns are not modelled."
  },
  {
   "property": "C120",
   "status": "partial",
   "theorems": [
    "c120_prefix_partial",
    "c120_beyond_prior_commits_partial",
    "c120_exact",
    "c120_compaction_refuted",
    "c120_lost_marker_refuted"
   ],
   "note": "Refuted as stated: with compaction the watermark may lack a commit (c120_compaction_refuted), and syncAll never returns when one of its markers cannot be written (c120_lost_marker_refuted). c120_prefix_partial has the exception in its conclusion, c120_beyond_prior_commits_partial excludes compaction and needs increasing commits; c120_exact is for partitions that are not committed while syncAll runs. All are for one source topic (C08)."
  }
 ]
}