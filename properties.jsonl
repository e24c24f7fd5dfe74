{"id": "C01", "title": "Integer codecs round-trip", "statement": "For IntCodec, Int64Codec and Int32Codec, decoding the bytes produced by encoding a value returns exactly that value and no error, and every encoding is exactly 8 bytes long (so distinct values have distinct encodings).", "quantifier": "every representable signed value of each width (all 2^64 / 2^32 of them)", "why_tests_cant": "the value space is 2^64; tests sample a handful of values", "anchors": ["streams/codec.go: intCodec.Encode, intCodec.Decode, IntCodec, Int64Codec, Int32Codec", "streams/commit_log.go: writeSignedIntToByteArray, readIntegerFromByteArray"]}
{"id": "C02", "title": "LexoInt64Codec round-trip and error discipline", "statement": "LexoInt64Codec.Decode(Encode(i)) returns i with no error for every int64, and Decode returns an error exactly for those inputs whose length is not 9 bytes.", "quantifier": "every int64 value (including MinInt64, 0 and MaxInt64, where the internal bias arithmetic is closest to wrapping) and every byte string", "why_tests_cant": "2^64 values and unboundedly many malformed inputs", "anchors": ["streams/codec.go: lexoInt64Codec.Encode, lexoInt64Codec.Decode, LexoInt64Codec"]}
{"id": "C03", "title": "LexoInt64Codec encodings sort like the numbers", "statement": "If a < b then the encoding of a compares lexicographically (bytes.Compare) below the encoding of b, as the codec's documentation promises (suitable for a []byte ordered by byte order).", "quantifier": "every pair of int64 values", "why_tests_cant": "ordering over all 2^128 pairs; a test only sees chosen pairs and single-byte values hide an endianness mistake", "anchors": ["streams/codec.go: lexoInt64Codec.Encode, LexoInt64Codec"]}
{"id": "C04", "title": "Integer decoding is total", "statement": "Decoding an arbitrary byte string with the integer codecs never crashes the process and never reads memory outside the supplied slice.", "quantifier": "every byte string, including the empty one and ones shorter than 8 bytes", "why_tests_cant": "all malformed inputs; out-of-bounds reads through unsafe are invisible to an assertion", "anchors": ["streams/codec.go: intCodec.Decode", "streams/commit_log.go: readIntegerFromByteArray, topicPartitionFromBytes"]}
{"id": "C05", "title": "Commit-log records identify exactly one topic partition and resume point", "statement": "The record that commits an event at offset o of partition p of topic t decodes back to exactly (t,p) and o+1; two commits carry the same Kafka key if and only if they are for the same topic partition (so log compaction can never merge two different partitions); it is never mistaken for a marker record.", "quantifier": "every topic name, every int32 partition, every int64 offset below MaxInt64", "why_tests_cant": "unbounded input space; injectivity is a statement about all pairs", "anchors": ["streams/commit_log.go: writeTopicPartitionToBytes, topicPartitionFromBytes, commitRecord, ReceiveChange", "streams/topics.go: isMarkerRecord"]}
{"id": "C06", "title": "Watermark equals the last commit, for every history and after any compaction", "statement": "After consuming any sequence of commit and marker records, the watermark reported for a partition is the resume offset of the last commit record for that partition (or -1 if there is none), and replaying any compacted version of the same log (only superseded records with the same key removed) reports the same watermark.", "quantifier": "every finite log, every legal compaction of it, every partition of one source topic", "why_tests_cant": "all histories and all compaction points; the broker compacts at times a test cannot control", "anchors": ["streams/commit_log.go: ReceiveChange, Watermark", "streams/global_change_log.go: forwardChange"]}
{"id": "C07", "title": "Starting offset is never older than what was committed before the partition was taken over", "statement": "When a newly assigned partition learns its starting offset (it blocks on a marker), the value it receives reflects every commit record that was in the commit log before the marker was written, no matter how consumption, other syncs and later commits interleave.", "quantifier": "every interleaving of commits, marker writes by any number of concurrent syncs, and consumer progress, with one source topic (several topics: C08) and a commit log that is not compacted meanwhile (compaction: C96)", "why_tests_cant": "all schedules of concurrent syncs and a consumer; a test observes a few", "anchors": ["streams/commit_log.go: lastProcessed, syncCommitLogPartition, closeSyncRequest, ReceiveChange", "streams/state_store_consumer.go: sendMarkerMessage"]}
{"id": "C08", "title": "Watermarks of different source topics do not interfere", "statement": "Commits for one topic never change the watermark reported for the same partition number of another topic that shares the commit log (the commit log is named after the consumer group only).", "quantifier": "every history containing commits for two topics", "why_tests_cant": "needs a claim about all histories of two event sources sharing a group id", "anchors": ["streams/commit_log.go: watermarks, ReceiveChange, Watermark", "streams/source.go: CommitLogTopicNameForGroupId"]}
{"id": "C09", "title": "Commit records for one partition are totally ordered", "statement": "All commit records of one source partition are sent to one and the same valid partition of the commit log, so their order is well defined.", "quantifier": "every partition number from 0 up and every positive commit-log partition count", "why_tests_cant": "all pairs of partition numbers and partition counts", "anchors": ["streams/commit_log.go: commitRecordPartition, commitRecord"]}
{"id": "C10", "title": "Exactly one handler sees each record", "statement": "Each incoming record is delivered to exactly one handler: the first registered one whose event type equals the record's type, or the default processor if there is none.", "quantifier": "every sequence of registrations and every record type", "why_tests_cant": "all registration orders and types; uniqueness is a claim about all handlers", "anchors": ["streams/event_source.go: handleEvent, RegisterEventType, eventProcessorWrapper.process, eventProcessorWrapper.exec, RegisterDefaultHandler"]}
{"id": "C11", "title": "Record type survives the trip through Kafka", "statement": "A record created with a record type, arbitrary other headers, key, value, topic and partition, once produced and consumed again, presents the same record type, key, value and other headers, so that it is routed to the handler registered for that type.", "quantifier": "every record type, key, value and header list (without the reserved type header)", "why_tests_cant": "unbounded header lists; the interesting cases are collisions between user headers and the reserved one", "anchors": ["streams/record.go: toKafkaRecord, addRecordTypeHeader, newIncomingRecord, RecordType, HeaderValue, AsIncomingRecord"]}
{"id": "C12", "title": "Record.ToKafkaRecord keeps what is needed to route the record", "statement": "The kgo.Record returned by Record.ToKafkaRecord carries the record type of the Record it was made from.", "quantifier": "every record", "why_tests_cant": "a statement about all records, whose violation is visible only to a consumer on the far side", "anchors": ["streams/record.go: ToKafkaRecord, addRecordTypeHeader"]}
{"id": "C13", "title": "The configured deserialization error handler decides", "statement": "When decoding fails, the DeserializationErrorHandler configured on the event source is the one consulted (a default only when none is configured), and if it answers Continue the event is completed so that it does not block the partition.", "quantifier": "every combination of configured handlers and every decode error", "why_tests_cant": "all configurations; tests exercise the default one", "anchors": ["streams/source.go: deserializationErrorHandler, eosErrorHandler", "streams/event_source.go: eventProcessorWrapper.exec", "streams/error_handling.go"]}
{"id": "C14", "title": "Application records are never mistaken for markers", "statement": "No change-log entry written by an application is treated as an internal marker; every one of them reaches the state store when the partition is rebuilt.", "quantifier": "every change-log entry, i.e. every choice of key, value, type and headers", "why_tests_cant": "universally quantified over application data", "anchors": ["streams/topics.go: isMarkerRecord", "streams/state_store_consumer.go: handleRecordsAndContinue", "streams/record.go: ChangeLogEntry"]}
{"id": "C15", "title": "An offset is committed only after its event and all earlier ones are complete", "statement": "Whenever a commit record with resume offset w is part of a committed transaction for a partition, every event accepted from that partition with an offset below w has been completed by the application, and was processed in that transaction or an earlier committed one.", "quantifier": "every schedule of event arrival, handler completion (sync or async, any order), batching, timer flush and commit; any number of partitions and producers", "why_tests_cant": "all interleavings of the worker, the forwarding goroutine, the commit goroutine and asynchronous completions", "anchors": ["streams/eos_producer.go: addEventContext, finalizeEventContexts, commit, tryFlush, commitLoop", "streams/partition_worker.go: forwardToEventSource, processAsyncJob"]}
{"id": "C16", "title": "Committed offsets advance monotonically and without gaps", "statement": "For each partition the sequence of committed resume offsets strictly increases, and each equals one plus the highest event offset in its transaction; no accepted event is skipped.", "quantifier": "every schedule, any number of partitions, producers and transactions", "why_tests_cant": "all interleavings and unbounded histories", "anchors": ["streams/eos_producer.go: finalizeEventContexts, commit, eosProducerPool.commit, doForwardExecutionContexts", "streams/commit_log.go: commitRecord"]}
{"id": "C17", "title": "Output order per source partition", "statement": "Records produced while handling events of one source partition reach the broker transaction by transaction in event order: a record of a later transaction is never produced before an earlier transaction touching the same source partition has ended, and within a transaction records of one source partition are produced in the order Forward/RecordChange were called.", "quantifier": "every schedule of Forward/RecordChange calls, flushes and commits over any number of producers", "why_tests_cant": "all interleavings of buffering and ownership hand-over", "anchors": ["streams/eos_producer.go: ProduceRecord, partitionOwners, relinquishOwnership, flushPartition, flushRemaining, commit"]}
{"id": "C18", "title": "Each produced record is sent exactly once per transaction", "statement": "Every record passed to Forward/RecordChange for an event is handed to the Kafka producer exactly once, within the transaction that commits the offset of that event: never dropped when buffered, never sent twice.", "quantifier": "every schedule of calls, ownership hand-overs and commits", "why_tests_cant": "all interleavings; loss or duplication shows only in rare hand-over windows", "anchors": ["streams/eos_producer.go: ProduceRecord, flushPartition, flushRemaining, clearState, commit"]}
{"id": "C19", "title": "Exactly-once across crashes", "statement": "If the process crashes at any point and a successor resumes from the commit log once the crashed producer's open transactions have been resolved, the sequence of events in committed transactions of a partition is exactly the input sequence, each event once and in order, with its outputs committed in the same transaction.", "quantifier": "every crash point, any number of crashes, every schedule in between", "why_tests_cant": "all crash points times all schedules", "anchors": ["streams/eos_producer.go: commit, finalizeEventContexts", "streams/partition_worker.go: scheduleTxnAndExecution, work", "streams/commit_log.go: lastProcessed, Watermark", "streams/source_consumer.go: adjustOffsetsBeforeAssign"]}
{"id": "C20", "title": "Exactly-once across a live hand-over", "statement": "When a partition moves between two running consumers, no event is processed in two committed transactions.", "quantifier": "every interleaving of the old owner's in-flight transactions with the revocation, the new assignment and the new owner's start-up", "why_tests_cant": "two processes and a broker; the window depends on in-flight asynchronous work", "anchors": ["streams/source_consumer.go: revokePartitions, assignPartitions", "streams/partition_worker.go: revoke, pushRecords, waitForRevocation", "streams/eos_producer.go: commitLoop", "streams/commit_log.go: lastProcessed"]}
{"id": "C21", "title": "MaxBatchSize is a limit", "statement": "A transaction that has reached MaxBatchSize events or records accepts no further events.", "quantifier": "every sequence of events, number of records each event produces, and state of the commit queue", "why_tests_cant": "requires the record counter to jump over the limit at a moment the commit queue is full", "anchors": ["streams/eos_producer.go: shouldForceFlush, shouldTryFlush, tryFlush, doForwardExecutionContexts", "streams/eos_config.go: EosConfig.MaxBatchSize"]}
{"id": "C22", "title": "Backpressure bound", "statement": "At no time are more than MaxBatchSize*PoolSize events and interjections of one partition accepted but not complete, and every accepted event that completes gives its slot back exactly once.", "quantifier": "every schedule of arrivals, rejections, completions (sync or async)", "why_tests_cant": "all interleavings; a leaked slot shows up only after very long runs", "anchors": ["streams/partition_worker.go: maxPending, scheduleTxnAndExecution, scheduleInterjection, forwardToEventSource, handleInterjection, processAsyncJob", "streams/eos_producer.go: maxPendingItems"]}
{"id": "C23", "title": "A revoked partition shuts down only after everything accepted is resolved", "statement": "After revocation the worker stops only when every event it accepted has either been rejected unprocessed or been part of a transaction that has ended; events not yet handed to a transaction at revocation time are never processed.", "quantifier": "every schedule of revocation relative to arrivals, forwarding and commits", "why_tests_cant": "all interleavings around revocation", "anchors": ["streams/partition_worker.go: pushRecords, waitForRevocation, scheduleTxnAndExecution", "streams/eos_producer.go: doForwardExecutionContexts, addEventContext, finalizeEventContexts, clearState"]}
{"id": "C24", "title": "Stale records are filtered", "statement": "Records whose offset is below the committed watermark the partition started from are never handed to a handler, whatever the consumer delivers; records at or above it that have not been handed over yet are.", "quantifier": "every batch sequence delivered by the consumer and every watermark", "why_tests_cant": "all delivery sequences", "anchors": ["streams/partition_worker.go: scheduleTxnAndExecution, forwardToEventSource, work", "streams/source_consumer.go: adjustOffsetsBeforeAssign"]}
{"id": "C25", "title": "EosConfig acceptance", "statement": "An EosConfig is replaced by the default only if it is entirely zero; otherwise it is accepted exactly when PoolSize, PendingTxnCount, TargetBatchSize and MaxBatchSize are at least 1, BatchDelay is at least one millisecond and TargetBatchSize <= MaxBatchSize. The default itself is acceptable.", "quantifier": "every integer configuration", "why_tests_cant": "all combinations of five integers", "anchors": ["streams/eos_config.go: IsZero, validate, DefaultEosConfig", "streams/source_consumer.go: newEventSourceConsumer"]}
{"id": "C26", "title": "AsyncJobScheduler: jobs with one key never overlap", "statement": "At no time do two goroutines process jobs with the same key.", "quantifier": "every schedule of Schedule calls from any number of callers and of the scheduler's goroutines, any concurrency, queue depth and key limit", "why_tests_cant": "all interleavings of callers, workers and worker recycling", "anchors": ["streams/async_scheduler.go: scheduleItem, grabWorker, releaseWorker, work, process, enqueueWorker"]}
{"id": "C27", "title": "AsyncJobScheduler: per-key FIFO, each job once", "statement": "Jobs of one key are processed in the order in which Schedule accepted them, no job is processed twice, and each processed job's finalizer is handed to its event exactly once, in the same order.", "quantifier": "every schedule and every number of keys and jobs", "why_tests_cant": "all interleavings", "anchors": ["streams/async_scheduler.go: scheduleItem, process, advance, tryAddItem, blockingAddItem", "streams/async_item_queue.go"]}
{"id": "C28", "title": "AsyncJobScheduler: limits", "statement": "At most Concurrency jobs are processed at once and at most MaxConcurrentKeys distinct keys are active at once; the per-key queue never holds more than max(2, WorkerQueueDepth) jobs.", "quantifier": "every schedule and configuration", "why_tests_cant": "all interleavings", "anchors": ["streams/async_scheduler.go: NewAsyncJobScheduler, grabWorker, SchedulerConfig.concurrentKeys", "streams/async_item_queue.go: newAsyncItemQueue, tryEnqueue"]}
{"id": "C29", "title": "asyncItemQueue is a bounded FIFO", "statement": "The per-key queue delivers items in insertion order, loses and duplicates none, and reports done exactly when nothing is queued or waiting to be queued.", "quantifier": "every sequence of enqueue, blocked enqueue, peek and dequeue operations", "why_tests_cant": "all operation sequences", "anchors": ["streams/async_item_queue.go: tryEnqueue, enqueueChannel, dequeue, peek, backfill, done"]}
{"id": "C30", "title": "Every scheduled job is eventually processed", "statement": "As long as the scheduler is running and its processors return, every job accepted by Schedule is eventually processed, even if no further job for its key ever arrives.", "quantifier": "every schedule (progress from every reachable state)", "why_tests_cant": "a liveness claim over all interleavings; the failing window is a few instructions wide", "anchors": ["streams/async_item_queue.go: peek, dequeue, tryEnqueue", "streams/async_scheduler.go: scheduleItem, process, releaseWorker, blockingAddItem"]}
{"id": "C31", "title": "Changing MaxConcurrentKeys at run time loses nothing", "statement": "SetMaxConcurrentKeys may be called at any time with any sequence of values without losing scheduled jobs.", "quantifier": "every sequence of sizes and every state of the worker queue at the time of the call", "why_tests_cant": "requires particular queue contents at the moment of the call", "anchors": ["streams/async_scheduler.go: SetMaxConcurrentKeys, ensureWorkerChannelCapacity"]}
{"id": "C32", "title": "Scheduling on a stopped scheduler never completes an unprocessed event", "statement": "Schedule never reports Complete for an event whose job will not be processed, so such an event's offset is never committed.", "quantifier": "every state of the event source at the time of the call", "why_tests_cant": "depends on shutdown racing event handling", "anchors": ["streams/async_scheduler.go: Schedule, isClosed", "streams/event_source.go: StopNow", "streams/partition_worker.go: forwardToEventSource"]}
{"id": "C33", "title": "Asynchronous scheduling cannot deadlock a partition", "statement": "A partition worker and an AsyncJobScheduler used together always make progress: the worker is never blocked in Schedule waiting for scheduler goroutines that are themselves blocked delivering completions to that worker.", "quantifier": "every configuration and every sequence of keys", "why_tests_cant": "needs thousands of in-flight jobs in a particular key pattern", "anchors": ["streams/async_scheduler.go: scheduleItem, blockingAddItem, waitForWorker, process", "streams/partition_worker.go: asyncCompleter.AsyncComplete, work, newPartitionWorker", "streams/event_context.go: AsyncJobComplete"]}
{"id": "C34", "title": "AsyncBatcher: size and concurrency limits", "statement": "Every batch given to the BatchExecutor is non-empty and has at most maxBatchSize items, and at most maxConcurrentBatches executors run at once (both limits at least 1).", "quantifier": "every schedule of Add calls, timers and executor completions", "why_tests_cant": "all interleavings of timers and completions", "anchors": ["streams/async_batcher.go: addToExecutor, conditionallyExecuteBatch, executeBatch, NewAsyncBatcher"]}
{"id": "C35", "title": "AsyncBatcher: a key is in one execution at a time", "statement": "No key is part of two batches that are executing at the same time.", "quantifier": "every schedule", "why_tests_cant": "all interleavings", "anchors": ["streams/async_batcher.go: asyncExecutorFor, executeBatch, flushPendingItems, reset"]}
{"id": "C36", "title": "AsyncBatcher: per-key order, each item once", "statement": "Items of one key are handed to the executor in the order they were added, none twice.", "quantifier": "every schedule", "why_tests_cant": "all interleavings of pending-list flushing with new additions", "anchors": ["streams/async_batcher.go: Add, add, flushPendingItems, asyncExecutorFor, executeBatch"]}
{"id": "C37", "title": "AsyncBatcher: callback exactly once, after all items", "statement": "The callback of a BatchItems is delivered exactly once, after every one of its items has been executed; a BatchItems without items never reaches the executor but still gets its callback exactly once.", "quantifier": "every schedule, including items of one BatchItems spread over several batches", "why_tests_cant": "all interleavings of executors finishing parts of one BatchItems", "anchors": ["streams/async_batcher.go: Add, completeItem, executeBatch, NewBatchItems"]}
{"id": "C38", "title": "AsyncBatcher: completions of one key keep event order", "statement": "If two BatchItems each use a single common key, their callbacks are delivered in the order in which they were added.", "quantifier": "every schedule, with and without empty BatchItems", "why_tests_cant": "depends on what shares a batch", "anchors": ["streams/async_batcher.go: executeBatch, reset, Add"]}
{"id": "C39", "title": "AsyncBatcher: nothing gets stuck", "statement": "With both limits at least 1, from every reachable state the remaining items are all executed and all callbacks delivered by the timers and executor completions that are already pending, without further Add calls.", "quantifier": "every reachable state", "why_tests_cant": "liveness from all states", "anchors": ["streams/async_batcher.go: addToExecutor, conditionallyExecuteBatch, flushPendingItems, executeBatch"]}
{"id": "C40", "title": "Balancer: every partition has exactly one owner", "statement": "With at least one active member the balance plan contains every partition of the topic exactly once.", "quantifier": "every set of members, statuses, ownership claims (including conflicting ones), preparing/ready lists, and every map iteration order and random choice", "why_tests_cant": "unbounded group configurations and non-deterministic iteration order", "anchors": ["streams/group_state.go: newGroupState, initAssignments, balance, distributeUnassigned, deliverScheduledPartitionMoves, assignToActiveMember, unassignFromDonor", "streams/incr_rebalancer.go: balanceTopic, Balance"]}
{"id": "C41", "title": "Balancer: partitions move only to members that are ready for them", "statement": "A partition owned by a member stays with that member in the plan unless some active member has reported it ready; then it goes to such a member.", "quantifier": "every group configuration and iteration order", "why_tests_cant": "unbounded configurations", "anchors": ["streams/group_state.go: balance, deliverScheduledPartitionMoves, initReceivership"]}
{"id": "C42", "title": "Balancer: bounded preparation", "statement": "One balance issues at most one new prepare instruction, and none while any partition is already being prepared, is ready or was just distributed; the instructed member is active, does not own that partition, and the partition is owned by another member.", "quantifier": "every group configuration, iteration order and random choice", "why_tests_cant": "unbounded configurations", "anchors": ["streams/group_state.go: schedulePartitionMoves, donatePartition, isImbalanced", "streams/incr_rebalancer.go: IncrementalGroupRebalancer"]}
{"id": "C43", "title": "Balancer: members that are leaving get nothing new", "statement": "A member that has announced it is leaving is never assigned a partition it does not already own and is never told to prepare one.", "quantifier": "every group configuration in which the member reports any non-active status", "why_tests_cant": "unbounded configurations", "anchors": ["streams/group_state.go: newGroupState, initReceivership, balance", "streams/incr_rebalancer.go: MemberStatus, ParseSyncAssignment, JoinGroupMetadata"]}
{"id": "C44", "title": "Balancer: orphaned partitions go to a prepared member, else to the least loaded", "statement": "A partition that nobody owns is given to an active member that is preparing or ready for it if there is one, otherwise to an active member whose load was minimal at that moment; hence after a crash the survivors' loads stay within one of each other if they were balanced before.", "quantifier": "every group configuration and iteration order", "why_tests_cant": "unbounded configurations", "anchors": ["streams/group_state.go: distributeUnassigned, assignToActiveMember, isPreparingOrReadyFor"]}
{"id": "C45", "title": "Balancer: converges to balance", "statement": "Starting from any consistent ownership, repeating the cycle balance -> prepare -> balance -> hand over reaches, after finitely many cycles, a state in which member loads differ by at most one and no more moves are scheduled; on the way every partition always has an owner or a designated receiver.", "quantifier": "every starting ownership, number of members and partitions, random choices", "why_tests_cant": "termination over unboundedly many group states", "anchors": ["streams/group_state.go: isImbalanced, schedulePartitionMoves, balance", "streams/incr_rebalancer.go: incrementalRebalancer"]}
{"id": "C46", "title": "Balancer: leaving members drain in the order they left", "statement": "While any member is leaving and owns partitions, the balancer schedules moves away from the leaving member with the earliest departure time before touching others, until it owns nothing.", "quantifier": "every group configuration", "why_tests_cant": "unbounded configurations", "anchors": ["streams/group_state.go: schedulePartitionMoves, incrGroupInactiveLess, donatePartition"]}
{"id": "C47", "title": "TopicPartitionSet is a set", "statement": "A TopicPartitionSet behaves as a mathematical set of topic partitions under any sequence of Insert, Remove and Contains, and Items lists it in ascending order without duplicates.", "quantifier": "every operation sequence and all partition numbers", "why_tests_cant": "all histories; comparison overflow shows only for extreme values", "anchors": ["streams/topics.go: TopicPartitionSet, topicPartitionLess"]}
{"id": "C48", "title": "Graceful leave signals exactly once and only when drained", "statement": "GracefullyLeaveGroup's channel is closed at most once, only after the member announced it is leaving and received an assignment without partitions; repeated calls are harmless.", "quantifier": "every sequence of leave calls, assignments and preparation events", "why_tests_cant": "all histories; a double close is a crash", "anchors": ["streams/incr_rebalancer.go: GracefullyLeaveGroup, ParseSyncAssignment, PartitionPrepared, PartitionsAssigned"]}
{"id": "C49", "title": "State store bootstrap applies exactly the log prefix", "statement": "When a partition's bootstrap completes, its state store has received exactly the non-marker change-log records that precede the marker, in log order, each exactly once; internal markers never reach the store.", "quantifier": "every change log, every split into fetch batches, every foreign marker in the log", "why_tests_cant": "unbounded logs and batchings", "anchors": ["streams/state_store_consumer.go: stateStorePartition.handleRecordsAndContinue, isCompletionMarker, populate, prep, activate"]}
{"id": "C50", "title": "A prepared partition is activated only after its standby populator has stopped", "statement": "When a partition that was being prepared is activated, no further change-log record is applied to its store behind the worker's back.", "quantifier": "every order in which the preparation marker and the activation marker reach the log", "why_tests_cant": "depends on two goroutines racing to write markers", "anchors": ["streams/state_store_consumer.go: stateStorePartition.sync, isCompletionMarker, handleRecordsAndContinue", "streams/source_consumer.go: PrepareTopicPartition, assignPartitions"]}
{"id": "C51", "title": "One store per assignment", "statement": "Between an assignment and its revocation all users of a partition see one and the same store, created by a single call of the factory; Revoked is called once per store; a later assignment gets a new store.", "quantifier": "every sequence of assign and revoke calls for any partitions", "why_tests_cant": "all histories", "anchors": ["streams/partitioned_store.go: assign, revoke"]}
{"id": "C52", "title": "SimpleStore is a map and reports its changes", "statement": "Put, Get and Delete behave like a map keyed by the item's key, and the returned change-log entry carries exactly that key and the encoded new value (or a tombstone).", "quantifier": "every operation sequence and key", "why_tests_cant": "all histories", "anchors": ["streams/stores/simple_store.go: Put, Get, Delete, ToChangeLogEntry"]}
{"id": "C53", "title": "SimpleStore is rebuilt from its change log", "statement": "Replaying the change-log entries recorded by a SimpleStore into a fresh SimpleStore reproduces its contents.", "quantifier": "every operation sequence", "why_tests_cant": "all histories; the failing path runs only during rebalances", "anchors": ["streams/stores/simple_store.go: ReceiveChange, Put, Delete"]}
{"id": "C54", "title": "ShardedTree places each key in exactly one existing shard", "statement": "For every supported exponent, For(key) always returns the same existing tree for a key and the trees together behave as one map: a key inserted via For is found via For, and Len is the number of distinct keys.", "quantifier": "every exponent from 0 to 61, every hash function and key, every operation sequence", "why_tests_cant": "all hash values", "anchors": ["streams/stores/sharded_tree.go: NewShardedTree, For, Len, StringHash, ByteHash"]}
{"id": "C55", "title": "MinMaxHeap pops in priority order", "statement": "For any initial contents and any sequence of Push, Min, PopMin, PopMax and Max, each Min/PopMin returns an item no other item precedes, each Max/PopMax an item that precedes no other, and items are neither lost nor duplicated.", "quantifier": "every initial array and operation sequence, every strict weak order on priorities (with ties)", "why_tests_cant": "heap shapes are unbounded and the failing shapes are rare", "anchors": ["streams/stores/min_max_heap.go: NewMinMaxHeap, Push, Min, Max, PopMin, PopMax, down, up, setMax"]}
{"id": "C56", "title": "MinMaxHeap Remove and Update act on the given item", "statement": "Remove(item) removes exactly that item and Update(item) re-positions it, and afterwards the heap still pops in priority order.", "quantifier": "every heap and every item in it", "why_tests_cant": "heap shapes are unbounded; the failing shapes need at least a dozen items", "anchors": ["streams/stores/min_max_heap.go: Remove, Update, fix, remove, Push, swap"]}
{"id": "C57", "title": "sak.List refines a mathematical sequence", "statement": "Under any sequence of operations, with elements of any list (or removed ones) as arguments, the linked lists behave like sequences: contents, order, lengths and iteration in both directions agree with the specification.", "quantifier": "every operation sequence over any number of lists", "why_tests_cant": "all histories over a pointer structure", "anchors": ["streams/sak/yadll.go"]}
{"id": "C58", "title": "sak.Pool and record reuse", "statement": "A pool never holds more than its capacity and never hands out an item that is still borrowed; a Record obtained from NewRecord is always blank, whatever earlier users did with it before releasing it.", "quantifier": "every sequence of borrow, modify and release", "why_tests_cant": "all histories", "anchors": ["streams/sak/pool.go: Pool.Borrow, Pool.Release", "streams/record.go: NewRecord, Release, recordPool"]}
{"id": "C59", "title": "RunStatus hierarchy", "statement": "A RunStatus is running if and only if neither it nor an ancestor it was forked from has been halted; halting a fork never stops its parent or siblings.", "quantifier": "every tree of Fork/WithValue/Halt operations", "why_tests_cant": "all histories", "anchors": ["streams/sak/context.go"]}
{"id": "C60", "title": "OptionalPartitioner", "statement": "A record with an explicit partition goes to that partition; a record with AutoAssign goes where the topic's key partitioner sends it (override first, default otherwise).", "quantifier": "every record, topic, override map and partition count", "why_tests_cant": "all inputs", "anchors": ["streams/record.go: OptionalPartitioner, NewOptionalPartitioner, NewOptionalPerTopicPartitioner"]}
{"id": "C61", "title": "State changes stay with their partition", "statement": "Every change recorded for an event is written to the event source's change-log topic, in the partition with the same number as the event's partition, and forwarded records keep their own topic and partition.", "quantifier": "every event, every entry and record", "why_tests_cant": "all inputs", "anchors": ["streams/event_context.go: RecordChange, Forward", "streams/source.go: StateStoreTopicName"]}
{"id": "C62", "title": "BatchProducer: callback exactly once", "statement": "The callback of Produce is delivered exactly once, after every record has been acknowledged or has failed, in any order of acknowledgements; the event therefore always completes.", "quantifier": "every number of records including none, with or without callback, every order of acknowledgements", "why_tests_cant": "all acknowledgement orders", "anchors": ["streams/producer.go: BatchProducer.Produce, produceBatcher.recordComplete, produceBatcher.executeCallback"]}
{"id": "C63", "title": "Scheduled interjections keep firing", "statement": "A scheduled interjection fires again after each completed run for as long as the partition is assigned, whether it completes synchronously or asynchronously, and never twice concurrently on one partition.", "quantifier": "every sequence of timer fires and synchronous or asynchronous completions", "why_tests_cant": "unbounded time", "anchors": ["streams/interjection.go: tick, cancel, interject", "streams/partition_worker.go: handleInterjection, processAsyncJob"]}
{"id": "C64", "title": "One-off interjections always report back", "statement": "The error channel returned by Interject / InterjectAll is always resolved, even when the partition is revoked before the interjection could run.", "quantifier": "every interleaving of Interject with revocation", "why_tests_cant": "depends on revocation racing the interjection", "anchors": ["streams/source_consumer.go: interject, forEachChangeLogPartitionAsync", "streams/partition_worker.go: scheduleInterjection, handleInterjection"]}
{"id": "C65", "title": "Interjection jitter bounds", "statement": "The delay until the next run lies between every-|jitter| and every+|jitter|.", "quantifier": "every interval, jitter and random draw", "why_tests_cant": "all random draws", "anchors": ["streams/interjection.go: timerDuration"]}
{"id": "C66", "title": "Topic configuration defaults", "statement": "Replication factor, min-insync-replicas and commit-log partition count used to create topics are always valid: at least 1, and min-insync-replicas never above the replication factor; a configured valid value is kept.", "quantifier": "every configuration", "why_tests_cant": "all integer configurations", "anchors": ["streams/source.go: replicationFactorConfig, minInSyncConfig, commitLogPartitionsConfig"]}
{"id": "C67", "title": "Source resolution makes partition counts agree", "statement": "If CreateSource succeeds, the change log has exactly as many partitions as the source topic and the commit-log partition count in use is the one of the existing commit-log topic; if the counts of existing topics disagree an error is returned.", "quantifier": "every combination of existing/missing topics and partition counts", "why_tests_cant": "all cluster states", "anchors": ["streams/topics.go: resolveOrCreateTopics, CreateSource"]}
{"id": "C68", "title": "Topic creation failures are returned, not fatal", "statement": "CreateSource and CreateDestination return an error when the cluster reports one; they never crash the process on a non-network error, and on success the destination topic exists.", "quantifier": "every kind of error at every attempt", "why_tests_cant": "all error values", "anchors": ["streams/topics.go: isNetworkError, CreateSource, CreateDestination"]}
{"id": "C69", "title": "MSK client configuration", "statement": "For each authentication type the MSK cluster selects the matching bootstrap broker list, returns an error if it is missing, and for IAM authentication supplies the retrieved credentials.", "quantifier": "every auth type, AWS answer and credential answer", "why_tests_cant": "all answers of external services", "anchors": ["msk/cluster.go: Config, getBootstrapBrokers, saslIamAuth"]}
{"id": "C70", "title": "Metrics never interfere with processing", "statement": "Emitting a metric never blocks event processing and never crashes it: when the metric buffer is full or metrics have been shut down the metric is dropped.", "quantifier": "every interleaving of emission, consumption and shutdown", "why_tests_cant": "depends on a slow metrics handler or on shutdown timing", "anchors": ["streams/event_source.go: EmitMetric, emitMetrics", "streams/eos_producer.go: clearState metrics", "streams/metric.go"]}
{"id": "C71", "title": "Log level filtering", "statement": "A message is passed to the underlying logger if and only if its level is at or above the configured level (and never when logging is disabled); wrapping with another level can only suppress more.", "quantifier": "every level and every nesting of wrappers", "why_tests_cant": "all nestings", "anchors": ["streams/log.go: SimpleLogger, WrapLogger, logWrapper"]}
{"id": "C72", "title": "sak numeric and slice helpers", "statement": "Min, Max, MinN and MaxN return the extreme of their arguments, Abs the absolute value, MapKeysToSlice/MapValuesToSlice/MapCopy the keys/values/contents of the map, and ToPtrSlice pointers to copies in order.", "quantifier": "every argument list and map", "why_tests_cant": "all inputs; Abs has one overflowing input", "anchors": ["streams/sak/util.go"]}
{"id": "C73", "title": "A record without a matching handler never crashes the consumer", "statement": "A record whose type matches no registered handler is handled without crashing the process, also when the event source was created without a default processor.", "quantifier": "every record type, every registration list, default processor present or nil", "why_tests_cant": "universally quantified over incoming data, which other services control", "anchors": ["streams/event_source.go: handleEvent, NewEventSource"]}
{"id": "C74", "title": "Internal topic names identify their event source", "statement": "Two event sources whose consumer group or source topic differ never share a generated change-log topic, two groups never share a commit log, and a commit log is never mistaken for a generated change log.", "quantifier": "every pair of group ids and topic names", "why_tests_cant": "a collision needs particular pairs of names; when it happens two applications overwrite each other's state", "anchors": ["streams/source.go: CommitLogTopicNameForGroupId, StateStoreTopicName"]}
{"id": "C75", "title": "MSK client uses the named cluster", "statement": "The bootstrap brokers used by the MSK cluster are those of the MSK cluster whose name was configured, and an error is returned when there is no such cluster.", "quantifier": "every configured name and every list of clusters in the account", "why_tests_cant": "needs particular pairs of cluster names; when it happens events are produced to another cluster", "anchors": ["msk/cluster.go: getClusterArn"]}
{"id": "C76", "title": "The change-log consume goroutine survives the end of a bootstrap", "statement": "The one goroutine that reads the change log for all partitions never panics and never blocks for ever because the bootstrap of a partition ended or was cancelled.", "quantifier": "every interleaving of the consume goroutine with the populators and cancelPartition", "why_tests_cant": "needs a batch in flight at the moment a completion marker is handled; the panic is a send on a closed channel in a window of a few instructions", "anchors": ["streams/state_store_consumer.go: stateStoreConsumer.consume, stateStorePartition.add, kill, isCompletionMarker"]}
{"id": "C77", "title": "Bootstrap terminates", "statement": "Every call of stateStorePartition.sync made by a partition worker returns after finitely many steps of the consume goroutine and the populator.", "quantifier": "every change log, batching, interleaving, and failure of writing the marker", "why_tests_cant": "liveness; needs a produce error at one particular moment", "anchors": ["streams/state_store_consumer.go: stateStorePartition.sync, sendMarkerMessage, populate, stateStoreConsumer.consume"]}
{"id": "C78", "title": "A failed commit loses no event", "statement": "When a transaction cannot be committed, whatever the commit error handler answers, no later transaction commits a resume offset past an event of the failed one, and the pool keeps accepting events as long as the answer is Continue.", "quantifier": "every failure of every transaction and every answer of the error handler", "why_tests_cant": "a commit failure followed by an answer other than the default one is needed; the loss shows up only in the consumer that resumes later", "anchors": ["streams/eos_producer.go: commitLoop, commit"]}
{"id": "C79", "title": "A worker hands over each record once", "statement": "A worker hands a record to a handler at most once, even when the consumer delivers it again, and hands records over in the order of delivery.", "quantifier": "every sequence of batches the consumer delivers and every interleaving with the handlers", "why_tests_cant": "depends on a redelivery racing the handler", "anchors": ["streams/partition_worker.go: scheduleTxnAndExecution, forwardToEventSource"]}
{"id": "C80", "title": "Closing a worker never panics", "statement": "The channels that a revoked worker closes are never sent on afterwards: neither by the poll loop adding records nor by an asynchronous completion.", "quantifier": "every interleaving of the poll loop, the revocation, the handlers, the completions and the pool", "why_tests_cant": "the window between the check and the send is a few instructions wide", "anchors": ["streams/partition_worker.go: add, pushRecords, waitForRevocation, processAsyncJob"]}
{"id": "C81", "title": "A member does not announce preparations of what it already owns", "statement": "A member never tells the group leader that it is preparing, or has prepared, a partition it is already working on; in particular an ended preparation of a partition that was assigned meanwhile does not hold up all further moves in the group.", "quantifier": "every history of assignments, revocations, instructions and ends of preparations of one member, and every group it is in", "why_tests_cant": "needs the crash of another member while a preparation is running, and then shows only as moves that do not happen", "anchors": ["streams/incr_rebalancer.go: PartitionPrepared, PartitionsAssigned, ParseSyncAssignment, userData", "streams/source_consumer.go: PrepareTopicPartition, assignPartitions", "streams/group_state.go: initReceivership, balance"]}
{"id": "C82", "title": "Forget instructions give up exactly the named preparations", "statement": "When a member is told to forget partitions, the consumer gives up its preparations of exactly these.", "quantifier": "every history and every list of partitions to forget, every scheduling of the goroutines", "why_tests_cant": "the loop variable is shared with the goroutines; which value they see depends on scheduling", "anchors": ["streams/incr_rebalancer.go: ParseSyncAssignment", "streams/source_consumer.go: ForgetPreparedTopicPartition"]}
{"id": "C83", "title": "An announced preparation is in progress", "statement": "As long as a member tells the leader that it is preparing a partition, a goroutine that prepares it exists, or the partition is announced as ready as well: the group never waits for a preparation that nobody carries out.", "quantifier": "every history of one member", "why_tests_cant": "all histories; the symptom is a group that waits for ever", "anchors": ["streams/incr_rebalancer.go: ParseSyncAssignment, PartitionPrepared, PartitionsAssigned", "streams/source_consumer.go: PrepareTopicPartition, ForgetPreparedTopicPartition, assignPartitions"]}
{"id": "C84", "title": "Every offered balance strategy works", "statement": "A consumer configured with any non-empty selection of the offered balance strategies can be assigned partitions without a nil dereference.", "quantifier": "every list of strategies, every assignment", "why_tests_cant": "needs a configuration other than the default one", "anchors": ["streams/balancer_options.go: toGroupBalancers, DefaultBalanceStrategies", "streams/source_consumer.go: newEventSourceConsumer, assignPartitions"]}
{"id": "C85", "title": "Done means stopped", "statement": "When Done() yields, the run status has been halted, the kafka client is closed, every partition ever assigned has been given up again, and no partition is assigned any more.", "quantifier": "every interleaving of calls of Stop, StopNow, Interject and Done, of group events, and of transaction errors", "why_tests_cant": "Stop, StopNow and closeOnFail can all run at the same time; a wrong order shows only in an application that exits at that moment", "anchors": ["streams/event_source.go: Stop, StopNow, Done, closeOnFail", "streams/source_consumer.go: leave, stop, revokePartitions"]}
{"id": "C86", "title": "Everyone who waits for Done is released", "statement": "Once the consumer has been stopped, every goroutine waiting on Done(), in WaitForSignals or in WaitForChannel goes on.", "quantifier": "every number of waiting goroutines and every interleaving of stop calls", "why_tests_cant": "liveness; needs more than one waiting goroutine", "anchors": ["streams/event_source.go: Done, Stop, StopNow, WaitForSignals, WaitForChannel, NewEventSource"]}
{"id": "C87", "title": "StopNow returns", "statement": "Every call of StopNow returns after finitely many steps of the consumer itself.", "quantifier": "every interleaving with the workers, the group, and calls of Interject", "why_tests_cant": "liveness; a deadlock needs two interjections in the moment between halting the workers and closing the client", "anchors": ["streams/event_source.go: StopNow, Interject", "streams/source_consumer.go: interject, stop, revokePartitions", "streams/partition_worker.go: pushRecords, canInterject"]}
{"id": "C88", "title": "An unrecoverable transaction error stops the consumer", "statement": "After the transaction error handler has answered anything but Continue, State() is Unhealthy, the consumer halts its workers and gives up all partitions, and with FatallyExit the process ends; without such an answer State() stays Healthy and the consumer goes on until Stop or StopNow is called.", "quantifier": "every sequence of errors and answers and every interleaving with stop calls and interjections", "why_tests_cant": "needs a transaction failure at a particular moment of a rebalance, an interjection or a shutdown", "anchors": ["streams/eos_producer.go: commitLoop", "streams/source.go: fail, State", "streams/event_source.go: closeOnFail, StopNow, State"]}
{"id": "C89", "title": "A taken-over partition is read from the right place", "statement": "In a group of event sources whose committed resume points do not go back, a consumer that is assigned a partition hands to its handlers, in order and without a gap, the input from a resume point on that is not below any commit made before its marker was written, however far its view of the commit log was behind when the partition was assigned.", "quantifier": "every commit history, every lag of the local commit log at the moment of the assignment, every interleaving of fetching with the sync", "why_tests_cant": "the fetch position is chosen from a cached watermark before the sync; a lag at that moment is needed, and a gap would show as one missing event", "anchors": ["streams/source_consumer.go: adjustOffsetsBeforeAssign", "streams/commit_log.go: lastProcessed, Watermark", "streams/partition_worker.go: work, scheduleTxnAndExecution"]}
{"id": "C90", "title": "Migration does not repeat events", "statement": "With CommitOffsets, when a partition comes back from a consumer of another kind, no event is processed that the group's committed offset says is done.", "quantifier": "every history of commits by both kinds of consumers", "why_tests_cant": "needs a roll-back and a second roll-out of a migration, or a mixed fleet with rebalances", "anchors": ["streams/source_consumer.go: adjustOffsetsBeforeAssign", "streams/eos_producer.go: clearState", "streams/source.go: SourceConfig"]}
{"id": "C91", "title": "The library's mutexes never deadlock", "statement": "Whichever functions of the consumer and the incremental balancer run at the same time, in any interleaving, each one gets the mutexes it waits for: as long as one has not ended some goroutine can go on, and all of them end.", "quantifier": "every number of concurrent calls of every function that takes a mutex, every interleaving, also with callbacks of the application that use the public interface", "why_tests_cant": "a deadlock needs a particular interleaving of the client's goroutines, rebalances and application calls", "anchors": ["streams/source_consumer.go: assignPartitions, revokePartitions, receive, interject, PrepareTopicPartition, ForgetPreparedTopicPartition", "streams/incr_rebalancer.go: ParseSyncAssignment, PartitionsAssigned, PartitionPrepared, userData, GracefullyLeaveGroup", "streams/state_store_consumer.go: preparePartition, cancelPartition, stop", "streams/partitioned_store.go: assign, revoke"]}
{"id": "C92", "title": "Workers and the producer pool never block each other", "statement": "As long as handlers and asynchronous jobs end and commits succeed, every event and interjection that a worker has accepted is eventually completed and committed: the bounded channels between workers, producer pool and commit loop never leave them waiting for each other for good.", "quantifier": "every configuration with valid sizes, any number of partitions, every interleaving of workers, pool and commit loop", "why_tests_cant": "needs a cycle of waits through two channels of a worker, the pool buffer and the commit queue, at the moment both channels are ready", "anchors": ["streams/partition_worker.go:141-209", "streams/partition_worker.go:240-303", "streams/eos_producer.go:135-252"]}
{"id": "C93", "title": "Populators end", "statement": "When the bootstrap of a partition is over, because its worker's marker was read or its preparation was forgotten or its assignment was revoked, the goroutine that filled the store ends.", "quantifier": "every change log, every interleaving of group callbacks, sync calls, consume goroutine and populators", "why_tests_cant": "a leaked goroutine fails no test; it needs a revoke during a bootstrap and another assignment", "anchors": ["streams/state_store_consumer.go:76-86", "streams/state_store_consumer.go:130-144", "streams/state_store_consumer.go:165-173", "streams/source_consumer.go:225-242"]}
{"id": "C94", "title": "A revoked store receives nothing", "statement": "After the store of a partition has been told that it is revoked, no change is given to it.", "quantifier": "every change log, every interleaving of group callbacks, sync calls, consume goroutine and populators", "why_tests_cant": "needs a revoke while the partition is being bootstrapped", "anchors": ["streams/source_consumer.go:225-242", "streams/partitioned_store.go:90-101", "streams/state_store_consumer.go:165-192"]}
{"id": "C95", "title": "A newly assigned partition learns its starting offset", "statement": "Asking the commit log for the starting offset of a partition always returns: the marker it waits for is received after finitely many records, whatever other partitions, instances and transactions do, even if writing the marker fails or the log is compacted.", "quantifier": "every interleaving of commits, marker writes (successful or not) by any number of syncs and instances, compaction and consumer progress", "why_tests_cant": "needs a failed produce call or compaction between the marker and the consumer; the call then never returns", "anchors": ["streams/commit_log.go: lastProcessed, syncCommitLogPartition, closeSyncRequest", "streams/state_store_consumer.go: sendMarkerMessage"]}
{"id": "C96", "title": "Compaction while a partition is taken over does not change its starting offset", "statement": "The starting offset a newly assigned partition learns reflects every commit record written before its marker even if the broker compacts the commit log while it is being read.", "quantifier": "every interleaving of commits, marker writes, compaction and consumer progress; one source topic", "why_tests_cant": "the broker compacts at times a test cannot control", "anchors": ["streams/commit_log.go: newEosCommitLog, lastProcessed, ReceiveChange, commitRecord"]}
{"id": "C97", "title": "A partition that is being taken over does not hold up the others", "statement": "While the worker of a newly assigned partition waits for the commit log and its state store, the poll loop never stands still on account of that partition, so the other partitions of the consumer keep receiving their records.", "quantifier": "every sequence of assignments, revocations and polls and every interleaving of the workers with the poll loop", "why_tests_cant": "needs the goroutine of the new worker to be slow, or a partition to be reassigned while its earlier worker is still waiting", "anchors": ["streams/partition_worker.go: work, add, newPartitionWorker", "streams/source_consumer.go: receive, start, assignPartitions"]}
{"id": "C98", "title": "A slow handler holds up only its own partition", "statement": "If the handler of one partition takes long, or never returns, the records of the other partitions of the consumer continue to reach their handlers.", "quantifier": "every number of partitions, every capacity of the buffers, every sequence of polls and every interleaving", "why_tests_cant": "a test with short batches never fills the buffers", "anchors": ["streams/partition_worker.go: add, pushRecords, scheduleTxnAndExecution, work", "streams/source_consumer.go: receive, start"]}
{"id": "C99", "title": "A global change log gets everything once and in order", "statement": "Once started, a GlobalChangeLog gives its receiver every record of every partition of its topic, from the beginning, each exactly once, and the records of one partition in the order of their offsets.", "quantifier": "every number of partitions, every sequence of writes and of calls of Start and Pause, every way in which polls cut the partitions into batches", "why_tests_cant": "all interleavings of writes, polls and calls; lost or repeated records show only for certain cuts", "anchors": ["streams/global_change_log.go: NewGlobalChangeLogWithRunStatus, Start, consume, forwardChange"]}
{"id": "C100", "title": "Pausing and resuming a global change log", "statement": "After Pause or PauseAllPartitions has returned the receiver gets nothing of a paused partition until it is resumed, and after ResumePartitionAt has returned the next record of the partition it gets is the one at the given offset, followed by the ones after it.", "quantifier": "every moment of the call relative to the consuming goroutine", "why_tests_cant": "needs the call to fall into the handling of a batch", "anchors": ["streams/global_change_log.go: Pause, PauseAllPartitions, ResumePartitionAt, consume"]}
{"id": "C101", "title": "A stopped global change log ends", "statement": "After Stop the goroutine of a GlobalChangeLog forwards at most the records of the poll it is in, then ends, and the kafka client is closed.", "quantifier": "every moment of the call, every number of calls of Start", "why_tests_cant": "liveness and all moments of the call", "anchors": ["streams/global_change_log.go: Stop, consume"]}
{"id": "C102", "title": "A consumer leaves gracefully exactly if its group uses the incremental protocol", "statement": "Stop asks the incremental balancer to hand over the partitions if that is the protocol the group uses, and leaves at once otherwise.", "quantifier": "every list of balance strategies, every protocol the group may have chosen from it, every answer of the broker", "why_tests_cant": "needs a broker that fails or a group that is rebalancing at the moment of the call", "anchors": ["streams/source_consumer.go: currentProtocolIsIncremental, leave, newEventSourceConsumer", "streams/balancer_options.go: toGroupBalancers"]}
{"id": "C103", "title": "An idle batcher holds nothing", "statement": "When every batch handed to an AsyncBatcher has been completed and nothing is running or waiting, the batcher keeps no item and no key of them: executors, pending list and key assignments are empty.", "quantifier": "every interleaving of additions, executor calls, completions and timers; every batch, including batches without items for a key", "why_tests_cant": "a leak of one map entry per key shows only after days of traffic with changing keys", "anchors": ["streams/async_batcher.go: reset, addToExecutor, asyncExecutorFor, executeBatch"]}
{"id": "C104", "title": "A batcher makes an item wait only for executor calls", "statement": "An item added to an AsyncBatcher is put on the pending list only if a call of the executor for the same key is running or the configured number of concurrent batches is running.", "quantifier": "every interleaving of additions, executor calls, completions and timers", "why_tests_cant": "the waiting item is processed later anyway, so only its latency tells", "anchors": ["streams/async_batcher.go: add, asyncExecutorFor, addToExecutor, reset"]}
{"id": "C105", "title": "Partition callbacks come in order", "statement": "For every partition the callbacks of a source are called in the order OnPartitionAssigned, OnPartitionActivated, OnPartitionWillRevoke, OnPartitionRevoked, and then from the start again when the partition comes back; OnPartitionActivated is called at most once for each assignment.", "quantifier": "every sequence of rebalances, every interleaving of the goroutines of the workers with the calls of the group", "why_tests_cant": "the worker goroutines race with the goroutine of the group; the order is wrong only for short bootstraps or for revocations during a bootstrap", "anchors": ["streams/source.go: SourceConfig, onPartitionsAssigned, onPartitionWillRevoke, onPartitionsRevoked, onPartitionActivated", "streams/source_consumer.go: assignPartitions, revokePartitions", "streams/partition_worker.go: work"]}
{"id": "C106", "title": "No handler runs before its partition is activated", "statement": "When OnPartitionActivated is called the commit log and the state store of the partition are ready, and no event of the partition is handled before the callback has been called.", "quantifier": "every sequence of rebalances, every interleaving of records, producers and worker goroutines", "why_tests_cant": "records are scheduled before the callback is called, so that the order depends on timing", "anchors": ["streams/source.go: SourceConfig", "streams/partition_worker.go: work, pushRecords, scheduleTxnAndExecution, handleEvent"]}
{"id": "C107", "title": "OnPartitionRevoked is called after processing has stopped", "statement": "When OnPartitionRevoked is called for a partition no event of it is being handled and none is handled afterwards until the partition is assigned again, as documented for the callback.", "quantifier": "every moment of a revocation, every number of scheduled events", "why_tests_cant": "needs a revocation while handlers are at work", "anchors": ["streams/source.go: SourceConfig", "streams/source_consumer.go: revokePartitions", "streams/partition_worker.go: revoke, handleEvent, waitForRevocation", "streams/eos_producer.go: doForwardExecutionContexts"]}
{"id": "C108", "title": "The revocation callbacks enclose the revocation", "statement": "When a partition is revoked OnPartitionWillRevoke is called before the worker and the state store of the partition are told, and OnPartitionRevoked after both have been told.", "quantifier": "every sequence of rebalances with any number of partitions, every interleaving with the workers", "why_tests_cant": "a test would have to see the internal calls and to revoke several partitions at once", "anchors": ["streams/source_consumer.go: revokePartitions", "streams/source.go: SourceConfig"]}
{"id": "C109", "title": "InterjectAll reaches every active partition once", "statement": "InterjectAll and InterjectAllSync run the interjector once for every partition that is assigned when the call is made: each partition of this list is tried once, the interjector is run for it by its own worker after its state has been read, and when the call returns it has ended for every partition, except for those for which an error has been logged because the partition had been revoked or its worker was not ready when its turn came. Nothing is run for other partitions.", "quantifier": "every number of partitions, every interleaving of the call with assignments, revocations, other interjections and the workers", "why_tests_cant": "needs rebalances during the call, and workers that are just starting", "anchors": ["streams/event_source.go: InterjectAll, InterjectAllSync", "streams/source_consumer.go: forEachChangeLogPartitionSync, forEachChangeLogPartitionAsync, interject", "streams/partition_worker.go: pushRecords, scheduleInterjection, handleInterjection"]}
{"id": "C110", "title": "InterjectAllSync runs one interjection at a time", "statement": "During InterjectAllSync an interjection begins only after all those begun before it have ended, so that the interjector may use shared data without locks, as its documentation says.", "quantifier": "every number of partitions, every interleaving of the call with assignments, revocations, other interjections and the workers", "why_tests_cant": "a data race needs two workers at the same moment", "anchors": ["streams/event_source.go: InterjectAllSync", "streams/source_consumer.go: forEachChangeLogPartitionSync, interject"]}
{"id": "C111", "title": "InterjectAll returns", "statement": "A call of InterjectAll or InterjectAllSync returns when the workers keep working.", "quantifier": "every number of partitions, every interleaving of the call with assignments, revocations, other interjections and the workers", "why_tests_cant": "needs a revocation between the acceptance of an interjection and its execution", "anchors": ["streams/source_consumer.go: forEachChangeLogPartitionSync, forEachChangeLogPartitionAsync, interject", "streams/partition_worker.go: pushRecords, scheduleInterjection"]}
{"id": "C112", "title": "WaitForSignals stops the source only after the hook has accepted a signal", "statement": "WaitForSignals calls the hook only for wanted signals that have arrived (SIGINT and SIGHUP if none are given), in the order of their arrival and one call at a time; Stop is called once, after the hook has returned true (a nil hook accepts everything), the hook is not called after that, and the call returns only after Stop has been called and Done has had a value.", "quantifier": "every hook, every list of signals, every sequence of arrivals at every moment of the call", "why_tests_cant": "signals during the hook, after its acceptance and during the shutdown arrive at arbitrary moments", "anchors": ["streams/event_source.go: WaitForSignals"]}
{"id": "C113", "title": "Every signal that the hook accepts closes the source", "statement": "When a wanted signal for which the hook returns true arrives during WaitForSignals, the call goes on to Stop, as in the example of its documentation (SIGINT and SIGHUP close, SIGUSR1 does not).", "quantifier": "every hook, every list of signals, every sequence of arrivals at every moment of the call", "why_tests_cant": "a signal is lost only if it arrives while the hook is at work and another signal waits", "anchors": ["streams/event_source.go: WaitForSignals"]}
{"id": "C114", "title": "A record without topic goes to the default topic of its producer, one without partition where the partitioner says", "statement": "Produce and ProduceAsync send a record to the topic that the user has set with WithTopic, and if none was set to the DefaultTopic of the Destination of the producer that is called; to the partition that the user has set with WithPartition, and if none was set to the one that the client's partitioner chooses for this call.", "quantifier": "every number of producers and records, every order of the calls and of the answers of the client, records used more than once", "why_tests_cant": "tests produce each record once, with one producer", "anchors": ["streams/producer.go: Produce, ProduceAsync", "streams/record.go: WithTopic, WithPartition, toKafkaRecord"]}
{"id": "C115", "title": "Produce and the callback of ProduceAsync report the outcome of their own record, once", "statement": "ProduceAsync calls its callback exactly once when the client has answered and not before, with the error that the client has given for this record; Produce returns then and not before, with this error; a call sends its record at most once.", "quantifier": "every number of producers and records, every order of the calls and of the answers of the client", "why_tests_cant": "needs answers in another order than the calls and records that fail before they are sent", "anchors": ["streams/producer.go: Produce, ProduceAsync"]}
{"id": "C116", "title": "DeleteSource deletes the topics of its source, only these, and says if it could not", "statement": "DeleteSource deletes the topic of the source, its commit log and its change log, no other topic and none that another source needs; when one of them could not be deleted it returns an error.", "quantifier": "every configuration, every set of existing topics on any number of clusters, every answer of the admin clients", "why_tests_cant": "needs clusters that refuse the deletion, and other sources on the same cluster", "anchors": ["streams/topics.go: DeleteSource", "streams/source.go: CommitLogTopicNameForGroupId, StateStoreTopicName, stateCluster"]}
{"id": "C117", "title": "HeaderValue gives the value that was set last, and agrees with RecordType", "statement": "HeaderValue(name) of the record that a consumer gets is the value of the last WithHeader(name, value) of its producer, nil if there is none; for the name of the record type header it is the RecordType() of the record.", "quantifier": "every sequence of builder calls, every name and value; every record of a topic for the record type", "why_tests_cant": "tests set each header once", "anchors": ["streams/record.go: HeaderValue, WithHeader, toKafkaRecord, newIncomingRecord, SetRecordType"]}
{"id": "C118", "title": "WaitForChannel stops its source when the channel says so, and calls back when the source has ended", "statement": "A call of WaitForChannel calls Stop only after the channel was closed or has had a value for it, and each value lets one of the waiting calls go on; it calls its callback (if not nil) once and returns, in this order, only after Stop and after the source has ended; when the channel is closed and the sources end, every call returns, also when several calls share the channel.", "quantifier": "every number of calls and sources, every interleaving of them with sends, the close, the ends of the sources, StopNow and other receivers of Done", "why_tests_cant": "needs several calls at different places at the moment of the close", "anchors": ["streams/event_source.go: WaitForChannel, Stop, StopNow, Done"]}
{"id": "C119", "title": "With CommitOffsets the consumer group is never committed past what the transactions have committed", "statement": "With SourceConfig.CommitOffsets an offset is marked for the group commit only when the transaction of its event has been committed, and without it none is marked; interjections are never marked; every accepted event of the partition at or below a marked offset is complete and in a committed transaction; the offset of the group is never ahead of the last committed resume offset of the commit log, and equal to it as long as no commit fails.", "quantifier": "every execution of the pool of producers: any interleaving of workers, handlers, the forwarding goroutine and the commit loop, any number of partitions, producers and transactions, any failure of a commit and any answer of the error handler", "why_tests_cant": "needs many transactions of several partitions in flight and a failure between two of them", "anchors": ["streams/eos_producer.go: clearState, commit, finalizeEventContexts", "streams/source.go: shouldMarkCommit", "streams/source_consumer.go: newEventSourceConsumer"]}
{"id": "C120", "title": "When syncAll has returned, the commit log of every partition has been read", "statement": "When syncAll has returned, that is before the consumer polls for records, the watermark of every source partition is the resume offset of at least all commits that were in the commit log when syncAll was called; syncAll returns.", "quantifier": "every number of commit-log partitions and of source partitions of one topic, every interleaving of the syncs of syncAll with other syncs, with commits and markers of any instance, with the consumer and with the compaction of the log; every failure to write a marker", "why_tests_cant": "needs several partitions whose markers and commits interleave with the consumer in many orders, and compaction at the wrong moment", "anchors": ["streams/commit_log.go: syncAll, syncCommitLogPartition, closeSyncRequest, Watermark", "streams/source_consumer.go: start"]}
