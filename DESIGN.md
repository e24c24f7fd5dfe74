# Formal model of go-kafka-event-source: design

Subject: `/repo` (aws/go-kafka-event-source), read as text.  Model and proofs: `/verif/rocq/theories`
(logical root `Verif`), Coq 8.16.1 with std++.  Properties: `/verif/properties.jsonl`.
Status per property: `/verif/MANIFEST.json`.  Mutation log: `/verif/seeded/LOG.jsonl`.

## Layout

One directory per component.  Inside each:

* `Model.v`  – Gallina transcription of the Go code, definition by definition, each with a comment
  giving file and lines in `/repo` and the simplifications made.
* `Proofs.v` and other files – lemmas, invariants; specifications that need their own vocabulary are
  defined there without the model's helpers.
* `Props.v`  – only the property theorems (`exact lemma`), `Print Assumptions`, and `Example`s showing
  concrete non-trivial instances of each theorem's hypotheses.

Naming: `cNN_...` is a theorem for property CNN.  `cNN_..._partial` proves a weaker statement, the
comment says what is missing.  `cNN_..._refuted` proves that the statement of CNN is false of the
model (hence, to the extent the model is faithful, of the code) by exhibiting a witness; such a
property is always listed as `partial` in the manifest together with the strongest positive
statement found.

## Modelling conventions

* Go `int`/`int64`/`int32` are `Z`; wrap-around is modelled explicitly wherever the code can
  overflow and it matters (codecs, comparisons by subtraction, `Abs`), otherwise the range hypothesis is
  part of the theorem.  The platform is 64-bit little-endian.
* Byte strings and Go strings are `list byte`.
* Slices and channels are lists (plus capacity); maps are `gmap`s; map iteration order is an oracle
  (the theorem quantifies over every order); `rand` is an oracle.
* Pointers to mutable structs are identifiers into an explicit store where aliasing matters
  (linked list, heap item handles, event contexts); otherwise values.
* Goroutines: an explicit-step transition system `step : state -> action -> option state`; a schedule
  is a list of actions; "every schedule" is "every list of actions the step function accepts".
  Critical sections under one mutex are one step; everything between two lock/channel operations
  is one step.  Go's memory model subtleties (data races on plain fields) are not modelled unless stated.
* A Go panic / nil dereference / out-of-bounds access is an explicit result.
* External systems (Kafka broker, franz-go client, google/btree, AWS SDK, clocks) are not verified. Their
  behaviour is either an explicit part of the model (a log, a transaction that is atomic, a sorted list) or an oracle.

## Trusted base

* The Coq 8.16.1 kernel (including `vm_compute` conversion used for concrete witnesses).
* Assumptions printed by `Print Assumptions` for each theorem: recorded per theorem below
  ("Print Assumptions results"); the aim is "Closed under the global context" for all of them.
* The faithfulness of `Model.v` files to `/repo` (comments cite lines), and the modelling conventions above.
* std++ definitions appearing in statements (`gmap`, `Permutation`, list operations).

## Per-property plan

| Prop | Model dir | Approach |
|------|-----------|----------|
| C01 | Codec | little-endian encoder/decoder over Z mod 2^64; inverse by induction on byte count |
| C02 | Codec | bias arithmetic with explicit wrap; case split on sign |
| C03 | Codec | expected false (LittleEndian): witness 255/256; positive part: all pairs with a<=0<b, and all pairs within one low byte |
| C04 | Codec | decode with explicit Panic/OutOfBounds results; expected false for inputs shorter than 8 bytes; positive: total for >= 8 bytes |
| C05 | CommitLog | key/value encoders composed with decoders; injectivity |
| C06 | CommitLog | fold over the log; compaction as a sublist relation keeping the last record per key |
| C07 | CommitLog | transition system (append commit, start sync, write or lose the marker, consume or skip one record); invariant on waiting syncs; for logs that are not compacted meanwhile |
| C08 | CommitLog | expected false: two-record witness; positive: single-topic logs |
| C09 | CommitLog | arithmetic |
| C10 | Routing | linked chain of processors refined to "first match in registration order" |
| C11 | Record | header list algebra |
| C12 | Record | expected false; positive: key/value copied |
| C13 | Routing | expected false (wrong nil test); positive: Continue completes |
| C14 | Record | expected false: spoofed header; positive: characterisation |
| C15–C18 | Eos | transition system of pool, nodes, commit loop, workers; layered inductive invariants over all schedules (structure, handed-out nodes, ownership, finalization, revocation) |
| C19 | Eos | sequence of processes, each cut at any point, each fed from the last committed resume offset |
| C20 | Eos | expected false: two-owner schedule; positive: under "transactions resolved before the sync marker" (C19) |
| C21 | Eos | expected false: count jumps past MaxBatchSize; positive: bound when no event produces more than one record |
| C22 | Worker | counting invariant over schedules |
| C23 | Eos | WaitGroup accounting invariant |
| C24 | Worker | invariant over deliveries |
| C25 | Config | decision procedure equivalence |
| C26–C28 | Scheduler | transition system of callers, goroutines, worker objects; inductive invariant |
| C29 | ItemQueue | refinement to a list queue |
| C30 | Scheduler | expected false: lost wake-up in peek; reachable livelock witness; positive: progress when no enqueue is ever refused |
| C31 | Scheduler | expected false: shrink-then-grow drops queued workers; positive: growing only |
| C32 | Scheduler | expected false; positive: Complete only if closed |
| C33 | Scheduler | expected false: reachable deadlock of worker + scheduler; positive: no deadlock if outstanding jobs fit the completion channel |
| C34–C37, C39 | Batcher | transition system with timers; inductive invariant; measure for progress |
| C38 | Batcher | expected false with placeholders; positive without placeholders |
| C40–C44, C46 | Balancer | executable transcription of group_state.go parameterised by iteration orders; invariants of the plan |
| C45 | Balancer | group cycle, sum-of-squares measure |
| C47 | TopicPartitions | sorted-list model of the B-tree, wrap-around comparison; false for extreme int32, true for partitions >= -1 |
| C48 | Balancer (Member.v) | member-side state machine |
| C49, C50 | StateStore | log consumer state machine; C50 expected false if markers reach the log in the other order |
| C51 | StateStore | map of stores with factory counter |
| C52, C53 | SimpleStore | map refinement; C53 expected false (inverted error test) |
| C54 | ShardedTree | masks and refinement to one map |
| C55, C56 | Heap | array model; heap invariant; Max-then-Push, Remove, Update expected false; New/Push/Min/PopMin/PopMax positive |
| C57 | DList | pointer store refinement to sequences |
| C58 | Pool | freelist with ownership invariant; record reset |
| C59 | RunStatus | context tree |
| C60, C61 | Record | case analysis |
| C62 | BatchProducer | countdown state machine; false for zero records or nil callback |
| C63–C65 | Interject | state machine; C63, C64 expected false in the asynchronous / revoked case |
| C66–C68 | Config, Topics | decision functions with explicit panic; C66, C68 expected false in part |
| C69 | Msk | decision functions; IAM credentials expected false |
| C70 | Metrics | channel state machine; expected false for transaction metrics |
| C71 | Logging | structural induction over wrappers |
| C72 | Util | list folds; Abs overflow |
| C73 | Routing | expected false: nil default processor |
| C74 | Config | string concatenation; group/topic name collision is a counterexample |
| C75 | Msk | cluster listing by name prefix; first answer taken; refuted, proved when no other cluster name has the configured name as prefix |
| C49, C50, C76, C77 again | StateStore (Again, Later) | later bootstraps: from a settled state the machine is a new one with shifted indices |
| C76, C77 | StateStore | C76: send on the closed or nil buffer channel; C77: a marker that could not be written is waited for; both refuted, proved in restricted cases |
| C78 | Eos (Props3.v) | commit failure and the answers of the error handler; Continue loses events |
| C79, C80 | Worker | duplicate delivery; sends on channels closed by revocation |
| C81–C84 | Balancer (Member.v) | member side: announcements, forget loop, lost preparation, missing incremental balancer |
| C85–C88 | Lifecycle | machine of Stop, StopNow, closeOnFail, the done channel, workerMux and the commit loop's error path; C86, C87, C88 expected false (one token for all waiters; Interject holding workerMux after Halt) |
| C89, C90 | Fetch | adjustOffsetsBeforeAssign with a lagging watermark, then the worker's sync and filter; C90 expected false (the commit log wins over a newer group offset) |
| C91 | Locks | every mutex of the consumer and balancer, any number of concurrent calls; expected to fail when a callback calls Interject and when ParseSyncAssignment overlaps assignPartitions |
| C92 | Flow | workers of all partitions with the pool, as far as they wait for each other; expected to hold without interjections and to fail with them, because the select of the worker may take an interjection before an earlier event |
| C93, C94 | StateStore (Again, Later, Orphan) | end of populators and revoked stores; both refuted by a revoke during a bootstrap, proved for one bootstrap from a settled state |
| C95, C96 | CommitLog (Live) | the same transition system with markers whose produce call fails and with records compacted away before they are read; C95 refuted by both, proved for a written marker that is not compacted away; C96 refuted by a commit after the marker, exact without one |
| C97, C98 | Isolation | the poll loop with the bounded inputs of all workers, pausing and resuming of partitions, rebalances and handlers that may hang; both refuted, proved: bounds on when the loop can stand still, and progress if handlers return |
| C99 - C101 | GlobalLog | goroutines of consume with the client's positions and pauses; one call of Start gives order and completeness, two do not; pause, resume and stop take effect after the batch in progress |
| C102 | Balancer (Leave) | the decision of `leave` as a function of the configured strategies and of the broker's answer |
| C103, C104 | Batcher (Leak) | invariant relating assignments to executors; expected false: the key of a batch without items stays assigned |
| C105, C106, C107, C108 | Callbacks | the calls of the group with their single steps, the worker goroutines, and the trace an observer sees; C105 and C107 expected false: a worker starts before OnPartitionAssigned is called and revocation does not wait for the handlers |
| C109, C110, C111 | InterjectAll | the call with its single steps beside the workers, assignments, revocations and other interjections, and the trace an observer sees; C111 expected false: an accepted interjection is dropped by a revocation |
| C112, C113 | Signals | the channel of one signal, the loop with the hook of the user, Stop and Done, and the trace an observer sees; C113 expected false: the channel has room for one signal only |
| C114, C115 | Producer | the mutable records of the user, calls of several producers, the client's answers in any order; C114 expected false: the default topic and the chosen partition are written into the record of the caller |
| C116 | Topics (Delete) | the topics of all clusters as a set, the answers of the two admin clients as arguments; expected false: the answers are dropped, and the commit log belongs to the whole group |
| C117 | Record (PropsHeaders) | the header list of C01; expected false: the first header of a name wins, while the record type is that of the last one |
| C118 | Signals (Channel) | any number of calls on any number of sources with one channel; Stop once per source, its end at an arbitrary moment; expected false in its last part: done holds one value, so only one of two calls for a source returns |
| C119 | Eos (Group) | the pool of producers of C15-C19 with the calls of MarkCommitRecords added to it; franz-go keeps one plus the highest marked offset; expected false for the answer Continue, as C16 |
| C120 | CommitLog (SyncAll) | the syncs of syncAll are syncs of the model of C07, one for each commit-log partition; expected false with compaction as C96, and when a marker is lost as C95 |

A property counts as `proved` in the manifest only if its theorems need no condition that its statement does not
have.  Where a theorem adds one (for example: the commit error handler does not answer Continue), it is named
`_partial`, the property is `partial`, and the note gives the condition.

## Print Assumptions results

Every `Props*.v` file ends each theorem with `Print Assumptions`; the build log shows the result.
For all property theorems (all names in `MANIFEST.json`) the result is
`Closed under the global context`: no axiom at all, not even a standard-library one.
`vcheck`/`coqchk` additionally lists `Coq.ssr.ssrunder.Under_rel.*` as axioms of the loaded library:
these are the fields of a module type in Coq's own ssreflect support, loaded through std++; no
theorem depends on them.

## Code coverage

Which Go lines a definition stands for is in its comment; this table is a summary.  "Not modelled" means
no definition stands for the function, so nothing is claimed about it.

| File in /repo | Modelled in | Not modelled |
|---|---|---|
| streams/codec.go | Codec | JSON codec |
| streams/commit_log.go | Codec, CommitLog | constructor, `Start`, `Revoked` |
| streams/record.go | Record | plain accessors and writers, JSON change-log helper |
| streams/topics.go | Topics, Config, TopicPartitions | kadm calls, `toTopicPartitions` |
| streams/source.go | Config, Topics, Routing, Lifecycle (`fail`, `State`), Callbacks (partition callbacks), Eos/Group (`shouldMarkCommit`) | accessors |
| streams/event_source.go | Routing, Metrics, Interject, InterjectAll, Lifecycle (`ConsumeEvents`, `Stop`, `StopNow`, `closeOnFail`, `Done`), Signals (`WaitForSignals`), Signals/Channel (`WaitForChannel`) | what Stop does in `WaitForSignals` and `WaitForChannel` (its end is an arbitrary moment there) |
| streams/source_consumer.go | StateStore, Balancer (Member.v), Interject, Config, Lifecycle (`stop`, `leave`, `interject`, workerMux), Fetch (`adjustOffsetsBeforeAssign`), Locks (all mutexes), InterjectAll (`forEachChangeLogPartitionSync`, `forEachChangeLogPartitionAsync`, `interject`), Isolation (`start`, `receive`), Balancer/Leave.v (`currentProtocolIsIncremental`), Callbacks (`assignPartitions`, `revokePartitions`) | — |
| streams/partition_worker.go | Worker, Interject, Routing, Flow (with the pool), Isolation (with the poll loop), Callbacks (with the callbacks) | metrics contents |
| streams/event_context.go | Eos, Worker, Batcher, Record | mocks, accessors |
| streams/eos_producer.go | Eos (transactions are atomic and may fail; Group.v: MarkCommitRecords), Flow (with the workers) | the Kafka transaction protocol |
| streams/eos_config.go | Config | — |
| streams/state_store_consumer.go, partitioned_store.go | StateStore | `stop`, fetch internals |
| streams/global_change_log.go | GlobalLog | fetch errors, the kafka client itself |
| streams/async_scheduler.go, async_item_queue.go | Scheduler, ItemQueue | contents of jobs |
| streams/async_batcher.go | Batcher | clocks |
| streams/group_state.go, incr_rebalancer.go, balancer_options.go | Balancer, Locks (statusLock) | JSON of member metadata, printing |
| streams/interjection.go | Interject | clocks |
| streams/producer.go | BatchProducer, Producer (`Produce`, `ProduceAsync`) | `NewProducer`, `Close`, a nil callback |
| streams/error_handling.go | Routing | — |
| streams/log.go, metric.go | Logging, Metrics | formatting, durations |
| streams/stores/* | SimpleStore, ShardedTree, Heap, BTree | google/btree internals (sorted list), `NumberLess` |
| streams/sak/* | DList, Pool, RunStatus, Util | `Noescape` |
| msk/cluster.go | Msk | AWS calls, constructors and setters |

## Mutation testing

In a scratch copy, one model definition is edited as a realistic bug would, and the whole development is
rebuilt.  A theorem that no longer builds only shows that its script depends on the definition, so the edited
model is also searched for a violation of the property's executable form (random executions run inside Coq;
the unedited model is the control and must show none).  `seeded/LOG.jsonl` records both: `theorems_failed`
(no longer build) and `theorems_shown_false` (a violating execution was found).

## What is not modelled

Network I/O, franz-go internals, the Kafka group protocol beyond what the balancer sees, JSON encoding,
OpenTelemetry/metrics contents, logging output, time (timers fire at arbitrary moments), garbage
collection, `unsafe` beyond the integer codecs, and performance.
