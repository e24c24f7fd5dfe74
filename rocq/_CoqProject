-Q theories Verif
theories/BTree/Model.v
theories/BTree/Proofs.v
theories/BTree/StringOrder.v
theories/Balancer/Converge.v
theories/Balancer/Core.v
theories/Balancer/Fair.v
theories/Balancer/Final.v
theories/Balancer/Group.v
theories/Balancer/Init.v
theories/Balancer/Instr.v
theories/Balancer/Leave.v
theories/Balancer/Lists.v
theories/Balancer/Measure.v
theories/Balancer/Member.v
theories/Balancer/MemberProofs.v
theories/Balancer/Model.v
theories/Balancer/Proofs.v
theories/Balancer/Props.v
theories/Balancer/PropsLeave.v
theories/Balancer/Steps.v
theories/Base/Bytes.v
theories/Base/BytesMap.v
theories/Base/GoInt.v
theories/BatchProducer/Model.v
theories/BatchProducer/Proofs.v
theories/BatchProducer/Props.v
theories/Batcher/Base.v
theories/Batcher/Inv.v
theories/Batcher/Leak.v
theories/Batcher/Live.v
theories/Batcher/Model.v
theories/Batcher/Order.v
theories/Batcher/Proofs.v
theories/Batcher/Props.v
theories/Batcher/Step.v
theories/Batcher/Step2.v
theories/Batcher/Step3.v
theories/Callbacks/Halted.v
theories/Callbacks/Handlers.v
theories/Callbacks/Model.v
theories/Callbacks/Proofs.v
theories/Callbacks/Props.v
theories/Callbacks/Told.v
theories/Codec/Model.v
theories/Codec/Proofs.v
theories/Codec/Props.v
theories/Codec/Spec.v
theories/CommitLog/Live.v
theories/CommitLog/Model.v
theories/CommitLog/Proofs.v
theories/CommitLog/Props.v
theories/CommitLog/PropsLive.v
theories/CommitLog/PropsSync.v
theories/CommitLog/Spec.v
theories/CommitLog/SyncAll.v
theories/CommitLog/SyncAllModel.v
theories/Config/Model.v
theories/Config/Proofs.v
theories/Config/Props.v
theories/DList/Model.v
theories/DList/Proofs.v
theories/DList/Props.v
theories/DList/Spec.v
theories/Eos/Base.v
theories/Eos/Ends.v
theories/Eos/Fin.v
theories/Eos/Fin2.v
theories/Eos/Fin3.v
theories/Eos/Group.v
theories/Eos/GroupProofs.v
theories/Eos/Joint.v
theories/Eos/Limit.v
theories/Eos/Limit2.v
theories/Eos/Main.v
theories/Eos/Main2.v
theories/Eos/Model.v
theories/Eos/Own.v
theories/Eos/Own2.v
theories/Eos/Own3.v
theories/Eos/Props.v
theories/Eos/Props2.v
theories/Eos/Props3.v
theories/Eos/PropsGroup.v
theories/Eos/Rev.v
theories/Eos/Spec.v
theories/Eos/Step1.v
theories/Eos/Stop.v
theories/Eos/Stop2.v
theories/Eos/Struct.v
theories/Eos/Struct2.v
theories/Eos/Wait.v
theories/Eos/Wait2.v
theories/Fetch/Model.v
theories/Fetch/Proofs.v
theories/Fetch/Props.v
theories/Flow/Jam.v
theories/Flow/Model.v
theories/Flow/Order.v
theories/Flow/Progress.v
theories/Flow/Proofs.v
theories/Flow/Props.v
theories/GlobalLog/Model.v
theories/GlobalLog/Proofs.v
theories/GlobalLog/Props.v
theories/Heap/Fix.v
theories/Heap/MaxRemove.v
theories/Heap/Model.v
theories/Heap/Ops.v
theories/Heap/Proofs.v
theories/Heap/Props.v
theories/Interject/Jitter.v
theories/Interject/JitterProofs.v
theories/Interject/Model.v
theories/Interject/Proofs.v
theories/Interject/Props.v
theories/InterjectAll/Main.v
theories/InterjectAll/Main2.v
theories/InterjectAll/Model.v
theories/InterjectAll/Proofs.v
theories/InterjectAll/Props.v
theories/Isolation/Model.v
theories/Isolation/Proofs.v
theories/Isolation/Props.v
theories/ItemQueue/Model.v
theories/ItemQueue/Proofs.v
theories/ItemQueue/Props.v
theories/Lifecycle/Model.v
theories/Lifecycle/Proofs.v
theories/Lifecycle/Props.v
theories/Locks/Model.v
theories/Locks/Proofs.v
theories/Locks/Props.v
theories/Logging/Model.v
theories/Logging/Proofs.v
theories/Logging/Props.v
theories/Metrics/Model.v
theories/Metrics/Proofs.v
theories/Metrics/Props.v
theories/Msk/Model.v
theories/Msk/Proofs.v
theories/Msk/Props.v
theories/Pool/Model.v
theories/Pool/Proofs.v
theories/Pool/Props.v
theories/Producer/Model.v
theories/Producer/Proofs.v
theories/Producer/Props.v
theories/Record/Model.v
theories/Record/Proofs.v
theories/Record/Props.v
theories/Record/PropsHeaders.v
theories/Record/Spec.v
theories/Routing/Model.v
theories/Routing/Proofs.v
theories/Routing/Props.v
theories/Routing/Spec.v
theories/RunStatus/Model.v
theories/RunStatus/Proofs.v
theories/RunStatus/Props.v
theories/Scheduler/Base.v
theories/Scheduler/Deadlock.v
theories/Scheduler/Depth.v
theories/Scheduler/Inv.v
theories/Scheduler/Limits.v
theories/Scheduler/Live.v
theories/Scheduler/Model.v
theories/Scheduler/Order.v
theories/Scheduler/Progress.v
theories/Scheduler/Props.v
theories/Scheduler/Refute.v
theories/Scheduler/Step.v
theories/ShardedTree/Model.v
theories/ShardedTree/Proofs.v
theories/ShardedTree/Props.v
theories/Signals/Channel.v
theories/Signals/ChannelProofs.v
theories/Signals/Model.v
theories/Signals/Proofs.v
theories/Signals/Props.v
theories/Signals/PropsChannel.v
theories/SimpleStore/Model.v
theories/SimpleStore/Proofs.v
theories/SimpleStore/Props.v
theories/StateStore/Again.v
theories/StateStore/Inv.v
theories/StateStore/Later.v
theories/StateStore/Live.v
theories/StateStore/Model.v
theories/StateStore/Orphan.v
theories/StateStore/Partitioned.v
theories/StateStore/PartitionedProofs.v
theories/StateStore/Proofs.v
theories/StateStore/Props.v
theories/StateStore/PropsEnd.v
theories/StateStore/PropsRound.v
theories/StateStore/Step.v
theories/StateStore/Step2.v
theories/StateStore/Step3.v
theories/TopicPartitions/Model.v
theories/TopicPartitions/Proofs.v
theories/TopicPartitions/Props.v
theories/Topics/Delete.v
theories/Topics/Model.v
theories/Topics/Proofs.v
theories/Topics/Props.v
theories/Topics/PropsDelete.v
theories/Util/Model.v
theories/Util/Proofs.v
theories/Util/Props.v
theories/Worker/Base.v
theories/Worker/Inv.v
theories/Worker/Main.v
theories/Worker/Model.v
theories/Worker/More.v
theories/Worker/Order.v
theories/Worker/Props.v
theories/Worker/Stop.v
