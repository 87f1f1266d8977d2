-Q theories Verif
theories/Conc.v
theories/SenderModel.v
theories/SenderSpec.v
theories/SenderProofs.v
theories/SenderSafety.v
theories/SenderRun.v
theories/SenderLaws.v
theories/SenderFacts.v
theories/SenderProperties.v
theories/SenderWhen.v
theories/SenderStop.v
theories/SenderAny.v
theories/SenderWhenFacts.v
theories/SenderEquiv.v
theories/SenderMoreProperties.v
theories/StopModel.v
theories/StopProofs.v
theories/StopSteps.v
theories/StopLog.v
theories/StopFacts.v
theories/StopProperties.v
theories/RunLoopModel.v
theories/RunLoopProofs.v
theories/RunLoopProperties.v
theories/QueueModel.v
theories/QueueSpec.v
theories/QueueProofs.v
theories/QueueProperties.v
theories/AtomicQueueModel.v
theories/AtomicQueueProofs.v
theories/AtomicQueueProperties.v
theories/MpscModel.v
theories/MpscProofs.v
theories/MpscProperties.v
theories/HeapModel.v
theories/HeapTree.v
theories/HeapProofs.v
theories/HeapInv.v
theories/HeapProperties.v
theories/ScopeModel.v
theories/ScopeSpec.v
theories/ScopeProofs.v
theories/ScopeProperties.v
theories/AssociateModel.v
theories/AssociateSpec.v
theories/AssociateProperties.v
theories/BwosModel.v
theories/BwosSpec.v
theories/BwosProofs.v
theories/BwosProperties.v
theories/WhenAllConcModel.v
theories/WhenAllConcProperties.v
theories/WhenAnyConcModel.v
theories/WhenAnyConcProperties.v
theories/EvenShareModel.v
theories/EvenShareProperties.v
theories/PoolBulkModel.v
theories/PoolBulkProperties.v
theories/BulkSeqModel.v
theories/BulkSeqProperties.v
theories/IntrusivePtrModel.v
theories/IntrusivePtrProperties.v
theories/BwosPopProperties.v
theories/PoolModel.v
theories/PoolProperties.v
theories/TrampolineModel.v
theories/TrampolineProperties.v
theories/SyncWaitModel.v
theories/SyncWaitProperties.v
theories/BehaviorModel.v
theories/BehaviorSpec.v
theories/BehaviorProperties.v
theories/EnvModel.v
theories/EnvProperties.v
theories/SpawnFutureModel.v
theories/SpawnFutureProperties.v
theories/AsyncScopeModel.v
theories/AsyncScopeProperties.v
theories/SharedModel.v
theories/SharedProofs.v
theories/SharedProperties.v
theories/TimedModel.v
theories/TimedProofs.v
theories/TimedProperties.v
theories/TimedOrder.v
theories/TimedLive.v
theories/AwaiterModel.v
theories/AwaiterProofs.v
theories/AwaiterProperties.v
theories/MergeEachModel.v
theories/MergeEachProofs.v
theories/MergeEachProofs2.v
theories/MergeEachProofs3.v
theories/MergeEachProperties.v
theories/AsyncFutureModel.v
theories/AsyncFutureProofs.v
theories/AsyncFutureProofs2.v
theories/AsyncFutureProperties.v
theories/TimedStop.v
theories/TaskModel.v
theories/TaskSpec.v
theories/TaskProofs.v
theories/TaskThms.v
theories/IoUringModel.v
theories/IoUringProofs.v
theories/IoUringProofs2.v
theories/IoUringProofs3.v
theories/IoUringProofs4.v
theories/IoUringProofs5.v
theories/IoUringProofs6.v
theories/IoUringProofs7.v
theories/IoUringProperties.v
theories/FusedStopModel.v
theories/FusedStopProperties.v
theories/IterateModel.v
theories/IterateProperties.v
theories/AnyModel.v
theories/AnyProperties.v
theories/SchedBackendModel.v
theories/SchedBackendProperties.v
theories/StopBridgeModel.v
theories/StopBridgeProperties.v
theories/BackendModel.v
theories/BackendProperties.v
theories/StartNowModel.v
theories/StartNowProperties.v
theories/DetachModel.v
theories/DetachProperties.v
theories/MemResModel.v
theories/MemResProperties.v
theories/AsioModel.v
theories/AsioSpec.v
theories/AsioInv.v
theories/AsioProperties.v
theories/PoolBaseModel.v
theories/PoolBaseProperties.v
theories/VariantModel.v
theories/VariantSpec.v
theories/VariantProperties.v
theories/WinPoolModel.v
theories/WinPoolProperties.v
theories/TimedClosed.v
theories/IoUringOff.v
theories/ForkJoinModel.v
theories/ForkJoinProperties.v
theories/IgnoreAllModel.v
theories/IgnoreAllProperties.v
theories/FunctionModel.v
theories/FunctionProperties.v
theories/RingModel.v
theories/RingProperties.v
theories/SlistModel.v
theories/SlistProperties.v
theories/NumaModel.v
theories/NumaProperties.v
theories/HandleModel.v
theories/HandleProperties.v
theories/TimePointModel.v
theories/TimePointProperties.v
theories/FrameModel.v
theories/FrameProperties.v
theories/ReifyModel.v
theories/ReifyProperties.v
theories/XorshiftModel.v
theories/XorshiftProperties.v
