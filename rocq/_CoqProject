-Q theories Verif
theories/Base.v
theories/Prog.v
theories/PoolModel.v
theories/SimpleAllocModel.v
theories/HeapProp.v
theories/WP.v
theories/PoolProof.v
theories/Adequacy.v
theories/SimpleAllocPure.v
theories/SimpleAllocProof.v
theories/SimpleAllocOps.v
theories/SimpleAllocFree.v
theories/World.v
theories/WorldProof.v
theories/SimpleSpec.v
theories/SimpleGame.v
theories/SimpleMain.v
theories/PoolLaws.v
theories/Creation.v
theories/PropertiesSimple.v
theories/PropertiesPool.v
theories/IdealSpec.v
theories/AllocModel.v
theories/AllocSpec.v
theories/QueueModel.v
theories/StructLib.v
theories/WPCrash.v
theories/AllocCrash.v
theories/Locked.v
theories/LockedAlloc.v
theories/QueueProof.v
theories/PriorityQueueModel.v
theories/HeapPure.v
theories/PriorityQueueProof.v
theories/HashTableModel.v
theories/HashPure.v
theories/HashProof.v
theories/HashOps.v
theories/HashErase.v
theories/HashRest.v
theories/TreeSpec.v
theories/TreeOps.v
theories/PrefixTreeModel.v
theories/PrefixEnc.v
theories/PrefixRep.v
theories/PrefixWalk.v
theories/PrefixMake.v
theories/PrefixOps.v
theories/PrefixInsert.v
theories/PrefixIncr.v
theories/PrefixErase.v
theories/PrefixClear.v
theories/PrefixCrash.v
theories/PrefixCrashMake.v
theories/PrefixCrashOps.v
theories/PrefixCrashErase.v
theories/PrefixOrder.v
theories/PrefixRead.v
theories/PrefixNext.v
theories/PrefixCount.v
theories/StructSpec.v
theories/TreeChecks.v
theories/PrefixMain.v
theories/CrashSpec.v
theories/PrefixCrashAll.v
theories/TreeNeat.v
theories/StructProof.v
theories/StructGame.v
theories/StructMain.v
theories/BaseSpec.v
theories/BaseProof.v
theories/IterSpec.v
theories/IterProof.v
theories/TreeIterSpec.v
theories/TreeIterProof.v
theories/TreeBoundSpec.v
theories/TreeBoundProof.v
theories/TreeMain.v
theories/StructStart.v
theories/CrashStep.v
theories/CrashOther.v
theories/CrashGame.v
theories/QueueDrainSpec.v
theories/QueueDrain.v
theories/QueueDrainPop.v
theories/PropertiesStruct.v
theories/PropertiesHash.v
theories/PropertiesTree.v
theories/PropertiesCrash.v
theories/ProcessLockModel.v
theories/ProcessLockProof.v
theories/ProcessReuse.v
theories/LockQueries.v
theories/PropertiesLock.v
theories/LogAllocModel.v
theories/LogPure.v
theories/LogAllocProof.v
theories/LogAllocOps.v
theories/LogAllocSpec.v
theories/LogSpec.v
theories/LogRepair.v
theories/LogCrash.v
theories/LogGame.v
theories/LogVerify.v
theories/LogMain.v
theories/PropertiesLog.v
theories/PropertiesStructLog.v
theories/Lin.v
theories/AtomicVectorModel.v
theories/AtomicVectorSpec.v
theories/AtomicVectorProof.v
theories/PropertiesVector.v
theories/ConcSpec.v
theories/ConcProof.v
theories/ReadOnlySpec.v
theories/ReadOnlyProof.v
theories/BitsSpec.v
theories/BitsProof.v
theories/PropertiesBits.v
theories/PropertiesConc.v
