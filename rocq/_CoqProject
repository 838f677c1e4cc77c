-Q theories Verif
theories/Words.v
theories/Slot.v
theories/SlotFacts.v
theories/Mapper.v
theories/MapperFacts.v
theories/ReturnCode.v
theories/MapSpec.v
theories/LinSpec.v
theories/Base.v
theories/BaseInv.v
theories/BaseLin.v
theories/BaseExec.v
theories/BaseSolo.v
theories/HistSpec.v
theories/Hist.v
theories/HistCount.v
theories/TableSpec.v
theories/LinCheck.v
theories/BaseFacts.v
theories/LinFacts.v
theories/BaseReport.v
theories/Raw.v
theories/PropBase.v
theories/Config.v
theories/ConfigFacts.v
theories/PropConfig.v
theories/Migrate.v
theories/GrowSpec.v
theories/MigrateGeo.v
theories/MigrateInv.v
theories/MigrateStep.v
theories/MigrateRun.v
theories/MigrateHelp.v
theories/MigrateDone.v
theories/MigrateSys.v
theories/GrowFacts.v
theories/MigrateExec.v
theories/MigrateFacts.v
theories/PropMigrate.v
theories/Seq.v
theories/SeqSpec.v
theories/SeqFacts.v
theories/PropSeq.v
theories/Iter.v
theories/IterSpec.v
theories/IterFacts.v
theories/PropIter.v
theories/Count.v
theories/CountSpec.v
theories/CountFacts.v
theories/PropCount.v
theories/Sync.v
theories/SyncInv.v
theories/SyncSpec.v
theories/SyncFacts.v
theories/Handles.v
theories/HandlesFacts.v
theories/PropSync.v
theories/Async.v
theories/AsyncInv.v
theories/AsyncSpec.v
theories/AsyncFacts.v
theories/PropAsync.v
theories/Pool.v
theories/PoolSpec.v
theories/PoolInv.v
theories/PoolFacts.v
theories/PropPool.v
theories/Ptr.v
theories/PtrSpec.v
theories/PtrWords.v
theories/PtrInv.v
theories/PtrMove.v
theories/PtrGrow.v
theories/PtrSys.v
theories/PtrLin.v
theories/PtrFacts.v
theories/PropPtr.v
theories/Growing.v
theories/GrowingSpec.v
theories/Frozen.v
theories/GrowingInv.v
theories/GrowingFacts.v
theories/GrowingExec.v
theories/GrowingSolo.v
theories/GrowingRoom.v
theories/PropGrowing.v
theories/TraceSpec.v
theories/TraceFacts.v
theories/SyncTable.v
theories/SyncTableSpec.v
theories/SyncTableInv.v
theories/SyncTableExec.v
theories/PropSyncTable.v
theories/IterGrow.v
theories/IterGrowFacts.v
theories/PropIterGrow.v
theories/PropRoom.v
theories/HWSpec.v
theories/HWFacts.v
theories/PropLin.v
theories/EndSpec.v
theories/MigrateEnd.v
theories/PropEnd.v
theories/AsyncTable.v
theories/AsyncTableSpec.v
theories/AsyncTableInv.v
theories/AsyncTableExec.v
theories/PropAsyncTable.v
theories/SyncEndSpec.v
theories/SyncEnd.v
theories/PropSyncEnd.v
theories/Oom.v
theories/OomFacts.v
theories/PropOom.v
theories/PoolAlloc.v
theories/PoolAllocFacts.v
theories/PropPoolAlloc.v
theories/AsyncEndSpec.v
theories/AsyncEnd.v
theories/PropAsyncEnd.v
theories/LockFreeSpec.v
theories/LockFree.v
theories/PropLockFree.v
theories/SeqPtr.v
theories/SeqPtrSpec.v
theories/SeqPtrFacts.v
theories/PropSeqPtr.v
theories/Torn.v
theories/TornFacts.v
theories/PropTorn.v
theories/UserCode.v
theories/UserCodeFacts.v
theories/PropUser.v
theories/Reclaim.v
theories/ReclaimFacts.v
theories/PropReclaim.v
theories/OomSpec.v
theories/GrowOom.v
theories/GrowOomFacts.v
theories/CountOom.v
theories/CountOomFacts.v
theories/PropGrowOom.v
theories/PtrGrowing.v
theories/PtrGrowingSpec.v
theories/PtrGrowingImg.v
theories/PtrGrowingInv.v
theories/PtrGrowingRel.v
theories/PtrGrowingStep.v
theories/PtrGrowingSim.v
theories/PtrGrowingFacts.v
theories/PtrGrowingExec.v
theories/PropPtrGrowing.v
theories/OneHandle.v
theories/OneHandleSpec.v
theories/OneHandleFacts.v
theories/OneHandleExec.v
theories/PropOneHandle.v
theories/ManyHandles.v
theories/ManyHandlesFacts.v
theories/PropManyHandles.v
theories/Crowd.v
theories/CrowdSpec.v
theories/CrowdExec.v
theories/CrowdFacts.v
theories/CrowdCount.v
theories/CrowdLive.v
theories/CrowdEnds.v
theories/PropCrowd.v
theories/After.v
theories/AfterSpec.v
theories/AfterFacts.v
theories/PropAfter.v
theories/HandleLife.v
theories/HandleLifeSpec.v
theories/HandleLifeFacts.v
theories/PropHandleLife.v
theories/PtrThrow.v
theories/PtrThrowSpec.v
theories/PtrThrowFacts.v
theories/PropPtrThrow.v
theories/UserThrow.v
theories/UserThrowSpec.v
theories/UserThrowFacts.v
theories/UserThrowExec.v
theories/PropUserThrow.v
theories/LoseSpec.v
theories/LoseFacts.v
theories/LoseBase.v
theories/LoseLin.v
theories/LoseHist.v
theories/LoseGrow.v
theories/PropLose.v
theories/BufSpec.v
theories/BufFacts.v
theories/Tso.v
theories/TsoFacts.v
theories/TsoExec.v
theories/PropTso.v
theories/Unsafe.v
theories/UnsafeSpec.v
theories/UnsafeFacts.v
theories/UnsafeExec.v
theories/UnsafeKeys.v
theories/PropUnsafe.v
theories/UnsafeGrowing.v
theories/UnsafeGrowingSpec.v
theories/UnsafeGrowingFacts.v
theories/UnsafeGrowingExec.v
theories/PropUnsafeGrowing.v
theories/PtrUnsafe.v
theories/PtrUnsafeFacts.v
theories/PtrUnsafeExec.v
theories/PropPtrUnsafe.v
theories/IterEq.v
theories/IterEqSpec.v
theories/IterEqFacts.v
theories/PropIterEq.v
theories/SeqIter.v
theories/SeqIterSpec.v
theories/SeqIterFacts.v
theories/PropSeqIter.v
theories/SeqIterEq.v
theories/SeqIterEqFacts.v
theories/PropSeqIterEq.v
theories/SeqErase.v
theories/SeqLin.v
theories/PropSeqErase.v
theories/PropSeqLin.v
theories/PropFull.v
