-Q theories Verif
theories/Assumptions.v
theories/BytesSyncModel.v
theories/BytesSyncProofs.v
theories/BytesSyncProps.v
theories/CallersProps.v
theories/ChunkModel.v
theories/ChunkProofs.v
theories/ChunkProps.v
theories/ChunkSpec.v
theories/CopyModel.v
theories/CopyProps.v
theories/CopySyncModel.v
theories/CopySyncProps.v
theories/FanFeas.v
theories/FanModel.v
theories/FanProofs.v
theories/FanProps.v
theories/FanSpec.v
theories/FanSyncModel.v
theories/FanSyncProofs.v
theories/FanSyncProps.v
theories/FeasLock.v
theories/FeasProofs.v
theories/FeasSpec.v
theories/GoBase.v
theories/HackModel.v
theories/HackProofs.v
theories/HackProps.v
theories/JoinerModel.v
theories/JoinerProps.v
theories/JoinerSpec.v
theories/MStoreModel.v
theories/MStoreProofs.v
theories/MStoreProofs2.v
theories/MStoreProps.v
theories/MStoreSpec.v
theories/MStoreTorn.v
theories/MapAnyCount.v
theories/MapAnyLiveProofs.v
theories/MapAnyLiveProps.v
theories/MapAnyModel.v
theories/MapAnyProofs.v
theories/MapAnyProps.v
theories/MapAnySpec.v
theories/MapClear.v
theories/MapClrLag.v
theories/MapClrModel.v
theories/MapClrProofs.v
theories/MapClrProps.v
theories/MapClrSeg.v
theories/MapClrSpec.v
theories/MapConcHind.v
theories/MapConcHist.v
theories/MapConcInv.v
theories/MapConcLocal.v
theories/MapConcLock.v
theories/MapConcModel.v
theories/MapConcProofs.v
theories/MapConcProps.v
theories/MapConcRuns.v
theories/MapConcSim.v
theories/MapConcSpec.v
theories/MapConcStep.v
theories/MapConcTrace.v
theories/MapFineInv.v
theories/MapFineLive.v
theories/MapFineLiveProps.v
theories/MapFineModel.v
theories/MapFineProofs.v
theories/MapFineProps.v
theories/MapFineRel.v
theories/MapFineSim.v
theories/MapFineSpec.v
theories/MapKeyModel.v
theories/MapKeyProofs.v
theories/MapKeyProps.v
theories/MapKeySpec.v
theories/MapLiveProofs.v
theories/MapLiveProps.v
theories/MapLiveSpec.v
theories/MapLockDead.v
theories/MapLockProps.v
theories/MapLockSpec.v
theories/MapRaceOk.v
theories/MapRaceProofs.v
theories/MapRaceProps.v
theories/MapRaceSpec.v
theories/MapRedFeas.v
theories/MapRedModel.v
theories/MapRedProofs.v
theories/MapRedProps.v
theories/MapRedSpec.v
theories/MapRedSyncModel.v
theories/MapRedSyncProofs.v
theories/MapRedSyncProps.v
theories/MapSeqModel.v
theories/MapSeqProofs.v
theories/MapSeqProps.v
theories/MapSeqSpec.v
theories/NetModel.v
theories/NetProofs.v
theories/NetSpec.v
theories/NetSyncModel.v
theories/NetSyncProofs.v
theories/NetSyncProps.v
theories/OnceFeas.v
theories/OnceSyncModel.v
theories/OnceSyncProps.v
theories/PipeModel.v
theories/PipeProofs.v
theories/PipeProps.v
theories/PipeSpec.v
theories/PoolLiveProofs.v
theories/PoolModel.v
theories/PoolProofs.v
theories/PoolProps.v
theories/RMFeas.v
theories/RMLiveProofs.v
theories/RMLiveProps.v
theories/RMLiveSpec.v
theories/RMModel.v
theories/RMProofs.v
theories/RMProps.v
theories/RMSpec.v
theories/RMSyncModel.v
theories/RMSyncProofs.v
theories/RMSyncProps.v
theories/RaceProofs.v
theories/RaceSpec.v
theories/RingFeas.v
theories/RingSyncModel.v
theories/RingSyncProps.v
theories/ShareModel.v
theories/ShareProofs.v
theories/ShareProps.v
theories/ShareSpec.v
theories/SharedClrModel.v
theories/SharedClrProofs.v
theories/SharedClrProps.v
theories/SharedClrSpec.v
theories/SharedConcModel.v
theories/SharedConcProofs.v
theories/SharedConcProps.v
theories/SharedLiveProofs.v
theories/SharedLiveProps.v
theories/SharedModel.v
theories/SharedProofs.v
theories/SharedProps.v
theories/SharedRaceModel.v
theories/SharedRaceProofs.v
theories/SharedRaceProps.v
theories/SharedSpec.v
theories/SpinModel.v
theories/SpinProps.v
theories/SpinSpec.v
theories/SpinSyncModel.v
theories/SpinSyncProps.v
theories/SpinSyncSpec.v
theories/StreamKeyModel.v
theories/StreamKeyProofs.v
theories/StreamKeyProps.v
theories/StreamKeySpec.v
theories/SyncMore.v
theories/SyncProofs.v
theories/SyncSpec.v
theories/TaskFailModel.v
theories/TaskFailProps.v
theories/TaskFailSpec.v
theories/TaskFeas.v
theories/TaskSyncModel.v
theories/TaskSyncProps.v
theories/Trans.v
theories/TreeGoods.v
theories/TreeModel.v
theories/TreeProofs.v
theories/TreeProps.v
theories/TreeSpec.v
theories/Utf8Facts.v
theories/Utf8Model.v
theories/Utf8Spec.v
theories/WorkerFeas.v
theories/WorkerSyncModel.v
theories/WorkerSyncProps.v
theories/XBarrierModel.v
theories/XBarrierProps.v
theories/XBarrierSpec.v
theories/XBinConcModel.v
theories/XBinConcProofs.v
theories/XBinConcProps.v
theories/XBinConcSpec.v
theories/XBinaryModel.v
theories/XBinaryProps.v
theories/XBinarySpec.v
theories/XBytesModel.v
theories/XBytesProps.v
theories/XIOModel.v
theories/XIOProps.v
theories/XIOSpec.v
theories/XIOSyncModel.v
theories/XIOSyncProofs.v
theories/XIOSyncProps.v
theories/XMathModel.v
theories/XMathProofs.v
theories/XMathProps.v
theories/XMathSpec.v
theories/XOnceLiveProofs.v
theories/XOnceLiveProps.v
theories/XOnceLiveSpec.v
theories/XOnceModel.v
theories/XOnceProps.v
theories/XOnceSpec.v
theories/XPanicModel.v
theories/XPanicProofs.v
theories/XPanicProps.v
theories/XQuitModel.v
theories/XQuitProofs.v
theories/XQuitProps.v
theories/XQuitSpec.v
theories/XRingLiveProofs.v
theories/XRingLiveProps.v
theories/XRingLiveSpec.v
theories/XRingModel.v
theories/XRingProps.v
theories/XRingSpec.v
theories/XStreamModel.v
theories/XStreamProofs.v
theories/XStreamProps.v
theories/XStreamSpec.v
theories/XStringAbbrevSpec.v
theories/XStringModel.v
theories/XStringProofs.v
theories/XStringProofs2.v
theories/XStringProofs3.v
theories/XStringProofs4.v
theories/XStringProps.v
theories/XStringRegex.v
theories/XStringSpec.v
theories/XStringTrim.v
theories/XTaskModel.v
theories/XTaskProps.v
theories/XTaskSpec.v
theories/XWorkerLiveProps.v
theories/XWorkerLiveSpec.v
theories/XWorkerProps.v
