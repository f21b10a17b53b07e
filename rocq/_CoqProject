-Q theories Verif
theories/Base.v
theories/BitmapModel.v
theories/BitmapProof.v
theories/BitmapHist.v
theories/BitmapProps.v
theories/AllocModel.v
theories/AllocProps.v
theories/Spinlock.v
theories/QueueModel.v
theories/QueueProps.v
theories/QueueConc.v
theories/QueueObs.v
theories/ListModel.v
theories/ListProps.v
theories/Kv.v
theories/Sums.v
theories/ObjConc.v
theories/Throttle.v
theories/ThrottleObs.v
theories/Async.v
theories/TaskWait.v
theories/CoreModel.v
theories/CoreInv.v
theories/CoreStep.v
theories/CorePlace.v
theories/CoreDec.v
theories/CoreOps.v
theories/CoreIssue.v
theories/CoreWorld.v
theories/CoreMain.v
theories/CoreSyn.v
theories/CoreProps.v
theories/CoreProps2.v
theories/AccelTypes.v
theories/ProcFn.v
theories/ProcMap.v
theories/WorkModel.v
theories/WorkProof.v
theories/WorkInv.v
theories/WorkProps.v
theories/WorkObs.v
theories/PipeInit.v
theories/CtrlReady.v
theories/DataLayout.v
theories/DataPath.v
theories/DataCopy.v
theories/TaskLife.v
theories/ProcThreads.v
theories/Mapping.v
theories/Shutdown.v
theories/LibLoad.v
theories/ProcReg.v
theories/Ivshmem.v
theories/CtrlConfig.v
theories/Config.v
theories/ConfigPath.v
theories/ConfigConc.v
theories/Sched.v
theories/Balancer.v
theories/DlModel.v
theories/DlInv.v
theories/DlAlloc.v
theories/DlSys.v
theories/DlPre.v
theories/DlMalloc.v
theories/DlFree.v
theories/DlFwd.v
theories/DlHist.v
theories/DlProps.v
theories/DlEx.v
theories/DlTree.v
theories/Crash.v
theories/DlInfo.v
theories/PageMap.v
theories/DlPages.v
theories/DlPagesEx.v
theories/Drain.v
theories/DevMem.v
theories/DevCopy.v
theories/DlSim.v
theories/DlConc.v
theories/Locked.v
theories/KvConc.v
theories/BitmapConc.v
theories/Tso.v
theories/QueueTso.v
theories/ObjName.v
theories/ObjNameConc.v
theories/DevAsync.v
theories/Handover.v
theories/LockOrder.v
theories/FreeQueue.v
theories/Release.v
theories/Assign.v
theories/Elastic.v
theories/Timer.v
theories/Attrs.v
