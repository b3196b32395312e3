-Q theories Verif
theories/Base.v
theories/Lasso.v
theories/Kernel.v
theories/KernelFacts.v
theories/Mutex.v
theories/MutexSpec.v
theories/MutexProofs.v
theories/MutexProps.v
theories/MutexUntilProps.v
theories/MutexFairProps.v
theories/WakeFacts.v
theories/WaitQueue.v
theories/WaitQueueSpec.v
theories/WaitQueueProofs.v
theories/WaitQueueProps.v
theories/CondVar.v
theories/CondVarSpec.v
theories/CondVarProofs.v
theories/CondVarProps.v
theories/Client.v
theories/ClientProofs.v
theories/Barrier.v
theories/BarrierSpec.v
theories/BarrierProofs.v
theories/BarrierProps.v
theories/PredWait.v
theories/PredWaitProps.v
theories/Buffered.v
theories/BufferedSpec.v
theories/BufferedProofs.v
theories/BufferedProps.v
theories/BufLost.v
theories/BufExnProps.v
theories/SlotFacts.v
theories/Unbuffered.v
theories/UnbufferedSpec.v
theories/UnbufferedProofs.v
theories/UnbufferedProofs2.v
theories/UnbufferedProofs3.v
theories/UnbufferedProofs4.v
theories/UnbufferedProofs5.v
theories/UnbufferedProofs6.v
theories/UnbufferedProofs7.v
theories/UnbufferedProofs8.v
theories/UnbufferedProofs9.v
theories/UnbufferedProofs10.v
theories/UnbufferedProofs11.v
theories/UnbufferedProofs12.v
theories/UnbufferedProps.v
theories/UnbufThrow.v
theories/UnbufThrowProps.v
theories/SharedState.v
theories/SharedStateSpec.v
theories/SharedStateProofs.v
theories/SharedStateProps.v
theories/FutureObj.v
theories/FutureObjSpec.v
theories/FutureObjFacts.v
theories/FutureObjProofs.v
theories/FutureObjProofs2.v
theories/FutureObjProofs3.v
theories/FutureObjProofs4.v
theories/FutureObjProofs5.v
theories/FutureObjProps.v
theories/Sched.v
theories/SchedSpec.v
theories/SchedFacts.v
theories/SchedFacts2.v
theories/SchedFacts3.v
theories/SchedFacts4.v
theories/SchedFacts5.v
theories/SchedFacts6.v
theories/SchedFacts7.v
theories/SchedFacts8.v
theories/SchedFacts9.v
theories/SchedFacts10.v
theories/SchedFacts11.v
theories/SchedFacts12.v
theories/SchedProps.v
theories/SchedOrderProps.v
theories/SchedKern.v
theories/SchedKernFacts.v
theories/SchedKernFacts2.v
theories/SchedKernFacts3.v
theories/SchedKernFacts4.v
theories/SchedKernProps.v
theories/SpinQueue.v
theories/SpinQueueProps.v
theories/StackPlace.v
theories/StackPlaceProps.v
theories/Numa.v
theories/NumaSpec.v
theories/NumaProps.v
theories/Init.v
theories/InitProps.v
theories/Fss.v
theories/FssSpec.v
theories/FssProps.v
theories/FssRe.v
theories/FssReSpec.v
theories/FssReFacts.v
theories/FssReProps.v
theories/Algo.v
theories/AlgoSpec.v
theories/AlgoFacts.v
theories/AlgoProofs.v
theories/AlgoProofs2.v
theories/AlgoProofs3.v
theories/AlgoProofs4.v
theories/AlgoProps.v
theories/Ttas.v
theories/TtasSpec.v
theories/TtasProps.v
theories/FutexLock.v
theories/FutexLockSpec.v
theories/FutexLockProps.v
theories/Adaptive.v
theories/AdaptiveProps.v
theories/Iter.v
theories/IterSpec.v
theories/IterProps.v
theories/Spmc.v
theories/SpmcSpec.v
theories/SpmcFacts.v
theories/SpmcProofs.v
theories/SpmcProps.v
theories/SpmcWeak.v
theories/SpmcWeakSpec.v
theories/SpmcWeakFacts.v
theories/SpmcWeakProps.v
theories/ThreadBarrier.v
theories/ThreadBarrierSpec.v
theories/ThreadBarrierProofs.v
theories/WsCtor.v
theories/ThreadBarrierProps.v
theories/Drive.v
theories/DriveSpec.v
theories/DriveAlgo.v
theories/DriveProofs.v
theories/DriveInv.v
theories/DriveProps.v
theories/Idle.v
theories/IdleSpec.v
theories/IdleProofs.v
theories/IdleProps.v
theories/WaitFor.v
theories/WaitForSpec.v
theories/WaitForProofs.v
theories/WaitForProps.v
theories/Deadline.v
theories/DeadlineSpec.v
theories/DeadlineProps.v
theories/Prio.v
theories/PrioSpec.v
theories/PrioProofs.v
theories/PrioProps.v
theories/Rtm.v
theories/RtmSpec.v
theories/RtmProofs.v
theories/RtmProps.v
theories/AsioYield.v
theories/AsioYieldSpec.v
theories/AsioYieldFacts.v
theories/AsioYieldProps.v
theories/AsioRR.v
theories/AsioRRSpec.v
theories/AsioRRFacts.v
theories/AsioRRQuiet.v
theories/AsioRRProps.v
theories/FiberMake.v
theories/FiberMakeSpec.v
theories/FiberMakeFacts.v
theories/FiberMakeProps.v
theories/Handle.v
theories/HandleSpec.v
theories/HandleFacts.v
theories/HandleProps.v
theories/PropAlgo.v
theories/PropAlgoSpec.v
theories/PropAlgoFacts.v
theories/PropAlgoProps.v
theories/JoinFss.v
theories/JoinFssSpec.v
theories/JoinFssFacts.v
theories/JoinFssProps.v
theories/CvLife.v
theories/CvLifeSpec.v
theories/CvLifeFacts.v
theories/CvLifeProps.v
theories/PromLife.v
theories/PromLifeSpec.v
theories/PromLifeFacts.v
theories/PromLifeProps.v
theories/OwnerRace.v
theories/OwnerRaceSpec.v
theories/OwnerRaceFacts.v
theories/OwnerRaceProps.v
theories/WhenAny.v
theories/WhenAnySpec.v
theories/WhenAnyFacts.v
theories/WhenAnyProps.v
theories/WhenSimple.v
theories/WhenSimpleSpec.v
theories/WhenSimpleFacts.v
theories/WhenSimpleProps.v
theories/PubSub.v
theories/PubSubSpec.v
theories/PubSubFacts.v
theories/PubSubProps.v
theories/PubText.v
theories/PubTextProps.v
theories/NonBlock.v
theories/NonBlockProps.v
theories/RefCount.v
theories/RefCountProps.v
theories/ThChan.v
theories/ThChanSpec.v
theories/ThChanFacts.v
theories/ThChanFacts2.v
theories/ThChanFacts3.v
theories/ThChanProps.v
theories/CloseSync.v
theories/CloseSyncProps.v
theories/PtReent.v
theories/PtReentProps.v
theories/Skynet.v
theories/SkynetProps.v
theories/ChanLife.v
theories/ChanLifeProps.v
theories/NumaOs.v
theories/NumaOsProps.v
theories/MtxLife.v
theories/MtxLifeProps.v
theories/BufFairProps.v
theories/ThChanWeak.v
theories/ThChanWeakSpec.v
theories/ThChanWeakFacts.v
theories/ThChanWeakProps.v
theories/UnbufWeak.v
theories/UnbufWeakSpec.v
theories/UnbufWeakFacts.v
theories/UnbufWeakProps.v
theories/MutexHb.v
theories/MutexHbSpec.v
theories/MutexHbFacts.v
theories/MutexHbProps.v
theories/BarrierHb.v
theories/BarrierHbSpec.v
theories/BarrierHbFacts.v
theories/BarrierHbProps.v
theories/FutureHb.v
theories/FutureHbSpec.v
theories/FutureHbFacts.v
theories/FutureHbProps.v
theories/SwitchHb.v
theories/SwitchHbSpec.v
theories/SwitchHbFacts.v
theories/SwitchHbFacts2.v
theories/SwitchHbFacts3.v
theories/SwitchHbProps.v
theories/BufHb.v
theories/BufHbSpec.v
theories/BufHbFacts.v
theories/BufHbProps.v
theories/FiberId.v
theories/FiberIdSpec.v
theories/FiberIdFacts.v
theories/FiberIdProps.v
theories/Autoecho.v
theories/AutoechoSpec.v
theories/AutoechoFacts.v
theories/AutoechoFacts2.v
theories/AutoechoProps.v
theories/FutThrow.v
theories/FutThrowSpec.v
theories/FutThrowFacts.v
theories/FutThrowProps.v
theories/UnbufFair.v
theories/UnbufFairSpec.v
theories/UnbufFairFacts.v
theories/UnbufFairProps.v
theories/AsioTimer.v
theories/AsioTimerSpec.v
theories/AsioTimerFacts.v
theories/AsioTimerProps.v
theories/WsProg.v
theories/WsProgSpec.v
theories/WsProgFacts.v
theories/WsProgProps.v
theories/SchedLife.v
theories/SchedLifeSpec.v
theories/SchedLifeProps.v
theories/PsClient.v
theories/PsClientProps.v
theories/PtArgs.v
theories/PtArgsProps.v
theories/AsyncApi.v
theories/AsyncApiProps.v
theories/SmallProgs.v
theories/SmallProgsProps.v
theories/IterThrow.v
theories/IterThrowProps.v
theories/NumaWs.v
theories/NumaWsProps.v
theories/SkyAsync.v
theories/SkyAsyncProps.v
theories/StackWrap.v
theories/StackWrapProps.v
