-Q theories Verif

theories/Base.v
theories/SpinInv.v
theories/LinSpec.v
theories/LinLemmas.v
theories/MutexSpec.v
theories/MutexModel.v
theories/MutexProofs.v
theories/MutexProps.v
theories/HistSpec.v
theories/TidSum.v
theories/Monitor.v
theories/MonitorProofs.v
theories/SemSpec.v
theories/SemModel.v
theories/SemProofs.v
theories/SemProps.v
theories/LatchSpec.v
theories/LatchModel.v
theories/LatchProofs.v
theories/LatchProps.v
theories/WgSpec.v
theories/WgModel.v
theories/WgProofs.v
theories/WgProps.v
theories/BarrierSpec.v
theories/BarrierModel.v
theories/BarrierProofs.v
theories/BarrierProps.v
theories/ChanSpec.v
theories/ChanModel.v
theories/ChanProofs.v
theories/ChanProps.v
theories/ChanIterModel.v
theories/ChanIterProofs.v
theories/ChanIterProps.v
theories/SpinObj.v
theories/SpinObjProofs.v
theories/RecMutexSpec.v
theories/RecMutexModel.v
theories/RecMutexProofs.v
theories/RecMutexProps.v
theories/SharedMutexSpec.v
theories/SharedMutexModel.v
theories/SharedMutexProofs.v
theories/SharedMutexProps.v
theories/CvSpec.v
theories/CvModel.v
theories/CvProofs.v
theories/CvTimed.v
theories/CvProps.v
theories/CallOnceSpec.v
theories/CallOnceModel.v
theories/CallOnceProofs.v
theories/CallOnceProps.v
theories/PipeSpec.v
theories/PipeModel.v
theories/PipeProofs.v
theories/PipeLive.v
theories/PipeProps.v
theories/EventSpec.v
theories/EventModel.v
theories/EventProofs.v
theories/EventProps.v
theories/AnySpec.v
theories/AnyModel.v
theories/AnyProps.v
theories/LocalSpec.v
theories/LocalModel.v
theories/LocalProps.v
theories/SchedSpec.v
theories/SchedModel.v
theories/SchedProofs.v
theories/SchedHist.v
theories/SchedPick.v
theories/SchedRR.v
theories/SchedProps.v
theories/PrioModel.v
theories/PrioProps.v
theories/StateModel.v
theories/StateProps.v
theories/JoinSpec.v
theories/JoinModel.v
theories/JoinProofs.v
theories/JoinLive.v
theories/JoinProps.v
theories/HandleSpec.v
theories/HandleModel.v
theories/HandleProps.v
theories/TimerSpec.v
theories/TimerModel.v
theories/TimerProofs.v
theories/TimerProps.v
theories/SleepModel.v
theories/SleepProps.v
theories/IoSpec.v
theories/IoModel.v
theories/IoProps.v
theories/MemBase.v
theories/AsmSpec.v
theories/AsmModel.v
theories/AsmProofs.v
theories/AsmProps.v
theories/SharedSpec.v
theories/SharedModel.v
theories/SharedProofs.v
theories/SharedProps.v
theories/ShrinkModel.v
theories/ShrinkProps.v
theories/SwitchSpec.v
theories/SwitchModel.v
theories/SwitchProofs.v
theories/SwitchProps.v
theories/IdleSpec.v
theories/IdleModel.v
theories/IdleProofs.v
theories/IdleProps.v
theories/HoldSpec.v
theories/HoldModel.v
theories/HoldProofs.v
theories/HoldProps.v
theories/MgrSpec.v
theories/MgrModel.v
theories/MgrProofs.v
theories/MgrMove.v
theories/MgrProps.v
theories/FineModel.v
theories/FineMutex.v
theories/FineProofs.v
theories/FineProps.v
theories/TimedSpec.v
theories/TimedModel.v
theories/TimedProofs.v
theories/TimedInst.v
theories/TimedProps.v
theories/ShutSpec.v
theories/ShutModel.v
theories/ShutProofs.v
theories/ShutLive.v
theories/ShutProps.v
theories/LockSpec.v
theories/LockModel.v
theories/LockProofs.v
theories/LockGuard.v
theories/LockProps.v
theories/FdSpec.v
theories/FdModel.v
theories/FdProofs.v
theories/FdProps.v
theories/AllocSpec.v
theories/AllocModel.v
theories/AllocProofs.v
theories/AllocProps.v
theories/TimerFailModel.v
theories/TimerFailProps.v
theories/SleepLive.v
theories/CrashSpec.v
theories/CrashModel.v
theories/CrashProofs.v
theories/CrashLive.v
theories/CrashProps.v
theories/CrashLockModel.v
theories/CrashLockProps.v
theories/FairSpec.v
theories/FairCycle.v
theories/MutexFair.v
theories/MutexFairProps.v
theories/RaceSpec.v
theories/RaceLemmas.v
theories/MutexRaceModel.v
theories/MutexRace.v
theories/MutexRaceProps.v
theories/RaceModel.v
theories/RaceRule.v
theories/RaceInv.v
theories/RaceCheck.v
theories/RaceProps.v
theories/OrderSpec.v
theories/OrderRules.v
theories/OrderModel.v
theories/OrderEmb.v
theories/OrderProofs.v
theories/OrderProps.v
theories/ChanOrderProps.v
theories/OnceRaceModel.v
theories/OnceRaceProps.v
theories/SpinRaceModel.v
theories/SpinRace.v
theories/RecMutexRaceProps.v
theories/SharedMutexRaceProps.v
theories/Guarded.v
theories/CvRaceModel.v
theories/CvRaceProps.v
theories/GuardModel.v
theories/GuardProofs.v
theories/GuardProps.v
theories/SourceModel.v
theories/SourceProps.v
theories/StreamModel.v
theories/StreamProps.v
theories/ReportModel.v
theories/ReportProps.v
theories/MonFair.v
theories/FairGateProps.v
theories/FairSemProps.v
theories/FairChanProps.v
theories/DurModel.v
theories/DurProps.v
theories/ThreadsProps.v
theories/SpinFair.v
theories/RecFair.v
theories/RecFairProps.v
theories/SharedFair.v
theories/SharedFairProps.v
theories/SchedFair.v
theories/SchedFairProps.v
theories/CvFair.v
theories/CvFairProps.v
theories/TimerFair.v
theories/TimerFairProps.v
theories/SleepFair.v
theories/SleepFairProps.v
theories/TickModel.v
theories/TickProps.v
theories/TickMgrProps.v
theories/MemModel.v
theories/MemProps.v
theories/ConfigModel.v
theories/ConfigProps.v
theories/ChanOpModel.v
theories/ChanOpProps.v
theories/ErrnoModel.v
theories/ErrnoProps.v
theories/MoveModel.v
theories/MoveProps.v
theories/WaitIoModel.v
theories/WaitIoProps.v
theories/JoinFair.v
theories/JoinFairProps.v
theories/PipeChanProps.v
theories/PipeFair.v
theories/PipeFairProps.v
theories/PipeEndProps.v
