-Q theories Verif
theories/Base.v
theories/ObserverSpec.v
theories/ObserverModel.v
theories/ObserverProofs.v
theories/ReentrantModel.v
theories/ReentrantProofs.v
theories/ObserverProps.v
theories/Machine.v
theories/MachineProofs.v
theories/OpsModel.v
theories/OpsSpec.v
theories/OpsProofs.v
theories/ChainSpec.v
theories/ChainModel.v
theories/ChainProofs.v
theories/OpsProps.v
theories/CompositeSpec.v
theories/CompositeModel.v
theories/CompositeProofs.v
theories/Concur.v
theories/OnceModel.v
theories/StaticModel.v
theories/StaticSpec.v
theories/StaticProofs.v
theories/OnceProofs.v
theories/RefcountModel.v
theories/RefcountProofs.v
theories/DisposableProps.v
theories/QueueSpec.v
theories/QueueModel.v
theories/QueueProofs.v
theories/SchedSpec.v
theories/SchedModel.v
theories/SchedProofs.v
theories/SchedOrder.v
theories/SchedAlive.v
theories/SchedPeriod.v
theories/SchedSlept.v
theories/SchedProps.v
theories/LoopSpec.v
theories/LoopBase.v
theories/LoopAbs.v
theories/TestModel.v
theories/TestProofs.v
theories/RunLoopModel.v
theories/RunLoopProofs.v
theories/NewThreadModel.v
theories/NewThreadProofs.v
theories/PoolModel.v
theories/LoopProps.v
theories/MultiSpec.v
theories/MultiModel.v
theories/MultiLin.v
theories/MultiCount.v
theories/MultiProofs.v
theories/MultiLatest.v
theories/MultiTakeUntil.v
theories/MultiSeq.v
theories/MultiRace.v
theories/MultiProps.v
theories/CallLin.v
theories/ConcatSpec.v
theories/ConcatModel.v
theories/ConcatProofs.v
theories/ConcatProps.v
theories/SubjSpec.v
theories/SubjModel.v
theories/SubjProofs.v
theories/SubjConcModel.v
theories/SubjConcProofs.v
theories/SubjProps.v
theories/FanSpec.v
theories/FanModel.v
theories/FanProofs.v
theories/FanOps.v
theories/FanProps.v
theories/TogConcSpec.v
theories/TogConcModel.v
theories/TogConcProps.v
theories/ResubSpec.v
theories/ResubModel.v
theories/ResubProofs.v
theories/ResubProps.v
theories/DelaySpec.v
theories/DelayModel.v
theories/DelayProofs.v
theories/DelayProps.v
theories/DebSpec.v
theories/DebModel.v
theories/DebProofs.v
theories/DebProps.v
theories/TmoSpec.v
theories/TmoModel.v
theories/TmoProofs.v
theories/TmoProps.v
theories/RcSpec.v
theories/RcModel.v
theories/RcProofs.v
theories/RcProps.v
theories/ConnSpec.v
theories/ConnModel.v
theories/ConnProofs.v
theories/ConnProps.v
theories/GrpcSpec.v
theories/GrpcModel.v
theories/GrpcProofs.v
theories/GrpcProps.v
theories/ReadProps.v
theories/SrcSpec.v
theories/SrcModel.v
theories/SrcProofs.v
theories/SrcProps.v
theories/BlockSpec.v
theories/BlockModel.v
theories/BlockProofs.v
theories/BlockProps.v
theories/CapSpec.v
theories/CapModel.v
theories/CapProofs.v
theories/CapProps.v
theories/PoolConcModel.v
theories/PoolConcProps.v
theories/RelSpec.v
theories/RelModel.v
theories/RelProofs.v
theories/RelProps.v
theories/RefModel.v
theories/RefProofs.v
theories/RefSwitch.v
theories/RefProps.v
theories/WrapSpec.v
theories/WrapModel.v
theories/WrapProofs.v
theories/WrapProps.v
theories/EvSpec.v
theories/EvAbs.v
theories/StrandModel.v
theories/StrandProofs.v
theories/StrandProps.v
theories/QtModel.v
theories/QtProofs.v
theories/QtProps.v
theories/HandleSpec.v
theories/HandleModel.v
theories/HandleProofs.v
theories/HandleProps.v
theories/TimerProps.v
theories/FlatProofs.v
theories/FlatProps.v
theories/ReentSpec.v
theories/ReentModel.v
theories/ReentProofs.v
theories/ReentProps.v
theories/NestSpec.v
theories/NestModel.v
theories/NestProofs.v
theories/NestProps.v
theories/SigSpec.v
theories/SigModel.v
theories/SigProofs.v
theories/SigProps.v
theories/FairSpec.v
theories/FairModel.v
theories/FairProofs.v
theories/FairHist.v
theories/FairEnd.v
theories/FairProps.v
theories/TreeSpec.v
theories/TreeModel.v
theories/TreeProofs.v
theories/TreeEnd.v
theories/TreeProps.v
theories/DiamSpec.v
theories/DiamModel.v
theories/DiamProofs.v
theories/DiamProps.v
theories/RegSpec.v
theories/RegModel.v
theories/RegProofs.v
theories/RegPlans.v
theories/RegProps.v
theories/NetSpec.v
theories/NetModel.v
theories/NetProofs.v
theories/NetClear.v
theories/NetProps.v
theories/PipeSpec.v
theories/PipeModel.v
theories/PipeProofs.v
theories/PipeEnd.v
theories/PipeTerm.v
theories/PipeProps.v
theories/HotSpec.v
theories/HotModel.v
theories/HotProps.v
theories/ReconSpec.v
theories/ReconModel.v
theories/ReconProofs.v
theories/ReconProps.v
