-Q theories Verif
theories/ListUtil.v
theories/StatusModel.v
theories/StatusProofs.v
theories/StatusProps.v
theories/GraphModel.v
theories/GraphSpec.v
theories/DepProofs.v
theories/TopoProofs.v
theories/StaticModel.v
theories/StaticProofs.v
theories/EngineSeqProofs.v
theories/GraphProps.v
theories/DynModel.v
theories/DynInv.v
theories/DynProofs.v
theories/DynTerm.v
theories/DynProps.v
theories/FastModel.v
theories/FastProofs.v
theories/ParProofs.v
theories/FastProps.v
theories/OptModel.v
theories/OptProofs.v
theories/TrimProofs.v
theories/OptProps.v
theories/ElemModel.v
theories/ElemSpec.v
theories/ElemProofs.v
theories/ElemCor.v
theories/ElemCor2.v
theories/ElemProps.v
theories/GroupModel.v
theories/GroupProofs.v
theories/SomeProofs.v
theories/GroupProps.v
theories/PipeModel.v
theories/PipeProofs.v
theories/PipeLife.v
theories/PipeProps.v
theories/ContModel.v
theories/ContSpec.v
theories/ContProofs.v
theories/ContProps.v
theories/ParamModel.v
theories/ParamSpec.v
theories/ParamProofs.v
theories/ParamProps.v
theories/RingModel.v
theories/RingSpec.v
theories/RingProofs.v
theories/RingProps.v
theories/MsgModel.v
theories/MsgSpec.v
theories/MsgProofs.v
theories/MsgProps.v
theories/StageModel.v
theories/StageProps.v
theories/PmModel.v
theories/PmSpec.v
theories/PmProps.v
theories/ReflModel.v
theories/ReflSpec.v
theories/ReflProofs.v
theories/ReflProps.v
theories/PoolModel.v
theories/PoolSpec.v
theories/PoolProofs.v
theories/PoolProps.v
theories/PoolLive.v
theories/PoolProps2.v
theories/TGroupModel.v
theories/TGroupProps.v
theories/TimerModel.v
theories/TimerProps.v
theories/SyncModel.v
theories/SyncProps.v
theories/EventModel.v
theories/EventProps.v
theories/StateModel.v
theories/StateSpec.v
theories/StateProofs.v
theories/StateProps.v
theories/TimeoutModel.v
theories/TimeoutSpec.v
theories/TimeoutProofs.v
theories/TimeoutProps.v
theories/PerfModel.v
theories/PerfSpec.v
theories/PerfProofs.v
theories/PerfProps.v
theories/SerialModel.v
theories/SerialSpec.v
theories/SerialProofs.v
theories/SerialProps.v
theories/SingleModel.v
theories/SingleSpec.v
theories/SingleProofs.v
theories/SingleProps.v
theories/StoreModel.v
theories/StoreSpec.v
theories/StoreProofs.v
theories/StoreProps.v
theories/MutModel.v
theories/MutSpec.v
theories/MutProofs.v
theories/MutProps.v
theories/FenceModel.v
theories/FenceSpec.v
theories/FenceProofs.v
theories/FenceProps.v
theories/FenceLive.v
theories/OwnModel.v
theories/OwnSpec.v
theories/OwnProofs.v
theories/OwnProps.v
theories/DumpModel.v
theories/DumpSpec.v
theories/DumpProofs.v
theories/DumpProps.v
theories/RegModel.v
theories/RegSpec.v
theories/RegProofs.v
theories/RegProps.v
theories/QueueModel.v
theories/QueueSpec.v
theories/QueueProofs.v
theories/QueueWakeProofs.v
theories/QueueDrainProofs.v
theories/QueueProps.v
theories/AspectSpec.v
theories/AspectProofs.v
theories/AspectProps.v
theories/CoordModel.v
theories/CoordSpec.v
theories/CoordProofs.v
theories/CoordRunProofs.v
theories/CoordProps.v
theories/NestModel.v
theories/NestSpec.v
theories/NestProofs.v
theories/NestEndProofs.v
theories/NestProps.v
theories/LockModel.v
theories/LockSpec.v
theories/LockProofs.v
theories/LockProps.v
theories/DistModel.v
theories/DistProps.v
theories/DistReal.v
theories/AnnModel.v
theories/AnnProps.v
theories/LevelModel.v
theories/LevelSpec.v
theories/LevelProofs.v
theories/LevelProps.v
theories/WholeModel.v
theories/WholeSpec.v
theories/WholeProofs.v
theories/WholeProps.v
theories/ParamConModel.v
theories/ParamConSpec.v
theories/ParamConProofs.v
theories/ParamConProps.v
theories/PlaceModel.v
theories/PlaceSpec.v
theories/PlaceProofs.v
theories/PlaceProps.v
theories/PassModel.v
theories/PassSpec.v
theories/PassProofs.v
theories/PassProps.v
theories/BindSpec.v
theories/BindProofs.v
theories/BindProps.v
theories/AsyncModel.v
theories/AsyncSpec.v
theories/AsyncProofs.v
theories/AsyncProps.v
theories/EngPoolModel.v
theories/EngPoolSpec.v
theories/EngPoolProofs.v
theories/EngPoolProps.v
theories/EngLiveSpec.v
theories/EngLiveProofs.v
theories/EngFairProofs.v
theories/EngLiveProps.v
theories/SEngModel.v
theories/SEngSpec.v
theories/SEngLeft.v
theories/SEngProofs.v
theories/SEngLive.v
theories/SEngFair.v
theories/SEngProps.v
theories/PEngModel.v
theories/PEngSpec.v
theories/PEngProofs.v
theories/PEngLive.v
theories/PEngFair.v
theories/PEngProps.v
theories/LoadModel.v
theories/LoadSpec.v
theories/LoadProofs.v
theories/LoadProps.v
theories/LoadGroups.v
theories/DaemModel.v
theories/DaemSpec.v
theories/DaemProofs.v
theories/DaemProps.v
theories/DataModel.v
theories/DataSpec.v
theories/DataProofs.v
theories/DataProps.v
theories/LeftModel.v
theories/LeftSpec.v
theories/LeftProofs.v
theories/LeftProps.v
theories/TreeModel.v
theories/TreeSpec.v
theories/TreeProofs.v
theories/TreeProps.v
theories/TreeDataSpec.v
theories/TreeDataProofs.v
theories/TreeDataProps.v
theories/TakeSpec.v
theories/TakeProps.v
theories/RegTakeProps.v
theories/EventLiveProps.v
theories/ShareModel.v
theories/ShareSpec.v
theories/ShareProofs.v
theories/ShareFairProofs.v
theories/ShareProps.v
theories/RelationModel.v
theories/RelationSpec.v
theories/RelationProofs.v
theories/RelationProps.v
theories/HbSpec.v
theories/HbModel.v
theories/HbProofs.v
theories/HbProps.v
theories/NotifyModel.v
theories/NotifyProofs.v
theories/NotifyProps.v
theories/StatHbModel.v
theories/StatHbProofs.v
theories/ParHbModel.v
theories/ParHbProofs.v
theories/EngHbProps.v
theories/WmSpec.v
theories/WmModel.v
theories/WmProofs.v
theories/WmProps.v
theories/StopHbSpec.v
theories/StopHbModel.v
theories/StopHbProofs.v
theories/StopHbProps.v
theories/MsgConModel.v
theories/MsgConSpec.v
theories/MsgConProofs.v
theories/MsgConProps.v
theories/PubConModel.v
theories/PubConSpec.v
theories/PubConProofs.v
theories/PubConProps.v
theories/ChanHbSpec.v
theories/ChanHbModel.v
theories/ChanHbProofs.v
theories/ChanHbProps.v
theories/WatchSpec.v
theories/WatchModel.v
theories/WatchProofs.v
theories/WatchProps.v
theories/TimUseModel.v
theories/TimUseSpec.v
theories/TimUseProofs.v
theories/TimUseProps.v
theories/RandModel.v
theories/RandProps.v
