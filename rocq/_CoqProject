-Q theories Verif
theories/A2AModel.v
theories/A2AProofs.v
theories/A2AProps.v
theories/AccModel.v
theories/AccProofs.v
theories/AccProofs2.v
theories/AccProofs3.v
theories/AccProps.v
theories/AccSpec.v
theories/AgModel.v
theories/AgProofs.v
theories/AgProofs2.v
theories/AgProps.v
theories/AgSpec.v
theories/AllocModel.v
theories/AllocProofs.v
theories/AllocProofs2.v
theories/AllocProofs3.v
theories/AllocProofs4.v
theories/AllocProofs5.v
theories/AllocProofs6.v
theories/AllocProps.v
theories/AllocSpec.v
theories/AwModel.v
theories/AwProofs.v
theories/AwProps.v
theories/AwSpec.v
theories/BarrierModel.v
theories/BarrierProofs.v
theories/BarrierProps.v
theories/Base.v
theories/BbModel.v
theories/BbProofs.v
theories/BbProps.v
theories/BbSpec.v
theories/BlkModel.v
theories/BlkProofs.v
theories/BlkProps.v
theories/BlkSpec.v
theories/CfmModel.v
theories/CfmProofs.v
theories/CfmProps.v
theories/CfmSpec.v
theories/CfoModel.v
theories/CfoProps.v
theories/CfoSpec.v
theories/ChanModel.v
theories/ChanProps.v
theories/ChnModel.v
theories/ChnProofs.v
theories/ChnProps.v
theories/ChnSpec.v
theories/CnoModel.v
theories/CnoProps.v
theories/CnoSpec.v
theories/CnpModel.v
theories/CnpProofs.v
theories/CnpProps.v
theories/CnpSpec.v
theories/CombModel.v
theories/CombProofs.v
theories/CombProps.v
theories/CombSpec.v
theories/CwsModel.v
theories/CwsProofs.v
theories/CwsProps.v
theories/CwsSpec.v
theories/DCModel.v
theories/DCProofs.v
theories/DCProofs2.v
theories/DCProofs3.v
theories/DCProofs4.v
theories/DCProofs5.v
theories/DCProofs6.v
theories/DCProofs7.v
theories/DCProofs8.v
theories/DCProofs9.v
theories/DCProps.v
theories/DCSpec.v
theories/DgrModel.v
theories/DgrProofs.v
theories/DgrProofs2.v
theories/DgrProofs3.v
theories/DgrProofs4.v
theories/DgrProofs5.v
theories/DgrProofs6.v
theories/DgrProofs7.v
theories/DgrProps.v
theories/DgrSpec.v
theories/DynqModel.v
theories/DynqProofs.v
theories/DynqProps.v
theories/FarmModel.v
theories/FarmProofs.v
theories/FarmProps.v
theories/FarmSpec.v
theories/FfqInv.v
theories/FfqModel.v
theories/FfqProofs.v
theories/FfqProps.v
theories/FfqSpec.v
theories/FlgModel.v
theories/FlgProofs.v
theories/FlgProps.v
theories/FlgSpec.v
theories/FrameModel.v
theories/FrameProofs.v
theories/FrameProps.v
theories/FrameSpec.v
theories/FreezeModel.v
theories/FreezeProofs.v
theories/FreezeProofs2.v
theories/FreezeProps.v
theories/FwrModel.v
theories/FwrProofs.v
theories/FwrProps.v
theories/FwrSpec.v
theories/GatherModel.v
theories/GatherProofs.v
theories/GatherProps.v
theories/GatherSpec.v
theories/GcModel.v
theories/GcProofs.v
theories/GcProps.v
theories/GcSpec.v
theories/GsModel.v
theories/GsProofs.v
theories/GsProofs2.v
theories/GsProps.v
theories/GsSpec.v
theories/HashModel.v
theories/HashProofs.v
theories/HashProps.v
theories/HashSpec.v
theories/LamportConcModel.v
theories/LamportConcProofs.v
theories/LinFacts.v
theories/LinSpec.v
theories/LockModel.v
theories/LockProofs.v
theories/LockProps.v
theories/MSModel.v
theories/MSProofs.v
theories/MSProps.v
theories/MdfModel.v
theories/MdfProofs.v
theories/MdfProofs2.v
theories/MdfProofs3.v
theories/MdfProofs4.v
theories/MdfProps.v
theories/MdfSpec.v
theories/MinModel.v
theories/MinProofs.v
theories/MinProps.v
theories/MinSpec.v
theories/MsgModel.v
theories/MsgProofs.v
theories/MsgProofs2.v
theories/MsgProps.v
theories/MsgSpec.v
theories/MwModel.v
theories/MwProofs.v
theories/MwProps.v
theories/NetBufModel.v
theories/NetBufProofs.v
theories/NetBufProps.v
theories/NetBufSpec.v
theories/NetIoModel.v
theories/NetIoProofs.v
theories/NetIoProps.v
theories/NetModel.v
theories/NetProofs.v
theories/NetProofs2.v
theories/NetProofs3.v
theories/NetProofs4.v
theories/NetProofs5.v
theories/NetProps.v
theories/NetSpec.v
theories/OFarmModel.v
theories/OFarmProofs.v
theories/OFarmProps.v
theories/OFarmSpec.v
theories/OndemModel.v
theories/OndemProofs.v
theories/OndemProps.v
theories/OptModel.v
theories/OptProofs.v
theories/OptProofs2.v
theories/OptProofs3.v
theories/OptProofs4.v
theories/OptProps.v
theories/OptSpec.v
theories/Outcome.v
theories/ParForBlocks.v
theories/ParForDyn.v
theories/ParForInit.v
theories/ParForLoop.v
theories/ParForMain.v
theories/ParForModel.v
theories/ParForProps.v
theories/ParForSched.v
theories/ParForSpec.v
theories/ParForStatic.v
theories/PfIntModel.v
theories/PfIntProofs.v
theories/PfIntProps.v
theories/PfIntRun.v
theories/PfIntSpec.v
theories/PipeModel.v
theories/PipeProofs.v
theories/PipeProps.v
theories/PipeSpec.v
theories/PollModel.v
theories/PollProofs.v
theories/PollProofs2.v
theories/PollProofs3.v
theories/PollProps.v
theories/PollSpec.v
theories/PoolModel.v
theories/PoolProofs.v
theories/PoolProps.v
theories/PoolSpec.v
theories/ReModel.v
theories/ReProofs.v
theories/ReProofs2.v
theories/ReProps.v
theories/ReSpec.v
theories/RingModel.v
theories/RingProofs.v
theories/RingProps.v
theories/ScalModel.v
theories/ScalProofs.v
theories/ScalProps.v
theories/SchedModel.v
theories/SchedProofs.v
theories/SchedProps.v
theories/SchedSpec.v
theories/SerModel.v
theories/SerProofs.v
theories/SerProps.v
theories/SpscConcModel.v
theories/SpscConcProofs.v
theories/SpscConcProps.v
theories/SpscSeqModel.v
theories/SpscSeqProofs.v
theories/SpscSeqProps.v
theories/SpscSpec.v
theories/SpscTsoModel.v
theories/SpscTsoProofs.v
theories/SqueueModel.v
theories/SqueueProofs.v
theories/SqueueProps.v
theories/SqueueSpec.v
theories/StaticAllocModel.v
theories/StaticAllocProofs.v
theories/StaticAllocProps.v
theories/StaticListModel.v
theories/StaticListProofs.v
theories/StaticListProps.v
theories/StencilModel.v
theories/StencilProofs.v
theories/StencilProps.v
theories/StencilSpec.v
theories/SvectorModel.v
theories/SvectorProofs.v
theories/SvectorProps.v
theories/SvectorSpec.v
theories/TNetChan.v
theories/TNetInv.v
theories/TNetLive.v
theories/TNetModel.v
theories/TNetProofs.v
theories/TNetProps.v
theories/TNetSim.v
theories/TNetSpec.v
theories/TkfModel.v
theories/TkfProofs.v
theories/TkfProps.v
theories/TkfSpec.v
theories/Tracks.v
theories/UBufModel.v
theories/UBufProofs.v
theories/UBufProps.v
theories/UBufSpec.v
theories/UTsoModel.v
theories/UTsoProofs.v
theories/UTsoProofs2.v
theories/UTsoProofs3.v
theories/UTsoProofs4.v
theories/UTsoProofs5.v
theories/UTsoProofs6.v
theories/UTsoProps.v
theories/UTsoSpec.v
theories/UmpmcModel.v
theories/UmpmcProofs.v
theories/UmpmcProofs2.v
theories/UmpmcProps.v
theories/UtilModel.v
theories/UtilProofs.v
theories/UtilProps.v
theories/VtsoInv.v
theories/VtsoModel.v
theories/VtsoProofs.v
theories/VtsoProps.v
theories/VtsoSpec.v
theories/VyukovModel.v
theories/VyukovProofs.v
theories/VyukovProps.v
theories/WireModel.v
theories/WireProofs.v
theories/WireProofs2.v
theories/WireProofs3.v
theories/WireProofs4.v
theories/WireProofs5.v
theories/WireProofs6.v
theories/WireProofs7.v
theories/WireProofs8.v
theories/WireProofs9.v
theories/WireProps.v
theories/WireSpec.v
theories/WrapModel.v
theories/WrapNet.v
theories/WrapNetProps.v
theories/WrapProofs1.v
theories/WrapProofs2.v
theories/WrapProofs3.v
theories/WrapProps.v
theories/WrapSpec.v
