-Q theories Verif
theories/Base.v
theories/RangeModel.v
theories/RangeCountingModel.v
theories/RangeCountingSpec.v
theories/RangeCountingProofs.v
theories/RangeCountingProofs2.v
theories/RangeCountingProofs3.v
theories/RangeCountingProofs4.v
theories/RangeCountingProofs5.v
theories/RangeCountingProofs6.v
theories/RangeCountingProps.v
theories/RangeProps.v
theories/SpaceModel.v
theories/SpaceProps.v
theories/VariableModel.v
theories/VariableSpec.v
theories/VariableProofs.v
theories/VariableProofs2.v
theories/VariableProofs3.v
theories/VariableProps.v
theories/VarVectorModel.v
theories/VarVectorSpec.v
theories/VarVectorProofs.v
theories/VarVectorProps.v
theories/VarCountingModel.v
theories/VarCountingSpec.v
theories/VarCountingProofs.v
theories/VarCountingProofs2.v
theories/VarCountingProofs3.v
theories/VarCountingProofs4.v
theories/VarCountingProofs5.v
theories/VarCountingProps.v
theories/PartitionModel.v
theories/PartitionSpec.v
theories/PartitionProofs.v
theories/PartitionProps.v
theories/GraphModel.v
theories/GraphSpec.v
theories/ListLemmas.v
theories/DisjointSetProofs.v
theories/GraphProofs.v
theories/OrderProofs.v
theories/TarjanProofs.v
theories/GraphProps.v
theories/CallGraphModel.v
theories/CallGraphSpec.v
theories/CallGraphProofs.v
theories/CallGraphProofs2.v
theories/CallGraphProps.v
theories/MatPropModel.v
theories/MatPropSpec.v
theories/MatPropProofs.v
theories/MatPropProofs2.v
theories/MatPropProofs3.v
theories/MatPropProofs4.v
theories/MatPropProps0.v
theories/MatPropProps.v
theories/QSum.v
theories/AssignModel.v
theories/AssignSpec.v
theories/AssignProofs.v
theories/AssignProofs2.v
theories/AssignProofs3.v
theories/AssignProofs4.v
theories/AssignProofs5.v
theories/AssignProofs6.v
theories/AssignProofs7.v
theories/AssignProps.v
theories/BoundModel.v
theories/BoundSpec.v
theories/BoundProofs.v
theories/BoundProps.v
theories/SolverModel.v
theories/SolverSpec.v
theories/SolverProofs.v
theories/SolverProofs2.v
theories/SolverProofs3.v
theories/SolverProofs4.v
theories/SolverProofs5.v
theories/SolverProofs6.v
theories/SolverProofs7.v
theories/SolverProps.v
theories/AbilitiesModel.v
theories/AbilitiesProps.v
theories/QueueModel.v
theories/QueueSpec.v
theories/QueueProofs.v
theories/QueueProps.v
theories/SolverEventsModel.v
theories/SolverEventsSpec.v
theories/SolverEventsProofs.v
theories/SolverEventsProps.v
theories/WlsModel.v
theories/WlsSpec.v
theories/WlsProofs.v
theories/WlsProofs2.v
theories/WlsProofs3.v
theories/WlsProofs4.v
theories/WlsProps.v
theories/DiagModel.v
theories/DiagSpec.v
theories/DiagProofs.v
theories/DiagProofs2.v
theories/DiagProps.v
theories/SubstModel.v
theories/SubstSpec.v
theories/SubstProofs.v
theories/SubstProofs2.v
theories/SubstProofs3.v
theories/SubstProofs4.v
theories/SubstProofs5.v
theories/SubstProofs6.v
theories/SubstProps.v
theories/TokenModel.v
theories/TokenSpec.v
theories/TokenProofs.v
theories/TokenProps.v
theories/CallbackModel.v
theories/CallbackSpec.v
theories/CallbackProofs.v
theories/CallbackProps.v
theories/DynModel.v
theories/DynSpec.v
theories/DynProofs.v
theories/DynProofs2.v
theories/DynProps.v
theories/PDModel.v
theories/PDSpec.v
theories/PDProofs.v
theories/PDProps.v
theories/MapVarModel.v
theories/MapVarSpec.v
theories/MapVarProofs.v
theories/MapVarProps.v
theories/LtcModel.v
theories/LtcSpec.v
theories/LtcProofs.v
theories/LtcProps.v
theories/VarCountingProofs6.v
theories/LinFunModel.v
theories/LinFunSpec.v
theories/LinFunProofs.v
theories/LinFunProofs2.v
theories/LinFunProofs3.v
theories/LinFunProofs4.v
theories/LinFunProofs5.v
theories/LinFunProofs6.v
theories/LinFunProps.v
theories/IdModel.v
theories/IdSpec.v
theories/IdProofs.v
theories/IdProps.v
theories/InputsModel.v
theories/InputsSpec.v
theories/InputsProofs.v
theories/InputsProofs2.v
theories/InputsProps.v
theories/OutSelModel.v
theories/OutSelSpec.v
theories/OutSelProofs.v
theories/OutSelProps.v
theories/EventModel.v
theories/EventSpec.v
theories/EventProofs.v
theories/EventProps.v
theories/HlsModel.v
theories/HlsSpec.v
theories/HlsProofs.v
theories/HlsProofs2.v
theories/HlsProofs3.v
theories/HlsProps.v
theories/JointsModel.v
theories/JointsSpec.v
theories/JointsProofs.v
theories/JointsProofs2.v
theories/JointsProps.v
theories/PostureModel.v
theories/PostureSpec.v
theories/PostureProofs.v
theories/PostureProps.v
theories/UpdatelessModel.v
theories/UpdatelessSpec.v
theories/UpdatelessProofs.v
theories/UpdatelessProofs2.v
theories/UpdatelessProps.v
theories/PbModel.v
theories/PbSpec.v
theories/PbProofs.v
theories/PbProofs2.v
theories/PbProps.v
theories/QpModel.v
theories/QpSpec.v
theories/QpProofs.v
theories/QpProofs2.v
theories/QpProofs3.v
theories/QpProofs4.v
theories/QpProofs5.v
theories/QpProofs6.v
theories/QpExamples.v
theories/QpProofs7.v
theories/QpProps.v
theories/SubSetModel.v
theories/SubSetSpec.v
theories/SubSetProofs.v
theories/SubSetProofs2.v
theories/SubSetProofs3.v
theories/SubSetProofs4.v
theories/SubSetProofs5.v
theories/SubSetProofs6.v
theories/SubSetExamples.v
theories/SubSetProps.v
theories/BlcModel.v
theories/BlcSpec.v
theories/BlcProofs.v
theories/BlcProofs2.v
theories/BlcProofs3.v
theories/BlcProofs4.v
theories/BlcProofs5.v
theories/BlcProofs6.v
theories/BlcProps.v
theories/ConeModel.v
theories/ConeSpec.v
theories/ConeProofs.v
theories/ConeProofs2.v
theories/ConeProps.v
theories/DfModel.v
theories/DfSpec.v
theories/DfProofs.v
theories/DfProofs2.v
theories/DfProps.v
theories/CtcModel.v
theories/CtcSpec.v
theories/CtcProofs.v
theories/CtcProps.v
theories/FrModel.v
theories/FrSpec.v
theories/FrProofs.v
theories/FrProps.v
theories/PlModel.v
theories/PlSpec.v
theories/PlProofs.v
theories/PlProps.v
theories/ColModel.v
theories/ColSpec.v
theories/ColProofs.v
theories/ColProps.v
theories/FopModel.v
theories/FopSpec.v
theories/FopProofs.v
theories/FopProps.v
theories/RobModel.v
theories/RobSpec.v
theories/RobProofs.v
theories/RobProps.v
theories/GcModel.v
theories/GcSpec.v
theories/GcProofs.v
theories/GcProps.v
theories/ScModel.v
theories/ScSpec.v
theories/ScProofs.v
theories/ScProofs2.v
theories/ScProps.v
theories/WrModel.v
theories/WrSpec.v
theories/WrProofs.v
theories/WrProofs2.v
theories/WrProofs3.v
theories/WrProps.v
theories/CfModel.v
theories/CfSpec.v
theories/CfProofs.v
theories/CfProofs2.v
theories/CfProofs3.v
theories/CfProofs4.v
theories/CfProps.v
theories/NdModel.v
theories/NdSpec.v
theories/NdProofs.v
theories/NdProofs2.v
theories/NdProofs3.v
theories/NdProps.v
theories/LgModel.v
theories/LgSpec.v
theories/LgProofs.v
theories/LgProofs2.v
theories/LgProps.v
theories/GpModel.v
theories/GpSpec.v
theories/GpProofs.v
theories/GpProofs2.v
theories/GpProps.v
theories/RqModel.v
theories/RqSpec.v
theories/RqProofs.v
theories/RqProps.v
theories/BsModel.v
theories/BsSpec.v
theories/BsProofs.v
theories/BsProofs2.v
theories/BsExamples.v
theories/BsProps.v
theories/CawModel.v
theories/CawSpec.v
theories/CawProofs.v
theories/CawProps.v
theories/MalModel.v
theories/MalSpec.v
theories/MalProofs.v
theories/MalProps.v
theories/DotModel.v
theories/DotSpec.v
theories/DotProofs.v
theories/DotProofs2.v
theories/DotProofs3.v
theories/DotProofs4.v
theories/DotProps.v
theories/MiModel.v
theories/MiSpec.v
theories/MiProofs.v
theories/MiProps.v
theories/OriModel.v
theories/OriSpec.v
theories/OriProofs.v
theories/OriProofs2.v
theories/OriProofs3.v
theories/OriProps.v
theories/GuModel.v
theories/GuSpec.v
theories/GuProofs.v
theories/GuProofs2.v
theories/GuProps.v
theories/ChModel.v
theories/ChSpec.v
theories/ChProofs.v
theories/ChProps.v
theories/RdModel.v
theories/RdSpec.v
theories/RdProofs.v
theories/RdProps.v
theories/BmModel.v
theories/BmSpec.v
theories/BmProofs.v
theories/BmProps.v
theories/BgModel.v
theories/BgSpec.v
theories/BgProofs.v
theories/BgProps.v
theories/UfModel.v
theories/UfSpec.v
theories/UfProofs.v
theories/UfProps.v
theories/HpModel.v
theories/HpSpec.v
theories/HpProofs.v
theories/HpProofs2.v
theories/HpProps.v
theories/LxModel.v
theories/LxSpec.v
theories/LxProofs.v
theories/LxProps.v
theories/OptModel.v
theories/OptSpec.v
theories/OptProofs.v
theories/OptProps.v
theories/SlcModel.v
theories/SlcSpec.v
theories/SlcProofs.v
theories/SlcProofs2.v
theories/SlcProps.v
theories/WsModel.v
theories/WsSpec.v
theories/WsProofs.v
theories/WsProps.v
