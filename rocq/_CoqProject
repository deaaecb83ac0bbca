-Q theories Verif
theories/Util.v
theories/TimeSchemesModel.v
theories/TimeSchemesSpec.v
theories/TimeSchemesProofs.v
theories/TimeSchemesProps.v
theories/TimeDataModel.v
theories/TimeDataSpec.v
theories/TimeDataProofs.v
theories/TimeDataProps.v
theories/HistoryModel.v
theories/TimeLoopModel.v
theories/TimeLoopSpec.v
theories/TimeLoopProofs.v
theories/TimeLoopProps.v
theories/BlockVectorModel.v
theories/BlockVectorProps.v
theories/NewtonModel.v
theories/NewtonProofs.v
theories/NewtonProps.v
theories/StitchModel.v
theories/StitchSpec.v
theories/StitchProofs.v
theories/StitchProps.v
theories/FloodModel.v
theories/FloodSpec.v
theories/FloodProofs.v
theories/FloodProps.v
theories/ParticleInfoModel.v
theories/ParticleInfoProps.v
theories/MapModel.v
theories/TransferModel.v
theories/TransferSpec.v
theories/TransferProofs.v
theories/TransferProps.v
theories/DetectModel.v
theories/DetectProofs.v
theories/DetectProps.v
theories/TrackModel.v
theories/TrackProofs.v
theories/TrackProps.v
theories/ReassignModel.v
theories/ReassignSpec.v
theories/ReassignProofs.v
theories/ReassignProps.v
theories/RemapModel.v
theories/RemapProofs.v
theories/RemapProps.v
theories/DivisionsModel.v
theories/DivisionsProofs.v
theories/DivisionsProps.v
theories/BoxFilterModel.v
theories/BoxFilterProofs.v
theories/BoxFilterProps.v
theories/FreeEnergyModel.v
theories/FreeEnergyProofs.v
theories/FreeEnergyProps.v
theories/MobilityModel.v
theories/MobilityProofs.v
theories/MobilityProps.v
theories/PiecewiseModel.v
theories/PiecewiseProofs.v
theories/PiecewiseProps.v
theories/TimerModel.v
theories/TimerProps.v
theories/LimitModel.v
theories/LimitProps.v
theories/ControlBoxModel.v
theories/ControlBoxProps.v
theories/OriginModel.v
theories/OriginProps.v
theories/ExplicitModel.v
theories/ExplicitProps.v
theories/MeshFlagsModel.v
theories/MeshFlagsProps.v
theories/VecGeom.v
theories/GrainDistModel.v
theories/GrainDistProps.v
theories/CutoffModel.v
theories/CutoffProofs.v
theories/CutoffProps.v
theories/ForceModel.v
theories/ForceProps.v
theories/LookupModel.v
theories/LookupProps.v
theories/CsvModel.v
theories/CsvProps.v
theories/PackingModel.v
theories/PackingProps.v
theories/SerialModel.v
theories/SerialProps.v
theories/InitialModel.v
theories/InitialProps.v
theories/NeckProps.v
theories/CloudProps.v
theories/ContourModel.v
theories/ContourProps.v
theories/MotionModel.v
theories/MotionProps.v
theories/EllipsoidModel.v
theories/EllipsoidProofs.v
theories/EllipsoidProps.v
theories/WavefrontModel.v
theories/NeighborProps.v
theories/WavefrontProofs.v
theories/WaveLoopProofs.v
theories/WavefrontProps.v
theories/WaveDistProps.v
theories/OperatorModel.v
theories/OperatorProofs.v
theories/OperatorProps.v
theories/WeightProofs.v
theories/OperatorMassProps.v
theories/OperatorEnergyProps.v
theories/VmultModel.v
theories/VmultProofs.v
theories/VmultProps.v
theories/GrainGrowthModel.v
theories/GrainGrowthProofs.v
theories/GrainGrowthProps.v
theories/FieldOutputModel.v
theories/FieldOutputProps.v
theories/PreconModel.v
theories/PreconProofs.v
theories/PreconProps.v
theories/GreenquistModel.v
theories/GreenquistProofs.v
theories/GreenquistProps.v
theories/JfreeModel.v
theories/JfreeProofs.v
theories/JfreeProps.v
theories/AssembleModel.v
theories/AssembleProps.v
theories/StressModel.v
theories/StressProps.v
theories/PoreModel.v
theories/PoreProps.v
theories/CoordModel.v
theories/CoordProps.v
theories/ShrinkModel.v
theories/ShrinkProps.v
theories/QualityModel.v
theories/QualityProps.v
theories/ScheduleModel.v
theories/ScheduleProps.v
theories/SparsityModel.v
theories/SparsityProps.v
theories/InnerModel.v
theories/InnerProps.v
theories/SchwarzModel.v
theories/SchwarzProps.v
theories/SectionModel.v
theories/SectionProps.v
theories/CourantModel.v
theories/CourantProps.v
theories/StatsModel.v
theories/StatsProps.v
theories/GhostModel.v
theories/GhostProps.v
theories/MicroFileModel.v
theories/MicroFileProps.v
theories/KksModel.v
theories/KksProps.v
theories/HangingModel.v
theories/HangingProps.v
theories/CahnHilliardModel.v
theories/CahnHilliardProps.v
theories/AllenCahnModel.v
theories/AllenCahnProps.v
theories/LinearSolverModel.v
theories/LinearSolverProps.v
theories/CommandLineModel.v
theories/CommandLineProps.v
theories/DispatchModel.v
theories/DispatchProps.v
theories/PrintGrainsModel.v
theories/PrintGrainsProps.v
theories/BoundaryAreaModel.v
theories/BoundaryAreaProps.v
theories/FluxModel.v
theories/FluxProps.v
theories/ClampModel.v
theories/ClampProps.v
theories/CheckpointModel.v
theories/CheckpointProps.v
theories/ResultsFileModel.v
theories/ResultsFileProps.v
theories/ScopeModel.v
theories/ScopeProps.v
theories/CoarsenModel.v
theories/CoarsenProps.v
theories/OptionsModel.v
theories/OptionsProps.v
theories/PackModel.v
theories/PackProps.v
theories/ArkodeModel.v
theories/ArkodeProps.v
theories/BlockHeapModel.v
theories/BlockHeapProofs.v
theories/BlockHeapProps.v
theories/RemapOldModel.v
theories/RemapOldProofs.v
theories/RemapOldProps.v
theories/PackPropModel.v
theories/PackPropProps.v
theories/ConnectModel.v
theories/ConnectProps.v
theories/ContactsModel.v
theories/ContactsProps.v
theories/TransformModel.v
theories/TransformProps.v
theories/TrackDataModel.v
theories/TrackDataProps.v
theories/LabelsModel.v
theories/LabelsProps.v
theories/BatchModel.v
theories/BatchProps.v
theories/ShrinkScriptModel.v
theories/ShrinkScriptProps.v
theories/PeriodicCellsModel.v
theories/PeriodicCellsProps.v
theories/IntegralsModel.v
theories/IntegralsProps.v
theories/CoupledMatrixModel.v
theories/CoupledMatrixProps.v
theories/GrainProductModel.v
theories/GrainProductProps.v
theories/ResidualReportModel.v
theories/ResidualReportProps.v
theories/TableModel.v
theories/TableProps.v
theories/DensificationModel.v
theories/DensificationProps.v
theories/DistributionModel.v
theories/DistributionProps.v
theories/TimeLoopLateModel.v
theories/TimeLoopLateProofs.v
theories/TimeLoopLateProps.v
theories/CellOutputModel.v
theories/CellOutputProps.v
theories/CoupledOutputModel.v
theories/CoupledOutputProps.v
theories/MemoryModel.v
theories/MemoryProps.v
theories/DebugValuesModel.v
theories/DebugValuesProps.v
theories/GrainTableModel.v
theories/GrainTableProps.v
