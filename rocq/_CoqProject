-Q theories Verif

theories/Base.v
theories/PartitionModel.v
theories/PartitionSpec.v
theories/PartitionProofs.v
theories/PartitionProps.v
theories/LouvainModel.v
theories/LouvainSpec.v
theories/LouvainProofs.v
theories/LouvainProps.v
theories/LocalProps.v
theories/StateModel.v
theories/StateSpec.v
theories/StateProofs.v
theories/StateProps.v
theories/SparseModel.v
theories/SparseSpec.v
theories/SparseProofs.v
theories/SparseOpsProofs.v
theories/SparseConvProofs.v
theories/SparseProps.v
theories/AutocovModel.v
theories/AutocovSpec.v
theories/AutocovProofs.v
theories/AutocovAggProofs.v
theories/AutocovCtorProofs.v
theories/AutocovProps.v
theories/SparseLouvainModel.v
theories/SparseLouvainSpec.v
theories/SparseLouvainProofs.v
theories/SparseLouvainProps.v
theories/InfoModel.v
theories/InfoSpec.v
theories/InfoProofs.v
theories/InfoNviProofs.v
theories/InfoMoreProofs.v
theories/InfoProps.v
theories/CompareModel.v
theories/CompareSpec.v
theories/CompareProofs.v
theories/CompareProps.v
theories/EventsModel.v
theories/EventsSpec.v
theories/EventsProofs.v
theories/LaplacianProofs.v
theories/InstProofs.v
theories/MergeProofs.v
theories/EventsProps.v
theories/TransModel.v
theories/TransSpec.v
theories/MatProofs.v
theories/TransProofs.v
theories/ExpmProofs.v
theories/TransProps.v
theories/FlowModel.v
theories/FlowSpec.v
theories/FlowProofs.v
theories/FlowGridProofs.v
theories/FlowProps.v
theories/FlowStabProofs.v
theories/FlowStabProps.v
theories/SynthModel.v
theories/SynthSpec.v
theories/SynthProofs.v
theories/SynthRunProofs.v
theories/SynthEndProofs.v
theories/SynthProps.v
theories/StaticModel.v
theories/StaticSpec.v
theories/StaticProofs.v
theories/StaticProps.v
theories/MultiModel.v
theories/MultiSpec.v
theories/MultiProofs.v
theories/MultiProps.v
theories/FileModel.v
theories/FileSpec.v
theories/FileProofs.v
theories/FileProps.v
theories/CovModel.v
theories/CovSpec.v
theories/CovProofs.v
theories/CovTaskProofs.v
theories/CovProps.v
theories/ClustModel.v
theories/ClustSpec.v
theories/ClustSearchProofs.v
theories/ClustProofs.v
theories/ClustRunProofs.v
theories/ClustSavedProofs.v
theories/ClustSummaryProofs.v
theories/ClustProps.v
theories/SliceModel.v
theories/SliceSpec.v
theories/SliceProofs.v
theories/SliceProps.v
theories/RefusedProps.v
theories/SmallModel.v
theories/SmallSpec.v
theories/Components.v
theories/SmallProofs.v
theories/RowProofs.v
theories/SmallProps.v
theories/GapModel.v
theories/GapSpec.v
theories/GapProofs.v
theories/GapProps.v
theories/PipeModel.v
theories/PipeSpec.v
theories/PipeProofs.v
theories/PipeProps.v
theories/UnitProofs.v
theories/UnitProps.v
theories/RenameSpec.v
theories/RenameProofs.v
theories/RenameProps.v
theories/RenameInfoProps.v
theories/ExpModel.v
theories/ExpSpec.v
theories/ExpSeries.v
theories/ExpLimit.v
theories/ExpProps.v
theories/InitModel.v
theories/InitSpec.v
theories/InitProofs.v
theories/InitProps.v
theories/NamesModel.v
theories/NamesSpec.v
theories/NamesProofs.v
theories/NamesParts.v
theories/NamesProps.v
theories/NamesRoundProps.v
theories/NviModel.v
theories/NviSpec.v
theories/NviProofs.v
theories/NviProps.v
theories/ProgressModel.v
theories/ProgressSpec.v
theories/ProgressProofs.v
theories/ProgressProps.v
theories/TableModel.v
theories/TableSpec.v
theories/TableProofs.v
theories/TableProps.v
theories/StateFlowProps.v
theories/StateValueProps.v
theories/ThreshProps.v
theories/KernelModel.v
theories/KernelProps.v
theories/PeriodSpec.v
theories/PeriodProps.v
theories/PathSpec.v
theories/PathProps.v
theories/ElsewhereProps.v
theories/StepModel.v
theories/StepProps.v
theories/MeetSpec.v
theories/MeetProofs.v
theories/MeetProps.v
theories/ListingModel.v
theories/ListingProps.v
theories/JoinEndProps.v
theories/WidthModel.v
theories/WidthProps.v
theories/FallbackModel.v
theories/FallbackProps.v
theories/SlicedModel.v
theories/SlicedProps.v
theories/ErrorProps.v
theories/FlowIntModel.v
theories/FlowIntProps.v
theories/LinErrorProps.v
theories/StaticRunModel.v
theories/StaticRunProps.v
theories/StaticFileModel.v
theories/StaticFileProps.v
theories/StaticTimeModel.v
theories/StaticTimeProps.v
theories/StaticLongProps.v
theories/ContactStabProps.v
theories/SparseProgressModel.v
theories/SparseProgressProps.v
theories/CrossTimeProps.v
theories/BestSplitProps.v
theories/SlowProps.v
theories/SymmetryProps.v
theories/MergedPipeProps.v
theories/RenameMergeProps.v
theories/MergedBestProps.v
theories/UnitMergeProps.v
theories/RenameInstProps.v
theories/WidthTrimProps.v
theories/ElsewhereMergeProps.v
theories/OrderInstProps.v
theories/InstUnitProps.v
theories/InstLastProps.v
theories/InstTransModel.v
theories/InstTransProps.v
