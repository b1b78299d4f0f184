-Q theories Verif
theories/Base.v
theories/GridModel.v
theories/GridProofs.v
theories/NeighModel.v
theories/NeighSpec.v
theories/NeighProofs.v
theories/RootsModel.v
theories/RootsSpec.v
theories/RootsProofs.v
theories/OngridProofs.v
theories/ChargeModel.v
theories/ChargeProofs.v
theories/CoreLemmas.v
theories/CoreProps.v
theories/UnionModel.v
theories/UnionSpec.v
theories/UnionProofs.v
theories/CompressModel.v
theories/CompressProofs.v
theories/ShiftModel.v
theories/ShiftSpec.v
theories/ShiftProofs.v
theories/UnionProps.v
theories/LabelsModel.v
theories/LabelsSpec.v
theories/LabelsProofs.v
theories/RunModel.v
theories/RunProofs.v
theories/LabelsLemmas.v
theories/LabelsProps.v
theories/WeightModel.v
theories/WeightSpec.v
theories/WeightProofs.v
theories/WeightRun.v
theories/WeightLemmas.v
theories/WeightProps.v
theories/NearModel.v
theories/NearSpec.v
theories/NearProofs.v
theories/NearRun.v
theories/NearLemmas.v
theories/NearProps.v
theories/NearWeightModel.v
theories/NearWeightProofs.v
theories/NearWeightProps.v
theories/BaderModel.v
theories/BaderProofs.v
theories/BaderProps.v
theories/SurfaceModel.v
theories/SurfaceProofs.v
theories/SurfaceProps.v
theories/InterpModel.v
theories/InterpProofs.v
theories/InterpProps.v
theories/RefineModel.v
theories/RefineProofs.v
theories/RefineProps.v
theories/CoordModel.v
theories/CoordProofs.v
theories/CoordMerge.v
theories/CoordProps.v
theories/BifModel.v
theories/BifSpec.v
theories/BifProofs.v
theories/BifLevels.v
theories/BifTree.v
theories/BifTop.v
theories/BifProps.v
theories/ConnModel.v
theories/ConnSpec.v
theories/ConnProofs.v
theories/ConnProps.v
theories/NodesModel.v
theories/NodesSpec.v
theories/NodesProofs.v
theories/NodesEdit.v
theories/NodesTop.v
theories/NodesProps.v
theories/DictModel.v
theories/DictSpec.v
theories/DictProofs.v
theories/DictProps.v
theories/ShareModel.v
theories/ShareSpec.v
theories/ShareProofs.v
theories/ShareProps.v
theories/FeatLabModel.v
theories/FeatLabSpec.v
theories/FeatLabProofs.v
theories/FeatLabProps.v
theories/RadModel.v
theories/RadSpec.v
theories/RadProofs.v
theories/RadTop.v
theories/RadProps.v
theories/PlaneModel.v
theories/PlaneSpec.v
theories/PlaneInt.v
theories/PlaneVol.v
theories/PlaneProofs.v
theories/PlaneWrap.v
theories/PlaneProps.v
theories/BadelfModel.v
theories/BadelfSpec.v
theories/BadelfProofs.v
theories/BadelfOut.v
theories/BadelfPass.v
theories/BadelfTop.v
theories/BadelfProps.v
theories/DimModel.v
theories/DimSpec.v
theories/DimProofs.v
theories/DimSearch.v
theories/DimLabel.v
theories/DimProps.v
theories/GlabModel.v
theories/GlabSpec.v
theories/GlabProofs.v
theories/GlabTop.v
theories/GlabProps.v
theories/GobjModel.v
theories/GobjProofs.v
theories/GobjProps.v
theories/TextModel.v
theories/TextProofs.v
theories/FmtProofs.v
theories/VaspModel.v
theories/VaspProofs.v
theories/VaspTop.v
theories/VaspProps.v
theories/CubeModel.v
theories/CubeProofs.v
theories/CubeTop.v
theories/CubeProps.v
theories/StructModel.v
theories/StructProps.v
theories/EnvModel.v
theories/EnvProps.v
theories/BondModel.v
theories/BondProps.v
theories/CycleModel.v
theories/CycleSpec.v
theories/CycleLin.v
theories/CycleTiny.v
theories/CycleForest.v
theories/CycleGroups.v
theories/CycleProofs.v
theories/CycleTop.v
theories/CycleMain.v
theories/CycleProps.v
theories/SpinModel.v
theories/SpinProofs.v
theories/SpinProps.v
theories/MarkModel.v
theories/MarkProofs.v
theories/MarkLone.v
theories/MarkShell.v
theories/MarkProps.v
theories/VectorProps.v
theories/SaddleModel.v
theories/SaddleSpec.v
theories/SaddleBox.v
theories/SaddleProofs.v
theories/SaddleTop.v
theories/SaddleFind.v
theories/SaddleProps.v
theories/BondNearProps.v
theories/SplitModel.v
theories/SplitSpec.v
theories/SplitProofs.v
theories/SplitTop.v
theories/SplitProps.v
theories/AroundModel.v
theories/AroundProps.v
theories/BuildModel.v
theories/BuildProofs.v
theories/BuildTop.v
theories/BuildProps.v
theories/BuildConnProps.v
theories/VorModel.v
theories/VorProofs.v
theories/VorTop.v
theories/VorProps.v
theories/VorExProps.v
theories/ReportModel.v
theories/ReportProofs.v
theories/ReportProps.v
theories/ReportOxProps.v
theories/AssignModel.v
theories/AssignProofs.v
theories/AssignProps.v
theories/WriteModel.v
theories/WriteProofs.v
theories/WriteProps.v
theories/CliModel.v
theories/CliProps.v
theories/RingModel.v
theories/RingProps.v
theories/TsvModel.v
theories/TsvProps.v
theories/FacetModel.v
theories/FacetProps.v
theories/PlotModel.v
theories/PlotProofs.v
theories/PlotProps.v
theories/ViewModel.v
theories/ViewProps.v
theories/OverModel.v
theories/OverProps.v
theories/GuiModel.v
theories/GuiProps.v
theories/CacheModel.v
theories/CacheProps.v
theories/BobjModel.v
theories/BobjProps.v
theories/NodesPrune.v
theories/PruneProps.v
theories/NodesCombine.v
theories/RefineFitProps.v
theories/SymModel.v
theories/SymProps.v
theories/MarkKinds.v
theories/KwModel.v
theories/KwProps.v
theories/SummModel.v
theories/SummProps.v
