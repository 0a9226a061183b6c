-Q theories Verif
theories/SortingModel.v
theories/SortingProofs.v
theories/SortingProps.v
theories/CombinatorialModel.v
theories/CombinatorialProofs.v
theories/CombinatorialProps.v
theories/WalkForwardModel.v
theories/WalkForwardProofs.v
theories/WalkForwardProps.v
theories/CrossValModel.v
theories/CrossValProofs.v
theories/CrossValProps.v
theories/EquationsModel.v
theories/EquationsSpec.v
theories/EquationsProofs.v
theories/EquationsProps.v
theories/RList.v
theories/MeasuresModel.v
theories/MeasuresProofs.v
theories/MeasuresProps.v
theories/DrawdownProps.v
theories/PortfolioModel.v
theories/PortfolioSpec.v
theories/PortfolioProofs.v
theories/PortfolioProps.v
theories/PortfolioArithModel.v
theories/PortfolioArithProps.v
theories/MultiPeriodModel.v
theories/MultiPeriodProps.v
theories/PopulationModel.v
theories/PopulationProps.v
theories/PreSelectionModel.v
theories/PreSelectionProps.v
theories/ReturnsModel.v
theories/ReturnsProps.v
theories/HrpModel.v
theories/HrpProps.v
theories/HercModel.v
theories/HercProps.v
theories/ComposeModel.v
theories/ComposeProps.v
theories/ConvexModel.v
theories/ConvexProps.v
theories/ConvexMoreProps.v
theories/RiskModel.v
theories/RiskProps.v
theories/RiskTailProps.v
theories/MeanRiskModel.v
theories/MeanRiskProps.v
theories/MeanRiskOptimalProps.v
theories/BudgetingModel.v
theories/BudgetingProps.v
theories/FitCacheModel.v
theories/FitCacheProps.v
theories/SolveModel.v
theories/SolveProps.v
theories/MatForm.v
theories/BlackLittermanModel.v
theories/BlackLittermanProps.v
theories/FieldTac.v
theories/CovarianceModel.v
theories/CovarianceProps.v
theories/FactorModelProps.v
theories/GerberModel.v
theories/GerberProps.v
theories/MuModel.v
theories/MuProps.v
theories/DistanceModel.v
theories/DistanceProps.v
theories/CopulaModel.v
theories/CopulaProps.v
theories/CopulaNewtonProps.v
theories/CopulaTailProps.v
theories/VineModel.v
theories/VineGraph.v
theories/VineProps.v
theories/VineSampleProps.v
theories/ToolsModel.v
theories/ToolsProps.v
theories/VinePropagateProps.v
theories/VineCopulaProps.v
theories/VineConditionModel.v
theories/VineConditionProps.v
theories/UncertaintyModel.v
theories/UncertaintyProps.v
theories/ClusterModel.v
theories/ClusterProps.v
theories/ScorerModel.v
theories/ScorerProps.v
theories/ImpliedModel.v
theories/ImpliedProps.v
theories/MaxDivModel.v
theories/MaxDivProps.v
theories/EmpiricalPriorModel.v
theories/EmpiricalPriorProps.v
theories/FarkasProps.v
theories/RobustModel.v
theories/RobustProps.v
theories/PredictModel.v
theories/PredictProps.v
theories/MomentsModel.v
theories/MomentsProps.v
theories/InformationModel.v
theories/EntropyProps.v
theories/InformationProps.v
theories/DcorrModel.v
theories/DcorrProps.v
theories/VineCentralProps.v
theories/VineOrderProps.v
theories/CopulaFitModel.v
theories/CopulaFitProps.v
theories/KendallProps.v
theories/TauProps.v
theories/VineScoreModel.v
theories/VineScoreProps.v
theories/RoutingModel.v
theories/RoutingProps.v
theories/NestedModel.v
theories/NestedProps.v
theories/OptimalFoldsModel.v
theories/OptimalFoldsProps.v
theories/EllipticalModel.v
theories/EllipticalProps.v
theories/ReportModel.v
theories/ReportProps.v
theories/SyntheticModel.v
theories/SyntheticProps.v
theories/UnivariateModel.v
theories/UnivariateProps.v
theories/BlockSizeModel.v
theories/BlockSizeProps.v
theories/ParamsModel.v
theories/ParamsProps.v
theories/DatasetModel.v
theories/DatasetProps.v
theories/SerialModel.v
theories/SerialProps.v
theories/CompareModel.v
theories/CompareProps.v
theories/CustomModel.v
theories/CustomProps.v
theories/RobustFitModel.v
theories/RobustFitProps.v
theories/SummaryModel.v
theories/SummaryProps.v
theories/ChangeProps.v
theories/ReorderProps.v
theories/VineCacheModel.v
theories/VineCacheProps.v
theories/VineFitCacheModel.v
theories/VineFitCacheProps.v
theories/UnitProps.v
theories/StaticsProps.v
theories/UniqueProps.v
theories/BudgetUniqueProps.v
theories/SpecialProps.v
theories/HrpSpecialProps.v
