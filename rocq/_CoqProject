-Q theories Verif
theories/Base.v
theories/UnionFindModel.v
theories/UnionFindSpec.v
theories/UnionFindProofs.v
theories/UnionFindProps.v
theories/SharedFindModel.v
theories/SharedFindSpec.v
theories/SharedFindProofs.v
theories/SharedFindProps.v
theories/SortingModel.v
theories/SortingSpec.v
theories/SortingProofs.v
theories/SortingProps.v
theories/BoundsModel.v
theories/BoundsSpec.v
theories/BoundsProofs.v
theories/BoundsProps.v
theories/KDTreeModel.v
theories/KDTreeSpec.v
theories/KDTreeProofs.v
theories/KDTreeProps.v
theories/BalanceProofs.v
theories/BalanceProps.v
theories/BufferModel.v
theories/BufferSpec.v
theories/BufferProofs.v
theories/BufferProps.v
theories/SearchModel.v
theories/SearchSpec.v
theories/SearchProofs.v
theories/SearchProps.v
theories/GraphSpec.v
theories/GraphProofs.v
theories/BoruvkaSpec.v
theories/BoruvkaModel.v
theories/BoruvkaProofs.v
theories/BoruvkaProps.v
theories/SlinkModel.v
theories/SlinkSpec.v
theories/SlinkProofs.v
theories/SlinkProps.v
theories/CondensedModel.v
theories/CondensedSpec.v
theories/CondensedProofs.v
theories/CondensedProps.v
theories/HdbscanModel.v
theories/HdbscanProps.v
theories/DbscanModel.v
theories/DbscanSpec.v
theories/DbscanProofs.v
theories/DbscanProps.v
theories/StabilityProps.v
theories/LinkageDocModel.v
theories/LinkageDocSpec.v
theories/LinkageDocProps.v
theories/MatrixModel.v
theories/MatrixProofs.v
theories/MatrixSpec.v
theories/MatrixProps.v
theories/DistancesModel.v
theories/DistancesSpec.v
theories/DistancesProofs.v
theories/DistancesProps.v
theories/KMeansModel.v
theories/KMeansSpec.v
theories/KMeansProofs.v
theories/KMeansCases.v
theories/KMeansProps.v
theories/KMeansInertia.v
theories/RandomModel.v
theories/RandomSpec.v
theories/RandomProofs.v
theories/AliasProofs.v
theories/PlusPlusProofs.v
theories/RandomProps.v
theories/SilhouetteModel.v
theories/SilhouetteSpec.v
theories/SilhouetteProofs.v
theories/SilhouetteProps.v
theories/KMedoidsModel.v
theories/KMedoidsSpec.v
theories/KMedoidsProofs.v
theories/KMedoidsProps.v
theories/KMedoidsTies.v
theories/KMedoidsTiesProps.v
theories/KMedoidsObjectModel.v
theories/KMedoidsObjectProofs.v
theories/KMedoidsObjectProps.v
theories/RoundsModel.v
theories/RoundsProofs.v
theories/RoundsProps.v
theories/CutProofs.v
theories/CutProps.v
theories/UtilsModel.v
theories/UtilsProps.v
theories/DualTreeModel.v
theories/DualTreeProofs.v
theories/DualTreeProps.v
theories/PairsModel.v
theories/PairsProofs.v
theories/PairsProps.v
theories/DualBoruvkaModel.v
theories/DualBoruvkaProofs.v
theories/DualBoruvkaProps.v
theories/MscModel.v
theories/MscSpec.v
theories/MscProofs.v
theories/MscProps.v
theories/MscFitModel.v
theories/MscFitSpec.v
theories/MscFitProofs.v
theories/MscFitProps.v
theories/StatsModel.v
theories/StatsSpec.v
theories/StatsProofs.v
theories/StatsProps.v
theories/AxisModel.v
theories/AxisSpec.v
theories/AxisProofs.v
theories/AxisProps.v
theories/BatchModel.v
theories/BatchProps.v
theories/DocumentModel.v
theories/DocumentSpec.v
theories/DocumentProofs.v
theories/DocumentProps.v
theories/FloatModel.v
theories/FloatSpec.v
theories/FloatProofs.v
theories/FloatProps.v
theories/AccuracySpec.v
theories/AccuracyProofs.v
theories/AccuracyProps.v
theories/FloatSilhouetteModel.v
theories/FloatSilhouetteSpec.v
theories/FloatSilhouetteProofs.v
theories/FloatSilhouetteProps.v
theories/FloatKMeansModel.v
theories/FloatKMeansSpec.v
theories/FloatKMeansProofs.v
theories/FloatKMeansProps.v
theories/FloatHamerlyModel.v
theories/FloatHamerlyProofs.v
theories/FloatHamerlyProps.v
theories/FloatAliasModel.v
theories/FloatAliasSpec.v
theories/FloatAliasProofs.v
theories/FloatAliasProps.v
theories/FloatPlusPlusModel.v
theories/FloatPlusPlusProofs.v
theories/FloatPlusPlusProps.v
theories/MemoryModel.v
theories/MemoryProps.v
theories/AnyModel.v
theories/AnySpec.v
theories/AnyProofs.v
theories/AnyProps.v
theories/BallModel.v
theories/BallProps.v
theories/BuildModel.v
theories/BuildProps.v
theories/WidthModel.v
theories/WidthProps.v
theories/IsometrySpec.v
theories/IsometryProofs.v
theories/IsometryProps.v
theories/ScaleProofs.v
theories/ScaleProps.v
theories/AffineSpec.v
theories/AffineProofs.v
theories/AffineProps.v
theories/MedoidUnitSpec.v
theories/MedoidUnitProofs.v
theories/MscUnitProofs.v
theories/MedoidUnitProps.v
theories/KMeansConverge.v
theories/HamerlyConverge.v
theories/KMeansConvergeProps.v
theories/FollowSpec.v
theories/FollowProps.v
theories/KMeansObjectModel.v
theories/KMeansObjectProps.v
theories/ThreadsModel.v
theories/ThreadsSpec.v
theories/ThreadsProofs.v
theories/ThreadsProps.v
theories/FloatCondensedModel.v
theories/FloatCondensedSpec.v
theories/FloatCondensedProofs.v
theories/FloatCondensedProps.v
theories/FloatHdbscanModel.v
theories/FloatHdbscanProofs.v
theories/FloatHdbscanProps.v
theories/FloatMedoidsModel.v
theories/FloatMedoidsSpec.v
theories/FloatMedoidsProofs.v
theories/FloatMedoidsGrowth.v
theories/FloatMedoidsProps.v
theories/FloatCosineModel.v
theories/FloatCosineSpec.v
theories/FloatCosineProofs.v
theories/FloatCosineProps.v
theories/FloatManhattanModel.v
theories/FloatManhattanSpec.v
theories/FloatManhattanProofs.v
theories/FloatManhattanProps.v
theories/FloatMinMaxModel.v
theories/FloatMinMaxSpec.v
theories/FloatMinMaxProofs.v
theories/FloatMinMaxProps.v
