-Q theories Verif
theories/Model/AnyConversion.v
theories/Model/Base.v
theories/Model/BasisLevel.v
theories/Model/ClusterGraph.v
theories/Model/Control.v
theories/Model/Counting.v
theories/Model/Divergence.v
theories/Model/Environment.v
theories/Model/Family.v
theories/Model/FindIndices.v
theories/Model/FindModfr.v
theories/Model/Fit.v
theories/Model/Flatten.v
theories/Model/Frames.v
theories/Model/GLMM.v
theories/Model/Glmm.v
theories/Model/Graph.v
theories/Model/GraphOps.v
theories/Model/HOL.v
theories/Model/Heading.v
theories/Model/IS.v
theories/Model/Indexing.v
theories/Model/IntCounting.v
theories/Model/IntegratedFunction.v
theories/Model/Items.v
theories/Model/LfunSR.v
theories/Model/Margin.v
theories/Model/Mixed.v
theories/Model/MultiNormal.v
theories/Model/NormalApprox.v
theories/Model/NormalSig.v
theories/Model/Offset.v
theories/Model/Params.v
theories/Model/Point.v
theories/Model/Progress.v
theories/Model/Quadrature.v
theories/Model/Report.v
theories/Model/SaveFile.v
theories/Model/Sequential.v
theories/Model/SparseGrid.v
theories/Model/SparseStore.v
theories/Model/SplitFormula.v
theories/Model/SplitFrame.v
theories/Model/Stateful.v
theories/Model/Subexpr.v
theories/Model/SubsetDim.v
theories/Model/TwoColumn.v
theories/Model/Vectors.v
theories/Proofs/AgainCases.v
theories/Proofs/AgainMain.v
theories/Proofs/AnyMain.v
theories/Proofs/ApproxMain.v
theories/Proofs/AttachMain.v
theories/Proofs/BasisMain.v
theories/Proofs/BuildLemmas.v
theories/Proofs/CalculusLemmas.v
theories/Proofs/CalibCases.v
theories/Proofs/CalibLemmas.v
theories/Proofs/CalibMain.v
theories/Proofs/CheckedLemmas.v
theories/Proofs/CheckedMain.v
theories/Proofs/ClusterMain.v
theories/Proofs/ConcatMain.v
theories/Proofs/ConditionalMain.v
theories/Proofs/Constants.v
theories/Proofs/ControlMain.v
theories/Proofs/CountLemmas.v
theories/Proofs/DensityJoint.v
theories/Proofs/DensityMain.v
theories/Proofs/DependenceLemmas.v
theories/Proofs/DivergenceCases.v
theories/Proofs/DivergenceGap.v
theories/Proofs/DivergenceMain.v
theories/Proofs/ElimLemmas.v
theories/Proofs/EmptyCases.v
theories/Proofs/EmptyMain.v
theories/Proofs/EnvironmentCases.v
theories/Proofs/EnvironmentMain.v
theories/Proofs/ErrorCases.v
theories/Proofs/ErrorMain.v
theories/Proofs/FamilyCases.v
theories/Proofs/FamilyLemmas.v
theories/Proofs/FamilyMain.v
theories/Proofs/FindIndexMain.v
theories/Proofs/FindModfrCases.v
theories/Proofs/FindModfrMain.v
theories/Proofs/FitCases.v
theories/Proofs/FitMain.v
theories/Proofs/FlattenMain.v
theories/Proofs/FloatMain.v
theories/Proofs/ForwardLemmas.v
theories/Proofs/ForwardStep.v
theories/Proofs/FrameMain.v
theories/Proofs/FramesCases.v
theories/Proofs/GLMMCases.v
theories/Proofs/GLMMLemmas.v
theories/Proofs/GLMMMain.v
theories/Proofs/GaussMain.v
theories/Proofs/Gaussian.v
theories/Proofs/GlmmCases.v
theories/Proofs/GlmmMain.v
theories/Proofs/GraphLemmas.v
theories/Proofs/GraphMain.v
theories/Proofs/GridMain.v
theories/Proofs/GridSizes.v
theories/Proofs/GridSmooth.v
theories/Proofs/GridSpan.v
theories/Proofs/GroupTac.v
theories/Proofs/HOLCases.v
theories/Proofs/HOLLemmas.v
theories/Proofs/HOLMain.v
theories/Proofs/HeadingCases.v
theories/Proofs/HeadingMain.v
theories/Proofs/HermiteMain.v
theories/Proofs/ISEstimate.v
theories/Proofs/ISFamily.v
theories/Proofs/ISLinear.v
theories/Proofs/ISMain.v
theories/Proofs/IndexMain.v
theories/Proofs/InitLemmas.v
theories/Proofs/IntMain.v
theories/Proofs/IntegratedMain.v
theories/Proofs/ItemsLemmas.v
theories/Proofs/JointBuild.v
theories/Proofs/JointCases.v
theories/Proofs/JointForms.v
theories/Proofs/JointLemmas.v
theories/Proofs/JointMain.v
theories/Proofs/KnotMain.v
theories/Proofs/LaplaceMain.v
theories/Proofs/LevelMain.v
theories/Proofs/LevelZero.v
theories/Proofs/LfunCases.v
theories/Proofs/LfunMain.v
theories/Proofs/LineIntegral.v
theories/Proofs/LinearCases.v
theories/Proofs/LinearMain.v
theories/Proofs/ListLemmas.v
theories/Proofs/MessageLemmas.v
theories/Proofs/MessageMain.v
theories/Proofs/MirrorCases.v
theories/Proofs/MirrorMain.v
theories/Proofs/MirrorSequential.v
theories/Proofs/MixedLemmas.v
theories/Proofs/MixedMain.v
theories/Proofs/NormalCases.v
theories/Proofs/NormalMain.v
theories/Proofs/OffsetMain.v
theories/Proofs/ParamsMain.v
theories/Proofs/PivotMain.v
theories/Proofs/PointLemmas.v
theories/Proofs/PosDef.v
theories/Proofs/ProgressCases.v
theories/Proofs/ProgressMain.v
theories/Proofs/QuadratureCases.v
theories/Proofs/QuantileMain.v
theories/Proofs/ReflectCases.v
theories/Proofs/ReflectChain.v
theories/Proofs/ReflectMain.v
theories/Proofs/ReflectStep.v
theories/Proofs/ReportMain.v
theories/Proofs/SaveCases.v
theories/Proofs/SaveLemmas.v
theories/Proofs/SaveMain.v
theories/Proofs/SequentialCases.v
theories/Proofs/SequentialMain.v
theories/Proofs/SequentialRun.v
theories/Proofs/SequentialTotal.v
theories/Proofs/SignMain.v
theories/Proofs/SkeletonMain.v
theories/Proofs/SparseMain.v
theories/Proofs/SplineLemmas.v
theories/Proofs/SplineMain.v
theories/Proofs/SplineMirror.v
theories/Proofs/SplitCases.v
theories/Proofs/SplitFormulaMain.v
theories/Proofs/SplitLemmas.v
theories/Proofs/SplitMain.v
theories/Proofs/StatefulMain.v
theories/Proofs/StoreCases.v
theories/Proofs/StoreMain.v
theories/Proofs/StoreSmooth.v
theories/Proofs/SubMatchMain.v
theories/Proofs/SubexprCases.v
theories/Proofs/SubexprLemmas.v
theories/Proofs/SubexprMain.v
theories/Proofs/SubsetMain.v
theories/Proofs/SumLemmas.v
theories/Proofs/SymmetricRule.v
theories/Proofs/SymmetryCases.v
theories/Proofs/SymmetryIntegral.v
theories/Proofs/SymmetryMain.v
theories/Proofs/SymmetryStep.v
theories/Proofs/SymmetryStore.v
theories/Proofs/TotalCases.v
theories/Proofs/TotalMain.v
theories/Proofs/TwoColumnMain.v
theories/Proofs/VectorLemmas.v
theories/Proofs/VectorTimes.v
theories/Proofs/WidthCases.v
theories/Proofs/WidthFrame.v
theories/Proofs/WidthMain.v
theories/Props/AgainProps.v
theories/Props/ApproxProps.v
theories/Props/CalibProps.v
theories/Props/ClusterProps.v
theories/Props/ControlProps.v
theories/Props/DensityProps.v
theories/Props/DivergenceProps.v
theories/Props/EmptyProps.v
theories/Props/EnvironmentProps.v
theories/Props/ErrorProps.v
theories/Props/FamilyProps.v
theories/Props/FindModfrProps.v
theories/Props/FitProps.v
theories/Props/FlattenProps.v
theories/Props/FramesProps.v
theories/Props/GLMMProps.v
theories/Props/GlmmProps.v
theories/Props/GraphProps.v
theories/Props/GridProps.v
theories/Props/HOLProps.v
theories/Props/HeadingProps.v
theories/Props/ISProps.v
theories/Props/IndexProps.v
theories/Props/IntProps.v
theories/Props/JointProps.v
theories/Props/LfunProps.v
theories/Props/LinearProps.v
theories/Props/MessageProps.v
theories/Props/MirrorProps.v
theories/Props/MixedProps.v
theories/Props/NormalProps.v
theories/Props/OffsetProps.v
theories/Props/ParamsProps.v
theories/Props/ProgressProps.v
theories/Props/QuadratureProps.v
theories/Props/ReflectProps.v
theories/Props/ReportProps.v
theories/Props/SaveProps.v
theories/Props/SequentialProps.v
theories/Props/SplineProps.v
theories/Props/SplitFormulaProps.v
theories/Props/SplitProps.v
theories/Props/StatefulProps.v
theories/Props/StoreProps.v
theories/Props/SubexprProps.v
theories/Props/SubsetProps.v
theories/Props/SymmetryProps.v
theories/Props/SymmetryStepProps.v
theories/Props/TwoColumnProps.v
theories/Props/WidthProps.v
theories/Props/ZeroProps.v
theories/Spec/BeliefSpec.v
theories/Spec/Calculus.v
theories/Spec/CalibSpec.v
theories/Spec/Checked.v
theories/Spec/ControlSpec.v
theories/Spec/DensitySpec.v
theories/Spec/DivergenceSpec.v
theories/Spec/ElimSpec.v
theories/Spec/EmptySpec.v
theories/Spec/EnvironmentSpec.v
theories/Spec/ErrorSpec.v
theories/Spec/FactorSpec.v
theories/Spec/FamilySpec.v
theories/Spec/FindIndexSpec.v
theories/Spec/FindModfrSpec.v
theories/Spec/FitSpec.v
theories/Spec/FlattenSpec.v
theories/Spec/FramesSpec.v
theories/Spec/GLMMSpec.v
theories/Spec/GlmmSpec.v
theories/Spec/GraphSpec.v
theories/Spec/GridSpec.v
theories/Spec/HOLSpec.v
theories/Spec/HeadingSpec.v
theories/Spec/HermiteSpec.v
theories/Spec/ISSpec.v
theories/Spec/IndexSpec.v
theories/Spec/IntNumbers.v
theories/Spec/IntegralSpec.v
theories/Spec/JointSpec.v
theories/Spec/LaplaceSpec.v
theories/Spec/LfunSpec.v
theories/Spec/LinearSpec.v
theories/Spec/LogSum.v
theories/Spec/MatrixSpec.v
theories/Spec/MessageSpec.v
theories/Spec/MirrorSpec.v
theories/Spec/MixedSpec.v
theories/Spec/NodalSpec.v
theories/Spec/Numbers.v
theories/Spec/OffsetSpec.v
theories/Spec/ParamsSpec.v
theories/Spec/ProgressSpec.v
theories/Spec/ReflectSpec.v
theories/Spec/ReportSpec.v
theories/Spec/RuleSpec.v
theories/Spec/SaveSpec.v
theories/Spec/SequentialSpec.v
theories/Spec/SplineSpec.v
theories/Spec/SplitFormulaSpec.v
theories/Spec/SplitSpec.v
theories/Spec/StoreSpec.v
theories/Spec/SubexprSpec.v
theories/Spec/SubsetSpec.v
theories/Spec/SymmetrySpec.v
theories/Spec/SymmetryStoreSpec.v
theories/Spec/TotalSpec.v
theories/Spec/Toy.v
theories/Spec/TreeSpec.v
theories/Spec/WidthSpec.v
