-Q theories Verif
theories/AsmModel.v
theories/AsmProofs.v
theories/AsmProps.v
theories/AsmSpec.v
theories/BatchModel.v
theories/BatchProofs.v
theories/BatchProps.v
theories/BatchSpec.v
theories/CompositeModel.v
theories/CompositeProofs.v
theories/CompositeProps.v
theories/CompositeSpec.v
theories/ConfigModel.v
theories/ConfigProofs.v
theories/ConfigProps.v
theories/ConfigSpec.v
theories/CopyModel.v
theories/CopyProps.v
theories/CurveProofs.v
theories/DiagModel.v
theories/DiagProofs.v
theories/DiagProps.v
theories/DiagSpec.v
theories/DofModel.v
theories/DofProofs.v
theories/DofProps.v
theories/DofSpec.v
theories/DwrModel.v
theories/DwrProofs.v
theories/DwrProps.v
theories/DwrSpec.v
theories/EnergyProofs.v
theories/EstModel.v
theories/EstProofs.v
theories/EstProps.v
theories/EstSpec.v
theories/EvalModel.v
theories/EvalProofs.v
theories/EvalProps.v
theories/EvalSpec.v
theories/FuncModel.v
theories/FuncProofs.v
theories/FuncProps.v
theories/FuncSpec.v
theories/GoalPtModel.v
theories/GoalPtProofs.v
theories/GoalPtProps.v
theories/GoalPtSpec.v
theories/HypModel.v
theories/HypProofs.v
theories/HypProps.v
theories/HypSpec.v
theories/IndicatorModel.v
theories/IndicatorProofs.v
theories/IndicatorProps.v
theories/IndicatorSpec.v
theories/IntegrateModel.v
theories/IntegrateProofs.v
theories/IntegrateProps.v
theories/IntegrateSpec.v
theories/KinAsm.v
theories/KinLoads.v
theories/KinModel.v
theories/KinMore.v
theories/KinProofs.v
theories/KinProps.v
theories/KinSpec.v
theories/KinStiff.v
theories/KoProofs.v
theories/KoProps.v
theories/KoSpec.v
theories/LayModel.v
theories/LayProofs.v
theories/LayProps.v
theories/LaySpec.v
theories/LinModel.v
theories/LinProofs.v
theories/LinProps.v
theories/LinSpec.v
theories/LinearModel.v
theories/LinearProofs.v
theories/LinearProps.v
theories/LinearSpec.v
theories/MetricModel.v
theories/MetricProofs.v
theories/MetricProps.v
theories/MetricSpec.v
theories/Newton33Model.v
theories/Newton33Proofs.v
theories/Newton33Props.v
theories/Newton33Spec.v
theories/NonlinearModel.v
theories/NonlinearProofs.v
theories/NonlinearProps.v
theories/NonlinearSpec.v
theories/ObjAsm.v
theories/ObjModel.v
theories/ObjProofs.v
theories/ObjProps.v
theories/ObjSpec.v
theories/ObjSwap.v
theories/PSConvProofs.v
theories/PSConvProps.v
theories/PSConvSpec.v
theories/PStressProps.v
theories/PenModel.v
theories/PenProofs.v
theories/PenProps.v
theories/PenSpec.v
theories/PenaltyProofs.v
theories/PlaneStressProofs.v
theories/PrincipalModel.v
theories/PrincipalProofs.v
theories/PrincipalProps.v
theories/PrincipalSpec.v
theories/PtModel.v
theories/PtProofs.v
theories/PtProps.v
theories/PtSpec.v
theories/PtUseProps.v
theories/RaKin.v
theories/RaModel.v
theories/RaProofs.v
theories/RaProps.v
theories/RaSpec.v
theories/ReparGeo.v
theories/ReparProofs.v
theories/ReparProps.v
theories/ReparSpec.v
theories/ReparTens.v
theories/RigidProofs.v
theories/RigidProps.v
theories/RigidSpec.v
theories/SessModel.v
theories/SessProofs.v
theories/SessProps.v
theories/SessSpec.v
theories/SizeModel.v
theories/SizeProps.v
theories/SizeSpec.v
theories/SpectralCoinc.v
theories/SpectralEqProps.v
theories/SpectralEqual.v
theories/SpectralExamples.v
theories/SpectralLink.v
theories/SpectralMain.v
theories/SpectralModel.v
theories/SpectralOgden.v
theories/SpectralProofs.v
theories/SpectralProps.v
theories/SpectralSpec.v
theories/SpectralTangent.v
theories/StrModel.v
theories/StrProofs.v
theories/StrProps.v
theories/StrSpec.v
theories/StrainProps.v
theories/StretchModel.v
theories/StretchProofs.v
theories/StretchProps.v
theories/StretchSpec.v
theories/TFTBranch.v
theories/TFTBranchProps.v
theories/TFTImplicit.v
theories/TFTIvModel.v
theories/TFTIvProofs.v
theories/TFTIvProps.v
theories/TFTIvSpec.v
theories/TFTModel.v
theories/TFTProofs.v
theories/TFTProps.v
theories/TFTRoot.v
theories/TFTSpec.v
theories/TFTWrinkle.v
theories/Tensor.v
theories/TfaModel.v
theories/TfaProofs.v
theories/TfaProps.v
theories/TfaSpec.v
theories/TfrAsm.v
theories/TfrClass.v
theories/TfrMem.v
theories/TfrModel.v
theories/TfrProofs.v
theories/TfrProps.v
theories/TfrSpec.v
theories/TfrTangent.v
theories/UnitProofs.v
theories/UnitProps.v
theories/UsmProofs.v
theories/UsmProps.v
theories/UsmSpec.v
theories/WeakModel.v
theories/WeakProofs.v
theories/WeakProps.v
theories/WeakSpec.v
theories/WifAsm.v
theories/WifModel.v
theories/WifProofs.v
theories/WifProps.v
theories/WifSpec.v
