-Q theories Verif
theories/Base.v
theories/PolyModel.v
theories/PolySpec.v
theories/PolyProofs.v
theories/PolyClassModel.v
theories/PolyCalc.v
theories/PolyProps.v
theories/NdArray.v
theories/PiecewiseModel.v
theories/PiecewiseSpec.v
theories/PiecewiseProofs.v
theories/PiecewiseIntegral.v
theories/PiecewiseProps.v
theories/FunExprModel.v
theories/FunExprSpec.v
theories/FunExprProofs.v
theories/FunExprProps.v
theories/FemModel.v
theories/FemSpec.v
theories/FemProofs.v
theories/FemIntegral.v
theories/FemStiff.v
theories/FemProps.v
theories/DomainModel.v
theories/DomainSpec.v
theories/DomainProofs.v
theories/DomainProps.v
theories/BlockModel.v
theories/BlockSpec.v
theories/BlockProofs.v
theories/BlockProps.v
theories/Block2Model.v
theories/Block2Spec.v
theories/MatPD.v
theories/Block2Proofs.v
theories/Block2Props.v
theories/NdData.v
theories/CovModel.v
theories/CovSpec.v
theories/CovProofs.v
theories/CovProps.v
theories/NormalModel.v
theories/NormalSpec.v
theories/NormalProofs.v
theories/NormalProps.v
theories/CondModel.v
theories/CondSpec.v
theories/CondProofs.v
theories/CondProofs2.v
theories/CondProofs3.v
theories/CondPoint.v
theories/CondProps.v
theories/RealField.v
theories/ObsModel.v
theories/ObsSpec.v
theories/ObsProofs.v
theories/ObsProps.v
theories/MultiModel.v
theories/MultiProps.v
theories/DiffopModel.v
theories/DiffopSpec.v
theories/DiffopProofs.v
theories/DiffopFactor.v
theories/DiffopProps.v
theories/LfoModel.v
theories/LfoSpec.v
theories/LfoSmooth.v
theories/LfoProofs.v
theories/LfoSound.v
theories/LfoTotal.v
theories/LfoAlg.v
theories/LfoProps.v
theories/PdeModel.v
theories/PdeProofs.v
theories/PdeProps.v
theories/DtypeModel.v
theories/DtypeProps.v
theories/KernelModel.v
theories/KernelSpec.v
theories/KernelCalc.v
theories/ExpQuadProofs.v
theories/KernelSmooth.v
theories/KernelSound.v
theories/KernelComm.v
theories/KernelProps.v
theories/MaternPoly.v
theories/MaternProps.v
theories/MaternProofs.v
theories/MaternUni.v
theories/MaternKernelProps.v
theories/EffectModel.v
theories/EffectProps.v
theories/WendlandModel.v
theories/WendlandSpec.v
theories/WendlandProofs.v
theories/WendlandProps.v
theories/IntegralModel.v
theories/IntegralSpec.v
theories/IntegralProofs.v
theories/IntegralProps.v
theories/ProjModel.v
theories/ProjSpec.v
theories/ProjProofs.v
theories/ProjProps.v
theories/CrossModel.v
theories/CrossSpec.v
theories/CrossProofs.v
theories/CrossKern.v
theories/CrossViews.v
theories/CrossFun.v
theories/CrossOps.v
theories/CrossProps.v
theories/CrossJaxModel.v
theories/CrossJaxProps.v
theories/FunctlModel.v
theories/FunctlSpec.v
theories/FunctlProofs.v
theories/FunctlAlg.v
theories/FunctlTotal.v
theories/FunctlProps.v
theories/ParamModel.v
theories/ParamSpec.v
theories/ParamProofs.v
theories/ParamProps.v
theories/GalerkinModel.v
theories/GalerkinSpec.v
theories/GalerkinProofs.v
theories/GalerkinProps.v
theories/TensorModel.v
theories/TensorSpec.v
theories/TensorProofs.v
theories/TensorSchur.v
theories/TensorProps.v
theories/TensorDiffSpec.v
theories/TensorDiff.v
theories/TensorDeriv.v
theories/TensorDiffProps.v
theories/ShapedModel.v
theories/ShapedSpec.v
theories/ShapedProofs.v
theories/ShapedProps.v
theories/MixtureModel.v
theories/MixtureSpec.v
theories/MixtureProofs.v
theories/MixtureProps.v
theories/PsdBase.v
theories/PsdIntegral.v
theories/PsdMatern.v
theories/PsdDiff.v
theories/PsdMat.v
theories/PsdSpec.v
theories/PsdProps.v
theories/GalerkinL2Model.v
theories/GalerkinL2Proofs.v
theories/GalerkinL2Props.v
theories/ObsPsdProps.v
theories/PdeCondBase.v
theories/PdeCond.v
theories/ExpIndep.v
theories/PdeCondSpec.v
theories/SmoothSym.v
theories/GaussStrict.v
theories/PdeCondEx.v
theories/PdeCondProps.v
theories/BatchModel.v
theories/BatchSpec.v
theories/BatchProofs.v
theories/BatchEval.v
theories/BatchProps.v
theories/BatchKeops.v
theories/RandProcModel.v
theories/RandProcSpec.v
theories/RandProcProofs.v
theories/RandProcProps.v
theories/RandProcIntProps.v
theories/LineObs.v
theories/MaternStrict.v
theories/LineStrict.v
theories/PointStrict.v
theories/LineCond.v
theories/LineCondEx.v
theories/LineCondProps.v
theories/StatChain.v
theories/MaternChain.v
theories/TensorStrict.v
theories/TensorObs.v
theories/TensorFactor.v
theories/TensorGram.v
theories/TensorCond.v
theories/TensorCondProps.v
theories/TensorMix.v
theories/TensorMixProps.v
theories/GenModel.v
theories/GenSpec.v
theories/GenProofs.v
theories/GenProofs2.v
theories/GenProofs3.v
theories/GenProps.v
theories/LambdaModel.v
theories/LambdaSpec.v
theories/LambdaProofs.v
theories/LambdaProps.v
theories/LazyModel.v
theories/LazySpec.v
theories/LazyProofs.v
theories/LazyProps.v
theories/BumpAlg.v
theories/BumpPoly.v
theories/BumpInt.v
theories/BumpAuto.v
theories/BumpPsd.v
theories/WendTail.v
theories/WendPsd.v
theories/EdgeStrict.v
theories/WendChain.v
theories/WendPd.v
theories/WendPdProps.v
theories/ErrorProps.v
theories/AdModel.v
theories/AdSpec.v
theories/AdProofs.v
theories/AdKernels.v
theories/AdProps.v
theories/AdCovModel.v
theories/AdCovSpec.v
theories/AdCovProofs.v
theories/AdCovProps.v
theories/WeakFormModel.v
theories/WeakFormSpec.v
theories/WeakFormProps.v
theories/PwJaxModel.v
theories/PwJaxProps.v
theories/XJaxModel.v
theories/XJaxProps.v
theories/ResidualModel.v
theories/ResidualProps.v
theories/FloatModel.v
theories/FloatSpec.v
theories/FloatProofs.v
theories/FloatProps.v
theories/FloatRoundSpec.v
theories/FloatRound.v
theories/FloatErr.v
theories/FloatRoundProps.v
theories/FloatPowProps.v
theories/FloatRangeSpec.v
theories/FloatRangeProps.v
theories/FloatUniformProps.v
theories/FloatMaternProps.v
theories/FloatCompoundProps.v
theories/FloatWendlandProps.v
theories/BoxIntModel.v
theories/BoxIntSpec.v
theories/BoxIntProps.v
theories/FloatGridModel.v
theories/FloatGridProps.v
theories/FloatBoxModel.v
theories/FloatBoxProps.v
theories/FloatTensorModel.v
theories/FloatTensorProps.v
theories/FloatFemModel.v
theories/FloatFemProps.v
theories/FloatPolyModel.v
theories/FloatPolyProps.v
theories/FloatLinearModel.v
theories/FloatLinearProps.v
