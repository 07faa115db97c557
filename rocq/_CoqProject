-Q theories Verif

theories/Scalar.v
theories/Tensor.v
theories/TensorLemmas.v
theories/TensorLemmas2.v
theories/Base.v
theories/Spec.v
theories/Chain.v
theories/BaseLemmas.v
theories/Ops.v
theories/FullProofs.v
theories/ResultLemmas.v
theories/Dense.v
theories/AddProofs.v
theories/AddFull.v
theories/MulProofs.v
theories/MatmulProofs.v
theories/DenseMatmul.v
theories/Sweep.v
theories/FlatProofs.v
theories/BilinearProofs.v
theories/GatherProofs.v
theories/SliceProofs.v
theories/ConstructProofs.v
theories/MiscProofs.v
theories/OpsR.v
theories/BatchOps.v
theories/ScaleProofs.v
theories/BatchProofs.v
theories/PairProofs.v
theories/NormProofs.v
theories/Decomp.v
theories/DecompSpec.v
theories/GaugeProofs.v
theories/OrthProofs.v
theories/OrthNorm.v
theories/QRExists.v
theories/Trunc.v
theories/TruncChain.v
theories/RoundProofs.v
theories/SvdSpec.v
theories/RoundThms.v
theories/RoundBest.v
theories/TTSvdStep.v
theories/TTSvdProofs.v
theories/TTSvdThms.v
theories/RankArgs.v
theories/SvdExists.v
theories/UnfoldExists.v
theories/TTMatProofs.v
theories/TTMatThms.v
theories/RoundPyth.v
theories/Approx.v
theories/AddNProofs.v
theories/ReduceSumProofs.v
theories/ApproxThms.v
theories/FullThms.v
theories/Init.v
theories/InitProofs.v
theories/RandomSpec.v
theories/RandomProofs.v
theories/Det.v
theories/Kron.v
theories/KronSpec.v
theories/DetProofs.v
theories/KronProofs.v
theories/KronThms.v
theories/KronInv.v
theories/CholProofs.v
theories/KronExists.v
theories/Riem.v
theories/TangentProofs.v
theories/RiemBlock.v
theories/RiemProofs.v
theories/RiemThms.v
theories/RiemMatmul.v
theories/RiemSpec.v
theories/Autodiff.v
theories/AutoSpec.v
theories/TangentSpace.v
theories/RiemFull.v
theories/RiemDelta.v
theories/RiemInner.v
theories/RiemAddN.v
theories/RiemMade.v
theories/Samples.v
theories/Properties_Full_Add.v
theories/Properties_Mul_Matmul.v
theories/Properties_Inner.v
theories/Properties_Index.v
theories/IndexSpec.v
theories/IndexThms.v
theories/EmptySlice.v
theories/Properties_Slice.v
theories/Properties_Construct.v
theories/Properties_Scale.v
theories/Properties_Batch.v
theories/Properties_Decomp.v
theories/Properties_Svd.v
theories/Properties_Approx.v
theories/Properties_Init.v
theories/Properties_Kron.v
theories/RiemRefute.v
theories/Properties_Riem.v
theories/AutoProofs.v
theories/RiemGauge.v
theories/AutoThms.v
theories/GradExists.v
theories/AutoMain.v
theories/Properties_Auto.v
theories/Vars.v
theories/VarSpec.v
theories/VarProofs.v
theories/VarThms.v
theories/AssignProofs.v
theories/Properties_Vars.v
theories/Layers.v
theories/LayerProofs.v
theories/Properties_Layers.v
theories/Static.v
theories/StaticSpec.v
theories/StaticProofs.v
theories/StaticThms.v
theories/StaticSqueeze.v
theories/Properties_Static.v
theories/ValidSpec.v
theories/ValidProofs.v
theories/ValidOps.v
theories/ValidReal.v
theories/ValidMore.v
theories/History.v
theories/HistorySpec.v
theories/ValidThms.v
theories/Properties_Valid.v
theories/ProgSpec.v
theories/ProgRiem.v
theories/ProgAuto.v
theories/ProgThms.v
theories/Properties_Prog.v
theories/ProgTangent.v
theories/Properties_ProgTangent.v
theories/Float.v
theories/FloatSpec.v
theories/FloatProofs.v
theories/FloatThms.v
theories/FloatThms2.v
theories/FloatThms3.v
theories/FloatThms4.v
theories/FloatThms5.v
theories/FloatThms6.v
theories/FloatSeq.v
theories/FloatSeqProofs.v
theories/FloatBin.v
theories/Properties_Float.v
theories/Properties_Float2.v
theories/TangentIntrinsic.v
theories/IntrinsicThms.v
theories/Properties_Intrinsic.v
theories/Cost.v
theories/CostOps.v
theories/CostErase.v
theories/CostProofs.v
theories/CostInner.v
theories/CostOrder.v
theories/CostContract.v
theories/CostGreedy.v
theories/CostAny.v
theories/Properties_Cost.v
theories/CostOrth.v
theories/CostRiem.v
theories/CostRiem2.v
theories/CostRefute.v
theories/Properties_CostRiem.v
theories/Str.v
theories/StrSpec.v
theories/StrProofs.v
theories/Utils.v
theories/UtilsSpec.v
theories/UtilsProofs.v
theories/Properties_Str.v
theories/Tutorial.v
theories/TutorialSpec.v
theories/TutorialProofs.v
theories/DescentProofs.v
theories/DescentThms.v
theories/AddNNorm.v
theories/SumNorm.v
theories/Properties_RoundNorm.v
theories/Properties_Gram.v
theories/Properties_NormIneq.v
theories/Properties_Scopes.v
theories/DescentVars.v
theories/Properties_Tutorial.v
theories/Compress.v
theories/CompressSpec.v
theories/CompressProofs.v
theories/Properties_Compress.v
theories/Completion.v
theories/CompletionSpec.v
theories/CompletionProofs.v
theories/CompletionThms.v
theories/Birthday.v
theories/Properties_Completion.v
theories/Quickstart.v
theories/Properties_Quick.v
theories/FMat.v
theories/NearStep.v
theories/NearChain.v
theories/NearTrain.v
theories/NearSpec.v
theories/TTSvdNear.v
theories/TTMatNear.v
theories/Properties_Near.v
theories/QRNearSpec.v
theories/QRNear.v
theories/QRNearRL.v
theories/Properties_QRNear.v
theories/RoundTrain.v
theories/RoundNearSpec.v
theories/RoundNear.v
theories/Properties_RoundNear.v
theories/XReal.v
theories/XRealProofs.v
theories/Properties_XReal.v
