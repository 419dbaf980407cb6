-Q theories Verif
theories/Base.v
theories/ScopeModel.v
theories/ScopeProofs.v
theories/P_Scope.v
theories/CircuitModel.v
theories/CircuitBasics.v
theories/CircuitEval.v
theories/Integral.v
theories/CircuitMarg.v
theories/MargModel.v
theories/MargProofs.v
theories/CircuitSpec.v
theories/CircuitProps.v
theories/CircuitExamples.v
theories/P_Circuit.v
theories/SampleModel.v
theories/SampleSpec.v
theories/SampleExp.v
theories/SampleProofs.v
theories/SampleTop.v
theories/SampleApi.v
theories/SampleKeep.v
theories/SampleExamples.v
theories/P_Sample.v
theories/CacheModel.v
theories/CacheProofs.v
theories/P_Cache.v
theories/EmModel.v
theories/EmProofs.v
theories/EmTop.v
theories/EmDriver.v
theories/EmDagModel.v
theories/EmExamples.v
theories/P_Em.v
theories/SplitModel.v
theories/SplitProofs.v
theories/P_Split.v
theories/LayerModel.v
theories/LayerSpec.v
theories/LayerProofs.v
theories/P_Layers.v
theories/CtxModel.v
theories/CtxSpec.v
theories/CtxProofs.v
theories/P_Ctx.v
theories/GaussInt.v
theories/LeafModel.v
theories/LeafSpec.v
theories/LeafProofs.v
theories/LeafNorm.v
theories/LeafTop.v
theories/MleModel.v
theories/MleSpec.v
theories/MleProofs.v
theories/MleProofs2.v
theories/MleTop.v
theories/P_Leaves.v
theories/SignedModel.v
theories/SignedSpec.v
theories/SignedProofs.v
theories/LipProofs.v
theories/IpProofs.v
theories/SocsProofs.v
theories/MhProofs.v
theories/SocsTop.v
theories/SocsSample.v
theories/ExpUnique.v
theories/SocsExamples.v
theories/P_Socs.v
theories/CellEval.v
theories/IvModel.v
theories/IvSpec.v
theories/IvProofs.v
theories/IvTop.v
theories/P_Range.v
theories/HistModel.v
theories/HistSpec.v
theories/HistProofs.v
theories/HistTop.v
theories/HistFit.v
theories/HistEdges.v
theories/P_Hist.v
theories/CltModel.v
theories/CltSpec.v
theories/CltDfs.v
theories/CltElim.v
theories/CltTop.v
theories/CltPrim.v
theories/CltFit.v
theories/P_Clt.v
theories/RegionModel.v
theories/RegionSpec.v
theories/RegionProofs.v
theories/ReplaceModel.v
theories/ReplaceProofs.v
theories/PosteriorModel.v
theories/PosteriorProofs.v
theories/PosteriorTop.v
theories/StatsModel.v
theories/StatsSpec.v
theories/StatsProofs.v
theories/P_Misc.v
theories/FactorModel.v
theories/FactorProofs.v
theories/FactorTop.v
theories/P_Factor.v
theories/PruneModel.v
theories/PruneSpec.v
theories/PruneProofs.v
theories/PruneTop.v
theories/PruneMain.v
theories/LearnModel.v
theories/LearnSpec.v
theories/LearnProofs.v
theories/LearnTop.v
theories/LearnMain.v
theories/P_Learn.v
theories/CnetModel.v
theories/CnetSpec.v
theories/CnetProofs.v
theories/CnetTop.v
theories/CnetMain.v
theories/P_Cnet.v
theories/PromModel.v
theories/PromSpec.v
theories/PromGraph.v
theories/PromParts.v
theories/PromTop.v
theories/PromMain.v
theories/PromSample.v
theories/P_Prom.v
theories/PwlModel.v
theories/PwlSpec.v
theories/PwlProofs.v
theories/PwlTop.v
theories/PwlMain.v
theories/PwlInit.v
theories/P_Pwl.v
theories/DslModel.v
theories/DslSpec.v
theories/DslProofs.v
theories/DslTop.v
theories/DslMain.v
theories/DslEnd.v
theories/P_Dsl.v
theories/MeasureModel.v
theories/MeasureProofs.v
theories/MeasureTop.v
theories/MeasureMain.v
theories/MeasureEnd.v
theories/P_Measure.v
theories/ConvModel.v
theories/ConvProofs.v
theories/ConvSpec.v
theories/ConvSample.v
theories/ConvTop.v
theories/ConvApi.v
theories/ConvPcProofs.v
theories/P_Conv.v
theories/ImageModel.v
theories/ImageProofs.v
theories/P_Image.v
theories/MstModel.v
theories/MstSpec.v
theories/MstUf.v
theories/MstKruskal.v
theories/MstTop.v
theories/MstEnum.v
theories/MstMax.v
theories/P_Mst.v
theories/HcltMiModel.v
theories/HcltSpec.v
theories/HcltMiProofs.v
theories/HcltCatProofs.v
theories/P_HcltMi.v
theories/HcltModel.v
theories/HcltTree.v
theories/HcltProofs.v
theories/HcltTop.v
theories/P_Hclt.v
theories/StackModel.v
theories/StackSpec.v
theories/StackProofs.v
theories/StackDist.v
theories/StackTop.v
theories/StackRat.v
theories/StackNan.v
theories/StackRatTop.v
theories/P_Rat.v
theories/StackEinSpec.v
theories/StackEin.v
theories/StackEinTop.v
theories/StackPostModel.v
theories/StackPostSpec.v
theories/StackPost.v
theories/StackPostTop.v
theories/P_Einet.v
theories/P_StackPost.v
theories/StackSampleModel.v
theories/StackSampleStep.v
theories/StackSamplePair.v
theories/StackSampleLeaf.v
theories/StackSampleSpec.v
theories/StackSampleBase.v
theories/StackSampleTop.v
theories/StackSampleKeep.v
theories/P_StackSample.v
theories/CmsModel.v
theories/CmsSpec.v
theories/CmsProofs.v
theories/CmsTop.v
theories/CmsFit.v
theories/CmsTree.v
theories/CmsDraw.v
theories/P_Cms.v
theories/GdModel.v
theories/GdSpec.v
theories/GdProofs.v
theories/GdVal.v
theories/GdEpoch.v
theories/GdMain.v
theories/P_Gd.v
theories/SkModel.v
theories/SkSpec.v
theories/SkProofs.v
theories/P_Sk.v
theories/RdcModel.v
theories/RdcSpec.v
theories/RdcProofs.v
theories/P_Rdc.v
theories/WsModel.v
theories/WsSpec.v
theories/WsProofs.v
theories/P_Ws.v
theories/TripleModel.v
theories/TripleSpec.v
theories/LtpProofs.v
theories/TpProofs.v
theories/ExpTop.v
theories/P_Exp.v
theories/CompatModel.v
theories/CompatSpec.v
theories/CompatProofs.v
theories/P_Compat.v
theories/ZsModel.v
theories/ZsSpec.v
theories/ZsTree.v
theories/ZsProofs.v
theories/ZsCompat.v
theories/ZsTop.v
theories/ZsComp.v
theories/ZsMain.v
theories/ZsEven.v
theories/ZsRes.v
theories/ZsUse.v
theories/P_Zs.v
theories/PicModel.v
theories/PicSpec.v
theories/PicGrid.v
theories/PicMat.v
theories/PicVisit.v
theories/PicRg.v
theories/PicTop.v
theories/PicMass.v
theories/P_Pic.v
theories/ZsShape.v
theories/P_ZsShape.v
theories/PicShare.v
theories/PicHeads.v
theories/P_PicShare.v
theories/TqModel.v
theories/TqSpec.v
theories/TqParam.v
theories/TqLevel.v
theories/TqVal.v
theories/TqStep.v
theories/TqBuild.v
theories/TqTop.v
theories/TqMass.v
theories/TqUse.v
theories/P_TensorQpc.v
theories/P_PicMissing.v
theories/ApcModel.v
theories/ApcSpec.v
theories/ApcNorm.v
theories/ApcDisc.v
theories/ApcTop.v
theories/ApcTrainModel.v
theories/ApcTrainSpec.v
theories/ApcTrainProofs.v
theories/ApcFit.v
theories/ApcEncModel.v
theories/ApcEncProofs.v
theories/P_Apc.v
theories/MpeSpec.v
theories/MpeProofs.v
theories/P_Mpe.v
theories/RatMargModel.v
theories/RatMargProofs.v
theories/RatMargTop.v
theories/P_RatMarg.v
theories/LogNormalModel.v
theories/LogNormalProofs.v
theories/LogNormalMle.v
theories/LogNormalMle2.v
theories/P_LogNormal.v
theories/SplitMargModel.v
theories/SplitMargSpec.v
theories/SplitMargProofs.v
theories/P_SplitMarg.v
theories/LogNormalIvModel.v
theories/P_LogNormalIv.v
theories/LogNormalFitModel.v
theories/LogNormalFit.v
