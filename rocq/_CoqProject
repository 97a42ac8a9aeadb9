-Q theories Verif
theories/AclFinal.v
theories/AclProofs.v
theories/AclSpec.v
theories/Ad.v
theories/AdArrSpec.v
theories/AdBack.v
theories/AdBackFinal.v
theories/AdBackProofs.v
theories/AdBackSpec.v
theories/AdBg.v
theories/AdCurve.v
theories/AdFinal.v
theories/AdFisher.v
theories/AdGrowth.v
theories/AdHalofit.v
theories/AdHalofitFinal.v
theories/AdHalofitProofs.v
theories/AdHalofitSpec.v
theories/AdJac.v
theories/AdJacFinal.v
theories/AdJacSpec.v
theories/AdLike.v
theories/AdLikeFinal.v
theories/AdLikeProofs.v
theories/AdLikeSpec.v
theories/AdNan.v
theories/AdNanFinal.v
theories/AdNanProofs.v
theories/AdNanSpec.v
theories/AdNanTwice.v
theories/AdNuis.v
theories/AdNuisBack.v
theories/AdNuisBackFinal.v
theories/AdNuisBackSpec.v
theories/AdNuisFinal.v
theories/AdNuisHalo.v
theories/AdNuisLike.v
theories/AdNuisLikeProofs.v
theories/AdNuisNz.v
theories/AdNuisOver.v
theories/AdNuisProofs.v
theories/AdNuisSpec.v
theories/AdOver.v
theories/AdOverFinal.v
theories/AdOverProofs.v
theories/AdOverSpec.v
theories/AdParam.v
theories/AdParamCl.v
theories/AdParamNuis.v
theories/AdPower.v
theories/AdPowerFinal.v
theories/AdPowerProofs.v
theories/AdProbes.v
theories/AdProbesFinal.v
theories/AdProbesProofs.v
theories/AdProofs.v
theories/AdRel.v
theories/AdScore.v
theories/AdSpec.v
theories/AdSurvey.v
theories/AdTransfer.v
theories/AmpScale.v
theories/AngularCl.v
theories/Background.v
theories/BgAccuracy.v
theories/BgAlgebra.v
theories/BgArr.v
theories/BgCompare.v
theories/BgCont.v
theories/BgDepends.v
theories/BgFinal.v
theories/BgFinal2.v
theories/BgFinal3.v
theories/BgFinal4.v
theories/BgGrad.v
theories/BgGrowth.v
theories/BgPositive.v
theories/BgProofs.v
theories/BgSpec.v
theories/BgTables.v
theories/Bias.v
theories/ContFinal.v
theories/Core.v
theories/CoreProofs.v
theories/CovFinal.v
theories/CovProofs.v
theories/CovPsd.v
theories/CovSpec.v
theories/CurvedLensing.v
theories/CurvedSpec.v
theories/DependsSpec.v
theories/Deriv.v
theories/DetBlocks.v
theories/DetPivots.v
theories/DetPos.v
theories/DetProofs.v
theories/DetProofs2.v
theories/DetSpec.v
theories/DiagDet.v
theories/EhProofs.v
theories/EhSpec.v
theories/ExAdHalofit.v
theories/ExAdLike.v
theories/ExAdProbes.v
theories/ExCov.v
theories/ExFin.v
theories/ExForecast.v
theories/ExFp.v
theories/ExFpDist.v
theories/ExJac.v
theories/ExJet.v
theories/ExJetLike.v
theories/ExJetNuis.v
theories/ExLaws.v
theories/ExLikelihood.v
theories/ExNuis.v
theories/ExNuisHalo.v
theories/ExNuisLike.v
theories/ExNum.v
theories/ExOver.v
theories/ExPower.v
theories/ExPowerCol.v
theories/ExPowerNd.v
theories/ExProbes.v
theories/ExPytree.v
theories/ExQuadNd.v
theories/ExReadme.v
theories/ExRedshift.v
theories/ExScaling.v
theories/ExSoft.v
theories/ExSparse.v
theories/ExSpline.v
theories/ExSplineNd.v
theories/ExXBack.v
theories/ExXLike.v
theories/FinBaryon.v
theories/FinBg.v
theories/FinFinal.v
theories/FinGeneric.v
theories/FinGrowth.v
theories/FinHalofit.v
theories/FinLike.v
theories/FinNz.v
theories/FinOps.v
theories/FinPower.v
theories/FinProbes.v
theories/FinRules.v
theories/FinSpec.v
theories/FinSurvey.v
theories/FinTransfer.v
theories/Fisher.v
theories/FisherSpec.v
theories/Forecast.v
theories/Forecast2.v
theories/Fp.v
theories/FpBg.v
theories/FpDist.v
theories/FpFinal.v
theories/FpInterp.v
theories/FpProofs.v
theories/FpSpec.v
theories/FpSums.v
theories/FpTable.v
theories/GradSpec.v
theories/Gram.v
theories/GrowthConv.v
theories/GrowthConvSpec.v
theories/GrowthExists.v
theories/GrowthFinal.v
theories/HalofitLimit.v
theories/HalofitScale.v
theories/HalofitScale2.v
theories/HalofitScaleSpec.v
theories/HalofitX.v
theories/HalofitXProofs.v
theories/Heath.v
theories/HfProofs.v
theories/HfSpec.v
theories/Integrate.v
theories/IntegrateSpec.v
theories/Interp.v
theories/InterpCont.v
theories/InterpProofs.v
theories/JetFinal.v
theories/JetKink.v
theories/JetLike.v
theories/JetLikeSpec.v
theories/JetLine.v
theories/JetMain.v
theories/JetNuisFinal.v
theories/JetNuisSpec.v
theories/JetNz.v
theories/JetRules.v
theories/JetSpec.v
theories/JetSurvey.v
theories/JetSwap.v
theories/KdeNd.v
theories/KdeNdFinal.v
theories/KdeNdProofs.v
theories/KdeNdSpec.v
theories/LawsSpec.v
theories/Likelihood.v
theories/LikelihoodLaws.v
theories/LikelihoodProofs.v
theories/LikelihoodSpec.v
theories/LineSurvey.v
theories/MxBridge.v
theories/MxDeriv.v
theories/Nd.v
theories/NdBroadcast.v
theories/NdProofs.v
theories/NdRefuted.v
theories/NdSpec.v
theories/Np.v
theories/NpLemmas.v
theories/NumFinal.v
theories/NzArr.v
theories/NzArrProofs.v
theories/NzArrSpec.v
theories/NzTrace.v
theories/NzTraceProofs.v
theories/NzTraceSpec.v
theories/Ode.v
theories/OdeConv.v
theories/OdeConvSpec.v
theories/OdeProofs.v
theories/OdeSpec.v
theories/OracleDeriv.v
theories/Picard.v
theories/Poison.v
theories/PoisonLike.v
theories/PosDefOpen.v
theories/Power.v
theories/PowerArr.v
theories/PowerArrProofs.v
theories/PowerArrSpec.v
theories/PowerCol.v
theories/PowerColProofs.v
theories/PowerFinal.v
theories/PowerNd.v
theories/PowerNdProofs.v
theories/PowerNdSpec.v
theories/PowerProofs.v
theories/PowerSpec.v
theories/Probes.v
theories/ProbesFinal.v
theories/ProbesProofs.v
theories/ProbesSpec.v
theories/PropsAcl.v
theories/PropsAd.v
theories/PropsAdLike.v
theories/PropsBg.v
theories/PropsBg2.v
theories/PropsCont.v
theories/PropsConv.v
theories/PropsCov.v
theories/PropsCurved.v
theories/PropsEh.v
theories/PropsFin.v
theories/PropsFisher.v
theories/PropsForecast.v
theories/PropsFp.v
theories/PropsFpDist.v
theories/PropsGrad.v
theories/PropsHalofit.v
theories/PropsJac.v
theories/PropsJet.v
theories/PropsJetLike.v
theories/PropsJetNuis.v
theories/PropsKdeNd.v
theories/PropsLaws.v
theories/PropsLikelihood.v
theories/PropsNd.v
theories/PropsNuis.v
theories/PropsNuisLike.v
theories/PropsNum.v
theories/PropsNum2.v
theories/PropsNzTrace.v
theories/PropsOver.v
theories/PropsPower.v
theories/PropsPowerCol.v
theories/PropsPowerNd.v
theories/PropsProbes.v
theories/PropsPytree.v
theories/PropsQuadNd.v
theories/PropsReadme.v
theories/PropsRedshift.v
theories/PropsRombFn.v
theories/PropsShape.v
theories/PropsShow.v
theories/PropsSoft.v
theories/PropsSparse.v
theories/PropsSpline.v
theories/PropsSplineNd.v
theories/PropsTrace.v
theories/PropsXBack.v
theories/PropsXLike.v
theories/Pytree.v
theories/PytreeFinal.v
theories/PytreeProofs.v
theories/PytreeSpec.v
theories/QuadConv.v
theories/QuadNd.v
theories/QuadNdProofs.v
theories/Readme.v
theories/ReadmeSpec.v
theories/Redshift.v
theories/RedshiftProofs.v
theories/RedshiftShape.v
theories/RedshiftSpec.v
theories/Rfield.v
theories/RombFn.v
theories/RombFnProofs.v
theories/RombFnSpec.v
theories/RombPos.v
theories/RombProofs.v
theories/Show.v
theories/ShowProofs.v
theories/ShowSpec.v
theories/SimpsError.v
theories/SimpsProofs.v
theories/SoftFinal.v
theories/SoftLike.v
theories/SoftSpec.v
theories/SourceOrder.v
theories/Sparse.v
theories/SparseLaws.v
theories/SparsePrec.v
theories/SparseProofs.v
theories/SparseSpec.v
theories/SparseX.v
theories/SparseXProofs.v
theories/Spline.v
theories/SplineEval.v
theories/SplineFinal.v
theories/SplineGlue.v
theories/SplineLinear.v
theories/SplineLists.v
theories/SplineNd.v
theories/SplineNdProofs.v
theories/SplineProofs.v
theories/SplineQuad.v
theories/SplineSolve.v
theories/SplineSpec.v
theories/SplineSystem.v
theories/SplineUnique.v
theories/Trace.v
theories/TraceFinal.v
theories/TraceProofs.v
theories/TraceSpec.v
theories/Transfer.v
theories/TransferMono.v
theories/TransferProofs.v
theories/XBack.v
theories/XBackFinal.v
theories/XBackNan.v
theories/XBackProofs.v
theories/XBackSpec.v
theories/XLike.v
theories/XLikeFinal.v
theories/XLikeProofs.v
