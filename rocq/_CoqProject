-Q theories Verif
theories/Base.v
theories/BaseProofs.v
theories/CombinatorialModel.v
theories/SpecSimplex.v
theories/CombinatorialProofs.v
theories/PropCombinatorial.v
theories/CohomologyModel.v
theories/SpecCohomology.v
theories/Argsort.v
theories/SignProofs.v
theories/ParityProofs.v
theories/CohomologyProofs.v
theories/PropCohomology.v
theories/DeltaModel.v
theories/SpecRips.v
theories/RipsProofs.v
theories/DeltaProofs.v
theories/DeltaFacts.v
theories/PropDelta.v
theories/RealBase.v
theories/RepairModel.v
theories/SpecRepair.v
theories/RepairProofs.v
theories/PropRepair.v
theories/EMModel.v
theories/SpecEM.v
theories/EMProofs.v
theories/PropEM.v
theories/RealSum.v
theories/CircleModel.v
theories/SpecCircle.v
theories/CircleProofs.v
theories/PropCircle.v
theories/LLLModel.v
theories/SpecLLL.v
theories/LLLProofs.v
theories/LLLExecution.v
theories/LLLTwins.v
theories/PropLLL.v
theories/ToroidalModel.v
theories/SpecToroidal.v
theories/ToroidalProofs.v
theories/ToroidalFacts.v
theories/PropToroidal.v
theories/ToroidalCalls.v
theories/PropTorusCalls.v
theories/SpecHarmonic.v
theories/HarmonicProofs.v
theories/ToroidalTotal.v
theories/PropHarmonic.v
theories/Cholesky.v
theories/SpecTermination.v
theories/ToroidalSeveral.v
theories/LeastSquares.v
theories/PropTheta.v
theories/PropTermination.v
theories/GraphExample.v
theories/PropRepairCall.v
theories/ComplexBase.v
theories/PPCAModel.v
theories/SpecPPCA.v
theories/PPCAProofs.v
theories/KyFan.v
theories/PPCAReductions.v
theories/PropPPCA.v
theories/ClassMapModel.v
theories/SpecClassMap.v
theories/ClassMapProofs.v
theories/PropClassMap.v
theories/ComplexProjModel.v
theories/SpecComplexProj.v
theories/ComplexProjProofs.v
theories/ComplexProjFacts.v
theories/PropComplexProj.v
theories/MapUtilsModel.v
theories/SpecMapUtils.v
theories/MapUtilsProofs.v
theories/PropMapUtils.v
theories/GeometryModel.v
theories/SpecGeometry.v
theories/GeometryProofs.v
theories/PropGeometry.v
theories/ExamplesModel.v
theories/SpecExamples.v
theories/ExamplesProofs.v
theories/PropExamples.v
theories/PlotModel.v
theories/SpecPlot.v
theories/PlotProofs.v
theories/PropPlot.v
theories/GluingProofs.v
theories/PropGluing.v
theories/SpecRound.v
theories/RoundBase.v
theories/RoundModel.v
theories/RoundProofs.v
theories/RoundLLL.v
theories/RoundCover.v
theories/PropRound.v
theories/PropCover.v
theories/PropSingle.v
theories/RoundTorusModel.v
theories/RoundTorusProofs.v
theories/RoundHarmonic.v
theories/RoundGram.v
theories/RoundTorusFacts.v
theories/PropRoundTorus.v
theories/SpecRoundGeom.v
theories/RoundGeomModel.v
theories/RoundGeomProofs.v
theories/PropRoundGeom.v
theories/RoundPPCAModel.v
theories/SpecRoundPPCA.v
theories/RoundPPCAProofs.v
theories/RoundPPCAExact.v
theories/RoundClassMap.v
theories/PropRoundPPCA.v
theories/RoundLens.v
theories/PropRoundLens.v
theories/PropRoundCircular.v
theories/RoundCProjModel.v
theories/SpecRoundCProj.v
theories/RoundCProj.v
theories/RoundCProjAngles.v
theories/RoundCProjMap.v
theories/PropRoundCProj.v
theories/SpecCalls.v
theories/CallFacts.v
theories/PropCalls.v
theories/RoundTorusCalls.v
theories/PropRoundCalls.v
theories/RoundConstants.v
theories/RoundMapsModel.v
theories/SpecRoundMaps.v
theories/RoundLensMap.v
theories/PropRoundMaps.v
