-Q theories Verif
theories/Base.v
theories/SpecShapes.v
theories/Shapes.v
theories/ShapesLemmas.v
theories/NumPy.v
theories/PShapes.v
theories/MiscArray.v
theories/TensorLemmas.v
theories/EinsumLemmas.v
theories/SpecArray.v
theories/SumMultiplyLemmas.v
theories/PlateSumLemmas.v
theories/PlateSum2Lemmas.v
theories/PlateSum3Lemmas.v
theories/MessageLemmas.v
theories/ShapeOpsLemmas.v
theories/PArrays.v
theories/Engine.v
theories/SpecEngine.v
theories/EngineLemmas.v
theories/EngineLemmas2.v
theories/EngineSave.v
theories/EngineLoad.v
theories/PEngine.v
theories/ExtReal.v
theories/Numeric.v
theories/SpecNumeric.v
theories/NumericLemmas.v
theories/PNumeric.v
theories/EinsumGen.v
theories/Diag.v
theories/DiagLemmas.v
theories/PDiag.v
theories/Graph.v
theories/SpecGraph.v
theories/GraphLemmas.v
theories/GraphLinks.v
theories/GraphInv.v
theories/GraphNew.v
theories/GraphDelete.v
theories/GraphMask.v
theories/GraphHist.v
theories/PGraph.v
theories/Converter.v
theories/SpecConverter.v
theories/ConverterLemmas.v
theories/PConverter.v
theories/ExpFam.v
theories/SpecExpFam.v
theories/ExpFamLemmas.v
theories/ExpFamBound.v
theories/ExpFamGrad.v
theories/PExpFam.v
theories/Families.v
theories/SpecFamilies.v
theories/FamiliesLemmas.v
theories/PFamilies.v
theories/FamiliesLemmas2.v
theories/PFamilies2.v
theories/Markov.v
theories/SpecMarkov.v
theories/MarkovLemmas.v
theories/MarkovLemmas2.v
theories/PMarkov.v
theories/FamilyDist.v
theories/SpecUpdate.v
theories/UpdateLemmas.v
theories/PUpdate.v
theories/SpecFamilyDist.v
theories/PFamilyDist.v
theories/Network.v
theories/SpecNetwork.v
theories/NetworkLemmas.v
theories/NetworkLemmas2.v
theories/PNetwork.v
theories/FamilyNet.v
theories/SpecFamilyNet.v
theories/PFamilyNet.v
theories/SpecIndex.v
theories/Reindex.v
theories/PlateNodes.v
theories/SpecPlateNodes.v
theories/SliceLemmas.v
theories/SliceMoments.v
theories/SliceMessage.v
theories/PSlice.v
theories/TakeConcat.v
theories/TakeLemmas.v
theories/PTake.v
theories/PConcat.v
theories/TileNode.v
theories/TileLemmas.v
theories/PTile.v
theories/AddAxis.v
theories/PAddAxis.v
theories/Gate.v
theories/GateLemmas.v
theories/PGate.v
theories/RStruct.v
theories/Linalg.v
theories/MatBridge.v
theories/SpecLinalg.v
theories/LinalgLemmas.v
theories/Gaussian.v
theories/GaussLemmas.v
theories/GaussAlg.v
theories/SpecGaussian.v
theories/PGaussian.v
theories/PGaussian2.v
theories/Rotation.v
theories/PRotation.v
theories/GaussianDist.v
theories/GaussGibbs.v
theories/PGaussianDist.v
theories/SpecGradient.v
theories/GaussianGrad.v
theories/GaussDeriv.v
theories/GaussDeriv2.v
theories/PGaussianGrad.v
theories/SchurAlg.v
theories/BlockBanded.v
theories/SpecBlock.v
theories/BlockShift.v
theories/BlockLemmas.v
theories/PBlockBanded.v
theories/GaussMarkov.v
theories/SpecGaussMarkov.v
theories/GaussMarkovLemmas.v
theories/ChainAlg.v
theories/ChainLemmas.v
theories/PGaussMarkov.v
theories/PGaussMarkov2.v
theories/GaussMarkovDist.v
theories/PGaussMarkovDist.v
theories/Mixture.v
theories/SpecMixture.v
theories/MixtureLemmas.v
theories/PMixture.v
theories/Optimize.v
theories/POptimize.v
theories/Dot.v
theories/DotEinsum.v
theories/DotSum.v
theories/DotMessage.v
theories/DotAdjoint.v
theories/SpecDot.v
theories/DotNode.v
theories/DotPart.v
theories/DotExpect.v
theories/DotInit.v
theories/DotFinal.v
theories/DotMoments.v
theories/ComputeMessage.v
theories/DotScale.v
theories/DotMsg.v
theories/DotParse.v
theories/PDot.v
theories/AddNode.v
theories/LinalgLemmas2.v
theories/SpecAdd.v
theories/AddLemmas.v
theories/ConcatLemmas.v
theories/ConcatLemmas2.v
theories/ConcatLemmas3.v
theories/PAdd.v
theories/DetNet.v
theories/SpecDetNet.v
theories/DetNetLemmas.v
theories/DetNetLemmas2.v
theories/PDetNet.v
theories/GaussNet.v
theories/MixtureNet.v
theories/MarkovNet.v
theories/PathNet.v
theories/PlateDet.v
theories/SpecGaussNet.v
theories/GaussTypes.v
theories/GaussNodes.v
theories/GaussNodes2.v
theories/GaussNodes3.v
theories/GaussNodes4.v
theories/GaussNodes5.v
theories/GaussNodes6.v
theories/GaussNodes7.v
theories/MixtureFam.v
theories/ClustersDet.v
theories/MarkovFam.v
theories/StatesDet.v
theories/PathFam.v
theories/PathDet.v
theories/DotNet.v
theories/AddNet.v
theories/GaussModel.v
theories/SpecGaussModel.v
theories/DotSwap.v
theories/LinearDet.v
theories/LinearDet2.v
theories/LinearDet3.v
theories/SumDet.v
theories/LinearDet4.v
theories/AddDet.v
theories/PGaussNet.v
theories/PGaussFactor.v
theories/PGaussMixture.v
theories/PGaussHidden.v
theories/PGaussPath.v
theories/VaryingMarkov.v
theories/PVaryingMarkov.v
theories/RotateARD.v
theories/SpecRotateARD.v
theories/RotateLemmas.v
theories/RotateLemmas2.v
theories/RotateLemmas3.v
theories/RotateLemmas4.v
theories/DetGrad.v
theories/RotateGrad.v
theories/RotateGrad2.v
theories/RotateGrad3.v
theories/RotateGrad4.v
theories/RotateGrad5.v
theories/PRotateARD.v
theories/SpecValues.v
theories/PValues.v
theories/GaussToGauss.v
theories/PGaussToGauss.v
theories/DetCurve.v
theories/MaxLik.v
theories/SpecMaxLik.v
theories/MaxLikLemmas.v
theories/PMaxLik.v
theories/RotateChain.v
theories/SpecRotateChain.v
theories/RotateChainLemmas.v
theories/RotateChainLemmas2.v
theories/PRotateChain.v
theories/PlateRotate.v
theories/SpecPlateRotate.v
theories/PlateRotLemmas.v
theories/PlateRotLemmas2.v
theories/PlateRotLemmas3.v
theories/PlateRotGrad.v
theories/PlateRotGrad2.v
theories/BlockDet.v
theories/PPlateRotate.v
theories/RandomDraw.v
theories/SpecRandomDraw.v
theories/RandomDrawLemmas.v
theories/RandomDrawLemmas2.v
theories/PRandomDraw.v
theories/PRandomDraw2.v
theories/GammaMarginal.v
theories/SpecGammaMarginal.v
theories/PGammaMarginal.v
theories/Rejected.v
theories/SpecRejected.v
theories/PRejected.v
theories/ConstNode.v
theories/SpecConstNode.v
theories/PConstNode.v
theories/Construct.v
theories/SpecConstruct.v
theories/PConstruct.v
theories/MultiMixture.v
theories/PMultiMixture.v
theories/ArrayTools.v
theories/SpecArrayTools.v
theories/PArrayTools.v
theories/EngineQueries.v
theories/PEngineQueries.v
theories/Choose.v
theories/PChoose.v
theories/GaussArrays.v
theories/PGaussArrays.v
theories/MatrixRotation.v
theories/PMatrixRotation.v
theories/VectorRotation.v
theories/PVectorRotation.v
theories/GaussPrint.v
theories/PGaussPrint.v
theories/LogDet.v
theories/PLogDet.v
theories/Haversine.v
theories/SpecHaversine.v
theories/PHaversine.v
