-Q theories Verif
theories/Base.v
theories/RSum.v
theories/Num.v
theories/Tensor.v
theories/Prob.v
theories/Layers.v
theories/Circuit.v
theories/Net.v
theories/RefFwd.v
theories/RefSample.v
theories/RefLaw.v
theories/Lse.v
theories/RefLayer.v
theories/Leaf.v
theories/Perm.v
theories/RefLeaf.v
theories/RefLeafS.v
theories/TypeChecks.v
theories/Einet.v
theories/RefNet.v
theories/RefEinet.v
theories/RefEinetS.v
theories/RefMpe.v
theories/Build.v
theories/RefScopes.v
theories/RefBuild.v
theories/Spec.v
theories/RefSpec.v
theories/RefSpecS.v
theories/RefPost.v
theories/RefMore.v
theories/RefPack.v
theories/RefCtor.v
theories/State.v
theories/RefState.v
theories/Dropout.v
theories/RefDropout.v
theories/Product.v
theories/Data.v
theories/Heap.v
theories/RefHeap.v
theories/Diff.v
theories/RefDiff.v
theories/Family.v
theories/RefFamily.v
theories/Piecewise.v
theories/RefPiecewise.v
theories/Ex.v
theories/ExBad.v
theories/PropChecks.v
theories/PropForward.v
theories/PropSample.v
theories/PropLayers.v
theories/PropState.v
theories/PropDropout.v
theories/PropProduct.v
theories/PropData.v
theories/PropDiff.v
theories/PropLeaf.v
theories/RefPiecewiseInit.v
theories/PropPiece.v
theories/PieceLeaf.v
theories/PropPieceNet.v
theories/Mixture.v
theories/RefMixture.v
theories/PropMix.v
theories/Params.v
theories/RefParams.v
theories/PropParams.v
theories/MultiDist.v
theories/RefMulti.v
theories/PropMulti.v
theories/Mv.v
theories/RefMv.v
theories/PropMv.v
theories/ConvPc.v
theories/RefConv.v
theories/RefConvNet.v
theories/RefConvS.v
theories/PropConv.v
theories/Density.v
theories/RefDensity.v
theories/RefDensityS.v
theories/Gauss.v
theories/Integral.v
theories/PropDensity.v
theories/RefMixLaw.v
theories/PropMixLaw.v
theories/PropMixOrder.v
theories/Temper.v
theories/RefTemper.v
theories/PropTemper.v
theories/Content.v
theories/RefGumbel.v
theories/PropGumbel.v
theories/Mean.v
theories/NoiseLaw.v
theories/RefNoise.v
theories/PropNoise.v
theories/Affine.v
theories/MvNormal.v
theories/RefMvNormal.v
theories/PropMvNormal.v
theories/Cluster.v
theories/RefCluster.v
theories/PropCluster.v
theories/Train.v
theories/RefTrain.v
theories/PropTrain.v
theories/RefRoute.v
theories/PropRoute.v
theories/Rat.v
theories/PropRat.v
theories/Float.v
theories/RefFloat.v
theories/RefFloatNet.v
theories/RefFloatLin.v
theories/PropFloat.v
theories/RefApprox.v
theories/PropMpe.v
theories/RefSteer.v
theories/PropSteer.v
theories/DBinom.v
theories/PropDBinom.v
theories/PropSteps.v
theories/RefPerturb.v
theories/RefAlike.v
theories/RefGrad.v
theories/PropPerturb.v
theories/PropGrad.v
theories/RefTrees.v
theories/PropTrees.v
theories/RefConvD.v
theories/PropConvD.v
theories/RefConvG.v
theories/ConvTrain.v
theories/PropConvG.v
theories/ConvMix.v
theories/RefConvMix.v
theories/PropConvMix.v
theories/Generate.v
theories/RefGenerate.v
theories/PropGenerate.v
theories/Step.v
theories/RefStep.v
theories/PropStep.v
theories/LeafStep.v
theories/RefLeafStep.v
theories/PropLeafStep.v
theories/Loop.v
theories/RefLoop.v
theories/PropLoop.v
theories/Recon.v
theories/PropRecon.v
theories/Tangent.v
theories/RefTangent.v
theories/PropTangent.v
theories/PropShift.v
theories/Catalog.v
theories/PropCatalog.v
theories/PropGenMix.v
theories/PropTrace.v
theories/DropNet.v
theories/RefDropNet.v
theories/PropDropNet.v
theories/Save.v
theories/PropSave.v
theories/RefRows.v
theories/PropRows.v
theories/ConvStep.v
theories/RefConvStep.v
theories/PropConvStep.v
theories/ConvSave.v
theories/PropConvSave.v
theories/SumConv.v
theories/PropSumConv.v
theories/CondBinom.v
theories/PropCondBinom.v
theories/PropCondSample.v
theories/CondMpe.v
theories/PropCondMpe.v
