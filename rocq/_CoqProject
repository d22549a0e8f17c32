-Q theories Verif
theories/Num.v
theories/PyDict.v
theories/PyDictFacts.v
theories/Coo.v
theories/CooFacts.v
theories/ModelBase.v
theories/ModelGraph.v
theories/CacheFacts.v
theories/GraphFacts.v
theories/SpecGraph.v
theories/StoreFacts.v
theories/SpecGraphOps.v
theories/GraphStore.v
theories/MatFacts.v
theories/GraphMatrix.v
theories/RealFacts.v
theories/GraphLaplace.v
theories/RebuildFacts.v
theories/GraphReach.v
theories/SoftmaxFacts.v
theories/PropGraph.v
theories/ModelDiGraph.v
theories/SpecDiGraph.v
theories/DiGraphFacts.v
theories/DiGraphReach.v
theories/PropDiGraph.v
theories/ModelBiGraph.v
theories/SpecBiGraph.v
theories/BiGraphFacts.v
theories/BiGraphMatrix.v
theories/PropBiGraph.v
theories/ModelHeap.v
theories/HeapFacts.v
theories/PersistFacts.v
theories/PropStore.v
theories/ModelHyper.v
theories/HyperFacts.v
theories/SpecHyper.v
theories/HyperStore.v
theories/HyperView.v
theories/HyperMatrix.v
theories/HyperPass.v
theories/HyperReach.v
theories/HyperOps.v
theories/PropHyper.v
theories/PropHyperHeap.v
theories/ModelConv.v
theories/SpecConv.v
theories/ConvFacts.v
theories/HgcnFacts.v
theories/PropConv.v
theories/PropAdd.v
theories/ModelUtils.v
theories/SpecUtils.v
theories/UtilFacts.v
theories/SplitFacts.v
theories/BinomFacts.v
theories/PropUtils.v
theories/ModelRandom.v
theories/SpecRandom.v
theories/RandomFacts.v
theories/SkipFacts.v
theories/PropRandom.v
theories/ModelMetrics.v
theories/ModelEval.v
theories/SpecMetrics.v
theories/MetricFacts.v
theories/RankFacts.v
theories/PropMetrics.v
theories/PropBatch.v
theories/SpecEval.v
theories/EvalFacts.v
theories/MarkerFacts.v
theories/PropEval.v
theories/PropMarkers.v
theories/ModelData.v
theories/PropData.v
theories/PropDatasets.v
theories/PropScale.v
theories/ModelNN.v
theories/SpecNN.v
theories/NNFacts.v
theories/PropLayers.v
theories/PropNN.v
theories/ModelRun.v
theories/PropRun.v
theories/PropKept.v
theories/ModelModels.v
theories/SpecLocal.v
theories/LocalFacts.v
theories/PropLocal.v
theories/ModelCF.v
theories/PropCF.v
theories/ModelMisc.v
theories/PropMisc.v
theories/PropRelabel.v
theories/ModelVis.v
theories/ModelDraw.v
theories/SpecVis.v
theories/VisFacts.v
theories/PropVis.v
theories/DropFacts.v
theories/PropDrop.v
theories/PropDraw.v
theories/PropOutline.v
theories/PropMeet.v
theories/PropRefuse.v
theories/ModelMore.v
theories/PropMore.v
theories/PropNan.v
theories/PropEquiv.v
theories/PropRelabel2.v
theories/PropEquiv2.v
theories/PropBuild.v
theories/PropDefaults.v
theories/PropSplit.v
theories/PropSplitNeg.v
theories/PropNan2.v
theories/PropNan3.v
theories/PropInt.v
theories/ModelEmbed.v
theories/PropEmbed.v
theories/PropChecks.v
theories/PropSettings.v
theories/PropIndex.v
theories/PropForce.v
theories/PropLayout.v
theories/PropInt2.v
theories/ModelTask.v
theories/ModelWork.v
theories/PropTask.v
theories/PropWork.v
theories/PropKnn.v
