-Q theories Verif
theories/Machine.v
theories/GearSpec.v
theories/Spec.v
theories/TraversalSpec.v
theories/Common.v
theories/CommonProofs.v
theories/PathsModel.v
theories/PathsSpec.v
theories/PathsProofs.v
theories/PathsMore.v
theories/LimitSim.v
theories/BFSModel.v
theories/BFSProofs.v
theories/BFSLimit.v
theories/BFSMore.v
theories/MachineSim.v
theories/BFSSim.v
theories/GearModel.v
theories/GearProofs.v
theories/InlineModel.v
theories/InlineSpec.v
theories/InlineProofs.v
theories/GoModel.v
theories/GoProofs.v
theories/GearHistoryModel.v
theories/GearHistorySpec.v
theories/GearHistory.v
theories/Weight.v
theories/WeightSpec.v
theories/HeapModel.v
theories/HeapProofs.v
theories/DijkstraModel.v
theories/PathsExact.v
theories/DijkstraProofs.v
theories/DijkstraPaths.v
theories/MachineMore.v
theories/DijkstraMore.v
theories/DijkstraPlain.v
theories/LimitAll.v
theories/DijkstraLimit.v
theories/DijkstraSim.v
theories/AStarModel.v
theories/AStarSpec.v
theories/AStarProofs.v
theories/AStarMore.v
theories/AStarRun.v
theories/AStarFinal.v
theories/AStarLimit.v
theories/AStarSim.v
theories/MSTModel.v
theories/MSTSpec.v
theories/MSTGraph.v
theories/MSTProofs.v
theories/MSTFinal.v
theories/MSTLimit.v
theories/MSTSim.v
theories/Forest.v
theories/NTDModel.v
theories/NTDProofs.v
theories/NTDMore.v
theories/NTDLimit.v
theories/NTDSim.v
theories/NTDExamples.v
theories/DFSModel.v
theories/DFSSpec.v
theories/DFSLog.v
theories/DFSLogMore.v
theories/DFSReports.v
theories/DFSProofs.v
theories/DFSTerm.v
theories/DFSWProofs.v
theories/DFSMain.v
theories/DFSTreeSpec.v
theories/DFSTree.v
theories/DFSMore.v
theories/DFSDet.v
theories/DFSCompare.v
theories/DFSTrace.v
theories/DFSModes.v
theories/DFSPaths.v
theories/DFSLimit.v
theories/DFSSim.v
theories/DFSIds.v
theories/DFSFinal.v
theories/TreeLike.v
theories/TopoModel.v
theories/TopoSpec.v
theories/TopoProofs.v
theories/TopoMore.v
theories/TopoTree.v
theories/TopoLimit.v
theories/TopoSim.v
theories/Examples.v
theories/DFSExamples.v
theories/TopoExamples.v
theories/AStarExamples.v
theories/MSTExamples.v
theories/PathModel.v
theories/PathSpec.v
theories/PathProofs.v
theories/PathSim.v
theories/BiSpec.v
theories/BiBFSModel.v
theories/BiBFSProofs.v
theories/BiBFSMore.v
theories/Limit2.v
theories/BiBFSLimit.v
theories/BiBFSSim.v
theories/BiExamples.v
theories/PropBFS.v
theories/PropDijkstra.v
theories/PropAStar.v
theories/PropMST.v
theories/PropNTD.v
theories/PropDFS.v
theories/PropTopo.v
theories/PropGo.v
theories/PropPaths.v
theories/PropPath.v
theories/PropBiBFS.v
theories/BiSPModel.v
theories/BiSPSpec.v
theories/BiSPSide.v
theories/BiSPProofs.v
theories/BiSPMore.v
theories/BiSPPaths.v
theories/BiSPRun.v
theories/BiSPLimit.v
theories/BiSPOver.v
theories/BiSPSim.v
theories/BiSPExamples.v
theories/PropBiSP.v
theories/PropGears.v
theories/PropConfig.v
theories/BFSTree.v
theories/WTree.v
theories/TreeExamples.v
theories/PropTree.v
theories/PropLimit.v
theories/DirectModel.v
theories/DirectProofs.v
theories/PropDirect.v
theories/StartModel.v
theories/StartSpec.v
theories/StartProofs.v
theories/PropStart.v
theories/RangeSpec.v
theories/RangeModel.v
theories/RangeProofs.v
theories/PropRange.v
theories/HistoryModel.v
theories/HistorySpec.v
theories/HistoryProofs.v
theories/HistoryFail.v
theories/PropHistory.v
theories/PropSim.v
theories/EdgeModel.v
theories/EdgeSpec.v
theories/EdgeProofs.v
theories/PropEdge.v
theories/PositionModel.v
theories/PositionSpec.v
theories/PositionProofs.v
theories/ArrayModel.v
theories/ArraySpec.v
theories/ArrayProofs.v
theories/PropMatrix.v
theories/TspModel.v
theories/TspSpec.v
theories/TspBits.v
theories/TspProofs.v
theories/TspRun.v
theories/TspMain.v
theories/TspEqual.v
theories/TspMore.v
theories/PropTsp.v
theories/InfModel.v
theories/InfSpec.v
theories/InfGraph.v
theories/InfRun.v
theories/InfMore.v
theories/InfPaths.v
theories/InfReads.v
theories/InfLimit.v
theories/InfCount.v
theories/InfSim.v
theories/PropInf.v
theories/AwareModel.v
theories/AwareSpec.v
theories/AwareProofs.v
theories/AwareOnce.v
theories/AwareMore.v
theories/AwareInst.v
theories/PropAware.v
theories/SeriesModel.v
theories/SeriesProofs.v
theories/PropSeries.v
theories/NestedModel.v
theories/NestedProofs.v
theories/NestedOwn.v
theories/NestedExamples.v
theories/PropNested.v
theories/PropNestedInf.v
theories/PropNestedRefuted.v
theories/DistSeriesModel.v
theories/DistSeriesSpec.v
theories/DistSeriesProofs.v
theories/PropDistSeries.v
theories/LazyModel.v
theories/LazySpec.v
theories/LazyProofs.v
theories/LazyInst.v
theories/PropLazy.v
theories/ReadSpec.v
theories/ReadProofs.v
theories/ReadDFS.v
theories/PropRead.v
theories/BiReadSpec.v
theories/BiBFSRead.v
theories/PropBiRead.v
theories/FloatModel.v
theories/FloatSpec.v
theories/FloatProofs.v
theories/FloatIEEE.v
theories/PropFloat.v
theories/StoreModel.v
theories/StoreProofs.v
theories/PropStore.v
theories/AStarRounded.v
theories/AStarFloat.v
theories/AStarFloatExamples.v
theories/PropAStarFloat.v
theories/WorkSpec.v
theories/WorkProofs.v
theories/WorkMore.v
theories/PropWork.v
theories/OptSpec.v
theories/OptSim.v
theories/OptNTD.v
theories/OptKeep.v
theories/OptDFS.v
theories/PropOptions.v
theories/MSTMoreSpec.v
theories/MSTMore.v
theories/PropMSTMore.v
theories/AgreeSpec.v
theories/AgreeProofs.v
theories/PropAgree.v
theories/WorkBiSpec.v
theories/WorkBi.v
theories/PropWorkBi.v
theories/SCCSpec.v
theories/SCCModel.v
theories/SCCLog.v
theories/SCCProofs.v
theories/PropSCC.v
theories/ArtSpec.v
theories/ArtModel.v
theories/ArtLog.v
theories/ArtProofs.v
theories/ArtExamples.v
theories/PropArt.v
theories/DemoTspModel.v
theories/DemoTspProofs.v
theories/PropDemoTsp.v
theories/AwareBiModel.v
theories/AwareBi.v
theories/AwareBiSame.v
theories/PropAwareBi.v
theories/LongestSpec.v
theories/LongestModel.v
theories/LongestProofs.v
theories/LongestExamples.v
theories/PropLongest.v
theories/PruneModel.v
theories/PruneProofs.v
theories/IddfsSpec.v
theories/IddfsModel.v
theories/IddfsProofs.v
theories/IddfsExamples.v
theories/PropIddfs.v
theories/SieveModel.v
theories/SieveProofs.v
theories/InfAwareModel.v
theories/InfAwareProofs.v
theories/PrimesModel.v
theories/PrimesProofs.v
theories/PrimesUpTo.v
theories/PropPrimes.v
theories/InfLazyModel.v
theories/InfLazyProofs.v
theories/PropInfLazy.v
theories/IddfsOneModel.v
theories/IddfsOneProofs.v
theories/PropIddfsOne.v
theories/ReduceModel.v
theories/ReduceProofs.v
theories/PropReduce.v
theories/BiSPRoundSpec.v
theories/BiSPRound.v
theories/BiSPRoundRun.v
theories/BiSPFloat.v
theories/BiSPFloatExamples.v
theories/PropBiSPFloat.v
theories/SignedFloat.v
theories/InfNumModel.v
theories/InfNumProofs.v
theories/InfFloatSpec.v
theories/InfFloat.v
theories/InfFloatExamples.v
theories/PropInfFloat.v
theories/BiOptSpec.v
theories/BiOpt.v
theories/PropBiOptions.v
theories/InfOpt.v
theories/PropInfOptions.v
theories/OrderProofs.v
theories/PropOrder.v
theories/OrderMore.v
theories/PropOrderMore.v
theories/GrowProofs.v
theories/PropGrow.v
