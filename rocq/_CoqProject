-Q theories Verif
theories/Base.v
theories/SpecPQ.v
theories/SpecArray.v
theories/SpecBits.v
theories/SpecGraph.v
theories/IndexHeap.v
theories/IndexHeapProof.v
theories/TsVec.v
theories/TsVecProof.v
theories/BitVec.v
theories/BitVecProof.v
theories/FastClearProof.v
theories/SpecLabelHeap.v
theories/LabelHeap.v
theories/LabelHeapProof.v
theories/Graph.v
theories/NodeOrder.v
theories/NodeOrderProof.v
theories/GraphProof.v
theories/GraphRevProof.v
theories/GraphOpsProof.v
theories/GraphIdProof.v
theories/Select.v
theories/SelectProof.v
theories/GraphXProof.v
theories/GraphSpecProof.v
theories/SpecCCH.v
theories/CCH.v
theories/CCHTheory.v
theories/CCHContractProof.v
theories/CCHBuildProof.v
theories/SpecIO.v
theories/IO.v
theories/IOProof.v
theories/CCHIOProof.v
theories/InRange.v
theories/CCHCustProof.v
theories/CCHMetricProof.v
theories/Dijkstra.v
theories/LoopProof.v
theories/CCHQuery.v
theories/CCHQueryProof.v
theories/CCHPathTheory.v
theories/CCHPathProof.v
theories/CCHViewProof.v
theories/CCHServerProof.v
theories/CCHPot.v
theories/CCHPotProof.v
theories/SepTree.v
theories/CCHPerfect.v
theories/CCHPerfectProof.v
theories/CCHRebuild.v
theories/CCHRebuildProof.v
theories/CCHPerfectView.v
theories/CCHRebuildPar.v
theories/CCHPerfectPar.v
theories/SepTreeProof.v
theories/CCHPar.v
theories/CCHParProof.v
theories/CCHParTreeProof.v
theories/ReorderProof.v
theories/DijkstraRef.v
theories/DijkstraProof.v
theories/DijServer.v
theories/DijServerProof.v
theories/DijOrderProof.v
theories/DijHistProof.v
theories/Bidir.v
theories/BidirProof.v
theories/BidirServerProof.v
theories/BidirPotProof.v
theories/ExTab.v
theories/PropsData.v
theories/PropsGraph.v
theories/PropsDijkstra.v
theories/PropsBidir.v
theories/PropsCCH.v
theories/PropsPar.v
theories/PropsPot.v
theories/PropsPerfect.v
theories/PropsPerfectPar.v
theories/SpecTTF.v
theories/PLF.v
theories/PLFProof.v
theories/PLFRange.v
theories/PLFAverage.v
theories/PropsTTF.v
theories/TDGraph.v
theories/TDGraphProof.v
theories/TDQueryProof.v
theories/PropsTD.v
theories/PropsData2.v
theories/SpecReach.v
theories/DisTarget.v
theories/DisTargetProof.v
theories/PropsDis.v
theories/Alt.v
theories/AltProof.v
theories/PropsAlt.v
theories/SpecCH.v
theories/Rphast.v
theories/RphastProof.v
theories/CHViewProof.v
theories/PropsRphast.v
theories/HL.v
theories/HLProof.v
theories/PropsHL.v
theories/CH.v
theories/CHProof.v
theories/PropsCH.v
theories/CHPrep.v
theories/CHPrepProof.v
theories/CHContrProof.v
theories/CHInitProof.v
theories/CHTotalProof.v
theories/PropsCHPrep.v
theories/SpecMerge.v
theories/Merge.v
theories/MergeProof.v
theories/PropsMerge.v
theories/SpecNN.v
theories/NN.v
theories/NNProof.v
theories/PropsNN.v
theories/CHPot.v
theories/CHPotProof.v
theories/LowerPotProof.v
theories/PropsCHPot.v
theories/Bucket.v
theories/BucketProof.v
theories/BPotProof.v
theories/PropsBucket.v
theories/SpecBNN.v
theories/BCCHNN.v
theories/BCCHNNProof.v
theories/PropsBNN.v
theories/DirCCH.v
theories/DirCCHProof.v
theories/DirRel.v
theories/PropsDir.v
theories/TopoDij.v
theories/TopoDijProof.v
theories/SpecTopo.v
theories/TopoServerProof.v
theories/PropsTopo.v
theories/VTopo.v
theories/VTopoProof.v
theories/BicProof.v
theories/VCompProof.v
theories/VTBuildProof.v
theories/VTServerProof.v
theories/SpecVT.v
theories/VTPhaseProof.v
theories/VTCoreProof.v
theories/PropsVT.v
theories/PropsOverflow.v
theories/SpecUBS.v
theories/UBS.v
theories/UBSFilterProof.v
theories/UBSScanProof.v
theories/UBSTreeProof.v
theories/UBSDijProof.v
theories/UBSProof.v
theories/PropsUBS.v
theories/PathPot.v
theories/SpecPathPot.v
theories/PathPotProof.v
theories/PathPotView.v
theories/PropsPathPot.v
theories/CUBSProof.v
theories/PropsCUBS.v
theories/SpecPathFix.v
theories/PathFix.v
theories/PathFixProof.v
theories/PropsPathFix.v
theories/TDS.v
theories/PropsTDS.v
theories/SpecValidity.v
theories/Validity.v
theories/ValidityProof.v
theories/ValidityPar.v
theories/PropsValidity.v
theories/DirPerf.v
theories/DirPerfProof.v
theories/DirPerfView.v
theories/PropsDirPerf.v
theories/SpecEvent.v
theories/EventIter.v
theories/EventProof.v
theories/PropsEvent.v
