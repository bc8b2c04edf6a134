-Q theories Verif
theories/Base.v
theories/Spec.v
theories/SpecLemmas.v
theories/WfCheck.v
theories/PHG.v
theories/PHGProofs.v
theories/Objective.v
theories/GainCache.v
theories/GainCacheProofs.v
theories/Conc.v
theories/ConcProofs.v
theories/ConcMore.v
theories/ConcRun.v
theories/ConcProgress.v
theories/PropsA.v
theories/Metrics.v
theories/PinCounts.v
theories/ConSet.v
theories/SparsePC.v
theories/Delta.v
theories/Rollback.v
theories/RollbackProofs.v
theories/Scan.v
theories/Revert.v
theories/SeqRollback.v
theories/PrefixSum.v
theories/Sorting.v
theories/Csr.v
theories/Rank.v
theories/Contract.v
theories/ContractProofs.v
theories/Fixed.v
theories/Fixed2.v
theories/PQ.v
theories/Tracker.v
theories/Construct.v
theories/GraphConstruct.v
theories/IO.v
theories/IOSafe.v
theories/IORead.v
theories/IORead2.v
theories/IORead3.v
theories/PartFile.v
theories/Weights.v
theories/Api.v
theories/Compat.v
theories/TargetSpec.v
theories/TargetGraph.v
theories/TargetIndex.v
theories/SteinerTrees.v
theories/Steiner.v
theories/Mst.v
theories/EdgeRemoval.v
theories/Restore.v
theories/RestoreProofs.v
theories/RestoreExamples.v
theories/Extract.v
theories/RB.v
theories/RBCost.v
theories/RBExamples.v
theories/Cluster.v
theories/ClusterLive.v
theories/ClusterWeight.v
theories/ClusterExact.v
theories/VCycle.v
theories/Interleave.v
theories/UncRound.v
theories/Rebalance.v
theories/RebalanceThms.v
theories/ParLoop.v
theories/DetCoarse.v
theories/DetPhases.v
theories/DetPhases2.v
theories/DetPhases3.v
theories/DetCoarseThms.v
theories/DetInv.v
theories/DetThms.v
theories/DetExamples.v
theories/Prefixes.v
theories/DetLP.v
theories/DetLPApply.v
theories/DetLP1.v
theories/DetLP2.v
theories/DetLPThms.v
theories/DetLPRun.v
theories/DetLPTotal.v
theories/DetLPProps.v
theories/DetReb.v
theories/DetRebThms.v
theories/DetRebProps.v
theories/Afterburner.v
theories/AfterburnerThms.v
theories/Afterburner2.v
theories/Jet.v
theories/JetThms.v
theories/JetRun.v
theories/AfterburnerProps.v
theories/JetProps.v
theories/JetExamples.v
theories/GainComp.v
theories/GainCompThms.v
theories/GainCompProps.v
theories/LP.v
theories/LPThms.v
theories/LPSeq.v
theories/LPProps.v
theories/LPPool.v
theories/LPPoolThms.v
theories/LPPar.v
theories/LPParProps.v
theories/FMRound.v
theories/FMRefine.v
theories/FMThms.v
theories/FMExample.v
theories/FlowApply.v
theories/FlowApplyThms.v
theories/FlowApplyProps.v
theories/DetFlow.v
theories/DetFlowThms.v
theories/DetFlowProps.v
theories/Participation.v
theories/ParticipationThms.v
theories/ParticipationProps.v
theories/Quotient.v
theories/QuotientProps.v
theories/INA.v
theories/INASpec.v
theories/INALoop.v
theories/INARep.v
theories/INAOps.v
theories/INAOps2.v
theories/INAOps3.v
theories/INAThms.v
theories/INAProps.v
theories/Batch.v
theories/BatchSort.v
theories/BatchThr.v
theories/BatchSys.v
theories/BatchProps.v
theories/DynEdge.v
theories/DynEdgeSpec.v
theories/DynEdgeThms.v
theories/DynEdgeBatch.v
theories/DynEdgeRun.v
theories/DynEdgeProps.v
theories/DynGain.v
theories/DynGainSpec.v
theories/DynGainThms.v
theories/DynGainRun.v
theories/DynGainProps.v
theories/NetRemoval.v
theories/NetRemovalSpec.v
theories/NetRemovalThms.v
theories/NetRemovalProps.v
theories/RegTree.v
theories/RegTreeSpec.v
theories/RegTreeInv.v
theories/RegTreeInv2.v
theories/RegTreeForest.v
theories/RegTreeProps.v
theories/CacheRefine.v
theories/CacheRefineThms.v
theories/Roundtrip.v
theories/RoundtripInv.v
theories/RoundtripThms.v
theories/RoundtripWt.v
theories/RoundtripEx.v
theories/Deep.v
theories/DeepTree.v
theories/DeepCtl.v
theories/Extend.v
theories/ExtendProps.v
theories/IPPool.v
theories/KLMap.v
theories/KLMapThms.v
theories/GreedyMap.v
theories/MapApply.v
theories/DynMap.v
theories/FlatMap.v
theories/FixedMap.v
theories/SparseSet.v
