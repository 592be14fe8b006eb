-Q theories Verif

theories/Lib/Count.v
theories/Lib/Prelude.v
theories/Lib/Slice.v
theories/Model/AllreduceModel.v
theories/Model/BalancerModel.v
theories/Model/BlockWeightModel.v
theories/Model/BorderSetModel.v
theories/Model/ColoringModel.v
theories/Model/CompactArrayModel.v
theories/Model/CompactHashModel.v
theories/Model/CompressModel.v
theories/Model/CompressParModel.v
theories/Model/CompressedGraphModel.v
theories/Model/ContextFloatModel.v
theories/Model/ContextModel.v
theories/Model/ContractModel.v
theories/Model/CsrModel.v
theories/Model/DeepModel.v
theories/Model/DeltaModel.v
theories/Model/DistBalancerModel.v
theories/Model/DistDeepModel.v
theories/Model/DistExtractModel.v
theories/Model/DistGraphModel.v
theories/Model/DistJetModel.v
theories/Model/DistLimitsModel.v
theories/Model/DistLpModel.v
theories/Model/DistMetricsModel.v
theories/Model/DistParallelModel.v
theories/Model/DynMapModel.v
theories/Model/ExtendModel.v
theories/Model/FacadeModel.v
theories/Model/FmModel.v
theories/Model/FmRoundModel.v
theories/Model/GainModel.v
theories/Model/GridModel.v
theories/Model/HeapModel.v
theories/Model/HemModel.v
theories/Model/InitialCoarsenModel.v
theories/Model/InitialFlatModel.v
theories/Model/InitialFmModel.v
theories/Model/InitialMultilevelModel.v
theories/Model/InitialPoolModel.v
theories/Model/IoBinModel.v
theories/Model/IoTextModel.v
theories/Model/JetModel.v
theories/Model/LimitsModel.v
theories/Model/LpClusterModel.v
theories/Model/LpOrderModel.v
theories/Model/LpRefineModel.v
theories/Model/MarkerModel.v
theories/Model/MathModel.v
theories/Model/MoveSetGreedyModel.v
theories/Model/MoveSetModel.v
theories/Model/MpiModel.v
theories/Model/PartUtilsModel.v
theories/Model/PermModel.v
theories/Model/PipelineModel.v
theories/Model/RankModel.v
theories/Model/RatingMapModel.v
theories/Model/RbModel.v
theories/Model/RearrangeModel.v
theories/Model/ReplicateModel.v
theories/Model/SparseGainModel.v
theories/Model/StreamVByteModel.v
theories/Model/SubgraphModel.v
theories/Model/UnbufModel.v
theories/Model/ValidateModel.v
theories/Model/VarintModel.v
theories/Model/VcycleModel.v
theories/Model/WeightBucketsModel.v
theories/Proofs/AlignedProofs.v
theories/Proofs/AllreduceProofs.v
theories/Proofs/BalancerCases.v
theories/Proofs/BalancerDone.v
theories/Proofs/BalancerProofs.v
theories/Proofs/BalancerStuck.v
theories/Proofs/BalancerTop.v
theories/Proofs/BlockWeightExamples.v
theories/Proofs/BlockWeightProofs.v
theories/Proofs/BorderSetProofs.v
theories/Proofs/ColoringExamples.v
theories/Proofs/ColoringFinal.v
theories/Proofs/ColoringNode.v
theories/Proofs/ColoringStep.v
theories/Proofs/ColoringSystem.v
theories/Proofs/CompactArrayProofs.v
theories/Proofs/CompactGain.v
theories/Proofs/CompactGainBase.v
theories/Proofs/CompactHashOps.v
theories/Proofs/CompactHashProofs.v
theories/Proofs/CompleteProofs.v
theories/Proofs/CompressExamples.v
theories/Proofs/CompressFacts.v
theories/Proofs/CompressGraphProofs.v
theories/Proofs/CompressParBase.v
theories/Proofs/CompressParMain.v
theories/Proofs/CompressParOver.v
theories/Proofs/CompressParProofs.v
theories/Proofs/CompressParSize.v
theories/Proofs/CompressParTop.v
theories/Proofs/CompressProofs.v
theories/Proofs/CompressSize.v
theories/Proofs/ContextExamples.v
theories/Proofs/ContextFloat.v
theories/Proofs/ContextProofs.v
theories/Proofs/ContractExamples.v
theories/Proofs/ContractPreProofs.v
theories/Proofs/ContractProofs.v
theories/Proofs/CsrProofs.v
theories/Proofs/Decide.v
theories/Proofs/DeepProofs.v
theories/Proofs/DeltaCases.v
theories/Proofs/DeltaProofs.v
theories/Proofs/DeltaTop.v
theories/Proofs/DenseGain.v
theories/Proofs/DistCombineProofs.v
theories/Proofs/DistDeepProofs.v
theories/Proofs/DistExamples.v
theories/Proofs/DistJetExamples.v
theories/Proofs/DistJetFinal.v
theories/Proofs/DistJetMoves.v
theories/Proofs/DistLimitsProofs.v
theories/Proofs/DistLpExamples.v
theories/Proofs/DistLpProofs.v
theories/Proofs/DistMetricsProofs.v
theories/Proofs/DistParallelProofs.v
theories/Proofs/DistProposeProofs.v
theories/Proofs/DistRoundProofs.v
theories/Proofs/DistSyncProofs.v
theories/Proofs/DistSystemProofs.v
theories/Proofs/DistViewProofs.v
theories/Proofs/DynMapProofs.v
theories/Proofs/ExchangeProofs.v
theories/Proofs/ExtendBase.v
theories/Proofs/ExtendCases.v
theories/Proofs/ExtendRec.v
theories/Proofs/ExtendStep.v
theories/Proofs/ExtendTop.v
theories/Proofs/ExtractExamples.v
theories/Proofs/ExtractFinal.v
theories/Proofs/ExtractGather.v
theories/Proofs/ExtractLocal.v
theories/Proofs/ExtractOffsets.v
theories/Proofs/ExtractSystem.v
theories/Proofs/FacadeFacts.v
theories/Proofs/FacadeProofs.v
theories/Proofs/FillProofs.v
theories/Proofs/FinalK.v
theories/Proofs/FmBase.v
theories/Proofs/FmProofs.v
theories/Proofs/FmRoundProofs.v
theories/Proofs/FmRoundSeeds.v
theories/Proofs/FmRoundTop.v
theories/Proofs/FmTop.v
theories/Proofs/ForestProofs.v
theories/Proofs/GainBase.v
theories/Proofs/GainSys.v
theories/Proofs/GainTop.v
theories/Proofs/GraphFacts.v
theories/Proofs/GridBase.v
theories/Proofs/GridExamples.v
theories/Proofs/GridProofs.v
theories/Proofs/GridTopo.v
theories/Proofs/HeapExamples.v
theories/Proofs/HeapProofs.v
theories/Proofs/HemExamples.v
theories/Proofs/HemFacts.v
theories/Proofs/HemFinal.v
theories/Proofs/HemHeavy.v
theories/Proofs/HemLocal.v
theories/Proofs/HemRound.v
theories/Proofs/ImportProofs.v
theories/Proofs/InitialCoarsenBase.v
theories/Proofs/InitialCoarsenContract.v
theories/Proofs/InitialCoarsenExamples.v
theories/Proofs/InitialCoarsenMap.v
theories/Proofs/InitialCoarsenTop.v
theories/Proofs/InitialExamples.v
theories/Proofs/InitialFlatProofs.v
theories/Proofs/InitialFlatTop.v
theories/Proofs/InitialFmBase.v
theories/Proofs/InitialFmProofs.v
theories/Proofs/InitialMultilevelProofs.v
theories/Proofs/InitialPoolExamples.v
theories/Proofs/InitialPoolProofs.v
theories/Proofs/InitialWorker.v
theories/Proofs/IoBinBase.v
theories/Proofs/IoBinDeg.v
theories/Proofs/IoBinRound.v
theories/Proofs/IoBinTop.v
theories/Proofs/IoBinWrite.v
theories/Proofs/IoTextBase.v
theories/Proofs/IoTextMetis.v
theories/Proofs/IoTextRound.v
theories/Proofs/IoTextTop.v
theories/Proofs/IsolatedProofs.v
theories/Proofs/JetExamples.v
theories/Proofs/JetProofs.v
theories/Proofs/KahnProofs.v
theories/Proofs/LimitsProofs.v
theories/Proofs/LimitsTop.v
theories/Proofs/LpClusterExamples.v
theories/Proofs/LpClusterProofs.v
theories/Proofs/LpOrderExamples.v
theories/Proofs/LpOrderProofs.v
theories/Proofs/LpRefineExamples.v
theories/Proofs/LpRefineProofs.v
theories/Proofs/MarkerProofs.v
theories/Proofs/MathProofs.v
theories/Proofs/MoveSetFinal.v
theories/Proofs/MoveSetGhosts.v
theories/Proofs/MoveSetGreedy.v
theories/Proofs/MoveSetLocal.v
theories/Proofs/MoveSetMoves.v
theories/Proofs/MoveSetSingles.v
theories/Proofs/PartUtilsProofs.v
theories/Proofs/PermProofs.v
theories/Proofs/PipelineExamples.v
theories/Proofs/PipelineProofs.v
theories/Proofs/QuotientProofs.v
theories/Proofs/RankProofs.v
theories/Proofs/RatingMapExamples.v
theories/Proofs/RatingMapProofs.v
theories/Proofs/RbExamples.v
theories/Proofs/RbProofs.v
theories/Proofs/RearrangeChunks.v
theories/Proofs/RearrangeExamples.v
theories/Proofs/RearrangeFinal.v
theories/Proofs/RearrangeOrder.v
theories/Proofs/RearrangeRank.v
theories/Proofs/RearrangeSystem.v
theories/Proofs/ReduceProofs.v
theories/Proofs/ReplicateAll.v
theories/Proofs/ReplicateBest.v
theories/Proofs/ReplicateExamples.v
theories/Proofs/ReplicateGroups.v
theories/Proofs/ReplicateProofs.v
theories/Proofs/ReplicateTheorems.v
theories/Proofs/SparseGainExamples.v
theories/Proofs/SparseGainIndex.v
theories/Proofs/SparseGainLayout.v
theories/Proofs/SparseGainProofs.v
theories/Proofs/SparseGainTop.v
theories/Proofs/StreamVByte64.v
theories/Proofs/StreamVByteProofs.v
theories/Proofs/StreamVByteTop.v
theories/Proofs/SubgraphBase.v
theories/Proofs/SubgraphFill.v
theories/Proofs/SubgraphLazy.v
theories/Proofs/SubgraphPar.v
theories/Proofs/SubgraphSeq.v
theories/Proofs/UnbufExamples.v
theories/Proofs/UnbufFinish.v
theories/Proofs/UnbufPhase1.v
theories/Proofs/UnbufPhase2.v
theories/Proofs/UnbufProofs.v
theories/Proofs/ValidateProofs.v
theories/Proofs/VarintProofs.v
theories/Proofs/VcycleExamples.v
theories/Proofs/VcycleProofs.v
theories/Proofs/WeightBucketsProofs.v
theories/Properties/P_Allreduce.v
theories/Properties/P_Balancer.v
theories/Properties/P_BlockTree.v
theories/Properties/P_BlockWeights.v
theories/Properties/P_BorderSet.v
theories/Properties/P_ClusterParallel.v
theories/Properties/P_Coloring.v
theories/Properties/P_CompactArray.v
theories/Properties/P_CompactHash.v
theories/Properties/P_Compress.v
theories/Properties/P_CompressPar.v
theories/Properties/P_Context.v
theories/Properties/P_Contract.v
theories/Properties/P_Csr.v
theories/Properties/P_Deep.v
theories/Properties/P_Delta.v
theories/Properties/P_DistBalancer.v
theories/Properties/P_DistDeep.v
theories/Properties/P_DistExtract.v
theories/Properties/P_DistGraph.v
theories/Properties/P_DistJet.v
theories/Properties/P_DistLimits.v
theories/Properties/P_DistLp.v
theories/Properties/P_DistMetrics.v
theories/Properties/P_DistParallel.v
theories/Properties/P_Extend.v
theories/Properties/P_Facade.v
theories/Properties/P_Fm.v
theories/Properties/P_FmRound.v
theories/Properties/P_Gain.v
theories/Properties/P_Grid.v
theories/Properties/P_Heap.v
theories/Properties/P_Hem.v
theories/Properties/P_InitialCoarsen.v
theories/Properties/P_InitialFlat.v
theories/Properties/P_InitialFm.v
theories/Properties/P_InitialMultilevel.v
theories/Properties/P_InitialPool.v
theories/Properties/P_Io.v
theories/Properties/P_IoBin.v
theories/Properties/P_Jet.v
theories/Properties/P_Limits.v
theories/Properties/P_LpCluster.v
theories/Properties/P_LpOrder.v
theories/Properties/P_LpRefine.v
theories/Properties/P_Marker.v
theories/Properties/P_Math.v
theories/Properties/P_MoveSets.v
theories/Properties/P_Pipeline.v
theories/Properties/P_Rank.v
theories/Properties/P_RatingMap.v
theories/Properties/P_Rb.v
theories/Properties/P_Rearrange.v
theories/Properties/P_Replicate.v
theories/Properties/P_SparseGain.v
theories/Properties/P_StreamVByte.v
theories/Properties/P_Subgraph.v
theories/Properties/P_Unbuf.v
theories/Properties/P_Validate.v
theories/Properties/P_Varint.v
theories/Properties/P_Vcycle.v
theories/Properties/P_WeightBuckets.v
theories/Spec/AllreduceSpec.v
theories/Spec/BinBuild.v
theories/Spec/BinFormat.v
theories/Spec/BitVec.v
theories/Spec/BlockTree.v
theories/Spec/BorderSetSpec.v
theories/Spec/ByteCodec.v
theories/Spec/ColoringSpec.v
theories/Spec/Compress.v
theories/Spec/CompressInput.v
theories/Spec/CountMap.v
theories/Spec/DistBalancerSpec.v
theories/Spec/DistDeepSpec.v
theories/Spec/DistExtractSpec.v
theories/Spec/DistGraphSpec.v
theories/Spec/DistJetSpec.v
theories/Spec/DistLimitsSpec.v
theories/Spec/DistParallelSpec.v
theories/Spec/ExtendSpec.v
theories/Spec/FmSpec.v
theories/Spec/Gain.v
theories/Spec/Graph.v
theories/Spec/HemSpec.v
theories/Spec/Induced.v
theories/Spec/InitialCoarsenSpec.v
theories/Spec/InitialMultilevelSpec.v
theories/Spec/InitialPoolSpec.v
theories/Spec/InitialSpec.v
theories/Spec/IoBuild.v
theories/Spec/KeyedList.v
theories/Spec/Level.v
theories/Spec/LimitsSpec.v
theories/Spec/LocalView.v
theories/Spec/LpOrderSpec.v
theories/Spec/LpRefineSpec.v
theories/Spec/LpSpec.v
theories/Spec/MarkSet.v
theories/Spec/MoveSetSpec.v
theories/Spec/Ownership.v
theories/Spec/PipelineSpec.v
theories/Spec/PrioQueue.v
theories/Spec/Quotient.v
theories/Spec/RatingMap.v
theories/Spec/RbSpec.v
theories/Spec/RearrangeSpec.v
theories/Spec/ReplicateSpec.v
theories/Spec/Schedules.v
theories/Spec/SparseGainSpec.v
theories/Spec/Symmetric.v
theories/Spec/TextFormat.v
theories/Spec/VcycleSpec.v
theories/Spec/WeightBucketsSpec.v
