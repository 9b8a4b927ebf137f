-Q theories Verif
theories/Lib.v
theories/SpecRel.v
theories/M_UnionFind.v
theories/P_UnionFind.v
theories/Prop_UnionFind.v
theories/M_ParUnionFind.v
theories/P_ParUnionFind.v
theories/Prop_ParUnionFind.v
theories/SpecPQ.v
theories/P_SpecPQ.v
theories/M_Heap.v
theories/P_Heap.v
theories/Prop_Heap.v
theories/M_BucketPQ.v
theories/P_BucketPQ.v
theories/SpecPQOrder.v
theories/P_BucketOrder.v
theories/Prop_BucketPQ.v
theories/M_Graph.v
theories/SpecBuild.v
theories/P_Graph.v
theories/SpecDegree.v
theories/P_Degree.v
theories/Prop_Graph.v
theories/SpecCut.v
theories/P_Cut.v
theories/M_Contract.v
theories/P_Contract.v
theories/Prop_Contract.v
theories/M_CutHelpers.v
theories/M_Noi.v
theories/SpecHier.v
theories/P_Hier.v
theories/P_Capforest.v
theories/P_Noi.v
theories/P_HeapW.v
theories/P_CapforestW.v
theories/P_NoiAny.v
theories/Prop_Noi.v
theories/P_Check.v
theories/SpecPR.v
theories/M_PRTests.v
theories/P_PR.v
theories/P_PRTests.v
theories/Prop_PRTests.v
theories/SpecCluster.v
theories/M_Cluster.v
theories/P_Cluster.v
theories/Prop_Cluster.v
theories/M_Heur.v
theories/P_Heur.v
theories/Prop_Heur.v
theories/SpecMutable.v
theories/M_Mutable.v
theories/P_Mutable.v
theories/P_Mutable2.v
theories/P_Mutable3.v
theories/P_Mutable4.v
theories/P_Mutable5.v
theories/P_Mutable6.v
theories/P_Mutable7.v
theories/P_Mutable8.v
theories/Prop_Mutable.v
theories/M_MutableIO.v
theories/P_MutableIO.v
theories/P_MutableIO2.v
theories/Prop_MutableIO.v
theories/SpecMulti.v
theories/P_Multi.v
theories/M_Kernel.v
theories/P_Kernel.v
theories/P_Kernel2.v
theories/P_KernelC.v
theories/P_Kernel3.v
theories/P_Kernel4.v
theories/P_Kernel5.v
theories/P_MultiCheck.v
theories/Prop_Kernel.v
theories/M_Branch.v
theories/P_ContractStd.v
theories/P_Branch.v
theories/P_Branch2.v
theories/P_Branch3.v
theories/Prop_Branch.v
theories/LibZ.v
theories/SpecFlow.v
theories/M_PushRelabel.v
theories/P_Flow.v
theories/P_Flow2.v
theories/P_Flow3.v
theories/P_Bfs.v
theories/P_Flow4.v
theories/P_Flow5.v
theories/P_Flow6.v
theories/P_FlowStore.v
theories/Prop_Flow.v
theories/P_Iso.v
theories/M_IsoFlow.v
theories/P_IsoFlow.v
theories/P_IsoFlow2.v
theories/P_IsoFlow3.v
theories/P_IsoFlow4.v
theories/Prop_Iso.v
theories/M_Shuffle.v
theories/Prop_Shuffle.v
theories/SpecHop.v
theories/M_BfsDist.v
theories/P_BfsDist.v
theories/M_GraphAlg.v
theories/P_GraphAlg.v
theories/Prop_BfsDist.v
theories/Prop_GraphAlg.v
theories/M_Scc.v
theories/P_Scc.v
theories/SpecInduced.v
theories/Prop_Scc.v
theories/SpecCore.v
theories/M_Core.v
theories/P_Core.v
theories/P_Core2.v
theories/M_CoreGraph.v
theories/Prop_Core.v
theories/M_Queue.v
theories/P_Queue.v
theories/P_Queue2.v
theories/Prop_Queue.v
theories/M_AllCut.v
theories/P_AllCut.v
theories/P_AllCut2.v
theories/Prop_AllCut.v
theories/M_Split.v
theories/P_Split.v
theories/P_Split2.v
theories/P_Split3.v
theories/P_Split4.v
theories/Prop_Split.v
theories/M_GraphIO.v
theories/SpecMetis.v
theories/P_GraphIO.v
theories/Prop_GraphIO.v
theories/M_Dynamic.v
theories/SpecDyn.v
theories/P_Dynamic.v
theories/P_Dynamic2.v
theories/P_Dynamic3.v
theories/P_Dynamic4.v
theories/P_Dynamic5.v
theories/Prop_Dynamic.v
theories/M_ParCapforest.v
theories/P_ParCapforest.v
theories/P_ParCapforest2.v
theories/P_ParCapforest3.v
theories/Prop_ParCapforest.v
theories/M_ParExact.v
theories/P_ParExact.v
theories/Prop_ParExact.v
theories/M_EqNeigh.v
theories/P_EqNeigh.v
theories/Prop_EqNeigh.v
theories/SpecArtic.v
theories/M_Artic.v
theories/P_Artic.v
theories/P_Artic2.v
theories/P_Artic3.v
theories/P_Artic4.v
theories/Prop_Artic.v
theories/M_LocalSearch.v
theories/P_LocalSearch.v
theories/P_LocalSearch2.v
theories/P_LocalSearch3.v
theories/Prop_LocalSearch.v
theories/SpecCactus.v
theories/M_Balanced.v
theories/P_Balanced.v
theories/P_Balanced2.v
theories/P_Balanced3.v
theories/P_Balanced4.v
theories/Prop_Balanced.v
theories/M_AllMincuts.v
theories/P_AllMincuts.v
theories/P_AllMincuts2.v
theories/Prop_AllMincuts.v
theories/M_ParPR.v
theories/P_ParPR.v
theories/Prop_ParPR.v
theories/M_Bnb.v
theories/P_Bnb.v
theories/P_Bnb2.v
theories/P_Bnb3.v
theories/Prop_Bnb.v
theories/M_BestSol.v
theories/P_BestSol.v
theories/Prop_BestSol.v
theories/M_StCactus.v
theories/P_Crossing.v
theories/P_StCactus.v
theories/P_StCactus2.v
theories/P_StCactus3.v
theories/P_StCactus4.v
theories/P_StCactus5.v
theories/P_StCactus6.v
theories/P_StCactus7.v
theories/P_StCactus8.v
theories/P_StCactus9.v
theories/P_StCactus10.v
theories/Prop_StCactus.v
theories/M_LimFlow.v
theories/P_LimFlow.v
theories/P_LimFlow2.v
theories/Prop_LimFlow.v
theories/P_FlowChain.v
theories/M_Rebuild.v
theories/P_Rebuild.v
theories/P_Rebuild2.v
theories/Prop_Rebuild.v
theories/M_Merge.v
theories/M_HeavyEdges.v
theories/M_Recursive.v
theories/Prop_Recursive.v
theories/P_Merge.v
theories/P_Merge2.v
theories/P_Merge3.v
theories/P_ContractStd2.v
theories/P_Merge4.v
theories/P_Merge5.v
theories/P_Merge6.v
theories/P_Merge7.v
theories/P_Recursive.v
theories/P_Recursive2.v
theories/P_Recursive3.v
theories/P_Recursive4.v
theories/P_ContractSet2.v
theories/Prop_Merge.v
theories/P_Recursive5.v
theories/P_Recursive6.v
theories/P_Recursive7.v
theories/P_Recursive8.v
theories/Prop_Recursive2.v
theories/P_Leaf.v
theories/P_Recursive9.v
theories/P_Recursive10.v
theories/Prop_Leaf.v
theories/P_Heavy.v
theories/P_Heavy2.v
theories/P_Heavy3.v
theories/P_Heavy4.v
theories/Prop_Heavy.v
theories/M_Clique.v
theories/P_Clique.v
theories/P_Clique2.v
theories/P_Clique3.v
theories/Prop_Clique.v
theories/M_ParContract.v
theories/P_ParContract.v
theories/P_ParContract2.v
theories/P_ParContract3.v
theories/P_ParContract4.v
theories/P_ParContract5.v
theories/P_ParContract6.v
theories/Prop_ParContract.v
theories/M_ParCluster.v
theories/P_ParCluster.v
theories/Prop_ParCluster.v
theories/M_Sparsify.v
theories/P_Sparsify.v
theories/P_Sparsify2.v
theories/Prop_Sparsify.v
theories/M_MapPQ.v
theories/Prop_MapPQ.v
theories/M_FlowGraph.v
theories/Prop_FlowGraph.v
theories/M_OneKs.v
theories/P_OneKs.v
theories/Prop_OneKs.v
theories/M_MakeWeighted.v
theories/Prop_MakeWeighted.v
theories/M_Torus.v
theories/Prop_Torus.v
theories/M_TempCC.v
theories/Prop_TempCC.v
