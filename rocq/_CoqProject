-Q theories Verif
theories/AggFun.v
theories/AggProof.v
theories/AggSpec.v
theories/Assumptions.v
theories/Bits.v
theories/Conc.v
theories/ConcProof.v
theories/ConcRun.v
theories/ConcSeq.v
theories/ConcSet.v
theories/ConcSetProof.v
theories/ConcSetSim.v
theories/ConcSetSpec.v
theories/ConcSim.v
theories/ConcTable.v
theories/ConcTableProof.v
theories/ConcTableSim.v
theories/ConcTableSpec.v
theories/ConcWait.v
theories/ConcWait2.v
theories/ConcWeak.v
theories/ConcWeakProof.v
theories/ConcYield.v
theories/Cost.v
theories/DiffChar.v
theories/DiffOrder.v
theories/DiffProof.v
theories/DiffSpec.v
theories/ExCb.v
theories/ExConc.v
theories/ExCost3.v
theories/ExHeap.v
theories/ExSame.v
theories/ExSet.v
theories/ExSet2.v
theories/ExTable.v
theories/ExV6.v
theories/ExWait.v
theories/FindProof.v
theories/Heap.v
theories/HeapCb.v
theories/HeapCbMap.v
theories/HeapCbProof.v
theories/HeapCbPure.v
theories/HeapCost.v
theories/HeapCost2.v
theories/HeapLogic.v
theories/HeapOwn.v
theories/HeapProof.v
theories/HeapProof2.v
theories/HeapSet.v
theories/HeapShare.v
theories/HeapShare2.v
theories/Hist.v
theories/Ip.v
theories/Key.v
theories/KeyMore.v
theories/Net.v
theories/NetProof.v
theories/PropsAgg.v
theories/PropsAgg2.v
theories/PropsCb.v
theories/PropsConc.v
theories/PropsCost.v
theories/PropsCost2.v
theories/PropsCost3.v
theories/PropsDiff.v
theories/PropsHeap.v
theories/PropsIp.v
theories/PropsMem.v
theories/PropsSame.v
theories/PropsSame2.v
theories/PropsSet.v
theories/PropsSet2.v
theories/PropsTable.v
theories/PropsText.v
theories/PropsV6.v
theories/PropsV6b.v
theories/PropsValues.v
theories/PropsWait.v
theories/PropsWeak.v
theories/RangeProof.v
theories/SetAbsorb.v
theories/SetApi.v
theories/SetApi6.v
theories/SetDel.v
theories/SetMore.v
theories/SetNode.v
theories/SetNode6.v
theories/SetProof.v
theories/SetProv.v
theories/SetSpec.v
theories/SetThm.v
theories/SetThm2.v
theories/SetThm3.v
theories/Sim6.v
theories/SimDel6.v
theories/SimSet6.v
theories/SimTable6.v
theories/Spec.v
theories/Table.v
theories/Table6.v
theories/TableProof.v
theories/TableSpec.v
theories/TableThm.v
theories/Text.v
theories/TextCanon.v
theories/TextGram.v
theories/TextParse.v
theories/TextProof.v
theories/TextProof6.v
theories/TextSpec.v
theories/Trie.v
theories/Trie6.v
theories/TrieOps.v
theories/U128.v
theories/U128Proof.v
theories/V6.v
theories/V6Hist.v
theories/V6Proof.v
theories/V6Refine.v
theories/ValProof.v
theories/ValSpec.v
theories/Values.v
theories/WF.v
theories/Word.v
