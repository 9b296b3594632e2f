-Q theories Verif
theories/Word.v
theories/Af.v
theories/BitSpan.v
theories/Spec.v
theories/Maps.v
theories/ChtMath.v
theories/Cht.v
theories/Node.v
theories/Tree.v
theories/ChainProofs.v
theories/TreeProofs.v
theories/NodeProofs.v
theories/Loop.v
theories/Iter.v
theories/IterProofs.v
theories/MultiMap.v
theories/PrefixCht.v
theories/PrefixChtProofs.v
theories/Lsm.v
theories/LsmProofs.v
theories/RecordSet.v
theories/Rib.v
theories/StarCast.v
theories/HistSpec.v
theories/Ask.v
theories/PropSpec.v
theories/RibProofs.v
theories/RibLsm.v
theories/RibOk.v
theories/Queries.v
theories/Queries2.v
theories/Disk.v
theories/MuiWalk.v
theories/Facts1.v
theories/Facts2.v
theories/Facts3.v
theories/Facts4.v
theories/Facts5.v
theories/Facts6.v
theories/Examples.v
theories/Refute.v
theories/PropAddr.v
theories/PropQuery.v
theories/PropRecords.v
theories/PropPath.v
theories/PropDisk.v
theories/Conc.v
theories/ConcOnce.v
theories/ConcMarks.v
theories/ConcTree.v
theories/ConcTreeProofs.v
theories/ConcTreeInv.v
theories/ConcTreeStep.v
theories/ConcTreeEnd.v
theories/ConcStore.v
theories/ConcTreeSeen.v
theories/ConcTable.v
theories/ConcStoreInv.v
theories/ConcStoreStep.v
theories/ConcInsert.v
theories/ConcCalls.v
theories/ConcSpec.v
theories/ConcFacts.v
theories/ConcMore.v
theories/ConcDemo.v
theories/ConcRefute.v
theories/PropConc.v
theories/ConcCount.v
theories/ConcNodes.v
theories/ConcRetry.v
theories/ConcSelect.v
theories/ConcOnly.v
theories/ConcLen.v
theories/ConcSerial.v
theories/ConcRefute2.v
theories/PropConc2.v
theories/ConcScan.v
theories/ConcScanProofs.v
theories/ConcScanSpec.v
theories/ConcScanFacts.v
theories/ConcScanDemo.v
theories/PropScan.v
theories/Durable.v
theories/DurableSpec.v
theories/DurableFacts.v
theories/DurableDemo.v
theories/PropDurable.v
theories/SameSpec.v
theories/SameProofs.v
theories/ConcRbm.v
theories/ConcQuiet.v
theories/ConcRefute3.v
theories/PropQuiet.v
theories/AloneSpec.v
theories/ConcAlone.v
theories/ConcSolo.v
theories/ConcStill.v
theories/PropAlone.v
theories/ConcWhole.v
theories/WholeSpec.v
theories/ConcWholeSim.v
theories/ConcWholeFacts.v
theories/ConcWholeRead.v
theories/ConcWholeDemo.v
theories/PropWhole.v
theories/ConcQuery.v
theories/QuerySpec.v
theories/ConcQueryProofs.v
theories/ConcQueryInv.v
theories/ConcEachInv.v
theories/ConcQueryFacts.v
theories/ConcQueryAlone.v
theories/ConcQueryEnds.v
theories/ConcQueryDemo.v
theories/PropConcQuery.v
theories/WeakOnce.v
theories/WeakRace.v
theories/WeakDemo.v
theories/WeakOnceInv.v
theories/WeakOnceFacts.v
theories/WeakOnceEnds.v
theories/WeakDrop.v
theories/WeakDropFacts.v
theories/PropWeak.v
theories/ConcLock.v
theories/PropLock.v
theories/WeakPtr.v
theories/WeakPtrRace.v
theories/WeakPtrDemo.v
theories/WeakPtrInv.v
theories/WeakPtrFacts.v
theories/WeakPtrRun.v
theories/WeakPtrHeap.v
theories/WeakPtrHeapFacts.v
theories/PropWeakPtr.v
theories/WeakTree.v
theories/WeakTreeView.v
theories/WeakTreeStep.v
theories/WeakTreeInv.v
theories/WeakTreeFacts.v
theories/WeakTreeRun.v
theories/PropWeakTree.v
theories/WeakTable.v
theories/WeakTableView.v
theories/WeakTableInv.v
theories/WeakTableFacts.v
theories/WeakTableRun.v
theories/PropWeakTable.v
theories/WeakScan.v
theories/WeakScanFacts.v
theories/WeakScanRun.v
theories/PropWeakScan.v
theories/WeakStore.v
theories/WeakStoreInv.v
theories/WeakStoreFacts.v
theories/WeakStoreEnds.v
theories/WeakStoreRun.v
theories/PropWeakStore.v
theories/WeakMatch.v
theories/WeakMatchInv.v
theories/WeakMatchFacts.v
theories/WeakMatchEnds.v
theories/WeakMatchReturns.v
theories/WeakMatchRun.v
theories/WeakMatchMarks.v
theories/WeakCount.v
theories/WeakCountFacts.v
theories/WeakCountRun.v
theories/PropWeakMatch.v
theories/PropWeakCount.v
theories/Public.v
theories/PublicFacts.v
theories/PropPublic.v
theories/PublicConc.v
theories/PropPublicConc.v
theories/PublicWeak.v
theories/PropPublicWeak.v
