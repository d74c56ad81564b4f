-Q theories Verif
theories/Config.v
theories/Api.v
theories/Page.v
theories/Machine.v
theories/Tree.v
theories/Scan.v
theories/Bulk.v
theories/Spec.v
theories/Conc.v
theories/ListFacts.v
theories/SearchFacts.v
theories/ChainSpec.v
theories/ChainFacts.v
theories/ConsFacts.v
theories/Valid.v
theories/ConsolidateFacts.v
theories/ChainProps.v
theories/PropChain.v
theories/RunFacts.v
theories/SeqSpec.v
theories/LevelFacts.v
theories/SeqSearch.v
theories/SeqAux.v
theories/SeqSmo.v
theories/SeqOps.v
theories/SeqProps.v
theories/PropSeq.v
theories/MapTable.v
theories/MapTableFacts.v
theories/MapTableProps.v
theories/PropMap.v
theories/Bytes.v
theories/FixLayout.v
theories/VarLayout.v
theories/Misc.v
theories/LayoutSpec.v
theories/LayoutFacts.v
theories/PropLayout.v
theories/Race.v
theories/TreeRef.v
theories/PropTree.v
theories/ScanSpec.v
theories/SeqScan.v
theories/PropScan.v
theories/BulkFacts.v
theories/PropBulk.v
theories/ConcSpec.v
theories/ConcChain.v
theories/ConcInv.v
theories/ConcSteps.v
theories/ConcSearch.v
theories/ConcSmo.v
theories/ConcOps.v
theories/ConcMain.v
theories/CountFacts.v
theories/WinFacts.v
theories/StatSpec.v
theories/PageFacts.v
theories/StatFacts.v
theories/PropStat.v
theories/GcFacts.v
theories/PropConc.v
theories/EpochSpec.v
theories/EpochFacts.v
theories/PropEpoch.v
theories/Client.v
theories/ClientSpec.v
theories/ClientFacts.v
theories/PropClient.v
theories/LiveFacts.v
theories/PropLive.v
theories/Weak.v
theories/WeakFacts.v
theories/WeakInit.v
theories/PropWeak.v
theories/KeyBuf.v
theories/KeyBufFacts.v
theories/ByteSearch.v
theories/ByteFacts.v
theories/PropKeys.v
theories/WidthFacts.v
theories/PropWidth.v
theories/HistSpec.v
theories/HistFacts.v
theories/PropHist.v
theories/MrgSpec.v
theories/MrgInv.v
theories/MrgSteps.v
theories/MrgSearch.v
theories/MrgSmo.v
theories/MrgOps.v
theories/MrgStart.v
theories/FuelFacts.v
theories/MrgMain.v
theories/MrgClient.v
theories/PropMerge.v
theories/PropFuel.v
theories/BulkPar.v
theories/BulkSpec.v
theories/ConcStart.v
theories/BulkConc.v
theories/BulkGc.v
theories/PropLoad.v
theories/StatRace.v
theories/PropStatConc.v
theories/ShapeSpec.v
theories/MrgShape.v
theories/PropShape.v
theories/DeltaBytes.v
theories/DeltaBytesFacts.v
theories/ByteCons.v
theories/ByteConsSpec.v
theories/ByteConsFacts.v
theories/ByteConsFix.v
theories/ByteConsChain.v
theories/PropBytes.v
theories/ByteFind.v
theories/ByteFindSpec.v
theories/ByteFindFacts.v
theories/ByteFindRep.v
theories/ByteFindEx.v
theories/PropFind.v
theories/KEpochSpec.v
theories/KGcFacts.v
theories/PropKEpoch.v
theories/ByteTree.v
theories/ByteTreeSpec.v
theories/ByteTreeRel.v
theories/ByteTreeSim.v
theories/ByteTreeInst.v
theories/ByteTreeMain.v
theories/ByteTreeConc.v
theories/PropByteTree.v
theories/ByteScan.v
theories/ByteScanSpec.v
theories/ByteScanSim.v
theories/ByteScanConc.v
theories/PropByteScan.v
theories/ByteBulk.v
theories/ByteBulkSim.v
theories/ByteRoom.v
theories/ByteBulkMain.v
theories/PropByteBulk.v
theories/ByteMrgSpec.v
theories/ByteMrg.v
theories/ByteMrgMain.v
theories/PropByteMrg.v
theories/AddrFacts.v
theories/ByteSeq.v
theories/ByteSeqSpec.v
theories/ByteSeqMain.v
theories/PropByteSeq.v
theories/ByteLifeSpec.v
theories/ByteLifeMain.v
theories/PropByteLife.v
theories/Reuse.v
theories/ReuseSpec.v
theories/ReuseFacts.v
theories/PropReuse.v
theories/Serve.v
theories/ServeFacts.v
theories/SeqCursor.v
theories/ServeMain.v
theories/PropServe.v
theories/ByteServe.v
theories/ByteServeMain.v
theories/PropByteServe.v
theories/BulkFit.v
theories/PropBulkFit.v
theories/EndVar.v
theories/EndVarSpec.v
theories/EndVarFacts.v
theories/PropEndVar.v
theories/KeyBufScan.v
theories/KeyBufScanFacts.v
theories/PropKeyScan.v
theories/Reassign.v
theories/ReassignSpec.v
theories/ReassignFacts.v
theories/PropReassign.v
theories/LifeGc.v
theories/PropLifeGc.v
