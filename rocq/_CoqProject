-Q theories Verif
theories/Base.v
theories/PrimeModel.v
theories/PrimeSpec.v
theories/PrimeProofs.v
theories/StackModel.v
theories/StackSpec.v
theories/StackProofs.v
theories/ProbeProofs.v
theories/HashTableModel.v
theories/HashTableSpec.v
theories/HashTableProofs.v
theories/PropsUtil.v
theories/HashConsModel.v
theories/HashConsSpec.v
theories/HashConsProofs.v
theories/HashConsSetProofs.v
theories/PropsHashCons.v
theories/SccModel.v
theories/SccSpec.v
theories/SccProofs.v
theories/SccCompProofs.v
theories/SccGraphProofs.v
theories/PropsScc.v
theories/CollModel.v
theories/CollSpec.v
theories/CollProofs.v
theories/PropsColl.v
theories/AttrModel.v
theories/AttrSpec.v
theories/AttrProofs.v
theories/AttrEvalProofs.v
theories/AttrHistProofs.v
theories/AttrCircProofs.v
theories/AttrBoundProofs.v
theories/AttrStartProofs.v
theories/AttrCollProofs.v
theories/PropsAttr.v
theories/TableModel.v
theories/TableSpec.v
theories/TableProofs.v
theories/PropsTable.v
theories/AllocModel.v
theories/AllocSpec.v
theories/AllocProofs.v
theories/PropsAlloc.v
theories/SymbolModel.v
theories/SymbolProofs.v
theories/PropsSymbol.v
theories/RopeModel.v
theories/RopeSpec.v
theories/PropsRope.v
theories/AlistModel.v
theories/PropsAlist.v
theories/CondModel.v
theories/PropsCond.v
theories/EdgeModel.v
theories/EdgeProofs.v
theories/EdgeAddProofs.v
theories/DncModel.v
theories/EdgeGraph.v
theories/EdgeSem.v
theories/EdgeWorld.v
theories/PropsEdge.v
theories/SummaryProofs.v
theories/CloseProofs.v
theories/PropsClose.v
theories/DncProofs.v
theories/PropsDnc.v
theories/PropsTree.v
theories/CycleModel.v
theories/UnionFind.v
theories/CycleSpec.v
theories/CycleProofs.v
theories/PropsCycle.v
theories/OagModel.v
theories/PropsOag.v
theories/PropsCto.v
theories/ComponentModel.v
theories/PropsComponent.v
theories/UpDownModel.v
theories/UpDownProofs.v
theories/UpDownAugProofs.v
theories/UpDownStateProofs.v
theories/UpDownStateProofs2.v
theories/PropsUpDown.v
theories/FiberModel.v
theories/FiberSpec.v
theories/FiberProofs.v
theories/FiberDfaProofs.v
theories/PropsFiber.v
theories/PhaseModel.v
theories/PhaseSpec.v
theories/PhaseProofs.v
theories/PhaseCircProofs.v
theories/PropsPhase.v
theories/ChunkModel.v
theories/OrderModel.v
theories/SchedSpec.v
theories/ChunkProofs.v
theories/PropsChunk.v
theories/SchedProofs.v
theories/SchedOrder.v
theories/SchedTree.v
theories/SchedSane.v
theories/PropsSched.v
theories/PropsSched2.v
theories/PropsSched3.v
theories/PropsCheck.v
theories/CanonModel.v
theories/CanonSpec.v
theories/CanonProofs.v
theories/CanonOrderProofs.v
theories/PropsCanon.v
theories/BindModel.v
theories/BindSpec.v
theories/BindProofs.v
theories/BindUseProofs.v
theories/BindDupProofs.v
theories/NextModel.v
theories/NextSpec.v
theories/NextProofs.v
theories/PropsBind.v
theories/PropsNext.v
theories/GenModel.v
theories/GenSpec.v
theories/GenProofs.v
theories/GenTrace.v
theories/GenSched.v
theories/GenRun.v
theories/GenText.v
theories/SchedFuel.v
theories/GenLoop.v
theories/GenCirc.v
theories/GenScope.v
theories/PropsGen.v
theories/PropsGen2.v
theories/PropsGen3.v
theories/ScModel.v
theories/ScAbs.v
theories/ScWf.v
theories/ScRep.v
theories/ScSafe.v
theories/ScSpec.v
theories/ScHist.v
theories/ScFix.v
theories/ScPlain.v
theories/ScUse.v
theories/PropsScala.v
theories/SlSpec.v
theories/SlModel.v
theories/SlNum.v
theories/SlColl.v
theories/SlLat.v
theories/SlTable.v
theories/PropsSlib.v
theories/DyModel.v
theories/DySpec.v
theories/DyText.v
theories/DyRun.v
theories/DyFunc.v
theories/PropsDyn.v
theories/SnModel.v
theories/SnSpec.v
theories/SnProofs.v
theories/SnAttr.v
theories/PropsNodes.v
theories/StModel.v
theories/StSpec.v
theories/StProofs.v
theories/StProofs2.v
theories/StProofs3.v
theories/StDispatch.v
theories/StCheck.v
theories/StLink.v
theories/PropsStatic.v
theories/GbModel.v
theories/GbSpec.v
theories/GbInst.v
theories/GbCond.v
theories/GbFlow.v
theories/GbExact.v
theories/GbGraph.v
theories/PropsBuild.v
theories/PropsBuildEx.v
theories/GbFibSpec.v
theories/GbFib.v
theories/PropsBuildFib.v
theories/TyModel.v
theories/TySpec.v
theories/TyEq.v
theories/TySound.v
theories/TyComplete.v
theories/TyNoAlarm.v
theories/TyCrash.v
theories/PropsTypes.v
theories/PmModel.v
theories/PmSpec.v
theories/PmScala.v
theories/PmScalaSem.v
theories/PmCpp.v
theories/PmLegal.v
theories/PmExpr.v
theories/PropsPatterns.v
theories/LxModel.v
theories/LxSpec.v
theories/LxGen.v
theories/LxTok.v
theories/LxLines.v
theories/PropsScanner.v
theories/RdModel.v
theories/RdSpec.v
theories/RdProofs.v
theories/RdBind.v
theories/PropsReading.v
theories/OaModel.v
theories/OaProofs.v
theories/PropsOagRun.v
theories/PropsConst.v
theories/PropsEvalRun.v
theories/AnModel.v
theories/PropsAnalyze.v
theories/InitModel.v
theories/InitProofs.v
theories/PropsInit.v
theories/OrdModel.v
theories/PropsOrd.v
theories/PropsFlag.v
theories/PropsPlan.v
