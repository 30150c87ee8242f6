-Q theories Verif
theories/Base.v
theories/BaseLemmas.v
theories/NetSpec.v
theories/NetModel.v
theories/NetProofs.v
theories/BuilderModel.v
theories/BuilderSpec.v
theories/BuilderProofs.v
theories/BuilderCalls.v
theories/BuilderMain.v
theories/NetExamples.v
theories/PropertiesNet.v
theories/EncoderModel.v
theories/EncoderProofs.v
theories/EncoderMain.v
theories/StoreModel.v
theories/StoreSpec.v
theories/StoreProofs.v
theories/PropertiesStore.v
theories/SearchModel.v
theories/SearchSpec.v
theories/QueueModel.v
theories/QueueProofs.v
theories/SearchProofs.v
theories/SearchMain.v
theories/SearchExamples.v
theories/PropertiesSearch.v
theories/PqlSyntax.v
theories/PqlSpec.v
theories/PqlModel.v
theories/PqlProofs.v
theories/PqlPush.v
theories/PushRules.v
theories/PushProofs.v
theories/PqlRuns.v
theories/PropertiesPql.v
theories/QueryModel.v
theories/QuerySpec.v
theories/QueryProofs.v
theories/QueryClass.v
theories/QueryLoops.v
theories/PropertiesQuery.v
theories/ReplaySpec.v
theories/ReplayModel.v
theories/ReplayProofs.v
theories/PropertiesReplay.v
theories/DequeSpec.v
theories/DequeModel.v
theories/DequeProofs.v
theories/PropertiesDeque.v
theories/BucketModel.v
theories/BucketProofs.v
theories/PropertiesBucket.v
theories/DgSpec.v
theories/DgModel.v
theories/DgInv.v
theories/DgOps.v
theories/DgSteps.v
theories/DgAssign.v
theories/DgExplore.v
theories/DgFresh.v
theories/DgNew.v
theories/DgRun.v
theories/DgSearch.v
theories/PropertiesDg.v
theories/CtlModel.v
theories/CtlProofs.v
theories/CtlSol.v
theories/CtlLev.v
theories/CtlSem.v
theories/CtlNet.v
theories/CtlFrag.v
theories/CtlMain.v
theories/PropertiesCtl.v
theories/BinSpec.v
theories/BinModel.v
theories/BinProofs.v
theories/BinFile.v
theories/PropertiesBin.v
theories/LpSpec.v
theories/SimpSpec.v
theories/MemberModel.v
theories/LpModel.v
theories/LpProofs.v
theories/LpSat.v
theories/MemberProofs.v
theories/LpBase.v
theories/SimpModel.v
theories/SimpProofs.v
theories/SimpLeaf.v
theories/SimpMain.v
theories/SimpTop.v
theories/PropertiesSimp.v
theories/RangeSpec.v
theories/RangeModel.v
theories/RangeProofs.v
theories/AntiModel.v
theories/AntiProofs.v
theories/PropertiesTar.v
theories/StubModel.v
theories/StubSpec.v
theories/StubTheory.v
theories/StubProofs.v
theories/StubMain.v
theories/StubSearch.v
theories/StubExamples.v
theories/PropertiesStub.v
theories/RedTheory.v
theories/RedSpec.v
theories/RedModel.v
theories/RedModelH.v
theories/RedModelR.v
theories/RedCand.v
theories/RedProofs.v
theories/RedNet.v
theories/RedRules.v
theories/RedRuleJ.v
theories/RedAgg.v
theories/RedOps.v
theories/RedRuleA.v
theories/RedRuleFNO.v
theories/RedMain.v
theories/RedExamples.v
theories/PropertiesRed.v
theories/RedRuleE.v
theories/RedRuleD.v
theories/RedRuleC.v
theories/RedRuleI.v
theories/RedRuleH.v
theories/RedFuse.v
theories/RedNew.v
theories/RedRuleR.v
theories/RedExamplesR.v
theories/PropertiesRedR.v
theories/RedModelB.v
theories/RedMerge.v
theories/RedRuleB.v
theories/RedExamplesB.v
theories/PropertiesRedB.v
theories/RedModelS.v
theories/RedLazy.v
theories/RedSpecS.v
theories/RedRuleS.v
theories/RedExamplesS.v
theories/PropertiesRedS.v
theories/RedCandN.v
theories/RedMainN.v
theories/RedExamplesN.v
theories/PropertiesRedN.v
theories/StModel.v
theories/StSpec.v
theories/StProofs.v
theories/PropertiesSt.v
theories/LocModel.v
theories/LocInv.v
theories/LocProofs.v
theories/PropertiesLoc.v
theories/LtlSpec.v
theories/LtlModel.v
theories/LtlProd.v
theories/LtlGraph.v
theories/LtlNdfs.v
theories/LtlRuns.v
theories/LtlTarjanCore.v
theories/LtlTarjan.v
theories/LtlMain.v
theories/LtlIds.v
theories/LtlIdsProofs.v
theories/LtlQuerySpec.v
theories/LtlQueryModel.v
theories/LtlQueryProofs.v
theories/LtlQueryExamples.v
theories/PropertiesLtl.v
theories/ColSyntax.v
theories/ColSpec.v
theories/ColModel.v
theories/ColRadix.v
theories/ColEval.v
theories/ColGen.v
theories/ColCorr.v
theories/ColUnfold.v
theories/ColMain.v
theories/ColFinal.v
theories/ColExamples.v
theories/ColNames.v
theories/ColNamesProofs.v
theories/ColTuple.v
theories/PropertiesCol.v
theories/SynSpec.v
theories/SynModel.v
theories/SynGen.v
theories/SynGame.v
theories/SynTab.v
theories/SynInv.v
theories/SynRun.v
theories/SynMain.v
theories/SynTerm.v
theories/SynExamples.v
theories/PropertiesSyn.v
theories/XpModel.v
theories/XpSpec.v
theories/XpProofs.v
theories/XpExamples.v
theories/PropertiesXp.v
theories/ExpSyntax.v
theories/ExpSpec.v
theories/ExpModel.v
theories/ExpSet.v
theories/ExpCodec.v
theories/ExpArc.v
theories/ExpComp.v
theories/ExpGen.v
theories/ExpNet.v
theories/ExpEnc.v
theories/ExpShow.v
theories/ExpSearch.v
theories/ExpMain.v
theories/ExpExamples.v
theories/PropertiesExp.v
theories/XqSyntax.v
theories/XqSpec.v
theories/XqModel.v
theories/XqExp.v
theories/XqForm.v
theories/XqWrite.v
theories/XqCtl.v
theories/XqExamples.v
theories/PropertiesXq.v
theories/TarModel.v
theories/TarSpec.v
theories/TarVec.v
theories/TarSem.v
theories/TarAut.v
theories/TarRc.v
theories/TarHoare.v
theories/TarCheck.v
theories/TarFree.v
theories/TarRun.v
theories/TarMain.v
theories/TarExamples.v
theories/PropertiesTarSearch.v
theories/CmpModel.v
theories/CmpSpec.v
theories/CmpFrag.v
theories/CmpProofs.v
theories/CmpSearch.v
theories/CmpMain.v
theories/CmpExamples.v
theories/PropertiesCmp.v
theories/WalkModel.v
theories/WalkSpec.v
theories/WalkProofs.v
theories/WalkFind.v
theories/WalkMain.v
theories/WalkExamples.v
theories/PropertiesWalk.v
theories/DrvModel.v
theories/DrvSpec.v
theories/DrvProofs.v
theories/DrvMain.v
theories/DrvSearch.v
theories/DrvTool.v
theories/DrvExamples.v
theories/PropertiesDrv.v
theories/PnmModel.v
theories/PnmSpec.v
theories/PnmProofs.v
theories/PnmMain.v
theories/PnmWrite.v
theories/PnmExamples.v
theories/PropertiesPnm.v
theories/IgnModel.v
theories/IgnSpec.v
theories/IgnProofs.v
theories/IgnMain.v
theories/IgnCheck.v
theories/IgnVerdict.v
theories/IgnSimp.v
theories/IgnExamples.v
theories/PropertiesIgn.v
theories/IgnFireModel.v
theories/IgnFireSpec.v
theories/IgnFireTv.v
theories/IgnFireSearch.v
theories/IgnFireMain.v
theories/IgnFireExamples.v
theories/PropertiesIgnFire.v
theories/IntvModel.v
theories/IntvSpec.v
theories/IntvProofs.v
theories/IntvMore.v
theories/IntvMain.v
theories/PropertiesIntv.v
theories/ColRedModel.v
theories/ColRedSpec.v
theories/ColRedProofs.v
theories/ColRedMain.v
theories/ColRedTotal.v
theories/ColRedExamples.v
theories/PropertiesColRed.v
theories/ColRdpModel.v
theories/ColRdpSpec.v
theories/ColRdpProofs.v
theories/ColRdpMain.v
theories/ColRdpExamples.v
theories/PropertiesColRdp.v
theories/ColPreModel.v
theories/ColPreSpec.v
theories/ColPreMove.v
theories/ColPreMain.v
theories/ColPreExamples.v
theories/PropertiesColPre.v
theories/ColRelModel.v
theories/ColRelSpec.v
theories/ColRelMain.v
theories/ColRelTotal.v
theories/ColRelExamples.v
theories/PropertiesColRel.v
