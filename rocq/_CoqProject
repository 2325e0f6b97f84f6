-Q theories Verif
theories/Prelude.v
theories/Forest.v
theories/SpecFacts.v
theories/SpecSane.v
theories/NumConv.v
theories/PathTab.v
theories/PathMove.v
theories/PathDel.v
theories/PathRead.v
theories/CommonModel.v
theories/Order.v
theories/History.v
theories/SpecRun.v
theories/Fixture.v
theories/MPModel.v
theories/MPStep.v
theories/MPInv.v
theories/MPCount.v
theories/MPShift.v
theories/MPReorder.v
theories/MPAdd.v
theories/MPMove.v
theories/MPMoveOk.v
theories/MPDelete.v
theories/MPReads.v
theories/MPHist.v
theories/MPFixModel.v
theories/MPCheck.v
theories/MPFixLevel.v
theories/MPFixPaths.v
theories/MPFixAgain.v
theories/MPSignals.v
theories/MPRoom.v
theories/NSModel.v
theories/NSInv.v
theories/NSReads.v
theories/NSUpd.v
theories/NSAdd.v
theories/NSCut.v
theories/NSMove.v
theories/NSMoveOk.v
theories/NSDelete.v
theories/NSHist.v
theories/NSCheck.v
theories/NSSignals.v
theories/SpecKids.v
theories/ALModel.v
theories/ALInv.v
theories/ALReads.v
theories/ALUpd.v
theories/ALOk.v
theories/ALHist.v
theories/ALAnswers.v
theories/SpecPerm.v
theories/SpecUndo.v
theories/LTModel.v
theories/LTLabel.v
theories/LTInv.v
theories/LTShift.v
theories/LTNewPath.v
theories/LTAdd.v
theories/LTMove.v
theories/LTReads.v
theories/LTHist.v
theories/LTCalm.v
theories/LTCheck.v
theories/LTText.v
theories/LTTextFacts.v
theories/AnnModel.v
theories/AnnFacts.v
theories/BulkModel.v
theories/BulkFacts.v
theories/BulkDump.v
theories/BulkTrees.v
theories/BulkLoad.v
theories/BulkMP.v
theories/BulkCreate.v
theories/BulkLT.v
theories/BulkLTSorted.v
theories/PropsBase.v
theories/PropsMP.v
theories/PropsMPFix.v
theories/PropsMPAgain.v
theories/PropsUndo.v
theories/MPFixAny.v
theories/PropsMPAny.v
theories/MPTextModel.v
theories/MPText.v
theories/PropsMPText.v
theories/PropsNS.v
theories/PropsAL.v
theories/ALCacheModel.v
theories/ALCache.v
theories/PropsALCache.v
theories/LTSignals.v
theories/PropsLT.v
theories/PropsLTSig.v
theories/PropsAnn.v
theories/Backends.v
theories/MPRefuted.v
theories/NSRefuted.v
theories/ALRefuted.v
theories/LTRefuted.v
theories/PropsBulk.v
theories/BulkLTRoots.v
theories/PropsMigrate.v
theories/PropsKeep.v
theories/FormModel.v
theories/FormSpec.v
theories/FormFacts.v
theories/FormNS.v
theories/PropsForm.v
theories/FormSorted.v
theories/PropsFormSorted.v
theories/AdminModel.v
theories/PropsAdmin.v
theories/AdminJSModel.v
theories/AdminJS.v
theories/PropsAdminJS.v
theories/InheritModel.v
theories/PropsInherit.v
theories/CrashModel.v
theories/CrashFacts.v
theories/PropsCrash.v
theories/ConcModel.v
theories/ConcRun.v
theories/ConcMP.v
theories/ConcRoots.v
theories/ConcLT.v
theories/ConcNS.v
theories/ConcAL.v
theories/PropsConc.v
theories/ConcAlone.v
theories/ConcLock.v
theories/ConcDelMP.v
theories/ConcDelRows.v
theories/ConcDelAL.v
theories/ConcCalls.v
theories/PropsConcAlone.v
theories/ConcLocal.v
theories/ConcTrees.v
theories/ConcTreesPath.v
theories/ConcNSModel.v
theories/ConcNSAll.v
theories/ConcNSTrees.v
theories/ConcMPModel.v
theories/ConcMPAll.v
theories/ConcMPTrees.v
theories/ConcLTModel.v
theories/ConcLTAll.v
theories/ConcLTTrees.v
theories/ConcLTRoots.v
theories/ConcALRoots.v
theories/ConcNSRoots.v
theories/ConcALModel.v
theories/ConcALAll.v
theories/ConcALTrees.v
theories/PropsConcDel.v
theories/PropsConcTrees.v
theories/PropsConcNS.v
theories/PropsConcMP.v
theories/PropsConcLT.v
theories/PropsConcAL.v
theories/OldModel.v
theories/ClassModel.v
theories/LTSqlModel.v
theories/SqlModel.v
theories/PropsOld.v
theories/PropsClass.v
theories/PropsLTSql.v
theories/PropsSql.v
theories/PropsConcRoots.v
theories/PropsConcLTRoots.v
theories/PropsConcALRoots.v
theories/PropsConcNSRoots.v
theories/BackendsLT.v
theories/SessionModel.v
theories/Session.v
theories/SessionMP.v
theories/SessionNS.v
theories/SessionAL.v
theories/SessionLT.v
theories/PropsSession.v
theories/SiteModel.v
theories/Site.v
theories/SiteMP.v
theories/SiteNS.v
theories/SiteAL.v
theories/SiteLT.v
theories/PropsSite.v
theories/AdminViewModel.v
theories/AdminView.v
theories/PropsAdminView.v
theories/MenuModel.v
theories/MenuFacts.v
theories/PropsMenu.v
theories/PagesModel.v
theories/PropsPages.v
theories/SearchModel.v
theories/SearchFacts.v
theories/PropsSearch.v
theories/DragModel.v
theories/PropsDrag.v
theories/ReadModel.v
theories/Grows.v
theories/ReadFacts.v
theories/PropsRead.v
theories/ParentModel.v
theories/ParentFacts.v
theories/PropsParent.v
theories/QueryModel.v
theories/QueryFacts.v
theories/QueryBounds.v
theories/QueryAL.v
theories/QueryMP.v
theories/QueryWide.v
theories/QueryExact.v
theories/PropsQuery.v
theories/PropsQueryExact.v
