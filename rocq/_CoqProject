-Q theories Verif
theories/Monad.v
theories/Types.v
theories/Model.v
theories/Api.v
theories/EnvEx.v
theories/Spec.v
theories/SpecStats.v
theories/SpecTimed.v
theories/Ref.v
theories/Lists.v
theories/SimBase.v
theories/SimRel.v
theories/SimOps.v
theories/SimIns.v
theories/SimErase.v
theories/SimIter.v
theories/SimNew.v
theories/SimObs.v
theories/SimExec.v
theories/RefEval.v
theories/SimRun.v
theories/LruProofs.v
theories/CallProofs.v
theories/Effects.v
theories/LruMore.v
theories/LruTrack.v
theories/Flat.v
theories/Global.v
theories/Safe.v
theories/Frame.v
theories/StatProofs.v
theories/SpecPair.v
theories/StatMore.v
theories/TimedTrack.v
theories/TimedProofs.v
theories/TimedStats.v
theories/TimedOrder.v
theories/TimedErase.v
theories/PairProofs.v
theories/ExBase.v
theories/Props1.v
theories/Props2.v
theories/Props3.v
theories/Props4.v
theories/Props5.v
theories/SpecSettings.v
theories/Settings.v
theories/Props6.v
theories/NodeTrack.v
theories/SpecIter.v
theories/IterProofs.v
theories/Props7.v
theories/SpecCopy.v
theories/CopyFrame.v
theories/CopyBlind.v
theories/CopyEval.v
theories/CopyProofs.v
theories/CopyMore.v
theories/CopyRun.v
theories/CopyMisuse.v
theories/Props8.v
theories/Hash.v
theories/SpecHash.v
theories/HashProofs.v
theories/HitRate.v
theories/RateProofs.v
theories/RateRun.v
theories/RateMore.v
theories/Props9.v
theories/Wrap.v
theories/SpecWrap.v
theories/WrapProofs.v
theories/WrapRun.v
theories/WrapSteps.v
theories/WrapKeep.v
theories/WrapCalls.v
theories/Props10.v
theories/SpecFault.v
theories/Sturdy.v
theories/SturdyOps.v
theories/SturdyAcc.v
theories/SturdyIns.v
theories/SturdyObs.v
theories/SturdyExec.v
theories/SturdyCb.v
theories/FaultProofs.v
theories/FaultCb.v
theories/FaultEx.v
theories/FaultMain.v
theories/Props11.v
theories/Props12.v
theories/Optional.v
theories/SpecOptional.v
theories/OptionalProofs.v
theories/Props13.v
theories/IterObj.v
theories/SpecCursor.v
theories/CursorProofs.v
theories/CursorRun.v
theories/Props14.v
theories/Refs.v
theories/SpecRefs.v
theories/RefsProofs.v
theories/FillFrame.v
theories/FillProofs.v
theories/FillMore.v
theories/FillRes.v
theories/Props15.v
theories/VecProofs.v
theories/SwapProofs.v
theories/SelfFill.v
theories/Props16.v
theories/Memo.v
theories/SpecMemo.v
theories/MemoCalls.v
theories/MemoProofs.v
theories/FibProofs.v
theories/Props17.v
theories/Searches.v
theories/SpecSearches.v
theories/SearchProofs.v
theories/SearchMain.v
theories/SearchCost.v
theories/Props18.v
theories/Moves.v
theories/SpecMoves.v
theories/MoveProofs.v
theories/Props19.v
theories/IterSearches.v
theories/SpecIterSearches.v
theories/IterSearchProofs.v
theories/IterSearchMain.v
theories/Props20.v
theories/EntryRefs.v
theories/SpecEntryRefs.v
theories/EntryRefsProofs.v
theories/Props21.v
theories/EvictIter.v
theories/Props22.v
theories/StatObj.v
theories/SpecStatObj.v
theories/StatObjProofs.v
theories/Props23.v
theories/FunObj.v
theories/SpecFunObj.v
theories/FunObjProofs.v
theories/FunObjRuns.v
theories/Props24.v
theories/MoreSearches.v
theories/SpecMoreSearches.v
theories/MoreSearchProofs.v
theories/MoreSearchMain.v
theories/MoreSearchCost.v
theories/Props25.v
theories/CbRefs.v
theories/SpecCbRefs.v
theories/CbRefProofs.v
theories/Props26.v
theories/AnyWorld.v
theories/AnyKeep.v
theories/AnyInsert.v
theories/AnyRun.v
theories/AnyCopy.v
theories/AnyAll.v
theories/AnySee.v
theories/SpecAny.v
theories/AnyView.v
theories/AnyPut.v
theories/AnyMore.v
theories/Props27.v
theories/LastObj.v
theories/SpecLast.v
theories/LastProofs.v
theories/LastMore.v
theories/Props28.v
theories/LastTests.v
theories/SpecTally.v
theories/TallyEff.v
theories/TallyProofs.v
theories/TallyRun.v
theories/Props29.v
theories/AnyFill.v
theories/Props30.v
theories/AnyHit.v
theories/AnyErase.v
theories/Props31.v
theories/SpecOwn.v
theories/AnyOwn.v
theories/AnyOwnCalls.v
theories/Props32.v
theories/AnyPlace.v
theories/Props33.v
theories/UnitTests.v
