-Q theories Verif
theories/Base.v
theories/BTree.v
theories/UtilsModel.v
theories/IntervalModel.v
theories/NoditModel.v
theories/NoditSetModel.v
theories/ZosditModel.v
theories/GqditModel.v
theories/Spec.v
theories/PointFacts.v
theories/IntervalFacts.v
theories/ListFacts.v
theories/NoditFacts.v
theories/NoditQueries.v
theories/InstancesModel.v
theories/Instances.v
theories/NoditOps.v
theories/NoditGaps.v
theories/NoditMutations.v
theories/NoditMerges.v
theories/NoditInv.v
theories/NoditMore.v
theories/NoditAbs.v
theories/NoditSim.v
theories/PropsNodit.v
theories/PropsHistory.v
theories/IntervalProofs.v
theories/PropsInterval.v
theories/NoditNatural.v
theories/NoditSetOps.v
theories/NoditSetFacts.v
theories/NoditSetProofs.v
theories/PropsSet.v
theories/ZosditOps.v
theories/ZosditFacts.v
theories/ZosditMut.v
theories/ZosditProofs.v
theories/PropsZosdit.v
theories/GqditOps.v
theories/GqditFacts.v
theories/GqditProofs.v
theories/GqditGaps.v
theories/PropsGqdit.v
theories/TreeShape.v
theories/TreeFacts.v
theories/TreeProofs.v
theories/PropsTree.v
theories/CrashModel.v
theories/CrashFacts.v
theories/CrashProofs.v
theories/CrashZosdit.v
theories/CrashGqdit.v
theories/PropsCrash.v
theories/GapsLazyModel.v
theories/GapsLazyFacts.v
theories/PropsFrom.v
theories/Ledger.v
theories/NoditSize.v
theories/AccountFacts.v
theories/PropsAccounts.v
theories/EqModel.v
theories/EqFacts.v
theories/PropsEq.v
theories/PropsIntervalEq.v
theories/Reach.v
theories/PropsReach.v
theories/SetAlgebraOps.v
theories/SetAlgebra.v
theories/PropsSetAlgebra.v
theories/ZosditPops.v
theories/ZosditCoherence.v
theories/PropsZosditCoherence.v
theories/LocalOps.v
theories/Local.v
theories/LocalCommute.v
theories/PropsLocal.v
theories/TransportOps.v
theories/TransportFacts.v
theories/PropsTransport.v
theories/PropsPlain.v
theories/GqditAlgebra.v
theories/PropsAlgebra.v
theories/NoditCoherence.v
theories/PropsCoherence.v
theories/IterModel.v
theories/IterSpec.v
theories/IterInv.v
theories/PropsIter.v
theories/TraceModel.v
theories/TraceSpec.v
theories/TraceFacts.v
theories/TraceGqdit.v
theories/TraceZosdit.v
theories/PropsTrace.v
theories/OrderOnly.v
theories/OrderOnlyZosdit.v
theories/PropsOrder.v
theories/EqualOps.v
theories/EqualFacts.v
theories/PropsEqual.v
theories/RepoTests.v
theories/GqditTransportOps.v
theories/GqditTransport.v
theories/PropsGqditOrder.v
theories/GqditSetsOps.v
theories/GqditSets.v
theories/PropsGqditSets.v
theories/ZosditNodit.v
theories/PropsZosditNodit.v
theories/GapsExact.v
theories/PropsFromExact.v
theories/ZosditOrder.v
theories/PropsZosditOrder.v
theories/ZosditOnce.v
theories/PropsZosditOnce.v
theories/ZosditAbs.v
theories/ZosditSim.v
theories/PropsZosditAbs.v
theories/IntervalRelease.v
theories/PropsRelease.v
theories/GqditSize.v
theories/ZosditSize.v
theories/PropsSize.v
theories/GqditIdsOps.v
theories/GqditNatural.v
theories/GqditIds.v
theories/PropsGqditIds.v
theories/ZosditLocal.v
theories/PropsZosditLocal.v
theories/CloneModel.v
theories/CloneOps.v
theories/CloneFacts.v
theories/CloneZosdit.v
theories/CloneZosditExact.v
theories/CloneProofs.v
theories/PropsClone.v
theories/DeriveModel.v
theories/DeriveProofs.v
theories/PropsDerive.v
theories/WidthModel.v
theories/WidthFacts.v
theories/PropsWidth.v
theories/ElsewhereOps.v
theories/ZosditElsewhere.v
theories/PropsZosditElsewhere.v
theories/CostOps.v
theories/CostFacts.v
theories/CostZosdit.v
theories/CostGqdit.v
theories/PropsCost.v
theories/SerdeOps.v
theories/SerdeFacts.v
theories/PropsSerde.v
theories/PropsIntervalAlgebra.v
theories/PropsUsers.v
theories/PropsRebuild.v
theories/CompleteOps.v
theories/CompleteProofs.v
theories/PropsComplete.v
theories/CompleteZosditOps.v
theories/PropsCompleteZosdit.v
theories/ClientOps.v
theories/PropsClient.v
theories/ClientGqditOps.v
theories/PropsClientGqdit.v
theories/ClientZosditOps.v
theories/PropsClientZosdit.v
theories/ClientSetOps.v
theories/PropsClientSet.v
theories/InfinityOps.v
theories/PropsInfinity.v
theories/UtilsOps.v
theories/PropsUtils.v
theories/GapLocalOps.v
theories/GapLocal.v
theories/PropsGapLocal.v
theories/PropsInfinityGqdit.v
theories/AppendedOps.v
theories/PropsAppended.v
theories/WalkOps.v
theories/WalkFacts.v
theories/PropsWalk.v
theories/UndoOps.v
theories/UndoFacts.v
theories/PropsUndo.v
theories/WorldOps.v
theories/PropsWorld.v
theories/OverrideModel.v
theories/OverrideOps.v
theories/OverrideFacts.v
theories/PropsOverride.v
theories/OverrideZosditModel.v
theories/OverrideZosditOps.v
theories/OverrideZosditFacts.v
theories/PropsOverrideZosdit.v
theories/OverrideGqditModel.v
theories/OverrideGqditOps.v
theories/OverrideGqditFacts.v
theories/PropsOverrideGqdit.v
theories/CrashLenOps.v
theories/CrashLen.v
theories/PropsCrashLen.v
theories/PutBackOps.v
theories/PutBackFacts.v
theories/PropsPutBack.v
theories/PropsWorldConverse.v
theories/MirrorOps.v
theories/MirrorFacts.v
theories/PropsMirror.v
theories/SplitOps.v
theories/SplitFacts.v
theories/PropsSplit.v
theories/SplitZosditFacts.v
theories/PropsSplitZosdit.v
theories/MergeAllOps.v
theories/MergeAllFacts.v
theories/PropsMergeAll.v
theories/OverlayOps.v
theories/OverlayFacts.v
theories/PropsOverlay.v
theories/FirstFitOps.v
theories/FirstFitFacts.v
theories/PropsFirstFit.v
theories/SearchOps.v
theories/SearchFacts.v
theories/PropsSearch.v
theories/GqditWorldOps.v
theories/PropsGqditWorld.v
theories/UserCallsOps.v
theories/UserCallsFacts.v
theories/PropsUserCalls.v
theories/LooksOps.v
theories/LooksFacts.v
theories/LooksMoreFacts.v
theories/PropsLooks.v
theories/OverrideRunOps.v
theories/PropsOverrideRun.v
theories/LooksBulkOps.v
theories/LooksBulkFacts.v
theories/LooksAppendFacts.v
theories/PropsLooksBulk.v
theories/ZosditWorldOps.v
theories/PropsZosditWorld.v
theories/EffectModel.v
theories/EffectOps.v
theories/EffectFacts.v
theories/EffectRight.v
theories/PropsEffect.v
theories/EffectZosditModel.v
theories/EffectZosditOps.v
theories/EffectZosditFacts.v
theories/EffectZosditRight.v
theories/PropsEffectZosdit.v
theories/EffectBulkModel.v
theories/EffectBulkFacts.v
theories/PropsEffectBulk.v
theories/EffectGqditModel.v
theories/EffectGqditOps.v
theories/EffectGqditFacts.v
theories/EffectGqditRight.v
theories/PropsEffectGqdit.v
theories/EffectMoreModel.v
theories/EffectMoreOps.v
theories/EffectMoreFacts.v
theories/EffectMoreRight.v
theories/PropsEffectMore.v
theories/EffectCrashOps.v
theories/EffectCrashFacts.v
theories/EffectCrashMore.v
theories/PropsEffectCrash.v
theories/EffectTraceOps.v
theories/EffectTraceFacts.v
theories/EffectTraceZosdit.v
theories/EffectTraceGqdit.v
theories/PropsEffectTrace.v
theories/EffectTraceMoreOps.v
theories/EffectTraceMore.v
theories/PropsEffectTraceMore.v
theories/EffectLazyModel.v
theories/EffectLazyFacts.v
theories/PropsEffectLazy.v
theories/EffectDeriveModel.v
theories/EffectDeriveFacts.v
theories/PropsEffectDerive.v
theories/DebugModel.v
theories/DebugFacts.v
theories/PropsDebug.v
theories/SaveOps.v
theories/SaveFacts.v
theories/PropsSave.v
theories/BookingOps.v
theories/BookingFacts.v
theories/PropsBooking.v
theories/RangeOps.v
theories/RangeFacts.v
theories/PropsRange.v
theories/FmtModel.v
theories/FmtFacts.v
theories/PropsFmt.v
theories/TidyOps.v
theories/TidyFacts.v
theories/PropsTidy.v
theories/NearOps.v
theories/NearFacts.v
theories/PropsNear.v
theories/PlacesOps.v
theories/PlacesFacts.v
theories/PropsPlaces.v
theories/ShiftOps.v
theories/ShiftFacts.v
theories/PropsShift.v
theories/OptionsModel.v
theories/OptionsFacts.v
theories/PropsOptions.v
theories/SharesOps.v
theories/SharesFacts.v
theories/PropsShares.v
theories/PaddingModel.v
theories/PaddingFacts.v
theories/PropsPadding.v
theories/ZShiftOps.v
theories/ZShiftFacts.v
theories/PropsZShift.v
theories/MeasureOps.v
theories/MeasureFacts.v
theories/PropsMeasure.v
theories/SetShiftOps.v
theories/SetShiftFacts.v
theories/PropsSetShift.v
theories/ZRollFacts.v
theories/PropsZRoll.v
theories/PropsShiftMore.v
