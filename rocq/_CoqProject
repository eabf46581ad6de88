-Q theories Verif
theories/Value.v
theories/TupleAlg.v
theories/LazyModel.v
theories/LazySpec.v
theories/LazySpec2.v
theories/TupleSpec.v
theories/TupleAlgProofs.v
theories/LazyProofs.v
theories/LazyGeneral.v
theories/LazyRel.v
theories/LazyThms.v
theories/SharedModel.v
theories/SharedProofs.v
theories/LazyExamples.v
theories/LazyExampleProofs.v
theories/Partition.v
theories/PartitionProofs.v
theories/TupleThms.v
theories/PropsTuple.v
theories/PropsLazy.v
theories/OptionalSpec.v
theories/OptionalThms.v
theories/OptionalExamples.v
theories/PropsOptional.v
theories/HistorySpec.v
theories/HistoryThms.v
theories/ShareThms.v
theories/RecoverThms.v
theories/HistoryExamples.v
theories/PropsHistory.v
theories/CppTypes.v
theories/CppTypesProofs.v
theories/PropsTypes.v
theories/Layout.v
theories/LayoutProofs.v
theories/PropsLayout.v
theories/Footprint.v
theories/PropsFootprint.v
theories/Uncapture.v
theories/UncaptureProofs.v
theories/PropsUncapture.v
theories/Machine.v
theories/MachineSpec.v
theories/MachineLib.v
theories/Composed.v
theories/Strictness.v
theories/MachineSpec2.v
theories/MachineThms.v
theories/MachineFrame.v
theories/BindSpec.v
theories/BindThms.v
theories/SeqThms.v
theories/BindFull.v
theories/TupleOps.v
theories/TupleOpsProofs.v
theories/RegularVoid.v
theories/RegularVoidProofs.v
theories/Programs.v
theories/ProgramThms.v
theories/RewiredSpec.v
theories/Rewired.v
theories/RewiredThms.v
theories/MachineExamples.v
theories/PropsMachine.v
theories/PropsComposed.v
theories/RefPrograms.v
theories/RefThms.v
theories/RefExamples.v
theories/PropsRef.v
theories/RewiredExamples.v
theories/PropsRewired.v
theories/RewiredRefSpec.v
theories/RewiredRefs.v
theories/RewiredRefCalls.v
theories/RewiredRefLazy.v
theories/RewiredRefThms.v
theories/RewiredRefExamples.v
theories/PropsRewiredRef.v
theories/TwiceThms.v
theories/PropsTwice.v
theories/ViewOps.v
theories/ViewOpsProofs.v
theories/ViewExamples.v
theories/PropsView.v
theories/ThrowModel.v
theories/ThrowSpec.v
theories/ThrowThms.v
theories/ThrowExamples.v
theories/PropsThrow.v
theories/DocModel.v
theories/DocSpec.v
theories/DocThms.v
theories/DocFinal.v
theories/DocExamples.v
theories/PropsDoc.v
theories/OnceModel.v
theories/OnceThms.v
theories/PropsOnce.v
theories/StreamSpec.v
theories/StreamThms.v
theories/PropsStream.v
theories/SharingSpec.v
theories/SharingThms.v
theories/SharingExamples.v
theories/PropsSharing.v
theories/Recursive.v
theories/RecursiveSpec.v
theories/RecursiveThms.v
theories/RecursiveExamples.v
theories/PropsRecursive.v
theories/BindTypes.v
theories/BindTypesSpec.v
theories/BindTypesThms.v
theories/PropsBind.v
theories/ExtraSpec.v
theories/ExtraThms.v
theories/ExtraExamples.v
theories/PropsExtra.v
theories/NestedModel.v
theories/NestedSpec.v
theories/NestedThms.v
theories/NestedCalls.v
theories/NestedNeed.v
theories/NestedSelf.v
theories/NestedShared.v
theories/NestedExamples.v
theories/PropsNested.v
theories/StateModel.v
theories/StateSpec.v
theories/StateThms.v
theories/RewiredStateSpec.v
theories/RewiredState.v
theories/RewiredStateThms.v
theories/StateExamples.v
theories/PropsState.v
theories/Constraints.v
theories/ConstraintsSpec.v
theories/ConstraintsThms.v
theories/PropsConstraints.v
theories/ThreadModel.v
theories/ThreadSpec.v
theories/ThreadThms.v
theories/PropsThreads.v
theories/MoveModel.v
theories/MoveSpec.v
theories/MoveThms.v
theories/PropsMove.v
theories/CostSpec.v
theories/CostThms.v
theories/PropsCost.v
theories/ClassLayout.v
theories/ClassLayoutSpec.v
theories/ClassLayoutThms.v
theories/PropsClassLayout.v
theories/RepoTests.v
theories/ClassLazy.v
theories/ClassLazySpec.v
theories/ClassLazyThms.v
theories/PropsClassLazy.v
theories/ClassUncapture.v
theories/ClassUncaptureSpec.v
theories/ClassUncaptureThms.v
theories/PropsClassUncapture.v
theories/LawSpec.v
theories/LawThms.v
theories/PropsLaws.v
theories/Special.v
theories/SpecialSpec.v
theories/SpecialThms.v
theories/PropsSpecial.v
theories/ArrangeSpec.v
theories/ArrangeThms.v
theories/PropsArrange.v
theories/SliceSpec.v
theories/SliceThms.v
theories/PropsSlice.v
theories/GroupSpec.v
theories/GroupThms.v
theories/PropsGroup.v
theories/RelateSpec.v
theories/RelateThms.v
theories/PropsRelate.v
theories/CoarseSpec.v
theories/CoarseThms.v
theories/PropsCoarse.v
theories/TypedModel.v
theories/TypedSpec.v
theories/TypedThms.v
theories/PropsTyped.v
theories/FewestSpec.v
theories/FewestThms.v
theories/PropsFewest.v
theories/ThreadShareSpec.v
theories/ThreadShareThms.v
theories/PropsThreadShare.v
theories/GuardModel.v
theories/GuardSpec.v
theories/GuardThms.v
theories/PropsGuard.v
theories/CompareModel.v
theories/CompareSpec.v
theories/CompareThms.v
theories/CompareExamples.v
theories/PropsCompare.v
theories/RepairModel.v
theories/RepairThms.v
theories/RepairExamples.v
theories/PropsRepair.v
theories/SharedDocModel.v
theories/SharedDocThms.v
theories/VersionSpec.v
theories/SharedDocSettled.v
theories/VersionModel.v
theories/VersionThms.v
theories/VersionSettled.v
theories/SharedSettled.v
theories/SharedDocExamples.v
theories/PropsSharedDoc.v
theories/PropsSettled.v
