-Q theories Verif
theories/Base.v
theories/Index.v
theories/Slice.v
theories/Tree.v
theories/Insert.v
theories/Range.v
theories/Spec.v
theories/Zip.v
theories/Rep.v
theories/Upd.v
theories/Leaf.v
theories/Path.v
theories/Ops.v
theories/Find.v
theories/Ins.v
theories/Iter.v
theories/IterP.v
theories/IterQ.v
theories/Hist.v
theories/Validate.v
theories/Order.v
theories/HistP.v
theories/OrderP.v
theories/ListFacts.v
theories/CurP.v
theories/Flat.v
theories/Samples.v
theories/TreePropsP.v
theories/IterPropsP.v
theories/TreeProps.v
theories/IterProps.v
theories/Bounded.v
theories/Gradual.v
theories/Recycle.v
theories/SmallSpec.v
theories/RecycleP.v
theories/SmallP.v
theories/SmallProps.v
theories/Serde.v
theories/SerdeP.v
theories/Drain.v
theories/DrainP.v
theories/Mock.v
theories/MockP.v
theories/MockQ.v
theories/RefSpec.v
theories/MockPropsP.v
theories/DataProps.v
theories/RefState.v
theories/RefStateP.v
theories/RefPropsP.v
theories/RefProps.v
theories/Directional.v
theories/DirectionalP.v
theories/DirectionalProps.v
theories/Holes.v
theories/HolesP.v
theories/HolesProps.v
theories/Cow.v
theories/CowSpec.v
theories/CowP.v
theories/CowQ.v
theories/CowR.v
theories/CowS.v
theories/CowT.v
theories/CowU.v
theories/CowV.v
theories/CowCursor.v
theories/CowSamples.v
theories/CowPropsP.v
theories/CowCursorP.v
theories/CowProps.v
theories/LTree.v
theories/LInsert.v
theories/LTreeP.v
theories/LUpP.v
theories/LLeafP.v
theories/LShape.v
theories/LShapeP.v
theories/LLenP.v
theories/LUpdP.v
theories/LPlanP.v
theories/LEffP.v
theories/LRef.v
theories/LMemP.v
theories/LClimbP.v
theories/LPassP.v
theories/LInvP.v
theories/LHistP.v
theories/LSpec.v
theories/LMemHistP.v
theories/LSamples.v
theories/LPropsP.v
theories/LProps.v
theories/LCow.v
theories/LCowSpec.v
theories/LCowIter.v
theories/LCowG.v
theories/LCowP.v
theories/LCowQ.v
theories/LCowR.v
theories/LCowW.v
theories/LCowX.v
theories/LCowSamples.v
theories/LCowPropsP.v
theories/LCowProps.v
theories/LCount.v
theories/LCountSpec.v
theories/LCountP.v
theories/LCountQ.v
theories/LCountW.v
theories/LCountSamples.v
theories/LCountPropsP.v
theories/LCountProps.v
theories/CowCall.v
theories/CowCallP.v
theories/CowCallQ.v
theories/CowCallR.v
theories/CowCallS.v
theories/CowCallPropsP.v
theories/CowCallSamples.v
theories/CowCallProps.v
theories/CountWrap.v
theories/CountWrapPropsP.v
theories/CountWrapProps.v
theories/Wild.v
theories/WildCalls.v
theories/WildP.v
theories/WildQ.v
theories/WildR.v
theories/WildPropsP.v
theories/WildSamples.v
theories/WildProps.v
theories/Joins.v
theories/JoinsP.v
theories/CallsP.v
theories/OverflowP.v
theories/SlicePropsP.v
theories/SliceProps.v
theories/Crash.v
theories/CrashSpec.v
theories/CrashP.v
theories/CrashPropsP.v
theories/CrashProps.v
theories/Slots.v
theories/SlotSpec.v
theories/SlotP.v
theories/SlotQ.v
theories/SlotPropsP.v
theories/SlotProps.v
theories/Layout.v
theories/LayoutPropsP.v
theories/LayoutProps.v
theories/PoisonPropsP.v
theories/PoisonProps.v
theories/CanBorrowPropsP.v
theories/CanBorrowProps.v
theories/DrainRef.v
theories/DrainRefPropsP.v
theories/DrainRefProps.v
theories/Markers.v
theories/MarkersP.v
theories/MarkersPropsP.v
theories/MarkersProps.v
theories/Redirect.v
theories/RedirectPropsP.v
theories/RedirectProps.v
theories/DropPanic.v
theories/DropPanicPropsP.v
theories/DropPanicProps.v
theories/Weak.v
theories/WeakP.v
theories/WeakQ.v
theories/WeakR.v
theories/WeakS.v
theories/WeakT.v
theories/WeakU.v
theories/WeakV.v
theories/WeakW.v
theories/WeakX.v
theories/WeakPropsP.v
theories/WeakProps.v
theories/CowCallWeak.v
theories/CowCallWeakP.v
theories/CowCallWeakPropsP.v
theories/CowCallWeakSamples.v
theories/CowCallWeakProps.v
theories/Unwind.v
theories/UnwindSpec.v
theories/UnwindE.v
theories/UnwindP.v
theories/UnwindQ.v
theories/UnwindR.v
theories/UnwindS.v
theories/UnwindT.v
theories/UnwindU.v
theories/UnwindV.v
theories/UnwindSamples.v
theories/UnwindPropsP.v
theories/UnwindProps.v
theories/CowWait.v
theories/CowWaitP.v
theories/CowWaitQ.v
theories/CowWaitPropsP.v
theories/CowWaitProps.v
theories/CowShare.v
theories/CowShareP.v
theories/CowShareQ.v
theories/CowSharePropsP.v
theories/CowShareProps.v
theories/CowLost.v
theories/CowLostP.v
theories/CowLostSamples.v
theories/CowLostPropsP.v
theories/CowLostProps.v
theories/IterCost.v
theories/IterCostP.v
theories/IterCostPropsP.v
theories/IterCostProps.v
theories/WildRef.v
theories/WildRefP.v
theories/WildRefPropsP.v
theories/WildRefSamples.v
theories/WildRefProps.v
theories/WildMem.v
theories/WildMemP.v
theories/WildMemPropsP.v
theories/WildMemSamples.v
theories/WildMemProps.v
