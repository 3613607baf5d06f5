-Q theories Verif
theories/Prog.v
theories/Ops.v
theories/Subst.v
theories/MInsertion.v
theories/MHeap.v
theories/MPartition.v
theories/MQuick.v
theories/MSelect.v
theories/MMerge.v
theories/MApi.v
theories/Spec.v
theories/Closures.v
theories/Examples.v
theories/ExamplesPar.v
theories/Order.v
theories/WpOps.v
theories/PInsertion.v
theories/PHeap.v
theories/PPartition.v
theories/PBlocks.v
theories/PPivot.v
theories/PQuick.v
theories/PSelect.v
theories/PIndices.v
theories/Top.v
theories/TSortUnstable.v
theories/TSelect.v
theories/TDebug.v
theories/TDebugOrder.v
theories/TDebugPos.v
theories/PMerge.v
theories/TSort.v
theories/TWrap.v
theories/PropSelect.v
theories/PropSort.v
theories/PropSortUnstable.v
theories/Ghost.v
theories/MSearch.v
theories/MDedup.v
theories/PSearch.v
theories/PDedup.v
theories/TSearch.v
theories/PropSearch.v
theories/Polite.v
theories/TPanic.v
theories/Unique.v
theories/TCompose.v
theories/PropPanic.v
theories/PropCompose.v
theories/Cost.v
theories/TLinear.v
theories/PropLinear.v
theories/CLeaves.v
theories/CMerge.v
theories/CQuick.v
theories/CRefute.v
theories/PropCost.v
theories/TPrep.v
theories/PropPrep.v
theories/MCached.v
theories/PCached.v
theories/TCached.v
theories/PropCached.v
theories/Interleave.v
theories/MPar.v
theories/PPar.v
theories/Footprint.v
theories/TPar.v
theories/PropPar.v
theories/Views.v
theories/MParMerge.v
theories/PParMerge.v
theories/PParRec.v
theories/PParSort.v
theories/FootMerge.v
theories/TParMerge.v
theories/PropParMerge.v
theories/TParCompose.v
theories/PropParCompose.v
theories/FootAll.v
theories/TView.v
theories/CLow.v
theories/CAdv.v
theories/CNinther.v
theories/CSelect.v
theories/PropSelectCost.v
theories/PropView.v
theories/MAlloc.v
theories/HeapSpec.v
theories/PAlloc.v
theories/RAlloc.v
theories/PropAlloc.v
theories/ParSpec.v
theories/CPar.v
theories/CParUp.v
theories/PropParCost.v
theories/CBest.v
theories/CMany.v
theories/PropMany.v
theories/CallSpec.v
theories/Calls.v
theories/CParSort.v
theories/PropParSortCost.v
theories/Loud.v
theories/TParPanic.v
theories/PropParPanic.v
theories/CKey.v
theories/PropKeyCost.v
theories/OwnsSpec.v
theories/Owns.v
theories/TOwns.v
theories/TOwnsPar.v
theories/TOwnsLog.v
theories/PropOwns.v
theories/AlikeSpec.v
theories/Alike.v
theories/TAlike.v
theories/TAlikePar.v
theories/TAlikeTop.v
theories/PropAlike.v
theories/AccessSpec.v
theories/Access.v
theories/TAccess.v
theories/TAccessSeq.v
theories/TAccessPar.v
theories/TAccessMerge.v
theories/TAccessTop.v
theories/PropAccess.v
theories/SpanSpec.v
theories/Span.v
theories/CSpan.v
theories/TSpan.v
theories/PropSpan.v
theories/MemorySpec.v
theories/TMemory.v
theories/PropMemory.v
theories/THalf.v
theories/PropHalf.v
theories/CSched.v
theories/PropSched.v
theories/NestSpec.v
theories/CNest.v
theories/PropNest.v
theories/FewSpec.v
theories/CFew.v
theories/CFewSelect.v
theories/CDepth.v
theories/PropFew.v
theories/TDepth.v
theories/PropDepth.v
theories/CAny.v
theories/PropAny.v
theories/Word.v
theories/MWord.v
theories/TWord.v
theories/TWordMerge.v
theories/TWordTop.v
theories/PropWord.v
theories/TRecipe.v
theories/PropRecipe.v
theories/DocExamples.v
theories/Exact.v
theories/MWordPar.v
theories/TWordPar.v
theories/PropWordPar.v
theories/Sane.v
theories/MWordQuick.v
theories/TWordQuick.v
theories/PropWordQuick.v
theories/MWordAlloc.v
theories/TWordAlloc.v
theories/TMemSafe.v
theories/RWordAlloc.v
theories/PropWordAlloc.v
theories/MLend.v
theories/LendSpec.v
theories/TLend.v
theories/TLendPanic.v
theories/TLendSame.v
theories/PropLend.v
theories/CRuns.v
theories/TRuns.v
theories/PropRuns.v
theories/TParRuns.v
theories/PropParRuns.v
theories/TNearly.v
theories/PropNearly.v
theories/PropAppend.v
