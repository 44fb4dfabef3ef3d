-Q theories Verif
theories/Base.v
theories/Elem.v
theories/Native.v
theories/Errs.v
theories/Names.v
theories/Fields.v
theories/Ser.v
theories/Build.v
theories/Write.v
theories/Read.v
theories/Api.v
theories/Text.v
theories/Classes.v
theories/Heap.v
theories/SpecElem.v
theories/SpecHeap.v
theories/HeapRead.v
theories/SpecRead.v
theories/SpecNames.v
theories/SpecWrite.v
theories/SpecSim.v
theories/SpecStray.v
theories/SpecOwn.v
theories/SpecRead2.v
theories/SpecBuild.v
theories/SpecMeans.v
theories/SpecRound.v
theories/SpecClasses.v
theories/SpecText.v
theories/SpecPrefix.v
theories/SpecIndep.v
theories/Samples.v
theories/PfElem.v
theories/PfUnbound.v
theories/PfField.v
theories/PfExtra.v
theories/PfNames.v
theories/PfSafe.v
theories/PfFuel.v
theories/PfRel.v
theories/PfTerm.v
theories/PfLoop.v
theories/PfWTerm.v
theories/PfCount.v
theories/PfWrite.v
theories/PfWrite2.v
theories/PfWrite3.v
theories/PfMore.v
theories/PfSim.v
theories/PfSim2.v
theories/PfSim3.v
theories/PfStray.v
theories/PfOwn.v
theories/PfWSim.v
theories/PfPrefix.v
theories/PfIndep.v
theories/PfRound1.v
theories/PfRound2.v
theories/PfRound3.v
theories/PfRound4.v
theories/PfRound5.v
theories/PfRound6.v
theories/PfRound7.v
theories/PfRound8.v
theories/PfText.v
theories/PfRead2.v
theories/PfRead3.v
theories/PfMap.v
theories/PfBuild.v
theories/PfBuild2.v
theories/PfBuild3.v
theories/PfBuild4.v
theories/PfBuild5.v
theories/PfMeans.v
theories/PfMeans2.v
theories/PfMeans3.v
theories/PfMeans4.v
theories/PropElem.v
theories/PropNames.v
theories/PropRead.v
theories/PropRead2.v
theories/SpecScalar.v
theories/PfScalar.v
theories/PropWrite.v
theories/PropDoc.v
theories/PfHeap.v
theories/PfHeap2.v
theories/PfHeap3.v
theories/PfHeap4.v
theories/PfHeap5.v
theories/PfHeap6.v
theories/PropBuild.v
theories/PropMeans.v
theories/PropHeap.v
theories/PropStray.v
theories/PropOwn.v
theories/PropRound.v
theories/PropText.v
theories/PfClasses.v
theories/PfClasses2.v
theories/PfClasses3.v
theories/PfOrder.v
theories/SpecDecl.v
theories/PfDecl.v
theories/PropClasses.v
theories/PropPrefix.v
theories/PropIndep.v
theories/PropFind.v
theories/PropScalar.v
theories/PropDecl.v
theories/HeapRead2.v
theories/SpecHeap2.v
theories/PfHeap7.v
theories/PfHeap8.v
theories/PfHeap9.v
theories/HeapWrite.v
theories/SpecHeap3.v
theories/PfHeap10.v
theories/PropHeap2.v
theories/SpecModes.v
theories/PfModes.v
theories/PfModes2.v
theories/PfModes3.v
theories/PropModes.v
theories/PropOrder.v
theories/SpecGrow.v
theories/PfGrow.v
theories/PropGrow.v
theories/SpecSub.v
theories/PfSub.v
theories/PfSub2.v
theories/PropSub.v
theories/Mypy.v
theories/SpecMypy.v
theories/PfMypy.v
theories/PropMypy.v
theories/SpecOut.v
theories/PfOut.v
theories/PfOut2.v
theories/PfOut3.v
theories/PfOut4.v
theories/PfOut5.v
theories/PropOut.v
theories/Context.v
theories/SpecContext.v
theories/PfContext.v
theories/PropContext.v
theories/Decorate.v
theories/SpecDecorate.v
theories/PfDecorate.v
theories/PropDecorate.v
theories/SpecLines.v
theories/PfLines.v
theories/PropLines.v
theories/SpecLayout.v
theories/PfLayout.v
theories/PropLayout.v
theories/Prog.v
theories/ProgRead.v
theories/ProgWrite.v
theories/SpecThread.v
theories/PfThread1.v
theories/PfThread2.v
theories/PfThread3.v
theories/PropThread.v
theories/SpecAlias.v
theories/PfAlias.v
theories/PfAlias2.v
theories/PropAlias.v
theories/SpecStable.v
theories/PfStable.v
theories/PropStable.v
theories/SpecCrash.v
theories/PfCrash.v
theories/PropCrash.v
theories/Calls.v
theories/SpecCalls.v
theories/PfCalls.v
theories/PfCalls2.v
theories/PfCalls3.v
theories/PropCalls.v
theories/SpecSwitch.v
theories/PfSwitch.v
theories/PfSwitch2.v
theories/PropSwitch.v
theories/WCalls.v
theories/SpecWCalls.v
theories/PfWCalls.v
theories/PfWCalls2.v
theories/PropWCalls.v
theories/SpecErrors.v
theories/PfErrors.v
theories/PropErrors.v
theories/SpecNest.v
theories/PfNest.v
theories/PfNest2.v
theories/PfNest3.v
theories/PfNest4.v
theories/PropNest.v
theories/SpecAttrs.v
theories/PfAttrs.v
theories/PropAttrs.v
theories/SpecPage.v
theories/PfPage.v
theories/PfPage2.v
theories/PfPage3.v
theories/PfPage4.v
theories/PropPage.v
theories/SpecTail.v
theories/PfTail.v
theories/SpecEvolve.v
theories/PfEvolve.v
theories/PfEvolve2.v
theories/PfEvolve3.v
theories/PfEvolve4.v
theories/PropEvolve.v
theories/PropTail.v
theories/SpecRename.v
theories/PfRename.v
theories/PfRename2.v
theories/PfRename3.v
theories/PropRename.v
theories/SpecSeen.v
theories/PfSeen.v
theories/PropSeen.v
theories/SpecMoved.v
theories/PfMoved.v
theories/PfMoved2.v
theories/PfMoved3.v
theories/PropMoved.v
theories/PropTold.v
theories/SpecSwap.v
theories/PfSwap.v
theories/PfSwap2.v
theories/PfSwap3.v
theories/PropSwap.v
theories/SpecMembers.v
theories/PfMembers.v
theories/PropMembers.v
theories/SpecMany.v
theories/PfMany.v
theories/PfMany2.v
theories/PfMany3.v
theories/PropMany.v
theories/SpecWider.v
theories/PfWider.v
theories/PfWider2.v
theories/PropWider.v
theories/SpecOneOf.v
theories/PfOneOf.v
theories/PfOneOf2.v
theories/PropOneOf.v
theories/SpecLoose.v
theories/PfLoose.v
theories/PropLoose.v
