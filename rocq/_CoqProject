-Q theories Verif
theories/Chars.v
theories/Ast.v
theories/Parser.v
theories/Display.v
theories/Base.v
theories/Tree.v
theories/Nfa.v
theories/Utf8Seq.v
theories/U8Nfa.v
theories/EpsProp.v
theories/Flat.v
theories/OnePass.v
theories/Dfa.v
theories/FixedOffset.v
theories/NfaStatic.v
theories/Pick.v
theories/SpecAtom.v
theories/PAtom.v
theories/PropAtom.v
theories/SpecGrammar.v
theories/PParser.v
theories/PropParser.v
theories/Words.v
theories/PThompson.v
theories/PSearch.v
theories/PClean.v
theories/PPrune.v
theories/POpt.v
theories/PWorking.v
theories/Spec.v
theories/PTree.v
theories/PBridge.v
theories/PTest.v
theories/PEps.v
theories/PFlat.v
theories/PGroups.v
theories/PUtf8.v
theories/PTrie.v
theories/PU8.v
theories/PByte.v
theories/SpecAuto.v
theories/PRun.v
theories/SpecGroups.v
theories/PLower.v
theories/PBytes.v
theories/PropTree.v
theories/PropNfa.v
theories/PropLockstep.v
theories/POnePass.v
theories/PTopo.v
theories/PFixed.v
theories/PEngines.v
theories/PropOnePass.v
theories/PSplit.v
theories/PMin.v
theories/PDfa.v
theories/PDfaRun.v
theories/PropDfa.v
theories/SpecCaret.v
theories/PCaret.v
theories/PAll.v
theories/PStrip.v
theories/PropEngines.v
theories/PStatic.v
theories/PropStatic.v
theories/PCount.v
theories/PCompile.v
theories/PropCount.v
theories/SpecPriority.v
theories/PPrio.v
theories/PPrioTree.v
theories/PPrioSpec.v
theories/PPrioPass.v
theories/PPrioOpt.v
theories/PPrioWorking.v
theories/PPrioByte.v
theories/PPrioEps.v
theories/PPrioFlat.v
theories/PPrioLock.v
theories/PPrioDfa.v
theories/PPrioOne.v
theories/PLazy.v
theories/PLazyWorking.v
theories/PLazyEps.v
theories/PLazyRun.v
theories/PLazyThreads.v
theories/PLazyFlat.v
theories/PLazyWords.v
theories/PLazyOne.v
theories/PLazyDfa.v
theories/PLazyAll.v
theories/PAgree.v
theories/PRuns.v
theories/PAnchored.v
theories/PropPriority.v
theories/Layout.v
theories/SpecDraw.v
theories/PLayout.v
theories/PDraw.v
theories/PLabel.v
theories/PropDraw.v
theories/SpecLaws.v
theories/POptional.v
theories/PLaws.v
theories/PropLaws.v
theories/PBound.v
theories/SpecSize.v
theories/PSize.v
theories/PBlow.v
theories/PropCost.v
theories/PAlive.v
theories/PropAlive.v
theories/SpecLen.v
theories/PTight.v
theories/SpecLeast.v
theories/PLeast.v
theories/PUsed.v
theories/SpecCut.v
theories/PFree.v
theories/PCut.v
theories/POnePlace.v
theories/PropOnePlace.v
theories/PropCut.v
theories/PropLength.v
theories/Attr.v
theories/PAttr.v
theories/PropAttr.v
theories/Conform.v
theories/POutcome.v
theories/PropOutcome.v
theories/SpecEquiv.v
theories/SpecDfa.v
theories/PExplode.v
theories/PEquiv.v
theories/PropEquiv.v
theories/SpecLiteral.v
theories/PLiteral.v
theories/PropLiteral.v
theories/SpecFixed.v
theories/SpecSteps.v
theories/PFixedAll.v
theories/PropFixed.v
theories/PSteps.v
theories/PStepsHex.v
theories/PropSteps.v
theories/Overflow.v
theories/POverflow.v
theories/PropOverflow.v
theories/ConformParse.v
theories/SpecToken.v
theories/PRoom.v
theories/PToken.v
theories/PClassRun.v
theories/PFields.v
theories/PropToken.v
theories/SpecWalk.v
theories/PWalk.v
theories/PropWalk.v
theories/SpecSubset.v
theories/SpecCalls.v
theories/PSubset.v
theories/PCalls.v
theories/PropSubset.v
theories/PropCalls.v
theories/Listing.v
theories/SpecListing.v
theories/PListing.v
theories/PropListing.v
theories/SpecTemplate.v
theories/PTemplate.v
theories/PropTemplate.v
theories/PLoose.v
theories/SpecReadme.v
theories/PReadme.v
theories/PropLoose.v
theories/SpecRecord.v
theories/PRecord.v
theories/PropRecord.v
theories/SpecSame.v
theories/PSame.v
theories/PropSame.v
theories/SpecReduced.v
theories/PReduced.v
theories/PTrim.v
theories/PTrimBuild.v
theories/PTrimU8.v
theories/PReducedAll.v
theories/PropReduced.v
theories/Cost.v
theories/SpecTime.v
theories/PCost.v
theories/PCostBound.v
theories/PCostTab.v
theories/PCostLow.v
theories/PropTime.v
theories/SpecNest.v
theories/PNest.v
theories/PropNest.v
theories/PText.v
theories/PropText.v
theories/Rust.v
theories/Emit.v
theories/Gen.v
theories/PRust.v
theories/PCheck.v
theories/PEmitVm.v
theories/PEmitDfa.v
theories/PEmitFlat.v
theories/PEmitLock.v
theories/PEmitAll.v
theories/PropEmit.v
theories/RustFn.v
theories/EmitFn.v
theories/PEmitFn.v
theories/GenFn.v
theories/PEmitFix.v
theories/PropEmitFn.v
theories/PSound.v
theories/PropSound.v
theories/RustW.v
theories/EmitW.v
theories/PWord.v
theories/PWordCode.v
theories/PWordFn.v
theories/PWordAll.v
theories/PropWord.v
theories/SpecCode.v
theories/PCode.v
theories/PCodeBig.v
theories/PCodeDfa.v
theories/PCodeFlat.v
theories/PropCode.v
