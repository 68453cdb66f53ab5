-Q theories Verif
theories/Base.v
theories/Num.v
theories/Nd.v
theories/Numeric.v
theories/Simplex.v
theories/Psd.v
theories/Pattern.v
theories/ListFacts.v
theories/Spec.v
theories/PatFacts.v
theories/NonFree.v
theories/NumFacts.v
theories/CholFacts.v
theories/Free.v
theories/Contract.v
theories/Build.v
theories/Api.v
theories/Demo.v
theories/PropRound.v
theories/SpecValid.v
theories/Valid.v
theories/Indices.v
theories/Indices2.v
theories/Indices3.v
theories/Empty.v
theories/DemoValid.v
theories/DemoIndex.v
theories/PropValid.v
theories/PropIndex.v
theories/SpecPsd.v
theories/PsdProps.v
theories/PropPsd.v
theories/DictHeap.v
theories/SpecDict.v
theories/DictFacts.v
theories/DictProps.v
theories/DictHist.v
theories/DictOdd.v
theories/DemoDict.v
theories/PropDict.v
theories/Json.v
theories/PatJson.v
theories/SpecJson.v
theories/JsonFacts.v
theories/PatJsonFacts.v
theories/JsonProps.v
theories/JsonOdd.v
theories/JsonInst.v
theories/JsonFuel.v
theories/RegProps.v
theories/DemoJson.v
theories/PropJson.v
theories/SaveLoad.v
theories/SaveFacts.v
theories/DemoSave.v
theories/PropSave.v
theories/FunWrap.v
theories/SpecWrap.v
theories/WrapFacts.v
theories/WrapProps.v
theories/WrapOdd.v
theories/WrapMix.v
theories/WrapRound.v
theories/DemoWrap.v
theories/PropWrap.v
theories/Jac.v
theories/SpecJac.v
theories/JacBase.v
theories/JacFacts.v
theories/JacMore.v
theories/JacPsd.v
theories/CholDiff.v
theories/PsdDiff.v
theories/AlongFacts.v
theories/DemoAlong.v
theories/JacProps.v
theories/JacEdge.v
theories/DemoJac.v
theories/PropJac.v
theories/Optim.v
theories/SpecOptim.v
theories/LinAlg.v
theories/OptimFacts.v
theories/OptimHist.v
theories/DemoOptim.v
theories/PropOptim.v
theories/AdSupp.v
theories/SpecAd.v
theories/AdFacts.v
theories/AdMore.v
theories/AdSparse.v
theories/DetFacts.v
theories/AdMat.v
theories/DemoAd.v
theories/PropAd.v
theories/Names.v
theories/SpecNames.v
theories/NamesFacts.v
theories/DemoNames.v
theories/PropNames.v
theories/Text.v
theories/SpecText.v
theories/TextFacts.v
theories/TextProps.v
theories/TextMsg.v
theories/Access.v
theories/AccessFacts.v
theories/DemoText.v
theories/PropText.v
theories/SpecGrammar.v
theories/GrammarFacts.v
theories/GrammarDict.v
theories/GrammarRead.v
theories/DemoGrammar.v
theories/PropGrammar.v
theories/Flt.v
theories/SpecFlt.v
theories/FltBase.v
theories/FltExp.v
theories/FltNum.v
theories/FltNum2.v
theories/FltNum3.v
theories/FltSimp.v
theories/FltSimp2.v
theories/FltPsd.v
theories/FltInst.v
theories/DemoFlt.v
theories/PropFlt.v
theories/FltMat.v
theories/SpecFltMat.v
theories/FltDot.v
theories/FltMatProps.v
theories/DemoFltMat.v
theories/PropFltMat.v
theories/Random.v
theories/SpecEnd.v
theories/EndFacts.v
theories/GradFacts.v
theories/GradSimp.v
theories/RandomFacts.v
theories/DemoEnd.v
theories/PropEnd.v
theories/Alias.v
theories/SpecAlias.v
theories/AliasFacts.v
theories/AliasFlat.v
theories/DemoAlias.v
theories/PropAlias.v
theories/SpecBound.v
theories/BoundFacts.v
theories/BoundTree.v
theories/BoundLost.v
theories/DemoBound.v
theories/PropBound.v
theories/RevPsd.v
theories/SpecRev.v
theories/RevFacts.v
theories/RevGrad.v
theories/DemoRev.v
theories/PropRev.v
theories/SpecDir.v
theories/DirFacts.v
theories/FeasFacts.v
theories/DirProps.v
theories/DemoDir.v
theories/PropDir.v
theories/FltChol.v
theories/SpecFltChol.v
theories/FltElim.v
theories/FltCholFacts.v
theories/FltForm.v
theories/FltCholProps.v
theories/FltCholDef.v
theories/FltCholOne.v
theories/DemoFltChol.v
theories/PropFltChol.v
theories/FltPat.v
theories/SpecFltPat.v
theories/FltLeaf.v
theories/FltLeafPsd.v
theories/FltTree.v
theories/FltTreeV.v
theories/FltFlatLeaf.v
theories/FltFlatTree.v
theories/FltPatProps.v
theories/FltPatValid.v
theories/DemoFltPat.v
theories/PropFltPat.v
theories/FltJac.v
theories/SpecFltJac.v
theories/FltJacLeaf.v
theories/FltJacTree.v
theories/FltJacDet.v
theories/FltJacLost.v
theories/DemoFltJac.v
theories/FltJacProps.v
theories/PropFltJac.v
theories/SpecSecond.v
theories/TotalDiff.v
theories/UnfreeDiff.v
theories/SecondFacts.v
theories/SecondProps.v
theories/DemoSecond.v
theories/PropSecond.v
theories/TriPerturb.v
theories/SpecFltTrip.v
theories/FltTripMat.v
theories/FltTripLeaf.v
theories/FltTripTree.v
theories/DemoFltTrip.v
theories/PropFltTrip.v
theories/SpecWhite.v
theories/WhiteProps.v
theories/DemoWhite.v
theories/PropWhite.v
theories/FltLse.v
theories/FltSum.v
theories/SpecFltSum.v
theories/FltSumFacts.v
theories/FltSumProps.v
theories/DemoFltSum.v
theories/PropFltSum.v
theories/SpecFltWide.v
theories/FltWide.v
theories/FltGaps.v
theories/DemoFltWide.v
theories/PropFltWide.v
