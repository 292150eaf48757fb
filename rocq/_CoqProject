-Q theories Verif
theories/Base.v
theories/Ext.v
theories/ModelSurd.v
theories/ModelInt.v
theories/ModelBlock.v
theories/ModelCF.v
theories/ModelConv.v
theories/ModelGen.v
theories/ModelSymbols.v
theories/ModelFmt.v
theories/Conformance.v
theories/Spec.v
theories/SpecReach.v
theories/Transfer.v
theories/NumFacts.v
theories/SurdCore.v
theories/RatioFacts.v
theories/SurdArith.v
theories/SurdTotal.v
theories/SurdOrd.v
theories/SurdRound.v
theories/SurdMisc.v
theories/SurdConv.v
theories/SurdSqrt.v
theories/SurdDecide.v
theories/ClaimsSurd.v
theories/PropsSurd.v
theories/SpecFit.v
theories/SpecText.v
theories/TransferFit.v
theories/ClaimsFit.v
theories/PropsFit.v
theories/SpecInt.v
theories/IntCore.v
theories/IntArith.v
theories/IntOps.v
theories/IntDiv.v
theories/IntMore.v
theories/IntDecide.v
theories/ClaimsInt.v
theories/PropsInt.v
theories/SpecCF.v
theories/CFCore.v
theories/CFSeq.v
theories/CFIter.v
theories/CFBasic.v
theories/CFSurd.v
theories/CFNew.v
theories/CFSigned.v
theories/CFSignedP.v
theories/CFAny.v
theories/CFOfSurd.v
theories/CFWide.v
theories/CFRound.v
theories/CFAdd.v
theories/CFArith.v
theories/ClaimsCF.v
theories/PropsCF.v
theories/FmtFacts.v
theories/FmtText.v
theories/ClaimsMisc.v
theories/PropsMisc.v
theories/SpecGen.v
theories/GenBlock.v
theories/GenSound.v
theories/GenConv.v
theories/GenTail.v
theories/GenLive.v
theories/GenMisc.v
theories/GenCont.v
theories/GenBihomo.v
theories/GenStored.v
theories/ClaimsGen.v
theories/PropsGen.v
theories/SpecSym.v
theories/SymExp.v
theories/SymE.v
theories/SymPi.v
theories/PiIrrational.v
theories/SymGamma.v
theories/SymGammaItems.v
theories/ClaimsSym.v
theories/PropsSym.v
theories/ModelFloat.v
theories/SpecF64.v
theories/FloatFacts.v
theories/FloatConst.v
theories/FloatMore.v
theories/ClaimsFloat.v
theories/PropsFloat.v
theories/GenApprox.v
theories/CFShort.v
theories/ClaimsApi.v
theories/PropsApi.v
theories/SpecBlock.v
theories/ClaimsCo.v
theories/PropsCo.v
theories/SpecLaw.v
theories/CFBest.v
theories/SurdLaws.v
theories/ClaimsLaw.v
theories/PropsLaw.v
theories/SpecSmall.v
theories/SmallFit.v
theories/SmallOps.v
theories/SmallInt.v
theories/ClaimsSmall.v
theories/PropsSmall.v
theories/GenRep.v
theories/ExpNeg.v
theories/ExpIrr.v
theories/ExpNegLive.v
theories/ExpZero.v
theories/ExpOne.v
theories/ClaimsExp.v
theories/PropsExp.v
theories/WrapBase.v
theories/WrapExt.v
theories/WrapSurd.v
theories/WrapInt.v
theories/WrapBlock.v
theories/WrapCF.v
theories/WrapConv.v
theories/WrapGen.v
theories/WrapSymbols.v
theories/WrapFmt.v
theories/SpecWrap.v
theories/WrapRef.v
theories/WrapBig.v
theories/ClaimsWrap.v
theories/PropsWrap.v
theories/ClaimsSharp.v
theories/PropsSharp.v
theories/CFGalois.v
theories/CFPell.v
theories/ClaimsGalois.v
theories/PropsGalois.v
theories/SpecBound.v
theories/CFBound.v
theories/ClaimsBound.v
theories/PropsBound.v
theories/SpecEuclid.v
theories/IntEuclid.v
theories/ClaimsEuclid.v
theories/PropsEuclid.v
theories/SpecHang.v
theories/CFHang.v
theories/ClaimsHang.v
theories/PropsHang.v
theories/SurdCanon.v
theories/ClaimsCanon.v
theories/PropsCanon.v
theories/GenHomo.v
theories/ClaimsHomo.v
theories/PropsHomo.v
theories/SpecSpell.v
theories/GenSpell.v
theories/ClaimsSpell.v
theories/PropsSpell.v
theories/SpecDigits.v
theories/GenDigits.v
theories/ClaimsDigits.v
theories/PropsDigits.v
theories/SpecEnd.v
theories/GenEnd.v
theories/ClaimsEnd.v
theories/PropsEnd.v
theories/SpecTurn.v
theories/CFAll.v
theories/ClaimsTurn.v
theories/PropsTurn.v
theories/SpecWidth.v
theories/GenWidth.v
theories/ClaimsWidth.v
theories/PropsWidth.v
theories/SpecBack.v
theories/CFBack.v
theories/ClaimsBack.v
theories/PropsBack.v
theories/ClaimsTight.v
theories/PropsTight.v
theories/SmallCF.v
theories/ClaimsConv.v
theories/PropsConv.v
theories/GenSteep.v
theories/ClaimsSteep.v
theories/PropsSteep.v
theories/CFSign.v
theories/CFSign0.v
theories/CFPeriod.v
theories/ClaimsSign.v
theories/PropsSign.v
theories/SpecRoute.v
theories/ClaimsRoute.v
theories/PropsRoute.v
theories/SymRate.v
theories/ClaimsRate.v
theories/PropsRate.v
theories/CFLimit.v
theories/ClaimsLimit.v
theories/PropsLimit.v
theories/SurdKinds.v
theories/CFAddExact.v
theories/GenDecEnd.v
theories/GenPairs.v
theories/SurdTrans.v
theories/CFOwned.v
theories/IntRational.v
theories/ClaimsExact.v
theories/PropsExact.v
theories/SurdRoots.v
theories/CFPrefix.v
theories/CFStep.v
theories/ClaimsRule.v
theories/PropsRule.v
theories/SurdVieta.v
theories/CFFlip.v
theories/ClaimsFlip.v
theories/PropsFlip.v
theories/SurdClosed.v
theories/ClaimsTypes.v
theories/PropsTypes.v
theories/SpecUnit.v
theories/CFUnits.v
theories/ClaimsUnit.v
theories/PropsUnit.v
theories/SpecSerret.v
theories/CFSerret.v
theories/GenSerret.v
theories/ClaimsSerret.v
theories/PropsSerret.v
theories/CFHurwitz.v
theories/ClaimsHurwitz.v
theories/PropsHurwitz.v
theories/SpecOrder.v
theories/CFOrder.v
theories/ClaimsOrder.v
theories/PropsOrder.v
theories/SpecRecipe.v
theories/CFRecipe.v
theories/ClaimsRecipe.v
theories/PropsRecipe.v
theories/SpecReturn.v
theories/CFReturn.v
theories/ClaimsReturn.v
theories/PropsReturn.v
theories/SpecCompare.v
theories/SurdCompare.v
theories/ClaimsCompare.v
theories/PropsCompare.v
theories/SpecRebase.v
theories/SurdRebase.v
theories/ClaimsRebase.v
theories/PropsRebase.v
theories/SpecCalc.v
theories/CFCalc.v
theories/ClaimsCalc.v
theories/PropsCalc.v
theories/SpecFixed.v
theories/SurdFixed.v
theories/ClaimsFixed.v
theories/PropsFixed.v
theories/SpecEqual.v
theories/SurdEqual.v
theories/ClaimsEqual.v
theories/PropsEqual.v
theories/SurdRounding.v
theories/ClaimsRounding.v
theories/PropsRounding.v
theories/SpecPlaces.v
theories/SurdPlaces.v
theories/ClaimsPrincipal.v
theories/PropsPrincipal.v
theories/ClaimsPlaces.v
theories/PropsPlaces.v
