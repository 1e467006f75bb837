-Q theories Verif
theories/Prim.v
theories/Spec.v
theories/Facts.v
theories/MAdd.v
theories/PAdd.v
theories/PAddS.v
theories/MMul.v
theories/PMul.v
theories/PMulS.v
theories/MShift.v
theories/PShift.v
theories/PRot.v
theories/MCore.v
theories/PCore.v
theories/PBits.v
theories/PWide.v
theories/MArith.v
theories/PArith.v
theories/PArith2.v
theories/PPow.v
theories/PMisc.v
theories/PRet.v
theories/PBits2.v
theories/MDiv.v
theories/DivSpec.v
theories/PDiv.v
theories/PKnuth.v
theories/PDivFull.v
theories/MApi.v
theories/PApi.v
theories/PApi2.v
theories/PApi3.v
theories/PIlog.v
theories/PDivExact.v
theories/PropsArith.v
theories/PropsBits.v
theories/PropsMisc.v
theories/PropsDiv.v
theories/MScalar.v
theories/PScalar.v
theories/PScalarDiv.v
theories/PropsScalar.v
theories/TextSpec.v
theories/MParse.v
theories/PParse.v
theories/PParse2.v
theories/PropsParse.v
theories/MWrite.v
theories/PWrite.v
theories/PWrite2.v
theories/PropsWrite.v
theories/MLayout.v
theories/PLayout.v
theories/PLayout2.v
theories/PropsLayout.v
theories/MTraits.v
theories/PTraits.v
theories/PropsTraits.v
theories/PropsIndep.v
theories/RepoTests.v
theories/PropsCoherent.v
theories/PropsBuild.v
theories/MForms.v
theories/PropsForms.v
theories/PropsIndep2.v
theories/PropsDebug.v
theories/PropsProg.v
theories/MQuick.v
theories/PropsQuick.v
theories/PropsMath.v
theories/MNative.v
theories/PropsNative.v
theories/MDevel.v
theories/PDevel.v
theories/PropsDevel.v
theories/MPy.v
theories/PropsPy.v
theories/MLimb.v
theories/PropsLimb.v
theories/PropsRare.v
theories/MAsm.v
theories/PropsAsm.v
theories/PropsDivAll.v
theories/PropsMulAll.v
theories/PropsScalarAll.v
theories/PropsReadAll.v
theories/PropsBitLaws.v
theories/PropsOrder.v
theories/PropsText.v
theories/PropsFirst.v
theories/MFix.v
theories/PFixDiv.v
theories/PFixMul.v
theories/PFixApi.v
theories/PFixScalar.v
theories/PropsFix.v
theories/MFix2.v
theories/PFixPow.v
theories/PFixScalar2.v
theories/PropsFix2.v
theories/MFix3.v
theories/PropsFix3.v
theories/MOrd.v
theories/Lang.v
theories/PLang.v
theories/PLang2.v
theories/PropsLang.v
theories/MBench.v
theories/PropsBench.v
theories/PropsHowMany.v
theories/PropsHowMany2.v
theories/PropsSound.v
theories/MCost.v
theories/PCost.v
theories/PropsCost.v
theories/MReport.v
theories/PReport.v
theories/PropsReport.v
theories/MListing.v
theories/PListing.v
theories/PropsListing.v
theories/PropsListing2.v
theories/PropsMask.v
theories/LangText.v
theories/PLangText.v
theories/PropsLangText.v
theories/FlagSpec.v
theories/MFix4.v
theories/PFlags.v
theories/PropsFlags.v
theories/MCost2.v
theories/PCost2.v
theories/PropsCost2.v
theories/MDraft.v
theories/PropsDraft.v
theories/MBuild.v
theories/PropsBuild2.v
theories/MUnsafe.v
theories/PropsUnsafe.v
theories/PropsAccess.v
theories/MCost3.v
theories/PropsCost3.v
theories/PropsPanic.v
theories/PropsTotal.v
theories/MTrace.v
theories/PTrace.v
theories/PTrace2.v
theories/PTrace3.v
theories/PropsTrace.v
theories/MText.v
theories/SrcText.v
theories/MRun.v
theories/PText.v
theories/PTextAdd.v
theories/PTextSub.v
theories/PTextMul.v
theories/PTextMulS.v
theories/PTextMulT.v
theories/PTextMulW.v
theories/PropsSrcAdd.v
theories/PropsSrcSub.v
theories/PropsSrcMul.v
theories/PropsSrc.v
theories/PTextShift.v
theories/PTextShiftR.v
theories/PTextRot.v
theories/PropsSrcShift.v
