-Q theories Verif
theories/Num.v
theories/NumR.v
theories/Res.v
theories/ResFacts.v
theories/Spec.v
theories/SpecFacts.v
theories/MQuat.v
theories/QuatFacts.v
theories/MSimd.v
theories/SimdFacts.v
theories/RealFacts.v
theories/PropsQuat.v
theories/MOptL1.v
theories/MGenL1.v
theories/MForL1.v
theories/VecFacts.v
theories/L1Facts.v
theories/L1Facts2.v
theories/MGenM.v
theories/L1Facts3.v
theories/LoopFacts.v
theories/GemmLoops.v
theories/MForL2.v
theories/MGenL2.v
theories/L2Facts.v
theories/L2GenFacts.v
theories/MForL3.v
theories/ForL3Facts.v
theories/MPack.v
theories/MOptGemm.v
theories/PackFacts.v
theories/OptGemmFacts.v
theories/OptGemmTop.v
theories/MUtil.v
theories/SpecExp.v
theories/UtilFacts.v
theories/UtilFacts2.v
theories/PropsL1.v
theories/PropsL2.v
theories/PropsL3.v
theories/RawL3.v
theories/F64.v
theories/GemmMisc.v
theories/PropsGemm.v
theories/PropsUtil.v
theories/PropsChar.v
theories/MInt32.v
theories/Int32Facts.v
theories/PropsInt.v
theories/PropsAgree.v
theories/GemmAlt.v
theories/PropsAlt.v
theories/SpecErr.v
theories/RoundFacts.v
theories/ErrFacts.v
theories/ErrFacts2.v
theories/ErrFacts3.v
theories/ErrTop.v
theories/PropsErr.v
theories/MDispatch.v
theories/PropsApi.v
theories/SpecBlock.v
theories/BlockFacts.v
theories/PropsBlock.v
theories/SpecInt.v
theories/IntFacts.v
theories/IntFacts2.v
theories/IntFacts3.v
theories/IntTop.v
theories/PropsIntData.v
theories/SpecNorm.v
theories/MNormC.v
theories/NormFacts.v
theories/PropsNorm.v
theories/SpecShared.v
theories/MShared.v
theories/SharedFacts.v
theories/SharedFacts2.v
theories/PropsShared.v
theories/LawFacts.v
theories/PropsLaws.v
theories/RawL2.v
theories/SpecErrF.v
theories/ErrFor.v
theories/ErrFor2.v
theories/ErrFor3.v
theories/PropsErrF.v
theories/RawL2b.v
theories/PropsL2b.v
theories/SpecIntF.v
theories/IntFor.v
theories/PropsIntF.v
theories/SpecObj.v
theories/MObj.v
theories/ObjFacts.v
theories/PropsObj.v
theories/MText.v
theories/TextFacts.v
theories/PropsText.v
theories/RawL2g.v
theories/SpecErrR.v
theories/ErrReal.v
theories/ErrReal2.v
theories/IntReal.v
theories/PropsErrR.v
theories/RawL1.v
theories/SelfFacts.v
theories/PropsSelf.v
theories/SpecLocal.v
theories/LocalFacts.v
theories/PropsLocal.v
theories/FSyntax.v
theories/FParse.v
theories/FSem.v
theories/SrcL1.v
theories/SrcL2.v
theories/SrcL3.v
theories/SrcUtil.v
theories/FProg.v
theories/FSimFacts.v
theories/FTac.v
theories/FTacV.v
theories/FTacM.v
theories/SrcEqL1.v
theories/SrcEqR.v
theories/SrcEqVd.v
theories/SrcEqVz.v
theories/SrcEqVh.v
theories/SrcEqMdd.v
theories/SrcEqMdz.v
theories/SrcEqMdh.v
theories/SrcEqMzd.v
theories/SrcEqMzz.v
theories/SrcEqMzh.v
theories/SrcEqMhd.v
theories/SrcEqMhz.v
theories/SrcEqMhh.v
theories/SrcEqU.v
theories/MSrc.v
theories/PropsSrc.v
theories/PropsApi2.v
theories/SpecPar.v
theories/ParFacts.v
theories/FIo.v
theories/FIoFacts.v
theories/MPar.v
theories/ParText.v
theories/SpecCalls.v
theories/MCalls.v
theories/CallFacts.v
theories/PropsPar.v
theories/ParGen.v
theories/MIoOpt.v
theories/IoOptFacts.v
theories/SpecCalls2.v
theories/MCalls2.v
theories/CallFacts2.v
theories/CallFacts3.v
theories/PropsPar2.v
theories/CSyntax.v
theories/CPre.v
theories/CParse.v
theories/CSem.v
theories/CSrc.v
theories/CProg.v
theories/CSimFacts.v
theories/CTac.v
theories/CLink.v
theories/CObj.v
theories/CObjG.v
theories/CEqQ.v
theories/CEqL1.v
theories/CEqL1b.v
theories/CEqK.v
theories/CStep.v
theories/CEqG.v
theories/CEqG2.v
theories/MSrcC.v
theories/PropsSrcC.v
theories/CSrcG.v
theories/CProgG.v
theories/CObjGen.v
theories/CTacG.v
theories/CEqGen1.v
theories/CEqGen2.v
theories/CEqGen3.v
theories/CLinkG.v
theories/CEqGen4.v
theories/MSrcG.v
theories/PropsSrcG.v
theories/HSrc.v
theories/HParse.v
theories/HProg.v
theories/HSem.v
theories/MSrcH.v
theories/HEq.v
theories/PropsSrcH.v
theories/DSrc.v
theories/SpecBuild.v
theories/MBuild.v
theories/MPublic.v
theories/BuildFacts.v
theories/BuildFacts2.v
theories/PropsBuild.v
theories/PropsBuildErr.v
theories/TSrc.v
theories/TSyntax.v
theories/TParse.v
theories/TSem.v
theories/MSrcT.v
theories/TEq.v
theories/TEq2.v
theories/TEq3.v
theories/TEq4.v
theories/TEq5.v
theories/TEq6.v
theories/TEq7.v
theories/TEq8.v
theories/TEq9.v
theories/TEq10.v
theories/TEq11.v
theories/CLinkT.v
theories/CEqGT.v
theories/PropsSrcT.v
theories/PropsPack.v
theories/PropsGemmT.v
theories/MTuple.v
theories/PropsTuple.v
theories/PSrc.v
theories/SpecProto.v
theories/MProto.v
theories/PropsProto.v
theories/MDecl.v
theories/PropsDecl.v
