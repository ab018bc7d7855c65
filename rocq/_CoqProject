-Q theories Verif
theories/Spec.v
theories/Monad.v
theories/Base.v
theories/Wp.v
theories/Pan.v
theories/ModelLimb.v
theories/LimbFacts.v
theories/LimbFacts2.v
theories/LDivFacts.v
theories/LimbProofs.v
theories/ThmLimb.v
theories/ModelBuf.v
theories/SpecBuf.v
theories/BufFacts.v
theories/BufFacts2.v
theories/BufFacts3.v
theories/CompFacts.v
theories/BufProofs.v
theories/CopyCond.v
theories/NativeShort.v
theories/ModelAccess.v
theories/SpecAccess.v
theories/AccessFacts.v
theories/AccessProofs.v
theories/AccessCopy.v
theories/CompAccess.v
theories/AddAny.v
theories/MulAny.v
theories/MulAny2.v
theories/ThmBuf.v
theories/ModelCmp.v
theories/ModelAdd.v
theories/UpFacts.v
theories/CmpFacts.v
theories/AddFacts.v
theories/AddFacts2.v
theories/AddProofs.v
theories/ThmAdd.v
theories/ModelShift.v
theories/ShiftFacts.v
theories/ShiftProofs.v
theories/ThmShift.v
theories/ModelMul.v
theories/SpecMul.v
theories/MulFacts.v
theories/Wx.v
theories/MulFacts2.v
theories/SqExact.v
theories/MulProofs.v
theories/ThmMul.v
theories/ModelDiv.v
theories/SpecDiv.v
theories/DivFacts.v
theories/DivFacts2.v
theories/DivFacts3.v
theories/DivFacts4.v
theories/DivFacts5.v
theories/DivFacts6.v
theories/DivFacts7.v
theories/DivFacts8.v
theories/DivFacts9.v
theories/DivFacts10.v
theories/DivFacts11.v
theories/DivFacts12.v
theories/DivProofs.v
theories/DivPanic.v
theories/DivExact.v
theories/DivHuge.v
theories/ThmDiv.v
theories/DivProofs2.v
theories/ThmDiv2.v
theories/ModelMont.v
theories/SpecMont.v
theories/SpecMontValue.v
theories/MontFacts.v
theories/MontFacts2.v
theories/MontFacts3.v
theories/MontFacts4.v
theories/MontFacts5.v
theories/MontFacts6.v
theories/MontExact.v
theories/MontNear.v
theories/MontProofs.v
theories/MontFine.v
theories/MontValue.v
theories/MontPanic.v
theories/ThmMont.v
theories/SpecSteps.v
theories/GcdBound.v
theories/ModelEuclid.v
theories/SpecEuclid.v
theories/EuclidFacts.v
theories/EuclidFacts2.v
theories/EuclidFacts3.v
theories/EuclidFacts4.v
theories/GcdProofs.v
theories/ThmGcd.v
theories/SpecHex.v
theories/ModelHex.v
theories/HexFacts.v
theories/HexProofs.v
theories/ThmHex.v
theories/ModelLcm.v
theories/LcmFacts.v
theories/LcmProofs.v
theories/LcmExact.v
theories/ThmLcm.v
theories/ModelInv.v
theories/SpecInv.v
theories/InvFacts.v
theories/InvProofs.v
theories/ThmInvPow2.v
theories/ModelSieve.v
theories/SpecSieve.v
theories/SieveFacts.v
theories/SieveProofs.v
theories/ThmSieve.v
theories/ModelPrime.v
theories/SpecPrime.v
theories/PrimeFacts.v
theories/PrimeFacts2.v
theories/PrimeFacts3.v
theories/PrimeProofs.v
theories/PrimeFine.v
theories/PrimeValue.v
theories/ThmPrime.v
theories/InvOddFacts.v
theories/InvOddFacts2.v
theories/InvOddFacts3.v
theories/InvOddFacts4.v
theories/InvOddFacts5.v
theories/FitCheck.v
theories/InvOddProofs.v
theories/InvOddWrong.v
theories/InvAnyExact.v
theories/ThmInvOdd.v
theories/InvAnyFacts.v
theories/InvAnyProofs.v
theories/ThmInvAny.v
theories/SpecCt.v
theories/Ct.v
theories/CtLimb.v
theories/CtBuf.v
theories/CtArith.v
theories/CtDiv.v
theories/CtMont.v
theories/CtShift.v
theories/CtTop.v
theories/ThmCt.v
theories/CtGcd.v
theories/CtTop2.v
theories/ThmCt2.v
theories/CtSieve.v
theories/CtLcm.v
theories/ThmCt3.v
theories/SpecBuild.v
theories/BuildProofs.v
theories/ThmBuild.v
theories/BuildProofs2.v
theories/BuildProofs3.v
theories/ThmBuild2.v
theories/ThmBuild3.v
theories/ModelView.v
theories/ViewProofs.v
theories/ThmView.v
theories/SpecApp.v
theories/AppProofs.v
theories/AppFine.v
theories/ThmApp.v
theories/SpecApp2.v
theories/AppProofs2.v
theories/ThmApp2.v
theories/SpecApp3.v
theories/AppProofs3.v
theories/AppProofs4.v
theories/ThmApp3.v
theories/PrimeCert.v
theories/SpecAppWrong.v
theories/AppWrong.v
theories/CrtWrong.v
theories/ThmAppWrong.v
theories/ModelAsm.v
theories/AsmProofs.v
theories/ThmAsm.v
theories/ThmAccess.v
theories/SpecApp4.v
theories/AppProofs5.v
theories/ThmApp4.v
theories/PrimeCert2.v
theories/AppProofs6.v
theories/ThmApp5.v
theories/SpecShrink.v
theories/ShrinkProofs.v
theories/ThmShrink.v
