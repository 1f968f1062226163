-Q theories Verif
theories/Base.v
theories/Num.v
theories/Tensor.v
theories/Spec.v
theories/MCommon.v
theories/MCP.v
theories/PBase.v
theories/PTensor.v
theories/PSum.v
theories/PMttkrp.v
theories/PMat.v
theories/PKhatri.v
theories/PGrad.v
theories/PKhatriBad.v
theories/PMatAlg.v
theories/PResid.v
theories/PSolve.v
theories/NumR.v
theories/PNormalize.v
theories/PBuildV.v
theories/PropMttkrp.v
theories/PropBasic.v
theories/PTree.v
theories/PDT.v
theories/PDTSweep.v
theories/PALS.v
theories/PTreeProps.v
theories/PMono.v
theories/PDrivers.v
theories/PropALS.v
theories/PPart.v
theories/PPP.v
theories/PPPSweep.v
theories/Spec2.v
theories/PPPBad.v
theories/PPPDriver.v
theories/PPPMulti.v
theories/PropPP.v
theories/PropSort.v
theories/PPU.v
theories/PropPU.v
theories/Spec3.v
theories/MOpt.v
theories/POpt.v
theories/POptTree.v
theories/POptEval.v
theories/POptStep.v
theories/PropOpt.v
theories/MOptLR.v
theories/POptLR.v
theories/POptLR2.v
theories/PropOptLR.v
theories/MCPD.v
theories/F64.v
theories/Spec4.v
theories/PCPD.v
theories/PCPD2.v
theories/PNoLF.v
theories/PDrivers2.v
theories/PropCPD.v
theories/MGen.v
theories/Spec5.v
theories/PGen.v
theories/PGen2.v
theories/PropGen.v
theories/MRun.v
theories/Spec6.v
theories/PRun.v
theories/PropRun.v
theories/PRun2.v
theories/PropRun2.v
theories/MLife.v
theories/PLife.v
theories/PLife2.v
theories/PropLife.v
theories/MTucker.v
theories/Spec7.v
theories/PTtm.v
theories/PTucker.v
theories/PHosvd.v
theories/PTDT.v
theories/PSign.v
theories/PTSweep.v
theories/PTBad.v
theories/PropTucker.v
theories/Spec8.v
theories/PTDrivers.v
theories/PTPP.v
theories/PTPP2.v
theories/Spec9.v
theories/PTPPDriver.v
theories/PTPPMulti.v
theories/PropTucker2.v
theories/Spec10.v
theories/PKRP.v
theories/PRank.v
theories/PRank2.v
theories/PropRank.v
theories/MHelpers.v
theories/PGS.v
theories/PropGS.v
theories/Spec11.v
theories/PMono2.v
theories/PropMono2.v
theories/PropMono3.v
theories/PropMono4.v
theories/PropMono5.v
theories/PropMono6.v
theories/PropMono7.v
theories/PQR.v
theories/PTuckAny.v
theories/PApprox.v
theories/PApprox2.v
theories/Spec22.v
theories/PApprox3.v
theories/Spec12.v
theories/PDriverRef.v
theories/PropDrivers.v
theories/Spec13.v
theories/PTDriverRef.v
theories/PropDrivers2.v
theories/Spec14.v
theories/PMainRef.v
theories/PropMains.v
theories/MMains.v
theories/Spec15.v
theories/PropMains2.v
theories/Spec16.v
theories/Spec17.v
theories/Spec18.v
theories/PKyFan.v
theories/PTuckFit.v
theories/NumF.v
theories/Spec23.v
theories/PNan.v
theories/PNan2.v
theories/PNan3.v
theories/PropNan.v
theories/PTuckMono.v
theories/PHosvdQ.v
theories/PHelpers.v
theories/PropHelpers.v
theories/PropMains3.v
theories/PropMains4.v
theories/PropMains5.v
theories/PropTucker3.v
theories/PropTucker4.v
theories/Spec19.v
theories/PConv.v
theories/PConv2.v
theories/PConv3.v
theories/PConv4.v
theories/PConv5.v
theories/PropConv.v
theories/PropConv2.v
theories/PropConv3.v
theories/PropCases.v
theories/Spec20.v
theories/Spec21.v
theories/PErr.v
theories/PErr2.v
theories/PErr3.v
theories/PropErr.v
theories/PropErr2.v
theories/PropErr3.v
theories/MTest.v
theories/PropTest.v
theories/PF64.v
theories/PropF64.v
theories/Spec24.v
theories/PTuckPP.v
theories/PTuckPP2.v
theories/PTuckPP3.v
theories/PEig2.v
theories/PropTucker5.v
theories/Spec25.v
theories/PBetter.v
theories/PBetter2.v
theories/PropBetter.v
theories/MInt.v
theories/MInt2.v
theories/Spec26.v
theories/PInt.v
theories/PropInt.v
theories/Spec27.v
theories/PRnd.v
theories/PRndDT.v
theories/PRndDT2.v
theories/PRndKR.v
theories/PRndBV.v
theories/Spec28.v
theories/PRndNorm.v
theories/PRndGrad.v
theories/PRndGrad2.v
theories/PropRnd.v
theories/PropRnd2.v
theories/Spec29.v
theories/PRndALS.v
theories/PRndALS2.v
theories/PRndALS3.v
theories/PRndBal.v
theories/Spec30.v
theories/PRndNE.v
theories/PropRnd3.v
theories/PPar.v
theories/PPar2.v
theories/PPar3.v
theories/PPar4.v
theories/PPar5.v
theories/PPar6.v
theories/PropAny.v
theories/PPar7.v
theories/PPar8.v
theories/PPar9.v
theories/PPar10.v
theories/PPar11.v
theories/PropAny2.v
theories/PPar12.v
theories/PropAny3.v
theories/PropAny4.v
theories/PPar13.v
theories/PPar14.v
theories/PropAny5.v
