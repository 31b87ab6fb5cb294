-Q theories Verif
theories/Base.v
theories/McRing.v
theories/Perm.v
theories/PermProofs.v
theories/PermProofs2.v
theories/PermSign.v
theories/Closure.v
theories/RedPerm.v
theories/RedPermProofs.v
theories/LexOrder.v
theories/RedPermBasis.v
theories/RedPermSub.v
theories/RedPermAssign.v
theories/Ratio.v
theories/RatioProofs.v
theories/RatioApprox.v
theories/Properties_Perm.v
theories/Properties_RedPerm.v
theories/Properties_Ratio.v
theories/Nd.v
theories/NdProofs.v
theories/Reps.v
theories/RepSpec.v
theories/RepProofs.v
theories/RepPower.v
theories/Pinv.v
theories/RepOps.v
theories/RepOps2.v
theories/Properties_Reps.v
theories/Reduced.v
theories/ReducedProofs.v
theories/Intw.v
theories/TpProofs.v
theories/TpReduced.v
theories/TpSnap.v
theories/Properties_Reduced.v
theories/Labels.v
theories/LabelProofs.v
theories/Properties_Labels.v
theories/Su2.v
theories/Su2Proofs.v
theories/So3Proofs.v
theories/Properties_Su2.v
theories/CgSum.v
theories/Su2Cg.v
theories/Su2CgProofs.v
theories/Su2CgEq.v
theories/Su2Irr.v
theories/Properties_Cg.v
theories/CgMx.v
theories/SoCg.v
theories/SoCgProofs.v
theories/Sl2c.v
theories/Sl2cMx.v
theories/Sl2cProofs.v
theories/Properties_SoCg.v
theories/LinAlg.v
theories/GsMx.v
theories/LinAlgProofs.v
theories/IcbProofs.v
theories/CgGenProofs.v
theories/Properties_LinAlg.v
theories/Util.v
theories/VmapProofs.v
theories/AlgProofs.v
theories/ExpProofs.v
theories/Properties_Util.v
theories/Finite.v
theories/FiniteProofs.v
theories/RegularProofs.v
theories/ClusterProofs.v
theories/Properties_Finite.v
theories/CasimirGap.v
theories/So13.v
theories/So13Proofs.v
theories/Properties_So13.v
theories/SunDet.v
theories/Sun.v
theories/SunDim.v
theories/SunLagr.v
theories/SunRow.v
theories/SunLadder.v
theories/SunMx.v
theories/Properties_Sun.v
theories/BiProofs.v
theories/Properties_Bi.v
theories/Parse.v
theories/ParseProofs.v
theories/Properties_Parse.v
theories/Rtp.v
theories/RtpArr.v
theories/RtpLoop.v
theories/RtpFuel.v
theories/RtpPres.v
theories/RtpEqv.v
theories/Properties_Rtp.v
theories/Properties_RtpInst.v
theories/RtpStab.v
theories/RtpReal.v
theories/RtpSym.v
theories/RtpSymAll.v
theories/Properties_RtpSym.v
theories/RtpTwo.v
theories/RtpCon.v
theories/Properties_RtpSq.v
theories/Roots.v
theories/RootsProofs.v
theories/RootsSpec.v
theories/RootsCartan.v
theories/RootsWeyl.v
theories/RootsPos.v
theories/RootsComb.v
theories/RootsDim.v
theories/RootsReps.v
theories/Properties_Roots.v
theories/SonAdj.v
theories/Properties_SonAdj.v
theories/SunTog.v
theories/SunLR.v
theories/SunTp.v
theories/Properties_SunTp.v
theories/SunCg.v
theories/SunHw.v
theories/SunCgProofs.v
theories/SunCgSearch.v
theories/SunCgLoop.v
theories/SunIrr.v
theories/SunCgRef.v
theories/Properties_SunCg.v
theories/SunGl.v
theories/SunBasis.v
theories/SunGen.v
theories/SunGenEq.v
theories/Properties_SunGen.v
theories/Reduce.v
theories/ReduceMx.v
theories/ReduceProofs.v
theories/ReduceRun.v
theories/ReduceMain.v
theories/Properties_Reduce.v
theories/Properties_ReduceGen.v
theories/RtpSpan.v
theories/RtpFull.v
theories/RtpFullCon.v
theories/RtpFullAll.v
theories/RtpDense.v
theories/Properties_RtpFull.v
theories/RtpInd.v
theories/RtpIndAll.v
theories/Properties_RtpInd.v
theories/RtpList.v
theories/Properties_RtpList.v
theories/RtpFormula.v
theories/RtpFormulaP.v
theories/Properties_RtpFormula.v
theories/Real.v
theories/Properties_Real.v
theories/Properties_RealQ.v
