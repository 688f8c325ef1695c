-Q theories Verif
theories/Base.v
theories/Field.v
theories/Vec.v
theories/LinopModel.v
theories/LinopFrame.v
theories/LinopGood.v
theories/LinopInit.v
theories/LinopDep.v
theories/LinopAlg.v
theories/LinopOps.v
theories/LinopExpr.v
theories/LinopPtr.v
theories/LinopExtra.v
theories/LinopUser.v
theories/LinopBase.v
theories/LinopMat.v
theories/LinopMisc.v
theories/LinopAlias.v
theories/Cplx.v
theories/PropLinop.v
theories/Num.v
theories/ToolsModel.v
theories/ToolsProof.v
theories/CgModel.v
theories/CgProof.v
theories/PropCg.v
theories/Gallery.v
theories/PropTools.v
theories/KrylovModel.v
theories/KrylovProof.v
theories/PropKrylov.v
theories/KrylovStop.v
theories/KrylovPoly.v
theories/KrylovTerm.v
theories/PropTerm.v
theories/Ieee.v
theories/MinresModel.v
theories/MinresProof.v
theories/Precon.v
theories/MinresPrecon.v
theories/LsqrPrecon.v
theories/LsmrPrecon.v
theories/CraigPrecon.v
theories/PropPrecon.v
theories/MinresNan.v
theories/PropMinres.v
theories/Symmlq.v
theories/PropSymmlqCheck.v
theories/SymmlqModel.v
theories/SymmlqProof.v
theories/PropSymmlq.v
theories/PropSymmlqPre.v
theories/LsqrModel.v
theories/LsqrFlow.v
theories/SpanMath.v
theories/GkProof.v
theories/LsqrMath.v
theories/LsqrProof.v
theories/PropLsqr.v
theories/LsmrModel.v
theories/LsmrFlow.v
theories/LsmrMath.v
theories/LsmrProof.v
theories/PropLsmr.v
theories/CraigModel.v
theories/CraigFlow.v
theories/CraigMath.v
theories/CraigProof.v
theories/PropCraig.v
theories/BlkSpec.v
theories/BlkModel.v
theories/BlkIndexModel.v
theories/BlkProof.v
theories/BlkSet.v
theories/BlkSym.v
theories/BlkErr.v
theories/BlkSymErr.v
theories/BlkDiag.v
theories/BlkDiagOps.v
theories/PropBlk.v
theories/PropBlkIndex.v
theories/PropBlkDiagIndex.v
theories/LbfgsModel.v
theories/LbfgsRing.v
theories/LbfgsMath.v
theories/LbfgsProof.v
theories/LbfgsFwd.v
theories/Gauss.v
theories/LbfgsCmp.v
theories/PyCall.v
theories/PropLbfgs.v
theories/PropLbfgsSlot.v
theories/StructModel.v
theories/StructProof.v
theories/PropStruct.v
theories/PropGeneric.v
theories/Alias.v
theories/AliasProgs.v
theories/PropAlias.v
theories/Client.v
theories/CgClient.v
theories/MrClient.v
theories/LsClient.v
theories/ClientReal.v
theories/PropClient.v
theories/PropEnd.v
theories/CplxSolve.v
theories/CplxScale.v
theories/PropComplex.v
theories/Cheb.v
theories/PropRate.v
theories/RateMath.v
theories/RateStop.v
theories/MinresStop.v
theories/PropRateLs.v
theories/RankMath.v
theories/PropRank.v
theories/PropEnd2.v
theories/PropIndex.v
theories/PyModel.v
theories/PyProof.v
theories/PropPy.v
theories/WrapModel.v
theories/PropWrap.v
theories/PropExactPre.v
theories/PropMinresStop.v
theories/PropCheckC.v
theories/FlArith.v
theories/FlRound.v
theories/PropFloat.v
theories/SaddleMath.v
theories/PropSaddle.v
theories/DtModel.v
theories/DtReach.v
theories/PropDtype.v
theories/PropDtypeWhere.v
theories/Grade.v
theories/GradeLls.v
theories/GradeMr.v
theories/GradeInst.v
theories/MinresEarly.v
theories/PropScale.v
theories/CraigNorms.v
theories/PropCraigNorms.v
theories/AnormLs.v
theories/AnormLm.v
theories/Backward.v
theories/PropAnorm.v
theories/AcondLs.v
theories/AcondLm.v
theories/PropAcond.v
theories/MinresEst.v
theories/MinresOrth.v
theories/PropMinresEst.v
theories/SymEst.v
theories/PropSymEst.v
theories/LbfgsConj.v
theories/PropLbfgsConj.v
theories/EstPre.v
theories/PropMinresEstPre.v
theories/PropSymEstPre.v
theories/PropLsEstPre.v
theories/PropCraigNormsPre.v
theories/PropFloatKry.v
theories/PropGalleryLen.v
theories/PropFloorCgs.v
theories/PropCoordEmpty.v
theories/PropPoisson.v
theories/PropPoissonMr.v
theories/PropPoissonEig.v
theories/PropPoissonFl.v
