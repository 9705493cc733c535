-Q theories Verif
theories/Base.v
theories/BaseFacts.v
theories/Spec.v
theories/SpecFacts.v
theories/EllpackModel.v
theories/EllpackSpec.v
theories/EllpackFacts.v
theories/EllpackOps.v
theories/EllpackArith.v
theories/EllpackMul.v
theories/EllpackMore.v
theories/EllpackMul2.v
theories/EllpackExact.v
theories/EllpackRest.v
theories/EllpackNorm.v
theories/EllpackReorder.v
theories/EllpackTrans.v
theories/EllpackAdjust.v
theories/EllpackHistModel.v
theories/EllpackHist.v
theories/RealSpec.v
theories/GershModel.v
theories/GershFacts.v
theories/CsrModel.v
theories/CsrSpec.v
theories/CsrFacts.v
theories/CsrOps.v
theories/CsrMul.v
theories/CsrHash.v
theories/CsrMore.v
theories/CsrTrans.v
theories/CsrTop.v
theories/CsrGershModel.v
theories/CsrGersh.v
theories/CsrReal.v
theories/CsrHistModel.v
theories/CsrHist.v
theories/CsrRoom.v
theories/GemmModel.v
theories/DenseModel.v
theories/DenseSpec.v
theories/GemmFacts.v
theories/DenseFacts.v
theories/DenseOps.v
theories/DenseRealModel.v
theories/DenseReal.v
theories/DomainModel.v
theories/DomainSpec.v
theories/DomainFacts.v
theories/FormatModel.v
theories/FormatSpec.v
theories/FormatFacts.v
theories/FormatConv.v
theories/FormatHistModel.v
theories/FormatHistSpec.v
theories/FormatHist.v
theories/MpiModel.v
theories/MpiSpec.v
theories/MpiFacts.v
theories/MpiRun.v
theories/Dist2dModel.v
theories/Dist2dSpec.v
theories/Dist2dLocal.v
theories/Dist2dFacts.v
theories/Dist2dCannon.v
theories/Dist2dOps.v
theories/Dist2dMore.v
theories/Dist2dIO.v
theories/EllblockModel.v
theories/EllblockSpec.v
theories/EllblockFacts.v
theories/EllblockHeap.v
theories/EllblockRead.v
theories/EllblockBuild.v
theories/EllblockMake.v
theories/EllblockSet.v
theories/EllblockCopy.v
theories/EllblockWork.v
theories/EllblockAdd.v
theories/EllblockAddNormModel.v
theories/EllblockAddNorm.v
theories/EllblockAddNormSpec.v
theories/EllblockAddNormTotal.v
theories/EllblockAddNormCheck.v
theories/EllblockMul.v
theories/EllblockProd.v
theories/EllblockPtr.v
theories/EllblockConv.v
theories/EllblockTrans.v
theories/EllblockNorm.v
theories/EllblockHist.v
theories/SubModel.v
theories/SubSpec.v
theories/SubIndex.v
theories/SubBlock.v
theories/SubSame.v
theories/SubAdj.v
theories/SubGroup.v
theories/EllpackCheck.v
theories/EllblockCheck.v
theories/EllpackCheck2.v
theories/CsrCheck.v
theories/DenseCheck.v
theories/PropsEllpack.v
theories/PropsEllpack2.v
theories/PropsCsr.v
theories/PropsDense.v
theories/RealCheck.v
theories/PropsReal.v
theories/CsrRealCheck.v
theories/PropsCsrReal.v
theories/DenseRealCheck.v
theories/PropsDenseReal.v
theories/PropsDomain.v
theories/FormatCheck.v
theories/PropsFormat.v
theories/Dist2dCheck.v
theories/EllpackRandom.v
theories/Dist2dRestModel.v
theories/Dist2dRest.v
theories/Dist2dReal.v
theories/Dist2dRealCheck.v
theories/PropsMpi.v
theories/PropsDist2d.v
theories/PropsEllblock.v
theories/SubCheck.v
theories/PropsSub.v
theories/MmModel.v
theories/MmSpec.v
theories/MmFacts.v
theories/MmCheck.v
theories/PropsMm.v
theories/PropsDist2dReal.v
theories/PropsRandom.v
theories/RowModel.v
theories/RowSpec.v
theories/RowFacts.v
theories/RowLocal.v
theories/RowOps.v
theories/RowMore.v
theories/RowDense.v
theories/RowRealModel.v
theories/RowReal.v
theories/RowCheck.v
theories/RowRealCheck.v
theories/PropsRow.v
theories/EllblockRealModel.v
theories/EllblockReal.v
theories/EllblockRealCheck.v
theories/PropsEllblockReal.v
theories/EllblockSubModel.v
theories/EllblockSubSpec.v
theories/EllblockSub.v
theories/EllblockSubCheck.v
theories/PropsEllblockSub.v
theories/PropsEllblockAddNorm.v
theories/LapackModel.v
theories/LapackSpec.v
theories/LapackFacts.v
theories/LapackCheck.v
theories/PropsLapack.v
theories/FortranModel.v
theories/FortranSpec.v
theories/FortranFacts.v
theories/FortranVars.v
theories/FortranCheck.v
theories/PropsFortran.v
theories/ProgSpec.v
theories/ProgFacts.v
theories/EbProgModel.v
theories/EbProgSpec.v
theories/EbProgFacts.v
theories/EbConv.v
theories/EbProgCheck.v
theories/PropsProg.v
theories/FpModel.v
theories/FpSpec.v
theories/FpFacts.v
theories/FpKernels.v
theories/FpGemm.v
theories/FpEll.v
theories/FpExact.v
theories/FpCheck.v
theories/PropsFp.v
theories/MemModel.v
theories/MemSpec.v
theories/MemFacts.v
theories/MemProg.v
theories/EllblockMemModel.v
theories/EllblockMemSpec.v
theories/EllblockMem.v
theories/MemThms.v
theories/PropsMem.v
theories/IntModel.v
theories/IntSpec.v
theories/IntFacts.v
theories/PropsInt.v
theories/EllblockFnorm2.v
theories/MiscFacts.v
theories/PropsMisc.v
theories/ThreadModel.v
theories/ThreadFacts.v
theories/ThreadLocks.v
theories/RaceModel.v
theories/RaceSpec.v
theories/RaceSim.v
theories/RaceLoops.v
theories/RacePar.v
theories/RaceEll.v
theories/RaceEll2.v
theories/RaceEll3.v
theories/RaceTranspose.v
theories/RaceMain.v
theories/RaceCheck.v
theories/RaceModel2.v
theories/RaceX2.v
theories/RaceCheck2.v
theories/RaceDense.v
theories/RaceCheck3.v
theories/RaceModel3.v
theories/RaceSpec3.v
theories/RaceCsr.v
theories/RaceCsr2.v
theories/RaceCheck4.v
theories/RaceModel4.v
theories/RaceGersh.v
theories/RaceCheck5.v
theories/PropsRace.v
theories/MmFpModel.v
theories/MmFpFacts.v
theories/MmFpMat.v
theories/MmFpCheck.v
theories/PropsMmFp.v
