-Q theories Verif
theories/Base.v
theories/Scalar.v
theories/ScalarReal.v
theories/Spec.v
theories/Items.v
theories/Csc.v
theories/CscProof.v
theories/Sort.v
theories/SortProof.v
theories/SortJadProof.v
theories/Coo.v
theories/CooProof.v
theories/Fmt.v
theories/ConvFinal.v
theories/Dns.v
theories/DnsProof.v
theories/Ell.v
theories/EllProof.v
theories/Msr.v
theories/MsrProof.v
theories/Dia.v
theories/DiaProof.v
theories/Jad.v
theories/JadProof.v
theories/Bsr.v
theories/Vbr.v
theories/Assemble.v
theories/SpecAssemble.v
theories/AssembleProof.v
theories/Matvec.v
theories/MatvecProof.v
theories/MatvecProof2.v
theories/MatvecFinal.v
theories/FmtFinal.v
theories/System.v
theories/SpecSystem.v
theories/SystemProof.v
theories/Memory.v
theories/SpecMemory.v
theories/MemoryProof.v
theories/Args.v
theories/SpecArgs.v
theories/ArgsProof.v
theories/Options.v
theories/SpecOptions.v
theories/OptionsProof.v
theories/Omp.v
theories/OmpProof.v
theories/Vector.v
theories/SpecVector.v
theories/VectorProof.v
theories/OmpMatvec.v
theories/OmpMatvecProof.v
theories/SpecDiag.v
theories/Diag.v
theories/DiagProof.v
theories/DiagProof2.v
theories/Split.v
theories/SpecSplit.v
theories/SplitProof.v
theories/SplitProof2.v
theories/Transpose.v
theories/TransposeProof.v
theories/SpecSolver.v
theories/Krylov.v
theories/KrylovProof.v
theories/Krylov2.v
theories/Solve.v
theories/KrylovFinal.v
theories/SpecSolve.v
theories/SolveProof.v
theories/StationaryProof.v
theories/SolverFinal.v
theories/SpecArray.v
theories/Array.v
theories/ArrayProof.v
theories/LuProof.v
theories/LuFinal.v
theories/Gs.v
theories/GsProof.v
theories/ScalarCQ.v
theories/ArrayElem.v
theories/ArrayElemProof.v
theories/ArrayFinal.v
theories/Net.v
theories/NetProof.v
theories/Mpi.v
theories/SpecMpi.v
theories/G2lProof.v
theories/MpiProof.v
theories/MpiFinal.v
theories/Ilu.v
theories/SpecIlu.v
theories/IluProof.v
theories/IluProof2.v
theories/IluFinal.v
theories/Precon.v
theories/SpecPrecon.v
theories/PreconProof.v
theories/Copy.v
theories/SpecCopy.v
theories/CopyProof.v
theories/CopyFinal.v
theories/SpecEsolver.v
theories/RealVec.v
theories/Esolver.v
theories/EsolverTerms.v
theories/EsolverProof.v
theories/EsolverProof2.v
theories/EsolverProof3.v
theories/EsolverFinal.v
theories/BlkProof.v
theories/BlkFill.v
theories/BsrProof.v
theories/BsrFinal.v
theories/Unblk.v
theories/VbrProof.v
theories/VbrFinal.v
theories/VbrAuto.v
theories/BlockFinal.v
theories/Convert.v
theories/SpecConvert.v
theories/ConvertExact.v
theories/ConvertFinal.v
theories/Io.v
theories/SpecIo.v
theories/IoProof.v
theories/IoFinal.v
theories/IoFinal2.v
theories/IoFinal3.v
theories/IoSafe.v
theories/Quad.v
theories/QuadReal.v
theories/QuadSqr.v
theories/QuadAcc.v
theories/QuadDiv.v
theories/QuadSqrt.v
theories/SpecQuad.v
theories/QuadB64.v
theories/QuadB64b.v
theories/QuadFinal.v
theories/QuadFinal2.v
theories/SpecQuadVec.v
theories/QuadVec.v
theories/QuadVecOp.v
theories/QuadVecSum.v
theories/QuadVecProof.v
theories/QuadVecMv.v
theories/QuadVecFinal.v
theories/QuadVecFinal2.v
theories/QuadVecFinal3.v
theories/Lindep.v
theories/BiorthProof.v
theories/SpecTerm.v
theories/TermProof.v
theories/TermFinal.v
theories/SpecGmres.v
theories/Gmres.v
theories/GmresMath.v
theories/GmresProof.v
theories/GmresLoop.v
theories/GmresCycle.v
theories/FgmresCycle.v
theories/GmresOuter.v
theories/GmresFinal.v
theories/GmresSolve.v
theories/SpecStat.v
theories/StatRun.v
theories/StatConv.v
theories/StatFinal.v
theories/Krylov3.v
theories/IdrProof.v
theories/BlProof.v
theories/MinresMath.v
theories/MinresProof.v
theories/TfProof.v
theories/SpecMore.v
theories/MoreFinal.v
theories/MinresFinal.v
theories/SplitFmt.v
theories/SpecSplitFmt.v
theories/TriLoops.v
theories/TriLines.v
theories/TriSolve.v
theories/TriFill.v
theories/SplitMsr.v
theories/SplitCsc.v
theories/SplitEll.v
theories/SplitDia.v
theories/Ilut.v
theories/SpecIlut.v
theories/IlutProof.v
theories/IlutElim.v
theories/IlutRow.v
theories/IlutRow2.v
theories/IlutFinal.v
theories/IlutEnd.v
theories/IoRej.v
theories/Sainv.v
theories/SpecSainv.v
theories/SainvMath.v
theories/SainvRow.v
theories/SainvStep.v
theories/SainvLoop.v
theories/SainvFinal.v
theories/Isp.v
theories/SpecIsp.v
theories/IspApply.v
theories/AddsProof.v
theories/IspCount.v
theories/IspFill.v
theories/IspFill2.v
theories/IspCreate.v
theories/IspFinal.v
theories/Hybrid.v
theories/SpecHybrid.v
theories/HybridProof.v
theories/Iluc.v
theories/IlucLists.v
theories/IlucAcc.v
theories/IlucElim.v
theories/IlucDrop.v
theories/IlucStep.v
theories/SpecIluc.v
theories/IlucCreate.v
theories/IlucFinal.v
theories/IlucReal.v
theories/EsolverSub.v
theories/SpecSub.v
theories/EsubTerms.v
theories/EsiProof.v
theories/SubFinal.v
theories/LanProof.v
theories/LanFinal.v
theories/ArnProof.v
theories/SubFinal2.v
theories/QrZero.v
theories/EaiNever.v
theories/Diag2.v
theories/SpecDiag2.v
theories/DiagProof3.v
theories/DiagProof4.v
theories/DiagProof5.v
theories/DiagProof6.v
theories/MatAxpy.v
theories/SpecMatAxpy.v
theories/MatAxpyProof.v
theories/Gesolver.v
theories/SpecGesolver.v
theories/GesTerms.v
theories/GesProof.v
theories/GesProof2.v
theories/GesMath.v
theories/GesFinal.v
theories/Hb.v
theories/SpecHb.v
theories/HbProof.v
theories/HbData.v
theories/HbCut.v
theories/HbFiles.v
theories/SpecTfqmr.v
theories/TfMath.v
theories/TfFinal.v
theories/BsrSolve.v
theories/SpecBsrSolve.v
theories/BsrTri.v
theories/BsrSplit.v
theories/BsrSplit2.v
theories/BsrMerge.v
theories/BsrEnd.v
theories/BsrEnd2.v
theories/BsrEnd3.v
theories/BsrEnd4.v
theories/BsrSolveH.v
theories/SpecBsrSolveH.v
theories/BsrTriH.v
theories/BsrEndH.v
theories/BscSolve.v
theories/SpecBscSolve.v
theories/BscProofS.v
theories/JadSolve.v
theories/SpecJadSolve.v
theories/JadLay.v
theories/JadSplitP.v
theories/JadWalk.v
theories/JadOut.v
theories/JadMerge.v
theories/JadEnd.v
theories/VbrSplit.v
theories/SpecVbrSplit.v
theories/VbrSplitP.v
theories/VbrSolve.v
theories/SpecVbrSolve.v
theories/VbrTri.v
theories/VbrEnd.v
theories/VbrOut.v
theories/BscSolveH.v
theories/BscEndH.v
theories/Rhist.v
theories/SpecRhist.v
theories/RhistP.v
theories/Properties_Sort.v
theories/Properties_Formats.v
theories/Properties_Matvec.v
theories/Properties_Assemble.v
theories/Properties_System.v
theories/Properties_Options.v
theories/Properties_Vector.v
theories/Properties_Omp.v
theories/Properties_Diag.v
theories/Properties_Split.v
theories/Properties_Solver.v
theories/Properties_Array.v
theories/Properties_Mpi.v
theories/Properties_Precon.v
theories/Properties_Copy.v
theories/Properties_Esolver.v
theories/Properties_Block.v
theories/Properties_Convert.v
theories/Properties_Io.v
theories/Properties_Quad.v
theories/Properties_QuadVec.v
theories/Properties_Term.v
theories/Properties_Gmres.v
theories/Properties_Stat.v
theories/Properties_More.v
theories/Properties_SplitFmt.v
theories/Properties_Ilut.v
theories/Properties_Sainv.v
theories/Properties_Isp.v
theories/Properties_Hybrid.v
theories/Properties_Iluc.v
theories/Properties_Esub.v
theories/Properties_Diag2.v
theories/Properties_Axpy.v
theories/Properties_Gesolver.v
theories/Properties_Hb.v
theories/Properties_Tfqmr.v
theories/Properties_BsrSolve.v
theories/Properties_BsrSolveH.v
theories/Properties_BscSolve.v
theories/Properties_JadSolve.v
theories/Properties_VbrSplit.v
theories/Properties_VbrSolve.v
theories/Properties_BscSolveH.v
theories/Properties_Rhist.v
