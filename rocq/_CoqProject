-Q theories Verif
theories/Align.v
theories/BandCH.v
theories/BandCHDivProofs.v
theories/BandCHProofs.v
theories/BandLDLProofs.v
theories/BandLU.v
theories/BandLUDiv.v
theories/BandQR.v
theories/BandQRProofs.v
theories/BandTri.v
theories/Base.v
theories/Bidiag.v
theories/Bidiag22.v
theories/BidiagFinal.v
theories/BidiagIter.v
theories/BidiagLoop.v
theories/BidiagProofs.v
theories/BidiagQR.v
theories/BidiagQRProofs.v
theories/BidiagSweep.v
theories/Chol.v
theories/CholDiv.v
theories/Claims_Align.v
theories/Claims_BandCH.v
theories/Claims_BandLU.v
theories/Claims_BandQR.v
theories/Claims_Bidiag.v
theories/Claims_Chol.v
theories/Claims_Cplx.v
theories/Claims_Div.v
theories/Claims_Eigen.v
theories/Claims_Givens.v
theories/Claims_HermSVD.v
theories/Claims_HermSVDecompose.v
theories/Claims_IO.v
theories/Claims_IOMat.v
theories/Claims_IntDet.v
theories/Claims_LDL.v
theories/Claims_LDLDiv.v
theories/Claims_LU.v
theories/Claims_LogDet.v
theories/Claims_MatMat.v
theories/Claims_MatVec.v
theories/Claims_MatView.v
theories/Claims_Perm.v
theories/Claims_PermHeap.v
theories/Claims_PermMx.v
theories/Claims_Polar.v
theories/Claims_QR.v
theories/Claims_QRP.v
theories/Claims_QRPDiv.v
theories/Claims_QRUpdate.v
theories/Claims_SVD.v
theories/Claims_SVDecompose.v
theories/Claims_Sort.v
theories/Claims_Storage.v
theories/Claims_SymRank.v
theories/Claims_SymSquare.v
theories/Claims_Tri.v
theories/Claims_VecArith.v
theories/Claims_VecMore.v
theories/Claims_VecOps.v
theories/Claims_VecScan.v
theories/Claims_VecView.v
theories/Cplx.v
theories/DivHelper.v
theories/Eigen2.v
theories/FMat.v
theories/Givens.v
theories/HermSVD.v
theories/HermSVDecompose.v
theories/IO.v
theories/IOMat.v
theories/IOProofs.v
theories/IOSpecial.v
theories/IOTri.v
theories/IOVec.v
theories/IntDet.v
theories/LDL.v
theories/LDLDiv.v
theories/LDLInv.v
theories/LDLProofs.v
theories/LU.v
theories/LUATA.v
theories/LUDiv.v
theories/LUProofs.v
theories/LogDet.v
theories/MatMat.v
theories/MatMatBlock.v
theories/MatMatCplx.v
theories/MatMatMain.v
theories/MatMatProofs.v
theories/MatMem.v
theories/MatVec.v
theories/MatVecProofs.v
theories/MatView.v
theories/Perm.v
theories/PermHeap.v
theories/PermMC.v
theories/PermMat.v
theories/PermMatMC.v
theories/PermProofs.v
theories/PermSpec.v
theories/Polar.v
theories/QR.v
theories/QRDiv.v
theories/QRDivProofs.v
theories/QRDownProofs.v
theories/QRP.v
theories/QRPBad.v
theories/QRPBad2.v
theories/QRPDiv.v
theories/QRPDivProofs.v
theories/QRPFinal.v
theories/QRPLoop.v
theories/QRPLoose.v
theories/QRPPerm.v
theories/QRPProofs.v
theories/QRPStrict.v
theories/QRProofs.v
theories/QRUpdate.v
theories/QRUpdateProofs.v
theories/RingTac.v
theories/RowPerm.v
theories/SVDecompose.v
theories/SVDiv.v
theories/SVDivProofs.v
theories/SVSort.v
theories/Scal.v
theories/ScalC.v
theories/Sort.v
theories/Storage.v
theories/SymRank.v
theories/SymRankK.v
theories/SymRankProofs.v
theories/SymSquare.v
theories/TriAlias.v
theories/TriInv.v
theories/TriSolve.v
theories/Tridiag.v
theories/TridiagFinal.v
theories/TridiagProofs.v
theories/TridiagQR.v
theories/TridiagQRProofs.v
theories/VecArithProofs.v
theories/VecMore.v
theories/VecOps.v
theories/VecOpsProofs.v
theories/VecPermProofs.v
theories/VecScan.v
theories/VecView.v
