-Q theories Verif
theories/Base.v
theories/BaseLemmas.v
theories/Sort.v
theories/SortSpec.v
theories/SortLemmas.v
theories/SortMergeProof.v
theories/SortHeapProof.v
theories/SortRadixProof.v
theories/SortProof.v
theories/Sarray.v
theories/SarraySpec.v
theories/SarrayProof.v
theories/SarrayExtra.v
theories/Properties_Sort.v
theories/Net.v
theories/NetProof.v
theories/NetExtra.v
theories/Properties_Net.v
theories/Ops.v
theories/OpsSpec.v
theories/OpsProof.v
theories/Kernels.v
theories/KernelSpec.v
theories/KernelProof.v
theories/Properties_Kernels.v
theories/Comm.v
theories/CommSpec.v
theories/CommProof.v
theories/Properties_Comm.v
theories/Crystal.v
theories/CrystalSpec.v
theories/CrystalProof.v
theories/Properties_Crystal.v
theories/Transfer.v
theories/TransferSpec.v
theories/TransferProof.v
theories/TransferProof2.v
theories/TransferProof3.v
theories/TransferProof4.v
theories/Properties_Transfer.v
theories/NetOverlap.v
theories/NetWords.v
theories/NetWordsProof.v
theories/ListLemmas.v
theories/GsTop.v
theories/GsSpec.v
theories/GsSortProof.v
theories/GsTopProof1.v
theories/GsTopProof2.v
theories/GsTopProof3.v
theories/GsTopProof4.v
theories/GsExec.v
theories/GsCr.v
theories/Gs.v
theories/GsKernProof.v
theories/GsPwProof1.v
theories/GsPwProof2.v
theories/GsPwProof3.v
theories/GsArProof.v
theories/GsLocalProof.v
theories/GsRunProof.v
theories/GsSetupProof.v
theories/GsCrProof1.v
theories/GsCrProof2.v
theories/GsCrProof3.v
theories/GsCrProof4.v
theories/GsCrProof5.v
theories/GsCrProof6.v
theories/GsSetupProof2.v
theories/GsUniqueProof1.v
theories/GsUniqueProof2.v
theories/GsUniqueProof3.v
theories/GsUniqueProof4.v
theories/GsUserSpec.v
theories/GsUserProof.v
theories/GsUserProof2.v
theories/Properties_Gs.v
theories/GsIgsSpec.v
theories/GsIgsProof.v
theories/GsIgsProof2.v
theories/NetReplay.v
theories/NetReplay2.v
theories/GsIgsProof3.v
theories/Properties_Igs.v
theories/Nonblock.v
theories/NonblockSpec.v
theories/NonblockProof.v
theories/Properties_Nonblock.v
theories/Fortran.v
theories/FortranSpec.v
theories/FortranProof.v
theories/FortranProof2.v
theories/Properties_Fortran.v
theories/Findpts.v
theories/FindptsGlobal.v
theories/FindptsSpec.v
theories/FindptsProof1.v
theories/FindptsProof2.v
theories/FindptsProof3.v
theories/FindptsProof4.v
theories/FindptsProof5.v
theories/FindptsGlobalProof1.v
theories/FindptsGlobalProof2.v
theories/FindptsGlobalProof3.v
theories/FindptsGlobalProof4.v
theories/FindptsSearchProof1.v
theories/FindptsSearchProof2.v
theories/FindptsSearchProof3.v
theories/FindptsSearchProof4.v
theories/FindptsEvalProof.v
theories/FindptsUserSpec.v
theories/FindptsUserProof.v
theories/Properties_Findpts.v
theories/Properties_FindptsGlobal.v
theories/FindptsMs.v
theories/FindptsMsSpec.v
theories/FindptsMsProof1.v
theories/FindptsMsProof2.v
theories/FindptsMsProof3.v
theories/FindptsMsProof4.v
theories/Properties_FindptsMs.v
theories/Mem.v
theories/MemSpec.v
theories/MemProof.v
theories/Properties_Mem.v
theories/Tensor.v
theories/TensorSpec.v
theories/TensorProof.v
theories/Properties_Tensor.v
theories/CommDot.v
theories/CommDotProof.v
theories/Properties_CommDot.v
theories/Poly.v
theories/PolySpec.v
theories/PolyProof1.v
theories/PolyProof2.v
theories/PolyProof3.v
theories/Properties_Poly.v
theories/PolyImpSyntax.v
theories/PolyImp.v
theories/PolyGll.v
theories/PolyGllSpec.v
theories/PolyImpProof.v
theories/PolyGllProof.v
theories/PolyGllCheck.v
theories/PolyGllRoots.v
theories/Properties_PolyGll.v
theories/PolyQuad.v
theories/PolyQuadSpec.v
theories/PolyQuadProof1.v
theories/PolyQuadProof2.v
theories/PolyQuadProof3.v
theories/PolyQuadProof4.v
theories/PolyQuadProof5.v
theories/Properties_PolyQuad.v
theories/LobBnd.v
theories/LobBndSpec.v
theories/LobBndProof1.v
theories/LobBndProof2.v
theories/LobBndProof3.v
theories/LobBndProof4.v
theories/LobBndProof5.v
theories/LobBndProof6.v
theories/LobBndSetupProof1.v
theories/LobBndSetupProof2.v
theories/LobBndSetupProof3.v
theories/LobBndValid1.v
theories/LobBndValid2.v
theories/LobBndValid3.v
theories/RInterval.v
theories/LobBndRefute.v
theories/Properties_LobBnd.v
theories/Obbox.v
theories/ObboxSpec.v
theories/ObboxMax.v
theories/ObboxProof1.v
theories/ObboxProof2.v
theories/ObboxProof3.v
theories/ObboxProof4.v
theories/ObboxProof5.v
theories/ObboxProof6.v
theories/ObboxProof7.v
theories/ObboxRefute.v
theories/Properties_Obbox.v
theories/FindptsEl2.v
theories/FindptsEl2Spec.v
theories/FindptsEl2Proof1.v
theories/FindptsEl2Proof2.v
theories/FindptsEl2Proof3.v
theories/FindptsEl2Proof4.v
theories/FindptsEl2Proof5.v
theories/FindptsEl2Proof6.v
theories/FindptsEl2Proof7.v
theories/FindptsEl2Proof8.v
theories/FindptsEl2Proof9.v
theories/FindptsEl2Proof10.v
theories/FindptsEl2Proof11.v
theories/FindptsEl2Proof12.v
theories/Properties_FindptsEl2.v
theories/FindptsEl3.v
theories/FindptsEl3Spec.v
theories/FindptsEl3Proof1.v
theories/FindptsEl3Proof2.v
theories/FindptsEl3Proof3.v
theories/FindptsEl3Proof4.v
theories/FindptsEl3Proof5.v
theories/FindptsEl3Proof6.v
theories/FindptsEl3Proof7.v
theories/FindptsEl3Proof8.v
theories/FindptsEl3Proof9.v
theories/FindptsEl3Proof10.v
theories/FindptsEl3Proof11.v
theories/Properties_FindptsEl3.v
theories/FindptsCalls.v
theories/FindptsCallsSpec.v
theories/FindptsCallsProof.v
theories/Properties_FindptsCalls.v
theories/Param.v
theories/ParamGs.v
theories/BracketSpec.v
theories/BracketProof.v
theories/CopiesProof.v
theories/BracketProof2.v
theories/BracketRound.v
theories/BracketFew.v
theories/Properties_Bracket.v
theories/HalvingSpec.v
theories/HalvingProof.v
theories/HalvingRound.v
theories/HalvingProof2.v
theories/Properties_Halving.v
theories/ScanSpec.v
theories/ScanProof.v
theories/ScanRound.v
theories/Properties_Scan.v
theories/ArCopiesProof.v
theories/ArCopiesProof2.v
theories/Properties_Copies.v
theories/TensorFold.v
theories/TensorRoundSpec.v
theories/TensorRoundProof.v
theories/TensorRoundProof2.v
theories/Properties_TensorRound.v
theories/PolyRound.v
theories/PolyRoundProof1.v
theories/PolyRoundSpec.v
theories/PolyRoundProof2.v
theories/PolyRoundProof3.v
theories/Properties_PolyRound.v
theories/PolyGllRound.v
theories/PolyGllRoundSpec.v
theories/PolyGllRoundProof1.v
theories/PolyGllRoundProof2.v
theories/PolyGllRoundProof3.v
theories/Properties_PolyGllRound.v
theories/PolyGen.v
theories/PolyGenSpec.v
theories/PolyGenProof1.v
theories/PolyGenProof2.v
theories/PolyGenProof3.v
theories/PolyGenNodes.v
theories/PolyGenNodesProof.v
theories/Properties_PolyGen.v
theories/PolyNewton.v
theories/PolyNewtonProof1.v
theories/PolyNewtonProof2.v
theories/PolyNewtonProof3.v
theories/PolyNewtonProof4.v
theories/PolyNewtonProof5.v
theories/PolyNewtonProof6.v
theories/Properties_PolyNewton.v
theories/Binary64.v
theories/Binary64Proof.v
theories/Properties_Binary64.v
theories/CommLife.v
theories/CommLifeSpec.v
theories/CommLifeProof.v
theories/Properties_CommLife.v
theories/GsMem.v
theories/GsMemSpec.v
theories/GsMemProof.v
theories/Properties_GsMem.v
