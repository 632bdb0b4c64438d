-Q theories Verif
theories/Base.v
theories/Tables.v
theories/Bits.v
theories/SpecBits.v
theories/RankSelect.v
theories/BitsProofs.v
theories/BitsProofs2.v
theories/BitsProofs3.v
theories/BitsProofs4.v
theories/BitsMem.v
theories/BitsCnt32.v
theories/PropBits.v
theories/IntVector.v
theories/SpecIntVector.v
theories/IntVectorProofs.v
theories/IntVectorProofs2.v
theories/IntVectorProofs3.v
theories/IntVectorProofs4.v
theories/PropIntVector.v
theories/SpecRank.v
theories/RankSupport.v
theories/RankSupportProofs.v
theories/RankSupportProofs2.v
theories/PropRank.v
theories/AbsVec.v
theories/SelectSupport.v
theories/SelectSupportProofs.v
theories/SelectSupportProofs2.v
theories/SelectSupportProofs3.v
theories/SelectSupportProofs4.v
theories/PropSelect.v
theories/SdVector.v
theories/SpecSd.v
theories/SdVectorProofs.v
theories/SdVectorProofs2.v
theories/SdVectorProofs3.v
theories/SdVectorProofs4.v
theories/PropSd.v
theories/Coder.v
theories/SpecCoder.v
theories/CoderProofs.v
theories/CoderProofs2.v
theories/CoderProofs3.v
theories/CoderComma.v
theories/CoderCommaProofs.v
theories/CoderProofs4.v
theories/PropCoder.v
theories/EncVector.v
theories/SpecEnc.v
theories/EncVectorProofs.v
theories/EncVectorProofs2.v
theories/EncVectorProofs3.v
theories/VlcVectorProofs.v
theories/PropEnc.v
theories/RrrHelper.v
theories/SpecRrr.v
theories/RrrProofs.v
theories/RrrProofs2.v
theories/RrrProofs3.v
theories/RrrVector.v
theories/FnArr.v
theories/RrrProofs4.v
theories/RrrProofs5.v
theories/RrrProofs6.v
theories/PropRrr.v
theories/SpecStack.v
theories/Stacks.v
theories/StackProofs.v
theories/StackProofs2.v
theories/PropStack.v
theories/InvPerm.v
theories/InvPermProofs.v
theories/PropInvPerm.v
theories/NnDict.v
theories/SpecNn.v
theories/NnDictProofs.v
theories/NnDictProofs2.v
theories/NnDictProofs3.v
theories/PropNn.v
theories/IvBuffer.v
theories/SpecIvb.v
theories/IvBufferProofs.v
theories/IvBufferProofs2.v
theories/IvBufferProofs3.v
theories/PropIvb.v
theories/WtBase.v
theories/WtInt.v
theories/SpecWt.v
theories/WtProofs.v
theories/WtIntProofs.v
theories/WtIntProofs2.v
theories/WtIntProofs3.v
theories/WtIntProofs4.v
theories/WtIntProofs5.v
theories/WtIntProofs6.v
theories/PropWt.v
theories/WmInt.v
theories/WmIntProofs.v
theories/SpecWtAlg.v
theories/WmIntProofs2.v
theories/WtAlg.v
theories/WtAlgProofs.v
theories/WtAlgProofs2.v
theories/WtAlgProofs3.v
theories/WmIntProofs3.v
theories/WmIntProofs4.v
theories/PropWm.v
theories/PropWtAlg.v
theories/BvIl.v
theories/BvIlProofs.v
theories/BvIlProofs2.v
theories/BvIlProofs3.v
theories/PropIl.v
theories/Wide.v
theories/SpecWide.v
theories/WideProofs.v
theories/WideProofs2.v
theories/PropWide.v
theories/Dac.v
theories/DacProofs.v
theories/DacProofs2.v
theories/PropDac.v
theories/Hugepage.v
theories/SpecHuge.v
theories/HugepageProofs.v
theories/HugepageProofs2.v
theories/HugepageProofs3.v
theories/HugepageProofs4.v
theories/PropHuge.v
theories/RamFs.v
theories/SpecRamFs.v
theories/RamFsProofs.v
theories/PropRamFs.v
theories/Rmq.v
theories/SpecRmq.v
theories/RmqProofs.v
theories/PropRmq.v
theories/Bp.v
theories/SpecBp.v
theories/BpProofs.v
theories/BpProofs2.v
theories/BpProofs3.v
theories/BpProofs4.v
theories/BpProofs5.v
theories/PropBp.v
theories/SpecCsa.v
theories/Alphabet.v
theories/AlphabetProofs.v
theories/AlphabetProofs2.v
theories/Csa.v
theories/CsaSample.v
theories/CsaProofs.v
theories/CsaProofs2.v
theories/CsaProofs3.v
theories/CsaProofs4.v
theories/CsaProofs5.v
theories/CsaProofs6.v
theories/PropCsa.v
theories/SpecBidir.v
theories/Bidir.v
theories/BidirProofs.v
theories/PropBidir.v
theories/WtPc.v
theories/WtPcProofs.v
theories/WtPcQ.v
theories/WtPcLex.v
theories/WtPcLay.v
theories/WtPcBuild.v
theories/WtPcShape.v
theories/WtPcAll.v
theories/PropWtPc.v
theories/SpecTree.v
theories/Louds.v
theories/LoudsProofs.v
theories/PropLouds.v
theories/SpecLcp.v
theories/Lcp.v
theories/LcpProofs.v
theories/LcpRep.v
theories/PropLcp.v
theories/SpecK2.v
theories/K2Tree.v
theories/K2Proofs.v
theories/K2Build.v
theories/K2Sort.v
theories/K2Edges.v
theories/PropK2.v
theories/SpecTreap.v
theories/K2Treap.v
theories/K2TreapProofs.v
theories/K2TreapLevels.v
theories/K2TreapNodes.v
theories/K2TreapQ.v
theories/K2TreapTop.v
theories/PropTreap.v
theories/SpecFib.v
theories/CoderFib.v
theories/CoderFibProofs.v
theories/CoderFibProofs2.v
theories/CoderFibProofs3.v
theories/CoderFibProofs4.v
theories/CoderFibProofs5.v
theories/PropFib.v
theories/SpecBpRmq.v
theories/BpRmq.v
theories/BpRmqProofs.v
theories/BpRmqProofs2.v
theories/BpRmqProofs3.v
theories/BpRmqProofs4.v
theories/BpRmqProofs5.v
theories/BpRmqProofs6.v
theories/BpRmqProofs7.v
theories/PropBpRmq.v
theories/RmqSada.v
theories/RmqSadaProofs.v
theories/PropRmqSada.v
theories/SpecCst.v
theories/Cst.v
theories/CstProofs.v
theories/CstProofs2.v
theories/CstProofs3.v
theories/CstProofs5.v
theories/CstProofs4.v
theories/CstProofs6.v
theories/CstProofs7.v
theories/PropCst.v
theories/CstText.v
theories/SpecCstText.v
theories/CstTextProofs.v
theories/CstTextProofs2.v
theories/CstTextProofs3.v
theories/PropCstText.v
theories/Rlmn.v
theories/RlmnProofs.v
theories/PropRlmn.v
theories/SpecCstIter.v
theories/CstIter.v
theories/CstIterProofs.v
theories/CstIterProofs2.v
theories/PropCstIter.v
theories/Wtap.v
theories/WtapProofs.v
theories/PropWtap.v
theories/Gmr.v
theories/GmrProofs.v
theories/GmrProofs2.v
theories/PropGmr.v
theories/MultiPerm.v
theories/MultiPermProofs.v
theories/PropMultiPerm.v
theories/Gmr2.v
theories/Gmr2Proofs.v
theories/Gmr2Proofs2.v
theories/PropGmr2.v
theories/Life.v
theories/SpecLife.v
theories/LifeProofs.v
theories/PropLife.v
theories/LifeIO.v
theories/SpecLifeIO.v
theories/LifeIOProofs.v
theories/PropLifeIO.v
theories/Own.v
theories/OwnProofs.v
theories/PropOwn.v
theories/IvMem.v
theories/SpecIvMem.v
theories/IvMemProofs.v
theories/PropIvMem.v
theories/MemMon.v
theories/SpecMemMon.v
theories/MemMonProofs.v
theories/PropMemMon.v
theories/SpinLock.v
theories/SpecSpinLock.v
theories/SpinLockProofs.v
theories/PropSpinLock.v
theories/TmpFile.v
theories/TmpFileProofs.v
theories/PropTmpFile.v
theories/Cache.v
theories/SpecCache.v
theories/CacheProofs.v
theories/PropCache.v
