-Q theories Verif
theories/Bytes.v
theories/OMap.v
theories/Core.v
theories/IdType.v
theories/Store.v
theories/Mem.v
theories/BytesFacts.v
theories/OMapFacts.v
theories/IdTypeFacts.v
theories/Spec.v
theories/History.v
theories/MemFacts.v
theories/CodecFacts.v
theories/Prop_Codec.v
theories/ListFacts.v
theories/MemSim.v
theories/MemSetFacts.v
theories/MemTop.v
theories/EqFacts.v
theories/CoreFacts.v
theories/Prop_Core.v
theories/Ex.v
theories/Prop_MemOps.v
theories/MemCases.v
theories/Prop_MemSets.v
theories/Prop_MemQuery.v
theories/Prop_Eq.v
theories/IdGen.v
theories/MemIndex.v
theories/GenSpec.v
theories/IdGenFacts.v
theories/Prop_IdGen.v
theories/Prop_Index.v
theories/Prog.v
theories/Sled.v
theories/ProgFacts.v
theories/SledHistory.v
theories/SledDb.v
theories/SledOps.v
theories/SledBulk.v
theories/SledRun.v
theories/SledRead.v
theories/SledTop.v
theories/SledMain.v
theories/SledCrash.v
theories/SledTables.v
theories/ExSled.v
theories/Prop_SledHistory.v
theories/Prop_SledCrash.v
theories/SledAny.v
theories/SledLeak.v
theories/SledLeakAny.v
theories/Prop_SledLeak.v
theories/Prop_SledTables.v
theories/SledSched.v
theories/SledIndex.v
theories/SledIndexFacts.v
theories/Prop_SledIndex.v
theories/SledConc.v
theories/SledLeaf.v
theories/SledConcRm.v
theories/SledConcTop.v
theories/Prop_SledConc.v
theories/Prop_SledConcRm.v
theories/SledLeafFacts.v
theories/Prop_SledLeaf.v
theories/SledBeside.v
theories/SledRely.v
theories/SledOwn.v
theories/SledOwnOps.v
theories/SledBesideTop.v
theories/SledReaders.v
theories/SledReadTop.v
theories/Prop_SledReader.v
theories/Rdf.v
theories/RdfSpec.v
theories/RdfFacts.v
theories/RdfTop.v
theories/RdfQuery.v
theories/RdfIter.v
theories/RdfSled.v
theories/RdfSledSpec.v
theories/RdfSledSafe.v
theories/RdfSledConc.v
theories/RdfSledTop.v
theories/RdfSledRead.v
theories/RdfSledBlame.v
theories/RdfSledMain.v
theories/RdfSledRace.v
theories/Prop_Rdf.v
theories/Prop_RdfSled.v
theories/RdfSledLeaf.v
theories/RdfSledOwn.v
theories/RdfSledReaders.v
theories/RdfSledReadTop.v
theories/RdfSledExact.v
theories/RdfSledExactTop.v
theories/RdfSledQuery.v
theories/RdfSledQueryTop.v
theories/Prop_RdfSledReader.v
theories/Prop_RdfSledQuery.v
theories/Prop_Spared.v
theories/Conformance.v
theories/SledTornSpec.v
theories/SledTorn.v
theories/SledTornTop.v
theories/Prop_SledTorn.v
theories/Debug.v
theories/DebugSpec.v
theories/DebugFacts.v
theories/DebugSled.v
theories/DebugHash.v
theories/Prop_Debug.v
theories/LawSpec.v
theories/LawFacts.v
theories/Prop_Laws.v
theories/RdfCopySpec.v
theories/RdfCopyFacts.v
theories/Prop_RdfCopy.v
theories/SledOpen.v
theories/SledOpenFacts.v
theories/Prop_SledOpen.v
theories/SledMixSpec.v
theories/SledMixTree.v
theories/SledMixStep.v
theories/SledMixTop.v
theories/SledMixMain.v
theories/Prop_SledMix.v
theories/SledLazy.v
theories/SledLazyFacts.v
theories/SledLazyTop.v
theories/Prop_SledLazy.v
theories/SledCopy.v
theories/SledCopyFacts.v
theories/SledCopyTop.v
theories/Prop_SledCopy.v
theories/SledSetLive.v
theories/SledSetLiveFacts.v
theories/SledSetLiveTop.v
theories/Prop_SledSetLive.v
theories/SledEqLive.v
theories/SledEqLiveFacts.v
theories/SledEqLiveTop.v
theories/Prop_SledEqLive.v
theories/SledCrowd.v
theories/SledTame.v
theories/Prop_SledCrowd.v
theories/RdfSledMixSpec.v
theories/RdfSledMixSim.v
theories/RdfSledMixOk.v
theories/RdfSledMixRun.v
theories/RdfSledMixAll.v
theories/RdfSledMixTop.v
theories/RdfSledMixMain.v
theories/Prop_RdfSledMix.v
theories/RdfSledLazy.v
theories/RdfSledLazyFacts.v
theories/RdfSledLazyTop.v
theories/Prop_RdfSledLazy.v
theories/RdfAny.v
theories/RdfAnySpec.v
theories/RdfAnyFacts.v
theories/RdfAnyTop.v
theories/RdfAnyLaws.v
theories/RdfAnyMain.v
theories/RdfAnyQuery.v
theories/RdfAnyBridge.v
theories/Prop_RdfAny.v
theories/RdfSledCrowd.v
theories/RdfSledTame.v
theories/Prop_RdfSledCrowd.v
theories/RdfSledCopy.v
theories/RdfSledCopyFacts.v
theories/RdfSledCopyTop.v
theories/Prop_RdfSledCopy.v
theories/RdfSledEqLive.v
theories/RdfSledEqLiveFacts.v
theories/RdfSledEqLiveTop.v
theories/Prop_RdfSledEqLive.v
theories/SledTwo.v
theories/SledTwoFacts.v
theories/SledTwoTop.v
theories/Prop_SledTwo.v
theories/SledEqTwo.v
theories/SledEqTwoFacts.v
theories/SledEqTwoTop.v
theories/SledEqTwoAlone.v
theories/Prop_SledEqTwo.v
theories/RdfSledEqTwo.v
theories/RdfSledEqTwoFacts.v
theories/RdfSledEqTwoTop.v
theories/Prop_RdfSledEqTwo.v
theories/SledEqSame.v
theories/SledEqSameFacts.v
theories/SledEqSameTop.v
theories/Prop_SledEqSame.v
theories/SledSelfLive.v
theories/SledSelfLiveFacts.v
theories/SledSelfLiveTop.v
theories/Prop_SledSelfLive.v
theories/RdfSledSelfLive.v
theories/RdfSledSelfLiveTop.v
theories/Prop_RdfSledSelfLive.v
theories/RdfSledTwo.v
theories/RdfSledTwoTop.v
theories/Prop_RdfSledTwo.v
