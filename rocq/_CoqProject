-Q theories Verif

theories/Model.v
theories/Bits.v
theories/Spec.v
theories/Util.v
theories/Bitwise.v
theories/Trie.v
theories/Store.v
theories/Logic.v
theories/Reads.v
theories/Build.v
theories/Evol.v
theories/Route.v
theories/Insert.v
theories/Update.v
theories/Safe.v
theories/Get.v
theories/Hist.v
theories/RefCount.v
theories/RcInsert.v
theories/RcRemove.v
theories/Claims.v
theories/Live.v
theories/Regrow.v
theories/Weak.v
theories/Exact.v
theories/Cost.v
theories/Outcome.v
theories/Serde.v
theories/SerdeProofs.v
theories/SerdeTree.v
theories/Cbor.v
theories/Usage.v
theories/Fail.v
theories/Sim.v
theories/Agree.v
theories/Total.v
theories/Paths.v
theories/Growth.v
theories/Depth.v
theories/Shape.v
theories/Stray.v
theories/Limits.v
theories/Need.v
theories/Codec.v
theories/CodecProofs.v
theories/Bytes.v
theories/Struct.v
theories/Origin.v
theories/Scenario.v
theories/Scenario3.v
theories/Scenario4.v
theories/Refuted.v
theories/Scenario5.v
theories/Backends.v
theories/Machine.v
theories/Counts.v
theories/MachineProofs.v
theories/Deploy.v
theories/Scenario6.v
theories/RepoTests.v
theories/Fx.v
theories/Forge.v
theories/Sea.v
theories/Scenario7.v
theories/Formula.v
theories/Select.v
theories/Batch.v
theories/Hashers.v
theories/Blake.v
theories/Digests.v
theories/Swap.v
theories/Scenario11.v
theories/PropsHist.v
theories/PropsLive.v
theories/PropsRefuted.v
theories/PropsMore.v
theories/PropsWeak.v
theories/PropsUsage.v
theories/PropsExact.v
theories/PropsCost.v
theories/PropsOutcome.v
theories/PropsSerde.v
theories/PropsLimits.v
theories/PropsOrigin.v
theories/PropsSpare.v
theories/PropsBackends.v
theories/PropsMachine.v
theories/PropsDeploy.v
theories/Wild.v
theories/Lost.v
theories/Written.v
theories/Calm.v
theories/Scenario8.v
theories/PropsFx.v
theories/PropsLost.v
theories/Work.v
theories/PropsWork.v
theories/PropsFormula.v
theories/PropsDigests.v
theories/Scenario9.v
theories/PropsSelect.v
theories/Scenario10.v
theories/PropsWritten.v
theories/AnyReads.v
theories/Scratch.v
theories/Moved.v
theories/Scenario12.v
theories/PropsAny.v
theories/Release.v
theories/Scenario13.v
theories/PropsRelease.v
theories/Every.v
theories/PropsEvery.v
theories/Sane.v
theories/MachineTotal.v
theories/SaneBuild.v
theories/PropsSane.v
