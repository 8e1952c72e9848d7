-Q theories Verif
theories/Proc.v
theories/Alg.v
theories/Rep3Net.v
theories/Rep3.v
theories/Rep3Spec.v
theories/Rep3Proofs.v
theories/Rep3Wp.v
theories/Zp.v
theories/Concrete.v
theories/PropsRep3.v
theories/PropsNet.v
theories/Uint.v
theories/Limbs.v
theories/Binary.v
theories/BinaryWp.v
theories/Conv.v
theories/ConvWp.v
theories/CmpWp.v
theories/ConcreteU.v
theories/PropsBinary.v
theories/Ring2k.v
theories/Ring2kWp.v
theories/ConcreteR.v
theories/PropsRing.v
theories/NNet.v
theories/ShamirPoly.v
theories/Shamir.v
theories/ShamirAlg.v
theories/ShamirSpec.v
theories/ShamirRng.v
theories/ShamirDeal.v
theories/ShamirWp.v
theories/ShamirRed.v
theories/ShamirOps.v
theories/ShamirSetup.v
theories/ConcreteS.v
theories/PropsShamir.v
theories/Frame.v
theories/LocalNet.v
theories/Session.v
theories/Tcp.v
theories/Address.v
theories/PropsNet2.v
theories/Join.v
theories/Lut.v
theories/LutWp.v
theories/LutProv.v
theories/PropsLut.v
theories/Garble.v
theories/Circuits.v
theories/CircuitsSim.v
theories/CircuitsOk.v
theories/CircuitsArith.v
theories/CircuitsMod.v
theories/CircuitsFun.v
theories/Garbled.v
theories/PropsGarble.v
theories/Poseidon2.v
theories/Poseidon2Spec.v
theories/Poseidon2Mat.v
theories/Poseidon2Lin.v
theories/Poseidon2Wp.v
theories/Poseidon2Sh.v
theories/Merkle.v
theories/MerkleSpec.v
theories/MerkleMem.v
theories/MerkleTree.v
theories/MerkleWp.v
theories/PropsHash.v
theories/Sort.v
theories/SortRank.v
theories/SortWp.v
theories/SortRadix.v
theories/PropsSort.v
theories/Secrecy.v
theories/SecretShare.v
theories/PropsSecrecy.v
theories/Exec.v
theories/Point.v
theories/PointWp.v
theories/PointBack.v
theories/PointSecrecy.v
theories/ConcreteC.v
theories/PropsPoint.v
theories/Yao.v
theories/YaoSpec.v
theories/YaoWp.v
theories/YaoOut.v
theories/YaoApi.v
theories/YaoStream.v
theories/ConcreteY.v
theories/PropsYao.v
theories/VmDriver.v
theories/VmIdeal.v
theories/VmDriverWp.v
theories/ConcreteV.v
theories/PropsVm.v
theories/Vm.v
theories/VmSim.v
theories/VmRun.v
theories/PropsVmRun.v
theories/VmSource.v
theories/VmCompile.v
theories/VmMask.v
theories/PropsVmSource.v
theories/VmSpec.v
theories/PropsVmSpec.v
theories/Dft.v
theories/Groth16.v
theories/Groth16Gen.v
theories/Groth16Inst.v
theories/Groth16Complete.v
theories/PropsGroth16.v
theories/Plonk.v
theories/PlonkGen.v
theories/PlonkIdeal.v
theories/PlonkInst.v
theories/ConcreteP.v
theories/PropsPlonk.v
theories/PlonkPoly.v
theories/PlonkComplete.v
theories/PlonkQuot.v
theories/PlonkVerify.v
theories/PlonkFinal.v
theories/PropsPlonkVerify.v
theories/Acvm.v
theories/AcvmSpec.v
theories/AcvmRun.v
theories/AcvmSim.v
theories/AcvmRef.v
theories/AcvmMay.v
theories/AcvmParties.v
theories/AcvmProgress.v
theories/PropsAcvm.v
theories/Circom.v
theories/CircomSpec.v
theories/CircomOk.v
theories/CircomRun.v
theories/CircomWit.v
theories/PropsCircom.v
theories/Brillig.v
theories/BrilligSpec.v
theories/BrilligSound.v
theories/BrilligTag.v
theories/BrilligDriver.v
theories/BrilligOps.v
theories/BrilligSim.v
theories/BrilligParties.v
theories/BrilligProgress.v
theories/BrilligSelect.v
theories/BrilligRadix.v
theories/ConcreteB.v
theories/PropsBrillig.v
theories/AcvmBrillig.v
theories/AcvmBrilligWp.v
theories/AcvmBrilligDup.v
theories/AcvmBrilligSolve.v
theories/PropsAcvmBrillig.v
theories/Univariate.v
theories/Sumcheck.v
theories/SumcheckSpec.v
theories/SumcheckProofs.v
theories/SumcheckSound.v
theories/HonkRelations.v
theories/HonkProofs.v
theories/HonkSpec.v
theories/HonkMeaning.v
theories/ConcreteH.v
theories/PropsSumcheck.v
theories/HonkSkip.v
theories/PropsHonk.v
theories/Shplemini.v
theories/ShpleminiFold.v
theories/ShpleminiPoly.v
theories/ShpleminiQuot.v
theories/ShpleminiVerify.v
theories/ShpleminiComplete.v
theories/ShpleminiSound.v
theories/ShpleminiFew.v
theories/PropsShplemini.v
theories/HonkRows.v
theories/Decider.v
theories/DeciderProofs.v
theories/PropsDecider.v
theories/Oink.v
theories/OinkWiring.v
theories/OinkTrace.v
theories/OinkGrand.v
theories/OinkProofs.v
theories/OinkRelations.v
theories/OinkComplete.v
theories/OinkDecider.v
theories/PropsOink.v
theories/OinkSound.v
theories/OinkCopy.v
theories/OinkWire.v
theories/OinkLookup.v
theories/OinkZero.v
theories/OinkGap.v
theories/OinkGapRel.v
theories/OinkWhole.v
theories/PropsOinkSound.v
