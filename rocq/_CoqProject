-Q theories Verif

theories/Base.v
theories/BaseLemmas.v
theories/Params.v
theories/ParamsProofs.v
theories/Fq.v
theories/Prim.v
theories/Samplers.v
theories/Monomial.v
theories/Codes.v
theories/SeedTree.v
theories/Utils.v
theories/Less.v
theories/Sign.v
theories/Spec.v
theories/FqProofs.v
theories/Sums.v
theories/EnumProofs.v
theories/LinAlg.v
theories/RrefProofs.v
theories/LexProofs.v
theories/SortProofs.v
theories/MonoProofs.v
theories/ActionProofs.v
theories/CanonProofs.v
theories/BitCodec.v
theories/CodecProofs.v
theories/RrefCodec.v
theories/LayoutProofs.v
theories/SamplerProofs.v
theories/SeedTreeProofs.v
theories/TreeFacts.v
theories/FuelProofs.v
theories/RoundProofs.v
theories/VerifyProofs.v
theories/SignerProofs.v
theories/ApiProofs.v
theories/PropArith.v
theories/PropTree.v
theories/PropCodec.v
theories/PropMono.v
theories/PropLinAlg.v
theories/PropCanon.v
theories/SampleSpec.v
theories/Toy.v
theories/PropSamplers.v
theories/AnyKeyProofs.v
theories/PropScheme.v
theories/BadInputs.v
theories/ScriptRun.v
theories/PropApi.v
theories/DetProofs.v
theories/PropDet.v
theories/Keccak.v
theories/KeccakSpec.v
theories/Fips202.v
theories/KeccakProofs.v
theories/Fips202Proofs.v
theories/Fips202Inst.v
theories/PropHash.v
theories/Vec.v
theories/OptCodes.v
theories/VecProofs.v
theories/OptRref.v
theories/OptLess.v
theories/OptSim.v
theories/OptEquiv.v
theories/PropOpt.v
theories/LessSpec.v
theories/SpecSampling.v
theories/SpecBridge.v
theories/SpecMain.v
theories/SpecVerify.v
theories/SafeProofs.v
theories/PropSpec.v
theories/PropSafe.v
theories/TreeMax.v
theories/ParamScript.v
theories/PropParam.v
theories/KatRng.v
theories/KatMain.v
theories/KatSpec.v
theories/KatRngProofs.v
theories/KatTextProofs.v
theories/KatMainProofs.v
theories/PropKat.v
theories/PropBind.v
theories/TestProg.v
theories/TestProofs.v
theories/PropTest.v
theories/UniformProofs.v
theories/PropUniform.v
theories/Bench.v
theories/PropBench.v
theories/PropSim.v
theories/Print.v
theories/PropPrint.v
theories/Count.v
theories/EndProofs.v
theories/PropEnds.v
theories/PropSpace.v
theories/Agree.v
theories/SeedBytes.v
theories/PropBytes.v
theories/IncCtx.v
theories/PropInc.v
theories/PropRed16.v
theories/Leak.v
theories/LeakProofs.v
theories/PropLeak.v
theories/LeakRref.v
theories/PivotSpec.v
theories/LeakRrefProofs.v
theories/PropRref.v
theories/PropLeakSort.v
theories/PropWatch.v
theories/PropCases.v
theories/PropReuse.v
theories/Alias.v
theories/PropAlias.v
theories/Endian.v
theories/PropEndian.v
theories/Session.v
theories/PropSession.v
theories/PropSubst.v
theories/SessionOpt.v
theories/PropMix.v
theories/SortCost.v
theories/PropSort.v
theories/Massif.v
theories/MassifSpec.v
theories/MassifProofs.v
theories/MassifFile.v
theories/PropMassif.v
