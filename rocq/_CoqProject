-Q theories Verif
theories/Prelude.v
theories/PrimeField.v
theories/Zp.v
theories/Pocklington.v
theories/Fields.v
theories/Circuit.v
theories/Loops.v
theories/BooleanGadget.v
theories/NumGadget.v
theories/MultiEq.v
theories/UInt32.v
theories/UInt32Proof.v
theories/Spec.v
theories/SpecWord.v
theories/LookupGadget.v
theories/Multipack.v
theories/PropBoolean.v
theories/PropNum.v
theories/PropLookup.v
theories/PropMultiEq.v
theories/PropUInt32.v
theories/WordLogic.v
theories/Sha256Spec.v
theories/Sha256.v
theories/Sha256Proof.v
theories/PropSha256.v
theories/Blake2sSpec.v
theories/Blake2s.v
theories/Blake2sProof.v
theories/PropBlake2s.v
theories/PropShape.v
theories/TestCS.v
theories/TestCSProof.v
theories/PropTestCS.v
theories/TestHash.v
theories/PropHash.v
theories/FModule.v
theories/Multicore.v
theories/Sched.v
theories/Compute.v
theories/PropMulticore.v
theories/Domain.v
theories/FFTProof.v
theories/DomainProof.v
theories/Quotient.v
theories/PropDomain.v
theories/Multiexp.v
theories/MultiexpProof.v
theories/PropMultiexp.v
theories/Assembly.v
theories/AssemblyProof.v
theories/PropAssembly.v
theories/Groth16.v
theories/GeneratorProof.v
theories/ProverProof.v
theories/PropGenerator.v
theories/PropGroth16.v
theories/Batch.v
theories/BatchProof.v
theories/PropVerifier.v
theories/Encoding.v
theories/EncodingProof.v
theories/PropEncoding.v
theories/DummyField.v
theories/PropDummy.v
theories/Roots.v
theories/PropRandom.v
theories/Mimc.v
theories/MimcProof.v
theories/PropMimc.v
theories/Session.v
theories/PropSession.v
theories/GRing.v
theories/PropProofSpace.v
theories/PropDeterminism.v
theories/Demo.v
theories/PropDemo.v
theories/PropUnsat.v
theories/MPoly.v
theories/PropSound.v
theories/PropStorage.v
theories/PropMatrices.v
theories/CostSpec.v
theories/Cost.v
theories/CostProof.v
theories/CostRun.v
theories/PropCost.v
theories/Scope.v
theories/ScopeRun.v
theories/Covered.v
theories/Dense.v
theories/PropScope.v
theories/PropCovered.v
theories/Bls.v
theories/Sha256d.v
theories/Sha256dProof.v
theories/PropSha256d.v
theories/PropCorner.v
theories/PrettyPrint.v
theories/PrettySpec.v
theories/PrettyProof.v
theories/PropPretty.v
theories/DenseSha.v
theories/DenseBlake.v
theories/DenseNum.v
theories/PropDense.v
theories/PropDoomed.v
theories/Wrappers.v
theories/PropWrappers.v
theories/Straight.v
theories/StraightProof.v
theories/PropStraight.v
theories/Sources.v
theories/SourcesSpec.v
theories/SourcesProof.v
theories/PropSources.v
theories/PropProgram.v
theories/Tidy.v
theories/TidyProof.v
theories/PropTidy.v
theories/Bench.v
theories/PropBench.v
theories/Names.v
theories/NamesGadgets.v
theories/NamesFit.v
theories/PropNames.v
theories/UnitTests.v
theories/LibTests.v
theories/LibTestsProof.v
theories/PropLibTests.v
theories/BoolTests.v
theories/BoolTestsProof.v
theories/PropBoolTests.v
theories/HashTests.v
theories/HashTestsProof.v
theories/PropHashTests.v
theories/UnitTestsProof.v
theories/UnitTestsProof2.v
theories/UnitTestsProof3.v
theories/UnitTestsProof4.v
theories/StrictTest.v
theories/PropUnitTests.v
theories/SerializeTest.v
theories/SerializeTestProof.v
theories/PropSerializeTest.v
theories/PropProofIdentity.v
