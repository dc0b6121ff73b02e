-Q theories Verif

theories/Base.v
theories/BitsUtil.v
theories/ZLemmas.v
theories/BitsUtilProofs.v
theories/Montgomery.v
theories/MontgomeryProofs.v
theories/Fermat.v
theories/Transcription.v
theories/TranscriptionProofs.v
theories/MontBatch.v
theories/MontBatchProofs.v
theories/Spec.v
theories/ArithFacts.v
theories/ThmArith.v
theories/FinSum.v
theories/RootCount.v
theories/Ntt.v
theories/NttIndex.v
theories/NttMath.v
theories/NttProofs.v
theories/NttFacts.v
theories/PrimeCheck.v
theories/ThmNtt.v
theories/PolySpec.v
theories/Ring.v
theories/Poly.v
theories/PolyProofs.v
theories/PolyView.v
theories/PolyFacts.v
theories/ThmPoly.v
theories/PolyExt.v
theories/PolyExtProofs.v
theories/ThmPolyExt.v
theories/Prng.v
theories/Sampling.v
theories/SampleSpec.v
theories/SampleProofs.v
theories/SampleErrProofs.v
theories/TernaryProofs.v
theories/ThmSample.v
theories/PrngSpec.v
theories/PrngProofs.v
theories/ThmPrng.v
theories/SymEnc.v
theories/SymSpec.v
theories/SymProofs.v
theories/SymProofs2.v
theories/SymFacts.v
theories/SymSwitch.v
theories/ThmSymEnc.v
theories/Relin.v
theories/RelinSpec.v
theories/RelinProofs.v
theories/ThmRelin.v
theories/Expand.v
theories/ExpandSpec.v
theories/ExpandProofs.v
theories/GenFive.v
theories/ExpandProofs2.v
theories/ThmExpand.v
theories/PubKey.v
theories/PubKeySpec.v
theories/PubKeyProofs.v
theories/ThmPubKey.v
theories/ThmKeys.v
theories/AuxRelin.v
theories/AuxRelinSpec.v
theories/AuxRelinProofs.v
theories/ThmAuxRelin.v
theories/Int256.v
theories/Int256Spec.v
theories/Int256Proofs.v
theories/ThmInt256.v
theories/Gauss.v
theories/GaussSpec.v
theories/ThmGauss.v
theories/RnsPoly.v
theories/RnsSpec.v
theories/CrtMath.v
theories/RnsSub.v
theories/RnsProofs.v
theories/RnsReduce.v
theories/RnsBasis.v
theories/RnsBasis2.v
theories/RnsMore.v
theories/RnsCtx.v
theories/RnsCtxProofs.v
theories/RnsCrt.v
theories/RnsCtxSpec.v
theories/RnsCtxFacts.v
theories/ThmRnsCtx.v
theories/RnsExample.v
theories/ThmRns.v
theories/RnsFloat.v
theories/ThmRnsBasis.v
theories/NegRing.v
theories/RnsCt.v
theories/RnsEncode.v
theories/RnsKey.v
theories/RnsCtSpec.v
theories/RnsCtProofs.v
theories/RnsNoise.v
theories/RnsLazy.v
theories/RnsLazyCt.v
theories/ThmRnsCt.v
theories/ThmRnsLazy.v
theories/RnsKeySpec.v
theories/RnsKeyProofs.v
theories/ThmRnsKey.v
theories/RnsEncodeSpec.v
theories/RnsDecode.v
theories/ThmRnsBgv.v
theories/RnsScaleOne.v
theories/RnsDecodeBfv.v
theories/ThmRnsBfv.v
theories/FieldSpec.v
theories/FieldMath.v
theories/FieldProofs.v
theories/FieldCtx.v
theories/ThmField.v
theories/RnsPub.v
theories/RnsPubSpec.v
theories/RnsPubProofs.v
theories/ThmRnsPub.v
theories/RnsGadget.v
theories/RnsGadgetSpec.v
theories/RnsGadgetProofs.v
theories/ThmRnsGadget.v
theories/RnsSwitchSpec.v
theories/RnsSwitchProofs.v
theories/RnsSwitchProofs2.v
theories/ThmRnsGalois.v
theories/ThmRnsRelin.v
theories/RnsBfv.v
theories/RnsBfvSpec.v
theories/RnsBfvProofs.v
theories/RnsBfvNoise.v
theories/RnsBfvProofs2.v
theories/RnsBfvProofs3.v
theories/ThmRnsBfvCt.v
theories/RnsHwy.v
theories/RnsHwyProofs.v
theories/ThmHwy.v
theories/ThmRnsCtMore.v
theories/Context.v
theories/ThmContext.v
theories/ErrorEst.v
theories/ThmErrorEst.v
theories/CircuitSpec.v
theories/ThmCircuit.v
theories/RnsCircuitSpec.v
theories/RnsCircuitProofs.v
theories/ThmRnsCircuit.v
theories/RnsCircuitBfvSpec.v
theories/RnsCircuitBfvProofs.v
theories/ThmRnsCircuitBfv.v
theories/UntrustedSpec.v
theories/UntrustedProofs.v
theories/UntrustedProofs2.v
theories/ThmUntrusted.v
theories/InPlace.v
theories/InPlaceSpec.v
theories/InPlaceProofs.v
theories/InPlaceProofs2.v
theories/InPlaceProofs3.v
theories/ThmInPlace.v
theories/Alias.v
theories/AliasSpec.v
theories/AliasProofs.v
theories/AliasProofs2.v
theories/AliasProofs3.v
theories/ThmAlias.v
theories/PrimeCert.v
theories/Shipped.v
theories/ShippedSpec.v
theories/ShippedProofs.v
theories/ThmShipped.v
theories/RnsErrorEst.v
theories/RnsErrorSpec.v
theories/RnsErrorProofs.v
theories/ThmRnsError.v
theories/LookupSpec.v
theories/ThmLookup.v
theories/Threads.v
theories/ThmThreads.v
theories/CoeffPoly.v
theories/CoeffSpec.v
theories/CoeffProofs.v
theories/CoeffProofs2.v
theories/ThmCoeffPoly.v
theories/GaussReal.v
theories/GaussRealSpec.v
theories/GaussRealProofs.v
theories/GaussRealProofs2.v
theories/GaussRealProofs3.v
theories/ThmGaussReal.v
theories/RefuseSpec.v
theories/ThmRefuse.v
theories/ThmRefuse2.v
theories/SignedMsg.v
theories/SignedMsgSpec.v
theories/SignedMsgProofs.v
theories/ThmSigned.v
theories/ShiftSpec.v
theories/ShiftProofs.v
theories/ThmShift.v
theories/Int256Float.v
theories/Int256FloatSpec.v
theories/Int256FloatProofs.v
theories/ThmInt256Float.v
theories/PowerSpec.v
theories/PowerProofs.v
theories/ThmPower.v
theories/DistSpec.v
theories/DistProofs.v
theories/DistEnc.v
theories/ThmDist.v
theories/TapeSpec.v
theories/TapeProofs.v
theories/TapeRns.v
theories/ThmTape.v
theories/ThmExact.v
theories/ErrorAcc.v
theories/ThmErrorAcc.v
theories/EndSpec.v
theories/EndProofs.v
theories/EndTern.v
theories/ThmEnd.v
theories/PubTapeSpec.v
theories/PubTape.v
theories/ThmPubTape.v
theories/KeyTapeSpec.v
theories/KeyTape.v
theories/ThmKeyTape.v
theories/OneTapeSpec.v
theories/OneTape.v
theories/ThmOneTape.v
theories/ThmSeedTape.v
theories/NttLen.v
theories/ThmNttLen.v
theories/ThmHistTape.v
theories/ThmRnsHist.v
