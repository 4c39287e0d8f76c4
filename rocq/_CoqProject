-Q theories Verif
theories/Prelude.v
theories/Alg.v
theories/Poly.v
theories/MLE.v
theories/MLE_Proofs.v
theories/Transcript.v
theories/Interp.v
theories/Interp_Proofs.v
theories/Sumcheck.v
theories/Sumcheck_Proofs.v
theories/Arith.v
theories/Arith_Proofs.v
theories/Balanced.v
theories/Rings.v
theories/Inst5.v
theories/Rings_Proofs.v
theories/CombDeg.v
theories/Linearization.v
theories/Linearization_Proofs.v
theories/Relations.v
theories/Decomposition.v
theories/LinRel.v
theories/Decomposition_Proofs.v
theories/Folding.v
theories/Folding_Comb.v
theories/Folding_Proofs.v
theories/Folding_Complete.v
theories/Zippel.v
theories/Folding_Sound.v
theories/NIFS.v
theories/NIFS_Proofs.v
theories/Toy.v
theories/Properties1.v
theories/Examples1.v
theories/Properties2.v
theories/Examples2.v
theories/Challenge.v
theories/Challenge_Proofs.v
theories/Properties3.v
theories/Examples3.v
theories/PlusRing.v
theories/SetCheck.v
theories/RangeCheck.v
theories/Cm.v
theories/Plus.v
theories/PlusUtils_Proofs.v
theories/SetCheck_Proofs.v
theories/SetCheck_Sound.v
theories/RangeCheck_Proofs.v
theories/Cm_Proofs.v
theories/Plus_Proofs.v
theories/Plus_Norm.v
theories/Plus_Forge.v
theories/PolyInst.v
theories/FSLog.v
theories/FSPlus.v
theories/Inst257.v
theories/Properties4.v
theories/Examples4.v
theories/Properties5.v
theories/Examples5.v
theories/Properties6.v
theories/Examples6.v
theories/Properties7.v
theories/Examples7.v
theories/Properties8.v
theories/Examples8.v
theories/Extract.v
theories/Properties9.v
theories/Examples9.v
theories/RangeCheck_Sound.v
theories/Plus_Range.v
theories/Properties10.v
theories/Examples10.v
theories/Plus_Sound.v
theories/Properties11.v
theories/Examples11.v
theories/Primes.v
theories/FieldExt.v
theories/CycInst.v
theories/RealRings.v
theories/ShortDual.v
theories/Sampling.v
theories/Properties12.v
theories/Examples12.v
theories/Shipped.v
theories/Reject.v
theories/Properties13.v
theories/Break.v
theories/Properties14.v
theories/Examples13.v
theories/Poseidon.v
theories/PoseidonParams.v
theories/PoseidonCert.v
theories/Poseidon_Proofs.v
theories/Sponge_Proofs.v
theories/PTrans_Proofs.v
theories/SpongeBind.v
theories/PChecks.v
theories/PShipped.v
theories/Properties15.v
theories/Examples14.v
theories/Counting.v
theories/SoundErr.v
theories/RandomOracle.v
theories/NIFS_RO.v
theories/Properties16.v
theories/Examples15.v
theories/Floats.v
theories/Floats_Proofs.v
theories/Properties17.v
theories/Examples16.v
theories/RandPoly.v
theories/RandPoly_Proofs.v
theories/Properties18.v
theories/Examples17.v
theories/PlusErr.v
theories/PlusRO.v
theories/Properties19.v
theories/Examples18.v
theories/FSSim.v
theories/FSReal.v
theories/ProofSize.v
theories/Properties20.v
theories/Examples19.v
theories/Fork.v
theories/Properties21.v
theories/Examples20.v
theories/Properties22.v
theories/Properties23.v
theories/Properties24.v
theories/Examples21.v
theories/RhoErr.v
theories/Properties25.v
theories/Examples22.v
theories/Properties26.v
theories/Examples23.v
theories/Properties27.v
theories/Examples24.v
theories/Properties28.v
theories/Examples25.v
theories/Properties29.v
theories/Overflow.v
theories/Properties30.v
theories/Examples26.v
theories/Serial.v
theories/Serial_Proofs.v
theories/Properties31.v
theories/Examples27.v
theories/CmErr.v
theories/Properties32.v
theories/Examples28.v
theories/LateB.v
theories/Properties33.v
theories/Examples29.v
theories/AdaptRO.v
theories/Properties34.v
theories/Examples30.v
theories/ShortRO.v
theories/Properties35.v
theories/Examples31.v
theories/SizeWords.v
theories/Properties36.v
theories/Examples32.v
theories/Properties37.v
theories/Examples33.v
theories/Builder.v
theories/Properties38.v
theories/Examples34.v
theories/Properties39.v
theories/Examples35.v
theories/PlusTranscript.v
theories/Properties40.v
theories/Examples36.v
theories/Dummy.v
theories/Properties41.v
theories/Examples37.v
theories/Assumptions.v
