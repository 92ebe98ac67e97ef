-Q theories Verif
theories/Model/Aggregate.v
theories/Model/ArithmeticPrograms.v
theories/Model/AsWaksman.v
theories/Model/Base.v
theories/Model/Benes.v
theories/Model/CircuitPpzksnark.v
theories/Model/Circuits.v
theories/Model/ConstraintSystems.v
theories/Model/CycleRepresentation.v
theories/Model/Domain.v
theories/Model/EncryptedInput.v
theories/Model/Expression.v
theories/Model/FoldPolynomial.v
theories/Model/Fri.v
theories/Model/GatesArgument.v
theories/Model/Groth16.v
theories/Model/Groth16Mpc.v
theories/Model/HashMap.v
theories/Model/IntegerPermutation.v
theories/Model/KimchiPedersen.v
theories/Model/KimchiTranscript.v
theories/Model/KnowledgeCommitment.v
theories/Model/Kzg.v
theories/Model/LinearCombination.v
theories/Model/LookupArgument.v
theories/Model/LookupPacking.v
theories/Model/Lpc.v
theories/Model/MerkleTree.v
theories/Model/OrderedMap.v
theories/Model/Pedersen.v
theories/Model/PermutationArgument.v
theories/Model/Pghr.v
theories/Model/PicklesExpr.v
theories/Model/PicklesVerifier.v
theories/Model/Placeholder.v
theories/Model/PlaceholderKzg.v
theories/Model/PlonkTable.v
theories/Model/PlonkVariable.v
theories/Model/PolysEvaluator.v
theories/Model/PowersOfTau.v
theories/Model/ProofOfWork.v
theories/Model/Quotient.v
theories/Model/SePpzksnark.v
theories/Model/SetCommitment.v
theories/Model/Transcript.v
theories/Model/UscsPpzksnark.v
theories/Spec/AggregateSpec.v
theories/Spec/AlgebraicSpec.v
theories/Spec/CeremonySpec.v
theories/Spec/CircuitSpec.v
theories/Spec/CopySpec.v
theories/Spec/EncryptedSpec.v
theories/Spec/ExprSpec.v
theories/Spec/FriSpec.v
theories/Spec/GroupSpec.v
theories/Spec/KimchiExtractSpec.v
theories/Spec/KimchiSpec.v
theories/Spec/KimchiTranscriptSpec.v
theories/Spec/LinearSpec.v
theories/Spec/LookupSpec.v
theories/Spec/LpcProximitySpec.v
theories/Spec/LpcSpec.v
theories/Spec/MpcSpec.v
theories/Spec/PackingSpec.v
theories/Spec/PicklesExprSpec.v
theories/Spec/PlaceholderSpec.v
theories/Spec/ProximitySpec.v
theories/Proofs/AggregateProofs.v
theories/Proofs/AggregateTop.v
theories/Proofs/BacsProofs.v
theories/Proofs/BenesProofs.v
theories/Proofs/CeremonyProofs.v
theories/Proofs/CycleProofs.v
theories/Proofs/DomainProofs.v
theories/Proofs/EncryptedProofs.v
theories/Proofs/EvaluatorProofs.v
theories/Proofs/ExprProofs.v
theories/Proofs/FieldTac.v
theories/Proofs/FoldProofs.v
theories/Proofs/FriComplete.v
theories/Proofs/FriFold.v
theories/Proofs/FriIndex.v
theories/Proofs/FriLayout.v
theories/Proofs/FriRounds.v
theories/Proofs/FriSound.v
theories/Proofs/GatesProofs.v
theories/Proofs/Groth16Extract.v
theories/Proofs/Groth16Proofs.v
theories/Proofs/KcProofs.v
theories/Proofs/KimchiExtractProofs.v
theories/Proofs/KimchiProofs.v
theories/Proofs/KimchiTranscriptProofs.v
theories/Proofs/KzgBatchProofs.v
theories/Proofs/KzgProofs.v
theories/Proofs/LinearProofs.v
theories/Proofs/LookupProofs.v
theories/Proofs/LookupSortProofs.v
theories/Proofs/LpcForge.v
theories/Proofs/LpcHistory.v
theories/Proofs/LpcProofs.v
theories/Proofs/LpcProximity.v
theories/Proofs/LpcSound.v
theories/Proofs/MapProofs.v
theories/Proofs/MerkleProofs.v
theories/Proofs/MpcProofs.v
theories/Proofs/NatTac.v
theories/Proofs/PackingProofs.v
theories/Proofs/PermArgProofs.v
theories/Proofs/PermProofs.v
theories/Proofs/PghrExtract.v
theories/Proofs/PghrProofs.v
theories/Proofs/PicklesExprProofs.v
theories/Proofs/PlaceholderComplete.v
theories/Proofs/PlaceholderDegrees.v
theories/Proofs/PlaceholderHonest.v
theories/Proofs/PlaceholderKzgProofs.v
theories/Proofs/PlaceholderPoints.v
theories/Proofs/PlaceholderProofs.v
theories/Proofs/PlaceholderReads.v
theories/Proofs/PlaceholderRun.v
theories/Proofs/PlaceholderState.v
theories/Proofs/ProgramProofs.v
theories/Proofs/Proximity.v
theories/Proofs/ProximityChain.v
theories/Proofs/ProximityCount.v
theories/Proofs/QapProofs.v
theories/Proofs/QuotientProofs.v
theories/Proofs/SapProofs.v
theories/Proofs/SeSnarkProofs.v
theories/Proofs/SspProofs.v
theories/Proofs/TableProofs.v
theories/Proofs/TbcsProofs.v
theories/Proofs/UscsSnarkProofs.v
theories/Proofs/WaksmanLevel.v
theories/Proofs/WaksmanLoop.v
theories/Proofs/WaksmanRecursion.v
theories/Proofs/WaksmanRoute.v
theories/Proofs/WaksmanTopology.v
theories/Proofs/WaksmanValid.v
theories/Proofs/WaksmanWalk.v
theories/Props/C01_LinearCombination.v
theories/Props/C02_R1csSemantics.v
theories/Props/C03_BacsToR1cs.v
theories/Props/C04_TbcsToUscs.v
theories/Props/C05_R1csToQap.v
theories/Props/C06_R1csToSap.v
theories/Props/C07_UscsToSsp.v
theories/Props/C08_Groth16Complete.v
theories/Props/C09_Groth16WitnessIndependence.v
theories/Props/C10_Groth16Input.v
theories/Props/C11_IntegerPermutation.v
theories/Props/C12_Benes.v
theories/Props/C13_AsWaksman.v
theories/Props/C14_ExpressionOperators.v
theories/Props/C15_CachedEvaluation.v
theories/Props/C16_MaxDegree.v
theories/Props/C17_NonLinearCombination.v
theories/Props/C18_ExpressionEquality.v
theories/Props/C19_ColumnNumbering.v
theories/Props/C20_Padding.v
theories/Props/C21_CopyCycles.v
theories/Props/C22_PermutationCompleteness.v
theories/Props/C23_PermutationSoundness.v
theories/Props/C24_PermutationAgreement.v
theories/Props/C25_LookupSorting.v
theories/Props/C26_LookupCompleteness.v
theories/Props/C27_LookupAgreement.v
theories/Props/C28_LookupParts.v
theories/Props/C29_GatesArgument.v
theories/Props/C30_QuotientSplitting.v
theories/Props/C31_OpenedValues.v
theories/Props/C32_SamePoints.v
theories/Props/C33_FinalIdentity.v
theories/Props/C34_PublicInputs.v
theories/Props/C35_LookupPacking.v
theories/Props/C36_FriFolding.v
theories/Props/C37_FriLayout.v
theories/Props/C38_FriComplete.v
theories/Props/C39_FriDegree.v
theories/Props/C40_Lpc.v
theories/Props/C41_Kzg.v
theories/Props/C42_BatchedKzg.v
theories/Props/C43_Pedersen.v
theories/Props/C44_ProofOfWork.v
theories/Props/C45_PowersOfTau.v
theories/Props/C46_Groth16Mpc.v
theories/Props/C47_KnowledgeCommitment.v
theories/Props/C48_SetCommitment.v
theories/Props/C49_FriQuery.v
theories/Props/C50_R1csPpzksnark.v
theories/Props/C51_UscsPpzksnark.v
theories/Props/C52_SePpzksnark.v
theories/Props/C53_CircuitPpzksnark.v
theories/Props/C54_Groth16Extract.v
theories/Props/C55_Aggregation.v
theories/Props/C56_FriProximity.v
theories/Props/C57_EncryptedInput.v
theories/Props/C58_LpcProximity.v
theories/Props/C59_KimchiPedersen.v
theories/Props/C60_KimchiExtract.v
theories/Props/C61_KimchiTranscript.v
theories/Props/C62_PicklesExpr.v
theories/Props/C63_PicklesVerifier.v
