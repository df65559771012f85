-Q theories Verif
theories/Base/Outcome.v
theories/Base/Bytes.v
theories/Model/Codec.v
theories/Model/PublicInputs.v
theories/Spec/CodecSpec.v
theories/Proofs/BytesFacts.v
theories/Proofs/CodecFacts.v
theories/Proofs/PublicInputsFacts.v
theories/Properties/CodecProperties.v
theories/Base/Field.v
theories/Proofs/FieldFacts.v
theories/Base/Poly.v
theories/Proofs/PolyFacts.v
theories/Proofs/FFTFacts.v
theories/Model/Trace.v
theories/Model/Merkle.v
theories/Model/Air.v
theories/Model/Transcript.v
theories/Model/Domain.v
theories/Model/Fri.v
theories/Model/Evaluator.v
theories/Model/Prover.v
theories/Model/Verifier.v
theories/Proofs/OutcomeFacts.v
theories/Proofs/MerkleFacts.v
theories/Proofs/FriFacts.v
theories/Proofs/TraceFacts.v
theories/Properties/TraceProperties.v
theories/Proofs/DomainFacts.v
theories/Proofs/TranscriptFacts.v
theories/Spec/AirSpec.v
theories/Spec/FeatureSpec.v
theories/Proofs/ComposeFacts.v
theories/Proofs/DeepFacts.v
theories/Spec/ProverLog.v
theories/Spec/ProvingSpec.v
theories/Proofs/Completeness.v
theories/Proofs/FeatureFacts.v
theories/Proofs/Replay.v
theories/Spec/VerifierSpec.v
theories/Spec/Forgery.v
theories/Proofs/VerifierFacts.v
theories/Proofs/VerifierTotal.v
theories/Proofs/StatementFacts.v
theories/Base/Zp.v
theories/Examples/Toy.v
theories/Model/Options.v
theories/Model/Debug.v
theories/Model/ExampleAirs.v
theories/Spec/ExampleSpec.v
theories/Proofs/PolyAir.v
theories/Proofs/ExampleFacts.v
theories/Proofs/DebugFacts.v
theories/Properties/ExampleProperties.v
theories/Properties/OptionsProperties.v
theories/Properties/ProtocolProperties.v
theories/Properties/StarkProperties.v
theories/Properties/VerifierProperties.v
theories/Model/CairoDecode.v
theories/Model/CairoTrace.v
theories/Model/CairoAir.v
theories/Model/CairoRunner.v
theories/Base/Proth.v
theories/Spec/CairoSpec.v
theories/Spec/CairoColumns.v
theories/Examples/Stark252.v
theories/Examples/MiniRun.v
theories/Examples/RunExamples.v
theories/Proofs/DecodeFacts.v
theories/Proofs/CpuFacts.v
theories/Proofs/CairoAirFacts.v
theories/Proofs/SortedFacts.v
theories/Proofs/MultisetFacts.v
theories/Proofs/WalkFacts.v
theories/Proofs/CairoForge.v
theories/Proofs/RunnerFacts.v
theories/Proofs/WidthFacts.v
theories/Properties/CairoDecodeProperties.v
theories/Properties/CairoMemoryProperties.v
theories/Properties/CairoCpuProperties.v
theories/Properties/CairoRunnerProperties.v
theories/Spec/CairoRun.v
theories/Spec/CairoStatement.v
theories/Spec/OodSpec.v
theories/Spec/LowDegree.v
theories/Spec/HashSpec.v
theories/Spec/FriTree.v
theories/Proofs/BuildFacts.v
theories/Proofs/MainTraceFacts.v
theories/Proofs/SortFacts.v
theories/Proofs/MainColsFacts.v
theories/Proofs/StepFacts.v
theories/Proofs/HonestFacts.v
theories/Proofs/AuxFacts.v
theories/Proofs/HonestAux.v
theories/Proofs/HonestBuiltin.v
theories/Proofs/HonestRun.v
theories/Proofs/CairoAdmissible.v
theories/Proofs/HonestAccess.v
theories/Proofs/FermatFacts.v
theories/Proofs/HonestShape.v
theories/Properties/CairoTraceProperties.v
theories/Model/Release.v
theories/Model/Features.v
theories/Model/Cli.v
theories/Spec/CliSpec.v
theories/Spec/ReleaseSpec.v
theories/Proofs/ProofShape.v
theories/Proofs/ProverTotal.v
theories/Proofs/StarkFieldFacts.v
theories/Proofs/CliFacts.v
theories/Properties/CairoHonestProperties.v
theories/Properties/CliProperties.v
theories/Examples/Calm.v
theories/Properties/ProverTotalProperties.v
theories/Proofs/RootBound.v
theories/Proofs/LateColumns.v
theories/Proofs/OodFacts.v
theories/Proofs/LowDegreeFacts.v
theories/Proofs/BindingFacts.v
theories/Proofs/FriSoundness.v
theories/Properties/CairoForgeryProperties.v
theories/Properties/CairoLateProperties.v
theories/Properties/CairoSoundnessProperties.v
theories/Properties/OodProperties.v
theories/Properties/LowDegreeProperties.v
theories/Spec/StarkTree.v
theories/Proofs/StarkSoundness.v
theories/Proofs/FriComplete.v
theories/Proofs/StarkComplete.v
theories/Properties/StarkSoundnessProperties.v
theories/Spec/FullForgery.v
theories/Proofs/FullForge.v
theories/Properties/FullForgeryProperties.v
theories/Proofs/CodecBack.v
theories/Properties/CodecBackProperties.v
theories/Proofs/ReleaseFacts.v
theories/Properties/ReleaseProperties.v
theories/Spec/CostSpec.v
theories/Properties/CostProperties.v
theories/Model/Main.v
theories/Spec/MainSpec.v
theories/Properties/MainProperties.v
theories/Spec/Proximity.v
theories/Spec/Rounds.v
theories/Spec/Openings.v
theories/Proofs/LineFacts.v
theories/Proofs/FriRound.v
theories/Proofs/RoundFacts.v
theories/Proofs/RoundSoundness.v
theories/Properties/RoundProperties.v
theories/Properties/RoundAirProperties.v
theories/Proofs/OpeningFacts.v
theories/Proofs/HonestOpenings.v
theories/Proofs/HonestRound.v
theories/Proofs/HonestRepairs.v
theories/Properties/RoundHonestProperties.v
theories/Properties/OpeningProperties.v
theories/Properties/FeatureProperties.v
theories/Spec/Schedule.v
theories/Proofs/ScheduleFacts.v
theories/Properties/ScheduleProperties.v
theories/Properties/BoundaryProperties.v
theories/Spec/Game.v
theories/Proofs/CountFacts.v
theories/Proofs/TapeFacts.v
theories/Properties/GameProperties.v
theories/Properties/GameAirProperties.v
theories/Spec/Claim.v
theories/Proofs/ClaimFacts.v
theories/Properties/ClaimProperties.v
theories/Spec/AnyWord.v
theories/Proofs/AnyWordFacts.v
theories/Properties/AnyWordProperties.v
theories/Proofs/GambleFacts.v
theories/Properties/GambleProperties.v
theories/Proofs/CodecTail.v
theories/Properties/TailProperties.v
theories/Proofs/BuiltinRun.v
theories/Properties/BuiltinProperties.v
theories/Spec/ProofSize.v
theories/Proofs/SizeFacts.v
theories/Proofs/SizeBytes.v
theories/Properties/SizeProperties.v
theories/Spec/Oracle.v
theories/Proofs/OracleCount.v
theories/Properties/OracleProperties.v
theories/Properties/OracleAirProperties.v
theories/Model/Leftover.v
theories/Proofs/LeftoverFacts.v
theories/Properties/LeftoverProperties.v
theories/Spec/Witness.v
theories/Proofs/WitnessFacts.v
theories/Properties/WitnessProperties.v
theories/Spec/Retry.v
theories/Properties/RetryProperties.v
theories/Spec/Extract.v
theories/Proofs/ExtractFacts.v
theories/Properties/ExtractProperties.v
theories/Properties/DeterminedProperties.v
theories/Spec/Surplus.v
theories/Proofs/SurplusFacts.v
theories/Properties/SurplusProperties.v
theories/Spec/Levels.v
theories/Proofs/LevelFacts.v
theories/Properties/LevelProperties.v
theories/Spec/Restated.v
theories/Proofs/RestatedFacts.v
theories/Properties/RestatedProperties.v
theories/Spec/Fitting.v
theories/Proofs/FittingFacts.v
theories/Properties/FittingProperties.v
theories/Proofs/LooseFacts.v
theories/Properties/LooseProperties.v
theories/Properties/ExampleGameProperties.v
theories/Spec/WrongTable.v
theories/Properties/WrongTableProperties.v
theories/Spec/Contradiction.v
theories/Properties/ContradictionProperties.v
theories/Spec/Dropped.v
theories/Properties/DroppedProperties.v
theories/Spec/Offsets.v
theories/Properties/OffsetProperties.v
theories/Spec/SoundTable.v
theories/Properties/SoundTableProperties.v
theories/Properties/RunTableProperties.v
theories/Model/Bench.v
theories/Properties/BenchProperties.v
theories/Model/RapNew.v
theories/Spec/ExemptionWork.v
theories/Properties/RapNewProperties.v
