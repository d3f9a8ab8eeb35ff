-Q theories Verif
theories/AdicModel.v
theories/AdicProofs.v
theories/AdicProps.v
theories/AlgModel.v
theories/AlgMono.v
theories/AlgProofs.v
theories/AlgProps.v
theories/BigIntModel.v
theories/BigIntProofs.v
theories/BigIntProps.v
theories/BigIntText.v
theories/BigIntZ.v
theories/BitLemmas.v
theories/BmModel.v
theories/BmProofs.v
theories/BmProps.v
theories/BoolFnModel.v
theories/BoolFnProofs.v
theories/BoolFnProps.v
theories/CalendarProofs.v
theories/CalendarWeeks.v
theories/CardModel.v
theories/CardProps.v
theories/CcModel.v
theories/CcProofs.v
theories/CcProps.v
theories/CnfKeys.v
theories/CnfModel.v
theories/CnfProofs.v
theories/CnfProps.v
theories/CoalgModel.v
theories/CoalgProofs.v
theories/CoalgProps.v
theories/CofModel.v
theories/CofProps.v
theories/CofQuot.v
theories/ComplexModel.v
theories/ComplexProps.v
theories/CountingModel.v
theories/CountingProps.v
theories/CowModel.v
theories/CowProofs.v
theories/CowProps.v
theories/CrdtClockProofs.v
theories/CrdtContextProofs.v
theories/CrdtCounterProofs.v
theories/CrdtCounterProps.v
theories/CrdtMapProofs.v
theories/CrdtModel.v
theories/CrdtRegisterProofs.v
theories/CrdtRegisterProps.v
theories/CrdtSetModel.v
theories/CrdtSetProofs.v
theories/CrdtSetProps.v
theories/CseModel.v
theories/CseProofs.v
theories/CseProps.v
theories/CseSim.v
theories/CubeModel.v
theories/CubeProps.v
theories/DceAlg.v
theories/DceExec.v
theories/DceModel.v
theories/DceProofs.v
theories/DceProps.v
theories/DecimalModel.v
theories/DecimalProofs.v
theories/DecimalProps.v
theories/DimacsModel.v
theories/DimacsProofs.v
theories/DimacsProps.v
theories/DiscModel.v
theories/DiscProps.v
theories/FactorAttacks.v
theories/FactorModel.v
theories/FactorProofs.v
theories/FactorProps.v
theories/FarkasModel.v
theories/FarkasProofs.v
theories/FarkasProps.v
theories/FastDivModel.v
theories/FastDivProofs.v
theories/FastDivProps.v
theories/FecCode.v
theories/FecField.v
theories/FecModel.v
theories/FecProofs.v
theories/FecProps.v
theories/FixModel.v
theories/FixProofs.v
theories/FixProps.v
theories/FixSem.v
theories/FloatHashModel.v
theories/FloatHashProps.v
theories/FoldFloat.v
theories/FoldMain.v
theories/FoldModel.v
theories/FoldProofs.v
theories/FoldProps.v
theories/FoldStmtBools.v
theories/FoldStmtModel.v
theories/FoldStmtProofs.v
theories/FoldStmtProps.v
theories/FrameModel.v
theories/FrameProofs.v
theories/FrameProps.v
theories/GaussModel.v
theories/GaussProofs.v
theories/Gf256Proofs.v
theories/Gf2Props.v
theories/HallProps.v
theories/HornModel.v
theories/HornProofs.v
theories/HornProps.v
theories/IndexingModel.v
theories/IndexingProps.v
theories/InferModel.v
theories/InferProps.v
theories/InprModel.v
theories/InprProofs.v
theories/InprProps.v
theories/IntColBound.v
theories/IntColLimit.v
theories/IntColLocal.v
theories/IntColModel.v
theories/IntColProofs.v
theories/IntColProps.v
theories/IntColRound.v
theories/IntColRound2.v
theories/IntColRound3.v
theories/IntMapDense.v
theories/IntMapModel.v
theories/IntMapProofs.v
theories/IntMapProps.v
theories/InternModel.v
theories/InternProps.v
theories/IvModel.v
theories/IvProofs.v
theories/IvProps.v
theories/JournalModel.v
theories/JournalProps.v
theories/KemModel.v
theories/KemProofs.v
theories/KemProps.v
theories/KemSample.v
theories/KosarajuProofs.v
theories/LiaModel.v
theories/LiaProofs.v
theories/LiaProps.v
theories/LinExprModel.v
theories/LinExprProofs.v
theories/LinMap.v
theories/LineIndexModel.v
theories/LineIndexProps.v
theories/LllModel.v
theories/LllProps.v
theories/LratModel.v
theories/LratProofs.v
theories/LratProps.v
theories/LratText.v
theories/MachInt.v
theories/MatchModel.v
theories/MatchProofs.v
theories/MatchProps.v
theories/ModpFermat.v
theories/ModpModel.v
theories/ModpProofs.v
theories/ModpProps.v
theories/ModpSolve.v
theories/ModularModel.v
theories/ModularProps.v
theories/MoneyModel.v
theories/MoneyProps.v
theories/NanboxModel.v
theories/NanboxProps.v
theories/NttAlg.v
theories/NttAvx.v
theories/NttModel.v
theories/NttProofs.v
theories/NttProps.v
theories/OmegaGoalProps.v
theories/OmegaModel.v
theories/OmegaProofs.v
theories/OmegaProps.v
theories/OptProps.v
theories/OrbitGroup.v
theories/OrbitModel.v
theories/OrbitProps.v
theories/OrderModel.v
theories/OrderProps.v
theories/ParCardModel.v
theories/ParCardProps.v
theories/PbModel.v
theories/PbProofs.v
theories/PbProps.v
theories/PbRefute.v
theories/PeriodModel.v
theories/PeriodProps.v
theories/PigeonModel.v
theories/PigeonProps.v
theories/PigeonUf.v
theories/PosModel.v
theories/PosProps.v
theories/PostCup.v
theories/PostModel.v
theories/PostProps.v
theories/PrIndex.v
theories/PrModel.v
theories/PrProofs.v
theories/PrProps.v
theories/PropFrame.v
theories/PropModel.v
theories/PropProofs.v
theories/PropProps.v
theories/QuantityModel.v
theories/QuantityProps.v
theories/RationalModel.v
theories/RationalProps.v
theories/RationalQ.v
theories/RecheckModel.v
theories/RecheckProofs.v
theories/RecheckProps.v
theories/ReinferModel.v
theories/ReinferProps.v
theories/RelatedModel.v
theories/RelatedProps.v
theories/Replication.v
theories/ReplicationCount.v
theories/ReplicationEffects.v
theories/ReplicationOrder.v
theories/RingModel.v
theories/RingProofs.v
theories/RingProps.v
theories/RupModel.v
theories/RupProofs.v
theories/RupProps.v
theories/SchedEx.v
theories/SchedGrow.v
theories/SchedInv.v
theories/SchedModel.v
theories/SchedOps.v
theories/SchedPolicy.v
theories/SchedPolicyEx.v
theories/SchedProps.v
theories/SchedReplay.v
theories/SchedStep.v
theories/SchedTime.v
theories/SdclModel.v
theories/SdclProps.v
theories/SelModel.v
theories/SelProps.v
theories/SequenceMerge.v
theories/SequenceModel.v
theories/SequenceOrder.v
theories/SequenceProofs.v
theories/SequenceProps.v
theories/SequenceRuns.v
theories/SequenceYata.v
theories/SimpModel.v
theories/SimpProps.v
theories/SippingModel.v
theories/SippingProps.v
theories/SosModel.v
theories/SosProps.v
theories/StableSort.v
theories/SubstModel.v
theories/SubstProofs.v
theories/SubstProps.v
theories/SymModel.v
theories/SymProofs.v
theories/SymProps.v
theories/SymRun.v
theories/SynModel.v
theories/SynSem.v
theories/TemporalClocks.v
theories/TemporalModel.v
theories/TemporalProofs.v
theories/TemporalProps.v
theories/TemporalZones.v
theories/TraceModel.v
theories/TraceProofs.v
theories/TraceProps.v
theories/TwoGroupModel.v
theories/TwoGroupProps.v
theories/TwoSatModel.v
theories/TwoSatProps.v
theories/UnifyAlphaProps.v
theories/UnifyExprProofs.v
theories/UnifyExprProps.v
theories/UnifyModel.v
theories/UnifyProofs.v
theories/UnifyProps.v
theories/UnionFindModel.v
theories/UnionFindProofs.v
theories/UnionFindProps.v
theories/UnivModel.v
theories/UnivProps.v
theories/Utf8.v
theories/UuidModel.v
theories/UuidProofs.v
theories/UuidProps.v
theories/UuidText.v
theories/VfsModel.v
theories/VfsProps.v
theories/WidthModel.v
theories/WidthProofs.v
theories/WidthProps.v
theories/WireModel.v
theories/WireProofs.v
theories/WireProps.v
theories/XorDratModel.v
theories/XorDratProofs.v
theories/XorDratProps.v
theories/XorParity.v
theories/XorProps.v
