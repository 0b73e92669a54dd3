-Q theories Verif
theories/ArcModel.v
theories/ArcProofs.v
theories/ArcProps.v
theories/ArcThreads.v
theories/ArcThreadsBase.v
theories/ArcThreadsInv.v
theories/ArcThreadsMore.v
theories/ArcThreadsProps.v
theories/ArcThreadsRace.v
theories/ArcThreadsRace2.v
theories/ArcThreadsSpec.v
theories/ArcThreadsStep.v
theories/ArcThreadsStep2.v
theories/ArcThreadsStep3.v
theories/AsciiModel.v
theories/AsciiProofs.v
theories/AsciiProps.v
theories/BitSetModel.v
theories/BitSetProofs.v
theories/BitSetProps.v
theories/BitSetSpec.v
theories/CanonCodecProps.v
theories/CanonMatch.v
theories/CanonModel.v
theories/CanonProofs.v
theories/CanonProps.v
theories/CanonSpec.v
theories/ClosureModel.v
theories/CmpModel.v
theories/CmpProofs.v
theories/CmpProps.v
theories/CmpSpec.v
theories/CollectLemmas.v
theories/CollectModel.v
theories/CollectProps.v
theories/CollectSpec.v
theories/Common.v
theories/CommonLemmas.v
theories/CompileModel.v
theories/CompileProofs.v
theories/CompileProps.v
theories/CompileSpec.v
theories/CompileWatch.v
theories/DecModel.v
theories/DecProps.v
theories/DecSpec.v
theories/DeferModel.v
theories/DeferProof.v
theories/DeferSpec.v
theories/DrainModel.v
theories/DrainProof.v
theories/DrainSpec.v
theories/EnterModel.v
theories/EnterProof.v
theories/EnterSpec.v
theories/ExprDet.v
theories/ExprModel.v
theories/ExprProof.v
theories/ExprSpec.v
theories/FlatHistory.v
theories/FlatHistoryProofs.v
theories/FlatMapProofs.v
theories/FlatModel.v
theories/FlatProofs.v
theories/FlatProps.v
theories/FlatSpec.v
theories/FontModel.v
theories/FontProof.v
theories/FontSpec.v
theories/Gf2.v
theories/GrowLine.v
theories/HashData.v
theories/HashGrow.v
theories/HashGrowTop.v
theories/HashGrowTwo.v
theories/HashIndex.v
theories/HashModel.v
theories/HashProofs.v
theories/HashProps.v
theories/HashRoomy.v
theories/HashSpec.v
theories/HashTop.v
theories/HashVerify.v
theories/HttpModel.v
theories/HttpProps.v
theories/HttpSpec.v
theories/IntlitModel.v
theories/IntlitProps.v
theories/IntlitSpec.v
theories/JumpModel.v
theories/JumpProof.v
theories/JumpSpec.v
theories/KsfdModel.v
theories/KsfdProofs.v
theories/KsfdProps.v
theories/LegacyModel.v
theories/LegacyProps.v
theories/LegacySpec.v
theories/LevModel.v
theories/LevProofs.v
theories/LevProps.v
theories/LevSpec.v
theories/LexerModel.v
theories/LexerOps.v
theories/LexerPieces.v
theories/LexerProofs.v
theories/LexerProps.v
theories/LexerSpec.v
theories/LexerStep.v
theories/LexerStrings.v
theories/LfsModel.v
theories/LfsProofs.v
theories/LfsProps.v
theories/LfsSpec.v
theories/LifetimeAskProps.v
theories/LifetimeInter.v
theories/LifetimeInterProps.v
theories/LifetimeMerge.v
theories/LifetimeModel.v
theories/LifetimeOps.v
theories/LifetimeOpsProps.v
theories/LifetimeProofs.v
theories/LifetimeProps.v
theories/LifetimeSem.v
theories/LifetimeSpec.v
theories/LitLemmas.v
theories/LitModel.v
theories/LitProps.v
theories/LitSpec.v
theories/LoopModel.v
theories/LoopProof.v
theories/LoopSpec.v
theories/MonoModel.v
theories/MonoProof.v
theories/MonoSpec.v
theories/NamesLemmas.v
theories/NamesModel.v
theories/NamesProof.v
theories/NamesProps.v
theories/NamesScope.v
theories/NamesSpec.v
theories/OrderModel.v
theories/OrderProof.v
theories/OrderSpec.v
theories/ParforModel.v
theories/ParforProps.v
theories/ParserComplete.v
theories/ParserFuel.v
theories/ParserModel.v
theories/ParserProofs.v
theories/ParserProps.v
theories/ParserSound.v
theories/ParserSpec.v
theories/ParserTotal.v
theories/PathModel.v
theories/PathProofs.v
theories/PathProps.v
theories/PathSpec.v
theories/PoolModel.v
theories/PoolProofs.v
theories/PoolProps.v
theories/PoolSpec.v
theories/PosixAtomic.v
theories/PosixDirs.v
theories/PosixLemmas.v
theories/PosixModel.v
theories/PosixProps.v
theories/PosixSpec.v
theories/PreludeModel.v
theories/PreludeProofs.v
theories/PreludeProps.v
theories/PreludeSpec.v
theories/PropsC71.v
theories/PropsC72.v
theories/PropsC73.v
theories/PropsC74.v
theories/PropsC75.v
theories/PropsC76.v
theories/PropsC77.v
theories/PropsC78.v
theories/PropsC79.v
theories/PropsC80.v
theories/RandModel.v
theories/RandProofs.v
theories/RandProps.v
theories/RandThreads.v
theories/RangeModel.v
theories/RangeProofs.v
theories/RangeProps.v
theories/RangeSpec.v
theories/ResolveLemmas.v
theories/ResolveModel.v
theories/ResolveProps.v
theories/ResolveSpec.v
theories/SchedModel.v
theories/SchedProofs.v
theories/SchedProofs2.v
theories/SchedProps.v
theories/ScopeModel.v
theories/ScopeMore.v
theories/ScopeProofs.v
theories/ScopeProps.v
theories/ScopeSim.v
theories/ScopeSpec.v
theories/SockLemmas.v
theories/SockModel.v
theories/SockProps.v
theories/SockSpec.v
theories/SpawnLemmas.v
theories/SpawnModel.v
theories/SpawnProps.v
theories/SpawnSpec.v
theories/StmtModel.v
theories/StmtProof.v
theories/StmtSpec.v
theories/SwapModel.v
theories/SwapProps.v
theories/TeaModel.v
theories/TeaProofs.v
theories/TeaProps.v
theories/TestdiffModel.v
theories/TestdiffProofs.v
theories/TestdiffProps.v
theories/TestdiffSpec.v
theories/TypesModel.v
theories/TypesProps.v
theories/TypesSpec.v
theories/UsageModel.v
theories/UsageProps.v
theories/Utf8Model.v
theories/Utf8Props.v
theories/Utf8Spec.v
theories/VarintModel.v
theories/VarintProofs.v
theories/VarintProps.v
theories/VecApi.v
theories/VecApi2.v
theories/VecInv.v
theories/VecMachine.v
theories/VecMem.v
theories/VecModel.v
theories/VecMore.v
theories/VecPack.v
theories/VecPackProofs.v
theories/VecPackProps.v
theories/VecProofs.v
theories/VecProps.v
theories/VecSpec.v
theories/VecSplice.v
theories/VecSplice2.v
theories/VecSplice3.v
theories/ViewModel.v
theories/ViewProps.v
theories/Words.v
theories/WordsLemmas.v
