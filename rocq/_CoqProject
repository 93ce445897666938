-Q theories Verif
theories/Base.v
theories/Tac.v
theories/Std.v
theories/Constants.v
theories/Chars.v
theories/Trees.v
theories/KanaTreeData.v
theories/RomajiTreeData.v
theories/KanaTree.v
theories/RomajiTree.v
theories/Strings.v
theories/Convert.v
theories/Tokenize.v
theories/Chunk.v
theories/Traits.v
theories/Cli.v
theories/Unicode14.v
theories/StdInstances.v
theories/KanaPure.v
theories/RomajiPure.v
theories/Predicates.v
theories/TokenSpec.v
theories/TokenizeProofs.v
theories/TrimProofs.v
theories/Utf8Proofs.v
theories/ChunkProofs.v
theories/KanaSpec.v
theories/KanaDict.v
theories/KanaProofs.v
theories/ScriptSpec.v
theories/ScriptProofs.v
theories/ScriptIdem.v
theories/RomajiSpec.v
theories/RomajiProofs.v
theories/MoraProofs.v
theories/ReadBack.v
theories/TypingSpec.v
theories/Splits.v
theories/LibrarySpec.v
theories/LibraryProofs.v
theories/ChoiceSpec.v
theories/ChoiceProofs.v
theories/ExactSpec.v
theories/Exact.v
theories/ExactScript.v
theories/LowerTwice.v
theories/ModesSpec.v
theories/ModesProofs.v
theories/ModesPairs.v
theories/TypeInSpec.v
theories/TypeIn.v
theories/TraitsSpec.v
theories/CliSpec.v
theories/CliProofs.v
theories/Bindings.v
theories/BindingsSpec.v
theories/BindingsProofs.v
theories/TreeSpec.v
theories/Json.v
theories/UpstreamData.v
theories/Debug.v
theories/Upstream.v
theories/UpstreamSpec.v
theories/UpstreamProofs.v
theories/DebugSpec.v
theories/DebugProofs.v
theories/SameSpec.v
theories/SameRomaji.v
theories/JoinSpec.v
theories/Joins.v
theories/JoinText.v
theories/TokenJoin.v
theories/KanaJoinSpec.v
theories/KanaJoin.v
theories/KanaTokens.v
theories/CompleteSpec.v
theories/Complete.v
theories/RomajiComplete.v
theories/FixedSpec.v
theories/Fixed.v
theories/Image.v
theories/ScriptResultSpec.v
theories/ScriptImage.v
theories/ComposeSpec.v
theories/Compose.v
theories/RoundSpec.v
theories/Round.v
theories/RoundUp.v
theories/JoinUpSpec.v
theories/JoinUp.v
theories/ScriptTokenSpec.v
theories/ScriptTokens.v
theories/ScriptPartSpec.v
theories/ScriptParts.v
theories/ScriptPartsHira.v
theories/CompleteScript.v
theories/Cost.v
theories/CostSpec.v
theories/CostProofs.v
theories/Results_Totality.v
theories/Results_Kana.v
theories/Results_Script.v
theories/Results_Romaji.v
theories/Results_Predicates.v
theories/Results_Tokenize.v
theories/Results_Trim.v
theories/Results_System.v
theories/Results_Upstream.v
theories/Results_Parts.v
theories/Results_Api.v
theories/Results_Modes.v
theories/Results_Fixed.v
theories/Results_Work.v
theories/Results_Split.v
theories/LocalSpec.v
theories/Local.v
theories/LocalRomaji.v
theories/UpperShift.v
theories/Results_Local.v
theories/BytesSpec.v
theories/Bytes.v
theories/Alloc.v
theories/AllocSpec.v
theories/AllocProofs.v
theories/Results_Bytes.v
theories/SepSpec.v
theories/Sep.v
theories/SepText.v
theories/Results_Sep.v
theories/HashMap.v
theories/HashMapSpec.v
theories/HashMapProofs.v
theories/FnvProofs.v
theories/Results_Hash.v
theories/Compare.v
theories/CompareSpec.v
theories/CompareSearch.v
theories/CompareProofs.v
theories/CompareRomaji.v
theories/CompareResults.v
theories/Results_Compare.v
theories/Table.v
theories/TableSpec.v
theories/TableProofs.v
theories/Results_Table.v
theories/Props_Totality.v
theories/Props_Kana.v
theories/Props_Script.v
theories/Props_Romaji.v
theories/Props_Predicates.v
theories/Props_Tokenize.v
theories/Props_Trim.v
theories/Props_System.v
theories/Props_Upstream.v
theories/Props_Parts.v
theories/Props_Api.v
theories/Props_Modes.v
theories/Props_Fixed.v
theories/Props_Work.v
theories/Props_Split.v
theories/Props_Local.v
theories/Props_Bytes.v
theories/Props_Sep.v
theories/Props_Hash.v
theories/Props_Compare.v
theories/Props_Table.v
theories/Ways.v
theories/WaysRom.v
theories/Results_Ways.v
theories/Props_Ways.v
theories/Work.v
theories/WorkProofs.v
theories/WorkTexts.v
theories/Results_Tests.v
theories/Props_Tests.v
theories/StrokeSpec.v
theories/Strokes.v
theories/StrokesUp.v
theories/StrokesScript.v
theories/Results_Strokes.v
theories/Props_Strokes.v
theories/Machine.v
theories/MachineProofs.v
theories/Results_Machine.v
theories/Props_Machine.v
theories/NormSpec.v
theories/Norm.v
theories/NormHira.v
theories/NormText.v
theories/Results_Norm.v
theories/Props_Norm.v
theories/ComposedSpec.v
theories/Composed.v
theories/Results_Composed.v
theories/Props_Composed.v
theories/InKatakanaSpec.v
theories/InKatakana.v
theories/Results_InKatakana.v
theories/Props_InKatakana.v
theories/OrderSpec.v
theories/Order.v
theories/Results_Order.v
theories/Props_Order.v
theories/Threads.v
theories/ThreadsSpec.v
theories/ThreadsProofs.v
theories/ThreadsLazy.v
theories/Results_Threads.v
theories/Props_Threads.v
theories/RepoTests.v
theories/SyllablesSpec.v
theories/Syllables.v
theories/Results_Syllables.v
theories/Props_Syllables.v
theories/TypedBackSpec.v
theories/TypedBack.v
theories/TchText.v
theories/Results_TypedBack.v
theories/Props_TypedBack.v
