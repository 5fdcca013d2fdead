-Q theories Verif
theories/Base.v
theories/LocationTableModel.v
theories/LocationTableSpec.v
theories/LocationTableProofs.v
theories/LocationTableProps.v
theories/TokenStreamModel.v
theories/TokenStreamSpec.v
theories/TokenStreamProofs.v
theories/TokenStreamProps.v
theories/ListNodeModel.v
theories/ListNodeProofs.v
theories/ListNodeProps.v
theories/MemoryPoolModel.v
theories/MemoryPoolSpec.v
theories/MemoryPoolProofs.v
theories/MemoryPoolProps.v
theories/AllocatorModel.v
theories/AllocatorProofs.v
theories/AllocatorProps.v
theories/BitArrayModel.v
theories/BitArraySpec.v
theories/BitArrayProofs.v
theories/BitArrayProps.v
theories/CharSetModel.v
theories/CharSetSpec.v
theories/CharSetProofs.v
theories/CharSetProps.v
theories/AutomatonModel.v
theories/AutomatonSpec.v
theories/CsetLaws.v
theories/ThompsonProofs.v
theories/ReachProofs.v
theories/SubsetProofs.v
theories/DfaProofs.v
theories/DfaOpsProofs.v
theories/MinimizeProofs.v
theories/SmallestProofs.v
theories/NfaDiagModel.v
theories/NfaDiagProofs.v
theories/NfaBuiltProofs.v
theories/NfaMaxProofs.v
theories/RegexpModel.v
theories/RegexpSpec.v
theories/RegexpProofs.v
theories/LexerModel.v
theories/LexerSpec.v
theories/LexerProofs.v
theories/LexRuleModel.v
theories/LexRuleProofs.v
theories/NfaApiSpec.v
theories/NfaApiProofs.v
theories/AutomatonProps.v
theories/RegexpProps.v
theories/LexerProps.v
theories/UtfModel.v
theories/UtfSpec.v
theories/UtfProofs.v
theories/UtfProps.v
theories/IterModel.v
theories/IterSpec.v
theories/IterProofs.v
theories/RulesetProofs.v
theories/IterProps.v
theories/RangeModel.v
theories/RangeSpec.v
theories/RangeProofs.v
theories/RangeProps.v
theories/GrammarModel.v
theories/GrammarSpec.v
theories/GrammarProofs.v
theories/FirstProofs.v
theories/FollowProofs.v
theories/GrammarTermProofs.v
theories/FirstSoundProofs.v
theories/FollowSoundProofs.v
theories/GrammarLoopProofs.v
theories/GrammarProps.v
theories/ParserModel.v
theories/ParserSpec.v
theories/ParserProofs.v
theories/ParserKeepProofs.v
theories/CheckerModel.v
theories/CompleteSpec.v
theories/CompleteProofs.v
theories/CheckerProofs.v
theories/ParserProps.v
theories/TreeModel.v
theories/TreeSpec.v
theories/TreeProofs.v
theories/TreeUniqueProofs.v
theories/TreeProps.v
theories/TextModel.v
theories/TextSpec.v
theories/TextProofs.v
theories/TextProps.v
theories/DeclModel.v
theories/DeclSpec.v
theories/DeclProofs.v
theories/DeclProps.v
theories/AstModel.v
theories/AstSpec.v
theories/AstProofs.v
theories/AstProps.v
theories/CloneModel.v
theories/CloneSpec.v
theories/CloneProofs.v
theories/CloneProps.v
theories/OperatorModel.v
theories/OperatorSpec.v
theories/OperatorProofs.v
theories/OperatorProps.v
theories/ItemModel.v
theories/InlineModel.v
theories/InlineSpec.v
theories/InlineProofs.v
theories/InlineProps.v
theories/MembersModel.v
theories/MembersSpec.v
theories/MembersProofs.v
theories/MembersProps.v
theories/ErrorSpec.v
theories/ErrorProofs.v
theories/ErrorProps.v
theories/EndSpec.v
theories/EndProofs.v
theories/EndProps.v
theories/FlexModel.v
theories/FlexSpec.v
theories/FlexProofs.v
theories/ScanModel.v
theories/ScanSpec.v
theories/ScanProofs.v
theories/ScanPlaceProofs.v
theories/ScanCodeProofs.v
theories/ScanTextProofs.v
theories/ScanWordProofs.v
theories/ScanProps.v
theories/YaccModel.v
theories/YaccSpec.v
theories/YaccProofs.v
theories/YaccEndProofs.v
theories/YaccReadProofs.v
theories/GramModel.v
theories/GramTableProofs.v
theories/GramProofs.v
theories/GramSpec.v
theories/GramFineProofs.v
theories/GramReadProofs.v
theories/GramRuleProofs.v
theories/GramFileProofs.v
theories/GramProps.v
theories/LangSpec.v
theories/GraphModel.v
theories/GraphProofs.v
theories/LangProofs.v
theories/OriginProofs.v
theories/FileProofs.v
theories/GraphProps.v
theories/UndefModel.v
theories/UndefProps.v
theories/DriverModel.v
theories/DriverSpec.v
theories/DriverProofs.v
theories/DriverProps.v
theories/RunModel.v
theories/RunProps.v
theories/CppSpec.v
theories/EmitModel.v
theories/EmitReadProofs.v
theories/EmitRunProofs.v
theories/EmitSetProofs.v
theories/EmitTotalProofs.v
theories/EmitSpec.v
theories/EmitFileProofs.v
theories/EmitInlineProofs.v
theories/EmitProps.v
theories/WriteSpec.v
theories/WriteTokenProofs.v
theories/WriteLexerProofs.v
theories/WriteProofs.v
theories/WriteFileSpec.v
theories/WriteFileProofs.v
theories/WriteCopyProofs.v
theories/WriteLangProofs.v
theories/WriteProps.v
theories/PrintModel.v
theories/PrintSpec.v
theories/PrintProofs.v
theories/PrintFileProofs.v
theories/PrintProps.v
theories/UnicodeModel.v
theories/UnicodeSpec.v
theories/UnicodeProofs.v
theories/UnicodeNameProofs.v
theories/UnicodeProps.v
theories/DebugModel.v
theories/DebugSpec.v
theories/DebugProofs.v
theories/DebugProps.v
theories/WriteEndProofs.v
theories/WriteEndProps.v
theories/ConflictSpec.v
theories/ConflictProofs.v
theories/ConflictProps.v
theories/DepModel.v
theories/DepSpec.v
theories/DepProofs.v
theories/DepLinkProofs.v
theories/DepProps.v
theories/ReportSpec.v
theories/ReportProofs.v
theories/ReportProps.v
theories/LookModel.v
theories/LookSpec.v
theories/LookProofs.v
theories/LookProps.v
theories/CountSpec.v
theories/CountProofs.v
theories/CountProps.v
theories/RecoverProps.v
theories/StubModel.v
theories/StubSpec.v
theories/StubProofs.v
theories/StubProps.v
theories/GuardModel.v
theories/GuardSpec.v
theories/GuardProofs.v
theories/GuardProps.v
theories/DescribeModel.v
theories/DescribeSpec.v
theories/DescribeProofs.v
theories/DescribeProps.v
theories/NumberSpec.v
theories/NumberProofs.v
theories/NumberProps.v
