-Q theories Verif
theories/Base.v
theories/SyntaxKind.v
theories/TextModel.v
theories/Regex.v
theories/LexerModel.v
theories/LexerSpec.v
theories/LexerProofs.v
theories/TomlGrammar.v
theories/LexScalars.v
theories/LexSound.v
theories/LexNumbers.v
theories/LexerProps.v
theories/TomlTextModel.v
theories/TomlStringGrammar.v
theories/TomlTextProofs.v
theories/TomlTextProps.v
theories/NumberModel.v
theories/NumberSpec.v
theories/NumberProofs.v
theories/NumberProps.v
theories/DateTimeModel.v
theories/DateTimeSpec.v
theories/DateTimeProofs.v
theories/DateTimeTokens.v
theories/DateTimeProps.v
theories/VersionSortModel.v
theories/VersionSortProofs.v
theories/VersionSortMore.v
theories/VersionSortProps.v
theories/ParserModel.v
theories/ParserInv.v
theories/ParserPrims.v
theories/ParserGrammar.v
theories/ParserValues.v
theories/ParserBuild.v
theories/ParserDepth.v
theories/ParserProps.v
theories/FormatPieces.v
theories/FormatPiecesProofs.v
theories/FormatPiecesProps.v
theories/LexLocal.v
theories/RangeProps.v
theories/LspTextModel.v
theories/LspTextSpec.v
theories/LspTextProofs.v
theories/LspTextProps.v
theories/AstModel.v
theories/LinterModel.v
theories/LinterProps.v
theories/ValidatorModel.v
theories/ValidatorProofs.v
theories/ValidatorProps.v
theories/ValidatorKeywordProps.v
theories/ValidatorReportProps.v
theories/SortModel.v
theories/SortProofs.v
theories/SortProps.v
theories/ArraySortModel.v
theories/ArraySortProofs.v
theories/ArraySortProps.v
theories/DocTreeModel.v
theories/DocTreeSpec.v
theories/DocTreeProofs.v
theories/DocTreeProps.v
theories/GlobModel.v
theories/GlobProps.v
theories/GreenModel.v
theories/GreenProps.v
theories/RedModel.v
theories/RedProofs.v
theories/RedProps.v
theories/MutModel.v
theories/MutSpec.v
theories/MutProofs.v
theories/MutEdits.v
theories/MutProps.v
theories/SllModel.v
theories/SllProps.v
theories/NameModel.v
theories/NameProps.v
theories/FormatModel.v
theories/FormatProps.v
theories/JsonModel.v
theories/JsonSpec.v
theories/JsonLex.v
theories/JsonWords.v
theories/JsonNumbers.v
theories/JsonParse.v
theories/JsonComplete.v
theories/JsonRound.v
theories/JsonProps.v
theories/ServerModel.v
theories/ServerSpec.v
theories/ServerProofs.v
theories/ServerProps.v
theories/FormatterModel.v
theories/FormatterLayout.v
theories/FormatterSpec.v
theories/FormatterProofs.v
theories/FormatterEdit.v
theories/ParserYield.v
theories/ParserShape.v
theories/ParserTree.v
theories/ViewShape.v
theories/ViewContent.v
theories/FormatterProps.v
theories/OneLine.v
theories/FormatterTextProps.v
theories/FormatterRelex.v
theories/FormatterRelexProps.v
theories/ParserAccepts.v
theories/ParserAcceptsProps.v
theories/ParseBack.v
theories/ParseBackProofs.v
theories/ParserSound.v
theories/ParserSoundProps.v
theories/ReadBack.v
theories/ReadBackProps.v
theories/TextTreeModel.v
theories/TextTreeProofs.v
theories/TextPlaces.v
theories/TextTreeProps.v
theories/DocTreeArrays.v
theories/FormatterTotal.v
theories/FormatterTotalProps.v
theories/SerdeModel.v
theories/SerdeSpec.v
theories/SerdeTokens.v
theories/SerdeBack.v
theories/SerdeLayout.v
theories/SerdeSections.v
theories/SerdeWhole.v
theories/SerdeMeaning.v
theories/SerdeSerialize.v
theories/SerdeValues.v
theories/SerdeTotal.v
theories/SerdeProps.v
theories/CliModel.v
theories/CliSpec.v
theories/CliProofs.v
theories/CliProps.v
theories/PointerModel.v
theories/PointerSpec.v
theories/PointerProofs.v
theories/PointerProps.v
theories/ReferenceModel.v
theories/ReferenceSpec.v
theories/ReferenceProofs.v
theories/ReferenceProps.v
theories/ConfigFileModel.v
theories/ConfigFileProps.v
theories/OverrideModel.v
theories/OverrideSpec.v
theories/OverrideProofs.v
theories/OverrideProps.v
theories/AssociationModel.v
theories/AssociationProps.v
theories/CacheModel.v
theories/CacheProps.v
theories/SchemaMemoryModel.v
theories/SchemaMemoryProps.v
theories/CodeActionModel.v
theories/CodeActionSpec.v
theories/CodeActionMeaning.v
theories/CodeActionProofs.v
theories/CodeActionProps.v
theories/LintRulesModel.v
theories/LintGrammarSpec.v
theories/LintStrip.v
theories/LintGrammarFacts.v
theories/LintGrammarTree.v
theories/LintGrammarProofs.v
theories/LintGrammarProps.v
theories/HighlightModel.v
theories/HighlightSpec.v
theories/HighlightProofs.v
theories/HighlightTree.v
theories/HighlightPlaces.v
theories/HighlightProps.v
theories/LintLastComma.v
