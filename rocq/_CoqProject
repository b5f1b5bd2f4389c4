-Q theories Verif
theories/Str.v
theories/BMap.v
theories/Schema.v
theories/Gen.v
theories/SchemaSpec.v
theories/SchemaFacts.v
theories/PropSchema.v
theories/GenSpec.v
theories/GenFacts.v
theories/GenFacts2.v
theories/GenFacts3.v
theories/GenFacts4.v
theories/PropGen.v
theories/Case.v
theories/CaseSpec.v
theories/CaseFacts.v
theories/PropCase.v
theories/Attr.v
theories/Ast.v
theories/Derive.v
theories/AttrSpec.v
theories/AttrFacts.v
theories/DeriveSpec.v
theories/AstFacts.v
theories/DeriveFacts.v
theories/DeriveFacts2.v
theories/DeriveFacts3.v
theories/DeriveFacts4.v
theories/DeriveFacts5.v
theories/DeriveExamples.v
theories/PropAttr.v
theories/DeriveFacts6.v
theories/PropDerive.v
theories/Bound.v
theories/BoundSpec.v
theories/BoundFacts.v
theories/PropBound.v
theories/Doc.v
theories/Ser.v
theories/Api.v
theories/SerSpec.v
theories/SerFacts.v
theories/SerFacts2.v
theories/SerFacts3.v
theories/SerFacts4.v
theories/SerExamples.v
theories/PropSer.v
theories/ApiSpec.v
theories/ApiFacts.v
theories/ApiFacts2.v
theories/GenFacts5.v
theories/ApiFacts3.v
theories/ApiFacts4.v
theories/ApiFacts5.v
theories/ApiFacts6.v
theories/Expected.v
theories/Conformance.v
theories/ApiFacts7.v
theories/ApiExamples.v
theories/PropApi.v
theories/ApiFacts8.v
theories/SoundSpec.v
theories/FitsSpec.v
theories/FitsFacts.v
theories/SoundFacts.v
theories/SoundFacts2.v
theories/SoundFacts3.v
theories/SoundFacts4.v
theories/SoundFacts5.v
theories/SoundCheck.v
theories/SoundExamples.v
theories/BuiltinFacts.v
theories/PropSound.v
theories/ReadSpec.v
theories/ReadFacts.v
theories/ReadFacts2.v
theories/PropOpenApi.v
theories/OpenApiSpec.v
theories/OpenApiFacts.v
theories/TidySpec.v
theories/TidyFacts.v
theories/TidyFacts2.v
theories/TidyFacts3.v
theories/TidyFacts4.v
theories/TidyFacts5.v
theories/TidyFacts6.v
theories/TidyExamples.v
theories/ReadsSpec.v
theories/ReadsFacts.v
theories/ReadsFacts2.v
theories/ReadsFacts3.v
theories/ReadsExamples.v
theories/PropReads.v
theories/Tokens.v
theories/Match.v
theories/Syntax.v
theories/MatchFacts.v
theories/SyntaxSpec.v
theories/MatchFacts2.v
theories/MatchFacts3.v
theories/SyntaxFacts.v
theories/SyntaxFacts2.v
theories/SyntaxFacts3.v
theories/SyntaxFacts4.v
theories/SyntaxFacts5.v
theories/SyntaxFacts6.v
theories/SyntaxFacts7.v
theories/SyntaxFacts8.v
theories/ConformanceSyntax.v
theories/SyntaxFacts9.v
theories/PropSyntax.v
theories/StrictSpec.v
theories/StrictFacts.v
theories/StrictFacts2.v
theories/StrictFacts3.v
theories/StrictFacts4.v
theories/StrictFacts5.v
theories/StrictExamples.v
theories/PropStrict.v
theories/PanicSpec.v
theories/PanicFacts.v
theories/Impl.v
theories/LibImpls.v
theories/ImplSpec.v
theories/ImplFacts.v
theories/ImplFacts2.v
theories/PropImpl.v
theories/LocalFacts.v
theories/PropLocal.v
theories/StrictFacts6.v
theories/Rust.v
theories/Quote.v
theories/QuoteSpec.v
theories/QuoteFacts.v
theories/QuoteFacts2.v
theories/PropQuote.v
theories/HygieneSpec.v
theories/HygieneFacts.v
theories/PropHygiene.v
theories/Diag.v
theories/DiagSpec.v
theories/DiagFacts.v
theories/DiagDeclFacts.v
theories/DiagExamples.v
theories/PropDiag.v
theories/SkipSpec.v
theories/SkipFacts.v
theories/PropSkip.v
theories/Serde.v
theories/SerdeSpec.v
theories/SerdeFacts.v
theories/PropSerde.v
theories/Expand.v
theories/ExpandSpec.v
theories/ExpandFacts.v
theories/ExpandFacts2.v
theories/ExpandFacts3.v
theories/ExpandFacts4.v
theories/ExpandExamples.v
theories/PropExpand.v
theories/ConformanceCase.v
theories/PublishSpec.v
theories/PublishFacts.v
theories/PublishExamples.v
theories/PropPublish.v
theories/FitsExamples.v
theories/PropFits.v
theories/Trace.v
theories/OrderSpec.v
theories/OrderFacts.v
theories/OrderFacts2.v
theories/OrderFacts3.v
theories/OrderFacts4.v
theories/PropOrder.v
theories/Levels.v
theories/LevelsSpec.v
theories/LevelsFacts.v
theories/LevelsFacts2.v
theories/LevelsExamples.v
theories/PropLevels.v
theories/DocsSpec.v
theories/DocsFacts.v
theories/DocsFacts2.v
theories/DocsFacts3.v
theories/DocsFacts4.v
theories/DocsExamples.v
theories/PropDocs.v
theories/DocsFacts5.v
theories/Respan.v
theories/RespanSpec.v
theories/RespanFacts.v
theories/PropRespan.v
theories/ExpandType.v
theories/ExpandTypeSpec.v
theories/ExpandTypeFacts.v
theories/ExpandTypeFacts2.v
theories/ExpandTypeFacts3.v
theories/ExpandTypeExamples.v
theories/PropExpandType.v
theories/HistorySpec.v
theories/HistoryFacts.v
theories/PropHistory.v
theories/RejectSpec.v
theories/RejectFacts.v
theories/RejectExamples.v
theories/PropReject.v
theories/Moves.v
theories/MovesSpec.v
theories/MovesFacts.v
theories/MovesFacts2.v
theories/MovesFacts3.v
theories/MovesFacts4.v
theories/MovesExamples.v
theories/PropMoves.v
theories/GrowSpec.v
theories/GrowFacts.v
theories/GrowExamples.v
theories/PropGrow.v
theories/AddSpec.v
theories/AddFacts.v
theories/AddExamples.v
theories/PropAdd.v
