-Q theories Verif
theories/Base.v
theories/Utf8.v
theories/Ext.v
theories/Errors.v
theories/Syntax.v
theories/AhoCorasick.v
theories/Value.v
theories/Ast.v
theories/Lexer.v
theories/Parser.v
theories/Compiler.v
theories/Fmt.v
theories/Stack.v
theories/Filters.v
theories/Render.v
theories/Engine.v
theories/Serde.v
theories/Tests.v
theories/SearchSpec.v
theories/AcProof.v
theories/SyntaxSpec.v
theories/Props1.v
theories/LexSpec.v
theories/Wp.v
theories/TrimProof.v
theories/GrammarSpec.v
theories/LexProof.v
theories/LitProof.v
theories/TokStream.v
theories/ParseProof.v
theories/ParseSound.v
theories/ParseComplete.v
theories/AstOk.v
theories/CompileProof.v
theories/ParseMain.v
theories/TileSpec.v
theories/TileProof.v
theories/EngineSpec.v
theories/CompileFacts.v
theories/RawFacts.v
theories/Props2.v
theories/RenderSpec.v
theories/RenderProof.v
theories/RenderErr.v
theories/MapFacts.v
theories/RenderMain.v
theories/WriteSpec.v
theories/RenderObs.v
theories/Demo.v
theories/Props3.v
theories/StackRel.v
theories/Parts.v
theories/IncludeFacts.v
theories/LookupSpec.v
theories/LookupProof.v
theories/BlockSpec.v
theories/BlockProof.v
theories/Props4.v
theories/Props5.v
theories/DepthSpec.v
theories/DepthProof.v
theories/Props6.v
theories/ContextSpec.v
theories/ContextProof.v
theories/LazyProof.v
theories/TraceSpec.v
theories/TraceProof.v
theories/Props7.v
theories/FilterSpec.v
theories/FilterProof.v
theories/FilterProof2.v
theories/Props8.v
theories/RegistrySpec.v
theories/RegistryProof.v
theories/CompileErr.v
theories/LocSpec.v
theories/LocProof.v
theories/Props9.v
theories/DecimalSpec.v
theories/DecimalProof.v
theories/SerdeSpec.v
theories/SerdeProof.v
theories/PlainText.v
theories/Wrap.v
theories/LiteralSpec.v
theories/Literal.v
theories/Trailing.v
theories/FormatSpec.v
theories/Props10.v
theories/OriginSpec.v
theories/OriginProof.v
theories/UseSpec.v
theories/UseProof.v
theories/Props11.v
theories/BuilderSpec.v
theories/Props12.v
theories/Macros.v
theories/MacroSpec.v
theories/Props13.v
theories/Meaning.v
theories/MeaningProof.v
theories/LayoutSpec.v
theories/LayoutProof.v
theories/Props14.v
theories/BlameSpec.v
theories/Words.v
theories/Automaton.v
theories/LitBlame.v
theories/Blame.v
theories/TagBlame.v
theories/LexStop.v
theories/BlameProof.v
theories/NoBlame.v
theories/Props15.v
theories/MessageSpec.v
theories/Props16.v
theories/FilterImpls.v
theories/Props17.v
theories/ConcatSpec.v
theories/Concat.v
theories/Props18.v
theories/RefactorSpec.v
theories/Refactor.v
theories/Props19.v
theories/Inline.v
theories/Props20.v
theories/PanicSpec.v
theories/PanicProof.v
theories/Props21.v
theories/ExtendSpec.v
theories/Extend.v
theories/Props22.v
theories/Tests2.v
theories/NameSpec.v
theories/Naming.v
theories/Props23.v
theories/FeatureSpec.v
theories/Feature.v
theories/FeatureC.v
theories/FeatureE.v
theories/Props24.v
theories/Calls.v
theories/CallSpec.v
theories/CallProof.v
theories/CallLink.v
theories/CallErr.v
theories/Props25.v
theories/TreeSpec.v
theories/TreeLex.v
theories/TreePrint.v
theories/TreeParse.v
theories/TreeSound.v
theories/Props26.v
theories/BodySpec.v
theories/Body.v
theories/Props27.v
theories/RenameSpec.v
theories/Rename.v
theories/Props28.v
theories/Props29.v
theories/ShapeSpec.v
theories/Shape.v
theories/Props30.v
theories/FaultSpec.v
theories/Fault.v
theories/Props31.v
theories/PlaceSpec.v
theories/Place.v
theories/Props32.v
theories/Slim.v
theories/Props33.v
theories/OwnedSpec.v
theories/Owned.v
theories/Props34.v
theories/SizeSpec.v
theories/Size.v
theories/Steps.v
theories/Props35.v
theories/KindSpec.v
theories/Kinds.v
theories/Props36.v
theories/EscapeSpec.v
theories/Escape.v
theories/Props37.v
theories/GenFilters.v
theories/Props38.v
theories/WorkSpec.v
theories/Work.v
theories/Props39.v
theories/StoreSpec.v
theories/Props40.v
theories/Fuzz.v
theories/Props41.v
theories/FromSpec.v
theories/From.v
theories/Props42.v
theories/DebugSpec.v
theories/Debug.v
theories/DebugProof.v
theories/Validity.v
theories/Props43.v
