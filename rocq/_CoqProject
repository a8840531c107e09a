-Q theories Verif
theories/Chars.v
theories/Ast.v
theories/Errors.v
theories/Chumsky.v
theories/Spans.v
theories/Grammar.v
theories/Conformance.v
theories/Safe.v
theories/GrammarSafe.v
theories/Near.v
theories/GrammarNear.v
theories/NodeSafe.v
theories/DocSafe.v
theories/Kdl.v
theories/KdlText.v
theories/KdlChars.v
theories/Good.v
theories/LexSpace.v
theories/LexLit.v
theories/LexIdent.v
theories/PropMap.v
theories/Items.v
theories/Nodes.v
theories/NodesComplete.v
theories/Erase.v
theories/Meaning.v
theories/Layout.v
theories/LayoutMeans.v
theories/PrintMeans.v
theories/Observe.v
theories/LayoutProps.v
theories/Template.v
theories/LexProps.v
theories/Comment.v
theories/CommentProps.v
theories/ItemProps.v
theories/Number.v
theories/NumProps.v
theories/SpanSpec.v
theories/SpanProps.v
theories/LineSpec.v
theories/LineProps.v
theories/Param.v
theories/ParamGrammar.v
theories/SpanIndep.v
theories/LineAst.v
theories/Sample.v
theories/ErrSpec.v
theories/TokenSet.v
theories/ErrAt.v
theories/ErrGrammar.v
theories/ErrProps.v
theories/TokenProps.v
theories/SpanOps.v
theories/OrdProps.v
theories/Decode.v
theories/Scalar.v
theories/Containers.v
theories/DecodeSpec.v
theories/IntProps.v
theories/DecodeProps.v
theories/ScalarProps.v
theories/AstProps.v
theories/BytesProps.v
theories/DeriveDef.v
theories/Derive.v
theories/DeriveConformance.v
theories/DeriveSpec.v
theories/DeriveProps.v
theories/FieldSpec.v
theories/FieldProps.v
theories/StructSpec.v
theories/StructProps.v
theories/HonestProps.v
theories/DeriveSample.v
theories/FileSample.v
theories/HandProps.v
theories/HandSpec.v
theories/LibraryProps.v
theories/LostProps.v
theories/MissProps.v
theories/UnwrapProps.v
theories/UnwrapSpec.v
theories/UnwrapSample.v
theories/EnumProps.v
theories/EnumSpec.v
theories/TypedProps.v
theories/EnumSample.v
theories/FlattenProps.v
theories/FlattenSpec.v
theories/FlattenSample.v
theories/Steps.v
theories/StepsBound.v
theories/StepsComment.v
theories/StepsNodes.v
theories/StepsProps.v
theories/StepsTotal.v
theories/NodeProps.v
theories/PartialProps.v
theories/PartialSpec.v
theories/PartialSample.v
theories/PointParse.v
theories/PointProps.v
theories/PointSpec.v
theories/TruthProps.v
theories/TruthSample.v
theories/TruthSpec.v
theories/ErrorText.v
theories/ShownSpec.v
theories/ShownParse.v
theories/ShownProps.v
theories/ShownSample.v
theories/ByteSpans.v
theories/PlaceParse.v
theories/PlaceProps.v
theories/PlaceSample.v
theories/PlaceSpec.v
theories/CalmProps.v
theories/CalmSpec.v
theories/PointerProps.v
theories/PointerSpec.v
theories/CalmLibrary.v
theories/CalmSample.v
theories/PointerSample.v
theories/AcceptProps.v
theories/AcceptSample.v
theories/AcceptSpec.v
theories/AttrItem.v
theories/AttrParse.v
theories/AttrProps.v
theories/AttrSample.v
theories/AttrSpec.v
theories/LineErr.v
theories/DeriveScalar.v
theories/ScalarEnumProps.v
theories/ScalarEnumSample.v
theories/ScalarEnumSpec.v
theories/RecoverCalc.v
theories/RecoverProps.v
theories/RecoverSample.v
theories/RecoverSpec.v
theories/AlikeDerive.v
theories/AlikeLib.v
theories/AlikeParse.v
theories/AlikeProps.v
theories/AlikeSample.v
theories/AlikeSpec.v
theories/LaxCalc.v
theories/LaxGrammar.v
theories/LaxIdent.v
theories/LaxLit.v
theories/LaxNode.v
theories/LaxProps.v
theories/LaxSample.v
theories/LaxSpec.v
theories/Coarse.v
theories/CoarseGrammar.v
theories/EarlyCalc.v
theories/EarlyDoc.v
theories/EarlyGrammar.v
theories/EarlyItem2.v
theories/EarlyItems.v
theories/EarlyMild.v
theories/EarlyProps.v
theories/EarlySample.v
theories/EarlySpec.v
theories/Concat.v
theories/ConcatProps.v
theories/ConcatSample.v
theories/ConcatSpec.v
theories/StepsAccepted.v
theories/StepsClosed.v
theories/StepsClosedSpec.v
theories/OrderCalc.v
theories/OrderSpec.v
theories/OrderLow.v
theories/OrderNeat.v
theories/OrderStuck.v
theories/OrderNode.v
theories/OrderEmit.v
theories/OrderText.v
theories/OrderList.v
theories/OrderProps.v
theories/Report.v
theories/ReportProps.v
theories/ReportSample.v
theories/ReportSpec.v
theories/SteadyLibrary.v
theories/SteadyProps.v
theories/SteadySpec.v
theories/SwapProps.v
theories/SwapSample.v
theories/SwapFlat.v
theories/PropC01.v
theories/PropC02.v
theories/PropC03.v
theories/PropC04.v
theories/PropC05.v
theories/PropC06.v
theories/PropC07.v
theories/PropC08.v
theories/PropC09.v
theories/PropC10.v
theories/PropC11.v
theories/PropC12.v
theories/PropC13.v
theories/PropC14.v
theories/PropC15.v
theories/PropC16.v
theories/PropC17.v
theories/PropC18.v
theories/PropC19.v
theories/PropC20.v
theories/PropC21.v
theories/PropC22.v
theories/PropC23.v
theories/PropC24.v
theories/PropC25.v
theories/PropC26.v
theories/PropC27.v
theories/PropC28.v
theories/PropC29.v
theories/PropC30.v
theories/PropC31.v
theories/PropC32.v
theories/PropC33.v
theories/PropC34.v
theories/PropC35.v
theories/PropC36.v
theories/PropC37.v
theories/PropC38.v
theories/PropC39.v
theories/PropC40.v
theories/PropC41.v
theories/PropC42.v
theories/PropC43.v
theories/PropC44.v
theories/PropC45.v
theories/PropC46.v
theories/PropC47.v
theories/PropC48.v
theories/PropC49.v
theories/PropC50.v
theories/PropC51.v
theories/PropC52.v
theories/PropC53.v
theories/PropC54.v
theories/PropC55.v
theories/PropC56.v
theories/PropC57.v
theories/PropC58.v
theories/PropC59.v
theories/PropC60.v
theories/PropC61.v
theories/PropC62.v
theories/PropC63.v
theories/PropC64.v
theories/PropC65.v
theories/PropC66.v
theories/PropC67.v
theories/PropC68.v
theories/PropC69.v
theories/PropC70.v
theories/PropC71.v
theories/PropC72.v
theories/PropC73.v
theories/PropC74.v
