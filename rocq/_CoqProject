-Q theories Verif

theories/Base.v
theories/Ast.v
theories/Strings.v
theories/Path.v
theories/Format.v
theories/Num.v
theories/Pretty.v
theories/Spec_Strings.v
theories/StringsFacts.v
theories/Prop_Strings.v
theories/Insert.v
theories/InsertFacts.v
theories/Spec_Insert.v
theories/InsertFacts2.v
theories/InsertFacts3.v
theories/InsertFacts4.v
theories/InsertFacts5.v
theories/Prop_Insert.v
theories/Spec_Pretty.v
theories/PrettyFacts.v
theories/VisitFacts.v
theories/Prop_Pretty.v
theories/Peg.v
theories/PegFacts.v
theories/PathGrammar.v
theories/Spec_Path.v
theories/PathFacts.v
theories/Prop_Path.v
theories/Spec_Move.v
theories/MoveFacts.v
theories/Prop_Move.v
theories/YamlGrammar.v
theories/Consume.v
theories/RepoTests.v
theories/PegTree.v
theories/Spec_Parse.v
theories/YamlTree.v
theories/YamlValues.v
theories/ParseFacts.v
theories/Prop_Parse.v
theories/Ser.v
theories/De.v
theories/FromStr.v
theories/RepoSerde.v
theories/Spec_Serde.v
theories/SerdeFacts.v
theories/SerdeFacts2.v
theories/Prop_Serde.v
theories/Spec_Format.v
theories/Reads.v
theories/FormatText.v
theories/FormatScalars.v
theories/FormatFlow.v
theories/FormatBlock.v
theories/FormatTree.v
theories/FormatExample.v
theories/Spec_Text.v
theories/TextFacts.v
theories/TextFacts2.v
theories/TextExample.v
theories/Prop_Text.v
theories/Spec_Scalar.v
theories/ScalarFacts.v
theories/Prop_Scalar.v
theories/Prop_Format.v
theories/Spec_Stable.v
theories/Gives.v
theories/ParsedNeat.v
theories/ParsedNeat2.v
theories/StableFacts.v
theories/StableExample.v
theories/SiblingFacts.v
theories/Prop_Stable.v
theories/Spec_Polish.v
theories/PolishFacts.v
theories/PolishExample.v
theories/Prop_Polish.v
theories/Spec_Edit.v
theories/EditFacts.v
theories/EditFacts2.v
theories/EditExample.v
theories/Prop_Edit.v
theories/Spec_Look.v
theories/LookFacts.v
theories/LookFacts2.v
theories/LookFacts3.v
theories/Prop_Look.v
theories/MoveDoc.v
theories/Spec_Rearrange.v
theories/EditFacts3.v
theories/EditFacts4.v
theories/EditFacts5.v
theories/EditFacts6.v
theories/Prop_Rearrange.v
theories/Spec_Typed.v
theories/TypedFacts.v
theories/TypedFacts2.v
theories/TypedFacts3.v
theories/TypedFacts4.v
theories/Prop_Typed.v
theories/Attr.v
theories/RepoAttr.v
theories/Spec_Attr.v
theories/AttrFacts.v
theories/AttrFacts2.v
theories/AttrFacts3.v
theories/AttrFacts4.v
theories/AttrFacts5.v
theories/AttrFacts6.v
theories/AttrFacts7.v
theories/AttrFacts8.v
theories/AttrFacts9.v
theories/AttrFacts10.v
theories/AttrFacts11.v
theories/AttrExample.v
theories/Prop_Attr.v
theories/Prop_Untyped.v
theories/Spec_Crlf.v
theories/CrlfFacts.v
theories/CrlfFacts2.v
theories/CrlfFacts3.v
theories/CrlfFacts4.v
theories/CrlfFacts5.v
theories/CrlfFacts6.v
theories/Prop_Crlf.v
theories/Spec_Time.v
theories/TimeFacts.v
theories/TimeFacts2.v
theories/TimeFacts3.v
theories/Prop_Time.v
theories/ByCall.v
theories/Spec_ByCall.v
theories/ByCallFacts.v
theories/Prop_ByCall.v
theories/Spec_Layout.v
theories/LayoutText.v
theories/LayoutFlow.v
theories/LayoutBlock.v
theories/LayoutTree.v
theories/LayoutExample.v
theories/Prop_Layout.v
theories/Spec_Local.v
theories/LocalFacts.v
theories/LocalFacts2.v
theories/LocalFacts3.v
theories/Prop_Local.v
theories/Spec_Buffer.v
theories/BufferFacts.v
theories/BufferFacts2.v
theories/BufferFacts3.v
theories/NodeFacts.v
theories/NodeFacts2.v
theories/NodeFacts3.v
theories/Prop_Buffer.v
theories/Spec_Compose.v
theories/ComposeFacts.v
theories/ComposeFacts2.v
theories/ComposeFacts3.v
theories/ComposeFacts4.v
theories/Prop_Compose.v
theories/Spec_Ser.v
theories/ExactSerFacts.v
theories/Prop_Ser.v
theories/Spec_Fold.v
theories/FoldFacts.v
theories/Prop_Fold.v
theories/Spec_Syntax.v
theories/PathExact.v
theories/PathExact2.v
theories/PathExact3.v
theories/PathExact4.v
theories/PathExact5.v
theories/Prop_Syntax.v
theories/Spec_Panic.v
theories/PanicFacts.v
theories/Prop_Panic.v
theories/Spec_Flow.v
theories/FlowText.v
theories/FlowText2.v
theories/FlowReads.v
theories/FlowInv.v
theories/FlowExact.v
theories/Prop_Flow.v
theories/Spec_Refs.v
theories/RefsFacts.v
theories/RefsFacts2.v
theories/RefsFacts3.v
theories/RefsFacts4.v
theories/Prop_Refs.v
theories/Spec_Spell.v
theories/SpellFacts.v
theories/SpellScalar.v
theories/SpellFacts2.v
theories/SpellDoc.v
theories/SpellInk.v
theories/Prop_Spell.v
theories/Release.v
theories/Spec_Release.v
theories/ReleaseFacts.v
theories/Prop_Release.v
theories/DeErr.v
theories/Spec_Err.v
theories/ErrFacts.v
theories/ErrFacts2.v
theories/ErrFacts3.v
theories/ErrFacts4.v
theories/ErrFacts5.v
theories/Prop_Err.v
theories/Spec_Reads.v
theories/ErrFacts6.v
theories/ErrFacts7.v
theories/Prop_Reads.v
theories/Spec_Any.v
theories/AnyFacts.v
theories/AnyFacts2.v
theories/Prop_Any.v
theories/SerCalls.v
theories/Spec_Calls.v
theories/CallsFacts.v
theories/Prop_Calls.v
theories/DeCalls.v
theories/Spec_Visit.v
theories/AccessFacts.v
theories/Prop_Visit.v
theories/Spec_Heading.v
theories/HeadFacts.v
theories/Prop_Heading.v
theories/MapMerge.v
theories/Spec_Maps.v
theories/MergeFacts.v
theories/MergeFacts2.v
theories/Prop_Maps.v
theories/Hints.v
theories/Spec_Told.v
theories/ToldFacts.v
theories/DerivedFacts.v
theories/Prop_Told.v
theories/Prop_Derived.v
theories/Spec_Join.v
theories/JoinFacts.v
theories/Prop_Join.v
theories/Spec_Yaml12.v
theories/Spec_Portable.v
theories/PortableFacts.v
theories/PlainFacts.v
theories/Prop_Portable.v
theories/Spec_Core.v
theories/CoreFacts.v
theories/Prop_Core.v
theories/Spec_Export.v
theories/ExportFacts.v
theories/Prop_Export.v
theories/Spec_Common.v
theories/CommonFacts.v
theories/CommonExample.v
theories/Prop_Common.v
theories/Spec_Tidy.v
theories/TidyFacts.v
theories/Prop_Tidy.v
theories/Spec_Emit.v
theories/EmitFacts.v
theories/Prop_Emit.v
theories/Spec_White.v
theories/WhiteFacts.v
theories/Prop_White.v
theories/UniqueFlow.v
theories/UniqueBlock.v
theories/ReadingFacts.v
theories/Prop_Reading.v
theories/Spec_Amend.v
theories/AmendFacts.v
theories/Prop_Amend.v
theories/ReviseFacts.v
theories/Prop_Revise.v
theories/Spec_Named.v
theories/NamedFacts.v
theories/Prop_Named.v
theories/Spec_Seek.v
theories/SeekFacts.v
theories/Prop_Seek.v
theories/Spec_Gather.v
theories/GatherFacts.v
theories/Prop_Gather.v
theories/Spec_Change.v
theories/ChangeFacts.v
theories/Prop_Change.v
theories/Spec_Shift.v
theories/ShiftFacts.v
theories/Prop_Shift.v
theories/Prop_Select.v
theories/Prop_ShiftAt.v
theories/Spec_Alter.v
theories/AlterFacts.v
theories/Prop_Alter.v
