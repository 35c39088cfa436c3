-Q theories Verif
theories/Base.v
theories/Blake2.v
theories/Value.v
theories/Spec_Value.v
theories/ValueFacts.v
theories/Props_Value.v
theories/Chars.v
theories/Spec_Grammar.v
theories/Parse.v
theories/Fmt.v
theories/ParseFacts.v
theories/ParseComplete.v
theories/ParseSound.v
theories/ParseNum.v
theories/Props_Parse.v
theories/Spec_Fmt.v
theories/FmtFacts.v
theories/FmtText.v
theories/FmtStrip.v
theories/FmtCustom.v
theories/Props_Fmt.v
theories/Spec_Hex.v
theories/Hex.v
theories/HexFacts.v
theories/Base58.v
theories/Ss58.v
theories/Props_Custom.v
theories/Registry.v
theories/Spec_Scale.v
theories/Scale.v
theories/ScaleFacts.v
theories/BitsFacts.v
theories/Decode.v
theories/DecodeFacts.v
theories/Encode.v
theories/EncodeFacts.v
theories/Spec_Encode.v
theories/LenFacts.v
theories/EncodeSound.v
theories/EncodeNested.v
theories/EncodeComplete.v
theories/EncodeTerm.v
theories/EncodeMore.v
theories/EncodeWrap.v
theories/Spec_Decode.v
theories/DecodeMore.v
theories/Trace.v
theories/Spec_Trace.v
theories/TraceFacts.v
theories/Demo.v
theories/Props_Decode.v
theories/Props_Encode.v
theories/Props_Nested.v
theories/Serde.v
theories/SerdeFacts.v
theories/Spec_Serde.v
theories/SerdeRt.v
theories/SerdeUni.v
theories/SerdeMore.v
theories/SerdeCtx.v
theories/SerdeTargets.v
theories/SerdeTargets2.v
theories/SerdeDoc.v
theories/Props_Serde.v
theories/Macro.v
theories/Spec_Macro.v
theories/MacroFacts.v
theories/MacroExact.v
theories/MacroDemo.v
theories/Props_Macro.v
theories/Spec_Layout.v
theories/LayoutFacts.v
theories/FmtParts.v
theories/Props_Layout.v
theories/Messages.v
theories/MessageFacts.v
theories/CustomErr.v
theories/Props_Messages.v
theories/EncodeCost.v
theories/Spec_Cost.v
theories/EncodeLinear.v
theories/CostFacts.v
theories/Props_Cost.v
theories/Spec_Same.v
theories/EncodeSame.v
theories/Props_Same.v
theories/Spec_Loc.v
theories/EncodeLoc.v
theories/LocFacts.v
theories/Props_Loc.v
theories/EncodeText.v
theories/Props_Doors.v
theories/Spec_Rust.v
theories/RustFacts.v
theories/Props_Rust.v
theories/Spec_TextData.v
theories/SerdeText.v
theories/Props_TextData.v
theories/Spec_Parts.v
theories/SerdeParts.v
theories/SerdeCalls.v
theories/Spec_Calls.v
theories/SerdeCallsFacts.v
theories/Props_Parts.v
theories/SerdeContent.v
theories/Spec_Content.v
theories/SerdeContentFacts.v
theories/Props_Content.v
theories/Spec_Both.v
theories/Props_Both.v
theories/Alloc.v
theories/Spec_Alloc.v
theories/AllocFacts.v
theories/Props_Alloc.v
theories/Spec_Size.v
theories/SizeFacts.v
theories/Props_Size.v
theories/Spec_Foreign.v
theories/ForeignFacts.v
theories/ForeignTargets.v
theories/Props_Foreign.v
theories/Spec_Maps.v
theories/SerdeMaps.v
theories/Props_Maps.v
theories/Spec_Writes.v
theories/WritesFacts.v
theories/BracketFacts.v
theories/Props_Writes.v
theories/Spec_Work.v
theories/ParseWork.v
theories/WorkFacts.v
theories/WorkBound.v
theories/Props_Work.v
theories/Spec_DecodeWork.v
theories/DecodeWork.v
theories/DecodeWorkFacts.v
theories/DecodeWorkBound.v
theories/Props_DecodeWork.v
theories/Spec_Texts.v
theories/Props_Texts.v
theories/Props_Vocab.v
theories/Spec_TextSize.v
theories/TextSizeFacts.v
theories/Props_TextSize.v
theories/Repo_Text.v
theories/Repo_Scale.v
theories/Repo_Serde.v
theories/Repo_Macro.v
theories/Repo_Docs.v
theories/Equality.v
theories/EqualityFacts.v
theories/Props_Equality.v
theories/MacroDepth.v
theories/Spec_MacroDepth.v
theories/MacroDepthFacts.v
theories/Props_MacroDepth.v
theories/TraceWork.v
theories/TraceWorkFacts.v
theories/Props_TraceWork.v
theories/Props_Finite.v
theories/Spec_Shape.v
theories/ShapeFacts.v
theories/Props_Shape.v
theories/Cursor.v
theories/Props_Cursor.v
theories/ByteParsers.v
theories/Props_Bytes.v
theories/SerdeAlloc.v
theories/Spec_SerdeAlloc.v
theories/Props_SerdeAlloc.v
theories/Builder.v
theories/Props_Builder.v
theories/Props_Newtype.v
theories/Spec_Errors.v
theories/ErrorFacts.v
theories/Props_Errors.v
theories/Spec_DecodeErrors.v
theories/DecodeErrFacts.v
theories/Props_DecodeErrors.v
theories/TraceErrFacts.v
theories/ParseState.v
theories/Spec_Memory.v
theories/MemoryFacts.v
theories/Props_Memory.v
theories/Spec_Reads.v
theories/ReadsFacts.v
theories/Props_Reads.v
theories/Spec_ToValue.v
theories/ToValueFacts.v
theories/Props_ToValue.v
theories/Spec_Convert.v
theories/ConvertFacts.v
theories/Props_Convert.v
theories/DocRich.v
theories/Spec_RichDocs.v
theories/RichFacts.v
theories/Props_RichDocs.v
theories/SerdeTexts.v
theories/Spec_SerdeTexts.v
theories/Props_SerdeTexts.v
theories/MapShared.v
theories/Spec_Shared.v
theories/SharedFacts.v
theories/Props_Shared.v
theories/Spec_FmtTalk.v
theories/FmtTalkFacts.v
theories/Props_FmtTalk.v
theories/Panics.v
theories/Props_Panics.v
theories/Spec_Growth.v
theories/GrowthFacts.v
theories/Props_Growth.v
theories/Spec_Streams.v
theories/StreamFacts.v
theories/Props_Streams.v
theories/Spec_Edit.v
theories/EditFacts.v
theories/Props_Edit.v
theories/Spec_Migrate.v
theories/MigrateFacts.v
theories/Props_Migrate.v
theories/Spec_Incomplete.v
theories/IncompleteFacts.v
theories/Props_Incomplete.v
theories/Spec_Splice.v
theories/SpliceFacts.v
theories/Props_Splice.v
theories/EditAnyFacts.v
theories/Props_EditAny.v
theories/EditTextFacts.v
theories/PlaceFacts.v
theories/Props_EditText.v
theories/IdentFacts.v
theories/Props_Ident.v
theories/Spec_Json.v
theories/JsonFacts.v
theories/Props_Json.v
theories/Spec_Rearranged.v
theories/EncodeReorder.v
theories/JsonReorder.v
theories/Props_Rearranged.v
theories/Spec_Shuffled.v
theories/ShuffleFacts.v
theories/Props_Shuffled.v
theories/Spec_Places.v
theories/PlacesFacts.v
theories/Props_Places.v
theories/Spec_DataEdit.v
theories/DataEditFacts.v
theories/Props_DataEdit.v
