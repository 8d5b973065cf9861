-Q theories Verif
theories/Base.v
theories/Nom.v
theories/NomFacts.v
theories/Ast.v
theories/Lex.v
theories/Grammar.v
theories/WsFacts.v
theories/NumFacts.v
theories/StrFacts.v
theories/HeredocFacts.v
theories/Parser.v
theories/ParserFacts.v
theories/ExprProofs.v
theories/BodyProofs.v
theories/Locality.v
theories/DocProofs.v
theories/PanicProofs.v
theories/Printer.v
theories/PrinterProofs.v
theories/MoreProofs.v
theories/Reprint.v
theories/PropSyntax.v
theories/PropLex.v
theories/Utf8.v
theories/IoSpec.v
theories/PropIo.v
theories/NumConv.v
theories/NumSpec.v
theories/NumProofs.v
theories/PropNum.v
theories/Blocks.v
theories/BlockSpec.v
theories/BlockProofs.v
theories/PropBlocks.v
theories/Serde.v
theories/SerdeSpec.v
theories/SerdeProofs.v
theories/PropSerde.v
theories/Kvp.v
theories/PropKvp.v
theories/Value.v
theories/ValueSpec.v
theories/ValueProofs.v
theories/PropValue.v
theories/OldParser.v
theories/OldGrammar.v
theories/OldFacts.v
theories/OldProofs.v
theories/OldPanic.v
theories/PropOld.v
theories/AgreeSpec.v
theories/AgreeProofs.v
theories/PropAgree.v
theories/Errors.v
theories/PropErrors.v
theories/Cli.v
theories/PropCli.v
theories/Equality.v
theories/EqSpec.v
theories/EqProofs.v
theories/EqBlocks.v
theories/PropEq.v
theories/BlockMut.v
theories/PropBlockMut.v
theories/Access.v
theories/PropAccess.v
theories/FloatConv.v
theories/PropFloat.v
theories/TakeTill.v
theories/PropTakeTill.v
theories/BlockExactSpec.v
theories/BlockExact.v
theories/PropBlockExact.v
theories/SerdeErrSpec.v
theories/SerdeErrProofs.v
theories/PropSerdeErr.v
theories/SerdeExactSpec.v
theories/PropSerdeExact.v
theories/MapAccess.v
theories/MapAccessSpec.v
theories/PropMapAccess.v
theories/MeetsSpec.v
theories/MeetsProofs.v
theories/PropMeets.v
theories/OldMeetsSpec.v
theories/OldMeets.v
theories/PropOldMeets.v
theories/PropFail.v
theories/PropMapKeys.v
theories/PropWrap.v
theories/KeyDe.v
theories/PropKeyDe.v
theories/FloatSpec.v
theories/FloatProofs.v
theories/PropFloatRead.v
theories/PropSerdeScalar.v
theories/FloatEqSpec.v
theories/FloatEqProofs.v
theories/PropFloatEq.v
theories/AppendProofs.v
theories/PropAppend.v
theories/OldLocality.v
theories/PropOldAppend.v
theories/PropMethods.v
theories/StopSpec.v
theories/StopProofs.v
theories/OldStop.v
theories/PropStop.v
theories/MergeExec.v
theories/PropMerge.v
theories/DenSpec.v
theories/DenProofs.v
theories/PropDen.v
theories/CallCount.v
theories/CallProofs.v
theories/CallBound.v
theories/PropCalls.v
theories/DepthCount.v
theories/DepthProofs.v
theories/PropDepth.v
theories/Fuzz.v
theories/PropFuzz.v
theories/Display.v
theories/PropDisplay.v
theories/CliMain.v
theories/PropCliMain.v
theories/ReachSpec.v
theories/ReachFloat.v
theories/ReachProofs.v
theories/ReachText.v
theories/PropReach.v
theories/FailSpec.v
theories/FailProofs.v
theories/PropFails.v
theories/AnyTarget.v
theories/AnySpec.v
theories/AnyProofs.v
theories/AnyAlike.v
theories/AnyTypes.v
theories/AnyTypesProofs.v
theories/AnyEnds.v
theories/PropAny.v
theories/VReachSpec.v
theories/VReachProofs.v
theories/VReachMerge.v
theories/PropVReach.v
theories/PubSpec.v
theories/PubProofs.v
theories/PubStruct.v
theories/PropPub.v
theories/LayoutSpec.v
theories/LayoutProofs.v
theories/PropLayout.v
theories/Debug.v
theories/DebugSpec.v
theories/DebugProofs.v
theories/PropDebug.v
theories/OldLayoutSpec.v
theories/OldLayoutProofs.v
theories/PropOldLayout.v
theories/CommonSpec.v
theories/CommonProofs.v
theories/CommonVSpec.v
theories/CommonReach.v
theories/PropCommon.v
theories/EditSpec.v
theories/EditProofs.v
theories/PropEdit.v
theories/VEditSpec.v
theories/VEditProofs.v
theories/PropVEdit.v
theories/CrlfSpec.v
theories/CrlfFacts.v
theories/CrlfProofs.v
theories/VCrlfProofs.v
theories/PropCrlf.v
theories/MoveSpec.v
theories/MoveProofs.v
theories/PropMove.v
theories/CutSpec.v
theories/CutProofs.v
theories/PropCut.v
theories/VCutSpec.v
theories/VCutProofs.v
theories/PropVCut.v
theories/EvolveSpec.v
theories/EvolveProofs.v
theories/PropEvolve.v
theories/RearrangeSpec.v
theories/RearrangeProofs.v
theories/PropRearrange.v
theories/TwoWaysSpec.v
theories/TwoWaysProofs.v
theories/PropTwoWays.v
theories/WorkCount.v
theories/WorkProofs.v
theories/WorkTokens.v
theories/WorkLex.v
theories/WorkNl.v
theories/WorkLeast.v
theories/WorkExpr.v
theories/PropWork.v
theories/ModelTests.v
