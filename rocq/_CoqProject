-Q theories Verif
theories/Base.v
theories/F64.v
theories/Token.v
theories/Ast.v
theories/Scanner.v
theories/Parser.v
theories/Resolver.v
theories/Segment.v
theories/TestsScanner.v
theories/TestsParser.v
theories/SpecNumber.v
theories/F64Facts.v
theories/SpecLex.v
theories/SpecLayout.v
theories/SpecScan.v
theories/StrFacts.v
theories/ScannerFacts.v
theories/ScanLex.v
theories/ScanStep.v
theories/ScanCluster.v
theories/ScanLayout.v
theories/ScanUnique.v
theories/ScanProps.v
theories/ScanErrors.v
theories/ScanPairs.v
theories/ScanFinal.v
theories/NumberFacts.v
theories/P_Scanner.v
theories/AstInd.v
theories/SpecResolve.v
theories/ResolveStep.v
theories/ResolveSound.v
theories/ResolveInv.v
theories/ResolveNodes.v
theories/ResolveUnique.v
theories/ResolveFinal.v
theories/ResolveProps.v
theories/P_Resolver.v
theories/SpecCheck.v
theories/ResolveExact.v
theories/ResolveCauses.v
theories/SpecGrammar.v
theories/SpecParse.v
theories/ParseRun.v
theories/ParseSound.v
theories/ParseTop.v
theories/ParseFirst.v
theories/ParseComplete.v
theories/SpecTree.v
theories/ParseTree.v
theories/ParseLoops.v
theories/SpecPrint.v
theories/PrintParse.v
theories/ParseProps.v
theories/ParseRepl.v
theories/ParseLine.v
theories/ParseMore.v
theories/ParseFinal.v
theories/P_Parser.v
theories/SpecReject.v
theories/ParseReject.v
theories/RejectTop.v
theories/RejectUnique.v
theories/RejectFinal.v
theories/P_Errors.v
theories/Show.v
theories/Driver.v
theories/SpecShow.v
theories/ShowFacts.v
theories/ShowTree.v
theories/ShowJs.v
theories/ShowNumbers.v
theories/SpecDriver.v
theories/DriverFacts.v
theories/DriverText.v
theories/DriverProps.v
theories/P_Driver.v
theories/SpecData.v
theories/DataFacts.v
theories/SpecWhole.v
theories/Whole.v
theories/P_Whole.v
theories/P_Show.v
theories/SpecMessages.v
theories/Messages.v
theories/P_Messages.v
theories/SpecPlace.v
theories/Relabel.v
theories/RelabelErrors.v
theories/RelabelParse.v
theories/RelabelResolve.v
theories/ScanSpaces.v
theories/PlaceFinal.v
theories/P_Place.v
theories/SpecWrite.v
theories/WriteScan.v
theories/WriteTree.v
theories/WriteNumber.v
theories/WriteFinal.v
theories/FlatExact.v
theories/P_Write.v
theories/SpecConcat.v
theories/Concat.v
theories/ConcatScan.v
theories/ConcatFinal.v
theories/P_Concat.v
theories/SpecRename.v
theories/RenameResolve.v
theories/Rerun.v
theories/SpecRenameText.v
theories/RenameWords.v
theories/RenameErrors.v
theories/RenameText.v
theories/RenameInit.v
theories/P_Rename.v
theories/SpecSize.v
theories/SizeTree.v
theories/SizeScan.v
theories/SizeFinal.v
theories/Nesting.v
theories/P_Size.v
theories/Prefix.v
theories/PrefixScan.v
theories/PrefixFinal.v
theories/P_Prefix.v
theories/SpecOneLine.v
theories/OneLine.v
theories/OneLineFinal.v
theories/OneLineText.v
theories/P_OneLine.v
theories/Stable.v
theories/StableFinal.v
theories/P_Stable.v
theories/SpecConsole.v
theories/Console.v
theories/ConsoleProps.v
theories/P_Console.v
theories/SpecTyped.v
theories/Typed.v
theories/P_Typed.v
theories/SpecIncremental.v
theories/Incremental.v
theories/P_Incremental.v
theories/RustText.v
theories/SpecText.v
theories/TextFacts.v
theories/TextNumber.v
theories/RustDigits.v
theories/DigitFacts.v
theories/TextLayout.v
theories/TextProps.v
theories/P_Text.v
theories/Repair.v
theories/RepairTop.v
theories/RepairScan.v
theories/P_Repair.v
theories/Progress.v
theories/Beyond.v
theories/ParserApi.v
theories/ApiTop.v
theories/Missing.v
theories/ApiMore.v
theories/P_Api.v
theories/SpecLike.v
theories/LikeParse.v
theories/LikeResolve.v
theories/LikeTop.v
theories/P_Like.v
theories/Equal.v
theories/SpecEqual.v
theories/EqualFacts.v
theories/EqualTop.v
theories/P_Equal.v
theories/SpecType.v
theories/PrintType.v
theories/TypeTree.v
theories/TypeScan.v
theories/TypeOrder.v
theories/TypeExact.v
theories/TypePlace.v
theories/TypeFinal.v
theories/P_Type.v
theories/SpecOutline.v
theories/Outline.v
theories/P_Outline.v
theories/SpecOwn.v
theories/Own.v
theories/P_Own.v
theories/SpecOrder.v
theories/Order.v
theories/OrderText.v
theories/P_Order.v
theories/SpecAlpha.v
theories/Alpha.v
theories/AlphaText.v
theories/AlphaLaws.v
theories/P_Alpha.v
theories/SpecAhead.v
theories/Ahead.v
theories/AheadTop.v
theories/P_Ahead.v
theories/SpecSteps.v
theories/Steps.v
theories/StepsGrow.v
theories/P_Steps.v
theories/Settled.v
theories/P_Settled.v
