-Q theories Verif
theories/Base.v
theories/Tokens.v
theories/CursorModel.v
theories/CursorSpec.v
theories/CursorProofs.v
theories/CursorBound.v
theories/P_Cursor.v
theories/ScannerModel.v
theories/ScannerSpec.v
theories/ScannerProofs.v
theories/ScannerPos.v
theories/P_Scanner.v
theories/ProgModel.v
theories/JsonDecModel.v
theories/JsonSpec.v
theories/ProgProofs.v
theories/JsonDecProofs.v
theories/JsonDecValue.v
theories/P_JsonDec.v
theories/PrinterModel.v
theories/JsonEncModel.v
theories/EncSpec.v
theories/JsonEncProofs.v
theories/JsonEncRel.v
theories/P_JsonEnc.v
theories/GoLiteral.v
theories/ScalarModel.v
theories/ScalarSpec.v
theories/ScalarProofs.v
theories/P_Scalar.v
theories/JpvEncModel.v
theories/JpvDecModel.v
theories/JpvSpec.v
theories/JpvProofs.v
theories/JpvTree.v
theories/JpvValue.v
theories/JpvEncProofs.v
theories/JpvTotal.v
theories/P_Jpv.v
theories/CsvModel.v
theories/CsvSpec.v
theories/P_Csv.v
theories/CsvNumber.v
theories/P_CsvNumber.v
theories/TransformModel.v
theories/P_Transform.v
theories/IterModel.v
theories/IterSpec.v
theories/IterCore.v
theories/IterThr.v
theories/IterRel.v
theories/IterOps.v
theories/IterOps2.v
theories/IterOps3.v
theories/IterSound.v
theories/ScriptSpec.v
theories/ScriptProofs.v
theories/P_Iter.v
theories/IterLib.v
theories/EqualModel.v
theories/EqualSpec.v
theories/EqualProofs.v
theories/P_Equal.v
theories/SplitModel.v
theories/UseLib.v
theories/P_Split.v
theories/LegacyModel.v
theories/P_Legacy.v
theories/SelectModel.v
theories/SelectSpec.v
theories/P_Select.v
theories/PathModel.v
theories/PathAbs.v
theories/PathFacts.v
theories/PathPure.v
theories/PathSim.v
theories/PathDisp.v
theories/PathLoop.v
theories/PathBody.v
theories/PathSing.v
theories/PathComp.v
theories/PathFun.v
theories/PathMain.v
theories/PathTop.v
theories/PathAst.v
theories/PathSpec.v
theories/CompileModel.v
theories/SelectMore.v
theories/PathTame.v
theories/PathMarks.v
theories/PathSel.v
theories/PathVal.v
theories/PathStep.v
theories/PathInd.v
theories/PathRfc.v
theories/PathRun.v
theories/PathTypes.v
theories/P_PathTypes.v
theories/P_Path.v
theories/P_PathRefuted.v
theories/PathBag.v
theories/PathBagRun.v
theories/PathBagRfc.v
theories/PathOrder.v
theories/P_PathBag.v
theories/P_DocOrder.v
theories/P_Ordinary.v
theories/PipelineModel.v
theories/PipelineStages.v
theories/PipelineSpec.v
theories/P_Pipeline.v
theories/FormatModel.v
theories/FormatSpec.v
theories/P_Format.v
theories/GrammarModel.v
theories/GrammarSpec.v
theories/GrammarInd.v
theories/GrammarLits.v
theories/P_Grammar.v
theories/StreamModel.v
theories/StreamCausal.v
theories/StreamRead.v
theories/StreamW.v
theories/StreamEngine.v
theories/StreamTop.v
theories/StreamSpec.v
theories/StreamCompile.v
theories/P_Stream.v
theories/PlainSpec.v
theories/Plain.v
theories/PlainQuery.v
theories/P_Plain.v
theories/IregexpModel.v
theories/IregexpSpec.v
theories/IregexpProofs.v
theories/IregexpUnique.v
theories/P_Iregexp.v
theories/MainModel.v
theories/MainProofs.v
theories/P_Main.v
theories/P_JpQuery.v
theories/LexModel.v
theories/ParseModel.v
theories/LexRx.v
theories/QuerySyntax.v
theories/LexProofs.v
theories/LexLits.v
theories/LexTokens.v
theories/SyntaxSim.v
theories/SyntaxTokens.v
theories/ParseProofs.v
theories/ParseSound.v
theories/LexSound.v
theories/SyntaxText.v
theories/P_Syntax.v
theories/P_JpText.v
theories/CliModel.v
theories/CliSpec.v
theories/P_Cli.v
theories/P_JpGrep.v
theories/NetModel.v
theories/NetProofs.v
theories/P_Network.v
theories/P_Chain.v
theories/P_JpSed.v
theories/LayoutSpec.v
theories/LayoutProofs.v
theories/P_Layout.v
theories/WaitModel.v
theories/WaitSpec.v
theories/WaitProofs.v
theories/WaitOutProofs.v
theories/P_Wait.v
theories/DrainProofs.v
theories/WaitNetModel.v
theories/P_Drain.v
theories/WindowPool.v
theories/WindowHeap.v
theories/WindowStore.v
theories/WindowPos.v
theories/WindowWorld.v
theories/WindowActive.v
theories/WindowQuery.v
theories/WindowSpec.v
theories/P_Window.v
theories/WindowSmall.v
theories/WindowFilter.v
theories/FilterSpec.v
theories/P_Filter.v
theories/JpvLayoutSpec.v
theories/JpvLayout.v
theories/P_JpvLayout.v
theories/FlagModel.v
theories/FlagSpec.v
theories/FlagInt.v
theories/FlagProofs.v
theories/P_Flag.v
theories/CsvReaderModel.v
theories/CsvTextSpec.v
theories/CsvReader.v
theories/P_CsvText.v
theories/GoValueModel.v
theories/GoValueSpec.v
theories/P_GoValue.v
theories/RecipeSpec.v
theories/Recipes.v
theories/P_Recipes.v
theories/TableSpec.v
theories/Tables.v
theories/P_Table.v
theories/P_TableJpv.v
theories/EditSpec.v
theories/P_Edit.v
theories/GridSpec.v
theories/P_Grid.v
theories/P_NamedTable.v
theories/P_ChainJpv.v
theories/AlikeSpec.v
theories/AlikeProofs.v
theories/P_Alike.v
