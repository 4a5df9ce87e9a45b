-Q theories Verif
theories/Base.v
theories/Scanner.v
theories/ScannerSpec.v
theories/ScannerProofs.v
theories/NewProofs.v
theories/Prop_Scanner.v
theories/Syntax.v
theories/Engine.v
theories/Resolve.v
theories/Compile.v
theories/Parse.v
theories/Regex.v
theories/RegexProofs.v
theories/WbnfGrammar.v
theories/PegSpec.v
theories/CompileProofs.v
theories/PegProofs.v
theories/FuelProofs.v
theories/PegComplete.v
theories/TopProofs.v
theories/DerivSpec.v
theories/DerivProofs.v
theories/FlowSpec.v
theories/FlowProofs.v
theories/CutSpec.v
theories/CutProofs.v
theories/DrawProofs.v
theories/LocalSpec.v
theories/FordSpec.v
theories/ApiSpec.v
theories/LocalProofs.v
theories/FordProofs.v
theories/ApiProofs.v
theories/Demo.v
theories/Prop_Parse.v
theories/Prop_Local.v
theories/CutPoints.v
theories/CutPointSpec.v
theories/CutPointProofs.v
theories/Prop_CutPoints.v
theories/WfSpec.v
theories/WfProofs.v
theories/WfCheck.v
theories/StackSpec.v
theories/StackProofs.v
theories/ReorderProofs.v
theories/PanicSpec.v
theories/PanicProofs.v
theories/PanicCheck.v
theories/HangSpec.v
theories/HangProofs.v
theories/ChainProofs.v
theories/Prop_Compile.v
theories/StrLit.v
theories/StrLitSpec.v
theories/StrLitProofs.v
theories/Prop_Literals.v
theories/Diff.v
theories/DiffSpec.v
theories/DiffProofs.v
theories/Prop_Diff.v
theories/Ast.v
theories/AstSpec.v
theories/AstProofs.v
theories/AstNodeProofs.v
theories/AstParse.v
theories/AstCount.v
theories/AstConvert.v
theories/AstFits.v
theories/AstLists.v
theories/AstBack.v
theories/AstDemo.v
theories/Prop_Ast.v
theories/Recursion.v
theories/RecursionSpec.v
theories/RecursionProofs.v
theories/WbnfAst.v
theories/Walker.v
theories/WalkerSpec.v
theories/WalkerProofs.v
theories/Build.v
theories/Validate.v
theories/Front.v
theories/FrontSpec.v
theories/FrontProofs.v
theories/FrontDemo.v
theories/WbnfSource.v
theories/LeftSpec.v
theories/LeftProofs.v
theories/Boot.v
theories/Prop_Recursion.v
theories/BootProofs.v
theories/Prop_Walker.v
theories/Prop_Boot.v
theories/RefsSpec.v
theories/RefsProofs.v
theories/FrontCheck.v
theories/CompilesSpec.v
theories/CompilesProofs.v
theories/Prop_Refs.v
theories/NumSpec.v
theories/TextSpec.v
theories/NumProofs.v
theories/TextProofs.v
theories/GuardSpec.v
theories/GuardProofs.v
theories/TextCheck.v
theories/Prop_Guard.v
theories/MacroSpec.v
theories/MacroProofs.v
theories/Prop_Macro.v
theories/Prop_Expand.v
theories/Unparse.v
theories/UnparseSpec.v
theories/UnparseProofs.v
theories/Prop_Unparse.v
theories/StackCut.v
theories/Prop_StackCut.v
theories/ImportSpec.v
theories/ImportProofs.v
theories/Prop_Import.v
theories/ValidSpec.v
theories/ValidProofs.v
theories/Prop_Valid.v
theories/GoSpec.v
theories/CodegenSpec.v
theories/Codegen.v
theories/WbnfCode.v
theories/GoProofs.v
theories/CodegenProofs.v
theories/FillProofs.v
theories/CodegenTop.v
theories/Prop_Codegen.v
theories/Types.v
theories/TypesSpec.v
theories/TypesProofs.v
theories/TypesTop.v
theories/TypesRun.v
theories/TypesKeep.v
theories/TypesOnce.v
theories/TypesWalk.v
theories/WbnfTypes.v
theories/Prop_Types.v
theories/PartsSpec.v
theories/PartsProofs.v
theories/Getters.v
theories/GettersSpec.v
theories/GettersProofs.v
theories/Prop_Getters.v
theories/PredictSpec.v
theories/PredictProofs.v
theories/PredictTop.v
theories/PredictCheck.v
theories/Prop_Predict.v
theories/Gotree.v
theories/GotreeSpec.v
theories/GotreeProofs.v
theories/Prop_Gotree.v
theories/Treeview.v
theories/TreeviewSpec.v
theories/TreeviewProofs.v
theories/TreeviewOrder.v
theories/TreeviewDemo.v
theories/TreeviewCheck.v
theories/Prop_Treeview.v
theories/Externals.v
theories/EscapeSpec.v
theories/EscapeProofs.v
theories/Prop_Escape.v
theories/NodeString.v
theories/NodeStringSpec.v
theories/NodeStringProofs.v
theories/Prop_NodeString.v
theories/TokenProofs.v
theories/LayoutSpec.v
theories/LexProofs.v
theories/LayoutAst.v
theories/PegText.v
theories/LayoutProofs.v
theories/FrontFuel.v
theories/LayoutTop.v
theories/ReadsOnce.v
theories/Prop_Layout.v
theories/TermString.v
theories/PrintSpec.v
theories/PrintProofs.v
theories/Prop_Print.v
theories/Paths.v
theories/PathSpec.v
theories/PathProofs.v
theories/PathLoad.v
theories/Prop_Paths.v
theories/NameSpec.v
theories/NameProofs.v
theories/Prop_Names.v
theories/WrapSpec.v
theories/WrapProofs.v
theories/WrapCompile.v
theories/Prop_Wrap.v
theories/TreeString.v
theories/TreeStringSpec.v
theories/TreeStringProofs.v
theories/Prop_TreeString.v
theories/Report.v
theories/ReportSpec.v
theories/ReportProofs.v
theories/ReportMade.v
theories/ReportLines.v
theories/Prop_Report.v
theories/Messages.v
theories/MessagesSpec.v
theories/MessagesProofs.v
theories/MessagesText.v
theories/MessagesRoutes.v
theories/Prop_Messages.v
theories/Command.v
theories/CommandSpec.v
theories/CommandProofs.v
theories/Prop_Command.v
theories/NodeCheck.v
theories/NodeCheckSpec.v
theories/NodeCheckProofs.v
theories/Prop_NodeCheck.v
theories/GenText.v
theories/GoText.v
theories/GoTextProofs.v
theories/GoTyping.v
theories/GenTextSpec.v
theories/GenTextProofs.v
theories/GenCompile.v
theories/ShippedText.v
theories/Prop_GenText.v
theories/WalkText.v
theories/GoWalk.v
theories/GoWalkProofs.v
theories/WalkTextSpec.v
theories/WalkTextProofs.v
theories/WalkLevel.v
theories/ShippedWalk.v
theories/WalkerText.v
theories/Prop_WalkText.v
theories/Idents.v
theories/IdentsSpec.v
theories/IdentsProofs.v
theories/Prop_Idents.v
