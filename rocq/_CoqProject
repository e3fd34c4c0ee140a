-Q theories Verif
theories/AstFile.v
theories/AstModel.v
theories/AstParts.v
theories/AstProofs.v
theories/AstSpec.v
theories/BalanceBase.v
theories/BalanceCalls.v
theories/BalanceEval.v
theories/BalanceGrab.v
theories/BalanceLoops.v
theories/BalanceProofs.v
theories/BuiltProofs.v
theories/CallsProofs.v
theories/ChannelModel.v
theories/ChannelProofs.v
theories/ChannelSpec.v
theories/CheckModel.v
theories/ColorModel.v
theories/ControlSpec.v
theories/DataModel.v
theories/DataProofs.v
theories/DataSpec.v
theories/DrawModel.v
theories/DrawSpec.v
theories/DynamicModel.v
theories/DynamicProofs.v
theories/EmbedModel.v
theories/EmbedSpec.v
theories/Float64.v
theories/FloatProofs.v
theories/FmtModel.v
theories/FmtSpec.v
theories/FoldModel.v
theories/GrabProofs.v
theories/GrabSpec.v
theories/GrammarAll.v
theories/GrammarBuild.v
theories/GrammarCases.v
theories/GrammarFits.v
theories/GrammarSpec.v
theories/ImageModel.v
theories/ImageSpec.v
theories/ImportModel.v
theories/ImportProofs.v
theories/InferProofs.v
theories/InterpModel.v
theories/LibraryModel.v
theories/LibraryProofs.v
theories/LifetimeModel.v
theories/LifetimeProofs.v
theories/LifetimeSpec.v
theories/LinkBlockProofs.v
theories/LinkHeapProofs.v
theories/LinkModel.v
theories/LinkProofs.v
theories/LinkSpec.v
theories/LivesFits.v
theories/LivesModel.v
theories/LivesProofs.v
theories/LivesSpec.v
theories/LoadModel.v
theories/LoadProofs.v
theories/LoadSpec.v
theories/LoopProofs.v
theories/LoopSpec.v
theories/MacroModel.v
theories/MacroSpec.v
theories/MetaModel.v
theories/MetaSpec.v
theories/ModuleModel.v
theories/ModuleProofs.v
theories/ModuleSpec.v
theories/NodeValModel.v
theories/NodeValSpec.v
theories/NodesCalls.v
theories/NodesClean.v
theories/NodesFits.v
theories/NodesLayout.v
theories/NodesModel.v
theories/NodesProofs.v
theories/NodesScope.v
theories/NodesSpec.v
theories/P_Accessors.v
theories/P_Array.v
theories/P_Ast.v
theories/P_Balance.v
theories/P_Calls.v
theories/P_Channel.v
theories/P_Check.v
theories/P_Color.v
theories/P_Control.v
theories/P_Copy.v
theories/P_Current.v
theories/P_Data.v
theories/P_Draw.v
theories/P_Dynamic.v
theories/P_Embed.v
theories/P_Fmt.v
theories/P_FmtRead.v
theories/P_Fold.v
theories/P_Grab.v
theories/P_Grammar.v
theories/P_Image.v
theories/P_Import.v
theories/P_Intrinsics.v
theories/P_Library.v
theories/P_Lifetime.v
theories/P_Link.v
theories/P_Lives.v
theories/P_Load.v
theories/P_Loops.v
theories/P_Macro.v
theories/P_Meta.v
theories/P_Module.v
theories/P_NodeVal.v
theories/P_Nodes.v
theories/P_Operators.v
theories/P_Path.v
theories/P_PathInsert.v
theories/P_PathTry.v
theories/P_Prelude.v
theories/P_Print.v
theories/P_Resolve.v
theories/P_Scope.v
theories/P_Std.v
theories/P_Steady.v
theories/P_String.v
theories/P_Thread.v
theories/P_Transform.v
theories/P_TypeErr.v
theories/P_TypeText.v
theories/P_Typecheck.v
theories/P_Typed.v
theories/P_Types.v
theories/P_Visible.v
theories/PathProofs.v
theories/PathSpec.v
theories/PathTrySpec.v
theories/PreludeCalls.v
theories/PreludeModel.v
theories/PreludeProofs.v
theories/PreludeSpec.v
theories/PrintExactProofs.v
theories/PrintModel.v
theories/PrintProofs.v
theories/PrintSpec.v
theories/RefineProofs.v
theories/ResolveModel.v
theories/ResolveProofs.v
theories/ResolveSpec.v
theories/Samples.v
theories/StdModel.v
theories/StdSpec.v
theories/StringModel.v
theories/StringSpec.v
theories/Syntax.v
theories/SyntaxProofs.v
theories/ThreadModel.v
theories/ThreadSpec.v
theories/TransformModel.v
theories/TransformProofs.v
theories/TransformSpec.v
theories/TypeErrArgs.v
theories/TypeErrProofs.v
theories/TypeErrSpec.v
theories/TypeErrVisit.v
theories/TypeModel.v
theories/TypeProofs.v
theories/TypeSpec.v
theories/TypeTextModel.v
theories/TypeTextProofs.v
theories/TypeTextSpec.v
theories/TypecheckClosed.v
theories/TypecheckInv.v
theories/TypecheckModel.v
theories/TypecheckProofs.v
theories/TypecheckReason.v
theories/TypecheckShape.v
theories/TypecheckSpec.v
theories/TypecheckVisit.v
theories/TypedFits.v
theories/TypedSpec.v
theories/VisibleAll.v
theories/VisibleCases.v
theories/VisibleFile.v
theories/VisibleGrammar.v
theories/VisibleLoops.v
theories/VisibleParts.v
theories/VisibleSpec.v
theories/VisibleText.v
theories/VisibleTree.v
theories/WfSpec.v
