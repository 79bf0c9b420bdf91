-Q theories Verif
theories/Model_RUCache.v
theories/Spec_RUCache.v
theories/Proofs_RUCache.v
theories/Props_RUCache.v
theories/Model_Options.v
theories/Spec_Options.v
theories/Proofs_Options.v
theories/Props_Options.v
theories/Model_Names.v
theories/Spec_Names.v
theories/Proofs_Names.v
theories/Props_Names.v
theories/Model_LineCache.v
theories/Proofs_LineCache.v
theories/Props_LineCache.v
theories/Model_Labels.v
theories/Spec_Labels.v
theories/Proofs_Labels.v
theories/Props_Labels.v
theories/Model_Heap.v
theories/Spec_Heap.v
theories/Proofs_Heap.v
theories/Props_Heap.v
theories/Model_PyVal.v
theories/Proofs_PyVal.v
theories/Model_Reducers.v
theories/Spec_Reducers.v
theories/Proofs_Reducers.v
theories/Proofs_DictReducers.v
theories/Props_Reducers.v
theories/Model_Aggregate.v
theories/Proofs_Aggregate.v
theories/Proofs_AggLoops.v
theories/Spec_Aggregate.v
theories/Props_Aggregate.v
theories/Model_Join.v
theories/Spec_Join.v
theories/Proofs_Join.v
theories/Proofs_JoinLoops.v
theories/Props_Join.v
theories/Model_Code.v
theories/Model_Eval.v
theories/Model_Converter.v
theories/Model_Python.v
theories/Spec_Frag.v
theories/Spec_Eval.v
theories/Spec_Converter.v
theories/Spec_Demo.v
theories/Proofs_Code.v
theories/Proofs_Eval.v
theories/Proofs_Den.v
theories/Proofs_Scope.v
theories/Proofs_Converter.v
theories/Props_Converter.v
theories/Model_Api.v
theories/Spec_Api.v
theories/Proofs_Frame.v
theories/Proofs_Api.v
theories/Props_Api.v
theories/Spec_Coll.v
theories/Proofs_Coll.v
theories/Props_Coll.v
theories/Model_Obj.v
theories/Spec_Tap.v
theories/Proofs_Tap.v
theories/Props_Tap.v
theories/Model_Args.v
theories/Spec_Args.v
theories/Proofs_Args.v
theories/Props_Args.v
theories/Spec_Syntax.v
theories/Proofs_Syntax.v
theories/Proofs_Grammar.v
theories/Spec_Tree.v
theories/Proofs_Lex.v
theories/Proofs_Tree.v
theories/Spec_Writable.v
theories/Proofs_Writable.v
theories/Spec_Meant.v
theories/Proofs_Meant.v
theories/Props_Syntax.v
theories/Model_Method.v
theories/Props_Method.v
theories/Model_AggText.v
theories/Spec_AggText.v
theories/Proofs_AggText.v
theories/Proofs_AggHash.v
theories/Proofs_AggShare.v
theories/Props_AggText.v
theories/Model_AggResult.v
theories/Spec_AggResult.v
theories/Proofs_AggResult.v
theories/Props_AggResult.v
theories/Spec_Pure.v
theories/Proofs_Pure.v
theories/Props_Pure.v
theories/Spec_Stmt.v
theories/Spec_Loop.v
theories/Proofs_Stmt.v
theories/Proofs_Loop.v
theories/Props_Loop.v
theories/Model_Compile.v
theories/Spec_Compile.v
theories/Proofs_Compile.v
theories/Props_Compile.v
theories/Model_Threads.v
theories/Spec_Threads.v
theories/Proofs_Threads.v
theories/Props_Threads.v
theories/Model_Source.v
theories/Spec_Source.v
theories/Spec_Module.v
theories/Proofs_Meaning.v
theories/Proofs_Sourced.v
theories/Proofs_SourceText.v
theories/Proofs_Module.v
theories/Proofs_Unique.v
theories/Proofs_SourceDemo.v
theories/Proofs_ReadOnce.v
theories/Proofs_ReadFunc.v
theories/Props_Source.v
theories/Proofs_Deps.v
theories/Model_AggDeps.v
theories/Spec_AggDeps.v
theories/Proofs_AggDeps.v
theories/Props_AggDeps.v
theories/Spec_PyHeap.v
theories/Spec_Own.v
theories/Proofs_Own.v
theories/Props_Own.v
theories/Model_AggSource.v
theories/Spec_FuncText.v
theories/Spec_AggProgram.v
theories/Proofs_AggExpr.v
theories/Proofs_AggRead.v
theories/Proofs_AggBlocks.v
theories/Proofs_AggFunc.v
theories/Proofs_AggWf.v
theories/Props_AggRead.v
theories/Spec_FuncRun.v
theories/Proofs_FuncRun.v
theories/Proofs_RedRun.v
theories/Proofs_RedRun2.v
theories/Spec_AggRun.v
theories/Proofs_Steady.v
theories/Proofs_AggRun.v
theories/Proofs_AggRunFn.v
theories/Proofs_AggRunBlocks.v
theories/Proofs_AggRunGroup.v
theories/Proofs_AggRunTotal.v
theories/Model_AggFinish.v
theories/Spec_AggFinish.v
theories/Spec_AggModule.v
theories/Proofs_AggFinish.v
theories/Proofs_AggSort.v
theories/Proofs_AggOutput.v
theories/Proofs_AggRows.v
theories/Props_AggRun.v
theories/Model_JoinLazy.v
theories/Spec_JoinLazy.v
theories/Proofs_JoinLazy.v
theories/Proofs_JoinWorld.v
theories/Props_JoinLazy.v
theories/Model_ClassText.v
theories/Spec_ClassText.v
theories/Proofs_ClassText.v
theories/Props_ClassText.v
theories/Spec_GenRun.v
theories/Model_JoinText.v
theories/Model_JoinFuncs.v
theories/Spec_JoinText.v
theories/Proofs_GenRun.v
theories/Proofs_JoinCond.v
theories/Proofs_JoinSource.v
theories/Proofs_JoinScope.v
theories/Proofs_JoinRows.v
theories/Proofs_JoinSim.v
theories/Proofs_JoinSimLeft.v
theories/Proofs_JoinStages.v
theories/Proofs_JoinCall.v
theories/Proofs_JoinExpr.v
theories/Proofs_JoinRead.v
theories/Props_JoinText.v
theories/Spec_OwnMany.v
theories/Proofs_OwnMany.v
theories/Props_OwnMany.v
theories/Spec_Generator.v
theories/Proofs_Generator.v
theories/Props_Generator.v
theories/Spec_Inline.v
theories/Model_Inline.v
theories/Proofs_Plug.v
theories/Proofs_Inline.v
theories/Proofs_InlineCode.v
theories/Props_Inline.v
theories/Model_Filter.v
theories/Props_Filter.v
theories/Model_Derive.v
theories/Spec_Derive.v
theories/Proofs_Derive.v
theories/Props_Derive.v
theories/Model_Ensure.v
theories/Spec_Ensure.v
theories/Props_Ensure.v
theories/Proofs_AggClean.v
theories/Model_ReduceArgs.v
theories/Spec_ReduceArgs.v
theories/Props_ReduceArgs.v
theories/Model_Operators.v
theories/Spec_Operators.v
theories/Props_Operators.v
theories/Model_Execute.v
theories/Spec_Execute.v
theories/Props_Execute.v
theories/Model_Tap.v
theories/Props_TapArgs.v
theories/Props_JoinClose.v
