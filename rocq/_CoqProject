-Q theories Verif
theories/Base.v
theories/Model_Imm.v
theories/Proofs_Imm.v
theories/Proofs_Imm2.v
theories/Properties_Imm.v
theories/Model_GC.v
theories/Spec_GC.v
theories/Spec_GC2.v
theories/Proofs_GC1.v
theories/Proofs_GC2.v
theories/Proofs_GC3.v
theories/Proofs_GC4.v
theories/Proofs_GC5.v
theories/Proofs_GC6.v
theories/Properties_GC.v
theories/Model_Util.v
theories/Proofs_Util.v
theories/Model_Sort.v
theories/Spec_Sort.v
theories/Proofs_Sort.v
theories/Properties_Util.v
theories/Model_Arith.v
theories/Proofs_Arith.v
theories/Properties_Arith.v
theories/Model_List.v
theories/Spec_List.v
theories/Spec_Equal.v
theories/Proofs_List.v
theories/Proofs_List2.v
theories/Proofs_Equal.v
theories/Properties_List.v
theories/Model_Imm2.v
theories/Proofs_Imm3.v
theories/Properties_Imm2.v
theories/Model_Regs.v
theories/Spec_Regs.v
theories/Proofs_Regs.v
theories/Properties_Regs.v
theories/Model_Sym.v
theories/Proofs_Sym.v
theories/Properties_Sym.v
theories/Model_Num.v
theories/Spec_Num.v
theories/Proofs_Num.v
theories/Properties_Num.v
theories/Model_Lit.v
theories/Spec_Lit.v
theories/Proofs_Lit.v
theories/Properties_Lit.v
theories/Model_CStr.v
theories/Proofs_CStr.v
theories/Model_Mangle.v
theories/Spec_Mangle.v
theories/Proofs_Mangle.v
theories/Properties_Mangle.v
theories/Model_Mod.v
theories/Spec_Mod.v
theories/Proofs_Mod.v
theories/Properties_Mod.v
theories/Model_Clean.v
theories/Spec_Clean.v
theories/Proofs_Clean.v
theories/Properties_Clean.v
theories/Model_CG.v
theories/Spec_CG.v
theories/Proofs_CG.v
theories/Properties_CG.v
theories/Model_Promise.v
theories/Spec_Promise.v
theories/Proofs_Promise.v
theories/Properties_Promise.v
theories/Model_Str.v
theories/Spec_Str.v
theories/Proofs_Str.v
theories/Properties_Str.v
theories/Model_Read.v
theories/Spec_Read.v
theories/Proofs_ReadTerm.v
theories/Proofs_ReadLex.v
theories/Proofs_ReadGap.v
theories/Proofs_ReadDots.v
theories/Properties_Read.v
theories/Model_Write.v
theories/Spec_Write.v
theories/Proofs_Write.v
theories/Properties_Write.v
theories/Model_Wind.v
theories/Spec_Wind.v
theories/Proofs_Wind.v
theories/Properties_Wind.v
theories/Model_Apply.v
theories/Spec_Apply.v
theories/Proofs_Apply.v
theories/Properties_Apply.v
theories/Model_Circ.v
theories/Spec_Circ.v
theories/Proofs_CircTab.v
theories/Proofs_Circ.v
theories/Properties_Circ.v
theories/Model_Core.v
theories/Spec_Sem.v
theories/Spec_Free.v
theories/Proofs_Sim.v
theories/Proofs_Core.v
theories/Proofs_Free.v
theories/Proofs_Agree.v
theories/Properties_Free.v
theories/Spec_Scope.v
theories/Model_Assign.v
theories/Proofs_Run.v
theories/Proofs_Assign.v
theories/Proofs_Box.v
theories/Proofs_Honest.v
theories/Properties_Assign.v
theories/Model_Lift.v
theories/Spec_Lift.v
theories/Proofs_Extra.v
theories/Proofs_Lift.v
theories/Proofs_LiftOk.v
theories/Properties_Lift.v
theories/Model_Cps.v
theories/Spec_Cps.v
theories/Proofs_Cps.v
theories/Proofs_CpsRun.v
theories/Proofs_CpsOk.v
theories/Proofs_CpsMore.v
theories/Proofs_CpsStack.v
theories/Properties_Cps.v
theories/Spec_Fold.v
theories/Model_Fold.v
theories/Proofs_FoldSem.v
theories/Proofs_FoldRun.v
theories/Proofs_FoldText.v
theories/Proofs_FoldWf.v
theories/Proofs_Fold.v
theories/Proofs_FoldMore.v
theories/Properties_Fold.v
theories/Model_Beta.v
theories/Spec_Beta.v
theories/Proofs_BetaPure.v
theories/Proofs_BetaSem.v
theories/Proofs_BetaRun.v
theories/Proofs_BetaFree.v
theories/Proofs_Beta.v
theories/Proofs_Det.v
theories/Proofs_BetaMore.v
theories/Properties_Beta.v
theories/Model_Syntax.v
theories/Spec_Syntax.v
theories/Proofs_Syntax.v
theories/Proofs_SynTmpl.v
theories/Proofs_SynRule.v
theories/Properties_Syntax.v
theories/Spec_Choice.v
theories/Properties_Choice.v
theories/Spec_SynBox.v
theories/Properties_SynBox.v
theories/Model_Letrec.v
theories/Spec_Letrec.v
theories/Proofs_Letrec.v
theories/Proofs_LetrecEnv.v
theories/Proofs_LetrecSim.v
theories/Proofs_LetrecFix.v
theories/Proofs_LetrecAll.v
theories/Proofs_LetrecScope.v
theories/Proofs_LetrecTotal.v
theories/Properties_Letrec.v
theories/Model_Unbox.v
theories/Spec_Unbox.v
theories/Proofs_UnboxSem.v
theories/Proofs_UnboxRun.v
theories/Proofs_UnboxUse.v
theories/Proofs_Unbox.v
theories/Proofs_UnboxTyped.v
theories/Proofs_UnboxBy.v
theories/Properties_Unbox.v
theories/Model_Interp.v
theories/Spec_Interp.v
theories/Proofs_Interp.v
theories/Proofs_InterpRun.v
theories/Proofs_InterpProg.v
theories/Properties_Interp.v
theories/Model_Globals.v
theories/Spec_Globals.v
theories/Proofs_SimOn.v
theories/Proofs_GlobalsSem.v
theories/Proofs_GlobalsRun.v
theories/Proofs_Globals.v
theories/Proofs_GlobalsDefs.v
theories/Proofs_GlobalsOk.v
theories/Proofs_GlobalsMain.v
theories/Proofs_GlobalsBy.v
theories/Proofs_GlobalsStack.v
theories/Properties_Globals.v
theories/Model_CodeGen.v
theories/Spec_CodeGen.v
theories/Proofs_CodeGen.v
theories/Proofs_CodeGenRun.v
theories/Proofs_CodeGenSome.v
theories/Properties_CodeGen.v
theories/Spec_Collect.v
theories/Proofs_Collect.v
theories/Properties_Collect.v
theories/Model_Roots.v
theories/Spec_Roots.v
theories/Proofs_Roots.v
theories/Properties_Roots.v
theories/Model_Cases.v
theories/Proofs_Cases.v
theories/Properties_Cases.v
theories/Model_Comment.v
theories/Spec_Comment.v
theories/Proofs_Comment.v
theories/Properties_Comment.v
theories/Model_Format.v
theories/Spec_Format.v
theories/Proofs_Format.v
theories/Properties_Format.v
theories/Model_Stack.v
theories/Spec_Stack.v
theories/Proofs_Stack.v
theories/Proofs_StackFun.v
theories/Spec_StackTail.v
theories/Proofs_StackGen.v
theories/Proofs_StackTail.v
theories/Proofs_StackCalls.v
theories/Proofs_StackLoops.v
theories/Properties_Stack.v
