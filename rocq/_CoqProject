-Q theories Verif
theories/LibSet_Model.v
theories/LibSet_Spec.v
theories/LibSet_Proofs.v
theories/LibSetHeap_Model.v
theories/LibSetHeap_Proofs.v
theories/Par_Model.v
theories/Par_Proofs.v
theories/LibSet_Witness.v
theories/Properties_Lib.v
theories/Ast_Model.v
theories/Sem_Spec.v
theories/Occ_Spec.v
theories/Ast_Proofs.v
theories/Sem_Proofs.v
theories/Subst_Model.v
theories/Subst_Proofs.v
theories/FormHeap_Model.v
theories/FormHeap_Proofs.v
theories/FormHeap_Copy.v
theories/Rename_Spec.v
theories/Rename_Proofs.v
theories/Rename_Final.v
theories/Properties_Ast.v
theories/Conc_Model.v
theories/Conc_Spec.v
theories/Conc_Proofs.v
theories/Properties_Conc.v
theories/Problem_Model.v
theories/Problem_Spec.v
theories/Problem_Proofs.v
theories/Properties_Problem.v
theories/Rules_Model.v
theories/Result_Model.v
theories/Rules_Spec.v
theories/Rules_Proofs.v
theories/Free_Spec.v
theories/Free_Proofs.v
theories/Inst_Proofs.v
theories/Properties_Search.v
theories/Skolem_Spec.v
theories/Skolem_Proofs.v
theories/Skolem_Final.v
theories/Skolem_Witness.v
theories/Properties_Skolem.v
theories/Expand_Model.v
theories/Tableau_Spec.v
theories/Tableau_Proofs.v
theories/ExpandSets_Proofs.v
theories/Tableau_Witness.v
theories/Properties_Tableau.v
theories/Expand_Spec.v
theories/Expand_Proofs.v
theories/Expand_Final.v
theories/Expand_Witness.v
theories/Properties_Expand.v
theories/Unif_Model.v
theories/Unif_Spec.v
theories/Elim_Proofs.v
theories/UnifRun_Proofs.v
theories/UnifLoss_Model.v
theories/UnifLoss_Proofs.v
theories/Unif_Final.v
theories/Unif_Witness.v
theories/Properties_Unif.v
theories/UnifTree_Model.v
theories/UnifTree_Spec.v
theories/UnifTree_Proofs.v
theories/UnifTree_Final.v
theories/UnifTree_Witness.v
theories/Properties_Index.v
theories/Closure_Model.v
theories/Closure_Spec.v
theories/Closure_Proofs.v
theories/Closure_Final.v
theories/Closure_Witness.v
theories/Properties_Closure.v
theories/Typing_Model.v
theories/Typing_Spec.v
theories/Typing_Proofs.v
theories/Typing_Complete.v
theories/Typing_Final.v
theories/Typing_Witness.v
theories/Properties_Typing.v
theories/Ty_Spec.v
theories/Ty_Proofs.v
theories/Ty_Witness.v
theories/Properties_Ty.v
theories/Lpo_Model.v
theories/Lpo_Spec.v
theories/Lpo_Proofs.v
theories/Lpo_Final.v
theories/Lpo_Witness.v
theories/Properties_Lpo.v
theories/Bse_Model.v
theories/Bse_Spec.v
theories/Bse_Proofs.v
theories/Bse_Final.v
theories/Bse_Witness.v
theories/Properties_Bse.v
theories/UnifMgu_Proofs.v
theories/Restrict_Model.v
theories/Restrict_Spec.v
theories/Restrict_Proofs.v
theories/Restrict_Final.v
theories/Restrict_Witness.v
theories/Properties_Restrict.v
theories/Dmt_Model.v
theories/Dmt_Spec.v
theories/Dmt_Proofs.v
theories/DmtRewrite_Proofs.v
theories/Dmt_Final.v
theories/Dmt_Witness.v
theories/Properties_Dmt.v
theories/Select_Model.v
theories/Select_Spec.v
theories/Select_Proofs.v
theories/Select_Final.v
theories/Select_Witness.v
theories/Properties_Select.v
theories/GsGraph_Model.v
theories/GsGraph_Spec.v
theories/GsGraph_Proofs.v
theories/GsGraph_Witness.v
theories/GsTerm_Model.v
theories/GsTerm_Spec.v
theories/GsTerm_Proofs.v
theories/GsTerm_Witness.v
theories/Properties_Gs3.v
theories/Elab_Model.v
theories/Elab_Spec.v
theories/Elab_Proofs.v
theories/Elab_Final.v
theories/Elab_Context.v
theories/Elab_Witness.v
theories/Properties_Elab.v
theories/Lexer_Model.v
theories/Lexer_Spec.v
theories/Lexer_Proofs.v
theories/Lexer_Number.v
theories/Lexer_Tokens.v
theories/Lexer_Final.v
theories/Lexer_Names.v
theories/Lexer_Witness.v
theories/Properties_Lex.v
theories/Proto_Model.v
theories/Proto_Spec.v
theories/Proto_Proofs.v
theories/Proto_Progress.v
theories/Proto_Closed.v
theories/Proto_Slots.v
theories/Proto_Witness.v
theories/Properties_Proto.v
theories/Proto_Agree.v
theories/Proto_AgreeWitness.v
theories/Properties_ProtoAgree.v
theories/Elab_Types.v
theories/Elab_Eq.v
theories/Decl_Witness.v
theories/Properties_Decl.v
theories/GsProof_Model.v
theories/GsProof_Spec.v
theories/GsProof_Fresh.v
theories/GsProof_Sound.v
theories/GsProof_Witness.v
theories/Properties_GsProof.v
theories/GlobUnif_Model.v
theories/GlobUnif_Spec.v
theories/GlobUnif_Proofs.v
theories/GlobUnif_Final.v
theories/GlobUnif_Witness.v
theories/Properties_GlobUnif.v
theories/Incr_Model.v
theories/Incr_Spec.v
theories/Incr_Proofs.v
theories/IncrSub_Proofs.v
theories/IncrTree_Proofs.v
theories/IncrSound_Proofs.v
theories/IncrClose_Proofs.v
theories/IncrEnd_Proofs.v
theories/IncrOpen_Proofs.v
theories/IncrGamma_Proofs.v
theories/IncrList_Proofs.v
theories/Incr_Witness.v
theories/Properties_Incr.v
theories/SatEq_Model.v
theories/SatEq_Spec.v
theories/SatEqUf_Proofs.v
theories/SatEqClose_Proofs.v
theories/SatEqLoad_Proofs.v
theories/SatEqSat_Proofs.v
theories/SatEqSub_Proofs.v
theories/SatEqMain_Proofs.v
theories/SatEq_Witness.v
theories/Properties_SatEq.v
theories/Tptp_Model.v
theories/Tptp_Spec.v
theories/Tptp_Rep.v
theories/Tptp_Order.v
theories/Tptp_Rules.v
theories/Tptp_Proofs.v
theories/Tptp_Sound.v
theories/Tptp_Witness.v
theories/Rocq_Model.v
theories/Rocq_Spec.v
theories/Rocq_Sound.v
theories/Rocq_Proofs.v
theories/Rocq_Ends.v
theories/Rocq_Context.v
theories/Rocq_Witness.v
theories/Properties_Tptp.v
theories/Properties_Rocq.v
theories/PrfSubst_Model.v
theories/PrfSubst_Spec.v
theories/PrfSubst_Proofs.v
theories/PrfSubst_Final.v
theories/PrfSubst_Witness.v
theories/Properties_PrfSubst.v
theories/Print_Model.v
theories/Print_Spec.v
theories/Fof_Proofs.v
theories/Print_Proofs.v
theories/Print_Wide.v
theories/Print_Narrow.v
theories/Print_Witness.v
theories/Properties_Print.v
theories/UnifItem_Proofs.v
theories/EqBuild_Model.v
theories/EqBuild_Spec.v
theories/EqBuild_Proofs.v
theories/EqBuild_Final.v
theories/EqBuild_Witness.v
theories/Properties_EqBuild.v
theories/Glob_Model.v
theories/Glob_Spec.v
theories/Glob_Proofs.v
theories/SatLit_Model.v
theories/SatLit_Spec.v
theories/SatLit_Proofs.v
theories/Properties_Glob.v
theories/Leaf_Model.v
theories/Leaf_Spec.v
theories/Leaf_Proofs.v
theories/Leaf_Final.v
theories/Leaf_Witness.v
theories/Properties_Leaf.v
theories/Lp_Model.v
theories/Lp_Spec.v
theories/Lp_Proofs.v
theories/Lp_Final.v
theories/Lp_Witness.v
theories/Properties_Lp.v
theories/E2e_Model.v
theories/E2e_Spec.v
theories/E2e_Proofs.v
theories/E2e_Rename.v
theories/E2e_Final.v
theories/E2e_Sound.v
theories/E2e_Witness.v
theories/Properties_E2e.v
theories/ModStep_Model.v
theories/ModStep_Spec.v
theories/ModStep_Proofs.v
theories/ModStep_Final.v
theories/ModStep_Witness.v
theories/Properties_ModStep.v
theories/Up_Model.v
theories/Up_Spec.v
theories/Up_Proofs.v
theories/Up_Witness.v
theories/Properties_Up.v
theories/Round_Model.v
theories/Round_Spec.v
theories/Round_Proofs.v
theories/Round_Final.v
theories/Round_Witness.v
theories/Properties_Round.v
theories/Verdict_Spec.v
theories/Verdict_Proofs.v
theories/Verdict_Final.v
theories/Verdict_Witness.v
theories/Verdict_Case.v
theories/Properties_Verdict.v
theories/Apply_Model.v
theories/Apply_Spec.v
theories/Apply_Proofs.v
theories/Apply_Witness.v
theories/Properties_Apply.v
theories/VerdictApply_Spec.v
theories/VerdictApply_Proofs.v
theories/VerdictApply_Final.v
theories/VerdictApply_Witness.v
theories/VerdictApply_Case.v
theories/Properties_VerdictApply.v
theories/Record_Model.v
theories/Record_Spec.v
theories/Record_Proofs.v
theories/Record_Witness.v
theories/Record_Print.v
theories/Properties_Record.v
