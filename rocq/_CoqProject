-Q theories Verif
theories/Syntax_Model.v
theories/Syntax_Proofs.v
theories/Traversal_Model.v
theories/Traversal_Spec.v
theories/Traversal_Proofs.v
theories/Traversal_Props.v
theories/Semantics_Spec.v
theories/Semantics_Proofs.v
theories/Subst_Model.v
theories/Subst_Spec.v
theories/Subst_Proofs.v
theories/Subst_Props.v
theories/Unify_Model.v
theories/Unify_Spec.v
theories/Unify_Proofs.v
theories/Unify_Props.v
theories/Utils_Model.v
theories/Utils_Spec.v
theories/Utils_Proofs.v
theories/Utils_Props.v
theories/Sort_Model.v
theories/Sort_Spec.v
theories/Sort_Proofs.v
theories/Sort_Props.v
theories/Parser_Model.v
theories/Parser_Spec.v
theories/Parser_Base_Proofs.v
theories/Parser_Proofs.v
theories/Parser_More_Proofs.v
theories/Parser_Props.v
theories/Parser_Infix_Model.v
theories/Parser_Infix_Props.v
theories/Order_Model.v
theories/Order_Spec.v
theories/Order_Proofs.v
theories/Binding_Proofs.v
theories/Order_Steps_Proofs.v
theories/Order_Props.v
theories/Macro_Model.v
theories/Macro_Spec.v
theories/Macro_Proofs.v
theories/Macro_Exec_Proofs.v
theories/Macro_Props.v
theories/Graph_Model.v
theories/Graph_Spec.v
theories/Graph_Proofs.v
theories/Graph_Props.v
theories/Expander_Model.v
theories/Expander_Spec.v
theories/Expander_Proofs.v
theories/Expander_Props.v
theories/Exists_Model.v
theories/Exists_Spec.v
theories/Exists_Proofs.v
theories/Exists_Props.v
theories/Search_Model.v
theories/Search_Spec.v
theories/Search_Proofs.v
theories/Search_Props.v
theories/Crypto_Model.v
theories/Crypto_Spec.v
theories/Crypto_Proofs.v
theories/Crypto_Props.v
theories/Evaluate_Model.v
theories/Evaluate_Spec.v
theories/Evaluate_Proofs.v
theories/Evaluate_Props.v
theories/Smt_Model.v
theories/Smt_Spec.v
theories/Smt_Proofs.v
theories/Smt_Props.v
theories/Problem_Model.v
theories/Problem_Spec.v
theories/Problem_Proofs.v
theories/Problem_Props.v
theories/Propagate_Model.v
theories/Propagate_Spec.v
theories/Propagate_Proofs.v
theories/Propagate_Props.v
theories/Squirrel_Model.v
theories/Squirrel_Spec.v
theories/Squirrel_Proofs.v
theories/Squirrel_Props.v
theories/Squirrel_Wide_Props.v
theories/Convert_Model.v
theories/Convert_Spec.v
theories/Convert_Proofs.v
theories/Convert_Props.v
theories/Runner_Model.v
theories/Runner_Spec.v
theories/Runner_Proofs.v
theories/Runner_Props.v
theories/Readback_Model.v
theories/Readback_Spec.v
theories/Readback_Proofs.v
theories/Readback_Props.v
theories/Container_Model.v
theories/Container_Spec.v
theories/Container_Proofs.v
theories/Container_Props.v
theories/Rewrite_Model.v
theories/Rewrite_Spec.v
theories/Rewrite_Proofs.v
theories/Rewrite_Props.v
theories/Egraph_Model.v
theories/Egraph_Spec.v
theories/Egraph_Proofs.v
theories/Egraph_Props.v
theories/Meaning_Spec.v
theories/Meaning_Proofs.v
theories/Meaning_Props.v
theories/Define_Model.v
theories/Define_Spec.v
theories/Define_Proofs.v
theories/Define_Props.v
theories/File_Model.v
theories/File_Spec.v
theories/File_Proofs.v
theories/File_Props.v
theories/Cli_Model.v
theories/Cli_Spec.v
theories/Cli_Proofs.v
theories/Cli_Props.v
theories/Assumption_Model.v
theories/Assumption_Spec.v
theories/Assumption_Proofs.v
theories/Assumption_Props.v
theories/Sentence_Spec.v
theories/Sentence_Proofs.v
theories/Sentence_Props.v
theories/Source_Model.v
theories/Source_Spec.v
theories/Source_Proofs.v
theories/Source_More_Proofs.v
theories/Source_Props.v
theories/Source_Closed_Spec.v
theories/Source_Closed_Proofs.v
theories/Source_Closed_More_Proofs.v
theories/Source_Closed_Props.v
theories/Source_Problem_Spec.v
theories/Source_Problem_Proofs.v
theories/Source_Problem_Props.v
theories/Dump_Model.v
theories/Dump_Spec.v
theories/Dump_Proofs.v
theories/Dump_Props.v
theories/Dump_Crypto_Props.v
theories/Dump_Source_Model.v
theories/Dump_Source_Spec.v
theories/Dump_Source_Proofs.v
theories/Dump_Symbols_Proofs.v
theories/Dump_Source_Props.v
theories/Dump_Meaning_Spec.v
theories/Dump_Meaning_Proofs.v
theories/Dump_Step_Proofs.v
theories/Dump_Meaning_Props.v
theories/Dump_Update_Spec.v
theories/Dump_Update_Proofs.v
theories/Dump_Update_Props.v
theories/Arity_Spec.v
theories/Arity_Proofs.v
theories/Arity_Props.v
theories/Arity_Source_Spec.v
theories/Arity_Source_Proofs.v
theories/Arity_Source_Props.v
theories/Truth_Spec.v
theories/Truth_Proofs.v
theories/Truth_Props.v
theories/Sound_Spec.v
theories/Sound_Proofs.v
theories/Sound_Source_Spec.v
theories/Sound_Source_Proofs.v
theories/Sound_Props.v
theories/Sound_Dump_Spec.v
theories/Sound_Dump_Proofs.v
theories/Sound_Dump_Props.v
theories/Location_Model.v
theories/Location_Spec.v
theories/Location_Proofs.v
theories/Location_Props.v
theories/Macro_Fresh_Props.v
