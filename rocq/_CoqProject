-Q theories Verif
theories/Base.v
theories/BoolExpr_Model.v
theories/BoolExpr_Spec.v
theories/BoolExpr_Proofs.v
theories/BoolExpr_Props.v
theories/Num_Model.v
theories/Num_Spec.v
theories/Num_Proofs.v
theories/Num_Props.v
theories/Text_Model.v
theories/Text_Spec.v
theories/Text_Proofs.v
theories/Text_Props.v
theories/Cursor_Model.v
theories/Cursor_Spec.v
theories/Cursor_Proofs.v
theories/Cursor_Props.v
theories/Check_Model.v
theories/Program_Model.v
theories/Check_Spec.v
theories/Check_Proofs.v
theories/Program_Proofs.v
theories/Accept_Proofs.v
theories/File_Spec.v
theories/File_Proofs.v
theories/Free_Proofs.v
theories/File_Props.v
theories/Compose_Proofs.v
theories/Lit_Model.v
theories/Lit_Spec.v
theories/Lit_Proofs.v
theories/Lit_Props.v
theories/Lit_Examples.v
theories/Crlf_Spec.v
theories/Crlf_Proofs.v
theories/Crlf_Props.v
theories/Env_Model.v
theories/Env_Spec.v
theories/Env_Proofs.v
theories/Env_Props.v
theories/Source_Model.v
theories/Source_Spec.v
theories/Source_Proofs.v
theories/Source_Props.v
theories/List_Model.v
theories/List_Spec.v
theories/List_Props.v
theories/Run_Model.v
theories/Run_Spec.v
theories/Run_Props.v
theories/Wait_Model.v
theories/Wait_Props.v
theories/Map_Model.v
theories/Config_Model.v
theories/Config_Props.v
theories/Tree_Model.v
theories/Tree_Spec.v
theories/Tree_Proofs.v
theories/Tree_Props.v
theories/Disc_Model.v
theories/Disc_Spec.v
theories/Disc_Proofs.v
theories/Disc_Props.v
theories/Fail_Props.v
theories/Script_Model.v
theories/Script_Spec.v
theories/Script_Proofs.v
theories/Script_Props.v
theories/Sub_Model.v
theories/Sub_Spec.v
theories/Sub_Props.v
theories/Tool_Model.v
theories/Tool_Spec.v
theories/Tool_Proofs.v
theories/Tool_Props.v
theories/Feature_Spec.v
theories/Feature_Props.v
theories/Report_Model.v
theories/Report_Spec.v
theories/Report_Props.v
theories/Dump_Model.v
theories/Dump_Spec.v
theories/SimAt_Proofs.v
theories/Dump_Props.v
theories/Total_Spec.v
theories/Total_Proofs.v
theories/Total_Props.v
theories/Gram_Model.v
theories/Gram_Proofs.v
theories/Parse_Model.v
theories/Parse_Spec.v
theories/Parse_Proofs.v
theories/Parse_Lines.v
theories/Parse_Tokens.v
theories/Parse_Props.v
theories/Pat_Spec.v
theories/Pat_Proofs.v
theories/Pat_Block.v
theories/Sum_Spec.v
theories/Sum_Props.v
theories/Pat_Props.v
theories/Regex_Model.v
theories/Regex_Spec.v
theories/Regex_Proofs.v
theories/Regex_Engine.v
theories/Regex_Frame.v
theories/Smart_Model.v
theories/Smart_Spec.v
theories/Smart_Static.v
theories/Smart_Parts.v
theories/Smart_Props.v
theories/Choice_Spec.v
theories/Choice_Proofs.v
theories/Choice_Parts.v
theories/Choice_Props.v
theories/Chain_Spec.v
theories/Chain_Proofs.v
theories/Chain_Search.v
theories/Chain_Fixed.v
theories/Chain_Props.v
theories/PatSet_Model.v
theories/PatSet_Spec.v
theories/PatSet_Proofs.v
theories/PatSet_Engine.v
theories/PatSet_Dag.v
theories/PatSet_Props.v
theories/Sim_Proofs.v
theories/Tame_Proofs.v
theories/Tame_File.v
theories/Sweep_Spec.v
theories/Sweep_Props.v
theories/Demand_Spec.v
theories/Demand_Proofs.v
theories/Demand_Props.v
theories/Scan_Spec.v
theories/Scan_Number.v
theories/Scan_Proofs.v
theories/Scan_Props.v
theories/Mgr_Model.v
theories/Mgr_Spec.v
theories/Mgr_Proofs.v
theories/Mgr_Props.v
theories/Input_Model.v
theories/Input_Spec.v
theories/Input_Props.v
theories/Sym_Model.v
theories/Sym_Props.v
theories/Exact_Spec.v
theories/Exact_Proofs.v
theories/Exact_Props.v
theories/Whole_Model.v
theories/Whole_Spec.v
theories/Whole_Props.v
theories/Cli_Model.v
theories/Cli_Spec.v
theories/Cli_Proofs.v
theories/Cli_Props.v
theories/Main_Model.v
theories/Main_Spec.v
theories/Main_Props.v
theories/White_Spec.v
theories/White_Props.v
theories/Span_Model.v
theories/Span_Spec.v
theories/Span_Props.v
theories/Syntax_Spec.v
theories/Syntax_Proofs.v
theories/Syntax_Props.v
theories/Vars_Model.v
theories/Vars_Spec.v
theories/Vars_Proofs.v
theories/Vars_Props.v
theories/Ord_Model.v
theories/Ord_Spec.v
theories/Ord_Proofs.v
theories/Ord_Props.v
theories/Form_Model.v
theories/Form_Spec.v
theories/Form_Proofs.v
theories/Form_Props.v
theories/Suites_Model.v
theories/Suites_Spec.v
theories/Suites_Proofs.v
theories/Suites_Props.v
theories/Where_Model.v
theories/Where_Spec.v
theories/Where_Proofs.v
theories/Where_Props.v
theories/Where_Link.v
theories/Key_Model.v
theories/Key_Spec.v
theories/Key_Proofs.v
theories/Key_Props.v
theories/Detail_Model.v
theories/Detail_Spec.v
theories/Detail_Proofs.v
theories/Detail_Props.v
