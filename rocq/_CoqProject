-Q theories Verif

theories/Base.v
theories/Simple8b_Model.v
theories/Simple8b_Proof.v
theories/Simple8b_Thm.v
theories/Std_Model.v
theories/Std_Proof.v
theories/Table_Spec.v
theories/Join_Model.v
theories/Join_Proof.v
theories/Join_Thm.v
theories/Lex_Proof.v
theories/MultiJoin_Model.v
theories/MultiJoin_Proof.v
theories/MultiJoin_Proof2.v
theories/MultiJoin_Thm.v
theories/ListAux.v
theories/Ops_Spec.v
theories/Filter_Model.v
theories/Filter_Proof.v
theories/Ops_Model.v
theories/Ops_Proof.v
theories/Ops_Thm.v
theories/Float32.v
theories/GroupBy_Spec.v
theories/GroupBy_Model.v
theories/GroupBy_Proof.v
theories/GroupBy_Proof2.v
theories/GroupBy_Thm.v
theories/Path_Spec.v
theories/Path_Model.v
theories/Path_Proof.v
theories/Path_Proof2.v
theories/Path_Thm.v
theories/Bytes.v
theories/Csv_Model.v
theories/Csv_Proof.v
theories/Csv_Thm.v
theories/HasPred_Spec.v
theories/HasPred_Model.v
theories/HasPred_Proof.v
theories/HasPred_Thm.v
theories/Patterns_Model.v
theories/Patterns_Proof.v
theories/Patterns_Proof2.v
theories/Patterns_Thm.v
theories/Cache_Spec.v
theories/Cache_Model.v
theories/Cache_Proof.v
theories/Cache_Thm.v
theories/ConcCache_Model.v
theories/ConcCache_Proof.v
theories/ConcCache_Proof2.v
theories/ConcCache_Thm.v
theories/Alloc_Model.v
theories/Alloc_Thm.v
theories/IdTable_Model.v
theories/IdTable_Proof.v
theories/IdTable_Thm.v
theories/Vars_Model.v
theories/Vars_Thm.v
theories/Meta_Model.v
theories/Meta_Proof.v
theories/Meta_Thm.v
theories/Perm_Model.v
theories/Perm_Spec.v
theories/Perm_Proof.v
theories/Perm_Proof2.v
theories/Perm_Proof3.v
theories/Perm_Proof4.v
theories/Perm_Thm.v
theories/Fts_Model.v
theories/Fts_Spec.v
theories/Fts_Proof.v
theories/Fts_Proof2.v
theories/Fts_Proof3.v
theories/Fts_Proof4.v
theories/Fts_Proof5.v
theories/Fts_Proof6.v
theories/Fts_Proof7.v
theories/Fts_Thm.v
theories/Postings_Model.v
theories/Postings_Proof.v
theories/Postings_Thm.v
theories/TextIndex_Model.v
theories/TextIndex_Spec.v
theories/TextIndex_Proof.v
theories/TextIndex_Proof2.v
theories/TextIndex_Proof3.v
theories/TextIndex_Proof4.v
theories/TextIndex_Proof5.v
theories/TextIndex_Proof6.v
theories/TextIndex_Proof7.v
theories/TextIndex_Proof8.v
theories/TextIndex_Thm.v
theories/Docs_Model.v
theories/Docs_Spec.v
theories/Docs_Thm.v
theories/Strings_Model.v
theories/Strings_Spec.v
theories/Strings_Proof.v
theories/Strings_Proof2.v
theories/Strings_Proof3.v
theories/Strings_Proof4.v
theories/Strings_Thm.v
theories/Collate_Model.v
theories/Collate_Spec.v
theories/Collate_Proof.v
theories/Collate_Thm.v
theories/Vocab_Model.v
theories/Prefix_Model.v
theories/Prefix_Spec.v
theories/Prefix_Proof.v
theories/Prefix_Proof2.v
theories/Prefix_Thm.v
theories/Vocab_Spec.v
theories/Vocab_Proof.v
theories/Vocab_Thm.v
theories/Merge_Model.v
theories/Merge_Spec.v
theories/Merge_Proof.v
theories/Merge_Proof2.v
theories/Merge_Proof3.v
theories/Merge_Proof4.v
theories/Merge_Proof5.v
theories/Merge_Proof6.v
theories/Merge_Proof7.v
theories/Merge_Thm.v
theories/Mmap_Model.v
theories/Mmap_Spec.v
theories/Mmap_Proof.v
theories/Mmap_Proof2.v
theories/Mmap_Proof3.v
theories/Mmap_Thm.v
theories/Pipe_Model.v
theories/Pipe_Spec.v
theories/Pipe_Proof.v
theories/Pipe_Proof2.v
theories/Pipe_Proof3.v
theories/Pipe_Proof4.v
theories/Pipe_Proof5.v
theories/Pipe_Thm.v
theories/Conv_Model.v
theories/Conv_Spec.v
theories/Conv_Proof.v
theories/Conv_Proof2.v
theories/Conv_Proof3.v
theories/Conv_Proof4.v
theories/Conv_Proof5.v
theories/Conv_Thm.v
theories/Keys_Model.v
theories/Keys_Spec.v
theories/Keys_Proof.v
theories/Keys_Proof2.v
theories/Keys_Proof3.v
theories/Keys_Proof4.v
theories/Keys_Proof5.v
theories/Keys_Proof6.v
theories/Keys_Engine.v
theories/Keys_Thm.v
theories/Turtle_Model.v
theories/Turtle_Spec.v
theories/Turtle_Proof.v
theories/Turtle_Proof2.v
theories/Turtle_Proof3.v
theories/Turtle_Proof4.v
theories/Turtle_Proof5.v
theories/Turtle_Proof6.v
theories/Turtle_Proof7.v
theories/Turtle_Proof8.v
theories/Turtle_Proof9.v
theories/Turtle_Thm.v
theories/Lines_Model.v
theories/Lines_Spec.v
theories/Lines_Proof.v
theories/Lines_Thm.v
theories/PPath_Model.v
theories/PPath_Spec.v
theories/PPath_Proof.v
theories/PPath_Proof2.v
theories/PPath_Proof3.v
theories/PPath_Proof4.v
theories/PPath_Thm.v
theories/Plan_Model.v
theories/Plan_Spec.v
theories/Plan_Proof1.v
theories/Plan_Proof2.v
theories/Plan_Proof3.v
theories/Plan_Proof4.v
theories/Plan_Proof5.v
theories/Plan_Proof6.v
theories/Plan_Proof7.v
theories/Plan_Proof8.v
theories/Plan_Proof9.v
theories/Plan_Proof10.v
theories/Plan_Exec.v
theories/Plan_Thm.v
theories/SLex_Model.v
theories/SLex_Spec.v
theories/SLex_Proof.v
theories/SLex_Proof2.v
theories/SLex_Proof3.v
theories/SLex_Thm.v
theories/Sparql_Model.v
theories/Sparql_Spec.v
theories/Sparql_Proof1.v
theories/Sparql_Proof2.v
theories/Sparql_Proof3.v
theories/Sparql_Proof4.v
theories/Sparql_Proof5.v
theories/Sparql_Proof6.v
theories/Sparql_Thm.v
theories/SPrefix_Spec.v
theories/SPrefix_Proof.v
theories/SPrefix_Thm.v
theories/Output_Model.v
theories/Output_Spec.v
theories/Output_Proof.v
theories/Output_Thm.v
theories/Http_Model.v
theories/Http_Spec.v
theories/Http_Proof.v
theories/Http_Thm.v
theories/Values_Model.v
theories/Values_Spec.v
theories/Values_Proof.v
theories/Values_Thm.v
theories/Bind_Model.v
theories/Bind_Spec.v
theories/Float_Proof.v
theories/Bind_Thm.v
theories/Group_Spec.v
theories/Group_Model.v
theories/Group_Proof.v
theories/Group_Proof2.v
theories/Group_Thm.v
theories/Trick_Spec.v
theories/Trick_Model.v
theories/Trick_Proof.v
theories/Trick_Proof2.v
theories/Trick_Proof3.v
theories/Trick_Thm.v
theories/Rows_Spec.v
theories/Rows_Model.v
theories/Rows_Proof.v
theories/Rows_Thm.v
theories/Query_Spec.v
theories/Query_Model.v
theories/Query_Proof.v
theories/Query_Thm.v
theories/TextOp_Spec.v
theories/TextOp_Model.v
theories/TextOp_Proof.v
theories/TextOp_Proof2.v
theories/TextOp_Thm.v
theories/Empty_Spec.v
theories/Empty_Model.v
theories/Empty_Proof.v
theories/Empty_Proof2.v
theories/Empty_Thm.v
theories/Clique_Spec.v
theories/Clique_Model.v
theories/Clique_Proof.v
theories/Clique_Proof2.v
theories/Clique_Proof3.v
theories/Clique_Proof4.v
theories/Clique_Proof5.v
theories/Clique_Thm.v
theories/Whole_Spec.v
theories/Whole_Model.v
theories/Whole_Proof1.v
theories/Whole_Proof2.v
theories/Whole_Proof3.v
theories/Whole_Proof4.v
theories/Whole_Proof5.v
theories/Whole_Thm.v
theories/Timeout_Spec.v
theories/Timeout_Model.v
theories/Timeout_Proof.v
theories/Timeout_Proof2.v
theories/Timeout_Thm.v
theories/Info_Spec.v
theories/Info_Model.v
theories/Info_Proof.v
theories/Info_Thm.v
theories/Serve_Spec.v
theories/Serve_Model.v
theories/Serve_Proof.v
theories/Serve_Proof2.v
theories/Serve_Thm.v
theories/Serve_Proof3.v
theories/IScan_Model.v
theories/IScan_Spec.v
theories/IScan_Thm.v
theories/HasScan_Model.v
theories/HasScan_Spec.v
theories/HasScan_Thm.v
theories/Converter_Model.v
theories/Converter_Spec.v
theories/Converter_Proof.v
theories/Converter_Thm.v
theories/Card_Model.v
theories/Card_Spec.v
theories/Card_Proof.v
theories/Card_Thm.v
theories/Cross_Model.v
theories/Cross_Spec.v
theories/Cross_Proof.v
theories/Cross_Thm.v
theories/Factors_Model.v
theories/Factors_Spec.v
theories/Factors_Proof.v
theories/Factors_Thm.v
