-Q theories Verif
theories/AdamDet_Props.v
theories/AdamFlow_Props.v
theories/AdamNotes_Props.v
theories/AdamSolve_Props.v
theories/AdamTotal_Props.v
theories/AdamTotal_Spec.v
theories/Adam_Build.v
theories/Adam_Calm.v
theories/Adam_Det.v
theories/Adam_Eval.v
theories/Adam_Example.v
theories/Adam_Flow.v
theories/Adam_Flow2.v
theories/Adam_Flow3.v
theories/Adam_Frame.v
theories/Adam_Model.v
theories/Adam_Prio.v
theories/Adam_Quiet.v
theories/Adam_Solve.v
theories/Adam_Spec.v
theories/Adam_Total.v
theories/Adam_Update.v
theories/AnyReg_Model.v
theories/AnyReg_Props.v
theories/AnyReg_Rep.v
theories/AnyReg_Spec.v
theories/AnyReg_Step.v
theories/Async_Model.v
theories/Async_Pool.v
theories/Async_Proofs.v
theories/Async_Props.v
theories/Async_Spec.v
theories/Bits.v
theories/Blocks.v
theories/Cancel_Model.v
theories/Cancel_Proofs.v
theories/Cancel_Props.v
theories/Cancel_Spec.v
theories/Cel_Model.v
theories/Cel_Proofs.v
theories/Cel_Props.v
theories/Cel_Read.v
theories/Cel_Spec.v
theories/CircularQueue_Model.v
theories/CircularQueue_Proofs.v
theories/CircularQueue_Props.v
theories/CircularQueue_Spec.v
theories/ClosedHash_Inv.v
theories/ClosedHash_Model.v
theories/ClosedHash_Ops.v
theories/ClosedHash_Proofs.v
theories/ClosedHash_Props.v
theories/ClosedHash_Spec.v
theories/ClosedHash_Top.v
theories/CopyOnWrite_Model.v
theories/CopyOnWrite_Proofs.v
theories/CopyOnWrite_Props.v
theories/CopyOnWrite_Spec.v
theories/CowThreads_Model.v
theories/CowThreads_Proofs.v
theories/CowThreads_Props.v
theories/CowThreads_Spec.v
theories/Cqueue_Model.v
theories/Cqueue_Proofs.v
theories/Cqueue_Props.v
theories/Cqueue_Spec.v
theories/Decl_Complete.v
theories/Decl_Eve_Sound.v
theories/Decl_Model.v
theories/Decl_Props.v
theories/Decl_Sound.v
theories/Decl_Spec.v
theories/Diag_Model.v
theories/Diag_Props.v
theories/Diag_Spec.v
theories/Dlx_Build.v
theories/Dlx_Cover.v
theories/Dlx_Mem.v
theories/Dlx_Model.v
theories/Dlx_Props.v
theories/Dlx_Spec.v
theories/Entity_Model.v
theories/Entity_Props.v
theories/EnumOps_Model.v
theories/EnumOps_Props.v
theories/Eve_Adjust.v
theories/Eve_Aligned.v
theories/Eve_Base.v
theories/Eve_Flat.v
theories/Eve_Guides.v
theories/Eve_History.v
theories/Eve_Kept.v
theories/Eve_Layout.v
theories/Eve_Lift.v
theories/Eve_Lines.v
theories/Eve_Model.v
theories/Eve_Place.v
theories/Eve_Props.v
theories/Eve_Run.v
theories/Eve_Session.v
theories/Eve_Solve.v
theories/Eve_Spec.v
theories/Eve_Succeeds.v
theories/Eve_Total.v
theories/Eve_Whole.v
theories/Expr_Complete.v
theories/Expr_Model.v
theories/Expr_Props.v
theories/Expr_Sound.v
theories/Expr_Spec.v
theories/Expr_Total.v
theories/Ext_Model.v
theories/Ext_Props.v
theories/Ext_Spec.v
theories/Fnv_Model.v
theories/Fnv_Props.v
theories/Fnv_Spec.v
theories/Forest2_Props.v
theories/Forest_Back.v
theories/Forest_Inv.v
theories/Forest_Links.v
theories/Forest_Model.v
theories/Forest_Ops.v
theories/Forest_Ops2.v
theories/Forest_Ops3.v
theories/Forest_Ops4.v
theories/Forest_Ops5.v
theories/Forest_Props.v
theories/Forest_Spec.v
theories/Forest_Top.v
theories/Forest_Vals.v
theories/Forest_Walk.v
theories/Forest_WalkSpec.v
theories/Forest_Words.v
theories/Json_Complete.v
theories/Json_Complete2.v
theories/Json_Gen.v
theories/Json_Model.v
theories/Json_Props.v
theories/Json_Safe.v
theories/Json_Sound.v
theories/Json_Spec.v
theories/Json_Utf8.v
theories/LayLoad_Model.v
theories/LayLoad_Proofs.v
theories/LayLoad_Props.v
theories/LayLoad_Spec.v
theories/Layout_Model.v
theories/Layout_Props.v
theories/Lex_Model.v
theories/Lex_Proofs.v
theories/Lex_Props.v
theories/Lex_Rounds.v
theories/Lex_Spec.v
theories/Lex_Token.v
theories/Load_Model.v
theories/Load_Proofs.v
theories/Load_Props.v
theories/Load_Spec.v
theories/Lookahead_Model.v
theories/Lookahead_Props.v
theories/MD5_Model.v
theories/MD5_Proofs.v
theories/MD5_Props.v
theories/MD5_Spec.v
theories/Name_Model.v
theories/Name_Proofs.v
theories/Name_Props.v
theories/Pipeline_Props.v
theories/Prelude.v
theories/Rearrange_Model.v
theories/Rearrange_Props.v
theories/Scan_Model.v
theories/Scan_Props.v
theories/Search_Model.v
theories/Search_Props.v
theories/Segmented_Model.v
theories/Segmented_Props.v
theories/Select_Model.v
theories/Select_Props.v
theories/Selection_Algebra.v
theories/Selection_Model.v
theories/Selection_Props.v
theories/Selection_Ranges.v
theories/Selection_Spec.v
theories/Sha_Compress.v
theories/Sha_Engine.v
theories/Sha_Model.v
theories/Sha_Props.v
theories/Sha_Rep.v
theories/Sha_Spec.v
theories/TableIndex_Model.v
theories/TableIndex_Props.v
theories/Timed_Model.v
theories/Timed_Proofs.v
theories/Timed_Props.v
theories/Timed_Spec.v
theories/Tok_Model.v
theories/Tok_Props.v
theories/Tok_Spec.v
theories/Tok_Text.v
theories/Token_Model.v
theories/Token_Props.v
theories/Unicode_Model.v
theories/Unicode_Proofs.v
theories/Unicode_Props.v
theories/Unicode_Spec.v
theories/Vm_Float.v
theories/Vm_Model.v
theories/Vm_Proofs.v
theories/Vm_Props.v
theories/Vm_Spec.v
theories/Vm_Value.v
theories/XmlOut2_Props.v
theories/XmlOut_Model.v
theories/XmlOut_Props.v
theories/XmlOut_Spec.v
theories/XmlOut_Text.v
theories/Xml_Attr.v
theories/Xml_Complete.v
theories/Xml_Doc.v
theories/Xml_Lex.v
theories/Xml_Model.v
theories/Xml_Props.v
theories/Xml_Safe.v
theories/Xml_Sound.v
theories/Xml_Spec.v
theories/Xstr_Look.v
theories/Xstr_Model.v
theories/Xstr_Proofs.v
theories/Xstr_Props.v
theories/Xstr_Spec.v
theories/Zuid_Gen.v
theories/Zuid_Model.v
theories/Zuid_Name.v
theories/Zuid_Order.v
theories/Zuid_Props.v
theories/Zuid_Spec.v
theories/Zuid_Text.v
