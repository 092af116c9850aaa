-Q theories Verif
theories/Word_Model.v
theories/Arith_Model.v
theories/Arith_Spec.v
theories/Arith_Proofs.v
theories/Props_Arith.v
theories/Term_Model.v
theories/Term_Proofs.v
theories/Heap_Model.v
theories/Heap_Proofs.v
theories/Sort_Model.v
theories/Sort_Proofs.v
theories/Order_Spec.v
theories/Order_Proofs.v
theories/Props_Order.v
theories/Unify_Model.v
theories/Unify_Spec.v
theories/Unify_Proofs.v
theories/Unify_Proofs2.v
theories/Unify_Proofs3.v
theories/Props_Unify.v
theories/Binding_Model.v
theories/Binding_Spec.v
theories/Binding_Proofs.v
theories/Machine_Model.v
theories/Machine_Spec.v
theories/Machine_Proofs.v
theories/Props_Machine.v
theories/Copy_Model.v
theories/Copy_Spec.v
theories/Copy_Proofs.v
theories/Copy_Proofs2.v
theories/Copy_Proofs3.v
theories/Copy_Proofs4.v
theories/Acyclic_Model.v
theories/Acyclic_Proofs.v
theories/Mem_Example.v
theories/Props_Copy.v
theories/Mangling_Model.v
theories/Mangling_Proofs.v
theories/Props_Mangling.v
theories/Hash_Model.v
theories/Hash_Spec.v
theories/Hash_Client.v
theories/Hash_Proofs.v
theories/Hash_Proofs2.v
theories/Hash_Proofs3.v
theories/Hash_Proofs4.v
theories/Oper_Model.v
theories/Oper_Proofs.v
theories/Hash_Example.v
theories/Props_Hash.v
theories/Atom_Model.v
theories/Atom_Spec.v
theories/Atom_Proofs.v
theories/Props_Atom.v
theories/Switch_Model.v
theories/Switch_Proofs.v
theories/Index_Model.v
theories/Index_Proofs.v
theories/Props_Index.v
theories/SubAtom_Model.v
theories/SubAtom_Spec.v
theories/SubAtom_Proofs.v
theories/Props_SubAtom.v
theories/FdRange_Model.v
theories/FdRange_Spec.v
theories/FdRange_Proofs.v
theories/FdRange_Set.v
theories/FdRange_Arith.v
theories/FdRange_Value.v
theories/Props_FdRange.v
theories/FdTell_Model.v
theories/FdTell_Spec.v
theories/FdTell_Proofs.v
theories/Props_FdTell.v
theories/FdProp_Model.v
theories/FdProp_Spec.v
theories/FdProp_Proofs.v
theories/FdProp_Engine.v
theories/FdProp_Cstr.v
theories/FdProp_Closed.v
theories/FdProp_Lin.v
theories/FdProp_Con.v
theories/FdProp_Ground.v
theories/Props_FdProp.v
theories/Dyn_Model.v
theories/Dyn_Spec.v
theories/Dyn_Chain.v
theories/Dyn_Inv.v
theories/Dyn_Add.v
theories/Dyn_Free.v
theories/Dyn_Rel.v
theories/Dyn_GC.v
theories/Dyn_Steps.v
theories/Dyn_Sim.v
theories/Props_Dyn.v
theories/Stream_Model.v
theories/Stream_Spec.v
theories/Stream_Proofs.v
theories/Stream_Pos.v
theories/Stream_More.v
theories/Props_Stream.v
theories/Between_Model.v
theories/Props_Between.v
theories/FdTrail_Model.v
theories/FdTrail_Spec.v
theories/FdTrail_Proofs.v
theories/FdTrail_Steps.v
theories/Props_FdTrail.v
theories/KeyVar_Model.v
theories/KeyVar_Spec.v
theories/KeyVar_Proofs.v
theories/Findall_Model.v
theories/Findall_Spec.v
theories/Findall_Proofs.v
theories/Keys_Proofs.v
theories/Props_Findall.v
theories/Props_Keys.v
theories/Catch_Model.v
theories/Catch_Spec.v
theories/Catch_Proofs.v
theories/Props_Catch.v
theories/Bagof_Model.v
theories/Bagof_Spec.v
theories/Bagof_Proofs.v
theories/Props_Bagof.v
theories/List_Model.v
theories/List_Spec.v
theories/List_Proofs.v
theories/List_Steps.v
theories/List_Append.v
theories/List_More.v
theories/List_Preds.v
theories/List_Member.v
theories/Props_List.v
theories/Lex_Model.v
theories/Write_Model.v
theories/Lex_Spec.v
theories/Lex_Proofs.v
theories/Write_Proofs.v
theories/Props_Lex.v
theories/Parse_Model.v
theories/Parse_Spec.v
theories/Parse_Proofs.v
theories/Reader_Proofs.v
theories/Props_Parse.v
theories/Gvar_Model.v
theories/Gvar_Spec.v
theories/Gvar_Tree.v
theories/Gvar_Free.v
theories/Gvar_Build.v
theories/Gvar_Grow.v
theories/Gvar_Inv.v
theories/Gvar_Steps.v
theories/Gvar_Pops.v
theories/Gvar_Exec.v
theories/Gvar_Ops.v
theories/Gvar_Proofs.v
theories/Props_Gvar.v
theories/RegAlloc_Model.v
theories/RegAlloc_Spec.v
theories/RegAlloc_Graph.v
theories/RegAlloc_Assign.v
theories/RegAlloc_Proofs.v
theories/Props_RegAlloc.v
theories/Clause_Model.v
theories/Clause_Spec.v
theories/Clause_Exec.v
theories/Clause_Shape.v
theories/Clause_Sound.v
theories/Clause_Complete.v
theories/Clause_Class.v
theories/Clause_Body.v
theories/Clause_Main.v
theories/Clause_Top.v
theories/Props_Clause.v
theories/Place_Spec.v
theories/Place_Check.v
theories/Place_Gen.v
theories/Place_Body.v
theories/Equal_Model.v
theories/Props_Place.v
theories/Dcg_Model.v
theories/Dcg_Spec.v
theories/Dcg_Proofs.v
theories/Props_Dcg.v
theories/Sugar_Model.v
theories/Sugar_Spec.v
theories/Sugar_Proofs.v
theories/First_Model.v
theories/Props_First.v
theories/Props_Sugar.v
theories/Univ_Model.v
theories/Univ_Spec.v
theories/Univ_Proofs.v
theories/Univ_Proofs2.v
theories/Univ_Proofs3.v
theories/Univ_Proofs4.v
theories/Univ_Proofs5.v
theories/Props_Univ.v
theories/Bytecode_Model.v
theories/Bytecode_Spec.v
theories/Bytecode_Proofs.v
theories/Props_Bytecode.v
theories/FdBool_Model.v
theories/FdBool_Spec.v
theories/FdBool_Proofs.v
theories/FdBool_Load.v
theories/Props_FdBool.v
theories/FdPrim_Model.v
theories/FdPrim_Spec.v
theories/FdPrim_Proofs.v
theories/Props_FdPrim.v
theories/Props_FdTruth.v
theories/Label_Model.v
theories/Label_Spec.v
theories/Label_Proofs.v
theories/Label_Order.v
theories/Props_Label.v
theories/LabelAll_Model.v
theories/Props_LabelAll.v
theories/FdIn_Model.v
theories/Props_FdIn.v
theories/Props_FdDate.v
theories/FdList_Model.v
theories/Props_FdList.v
theories/FdSymb_Model.v
theories/Props_FdSymb.v
