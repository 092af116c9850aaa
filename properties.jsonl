{"id": "C01", "title": "Tagged integers round-trip", "statement": "Every integer between min_integer and max_integer stored in a Prolog term is read back as the same integer, two integer terms are the same term exactly when the integers are equal, and an integer term is never mistaken for an atom, variable, list, structure or float.", "quantifier": "for every integer in the 61-bit range and for every machine word", "why_tests_cant": "2^61 values; a wrong mask or shift shows only at some bit pattern", "anchors": ["src/EnginePl/pl_config.c:Generate_Tags", "src/EnginePl/wam_archi.def:Tag_INT/UnTag_INT", "src/BipsPl/arith_inl_c.c:TEST_INT_OVERFLOW"]}
{"id": "C02", "title": "Integer +,-,*,unary -,abs,sign,min,max are exact or raise", "statement": "Evaluating +, -, *, unary minus, abs, sign, inc, dec, min, max, ^ on integers gives exactly the mathematical result when it lies between min_integer and max_integer, and raises an integer overflow evaluation error otherwise; it never silently wraps.", "quantifier": "for all pairs of representable integers", "why_tests_cant": "2^122 operand pairs; overflow conditions sit on a thin boundary that sampling misses", "anchors": ["src/BipsPl/arith_inl_c.c:Pl_Fct_Fast_Add,Pl_Fct_Fast_Sub,Pl_Fct_Fast_Mul,Pl_Fct_Fast_Neg,Pl_Fct_Fast_Abs,Pl_Fct_Fast_IPow,pow_overflow"]}
{"id": "C03", "title": "Division and modulo laws", "statement": "For Y =\\= 0: // truncates toward zero and X =:= (X//Y)*Y + (X rem Y) with rem having the sign of X; div floors and X =:= (X div Y)*Y + (X mod Y) with mod having the sign of Y and |X mod Y| < |Y|; Y =:= 0 raises zero_divisor; the only overflow is min_integer // -1 and min_integer div -1.", "quantifier": "for all pairs of representable integers", "why_tests_cant": "sign-combination and extreme-value corner cases over an astronomically large input space", "anchors": ["src/BipsPl/arith_inl_c.c:Pl_Fct_Fast_Integer_Div,Pl_Fct_Fast_Rem,Pl_Fct_Fast_Mod,Pl_Fct_Fast_Integer_Div2"]}
{"id": "C04", "title": "Bitwise operators agree with two's complement", "statement": "/\\, \\/, xor and \\ computed directly on machine words give the bitwise operation on the (infinitely sign extended) two's complement integers, always representable.", "quantifier": "for all pairs of representable integers and every bit position", "why_tests_cant": "the tag bits are involved in the computation; only a proof covers all words", "anchors": ["src/BipsPl/arith_inl_c.c:Pl_Fct_Fast_And,Pl_Fct_Fast_Or,Pl_Fct_Fast_Xor,Pl_Fct_Fast_Not"]}
{"id": "C05", "title": "Shifts are exact or raise", "statement": "X << N is X*2^N and X >> N is floor(X/2^N) (with the usual swap for negative N) whenever the result is representable, and otherwise X << N raises an overflow error; never a silently wrong value.", "quantifier": "for all representable X and N", "why_tests_cant": "all combinations of value and shift count cannot be enumerated", "anchors": ["src/BipsPl/arith_inl_c.c:Pl_Fct_Fast_Shl,Pl_Fct_Fast_Shr"]}
{"id": "C06", "title": "gcd is the greatest common divisor or raises", "statement": "gcd(X,Y) is the non-negative greatest common divisor of X and Y, or an overflow error if that is not representable.", "quantifier": "for all pairs of representable integers", "why_tests_cant": "termination and correctness for every pair needs induction on the Euclid loop", "anchors": ["src/BipsPl/arith_inl_c.c:Pl_Fct_Fast_GCD"]}
{"id": "C07", "title": "Standard order of terms is a total order", "statement": "compare/3 is reflexive, antisymmetric and transitive on terms, any two terms are comparable, and compare answers = exactly for identical terms.", "quantifier": "for all terms without float NaN / signed zero", "why_tests_cant": "transitivity quantifies over all triples of unbounded terms", "anchors": ["src/BipsPl/term_supp.c:Pl_Term_Compare"]}
{"id": "C08", "title": "sort/msort/keysort are correct and stable", "statement": "msort(L) is an ordered permutation of L; sort(L) is the strictly ordered list of the distinct elements of L; keysort(L) is a permutation of L ordered by keys in which pairs with equal keys keep their relative order.", "quantifier": "for all lists of all lengths and all total preorders used for comparison", "why_tests_cant": "unbounded lists; stability needs every tie pattern", "anchors": ["src/BipsPl/sort_c.c:Pl_Merge_Sort,Merge_Sort", "src/BipsPl/sort.pl"]}
{"id": "C09", "title": "Unification is sound", "statement": "If T1 = T2 succeeds then under the resulting bindings T1 and T2 are the same (possibly rational) term, and only variables were bound.", "quantifier": "for all stores and all pairs of terms, with arbitrary sharing of subterms and variable chains", "why_tests_cant": "unbounded heaps with arbitrary aliasing", "anchors": ["src/EnginePl/unify.c:Pl_Unify", "src/EnginePl/wam_inst.h:Bind_UV,DEREF"]}
{"id": "C10", "title": "Unification is complete and most general", "statement": "If two terms have a common instance then T1 = T2 succeeds, and every common unifier factors through the computed bindings (nothing is bound unnecessarily); if it fails there is no common (finite or rational) instance.", "quantifier": "for all stores, terms and candidate unifiers", "why_tests_cant": "quantifies over all substitutions", "anchors": ["src/EnginePl/unify.c:Pl_Unify"]}
{"id": "C11", "title": "unify_with_occurs_check never builds cyclic terms", "statement": "unify_with_occurs_check(T1,T2) on finite terms terminates, succeeds exactly when a finite unifier exists and the store stays acyclic.", "quantifier": "for all acyclic stores and pairs of terms", "why_tests_cant": "unbounded aliasing structure; needs a termination measure", "anchors": ["src/EnginePl/unify.c:Pl_Unify_Occurs_Check,Check_If_Var_Occurs"]}
{"id": "C12", "title": "Backtracking restores the store exactly", "statement": "After any sequence of bindings following the creation of a choice point, backtracking to it gives every variable that existed at its creation exactly the value it had, although only some bindings are trailed.", "quantifier": "for all histories of variable creations, bindings, nested choice points, cuts and backtracks", "why_tests_cant": "conditional trailing is correct only by an invariant relating addresses, choice points and trail over all histories", "anchors": ["src/EnginePl/wam_inst.h:Word_Needs_Trailing,Bind_UV,Trail_UV,Trail_OV,Trail_MV,Trail_FC", "src/EnginePl/wam_inst.c:Pl_Untrail,Pl_Create_Choice_Point,Pl_Delete_Choice_Point,Pl_Cut"]}
{"id": "C13", "title": "Variable binding direction never creates dangling references", "statement": "Binding two variables always makes the one that is discarded first point to the one that survives, so no reference ever points from the heap into a discarded environment and reference chains always end.", "quantifier": "for all pairs of variables and all stores satisfying the invariant", "why_tests_cant": "a dangling reference shows only in rare layouts of local and global stack", "anchors": ["src/EnginePl/unify.c:Pl_Unify", "src/EnginePl/wam_inst.h:Globalize_Local_Unbound_Var"]}
{"id": "C14", "title": "copy_term produces a fresh variant", "statement": "copy_term(T,C) makes C a variant of T (same shape, variables renamed injectively to variables not occurring before), shares no variable with T, and leaves T unchanged.", "quantifier": "for all finite terms and stores", "why_tests_cant": "the implementation temporarily overwrites the variables of T; restoration must hold for every sharing pattern", "anchors": ["src/BipsPl/term_supp.c:Pl_Copy_Term,Copy_Term_Rec"]}
{"id": "C15", "title": "acyclic_term decides finiteness and leaves the term intact", "statement": "acyclic_term(T) terminates for every term including cyclic ones, succeeds exactly when T is finite, and T is unchanged afterwards.", "quantifier": "for all stores, cyclic or not", "why_tests_cant": "the algorithm marks the term destructively; cyclic structures are unbounded", "anchors": ["src/BipsPl/term_supp.c:Pl_Acyclic_Term_1"]}
{"id": "C16", "title": "term_variables lists each variable once in depth-first left-to-right order", "statement": "term_variables(T,L) gives exactly the variables of T, without repetition, in order of first occurrence.", "quantifier": "for all finite terms", "why_tests_cant": "unbounded terms and sharing", "anchors": ["src/BipsPl/term_supp.c:Pl_Treat_Vars_Of_Term", "src/BipsPl/term_inl_c.c:Pl_Term_Variables_2"]}
{"id": "C17", "title": "Logical update view of dynamic predicates", "statement": "A goal on a dynamic predicate sees exactly the clauses that existed when the goal was called, in order, except that clauses erased meanwhile may be skipped by retract/clause but never reappear; assertions made after the call are never seen by it.", "quantifier": "for all interleavings of assert, retract and backtracking into any number of simultaneously active calls", "why_tests_cant": "unbounded histories of concurrent scans and updates", "anchors": ["src/BipsPl/dynam_supp.c:Pl_Scan_Dynamic_Pred,Scan_Dynamic_Pred_Next,Pl_Add_Dynamic_Clause,Pl_Delete_Dynamic_Clause"]}
{"id": "C18", "title": "First argument indexing does not change answers", "statement": "Calling a dynamic predicate with a bound first argument yields the clauses whose first argument may match in the same order as an unindexed scan would.", "quantifier": "for all clause databases built by any history of asserta/assertz/retract and all calls", "why_tests_cant": "indexes are maintained incrementally; errors show up only for some histories", "anchors": ["src/BipsPl/dynam_supp.c:Add_To_Chain,Remove_From_Chain,Pl_Scan_Dynamic_Pred"]}
{"id": "C19", "title": "asserta/assertz order and retract effect", "statement": "After any sequence of asserta, assertz and retract the clause list is the one obtained by prepending, appending and deleting in an abstract list.", "quantifier": "for all operation histories", "why_tests_cant": "refinement over unbounded histories, including clause counters that are reset", "anchors": ["src/BipsPl/dynam_supp.c:Pl_Add_Dynamic_Clause,Pl_Delete_Dynamic_Clause,Free_Clause"]}
{"id": "C20", "title": "Erased clauses are reclaimed only when no active goal can reach them", "statement": "Physical reclamation of erased clauses never frees a clause that an active call may still visit or return.", "quantifier": "for all histories including nested active calls and the reclamation thresholds", "why_tests_cant": "depends on which choice points are alive at the moment of reclamation", "anchors": ["src/BipsPl/dynam_supp.c:Clean_Erased_Clauses,Pl_Delete_Dynamic_Clause"]}
{"id": "C21", "title": "The generic hash table is a finite map", "statement": "After any sequence of insert (with or without replace), delete, delete-all and resize, find returns what a finite map would; the element count is right; and a scan returns every element exactly once, also when the current element is deleted during the scan.", "quantifier": "for all operation histories, keys and table sizes >= 1", "why_tests_cant": "collision chains of unbounded length", "anchors": ["src/EnginePl/hash_tbl.c:Pl_HTBL_Insert,Pl_HTBL_Find,Pl_HTBL_Delete,Pl_HTBL_Realloc_Table,Pl_HTBL_First,Pl_HTBL_Next"]}
{"id": "C22", "title": "Atoms are interned", "statement": "Two atom creations return the same atom exactly when the character strings are equal; an atom keeps its name for ever; looking up a name finds the atom iff it was created; table full is reported only when the name is new and every cell is used.", "quantifier": "for all sequences of creations and lookups, any hash function and table size", "why_tests_cant": "open addressing wrap-around with arbitrary collisions", "anchors": ["src/EnginePl/atom.c:Locate_Atom,Add_Atom,Pl_Create_Atom,Pl_Find_Atom,Pl_Find_Next_Atom"]}
{"id": "C23", "title": "Mangled symbol names are unique", "statement": "Distinct (module, predicate, arity) triples are given distinct assembly symbols.", "quantifier": "for all byte strings and arities", "why_tests_cant": "needs all strings, including those that imitate the encoding", "anchors": ["src/TopComp/mangling.c:Mangle,String_Needs_Encoding,Encode_String"]}
{"id": "C24", "title": "Demangling inverts mangling", "statement": "Demangling the mangled name of a predicate returns its module, name and arity.", "quantifier": "for all byte strings and arities 0..1024", "why_tests_cant": "needs all strings", "anchors": ["src/TopComp/mangling.c:Demangle,Copy_Not_Encoded_String,Decode_String"]}
{"id": "C25", "title": "sub_atom enumerates exactly the sub-atoms", "statement": "sub_atom(A,B,L,R,S) yields, for any instantiation of B,L,R,S, exactly the solutions of A = X.S.Y with B=|X|, L=|S|, R=|Y|, each once, in order of B then L.", "quantifier": "for all atoms and all instantiation patterns and values", "why_tests_cant": "16 instantiation patterns times unbounded strings", "anchors": ["src/BipsPl/atom_c.c:Pl_Sub_Atom_5,Pl_Sub_Atom_Alt_0,Compute_Next_BLA"]}
{"id": "C26", "title": "atom_concat enumerates exactly the splits", "statement": "atom_concat(A,B,C) is concatenation in mode (+,+,-), finds the unique remaining part in modes (+,-,+), (-,+,+), and enumerates every split of C exactly once in mode (-,-,+).", "quantifier": "for all atoms and modes", "why_tests_cant": "unbounded strings", "anchors": ["src/BipsPl/atom_c.c:Pl_Atom_Concat_3,Pl_Atom_Concat_Alt_0"]}
{"id": "C27", "title": "FD ranges denote exact sets", "statement": "Union, intersection, complement, value addition/removal and tests on finite domain ranges compute exactly the corresponding set operation on the represented integers unless the extra-constrained flag is raised.", "quantifier": "for all ranges (interval or bit-vector form) and all vector sizes", "why_tests_cant": "2^(vector size) sets; mixing of the two representations", "anchors": ["src/EngineFD/fd_range.c:Pl_Range_Union,Pl_Range_Inter,Pl_Range_Compl,Pl_Range_Set_Value,Pl_Range_Reset_Value,Pl_Range_From_Vector"]}
{"id": "C28", "title": "FD range arithmetic is exact", "statement": "Adding, subtracting, multiplying and dividing ranges gives exactly the set of results of the operation on members (within 0..vector max, flagging lost values).", "quantifier": "for all ranges and constants", "why_tests_cant": "exponentially many sets", "anchors": ["src/EngineFD/fd_range.c:Pl_Range_Add_Range,Pl_Range_Sub_Range,Pl_Range_Mul_Range,Pl_Range_Div_Range,Pl_Range_Add_Value,Pl_Range_Mul_Value,Pl_Range_Div_Value"]}
{"id": "C29", "title": "FD tells intersect domains", "statement": "Telling X in R makes the domain of X exactly the old domain intersected with R, fails exactly when that is empty, and wakes the constraints attached to what changed (min, max, domain, value).", "quantifier": "for all domains and told ranges", "why_tests_cant": "two representations and all overlaps", "anchors": ["src/EngineFD/fd_inst.c:Pl_Fd_Tell_Interval,Pl_Fd_Tell_Range,Pl_Fd_Tell_Value,Pl_Fd_Tell_Not_Value"]}
{"id": "C30", "title": "FD propagation never loses solutions and reaches a fixpoint", "statement": "After posting constraints, propagation terminates; every assignment satisfying all constraints and the initial domains is still in the domains; when it succeeds no posted propagator can reduce a domain any more.", "quantifier": "for all constraint stores with monotone propagators and all wake-up orders of the queue", "why_tests_cant": "unbounded constraint graphs; queue order", "anchors": ["src/EngineFD/fd_inst.c:Pl_Fd_After_Add_Cstr,All_Propagations,Pl_Fd_Before_Add_Cstr"]}
{"id": "C31", "title": "FD domains are restored on backtracking", "statement": "After backtracking, every FD variable created before the choice point has the domain it had at the choice point, although only one copy per choice point is saved.", "quantifier": "for all histories of domain updates, choice points and backtracks", "why_tests_cant": "the time-stamp optimisation is right only by an invariant over histories", "anchors": ["src/EngineFD/fd_inst.c:Trail_Range_If_Necessary", "src/EnginePl/wam_inst.c:STAMP"]}
{"id": "C32", "title": "Linear FD propagators are sound", "statement": "The bound propagators for X+Y=Z, aX=Y, X=<Y, X+C=Y, X\\=Y, X*Y=Z never remove a value that belongs to a solution.", "quantifier": "for all domains and coefficients (including machine-int limits)", "why_tests_cant": "all domains and coefficients", "anchors": ["src/BipsFD/fd_math_fd.fd:pl_x_plus_y_eq_z,pl_ax_eq_y,pl_x_lte_y,pl_xy_eq_z", "src/EngineFD/fd_to_c.h:DivUp,DivDn"]}
{"id": "C33", "title": "FD variable = integer honours the integer value", "statement": "Unifying an FD variable with an integer succeeds only if that integer belongs to its domain.", "quantifier": "for all domains and all representable integers", "why_tests_cant": "61-bit integers versus 32-bit domains", "anchors": ["src/EngineFD/fd_inst.c:Pl_Fd_Unify_With_Integer0", "src/EnginePl/unify.c:Pl_Unify"]}
{"id": "C34", "title": "append/member/length/reverse/nth are logically correct on lists", "statement": "append/3, member/2, memberchk/2, length/2, reverse/2, nth0/nth1 return exactly the solutions of their logical definition, in the textbook clause order, for proper and partial lists.", "quantifier": "for all lists", "why_tests_cant": "unbounded lists, multiple modes with different code paths", "anchors": ["src/BipsPl/list_c.c:Pl_Append_3,Pl_Append_Alt_0,Pl_Member_3,Pl_Length_2,Pl_Reverse_2,Pl_Nth0_3"]}
{"id": "C35", "title": "between enumerates the interval", "statement": "between(L,U,X) enumerates L, L+1, ..., U exactly once in order, and checks membership when X is bound; it terminates and leaves no choice point after the last answer.", "quantifier": "for all L, U", "why_tests_cant": "2^122 intervals, up to 2^61 long", "anchors": ["src/BipsPl/control_c.c:Pl_Between_3,Pl_Between_Alt_0"]}
{"id": "C36", "title": "findall collects exactly the solutions of its goal", "statement": "findall(T,G,L) gives the list of copies of T for each solution of G in order, also when findall goals are nested and exceptions are caught inside G.", "quantifier": "for all goals, nesting depths and exception points", "why_tests_cant": "arbitrary nesting with non-local exits", "anchors": ["src/BipsPl/all_solut_c.c:Pl_Stop_Mark_1,Pl_Store_Solution_1,Pl_Recover_Solutions_4", "src/BipsPl/all_solut.pl"]}
{"id": "C37", "title": "bagof/setof partition the solutions by free-variable key", "statement": "bagof groups the solutions by the value of the free variables: groups are non-empty, in key order, every solution appears in exactly one group, and within a group solutions keep their order (setof: sorted without duplicates).", "quantifier": "for all solution lists", "why_tests_cant": "unbounded lists; in-place update of the list", "anchors": ["src/BipsPl/all_solut_c.c:Group,Pl_Group_Solutions_3,Pl_Group_Solutions_Alt_0"]}
{"id": "C38", "title": "Backtrackable global variables are restored", "statement": "g_assignb and g_link assignments are undone by backtracking, g_assign assignments survive, and a g_assign cancels the undo of earlier backtrackable assignments of the same variable.", "quantifier": "for all histories of g_assign, g_assignb, g_link, choice points and backtracks", "why_tests_cant": "undo records are linked into lists mutated by both assignment kinds; histories are unbounded", "anchors": ["src/BipsPl/g_var_inl_c.c:G_Assign_Element,G_Trail_For_Backtrack,G_Untrail,G_Free_Element"]}
{"id": "C39", "title": "Global arrays are memory safe", "statement": "Creating, resizing, extending and automatically growing a global array never accesses memory outside the array and keeps the old elements.", "quantifier": "for all histories of array operations and sizes", "why_tests_cant": "memory corruption depends on the order of sizes", "anchors": ["src/BipsPl/g_var_inl_c.c:G_Assign_Array,G_Alloc_Array,Get_Target_From_Gvar"]}
{"id": "C40", "title": "Global counters are exact", "statement": "g_inc/g_dec change the integer by exactly one or raise; g_set_bit/g_reset_bit change exactly one bit.", "quantifier": "for all integer values and bit numbers", "why_tests_cant": "boundary values of the 61-bit range", "anchors": ["src/BipsPl/g_var_inl_c.c:G_Inc_Dec,G_Set_Bit,G_Reset_Bit,G_Test_Set_Bit"]}
{"id": "C41", "title": "Peek and unget do not change the stream", "statement": "peek returns what the next get will return and changes neither the remaining input nor the reported position; get then unget restores content and position (char count, line, column).", "quantifier": "for all stream contents and sequences of get/peek/unget", "why_tests_cant": "unbounded sequences; new-line bookkeeping", "anchors": ["src/BipsPl/stream_supp.c:Pl_Stream_Getc,Pl_Stream_Peekc,Pl_Stream_Ungetc,Update_Counters"]}
{"id": "C42", "title": "Stream positions are the true line and column", "statement": "After reading or writing any sequence of characters the reported character count, line and column are those of the text.", "quantifier": "for all texts", "why_tests_cant": "unbounded texts", "anchors": ["src/BipsPl/stream_supp.c:Update_Counters,Pl_Stream_Getc,Pl_Stream_Putc"]}
{"id": "C43", "title": "Quoted atoms read back as the same atom", "statement": "Writing an atom with quoted(true) and reading the text back gives the same atom.", "quantifier": "for all character strings", "why_tests_cant": "all strings, including quotes, backslashes and control characters", "anchors": ["src/BipsPl/write_supp.c:Show_Atom", "src/BipsPl/lexer_supp.c:Lexer_Quoted,Lexer_Quoted_Char", "src/EnginePl/atom.c:Add_Atom"]}
{"id": "C44", "title": "Compiled clause indexing finds the right clause", "statement": "The switch tables built for the first argument (hashed) return the code registered for the key, or the default for unregistered keys.", "quantifier": "for all sets of keys and all lookups, table sizes as built by the compiler", "why_tests_cant": "collisions and wrap-around", "anchors": ["src/EnginePl/wam_inst.c:Create_Swt_Table,Create_Swt_Element,Locate_Swt_Element,Pl_Switch_On_Atom,Pl_Switch_On_Integer,Pl_Switch_On_Structure"]}
{"id": "C45", "title": "catch/throw finds the innermost matching active handler", "statement": "throw(B) transfers control to the innermost active catch whose pattern unifies with a copy of B, undoing all bindings since its call; catch is transparent to backtracking and exited catches are not active.", "quantifier": "for all goal structures", "why_tests_cant": "unbounded nesting with backtracking into exited catch goals", "anchors": ["src/BipsPl/catch.pl:$catch_internal1,$trail_handler", "src/BipsPl/throw_c.c:Pl_Throw_2"]}
{"id": "C46", "title": "Cut removes exactly the choice points created since the clause was entered", "statement": "After a cut, the next backtrack resumes the choice point that was current when the predicate was called, and bindings still needed by it are still undone.", "quantifier": "for all stacks of choice points and trails", "why_tests_cant": "interaction of trail and choice point stack over all histories", "anchors": ["src/EnginePl/wam_inst.c:Pl_Cut,Pl_Soft_Cut,Pl_Untrail"]}
{"id": "C47", "title": "msb/lsb/popcount of a negative integer report that integer", "statement": "Evaluating msb, lsb or popcount on a negative integer raises domain_error(not_less_than_zero, X) where X is that integer.", "quantifier": "for all negative integers of the representable range", "why_tests_cant": "the error term depends on the bit pattern of the whole word: wrong only for values whose low bits are not an integer tag", "anchors": ["src/BipsPl/arith_inl_c.c:Pl_Fct_Fast_LSB,Pl_Fct_Fast_MSB,Pl_Fct_Fast_Popcount"]}
{"id": "C48", "title": "A saved copy of a term can be retrieved unchanged at any later time", "statement": "The term stored by Pl_Copy_Term in a buffer (findall solution, global variable, clause) and later copied back by Pl_Copy_Contiguous_Term is a variant of the original term made of fresh cells only, whatever happened to the rest of the memory in between; nothing else is written.", "quantifier": "for all finite terms without FD variables, all memories in between, all destinations disjoint from the buffer", "why_tests_cant": "relocation must be right for every sharing pattern and every relative position of references", "anchors": ["src/BipsPl/term_supp.c:Pl_Copy_Contiguous_Term,Pl_Copy_Term"]}
{"id": "C49", "title": "Enumerating operators is safe and exact", "statement": "current_op/3 yields exactly the defined operators, each once, for a given name or for all names, and asking for its next solution is memory safe whatever op/3 calls were made between two solutions; the operator bits kept with the atoms always agree with the table.", "quantifier": "for all histories of op/3 and all interleavings with the solutions of current_op/3", "why_tests_cant": "needs an update at the right moment of an enumeration, a collision chain or a table that just became full", "anchors": ["src/EnginePl/oper.c:Pl_Create_Oper,Pl_Lookup_Oper,Pl_Delete_Oper", "src/BipsPl/oper_c.c:Pl_Current_Op_3,Pl_Current_Op_Alt_0", "src/EnginePl/hash_tbl.c:Pl_HTBL_First,Pl_HTBL_Next", "src/EnginePl/misc.c:Pl_Extend_HTBL_If_Needed"]}
{"id": "C50", "title": "new_atom always makes a new atom", "statement": "Pl_Gen_New_Atom returns an atom that did not exist before, whose name begins with the prefix; it stays within its buffer; it only reports a full table when every cell is used.", "quantifier": "for all tables, prefixes, hash functions and random choices", "why_tests_cant": "needs a prefix near the size of a fixed buffer, or every shorter suffix taken", "anchors": ["src/EnginePl/atom.c:Pl_Gen_New_Atom"]}
{"id": "C51", "title": "The atom of a format control error keeps its name", "statement": "The domain error raised by format/2,3 for a wrong ~% directive carries an atom whose name is the directive and stays so for ever.", "quantifier": "for all format strings and atom tables", "why_tests_cant": "the name is in a dead stack frame: right until the memory is used again", "anchors": ["src/BipsPl/format_c.c:Format", "src/EnginePl/atom.c:Pl_Create_Atom"]}
{"id": "C52", "title": "atom_length gives the number of characters", "statement": "The length kept with every atom is the number of characters of its name.", "quantifier": "for all atoms of any length", "why_tests_cant": "wrong only for names of 65536 characters or more", "anchors": ["src/EnginePl/atom.h:AtomProp", "src/EnginePl/atom.c:Add_Atom", "src/BipsPl/atom_c.c:Pl_Atom_Length_2"]}
{"id": "C53", "title": "Clause indexing is transparent", "statement": "Whatever the dereferenced first argument is, the code generated for the clauses of a predicate enters, when every clause fails, clauses in source order, each at most once, and leaves out only clauses whose first argument cannot match; it never jumps to a missing label nor retries without a choice point. Without a variable in first position, the last clause entered is entered without a choice point.", "quantifier": "for all lists of clauses and all first arguments", "why_tests_cant": "the shape of the generated code depends on the whole list of clauses (places of variables, repeated keys, classes present)", "anchors": ["src/Pl2Wam/indexing.pl:indexing,indexing1,mk_indexing,gen_switch,gen_list,gen_insts,group_by_keys", "src/EnginePl/wam_inst.c:Pl_Switch_On_Term", "src/Wam2Ma/wam2ma.c:F_switch_on_term", "src/Ma2Asm/ma2asm.c:Switch_Ret,Switch_Rec"]}
{"id": "C55", "title": "Erased clauses are reclaimed", "statement": "No clause is lost: every allocated clause is in the list of an allocated predicate, and once no goal and no environment uses a predicate, reclamation frees all its erased clauses.", "quantifier": "for all histories of updates, calls, backtracking and reclamations", "why_tests_cant": "a leak has no visible effect on answers; it depends on which environments are active when the reclamation runs", "anchors": ["src/BipsPl/dynam_supp.c:GC_Clause,Pl_Delete_Dynamic_Clause"]}
{"id": "C56", "title": "Reading a line stays within its buffer", "statement": "Pl_Stream_Gets writes only in the array it is given, whatever the line, and gives the line ended by a null.", "quantifier": "for all texts, previous reads and array sizes", "why_tests_cant": "one byte too far is seldom seen; needs a line of just the size of the array", "anchors": ["src/BipsPl/stream_supp.c:Pl_Stream_Gets", "src/BipsPl/debugger_c.c:Pl_Debug_Wam"]}
{"id": "C57", "title": "A term written without operators is read back", "statement": "What write_term with quoted(true) and ignore_ops(true) writes is read by read_term as the same term up to variable renaming, with every operator table, and the reader stops right after the full stop.", "quantifier": "for all terms of atoms, integers, variables, lists and structures, all operator tables and locales", "why_tests_cant": "the cases depend on names that are operators, on what precedes a minus sign and on the spaces written", "anchors": ["src/BipsPl/write_supp.c:Show_Term", "src/BipsPl/write_supp.c:Pl_Write_A_Full_Stop", "src/BipsPl/parser_supp.c:Pl_Read_Term", "src/BipsPl/parser_supp.c:Parse_Term"]}
{"id": "C58", "title": "Reading any text ends without undefined behaviour", "statement": "The scanner and the parser read every text to a term or a syntax error, never loop and never exceed their buffers.", "quantifier": "for all byte strings, operator tables and flags", "why_tests_cant": "texts are chosen by others; overlong tokens are rarely tried", "anchors": ["src/BipsPl/lexer_supp.c:Pl_Lexer_Token", "src/BipsPl/parser_supp.c:Pl_Read_Term", "src/BipsPl/parser_supp.c:Lookup_In_Dico_Var"]}
{"id": "C59", "title": "Register allocation keeps the meaning of the code", "statement": "The compiler's register allocation always succeeds, gives every temporary an argument register, and the code after the allocation and the removal of dummy instructions does the same things with the same values as before.", "quantifier": "for all instruction lists of a clause which write temporaries once and arguments only for use, all three levels of optimisation, all values and all results of instructions", "why_tests_cant": "a wrong allocation needs a clause with a particular overlap of lifetimes, aliases and wishes; the number of clauses is unbounded", "anchors": ["src/Pl2Wam/reg_alloc.pl:allocate_registers/2", "src/Pl2Wam/reg_alloc.pl:collapse_tmps/6", "src/Pl2Wam/reg_alloc.pl:aliases/2", "src/Pl2Wam/inst_codif.pl:codification/2", "src/Pl2Wam/code_gen.pl:special_form/2"]}
{"id": "C60", "title": "The code of a clause means what the clause means", "statement": "Compiling a clause (classification of the variables, head and body code, register allocation, removal of dummy instructions) always succeeds; the code leaves the clause with some goals called if and only if there are values of the variables for which the arguments are those of the head, and the goals called, in order and with their arguments, are those of the body.", "quantifier": "for all clauses whose goals are predicate calls and inline C predicates, all terms of any depth, all compiler flags, all sets of values with their constants and functions", "why_tests_cant": "the number of clauses is unbounded; wrong code needs a particular mix of chunks, void, temporary and permanent variables, nested terms and reordering", "anchors": ["src/Pl2Wam/internal.pl:internal_format/5", "src/Pl2Wam/internal.pl:classif_vars/3", "src/Pl2Wam/code_gen.pl:generate_head/6", "src/Pl2Wam/code_gen.pl:generate_body/4", "src/Pl2Wam/code_gen.pl:gen_unif_arg/4", "src/Pl2Wam/code_gen.pl:gen_load_arg/4", "src/Pl2Wam/code_gen.pl:flat_stc_arg_lst/5", "src/Pl2Wam/code_gen.pl:split_arg_lst/4"]}
{"id": "C61", "title": "The code of a clause leaves no dangling reference to the local stack", "statement": "Running the code of a clause never stores in the heap a word which refers to the local stack, never passes on a word which refers to the environment of the clause once deallocate has removed it, never reads a permanent variable before it is written, and touches permanent variables only while the environment exists and only within its size.", "quantifier": "for all clauses whose goals are predicate calls and inline C predicates (without '$mt'(M,Var) in the body), all compiler flags, all places the arguments may refer to, all bindings made meanwhile", "why_tests_cant": "a dangling reference shows only if the local stack frame is reused before the heap word is read; the mix of unsafe, local and heap variables and of chunks is unbounded", "anchors": ["src/Pl2Wam/code_gen.pl:gen_load_arg/4", "src/Pl2Wam/code_gen.pl:gen_subterm_arg/4", "src/Pl2Wam/code_gen.pl:inline_unif_reg_term/5", "src/Pl2Wam/code_gen.pl:equal/4", "src/EnginePl/wam_inst.c:Pl_Put_Unsafe_Value", "src/EnginePl/wam_inst.c:Pl_Unify_Value", "src/EnginePl/wam_inst.c:Pl_Unify_Local_Value", "src/EnginePl/wam_inst.c:Pl_Put_Meta_Term_Tagged"]}
{"id": "C62", "title": "The clause of a grammar rule relates the same lists as the rule", "statement": "Translating a DCG rule gives the first error of the body, or a clause whose two list arguments are related exactly as the body says (terminals, pushback, sequence, alternatives, if-then-else, negation), for every meaning of the non-terminals and both when the rest list is free and when it is given. The unifications made during the translation never fail and never make a cyclic list.", "quantifier": "for all bodies, pushback lists, lists and relations of the non-terminals", "why_tests_cant": "the nesting of bodies and the mix of equations made at translation time (opt_term_unif, opt_equal_between_in_out_vars) with equations left in the clause are unbounded", "anchors": ["src/BipsPl/expand_c.c:Pl_Dcg_Trans_Rule_2", "src/BipsPl/expand_c.c:Pl_Dcg_Trans_Body_4", "src/BipsPl/expand_c.c:Dcg_Body", "src/BipsPl/expand_c.c:Dcg_Body_On_Stack", "src/BipsPl/expand_c.c:Dcg_Term_List_On_Stack"]}
{"id": "C63", "title": "Cuts and control constructs are compiled to auxiliary predicates with the same answers", "statement": "For every body made of goals, fail, cut, conjunctions, disjunctions, if-then(-else) and soft cuts, the clause and the auxiliary predicates made from it give the same answers in the same order as the meaning of the body, cut exactly the choice points which the cut of the clause cuts, and the auxiliary predicates have as arguments exactly the variables which occur both in the alternatives and outside.", "quantifier": "for all bodies, goals with finite lists of answers, choice points of the caller and continuations", "why_tests_cant": "nesting of control constructs and the interplay of cut levels with the choice points left by the goals are unbounded", "anchors": ["src/Pl2Wam/syn_sugar.pl:normalize_cuts1/4", "src/Pl2Wam/syn_sugar.pl:normalize_cuts_in_if/2", "src/Pl2Wam/syn_sugar.pl:normalize_alts1/3", "src/Pl2Wam/syn_sugar.pl:linearize/4", "src/EnginePl/wam_inst.c:Pl_Soft_Cut"]}
{"id": "C64", "title": "A clause which the index on the first argument leaves out is a clause which would fail", "statement": "When the class of the first argument which is found in the code of a clause does not fit the first argument of a call, running the clause fails before any call or cut, and without an effect when only unifications come before.", "quantifier": "for all codes of clauses, registers and machine states", "why_tests_cant": "the search for the first argument looks through the whole beginning of the body (inline goals included), whatever its length and registers", "anchors": ["src/Pl2Wam/first_arg.pl:find_first_arg/2", "src/Pl2Wam/first_arg.pl:stopping_inst/1", "src/Pl2Wam/first_arg.pl:assign_x0/1", "src/Pl2Wam/first_arg.pl:defines_first_arg/2"]}
{"id": "C65", "title": "arg/3, functor/3 and =../2 give exactly the solutions and the errors of the standard", "statement": "A success of arg/3, functor/3 or =../2 binds the variables to exactly the solutions of the relation between the trees, a failure means that there is none, the errors are those of the standard for the dereferenced arguments, and no cell outside of the heap and the terms is read or written.", "quantifier": "for all well-formed memories and registers, terms (also cyclic and partial lists) and fuel", "why_tests_cant": "the arguments share variables and structures of any shape, and the same predicate builds, takes apart or checks depending on what is bound", "anchors": ["src/BipsPl/term_inl_c.c:Pl_Arg_3", "src/BipsPl/term_inl_c.c:Pl_Functor_3", "src/BipsPl/term_inl_c.c:Pl_Univ_2", "src/BipsPl/c_supp.c:Pl_Rd_Compound_Check", "src/BipsPl/type_inl_c.c:Pl_Blt_List_Or_Partial_List"]}
{"id": "C66", "title": "setarg/4 changes one argument and backtracking undoes it", "statement": "setarg(N,T,V,Undo) replaces exactly the N-th argument cell of T by V and keeps the memory well-formed; with Undo = true, undoing the trail to its height before the call gives each cell older than the last choice point its old content; it fails just for a number out of range and raises exactly the documented errors.", "quantifier": "for all well-formed memories and registers, terms, numbers and trails", "why_tests_cant": "whether the cell is trailed depends on the addresses of the choice point, and the error is only visible after backtracking", "anchors": ["src/BipsPl/term_inl_c.c:Pl_Setarg_4", "src/EnginePl/wam_inst.h:Bind_OV", "src/EnginePl/wam_inst.h:Trail_OV", "src/EnginePl/wam_inst.c:Pl_Untrail"]}
{"id": "C67", "title": "The byte-code of a consulted clause does what its instructions do", "statement": "The words which Pl_BC_Emit_Inst_1 writes for the instructions of a clause are written inside of the buffer, and BC_Emulate_Byte_Code run on them does what the instructions do one after the other until a call, a failure or the end; after a call it goes on with the instruction after it; an unknown predicate is reported with the caller.", "quantifier": "for all clauses (lists of instructions), atoms, integers, registers, machine states and tables of predicates", "why_tests_cant": "each instruction has its own packing in fields of 8, 16, 24, 32 or 64 bits, and wrong fields only appear with large atoms, integers, registers or arities", "anchors": ["src/BipsPl/bc_supp.c:Pl_BC_Emit_Inst_1", "src/BipsPl/bc_supp.c:BC_Emulate_Byte_Code", "src/BipsPl/bc_supp.c:Pl_BC_Emit_Inst_Execute_Native", "src/EnginePl/wam_inst.h:Functor_Arity"]}
{"id": "C68", "title": "Each clause of a consulted predicate is tried with the arguments of the call", "statement": "Calling a predicate which is emulated changes no argument and no register of the engine, and each clause which is tried after backtracking gets the same arguments, the cut register and the debug flag.", "quantifier": "for all contents of the registers, arities up to MAX_ARITY and states at backtracking", "why_tests_cant": "two words after the arguments are written, which matters only for the largest arity, and the damage is only seen at a later backtracking", "anchors": ["src/BipsPl/bc_supp.c:Pl_BC_Emulate_Pred", "src/BipsPl/bc_supp.c:BC_Emulate_Pred_Alt", "src/EnginePl/pl_params.h:MAX_ARITY"]}
{"id": "C69", "title": "A boolean FD constraint means what its truth table says", "statement": "Simplify builds a tree in the stack of 100000 words which has the truth value of the expression, has negations only on variables and constants only at the root; it lists exactly the boolean variables and the unbound variables of the arithmetic terms. The constraints then posted by Load_Bool_Into_Word (with result 0, 1 or a new variable) have exactly the solutions of the expression: none added, none lost. Neither stack is left, no cell is read before it is written, no NULL entry of func_tbl is called; a type error is raised for what is not a boolean expression and, when an int holds the integers, only then.", "quantifier": "all expressions (any depth, all 21 operators), all assignments, all stores, any arithmetic loader that satisfies load_ok", "why_tests_cant": "The rewriting has some 90 cases for pairs of operand kinds and reuses stack words while it rewrites; every case doubles per level of nesting, so tests reach a few shapes only.", "anchors": ["src/BipsFD/fd_bool_c.c:Simplify", "src/BipsFD/fd_bool_c.c:Load_Bool_Into_Word", "src/BipsFD/fd_bool_c.c:Pl_Fd_Bool_Meta_3", "src/BipsFD/fd_bool_c.c:Add_Fd_Variables"]}
{"id": "C70", "title": "The primitive boolean FD constraints keep every solution and refuse everything else", "statement": "Each block of the primitives of fd_bool_fd.fd, run in any state of the domains, keeps the values that are in a solution of the constraint (the meaning used in C69). An assignment of 0 and 1 that is not a solution is refused by some block, in whatever order the values become known. A reified comparison starts a case at the latest when B is known or the other variables are; the blocks of a case accept, when the variables are known, only solutions; the bounds of the variables when the case was started stay valid because domains only shrink.", "quantifier": "all 12 boolean and 19 reified primitives, all domains, all constants, all orders in which variables become known", "why_tests_cant": "A bound that is too tight in one block loses solutions only with particular bounds of the other two variables; one that is too loose lets a wrong assignment pass only when the variables become known in one order.", "anchors": ["src/BipsFD/fd_bool_fd.fd:pl_x_imply_y_eq_b", "src/BipsFD/fd_bool_fd.fd:pl_x_and_y_eq_b", "src/BipsFD/fd_bool_fd.fd:pl_truth_x_eq_c", "src/BipsFD/fd_bool_fd.fd:pl_truth_x_plus_c_lte_y", "src/EngineFD/fd_to_c.h:fd_tell_range"]}
{"id": "C71", "title": "Labeling tries every value once and picks a variable that is left", "statement": "For each of the value methods (min, max, random, middle, bisect, limits) the answers of indomain are, whatever the propagation removes in between, without repetition, accepted by the propagation, and contain every value of a solution; without other constraints they come in the order of the method. The choice of a variable fails exactly when all variables are known, else returns one that is not known and loses no other, whatever the method, with or without reordering and packing of the array; it is one than which no other is better. Labeling of several variables shares out the solutions: each is in exactly one answer, no answer has another, and the variables are known in it.", "quantifier": "all domains, all sound propagations, all methods, all arrays, all random numbers", "why_tests_cant": "A lost value or variable shows only as missing solutions, for particular domains and interleavings of removal and propagation; the packing needs more than 50 variables half of which are known.", "anchors": ["src/BipsFD/fd_values_c.c:Select_Value", "src/BipsFD/fd_values_c.c:Pl_Indomain_2", "src/BipsFD/fd_values_c.c:Pl_Indomain_Alt_0", "src/BipsFD/fd_values_c.c:Pl_Fd_Sel_Array_Pick_Var_4", "src/BipsFD/fd_values_c.c:Cmp_Most_Constrained"]}
{"id": "C72", "title": "fd_domain/3 and fd_reified_in/4 have the solutions that they say", "statement": "The constraints posted by fd_domain(X, L, U) have the solutions with L <= X <= U; those posted by fd_reified_in(X, L, U, B) the solutions in which B is 1 when L <= X <= U and 0 else. A type error is raised exactly for what is neither a variable nor an integer; failure means that there is no solution.", "quantifier": "all bounds, all domains of X, all kinds of X and B", "why_tests_cant": "The functions decide by the bounds of the domain which constraint to post, in eight places; an error of one in a comparison shows only when bounds are equal.", "anchors": ["src/BipsFD/fd_values_c.c:Pl_Fd_Domain_Interval", "src/BipsFD/fd_values_c.c:Pl_Fd_Domain_Var_3", "src/BipsFD/fd_bool_c.c:Pl_Fd_Reified_In", "src/EngineFD/fd_inst.c:Pl_Fd_Prolog_To_Value"]}
{"id": "C73", "title": "A list of integers becomes the range of its members", "statement": "The range made of a list of integers contains the members of the list which fit in a vector and no other integer; it is marked as incomplete exactly when the list has an integer that does not fit, thus also for negative integers and for those beyond the largest int.", "quantifier": "all lists, all vector sizes below 2^28, all contents of the memory", "why_tests_cant": "The comparison is unsigned after a conversion that clamps; the range is on the stack and a field that is not set has any value.", "anchors": ["src/EngineFD/fd_inst.c:Pl_Fd_List_Int_To_Range", "src/EngineFD/fd_inst.c:Pl_Fd_Prolog_To_Range", "src/EngineFD/fd_inst.c:Pl_Fd_Prolog_To_Value"]}
{"id": "C74", "title": "The symbolic FD constraints mean what they say", "statement": "What fd_all_different posts has as solutions exactly the assignments with different values. fd_element restricts V to the integers whose numbers are in the domain of I, and I to the numbers of the integers in the domain of V; likewise fd_element_var with the domains of variables. fd_atmost, fd_atleast and fd_exactly lose no solution in whatever state of the domains; when all variables are known they accept only solutions; when the number is reached the other variables are told.", "quantifier": "all lists of variables and integers, all domains, all n and v", "why_tests_cant": "A counter that is off by one loses solutions only when the number is just reached while other variables are still open; fd_element writes outside of its vector only for large integers.", "anchors": ["src/BipsFD/fd_symbolic_c.c:Pl_Fd_All_Different_1", "src/BipsFD/fd_symbolic_c.c:Pl_Fd_Element_I_To_V", "src/BipsFD/fd_symbolic_c.c:Pl_Fd_Element_V_To_I", "src/BipsFD/fd_symbolic_c.c:Pl_Fd_Atmost", "src/BipsFD/fd_symbolic_c.c:Pl_Fd_Atleast", "src/BipsFD/fd_symbolic_c.c:Pl_Fd_Exactly"]}
