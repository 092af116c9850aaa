# Formal model of GNU Prolog run-time properties (Rocq / Coq 8.16.1)

Source modelled: `/repo` (didoudiaz/gprolog at the pinned commit), 64-bit
configuration (`WORD_SIZE = 64`, tag size 3, value size 61).  The model is hand
written from the C / Prolog text; nothing of the repository is executed.

## Layout

`rocq/theories/<Area>_Model.v`  definitions, each citing file and lines in `/repo`
`rocq/theories/<Area>_Spec.v`   independent specification (when not tiny)
`rocq/theories/<Area>_Proofs.v` lemmas
`rocq/theories/Props_<Area>.v`  the theorems that count, examples beside them, `Print Assumptions`

## Trusted base

* the Coq 8.16.1 kernel (including `vm_compute`);
* assumptions: every theorem listed in `MANIFEST.json` prints
  `Closed under the global context` unless stated otherwise in the table below;
* the reading of the C code: the correspondence between each definition and the cited
  lines is by inspection.  Undefined behaviour (out-of-bounds access, dangling
  pointers, signed overflow where it matters) is a distinct outcome in the model;
* not modelled anywhere: the native code generator, the OS, signals, malloc failure,
  stack overflow detection by page protection, locale.

## Plan per property

| id | model | method |
|----|-------|--------|
| C01-C06 | words as Z mod 2^64, tag/untag macros, arithmetic functions of `arith_inl_c.c` | equational proofs over Z, bit lemmas; refutations for `<<`, gcd |
| C07 | terms as trees after dereference, `Pl_Term_Compare` recursion | induction on terms |
| C08 | `Merge_Sort` on arrays (lists with base/aux), parametric in cmp | strong induction on length |
| C09-C11 | heap as address map, DEREF, `Pl_Unify` with fuel = explicit recursion | invariant + induction on recursion; semantic via substitutions |
| C12, C13, C46 | abstract machine: local/global stack tops, choice points, trail | invariant over op lists |
| C14-C16 | heap traversal functions of `term_supp.c` | induction on reachable term |
| C17-C20 | dynamic predicate records with chains, stamps, scans, reclamation | refinement to a versioned clause list |
| C21, C22, C44 | tables as arrays of chains / open addressing | refinement to finite maps |
| C23, C24 | byte strings, `Mangle`, `Demangle` | induction on strings |
| C25, C26 | byte strings, choice-point state machine as an enumeration | correctness of the enumeration by induction |
| C27-C29 | ranges with bit vectors as lists of words | bit-level proofs, set semantics |
| C30, C31 | propagation queue; stamps/trail of domains | invariants over runs |
| C32, C33 | propagator arithmetic | algebra over Z, machine-int refutations |
| C34, C35 | list builtins over term lists | refinement to the textbook definition |
| C36, C37 | solution stack, grouping | induction over goal executions |
| C38-C40 | global variables with undo records and trail | invariant over histories |
| C41, C42 | stream buffers and counters | invariant over op lists |
| C43 | quoting writer and quoted-item lexer | induction on strings |
| C57 | writer without operators, whole parser | induction on terms |
| C58 | scanner and parser on any text | measure on the text left |
| C45 | catch/throw over an abstract goal language | simulation |

The table is refined as the modules are written (see the sections below).

## Results and simplifications per area

### Arithmetic (C01-C06, C47) - Word_Model, Arith_*, Props_Arith
Modelled: tag macros, the integer functions of `arith_inl_c.c`, `Pl_Fct_Fast_*`.  C `long`
operations whose overflow the source tests with `__builtin_*_overflow` are mathematical
integers with an explicit range test; wrapping macros are `mod 2^64`.  Not modelled:
float evaluation, compiled arithmetic inlining (same C functions are called).

### Order and sorting (C07, C08) - Term_*, Heap_*, Order_*, Sort_*, Props_Order
Memory is a partial map from addresses to cells; a cell is a tagged word, a functor cell or
a double.  Reading a cell of the wrong kind is `UB`.  `name` (atom table) is a parameter,
injective by hypothesis (that is C22).  Floats are `spec_float`; NaN is excluded by hypothesis
(arithmetic raises instead of producing it).  The sorted array lives on top of the heap and
is modelled as a list with explicit indices.

### Unification (C09-C11) - Unify_*, Props_Unify
`Unify oc` is both instances of `unify.c` (`oc` = OCCURS_CHECK).  Recursion and DEREF loops
take fuel, `NoFuel` is a distinct result, theorems about termination give a bound after
which the result no longer changes.  Calls to the FD solver return the distinct result
`UFd`.  The C stack is unbounded.  Preconditions (`wf`): see Unify_Spec.v; they are an
invariant (the theorems return `wf` of the new memory).  The meaning of words is a tree
relation so cyclic terms are covered; references may lead upwards in the heap (copy_term makes
such references) but never from the heap to the local stack; for acyclic memory it is linked to finite terms and
substitutions.  Refuted: unification of two cyclic terms need not end.

### Choice points, trail, cut, binding direction (C12, C13, C46) - Binding_*, Machine_*, Props_Machine
`Machine_Model` has raw memory (`Z -> Z`, addresses in words), the registers, the trail as
a list of raw words, and the operations of `wam_inst.c/.h` word by word (frame layout, trail
tags, untrail loop, soft cut loop).  A malformed trail or frame is `UB`.  The stacks are
unbounded except that pushing on the heap requires H < LSSA.  `legal` (Machine_Spec.v) lists
what compiled code must respect; the bookkeeping `ghost` is never read by the machine.  The
function called for a TFC entry is a parameter `call`; it must undo the change it was pushed
for.  `Binding_Model` has the instructions that globalise variables on the typed memory of
`Heap_Model`; C13 is proved there and for unification.  Argument registers are a function from
indices to words.

### Copying and traversing terms (C14-C16, C48) - Copy_*, Acyclic_*, Mem_Example, Props_Copy
`Copy_Model` has `Pl_Treat_Vars_Of_Term`, `Collect_Variable`, `Pl_Term_Variables_3` (without
tail), `Pl_Term_Size`, `Pl_Copy_Term`/`Copy_Term_Rec` with the `vars` table and its
restoration loop, `Pl_Copy_Contiguous_Term`.  `lim` is MAX_VAR_IN_TERM.  FD variables are not
copied in the model (`CFd`); term_variables handles them.  Free room at the destination is a
hypothesis.  `Acyclic_Model` has the compiled version of acyclic_term with its mark stack as
a list, the C parameter as the cell `sw`.  Refuted: after too_many_variables the original
term keeps untrailed bindings; term_variables stores references to local variables in the
heap.  `Mem_Example` decides well-formedness of finite example memories.

### Symbol mangling (C23, C24) - Mangling_*, Props_Mangling
C strings are lists of bytes without the final NUL; output buffers are unbounded.  `Demangle`
is the function with `quote = FALSE` and `decode_aux = 0`; the bound on the code character
and the rejection of empty names are parameters so that the repaired function can be stated.
Not modelled: quoting of the demangled name, auxiliary predicate names.

### Hash tables and operators (C21, C49) - Hash_*, Oper_*, Props_Hash
`Hash_Model` is `hash_tbl.c` pointer by pointer: nodes and table blocks are two finite
memories, `HashNode *` variables that point at a slot or at a `next` field are `loc`, reading
anything not allocated is `UB`, allocation addresses are parameters.  Keys are 64-bit words,
`Hash_Function` is the unsigned remainder.  An element is a key and one value (elem_size and
memcpy are not modelled).  Histories (`legal_ops`) require the allocator to return free
addresses and sizes in 1..INT_MAX.  `Hash_Spec` is finite maps.  `Oper_Model` adds the bits
`op_mask` of atoms and current_op/3; the tests on priorities and types are left out (they only
skip solutions), so is the permission check of op/3 (infix against postfix), which appears
as a hypothesis.

### Atoms (C22, C50-C52) - Atom_*, Props_Atom
`Atom_Model` is the open-addressing table of `atom.c`; `HB` (the hash of strings of two
characters or more) is any function, `max` is `pl_max_atom`.  Strings are lists of bytes at
addresses; a name that is not copied (`Pl_Create_Atom`) stays the caller's memory, and
`legal_aops` says that callers neither change nor free such memory.  C51 is a caller that
does.  Of the properties of an atom only the 16-bit length is kept.  `Atom_Spec`: an
injective map that only grows.  `Pl_Init_Atom` is modelled up to `''`.

### Clause indexing (C44, C53) - Switch_*, Index_*, Props_Index
`Switch_Model` has the hash tables of `wam_inst.c` and the binary search emitted by `ma2asm.c`
(executed instead of printed); `qsorted` is what C11 says of qsort, nothing when the
comparison is not an order.  `Index_Model` is `indexing.pl` in functional form: labels are
numbers, 0 is `fail`, the clause code is `Body ad`; the standard order of keys and sort/1 are
parameters.  `exec` runs the code with a stack of alternatives and lists the clauses entered,
every clause failing; label resolution (`allocate_labels`), argument saving and the clause
bodies are not modelled.  `a` is the dereferenced first argument.  Structure keys are the words
functor/arity; atoms and functor words are not negative.

### sub_atom and atom_concat (C25, C26) - SubAtom_*, Props_SubAtom
Atoms are their names; arguments are variables or values, `Get` is the unification of an
argument with an integer or an atom, results of it that the C code drops are dropped.  A read at an
offset outside of the name and a copy larger than the buffer are `UB`; lengths are 16 bits
(`plen`).  The choice-point predicates are run until they delete their choice point, giving the
list of answers.  Type and domain errors of the arguments are not modelled (hypothesis `typed`).
The specification lists the parts of the name (`C25_solutions`, `C25_order` say what that is).

### Ranges of the finite domain solver (C27, C28) - FdRange_*, Props_FdRange
`FdRange_Model` is `fd_range.c` on values: a range is a record, a vector a list of `sz` 64-bit words
(`small`: `sz` such that the largest integer stays below INTERVAL_MAX_INTEGER).  Sharing of vectors
between ranges and the CS stack they are allocated on are not modelled; the contents of a newly
allocated vector are a parameter (`junk`), so are the words around a vector that
Pl_Range_From_Vector reads when all bits are 0 (`around`).  `int` overflow, division by zero, shifts
and accesses outside of the vector are `UB`.  `FdRange_Spec`: `means` (the set, or what fits when the
range is marked incomplete) and `covers` (no wrong element; complete unless marked).  The texts of
Pl_Range_To_String are not modelled.

### Restricting the domain of a variable (C29, C33) - FdTell_*, Props_FdTell
`FdTell_Model` is the tell functions of `fd_inst.c` (`Tell_Value`, `Tell_Not_Value`, `Tell_Interval`,
`Tell_Range` and the parts they dispatch to), `Check_For_Bool_Var`, `fd_domain/3` on one variable and
unification of a variable with an integer.  A variable is its value if it has one, the number of elements and
the range.  The answer is a record: success, the new variable, whether the incompleteness warning was printed,
and the union of the masks given to `All_Propagations`.  Saving the old range on the trail is not part of it
(C31), nor is what the woken constraints do (C30).  `Tell_Not_Value` jumps back to its start at most once,
which is a fuel of 2.  `FdTell_Spec`: `fdv_ok` (the counter counts the elements, unbound variables have at
least two, ends are elements), `stands` (the values the variable stands for), `events` (each mask bit is set
if and only if that aspect changed), `tell_ok`.
Preconditions relied on: unbound variables lie in 0..fd_max_integer, told values are ints.  The stored layout
matters in one place: `Update_Range_From_Range` writes the incompleteness flag with a 64-bit store, and the
model uses the little-endian layout of struct Range, where the upper half is the minimum.
Findings: telling a range that removes nothing from a domain marked incomplete but completes it sets the
minimum to 0, after which `X = 0` succeeds (`C29_tell_flag_refuted`; an example is
`fd_domain(X,[5,7,500]), X #=< 10`); `X #\= n` silently loses values when the range is incomplete or becomes so; it fails on intervals
that begin beyond the vector; `fd_domain` clamps both bounds to fd_max_integer; an integer that is unified
with a variable is cut to 32 bits.

### Propagation and the linear constraints (C30, C32) - FdProp_*, Props_FdProp
`FdProp_Model` has the blocks ("start X in r") of 22 constraints of `fd_math_fd.fd` as terms, what Fd2C compiles
for a block (which chains of which variables it is put in), and the code of `fd_inst.c` that runs them:
`Before_Add_Cstr`, installation of each block with the two optimizations, the tells (those of `FdTell_Model`),
`All_Propagations`, `After_Add_Cstr` with its queue, masks, chains and dates.  The queue loop takes fuel; the
theorems show that one more than the number of removable values is enough.  Terms are evaluated as C ints, so
overflow and division by zero are `UB`.  Left out: the trail (C31), wait_switch and stop, the counter Nb_Cstr.
`FdProp_Spec`: `safe` and `sound` (one block), `stable` (running the block changes nothing), `ready` (the state
between two constraints), `posts` (what posting must do).  A block whose variable is bound is run once and not
installed; `closed` says that this loses nothing, and holds for the 19 linear constraints (`C32_closed`).  It is
not proved for X*Y=Z, where the block of a bound variable can be missing.
Regime: all domains are complete and in 0..fd_max_integer, products stay within 2^30, disequalities work on
domains that fit in a vector.  Outside, the products overflow (refuted for X*Y=Z and aX+bY=Z).
`C30_run_partial` is about all programs of posts and tells, `C30_solution_partial` says that once the variables
are bound the values satisfy the constraints.

### Dynamic predicates (C17-C20, C55) - Dyn_*, Props_Dyn
`Dyn_Model` is the clause store of `dynam_supp.c`: chains with first/scan/last pointers, the index chains, stamps,
the list of predicates with erased clauses, the marking and the reclamation, scans with two cursors.  Clauses and
DynPInf are blocks; a freed block is `None` and any access to it is `UB`; addresses are not used again.  The hash
tables of an index are a map (C21).  The two thresholds are parameters.  The first argument of a clause is its
kind and key; the rest (term and byte-code) is one number.  Whether a clause unifies is part of the operation.
The callers (clause/2, retract/1, calls, backtracking, cut, environments) are the operations `op`: an environment
is the clause whose byte-code it runs.  The walk of GC_Clause through the environments is replaced by their list.
Counters of erased clauses are unbounded.  Only one choice point kind per builtin; catch/throw is a cut.
`Dyn_Spec` is a database of lists: a goal keeps the list of the clauses it has still to be given.  The simulation
(`Dyn_Rel.R`) relates the chains of each predicate to one list of addresses; `R_step` is the change of one predicate.
Preconditions relied on: fewer than 2^31 assertions (clause numbers are ints, refuted otherwise), fewer than
2^64-1 calls (stamps), no Erase_Pred while a retract/1 of the predicate has alternatives (refuted otherwise).
Findings: `retract(p(X)), retractall(p(_)), fail` makes the reclamation follow ALL_MUST_BE_ERASED as a pointer
(`C20_retractall_in_retract_refuted`); Erase_All_Clauses_Of_File reads the next clause from a freed one
(`C20_erase_file_refuted`); GC_Clause marks predicates it does not unmark (`C55_mark_refuted`).

### Streams (C41, C42, C56) - Stream_*, Props_Stream
`Stream_Model` is `stream_supp.c` on a regular file (bytes and an offset) or on a string: push back rings of 8 cells
(their contents at the start are arbitrary), reading, putting back, peeking, the three end of file actions, getting
and setting positions, line and column, seek/4, lines, and string streams for output (a write beyond the allocated
size and an int overflow of the size are `UB`).  Counters are unbounded.  Left out: mirrors, buffering, terminals,
`Pl_Stream_Get_Key`, `PB_Empty_Buffer`, binary output.  A file does not change while it is read.
`Stream_Spec`: the position of a text (length, new lines, length of the last line), an ideal input (an endless
sequence of codes, -1 for ever after the text) and a cursor that only puts back what was read.
Preconditions relied on: at most eight characters wait in front of the text (a ninth overwrites the oldest, refuted).
Findings: reading the end adds one to the column; putting the end back takes one from the character count; after
peeking at the end (at_end_of_stream/1) the position that is got is one character before, so setting it gives the last
character again; a failing set_stream_line_column/3 loses the columns kept for putting back new lines; seek/4 from the
current position does not count the peeked character; `Pl_Stream_Gets` writes its final null after the array when a
line has as many characters as the array (the debugger gives it the size of the array).

### between/3 and global counters (C35, C40) - Between_Model, Props_Between
`Between_Model` is `Pl_Between_3` and `Pl_Between_Alt_0` of `control_c.c` over a store of variables, a trail and a stack
of choice points; words are given dereferenced; every binding is trailed (conditional trailing is C12).  The rest of the
program is the operations `op` (binding, pushing, retrying, deleting and cutting choice points, other between/3).
The spec is in `Props_Between`: `answered` are the executions that resume the choice point k times, with anything
(`above`: nothing below the choice point is touched) in between; the answer must then be l+k.
The counters are the functions of `g_var_inl_c.c:1313-1414` on the tagged word of the variable; finding the variable is
not modelled.  Finding: g_inc/1 of the greatest integer gives the smallest one (`C40_inc_refuted`).

### Backtracking over finite domains (C31) - FdTrail_*, Props_FdTrail
`FdTrail_Model` is the constraint stack as words, with the functions of `fd_inst.c` that write it (new variables, the
updates of a domain, constraint frames and dependencies, `Pl_Fd_Stop_Constraint`) and the choice points as far as CS, TR
and STAMP are concerned, including cut and soft cut, which leave STAMP alone.  The values that are stored are parameters
(what they must be is C27-C30).  `FdTrail_Spec` adds bookkeeping that the model never reads: what each block of the stack
is used for, and a copy of the state at each choice point.  `legal` is what is assumed of the rest of the system: the
operations are given addresses of live objects, argument frames are filled before a choice point is made, loop variables
and words above CS are the only others written without trailing.
`C31_words`: whatever happens, when a choice point that is still there is resumed or removed, CS and the trail are as when
it was made and so is every word below CS but the volatile ones.  `C31_domains` reads this for a variable.
The invariant: for each choice point c, a variable older than c whose stamp is greater than STAMP at c has its range (and
the vector it has now, if that is older than c) covered by the trail above c; undoing the trail gives the words of c.
Finding: the number of constraints of a variable (Nb_Cstr) is not restored (`C31_nb_cstr_refuted`); it only serves
heuristics.  Left out: words of other stacks, overflow of the stack, the trail as words (C12).

### Exceptions (C45) - Catch_*, Props_Catch

Modelled: catch.pl ('$catch_internal', both clauses of '$catch_internal1', '$catch_a_throw', '$trail_handler'), throw.pl, Pl_Throw_2, and
the control constructs of call.pl as steps of a machine with goals, choice points, the handler and ball variables (not
restored by backtracking).  The state that is restored, the built-ins, the unification of the ball and its copy are parameters (proved
elsewhere: C11, C12, C14).  The specification `solve` has no machine: lists of answers with a status.
`C45_catch`: exactly its answers, in order, then failure, the uncaught exception, or at least n steps.  `C45_only`: no others.
Left out: `*->`, abort/0 ('$catch_sync'(_)), queries of foreign code (pl_query_top_b).  Preconditions: '$no_ball$' is not
thrown (`C45_no_ball_refuted`: it is taken for a failure).  `C45_uncaught_refuted`: without any handler, Pl_Throw_2 prints a
message and returns, and execution goes on with the next choice point.

### Collecting solutions (C36, C37) - Findall_*, Props_Findall, KeyVar_*, Keys_Proofs, Props_Keys, Bagof_*, Props_Bagof
`Findall_Model` is `Pl_Stop_Mark_1`, `Pl_Store_Solution_1` and `Pl_Recover_Solutions_4` on the memory of C48: the chain of
solutions is a list of (number, size, address of the block given by Malloc); a block that is freed can no longer be read.
The rest of the program is the events: anything that leaves the blocks alone, opening a findall, a solution, closing,
an exception that leaves n findall.  `Findall_Spec` gives the ideal (one list per running findall; an exception drops
lists) and what really happens (an exception merges lists).  `legal` is what is assumed: solutions are well formed terms
without FD variables, Malloc gives free memory, the heap is free above H.  Findings: solutions collected before an exception
left the inner findall are returned by the outer one (`C36_exception_refuted`); the tail of findall/4 may be a
variable of an environment and is stored in the heap as it is (`C36_tail_refuted`).
`Bagof_Model` is `Group` and the answers of '$group_solutions' (choice point with the rest of the list; the cells that
existed when an answer was given are restored by backtracking, C12).  Sorting is C08.  `Bagof_Spec.groups` are the runs of
equal keys; with the sorted list they are all the solutions of a key.  Preconditions: the cells of the list are not
those of the terms, no NaN.  Left out: `Pl_Free_Variables_4`.
`KeyVar_Model` is `Handle_Key_Variables` and `Link_Key_Var`; `recover_key` is the loop of `Pl_Recover_Solutions_4` with them.
`C37_keys`: two copied keys are equal if and only if the keys were variants, and the copies share no other variable.
The proof follows the list of the occurrences of variables (`absorb`); `over` says that the memory is the one of the
copies with some variables bound to variables of the table.  Finding: with a solution left by an exception the key of an
atom is read (`C37_exception_refuted`, undefined behaviour).

### List predicates (C34) - List_*, Props_List

Modelled: list_c.c (Pl_Append_3, Pl_Member_2/3, Pl_Memberchk_2, Pl_Length_2, Pl_Nth0_3, Pl_Reverse_2 and the _Alt_0 functions),
Pl_List_Length, Pl_Blt_List_Or_Partial_List, on the memory of C11 (cells, dereferencing, Pl_Unify, Pl_Get_List, Pl_Unify_Variable...).
A choice point holds the whole state of its creation (that backtracking restores it is C12 and C31), plus the argument words.  `explore`
asks for n more answers.  A failed Pl_Get_List whose result is not tested is UB, and so is the overflow of an `int` length.
`List_Spec` has relations on (possibly infinite) trees: `is_append k`, `is_member k`, ... where k numbers the solutions.  `answers_goal`: the
valuations of the variables after the call are exactly those before that meet the relation.  `answers`: the successes are,
in order, the answers for the k that have solutions; an error only if there is no solution.  Nothing is said of runs that
meet an FD variable (`Fd`), fill the heap (`Fatal`) or do not end (`NoFuel`).
The proofs compose `step`s: a change of state that turns a goal on the old words into a goal on the new words.
Findings: member/2 on a list that ends with a variable loses solutions (`C34_member_lost_refuted`: member(1, [T|T])) and
gives wrong ones (`C34_member_wrong_refuted`), since Pl_Member_3 looks at the tail after the unification and keeps its value in the
choice point; memberchk/2 may store a reference to the local stack in the heap (`C34_memberchk_local_refuted`).
Not modelled: the reading of the index by nth0/nth1 (errors), the Prolog part that enumerates indices.

### Reading back what is written (C43) - Lex_*, Write_*, Props_Lex

Modelled: the scanner (lexer_supp.c: `Read_Next_Char`, `Lexer_Quoted`, `Lexer_Quoted_Char`, `Lexer_Number`, `Pl_Lexer_Token` without floats, which
are a token with their text) and the writer (write_supp.c: `Out_Space`, `Out_Char`, `Out_String`, `Show_Atom`, `Show_Integer`,
`Show_Var`; `Show_Term` for terms written without operators).  A stream is a list of bytes; a write is a list of bytes.
BipsPl is compiled with -funsigned-char (configure.in), so characters are 0..255.  The character types and the char conversion are parameters
of `env` (the table is the one of char_type_init).  Which non-ASCII characters are printable is a parameter (`pr`).
A token longer than the buffer (1 MiB), an `int` overflow in `\x...\` are UB.
`Lex_Spec`: items (atom, integer, variable, punctuation, space) and the tokens they stand for.
`C43_atom`: for each atom, the text of writeq is read as one name token with the characters of the atom, before any
text that `ends` it.  `C43_sequence`: the same for any sequence of items written one after the other, so the writer puts
a space wherever two tokens would be read as one.
Refuted: with char conversions an unquoted atom is not read back (`C43_conversion_refuted`; `C43_quoted_converted`: quoted ones
are), names longer than the buffer (`C43_long_atom_refuted`), a NUL character right after a `0` (`C43_nul_refuted`: strchr finds the terminator).
Not modelled: floats, operators, '$VAR', portray, max_depth.

### Reading terms (C57, C58) - Parse_Model, Parse_Spec, Parse_Proofs, Reader_Proofs, Props_Parse

Modelled: all of the parser of parser_supp.c (`Pl_Read_Term`, `Parse_Term` with prefix, infix and postfix operators, arguments,
bracketed terms, lists, `Lookup_In_Dico_Var`, the pushed-back token), over the scanner of Lex_Model.  The operator table is any
function, so nothing is assumed about priorities.  Terms are trees; a variable is its index in the dictionary.
A variable name that does not fit in its array is UB; a syntax error is the result None.  Not modelled: error positions, the C stack,
the atom table, the heap (see C10, C11, C50).
`C57_read_back`, `C57_read_back_eof`: the text written with quoted(true), ignore_ops(true) is read as the `same` term (a separate relation in
Parse_Spec), the variables being in bijection with those written, and nothing is read after the full stop.
`C58_read_total`: for texts whose names and escapes are short, fuel 4n+1 is enough, and the result is never UB.
Refuted: `C58_var_name_refuted` (a variable name of 1024 characters is copied beyond its array, parser_supp.c:750),
`C58_escape_refuted` (`\xfffffffff\` overflows an int).

### Global variables and arrays (C38, C39) - Gvar_*, Props_Gvar
Modelled from BipsPl/g_var_inl_c.c: `Get_Target_From_Gvar` (with the automatic growth of arrays),
`G_Assign`, `G_Assign_Element`, `G_Assign_Array`, `G_Alloc_Array`, `G_Free_Element`,
`G_Trail_For_Backtrack`, `G_Untrail`, `G_Read_Element`, `G_Array_Size`.  Memory is a set of
allocated blocks of elements; an access outside a block, to a freed block, or to an element that
was never written is the outcome `UB`.  The undo records are in the trail and are linked per element.
- The specification (Gvar_Spec) has no memory: the value of a variable is a word or an array of values,
  and `vresult` says what an assignment to an element makes of it.
- Proved for all histories of assignments, links, readings and returns to choice points:
  no operation is undefined (C39_safe), an assignment changes the element and nothing else (C39_assign),
  errors leave the values (C39_error), readings and sizes are right (C39_read, C39_size), growing and
  extending keep the elements (C39_growth, C39_extend), backtracking restores (C38_restored), g_assign
  survives and cancels the earlier undo records (C38_survives).
- Preconditions (`ok_op`), each shown to be needed by a refutation: an array that extends another one, or that
  replaces it by g_assignb/g_link, is not smaller (C39_smaller_backtrackable_refuted,
  C39_smaller_extend_refuted); the indexes are integers, not other global variables
  (C39_index_refuted); no nested array has a wrong size (C39_nested_error_refuted).
- Not undone or not kept: automatic growth is not undone (C38_growth_refuted); a g_assign with
  g_array_extend over a backtrackable array does not survive (C38_extend_refuted).
- Not modelled: the term selectors (`-` notation), term words themselves (one opaque word),
  failing malloc, the counters (C40 has its own model), the error terms.

### Register allocation (C59) - RegAlloc_*, Props_RegAlloc
Modelled from Pl2Wam/reg_alloc.pl (all of it: aliases, the graph of temporaries, wishes, collapsing, values), inst_codif.pl
(the reads, writes and copies of every instruction), code_gen.pl:465-471 and wam_emit.pl:255-261 (dummy instructions).
An unbound Prolog variable is `T n`; unification of variables is a function from numbers to registers; a failure is `None`.
- The specification (RegAlloc_Spec) is a machine: an instruction is a copy, or reads registers, then writes a value which may depend on
  all events before; calls lose the registers.  The observation is the list of events (instruction, values read).
- `C59_total`: no failure, every temporary gets an argument.  `C59_same_events`: the events are those of the code
  before the allocation, for reg_opt 0, 1 and 2, with or without keep_void_inst.  The proof shows that two
  registers needed at the same time get the same number only if they hold the same value.
- `good_code` is what the allocation relies on; each condition which is not obvious is shown to be needed
  (C59_dead_argument_refuted, C59_written_again_refuted, C59_self_copy_refuted).
- `C59_max_used`: without wishes (levels 0 and 1) MaxRegUsed is exact.
- Refuted: MaxRegUsed as documented, at level 2 (C59_max_used_refuted); with 255 arguments, X(256) may be given,
  beyond NB_OF_X_REGS (C59_limit_refuted).
- Not modelled: C functions which read the X registers (option use_x_args) other than as a point where aliases end; the order of
  variables in sort/2 (not used by the code).
- `good_code` lets an argument be written and not used if it is written again first (`written_again`).

### Compilation of a clause (C60) - Clause_*, Props_Clause
Modelled from Pl2Wam/internal.pl:74-290 (chunks, dictionary of the variables, void, temporary and permanent variables) and
code_gen.pl:39-458, 804-823, 863-870 (head, body, flattening of structures, last subterm, void counting, reordering of the arguments).
The clause is what syn_sugar.pl leaves.  A logic variable of the compiler which is bound once (Info of a variable) is a state `st`; fresh
registers are numbers.  Recursion on terms takes the depth of the term; `C60_total` shows that it is enough.
- The specification (Clause_Spec): `clause_means` relates the values of the arguments to the goals with the values of their
  arguments, for any set of values with constants and functions; `accept` says what each instruction of the WAM does to the environment, to
  the arguments of the current structure and to the goals called; a call without environment, a read of a permanent variable which is not in the
  environment, a structure whose arguments are not all taken are not accepted.
- `C60_total`; `C60_good_code` (the conditions of C59 hold); `C60_meaning`: code_means iff clause_means;
  `C60_allocated`: the same after register allocation and emission.  The examples give the code of app/3 and of a clause with three chunks.
- Soundness (Clause_Sound, body_sound) and completeness (Clause_Complete, body_complete) are by induction on the code generator, with
  the invariant that the registers and permanent variables which the state says are known hold the values of their variables.
- Not modelled: the goals fail/0, =/2, arithmetic, cut and call_c, modules; values are logical (a goal does not
  change the values), so put_value and put_unsafe_value are the same here.

### No dangling references (C61) - Place_*, Equal_Model, Props_Place
The code of C60, run with words which only say where they point to (Place_Spec): the heap, a frame of the local stack below the clause's, the
environment of the clause.  The actions are those of wam_inst.c: put_variable of a permanent variable gives a self reference, put_unsafe_value
moves it to the heap, unify_value stores the word as it is, unify_local_value moves it to the heap.  Goals may bind the variables of the
environment to anything at any time (`bindings`).
- `C61_safe`, `C61_allocated`: no `danger` in any run.  Place_Check gives a decidable check `tc` with upper bounds of the places and proves
  it enough; Place_Gen and Place_Body prove that the generated code passes it.
- `C61_unsafe_needed` (example): with put_value in place of put_unsafe_value the theorem fails.
- Refuted for '$mt'(M,Var) and for =/2.  Equal_Model is the code generation with =/2 (code_gen.pl:513-597); `C61_equal_conservative` says that it
  agrees with Clause_Model for clauses without =/2.  The defect: inline_unif_reg_term marks the variable as in_heap although the term may be
  a permanent variable or a variable which is not known to be in the heap.
- Not modelled: the trail, the bindings made by get_value (which way variables are bound is C13's matter), choice points.

### Grammar rules (C62) - Dcg_*, Props_Dcg
Modelled from BipsPl/expand_c.c:156-200, 264-495.  The variables for the lists are numbers (a younger one is bound to an older one, as in
unify.c:49-60); the unifications made during the translation are a list of bindings; a unification which would go on with the elements of two
lists or make a cyclic list is `Stuck`.  The user's terms (terminals, goals, non-terminals) are numbers: their variables have given values.
- The specification (Dcg_Spec): `means` for a body, from the list before to the list after, for any set of lists; `holds` for the
  goals of the clause.  \+ and if-then-else are negations: the variables which only occur there (`lo`, `hi`) are not fixed, the others are.
  Both lists are given, so a translation which is not steadfast fails.
- `C62_total`: the first error or a clause, never `Stuck` (the C code ignores the results of Pl_Unify).  `C62_rule`, `C62_body`: the meaning.
  The proof goes by pieces: the equations and the goals which one part of the body adds, with the variables it may mention (`Piece`).
- Refuted: if-then-else with a then part of [] and goals, [] around an if-then in an alternative.  `then_ok` excludes just these.
- A variable as body jumps over `opt_term_unif = FALSE`, so X, [y] gives phrase(X,S0,[y|S]); this is covered.
- Cut: in the meaning it is true; `C62_cut` says that what follows a cut is not put into the head, so that the cut is executed first.  Refuted
  for `a --> !, [].` (the two lists are the same variable in the head) and for a pushback list, which goes into the head.
- Not modelled: the checks of the head (Dcg_Head) and of the pushback list, cut (it is true), the order of the solutions, the overflow of the
  local stack used for the goals, variables shared between list and user's terms.

### Cuts and control constructs (C63) - Sugar_*, Props_Sugar
Modelled from Pl2Wam/syn_sugar.pl:81-90, 153-256, 310-378.  `ncuts` is normalize_cuts1 (new logic variables are numbers), `goal` is normalize_alts1
with linearize.  The clauses of the auxiliary predicates go through the same passes again, which changes nothing (not modelled).
- Specification (Sugar_Spec): `sem` gives the answers of a body in order and whether its cut was executed; no stack.  The machine `exec`/`back` has
  frames with the values of the cut variables and a stack of choice points; '$get_cut_level' is the height at the entry of the predicate.
- `C63_clause` for any choice points of the clause (A) and of the caller (K0) and any continuation; `C63_predicate`; `C63_only`; `C63_arguments`.
  The proof: each goal is described by its answers and the effect on the stack (`eff`: the level of a stop, the choice points killed).
- pl_soft_cut unlinks the choice point; here it stays without alternatives (the same on backtracking).
- Refuted: with the real index (Index_Model, First_Model, RegAlloc_Model) the clause of a soft cut may be entered without a choice point.
- Not modelled: Module:Goal (distrib_module_qualif also qualifies '$cut'), pred_rewriting, exceptions, infinitely many answers.

### The first argument of a clause (C64) - First_Model, Props_First
Modelled from Pl2Wam/first_arg.pl, on the code after register allocation.  The machine is any `step` which satisfies `wam`: an instruction changes only the
registers of its codification, bound words stay bound, the get instructions fail on another constant or functor.  Effects which remain
after backtracking are a function `eff` of the state.  The counterexamples use the allocation of RegAlloc_Model.

### arg/3, functor/3, =../2 and setarg/4 (C65, C66) - Univ_*, Props_Univ
Modelled from BipsPl/term_inl_c.c:196-520 with the checks of c_supp.c, on the memory and instructions of Unify_Model, Binding_Model and List_Model.
A heap overflow is `Fatal`, a binding of an FD variable `Fd` (the solver is not called in this model), a read of a missing cell `UB`.
- Specification (Univ_Spec): relations between trees (`is_arg`, `is_functor`, `is_univ`; no words); `right_answer` as for the lists (C34): exactly the
  solutions, bindings seen as valuations.  The errors are functions of the dereferenced arguments, in the order of the standard.
- setarg/4: `changed` (one cell), `older` (what backtracking has to restore), `Untrail` (Pl_Untrail without the entries TFC).
- Preconditions: size of an unsigned long (arg/3), addresses below 2^64, no FD variable as name, no unbound local variable as new value.

### Byte-code of consulted clauses (C67, C68) - Bytecode_*, Props_Bytecode
Modelled from BipsPl/bc_supp.c:72-1629 for words of 64 bits: `encode` (Pl_BC_Emit_Inst_1 with its fields of 8, 16 and 24 bits), the growing buffer
(`put` outside of it is `None`), `bc_step` (one turn of the emulator).  The primitives of the engine are the fields of the record `machine`; all theorems are
for any such machine.  An access to X(n) with n >= 256 is the outcome `Bad`.
- Specification (Bytecode_Spec): `wam_run` runs the list of instructions, `fits` says what the fields can hold, `stable` that native predicates stay.
- The position after a call is a word number in the emulator and the rest of the list in the specification (`cont_of`).
- Not modelled: the debugger, the first three permanent variables and CPE(E) (BC_FRAME_BEGIN/END are part of allocate/deallocate), trailing of
  the saved position (C12), the table of the names of the instructions (bsearch), words of 32 bits.
- C68: pl_reg_bank as a function; the X registers are followed by the registers of the engine.

### Boolean FD constraints (C69) - FdBool_*, Props_FdBool
Modelled from BipsFD/fd_bool_c.c:55-1559: the stack of words (operators, pointers, tagged words) with its pointer, the table of variables, Simplify with all
cases of its switch, Load_Bool_Into_Word with the functions of func_tbl, Pl_Fd_Bool_Meta_3.  Posting a primitive constraint is adding it to a list.
- Specification (FdBool_Spec): `truth` by the names in the manual, `holds` for the primitives, `sat`.  Nothing of Simplify is used.
- Parameter: the value of an arithmetic term and Pl_Load_Left_Right; `load_ok` says what is relied on (L - R = l + c - r, no solution lost).  `ex_arithmetic`
  is an instance.  `defined`: the assignments that the loader keeps (no overflow of a domain).
- Proofs: `rep` (a tree in the memory), `switch_ok` (the ~90 cases), `Load_ok` (extension of the assignment to the new variables).
- Not modelled: partial/full arc consistency (the same meaning), the time (Simplify is exponential in nested #\\<=>).

### Primitive boolean FD constraints (C70) - FdPrim_*, Props_FdPrim, Props_FdTruth
Modelled from BipsFD/fd_bool_fd.fd:115-740: each constraint as its blocks `start X in r`, with the conditions of wait_switch; terms min, max, val and the
operations on ints; the ranges a..b, {a}, their complements and dom(v) + c.
- Specification (FdPrim_Spec): `holds` of C69; a domain is a set with its bounds; `sub` (domains only shrink).
- C70_bool_order: by computation over the bounds that three booleans can have; `agree` says that the blocks depend on the bounds alone.
- Not modelled: the queue which runs the blocks (C30), Fd2C, int overflow of the parameters C, L, U.

### Labeling (C71) - Label_*, LabelAll_Model, Props_Label, Props_LabelAll
Modelled from BipsFD/fd_values_c.c:296-440 and 535-750: Select_Value, Pl_Indomain_2 with its alternative, Pl_Fd_Sel_Array_Pick_Var_4 with the comparisons,
METHOD_RANDOM, the exchange (reorder) and the packing of the array.
- A domain is the increasing list of its values; the propagation is a parameter, `prune_ok` says what is relied on (C30); answers are a list.
- Specification (Label_Spec): `enumerates`, `outside_in` (limits), `strict`, `among`.
- C71_best_refuted: `fdv_adr = *res_elem` (line 658) reads a cell that the packing has overwritten.
- Not modelled: extra_cstr (domains with values above the vector), the reading of options of fd_labeling, the count of backtracks.
- LabelAll_Model: $fd_labeling_std and $fd_labeling_mth (fd_values.pl:206-222) over stores of all variables; the store is abstract, `tell_ok` says what is relied on
  (a small store for which it is proved: ex_tell_ok).  C71_labeling, C71_labeling_mth: each solution of the store is in exactly one answer (`parts`), also when the
  packing makes the choice a wrong one.  C71_labeling_random: the same for METHOD_RANDOM.

### fd_domain/3, fd_reified_in/4 (C72) - FdIn_Model, Props_FdIn
Modelled from BipsFD/fd_values_c.c:185-240, fd_bool_c.c:1564-1660, EngineFD/fd_inst.c:499-512; posting is adding to a list.  The meaning of the constraints is
stated in Props_FdIn; that of pl_truth_x_in_l_u is proved in C70.  Not modelled: lists of variables in fd_domain/3.

### Ranges of lists (C73) - FdList_Model, Props_FdList
Modelled from EngineFD/fd_inst.c:477-569 on the ranges of C27; `means`, `rin`, `rok` are those of FdRange_Spec.  The fields min and max of the new range are
parameters, as they are not set: C73_min_refuted.  Not modelled: the errors for what is no list of integers.

### Symbolic constraints (C74) - FdSymb_Model, Props_FdSymb
Modelled from BipsFD/fd_symbolic_c.c: fd_all_different (posting is adding to a list), fd_element and fd_element_var on the ranges of C27, fd_atmost, fd_atleast,
fd_exactly on cells (the value of a variable, whether v is in its domain).
- Specification: NoDup; `elt`, `eltr` (the member of a given number); `occ` (how often v occurs), `right`, `obeys`.
- C74_write_refuted: an integer above the largest of a vector is written outside of it (fd_symbolic_c.c:186, 194).  C74_mark_refuted: extra_cstr of the result of
  Pl_Fd_Element_I_To_V is not set, fd_range_fct sets only vec (fd_to_c.h:502).
- Simplifications: the variables are read once before the tells; a range which is marked incomplete stands for its elements in the vector.
- Not modelled: Pl_Fd_Element_V_To_Xi, the first block (I in 1..N) and fd_relation, errors.

### Dates (C30) - Props_FdDate
C30_dates: a constraint whose variable became an integer is run in this propagation and skipped in the following ones, also when DATE overflows.
