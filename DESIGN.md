# Formal model of slimcc — design

Target: slimcc (C compiler, chibicc fork) as pinned in `/repo`, read as text only.
Tool: Rocq/Coq 8.16.1. Everything is under `rocq/theories`, logical prefix `Verif`.

## Layout

Per topic:

* `XModel.v` – the code, function by function, as total Gallina functions. Every
  definition cites the file and lines it models and says where it simplifies. No proofs.
* `XSpec.v` – the independent specification (C standard, ABI, plain mathematics).
  Never mentions a model function.
* `XProofs.v` – lemmas and proofs.
* `PropertiesX.v` – only the property theorems (each closed by `exact lemma`),
  `Print Assumptions`, and a concrete `Example` per theorem that meets its hypotheses.

Undefined behaviour of the *compiler itself* (signed overflow, reading outside a buffer)
and compile errors are separate outcomes of the model functions, never assumed away.
A property that is false of the code is stated as the property one would want, then
refuted by a theorem `…_refuted` with a concrete witness, together with the largest
true version we can prove.

## Trusted base

* the Coq kernel (checked again with `coqchk`), the Coq standard library;
* the axioms printed by `Print Assumptions` (see the table at the end of this file);
* the hand transcription of the C functions into Gallina (line citations are in the files);
* the hand transcription of the C standard / x86-64 / System V ABI fragments in the Spec
  files.

Not modelled anywhere: the host libc, file system and process handling, floating-point
arithmetic of the host, error message formatting, inline assembly operand allocation,
the external assembler and linker.

## Plan per property

| id | model | proof |
|----|-------|-------|
| C01 | hashmap: bucket array, tombstones, open addressing, rehash | refinement to a finite map by invariant over op sequences |
| C02 | same, with int overflow as UB outcome | counting invariant: an empty slot always remains; overflow reached by induction |
| C03 | arena pages | invariant over allocation sequences |
| C04 | encode_utf8/decode_utf8 on bytes | bit arithmetic for all code points |
| C05 | read_utf16_string_literal encoding loop | induction over the code point list with a separate UTF-16 decoder |
| C06 | canonicalize_newline, remove_backslash_newline, add_line_numbers | induction on text with line annotation |
| C07 | tokenizer skipping loops on a finite buffer, over-read = UB | refutation by witness; positive theorem for texts whose comments end |
| C08 | convert_pp_int | value by induction on digits, type by case analysis against the standard's list |
| C09 | read_punct | against longest-prefix spec |
| C10 | cond-incl stack machine over lines | against tree semantics of groups |
| C11 | #if evaluation reuses C types | refutation + positive for the range where it agrees |
| C12 | macro locks for object-like macros | well-founded measure; hide-set simulation |
| C13 | quote_string and the string reader | induction on bytes |
| C14 | join_adjacent_string_literals | induction on literals; refutation for u8+u |
| C15 | int_promotion/get_common_type | case analysis against a rank spec |
| C16 | eval2 on typed trees | induction on trees against a C evaluator |
| C17 | is_redundant_cast | all types, all values |
| C18 | gen_expr2 to an x86 subset | compiler correctness by induction on trees |
| C19 | tmp stack | invariant over push/pop/clobber traces |
| C20 | imm_arith, divmod_opt | machine arithmetic lemmas |
| C21 | gen_bitfield_load/store | bit arithmetic; refutation for long:8/16/32 |
| C22 | struct_decl/union_decl | invariant over member lists; refutation for overflow |
| C23 | ND_SWITCH emission | execution of the emitted chain |
| C24 | label_stmt | invariant over label sequences |
| C25 | enum_specifier/update_enum_ty | induction over enumerators; refutation |
| C26 | calling_convention | invariant over argument lists |
| C27 | has_flonum/calling_convention | against the ABI classification; refutation |
| C28 | assign_lvar_offsets | induction on scope trees |
| C29 | emit_data | induction on the image |
| C30 | write_gvar_data bit-field part | against C21's value; refutation |
| C31 | gen_mem_copy2/gen_mem_zero | induction on chunks, byte memory |
| C32 | defer lists, jumps | scope path semantics |
| C33 | mark_fn_live | graph reachability |
| C34 | CAS loop of atomic_op | interleaving transition system, invariant |
| C35 | is_compatible | induction on types |
| C36 | scopes | refinement to stack of maps |
| C37 | declspec counter | counting argument |
| C38 | include search | induction; refutation for the cache |
| C39 | quote_makefile/print_dependencies | inversion by a make unquoter; refutation |
| C40 | add_include_path + filter | induction on options |
| C41 | gen_bool_opt | case analysis; NaN refutation |
| C42 | f80 casts | machine semantics of the emitted strings; refutation |
| C43 | va_arg | invariant over argument lists |
| C44 | offset folding | wrap-around arithmetic; refutation |
| C45 | gen_cond | execution of jump code, induction on conditions |
| C46 | ND_EXCH | machine semantics; refutation |
| C47 | in_range | induction on tables |
| C48 | strarray_push | invariant |
| C49 | include guards | semantics of skipped groups |
| C50 | new_inc_dec, ND_POST_INCDEC, assignments as values | execution of code with temporaries kept across stores |
| C51 | tokenize and its readers | inductive grammar, step lemma, induction on the text |
| C52 | copy_ret_buffer, copy_struct_reg, copy_struct_mem | machine semantics, composition with the callee's side |
| C53 | atomic assignment by ND_EXCH | machine semantics; refutation for structures |
| C54 | cast_table rows from integers to floating types | machine semantics with exact rounding |
| C55 | statements over integer variables | big-step semantics against jump code, induction on executions |
| C56 | expr to primary, is_typename_paren | inductive grammar; mutual induction on derivations, on fuel for soundness |
| C57 | declarator, type_suffix, array_dimensions, func_params, typename | inductive grammar; splitting a declarator into its core and suffixes |
| C58 | initializer2 and its helpers, create_lvar_init | cursor semantics over paths; the tree of struct Initializer as the result of a list of events; termination by token count and type |
| C59 | add_type and the node constructors of parse.c | typing relation of C 6.5 with a switch for the cases the compiler types differently; induction on the relation |
| C60 | global_declaration, func_prototype, func_definition, the declarations of compound_stmt, the symbols of emit_data | facts of a translation unit by C 6.2.2, 6.7.4 and 6.9.2; invariant of the parser against the facts seen so far; frame of blocks |
| C61 | stmt, secondary_block, compound_stmt, label_stmt, loop_body, cond_declaration, goto resolution | printing of statement trees and a relation between parser states and trees, read and written both ways; jumps by a stack of frames against the contexts; fuel bound |
| C62 | asm_constraint, asm_set_use, asm_assign_oprands, prepare_inline_asm | invariant of the assignment: what each flag says of the constraint, which registers are marked used for placed operands, pairs that share a register; kept by every step |
| C63 | print_tokens, lex_step | locality: the reading of a token depends on the bytes after it only up to the next white space; then induction over the printed tokens, run by run |
| C64 | parse_beff, gen_bf | composition of the pieces address, bit-field load, operation on %rax (C50, C55) and bit-field store (C21); the value computed in the declared type agrees with the one in the promoted type in the low bits the field keeps, except for divisions of different sign |
| C65 | prepare_funcall, gen_funcall_args | the stores of spilled arguments are assignments (C55) to objects outside the program's variables; single-instruction loads give the same value in any register as in %rax; induction over the registers, later ones leave earlier ones alone |
| C66 | emit_text | the body theorem (C55) is used on the code with the reserved line still empty; execution does not depend on a prefix without labels of the same length, so it carries over to the code with the stack allocation filled in; prologue, parameter stores and epilogue are run instruction by instruction |
| C67 | gen_funcall | the argument theorem (C65) after the stack adjustment, the function theorem (C66) one return address below, and frame reasoning: what the callee may write is its frame, its variables and its stack parameters, which are the slots the caller has made |
| C68 | generic_selection | induction over the associations with the comparison theorem (C35); the invariant says what the loop returns for every earlier choice |
| C69 | embed_file | balanced sequences are skipped and split whatever follows them; induction over the parameters with an invariant that ties each stored pointer to its parameter |
| C70 | read_line_marker, line_macro | invariant: presumed number = line + difference, from the last directive on |
| C71 | define_macro_cli | the tokenizer on two texts of the same length that differ in one byte after the name; fuel and flag lemmas |
| C72 | get_file_type, replace_extn | both directions against a grammar of names; refutation for directories |
| C73 | pragma_macro | against the text of 6.10.10; refutations for escapes, prefixes and comments |
| C74 | take_arg, take_arg_s, comma_arg | both directions against a relation on argument lists; refutation for empty texts |

## What is modelled

| files | code | left out |
|-------|------|----------|
| HashmapModel | hashmap.c 17-129 | key interning by pointer |
| ArenaModel | alloc.c 11-110, strings.c 3-17 | the host allocator (an oracle of page addresses) |
| UnicodeTables, UnicodeModel | unicode.c 12-448; UTF-16/32 literal encoding of tokenize.c | – |
| IntSpec, IntModel | type.c: integer types, int_promotion, get_common_type, usual_arith_conv, add_type, is_redundant_cast, is_bitfield; parse.c: new_cast, cond_cast, eval2, eval_sign_extend and the tree building of integer expressions | floating point, pointers, assignments, calls, labels, statement expressions |
| X86 | the x86-64 instructions the generator emits for integer code: registers of 64 bits with sub-register writes, flags, stack and frame memory, labels and jumps | other instructions, alignment faults, the encoder |
| CgModel | codegen.c: gen_expr2, gen_cond, load/cast/bit-field load, imm_arith, divmod_opt, shift and compare paths, temporaries in registers and in the frame, the value already in %rax that stands for ND_NULL_EXPR | stores (StmtModel), calls, floating point, aggregates |
| LexModel | tokenize.c 159-488, 621-966 | keyword conversion, file reading, error text, the hash of identifiers |
| NumModel | tokenize.c 490-590 | strtold branch of convert_pp_number |
| PpModel | preprocess.c 81-94, 171-199, 392-422, 1083-1111, 1213-1246, 1248-1448, 1921-1930 | macro expansion, evaluation of conditions (a parameter), file search (a parameter), #embed, #include_next, #line numbering |
| MacModel, MacPasteModel | preprocess.c 143-167, 202-214, 411-415, 493-608, 611-682, 685-982 | built-in macros with a handler, __VA_TAIL__, directives between arguments, the __attribute__ special case of cdefs.h, token allocation and free lists, origin and line fields |
| StrModel | preprocess.c 1740-1802, tokenize.c 635-643 and the string cases of 706-743 | the list of tokens (only the run of literals), the token left over after joining, array types beyond element type and length |
| FrameModel | codegen.c 122-136, 317-368, the places chosen at 379-398, 419-454, 523-525, 3826-3872, 4073-4118 | growth of the slot array, the text inserted at the reserved lines, which code paths push, pop and clobber |
| LayoutModel | parse.c 186-188, 3825-3903 | reading the members (3700-3823); flexible array members only as members of size 0; completing a tag declared before |
| SwitchModel | parse.c 260-264, 2354-2418; codegen.c 2121-2151 | the search for the enclosing switch; constant expressions of labels (any int64_t); jumps past defer; bit-fields of 8-byte types as controlling expressions |
| BfModel | codegen.c 491-499, 663-704, 834-869 for integers (loads: CgModel, 646-661) | popping the address (C19); evaluation of address and value (C18); bit-fields that straddle their unit (refuted) |
| InitModel | parse.c 2031-2041, 2054-2186; codegen.c 3966-3992 | floating-point members, copies of constant objects (2097-2128), flexible array members; sections, symbols, .comm, emulated TLS; the initialiser tree is given with evaluated constants (C16) |
| EnumModel | parse.c 254-258, 1286-1388, 4428-4431 | tags and redeclarations, alignment; constant expressions are given with value and type (C16) |
| ScopeModel | parse.c 190-208, 236-252, 410-414, 552-554 | freeing of tables, children list; re-entry of parameter scopes |
| LiveModel | parse.c 4540-4561, 4768-4771; codegen.c 4256-4268 | find_func is a parameter (file-scope lookup of ScopeModel); host stack depth |
| DeclModel | parse.c 748-1025, 2202-2204; type.c 92-108 | attributes; struct/union/enum/typeof specifiers and operands of _Atomic()/_Alignas() arrive parsed; auto inference is a parameter |
| PathModel | main.c 114-131, 261-274, 531-550, 753-768; preprocess.c 984-1027, 1250-1275, 1588-1612; tokenize.c 924-945 | file system, dirname, standard directories are parameters; cache and file table are association lists |
| MakeModel | main.c 190-216, 684-724 | replace_extn, the choice of the output file, -MT/-MQ concatenation |
| CompatModel | type.c 63-108, 126-128, 189-290; parse.c 1285-1294 | size, align, members, decl_next, is_oldstyle; completion of incomplete structures |
| CallModel | codegen.c 78-83, 501-510, 1130-1166, 1175-1224, 1377-1464 (register arguments), 3995-4026, 4124-4152 | evaluation and spilling of arguments, constant and memory-operand shortcuts for arguments, the store of stack arguments, %al, the adjustment of %rsp |
| RetModel | codegen.c 1226-1286 | the surrounding ND_RETURN and ND_FUNCALL code; the saving of the hidden pointer in the prologue |
| VaModel | codegen.c 1168-1173, 1288-1314, 1500-1506, 1832-1841, 1850-1889, 4076-4105 | pushing of stack arguments (their bytes are a hypothesis), the rest of the prologue, evaluation of the va_list expression, va_copy; movaps faults on a misaligned address |
| DeferModel | parse.c 211-230, 512-521, 1445-1459, 1529-1545, 2319-2475, 2492-2723, 4513-4538, 4588-4629; codegen.c 1328-1363, 2067-2219 | statement expressions, goto *p, asm, return values, the values of case labels; expressions are numbered and opaque; a parsed node is represented by the function gen_stmt computes for it |
| AtomModel | parse.c 3191-3328 (atomic_op, to_assign, assign), 3511-3571 (typing of the operands), 3956-3960; codegen.c 1786-1827 (ND_CAS, ND_EXCH), 2107-2117 (ND_DO) | the computation new = old op val is one step (it reads only the thread's own variables, its code is C18); loads and stores of the thread's own variables are exact; one lock cmpxchg is one step, a load of the object is one step; memory orders weaker than sequential consistency are not modelled; each thread performs one operation (a thread doing several is several threads run after each other) |
| FcmpModel | codegen.c 615-627, 1532-1597, 1740-1743, 1893-1998, 2801-2863 for floating operands | evaluation of the operands themselves; complex operands; constants folded |
| FcvtModel | codegen.c 1004-1100: rows and columns f32, f64, f80 of cast_table | conversions between floating types; NaN, infinities and exponent limits; rounding modes other than to nearest; floating-point exceptions |
| StmtModel | parse.c 488-492, 2445-2458, 2492-2657, 3257-3331, 3679-3685, 3956-3974, 4026-4035, type.c 413-468, codegen.c 557-571, 834-866, 972-977, 1678-1690, 2067-2384, 2895-2899 for integer variables | declarations, scopes, switch, goto, labels, asm, defer, calls, pointers, bit-fields, atomics, assignments inside expressions |
| PifModel | preprocess.c:320-390 (read_const_expr after expansion, eval_const_expr), 1296-1302 (#if), with tokenize.c:532-563 and the parser and folder of IntModel | macro expansion (MacModel), defined and identifiers are given as int values, true, parentheses, syntax errors; char8_t constants |
| DerefModel | codegen.c:2760-2798, 2934-2958, 2961-2988, 802-816 | named variables at the root of a member chain, function calls, assignments and conditionals as the root, bit-field members, atomic and floating objects |
| ValModel | codegen.c:1678-1700, 1715-1718, 2895-2899 | values of assignments nested inside other expressions |
| ExprModel | parse.c 1091-1284, 2202-2214, 2737-2745, 3272-3697, 3985-4041, 4063-4090, 4161-4471 (parsing only) | typing of the nodes, attributes, compound literals, statement expressions, _Generic, builtins, old-style parameter lists, hiding of typedef names by parameters |
| BrcModel | parse.c 57-76, 425-462, 561-576, 1617-1676, 1702-1908, 1958-1996, 3906-3920: Initializer, initializer2, list_initializer, braced_initializer, designation, array_designator, struct_designator, count_array_init_elements, string_initializer, create_lvar_init | expressions are single tokens; INIT_TOK is not told from INIT_EXPR; flexible array members; constexpr checks; the sizes and offsets of members (bit-fields are scalars) |
| TypModel | parse.c 331-345, 3191-3332, 3405-3420, 3511-3570, 3640-3990 (node constructors), type.c 300-640 (add_type) | tokens (ExpModel), enumerations, statement expressions, compound literals, builtins, unprototyped functions |
| JmpModel | parse.c 561-576, 1577-1615, 2319-2480, 2494-2735, 4508-4538 | static_assert, asm, goto *, defers (C32), case values (C24), types and scopes, typedef, extern and function declarations in blocks, function declarators in conditions |
| AsmModel | codegen.c 3001-3359 | code for x87 operands, asm goto, arguments of array or function type; numbers in constraints below 2^31 |
| AsmCodeModel | codegen.c 3343-3358, 3370-3597, 3733-3825 | x87 code, asm goto, the template (asm_body), asm_gen_operands (its effect is a hypothesis), wrap-around of addresses |
| PrintModel | main.c 640-669 | opening, flushing and closing the output |
| BfOpModel | parse.c 3257-3331, 3679-3685, 3956-3974; type.c 462-468; codegen.c 663-704, 1678-1700, 2265-2334, 2972-2982 | members of anything but a named variable (pointers, calls), volatile and _Atomic fields, _BitInt fields |
| ArgModel | parse.c 4062-4091; codegen.c 80-83, 871-888, 965-970, 1175-1224 (integers), 1377-1460, 2737-2756, 4180-4210 | floating and struct arguments, addresses as arguments (is_memop_ptr), the result buffer, gen_funcall around the arguments; objects in scope->locals are given a place in memory |
| FunModel | codegen.c 4007-4030 (sizes 1, 2, 4, 8), 4040-4170 | variadic save area, VLAs, results in memory, floating and struct parameters, directives; push and leave are expanded; placement of variables is a hypothesis |
| FcallModel | codegen.c 317-320, 1175-1224 (size), 1466-1530 | function pointers, alloca, hidden result pointer, floating and aggregate arguments |
| GenericModel | parse.c 4105-4147 | tokens, the parsing of expressions and type names |
| EmbedModel | preprocess.c 244-272, 1113-1188; parse.c 1230-1248 | file name (C38), opening and read errors, evaluation of the limit (C11), positions of the tokens |
| MarkModel | preprocess.c 1190-1209, 1213-1246 (line numbers), 1391-1399, 1486-1499 | macro expansion of the arguments, arguments that are not pp-numbers, several files, tokens after the name (ignored by the code) |
| CliModel | preprocess.c 454-467, 1450-1472 | function-like macros (read_macro_params), the table of macros, origins of the tokens |
| DrvModel | main.c 565-578, 685-693, 1008-1035 | basename of paths that end in a slash, -x, opening of the files |
| PragmaModel | preprocess.c 1551-1588 | the loop that reads the argument (1554-1579): the string token is given |
| OptModel | main.c 77-113 | the chain of tests in parse_args; strdup; strtok is modelled from the C standard for the delimiter comma |
| LinkModel.v | parse.c 464-486, 1461-1475, 2660-2723 (declarations and names), 4540-4703, 4725-4771; codegen.c 3874-3975, 4256-4268 (symbol, size, alignment) | function types and their checks, attributes, asm names, emulated TLS, alignment specifiers, static locals (C36), dropping unused static inline functions (C33), section choice |
| MemModel (on Sse.v) | codegen.c 557-600, 834-839, 4007-4022 | displacements beyond 32 bits; the text form of the operands |

## Axioms

`Print Assumptions` reports "Closed under the global context" for every theorem named in
`MANIFEST.json`. `coqchk` on the whole development additionally lists the seven `Under_rel`
constants of the standard library's `ssr` plugin files, which no theorem uses.
