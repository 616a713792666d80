{"id": "C01", "title": "Symbol table behaves as a finite map", "statement": "After any sequence of put/get/delete calls on one table, a get returns exactly the value most recently put under that key and not deleted since, and NULL otherwise; growth, re-insertion after deletion and hash collisions are invisible.", "quantifier": "for every operation sequence, every key (byte string) and every hash function value distribution", "why_tests_cant": "The interesting states (tombstones on a probe chain, rehash with pending tombstones, collisions) are sparse in the space of sequences; the in-tree hashmap test exercises one fixed sequence.", "anchors": ["hashmap.c: fnv_hash, rehash, match, get_entry, get_or_insert_entry, hashmap_get2, hashmap_put2, hashmap_delete2"]}
{"id": "C02", "title": "Symbol table operations never abort and always find a free slot", "statement": "No sequence of operations reaches the internal_error after the probe loop: a table always keeps at least one never-used slot, so lookups of absent keys terminate; the only arithmetic hazard is the int product used*100, which needs more than 21 million slots in use.", "quantifier": "for every operation sequence below the int-overflow size; and there exists a longer sequence that overflows", "why_tests_cant": "The bad state would need an exact load pattern of tombstones and keys; the overflow needs tens of millions of keys.", "anchors": ["hashmap.c: rehash, get_entry, get_or_insert_entry"]}
{"id": "C03", "title": "Arena blocks are disjoint, aligned and in bounds", "statement": "Between arena_on and arena_off, all blocks handed out by the arena are 16-byte aligned relative to the page, lie inside one page, and pairwise do not overlap; a clearing allocation leaves the whole block zero without touching any earlier block.", "quantifier": "for every sequence of request sizes up to the page size; a larger request breaks it", "why_tests_cant": "Tests only see crashes; overlapping nodes corrupt the AST silently and depend on the exact sequence of sizes.", "anchors": ["alloc.c: allocate, arena_on, arena_off, arena_malloc, arena_calloc"]}
{"id": "C04", "title": "UTF-8 decoding inverts encoding", "statement": "Encoding any code point below 0x200000 and decoding the result gives the code point back and consumes exactly the bytes written; ASCII stays one byte. Escapes can ask for larger code points, where the round trip fails.", "quantifier": "for every code point; for every byte context following the encoding", "why_tests_cant": "2^21 code points times arbitrary following bytes; boundary cases at length changes.", "anchors": ["unicode.c: encode_utf8, decode_utf8", "tokenize.c: read_universal_char, convert_universal_chars"]}
{"id": "C05", "title": "u\"\" literals are correct UTF-16", "statement": "The elements of a u\"...\" literal are the UTF-16 encoding of the code points written in the source: one unit below 0x10000, otherwise a surrogate pair that standard UTF-16 decoding maps back to the code point.", "quantifier": "for every sequence of code points up to 0x10FFFF", "why_tests_cant": "Over a million code points and arbitrary sequences.", "anchors": ["tokenize.c: read_utf16_string_literal, read_utf32_string_literal"]}
{"id": "C06", "title": "Line splicing and newline normalisation keep line numbers", "statement": "Joining backslash-newline lines and normalising \\r and \\r\\n keep the sequence of non-newline characters of every logical line, and every character that survives is numbered with the physical line on which its logical line begins. (Reporting the line of the character itself is false: characters after a splice carry the number of the first line of the group.)", "quantifier": "for every source text and every position in it", "why_tests_cant": "Needs arbitrary interleavings of splices, CRs and text; a test shows one file.", "anchors": ["tokenize.c: canonicalize_newline, remove_backslash_newline, add_line_numbers"]}
{"id": "C07", "title": "The tokenizer never reads past the end of its buffer", "statement": "Tokenizing any NUL-terminated text inspects only bytes up to the terminator. A // comment that is not followed by a newline before the terminator (produced by pasting / and /, by -D on the command line, or by a final backslash-newline) is a read past the end.", "quantifier": "for every text; refuted by texts ending inside a line comment", "why_tests_cant": "Reading past the end usually goes unnoticed because the following heap bytes happen to contain a newline.", "anchors": ["tokenize.c: tokenize, remove_backslash_newline", "preprocess.c: paste, define_macro_cli"]}
{"id": "C08", "title": "Integer literals get the type and value the standard prescribes", "statement": "An integer constant in decimal, hex, octal or binary with any suffix is given the first type of the standard's list that can represent it, and its value is the mathematical value of the digits.", "quantifier": "for every digit string, base and suffix within unsigned long range", "why_tests_cant": "The type depends on value thresholds for each base/suffix pair; only a few boundary points can be tested.", "anchors": ["tokenize.c: convert_pp_int, convert_pp_number"]}
{"id": "C09", "title": "Punctuators are recognised by maximal munch", "statement": "At every position the tokenizer takes the longest punctuator of the C grammar that is a prefix of the remaining text, and a single punctuation character otherwise.", "quantifier": "for every remaining text", "why_tests_cant": "Depends on the order of a hand-written prefix list against all texts.", "anchors": ["tokenize.c: read_punct"]}
{"id": "C10", "title": "Conditional inclusion keeps exactly the selected groups", "statement": "For any nesting of #if/#ifdef/#elif/#else/#endif the tokens that survive are exactly those of the groups the standard selects, conditions in skipped groups are not evaluated, and stray or unterminated directives are rejected.", "quantifier": "for every sequence of lines and every assignment of truth values to the conditions", "why_tests_cant": "Exponential number of nestings and condition outcomes.", "anchors": ["preprocess.c: skip_cond_incl, push_cond_incl, get_cond_incl, preprocess2, directives"]}
{"id": "C11", "title": "#if arithmetic is done in intmax_t/uintmax_t", "statement": "An integer #if expression has the value it has when every operand is of type intmax_t or uintmax_t.", "quantifier": "for every #if expression whose operands lose nothing in their C types; refuted without that", "why_tests_cant": "A test only shows that particular expressions work; the failing ones need values beyond int.", "anchors": ["preprocess.c: eval_const_expr, read_const_expr", "tokenize.c: convert_pp_int", "type.c: add_type"]}
{"id": "C12", "title": "Macro expansion terminates and never re-expands a macro inside itself", "statement": "Expansion of any token list ends for every macro table whose replacement lists have paired parentheses, function-like, variadic and mutually recursive macros included; for object-like macros the result is the one given by nested replacement without re-expanding a macro inside itself. Without paired parentheses expansion can run forever.", "quantifier": "for every macro table (including mutually recursive ones) and every token list; termination refuted for replacement lists with unpaired parentheses", "why_tests_cant": "Recursion patterns between macros are unbounded.", "anchors": ["preprocess.c: expand_macro, push_macro_lock, pop_macro_lock, insert_objlike"]}
{"id": "C13", "title": "Stringizing then re-reading gives the spelling back", "statement": "The text made by # tokenizes as one string literal whose contents are the spelling of the operand, with quotes and backslashes inside literals kept; a name made into a literal by quoting (as for __FILE__) tokenizes as one literal with exactly the bytes of the name.", "quantifier": "for every sequence of tokens and every name without NUL and newline; refuted for names with a backslash or quote", "why_tests_cant": "All interleavings of quotes and backslashes.", "anchors": ["preprocess.c: quote_string, stringize, new_str_token", "tokenize.c: string_literal_end, read_string_literal, read_escaped_char"]}
{"id": "C14", "title": "Adjacent string literals concatenate to one literal", "statement": "Concatenating adjacent literals of compatible prefixes yields the array whose elements are the elements of the parts in order followed by one terminator; incompatible prefixes are rejected and no byte outside the result buffer is written.", "quantifier": "for every sequence of literals and prefixes; refuted when u8 meets u", "why_tests_cant": "Prefix combinations times contents; the overflow corrupts the heap silently.", "anchors": ["preprocess.c: getStringKind, join_adjacent_string_literals, tokenize_string_literal"]}
{"id": "C15", "title": "Integer promotions and usual arithmetic conversions follow C", "statement": "The type chosen for a binary arithmetic operator on any two integer types (including bit-field operands of any width) is the one C prescribes for LP64, symmetric in the operands up to the standard's rule, and converting both operands to it preserves the C value.", "quantifier": "for every pair of integer types and every bit-field width", "why_tests_cant": "The table has many entries and the bit-field widths multiply it.", "anchors": ["type.c: int_promotion, get_common_type, usual_arith_conv, int_rank, to_unsigned"]}
{"id": "C16", "title": "Constant folding agrees with C arithmetic", "statement": "Whenever the compiler folds an integer expression to a constant and the expression has defined behaviour in C, the constant is the value C prescribes, whatever the nesting and the operand types.", "quantifier": "for every integer expression tree over literals, casts, unary, binary, logical, conditional and comma operators", "why_tests_cant": "Infinitely many trees; errors hide at sign/width boundaries.", "anchors": ["parse.c: eval2, eval_sign_extend, is_const_expr, new_cast", "type.c: add_type"]}
{"id": "C17", "title": "Dropping a redundant cast never changes a value", "statement": "When the compiler drops the inner of two nested integer casts, the value of the outer cast is unchanged for every value of the innermost operand; and it drops it exactly when that is so.", "quantifier": "for every triple of integer types and every value of the source type", "why_tests_cant": "Cubic number of type triples times 2^64 values.", "anchors": ["type.c: is_redundant_cast", "parse.c: new_cast"]}
{"id": "C18", "title": "Generated code for integer expressions computes the C value", "statement": "The instructions emitted for an integer expression over local variables leave in the result register the value C prescribes, for unoptimised output, whatever temporaries were kept in registers or spilled.", "quantifier": "for every expression tree and every initial machine state", "why_tests_cant": "Trees are unbounded; register pressure and spilling only show on deep trees.", "anchors": ["codegen.c: gen_expr2, gen_cast, cast_table, push_tmpstack, pop_tmpstack, pop_gp, load_val2, gen_cmp_setcc"]}
{"id": "C19", "title": "Temporaries alive at the same time never share a place", "statement": "Two temporaries whose lifetimes overlap are kept in different registers or in disjoint stack slots, and a temporary that is alive across a call or inline assembly is not in a register.", "quantifier": "for every properly nested sequence of temporary creations, uses and clobbers", "why_tests_cant": "Clashes need specific nesting depths and call positions.", "anchors": ["codegen.c: push_tmpstack, pop_tmpstack, clobber_all_regs, clobber_gp, pop_gp, push_copy, pop_copy"]}
{"id": "C20", "title": "Strength-reduced arithmetic by constants is exact", "statement": "The code emitted for add, sub, mul, and, or, xor, shifts, unsigned division and remainder by a constant leaves the same result as the plain operation.", "quantifier": "for every operand value, operand size and constant", "why_tests_cant": "2^64 x 2^64 operand pairs; special cases at powers of two, 0, 1, -1 and immediates beyond 32 bits.", "anchors": ["codegen.c: imm_arith, imm_arith2, imm_add, imm_sub, imm_and, imm_cmp, divmod_opt, limit_imm, load_val2"]}
{"id": "C21", "title": "Bit-field stores and loads", "statement": "Storing a value into a bit-field and reading the bit-field gives the value converted to the width and signedness of the bit-field, all other bits of memory keep their value; the value of the assignment expression is that converted value.", "quantifier": "for every bit-field position, width, declared type, stored value and memory contents; refuted for signed 64-bit typed fields whose width is 8, 16 or 32", "why_tests_cant": "Width x offset x type x contents; errors only show for particular widths and negative values.", "anchors": ["codegen.c: gen_bitfield_load, gen_bitfield_store, bitwidth_to_ty, load2, store2"]}
{"id": "C22", "title": "Struct and union layout", "statement": "Members are placed in order at multiples of their alignment, without overlap (bit-fields: disjoint bit ranges inside a storage unit of the declared type), and the struct's size is a multiple of its alignment and covers every member; union members all start at 0 and fit.", "quantifier": "for every list of members with any sizes, power-of-two alignments, widths and packing; refuted once the bit position exceeds int", "why_tests_cant": "Unbounded member lists and mixes of bit-fields, zero-width fields and packing.", "anchors": ["parse.c: struct_decl, union_decl, align_down", "codegen.c: align_to"]}
{"id": "C23", "title": "switch dispatch selects the right case", "statement": "The comparison chain emitted for a switch jumps to the label of the case (or case range) containing the controlling value, to default if none does, and past the switch if there is no default, for signed and unsigned 32- and 64-bit controlling values.", "quantifier": "for every set of case ranges and every controlling value", "why_tests_cant": "2^64 controlling values against arbitrary range sets; unsigned wrap tricks in the range test.", "anchors": ["codegen.c: gen_stmt (ND_SWITCH), imm_cmp, imm_sub", "parse.c: label_stmt, less_eq"]}
{"id": "C24", "title": "Case labels: overlap detection and range merging are exact", "statement": "A case label overlapping an earlier one is rejected, non-overlapping ones are accepted, and merging neighbouring ranges with the same target does not change which value goes to which label.", "quantifier": "for every sequence of case ranges", "why_tests_cant": "Range sets are unbounded.", "anchors": ["parse.c: label_stmt"]}
{"id": "C25", "title": "Enumerations get a type that represents every enumerator", "statement": "The compatible type chosen for an enumeration without fixed underlying type can represent all its enumerators, and each enumerator keeps its value.", "quantifier": "for every list of enumerator definitions; refuted for unsigned long values at or above 2^63", "why_tests_cant": "Depends on the running combination of negative and large values.", "anchors": ["parse.c: enum_specifier, update_enum_ty, in_ty_range"]}
{"id": "C26", "title": "Caller and callee agree on where every argument is", "statement": "For every parameter list, each argument is read by the callee from exactly the register or stack slot the caller wrote, no two arguments share a register or stack bytes, and stack slots respect alignment.", "quantifier": "for every list of parameter types", "why_tests_cant": "Unbounded parameter lists mixing integer, floating and aggregate classes around the register limits.", "anchors": ["codegen.c: calling_convention, has_flonum, place_reg_arg, gen_funcall_args, emit_text"]}
{"id": "C27", "title": "Aggregate argument classes follow the System V ABI", "statement": "An aggregate of at most 16 bytes is passed in the registers the System V AMD64 classification prescribes.", "quantifier": "for every aggregate type; refuted for aggregates containing long double and for an eightbyte without fields", "why_tests_cant": "Type space is infinite; failures only appear when linking with another compiler.", "anchors": ["codegen.c: has_flonum, has_flonum1, has_flonum2, calling_convention"]}
{"id": "C28", "title": "Local variables that are alive together do not overlap", "statement": "Stack offsets given to locals are aligned, negative and inside the frame; variables of the same scope or of nested scopes get disjoint byte ranges, and with stack reuse disabled all variables of the function do.", "quantifier": "for every tree of scopes with power-of-two alignments whose variables fit an int together; refuted for larger ones", "why_tests_cant": "Scope trees are unbounded.", "anchors": ["codegen.c: assign_lvar_offsets, get_lvar_align, align_to"]}
{"id": "C29", "title": "Emitted data directives reproduce the initialiser image", "statement": "The sequence of .quad/.int/.word/.byte directives emitted for a variable assembles to exactly its initial byte image with each relocation at its offset, and the total size is the variable's size.", "quantifier": "for every image and every ordered list of non-overlapping relocations", "why_tests_cant": "Images and relocation positions are unbounded.", "anchors": ["codegen.c: emit_data"]}
{"id": "C30", "title": "Static initialisation of bit-fields equals run-time assignment", "statement": "A bit-field initialised by a constant in a static object holds the same value as after assigning that constant at run time, and other bit-fields keep theirs.", "quantifier": "for every bit-field and constant; refuted for _Bool bit-fields and 64-bit-wide fields", "why_tests_cant": "Needs the cross product of width, offset, type and value, in two code paths.", "anchors": ["parse.c: write_gvar_data, read_buf, write_buf"]}
{"id": "C31", "title": "Block copy and block clear touch exactly their bytes", "statement": "The instruction sequences for copying or clearing n bytes copy/clear exactly the n bytes of the destination and change no other byte of memory.", "quantifier": "for every n, every memory contents and every non-overlapping source and destination", "why_tests_cant": "Every n and alignment of tail chunks.", "anchors": ["codegen.c: gen_mem_copy2, gen_mem_zero, store_gp2"]}
{"id": "C32", "title": "Deferred actions run exactly once, innermost first, on every exit", "statement": "Leaving scopes by falling off the end, break, continue, return or goto runs exactly the deferred actions of the scopes being left, in reverse order of registration, and none of the scopes that stay entered.", "quantifier": "for every nesting of scopes, every placement of deferred actions and jumps", "why_tests_cant": "Nestings and jump targets are unbounded.", "anchors": ["parse.c: leave_block_scope, resolve_goto_labels, resolve_labeled_jump, stmt, compound_stmt", "codegen.c: gen_defr"]}
{"id": "C33", "title": "No reachable function is dropped", "statement": "A function is emitted exactly when it is reachable through references from a root (non-static, or otherwise referenced) function or variable, however deep or cyclic the reference graph is.", "quantifier": "for every reference graph", "why_tests_cant": "Reference graphs are unbounded and may be cyclic.", "anchors": ["parse.c: mark_fn_live, parse", "codegen.c: codegen"]}
{"id": "C34", "title": "Compound assignment to an atomic object is atomic", "statement": "With any number of threads each performing compound assignments on the same atomic object in any interleaving, every completed operation takes effect exactly once and its result is the value computed from the value it replaced.", "quantifier": "for every interleaving of any number of threads", "why_tests_cant": "Interleavings cannot be enumerated by tests.", "anchors": ["parse.c: atomic_op, to_assign", "codegen.c: gen_expr2 (ND_CAS)"]}
{"id": "C35", "title": "Type compatibility is symmetric and reflexive", "statement": "If the compiler considers type A compatible with B it considers B compatible with A, every scalar, pointer, array and function type is compatible with itself, and qualifiers at the top level do not matter.", "quantifier": "for every pair of types", "why_tests_cant": "Types are an infinite inductive family.", "anchors": ["type.c: is_compatible, is_compatible2"]}
{"id": "C36", "title": "Identifier lookup finds the innermost visible declaration", "statement": "After any sequence of entering scopes, declaring names and leaving scopes, looking a name up gives its most recent declaration in the innermost open scope that declares it, and leaving a scope restores what was visible before entering.", "quantifier": "for every sequence of scope and declaration events", "why_tests_cant": "Event sequences are unbounded.", "anchors": ["parse.c: enter_scope, leave_scope, find_var, find_tag, push_scope"]}
{"id": "C37", "title": "Declaration specifiers accept exactly the valid type-specifier combinations", "statement": "A list of basic type specifiers is accepted exactly when it is, in some order, one of the combinations of the standard, and denotes the corresponding type.", "quantifier": "for every finite list of specifiers", "why_tests_cant": "Lists and orders are unbounded; the counter encoding could alias combinations.", "anchors": ["parse.c: declspec"]}
{"id": "C38", "title": "Include search follows the documented order", "statement": "#include \"f\" is found in the directory of the including file if present there, otherwise in the first directory of the search list containing it; #include_next continues strictly after the directory where the current file was found.", "quantifier": "for every search list, file system contents and sequence of lookups; the cache must not change results", "why_tests_cant": "The cache and the directory index interact over sequences of includes.", "anchors": ["preprocess.c: search_include_paths3, search_include_paths2, search_include_next, read_filename, include_file"]}
{"id": "C39", "title": "Dependency output can be read back by make", "statement": "Every file name printed by -MD/-MT/-MQ/-MP, read with make's quoting rules, is the name of the file.", "quantifier": "for every file name; refuted for the prerequisite list, which is printed unquoted", "why_tests_cant": "File names with blanks, dollars and backslashes in every arrangement.", "anchors": ["main.c: quote_makefile, print_dependencies"]}
{"id": "C40", "title": "Include path list is duplicate-free and order-preserving", "statement": "After any sequence of -I/-isystem/-idirafter options the search list contains each directory (up to trailing slashes) once, user directories before system directories, each in the order first given, and a directory given both ways is kept in its system position.", "quantifier": "for every option sequence", "why_tests_cant": "Option sequences are unbounded.", "anchors": ["main.c: add_include_path, parse_args"]}
{"id": "C41", "title": "Negated comparisons", "statement": "The code emitted for !(a op b) yields the logical negation of a op b.", "quantifier": "for every comparison, operand type and operand values; refuted for < <= > >= on floating operands when one is NaN", "why_tests_cant": "Only NaN operands in one optimiser path expose it.", "anchors": ["codegen.c: gen_bool_opt, bool_expr_opt, flip_cmp, gen_cond, gen_expr2"]}
{"id": "C42", "title": "Conversions from floating to integer types", "statement": "Converting a float, double or long double whose truncated value is representable in the target integer type gives that value, and restores the stack pointer and the x87 control word and stack.", "quantifier": "for every floating and integer type, every representable value and machine state; refuted for long double to short, unsigned short and unsigned int", "why_tests_cant": "Only particular target types and magnitudes fail; the values between 2^63 and 2^64 take a path of their own.", "anchors": ["codegen.c: cast_table, f32i8 to f80u64"]}
{"id": "C43", "title": "va_arg walks the arguments in order", "statement": "Successive va_arg calls with the types of the passed arguments give the places where the caller put these arguments, first in the register save area and then in the overflow area.", "quantifier": "for every parameter list and every list of variadic argument types", "why_tests_cant": "The register/stack switch-over depends on all earlier arguments.", "anchors": ["codegen.c: gen_expr2 (ND_VA_ARG, ND_VA_START), gen_vaarg_reg_copy, emit_text, calling_convention"]}
{"id": "C44", "title": "Folding constant offsets into addresses preserves the address", "statement": "The address computed for p[c], *(p + c) and member chains with constants folded into the displacement equals the address C prescribes.", "quantifier": "for every chain of constant offsets; refuted when the accumulated offset exceeds 32 bits", "why_tests_cant": "Needs offsets beyond 2 GiB.", "anchors": ["codegen.c: gen_deref_opt, gen_member_opt, load2, gen_expr_opt, gen_addr_opt"]}
{"id": "C45", "title": "Short-circuit conditions jump correctly", "statement": "The jump code emitted for a condition made of !, &&, ||, comparisons and boolean casts transfers control to the target exactly when the condition has the requested truth value, evaluating operands in order and only as far as C requires.", "quantifier": "for every condition tree and every values of its atoms", "why_tests_cant": "Condition trees are unbounded.", "anchors": ["codegen.c: gen_cond, gen_logical, bool_expr_opt, flip_cmp"]}
{"id": "C46", "title": "Atomic exchange yields the old value", "statement": "The value of an atomic exchange expression is the previous value of the object, converted like any value of the object's type.", "quantifier": "for every object type and contents; refuted for signed char and short objects", "why_tests_cant": "Only negative old values in small types fail, and only when the result is widened.", "anchors": ["codegen.c: gen_expr2 (ND_EXCH)", "parse.c: primary (__builtin_atomic_exchange)"]}
{"id": "C47", "title": "Character classification tables are searched correctly", "statement": "A character is classified as identifier character or as wide/zero-width exactly when some range of the corresponding table contains it.", "quantifier": "for every code point", "why_tests_cant": "Over a million code points per table.", "anchors": ["unicode.c: in_range, is_ident1, is_ident2, char_width"]}
{"id": "C48", "title": "Dynamic arrays of strings behave as lists", "statement": "After any sequence of pushes the array holds exactly the pushed strings in order, and every write lands inside the allocated capacity.", "quantifier": "for every push sequence", "why_tests_cant": "Growth boundaries recur at every power of two.", "anchors": ["strings.c: strarray_push"]}
{"id": "C49", "title": "Include-once bookkeeping is sound", "statement": "A header skipped because of #pragma once or a detected include guard would have contributed no tokens had it been read again.", "quantifier": "for every header text of the guarded shape and every macro table", "why_tests_cant": "Depends on the shape of arbitrary headers and macro states.", "anchors": ["preprocess.c: include_file, preprocess2, directives (detect of include guard)"]}
{"id": "C50", "title": "Post-increment rewrite", "statement": "Post-increment and post-decrement yield the old value of the object and leave the incremented value, with wrap-around for unsigned and _Bool objects as C prescribes.", "quantifier": "for every integer type and value", "why_tests_cant": "Boundary values of each type.", "anchors": ["parse.c: new_inc_dec", "codegen.c: gen_expr2 (ND_POST_INCDEC)"]}
{"id": "C51", "title": "Tokenization follows the lexical grammar", "statement": "Whenever a text is accepted, the tokens and the white space between them partition it; each token is the longest one of its kind at its place and has the kind, length, string elements or character value, beginning-of-line and leading-space flags that the grammar assigns.", "quantifier": "for every NUL-free text", "why_tests_cant": "Token boundaries depend on arbitrary neighbouring characters, comments, escapes and UTF-8 sequences.", "anchors": ["tokenize.c: tokenize, read_ident, read_punct, new_pp_number, read_escaped_char, read_string_literal, read_utf16_string_literal, read_utf32_string_literal, read_char_literal"]}
{"id": "C52", "title": "A returned structure arrives in the caller's object", "statement": "A structure or union of at most 16 bytes is loaded by the callee into the registers the System V ABI prescribes and stored by the caller into exactly the bytes of its result object; a larger one is copied to the address the caller passed, which is also the value of %rax.", "quantifier": "for every structure or union type, address and memory; refuted for packed structures with an unaligned floating field and for structures holding a long double", "why_tests_cant": "Type space is infinite; a wrong chunk size only shows in the bytes next to the result object or when linking with another compiler.", "anchors": ["codegen.c: copy_ret_buffer, copy_struct_reg, copy_struct_mem"]}
{"id": "C53", "title": "Simple assignment to an atomic object", "statement": "A simple assignment to an atomic integer object stores the value converted to the type of the object, changes no other memory, and yields the stored value.", "quantifier": "for every pair of object and value types, every value, address and memory; refuted for negative values widened to eight bytes, for _Bool objects, for floating objects and for the value of the expression when the conversion changes it", "why_tests_cant": "Only particular type pairs and values fail, and every value and layout has to be considered.", "anchors": ["parse.c: assign", "codegen.c: gen_expr2 (ND_EXCH)"]}
{"id": "C54", "title": "Conversions from integer to floating types", "statement": "Converting an integer to float, double or long double gives the nearest value of the type, the even one of two, also for unsigned values of 2^63 and above, where the code halves the value keeping the lost bit.", "quantifier": "for every integer type, every value and floating type", "why_tests_cant": "Double rounding shows only for few of the 2^63 large values.", "anchors": ["codegen.c: cast_table, i32f32 to u64f80"]}
{"id": "C55", "title": "Statements compute what C says", "statement": "The code of a statement built from assignments, compound assignments, increments, decrements, blocks, if, for, while, do, break, continue and return over integer variables ends at the right place with every variable holding the value C gives it and a returned value in the result register. Other memory and the preserved registers keep their contents, and all labels are distinct.", "quantifier": "for every statement, every terminating execution, every initial values of the variables, their placement, with and without optimisation", "why_tests_cant": "The number of statements, nestings and executions is unbounded; a label reused at a certain nesting depth or a store of the wrong size shows only in particular programs and values.", "anchors": ["parse.c: stmt, assign, to_assign, new_inc_dec, loop_body", "codegen.c: gen_stmt, gen_void_expr, gen_void_assign, gen_void_arith_assign, memop_arith, store"]}
{"id": "C56", "title": "Expressions are parsed as the grammar says", "statement": "Every expression of the C grammar (with casts, sizeof, calls, member access, all operators, ?: with omitted operand, label addresses) is parsed up to its end to the tree the grammar gives it, which is the only one; the parser ends on every token list; in a text without type names it accepts only phrases of the grammar, slightly enlarged, with their trees. Refuted for texts with type names, where the rest of a parenthesised abstract declarator is not looked at.", "quantifier": "for every token list, every derivation in the grammar, every set of typedef names", "why_tests_cant": "Expressions nest without bound; a precedence or associativity error shows only for particular neighbouring operators.", "anchors": ["parse.c: expr, assign, conditional, log_or to mul, cast, unary, postfix, funcall, primary, is_typename_paren, skip_paren"]}
{"id": "C57", "title": "Declarators and type names mean the types C gives them", "statement": "A declarator or type name of the C grammar, with pointers, arrays, functions, qualifiers, static bounds and parameter lists nested in any way, is parsed up to its end to the declared name and type, parameters being adjusted; the grammar gives it one meaning only. Refuted for qualifiers after static in brackets and for typedef names redeclared in parentheses.", "quantifier": "for every base type and every derivation in the grammar", "why_tests_cant": "Declarators nest without bound and read inside out; the parser reads the suffixes before the inner declarator.", "anchors": ["parse.c: declarator, pointers, pointer_qualifiers, type_suffix, array_dimensions, func_params, typename"]}
{"id": "C58", "title": "Initializers give every part of an object the value C gives it", "statement": "The parser takes every initializer of C (braces left out or nested, designators, strings, structure values, anonymous members, unions), and the assignments it makes leave in each scalar part the expression, the character or the zero that C's current-object rules give it; an array of unknown bound gets the right length; the parser ends on every token list. Refuted for initializers that override an earlier one in part, for a trailing comma after a braced string or scalar, for empty braces of a scalar, and for indices outside the range of int or below zero.", "quantifier": "for every object type, every initializer without partial overriding, every assignment of types to its expressions; the end for all token lists", "why_tests_cant": "Types and initializers nest without bound; the position after a designator or a left out brace depends on all enclosing types.", "anchors": ["parse.c: initializer2, list_initializer, braced_initializer, designation, array_designator, struct_designator, count_array_init_elements, string_initializer, skip_excess_element, create_lvar_init"]}
{"id": "C59", "title": "Expressions have the types C gives them, and pointer arithmetic the values", "statement": "For members, subscripts, calls, ++, &, *, casts, binary operators, ?:, assignments, comma and _Generic, the parser and add_type accept every expression the typing relation accepts and give it the type of C, with qualifiers for lvalues, the width for bit-fields, and the right answer to whether it is a null pointer constant; p + i and p - i scale in 64 bits for an index of every integer type; p - q counts elements. Refuted for listed cases (const of the second pointer of ?:, function designators in ?: and comma, qualifiers of anonymous members, _Atomic members, qualified null pointers, atomic assignment, 1.5 & 2, incomplete elements, elements of 2^32 bytes or of variable length).", "quantifier": "for every expression and every table of structures; for all indices, sizes and addresses", "why_tests_cant": "Expressions nest without bound and the type of each part decides conversions and scaling of the whole.", "anchors": ["parse.c: new_add, new_sub, struct_ref, new_inc_dec, to_assign, assign, conditional, generic_selection, postfix, unary, cast", "type.c: add_type, usual_arith_conv, get_common_type, int_promotion, is_nullptr"]}
{"id": "C60", "title": "Declarations define the symbols C says, once, and names in functions stand for the right ones", "statement": "For every valid translation unit outside the listed cases, the parser accepts it; the symbols written are exactly those C defines (an initialized or tentatively defined object with its composite type, a function with its linkage, inline included), each once, with size, alignment, thread storage and initial value; every name used in a body, through nested blocks with locals, typedef names, extern and function declarations, stands for the right entity. Two definitions of a name are never accepted. Refuted: lengths lost by a later declaration, extern after static with an initializer, extern after an inline definition, alignment of a structure completed later, block declarations under a local of the name, and acceptance of conflicting types.", "quantifier": "for every translation unit of objects, structures and functions with bodies of nested blocks", "why_tests_cant": "Declarations of one name come any number of times, in any order and scope, and each changes the state the next one meets; tests try a few orders.", "anchors": ["parse.c: global_declaration, func_prototype, func_definition, find_func, new_gvar, compound_stmt", "codegen.c: emit_data, emit_symbol"]}
{"id": "C61", "title": "The statements of a function are read by the grammar of C and every jump goes to the statement C names", "statement": "A function body is accepted exactly when it is derived by the statement grammar, every break and continue has an enclosing loop or switch with the name it gives, every goto names a label of the function, every case and default is inside a switch, and no switch has two defaults. The tree built is the one derivation there is (an else belongs to the nearest if). The unique labels made are distinct, every break and continue carries that of the right enclosing statement, every goto that of a label with its name, and every switch node holds exactly its own case and default labels.", "quantifier": "all token sequences, all nestings of statements, labels and declarations", "why_tests_cant": "Nesting is unbounded and the jump contexts are a stack changed by every statement; tests use shallow nestings and rarely mix named loops, switches and labels.", "anchors": ["parse.c: stmt, secondary_block, compound_stmt, label_stmt, loop_body, resolve_labeled_jump, cond_declaration, resolve_goto_labels"]}
{"id": "C62", "title": "Operands of extended asm are where their constraints allow, out of each other's way and away from clobbers, with their values, and the results are stored", "statement": "When prepare_inline_asm accepts the operands and clobbers of an asm statement, each operand is in a place its constraint allows (immediate, symbol, memory, register of a letter's class, register of the operand it names, flag); two operands never have one register unless one is an input and the other an output written late or the one it names; no operand is in a clobbered register; the latter two for operands whose register is not chosen by the programmer. Refuted: constants out of the range of I to N, operands that name one in memory, registers chosen twice or clobbered, names of registers above 15. The code emitted around the instructions gives every operand its value (or address) when the instructions start, and afterwards stores every output into its object, keeps all other memory, the stack and the registers the callers rely on, whatever the instructions do to their outputs and clobbers. Refuted: a bit-field that is input and output, a condition after a bit-field output.", "quantifier": "all lists of operands, constraint strings and clobbers", "why_tests_cant": "The assignment works greedily over any number of operands and its state couples all of them; tests use few operands with common constraints.", "anchors": ["codegen.c: ident_reg, asm_clobbers, asm_get_use, asm_set_use, asm_constraint, asm_assign_oprands, acquire_gp, prepare_inline_asm, asm_gen_ptr, asm_reg_input, asm_reg_output, asm_bitfield_out, asm_xmm_inputs, asm_gp_inputs, asm_outputs, asm_push_clobbers, asm_push_frame_ptr, gen_asm"]}
{"id": "C63", "title": "Preprocessed output is read as the tokens it was written for", "statement": "The text print_tokens writes for the tokens of any file is tokenized into tokens with the same kinds, values and spellings and the same white space apart from indentation; the same holds for tokens of any number of files and macros, with line markers where the file changes, if every run of tokens written without white space is read as these tokens when alone. The phases before the tokenizer leave the output as it is unless a backslash precedes a newline. Refuted: tokens from macro expansion that merge (-M with #define M -), a stray backslash at the end of a line, line numbers, quotes in file names.", "quantifier": "all source texts, token sequences, file names and line numbers", "why_tests_cant": "Whether two tokens may touch depends on the maximal munch rules of every token class and of what follows; tests print a few programs and cannot show that no sequence merges.", "anchors": ["main.c: print_tokens", "tokenize.c: tokenize, read_punct, read_ident, string and character literal readers"]}
{"id": "C64", "title": "Assignments to bit-fields store and yield what C says", "statement": "For every integer bit-field (declared type, width, position) and every s.x = e, s.x op= e, ++s.x, --s.x, s.x++ and s.x-- with e an integer expression: the code puts the bits of the value C prescribes into the field, changes no other bit of the storage unit, no other memory outside the area of temporaries and no preserved register, and leaves the value of the expression in %rax when it is used. Excluded: fields and values wrong already by C21. Refuted for divisions: u /= -1 with a narrow unsigned field, which is computed in the declared type and not in int.", "quantifier": "all declared types, widths, positions, values of the unit, right operands, environments and compiler states, with and without optimisation", "why_tests_cant": "The property combines 11 types, up to 64 widths and positions and all values; two's complement wrap hides a wrong operand type for most operators and most values.", "anchors": ["codegen.c: gen_expr2 (ND_ASSIGN, ND_ARITH_ASSIGN, ND_POST_INCDEC), gen_bitfield_load, gen_bitfield_store, gen_expr_null_lhs", "parse.c: assign, to_assign, new_inc_dec"]}
{"id": "C65", "title": "Arguments of calls have the values C says, in the places the ABI says", "statement": "For every list of integer arguments (any number, any types, with or without prototype) whose values C defines: after the code generated for the arguments, the i-th argument, converted to the type of its parameter or promoted, is in the i-th of %rdi, %rsi, %rdx, %rcx, %r8, %r9, or from the seventh on in the stack at eight bytes each from %rsp; no argument overwrites another one, a variable of the program, a preserved register, or memory other than the objects made for the arguments and the area of temporaries.", "quantifier": "all argument lists, environments, variable placements and compiler states, with and without optimisation, with and without a hidden result pointer", "why_tests_cant": "Which argument is evaluated when and through which temporary depends on the form of every argument; prepare_funcall and gen_funcall_args must agree on every one, and a clobbered register shows only for particular combinations of arguments.", "anchors": ["codegen.c: prepare_funcall, gen_funcall_args, place_reg_arg, calling_convention, load_val2, gen_load_opt_gp, gen_var_assign", "parse.c: funcall"]}
{"id": "C66", "title": "A function called as the ABI says does what C says and restores the caller's state", "statement": "For every function with integer parameters (any number, in registers and on the stack) whose body consists of the statements of C55, with or without over-aligned locals: if the parameters are passed as the System V ABI says and C defines the execution of the body, the code from the first instruction to the ret ends with the returned value in %rax (0 at the end of main), with %rsp, %rbp, %rbx and the return address as they were, the variables as C says, and no other memory changed than the frame and the variables; after the prologue %rsp is below all temporaries and 16-byte aligned if the caller aligned it.", "quantifier": "all functions, parameter lists, alignments, variable placements and initial machine states, with and without optimisation", "why_tests_cant": "The stack allocation is patched into the prologue after the body has been generated, from the peak of temporaries; whether it is large enough and whether the saved registers survive depends on the whole body, and a frame one slot too small shows only when a signal or a callee overwrites it.", "anchors": ["codegen.c: emit_text, store_gp, assign_lvar_offsets, insrtln, resrvln"]}
{"id": "C67", "title": "A call gives the callee the values of the arguments, its result to the caller, and leaves the caller's state alone", "statement": "For every call by name of a function with integer parameters (any number of arguments): if C defines the values of the arguments and the execution of the callee's body from parameters with those values, the caller's code reaches the call instruction, the callee's code runs to its ret and finds the return address, and the caller's code ends with the result in %rax and %rsp, %rbp, %rbx restored; globals have the values given by the callee, the caller's other variables keep theirs, and no other memory changes than the two frames and variables. Temporaries of the caller that are live across the call are kept in its frame and not in registers.", "quantifier": "all argument and parameter lists, caller and callee placements, frame alignments, bodies of C55 statements and machine states, with and without optimisation", "why_tests_cant": "Caller and callee are generated separately and must agree on argument slots, stack adjustment and preserved registers; a disagreement for one count or one mix of argument expressions shows only for that call, and only if the overwritten slot is used later.", "anchors": ["codegen.c: gen_funcall, gen_funcall_args, calling_convention, clobber_all_regs, emit_text"]}
{"id": "C68", "title": "_Generic chooses the expression that the standard chooses", "statement": "For every generic selection that meets the constraints of 6.5.1.1 (types without enumerations or atomic parameters, array types without qualifiers of their own), generic_selection returns the expression of the association whose type is compatible with the converted type of the controlling expression, the default one if there is none, and rejects the selection if there is neither; an association with a function type is never accepted.", "quantifier": "all controlling types, all association lists in any order, all descriptors in memory that stand for the types", "why_tests_cant": "The loop keeps a tentative result that defaults and matches overwrite in different ways, and the comparison goes through chains of type copies; the right choice in one order of associations says nothing about another.", "anchors": ["parse.c: generic_selection", "type.c: is_compatible2, unqual, pointer_to"]}
{"id": "C69", "title": "#embed gives the bytes of the resource, and __has_embed says what #embed would do", "statement": "For every resource, every list of the standard parameters limit, prefix, suffix and if_empty (each at most once, in any order, with any balanced token sequences) and every limit that is not negative, the directive is replaced by the tokens C23 6.10.4 says (the comma-separated values of the bytes under the limit between prefix and suffix, or the if_empty sequence), and __has_embed has the value 1, 2 or 0 of 6.10.1; a missing resource or another parameter is an error for #embed and 0 for __has_embed.", "quantifier": "all resources, parameter lists, balanced sequences, limits and continuations", "why_tests_cant": "The parameter sequences are cut out of one token list in place, with nested parentheses, in an order that differs from the order they were written in; combinations of the four parameters with empty, short and limited resources are too many to try.", "anchors": ["preprocess.c: embed_file, split_paren2, has_embed_macro", "parse.c: skip_paren"]}
{"id": "C70", "title": "#line gives the lines after it the numbers and names C says", "statement": "In every file with any number of #line directives (each on one physical line, with a digit sequence without a leading zero and a value below 2^31, and with or without a name), every token, __LINE__ and __FILE__ has the presumed line number and name of its line: the line after a directive has the number it says, every other line the number after the line before, and a name holds until the next one.", "quantifier": "all sequences of directives and tokens, all numbers and names", "why_tests_cant": "The compiler keeps one signed difference per file that every directive replaces; whether it stays right over any sequence of directives, forward and backward, is an invariant and not a matter of samples.", "anchors": ["preprocess.c: read_line_marker, preprocess2, line_macro, file_macro, directives"]}
{"id": "C71", "title": "-D defines a macro as the #define directive it stands for", "statement": "For every name and every text without a newline that does not begin with an equals sign, -Dname=text gives the macro the name, the tokens and the white space of #define name text (whenever that text can be tokenized), and -Dname gives it the body 1.", "quantifier": "all names of letters, digits and underscores, all texts", "why_tests_cant": "The argument is tokenized before the equals sign is looked for, so the tokens on both sides of it depend on each other; texts and their first characters cannot be enumerated.", "anchors": ["preprocess.c: define_macro_cli, read_macro_name", "tokenize.c: tokenize"]}
{"id": "C72", "title": "The driver tells files apart by their names and names its outputs after them", "statement": "For every file name: the kind of file the driver takes it for is one its extension (or version after .so) stands for, and every name with such an extension or version is taken for that kind, unless an earlier .so. stands in it; the default output is the last component of the path with its extension replaced, and the file for dependencies is the one the options say if the argument of -o has no directory.", "quantifier": "all names of any length", "why_tests_cant": "Extensions overlap (.so, .o, .s) and the search for .so. runs over the whole path; names cannot be enumerated.", "anchors": ["main.c: endswith, replace_extn, get_file_type, print_dependencies (path)"]}
{"id": "C73", "title": "_Pragma is the directive its string literal stands for", "statement": "For every string literal without prefix and backslash, the tokens put in place of _Pragma(literal) are those of the line #pragma with the text the literal stands for; and for every token the buffer the text is built in is not overrun.", "quantifier": "all literals of any length and content", "why_tests_cant": "The content of the literal is any text; buffer sizes off by one show only under a checker of memory and for one length.", "anchors": ["preprocess.c: pragma_macro"]}
{"id": "C74", "title": "Options are given the values written after them", "statement": "For every command line: an option with a value takes the next argument or the rest of its own, no other argument is taken for it, a missing value is an error, and the index stays inside argv; -Wl, and -Wa, pass on the non-empty texts between commas in order.", "quantifier": "all lists of arguments of any length and content", "why_tests_cant": "Both spellings of every option with every neighbour, and a value that is missing at the end of argv, cannot be enumerated.", "anchors": ["main.c: startswith, take_arg, take_arg_s, comma_arg"]}
