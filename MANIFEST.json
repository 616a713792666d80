{
 "claims": [
  {
   "property": "C01",
   "status": "proved",
   "theorems": [
    "C01_hashmap_is_finite_map",
    "C01_hashmap_any_hash"
   ],
   "note": "any history of put/get/delete; any hash function"
  },
  {
   "property": "C02",
   "status": "proved",
   "theorems": [
    "C02_hashmap_never_aborts",
    "C02_hashmap_spare_slot",
    "C02_hashmap_unbounded_refuted"
   ],
   "note": "holds below the int capacity bound; the unbounded version is refuted"
  },
  {
   "property": "C03",
   "status": "proved",
   "theorems": [
    "C03_arena_blocks",
    "C03_arena_any_size_refuted"
   ],
   "note": ""
  },
  {
   "property": "C04",
   "status": "proved",
   "theorems": [
    "C04_encode_is_utf8",
    "C04_utf8_roundtrip",
    "C04_utf8_all_code_points_refuted",
    "C04_decode_stays_in_buffer"
   ],
   "note": ""
  },
  {
   "property": "C05",
   "status": "proved",
   "theorems": [
    "C05_utf16_literal",
    "C05_utf32_literal"
   ],
   "note": ""
  },
  {
   "property": "C47",
   "status": "proved",
   "theorems": [
    "C47_ident_start",
    "C47_ident_continue",
    "C47_char_width"
   ],
   "note": ""
  },
  {
   "property": "C48",
   "status": "proved",
   "theorems": [
    "C48_strarray_is_list"
   ],
   "note": ""
  },
  {
   "property": "C15",
   "status": "proved",
   "theorems": [
    "C15_expression_types",
    "C15_common_type",
    "C15_cast_of_field_value_refuted"
   ],
   "note": "holds for every expression in which no cast is applied to a comma expression designating a bit-field; refuted without that condition"
  },
  {
   "property": "C16",
   "status": "proved",
   "theorems": [
    "C16_folding_sound",
    "C16_folding_complete",
    "C16_tree_value",
    "C16_front_end_total",
    "C16_no_host_overflow_refuted"
   ],
   "note": "integer expressions; the compiler's own int64_t arithmetic wraps in the completeness half, refuted under the strict reading"
  },
  {
   "property": "C17",
   "status": "proved",
   "theorems": [
    "C17_redundant_cast"
   ],
   "note": ""
  },
  {
   "property": "C18",
   "status": "proved",
   "theorems": [
    "C18_expression_code",
    "C18_codegen_total",
    "C18_codegen_total_refuted"
   ],
   "note": "Integer expressions without assignments, calls, pointers or floating point; optimised and unoptimised output, register and stack temporaries. Totality needs constant shift counts that fit an immediate; refuted without that condition."
  },
  {
   "property": "C20",
   "status": "proved",
   "theorems": [
    "C20_arithmetic_by_constant",
    "C20_shift_by_constant",
    "C20_division_by_constant"
   ],
   "note": "32- and 64-bit operations."
  },
  {
   "property": "C45",
   "status": "proved",
   "theorems": [
    "C45_condition_code"
   ],
   "note": "Jump code for conditions over the same expressions as C18."
  },
  {
   "property": "C06",
   "status": "proved",
   "theorems": [
    "C06_splicing",
    "C06_line_numbers",
    "C06_token_lines",
    "C06_own_line_refuted"
   ],
   "note": "Line numbers are those of the first physical line of the logical line; the character's own line is refuted."
  },
  {
   "property": "C07",
   "status": "proved",
   "theorems": [
    "C07_tokenizer_in_bounds",
    "C07_file_in_bounds",
    "C07_any_file_refuted",
    "C07_pasted_text_refuted",
    "C07_empty_file_refuted"
   ],
   "note": "Holds for every text ending in a newline; refuted for files ending in a splice, for pasted text and for the empty file."
  },
  {
   "property": "C08",
   "status": "proved",
   "theorems": [
    "C08_integer_constant",
    "C08_only_constants",
    "C08_conversion_in_bounds",
    "C08_too_large_refuted",
    "C08_doubled_prefix_refuted"
   ],
   "note": "All integer constants the standard gives a type; beyond that refuted. The floating-point branch (strtold) is not modelled."
  },
  {
   "property": "C09",
   "status": "proved",
   "theorems": [
    "C09_punctuators",
    "C09_digraphs_refuted"
   ],
   "note": "All punctuators except the digraphs, which are refuted."
  },
  {
   "property": "C51",
   "status": "proved",
   "theorems": [
    "C51_tokens_follow_grammar"
   ],
   "note": "Every accepted text; the accepted language itself (u8 character constants, C23 checks) is not compared with ISO C."
  },
  {
   "property": "C10",
   "status": "proved",
   "theorems": [
    "C10_conditional_inclusion",
    "C10_errors_reported",
    "C10_balanced",
    "C10_null_directive_refuted",
    "C10_missing_operand_refuted",
    "C10_ifdef_at_end_refuted"
   ],
   "note": "Directive names and operands on their own line; refuted for null directives and missing operands. Evaluation of the condition is a parameter; macro expansion of text lines is not part of this model."
  },
  {
   "property": "C12",
   "status": "proved",
   "theorems": [
    "C12_objlike_replacement",
    "C12_call",
    "C12_terminates",
    "C12_parens_kept",
    "C12_unbalanced_refuted",
    "C12_empty_operand_refuted",
    "C12_hash_operand_refuted"
   ],
   "note": "Object-like: exact result, without ##. Calls of function-like macros outside other macros: exact substitution with # and ##, without __VA_OPT__, ,## and # after ##; refuted when the first operand of ## is empty. Termination and parentheses when replacement lists have paired parentheses, refuted otherwise. Built-in macros with a handler, __VA_TAIL__ and directives inside arguments are not modelled."
  },
  {
   "property": "C49",
   "status": "proved",
   "theorems": [
    "C49_guard_sound",
    "C49_unbalanced_refuted"
   ],
   "note": "Files whose conditionals are balanced; refuted otherwise."
  },
  {
   "property": "C13",
   "status": "proved",
   "theorems": [
    "C13_stringize",
    "C13_quoted_name",
    "C13_file_refuted"
   ],
   "note": "Operands without stray backslashes or quotes outside literals, where ISO C leaves # undefined. Names with backslashes or quotes are refuted."
  },
  {
   "property": "C14",
   "status": "proved",
   "theorems": [
    "C14_concat",
    "C14_u8_u16_refuted",
    "C14_u16_u8_refuted"
   ],
   "note": "Every run of literals without both u8 and u; with both, refuted. Success is guaranteed for one-byte elements and for ASCII bodies; otherwise invalid UTF-8 may be refused."
  },
  {
   "property": "C19",
   "status": "proved",
   "theorems": [
    "C19_temporaries_apart",
    "C19_every_temporary"
   ],
   "note": "Every sequence of pushes, pops and clobbers; that each code path clobbers what it overwrites is not part of this model."
  },
  {
   "property": "C28",
   "status": "proved",
   "theorems": [
    "C28_frame_layout",
    "C28_frame_fits",
    "C28_huge_refuted"
   ],
   "note": "Every tree of scopes whose variables are certain to fit 2 GiB together; false beyond (4 GiB array laid over another variable)."
  },
  {
   "property": "C22",
   "status": "proved",
   "theorems": [
    "C22_struct_layout",
    "C22_members_apart",
    "C22_union_layout",
    "C22_huge_refuted",
    "C22_huge_union_refuted",
    "C22_packed_unit_refuted",
    "C22_packed_outside_refuted",
    "C22_asked_refuted"
   ],
   "note": "All member lists certain to fit an int in bits; false beyond (512 MiB member overlapped), for units of packed bit-fields, and for alignment asked of struct members of packed structs."
  },
  {
   "property": "C23",
   "status": "proved",
   "theorems": [
    "C23_dispatch",
    "C23_switch_code",
    "C23_total",
    "C23_small_unsigned_refuted",
    "C23_wide_range_refuted"
   ],
   "note": "Integer controlling expressions of C18, bit-fields of types up to 4 bytes included. False for ranges with ends of different sign on unsigned types smaller than int; the compiler overflows on ranges whose ends differ by 2^63."
  },
  {
   "property": "C24",
   "status": "proved",
   "theorems": [
    "C24_labels_accepted",
    "C24_one_place",
    "C24_small_unsigned_refuted"
   ],
   "note": "Ranges with ends of one sign when the type is unsigned and smaller than int; false otherwise. That merging changes nothing is part of C23_dispatch."
  },
  {
   "property": "C21",
   "status": "proved",
   "theorems": [
    "C21_store",
    "C21_fields",
    "C21_load_after_store",
    "C21_load",
    "C21_total",
    "C21_load_refuted",
    "C21_value_refuted",
    "C21_width63_refuted",
    "C21_straddle_refuted"
   ],
   "note": "Stores: every field inside its unit of width other than 63. Loads and the value of the assignment: false for fields of 64-bit types of 8, 16 or 32 bits on a byte boundary. Packed fields across their unit: false."
  },
  {
   "property": "C29",
   "status": "proved",
   "theorems": [
    "C29_emit",
    "C29_object"
   ],
   "note": "Every image below 2 GiB with relocations in order and inside it (C29_object: what initialisers produce). Section, symbol and .comm directives are not modelled."
  },
  {
   "property": "C30",
   "status": "proved",
   "theorems": [
    "C30_image",
    "C30_field",
    "C30_bool_refuted",
    "C30_width_refuted",
    "C30_packed_refuted"
   ],
   "note": "All integer, pointer, array, struct and union types; bit-fields up to 62 bits. False for _Bool bit-fields with even constants; undefined shift in the compiler for 63 and 64 bits; access outside the buffer for packed bit-fields. Floating-point members, copies of constant objects and the parsing of initialiser lists are not modelled."
  },
  {
   "property": "C25",
   "status": "proved",
   "theorems": [
    "C25_enum_type",
    "C25_fixed_type",
    "C25_large_refuted",
    "C25_last_refuted",
    "C25_fixed_int_refuted",
    "C25_fixed_uint_refuted",
    "C25_fixed_ulong_refuted",
    "C25_reference_refuted"
   ],
   "note": "Without fixed type: all values below 2^64 - 2^31 other than 2^63 - 1. With fixed type: types other than int, unsigned int and 64-bit unsigned. False outside: 2^64 - 1 gets a 4-byte type, a fixed type int turns int itself unsigned, references to enumerators inside the list are cut to int."
  },
  {
   "property": "C36",
   "status": "proved",
   "theorems": [
    "C36_lookup",
    "C36_restore"
   ],
   "note": "Any sequence of scope, declaration and lookup events with at most 21474837 declarations, any hash function; values are non-null pointers. Function scopes re-entered by func_definition (ty->scopes) are the same stack operations."
  },
  {
   "property": "C33",
   "status": "proved",
   "theorems": [
    "C33_written",
    "C33_closed",
    "C33_roots"
   ],
   "note": "For every graph; which names a body mentions is an input (primary, attr_cleanup push them). Recursion depth of mark_fn_live on the host stack is not modelled."
  },
  {
   "property": "C37",
   "status": "proved",
   "theorems": [
    "C37_keywords",
    "C37_one_type",
    "C37_other",
    "C37_two_types",
    "C37_tag_after_type",
    "C37_two_tags",
    "C37_qualifiers_refuted",
    "C37_signed_twice_refuted",
    "C37_implicit_int_refuted",
    "C37_storage_refuted",
    "C37_atomic_refuted"
   ],
   "note": "Any list of keyword specifiers with qualifiers and storage classes in between (signed/unsigned not repeated, no typedef with another storage class), or with one struct/union/enum/typeof/typedef name. Refuted: qualifiers of a typedef name are lost when others are added (atomicity too), signed signed, no type specifier, typedef static, _Atomic(type) next to another type."
  },
  {
   "property": "C40",
   "status": "proved",
   "theorems": [
    "C40_search_list",
    "C40_no_duplicates",
    "C40_complete"
   ],
   "note": "Any sequence of options and any list of standard directories (C strings)."
  },
  {
   "property": "C38",
   "status": "proved",
   "theorems": [
    "C38_paths",
    "C38_next",
    "C38_has_include_refuted",
    "C38_two_ways_refuted"
   ],
   "note": "Any file system that does not change, any sequence of lookups. #include_next is right if only #include/#include_next look up and no file is found in two ways; refuted after __has_include and for files reachable through two directories."
  },
  {
   "property": "C39",
   "status": "proved",
   "theorems": [
    "C39_quote_bounds",
    "C39_quote",
    "C39_phony",
    "C39_dependencies",
    "C39_prerequisite_refuted",
    "C39_backslash_refuted",
    "C39_end_refuted",
    "C39_colon_refuted"
   ],
   "note": "Targets and phony targets read back for names without colon, newline, backslash before # or at the end; prerequisites only if they need no quoting (refuted otherwise). Make's reading rules are MakeSpec.word/words/rules."
  },
  {
   "property": "C35",
   "status": "proved",
   "theorems": [
    "C35_compatible",
    "C35_compatible2",
    "C35_symmetric",
    "C35_reflexive",
    "C35_qualified",
    "C35_pointer",
    "C35_array",
    "C35_vla",
    "C35_unqual",
    "C35_function",
    "C35_enum_refuted",
    "C35_atomic_parameter_refuted",
    "C35_flexible_refuted",
    "C35_const_array_refuted",
    "C35_fixed_enum_refuted"
   ],
   "note": "Symmetric and reflexive for all representable types; equal to the standard's relation for types without enumerations and atomic parameters (refuted for those). Old-style (unprototyped) functions are not modelled."
  },
  {
   "property": "C31",
   "status": "proved",
   "theorems": [
    "C31_copy",
    "C31_zero",
    "C31_store",
    "C31_large_refuted",
    "C31_zero_refuted"
   ],
   "note": "Exact bytes for every size up to INT_MAX (copies), INT_MAX-16 (clears), 1..8 (register stores); refuted for structures beyond 2 GiB, whose size is truncated, and for clears within 16 of INT_MAX. The SSE moves are specified in Sse.v (trusted)."
  },
  {
   "property": "C26",
   "status": "proved",
   "theorems": [
    "C26_registers",
    "C26_stack",
    "C26_scalar",
    "C26_overread_refuted",
    "C26_empty_refuted"
   ],
   "note": "Values carried through registers by gen_funcall_args/place_reg_arg and the callee's prologue for every list of argument types; stack slots inside the area, aligned and disjoint; scalars extended to 32 bits and read from their own bytes. Refuted: a structure whose size is not a multiple of 8 is read beyond its end by the caller."
  },
  {
   "property": "C27",
   "status": "proved",
   "theorems": [
    "C27_places",
    "C27_long_double_refuted",
    "C27_padding_refuted",
    "C27_unnamed_refuted",
    "C27_packed_refuted"
   ],
   "note": "Every argument list of naturally aligned types without long double fields and without an eightbyte of padding gets the places of the ABI; refuted for the other types."
  },
  {
   "property": "C52",
   "status": "proved",
   "theorems": [
    "C52_registers",
    "C52_memory",
    "C52_abi",
    "C52_packed_refuted",
    "C52_long_double_refuted"
   ],
   "note": "Callee and caller code for structure results; refuted for packed structures (the caller writes past its object) and for long double fields (ABI: st0)."
  },
  {
   "property": "C43",
   "status": "proved",
   "theorems": [
    "C43_va_arg",
    "C43_pointer_refuted"
   ],
   "note": "For every list of named and anonymous argument types: loading the registers and %al, saving the registers in the callee, va_start and any sequence of va_arg deliver the bytes of the anonymous arguments in order, whatever the program does in between to other objects. Refuted for a call through a pointer: the pointer type has is_variadic clear, so %al is not set and the callee may not save the floating registers."
  },
  {
   "property": "C32",
   "status": "proved",
   "theorems": [
    "C32_discipline",
    "C32_switch_refuted",
    "C32_defer_loop_refuted"
   ],
   "note": "For every function body and every path through its code (conditions arbitrary): an action that is run is the last registered one not yet run, stack pointer resets go to an array that is still allocated, nothing is pending on return, every expression sees exactly the actions the scope rules say, and labels are unique. Conditions: no loops, switches or labels inside deferred statements, and no case label past a registration of its switch; C32_switch_refuted and C32_defer_loop_refuted show the compiler accepts programs without them and gets them wrong. Statement expressions, computed goto, asm and case values are not modelled."
  },
  {
   "property": "C34",
   "status": "proved",
   "theorems": [
    "C34_atomic",
    "C34_alone",
    "C34_operand_refuted"
   ],
   "note": "Every interleaving of any number of threads and arbitrary other changes of the object; integer, pointer, float and double objects. The operation is a function of the old value; evaluation of the operand happens before the loop and is not modelled. Refuted for operands whose type is not known yet and for atomic pointers (the compiler dereferences a null pointer)."
  },
  {
   "property": "C46",
   "status": "proved",
   "theorems": [
    "C46_exchange",
    "C46_small_refuted"
   ],
   "note": "Machine code of the exchange on the x86 model; refuted for small types."
  },
  {
   "property": "C53",
   "status": "proved",
   "theorems": [
    "C53_assign",
    "C53_refuted"
   ],
   "note": "Machine code of an assignment to an atomic object from the point where the value is in its temporary variable."
  },
  {
   "property": "C41",
   "status": "proved",
   "theorems": [
    "C41_compare",
    "C41_negated",
    "C41_branch",
    "C41_negated_refuted"
   ],
   "note": "Comparisons of float, double and long double values (including unordered ones) and their negations, as values and as branches. The value of a negated ordering comparison of unordered operands is wrong when optimising: C41_negated_refuted; branches are always right."
  },
  {
   "property": "C42",
   "status": "proved",
   "theorems": [
    "C42_to_int",
    "C42_f80_refuted"
   ],
   "note": "All conversions float, double, long double to integer types other than _Bool, whenever the truncated value is representable; refuted for long double to short (below 0 or above 255), unsigned short (above 32767) and unsigned int (from 2^31). Floating values are dyadic numbers with a bounded mantissa and unbounded exponent; addition and subtraction are only assumed exact when the exact result has such a mantissa."
  },
  {
   "property": "C54",
   "status": "proved",
   "theorems": [
    "C54_to_float"
   ],
   "note": "All conversions of integer types to float, double, long double: round to nearest, ties to even, including the halving with a sticky bit for unsigned 64-bit values. cvtsi2ss and cvtsi2sd are modelled as rounding to nearest."
  },
  {
   "property": "C55",
   "status": "proved",
   "theorems": [
    "C55_statement_code",
    "C55_labels_distinct"
   ],
   "note": "Integer variables that are in memory and do not overlap (locals, globals, constants known to the compiler); expressions as in C18 except bit-fields. Executions that end: divergence is not covered. Switch, goto, declarations, calls, asm and defer are not in the statements of this model (see C28, C32, C49)."
  },
  {
   "property": "C11",
   "status": "proved",
   "theorems": [
    "C11_if_value",
    "C11_if_small",
    "C11_intmax_refuted"
   ],
   "note": "Proved where the C types of the operands lose nothing (modest), in particular for int values (small); refuted in general: operands keep their C types."
  },
  {
   "property": "C44",
   "status": "proved",
   "theorems": [
    "C44_address",
    "C44_load",
    "C44_total",
    "C44_load_offset_refuted",
    "C44_narrow_integer_refuted"
   ],
   "note": "Addresses of any chain of dereferences, members, array members and constant offsets over integer leaf expressions of pointer size: exact for every 64-bit offset; loads exact when the constants since the last load stay below 2 GiB. Refuted for loads at larger offsets (load2 takes an int) and for 32-bit integers converted to pointers (constants are taken out of the 32-bit sum). Objects named by variables are folded by is_memop (C18), not here; bit-field members not here."
  },
  {
   "property": "C50",
   "status": "proved",
   "theorems": [
    "C50_postfix",
    "C50_value",
    "C50_spec"
   ],
   "note": "Machine code of x++ and x-- whose value is used: both the optimised rewriting (T)((x += n) + -n) and ND_POST_INCDEC with the old value kept across the store; also the values of =, op=, ++x, --x and comma. Atomic objects, bit-fields, floating and pointer types are not modelled."
  },
  {
   "property": "C56",
   "status": "proved",
   "theorems": [
    "C56_expressions_parsed",
    "C56_expressions_unambiguous",
    "C56_accepted_expressions",
    "C56_parser_ends",
    "C56_accepted_with_types_refuted"
   ],
   "note": "Trees without types; compound literals, statement expressions, _Generic and builtins are outside the grammar. Commas group to the right, as in the code. The converse is refuted for texts with type names."
  },
  {
   "property": "C57",
   "status": "proved",
   "theorems": [
    "C57_declarators_parsed",
    "C57_type_names_parsed",
    "C57_declarators_unambiguous",
    "C57_static_then_qualifiers_refuted",
    "C57_typedef_name_in_parentheses_refuted"
   ],
   "note": "Attributes, identifier lists and a lone ellipsis are outside the grammar; two valid forms of C are refuted."
  },
  {
   "property": "C58",
   "status": "proved",
   "theorems": [
    "C58_initializers",
    "C58_unknown_bound",
    "C58_parser_ends",
    "C58_unknown_ends",
    "C58_override_list_refuted",
    "C58_override_string_refuted",
    "C58_override_struct_refuted",
    "C58_override_part_refuted",
    "C58_override_union_refuted",
    "C58_string_comma_refuted",
    "C58_accepts_refuted",
    "C58_indices_refuted"
   ],
   "note": "An expression is one token, with its compatibility with structure types and its string value given; range designators are in the model and in the termination theorem but not in the specification. Scalars in a union member other than the last one initialised are not claimed. Overriding initializers are covered when the later one replaces all of the earlier one; the others are refuted."
  },
  {
   "property": "C59",
   "status": "proved",
   "theorems": [
    "C59_types",
    "C59_unique",
    "C59_strict",
    "C59_offset",
    "C59_difference",
    "C59_types_refuted",
    "C59_rejected_refuted",
    "C59_difference_refuted"
   ],
   "note": "Types are those of C35 (is_compatible is its structural equality); whether an expression is a constant 0 is a parameter; members have distinct names. The relation with ext = false leaves out exactly the cases marked `only` in TypSpec.v, of which the refutations are instances. Enumerations, statement expressions, compound literals, builtins and functions without prototype are not modelled."
  },
  {
   "property": "C60",
   "status": "proved",
   "theorems": [
    "C60_definitions",
    "C60_one_definition",
    "C60_declared",
    "C60_length_refuted",
    "C60_later_length_refuted",
    "C60_static_refuted",
    "C60_inline_refuted",
    "C60_align_refuted",
    "C60_block_refuted",
    "C60_type_refuted",
    "C60_accepts_refuted"
   ],
   "note": "Proved for all valid translation units of the handled kind (LinkSpec.v: valid, handled); each exclusion of handled has a refutation with a witness. Types are sizes, alignments, structures and arrays; function types, attributes and alignment specifiers are left out."
  },
  {
   "property": "C61",
   "status": "proved",
   "theorems": [
    "C61_accepts",
    "C61_tree",
    "C61_unique",
    "C61_labels",
    "C61_jumps",
    "C61_switches",
    "C61_ends",
    "C61_condition_refuted",
    "C61_names_refuted"
   ],
   "note": "Statements down to expressions, declarators and case values, which are tokens. Refuted parts: conditions beyond C2Y are taken (two declarations, or an expression right after a declaration), and label names need not be unique (a goto then goes to the last one)."
  },
  {
   "property": "C62",
   "status": "proved",
   "theorems": [
    "C62_permits",
    "C62_apart",
    "C62_clobbers",
    "C62_range_refuted",
    "C62_match_refuted",
    "C62_fixed_refuted",
    "C62_names_refuted",
    "C62_runs",
    "C62_bits_refuted",
    "C62_flags_refuted"
   ],
   "note": "places of the operands of extended asm and the code around the instructions; x87 code, asm goto and the template are not part of it"
  },
  {
   "property": "C63",
   "status": "proved",
   "theorems": [
    "C63_same_tokens",
    "C63_source_tokens",
    "C63_any_tokens",
    "C63_phases",
    "C63_macro_refuted",
    "C63_backslash_refuted",
    "C63_lines_refuted",
    "C63_name_refuted"
   ],
   "note": "output of -E with and without -P; the file streams and the universal character names of a second reading are not part of it"
  },
  {
   "property": "C64",
   "status": "proved",
   "theorems": [
    "C64_assign",
    "C64_division_refuted"
   ],
   "note": "Integer bit-fields of a named variable; the division case is false in the code and stated as refuted; fields read wrong by C21 are excluded by hypothesis."
  },
  {
   "property": "C65",
   "status": "proved",
   "theorems": [
    "C65_arguments"
   ],
   "note": "Integer arguments built from the expressions of C18; floating and struct arguments (C27), calls inside arguments, the function pointer, the adjustment of %rsp and the call instruction itself are not in this model. The objects of the arguments are assumed to be placed as assign_lvar_offsets and prepare_funcall place them (C28 covers the former)."
  },
  {
   "property": "C66",
   "status": "proved",
   "theorems": [
    "C66_function",
    "C66_stack"
   ],
   "note": "For every function with integer parameters and a body of the statements of C55, entered as the ABI says: the code up to the ret ends with the value in %rax, %rsp, %rbp, %rbx and the return address restored, variables as C says and no other memory changed. push and leave are written out as the instructions they abbreviate. Variable placement is a hypothesis (C28 covers assign_lvar_offsets)."
  },
  {
   "property": "C67",
   "status": "proved",
   "theorems": [
    "C67_call",
    "C67_temporaries"
   ],
   "note": "Direct calls with integer arguments and integer results; the call instruction and ret are given by the definition `called` in FcallSpec.v. Function pointers, alloca, struct results and floating arguments are not modelled."
  },
  {
   "property": "C68",
   "status": "proved",
   "theorems": [
    "C68_generic",
    "C68_function_type",
    "C68_variants",
    "C68_const_array_refuted",
    "C68_constraints_refuted"
   ],
   "note": "The selection for types without enumerations and atomic parameters. Refuted: the qualifiers of a qualified array typedef are lost; the constraints (two compatible associations, two defaults) are not checked. Parsing of the type names and expressions is not modelled."
  },
  {
   "property": "C69",
   "status": "proved",
   "theorems": [
    "C69_embed",
    "C69_missing",
    "C69_unknown",
    "C69_malformed",
    "C69_limit_refuted",
    "C69_underscores_refuted",
    "C69_twice_refuted"
   ],
   "note": "Limits up to 2^63-1 (larger ones refuted: they become negative). Refuted as well: the spellings with underscores, and the constraint that a parameter appears once. The file name, the file system and the evaluation of the limit expression (C11) are not part of the model; read errors are ignored."
  },
  {
   "property": "C70",
   "status": "proved",
   "theorems": [
    "C70_line",
    "C70_accepted",
    "C70_octal_refuted",
    "C70_leading_zero_refuted",
    "C70_two_lines_refuted",
    "C70_digits_refuted"
   ],
   "note": "Line numbers are those the tokenizer gives to tokens. Refuted: digit sequences with a leading zero are read as octal (or refused), a directive over two physical lines numbers the next line one too high, and constants that are no digit sequences are accepted. Not in the model: macro expansion of the arguments (C10) and the nesting of included files."
  },
  {
   "property": "C71",
   "status": "proved",
   "theorems": [
    "C71_define",
    "C71_name",
    "C71_equals_refuted",
    "C71_comment_refuted"
   ],
   "note": "Object-like macros. Refuted: a body that begins with an equals sign (-DA==1 defines A as == 1 1), and a line comment in the body (read past the end of the argument). Function-like macros on the command line and the table of macros (C01, C12) are not part of the model."
  },
  {
   "property": "C72",
   "status": "proved",
   "theorems": [
    "C72_sound",
    "C72_complete",
    "C72_output_name",
    "C72_dep_file",
    "C72_directory_refuted",
    "C72_dep_directory_refuted"
   ],
   "note": "Refuted: a shared object in a directory whose name contains .so. is refused, and -MD with -o d/x.o writes x.d and not d/x.d. basename is modelled for paths that do not end in a slash; -x and the list of inputs are not part of the model."
  },
  {
   "property": "C73",
   "status": "proved",
   "theorems": [
    "C73_pragma",
    "C73_bounds",
    "C73_escape_refuted",
    "C73_prefix_refuted",
    "C73_comment_refuted"
   ],
   "note": "Refuted: the literal is not destringized, so that _Pragma(\"w \\\"-W\\\"\") and _Pragma(L\"once\") stop the compiler, and a // comment in the literal is read past the end of the buffer. The reading of the parentheses and the expansion of macros in the argument are not part of the model."
  },
  {
   "property": "C74",
   "status": "proved",
   "theorems": [
    "C74_comma",
    "C74_comma_total",
    "C74_comma_other",
    "C74_value",
    "C74_value_sound",
    "C74_value_missing",
    "C74_value_bounds",
    "C74_empty_refuted"
   ],
   "note": "Refuted: empty texts between the commas of -Wl, are dropped by strtok. The order in which parse_args tries the options is not part of the model."
  }
 ]
}