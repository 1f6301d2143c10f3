{
 "claims": [
  {
   "property": "C01",
   "status": "proved",
   "theorems": [
    "C01_extract_total",
    "C01_extract_bits",
    "C01_extract_whole"
   ],
   "note": "Extract = addressed bits for every buffer/offset/size; totality includes all run-time checks and contracts of the helpers."
  },
  {
   "property": "C02",
   "status": "proved",
   "theorems": [
    "C02_insert_extract"
   ],
   "note": "Insert/Extract round trip incl. all run-time checks."
  },
  {
   "property": "C03",
   "status": "proved",
   "theorems": [
    "C03_insert_frame",
    "C03_insert_bits"
   ],
   "note": "Frame: all other bits and the length unchanged."
  },
  {
   "property": "C04",
   "status": "proved",
   "theorems": [
    "C04_append",
    "C04_read",
    "C04_roundtrip",
    "C04_unread_refuted"
   ],
   "note": "For all element sizes 1..64, buffers and sequences, through the Ada byte-level Extract/Insert. C04_unread_refuted: Valid_Element is true of a fresh context."
  },
  {
   "property": "C05",
   "status": "proved",
   "theorems": [
    "C05_switch",
    "C05_update",
    "C05_ownership",
    "C05_advance",
    "C05_monotone",
    "C05_foreign_refuted"
   ],
   "note": "Any number of sequences, element contexts and access variables. The element context is modelled by its bounds, Message_Last and Valid_Message. C05_foreign_refuted: Update accepts another sequence's element."
  },
  {
   "property": "C06",
   "status": "proved",
   "theorems": [
    "C06_bytes_roundtrip",
    "C06_bit_positions",
    "C06_concatenation",
    "C06_bits_roundtrip",
    "C06_join",
    "C06_empty_refuted",
    "C06_odd_bits_refuted"
   ],
   "note": "For all non-empty byte strings, incl. bit positions; refutations for the empty string and lengths not divisible by eight."
  },
  {
   "property": "C07",
   "status": "proved",
   "theorems": [
    "C07_value",
    "C07_verifies",
    "C07_order",
    "C07_detects_word_change",
    "C07_empty_refuted",
    "C07_odd_length_refuted"
   ],
   "note": "Value characterised modulo 65535; sender/receiver agreement, order independence, detection of single word changes; refutations for empty and odd length."
  },
  {
   "property": "C08",
   "status": "proved",
   "theorems": [
    "C08_assign",
    "C08_bitstring",
    "C08_parse",
    "C08_parse_bitstring",
    "C08_zero_size_refuted",
    "C08_based_size_refuted",
    "C08_unchecked_refuted"
   ],
   "note": "For every type accepted with any fuel; assign/parse decide the range exactly. Refuted: zero-bit types, sizes written with a base, assign(check=False)."
  },
  {
   "property": "C09",
   "status": "proved",
   "theorems": [
    "C09_roundtrip",
    "C09_literal_exact",
    "C09_qualified_literal",
    "C09_distinct_encodings",
    "C09_unlisted",
    "C09_case_refuted",
    "C09_prefix_refuted",
    "C09_unknown_refuted"
   ],
   "note": "Round trip up to letter case, exact for names as declared, qualified names, distinct encodings, unlisted numbers. Refuted: letter case, literal starting with the package name of an imported type, literal UNKNOWN."
  },
  {
   "property": "C10",
   "status": "proved",
   "theorems": [
    "C10_roundtrip",
    "C10_parse_lossless",
    "C10_partial_element_refuted",
    "C10_empty_bytes_refuted",
    "C10_foreign_element_refuted"
   ],
   "note": "Both directions for arrays of scalars of any length. Refuted: incomplete last element, empty byte string, elements of another type of the same class. Arrays of messages are covered with the message model."
  },
  {
   "property": "C11",
   "status": "proved",
   "theorems": [
    "C11_parse_prefix",
    "C11_message_prefix",
    "C11_nested_prefix",
    "C11_refined_refuted",
    "C11_odd_size_refuted",
    "C11_unsized_refuted",
    "C11_overlay_refuted"
   ],
   "note": "Model of MessageValue (typevalue.py 500-1252, verified mode, no checksums) in PyMessage.v. C11_parse_prefix: for every overlay-free message (record tidy: acyclic, exclusive total conditions independent of the message length) and every buffer that is accepted, the set fields are exactly a path from INITIAL to FINAL whose conditions are true under every assignment describing the values read, each field's first is the sum of the sizes before it, the encodings in order are the leading bits of the buffer, and bitstring() is a prefix of them. The hypothesis 'whole' (every field is exactly as long as the bits it was handed) is needed: C11_refined_refuted, C11_odd_size_refuted, C11_unsized_refuted and C11_overlay_refuted show buffers accepted whose bitstring is no prefix. C11_message_prefix lifts it through nested messages; C11_nested_prefix has no such hypothesis for messages of scalars and arrays of messages."
  },
  {
   "property": "C12",
   "status": "proved",
   "theorems": [
    "C12_set_value",
    "C12_set_position",
    "C12_failed_set",
    "C12_recorded",
    "C12_valid_message",
    "C12_filled",
    "C12_filled_valid",
    "C12_unset_refuted",
    "C12_array_size_refuted",
    "C12_unset_array_refuted",
    "C12_stale_refuted",
    "C12_stale_position_refuted"
   ],
   "note": "Model: PyMessage.v (MessageValue.set and what it calls, branch by branch). Proved for all messages without overlays and cycles and for histories of any length. C12_set_value/position/failed_set/recorded are about single calls, C12_valid_message about any history, C12_filled/filled_valid about histories in message order. Read literally the wider claim (any order of calls) is false of the code: C12_unset_refuted, C12_array_size_refuted, C12_unset_array_refuted, C12_stale_refuted, C12_stale_position_refuted. Checksums are the subject of C54; skip_verification that of C60."
  },
  {
   "property": "C13",
   "status": "proved",
   "theorems": [
    "C13_simplify_value",
    "C13_simplify_value_tree",
    "C13_sub_pow_refuted",
    "C13_sub_mod_refuted",
    "C13_cancel_pow_refuted"
   ],
   "note": "Soundness and termination of simplified() on the fragment `ok` (which excludes exactly the shapes for which refutations are given) for every equality test that is semantically sound; three refutations outside."
  },
  {
   "property": "C14",
   "status": "proved",
   "theorems": [
    "C14_simplify_truth",
    "C14_lazy_refuted"
   ],
   "note": "As C13 for truth values, both for strict and short-circuit evaluation; refutation: a lazily guarded division by zero makes simplification raise."
  },
  {
   "property": "C15",
   "status": "proved",
   "theorems": [
    "C15_negation_value",
    "C15_negation_relation",
    "C15_negation_sub_refuted",
    "C15_negation_pow_refuted",
    "C15_negation_mod_refuted"
   ],
   "note": "Negation of linear expressions and relations; refutations for subtraction, power and modulo."
  },
  {
   "property": "C16",
   "status": "proved",
   "theorems": [
    "C16_substitution_value",
    "C16_substitution_total",
    "C16_empty_substitution",
    "C16_not_refuted"
   ],
   "note": "Substitution lemma for expressions without logical negation; refutation below `not`. Prefix substitution inside attributes is not modelled."
  },
  {
   "property": "C17",
   "status": "proved",
   "theorems": [
    "C17_value_depends_on_variables",
    "C17_variables_occur",
    "C17_no_duplicates",
    "C17_identifier_twice_refuted"
   ],
   "note": "variables() = occurring identifiers, evaluation depends on them only; an identifier may be listed once per sign (refutation of uniqueness by identifier)."
  },
  {
   "property": "C18",
   "status": "proved",
   "theorems": [
    "C18_guards_survive",
    "C18_nested_refuted"
   ],
   "note": "Positive theorem for operands that are relations/names; refutation for nested conjunctions."
  },
  {
   "property": "C19",
   "status": "proved",
   "theorems": [
    "C19_reflexive",
    "C19_any",
    "C19_symmetric",
    "C19_channel_refuted",
    "C19_strong",
    "C19_common",
    "C19_common_refuted",
    "C19_composite_order_refuted",
    "C19_order",
    "C19_integers",
    "C19_unbounded_order_refuted",
    "C19_literals",
    "C19_literal_refuted",
    "C19_aggregate_refuted"
   ],
   "note": "Typing.v models typing_.py class by class; the recursion of is_compatible_strong is fuelled by the nesting depth (proved enough). wf_ty: the dict of field types has distinct keys. Refutations: channels, composite order, unbounded integers, literals out of range."
  },
  {
   "property": "C20",
   "status": "proved",
   "theorems": [
    "C20_modular",
    "C20_modular_range",
    "C20_range",
    "C20_range_fits",
    "C20_enumeration",
    "C20_zero_size_refuted",
    "C20_negative_size_refuted"
   ],
   "note": "Acceptance characterised by iff for modular, range and enumeration types. Refuted: zero and negative sizes are accepted."
  },
  {
   "property": "C21",
   "status": "proved",
   "theorems": [
    "C21_always_valid_refuted",
    "C21_modular_proof",
    "C21_range_proof",
    "C21_range_code",
    "C21_range_code_total",
    "C21_enumeration_proof"
   ],
   "note": "Proof and code constraints of all three kinds. Refuted for always-valid enumerations, whose proof constraints exclude valid unlisted numbers."
  },
  {
   "property": "C22",
   "status": "proved",
   "theorems": [
    "C22_fields",
    "C22_order",
    "C22_no_cycle",
    "C22_first",
    "C22_complete",
    "C22_initial_loop_refuted",
    "C22_final_refuted",
    "C22_predecessors"
   ],
   "note": "Sorting: fields, order, acyclicity, completeness, single first field, predecessors/successors. Refuted: a link to the initial node makes the sorting endless; links may start at the final node."
  },
  {
   "property": "C23",
   "status": "proved",
   "theorems": [
    "C23_paths"
   ],
   "note": "Exactly the connected link sequences, each once, for every field of an accepted structure."
  },
  {
   "property": "C24",
   "status": "proved",
   "theorems": [
    "C24_definite",
    "C24_before",
    "C24_initial_refuted"
   ],
   "note": "Exactly the fields on every path, and they come before the field. For the initial node all fields are reported (refuted)."
  },
  {
   "property": "C25",
   "status": "proved",
   "theorems": [
    "C25_condition"
   ],
   "note": "For conditions in the sound fragment of the simplifier that have a truth value under the assignment."
  },
  {
   "property": "C26",
   "status": "proved",
   "theorems": [
    "C26_parsing",
    "C26_generated",
    "C26_deterministic",
    "C26_unknown_refuted",
    "C26_always_valid_refuted",
    "C26_division_refuted"
   ],
   "note": "z3 is an arbitrary function with sound UNSAT answers (sound_unsat) that does not answer 'unknown' to the questions for which the code takes that as consent (answered); the environment semantics is that of the generated Ada code. C26_deterministic is the statement for assignments, C26_parsing the one for beginnings of messages in buffers, C26_generated discharges the determinism hypothesis of the C37-C39 theorems from verification. Limits found and proved: C26_unknown_refuted (an inconclusive solver makes the checks vacuous), C26_always_valid_refuted (values of always-valid enumerations without a literal are not considered), C26_division_refuted (z3 rounds quotients of negative numbers differently from Ada)."
  },
  {
   "property": "C27",
   "status": "proved",
   "theorems": [
    "C27_covered",
    "C27_contiguous"
   ],
   "note": "C27_covered uses the coverage proof and needs that no expression on the path mentions a variable called f (the name the checker uses for the bit); C27_contiguous does not need that, but that First aspects refer to the message or to earlier fields of the path. Hypothesis of both: the last field ends at the end of the message. Cases in P_VerifyCases.v."
  },
  {
   "property": "C28",
   "status": "proved",
   "theorems": [
    "C28_sizes",
    "C28_attributes",
    "C28_field",
    "C28_message_size",
    "C28_array_refuted",
    "C28_array_size_refuted"
   ],
   "note": "C28_field: sizes and alignment; C28_message_size: sum of the sizes. Both for any sound, conclusive solver and every legal assignment along a complete path. Refuted for arrays: C28_array_refuted (an array need not start at a byte boundary), C28_array_size_refuted (an array of 12 bits is accepted, because the proof of the message size assumes array sizes are multiples of 8)."
  },
  {
   "property": "C29",
   "status": "proved",
   "theorems": [
    "C29_merged",
    "C29_termination",
    "C29_pruned",
    "C29_first_condition_refuted",
    "C29_not_refuted",
    "C29_sign_refuted",
    "C29_size_refuted",
    "C29_empty_refuted",
    "C29_literal_refuted"
   ],
   "note": "C29_merged: for every message built by the constructor whose inner messages meet MergeSpec.mergeable, every link order, fuel and solver that is right about unsat: merging without errors leaves no message field and preserves runs (field sequences with types, sizes, positions) in both directions. C29_termination relates the bounded loop to the unbounded one; C29_pruned is about the inner loop. Each restriction is necessary: C29_first_condition_refuted, C29_not_refuted, C29_sign_refuted, C29_size_refuted, C29_literal_refuted, and C29_empty_refuted (IndexError for a null message). Verification of inner messages and error texts are parameters."
  },
  {
   "property": "C30",
   "status": "proved",
   "theorems": [
    "C30_load",
    "C30_order",
    "C30_hang_refuted"
   ],
   "note": "parse_specfile, parse_items, visit, sort_loop model Parser.parse over any set of files and with clauses. Termination of loading and exactness of cycle reports for all inputs; complete dependency order for all acyclic inputs; a cyclic input on which sorting never ends is exhibited for every fuel."
  },
  {
   "property": "C31",
   "status": "proved",
   "theorems": [
    "C31_links",
    "C31_forward",
    "C31_checked",
    "C31_conflict",
    "C31_lost_refuted",
    "C31_case_refuted"
   ],
   "note": "create_structure models create_message_structure on the parse tree. C31_links gives every link of an error-free result for all component lists; refutations show a lost condition and size and the case-sensitive check of then targets."
  },
  {
   "property": "C32",
   "status": "proved",
   "theorems": [
    "C32_roundtrip",
    "C32_torn",
    "C32_honest",
    "C32_same_text",
    "C32_remembered",
    "C32_stale_refuted"
   ],
   "note": "All histories of concurrent runs of any versions, torn writes and truncations. JSON writing and reading modelled by character; md5 is a parameter. C32_stale_refuted: the digest omits array element definitions and checksums."
  },
  {
   "property": "C33",
   "status": "proved",
   "theorems": [
    "C33_sound",
    "C33_complete",
    "C33_reachable_refuted",
    "C33_order_refuted",
    "C33_exception_refuted",
    "C33_exception_entry_refuted",
    "C33_final_refuted"
   ],
   "note": "session_errors models the structural checks of Session.__validate; C33_sound and C33_complete characterise acceptance, five refutations show what is not guaranteed. Type checking of expressions is not part of this model (it can only reject more)."
  },
  {
   "property": "C34",
   "status": "proved",
   "theorems": [
    "C34_unique",
    "C34_session_literal_refuted"
   ],
   "note": "model_errors models Model.__validate; C34_unique is an equivalence."
  },
  {
   "property": "C35",
   "status": "proved",
   "theorems": [
    "C35_accepted",
    "C35_text_roundtrip",
    "C35_text_accepted_is_good",
    "C35_equivalence",
    "C35_hash",
    "C35_same_length",
    "C35_join",
    "C35_join_assoc",
    "C35_join_equal",
    "C35_parent_name",
    "C35_unqualified_parent",
    "C35_add_suffix",
    "C35_order_refuted"
   ],
   "note": "Refuted: the order `<` is not compatible with equality (case)."
  },
  {
   "property": "C36",
   "status": "proved",
   "theorems": [
    "C36_history",
    "C36_sum",
    "C36_propagate",
    "C36_recorded_error_raises",
    "C36_fail_raises"
   ],
   "note": "Histories over a heap of containers, including aliasing through += and extend."
  },
  {
   "property": "C37",
   "status": "proved",
   "theorems": [
    "C37_verify",
    "C37_verify_message",
    "C37_accept",
    "C37_sound",
    "C37_incomplete",
    "C37_valid_message",
    "C37_predicate",
    "C37_predicate_overlay_refuted",
    "C37_predicate_empty_refuted",
    "C37_own_first_refuted",
    "C37_edge_refuted"
   ],
   "note": "Verify in any order keeps the context in line with a run of fields in the buffer (GenSpec.run, independent of the code); Verify_Message finds the longest run; Structural_Valid_Message accepts exactly complete messages; Incomplete_Message implies that there is none; Valid_Message holds only without composite fields (Verify never makes those valid); Valid_Context holds. Hypotheses beyond acceptance: at most one link holds (C26), scoped conditions; the bound last + 1 < Bit_Length'Last, the absence of overlays and a non-empty first field are shown necessary by the refuted theorems."
  },
  {
   "property": "C38",
   "status": "proved",
   "theorems": [
    "C38_history",
    "C38_predicate",
    "C38_setter",
    "C38_own_size_refuted"
   ],
   "note": "Any history of setters with preconditions and Verify; a setter keeps earlier cursors and all bits outside its field, and resets later fields. Needs no overlays and no condition on the size of its own source (C38_own_size_refuted)."
  },
  {
   "property": "C39",
   "status": "proved",
   "theorems": [
    "C39_roundtrip",
    "C39_message"
   ],
   "note": "Verify_Message over the buffer of any history shows the same fields, places and values; complete messages are accepted."
  },
  {
   "property": "C40",
   "status": "proved",
   "theorems": [
    "C40_byte_index_inverse",
    "C40_byte_of_bit",
    "C40_touched",
    "C40_slice",
    "C40_field"
   ],
   "note": "Bit/byte index conversions (P_AdaTypes.v); C40_touched, C40_slice: the slice of a field is exactly the bytes its bits touch and can be taken iff all bits lie in the buffer; C40_field: reading and writing through the slice concerns exactly the bits of the field (P_Buffer.v)."
  },
  {
   "property": "C41",
   "status": "proved",
   "theorems": [
    "C41_unique",
    "C41_unique_order"
   ],
   "note": "For every decidable equality."
  },
  {
   "property": "C42",
   "status": "proved",
   "theorems": [
    "C42_selected",
    "C42_plain",
    "C42_applied",
    "C42_stale_refuted"
   ],
   "note": "C42_selected, C42_plain, C42_applied: a nested message is used iff a refinement of the field has a true condition, the last one wins. C42_stale_refuted: a refinement once applied is kept when its condition becomes false. Names are compared in lower case in the model; the code compares them case-sensitively."
  },
  {
   "property": "C43",
   "status": "proved",
   "theorems": [
    "C43_assign",
    "C43_roundtrip",
    "C43_parse_lossless",
    "C43_odd_bits_refuted"
   ],
   "note": "Refuted for bit counts that are not divisible by eight."
  },
  {
   "property": "C44",
   "status": "proved",
   "theorems": [
    "C44_declarations",
    "C44_duplicate_refuted"
   ],
   "note": "declarations_check, state_check, usage_errors model scoping and reference counting of declarations; C44_declarations for all sessions, C44_duplicate_refuted shows the silently dropped declaration."
  },
  {
   "property": "C45",
   "status": "proved",
   "theorems": [
    "C45_occurs",
    "C45_complete",
    "C45_reachable",
    "C45_unreachable",
    "C45_dead_ends"
   ],
   "note": "From the SAT answers of __prove_contradictions; C45_occurs for each field, C45_complete for a whole message. Hypotheses: expressions without division (plain_message), one type per identifier, no field called Message or Final (sane). P_Reach.v: C45_reachable/_unreachable/_dead_ends say exactly what __prove_reachability establishes and when it complains."
  },
  {
   "property": "C46",
   "status": "proved",
   "theorems": [
    "C46_congruent",
    "C46_first",
    "C46_always_refuted"
   ],
   "note": "C46_congruent is what the code establishes (possibility); the stronger reading 'always congruent' is refuted by C46_always_refuted: an accepted message in which a 16 bit field overlays an opaque field of variable size."
  },
  {
   "property": "C47",
   "status": "proved",
   "theorems": [
    "C47_declared",
    "C47_sound",
    "C47_exact",
    "C47_z3",
    "C47_not_refuted",
    "C47_z3_refuted",
    "C47_negated_refuted",
    "C47_paths",
    "C47_scoped",
    "C47_scoped_refuted"
   ],
   "note": "ExprType.v models the constructors' types and _check_type_subexpr; P_ExprType.v gives a declarative typing judgement (wt) and proves acceptance equivalent to it, type soundness and acceptance by z3; P_Scope.v lifts it to messages (verify_expression_types is part of Verify.v). no_empty: n-ary operators have operands; no variable has type Any. Refutations: expressions on impossible paths are unchecked, negations with variables are rejected, Boolean variables are integers for z3."
  },
  {
   "property": "C48",
   "status": "proved",
   "theorems": [
    "C48_types",
    "C48_valid",
    "C48_to_base",
    "C48_to_actual",
    "C48_cases",
    "C48_raw_refuted",
    "C48_static_refuted"
   ],
   "note": "GenTypes.v models the meaning of the generated declarations and functions with all run-time checks. plain: the bounds are arithmetic that Ada can evaluate, within the fragment for which simplification is right (C13); enumerations have a literal. C48_static_refuted shows that the fragment matters, C48_raw_refuted that records for unlisted values are not canonical."
  },
  {
   "property": "C49",
   "status": "proved",
   "theorems": [
    "C49_accepted",
    "C49_generated",
    "C49_contains",
    "C49_contains_history",
    "C49_no_buffer",
    "C49_switch",
    "C49_condition_refuted"
   ],
   "note": "condition_ok: comparisons of names and numbers combined by and/or (then); fields are scalar. values: an environment in which names have the values of the fields and literals. C49_condition_refuted shows accepted conditions outside the fragment whose generated function uses undeclared names. C49_switch assumes that the computations of Field_First and Field_Last do not overflow."
  },
  {
   "property": "C50",
   "status": "proved",
   "theorems": [
    "C50_verify",
    "C50_message",
    "C50_predicate",
    "C50_decides",
    "C50_history",
    "C50_history_message",
    "C50_roundtrip",
    "C50_size_refuted",
    "C50_own_last_refuted"
   ],
   "note": "Termination without error of Verify, the setters, Structural_Valid_Message, Valid_Message and the predicate of Context, for all buffers and all sequences of calls. The requirements visible, computable and no_own are stated on the message, not on the generated code; C50_size_refuted and C50_own_last_refuted (and C37_own_first_refuted, C37_predicate_empty_refuted) show that acceptance alone does not suffice."
  },
  {
   "property": "C51",
   "status": "proved",
   "theorems": [
    "C51_read",
    "C51_read_exact",
    "C51_equal",
    "C51_empty_or_refuted",
    "C51_sum_refuted",
    "C51_congruence_refuted",
    "C51_simplify",
    "C51_ada",
    "C51_ada_sum_refuted",
    "C51_ada_product_refuted"
   ],
   "note": "The grammar of the text is that of Ada (RM 4.4, 2.3, 2.4) with single-quote attributes and qualified identifiers as words; based literals, quantified expressions, calls, aggregates and conversions are not modelled. The five _refuted theorems delimit the claim."
  },
  {
   "property": "C52",
   "status": "proved",
   "theorems": [
    "C52_expression",
    "C52_statement",
    "C52_session",
    "C52_aborted",
    "C52_aggregate",
    "C52_head_refuted",
    "C52_nested_refuted",
    "C52_type_name_refuted",
    "C52_conversion_refuted",
    "C52_membership_refuted",
    "C52_present_refuted",
    "C52_aggregate_elements_refuted",
    "C52_function_refuted",
    "C52_literal_refuted",
    "C52_exception_refuted",
    "C52_qualified_refuted"
   ],
   "note": "Proved for the sessions described by sure_session: the counterexamples (\u2026_refuted) show accepted sessions and expressions outside of it which go wrong."
  },
  {
   "property": "C53",
   "status": "proved",
   "theorems": [
    "C53_forms",
    "C53_range",
    "C53_decides",
    "C53_checked",
    "C53_unknown_field_refuted",
    "C53_backwards_refuted",
    "C53_behind_message_refuted",
    "C53_checked_always_refuted",
    "C53_negated_check_refuted"
   ],
   "note": "The refutations show ranges that are accepted although they are no ranges of the message (an excluded single field, a range behind the message, a range that ends at an unknown field), paths without the check, and a negated check that needs no definition."
  },
  {
   "property": "C54",
   "status": "proved",
   "theorems": [
    "C54_valid",
    "C54_bytestring",
    "C54_recorded",
    "C54_kept",
    "C54_two_functions",
    "C54_two_never_valid",
    "C54_parse_detects_refuted",
    "C54_clone_refuted",
    "C54_complete_refuted",
    "C54_by_hand_refuted",
    "C54_calculated_refuted",
    "C54_accepted_refuted",
    "C54_zero_refuted",
    "C54_no_checksum"
   ],
   "note": "Refutations: a wrong trailing checksum is overwritten when parsing; clones share the flag that a checksum is calculated; a message with unset covered fields can be valid; a value set by hand is replaced; a function that covers its own field gives an invalid message; a check that is not on the last link makes Message'Last unknown; a type without zero makes set raise."
  },
  {
   "property": "C55",
   "status": "proved",
   "theorems": [
    "C55_roundtrip",
    "C55_bytes",
    "C55_reparse",
    "C55_nested",
    "C55_messages",
    "C55_spelling_refuted",
    "C55_order_refuted",
    "C55_again_refuted"
   ],
   "note": "C55_roundtrip/bytes/reparse/nested/messages. Hypotheses: tidy (acyclic, exclusive conditions, no overlays), definite (conditions only refer to fields in front of them, cf. C47), declared types accepted by the model. Fields whose size is not known when they are set (an opaque field without size aspect at the end) are not covered. C55_spelling_refuted and C55_order_refuted show that the two restrictions on the calls are needed."
  },
  {
   "property": "C56",
   "status": "proved",
   "theorems": [
    "C56_sorted",
    "C56_typed",
    "C56_meaning",
    "C56_back",
    "C56_unsat",
    "C56_sat",
    "C56_error",
    "C56_solver",
    "C56_solver_sound",
    "C56_division_refuted",
    "C56_modulo_refuted",
    "C56_case_refuted"
   ],
   "note": "Hypotheses: 'tame' (no division with a negative operand, no mod with a negative divisor), 'plain' for the way back (no division; powers and mod by positive numbers only), one spelling per identifier for sat. C56_division_refuted, C56_modulo_refuted and C56_case_refuted show that they are needed. z3py's coercion of Booleans in == and != and its treatment of empty operand lists are modelled from its documentation, as z3 is not part of the repository."
  },
  {
   "property": "C57",
   "status": "proved",
   "theorems": [
    "C57_model",
    "C57_order",
    "C57_references",
    "C57_reported",
    "C57_frame",
    "C57_twice",
    "C57_no_crash",
    "C57_session_refuted",
    "C57_crash_refuted",
    "C57_with_refuted",
    "C57_opaque_refuted"
   ],
   "note": "Refuted parts: an exception raised by a session discards the errors collected for its file and skips the rest of it (C57_session_refuted); an array of a type whose modulus is not static ends in an AssertionError instead of the recorded error (C57_crash_refuted); references to other packages need no with clause, and the order of the files on the command line decides (C57_with_refuted); a type named Opaque is put into the internal package (C57_opaque_refuted). Building messages and sessions is a parameter of the model, quantified over."
  },
  {
   "property": "C58",
   "status": "proved",
   "theorems": [
    "C58_conditions",
    "C58_layout",
    "C58_legal",
    "C58_accepted",
    "C58_rejected",
    "C58_size_refuted"
   ],
   "note": "C58_accepted holds for solvers that answer a question and its renamed form alike (decides_indifferent: every solver that decides questions does) and for ordinary bases (literals are simple names, not below a negation, not in sizes); C58_size_refuted shows that the last restriction is needed."
  },
  {
   "property": "C59",
   "status": "proved",
   "theorems": [
    "C59_simplified",
    "C59_scope",
    "C59_bindless",
    "C59_variables",
    "C59_variables_free",
    "C59_unused",
    "C59_aggregate_refuted",
    "C59_unused_refuted",
    "C59_iterable_refuted",
    "C59_not_refuted",
    "C59_not_variables_refuted",
    "C59_capture_refuted",
    "C59_shadow_refuted",
    "C59_sign_refuted",
    "C59_mixed_refuted",
    "C59_dropped_refuted"
   ],
   "note": "Under conditions, each shown to be needed by a computed counterexample (C59_*_refuted): aggregates and iterables are not reported by variables(), no substitution below not, capture and shadowing, lost sign of selections, names dropped by simplification."
  },
  {
   "property": "C60",
   "status": "proved",
   "theorems": [
    "C60_fields",
    "C60_bytes",
    "C60_valid",
    "C60_empty_refuted",
    "C60_position_refuted",
    "C60_twice_refuted",
    "C60_endless_refuted",
    "C60_range_refuted"
   ],
   "note": "Without checksums and values of a wrong class. C60_fields: all calls succeed with the same values and positions; C60_bytes: same bits and bytes; C60_valid: same validity. The conditions on the calls are shown necessary by C60_empty_refuted, C60_position_refuted, C60_twice_refuted, C60_endless_refuted and C60_range_refuted."
  },
  {
   "property": "C61",
   "status": "proved",
   "theorems": [
    "C61_number",
    "C61_text",
    "C61_context",
    "C61_meaning",
    "C61_identifier",
    "C61_grammar",
    "C61_session",
    "C61_end",
    "C61_duplicate_refuted",
    "C61_accepted_refuted",
    "C61_literal_refuted"
   ],
   "note": "Proved for well-formed numeric and string literals and distinct names in bindings and message aggregates. Refuted: equal names in a binding or message aggregate are dropped silently; negated variables, concatenated variables, arithmetic with 'Head and arrays of messages raise AssertionError, NotImplementedError or KeyError; 2#0B1# is accepted; a literal in base 3 is accepted but has no text."
  },
  {
   "property": "C62",
   "status": "proved",
   "theorems": [
    "C62_model",
    "C62_accepted",
    "C62_types",
    "C62_imported_refuted",
    "C62_checksum_refuted",
    "C62_redefined_refuted",
    "C62_dead_end_refuted"
   ],
   "note": "The expressions are those of Expr.v (the arithmetic and boolean operators, names and attributes; C51 proves their reading).  Refuted: types of other packages lose their package (two models have the same text), checksums are missing, a type named Boolean or Opaque is missing, and a field without outgoing link of a message that is not verified is read with a link to the end."
  },
  {
   "property": "C63",
   "status": "proved",
   "theorems": [
    "C63_units",
    "C63_order",
    "C63_files",
    "C63_instances",
    "C63_formals",
    "C63_generic_name_refuted",
    "C63_array_generic_refuted",
    "C63_null_derived_refuted",
    "C63_array_name_refuted",
    "C63_contains_refuted",
    "C63_flat_refuted",
    "C63_library_refuted",
    "C63_prefix_refuted"
   ],
   "note": "The model of the program has to be sound: names of units must not clash, the arrays of a message have different names, and flat names of messages differ.  Refuted without these: a message Generic_M beside M, an array Generic_M beside M, a message derived from a null message, arrays P::A and Q::A in one message, a message Generic_Contains in a package with refinements, messages A_B::C and A::B_C, and a package Rflx_Types.  C63_prefix_refuted: the package of a prefix other than RFLX is not written."
  },
  {
   "property": "C64",
   "status": "proved",
   "theorems": [
    "C64_history",
    "C64_valid_message",
    "C64_total",
    "C64_write",
    "C64_parse",
    "C64_stuck",
    "C64_foreign_refuted"
   ],
   "note": "For messages without overlays and without own attributes in sizes; totality and parsing also for sizes that can be computed.  The elements of arrays are scalars; arrays of messages are not modelled.  Refuted: Update_<Field> accepts a sequence that has the buffer of another context, after which the values of the message are not those of its buffer."
  },
  {
   "property": "C65",
   "status": "proved",
   "theorems": [
    "C65_message",
    "C65_label",
    "C65_message_total",
    "C65_nodes",
    "C65_transitions",
    "C65_access",
    "C65_depends",
    "C65_session_total",
    "C65_spelling_refuted",
    "C65_intermediate_refuted",
    "C65_exception_refuted",
    "C65_append_refuted",
    "C65_variable_refuted"
   ],
   "note": "For names that are spelled the same everywhere and are not the names of other nodes.  The rendering of the graph is not modelled.  Refuted: a link that spells a field differently breaks the graph; a field with the name of an intermediate node and a variable with the name of a state join nodes; the transition for exceptions and the variables in the parameters of Append, Extend, Read and Write are not shown."
  },
  {
   "property": "C66",
   "status": "proved",
   "theorems": [
    "C66_determined",
    "C66_total",
    "C66_sessions",
    "C66_checksums_refuted",
    "C66_sessions_refuted"
   ],
   "note": "The bounds and sizes of scalar types are exported as numbers, so their expressions are not part of the model here.  Strings consist of the first 256 code points.  json.dump is modelled as it is called.  Refuted: models with sessions cannot be exported, and the checksums of messages are not exported."
  },
  {
   "property": "C67",
   "status": "proved",
   "theorems": [
    "C67_total",
    "C67_sound",
    "C67_complete",
    "C67_reported",
    "C67_duplicates",
    "C67_order",
    "C67_accepted",
    "C67_shadow_refuted",
    "C67_lost_refuted"
   ],
   "note": "Extends C30 by directories, names of files and packages, duplicates and exceptions.  The syntax tree is reduced to names; a file that cannot be parsed has at least one diagnostic.  Paths are compared as lists of parts, as pathlib does, so that a link or a part '..' makes another path.  Refuted: a with clause can silently take a file of another directory, depending on the order of the arguments; a reserved word breaks loading off, and errors found before are lost."
  },
  {
   "property": "C68",
   "status": "proved",
   "theorems": [
    "C68_check",
    "C68_success",
    "C68_errors",
    "C68_unchanged",
    "C68_generate",
    "C68_graph",
    "C68_export",
    "C68_same_package",
    "C68_flat_refuted",
    "C68_exception_refuted"
   ],
   "note": "The creation of the model, the texts of units, graphs and of the export are parameters (C57, C61, C63, C65, C66); loading is that of C67.  argparse, logging and failing write operations are left out.  File names are compared with regard to case.  Refuted: graphs of types with the same flat name overwrite each other; unexpected exceptions leave files behind."
  },
  {
   "property": "C69",
   "status": "proved",
   "theorems": [
    "C69_created",
    "C69_found",
    "C69_kept",
    "C69_functions",
    "C69_iterated",
    "C69_specs",
    "C69_isolated_refuted",
    "C69_case_refuted"
   ],
   "note": "What the fields of an object hold is a parameter, and methods may do anything to it (C11, C12, C54, C60 describe it); nested messages are part of the object that holds them, elements of arrays are referred to.  add_refinement and Package.__setitem__ by the user are left out; creating the object of a message does not fail.  Refuted: calculated of checksums is shared, so a call of one object can change whether the checksum of another counts as calculated; the lookup is sensitive to case although identifiers are not."
  },
  {
   "property": "C70",
   "status": "proved",
   "theorems": [
    "C70_text",
    "C70_exact",
    "C70_again",
    "C70_arguments_refuted",
    "C70_empty_refuted",
    "C70_once_refuted",
    "C70_and_then_refuted"
   ],
   "note": "Expressions are those of C51; targets of assignments are variables, return of case expressions is left out.  What calls, pragmas and assignments do to variables is a parameter.  Refuted: calls without arguments and branches without statements have no Ada text; a case statement can have another text when it is printed again, as cached texts are compared (the meaning stays, C70_again); and because AndThen is a subclass of And, an alternative with and then may be replaced by one with and, which fails where the first one does not."
  },
  {
   "property": "C71",
   "status": "proved",
   "theorems": [
    "C71_specification",
    "C71_body",
    "C71_instantiation",
    "C71_hash",
    "C71_subprogram",
    "C71_subprogram_only",
    "C71_modes_refuted",
    "C71_array_refuted",
    "C71_literals_refuted",
    "C71_pragma_refuted",
    "C71_objects_refuted"
   ],
   "note": "Expressions, aspects, statements and components inside declarations are objects with a text and an equality; formal parameters are given without duplicates; C71_subprogram leaves out default values.  Condition: objects that compare equal agree in the modes of parameters, in whether an array type is constrained, and in the order of literals without values.  Refuted without it: OutParameter and InOutParameter are subclasses of Parameter and UnconstrainedArrayType one of ArrayType without further attributes, and literals without values are compared as a dict, so the second of two different declarations is not printed.  Also refuted: a pragma object that is added twice is printed once, and an object declaration in a package raises a TypeError since its class has no hash (C71_hash)."
  },
  {
   "property": "C72",
   "status": "proved",
   "theorems": [
    "C72_text",
    "C72_exact",
    "C72_return",
    "C72_if",
    "C72_case",
    "C72_made",
    "C72_control_refuted",
    "C72_empty_refuted",
    "C72_and_then_refuted"
   ],
   "note": "Conditions, control expressions and choices are expressions without conditional expressions; the dependent expressions may be conditional.  Conditions: there is at least one condition or alternative, names are not the reserved words if, case and for, and with short-circuit evaluation the expression does not contain both \"and\" and \"and then\".  Refuted without them: C72_empty_refuted, C72_and_then_refuted; C72_control_refuted shows that Case gives a value where the control expression has none."
  },
  {
   "property": "C73",
   "status": "proved",
   "theorems": [
    "C73_text",
    "C73_exact",
    "C73_for_all",
    "C73_for_some",
    "C73_of_range_refuted"
   ],
   "note": "An iterable is a range or an expression without conditional expressions; what a name that is iterated over stands for is given.  Conditions as for C72.  Refuted: ForAllOf over a range is read but has no value (C73_of_range_refuted)."
  }
 ]
}