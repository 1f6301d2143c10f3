{"id": "C01", "title": "Extract reads exactly the addressed big-endian bits", "statement": "For every byte buffer, every Offset in 0..7 and every value size that fits the buffer as the Extract contract demands, the generic Extract function returns the unsigned big-endian number formed by precisely the bits at [Offset from the least significant bit of the last byte, for Size bits], and none of its internal shifts, powers, additions or indexings leaves its contract (no overflow of U64, no out-of-range index).", "quantifier": "all buffers (any length), all byte contents, all offsets, all value sizes 1..64 admitted by the precondition", "why_tests_cant": "2^64 values x 8 offsets x unbounded buffers; the overflow obligations are about every intermediate value.", "anchors": ["rflx/templates/rflx_generic_types.adb:U64_Extract,U64_Extract_Intermediate,U64_Extract_Remaining,Extract", "rflx/templates/rflx_arithmetic.adb"]}
{"id": "C02", "title": "Insert then Extract gives the value back", "statement": "For every buffer, offset and in-range value, calling Insert and then Extract with the same buffer slice and offset returns exactly the inserted value, and Insert itself never leaves the contract of an arithmetic helper.", "quantifier": "all buffers, offsets, sizes and values satisfying the Insert precondition", "why_tests_cant": "Unbounded buffers and 64-bit values; tests sample a handful of layouts.", "anchors": ["rflx/templates/rflx_generic_types.adb:U64_Insert,Insert,U64_Extract"]}
{"id": "C03", "title": "Insert changes no bit outside the addressed range", "statement": "Insert leaves every bit of the buffer that lies outside the addressed bit range unchanged and never changes the buffer's bounds.", "quantifier": "all buffers, offsets, sizes and values satisfying the Insert precondition; all bit positions outside the range", "why_tests_cant": "A frame property over all other bits in all buffers.", "anchors": ["rflx/templates/rflx_generic_types.adb:U64_Insert"]}
{"id": "C04", "title": "Scalar sequence: append/iterate round trip", "statement": "Starting from Initialize, any series of Append_Element calls of valid elements for which there is space succeeds, keeps the context predicate, changes no bit outside the written area, and iterating the written area with Initialize/Next/Get_Element yields exactly the appended elements in order; iterating any buffer yields exactly the elements up to the first invalid one. Not guaranteed (counterexample exhibited): that Valid_Element means that an element was read.", "quantifier": "all element types (sizes 1..64), all buffers, all finite sequences of appended values", "why_tests_cant": "Property over histories of calls of any length.", "anchors": ["rflx/templates/rflx_scalar_sequence.adb", "rflx/templates/rflx_scalar_sequence.ads"]}
{"id": "C05", "title": "Message sequence: exclusive buffer ownership and monotone progress", "statement": "In every history of Initialize / Switch / Update / Take_Buffer calls that respects the preconditions, the buffer is owned by at most one of sequence context and element context, the context predicates hold between calls, Switch and Update never fail if their precondition holds, only an Update with a valid element advances a sequence, and a Switch followed by an Update with the same element context never moves Sequence_Last back nor past Last. Not guaranteed (counterexample exhibited): the same for an Update with another element context, although its precondition allows it.", "quantifier": "all call histories that satisfy the preconditions", "why_tests_cant": "Ranges over unbounded histories and interleavings with element contexts.", "anchors": ["rflx/templates/rflx_message_sequence.adb", "rflx/templates/rflx_message_sequence.ads"]}
{"id": "C06", "title": "Bitstring/bytes conversion is lossless", "statement": "Converting a non-empty byte string to a Bitstring and back returns it unchanged, the Bitstring has eight bits per byte, concatenation of byte strings corresponds to concatenation of Bitstrings, and any Bitstring whose length is a multiple of eight survives the opposite round trip.", "quantifier": "all byte strings / all Bitstrings of any length", "why_tests_cant": "Unbounded inputs; the int()-based implementation is length sensitive (leading zeros, empty input).", "anchors": ["rflx/pyrflx/bitstring.py:Bitstring"]}
{"id": "C07", "title": "Internet checksum generation and verification agree", "statement": "For every even-length non-empty byte string the checksum function returns a 16-bit value; writing that value into a zeroed 16-bit-aligned checksum slot makes the recomputed checksum of the whole buffer zero, so a receiver accepts exactly what a sender produced, and the result does not depend on the order of 16-bit words.", "quantifier": "all even-length byte strings", "why_tests_cant": "One's-complement end-around carry must be right for any number of words (arbitrarily many carries).", "anchors": ["rflx/pyrflx/utils.py:internet_checksum"]}
{"id": "C08", "title": "Integer values: assign / serialise / parse agree and stay in range", "statement": "For every modular or range integer type accepted by the model, assigning a value succeeds iff the value lies in the type's range, a stored value is always in range, its bitstring has exactly the type's size and parsing that bitstring returns the same value; parsing a bitstring of the type's size succeeds iff it denotes an in-range number.", "quantifier": "all accepted integer types, all integers, all bitstrings", "why_tests_cant": "All types up to 64 bit times all values.", "anchors": ["rflx/pyrflx/typevalue.py:IntegerValue", "rflx/model/type_.py:ModularInteger,RangeInteger"]}
{"id": "C09", "title": "Enumeration values: literal, number and bitstring stay consistent", "statement": "For every accepted enumeration type, assigning a literal and parsing its bitstring gives the same value back; different literals have different encodings; parsing an unlisted number fails for a plain enumeration and is kept losslessly for an always-valid one.", "quantifier": "all accepted enumerations (any literals, values, sizes), all numbers of that size", "why_tests_cant": "Arbitrary literal/value tables.", "anchors": ["rflx/pyrflx/typevalue.py:EnumValue", "rflx/model/type_.py:Enumeration"]}
{"id": "C10", "title": "Array of scalars: serialise / parse round trip", "statement": "For every scalar element type and every list of valid elements, the bitstring of the array is the concatenation of the element encodings and parsing it into a fresh array yields the same elements; re-parsing into the same array object does not accumulate old elements.", "quantifier": "all element types, all element lists of any length", "why_tests_cant": "Unbounded lists; aliasing across successive parses.", "anchors": ["rflx/pyrflx/typevalue.py:ArrayValue"]}
{"id": "C11", "title": "PyRFLX message parsing consumes a prefix faithfully", "statement": "Whenever a message value accepts a buffer, re-serialising the fields it set reproduces the corresponding leading bits of the input, the fields it set form a path of the message graph starting at the first field, and each field's bits lie at the position computed for it.", "quantifier": "all message graphs without overlays, all buffers", "why_tests_cant": "All graphs and all inputs; a loop over dynamically computed positions.", "anchors": ["rflx/pyrflx/typevalue.py:MessageValue.parse,_set_unchecked,bitstring"]}
{"id": "C12", "title": "PyRFLX message setters keep the value consistent", "statement": "A successful set() stores the value, places the field at the declared First or at the end of a predecessor whose link condition holds, and leaves all fields in front of it unchanged and those behind it unchanged or (opaque ones) cleared. A set() that raises leaves all other fields unchanged unless evaluating the message's own conditions raised. After any history of set() calls, successful or not, valid_message is true only if FINAL is reachable over links whose conditions hold for the recorded values. If fields are set in message order, the set fields are a path whose conditions hold, each field starts where the one before it ends, and if valid_message is true the path is complete. The same without the order, with lengths changed later, or with arrays that were never set, does not hold (refuted by examples).", "quantifier": "all message graphs, all histories of set calls", "why_tests_cant": "Histories of any length over all graphs.", "anchors": ["rflx/pyrflx/typevalue.py:MessageValue.set,_preset_fields,valid_fields,valid_message"]}
{"id": "C13", "title": "Integer value of an arithmetic expression is preserved by simplification", "statement": "For every arithmetic expression in which no operand of a sum or difference contains a power or modulo with a non-literal operand, and for every assignment under which it has a value, simplified() returns (no endless recursion, no exception) an expression with the same value; with such operands the value may change (counterexamples exist).", "quantifier": "all expressions of any shape and size in the fragment, all variable assignments", "why_tests_cant": "Structural induction over an infinite language times all assignments.", "anchors": ["rflx/expression.py:AssExpr.simplified,Add.simplified,Sub.simplified,Div.simplified,Pow.simplified,Mod.simplified,Mul"]}
{"id": "C14", "title": "Truth value of a condition is preserved by simplification", "statement": "For every boolean expression over relations, and/or/not whose arithmetic parts are in the sound fragment, simplified() has the same truth value under every assignment, including empty conjunctions and disjunctions and constant short-cuts.", "quantifier": "all boolean expressions, all assignments", "why_tests_cant": "Infinite language of conditions.", "anchors": ["rflx/expression.py:Not.simplified,AssExpr.simplified,And.simplified,Or.simplified,Relation.simplified"]}
{"id": "C15", "title": "Negation operator denotes arithmetic negation", "statement": "The unary minus of an expression evaluates to the negated value for numbers, names, sums, products and quotients of them; it does not for subtraction, power and modulo.", "quantifier": "all expressions, all assignments", "why_tests_cant": "Structural induction; wrong only on rarely tested operand kinds.", "anchors": ["rflx/expression.py:BinExpr.__neg__,Add.__neg__,Mul.__neg__,Number.__neg__,Variable.__neg__"]}
{"id": "C16", "title": "Substitution replaces variables and nothing else", "statement": "Substituting a mapping from variables to expressions yields an expression whose value under an assignment equals the original's value under the assignment updated with the values of the substitutes; variables not in the mapping are untouched. Expressions below a logical negation are not reached by substitution (a deviation that is exhibited).", "quantifier": "all expressions, all mappings, all assignments", "why_tests_cant": "Substitution lemma over an infinite language.", "anchors": ["rflx/expression.py:substitution,BinExpr.substituted,AssExpr.substituted,Name.substituted,Not"]}
{"id": "C17", "title": "variables() lists everything an expression's value depends on", "statement": "Two assignments that agree on variables() of an expression give it the same value; every listed variable occurs in it and none is listed twice.", "quantifier": "all expressions, all pairs of assignments", "why_tests_cant": "Quantifies over pairs of assignments.", "anchors": ["rflx/expression.py:*.variables,findall"]}
{"id": "C18", "title": "Short-circuit guards survive simplification", "statement": "A short-circuit conjunction that evaluates without error because an earlier operand guards a later one still does so after simplification when its operands are relations, negated relations, truth values or names; nested conjunctions may be reordered (counterexample exhibited).", "quantifier": "all short-circuit expressions, all assignments", "why_tests_cant": "Definedness under every assignment.", "anchors": ["rflx/expression.py:AndThen,OrElse,AssExpr.simplified"]}
{"id": "C19", "title": "Type compatibility is well behaved", "statement": "Compatibility of expression types is reflexive for every type but Undefined and symmetric except between channels; every defined type is compatible with Any; strong compatibility implies compatibility. The common type of integer types with known bounds does not depend on their order and is an integer type compatible with all of them; the common type of two types, if defined, is compatible with both. An aggregate of number literals is compatible with an array of integers if and only if all literals lie in the bounds of the elements. (Not guaranteed, with counterexamples: symmetry for channels, order independence for composite types, a literal out of range is accepted for an integer type on its own and in an aggregate next to a variable.)", "quantifier": "all types (including nested arrays/aggregates and message hierarchies), all bounds", "why_tests_cant": "Infinite recursive type language.", "anchors": ["rflx/typing_.py"]}
{"id": "C20", "title": "Accepted scalar types fit their declared size", "statement": "If a modular integer, range integer or enumeration type is accepted without error, every value of the type is representable in exactly its size in bits, the size is at most 64, first <= last, modular ranges are exactly 0..2^size-1 and enumeration values and literals are pairwise distinct.", "quantifier": "all moduli, ranges, sizes and literal tables", "why_tests_cant": "All integer parameters.", "anchors": ["rflx/model/type_.py:ModularInteger,RangeInteger,Enumeration"]}
{"id": "C21", "title": "Scalar type constraints describe exactly the valid values", "statement": "For every accepted scalar type, the constraint expression attached to a variable is true of a number representable in the size iff the number is a valid value of the type.", "quantifier": "all accepted scalar types, all numbers 0..2^size-1", "why_tests_cant": "All types and values; omitted constraints must be implied.", "anchors": ["rflx/model/type_.py:constraints"]}
{"id": "C22", "title": "Message fields are ordered so that predecessors come first", "statement": "If a message structure is accepted, the field list contains every field with an incoming link exactly once and every field comes after all sources of links leading to it; a structure with a cycle is always rejected.", "quantifier": "all finite link graphs", "why_tests_cant": "All directed graphs.", "anchors": ["rflx/model/message.py:AbstractMessage.__compute_topological_sorting,__validate"]}
{"id": "C23", "title": "paths() enumerates exactly the link sequences from the start", "statement": "For an accepted structure, the set of paths to a field is exactly the set of link sequences that start at the initial node, are connected and end at the field; no path is missing or invented.", "quantifier": "all acyclic link graphs, all fields", "why_tests_cant": "All graphs; exponentially many paths.", "anchors": ["rflx/model/message.py:AbstractMessage.paths"]}
{"id": "C24", "title": "definite_predecessors are the fields present on every path", "statement": "The definite predecessors of a field are exactly the fields that occur on every path to it.", "quantifier": "all acyclic link graphs, all fields", "why_tests_cant": "All graphs.", "anchors": ["rflx/model/message.py:AbstractMessage.__compute_definite_predecessors,definite_predecessors"]}
{"id": "C25", "title": "field_condition is true iff some path's conditions hold", "statement": "Under every assignment, the field condition of a field is true iff there is a path to the field all of whose link conditions are true.", "quantifier": "all acyclic link graphs, all conditions, all assignments", "why_tests_cant": "All graphs times all assignments.", "anchors": ["rflx/model/message.py:AbstractMessage.__compute_field_condition,field_condition"]}
{"id": "C26", "title": "Accepted messages are parsed deterministically", "statement": "If message verification succeeds and the solver's answers are correct and conclusive, then for every assignment of legal values to the fields and every field at most one outgoing link's condition is true (conditions evaluated without division or modulo of negative numbers, no always-valid enumerations); consequently after every beginning of a message in a buffer at most one link leads on, which is what the generated parser relies on.", "quantifier": "all messages, all assignments; any sound and complete solver", "why_tests_cant": "All messages x all field values.", "anchors": ["rflx/model/message.py:Message.__prove_conflicting_conditions", "rflx/expression.py:Proof"]}
{"id": "C27", "title": "Accepted messages have no holes", "statement": "If verification succeeds with a correct, conclusive solver, then for every assignment that satisfies a path to the end, every bit between the first and last bit of the message belongs to some field of that path - provided no field shares its name with the checker's own bit variable.", "quantifier": "all messages, all assignments", "why_tests_cant": "All messages x all values; name capture with an internal variable.", "anchors": ["rflx/model/message.py:Message.__prove_coverage,__link_expression"]}
{"id": "C28", "title": "Accepted messages have non-negative field sizes and aligned opaque fields", "statement": "If verification succeeds with a correct, conclusive solver then on every path to the end, for every legal assignment under which the path is taken, each field has non-negative size, each opaque field starts at a byte boundary and has a size that is a multiple of eight, and the sizes of the fields that do not overlay others add up to whole bytes provided arrays take whole bytes.", "quantifier": "all messages, all paths, all assignments", "why_tests_cant": "All messages x all values.", "anchors": ["rflx/model/message.py:Message.__prove_field_positions,__prove_message_size"]}
{"id": "C29", "title": "Merging message fields flattens structure without losing behaviour", "statement": "UnprovenMessage.merged ends for every nesting after at most as many iterations as there are message fields. If it reports no error, no field of message type is left, and under every assignment of values the original message (a message field standing for the fields of its message) and the merged one go through the same sequences of fields with the same types, sizes and positions, whatever the solver says as long as 'unsatisfiable' is true. This needs: no condition on the first link of an inner message, no names below a logical negation or only with a minus sign, no size at the message field, no literals of the inner package with the name of an outer one; each of these is shown to be necessary by a counterexample.", "quantifier": "all nested message definitions, link orders, solver answers and field values", "why_tests_cant": "Arbitrary nesting depth and branching.", "anchors": ["rflx/model/message.py:UnprovenMessage.merged,__merge_inner_message,__prune_dangling_fields,prefixed"]}
{"id": "C30", "title": "Specification files are ordered by dependency", "statement": "Loading files with Parser.parse ends for every set of files and reports a dependency cycle exactly if the given files lead into one. Without such a cycle sorting ends too, and every readable file reached through with clauses is processed, once and after all files it depends on. With a cycle sorting may run forever, so that the error is never shown (counterexample exhibited).", "quantifier": "all acyclic include graphs and parse orders", "why_tests_cant": "All graphs; termination.", "anchors": ["rflx/specification/parser.py:Parser.__sort_specs_topologically"]}
{"id": "C31", "title": "Message structure creation keeps every declared aspect", "statement": "If no error is reported there is exactly one link per then clause or implicit step, in order, carrying its condition, size and first aspect and, if the component it leads to comes later in the text, those of that component; the same aspect at both places is an error. If the component comes earlier, its aspects silently disappear (counterexample exhibited).", "quantifier": "all component lists", "why_tests_cant": "All component orders.", "anchors": ["rflx/specification/parser.py:create_message_structure"]}
{"id": "C32", "title": "Verification cache never vouches for an unverified message", "statement": "In every history of runs, crashes during cache writing, concurrent corruption by truncation and version changes, a message is reported as already verified only if a message of the same name and the same digest was verified before, and (without digest collisions) with the same tool version, text and field type texts; a partly written file is never read as a cache; a completed write is read back unchanged. Not guaranteed (counterexample exhibited): a message that differs in array element definitions or checksums only is taken as verified.", "quantifier": "all histories of runs with a crash possible at any byte of any write", "why_tests_cant": "Crash points x histories.", "anchors": ["rflx/specification/cache.py:Cache"]}
{"id": "C33", "title": "Accepted sessions are structurally sound", "statement": "If a session is accepted: initial and final states exist, state names are unique, every normal transition leads to an existing state, every non-final state has a transition, every non-initial state is the target of a normal transition of itself or of a state earlier in the text, and a state has an exception transition exactly if it has an action that can fail; conversely such states give no error. Not guaranteed (counterexamples exhibited): reachability of states or of the final state, independence of the order of states, existence of exception targets, absence of transitions from the final state.", "quantifier": "all sessions", "why_tests_cant": "All state graphs.", "anchors": ["rflx/model/session.py:AbstractSession,Session"]}
{"id": "C34", "title": "Accepted models have unique names", "statement": "A model is accepted exactly if no two types/sessions share a qualified name, no two enumerations of one package (or of the built-in one) share a literal, and no literal has the name of a type of its package or of the built-in type. A literal and a session may share a name (exhibited).", "quantifier": "all models", "why_tests_cant": "All sets of declarations.", "anchors": ["rflx/model/model.py:Model.__check_duplicates,__check_conflicts"]}
{"id": "C35", "title": "Identifiers behave like case-insensitive names", "statement": "Identifier equality is an equivalence, equal identifiers hash equally, an accepted identifier round-trips through its textual form, joining is associative, and every qualified identifier equals its parent joined with its name; malformed names (empty parts, blanks) are rejected.", "quantifier": "all identifiers of any number of parts", "why_tests_cant": "All strings.", "anchors": ["rflx/identifier.py:ID"]}
{"id": "C36", "title": "No error message is lost", "statement": "In every history of append, appendleft, extend and += on an error container, the collected entries are exactly the given entries in the specified order, propagate raises iff there is at least one entry.", "quantifier": "all histories of operations", "why_tests_cant": "Histories of any length.", "anchors": ["rflx/error.py:RecordFluxError,BaseError"]}
{"id": "C37", "title": "Generated parser: Verify keeps the context invariant and accepts exactly valid messages", "statement": "In the generated parser, any sequence of Verify calls keeps the cursor invariant (valid fields form a path with true conditions, consecutive positions within the buffer); after Verify_Message, Valid_Message holds iff the buffer contains a complete message along a path whose conditions hold.", "quantifier": "all message models, all buffers, all sequences of Verify calls", "why_tests_cant": "All messages x all buffers x histories.", "anchors": ["rflx/generator/parser.py", "rflx/generator/common.py:context_predicate,message_structure_invariant", "rflx/generator/generator.py"]}
{"id": "C38", "title": "Generated serializer: setters keep the context invariant and reset dependants", "statement": "In the generated serializer, every setter call that satisfies its precondition keeps the context invariant; fields behind the changed field become invalid, fields before it keep their value and position.", "quantifier": "all message models, all histories of setter calls", "why_tests_cant": "Histories of any length.", "anchors": ["rflx/generator/serializer.py", "rflx/generator/generator.py:Reset_Dependent_Fields"]}
{"id": "C39", "title": "Generated setter and getter agree", "statement": "What a generated scalar setter writes is what a subsequent Verify and getter read at the same field, for every field layout and value.", "quantifier": "all field offsets, sizes, values and buffers", "why_tests_cant": "All layouts.", "anchors": ["rflx/generator/serializer.py:Set_Field_Value", "rflx/generator/parser.py:Get_Field_Value", "rflx/generator/common.py:field_byte_location_declarations"]}
{"id": "C40", "title": "Byte/bit index conversion is consistent", "statement": "The bit/byte index conversions used everywhere in generated code are mutually consistent: First_Bit_Index of a byte index is mapped back by Byte_Index, all eight bits of a byte map to it, and a field's buffer slice contains exactly the bytes its bits touch.", "quantifier": "all indices", "why_tests_cant": "All integers of the index type.", "anchors": ["rflx/templates/rflx_generic_types.ads", "rflx/generator/common.py"]}
{"id": "C41", "title": "unique keeps first occurrences", "statement": "The helper that removes duplicates returns every distinct element exactly once in the order of first occurrence.", "quantifier": "all finite sequences", "why_tests_cant": "All sequences.", "anchors": ["rflx/common.py:unique"]}
{"id": "C42", "title": "Refinement lookup respects the refinement condition", "statement": "When an opaque field without a nested message so far is set, a nested message is used exactly if some refinement of this message and field has a condition that is true for the already set fields; the last such refinement is taken and the field stores the bytes of its message. A nested message used before is not dropped when its condition becomes false (refuted by example).", "quantifier": "all refinements, all message values", "why_tests_cant": "All models and values.", "anchors": ["rflx/pyrflx/typevalue.py:MessageValue._set_refinement,RefinementValue", "rflx/pyrflx/typevalue.py:OpaqueValue"]}
{"id": "C43", "title": "Opaque values keep their bytes", "statement": "Assigning bytes to an opaque value succeeds iff their number of bits is the expected size (if one is set); the bitstring of the value has eight bits per byte and parsing it gives the same bytes back, and a parsed bitstring of whole bytes is reproduced.", "quantifier": "all byte strings, all expected sizes, all bitstrings", "why_tests_cant": "All lengths and contents.", "anchors": ["rflx/pyrflx/typevalue.py:OpaqueValue"]}
{"id": "C44", "title": "Session declarations are visible, distinct and used", "statement": "In an accepted session no declaration is called like the built-in channel function, no state-local declaration hides a session-level one, and every declared name is used in its scope: in the initialisation of another declaration, as the type of a declaration, in an action or in a transition condition. Two declarations of one name in one scope are accepted and the first is ignored (counterexample exhibited).", "quantifier": "all sessions", "why_tests_cant": "All sets of declarations, states and uses.", "anchors": ["rflx/model/session.py:Session.__validate_declarations,__validate_usage,AbstractSession.__init__"]}
{"id": "C45", "title": "Every field of an accepted message can occur", "statement": "If verification succeeds and the solver only answers SAT for satisfiable facts, then for every field there are values legal for all types and a path from the start to the field along which all conditions hold and all fields are laid out inside the message, with one of the field's outgoing links taken; and some assignment takes a path from the start to the end.", "quantifier": "all messages without division, all fields", "why_tests_cant": "Existence of a witness for every field of every message.", "anchors": ["rflx/model/message.py:Message.__prove_contradictions,__prove_reachability"]}
{"id": "C46", "title": "Overlay fields are congruent with the overlaid field", "statement": "If verification succeeds with a solver whose SAT answers are right, then for every field whose First aspect is the First of another field and every path to it there is an assignment along that path for which both fields end at the same bit. (That they always do is not guaranteed: refuted.)", "quantifier": "all messages, all overlay links, all paths", "why_tests_cant": "All messages; only the solver's SAT answer is used by the code.", "anchors": ["rflx/model/message.py:Message.__prove_overlays"]}
{"id": "C47", "title": "Accepted expressions are well-typed and mention only known names", "statement": "The type check of an expression (Expr.check_type) accepts exactly the expressions that are well-typed in a declarative sense: operands of arithmetic are integers, of logic are Boolean, compared values have compatible types, every name has a type. Evaluating an accepted expression with values of the types of its variables gives a value of its type, unless a division by zero or a negative exponent occurs or a Boolean variable is negated like a number; z3 accepts it if it contains no Boolean variable. In an accepted message every expression of a link on a path that some assignment of legal values can take is well-typed and mentions only fields that come earlier on that path, literals, types and Message. (Not guaranteed: expressions on paths that cannot be taken are not checked; variables below a logical negation are always rejected.)", "quantifier": "all expressions, all types of variables, all messages, paths and assignments, all solvers whose UNSAT answers are right", "why_tests_cant": "Unbounded expressions and message graphs; tests check single examples.", "anchors": ["rflx/expression.py:Expr.check_type", "rflx/expression.py:_check_type_subexpr", "rflx/model/message.py:Message.__verify_expression_types"]}
{"id": "C48", "title": "Generated scalar types and conversions are exact", "statement": "For every accepted scalar type the generated Ada type declarations are legal and have exactly the values of the specification (base type 0 .. 2**Size - 1, bounds of range types, representation clause with all literals in ascending order); the generated function Valid is true exactly for the values of the type; To_Base and To_Actual are inverse to each other between valid numbers and the Ada values that stand for them, without a failing range check or reaching the unreachable branch; the generated case expressions are complete and without duplicate choices. (Not guaranteed: a record with Known => False may hold the number of a literal; if simplification gets a bound wrong, the generated range type and Valid disagree.)", "quantifier": "all accepted types, all numbers of the base type, all Ada values", "why_tests_cant": "All sizes up to 64 bits and all sets of literals.", "anchors": ["rflx/generator/generator.py:Generator.__integer_functions,__enumeration_functions,__integer_conversion_functions,modular_types,range_types,enumeration_types", "rflx/ada.py:EnumerationType"]}
{"id": "C49", "title": "Contains is true exactly of the messages a refinement describes", "statement": "A refinement is accepted iff its package is a single name, the refined field exists and is opaque, and every name in the condition is a field or a literal of an enumeration among the types of the message. For conditions that compare fields, literals and numbers and combine the comparisons by and/or, the generated function Contains can always be evaluated (no failing precondition, no selection of an absent component) in every context that results from verifying or setting fields, and it is true iff the context has the refined field (empty if the inner message has no fields), all fields of the condition are there with values that are literals where the type is an always valid enumeration, and the condition is true of the values. It is false if the context has no buffer. Switch_To_<Field> then moves the buffer into a context for the inner message whose bounds are exactly those of the refined field and for which Initialize may be called; cursors of the outer context are kept. (Not guaranteed: names below a negation or an arithmetic operator are not replaced, so the generated function does not compile though the refinement is accepted.)", "quantifier": "all messages, refinements and conditions, all buffers and bounds, all histories of Verify and Set calls, all values", "why_tests_cant": "Quantifies over all messages, conditions and buffer contents.", "anchors": ["rflx/model/message.py:Refinement", "rflx/model/type_.py:qualified_enum_literals", "rflx/generator/generator.py:Generator.__create_contains_function,__create_switch_procedure,refinement_conditions", "rflx/expression.py:BinExpr.__contains__"]}
{"id": "C50", "title": "No run-time check of the generated parser and serializer fails", "statement": "For an accepted message without overlays whose first field is a scalar, whose expressions mention only names that are known where they are evaluated, whose conditions and sizes can be computed in the 64-bit types of the generated code and give sizes within Bit_Length, and which has no condition on the First of the field it starts at: whatever bytes the buffer contains, every sequence of Verify calls ends without a failing range, index, discriminant or precondition check; afterwards Structural_Valid_Message and Valid_Message can be evaluated, the predicate of Context evaluates to True and every structurally valid field can be read. Hence Verify_Message followed by Structural_Valid_Message decides whether the buffer contains a complete message. If moreover no condition refers to the Last or, for scalar fields, the Size of the field it starts at, every sequence of calls of setters and Verify either succeeds or stops at a call whose precondition evaluates to False, and a completely set message is accepted by the parser. (Not guaranteed by acceptance: the size of a field may exceed Bit_Length, and a condition on the Last of a field may be evaluated for a field that does not fit.)", "quantifier": "all messages, types, buffers, bounds and contents, all sequences of calls", "why_tests_cant": "Absence of run-time errors for all inputs; tests run single packets.", "anchors": ["rflx/generator/parser.py:ParserGenerator", "rflx/generator/serializer.py:SerializerGenerator", "rflx/generator/generator.py:Generator", "rflx/generator/common.py:GeneratorCommon"]}
{"id": "C51", "title": "The text of an expression has the value of the expression", "statement": "str of an expression (over identifiers of the language, whose sums do not start with a relation, conjunction or disjunction, and without empty disjunctions) is a text which can be read in exactly one way by the expression grammar of Ada (precedence, left associativity, mandatory parentheses), and the reading has the value of the expression, with and without short-circuit evaluation. Expressions that are == (same class and text, variables without regard to case) never have different values if identifiers that differ in case only denote the same entity. Simplification as it uses this equality succeeds, keeps the value, and its result again has a text with that value. The text of ada_expr of an expression without empty sums, products and disjunctions has the same value when the names denote the same in Ada. Refuted without the restrictions: an empty disjunction is printed as True (and equal to a true one), two different expressions have the same text if a sum starts with a relation, == is no congruence, the simplified form of X - X (an empty sum) has no Ada text (IndexError), and the Ada text of an empty product is empty.", "quantifier": "all expressions, environments and identifiers", "why_tests_cant": "A missing pair of parentheses changes the meaning for particular nestings only; equality by text silently depends on the text being unambiguous.", "anchors": ["rflx/expression.py:Expr.__eq__", "rflx/expression.py:Expr.parenthesized", "rflx/expression.py:BoolAssExpr._update_str", "rflx/expression.py:Add._update_str", "rflx/expression.py:Number._update_str", "rflx/expression.py:Variable.__eq__", "rflx/expression.py:Expr.ada_expr", "rflx/ada.py:Add._update_str"]}
{"id": "C52", "title": "Accepted sessions are type safe", "statement": "If Session accepts a session (no errors in the constructor), then every run of it, i.e. processing its global declarations, entering states, executing their actions and evaluating the conditions of their transitions, only ever goes on, ends or raises one of the exceptions types cannot exclude (field not present, head of an empty sequence, bytes that are not a message, full sequence, division by zero): no operation is applied to a value it is not defined for, no name without value is used, the next state exists, and every variable always has a value of its declared type. An expression accepted by check_type for a declared type evaluates to a value of this type. A message aggregate is accepted iff it lists exactly the fields of one possible field sequence in order and each value is accepted for its field or is a message which refines it. The theorem excludes the expressions for which this is false, which are given as counterexamples: selection from a prefix whose type is only known after its check, unchecked nested message aggregates, names of types and functions used as values, variables with the name of a literal, exception transitions to unknown states.", "quantifier": "all sessions, all types and messages, all environments (functions, received messages, parsing), all runs of any length", "why_tests_cant": "Tests check single expressions for the expected error message. That acceptance by some thirty interacting methods excludes every ill-typed evaluation in every run cannot be enumerated; the holes found here are combinations no test contains.", "anchors": ["rflx/model/session.py:287-502", "rflx/statement.py:36-160", "rflx/declaration.py:96-164", "rflx/expression.py:140-152", "rflx/expression.py:1272-1294", "rflx/expression.py:2109-2174", "rflx/typing_.py:61-382"]}
{"id": "C53", "title": "Checksum definitions are checked when a message is built", "statement": "For an acyclic message with known fields, Message accepts a checksum only if every parameter is a field, the size of a field, or a range from the first bit or the bit behind a field to the last bit of a field or the bit before one; a range with different ends is accepted exactly if every way to its upper end runs through its lower end; an accepted range that does not exclude its only field lies within the message and does not run backwards on every path with its upper end; and each checksum field is a field that is named by a Valid_Checksum condition of some link. The cases that slip through (an excluded field as range, a range behind the message, an unknown field in a range, a path without the check, a negated check without definition) are shown.", "quantifier": "all message structures, all checksum aspects", "why_tests_cant": "Tests give a handful of wrong aspects and one correct one; that no other expression or path is accepted needs a case analysis over all expressions and structures.", "anchors": ["rflx/model/message.py:767-863"]}
{"id": "C54", "title": "PyRFLX checksums belong to the bytes and values of the message", "statement": "If valid_message holds, each checksum field has the value that the user's checksum function gives for the current bytes of the message and for the values of the declared parameters; bytestring therefore carries the checksums of exactly the bytes it returns. The recorded values are those of the fields. A checksum set by hand survives every later set of another field, failed or not. With two checksum fields set_checksum_function always raises and no sequence of calls makes the message valid. Parsing a wrong trailing checksum, cloned objects, unset covered fields, functions that cover their own field and types without zero are shown to break the expectations one may have.", "quantifier": "all message types, objects, call sequences, checksum functions and values", "why_tests_cant": "The tests use one message type and one checksum function; the overwriting of received checksums and the sharing between clones only shows in particular orders of calls.", "anchors": ["rflx/pyrflx/typevalue.py:532-538", "rflx/pyrflx/typevalue.py:766-847", "rflx/pyrflx/typevalue.py:887-1006", "rflx/pyrflx/typevalue.py:1096-1163"]}
{"id": "C55", "title": "PyRFLX messages are read back from their own bytes", "statement": "If the fields of a PyRFLX message object are set one after the other, each to a value written the way it is read (numbers, literals as declared, bytes, elements that are read back themselves), and the message is valid, then parsing its bytestring, with anything behind it, by a new object of the same type gives exactly the same object: the same values, positions and sizes. A parsed object whose fields have the sizes they were given is made again from its own bits. A message that was read as the element of an array or as the content of a refined field is read again, and no more, whatever follows it. Literals that were set with other letter case and fields that were set out of order are shown not to survive.", "quantifier": "all message types without overlays and cycles, all values, nested messages of any depth, all trailing data", "why_tests_cant": "The tests parse a few fixed byte strings and compare single fields; that the whole state agrees for every message type, path and payload cannot be sampled.", "anchors": ["rflx/pyrflx/typevalue.py:684-748", "rflx/pyrflx/typevalue.py:766-847", "rflx/pyrflx/typevalue.py:1017-1052"]}
{"id": "C56", "title": "z3 is asked what the expressions mean", "statement": "Every term that z3expr builds is accepted by z3 (the sorts fit), every well-typed expression without Boolean variables is translated, and every other error is a Z3TypeError as the class tests say. For every assignment of numbers to identifiers there is one interpretation of z3's constants under which each term has exactly the value of its expression, provided no negative number is divided and no remainder of a negative divisor is taken; conversely each interpretation is such an assignment if every identifier is spelled in one way. Hence Proof.result says unsat only of expressions that are not all true and sat only of expressions that can be, and Proof.error names facts that are not all true. Rounding of negative quotients and spellings that differ in case are shown to break this.", "quantifier": "all expressions over numbers, names, attributes, arithmetic, relations and connectives, all assignments, any solver that is right about the formulas it is given", "why_tests_cant": "The tests compare a few z3 terms; agreement of two arithmetics and of two naming schemes on all expressions is a statement about all assignments.", "anchors": ["rflx/expression.py:36-75", "rflx/expression.py:563-568", "rflx/expression.py:806-810", "rflx/expression.py:904-909", "rflx/expression.py:1055-1058", "rflx/expression.py:1100-1106", "rflx/expression.py:1606-1611"]}
{"id": "C57", "title": "The declarations of the specifications become the types of the model", "statement": "Parser.create_model succeeds exactly if every declaration of every file, in the order of evaluation, is in order after the ones before it and the names of the result are distinct. The model then has the built-in types followed by one type per declaration, in order, with the identifier Package::Name and the values of the declaration. A reference stands for the first earlier type of that name; names ignore case, unqualified names belong to the package, Boolean and Opaque to the built-in ones; what arrays and refinements are made of has been declared before and is the only type of its name. The mistakes of all declarations of all files are in the exception, unless a session of the file raises one of its own. A file gives the same types and errors whatever unrelated types have been loaded. A second create_model on the same parser fails. No other exception is raised if the sizes of scalar types are static.", "quantifier": "all lists of packages with arbitrary declarations, all references, all builders of messages, derived messages and sessions", "why_tests_cant": "the tests evaluate a few dozen specifications; order, duplicates, lookups in other packages, mistakes in several declarations and files and their interplay with sessions and incomplete types are unbounded", "anchors": ["rflx/specification/parser.py:264-286", "rflx/specification/parser.py:711-811", "rflx/specification/parser.py:980-1142", "rflx/specification/parser.py:1320-1388", "rflx/model/type_.py:477-513", "rflx/model/type_.py:602-638", "rflx/model/message.py:1553-1618"]}
{"id": "C58", "title": "A derived message means what its base means and is accepted exactly when its base is", "statement": "Deriving a message in another package keeps fields, types, the order of links, sizes and positions. A condition of the derived message has, under any assignment, the value the condition of the base has where the enumeration literals of the package of the base have the values of their qualified names; the fields of the derived message lie exactly where the fields of the base lie, and what is legal for the derived message is legal for the base. For a base that uses its literals in conditions by their simple names, the proofs made of the derived message give exactly the result of the proofs of the base, so that an accepted base can be derived from; a base with errors or one that is itself derived is rejected. Refuted: the same for sizes - a literal used as size is not qualified, and the derived message is rejected although its base is accepted.", "quantifier": "for all messages, target packages, assignments of values, and solvers whose answers do not depend on how literals are named", "why_tests_cant": "tests derive a few fixed messages; that renaming literals changes no answer of any proof of any message needs all messages, assignments and solver questions", "anchors": ["rflx/model/message.py:1650-1668", "rflx/model/message.py:1481-1548", "rflx/model/message.py:1280-1303", "rflx/specification/parser.py:1005-1026"]}
{"id": "C59", "title": "A binding simplifies to its meaning, and variables() reports what a value depends on", "statement": "For session expressions (including selections, calls, aggregates, quantified expressions, conversions, comprehensions, message aggregates and bindings): if an expression has a value, its simplified form has the same value, needs no names the expression does not need and calls no other functions, and a simplified binding contains no binding. The value of an expression depends only on the values of the variables that variables() reports, so a declaration reported as unused can hold any value; what variables() reports is a free variable or a called function. This holds if sums are not mixed with division, exponentiation and modulo, bindings are not nested, bound names are not used below 'not' or as prefix of an attribute of a name, no definition mentions a name bound inside the expression, and (for completeness of variables()) aggregates mention no variables and an iterable does not mention the bound name. Without each of these conditions it is false: counterexamples are given, among them a declaration that is used and reported as unused.", "quantifier": "all expressions, stores, environments (functions and operations on messages) and all sound equality tests", "why_tests_cant": "Tests simplify a handful of bindings; capture, shadowing, lost signs and unreported variables only show for particular combinations of nested constructs.", "anchors": ["rflx/expression.py:194-2293", "rflx/model/session.py:287-433", "rflx/statement.py:44-45", "rflx/common.py:78-83"]}
{"id": "C60", "title": "A message object that skips verification has the values, positions and bytes of one that verifies", "statement": "If a PyRFLX message object that verifies is filled field by field in the order of the message (values other than bitstrings and empty arrays), then the same calls of set on an object created with skip_verification succeed, the same fields are accessible, and every field has the same value, first bit and size. If the verifying object is a valid message, both have the same bitstring and bytestring, and if conditions refer to values of fields, one reports a valid message exactly if the other does. Sizes of links must be computable from any numbers. Outside of these conditions it is false: an empty array and an explicit position take the link whose condition does not hold, setting a field again loses the bytes of all fields or makes bytestring run without end, and a number outside of its type is taken and its last bits are cut off, which gives the bytes of another valid message.", "quantifier": "all message types that are tidy, definite and declared, all refinements and nested parsers, all sequences of calls of set", "why_tests_cant": "The tests compare the two modes for a few messages and values; they do not reach links with several sizes, empty arrays or repeated calls.", "anchors": ["rflx/pyrflx/typevalue.py:505-592", "rflx/pyrflx/typevalue.py:607-673", "rflx/pyrflx/typevalue.py:749-797", "rflx/pyrflx/typevalue.py:1017-1049", "rflx/pyrflx/typevalue.py:1096-1117", "rflx/pyrflx/pyrflx.py:16-38"]}
{"id": "C61", "title": "The expressions, statements and sessions of a specification become those of the model", "statement": "create_expression, create_math_expression and create_bool_expression (rflx/specification/parser.py) turn the parse tree of an expression into an expression with the meaning of the tree: in every environment both have the same value, or both raise an exception or are undefined.  A numeric literal gets the value of its digits in its base, and the text of a number is read as this number.  The three functions agree wherever they accept, and mathematical and boolean expressions of the documented grammar are accepted where they are expected.  Usable identifiers are accepted and keep their text, reserved words are reported.  A session that is created has the states, transitions (the final one last), actions, declarations and parameters of the specification in the same order, each with its meaning; a state or session with different identifiers at its start and end is reported.", "quantifier": "for all parse trees, literals of any length and base, identifiers, stores and environments", "why_tests_cant": "tests compare a handful of parse results with expected objects; they cannot show that no combination of operators, contexts and nestings is created with another meaning", "anchors": ["rflx/specification/parser.py:110-262", "rflx/specification/parser.py:289-708", "rflx/expression.py:625-646"]}
{"id": "C62", "title": "The text of a model declares the types of the model", "statement": "str(Model) writes a text that belongs to the grammar of the specification language and has exactly one reading.  It declares the types of the model except the predefined ones, in their order: modular types with their modulus, range types with their bounds and size, enumerations with their literals, size and Always_Valid, arrays with their element type, messages and refinements with their condition.  The structure that the parser creates for the declaration of a message has, for each field and the initial node, links with the targets, conditions, sizes and first bits of the model in the same order, and no other links.  The name of a type denotes this type in the package of the model if the type belongs to the package or is predefined.  Messages that validation accepts meet the requirements on the structure.", "quantifier": "for all lists of types with any number of fields, links and literals and any expressions", "why_tests_cant": "tests compare the text of a few small models with expected texts; they cannot show that implicit links, null components and the layout of conditions are read back for every structure", "anchors": ["rflx/model/model.py:23-28", "rflx/model/message.py:58-69", "rflx/model/message.py:154-177", "rflx/model/message.py:1621-1623", "rflx/model/type_.py:125-126", "rflx/model/type_.py:256-260", "rflx/model/type_.py:421-424", "rflx/model/type_.py:518-519", "rflx/model/type_.py:580-624", "rflx/specification/parser.py:814-905"]}
{"id": "C63", "title": "The generated units are complete and fit together", "statement": "For a model whose types follow the types that they use, code generation succeeds.  It creates exactly one library unit for each package, for each array, for each message that has fields or is derived, for the generic package of each message that has fields and is not derived, and a unit Contains and its generic package for each package with refinements; no two units, including those of the library, have the same name.  Each unit in a context clause and each parent unit is generated or belongs to the library, and no unit depends on itself.  No file is written twice, and each unit has a specification file (the package of a prefix that the user has chosen has to be provided).  Each instantiation names a generic package in its context clause and has for each formal package, at its place, an actual package which is an instance of the right generic package, instantiated with the same package Types; the formal packages of a generic package have different names.", "quantifier": "for all prefixes and all lists of types with any number of packages, messages, arrays and refinements", "why_tests_cant": "tests compare the generated code of a few specifications with stored files; they cannot show that the units of every model can be compiled in some order and that the removal of duplicates of formal and actual parameters agrees for every set of refinements", "anchors": ["rflx/generator/generator.py:141-275", "rflx/generator/generator.py:278-324", "rflx/generator/generator.py:2277-2503", "rflx/generator/generator.py:3011-3012", "rflx/generator/const.py:4-33", "rflx/ada.py:938-951", "rflx/ada.py:1000-1012", "rflx/ada.py:1644-1725", "rflx/common.py:67-83", "rflx/cli.py:99-120"]}
{"id": "C64", "title": "Access to array fields of generated messages", "statement": "After any calls of Verify, the setters, Set_<Field>_Empty, Switch_To_<Field>, Append_Element, Next and Update_<Field>, each called only if its precondition holds, the buffer is in exactly one of the contexts of the message and of the sequences.  What the context of the message shows is a path through the message over this buffer, and each valid array field consists of valid elements.  If Valid_Message holds, the buffer has a complete message with non-empty arrays of valid elements.  No call fails a check.  Switching, appending the elements and updating writes exactly the elements into the field and leaves all other bits and the fields before as they were.  Verify, Switch_To_<Field>, Next and Update_<Field> can make the message valid if and only if the buffer has a complete message with non-empty arrays of valid elements.  A sequence that has read an invalid element, or whose field has no multiple of the size of the elements, cannot be given back.", "quantifier": "for all messages, all types of arrays, all buffers and all finite sequences of calls with any number of sequences", "why_tests_cant": "tests access one or two arrays in a fixed order; the order of calls, the number of sequences, the elements and the layouts of messages are unbounded", "anchors": ["rflx/generator/generator.py:867-903", "rflx/generator/generator.py:1767-2184", "rflx/generator/generator.py:3044-3058", "rflx/generator/common.py:546-597", "rflx/generator/serializer.py:399-420", "rflx/templates/rflx_scalar_sequence.adb:1-77"]}
{"id": "C65", "title": "Graphs of messages and sessions", "statement": "The graph that rflx graph makes of a message has different nodes, all ends of its edges are nodes, and the ways through the graph from Initial to Final are exactly the paths through the message; each link is labelled with its condition, the size of its target and its first bit.  The graph of a session has as nodes exactly the states and the variables that a state reads or writes and does not declare itself.  The edges from a state to states are its transitions in their order, the degree of a state is the number of its transitions in both directions, and there is exactly one edge from (to) a variable if the state reads (changes) it in a condition or assignment (by an action).  What a state assigns and which state follows depends only on its own variables and on those with an edge to the state.", "quantifier": "for all messages and sessions whose fields, states and variables have different names, all expressions and all values of variables", "why_tests_cant": "tests compare the text of a few graphs; messages, sessions and the ways through them are unbounded", "anchors": ["rflx/graph.py:19-210", "rflx/model/message.py:289-299"]}
{"id": "C66", "title": "The exported text determines the types of the model", "statement": "If rflx export succeeds, the text of the output file determines the types of the model: two models with the same text have the same types in the same order, with the same identifiers, values, structures and expressions, up to locations and checksums; no other file is changed.  Every model without sessions can be exported.  Every model with a session makes the command end with an AttributeError after the output file has been emptied.", "quantifier": "for all models of messages, refinements and other types, all expressions that can occur in messages, all names and all files", "why_tests_cant": "tests compare the text of single models; that different models never have the same text is a statement about all pairs of models", "anchors": ["rflx/common.py:24-40", "rflx/identifier.py:106-108", "rflx/model/type_.py:153-161", "rflx/model/type_.py:306-316", "rflx/model/type_.py:457-467", "rflx/model/type_.py:529-560", "rflx/model/message.py:179-188", "rflx/model/message.py:1635-1647", "rflx/cli.py:179-182"]}
{"id": "C67", "title": "Specifications are loaded from their files completely and without mixing them up", "statement": "Loading files with Parser.parse comes to an end.  If it reports no error, then each given file is loaded, each loaded file is given or stands beside a loaded file that names its package in a with clause, it has the name of its package, which does not start with RFLX, and declares neither Boolean nor a reserved word, no package is loaded from two files, all packages in with clauses are loaded, and the specifications are sorted without loss so that each follows those that it names.  Files that fulfil this, without equal names and cycles, give no error.  If loading is not broken off then all that is wrong with the given files, and two given files for one package, are reported.", "quantifier": "for all sets of files in all directories with all with clauses, all lists of given files", "why_tests_cant": "tests load a few directories; cycles, repeated files, mixed spellings and directories can be combined in unboundedly many ways", "anchors": ["rflx/specification/parser.py:79-101", "rflx/specification/parser.py:239-248", "rflx/specification/parser.py:1145-1185", "rflx/specification/parser.py:1188-1192", "rflx/specification/parser.py:1206-1273", "rflx/specification/parser.py:1275-1306"]}
{"id": "C68", "title": "The commands report all errors and write exactly their files", "statement": "rflx check changes no file and ends with success exactly if all given files exist and neither loading nor the model has errors; success of any other command implies the same.  If files are missing or there are errors in files or in the model, then all of them are in the text, missing files first, and no file is changed.  A command that ends with an error message has changed no file.  If rflx generate succeeds then the prefix is empty or a valid name, and exactly the files of the units, those of the library unless they are unwanted, and for the prefix RFLX that of its package are written in the directory.  If rflx graph succeeds and the flat names of messages and sessions are different, then each has its graph and its place in locations.json, and nothing else is changed.  If rflx export succeeds then the output file has the text of the model, and nothing else is changed.  The model is that of the given specifications.", "quantifier": "for all commands, files, directories, prefixes, formats, models and contents of the disk", "why_tests_cant": "tests run single commands on single directories and look for single files; that nothing else is written and no error is hidden concerns all files and combinations of errors", "anchors": ["rflx/cli.py:22-182", "rflx/error.py:103-113", "rflx/generator/generator.py:142-190", "rflx/generator/generator.py:2957-2961", "rflx/common.py:67-72", "rflx/identifier.py:8-33"]}
{"id": "C69", "title": "Looking up messages gives new and separate objects of the model", "statement": "A PyRFLX object is created exactly if the messages of all refinements are in the model.  Whatever has been called before, pyrflx[p][n] is a new object of the message of the model with exactly this package and name, its fields are as in the beginning, and its refinements are those of the model for this message, in order, each with an object of its SDU; without such a message there is a KeyError.  A call changes neither the message nor the refinements nor the fields of any other object.  A checksum function set for a message of a package is used by all its objects, looked up before or after, and by no object of another message.  Iteration gives packages in the order of their first messages, each once, and their messages in the order of the model.  from_specs only succeeds if all files exist and are parsed without complaint; otherwise the first missing file is named or the errors of the parser are raised.", "quantifier": "for all models, all sequences of calls of the user, all objects and all behaviours of the methods on their own object", "why_tests_cant": "tests look at single objects directly after their creation; that objects do not influence each other concerns all sequences of calls on all objects", "anchors": ["rflx/pyrflx/pyrflx.py:15-57", "rflx/pyrflx/package.py:7-27", "rflx/pyrflx/typevalue.py:505-593", "rflx/pyrflx/typevalue.py:887-900", "rflx/pyrflx/typevalue.py:1255-1261"]}
{"id": "C70", "title": "The text of Ada statements does what the statements do", "statement": "The text of the statements of a subprogram body (assignments, calls, pragmas, returns, and if and case statements nested to any depth) is a sequence of statements of the Ada grammar, can be read in one way only, and when executed changes variables, makes calls and returns values exactly as the statement objects do.  This holds although neighbouring alternatives of a case statement are merged if their statements compare equal, and whatever the comparison depends on.  Conditions: calls have arguments, branches have statements, and with short-circuit evaluation the statements do not contain both and and and then.", "quantifier": "for all lists of statements, all expressions and names in them, all states of the compared objects, all values of variables and all effects of calls and pragmas", "why_tests_cant": "tests compare the texts of some statements with expected texts; that the text has the meaning of the statements concerns all statements, and merging alternatives depends on equalities that hold only for some statements", "anchors": ["rflx/ada.py:1287-1395", "rflx/ada.py:1522-1523", "rflx/common.py:6-18", "rflx/common.py:59-64", "rflx/identifier.py:34-39"]}
{"id": "C71", "title": "The text of a package has the declarations that were added to it", "statement": "Whatever unit parts are added to a package unit, the text of its specification consists of exactly these paragraphs: the context items, the head of the package, the declarations, \"private\" and the private declarations if there are any, and the end; the text of the body likewise, and it is empty if the body has no declarations.  In each list the texts stand in the order of the declarations.  A declaration is left out only if one with the same text up to the case of letters stands before it, no pragma is left out, and nothing but pragmas is printed twice, whatever the comparisons depend on.  The text of a subprogram specification can be read in one way only, which gives its name, its parameters with modes and types, and the type of its result.  An instantiation has no body and nothing can be added to it.", "quantifier": "for all packages, all sequences of added parts, all declarations in them, and all equalities of expressions and aspects that hold only for the same text up to the case of letters", "why_tests_cant": "tests print some packages with distinct declarations; that no declaration is lost concerns all combinations of parts, and leaving out duplicates depends on equalities that hold only for some declarations", "anchors": ["rflx/ada.py:728-755", "rflx/ada.py:954-1012", "rflx/ada.py:1054-1284", "rflx/ada.py:1398-1743", "rflx/common.py:6-18", "rflx/common.py:78-83"]}
{"id": "C72", "title": "The text of a conditional expression has its value", "statement": "The text that str gives for an if or case expression of ada.py, with nested ones, is an expression of Ada that can be read in one way only, and in every environment it has the value that the conditional expression has; so has the text of a return statement with such an expression.  This holds whichever neighbouring alternatives of a case expression are merged because their expressions compare equal.  If(...) always gives an expression with the value of the if expression with the same parts, and Case(...) one with the value of the case expression with the same parts if the control expression has a value.", "quantifier": "for all nested if and case expressions with conditions, control expressions and choices that have a text of Ada, all environments, all results of the comparisons that depend on texts made before, with and without short-circuit evaluation", "why_tests_cant": "tests compare the text of some expressions with a given text; that the text is read back with the same value concerns all nestings and groupings and a grammar that no test has", "anchors": ["rflx/ada.py:571-599", "rflx/ada.py:602-629", "rflx/ada.py:1333-1340", "rflx/common.py:6-18", "rflx/common.py:59-64"]}
{"id": "C73", "title": "The text of a quantified expression has its value", "statement": "The text that str gives for ForAllOf, ForAllIn and ForSomeIn of ada.py, nested and with conditional expressions as predicates, is an expression of Ada that can be read in one way only, and in every environment it has the value of the quantified expression.  In particular the text of ForAllIn over ValueRange (a, b) is True if and only if the predicate is True for all integers from a to b, and that of ForSomeIn if and only if it is True for one of them and False for all smaller ones.", "quantifier": "for all nested quantified expressions over ranges, arrays and subtypes, all environments, all contents of arrays and subtypes, with and without short-circuit evaluation", "why_tests_cant": "tests compare the text of single expressions with a given text; that the text quantifies over the same values concerns all ranges and environments and a grammar that no test has", "anchors": ["rflx/ada.py:636-692", "rflx/ada.py:695-706", "rflx/common.py:59-60"]}
