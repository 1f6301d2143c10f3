# Design: a Rocq model of RecordFlux

The repository modelled is Componolit/RecordFlux at the commit found in
`/repo`.  Nothing in `/repo` is built or run; the model is a hand translation,
function by function, into total, computable Gallina.  Each definition carries
a comment with the file and the lines it models and says where it simplifies.

## Conventions

* Python exceptions, Ada contract failures and "error" entries are *values*
  (`res A := Ok a | Err why`, an option, or a list of errors), never a missing
  case.
* Loops that are not structurally recursive get explicit fuel with a distinct
  out-of-fuel outcome; theorems say how much fuel suffices or hold for every
  fuel that suffices.
* Python `int` is `Z`; Ada modular and range types are `Z` with every range
  check made explicit, so that "no overflow" is a theorem.
* The SMT solver (z3) is an argument: the proof obligations are passed to an
  arbitrary function.  Theorems that need it state "UNSAT answers are right"
  (`sound_unsat`), "SAT answers are right" or "the solver is conclusive"
  (`answered`) as explicit premises.
* A property is stated with its own small specification (bit lists, an
  evaluation function, runs, paths, worlds) and not with model helpers:
  `ExprEval.v`, `GenSpec.v`, `VerifySpec.v`, `MergeSpec.v` and the definitions
  at the head of the `P_*.v` files.
* Model files contain definitions, `*Facts`/`*Proofs` and similar files contain
  lemmas, `P_*.v` files contain the property theorems, a concrete case beside
  each of them (`..._case`) and `Print Assumptions`.
* If a wider reading of a property is false of the code, there is a theorem
  `..._refuted` with a concrete counterexample, next to the positive theorem
  with the side condition that excludes it.
* Dictionaries are association lists in insertion order, sets are lists whose
  order is a parameter where the code depends on it (`order` in `MsgGraph.v`).

## Trusted base

* The Coq 8.16.1 kernel (and `coqchk`, which re-checks the compiled files).
* No axioms: every `Print Assumptions` beneath the property theorems says
  "Closed under the global context".  `coqchk -o` over all files also lists the
  module-type fields of the standard library's `Coq.ssr.ssrunder.Under_rel`,
  which are loaded with the library and not used.
* The translation from Python/Ada text to Gallina, documented at each
  definition.
* Not modelled: the text parser (pyparsing grammar), the Ada pretty printer,
  GNAT/SPARK compilation, the file system apart from the cache file, z3
  internals, Python object identity except where a property is about aliasing
  (C36, C05), and the texts of error messages where a property is only about
  whether there is an error.

## Checking theorems against wrong programs

`seeded/LOG.jsonl` has one line per wrong program tried: a definition of the
model was changed in a scratch copy, everything was rebuilt, and what failed
was noted.  In `failed`, an entry `File.v:name` is a proof at which the build
stopped.  The names without a file are the theorems of the claim, except the
refutations, in files that could then not be built.  They are listed from the
claim: the build does not try them one by one, so some of them may still be
provable, and a proof that stops does not by itself show that its statement is
false.  Where a change survived, the theorem was tightened and the line says so.
The last batch of wrong programs, for the message graph and the run-time
library, was interrupted: two of its eleven edits are in the log, and the
others have no recorded result.

## Properties

For each property: where the model is, where the theorems are, how they are
proved, and what restricts them.  The theorem names are in MANIFEST.json.

### C01 Extract reads exactly the addressed big-endian bits (proved)

* Model: AdaTypes.v, AdaTypesFacts.v, ExtractProofs.v
* Theorems: P_AdaTypes.v
* Proof: bytes as big-endian numbers; loop invariant of the byte loop; every shift, power, addition and index carries its range check
* Extract = addressed bits for every buffer/offset/size; totality includes all run-time checks and contracts of the helpers.

### C02 Insert then Extract gives the value back (proved)

* Model: AdaTypes.v, InsertProofs.v
* Theorems: P_AdaTypes.v
* Proof: testbit characterisation of Insert combined with C01
* Insert/Extract round trip incl. all run-time checks.

### C03 Insert changes no bit outside the addressed range (proved)

* Model: AdaTypes.v, InsertProofs.v
* Theorems: P_AdaTypes.v
* Proof: same characterisation, bits outside the range
* Frame: all other bits and the length unchanged.

### C04 Scalar sequence: append/iterate round trip (proved)

* Model: ScalarSeq.v, AdaBuffer.v
* Theorems: P_ScalarSeq.v
* Proof: invariant over call histories, on top of C01-C03
* For all element sizes 1..64, buffers and sequences, through the Ada byte-level Extract/Insert. C04_unread_refuted: Valid_Element is true of a fresh context.

### C05 Message sequence: exclusive buffer ownership and monotone progress (proved)

* Model: MsgSeq.v
* Theorems: P_MsgSeq.v
* Proof: ownership state machine, invariant over call histories
* Any number of sequences, element contexts and access variables. The element context is modelled by its bounds, Message_Last and Valid_Message. C05_foreign_refuted: Update accepts another sequence's element.

### C06 Bitstring/bytes conversion is lossless (proved)

* Model: Bitstring.v, BitFacts.v
* Theorems: P_Bits.v
* Proof: induction on byte lists
* For all non-empty byte strings, incl. bit positions; refutations for the empty string and lengths not divisible by eight.

### C07 Internet checksum generation and verification agree (proved)

* Model: Checksum.v
* Theorems: P_Bits.v
* Proof: one's complement sum as residue modulo 65535
* Value characterised modulo 65535; sender/receiver agreement, order independence, detection of single word changes; refutations for empty and odd length.

### C08 Integer values: assign / serialise / parse agree and stay in range (proved)

* Model: PyValue.v, PyValueFacts.v
* Theorems: P_PyValue.v
* Proof: bit-length arithmetic
* For every type accepted with any fuel; assign/parse decide the range exactly. Refuted: zero-bit types, sizes written with a base, assign(check=False).

### C09 Enumeration values: literal, number and bitstring stay consistent (proved)

* Model: PyValue.v
* Theorems: P_PyValue.v
* Proof: case analysis of lookups
* Round trip up to letter case, exact for names as declared, qualified names, distinct encodings, unlisted numbers. Refuted: letter case, literal starting with the package name of an imported type, literal UNKNOWN.

### C10 Array of scalars: serialise / parse round trip (proved)

* Model: PyValue.v
* Theorems: P_PyValue.v
* Proof: induction on elements
* Both directions for arrays of scalars of any length. Refuted: incomplete last element, empty byte string, elements of another type of the same class. Arrays of messages are covered with the message model.

### C11 PyRFLX message parsing consumes a prefix faithfully (proved)

* Model: PyMessage.v, PyMessageFacts.v, PyMessageParse.v
* Theorems: P_PyMessage.v
* Proof: invariant of the parsing loop: set fields form a path, positions are prefix sums, presets agree with evaluation
* Model of MessageValue (typevalue.py 500-1252, verified mode, no checksums) in PyMessage.v. C11_parse_prefix: for every overlay-free message (record tidy: acyclic, exclusive total conditions independent of the message length) and every buffer that is accepted, the set fields are exactly a path from INITIAL to FINAL whose conditions are true under every assignment describing the values read, each field's first is the sum of the sizes before it, the encodings in order are the leading bits of the buffer, and bitstring() is a prefix of them. The hypothesis 'whole' (every field is exactly as long as the bits it was handed) is needed: C11_refined_refuted, C11_odd_size_refuted, C11_unsized_refuted and C11_overlay_refuted show buffers accepted whose bitstring is no prefix. C11_message_prefix lifts it through nested messages; C11_nested_prefix has no such hypothesis for messages of scalars and arrays of messages.

### C12 PyRFLX message setters keep the value consistent (proved)

* Model: PyMessage.v, PyMessageFacts.v, PyMessageSet.v
* Theorems: P_PySet.v
* Proof: single calls and invariants over histories of set()
* Model: PyMessage.v (MessageValue.set and what it calls, branch by branch). Proved for all messages without overlays and cycles and for histories of any length. C12_set_value/position/failed_set/recorded are about single calls, C12_valid_message about any history, C12_filled/filled_valid about histories in message order. Read literally the wider claim (any order of calls) is false of the code: C12_unset_refuted, C12_array_size_refuted, C12_unset_array_refuted, C12_stale_refuted, C12_stale_position_refuted. Checksums are the subject of C54; skip_verification that of C60.

### C13 Integer value of an arithmetic expression is preserved by simplification (proved)

* Model: Expr.v, ExprEval.v, ExprFacts.v, ExprMono.v, ExprTotal.v
* Theorems: P_Expr.v
* Proof: induction on expression size with an explicit fragment `ok`
* Soundness and termination of simplified() on the fragment `ok` (which excludes exactly the shapes for which refutations are given) for every equality test that is semantically sound; three refutations outside.

### C14 Truth value of a condition is preserved by simplification (proved)

* Model: Expr.v, ExprEval.v, ExprFacts.v
* Theorems: P_Expr.v
* Proof: as C13 for truth values
* As C13 for truth values, both for strict and short-circuit evaluation; refutation: a lazily guarded division by zero makes simplification raise.

### C15 Negation operator denotes arithmetic negation (proved)

* Model: Expr.v
* Theorems: P_Expr.v
* Proof: structural induction
* Negation of linear expressions and relations; refutations for subtraction, power and modulo.

### C16 Substitution replaces variables and nothing else (proved)

* Model: Expr.v, ExprMore.v
* Theorems: P_Expr.v
* Proof: structural induction
* Substitution lemma for expressions without logical negation; refutation below `not`. Prefix substitution inside attributes is not modelled.

### C17 variables() lists everything an expression's value depends on (proved)

* Model: Expr.v, ExprMore.v
* Theorems: P_Expr.v
* Proof: structural induction
* variables() = occurring identifiers, evaluation depends on them only; an identifier may be listed once per sign (refutation of uniqueness by identifier).

### C18 Short-circuit guards survive simplification (proved)

* Model: Expr.v, ExprMore.v
* Theorems: P_Expr.v
* Proof: short-circuit evaluation
* Positive theorem for operands that are relations/names; refutation for nested conjunctions.

### C19 Type compatibility is well behaved (proved)

* Model: Typing.v
* Theorems: P_Typing.v
* Proof: induction on types with a depth measure
* Typing.v models typing_.py class by class; the recursion of is_compatible_strong is fuelled by the nesting depth (proved enough). wf_ty: the dict of field types has distinct keys. Refutations: channels, composite order, unbounded integers, literals out of range.

### C20 Accepted scalar types fit their declared size (proved)

* Model: TypeSpec.v
* Theorems: P_Types.v
* Proof: bit-length arithmetic, acceptance inverted
* Acceptance characterised by iff for modular, range and enumeration types. Refuted: zero and negative sizes are accepted.

### C21 Scalar type constraints describe exactly the valid values (proved)

* Model: TypeSpec.v
* Theorems: P_Types.v, P_PyValue.v
* Proof: evaluation of constraint expressions
* Proof and code constraints of all three kinds. Refuted for always-valid enumerations, whose proof constraints exclude valid unlisted numbers.

### C22 Message fields are ordered so that predecessors come first (proved)

* Model: MsgGraph.v, MsgGraphFacts.v
* Theorems: P_MsgGraph.v
* Proof: invariant of the topological sort
* Sorting: fields, order, acyclicity, completeness, single first field, predecessors/successors. Refuted: a link to the initial node makes the sorting endless; links may start at the final node.

### C23 paths() enumerates exactly the link sequences from the start (proved)

* Model: MsgGraph.v, MsgGraphFacts.v
* Theorems: P_MsgGraph.v
* Proof: induction along the field order
* Exactly the connected link sequences, each once, for every field of an accepted structure.

### C24 definite_predecessors are the fields present on every path (proved)

* Model: MsgGraph.v, MsgGraphFacts.v
* Theorems: P_MsgGraph.v
* Proof: intersection over the paths of C23
* Exactly the fields on every path, and they come before the field. For the initial node all fields are reported (refuted).

### C25 field_condition is true iff some path's conditions hold (proved)

* Model: MsgGraph.v, MsgGraphFacts.v
* Theorems: P_MsgGraph.v
* Proof: disjunction over paths, C14 for simplification
* For conditions in the sound fragment of the simplifier that have a truth value under the assignment.

### C26 Accepted messages are parsed deterministically (proved)

* Model: Verify.v, Solver.v, SolverFacts.v, VerifySpec.v, VerifyFacts.v
* Theorems: P_Verify.v, P_Verified.v, P_VerifyCases.v
* Proof: z3 as oracle; every fact handed to it is true in every legal world
* z3 is an arbitrary function with sound UNSAT answers (sound_unsat) that does not answer 'unknown' to the questions for which the code takes that as consent (answered); the environment semantics is that of the generated Ada code. C26_deterministic is the statement for assignments, C26_parsing the one for beginnings of messages in buffers, C26_generated discharges the determinism hypothesis of the C37-C39 theorems from verification. Limits found and proved: C26_unknown_refuted (an inconclusive solver makes the checks vacuous), C26_always_valid_refuted (values of always-valid enumerations without a literal are not considered), C26_division_refuted (z3 rounds quotients of negative numbers differently from Ada).

### C27 Accepted messages have no holes (proved)

* Model: Verify.v and facts
* Theorems: P_Verify.v, P_VerifyCases.v
* Proof: coverage proof and, independently, adjacency of positions
* C27_covered uses the coverage proof and needs that no expression on the path mentions a variable called f (the name the checker uses for the bit); C27_contiguous does not need that, but that First aspects refer to the message or to earlier fields of the path. Hypothesis of both: the last field ends at the end of the message. Cases in P_VerifyCases.v.

### C28 Accepted messages have non-negative field sizes and aligned opaque fields (proved)

* Model: Verify.v and facts
* Theorems: P_Verify.v, P_Reach.v, P_VerifyCases.v
* Proof: as C26
* C28_field: sizes and alignment; C28_message_size: sum of the sizes. Both for any sound, conclusive solver and every legal assignment along a complete path. Refuted for arrays: C28_array_refuted (an array need not start at a byte boundary), C28_array_size_refuted (an array of 12 bits is accepted, because the proof of the message size assumes array sizes are multiples of 8).

### C29 Merging message fields flattens structure without losing behaviour (proved)

* Model: Merge.v, MergeSpec.v, PlainFacts.v, MergeFacts.v, MergeSplice.v, MergeLoop.v
* Theorems: P_Merge.v
* Proof: runs as an inductive relation; splicing lemma for one message field; loop measure `nested`
* C29_merged: for every message built by the constructor whose inner messages meet MergeSpec.mergeable, every link order, fuel and solver that is right about unsat: merging without errors leaves no message field and preserves runs (field sequences with types, sizes, positions) in both directions. C29_termination relates the bounded loop to the unbounded one; C29_pruned is about the inner loop. Each restriction is necessary: C29_first_condition_refuted, C29_not_refuted, C29_sign_refuted, C29_size_refuted, C29_literal_refuted, and C29_empty_refuted (IndexError for a null message). Verification of inner messages and error texts are parameters.

### C30 Specification files are ordered by dependency (proved)

* Model: SpecSort.v, SpecSortFacts.v
* Theorems: P_SpecSort.v
* Proof: loop invariants with fuel bounds
* parse_specfile, parse_items, visit, sort_loop model Parser.parse over any set of files and with clauses. Termination of loading and exactness of cycle reports for all inputs; complete dependency order for all acyclic inputs; a cyclic input on which sorting never ends is exhibited for every fuel.

### C31 Message structure creation keeps every declared aspect (proved)

* Model: MsgStruct.v
* Theorems: P_MsgStruct.v
* Proof: induction on components
* create_structure models create_message_structure on the parse tree. C31_links gives every link of an error-free result for all component lists; refutations show a lost condition and size and the case-sensitive check of then targets.

### C32 Verification cache never vouches for an unverified message (proved)

* Model: Cache.v
* Theorems: P_Cache.v
* Proof: JSON text by character, prefix freeness, invariant over histories of concurrent runs
* All histories of concurrent runs of any versions, torn writes and truncations. JSON writing and reading modelled by character; md5 is a parameter. C32_stale_refuted: the digest omits array element definitions and checksums.

### C33 Accepted sessions are structurally sound (proved)

* Model: SessionCheck.v
* Theorems: P_Session.v
* Proof: acceptance as an equivalence
* session_errors models the structural checks of Session.__validate; C33_sound and C33_complete characterise acceptance, five refutations show what is not guaranteed. Type checking of expressions is not part of this model (it can only reject more).

### C34 Accepted models have unique names (proved)

* Model: ModelCheck.v
* Theorems: P_Model.v
* Proof: acceptance as an equivalence
* model_errors models Model.__validate; C34_unique is an equivalence.

### C35 Identifiers behave like case-insensitive names (proved)

* Model: Ident.v
* Theorems: P_IdentErrors.v
* Proof: induction on strings
* Refuted: the order `<` is not compatible with equality (case).

### C36 No error message is lost (proved)

* Model: Errors.v
* Theorems: P_IdentErrors.v
* Proof: histories over a heap of containers
* Histories over a heap of containers, including aliasing through += and extend.

### C37 Generated parser: Verify keeps the context invariant and accepts exactly valid messages (proved)

* Model: GenCode.v, GenMessage.v, GenSpec.v, GenPred.v, GenFacts.v, GenInv.v, GenVerify.v, GenRun.v
* Theorems: P_Gen.v
* Proof: context invariant related to runs in the buffer
* Verify in any order keeps the context in line with a run of fields in the buffer (GenSpec.run, independent of the code); Verify_Message finds the longest run; Structural_Valid_Message accepts exactly complete messages; Incomplete_Message implies that there is none; Valid_Message holds only without composite fields (Verify never makes those valid); Valid_Context holds. Hypotheses beyond acceptance: at most one link holds (C26), scoped conditions; the bound last + 1 < Bit_Length'Last, the absence of overlays and a non-empty first field are shown necessary by the refuted theorems.

### C38 Generated serializer: setters keep the context invariant and reset dependants (proved)

* Model: GenCode.v, GenSet.v
* Theorems: P_Gen.v
* Proof: invariant over histories of setters and Verify
* Any history of setters with preconditions and Verify; a setter keeps earlier cursors and all bits outside its field, and resets later fields. Needs no overlays and no condition on the size of its own source (C38_own_size_refuted).

### C39 Generated setter and getter agree (proved)

* Model: GenCode.v, GenSet.v, GenRun.v
* Theorems: P_Gen.v
* Proof: C38 followed by C37
* Verify_Message over the buffer of any history shows the same fields, places and values; complete messages are accepted.

### C40 Byte/bit index conversion is consistent (proved)

* Model: AdaTypes.v, AdaBuffer.v
* Theorems: P_AdaTypes.v, P_Buffer.v
* Proof: integer division
* Bit/byte index conversions (P_AdaTypes.v); C40_touched, C40_slice: the slice of a field is exactly the bytes its bits touch and can be taken iff all bits lie in the buffer; C40_field: reading and writing through the slice concerns exactly the bits of the field (P_Buffer.v).

### C41 unique keeps first occurrences (proved)

* Model: Expr.v
* Theorems: P_Expr.v
* Proof: induction
* For every decidable equality.

### C42 Refinement lookup respects the refinement condition (proved)

* Model: PyMessage.v, PyMessageSet.v
* Theorems: P_PySet.v
* Proof: case analysis of the refinement loop
* C42_selected, C42_plain, C42_applied: a nested message is used iff a refinement of the field has a true condition, the last one wins. C42_stale_refuted: a refinement once applied is kept when its condition becomes false. Names are compared in lower case in the model; the code compares them case-sensitively.

### C43 Opaque values keep their bytes (proved)

* Model: PyValue.v
* Theorems: P_PyValue.v
* Proof: C06
* Refuted for bit counts that are not divisible by eight.

### C44 Session declarations are visible, distinct and used (proved)

* Model: SessionCheck.v
* Theorems: P_Session.v
* Proof: reference counting related to occurrence
* declarations_check, state_check, usage_errors model scoping and reference counting of declarations; C44_declarations for all sessions, C44_duplicate_refuted shows the silently dropped declaration.

### C45 Every field of an accepted message can occur (proved)

* Model: Verify.v and facts
* Theorems: P_Occur.v, P_Reach.v
* Proof: models extracted from SAT answers
* From the SAT answers of __prove_contradictions; C45_occurs for each field, C45_complete for a whole message. Hypotheses: expressions without division (plain_message), one type per identifier, no field called Message or Final (sane). P_Reach.v: C45_reachable/_unreachable/_dead_ends say exactly what __prove_reachability establishes and when it complains.

### C46 Overlay fields are congruent with the overlaid field (proved)

* Model: Verify.v and facts
* Theorems: P_Occur.v, P_Reach.v, P_VerifyCases.v
* Proof: models extracted from SAT answers
* C46_congruent is what the code establishes (possibility); the stronger reading 'always congruent' is refuted by C46_always_refuted: an accepted message in which a 16 bit field overlays an opaque field of variable size.

### C47 Accepted expressions are well-typed and mention only known names (proved)

* Model: ExprType.v, Typing.v, Verify.v
* Theorems: P_ExprType.v, P_Scope.v
* Proof: declarative typing judgement, equivalence and soundness
* ExprType.v models the constructors' types and _check_type_subexpr; P_ExprType.v gives a declarative typing judgement (wt) and proves acceptance equivalent to it, type soundness and acceptance by z3; P_Scope.v lifts it to messages (verify_expression_types is part of Verify.v). no_empty: n-ary operators have operands; no variable has type Any. Refutations: expressions on impossible paths are unchecked, negations with variables are rejected, Boolean variables are integers for z3.

### C48 Generated scalar types and conversions are exact (proved)

* Model: GenTypes.v, TypeSpec.v
* Theorems: P_GenTypes.v
* Proof: acceptance inverted (C20), pigeonhole for complete enumerations, insertion sort
* GenTypes.v models the meaning of the generated declarations and functions with all run-time checks. plain: the bounds are arithmetic that Ada can evaluate, within the fragment for which simplification is right (C13); enumerations have a literal. C48_static_refuted shows that the fragment matters, C48_raw_refuted that records for unlisted values are not canonical.

### C49 Contains is true exactly of the messages a refinement describes (proved)

* Model: Refine.v (checks, generator and generated code), on top of GenCode.v (C37)
* Theorems: RefineFacts.v, P_Refine.v
* Proof: simplification keeps the order of the guards, so the first guard that is false makes the result false (normal_stop); otherwise evaluation agrees with the condition (aeval_defined); guards are characterised by the invariant of contexts of C37/C38
* condition_ok: comparisons of names and numbers combined by and/or (then); fields are scalar. values: an environment in which names have the values of the fields and literals. C49_condition_refuted shows accepted conditions outside the fragment whose generated function uses undeclared names. C49_switch assumes that the computations of Field_First and Field_Last do not overflow.

### C50 No run-time check of the generated parser and serializer fails (proved)

* Model: GenCode.v (C37); GenTotal.v defines what is required of the message (visible, computable, no_own)
* Theorems: GenTotal.v, P_GenTotal.v
* Proof: for every context that satisfies the invariant of C37/C38, each generated function is shown to be defined (evaluation of an expression depends only on the names in it, and the required ones are present), by induction on the path for the message conditions
* Termination without error of Verify, the setters, Structural_Valid_Message, Valid_Message and the predicate of Context, for all buffers and all sequences of calls. The requirements visible, computable and no_own are stated on the message, not on the generated code; C50_size_refuted and C50_own_last_refuted (and C37_own_first_refuted, C37_predicate_empty_refuted) show that acceptance alone does not suffice.

### C51 The text of an expression has the value of the expression (proved)

* Model: ExprPrint.v (text, equality, Ada text), ExprRead.v (grammar of expressions as in Ada RM 4.4: lexer, recursive-descent recogniser, value of a reading) as specification
* Theorems: ExprReadFacts.v, ExprReadTree.v, ExprPyEq.v, ExprAda.v, P_ExprPrint.v
* Proof: induction on the expression with a derived set of grammar rules; the grammar is deterministic (R_fun), so the reading is unique; simplification with == agrees with simplification with a sound equality as long as the expressions produced stay well formed (invariant inv)
* The grammar of the text is that of Ada (RM 4.4, 2.3, 2.4) with single-quote attributes and qualified identifiers as words; based literals, quantified expressions, calls, aggregates and conversions are not modelled. The five _refuted theorems delimit the claim.

### C52 Accepted sessions are type safe (proved)

* Model: SessionType.v (types of expressions, statements, declarations, sessions); SessionEval.v is the specification: what sessions mean (the repository has no semantics of sessions)
* Theorems: SessionTypeFacts.v, SessionSound.v, SessionRun.v, P_SessionType.v
* Proof: a value fits a type (all integers fit an integer type, nothing fits Any, everything fits Undefined); compatibility with a declared type and common types keep this; expressions by induction, for the type before and after the check at once; sessions by an invariant of the steps of a run
* Proved for the sessions described by sure_session: the counterexamples (…_refuted) show accepted sessions and expressions outside of it which go wrong.

### C53 Checksum definitions are checked when a message is built (proved)

* Model: ChecksumDef.v (__verify_checksums and its helpers); message structures from MsgGraph.v
* Theorems: P_Checksum.v, ExprNames.v (simplification invents no names)
* Proof: the specification lays the fields of a path out one after another and evaluates the ends of the range there; acceptance is turned into a statement about all paths, with the enumeration of paths from C23
* The refutations show ranges that are accepted although they are no ranges of the message (an excluded single field, a range behind the message, a range that ends at an unknown field), paths without the check, and a negated check that needs no definition.

### C54 PyRFLX checksums belong to the bytes and values of the message (proved)

* Model: PyChecksum.v (on top of PyMessage.v): set with checksum calculation, set_checksum_function, _is_checksum_settable, _calculate_checksum, valid_message, bytestring, parse; update_checksums (only used without verification) is not modelled; user functions are arbitrary pure functions of the bytes and the arguments
* Theorems: P_PyChecksum.v
* Proof: what a parameter means is stated by evaluation in an environment that agrees with the recorded values (shown to be the values of the fields after each set); the arguments follow by soundness of substitution and simplification; the other parts by invariants of set, parse and set_checksum_function
* Refutations: a wrong trailing checksum is overwritten when parsing; clones share the flag that a checksum is calculated; a message with unset covered fields can be valid; a value set by hand is replaced; a function that covers its own field gives an invalid message; a check that is not on the last link makes Message'Last unknown; a type without zero makes set raise.

### C55 PyRFLX messages are read back from their own bytes (proved)

* Model: PyMessage.v (set, parse, bitstring, bytestring of MessageValue), PyValue.v, Bitstring.v
* Theorems: P_PyRound.v
* Proof: the history of calls in message order is an inductive relation; each assigned value gives bits from which the same value object is parsed; the positions and the next field agree because conditions only look back (definite); induction over the calls, then over the loop of parse. Nested messages by induction on the depth.
* C55_roundtrip/bytes/reparse/nested/messages. Hypotheses: tidy (acyclic, exclusive conditions, no overlays), definite (conditions only refer to fields in front of them, cf. C47), declared types accepted by the model. Fields whose size is not known when they are set (an opaque field without size aspect at the end) are not covered. C55_spelling_refuted and C55_order_refuted show that the two restrictions on the calls are needed.

### C56 z3 is asked what the expressions mean (proved)

* Model: Smt.v (z3expr of each class, Proof.__init__, Proof.error; the terms, their sorts and their SMT-LIB meaning are the specification); z3 itself is any function; Indexed, Selected, Call, quantified expressions and the other classes whose z3expr raises NotImplementedError are left out
* Theorems: P_Smt.v
* Proof: induction on expressions for sort and value at once; constants are named by text, the inverse of which is computed; the connection with Solver.v (used by C26-C29, C45, C46) is C56_solver and C56_solver_sound
* Hypotheses: 'tame' (no division with a negative operand, no mod with a negative divisor), 'plain' for the way back (no division; powers and mod by positive numbers only), one spelling per identifier for sat. C56_division_refuted, C56_modulo_refuted and C56_case_refuted show that they are needed. z3py's coercion of Booleans in == and != and its treatment of empty operand lists are modelled from its documentation, as z3 is not part of the repository.

### C57 The declarations of the specifications become the types of the model (proved)

* Model: SpecModel.v (create_array, create_modular, create_range, create_enumeration, create_message_types, create_derived_message, create_refinement, qualified_type_identifier, Array, Refinement, __evaluate_specification, create_model; scalar types of TypeSpec.v, checks of ModelCheck.v; the building of messages and sessions is a parameter)
* Theorems: P_SpecModel.v
* Proof: The meaning of declarations is an inductive relation (makes, refines, runs) over explicit values and first/last elements of the type list; every create function is shown equivalent to it, the loops by induction over the declarations with the invariant that error-free states contain no incomplete type. Names of built-in types as declarations are excluded by the distinctness of identifiers (C34). Frame, reporting and absence of other exceptions by induction over the loop.
* Refuted parts: an exception raised by a session discards the errors collected for its file and skips the rest of it (C57_session_refuted); an array of a type whose modulus is not static ends in an AssertionError instead of the recorded error (C57_crash_refuted); references to other packages need no with clause, and the order of the files on the command line decides (C57_with_refuted); a type named Opaque is put into the internal package (C57_opaque_refuted). Building messages and sessions is a parameter of the model, quantified over.

### C58 A derived message means what its base means and is accepted exactly when its base is (proved)

* Model: DerivedMsg.v: derived_message_structure, the constructors of UnprovenDerivedMessage/DerivedMessage, on the message model of Verify.v.
* Theorems: P_DerivedMsg.v, DerivedFacts.v, DerivedVerify.v
* Proof: Deriving is shown to be a renaming of variables in conditions. Values commute with renaming; each question of each proof of the derived message has a model iff the corresponding question of the base has one (pull/push of interpretations), so every check gives the same answer; the type check is shown to see the same types.
* C58_accepted holds for solvers that answer a question and its renamed form alike (decides_indifferent: every solver that decides questions does) and for ordinary bases (literals are simple names, not below a negation, not in sizes); C58_size_refuted shows that the last restriction is needed.

### C59 A binding simplifies to its meaning, and variables() reports what a value depends on (proved)

* Model: BindExpr.v: unary minus, substituted, simplified, variables of all session expressions; BindSpec.v: scopes, conditions; meaning by translation to SessionEval.v
* Theorems: P_BindExpr.v, BindFacts.v, BindSound.v, BindMain.v, BindVars.v
* Proof: Simplification is parametric in the equality test and has explicit fuel; by induction on the fuel every step keeps values, scopes, the absence of bindings and the called functions (record red). Substitution is shown correct against updating the store, the images being unaffected by inner binders. For variables() an expression with all bindings simplified is constructed that has the same value and only reported names. The refutations are computed.
* Under conditions, each shown to be needed by a computed counterexample (C59_*_refuted): aggregates and iterables are not reported by variables(), no substitution below not, capture and shadowing, lost sign of selections, names dropped by simplification.

### C60 A message object that skips verification has the values, positions and bytes of one that verifies (proved)

* Model: PySkip.v: set, positions, sizes, mapping, bitstring, bytestring and validity of a MessageValue with skip_verification; PyMessage.v for the verifying one
* Theorems: P_PySkip.v
* Proof: A relation between both objects (same values, positions, sizes, entries of the mapping for the fields set so far, links from each field to the next) is established by the constructor and kept by every call of set that follows the message; computability of sizes is shown through the totality of simplify. The bits are collected along the stored order, which is the path of the verifying object (C55). The refutations are computed; the endless loop is shown for every number of steps.
* Without checksums and values of a wrong class. C60_fields: all calls succeed with the same values and positions; C60_bytes: same bits and bytes; C60_valid: same validity. The conditions on the calls are shown necessary by C60_empty_refuted, C60_position_refuted, C60_twice_refuted, C60_endless_refuted and C60_range_refuted.

### C61 The expressions, statements and sessions of a specification become those of the model (proved)

* Model: SpecExpr.v: create_id, create_numeric_literal (with int of Python), Number._update_str, create_string_literal, the three expression functions with their tables, statements, declarations, transitions, states and sessions; the lexer, locations and descriptions are left out
* Theorems: P_SpecExpr.v
* Proof: the meaning of parse trees is defined on the trees (sense, act, declares, state_of), numeric literals by the inductive relation Literal; induction on trees shows that the created expression evaluates (SessionEval.v) to the meaning of the tree in every store, a dict comprehension is the identity on distinct names, and the digits that are printed are read back by induction on the number of digits
* Proved for well-formed numeric and string literals and distinct names in bindings and message aggregates. Refuted: equal names in a binding or message aggregate are dropped silently; negated variables, concatenated variables, arithmetic with 'Head and arrays of messages raise AssertionError, NotImplementedError or KeyError; 2#0B1# is accepted; a literal in base 3 is accepted but has no text.

### C62 The text of a model declares the types of the model (proved)

* Model: ModelText.v: Model.__str__ and __str__ of all types, links and messages with indent and indent_next, is_builtin_type, is_internal_type and qualified_type_identifier; type arguments, sessions and locations are left out. ModelRead.v is the specification: a parser for the grammar in doc/Language-Reference.md and the links of a declaration by the model of create_message_structure (MsgStruct.v)
* Theorems: P_ModelText.v (lemmas in ModelTextFacts.v and ModelReadFacts.v)
* Proof: the lexical elements of the text are computed by lemmas that split the text at blanks and symbols; the parser is monotone in its fuel and reads each declaration to the tree that is given by a function on the model; the links are compared by induction on the fields
* The expressions are those of Expr.v (the arithmetic and boolean operators, names and attributes; C51 proves their reading).  Refuted: types of other packages lose their package (two models have the same text), checksums are missing, a type named Boolean or Opaque is missing, and a field without outgoing link of a message that is not verified is read with a link to the end.

### C63 The generated units are complete and fit together (proved)

* Model: GenUnits.v: Generator.__generate, __create_unit, __create_generic_message_unit, __create_message_unit, __create_derived_message, __create_generic_refinement_unit, __create_refinement_unit, __create_array_unit, generic_name, write_units, write_library_files, write_top_level_package, generic_formal_part and unique; of each unit the name, the context clause, the formal packages and the actual parameters; the declarations inside the units are left out
* Theorems: P_GenUnits.v
* Proof: the dictionary of units equals, at each step of the loop, a set that is defined by the types so far (invariant); dependencies decrease a rank; two removals of duplicates in parallel for formal and actual parameters
* The model of the program has to be sound: names of units must not clash, the arrays of a message have different names, and flat names of messages differ.  Refuted without these: a message Generic_M beside M, an array Generic_M beside M, a message derived from a null message, arrays P::A and Q::A in one message, a message Generic_Contains in a package with refinements, messages A_B::C and A::B_C, and a package Rflx_Types.  C63_prefix_refuted: the package of a prefix other than RFLX is not written.

### C64 Access to array fields of generated messages (proved)

* Model: GenArray.v: Take_Buffer, Switch_To_<Field>, Complete_<Field>, Update_<Field>, switch_update_conditions and Set_<Field>_Empty for array fields, over the models of generated messages (GenCode.v) and of scalar sequences (ScalarSeq.v); assertions in the generated code are left out
* Theorems: GenArrayFacts.v, GenArrayTotal.v, P_GenArray.v
* Proof: invariant of the client: with the buffer put back, the context of the message satisfies the invariant of C38, and a sequence with the buffer lies on an entry of the path and has valid elements up to its last bit; each call keeps the invariant; reading and writing by induction over the elements
* For messages without overlays and without own attributes in sizes; totality and parsing also for sizes that can be computed.  The elements of arrays are scalars; arrays of messages are not modelled.  Refuted: Update_<Field> accepts a sequence that has the buffer of another context, after which the values of the message are not those of its buffer.

### C65 Graphs of messages and sessions (proved)

* Model: DotGraph.v: Graph.__init__, __edge_label, __get_message, __add_state and __get_session of graph.py as lists of nodes and edges, with names, colours, labels, tooltips and degrees; variables () is that of BindExpr.v
* Theorems: P_DotGraph.v
* Proof: induction over the links and states gives the edges and counters in closed form; ways by strong induction on their length; the dependence on variables follows from C59
* For names that are spelled the same everywhere and are not the names of other nodes.  The rendering of the graph is not modelled.  Refuted: a link that spells a field differently breaks the graph; a field with the name of an intermediate node and a variable with the name of a state join nodes; the transition for exceptions and the variables in the parameters of Append, Extend, Read and Write are not shown.

### C66 The exported text determines the types of the model (proved)

* Model: JsonExport.v: Base.serialize on objects given by class and attributes, the overridings of serialize, json.dump with an indentation of 3 and escapes, and export of cli.py over a set of files
* Theorems: P_JsonExport.v
* Proof: objects and types are read back from JSON by a decoder; the text of a JSON value is no proper beginning of the text of another one, by induction over values, with a check of all pairs of characters for the escapes
* The bounds and sizes of scalar types are exported as numbers, so their expressions are not part of the model here.  Strings consist of the first 256 code points.  json.dump is modelled as it is called.  Refuted: models with sessions cannot be exported, and the checksums of messages are not exported.

### C67 Specifications are loaded from their files completely and without mixing them up (proved)

* Model: SpecLoad.v: check_naming, __convert_unit, __parse_specfile and parse over a set of paths with contents; exceptions of create_id are a separate outcome that keeps the specifications loaded so far; the sorting is that of SpecSort.v
* Theorems: P_SpecLoad.v (with sort_ok of SpecSortFacts.v)
* Proof: induction over the fuel with the invariant that the specifications are ordered and extended at the end only; the fuel by counting different names in the chain of with clauses; completeness with a rank of files
* Extends C30 by directories, names of files and packages, duplicates and exceptions.  The syntax tree is reduced to names; a file that cannot be parsed has at least one diagnostic.  Paths are compared as lists of parts, as pathlib does, so that a link or a part '..' makes another path.  Refuted: a with clause can silently take a file of another directory, depending on the order of the arguments; a reserved word breaks loading off, and errors found before are lost.

### C68 The commands report all errors and write exactly their files (proved)

* Model: Cli.v: main, check, generate, parse, graph and export over a disk that maps paths to contents, with exceptions of RecordFlux and others as outcomes; the parser of SpecLoad.v and the file names of GenUnits.v
* Theorems: P_Cli.v
* Proof: case distinctions over the course of the commands; inductions over the files that are written and over the table of locations; the names of graphs differ from locations.json in the last character
* The creation of the model, the texts of units, graphs and of the export are parameters (C57, C61, C63, C65, C66); loading is that of C67.  argparse, logging and failing write operations are left out.  File names are compared with regard to case.  Refuted: graphs of types with the same flat name overwrite each other; unexpected exceptions leave files behind.

### C69 Looking up messages gives new and separate objects of the model (proved)

* Model: PyPackages.v: PyRFLX.__init__, from_specs, lookup and iteration, Package, and creation, clone, add_refinement and set_checksum_function of MessageValue over a heap of objects and of dicts of checksums; calls of the user as a transition relation
* Theorems: P_PyPackages.v
* Proof: an invariant that ties each object to its prototype, proved for construction by induction over messages and refinements and kept by each call; the theorems follow from the invariant for all sequences of calls
* What the fields of an object hold is a parameter, and methods may do anything to it (C11, C12, C54, C60 describe it); nested messages are part of the object that holds them, elements of arrays are referred to.  add_refinement and Package.__setitem__ by the user are left out; creating the object of a message does not fail.  Refuted: calculated of checksums is shared, so a call of one object can change whether the checksum of another counts as calculated; the lookup is sensitive to case although identifiers are not.

### C70 The text of Ada statements does what the statements do (proved)

* Model: AdaStmt.v: the classes of statements with their equality, indent, grouping of alternatives and texts; AdaStmtSpec.v: a reader for the statements of Ada and an interpreter, independent of the printer
* Theorems: AdaStmtFacts.v, AdaStmtRead.v, AdaStmtMean.v, P_AdaStmt.v
* Proof: induction over nested statements: the text has the tokens of the statements, the reader gives the statements back for these tokens, and merging equal alternatives does not change what the interpreter does; expressions by C51
* Expressions are those of C51; targets of assignments are variables, return of case expressions is left out.  What calls, pragmas and assignments do to variables is a parameter.  Refuted: calls without arguments and branches without statements have no Ada text; a case statement can have another text when it is printed again, as cached texts are compared (the meaning stays, C70_again); and because AndThen is a subclass of And, an alternative with and then may be replaced by one with and, which fails where the first one does not.

### C71 The text of a package has the declarations that were added to it (proved)

* Model: AdaUnit.v: the classes of declarations and context items with text and equality, unique with object identities, package units and the addition of parts; AdaUnitSpec.v: paragraphs of a text and what they have to show; AdaProfile.v: a reader for subprogram specifications, independent of the printer
* Theorems: AdaUnitFacts.v, AdaUnitRun.v, AdaProfile.v, P_AdaUnit.v
* Proof: induction over the list of declarations for what unique keeps; equal objects have equal texts by cases over the classes; the text is split at blank lines; the reader gives back the specification by induction over the parameters
* Expressions, aspects, statements and components inside declarations are objects with a text and an equality; formal parameters are given without duplicates; C71_subprogram leaves out default values.  Condition: objects that compare equal agree in the modes of parameters, in whether an array type is constrained, and in the order of literals without values.  Refuted without it: OutParameter and InOutParameter are subclasses of Parameter and UnconstrainedArrayType one of ArrayType without further attributes, and literals without values are compared as a dict, so the second of two different declarations is not printed.  Also refuted: a pragma object that is added twice is printed once, and an object declaration in a package raises a TypeError since its class has no hash (C71_hash).

### C72 The text of a conditional expression has its value (proved)

* Model: AdaCond.v: If, IfExpr, Case, CaseExpr and ReturnStatement with text and equality; AdaCondSpec.v: a reader for conditional expressions and return statements, and their values (RM 4.5.7), independent of the printer
* Theorems: AdaCondFacts.v, AdaCondMean.v, P_AdaCond.v
* Proof: induction over the expression for the tokens of the text and for the reader; the value by way of the statements of C70 that return it, for which merging alternatives has been proved to keep the meaning
* Conditions, control expressions and choices are expressions without conditional expressions; the dependent expressions may be conditional.  Conditions: there is at least one condition or alternative, names are not the reserved words if, case and for, and with short-circuit evaluation the expression does not contain both "and" and "and then".  Refuted without them: C72_empty_refuted, C72_and_then_refuted; C72_control_refuted shows that Case gives a value where the control expression has none.

### C73 The text of a quantified expression has its value (proved)

* Model: AdaQuant.v: QuantifiedExpr with its subclasses and ValueRange; AdaQuantSpec.v: a reader for quantified expressions and their values (RM 4.5.8), independent of the printer
* Theorems: AdaQuantFacts.v, P_AdaQuant.v
* Proof: induction over the expression for the tokens of the text, for the reader and for the value, on top of C72; induction over the values of a range for its meaning
* An iterable is a range or an expression without conditional expressions; what a name that is iterated over stands for is given.  Conditions as for C72.  Refuted: ForAllOf over a range is read but has no value (C73_of_range_refuted).

## Deviations found

Beyond the counterexamples that are theorems (`..._refuted`), the translation
brought up the following.  They are visible in the model or noted at the
definition concerned.

Message verification (`model/message.py`)

* An inconclusive z3 answer is silently taken as consent in the proofs of
  conflicts, coverage, positions and message size, but raises AssertionError in
  those of reachability, contradictions, overlays and the start.
* z3 names are case-sensitive while identifiers are not.
* A message with only a link from Initial to Final raises IndexError in the
  coverage proof.
* Arrays need not be aligned; their sizes are only assumed to be whole bytes.
* An overlay is only shown to be possibly congruent.
* Always-valid enumerations are treated as if only listed values existed.
* Expressions on paths that cannot be taken are not type-checked; conditions
  are not required to be Boolean.
* `type_constraints` raises KeyError if an aggregate of the outer message is
  compared in a message that gets merged.

Merging (`model/message.py`, `merged` and `prefixed`)

* Checksums of inner messages are lost.
* The check for name conflicts is case-sensitive.
* `Message'Size` and `Message'Last` in an inner message refer to the outermost
  message afterwards; references to the message field itself (`Inner'Last`) are
  not rewritten.
* An inner message that may be empty (Initial to Final) gives "ambiguous first
  field".
* A nested reference in an inner message that was not merged itself gets the
  package in front of it.

Message values (`pyrflx/typevalue.py`)

* Two unlisted values of an always-valid enumeration compare as equal.
* A cleared array of messages cannot be parsed again (AttributeError); parsing
  an array of messages twice accumulates elements; messages of zero bits make
  the loop endless.
* The initial mapping has `Initial'Last` 0, later −1.
* `Bitstring.from_bytes(b"")` is "0".
* Trailing bits are left unread though `valid_message` is true.
* If no outgoing condition is true after a set, the mapping keeps the rejected
  value.
* Refinements are looked up case-sensitively.

Types and expressions

* Channel compatibility is asymmetric; literals out of range are accepted for
  integer types on their own.
* z3 rounds quotients of negative numbers differently from Ada and from
  `simplified`.
* Variables below a logical negation are not reached by substitution and are
  always rejected by the type check.
* Boolean variables are integers for z3.
* A field named like a built-in type may be used before it is read.
* Substitution and membership tests do not look below comparisons' operands
  (BinExpr) or negations: Contains of an accepted refinement with the condition
  `X + 1 = 2` or `not (X = A)` mentions the undeclared name X
  (C49_condition_refuted).
* Conditions of refinements are not type-checked, and may use fields that come
  after the refined field.
