(** Model of rflx/specification/parser.py:104-262 and 289-709: how the nodes of the parse
    tree become expressions, statements, declarations, states and sessions of the model
    (SessionType.v).

    A node of the parse tree (librflxlang) has a kind_name and named children; here it is a
    constructor with its children.  The text of a token is what the lexer accepts: the text
    of an identifier has neither blanks nor dots, a numeric literal has digits, letters,
    underscores and number signs, a string literal starts and ends with a quotation mark.
    Kinds which are no expression, e.g. of another grammar rule, are not modelled.
    Exceptions other than RecordFluxError are [Err] with the name of their class.

    Simplifications: locations and descriptions of states and transitions are dropped.
    Identifiers are put in lower case as in SessionType.v, except for the names of fields.
    Characters are single bytes. *)
From Coq Require Import String Ascii List ZArith Bool.
From Verif Require Import Base Ident.
From Verif Require Import Expr SessionType.
Import ListNotations.
Local Open Scope string_scope.
Local Open Scope list_scope.
Local Open Scope Z_scope.
Local Open Scope res_scope.

(** [f x for x in l] *)
Definition each_ok {A B} (f : A -> res B) : list A -> res (list B) :=
  fix go (l : list A) : res (list B) :=
  match l with
  | [] => Ok []
  | a :: r => let* b := f a in let* bs := go r in Ok (b :: bs)
  end.

(** ** Identifiers *)

(** RESERVED_WORDS, const.py:1-77 *)
Definition reserved_words : list string :=
  ["abort"; "abs"; "abstract"; "accept"; "access"; "aliased"; "all"; "and"; "array"; "at"; "begin"; "body"; "case";
   "constant"; "declare"; "delay"; "delta"; "digits"; "do"; "else"; "elsif"; "end"; "entry"; "exception"; "exit";
   "for"; "function"; "generic"; "goto"; "if"; "in"; "interface"; "is"; "limited"; "loop"; "mod"; "new"; "not";
   "null"; "of"; "or"; "others"; "out"; "overriding"; "package"; "pragma"; "private"; "procedure"; "protected";
   "raise"; "range"; "record"; "rem"; "renames"; "requeue"; "return"; "reverse"; "select"; "separate"; "some";
   "subtype"; "synchronized"; "tagged"; "task"; "terminate"; "then"; "type"; "until"; "use"; "when"; "while"; "with";
   "xor"; "initial"; "final"].

(** nodes of kind UnqualifiedID and ID, parser.py:239-260 *)
Inductive id_node := Unqualified (text : string) | Qualified (package : option string) (name : string).

(** create_id, parser.py:239-262; [id_mul] is ID.__mul__ *)
Definition create_id (i : id_node) : res ident :=
  match i with
  | Unqualified text =>
    if existsb (String.eqb (lower text)) reserved_words then Err "reserved word used as identifier" else id_of_string text
  | Qualified package name =>
    let* n := id_of_string name in
    match package with
    | Some p => let* q := id_of_string p in id_mul q (id_str n)
    | None => Ok n
    end
  end.

(** an identifier in lower case: IDs are equal if their texts in lower case are
    (identifier.py:35-40, 47-48) *)
Definition low (i : ident) : string := lower (id_str i).

(** the text of an identifier node, as in parser.py:164, 201 *)
Definition id_text (i : id_node) : string :=
  match i with Unqualified t | Qualified None t => t | Qualified (Some p) n => (p ++ "::" ++ n)%string end.

(** ** Numeric and string literals *)

(** str.split with a single character *)
Fixpoint split_on (c : ascii) (s : string) : list string :=
  match s with
  | "" => [""]
  | String d r =>
    if Ascii.eqb d c then "" :: split_on c r
    else match split_on c r with h :: t => String d h :: t | [] => [String d ""] end
  end.

(** the value of a digit for the function int of Python *)
Definition digit (c : ascii) : option Z :=
  let n := Z.of_nat (nat_of_ascii c) in
  if (48 <=? n) && (n <=? 57) then Some (n - 48)
  else if (65 <=? n) && (n <=? 90) then Some (n - 55)
  else if (97 <=? n) && (n <=? 122) then Some (n - 87)
  else None.
(** digits with single underscores between them *)
Fixpoint int_digits (base acc : Z) (after_digit : bool) (s : string) : res Z :=
  match s with
  | "" => if after_digit then Ok acc else Err "ValueError"
  | String c r =>
    if Ascii.eqb c "_" then if after_digit then int_digits base acc false r else Err "ValueError"
    else match digit c with
         | Some d => if d <? base then int_digits base (acc * base + d) true r else Err "ValueError"
         | None => Err "ValueError"
         end
  end.
(** the base a prefix 0b, 0o or 0x stands for *)
Definition prefix_base (c : ascii) : option Z :=
  if Ascii.eqb c "b" || Ascii.eqb c "B" then Some 2
  else if Ascii.eqb c "o" || Ascii.eqb c "O" then Some 8
  else if Ascii.eqb c "x" || Ascii.eqb c "X" then Some 16
  else None.
(** int (text, base) of Python (longobject.c, PyLong_FromString) for texts of tokens, i.e.
    without blanks and signs: a prefix is allowed if it fits to the base, an underscore may
    follow it; with base 0 the prefix gives the base, and a decimal number other than zero
    must not start with zero *)
Definition py_int (s : string) (base : Z) : res Z :=
  let after_prefix b r := match r with "" => Err "ValueError" | _ => int_digits b 0 true r end in
  if negb ((base =? 0) || ((2 <=? base) && (base <=? 36))) then Err "ValueError"
  else match s with
  | String z (String c r) =>
    if Ascii.eqb z "0" then
      match prefix_base c with
      | Some b =>
        if (base =? 0) || (base =? b) then after_prefix b r
        else int_digits base 0 false s
      | None =>
        if base =? 0
        then let* v := int_digits 10 0 false s in if v =? 0 then Ok 0 else Err "ValueError"
        else int_digits base 0 false s
      end
    else int_digits (if base =? 0 then 10 else base) 0 false s
  | _ => int_digits (if base =? 0 then 10 else base) 0 false s
  end.

(** create_numeric_literal, parser.py:289-297: the attributes value and base of the Number *)
Definition create_numeric_literal (text : string) : res (Z * Z) :=
  match split_on "#" text with
  | [n] => let* v := py_int n 10 in Ok (v, 0)
  | [b; n; _] => let* base := py_int b 10 in let* v := py_int n base in Ok (v, base)
  | _ => Err "NotImplementedError"
  end.

(** the digits of a number, format with b, o, d and X; the number of its bits bounds that
    of its digits *)
Definition digit_char (d : Z) : ascii := ascii_of_nat (Z.to_nat (if d <? 10 then 48 + d else 55 + d)).
Fixpoint format_digits (fuel : nat) (base v : Z) (acc : string) : string :=
  match fuel with
  | O => acc
  | S k => let acc' := String (digit_char (v mod base)) acc in
           if v <? base then acc' else format_digits k base (v / base) acc'
  end.
Definition format_base (base v : Z) : string := format_digits (S (Z.to_nat (Z.log2 v))) base v "".
(** Number._update_str, expression.py:631-646 *)
Definition number_text (v base : Z) : res string :=
  let a := Z.abs v in
  let* s := if base =? 0 then Ok (format_base 10 a)
            else if base =? 2 then Ok ("2#" ++ format_base 2 a ++ "#")%string
            else if base =? 8 then Ok ("8#" ++ format_base 8 a ++ "#")%string
            else if base =? 10 then Ok ("10#" ++ format_base 10 a ++ "#")%string
            else if base =? 16 then Ok ("16#" ++ format_base 16 a ++ "#")%string
            else Err "NotImplementedError" in
  Ok (if v <? 0 then ("(-" ++ s ++ ")")%string else s).

(** ord of each character *)
Fixpoint codes (s : string) : list Z :=
  match s with "" => [] | String c r => Z.of_nat (nat_of_ascii c) :: codes r end.
(** create_string_literal, parser.py:454-458, and String, expression.py:1476-1479 *)
Definition create_string_literal (text : string) : res sx :=
  match nth_error (split_on """" text) 1 with
  | Some data => Ok (SAgg (map SNum (codes data)))
  | None => Err "IndexError"
  end.

(** ** Expressions *)

(** the operators, parser.py:300-305, 333-340, 355-365, and attributes 426-441 *)
Inductive op :=
| OpPow | OpAdd | OpSub | OpMul | OpDiv | OpMod
| OpLt | OpGt | OpLe | OpGe
| OpAnd | OpOr
| OpIn | OpNotin | OpEq | OpNeq.
Inductive attr_kind := AttrLast | AttrFirst | AttrSize | AttrValidChecksum | AttrHead | AttrOpaque | AttrPresent | AttrValid.

(** the nodes of expressions, EXPRESSION_MAP parser.py:638-655; [NMessage] with an empty list
    has values of kind NullMessageAggregate *)
Inductive node :=
| NNumeric (text : string)
| NParen (data : node)
| NVariable (i : id_node)
| NAttribute (e : node) (k : attr_kind)
| NArray (values : list node)
| NString (text : string)
| NCall (i : id_node) (args : list node)
| NQuantified (all : bool) (parameter : id_node) (iterable predicate : node)
| NBinding (e : node) (bindings : list (id_node * node))
| NNegation (data : node)
| NConcatenation (l r : node)
| NComprehension (iterator : id_node) (array selector : node) (condition : option node)
| NSelect (e : node) (selector : id_node)
| NConversion (target : id_node) (argument : node)
| NMessage (i : id_node) (associations : list (id_node * node))
| NBinOp (o : op) (l r : node).

(** the tables MATH_OPERATIONS 333-340, MATH_COMPARISONS 355-360, BOOLEAN_OPERATIONS 362-365
    and OPERATIONS 300-305 with the classes they give *)
Definition math_operation (o : op) : option (sx -> sx -> sx) :=
  match o with
  | OpPow => Some (SBin OPow)
  | OpAdd => Some (fun l r => SAss OAdd [l; r])
  | OpSub => Some (SBin OSub)
  | OpMul => Some (fun l r => SAss OMul [l; r])
  | OpDiv => Some (SBin ODiv)
  | OpMod => Some (SBin OMod)
  | _ => None
  end.
Definition math_comparison (o : op) : option (sx -> sx -> sx) :=
  match o with
  | OpLt => Some (SRel OLt)
  | OpGt => Some (SRel OGt)
  | OpLe => Some (SRel OLe)
  | OpGe => Some (SRel OGe)
  | _ => None
  end.
Definition boolean_operation (o : op) : option (sx -> sx -> sx) :=
  match o with
  | OpAnd => Some (fun l r => SAss OAnd [l; r])
  | OpOr => Some (fun l r => SAss OOr [l; r])
  | _ => None
  end.
Definition operation (o : op) : option (sx -> sx -> sx) :=
  match o with
  | OpIn => Some (SIn true)
  | OpNotin => Some (SIn false)
  | OpEq => Some (SRel OEq)
  | OpNeq => Some (SRel ONe)
  | _ => None
  end.

(** the classes of create_math_attribute, parser.py:411-421, and create_attribute, 424-444 *)
Definition math_attribute (k : attr_kind) : option sattr :=
  match k with
  | AttrLast => Some (SInt ALast)
  | AttrFirst => Some (SInt AFirst)
  | AttrSize => Some (SInt ASize)
  | _ => None
  end.
Definition attribute (k : attr_kind) : sattr :=
  match k with
  | AttrLast => SInt ALast
  | AttrFirst => SInt AFirst
  | AttrSize => SInt ASize
  | AttrValidChecksum => SValidChecksum
  | AttrHead => SHead
  | AttrOpaque => SOpaque
  | AttrPresent => SPresent
  | AttrValid => SValid
  end.

(** a dict comprehension: an equal key keeps its place and text, the value is replaced *)
Fixpoint put_key (k : ident) (v : sx) (l : list (ident * sx)) : list (ident * sx) :=
  match l with
  | [] => [(k, v)]
  | (k', v') :: r => if id_eq k' k then (k', v) :: r else (k', v') :: put_key k v r
  end.
Definition dict_of (l : list (ident * sx)) : list (ident * sx) := fold_left (fun d p => put_key (fst p) (snd p) d) l [].

(** which of create_expression, create_math_expression and create_bool_expression *)
Inductive context := General | Math | Bool.

(** create_expression, parser.py:658-659, create_math_expression, 681-694, and
    create_bool_expression, 697-708, with the functions of their tables: create_binop 308-329,
    create_math_binop 343-352, create_bool_binop 368-389, create_paren_expression 400-401,
    create_paren_math_expression 396-397, create_paren_bool_expression 392-393,
    create_variable 404-408, create_math_attribute 411-421, create_attribute 424-444,
    create_array_aggregate 447-451, create_call 461-466, create_quantified_expression
    469-479, create_binding 482-491, create_negation 572-575, create_concatenation 578-585,
    create_comprehension 588-600, create_selected 603-608, create_conversion 611-616,
    create_message_aggregate 619-634; a kind missing in a table is a KeyError.  Keys of a
    dict are evaluated before their values. *)
Fixpoint create (c : context) (t : node) {struct t} : res sx :=
  let assocs (l : list (id_node * node)) : res (list (ident * sx)) :=
    let* ps := each_ok (fun p => match p with (k, v) =>
                                   let* i := create_id k in let* e := create General v in Ok (i, e) end) l in
    Ok (dict_of ps) in
  match t with
  | NNumeric text =>
    match c with Bool => Err "KeyError" | _ => let* n := create_numeric_literal text in Ok (SNum (fst n)) end
  | NParen d => create c d
  | NVariable i => let* x := create_id i in Ok (SVar (low x))
  | NAttribute e k =>
    let* inner := create General e in
    match c with
    | Math => match math_attribute k with Some a => Ok (SAttr a inner) | None => Err "NotImplementedError" end
    | _ => Ok (SAttr (attribute k) inner)
    end
  | NArray vs =>
    match c with Bool => Err "KeyError" | _ => let* es := each_ok (create Math) vs in Ok (SAgg es) end
  | NString text => match c with General => create_string_literal text | _ => Err "KeyError" end
  | NCall i args =>
    let* f := create_id i in let* es := each_ok (create General) args in Ok (SCall (low f) es)
  | NQuantified all p i b =>
    match c with
    | Math => Err "KeyError"
    | _ =>
      let* x := create_id p in let* it := create General i in let* pr := create General b in
      Ok (SQuant all (low x) it pr)
    end
  | NBinding e bs =>
    let* data := assocs bs in let* x := create General e in
    Ok (SBind x (map (fun p => (low (fst p), snd p)) data))
  | NNegation d =>
    match c with
    | Bool => Err "KeyError"
    | _ => let* e := create Math d in match e with SNum v => Ok (SNum (- v)) | _ => Err "AssertionError" end
    end
  | NConcatenation l r =>
    match c with
    | General =>
      let* a := create General l in let* b := create General r in
      match a, b with SAgg xs, SAgg ys => Ok (SAgg (xs ++ ys)) | _, _ => Err "AssertionError" end
    | _ => Err "KeyError"
    end
  | NComprehension i a s cond =>
    match c with
    | General =>
      let* k := match cond with Some b => create Bool b | None => Ok (SBool true) end in
      let* x := create_id i in let* ar := create General a in let* se := create General s in
      Ok (SCompr (low x) ar se k)
    | _ => Err "KeyError"
    end
  | NSelect e s => let* x := create General e in let* f := create_id s in Ok (SSel x (id_str f))
  | NConversion i a =>
    match c with
    | General => let* x := create_id i in let* e := create General a in Ok (SConv (low x) e)
    | _ => Err "KeyError"
    end
  | NMessage i fs =>
    match c with
    | General =>
      let* values := assocs fs in let* x := create_id i in
      Ok (SMsg (low x) (map (fun p => (id_str (fst p), snd p)) values))
    | _ => Err "KeyError"
    end
  | NBinOp o l r =>
    match c with
    | General =>
      match operation o, boolean_operation o with
      | Some f, _ | None, Some f => let* a := create General l in let* b := create General r in Ok (f a b)
      | None, None =>
        let* a := create Math l in let* b := create Math r in
        match math_operation o, math_comparison o with
        | Some f, _ | None, Some f => Ok (f a b)
        | None, None => Err "NotImplementedError"
        end
      end
    | Math =>
      match math_operation o with
      | Some f => let* a := create Math l in let* b := create Math r in Ok (f a b)
      | None => Err "NotImplementedError"
      end
    | Bool =>
      match math_comparison o, boolean_operation o, operation o with
      | Some f, _, _ => let* a := create Math l in let* b := create Math r in Ok (f a b)
      | None, Some f, _ => let* a := create Bool l in let* b := create Bool r in Ok (f a b)
      | None, None, Some f => let* a := create General l in let* b := create General r in Ok (f a b)
      | None, None, None => Err "NotImplementedError"
      end
    end
  end.

(** ** Statements, declarations, states and sessions *)

(** nodes of kind Reset, Assignment and ListAttribute, parser.py:121-157 *)
Inductive stmt_node :=
| NReset (i : id_node)
| NAssignment (i : id_node) (e : node)
| NListAttribute (i : id_node) (attr : string) (e : node).
(** create_statement, parser.py:151-157, with create_reset 121-124, create_assignment
    127-132 and create_list_attribute 135-148 *)
Definition create_statement (s : stmt_node) : res stmt :=
  match s with
  | NReset i => let* x := create_id i in Ok (Reset (low x))
  | NAssignment i e => let* x := create_id i in let* v := create General e in Ok (Assignment (low x) v)
  | NListAttribute i attr e =>
    let with_ (f : string -> sx -> stmt) := let* x := create_id i in let* v := create General e in Ok (f (low x) v) in
    if String.eqb attr "Append" then with_ Append
    else if String.eqb attr "Extend" then with_ Extend
    else if String.eqb attr "Read" then with_ Read
    else if String.eqb attr "Write" then with_ Write
    else Err "KeyError"
  end.

(** nodes of kind VariableDecl and RenamingDecl, parser.py:662-668 *)
Inductive decl_node :=
| NVariableDecl (i type_id : id_node) (initializer : option node)
| NRenamingDecl (i type_id : id_node) (e : node).
(** qualified_type_identifier without a package, type_.py:614-624; [type_id] is in lower
    case *)
Definition qualified_alone (id : string) : string :=
  if String.eqb id "boolean" || String.eqb id "__builtins__::boolean" then "__builtins__::boolean"
  else if String.eqb id "opaque" || String.eqb id "__internal__::opaque" then "__internal__::opaque"
  else id.
(** create_declaration, parser.py:662-668, with create_variable_decl 494-505 and
    create_renaming_decl 540-548 *)
Definition create_declaration (d : decl_node) : res sdecl :=
  match d with
  | NVariableDecl i t init =>
    let* e := match init with Some x => let* v := create General x in Ok (Some v) | None => Ok None end in
    let* x := create_id i in let* ty := create_id t in Ok (DVar (low x) (qualified_alone (low ty)) e)
  | NRenamingDecl i t e =>
    let* s := create General e in
    match s with
    | SSel p f => let* x := create_id i in let* ty := create_id t in Ok (DRenaming (low x) (qualified_alone (low ty)) p f)
    | _ => Err "AssertionError"
    end
  end.

(** nodes of kind FormalChannelDecl (with parameters of kind Readable and Writable),
    FormalFunctionDecl and FormalPrivateTypeDecl, parser.py:671-678 *)
Inductive channel_parameter := Readable | Writable.
Inductive formal_node :=
| NChannelDecl (i : id_node) (parameters : list channel_parameter)
| NFunctionDecl (i : id_node) (parameters : list (id_node * id_node)) (return_type : id_node)
| NPrivateTypeDecl (i : id_node).
(** create_formal_declaration, parser.py:671-678, with create_private_type_decl 508-516,
    create_channel_decl 519-538 and create_function_decl 551-569; SessionType.v has the types
    of the arguments of a function only *)
Definition create_formal_declaration (d : formal_node) : res sdecl :=
  match d with
  | NChannelDecl i ps =>
    let has p := existsb (fun q => match p, q with Readable, Readable | Writable, Writable => true | _, _ => false end) ps in
    let* x := create_id i in Ok (DChannel (low x) (has Readable) (has Writable))
  | NFunctionDecl i ps r =>
    let* args := each_ok (fun p => match p with (a, t) => let* _ := create_id a in let* ty := create_id t in Ok (low ty) end) ps in
    let* x := create_id i in let* ret := create_id r in Ok (DFunction (low x) args (low ret))
  | NPrivateTypeDecl i => let* x := create_id i in Ok (DType (low x) (id_str x))
  end.

(** nodes of kind Transition (no condition) and ConditionalTransition, parser.py:110-118 *)
Record transition_node := mkTransitionNode { t_target : id_node; t_condition : option node }.
(** create_transition, parser.py:110-118 *)
Definition create_transition (t : transition_node) : res (string * sx) :=
  let* target := create_id (t_target t) in
  let* c := match t_condition t with Some b => create Bool b | None => Ok (SBool true) end in
  Ok (low target, c).

(** nodes of kind StateBody and NullStateBody ([None]), parser.py:160-197 *)
Record body_node := mkBody {
  b_end : id_node;
  b_conditional : list transition_node;
  b_final : transition_node;
  b_exception : option transition_node;
  b_actions : list stmt_node;
  b_declarations : list decl_node
}.
Record state_node := mkStateNode { n_id : id_node; n_body : option body_node }.
(** create_state, parser.py:160-197; the condition of an exception transition is not used
    in SessionType.v *)
Definition create_state (s : state_node) : res sstate :=
  let* i := create_id (n_id s) in
  match n_body s with
  | None => Ok (mkState (low i) [] None [] [])
  | Some b =>
    check String.eqb (id_text (n_id s)) (id_text (b_end b)) msg "inconsistent state identifier";
    let* ts := each_ok create_transition (b_conditional b) in
    let* f := create_transition (b_final b) in
    let* x := match b_exception b with
              | Some t => let* e := create_transition t in Ok (Some (fst e))
              | None => Ok None
              end in
    let* actions := each_ok create_statement (b_actions b) in
    let* declarations := each_ok create_declaration (b_declarations b) in
    Ok (mkState (low i) (ts ++ [f]) x actions declarations)
  end.

(** a node of kind SessionDecl, parser.py:200-229 *)
Record session_node := mkSessionNode {
  s_id : id_node;
  s_end : id_node;
  s_initial : id_node;
  s_final : id_node;
  s_states : list state_node;
  s_declarations : list decl_node;
  s_parameters : list formal_node
}.
(** create_unproven_session, parser.py:211-228, with __check_session_identifier, 200-208: the
    identifier and the attributes of the session *)
Definition create_session (s : session_node) (package : ident) (types : list mtype) : res (ident * session) :=
  check String.eqb (id_text (s_id s)) (id_text (s_end s)) msg "inconsistent session identifier";
  let* i := create_id (s_id s) in
  let* full := id_mul package (id_str i) in
  let* initial := create_id (s_initial s) in
  let* final := create_id (s_final s) in
  let* states := each_ok create_state (s_states s) in
  let* declarations := each_ok create_declaration (s_declarations s) in
  let* parameters := each_ok create_formal_declaration (s_parameters s) in
  Ok (full, mkSession (low package) (low initial) (low final) types parameters declarations states).
