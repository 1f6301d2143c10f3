(** Specification: how the text of type declarations is read, after the grammar in
    doc/Language-Reference.md:16-175, and what is declared by it.  Independent of the printer.
    The lexical elements and the grammar of expressions are those of ExprRead.v. *)
From Coq Require Import String Ascii List ZArith Bool.
From Verif Require Import Base Ident Expr ExprEval ExprRead SpecExpr.
From Verif Require MsgStruct MsgGraph.
Import ListNotations.
Local Open Scope string_scope.
Local Open Scope list_scope.
Local Open Scope nat_scope.

(** *name*: neither qualified nor reserved *)
Definition simple_name (s : string) : bool :=
  starts is_letter s && all_word s && negb (has_char "." s) && negb (has_char ":" s)
  && negb (existsb (String.eqb (lower s)) reserved_words).
(** *qualified_name* *)
Definition qualified_name (s : string) : bool :=
  starts is_letter s && all_word s && negb (existsb (String.eqb (lower s)) reserved_words).

(** *then_clause*, *component* and the declarations *)
Record then_clause := mkClause {
  to : option string;                    (* None is null *)
  clause_aspects : list (string * tree);
  clause_condition : option tree
}.
Record component := mkComp {
  comp_name : string;
  comp_type : string;
  comp_aspects : list (string * tree);
  comp_condition : option tree;
  comp_thens : list then_clause
}.
Inductive declaration :=
| DModular (name : string) (modulus : tree)
| DRange (name : string) (first last size : tree)
| DEnumeration (name : string) (literals : list (string * tree)) (aspects : list (string * tree))
| DArray (name element : string)
| DNull (name : string)
| DMessage (name : string) (null_component : option then_clause) (components : list component)
| DRefinement (pdu field sdu : string) (condition : option tree).

(** A parser takes the remaining lexical elements. *)
Definition parser (A : Type) := list string -> option (A * list string).
Definition ret {A} (a : A) : parser A := fun ts => Some (a, ts).
Definition bind {A B} (p : parser A) (k : A -> parser B) : parser B :=
  fun ts => match p ts with Some (a, r) => k a r | None => None end.
(** the given element *)
Definition word (w : string) : parser unit :=
  fun ts => match ts with x :: r => if String.eqb x w then Some (tt, r) else None | [] => None end.
(** an element with the given property *)
Definition some (f : string -> bool) : parser string :=
  fun ts => match ts with x :: r => if f x then Some (x, r) else None | [] => None end.
(** is the given element the next one? *)
Definition ahead {A} (w : string) (yes no : parser A) : parser A :=
  fun ts => match ts with x :: _ => if String.eqb x w then yes ts else no ts | [] => no ts end.
Declare Scope parser_scope.
Notation "x <- p ;; k" := (bind p (fun x => k)) (at level 100, p at next level, right associativity) : parser_scope.
Notation "p ;;; k" := (bind p (fun _ => k)) (at level 100, right associativity) : parser_scope.
Local Open Scope parser_scope.

(** [n] bounds the number of repetitions and the depth of expressions *)
Section Grammar.
  Context (n : nat).
  (** *mathematical_expression* and *boolean_expression* *)
  Definition expression : parser tree := rd n 5.

  (** p { , p } *)
  Fixpoint comma_list {A} (k : nat) (p : parser A) : parser (list A) :=
    match k with
    | O => fun _ => None
    | S k => a <- p ;; ahead "," (word "," ;;; r <- comma_list k p ;; ret (a :: r)) (ret [a])
    end.
  (** { p } where p starts with [w] *)
  Fixpoint repeat {A} (k : nat) (w : string) (p : parser A) : parser (list A) :=
    match k with
    | O => fun _ => None
    | S k => ahead w (a <- p ;; r <- repeat k w p ;; ret (a :: r)) (ret [])
    end.
  (** p { p } until [w] *)
  Fixpoint until {A} (k : nat) (w : string) (p : parser A) : parser (list A) :=
    match k with
    | O => fun _ => None
    | S k => a <- p ;; ahead w (ret [a]) (r <- until k w p ;; ret (a :: r))
    end.

  Definition association : parser (string * tree) :=
    x <- some simple_name ;; word "=>" ;;; e <- expression ;; ret (x, e).
  Definition with_aspects : parser (list (string * tree)) :=
    ahead "with" (word "with" ;;; comma_list n association) (ret []).
  Definition if_condition : parser (option tree) :=
    ahead "if" (word "if" ;;; e <- expression ;; ret (Some e)) (ret None).
  Definition then_ : parser then_clause :=
    word "then" ;;;
    t <- ahead "null" (word "null" ;;; ret None) (x <- some simple_name ;; ret (Some x)) ;;
    a <- with_aspects ;; c <- if_condition ;; ret (mkClause t a c).
  Definition component_ : parser component :=
    x <- some simple_name ;; word ":" ;;; t <- some qualified_name ;;
    a <- with_aspects ;; c <- if_condition ;; l <- repeat n "then" then_ ;; word ";" ;;; ret (mkComp x t a c l).
  Definition null_component : parser (option then_clause) :=
    ahead "null" (word "null" ;;; t <- then_ ;; word ";" ;;; ret (Some t)) (ret None).

  Definition type_definition (x : string) : parser declaration :=
    ahead "mod" (word "mod" ;;; e <- expression ;; ret (DModular x e))
    (ahead "range" (word "range" ;;; f <- expression ;; word ".." ;;; l <- expression ;;
                    word "with" ;;; word "Size" ;;; word "=>" ;;; s <- expression ;; ret (DRange x f l s))
    (ahead "(" (word "(" ;;; l <- comma_list n association ;; word ")" ;;; a <- with_aspects ;; ret (DEnumeration x l a))
    (ahead "array" (word "array" ;;; word "of" ;;; t <- some qualified_name ;; ret (DArray x t))
    (ahead "null" (word "null" ;;; word "message" ;;; ret (DNull x))
    (word "message" ;;; i <- null_component ;; l <- until n "end" component_ ;; word "end" ;;; word "message" ;;;
     ret (DMessage x i l)))))).
  Definition declaration_ : parser declaration :=
    ahead "for"
      (word "for" ;;; p <- some qualified_name ;; word "use" ;;; word "(" ;;; f <- some simple_name ;; word "=>" ;;;
       s <- some qualified_name ;; word ")" ;;; c <- if_condition ;; ret (DRefinement p f s c))
      (word "type" ;;; x <- some simple_name ;; word "is" ;;; type_definition x).

  (** { declaration ; } up to the end of the text *)
  Fixpoint declarations_ (k : nat) : parser (list declaration) :=
    fun ts =>
    match ts with
    | [] => Some ([], [])
    | _ => match k with
           | O => None
           | S k => (d <- declaration_ ;; word ";" ;;; r <- declarations_ k ;; ret (d :: r)) ts
           end
    end.
End Grammar.

(** [s] is a sequence of the declarations [l] *)
Definition declares (s : string) (l : list declaration) : Prop := exists n, declarations_ n n (lex "" s) = Some (l, []).

(** ** The links of a message *)

(** the expression of a syntax tree: MATH_OPERATIONS 333-340, MATH_COMPARISONS 355-360,
    BOOLEAN_OPERATIONS 362-365 and OPERATIONS 300-305 of specification/parser.py *)
Fixpoint texpr (t : tree) : expr :=
  match t with
  | TBool b => if b then ETrue else EFalse
  | TNum z => ENum z
  | TName n => EName n false
  | TNeg u => match texpr u with ENum v => ENum (- v) | e => EBin OSub (ENum 0) e end
  | TNot u => ENot (texpr u)
  | TArith o l r =>
    match o with
    | AAdd => EAss OAdd [texpr l; texpr r]
    | AMul => EAss OMul [texpr l; texpr r]
    | ASub => EBin OSub (texpr l) (texpr r)
    | ADiv => EBin ODiv (texpr l) (texpr r)
    | AMod => EBin OMod (texpr l) (texpr r)
    | APow => EBin OPow (texpr l) (texpr r)
    end
  | TRel o l r => ERel o (texpr l) (texpr r)
  | TLog o l r =>
    EAss match o with LAnd => OAnd | LAndThen => OAndThen | LOr => OOr | LOrElse => OOrElse end [texpr l; texpr r]
  end.
(** the nodes of the parse tree which create_message_structure gets (MsgStruct.v) *)
Definition node_aspects (l : list (string * tree)) : list (string * expr) := map (fun p => (fst p, texpr (snd p))) l.
Definition node_then (t : then_clause) : MsgStruct.then_ :=
  MsgStruct.mkThen (to t) (option_map texpr (clause_condition t)) (node_aspects (clause_aspects t)).
Definition node_component (c : component) : MsgStruct.component :=
  MsgStruct.mkComponent (comp_name c) (option_map texpr (comp_condition c)) (node_aspects (comp_aspects c))
    (map node_then (comp_thens c)).
(** the errors and the links of the message *)
Definition links_of (i : option then_clause) (l : list component) : res (list string * list MsgGraph.link) :=
  MsgStruct.create_structure (option_map node_then i) (map node_component l).
