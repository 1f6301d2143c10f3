(** Model of the text of Ada packages, rflx/ada.py:728-755, 954-1012, 1054-1284, 1398-1743.

    Simplifications: expressions, aspects, statements, components, discriminants, formal parameters
    and the declarations in subprogram bodies are objects of a type X, of which only the text and the
    equality are used; formal parameters are given without duplicates (unique, ada.py:1724); an
    identifier is its text.  The literals of an enumeration type are given in the order in which
    the constructor puts them (ada.py:1123-1131).  Classes are checked by the constructors of the
    types, so NotImplemented is only the result for an instantiation. *)
From Coq Require Import String Ascii List Bool Arith.
From Verif Require Import Base Ident ExprPrint AdaStmt.
Import ListNotations.
Local Open Scope list_scope.
Local Open Scope string_scope.
Local Open Scope res_scope.

(** the classes of parameters: Parameter, OutParameter, InOutParameter, AccessParameter, ada.py:1398-1441 *)
Inductive mode := MIn | MOut | MInOut | MAccess (constant : bool).
(** mode, ada.py:1411-1413, 1417-1419, 1423-1425, 1439-1441 *)
Definition mode_text (m : mode) : string :=
  match m with
  | MIn => ""
  | MOut => "out "
  | MInOut => "in out "
  | MAccess c => if c then "access constant " else "access "
  end.
(** Base.__eq__, common.py:6-18, for parameters that agree otherwise: OutParameter and InOutParameter
    are subclasses of Parameter without further attributes, AccessParameter has a further one *)
Definition mode_eqb (a b : mode) : bool :=
  match a, b with
  | MIn, (MIn | MOut | MInOut) | (MOut | MInOut), MIn | MOut, MOut | MInOut, MInOut => true
  | MAccess c, MAccess d => Bool.eqb c d
  | _, _ => false
  end.

(** "==" of ID, identifier.py:34-39 *)
Definition same_id (a b : string) : bool := String.eqb (lower a) (lower b).
(** "==" of an attribute that may be None *)
Definition opt_eqb {A} (eqb : A -> A -> bool) (a b : option A) : bool :=
  match a, b with Some x, Some y => eqb x y | None, None => true | _, _ => false end.
(** ", ".join (map (str, identifiers)) *)
Definition commas (l : list string) : string := String.concat ", " l.

(** Parameter, ada.py:1398-1405 *)
Record param {X : Type} := mkParam { p_ids : list string; p_mode : mode; p_type : string; p_default : option X }.
Arguments param : clear implicits.
Arguments mkParam {X}.
(** SubprogramSpecification, ada.py:1444-1447; the return type of a FunctionSpecification, 1466-1470 *)
Record spec {X : Type} := mkSpec { s_id : string; s_params : list (param X); s_return : option string }.
Arguments spec : clear implicits.
Arguments mkSpec {X}.

(** the subclasses of TypeDeclaration, ada.py:1088-1284 *)
Inductive tdef {X : Type} :=
| TModular (modulus : X)
| TRange (first last : X)
| TEnum (literals : list (string * option X)) (size : option X)
| TSubtype (base : string)
| TRangeSubtype (base : string) (first last : X)
| TDerived (base : string)
| TPrivate
| TDiscrete
| TArray (unconstrained : bool) (index component : string)
| TAccess (object : string)
| TRecord (components : list X) (variant : option X).
Arguments tdef : clear implicits.

(** the subclasses of ContextItem and Declaration, ada.py:728-755, 1054-1284, 1476-1620; [IOther] is an
    ObjectDeclaration, PackageDeclaration, PackageBody or GenericPackageInstantiation, ada.py:954-1037 *)
Inductive item {X : Type} :=
| IWith (ids : list string)
| IUse (ids : list string)
| IUseType (ids : list string)
| IPragma (id : string) (args : list X)
| IType (id : string) (discriminants : option (list X)) (aspects : list X) (d : tdef X)
| ISub (s : spec X) (aspects : list X) (formals : option (list X))
| IBody (s : spec X) (declarations statements aspects : list X)
| IExprFun (s : spec X) (e : X) (aspects : list X)
| IInst (function : bool) (id : string) (s : spec X) (associations : list string)
| IRename (s : spec X) (subprogram : string)
| IOther (x : X).
Arguments item : clear implicits.

(** an object: its address and its class and attributes *)
Notation obj X := (nat * item X)%type.

Section Unit.
  Context {X : Type} (xt : X -> string) (xeq : nat -> X -> X -> bool).

  (** *** Text *)

  (** a default, ada.py:1408: not empty if there is one *)
  Definition default_text (d : option X) : string := match d with Some e => " := " ++ xt e | None => "" end.
  (** Parameter.__str__, ada.py:1406-1409 *)
  Definition param_text (p : param X) : string :=
    commas (p_ids p) ++ " : " ++ mode_text (p_mode p) ++ p_type p ++ default_text (p_default p).
  (** SubprogramSpecification._parameters, ada.py:1449-1450 *)
  Definition params_text (l : list (param X)) : string :=
    match l with [] => "" | _ => " (" ++ String.concat "; " (map param_text l) ++ ")" end.
  (** ProcedureSpecification.__str__, ada.py:1461-1462; FunctionSpecification.__str__, 1472-1473 *)
  Definition spec_text (s : spec X) : string :=
    match s_return s with
    | None => "procedure " ++ s_id s ++ params_text (s_params s)
    | Some t => "function " ++ s_id s ++ params_text (s_params s) ++ " return " ++ t
    end.
  (** aspect_specification, ada.py:1736-1739 *)
  Definition aspects_text (l : list X) : string :=
    match l with [] => "" | _ => " with" ++ nl ++ String.concat ("," ++ nl) (map (fun a => indent (xt a) 2) l) end.
  (** generic_formal_part, ada.py:1720-1725 *)
  Definition formals_text (l : option (list X)) : string :=
    match l with
    | None => ""
    | Some l => "generic" ++ String.concat "" (map (fun p => nl ++ "   " ++ xt p) l) ++ nl
    end.
  (** type_definition: ada.py:1094-1095, 1111-1112, 1135-1137, 1160-1161, 1171-1172, 1181-1182, 1187-1188,
      1193-1194, 1204-1205, 1210-1211, 1220-1221, 1279-1284 *)
  Definition definition_text (d : tdef X) : string :=
    match d with
    | TModular m => " mod " ++ xt m
    | TRange f l => " range " ++ xt f ++ " .. " ++ xt l
    | TEnum ls _ => " (" ++ commas (map fst ls) ++ ")"
    | TSubtype b => " " ++ b
    | TRangeSubtype b f l => " " ++ b ++ " range " ++ xt f ++ " .. " ++ xt l
    | TDerived b => " new " ++ b
    | TPrivate => " private"
    | TDiscrete => " (<>)"
    | TArray u i c => " array (" ++ i ++ (if u then " range <>" else "") ++ ") of " ++ c
    | TAccess o => " access " ++ o
    | TRecord cs v =>
      nl ++ "   record" ++ nl ++
      match cs with [] => "" | _ => indent (String.concat nl (map xt cs)) 6 ++ nl end ++
      match v with Some v => indent (xt v) 6 | None => "" end ++ "   end record"
    end.
  (** the literals that have a value, ada.py:1141-1143 *)
  Fixpoint represented (l : list (string * option X)) : list string :=
    match l with
    | [] => []
    | (k, Some v) :: r => (k ++ " => " ++ xt v)%string :: represented r
    | (_, None) :: r => represented r
    end.
  (** extra_declaration, ada.py:1083-1085, 1140-1148 *)
  Definition extra_text (id : string) (d : tdef X) : string :=
    match d with
    | TEnum ls _ =>
      match represented ls with [] => "" | _ => nl ++ "for " ++ id ++ " use (" ++ commas (represented ls) ++ ");" end
    | _ => ""
    end.
  (** discriminant_part, ada.py:1074-1076 *)
  Definition discriminants_text (l : option (list X)) : string :=
    match l with None | Some [] => "" | Some l => " (" ++ String.concat "; " (map xt l) ++ ")" end.
  (** Subtype.__str__, ada.py:1156-1157 *)
  Definition sub_text (d : tdef X) : string := match d with TSubtype _ | TRangeSubtype _ _ _ => "sub" | _ => "" end.
  (** associations in parentheses, ada.py:1565-1567, 1584-1586 *)
  Definition associations_text (l : list string) : string := match l with [] => "" | _ => " (" ++ commas l ++ ")" end.

  (** __str__: WithClause 741-743, UsePackageClause 747-749, UseTypeClause 753-755, Pragma 1615-1620,
      TypeDeclaration 1068-1072, SubprogramDeclaration 1499-1503, SubprogramBody 1519-1533,
      ExpressionFunctionDeclaration 1547-1549, GenericProcedureInstantiation 1564-1568,
      GenericFunctionInstantiation 1583-1587, SubprogramRenamingDeclaration 1597-1598 *)
  Definition item_text (i : item X) : string :=
    match i with
    | IWith l => "with " ++ commas l ++ ";"
    | IUse l => "use " ++ commas l ++ ";"
    | IUseType l => "use type " ++ commas l ++ ";"
    | IPragma p args =>
      "pragma " ++ p ++ match args with [] => "" | _ => " (" ++ commas (map xt args) ++ ")" end ++ ";"
    | IType n ds a d =>
      sub_text d ++ "type " ++ n ++ discriminants_text ds ++ " is" ++ definition_text d ++ aspects_text a ++ ";" ++ extra_text n d
    | ISub s a f => formals_text f ++ spec_text s ++ aspects_text a ++ ";"
    | IBody s ds ss a =>
      spec_text s ++ match a with [] => " " | _ => aspects_text a ++ nl end ++ "is" ++ nl ++
      String.concat "" (map (fun d => indent (xt d ++ nl) 3) ds) ++ "begin" ++ nl ++
      String.concat nl (map (fun s => indent (xt s) 3) ss) ++ nl ++ "end " ++ s_id s ++ ";"
    | IExprFun s e a =>
      spec_text s ++ " is" ++ nl ++ "  (" ++ indent_next (xt e) 3 ++ ")" ++
      match a with [] => "" | _ => nl ++ aspects_text a end ++ ";"
    | IInst f n s l => (if f then "function " else "procedure ") ++ n ++ " is new " ++ s_id s ++ associations_text l ++ ";"
    | IRename s r => spec_text s ++ " renames " ++ r ++ ";"
    | IOther x => xt x
    end.

  (** *** Equality: Base.__eq__, common.py:6-18, at the time [n] *)

  (** "==" of parameters, ada.py:1398-1441 *)
  Definition param_eqb (n : nat) (a b : param X) : bool :=
    list_eqb same_id (p_ids a) (p_ids b) && mode_eqb (p_mode a) (p_mode b) && same_id (p_type a) (p_type b) &&
    opt_eqb (xeq n) (p_default a) (p_default b).
  (** "==" of specifications, ada.py:1444-1473 *)
  Definition spec_eqb (n : nat) (a b : spec X) : bool :=
    same_id (s_id a) (s_id b) && list_eqb (param_eqb n) (s_params a) (s_params b) &&
    opt_eqb same_id (s_return a) (s_return b).
  (** the value of a key of a dict *)
  Fixpoint value_of (k : string) (l : list (string * option X)) : option (option X) :=
    match l with [] => None | (k', v) :: r => if same_id k k' then Some v else value_of k r end.
  (** None in literals.values (), ada.py:1129 *)
  Definition unvalued (l : list (string * option X)) : bool :=
    existsb (fun p => match snd p with None => true | Some _ => false end) l.
  (** "==" of the literals: those without None are an OrderedDict (ada.py:1123-1131), for which the order
      matters, others are a dict *)
  Definition literals_eqb (n : nat) (a b : list (string * option X)) : bool :=
    if unvalued a || unvalued b then
      Nat.eqb (List.length a) (List.length b) &&
      forallb (fun p => match value_of (fst p) b with Some v => opt_eqb (xeq n) (snd p) v | None => false end) a
    else list_eqb (fun p q => same_id (fst p) (fst q) && opt_eqb (xeq n) (snd p) (snd q)) a b.
  (** "==" of the further attributes of types; UnconstrainedArrayType is a subclass of ArrayType, ada.py:1208,
      without further attributes *)
  Definition tdef_eqb (n : nat) (a b : tdef X) : bool :=
    match a, b with
    | TModular x, TModular y => xeq n x y
    | TRange f l, TRange g m => xeq n f g && xeq n l m
    | TEnum l s, TEnum m t => literals_eqb n l m && opt_eqb (xeq n) s t
    | TSubtype x, TSubtype y | TDerived x, TDerived y | TAccess x, TAccess y => same_id x y
    | TRangeSubtype x f l, TRangeSubtype y g m => same_id x y && xeq n f g && xeq n l m
    | TPrivate, TPrivate | TDiscrete, TDiscrete => true
    | TArray _ i c, TArray _ j d => same_id i j && same_id c d
    | TRecord l v, TRecord m w => list_eqb (xeq n) l m && opt_eqb (xeq n) v w
    | _, _ => false
    end.
  (** "==" of items; pragmas are never equal, ada.py:1607-1610 *)
  Definition item_eqb (n : nat) (a b : item X) : bool :=
    match a, b with
    | IWith l, IWith m | IUse l, IUse m | IUseType l, IUseType m => list_eqb same_id l m
    | IType x ds a d, IType y es b e =>
      same_id x y && opt_eqb (list_eqb (xeq n)) ds es && list_eqb (xeq n) a b && tdef_eqb n d e
    | ISub s a f, ISub t b g => spec_eqb n s t && list_eqb (xeq n) a b && opt_eqb (list_eqb (xeq n)) f g
    | IBody s ds ss a, IBody t es ts b =>
      spec_eqb n s t && list_eqb (xeq n) ds es && list_eqb (xeq n) ss ts && list_eqb (xeq n) a b
    | IExprFun s e a, IExprFun t f b => spec_eqb n s t && xeq n e f && list_eqb (xeq n) a b
    | IInst f x s l, IInst g y t m => Bool.eqb f g && same_id x y && spec_eqb n s t && list_eqb same_id l m
    | IRename s x, IRename t y => spec_eqb n s t && same_id x y
    | IOther x, IOther y => xeq n x y
    | _, _ => false
    end.

  (** *** Packages *)

  (** "in" for a set compares the identity first; objects that are equal have the same hash, as the
      identifiers in it are equal (ada.py:732-733, 1065-1066, 1452-1453, 1480-1481, identifier.py:46-47) *)
  Definition same (n : nat) (a b : obj X) : bool := Nat.eqb (fst a) (fst b) || item_eqb n (snd a) (snd b).
  (** a class that defines __eq__ but not __hash__, here or in a base class, has no hash: common.py:7,
      ada.py:954-1037 *)
  Definition hashable (i : item X) : bool := match i with IOther _ => false | _ => true end.
  (** unique, common.py:78-83.  It is a generator: between two steps the text of an element is made, which
      may change the outcome of later comparisons (ada.py:58-63), so each step has its own time *)
  Fixpoint unique_from (n : nat) (seen l : list (obj X)) : res (list (obj X)) :=
    match l with
    | [] => Ok []
    | e :: r =>
      if hashable (snd e) then
        if existsb (fun s => same n s e) seen then unique_from (S n) seen r
        else let* k := unique_from (S n) (e :: seen) r in Ok (e :: k)
      else Err "TypeError"
    end.
  (** the texts in the declarative part, ada.py:1729: unique (declarations) if str (d) *)
  Definition items (n : nat) (l : list (obj X)) : res (list string) :=
    let* k := unique_from n [] l in
    Ok (map (fun s => indent s 3) (filter (fun s => negb (String.eqb s "")) (map (fun o => item_text (snd o)) k))).
  (** declarative_items, ada.py:1728-1733 *)
  Definition declarative_items (n : nat) (l : list (obj X)) (private : bool) : res string :=
    let* k := items n l in
    let result := String.concat (nl ++ nl) k in
    if String.eqb result "" then Ok result
    else Ok ((if private then "private" ++ nl ++ nl ++ result else result) ++ nl ++ nl)%string.
  (** context_clause, ada.py:1742-1743 *)
  Definition context_clause (n : nat) (l : list (obj X)) : res string :=
    match l with
    | [] => Ok ""
    | _ => let* k := unique_from n [] l in Ok (String.concat nl (map (fun o => item_text (snd o)) k) ++ nl ++ nl)%string
    end.

  (** PackageUnit, ada.py:1645-1656, with the attributes of its PackageDeclaration, 954-967, and of its
      PackageBody, 979-988; InstantiationUnit, 1683-1688 *)
  Record package := mkPackage {
    u_context : list (obj X); u_id : string; u_formals : option (list X); u_aspects : list X;
    u_declarations : list (obj X); u_private : list (obj X);
    u_body_context : list (obj X); u_body_id : string; u_body_aspects : list X; u_body : list (obj X) }.
  Inductive unit := Package (p : package) | Instantiation (context : list (obj X)) (id generic : string) (associations : list string).
  (** UnitPart and SubprogramUnitPart, ada.py:1706-1717 *)
  Record part := mkPart { part_specification : list (obj X); part_body : list (obj X); part_private : list (obj X) }.

  (** unit += part: PackageUnit.__iadd__, ada.py:1658-1668; InstantiationUnit.__iadd__, 1690-1691 *)
  Definition iadd (u : unit) (p : part) : res unit :=
    match u with
    | Package k =>
      Ok (Package (mkPackage (u_context k) (u_id k) (u_formals k) (u_aspects k)
        (u_declarations k ++ part_specification p)%list (u_private k ++ part_private p)%list
        (u_body_context k) (u_body_id k) (u_body_aspects k) (u_body k ++ part_body p)%list))
    | Instantiation _ _ _ _ => Err "TypeError"
    end.
  (** a sequence of additions, generator.py:336-392 *)
  Fixpoint add_all (u : unit) (ps : list part) : res unit :=
    match ps with [] => Ok u | p :: r => let* v := iadd u p in add_all v r end.

  (** ads, ada.py:1670-1672, with PackageDeclaration.__str__, 969-976; 1693-1695, with
      GenericPackageInstantiation.__str__, 1008-1012.  The three lists are gone through one after the other. *)
  Definition ads (u : unit) : res string :=
    match u with
    | Package k =>
      let* c := context_clause 0 (u_context k) in
      let t := List.length (u_context k) in
      let* d := declarative_items t (u_declarations k) false in
      let* p := declarative_items (t + List.length (u_declarations k)) (u_private k) true in
      Ok (c ++ formals_text (u_formals k) ++ "package " ++ u_id k ++ aspects_text (u_aspects k) ++ nl ++ "is" ++ nl ++ nl ++
          d ++ p ++ "end " ++ u_id k ++ ";" ++ nl)%string
    | Instantiation c i g l =>
      let* c := context_clause 0 c in
      Ok (c ++ "package " ++ i ++ " is new " ++ g ++ associations_text l ++ ";" ++ nl)%string
    end.
  (** adb, ada.py:1674-1676, with PackageBody.__str__, 990-997; 1697-1699.  The text of the body is made
      twice. *)
  Definition adb (u : unit) : res string :=
    match u with
    | Package k =>
      match u_body k with
      | [] => Ok ""
      | _ =>
        let* _ := declarative_items 0 (u_body k) false in
        let t := List.length (u_body k) in
        let* c := context_clause t (u_body_context k) in
        let* d := declarative_items (t + List.length (u_body_context k)) (u_body k) false in
        Ok (c ++ "package body " ++ u_body_id k ++ aspects_text (u_body_aspects k) ++ nl ++ "is" ++ nl ++ nl ++
            d ++ "end " ++ u_body_id k ++ ";" ++ nl)%string
      end
    | Instantiation _ _ _ _ => Ok ""
    end.
End Unit.
Arguments package : clear implicits.
Arguments unit : clear implicits.
Arguments part : clear implicits.
