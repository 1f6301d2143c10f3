(** Model of the type check of expressions: the constructors and the methods check_type,
    check_type_instance and _check_type_subexpr of rflx/expression.py, for the classes
    of Expr.v.

    Python sets the attribute type_ of the variables by substituted (typed_variable),
    which builds all operators again from the leaves upwards, and check_type then may
    change type_; here the types before and after the check are functions of the types
    of the variables. *)
From Coq Require Import String List ZArith Bool.
From Verif Require Import Base Expr Typing.
Import ListNotations.
Local Open Scope string_scope.
Local Open Scope list_scope.

(** types of the variables, [TUndefined] if unknown *)
Definition tenv := string -> ty.
(** Not has no method substituted of its own (Expr.substituted, 167-171, only applies
    the function to the negation itself): variables below a negation remain without
    type *)
Definition untyped : tenv := fun _ => TUndefined.

(** type_ after construction: BooleanLiteral 197-199, Not 259-261, BinExpr 304-309,
    AssExpr 367-369, BoolAssExpr 494-496, Number 626-629, MathAssExpr 742-745,
    MathBinExpr 843-844, Variable 1013-1022, Attribute 1062-1069, Relation 1509-1510 *)
Fixpoint new_type (g : tenv) (e : expr) : ty :=
  match e with
  | ETrue | EFalse | ENot _ | ERel _ _ _ => BOOLEAN
  | ENum v => TUniversal (known v v)
  | EName (NVar x) _ => g x
  | EName (NAttr _ _) _ => TUndefined
  | EAss (OAdd | OMul) ts =>
    match common_type (map (new_type g) ts) with TUndefined => TUndefinedInteger | t => t end
  | EAss _ _ => BOOLEAN
  | EBin _ l r => common_type [new_type g l; new_type g r]
  end.

(** type_ after _check_type_subexpr: Size, Length, First, Last 1109-1130, MathBinExpr
    846-853; others do not change it *)
Fixpoint type_of (g : tenv) (e : expr) : ty :=
  match e with
  | EName (NAttr _ _) _ => TUniversal no_bounds
  | EBin _ l r => common_type [type_of g l; type_of g r]
  | _ => new_type g e
  end.

(** rty.check_type with a single expected type *)
Definition expect (actual expected : ty) : list string :=
  match check_type actual (One expected) with Ok es => es | Err w => [w] end.

(** _check_type_subexpr: BooleanLiteral 205-206, Not 266-267, BoolAssExpr 515-519,
    Number 647-648, MathAssExpr 747-751, MathBinExpr 846-853, Variable 1037-1038,
    Size, Length, First, Last 1109-1130, Less 1534-1538, LessEqual 1563-1567, Equal
    1592-1593, GreaterEqual 1618-1622, Greater 1647-1651, NotEqual 1676-1677; the type of
    an operand is checked after its own operands (check_type 140-144,
    check_type_instance 146-152) *)
Fixpoint subexpr_errors (g : tenv) (e : expr) : list string :=
  match e with
  | ETrue | EFalse | ENum _ | EName (NVar _) _ => []
  | EName (NAttr _ x) _ => check_type_instance (g x) [CAny]
  | ENot x => subexpr_errors untyped x ++ expect (type_of untyped x) BOOLEAN
  | EAss (OAdd | OMul) ts =>
    flat_map (fun t => subexpr_errors g t ++ check_type_instance (type_of g t) [CAnyInteger]) ts
  | EAss _ ts => flat_map (fun t => subexpr_errors g t ++ expect (type_of g t) BOOLEAN) ts
  | EBin _ l r =>
    subexpr_errors g l ++ check_type_instance (type_of g l) [CAnyInteger]
    ++ subexpr_errors g r ++ check_type_instance (type_of g r) [CAnyInteger]
  | ERel (OEq | ONe) l r =>
    subexpr_errors g l ++ check_type_instance (type_of g l) [CAny]
    ++ subexpr_errors g r ++ expect (type_of g r) (type_of g l)
  | ERel _ l r =>
    subexpr_errors g l ++ check_type_instance (type_of g l) [CAnyInteger]
    ++ subexpr_errors g r ++ check_type_instance (type_of g r) [CAnyInteger]
  end.

(** Expr.check_type, 140-144 *)
Definition check_expr (g : tenv) (e : expr) (expected : ty) : list string :=
  subexpr_errors g e ++ expect (type_of g e) expected.
