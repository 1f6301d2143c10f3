(** Model of the declarations that rflx/generator/generator.py generates for scalar types
    (modular_types, range_types, enumeration_types 2964-3019) and of the functions Valid,
    To_Base and To_Actual (__integer_functions 2505-2536, __enumeration_functions
    2538-2671, __integer_conversion_functions 2931-2954, __type_validation_function
    2900-2910).

    The meaning of the generated Ada text is modelled: a type is the set of its values, a
    function is a Gallina function with all run-time checks.  Names are identifiers. *)
From Coq Require Import String Ascii List ZArith Bool.
From Verif Require Import Base Expr ExprEval Ident TypeSpec GenCode.
Import ListNotations.
Local Open Scope string_scope.
Local Open Scope list_scope.
Local Open Scope Z_scope.
Local Open Scope res_scope.

(** ** The types *)

(** An Ada static expression (ada_expr of an expression of the specification): exact
    arithmetic; names are not visible. *)
Definition static (e : expr) : res Z :=
  let* v := aeval (fun _ => true) (fun _ => Err "not visible") e in as_int v.

(** The arguments of the constructors of type_.py: the declarations contain expressions of
    the specification, not their values *)
Inductive declaration :=
| DModular (id : ident) (modulus : expr)
| DRange (id : ident) (first last size : expr)
| DEnum (id : ident) (literals : list (ident * Z)) (size : expr) (always_valid : bool).
(** the constructors, type_.py:88, 165, 320 *)
Definition declared (n : nat) (d : declaration) : res (list string * option scalar) :=
  match d with
  | DModular id m => ModularInteger n id m
  | DRange id f l s => RangeInteger n id f l s
  | DEnum id l s av => Enumeration n id l s av
  end.

(** "type T is mod M" *)
Record modular_type := mkMod { mod_modulus : Z }.
(** "type T is range F .. L" *)
Record range_type := mkRange { rt_first : Z; rt_last : Z }.
(** "type T is (A, B, ...) ... for T use (A => 1, B => 2, ...)" *)
Record enum_type := mkEnum { et_literals : list (ident * Z) }.

(** 'static expression' and 'positive modulus' of Ada; the modulus is at most 2 ** 64 for
    the compiler used *)
Definition mod_type (e : expr) : res modular_type :=
  let* m := static e in
  check (1 <=? m) && (m <=? 2 ^ 64) msg "illegal modulus"; Ok (mkMod m).
(** the base type of range types and enumerations, "mod 2 ** Size", 2977-2980, 2994; that
    of a modular type is the type itself (common.base_type_name, common.py:652-656) *)
Definition base_type (d : declaration) : res modular_type :=
  match d with
  | DModular _ m => mod_type m
  | DRange _ _ _ s => mod_type (EBin OPow (ENum 2) s)
  | DEnum _ _ s _ => mod_type (EBin OPow (ENum 2) s)
  end.
(** RangeType, 2981-2986; bounds of a signed integer type are those of 64 bit integers *)
Definition actual_range (d : declaration) : res range_type :=
  match d with
  | DRange _ f l _ =>
    let* a := static f in
    let* b := static l in
    check (- 2 ^ 63 <=? a) && (a <? 2 ^ 63) && (- 2 ^ 63 <=? b) && (b <? 2 ^ 63) msg "bounds too large";
    Ok (mkRange a b)
  | _ => Err "no range type"
  end.
(** ada.EnumerationType, ada.py:1115-1148: sorted by value (sorted is stable) *)
Fixpoint insert_literal (kv : ident * Z) (l : list (ident * Z)) : list (ident * Z) :=
  match l with
  | [] => [kv]
  | kv' :: t => if snd kv <? snd kv' then kv :: l else kv' :: insert_literal kv t
  end.
Definition sorted_literals (l : list (ident * Z)) : list (ident * Z) :=
  fold_left (fun acc kv => insert_literal kv acc) l [].
(** the enumeration type of an enumeration, 2996-3002 *)
Definition actual_enum (t : scalar) : enum_type :=
  match t with Enum _ lits _ _ => mkEnum (sorted_literals lits) | _ => mkEnum [] end.

(** ** Values of the generated types: an integer, a literal, or (for always valid
    enumerations, 3003-3017) a record with the discriminant Known *)
Inductive aval :=
| AInt (z : Z)
| ALiteral (k : ident)
| AKnown (k : ident)
| ARaw (z : Z).

(** a case expression "case V is when C1 => E1, ..., when others => E" *)
Record cases (A : Type) := mkCases { c_alternatives : list (Z * A); c_others : option A }.
Arguments mkCases {A}.
Arguments c_alternatives {A}.
Arguments c_others {A}.
(** evaluation; if no alternative covers the value, the expression is illegal *)
Definition case_of {A} (c : cases A) (v : Z) : res A :=
  match find (fun a => fst a =? v) (c_alternatives c) with
  | Some (_, x) => Ok x
  | None => match c_others c with Some x => Ok x | None => Err "case not covered" end
  end.

Section Functions.
  (** fuel of the simplifier *)
  Variable n : nat.

  (** len (enum.literals) < 2 ** int (enum.size), 2539 *)
  Definition is_incomplete (lits : list (ident * Z)) (size : Z) : bool := Z.of_nat (List.length lits) <? 2 ^ size.
  (** the cases of Valid of an enumeration that is not always valid, 2550-2557 *)
  Definition validation_cases (lits : list (ident * Z)) (size : Z) : cases bool :=
    mkCases (map (fun kv => (snd kv, true)) lits) (if is_incomplete lits size then Some false else None).
  (** And of the constraints, simplified, 2508, 2548; "Val" is the parameter *)
  Definition constraint_of (t : scalar) : res expr :=
    let* cs := constraints n t "val" false true in simp n (EAss OAnd cs).
  Definition constraint_valid (t : scalar) (v : Z) : res bool :=
    let* c := constraint_of t in
    let* r := aeval (fun _ => true)
      (fun x => match x with NVar y => if String.eqb y "val" then Ok (VInt v) else Err "not visible" | _ => Err "not visible" end) c in
    as_bool r.
  (** Valid *)
  Definition Valid (t : scalar) (v : Z) : res bool :=
    match t with
    | Enum _ lits size false => case_of (validation_cases lits size) v
    | _ => constraint_valid t v
    end.

  (** To_Base of the literals, 2584-2606: a case expression over the enumeration type *)
  Definition literal_base (lits : list (ident * Z)) (k : ident) : res Z :=
    match find (fun kv => id_eq (fst kv) k) lits with Some kv => Ok (snd kv) | None => Err "case not covered" end.
  (** To_Base: enumerations 2584-2606 and 2636-2648, integers 2933-2941; a type conversion
      checks the range of the base type *)
  Definition To_Base (d : declaration) (t : scalar) (a : aval) : res Z :=
    match t, a with
    | Enum _ lits _ false, ALiteral k => literal_base lits k
    | Enum _ lits _ true, AKnown k => literal_base lits k
    | Enum _ _ _ true, ARaw z => Ok z
    | Range _ _ _ _, AInt z =>
      let* b := base_type d in check (0 <=? z) && (z <? mod_modulus b) msg "range check"; Ok z
    | Modular _ _ _ _, AInt z => Ok z
    | _, _ => Err "type"
    end.

  (** the cases of To_Actual of an enumeration, 2626-2634, 2651-2668; reaching the function
      Unreachable, whose precondition is False, is an error *)
  Definition actual_cases (lits : list (ident * Z)) (size : Z) (av : bool) (v : Z) : cases (res aval) :=
    if av then mkCases (map (fun kv => (snd kv, Ok (AKnown (fst kv)))) lits) (Some (Ok (ARaw v)))
    else mkCases (map (fun kv => (snd kv, Ok (ALiteral (fst kv)))) lits)
                 (if is_incomplete lits size then Some (Err "unreachable") else None).
  (** To_Actual with its precondition Valid (Val): 2607-2671, 2942-2953 *)
  Definition To_Actual (d : declaration) (t : scalar) (v : Z) : res aval :=
    let* ok := Valid t v in
    check ok msg "precondition";
    match t with
    | Enum _ lits size av => let* r := case_of (actual_cases lits size av v) v in r
    | Range _ _ _ _ =>
      let* r := actual_range d in check (rt_first r <=? v) && (v <=? rt_last r) msg "range check"; Ok (AInt v)
    | Modular _ _ _ _ => Ok (AInt v)
    end.
  (** To_Actual of a literal, 2613-2624 *)
  Definition literal_actual (k : ident) : aval := AKnown k.
End Functions.
