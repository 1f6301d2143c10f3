(** Model of the text of expressions and of the equality that is defined by it,
    rflx/expression.py and rflx/ada.py.

    Simplifications: numbers are printed in base 10 without base prefix (Number.base is
    not modelled, see Expr.v); an identifier is the string that ID.__str__ gives. *)
From Coq Require Import String Ascii List ZArith Bool DecimalString.
From Verif Require Import Base Expr Ident.
Import ListNotations.
Local Open Scope string_scope.
Local Open Scope list_scope.
Local Open Scope Z_scope.
Local Open Scope res_scope.

(** "\n" *)
Definition newline : ascii := ascii_of_nat 10.
(** n * " " *)
Fixpoint spaces (n : nat) : string := match n with O => "" | S k => String " " (spaces k) end.
(** indent_next, common.py:63-64 *)
Fixpoint indent_next (s : string) (n : nat) : string :=
  match s with
  | "" => ""
  | String c r => if Ascii.eqb c newline then String c (spaces n ++ indent_next r n) else String c (indent_next r n)
  end.
(** "{}".format (value) for a value that is not negative *)
Definition decimal (v : Z) : string := NilZero.string_of_uint (N.to_uint (Z.to_N v)).
(** Number._update_str, expression.py:631-646 and ada.py:198-213 *)
Definition number_str (v : Z) : string :=
  if v <? 0 then ("(-" ++ decimal (- v) ++ ")")%string else decimal v.

(** the class names of attributes, expression.py:1109-1140 *)
Definition attr_str (a : attr) : string :=
  match a with ASize => "Size" | ALength => "Length" | AFirst => "First" | ALast => "Last" end.
(** representation: Variable 1044-1046, Attribute 1072-1073; ada.py:320-322,352-354 *)
Definition representation (n : name) : string :=
  match n with NVar id => id | NAttr a id => (id ++ "'" ++ attr_str a)%string end.
(** Name._update_str, expression.py:981-982 and ada.py:299-300 *)
Definition name_str (n : name) (negative : bool) : string :=
  if negative then ("(-" ++ representation n ++ ")")%string else representation n.

(** symbol, expression.py:531-620,799-954,1541-1681; ada.py:159-410 *)
Definition ass_symbol (o : assop) : string :=
  match o with
  | OAnd => " and " | OAndThen => " and then " | OOr => " or " | OOrElse => " or else "
  | OAdd => " + " | OMul => " * "
  end.
Definition bin_symbol (o : binop) : string :=
  match o with OSub => " - " | ODiv => " / " | OPow => "**" | OMod => " mod " end.
Definition rel_symbol (o : relop) : string :=
  match o with OLt => " < " | OLe => " <= " | OEq => " = " | OGe => " >= " | OGt => " > " | ONe => " /= " end.

(** precedence, expression.py:60-75 and the properties of the classes; ada.py:44-52 *)
Definition precedence (e : expr) : nat :=
  match e with
  | ETrue | EFalse | ENum _ | EName _ _ => 7
  | ENot _ | EBin OPow _ _ => 6
  | EAss OMul _ | EBin ODiv _ _ | EBin OMod _ _ => 5
  | EAss OAdd _ | EBin OSub _ _ => 3
  | ERel _ _ _ => 2
  | EAss _ _ => 1
  end.

(** parenthesized, expression.py:177-180 and ada.py:77-80; [s] is str (e) and [p] the
    precedence of the enclosing expression *)
Definition parenthesized (p : nat) (e : expr) (s : string) : string :=
  if Nat.leb (precedence e) p then ("(" ++ indent_next s 1 ++ ")")%string else s.

(** symbol[1:] *)
Definition tail (s : string) : string := match s with "" => "" | String _ r => r end.

(** __str__: BooleanTrue 217-218, BooleanFalse 238-239, Not 263-264, BinExpr 318-321,
    AssExpr 378-383 (for Mul), BoolAssExpr 498-513, Number 631-646, Add 755-765,
    Name 981-982.  neutral_element is an int, so that "0" and "1" are printed for
    Add () and Mul () (382). *)
Fixpoint str (e : expr) : string :=
  match e with
  | ETrue => "True"
  | EFalse => "False"
  | ENum v => number_str v
  | EName n negative => name_str n negative
  | ENot x => ("not " ++ parenthesized (precedence e) x (str x))%string
  | EAss OAdd [] => "0"
  | EAss OAdd (t :: ts) =>
    (str t ++
     (fix go (l : list expr) : string :=
        match l with
        | [] => ""
        | x :: r =>
          (match x with
           | ENum v => if (v <? 0)%Z then " - " ++ parenthesized (precedence e) (ENum (- v)) (number_str (- v))
                       else ass_symbol OAdd ++ parenthesized (precedence e) x (str x)
           | EName n true => " - " ++ parenthesized (precedence e) (EName n false) (name_str n false)
           | _ => ass_symbol OAdd ++ parenthesized (precedence e) x (str x)
           end ++ go r)%string
        end) ts)%string
  | EAss OMul [] => "1"
  | EAss OMul (t :: ts) =>
    (parenthesized (precedence e) t (str t) ++
     (fix go (l : list expr) : string :=
        match l with
        | [] => ""
        | x :: r => (ass_symbol OMul ++ parenthesized (precedence e) x (str x) ++ go r)%string
        end) ts)%string
  | EAss _ [] => "True"
  | EAss o (t :: ts) =>
    (parenthesized (precedence e) t (str t) ++
     (fix go (l : list expr) : string :=
        match l with
        | [] => ""
        | x :: r =>
          (String newline (tail (ass_symbol o)) ++
           indent_next (parenthesized (precedence e) x (str x)) (String.length (ass_symbol o) - 1) ++ go r)%string
        end) ts)%string
  | EBin o l r => (parenthesized (precedence e) l (str l) ++ bin_symbol o ++ parenthesized (precedence e) r (str r))%string
  | ERel o l r => (parenthesized (precedence e) l (str l) ++ rel_symbol o ++ parenthesized (precedence e) r (str r))%string
  end.

(** "==": Expr.__eq__ 89-92 (class and text), Number 691-696, Variable 1024-1027 (the
    identifiers are compared without case, identifier.py:35-40).  AndThen is a subclass of
    And and OrElse one of Or, so that they may be equal. *)
Definition py_eqb (a b : expr) : bool :=
  match a, b with
  | ENum x, ENum y => x =? y
  | EName (NVar x) s, EName (NVar y) t => Bool.eqb s t && String.eqb (lower x) (lower y)
  | EName (NAttr k _) _, EName (NAttr l _) _ =>
    match k, l with
    | ASize, ASize | ALength, ALength | AFirst, AFirst | ALast, ALast => String.eqb (str a) (str b)
    | _, _ => false
    end
  | ETrue, ETrue | EFalse, EFalse => true
  | ENot _, ENot _ => String.eqb (str a) (str b)
  | EAss o _, EAss p _ => (flattens o p || flattens p o) && String.eqb (str a) (str b)
  | EBin o _ _, EBin p _ _ => binop_eqb o p && String.eqb (str a) (str b)
  | ERel o _ _, ERel p _ _ => relop_eqb o p && String.eqb (str a) (str b)
  | _, _ => false
  end.

(** ** Ada *)

(** ada.ID (identifier): the parts are separated by "." (ada.py:15-18) *)
Fixpoint dots (s : string) : string :=
  match s with
  | "" => ""
  | String c r =>
    match r with
    | String c' r' => if Ascii.eqb c ":" && Ascii.eqb c' ":" then String "." (dots r') else String c (dots r)
    | "" => String c ""
    end
  end.
Definition ada_name (n : name) : name :=
  match n with NVar id => NVar (dots id) | NAttr a id => NAttr a (dots id) end.
(** ada_expr, expression.py:226-1687; the classes of ada.py are those of expression.py,
    except that TRUE and FALSE are variables (ada.py:325-326) *)
Fixpoint ada_expr (e : expr) : expr :=
  match e with
  | ETrue => EName (NVar "True") false
  | EFalse => EName (NVar "False") false
  | ENum v => ENum v
  | EName n negative => EName (ada_name n) negative
  | ENot x => ENot (ada_expr x)
  | EAss o ts => EAss o (map ada_expr ts)
  | EBin o l r => EBin o (ada_expr l) (ada_expr r)
  | ERel o l r => ERel o (ada_expr l) (ada_expr r)
  end.
(** the terms of an AssExpr *)
Definition joined (sep : string) (l : list string) : string := String.concat sep l.
(** ada.Expr.__str__: Not 88-89, BinExpr 102-105, AssExpr 123-124 (for Mul), BoolAssExpr
    138-152, Number 198-213, Add 221-228 (terms[0] of no terms raises IndexError), Name
    299-300 *)
Fixpoint ada_str (e : expr) : res string :=
  match e with
  | ETrue => Ok "True"
  | EFalse => Ok "False"
  | ENum v => Ok (number_str v)
  | EName n negative => Ok (name_str n negative)
  | ENot x => let* s := ada_str x in Ok ("not " ++ parenthesized (precedence e) x s)%string
  | EAss OAdd [] => Err "IndexError"
  | EAss OAdd (t :: ts) =>
    let* s := ada_str t in
    let* r := (fix go (l : list expr) : res string :=
        match l with
        | [] => Ok ""
        | x :: r =>
          let* s := match x with
           | ENum v => if v <? 0 then Ok (" - " ++ parenthesized (precedence e) (ENum (- v)) (number_str (- v)))%string
                       else let* s := ada_str x in Ok (ass_symbol OAdd ++ parenthesized (precedence e) x s)%string
           | EName n true => Ok (" - " ++ parenthesized (precedence e) (EName n false) (name_str n false))%string
           | _ => let* s := ada_str x in Ok (ass_symbol OAdd ++ parenthesized (precedence e) x s)%string
           end in
          let* rs := go r in Ok (s ++ rs)%string
        end) ts in
    Ok (s ++ r)%string
  | EAss OMul ts =>
    let* ss := (fix go (l : list expr) : res (list string) :=
        match l with
        | [] => Ok []
        | x :: r => let* s := ada_str x in let* rs := go r in Ok (parenthesized (precedence e) x s :: rs)
        end) ts in
    Ok (joined (ass_symbol OMul) ss)
  | EAss _ [] => Ok "True"
  | EAss o (t :: ts) =>
    let* s := ada_str t in
    let* r := (fix go (l : list expr) : res string :=
        match l with
        | [] => Ok ""
        | x :: r =>
          let* s := ada_str x in
          let* rs := go r in
          Ok (String newline (tail (ass_symbol o)) ++
              indent_next (parenthesized (precedence e) x s) (String.length (ass_symbol o) - 1) ++ rs)%string
        end) ts in
    Ok (parenthesized (precedence e) t s ++ r)%string
  | EBin o l r =>
    let* a := ada_str l in let* b := ada_str r in
    Ok (parenthesized (precedence e) l a ++ bin_symbol o ++ parenthesized (precedence e) r b)%string
  | ERel o l r =>
    let* a := ada_str l in let* b := ada_str r in
    Ok (parenthesized (precedence e) l a ++ rel_symbol o ++ parenthesized (precedence e) r b)%string
  end.
