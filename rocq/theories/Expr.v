(** Model of the expression language, rflx/expression.py.

    Modelled classes: BooleanTrue/BooleanFalse, Not, And, AndThen, Or, OrElse,
    Number, Add, Mul, Sub, Div, Pow, Mod, Variable, the attributes Size, Length,
    First, Last of a variable, and the relations Less, LessEqual, Equal,
    GreaterEqual, Greater, NotEqual.

    Simplifications: identifiers are taken in normalised (lower-case) form, since
    ID equality ignores case; source locations, types and the printing base of
    numbers are dropped; aggregates, strings, quantified expressions, calls,
    selections, conversions and bindings are not modelled. *)
From Coq Require Import String List ZArith Bool.
From Verif Require Import Base.
Import ListNotations.
Local Open Scope string_scope.
Local Open Scope list_scope.
Local Open Scope Z_scope.
Local Open Scope res_scope.

(** names: Variable (expression.py:1012-1058) and attributes of variables
    (expression.py:1061-1130) *)
Inductive attr := ASize | ALength | AFirst | ALast.
Inductive name := NVar (id : string) | NAttr (a : attr) (id : string).

(** BoolAssExpr / MathAssExpr subclasses, expression.py:493-839 *)
Inductive assop := OAnd | OAndThen | OOr | OOrElse | OAdd | OMul.
(** MathBinExpr subclasses, expression.py:842-965 *)
Inductive binop := OSub | ODiv | OPow | OMod.
(** Relation subclasses, expression.py:1508-1695 *)
Inductive relop := OLt | OLe | OEq | OGe | OGt | ONe.

(** expression.py:78-1695; [EName n neg] is a Name with its [negative] flag
    (expression.py:968-979); the [immutable] flag is not modelled *)
Inductive expr :=
| ETrue
| EFalse
| ENum (v : Z)
| EName (n : name) (neg : bool)
| ENot (e : expr)
| EAss (o : assop) (ts : list expr)
| EBin (o : binop) (l r : expr)
| ERel (o : relop) (l r : expr).

Definition EVar (id : string) : expr := EName (NVar id) false.

Definition name_eqb (a b : name) : bool :=
  match a, b with
  | NVar x, NVar y => String.eqb x y
  | NAttr k x, NAttr l y =>
    match k, l with
    | ASize, ASize | ALength, ALength | AFirst, AFirst | ALast, ALast => String.eqb x y
    | _, _ => false
    end
  | _, _ => false
  end.
Definition assop_eqb (a b : assop) : bool :=
  match a, b with
  | OAnd, OAnd | OAndThen, OAndThen | OOr, OOr | OOrElse, OOrElse | OAdd, OAdd | OMul, OMul => true
  | _, _ => false
  end.
Definition binop_eqb (a b : binop) : bool :=
  match a, b with
  | OSub, OSub | ODiv, ODiv | OPow, OPow | OMod, OMod => true
  | _, _ => false
  end.
Definition relop_eqb (a b : relop) : bool :=
  match a, b with
  | OLt, OLt | OLe, OLe | OEq, OEq | OGe, OGe | OGt, OGt | ONe, ONe => true
  | _, _ => false
  end.

(** Tree equality.  Python compares class and printed text
    (expression.py:89-92), numbers by value (691-696), variables by sign and
    identifier (1024-1027).  Simplification below is parametric in the equality
    test; this is one instance, the printed form is treated in [ExprPrint.v]. *)
Fixpoint expr_eqb (a b : expr) : bool :=
  match a, b with
  | ETrue, ETrue => true
  | EFalse, EFalse => true
  | ENum x, ENum y => x =? y
  | EName n s, EName m t => name_eqb n m && Bool.eqb s t
  | ENot x, ENot y => expr_eqb x y
  | EAss o xs, EAss p ys =>
    assop_eqb o p &&
    (fix go (xs ys : list expr) : bool :=
       match xs, ys with
       | [], [] => true
       | x :: xs', y :: ys' => expr_eqb x y && go xs' ys'
       | _, _ => false
       end) xs ys
  | EBin o x1 x2, EBin p y1 y2 => binop_eqb o p && expr_eqb x1 y1 && expr_eqb x2 y2
  | ERel o x1 x2, ERel p y1 y2 => relop_eqb o p && expr_eqb x1 y1 && expr_eqb x2 y2
  | _, _ => false
  end.

Definition is_num (e : expr) : bool := match e with ENum _ => true | _ => false end.

(** isinstance (t, type (self)), expression.py:461; AndThen is a subclass of And
    (571) and OrElse of Or (616) *)
Definition flattens (self : assop) (t : assop) : bool :=
  match self, t with
  | OAnd, OAnd | OAnd, OAndThen | OAndThen, OAndThen
  | OOr, OOr | OOr, OOrElse | OOrElse, OOrElse
  | OAdd, OAdd | OMul, OMul => true
  | _, _ => false
  end.

(** neutral_element, expression.py:552-553, 597-598, 795-796, 824-825 *)
Definition neutral (o : assop) : Z :=
  match o with OAnd | OAndThen => 1 | OOr | OOrElse => 0 | OAdd => 0 | OMul => 1 end.

(** operation, expression.py:549-550, 594-595, 774-775, 821-822 (Python's "and"
    and "or" on integers) *)
Definition operation (o : assop) (l r : Z) : Z :=
  match o with
  | OAnd | OAndThen => if l =? 0 then l else r
  | OOr | OOrElse => if l =? 0 then r else l
  | OAdd => l + r
  | OMul => l * r
  end.

Definition boolean_op (o : assop) : bool :=
  match o with OAdd | OMul => false | _ => true end.

Definition EBool (b : bool) : expr := if b then ETrue else EFalse.

Definition inverse (o : relop) : relop :=
  match o with OLt => OGe | OLe => OGt | OEq => ONe | OGe => OLt | OGt => OLe | ONe => OEq end.

(** relation operators on Numbers, expression.py:691-724 *)
Definition rel_num (o : relop) (l r : Z) : bool :=
  match o with
  | OLt => l <? r | OLe => l <=? r | OEq => l =? r
  | OGe => r <=? l | OGt => r <? l | ONe => negb (l =? r)
  end.

(** Arithmetic on Numbers: __sub__ 664-667, __floordiv__ 674-679, __pow__
    681-684, __mod__ 686-689.  Python's % is the floor modulo [Z.modulo]; a zero
    divisor raises ZeroDivisionError; a negative exponent yields a Python float,
    which is modelled as an error. *)
Definition bin_num (o : binop) (l r : Z) : res expr :=
  match o with
  | OSub => Ok (ENum (l - r))
  | ODiv => if r =? 0 then Err "ZeroDivisionError"
            else if l mod r =? 0 then Ok (ENum (l / r)) else Ok (EBin ODiv (ENum l) (ENum r))
  | OPow => if r <? 0 then Err "negative exponent" else Ok (ENum (l ^ r))
  | OMod => if r =? 0 then Err "ZeroDivisionError" else Ok (ENum (l mod r))
  end.

Definition out_of_fuel : string := "out of fuel".

Section Simplify.
  (** the equality test used by "==" and "in" *)
  Variable eqb : expr -> expr -> bool.

  Section WithSimp.
    Variable simp : expr -> res expr.

    (** map a function that may raise over a list, left to right *)
    Fixpoint mapr {A B} (f : A -> res B) (l : list A) : res (list B) :=
      match l with
      | [] => Ok []
      | x :: t => let* y := f x in let* ys := mapr f t in Ok (y :: ys)
      end.

    (** unary minus: BooleanTrue 223, BooleanFalse 244, Not 269, BinExpr 323,
        And 536, Or 581, Number 656, Add 767, Mul 814, Variable 1032,
        Attribute 1075, relations 1531-1674 *)
    Fixpoint neg (e : expr) : res expr :=
      match e with
      | ETrue => Ok EFalse
      | EFalse => Ok ETrue
      | ENum v => Ok (ENum (- v))
      | EName n s => Ok (EName n (negb s))
      | ENot x => Ok x
      | EAss OAdd ts =>
        let* ts' := (fix go (l : list expr) : res (list expr) :=
                       match l with
                       | [] => Ok []
                       | x :: t => let* y := neg x in let* ys := go t in Ok (y :: ys)
                       end) ts in
        Ok (EAss OAdd ts')
      | EAss OMul ts => simp (EAss OMul (ts ++ [ENum (-1)]))
      | EAss _ _ => Err "NotImplementedError"
      | EBin o l r => let* l' := neg l in Ok (EBin o l' r)
      | ERel o l r => Ok (ERel (inverse o) l r)
      end.

    (** the loop of AssExpr.simplified, expression.py:450-464; [work] is the rest
        of all_terms, [acc] the list "terms" in reverse *)
    Fixpoint collect (o : assop) (m : nat) (work : list expr) (total : Z) (acc : list expr)
      : res (Z * list expr) :=
      match work with
      | [] => Ok (total, rev acc)
      | term :: rest =>
        match m with
        | O => Err out_of_fuel
        | S m' =>
          let* t := simp term in
          match t with
          | ENum v => collect o m' rest (operation o total v) acc
          | ETrue => collect o m' rest (operation o total 1) acc
          | EFalse => collect o m' rest (operation o total 0) acc
          | EAss p us =>
            if flattens o p then collect o m' (rest ++ us) total acc
            else collect o m' rest total (t :: acc)
          | _ => collect o m' rest total (t :: acc)
          end
        end
      end.

    (** the rest of AssExpr.simplified, expression.py:465-477 *)
    Definition finish (o : assop) (total : Z) (terms : list expr) : expr :=
      match terms with
      | [] => if boolean_op o then EBool (negb (total =? 0)) else ENum total
      | _ =>
        let terms' :=
          if total =? neutral o then terms
          else terms ++ [if boolean_op o then EBool (negb (total =? 0)) else ENum total] in
        match terms' with
        | [t] => t
        | _ => EAss o terms'
        end
      end.

    (** And.simplified 543-547, Or.simplified 588-592 *)
    Definition absorb (o : assop) (e : expr) : expr :=
      match o, e with
      | (OAnd | OAndThen), EAss (OAnd | OAndThen) ts => if existsb (eqb EFalse) ts then EFalse else e
      | (OOr | OOrElse), EAss (OOr | OOrElse) ts => if existsb (eqb ETrue) ts then ETrue else e
      | _, _ => e
      end.

    (** list.remove of the first element equal to [x] *)
    Fixpoint remove_first (x : expr) (l : list expr) : option (list expr) :=
      match l with
      | [] => None
      | y :: t => if eqb y x then Some t
                  else match remove_first x t with Some t' => Some (y :: t') | None => None end
      end.

    (** the complement search of Add.simplified, expression.py:781-790; [l] is the
        reversed list of terms, [acc] the list being built *)
    Fixpoint cancel (l : list expr) (acc : list expr) : res (list expr) :=
      match l with
      | [] => Ok acc
      | term :: rest =>
        match acc with
        | [] => cancel rest [term]
        | _ =>
          let* nt := neg term in
          match remove_first nt acc with
          | Some acc' => cancel rest acc'
          | None => cancel rest (term :: acc)
          end
        end
      end.

    (** Add.simplified after super().simplified(), expression.py:777-793 *)
    Definition add_tail (e : expr) : res expr :=
      match e with
      | EAss OAdd ts =>
        let* ts' := cancel (rev ts) [] in
        match ts' with
        | [t] => Ok t
        | _ => Ok (EAss OAdd ts')
        end
      | _ => Ok e
      end.

    (** Relation._simplified, expression.py:1516-1523 *)
    Definition rel_simp (o : relop) (l r : expr) : expr :=
      if (match o with OEq | OLe | OGe => true | _ => false end) && eqb l r then ETrue
      else match l, r with
           | ENum x, ENum y => EBool (rel_num o x y)
           | _, _ => ERel o l r
           end.
  End WithSimp.

  (** simplified(): BooleanLiteral 212, Number 730, Name 1001, Attribute 1090,
      Not 279-290, AssExpr 449-477, And 543, Or 588, Add 777-793, Sub 861-866,
      Div 889-894, Pow 917-922, Mod 945-950, relations 1544-1684.  The recursion
      is not structural (flattened terms are simplified again), hence the fuel. *)
  Fixpoint simplify (n : nat) (e : expr) : res expr :=
    match n with
    | O => Err out_of_fuel
    | S n' =>
      let simp := simplify n' in
      match e with
      | ETrue | EFalse | ENum _ | EName _ _ => Ok e
      | ENot (ERel o l r) =>
        let* l' := simp l in let* r' := simp r in Ok (ERel (inverse o) l' r')
      | ENot x => let* x' := simp x in Ok (ENot x')
      | EAss o ts =>
        let* c := collect simp o n' ts (neutral o) [] in
        let '(total, terms) := c in
        let e1 := finish o total terms in
        match o with
        | OAdd => add_tail simp e1
        | OMul => Ok e1
        | _ => Ok (absorb o e1)
        end
      | EBin o l r =>
        let* l' := simp l in
        let* r' := simp r in
        match l', r' with
        | ENum x, ENum y => bin_num o x y
        | _, _ =>
          match o with
          | OSub => let* nr := neg simp r' in Ok (EAss OAdd [l'; nr])
          | _ => Ok (EBin o l' r')
          end
        end
      | ERel o l r =>
        let* l' := simp l in let* r' := simp r in Ok (rel_simp o l' r')
      end
    end.
End Simplify.

(** substituted() with a mapping from names: BinExpr 344-355, AssExpr 438-447,
    Name 993-999, default (also for Not) 166-171, substitution() 2284-2293.
    The substitution of the prefix inside an attribute (1081-1088) is not
    modelled: the mapping acts on whole names.  [ng] is unary minus. *)
Section Subst.
  Variable ng : expr -> res expr.
  Variable mapping : name -> option expr.

  Fixpoint substituted (e : expr) : res expr :=
    match e with
    | EName n false => match mapping n with Some x => Ok x | None => Ok e end
    | EName n true => match mapping n with Some x => ng x | None => Ok e end
    | EAss o ts =>
      let* ts' := (fix go (l : list expr) : res (list expr) :=
                     match l with
                     | [] => Ok []
                     | x :: t => let* y := substituted x in let* ys := go t in Ok (y :: ys)
                     end) ts in
      Ok (EAss o ts')
    | EBin o l r => let* l' := substituted l in let* r' := substituted r in Ok (EBin o l' r')
    | ERel o l r => let* l' := substituted l in let* r' := substituted r in Ok (ERel o l' r')
    | ENot _ | ETrue | EFalse | ENum _ => Ok e
    end.
End Subst.

(** common.py:78-83 (unique): first occurrences, in order *)
Fixpoint unique_aux {A} (eqb : A -> A -> bool) (seen l : list A) : list A :=
  match l with
  | [] => []
  | x :: t => if existsb (eqb x) seen then unique_aux eqb seen t
              else x :: unique_aux eqb (x :: seen) t
  end.
Definition unique {A} (eqb : A -> A -> bool) (l : list A) : list A := unique_aux eqb [] l.

(** variables(): 160-161, Not 272, BinExpr 334, AssExpr 429, Variable 1048,
    Attribute 1094 (the variable below an attribute).  Python's list contains
    Variable objects with their sign; unique compares sign and identifier. *)
Definition sv_eqb (a b : string * bool) : bool :=
  String.eqb (fst a) (fst b) && Bool.eqb (snd a) (snd b).
Fixpoint variables (e : expr) : list (string * bool) :=
  match e with
  | ETrue | EFalse | ENum _ => []
  | EName (NVar x) s => [(x, s)]
  | EName (NAttr _ x) _ => [(x, false)]
  | ENot x => variables x
  | EAss _ ts => unique sv_eqb (flat_map variables ts)
  | EBin _ l r => unique sv_eqb (variables l ++ variables r)
  | ERel _ l r => unique sv_eqb (variables l ++ variables r)
  end.
