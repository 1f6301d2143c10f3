(** Model of simplification, substitution and the variables of the expressions of sessions,
    rflx/expression.py:194-2293, including selections, calls, aggregates, quantified
    expressions, conversions, comprehensions, message aggregates and bindings.  In a
    session these functions run whenever the declarations used by an expression are
    determined: variables () of a binding is variables () of the simplified binding
    (2280-2281), see rflx/model/session.py:327, 397, 405.

    Simplifications: identifiers are in lower case (ID equality ignores case); source
    locations and types are dropped; the immutable flag is not modelled.  String is an
    aggregate of numbers, ForAllOf is ForAllIn.  Val and Indexed are used by the code
    generator only, ValueRange only in type definitions.  Simplification is parametric in
    the equality test "==", which compares class and printed text (89-92). *)
From Coq Require Import String List ZArith Bool.
From Verif Require Import Base Expr SessionType.
Import ListNotations.
Local Open Scope string_scope.
Local Open Scope list_scope.
Local Open Scope Z_scope.
Local Open Scope res_scope.

(** expression.py:194-2293; as [sx], but names carry the flag [negative] (968-979) *)
Inductive bx :=
| BBool (b : bool)
| BNum (v : Z)
| BVar (x : string) (neg : bool)
| BNot (e : bx)
| BAss (o : assop) (ts : list bx)
| BBin (o : binop) (l r : bx)
| BRel (o : relop) (l r : bx)
| BIn (positive : bool) (l r : bx)
| BAttr (a : sattr) (e : bx) (neg : bool)
| BSel (e : bx) (selector : string) (neg : bool)
| BCall (f : string) (args : list bx) (neg : bool)
| BAgg (es : list bx)
| BQuant (all : bool) (x : string) (iterable predicate : bx)
| BConv (t : string) (e : bx)
| BCompr (x : string) (array selector condition : bx)
| BMsg (t : string) (fields : list (string * bx))
| BBind (e : bx) (data : list (string * bx)).

(** the message of NotImplementedError *)
Definition not_implemented : string := "NotImplementedError".

(** the values of a dictionary are mapped, its keys and their order are kept, e.g. 2176,
    2189, 2253, 2265 *)
Definition map_values (f : bx -> res bx) : list (string * bx) -> res (list (string * bx)) :=
  fix go (l : list (string * bx)) : res (list (string * bx)) :=
  match l with
  | [] => Ok []
  | (k, v) :: r => let* v' := f v in let* r' := go r in Ok ((k, v') :: r')
  end.
(** list comprehensions over expressions, left to right *)
Definition map_res (f : bx -> res bx) : list bx -> res (list bx) :=
  fix go (l : list bx) : res (list bx) :=
  match l with
  | [] => Ok []
  | x :: r => let* y := f x in let* ys := go r in Ok (y :: ys)
  end.

(** ** unary minus *)
Section Neg.
  Variable simp : bx -> res bx.

  (** BooleanTrue 223, BooleanFalse 244, Not 269, BinExpr 323, And 536, Or 581, Number
      656, Add 767, Mul 814, Variable 1032, Attribute 1075, Selected 1270, Call 1339,
      Aggregate 1443, relations 1531-1674, In 1699, NotIn 1720, quantified expressions
      1826-1853, Conversion 1957, Comprehension 2040, MessageAggregate 2170, Binding 2249 *)
  Fixpoint neg (e : bx) : res bx :=
    match e with
    | BBool b => Ok (BBool (negb b))
    | BNum v => Ok (BNum (- v))
    | BVar x s => Ok (BVar x (negb s))
    | BNot x => Ok x
    | BAss OAdd ts => let* ts' := map_res neg ts in Ok (BAss OAdd ts')
    | BAss OMul ts => simp (BAss OMul (ts ++ [BNum (-1)]))
    | BAss _ _ => Err not_implemented
    | BBin o l r => let* l' := neg l in Ok (BBin o l' r)
    | BRel o l r => Ok (BRel (inverse o) l r)
    | BIn positive l r => Ok (BIn (negb positive) l r)
    | BAttr a p s => Ok (BAttr a p (negb s))
    | BSel p f s => Ok (BSel p f (negb s))
    | BCall f args s => Ok (BCall f args (negb s))
    | BAgg _ | BQuant _ _ _ _ | BConv _ _ | BCompr _ _ _ _ | BMsg _ _ | BBind _ _ => Err not_implemented
    end.
End Neg.

(** ** substitution *)
Section Subst.
  Variable ng : bx -> res bx.
  (** the mapping {Variable (k): ...} of Binding.simplified; no other expression than a
      variable without sign is equal to one of its keys (1024-1030) *)
  Variable mapping : list (string * bx).

  (** substituted (mapping=...): Expr 166-171 (also for Not, literals and numbers), BinExpr
      344-355, AssExpr 438-447, Name 993-999, Attribute 1081-1088, Selected 1302-1313 (the
      sign is lost), Call 1390-1404, Aggregate 1450-1459, quantified expressions 1806-1817,
      Conversion 1964-1977, Comprehension 2052-2065, MessageAggregate 2181-2193, Binding
      2256-2267, substitution () 2284-2293 *)
  Fixpoint substituted (e : bx) : res bx :=
    match e with
    | BBool _ | BNum _ | BNot _ => Ok e
    | BVar x s =>
      match assoc x mapping with
      | Some d => if s then ng d else Ok d
      | None => Ok e
      end
    | BAss o ts => let* ts' := map_res substituted ts in Ok (BAss o ts')
    | BBin o l r => let* l' := substituted l in let* r' := substituted r in Ok (BBin o l' r')
    | BRel o l r => let* l' := substituted l in let* r' := substituted r in Ok (BRel o l' r')
    | BIn s l r => let* l' := substituted l in let* r' := substituted r in Ok (BIn s l' r')
    | BAttr a p s => let* p' := substituted p in Ok (BAttr a p' s)
    | BSel p f _ => let* p' := substituted p in Ok (BSel p' f false)
    | BCall f args s => let* args' := map_res substituted args in Ok (BCall f args' s)
    | BAgg es => let* es' := map_res substituted es in Ok (BAgg es')
    | BQuant a x i p => let* i' := substituted i in let* p' := substituted p in Ok (BQuant a x i' p')
    | BConv t p => let* p' := substituted p in Ok (BConv t p')
    | BCompr x a s c =>
      let* a' := substituted a in let* s' := substituted s in let* c' := substituted c in Ok (BCompr x a' s' c')
    | BMsg t fs => let* fs' := map_values substituted fs in Ok (BMsg t fs')
    | BBind x data =>
      let* x' := substituted x in let* data' := map_values substituted data in Ok (BBind x' data')
    end.
End Subst.

(** ** simplification *)
Section Simplify.
  (** the equality test used by "==" and "in" *)
  Variable eqb : bx -> bx -> bool.

  Section WithSimp.
    Variable simp : bx -> res bx.

    (** the loop of AssExpr.simplified, expression.py:450-464; [work] is the rest of
        all_terms, [acc] the list "terms" in reverse *)
    Fixpoint collect (o : assop) (m : nat) (work : list bx) (total : Z) (acc : list bx) : res (Z * list bx) :=
      match work with
      | [] => Ok (total, rev acc)
      | term :: rest =>
        match m with
        | O => Err out_of_fuel
        | S m' =>
          let* t := simp term in
          match t with
          | BNum v => collect o m' rest (operation o total v) acc
          | BBool b => collect o m' rest (operation o total (if b then 1 else 0)) acc
          | BAss p us =>
            if flattens o p then collect o m' (rest ++ us) total acc
            else collect o m' rest total (t :: acc)
          | _ => collect o m' rest total (t :: acc)
          end
        end
      end.

    (** the number or truth value which is left, 467-473 *)
    Definition literal (o : assop) (total : Z) : bx :=
      if boolean_op o then BBool (negb (total =? 0)) else BNum total.
    (** the rest of AssExpr.simplified, expression.py:465-477 *)
    Definition finish (o : assop) (total : Z) (terms : list bx) : bx :=
      match terms with
      | [] => literal o total
      | _ =>
        match (if total =? neutral o then terms else terms ++ [literal o total]) with
        | [t] => t
        | terms' => BAss o terms'
        end
      end.

    (** And.simplified 543-547, Or.simplified 588-592 *)
    Definition absorb (o : assop) (e : bx) : bx :=
      match o, e with
      | (OAnd | OAndThen), BAss (OAnd | OAndThen) ts => if existsb (eqb (BBool false)) ts then BBool false else e
      | (OOr | OOrElse), BAss (OOr | OOrElse) ts => if existsb (eqb (BBool true)) ts then BBool true else e
      | _, _ => e
      end.

    (** list.remove of the first element equal to [x] *)
    Fixpoint remove_first (x : bx) (l : list bx) : option (list bx) :=
      match l with
      | [] => None
      | y :: t => if eqb y x then Some t
                  else match remove_first x t with Some t' => Some (y :: t') | None => None end
      end.

    (** the search for complements of Add.simplified, expression.py:781-790; [l] is the
        reversed list of terms, [acc] the list being built; -term is computed only if
        there is another term to compare with *)
    Fixpoint cancel (l : list bx) (acc : list bx) : res (list bx) :=
      match l with
      | [] => Ok acc
      | term :: rest =>
        match acc with
        | [] => cancel rest [term]
        | _ =>
          let* nt := neg simp term in
          match remove_first nt acc with
          | Some acc' => cancel rest acc'
          | None => cancel rest (term :: acc)
          end
        end
      end.

    (** Add.simplified after super().simplified(), expression.py:777-793 *)
    Definition add_tail (e : bx) : res bx :=
      match e with
      | BAss OAdd ts =>
        let* ts' := cancel (rev ts) [] in
        match ts' with
        | [t] => Ok t
        | _ => Ok (BAss OAdd ts')
        end
      | _ => Ok e
      end.

    (** arithmetic on numbers, 664-689; see Expr.bin_num *)
    Definition bin_num (o : binop) (l r : Z) : res bx :=
      match o with
      | OSub => Ok (BNum (l - r))
      | ODiv => if r =? 0 then Err "ZeroDivisionError"
                else if l mod r =? 0 then Ok (BNum (l / r)) else Ok (BBin ODiv (BNum l) (BNum r))
      | OPow => if r <? 0 then Err "negative exponent" else Ok (BNum (l ^ r))
      | OMod => if r =? 0 then Err "ZeroDivisionError" else Ok (BNum (l mod r))
      end.

    (** Relation._simplified, expression.py:1516-1523 *)
    Definition rel_simp (o : relop) (l r : bx) : bx :=
      if (match o with OEq | OLe | OGe => true | _ => false end) && eqb l r then BBool true
      else match l, r with
           | BNum x, BNum y => BBool (rel_num o x y)
           | _, _ => BRel o l r
           end.
  End WithSimp.

  (** simplified (): BooleanLiteral 212, Not 279-290, BinExpr 357-358 (In, NotIn), AssExpr
      449-477, And 543, Or 588, Number 730, Add 777-793, Sub 861-866, Div 889-894, Pow
      917-922, Mod 945-950, Name 1001 (Variable, Selected, Call), Attribute 1090-1092,
      Aggregate 1461-1462, relations 1544-1684, quantified expressions 1819-1822, Conversion
      1979-1986, Comprehension 2043-2050, MessageAggregate 2173-2179, Binding 2252-2254.
      The recursion is not structural (flattened terms and substituted bindings are
      simplified again), hence the fuel. *)
  Fixpoint simplified (n : nat) (e : bx) : res bx :=
    match n with
    | O => Err out_of_fuel
    | S n' =>
      let simp := simplified n' in
      match e with
      | BBool _ | BNum _ | BVar _ _ | BSel _ _ _ | BCall _ _ _ => Ok e
      | BNot (BRel o l r) => let* l' := simp l in let* r' := simp r in Ok (BRel (inverse o) l' r')
      | BNot x => let* x' := simp x in Ok (BNot x')
      | BAss o ts =>
        let* c := collect simp o n' ts (neutral o) [] in
        let '(total, terms) := c in
        let e1 := finish o total terms in
        match o with
        | OAdd => add_tail simp e1
        | OMul => Ok e1
        | _ => Ok (absorb o e1)
        end
      | BBin o l r =>
        let* l' := simp l in
        let* r' := simp r in
        match l', r' with
        | BNum x, BNum y => bin_num o x y
        | _, _ =>
          match o with
          | OSub => let* nr := neg simp r' in Ok (BAss OAdd [l'; nr])
          | _ => Ok (BBin o l' r')
          end
        end
      | BRel o l r => let* l' := simp l in let* r' := simp r in Ok (rel_simp o l' r')
      | BIn s l r => let* l' := simp l in let* r' := simp r in Ok (BIn s l' r')
      | BAttr a p s => let* p' := simp p in Ok (BAttr a p' s)
      | BAgg es => let* es' := map_res simp es in Ok (BAgg es')
      | BQuant a x i p => let* i' := simp i in let* p' := simp p in Ok (BQuant a x i' p')
      | BConv t p => let* p' := simp p in Ok (BConv t p')
      | BCompr x a s c =>
        let* a' := simp a in let* s' := simp s in let* c' := simp c in Ok (BCompr x a' s' c')
      | BMsg t fs => let* fs' := map_values simp fs in Ok (BMsg t fs')
      | BBind x data =>
        let* facts := map_values simp data in
        let* x' := substituted (neg simp) facts x in
        simp x'
      end
    end.

  (** ** variables *)
  (** lists of lists, left to right *)
  Definition gather {A} (f : A -> res (list (string * bool))) : list A -> res (list (string * bool)) :=
    fix go (l : list A) : res (list (string * bool)) :=
    match l with
    | [] => Ok []
    | x :: r => let* vs := f x in let* ws := go r in Ok (vs ++ ws)
    end.
  (** the identifier is not the one that is bound, 1793 and 2082 *)
  Definition without (x : string) (l : list (string * bool)) : list (string * bool) :=
    filter (fun v => negb (String.eqb (fst v) x)) l.

  (** variables (): Expr 160-161 (literals, numbers and aggregates), Not 272-273, BinExpr
      334-335, AssExpr 429-430, Variable 1048-1049, Attribute 1094-1095, Selected 1299-1300,
      Call 1384-1388, quantified expressions 1788-1795, Conversion 1995-1996, Comprehension
      2078-2083, MessageAggregate 2206-2210, Binding 2280-2281; a variable is given by its
      identifier and sign *)
  Fixpoint variables (n : nat) (e : bx) : res (list (string * bool)) :=
    match n with
    | O => Err out_of_fuel
    | S n' =>
      let vars := variables n' in
      match e with
      | BBool _ | BNum _ | BAgg _ => Ok []
      | BVar x s => Ok [(x, s)]
      | BNot p | BAttr _ p _ | BSel p _ _ | BConv _ p => vars p
      | BAss _ ts => let* vs := gather vars ts in Ok (unique sv_eqb vs)
      | BBin _ l r | BRel _ l r | BIn _ l r =>
        let* vs := vars l in let* ws := vars r in Ok (unique sv_eqb (vs ++ ws))
      | BCall f args _ => let* vs := gather vars args in Ok ((f, false) :: vs)
      | BQuant _ x i p =>
        let* vs := vars i in let* ws := vars p in Ok (unique sv_eqb (without x (vs ++ ws)))
      | BCompr x a s c =>
        let* vs := vars a in let* ws := vars s in let* us := vars c in Ok (without x (vs ++ ws ++ us))
      | BMsg _ fs => gather (fun p => vars (snd p)) fs
      | BBind _ _ => let* e' := simplified n' e in vars e'
      end
    end.
End Simplify.

(** ** meaning *)
(** the meaning of an expression is that of SessionEval.v; a negative name is the name
    subtracted from zero *)
Definition signed (neg : bool) (e : sx) : sx := if neg then SBin OSub (SNum 0) e else e.
Fixpoint to_sx (e : bx) : sx :=
  match e with
  | BBool b => SBool b
  | BNum v => SNum v
  | BVar x s => signed s (SVar x)
  | BNot x => SNot (to_sx x)
  | BAss o ts => SAss o (map to_sx ts)
  | BBin o l r => SBin o (to_sx l) (to_sx r)
  | BRel o l r => SRel o (to_sx l) (to_sx r)
  | BIn s l r => SIn s (to_sx l) (to_sx r)
  | BAttr a p s => signed s (SAttr a (to_sx p))
  | BSel p f s => signed s (SSel (to_sx p) f)
  | BCall f args s => signed s (SCall f (map to_sx args))
  | BAgg es => SAgg (map to_sx es)
  | BQuant a x i p => SQuant a x (to_sx i) (to_sx p)
  | BConv t p => SConv t (to_sx p)
  | BCompr x a s c => SCompr x (to_sx a) (to_sx s) (to_sx c)
  | BMsg t fs => SMsg t (map (fun p => match p with (k, v) => (k, to_sx v) end) fs)
  | BBind x data => SBind (to_sx x) (map (fun p => match p with (k, v) => (k, to_sx v) end) data)
  end.
