(** The terms that are handed to z3: the z3expr methods of rflx/expression.py and Proof.

    Solver.v says what z3 makes of an expression; this file models the translation
    itself.  z3.Int constants are known by their text, with upper and lower case kept
    apart, so that names in expressions are here as they are written. *)
From Coq Require Import String Ascii List ZArith Bool.
From Verif Require Import Base Expr ExprEval Ident Solver.
Import ListNotations.
Local Open Scope string_scope.
Local Open Scope list_scope.
Local Open Scope Z_scope.
Local Open Scope res_scope.

(** z3 terms built by z3py; [TIf t] is the term If (t, 1, 0) by which z3py turns a Boolean
    operand into a number *)
Inductive zterm :=
| TBool (b : bool)
| TInt (z : Z)
| TConst (s : string)
| TNeg (t : zterm)
| TNot (t : zterm)
| TAnd (ts : list zterm)
| TOr (ts : list zterm)
| TSum (ts : list zterm)
| TProduct (ts : list zterm)
| TSub (l r : zterm)
| TDiv (l r : zterm)
| TPow (l r : zterm)
| TMod (l r : zterm)
| TLt (l r : zterm)
| TLe (l r : zterm)
| TGe (l r : zterm)
| TGt (l r : zterm)
| TEq (l r : zterm)
| TDistinct (l r : zterm)
| TIf (t : zterm).

(** the class of a term: isinstance (t, z3.BoolRef) or isinstance (t, z3.ArithRef),
    expression.py:298, 565, 610, 807, 836, 879 *)
Definition class_of (t : zterm) : zsort :=
  match t with
  | TInt _ | TConst _ | TNeg _ | TSum _ | TProduct _ | TSub _ _ | TDiv _ _ | TPow _ _ | TMod _ _ | TIf _ => ZInt
  | _ => ZBool
  end.
Definition is_bool (t : zterm) : bool := zsort_eqb (class_of t) ZBool.
Definition is_arith (t : zterm) : bool := zsort_eqb (class_of t) ZInt.

(** the class names of attributes, expression.py:1109-1130 *)
Definition attr_text (a : attr) : string :=
  match a with ASize => "Size" | ALength => "Length" | AFirst => "First" | ALast => "Last" end.
(** the name of the constant: Variable 1055-1058, Attribute 1103 *)
Definition name_text (n : name) : string :=
  match n with NVar id => id | NAttr a id => (id ++ String "'" (attr_text a))%string end.

(** z3py: a Boolean operand of == or != is turned into a number if the other one is a
    number (z3's _coerce_exprs) *)
Definition coerced (l r : zterm) : zterm * zterm :=
  match class_of l, class_of r with
  | ZBool, ZInt => (TIf l, r)
  | ZInt, ZBool => (l, TIf r)
  | _, _ => (l, r)
  end.

(** z3expr: BooleanTrue 230, BooleanFalse 251, Not 296-300, And 563-568 (also of AndThen),
    Or 608-613 (also of OrElse), Number 737, Add 806-810, Mul 835-839, Sub 876-881, Div
    904-909, Pow 932-937, Mod 960-965, Variable 1055-1058, Attribute 1100-1106, Less 1551,
    LessEqual 1580, Equal 1606, GreaterEqual 1635, Greater 1664, NotEqual 1690.  z3.And,
    z3.Or, z3.Sum and z3.Product without operands give no z3 terms: an error. *)
Fixpoint z3expr (e : expr) : res zterm :=
  match e with
  | ETrue => Ok (TBool true)
  | EFalse => Ok (TBool false)
  | ENum v => Ok (TInt v)
  | EName n s => Ok (if s then TNeg (TConst (name_text n)) else TConst (name_text n))
  | ENot x => let* t := z3expr x in check is_bool t msg "Z3TypeError"; Ok (TNot t)
  | EAss o ts =>
    let* zs := sequence (map z3expr ts) in
    let wanted := filter (if boolean_op o then is_bool else is_arith) zs in
    check Nat.eqb (List.length zs) (List.length wanted) msg "Z3TypeError";
    check negb (Nat.eqb (List.length ts) 0) msg "Z3Exception";
    Ok match o with
       | OAnd | OAndThen => TAnd wanted
       | OOr | OOrElse => TOr wanted
       | OAdd => TSum wanted
       | OMul => TProduct wanted
       end
  | EBin o l r =>
    let* a := z3expr l in let* b := z3expr r in
    check is_arith a && is_arith b msg "Z3TypeError";
    Ok match o with OSub => TSub a b | ODiv => TDiv a b | OPow => TPow a b | OMod => TMod a b end
  | ERel OEq l r => let* a := z3expr l in let* b := z3expr r in
    let (a, b) := coerced a b in Ok (TEq a b)
  | ERel ONe l r => let* a := z3expr l in let* b := z3expr r in
    let (a, b) := coerced a b in Ok (TDistinct a b)
  | ERel o l r =>
    let* a := z3expr l in let* b := z3expr r in
    check is_arith a && is_arith b msg "Z3TypeError";
    Ok match o with OLt => TLt a b | OLe => TLe a b | OGe => TGe a b | _ => TGt a b end
  end.

(** solver.add: only Boolean terms, expression.py:49-51 *)
Definition asserted (e : expr) : res zterm :=
  let* t := z3expr e in check is_bool t msg "Z3Exception"; Ok t.
(** Proof.__init__, expression.py:43-53: the result of the check; the solver is any function *)
Definition proof_result (solver : list zterm -> answer) (goal : expr) (facts : list expr) : res answer :=
  let* ts := mapr asserted (goal :: facts) in Ok (solver ts).
(** Proof.error, expression.py:60-75: the tracked facts are checked again; the unsatisfiable
    core is a part of what was asserted, named H0, H1, … and goal.  [core] is what z3 reports:
    positions in the list of facts, the last one being the goal *)
Definition proof_error (solver : list zterm -> answer) (core : list zterm -> list nat) (goal : expr) (facts : list expr) : res (list expr) :=
  let* a := proof_result solver goal facts in
  check match a with UNSAT => true | _ => false end msg "AssertionError";
  let* ts := mapr asserted (facts ++ [goal]) in
  check match solver ts with UNSAT => true | _ => false end msg "AssertionError";
  mapr (fun k => match nth_error (facts ++ [goal]) k with Some e => Ok e | None => Err "KeyError" end) (core ts).

(** ** What the terms mean (specification, SMT-LIB theory of integers) *)

(** values of the constants, and of the operations where SMT-LIB leaves them open *)
Record zinterp := mkZinterp {
  c_const : string -> Z;
  c_div0 : Z -> Z;
  c_mod0 : Z -> Z;
  c_pow : Z -> Z -> Z
}.
Definition open_pow (x y : Z) : bool := (y <? 0) || (x =? 0) && (y =? 0).
Fixpoint holds_int (i : zinterp) (t : zterm) : Z :=
  match t with
  | TInt z => z
  | TConst s => c_const i s
  | TNeg t => - holds_int i t
  | TSum ts => fold_right Z.add 0 (map (holds_int i) ts)
  | TProduct ts => fold_right Z.mul 1 (map (holds_int i) ts)
  | TSub l r => holds_int i l - holds_int i r
  | TDiv l r => let y := holds_int i r in if y =? 0 then c_div0 i (holds_int i l) else smt_div (holds_int i l) y
  | TMod l r => let y := holds_int i r in if y =? 0 then c_mod0 i (holds_int i l) else smt_mod (holds_int i l) y
  | TPow l r => let x := holds_int i l in let y := holds_int i r in if open_pow x y then c_pow i x y else x ^ y
  | TIf t => if holds i t then 1 else 0
  | _ => 0
  end
with holds (i : zinterp) (t : zterm) : bool :=
  match t with
  | TBool b => b
  | TNot t => negb (holds i t)
  | TAnd ts => forallb (holds i) ts
  | TOr ts => existsb (holds i) ts
  | TLt l r => holds_int i l <? holds_int i r
  | TLe l r => holds_int i l <=? holds_int i r
  | TGe l r => holds_int i r <=? holds_int i l
  | TGt l r => holds_int i r <? holds_int i l
  | TEq l r => if is_bool l then Bool.eqb (holds i l) (holds i r) else holds_int i l =? holds_int i r
  | TDistinct l r => negb (if is_bool l then Bool.eqb (holds i l) (holds i r) else holds_int i l =? holds_int i r)
  | _ => false
  end.

(** terms that z3 accepts *)
Inductive sorted : zterm -> zsort -> Prop :=
| s_bool b : sorted (TBool b) ZBool
| s_int z : sorted (TInt z) ZInt
| s_const s : sorted (TConst s) ZInt
| s_neg t : sorted t ZInt -> sorted (TNeg t) ZInt
| s_not t : sorted t ZBool -> sorted (TNot t) ZBool
| s_and ts : ts <> [] -> Forall (fun t => sorted t ZBool) ts -> sorted (TAnd ts) ZBool
| s_or ts : ts <> [] -> Forall (fun t => sorted t ZBool) ts -> sorted (TOr ts) ZBool
| s_sum ts : ts <> [] -> Forall (fun t => sorted t ZInt) ts -> sorted (TSum ts) ZInt
| s_product ts : ts <> [] -> Forall (fun t => sorted t ZInt) ts -> sorted (TProduct ts) ZInt
| s_sub l r : sorted l ZInt -> sorted r ZInt -> sorted (TSub l r) ZInt
| s_div l r : sorted l ZInt -> sorted r ZInt -> sorted (TDiv l r) ZInt
| s_pow l r : sorted l ZInt -> sorted r ZInt -> sorted (TPow l r) ZInt
| s_mod l r : sorted l ZInt -> sorted r ZInt -> sorted (TMod l r) ZInt
| s_lt l r : sorted l ZInt -> sorted r ZInt -> sorted (TLt l r) ZBool
| s_le l r : sorted l ZInt -> sorted r ZInt -> sorted (TLe l r) ZBool
| s_ge l r : sorted l ZInt -> sorted r ZInt -> sorted (TGe l r) ZBool
| s_gt l r : sorted l ZInt -> sorted r ZInt -> sorted (TGt l r) ZBool
| s_eq l r k : sorted l k -> sorted r k -> sorted (TEq l r) ZBool
| s_distinct l r k : sorted l k -> sorted r k -> sorted (TDistinct l r) ZBool
| s_if t : sorted t ZBool -> sorted (TIf t) ZInt.

(** ** What an expression with names as they are written means *)

(** identifiers are compared without case (identifier.py, C35) *)
Definition low_name (n : name) : name :=
  match n with NVar x => NVar (lower x) | NAttr a x => NAttr a (lower x) end.
Fixpoint low (e : expr) : expr :=
  match e with
  | ETrue => ETrue | EFalse => EFalse | ENum v => ENum v
  | EName n s => EName (low_name n) s
  | ENot x => ENot (low x)
  | EAss o ts => EAss o (map low ts)
  | EBin o l r => EBin o (low l) (low r)
  | ERel o l r => ERel o (low l) (low r)
  end.
