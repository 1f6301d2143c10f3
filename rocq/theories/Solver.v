(** The interface to the SMT solver: the z3expr methods of rflx/expression.py and
    what z3 makes of the resulting formulas.

    z3 itself is not modelled: a solver is any function from lists of formulas to
    answers, and theorems assume of it what they need.  Names are z3 integer
    constants.  z3 compares their names with upper and lower case kept apart; names
    are in lower case here (see Expr.v). *)
From Coq Require Import String List ZArith Bool.
From Verif Require Import Base Expr ExprEval.
Import ListNotations.
Local Open Scope string_scope.
Local Open Scope list_scope.
Local Open Scope Z_scope.
Local Open Scope res_scope.

(** ProofResult, expression.py:36-39 *)
Inductive answer := SAT | UNSAT | UNKNOWN.

(** z3.BoolRef, z3.ArithRef *)
Inductive zsort := ZBool | ZInt.
Definition zsort_eqb (a b : zsort) : bool :=
  match a, b with ZBool, ZBool | ZInt, ZInt => true | _, _ => false end.

(** the results of a list of calls, or the first exception *)
Fixpoint sequence {A} (l : list (res A)) : res (list A) :=
  match l with
  | [] => Ok []
  | r :: t => let* x := r in let* xs := sequence t in Ok (x :: xs)
  end.

(** the z3 class of the result of z3expr, or the error raised: BooleanTrue 230,
    BooleanFalse 251, Not 296-300, And 563-568, Or 608-613, Number 737, Add 806-810,
    Mul 835-839, Sub 876-881, Div 904-909, Pow 932-937, Mod 960-965, Variable
    1055-1058, Attribute 1100-1106, relations 1551-1684.  Equal and NotEqual accept
    any operands (z3py coerces a Boolean operand to an integer if the other one is
    an integer).  z3.And, z3.Or, z3.Sum and z3.Product without operands do not give
    z3 terms of the right class: an error. *)
Fixpoint sort_of (e : expr) : res zsort :=
  match e with
  | ETrue | EFalse => Ok ZBool
  | ENum _ | EName _ _ => Ok ZInt
  | ENot x => let* t := sort_of x in check zsort_eqb t ZBool msg "Z3TypeError"; Ok ZBool
  | EAss o ts =>
    let want := if boolean_op o then ZBool else ZInt in
    let* ss := sequence (map sort_of ts) in
    check forallb (zsort_eqb want) ss msg "Z3TypeError";
    check negb (Nat.eqb (List.length ts) 0) msg "Z3Exception"; Ok want
  | EBin _ l r =>
    let* a := sort_of l in let* b := sort_of r in
    check zsort_eqb a ZInt && zsort_eqb b ZInt msg "Z3TypeError"; Ok ZInt
  | ERel (OEq | ONe) l r => let* a := sort_of l in let* b := sort_of r in Ok ZBool
  | ERel _ l r =>
    let* a := sort_of l in let* b := sort_of r in
    check zsort_eqb a ZInt && zsort_eqb b ZInt msg "Z3TypeError"; Ok ZBool
  end.

(** solver.add of anything but a Boolean term raises an exception, 49-51 *)
Definition formula (e : expr) : res unit :=
  let* t := sort_of e in check zsort_eqb t ZBool msg "Z3Exception"; Ok tt.

(** A z3 interpretation: values of the constants and of the operations where SMT-LIB
    leaves them open (division and remainder by zero, powers with a negative exponent
    and zero to the power of zero) *)
Record interp := mkInterp {
  z_name : name -> Z;
  z_div0 : Z -> Z;
  z_mod0 : Z -> Z;
  z_pow : Z -> Z -> Z
}.

(** SMT-LIB integer division: the remainder is between 0 and the absolute value of
    the divisor *)
Definition smt_mod (x y : Z) : Z := x mod (Z.abs y).
Definition smt_div (x y : Z) : Z := Z.sgn y * (x / Z.abs y).

Definition truth (v : val) : bool := match v with VBool b => b | VInt z => negb (z =? 0) end.
Definition number (v : val) : Z := match v with VInt z => z | VBool b => if b then 1 else 0 end.

(** the value of the term that z3expr builds *)
Fixpoint zeval (i : interp) (e : expr) : val :=
  match e with
  | ETrue => VBool true
  | EFalse => VBool false
  | ENum v => VInt v
  | EName n s => VInt (if s then - z_name i n else z_name i n)
  | ENot x => VBool (negb (truth (zeval i x)))
  | EAss o ts =>
    let vs := map (zeval i) ts in
    match o with
    | OAnd | OAndThen => VBool (forallb truth vs)
    | OOr | OOrElse => VBool (existsb truth vs)
    | OAdd => VInt (sumZ (map number vs))
    | OMul => VInt (prodZ (map number vs))
    end
  | EBin o l r =>
    let x := number (zeval i l) in
    let y := number (zeval i r) in
    VInt match o with
         | OSub => x - y
         | ODiv => if y =? 0 then z_div0 i x else smt_div x y
         | OMod => if y =? 0 then z_mod0 i x else smt_mod x y
         | OPow => if (y <? 0) || (x =? 0) && (y =? 0) then z_pow i x y else x ^ y
         end
  | ERel o l r =>
    let x := number (zeval i l) in
    let y := number (zeval i r) in
    VBool match o with
          | OLt => x <? y | OLe => x <=? y | OEq => x =? y
          | OGe => y <=? x | OGt => y <? x | ONe => negb (x =? y)
          end
  end.

(** all formulas are true *)
Definition models (i : interp) (fs : list expr) : Prop := forall e, In e fs -> zeval i e = VBool true.

(** what a solver may be assumed to do *)
Definition sound_unsat (solve : list expr -> answer) : Prop :=
  forall fs i, solve fs = UNSAT -> ~ models i fs.
Definition sound_sat (solve : list expr -> answer) : Prop :=
  forall fs, solve fs = SAT -> exists i, models i fs.

(** Proof.__init__, 42-53, and Expr.check, 190-191 *)
Definition check_facts (solve : list expr -> answer) (goal : expr) (facts : list expr) : res answer :=
  let* _ := mapr formula (goal :: facts) in Ok (solve (goal :: facts)).
