(** Specification: the meaning of expressions (independent of the model of the
    simplifier).  Arithmetic is that of Ada: "/" truncates towards zero, "mod"
    takes the sign of the divisor, division by zero and negative exponents are
    errors ([None]).  "and"/"or" evaluate all operands, "and then"/"or else" stop
    early in [eval_sc]. *)
From Coq Require Import String List ZArith Bool.
From Verif Require Import Base Expr.
Import ListNotations.
Local Open Scope Z_scope.

Inductive val := VInt (z : Z) | VBool (b : bool).
Definition env := name -> val.

Fixpoint ints (l : list (option val)) : option (list Z) :=
  match l with
  | [] => Some []
  | Some (VInt z) :: t => match ints t with Some zs => Some (z :: zs) | None => None end
  | _ => None
  end.
Fixpoint bools (l : list (option val)) : option (list bool) :=
  match l with
  | [] => Some []
  | Some (VBool b) :: t => match bools t with Some bs => Some (b :: bs) | None => None end
  | _ => None
  end.

Definition sumZ (l : list Z) : Z := fold_right Z.add 0 l.
Definition prodZ (l : list Z) : Z := fold_right Z.mul 1 l.
Definition allb (l : list bool) : bool := forallb (fun b => b) l.
Definition anyb (l : list bool) : bool := existsb (fun b => b) l.

Definition ass_val (o : assop) (vs : list (option val)) : option val :=
  match o with
  | OAnd | OAndThen => match bools vs with Some bs => Some (VBool (allb bs)) | None => None end
  | OOr | OOrElse => match bools vs with Some bs => Some (VBool (anyb bs)) | None => None end
  | OAdd => match ints vs with Some zs => Some (VInt (sumZ zs)) | None => None end
  | OMul => match ints vs with Some zs => Some (VInt (prodZ zs)) | None => None end
  end.

Definition bin_val (o : binop) (l r : option val) : option val :=
  match l, r with
  | Some (VInt x), Some (VInt y) =>
    match o with
    | OSub => Some (VInt (x - y))
    | ODiv => if y =? 0 then None else Some (VInt (Z.quot x y))
    | OPow => if y <? 0 then None else Some (VInt (x ^ y))
    | OMod => if y =? 0 then None else Some (VInt (x mod y))
    end
  | _, _ => None
  end.

Definition rel_val (o : relop) (l r : option val) : option val :=
  match l, r with
  | Some (VInt x), Some (VInt y) =>
    Some (VBool match o with
          | OLt => x <? y | OLe => x <=? y | OEq => x =? y
          | OGe => y <=? x | OGt => y <? x | ONe => negb (x =? y)
          end)
  | Some (VBool x), Some (VBool y) =>
    match o with
    | OEq => Some (VBool (Bool.eqb x y))
    | ONe => Some (VBool (negb (Bool.eqb x y)))
    | _ => None
    end
  | _, _ => None
  end.

Definition name_val (v : val) (neg : bool) : option val :=
  if neg then match v with VInt z => Some (VInt (- z)) | VBool _ => None end else Some v.

Definition not_val (v : option val) : option val :=
  match v with Some (VBool b) => Some (VBool (negb b)) | _ => None end.

(** all operands evaluated *)
Fixpoint eval (g : env) (e : expr) : option val :=
  match e with
  | ETrue => Some (VBool true)
  | EFalse => Some (VBool false)
  | ENum v => Some (VInt v)
  | EName n s => name_val (g n) s
  | ENot x => not_val (eval g x)
  | EAss o ts => ass_val o (map (eval g) ts)
  | EBin o l r => bin_val o (eval g l) (eval g r)
  | ERel o l r => rel_val o (eval g l) (eval g r)
  end.

(** "and then" / "or else" *)
Fixpoint sc_val (stop : bool) (vs : list (option val)) : option val :=
  match vs with
  | [] => Some (VBool (negb stop))
  | Some (VBool b) :: t => if Bool.eqb b stop then Some (VBool stop) else sc_val stop t
  | _ => None
  end.

Fixpoint eval_sc (g : env) (e : expr) : option val :=
  match e with
  | ETrue => Some (VBool true)
  | EFalse => Some (VBool false)
  | ENum v => Some (VInt v)
  | EName n s => name_val (g n) s
  | ENot x => not_val (eval_sc g x)
  | EAss OAndThen ts => sc_val false (map (eval_sc g) ts)
  | EAss OOrElse ts => sc_val true (map (eval_sc g) ts)
  | EAss o ts => ass_val o (map (eval_sc g) ts)
  | EBin o l r => bin_val o (eval_sc g l) (eval_sc g r)
  | ERel o l r => rel_val o (eval_sc g l) (eval_sc g r)
  end.
