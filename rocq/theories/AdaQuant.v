(** Model of quantified expressions of Ada and ranges, rflx/ada.py:636-709.

    Simplifications: an iterable is a range or an expression of ExprPrint.v, a predicate is a quantified
    expression or an expression of AdaCond.v. *)
From Coq Require Import String Ascii List ZArith Bool.
From Verif Require Import Base Ident Expr ExprPrint AdaStmt AdaCond.
Import ListNotations.
Local Open Scope string_scope.
Local Open Scope list_scope.
Local Open Scope res_scope.

(** the subclasses of QuantifiedExpr, ada.py:665-692 *)
Inductive qclass := ForAllOf | ForAllIn | ForSomeIn.
(** ValueRange, ada.py:695-702, or another expression *)
Inductive iterable := IRange (lower upper : expr) | IExpr (e : expr).
(** QuantifiedExpr, ada.py:636-641 *)
Inductive qexpr :=
| QC (c : cexpr)
| QFor (k : qclass) (id : string) (it : iterable) (p : qexpr).

(** quantifier, ada.py:667-668, 677-678, 687-688 *)
Definition quantifier (k : qclass) : string := match k with ForAllOf => "all" | ForAllIn => "all" | ForSomeIn => "some" end.
(** keyword, ada.py:671-672, 681-682, 691-692 *)
Definition keyword (k : qclass) : string := match k with ForAllOf => "of" | ForAllIn => "in" | ForSomeIn => "in" end.

(** ValueRange._update_str, ada.py:701-702 *)
Definition iterable_str (i : iterable) : res string :=
  match i with
  | IRange l u => let* a := ada_str l in let* b := ada_str u in Ok (a ++ " .. " ++ b)%string
  | IExpr e => ada_str e
  end.
(** QuantifiedExpr._update_str, ada.py:643-647; [alike] as in AdaCond.v *)
Fixpoint qexpr_str (alike : cexpr -> cexpr -> bool) (q : qexpr) : res string :=
  match q with
  | QC c => cexpr_str alike c
  | QFor k id it p =>
    let* i := iterable_str it in
    let* t := qexpr_str alike p in
    Ok ("(for " ++ quantifier k ++ " " ++ id ++ " " ++ keyword k ++ " " ++ i ++ " =>" ++ nl ++ indent t 4 ++ ")")%string
  end.
