(** Model of conditional expressions of Ada, rflx/ada.py:571-629, and of return statements
    with them, 1333-1340.

    Simplifications: conditions, control expressions and choices are expressions of ExprPrint.v; the results
    may be conditional expressions again.  TRUE and the variable of the same text are told apart, and the
    sequences of pairs are lists. *)
From Coq Require Import String Ascii List ZArith Bool.
From Verif Require Import Base Ident Expr ExprPrint AdaStmt.
Import ListNotations.
Local Open Scope string_scope.
Local Open Scope list_scope.
Local Open Scope res_scope.

(** an expression without conditional expressions; IfExpr, ada.py:578-599; CaseExpr, 609-629;
    else_expression may be None, 580 *)
Inductive cexpr :=
| CE (e : expr)
| CIf (arms : list (expr * cexpr)) (els : option cexpr)
| CCase (e : expr) (arms : list (expr * cexpr)).

(** If, ada.py:571-575 *)
Definition mk_if (arms : list (expr * cexpr)) (els : option cexpr) : cexpr :=
  match arms with
  | [(c, e)] => if ada_eqb c ETrue then e else CIf arms els
  | _ => CIf arms els
  end.
(** Case, ada.py:602-606 *)
Definition mk_case (e : expr) (arms : list (expr * cexpr)) : cexpr :=
  match arms with
  | [(c, x)] => if ada_eqb c (EName (NVar "others") false) then x else CCase e arms
  | _ => CCase e arms
  end.

(** "==": Base.__eq__, common.py:6-18 *)
Fixpoint cexpr_eqb (a b : cexpr) : bool :=
  match a, b with
  | CE e, CE f => ada_eqb e f
  | CIf l x, CIf m y =>
    list_eqb (fun p q => ada_eqb (fst p) (fst q) && cexpr_eqb (snd p) (snd q)) l m &&
    match x, y with
    | Some x, Some y => cexpr_eqb x y
    | None, None => true
    | _, _ => false
    end
  | CCase e l, CCase f m =>
    ada_eqb e f && list_eqb (fun p q => ada_eqb (fst p) (fst q) && cexpr_eqb (snd p) (snd q)) l m
  | _, _ => false
  end.

(** the conditions and expressions, ada.py:588-592; [first]: _str is empty *)
Fixpoint carms_text (first : bool) (l : list (string * string)) : string :=
  match l with
  | [] => ""
  | (c, e) :: r =>
    ((if first then "(if" else nl ++ " elsif") ++ nl ++ indent c 4 ++ nl ++ " then" ++ nl ++ indent e 4
     ++ carms_text false r)%string
  end.
(** the grouped cases, ada.py:622-623 *)
Definition ccases_text (l : list (list string * string)) : string :=
  String.concat "," (map (fun p => nl ++ "when " ++ String.concat " | " (fst p) ++ " =>" ++ nl ++ indent (snd p) 3)%string l).

Section Text.
  (** _str is compared as well (ada.py:58-63, common.py:9-16): expressions are only equal if the texts of the
      same parts have been made, which depends on what happened before *)
  Context (alike : cexpr -> cexpr -> bool).
  (** the equality that groupby uses, ada.py:618 *)
  Definition same_cexpr (a b : cexpr) : bool := cexpr_eqb a b && alike a b.

  (** IfExpr._update_str, ada.py:586-596; CaseExpr._update_str, 615-627 *)
  Fixpoint cexpr_str (c : cexpr) : res string :=
    match c with
    | CE e => ada_str e
    | CIf arms els =>
      let* l := texts (fun p => let* c := ada_str (fst p) in let* e := cexpr_str (snd p) in Ok (c, e)) arms in
      let* x := match els with
                | None => Ok ""
                | Some e => let* t := cexpr_str e in Ok (nl ++ " else" ++ nl ++ indent t 4)%string
                end in
      Ok (carms_text true l ++ x ++ ")")%string
    | CCase e arms =>
      let* l := texts (fun p => let* c := ada_str (fst p) in let* t := cexpr_str (snd p) in Ok (c, (snd p, t))) arms in
      let groups := group (fun x y => same_cexpr (fst x) (fst y)) l in
      let* t := ada_str e in
      Ok ("(case " ++ t ++ " is" ++ indent (ccases_text (map (fun p => (fst p, snd (snd p))) groups)) 4 ++ ")")%string
    end.
  (** ReturnStatement.__str__, ada.py:1337-1340 *)
  Definition return_str (c : cexpr) : res string :=
    let* t := cexpr_str c in
    Ok match c with
       | CCase _ _ => "return (" ++ indent_next t 8 ++ ");"
       | _ => "return " ++ indent_next t 7 ++ ";"
       end%string.
End Text.
