(** Model of the text of Ada statements, rflx/ada.py:1287-1395.

    Simplifications: the expressions are those of ExprPrint.v, so the result of a return statement is
    no CaseExpr (ada.py:1338-1339) and the target of an assignment is a variable; TRUE and the variable
    of the same text are told apart. *)
From Coq Require Import String Ascii List ZArith Bool.
From Verif Require Import Base Ident Expr ExprPrint.
Import ListNotations.
Local Open Scope string_scope.
Local Open Scope list_scope.
Local Open Scope res_scope.

(** Statement and its subclasses, ada.py:1287-1395; else_statements may be None, 1347 *)
Inductive stmt :=
| SNull
| SAssign (id : string) (e : expr)
| SCall (id : string) (args : list expr)
| SPragma (id : string) (args : list expr)
| SReturn (e : expr)
| SIf (arms : list (expr * list stmt)) (els : option (list stmt))
| SCase (e : expr) (arms : list (expr * list stmt)).

(** ** Equality *)

(** "==" of lists, for a given equality of the elements *)
Definition list_eqb {A} (eqb : A -> A -> bool) : list A -> list A -> bool :=
  fix go xs ys :=
    match xs, ys with
    | [], [] => true
    | x :: xs', y :: ys' => eqb x y && go xs' ys'
    | _, _ => false
    end.
(** "==" of ada.Expr: Base.__eq__, common.py:6-18, compares the attributes of objects of which one has
    the class of the other or a subclass: AndThen is a subclass of And and OrElse one of Or
    (ada.py:171, 187).  Names have the attribute _str (ada.py:294-300), so their texts are compared. *)
Fixpoint ada_eqb (a b : expr) : bool :=
  match a, b with
  | ETrue, ETrue | EFalse, EFalse => true
  | ENum x, ENum y => Z.eqb x y
  | EName n s, EName m t => name_eqb n m && Bool.eqb s t
  | ENot x, ENot y => ada_eqb x y
  | EAss o xs, EAss p ys =>
    (flattens o p || flattens p o) && list_eqb ada_eqb xs ys
  | EBin o x1 x2, EBin p y1 y2 => binop_eqb o p && ada_eqb x1 y1 && ada_eqb x2 y2
  | ERel o x1 x2, ERel p y1 y2 => relop_eqb o p && ada_eqb x1 y1 && ada_eqb x2 y2
  | _, _ => false
  end.
(** "==" of ada.Statement: Base.__eq__, common.py:6-18; the identifiers of calls and pragmas are IDs,
    which are compared without regard to case, identifier.py:34-39 *)
Fixpoint stmt_eqb (a b : stmt) : bool :=
  match a, b with
  | SNull, SNull => true
  | SAssign x e, SAssign y f => String.eqb x y && ada_eqb e f
  | SCall x l, SCall y m | SPragma x l, SPragma y m => String.eqb (lower x) (lower y) && list_eqb ada_eqb l m
  | SReturn e, SReturn f => ada_eqb e f
  | SIf l x, SIf m y =>
    list_eqb (fun p q => ada_eqb (fst p) (fst q) && list_eqb stmt_eqb (snd p) (snd q)) l m &&
    match x, y with
    | Some x, Some y => list_eqb stmt_eqb x y
    | None, None => true
    | _, _ => false
    end
  | SCase e l, SCase f m =>
    ada_eqb e f && list_eqb (fun p q => ada_eqb (fst p) (fst q) && list_eqb stmt_eqb (snd p) (snd q)) l m
  | _, _ => false
  end.

(** ** Text *)

(** indent, common.py:59-60: spaces before each line that is not empty; [start]: at the start of a line *)
Fixpoint indent_from (start : bool) (s : string) (n : nat) : string :=
  match s with
  | "" => ""
  | String c r =>
    if Ascii.eqb c newline then String c (indent_from true r n)
    else if start then (spaces n ++ String c (indent_from false r n))%string else String c (indent_from false r n)
  end.
Definition indent (s : string) (n : nat) : string := indent_from true s n.
(** "\n" *)
Definition nl : string := String newline "".
(** str (condition).count ("\n") == 0, ada.py:1357 *)
Fixpoint one_line (s : string) : bool :=
  match s with "" => true | String c r => negb (Ascii.eqb c newline) && one_line r end.
(** map (str, ...) *)
Definition texts {A B} (f : A -> res B) : list A -> res (list B) :=
  fix go l :=
    match l with
    | [] => Ok []
    | x :: r => let* s := f x in let* ss := go r in Ok (s :: ss)
    end.
(** itertools.groupby (cases, lambda x: x[1]), ada.py:1384-1387: neighbours with the same key as the first one;
    [cs] and [k] are the choices and the key of the group that has been started *)
Fixpoint group_from {A K} (same : K -> K -> bool) (cs : list A) (k : K) (l : list (A * K)) : list (list A * K) :=
  match l with
  | [] => [(cs, k)]
  | (a, k') :: r => if same k k' then group_from same (cs ++ [a]) k r else (cs, k) :: group_from same [a] k' r
  end.
Definition group {A K} (same : K -> K -> bool) (l : list (A * K)) : list (list A * K) :=
  match l with [] => [] | (a, k) :: r => group_from same [a] k r end.

(** the text of a condition between "if" or "elsif" and "then", ada.py:1355-1359 *)
Definition condition_text (c : string) : string :=
  if one_line c then (" " ++ c ++ " ")%string else (nl ++ indent c 2 ++ nl)%string.
(** the statements of a branch of an if statement, ada.py:1364-1365, 1368-1369 *)
Definition branch_text (l : list string) : string := String.concat "" (map (fun s => indent s 3 ++ nl)%string l).
(** the conditions and statements, ada.py:1354-1365; [first]: result is empty *)
Fixpoint arms_text (first : bool) (l : list (string * list string)) : string :=
  match l with
  | [] => ""
  | (c, b) :: r =>
    ((if first then "if" else "elsif") ++ condition_text c ++ "then" ++ nl ++ branch_text b ++ arms_text false r)%string
  end.
(** the grouped cases, ada.py:1388-1393 *)
Definition cases_text (l : list (list string * list string)) : string :=
  String.concat "" (map (fun p => nl ++ "when " ++ String.concat " | " (fst p) ++ " =>" ++ nl ++ indent (String.concat nl (snd p)) 3)%string l).

Section Text.
  (** The attribute _str of an expression is set when its text is made for the first time
      (ada.py:58-63) and compared as well (common.py:9-16): lists of statements are only equal if the
      texts of the same parts have been made.  Whether this is so depends on what happened before. *)
  Context (alike : list stmt -> list stmt -> bool).
  (** the equality that groupby uses *)
  Definition same_stmts (a b : list stmt) : bool := list_eqb stmt_eqb a b && alike a b.

  (** __str__: NullStatement 1297-1298, Assignment 1306-1307, CallStatement 1315-1317, PragmaStatement
      1325-1330, ReturnStatement 1337-1340, IfStatement 1352-1371, CaseStatement 1383-1395 *)
  Fixpoint stmt_str (s : stmt) : res string :=
    match s with
    | SNull => Ok "null;"
    | SAssign id e => let* t := ada_str e in Ok (id ++ " := " ++ t ++ ";")%string
    | SCall id args =>
      let* ts := texts ada_str args in Ok (id ++ " (" ++ String.concat ", " ts ++ ");")%string
    | SPragma id args =>
      let* ts := texts ada_str args in
      Ok ("pragma " ++ id ++
          match args with
          | [] => ""
          | _ => " (" ++ indent_next (String.concat ", " ts) (String.length id + 9) ++ ")"
          end ++ ";")%string
    | SReturn e => let* t := ada_str e in Ok ("return " ++ indent_next t 7 ++ ";")%string
    | SIf arms els =>
      let* l := texts (fun p => let* c := ada_str (fst p) in let* b := texts stmt_str (snd p) in Ok (c, b)) arms in
      let* e := match els with
                | None => Ok ""
                | Some [] => Ok ""
                | Some b => let* ts := texts stmt_str b in Ok ("else" ++ nl ++ branch_text ts)%string
                end in
      Ok (arms_text true l ++ e ++ "end if;")%string
    | SCase e arms =>
      let* t := ada_str e in
      let* l := texts (fun p => let* c := ada_str (fst p) in let* b := texts stmt_str (snd p) in Ok (c, (snd p, b))) arms in
      let groups := group (fun x y => same_stmts (fst x) (fst y)) l in
      Ok ("case " ++ t ++ " is" ++ indent (cases_text (map (fun p => (fst p, snd (snd p))) groups)) 3
          ++ nl ++ "end case;")%string
    end.
  (** SubprogramBody._statements, ada.py:1522-1523 *)
  Definition body_str (l : list stmt) : res string :=
    let* ts := texts stmt_str l in Ok (String.concat nl (map (fun t => indent t 3) ts)).
End Text.
