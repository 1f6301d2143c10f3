(** Model of create_message_structure, rflx/specification/parser.py:814-954: from the
    components of a message in the text to the links of the message.

    The parse tree is given by the records below; the expressions are the results of
    create_math_expression and create_bool_expression.  Source locations are dropped.
    A field is the identifier in lower case. *)
From Coq Require Import String List Arith Bool.
From Verif Require Import Base Ident Expr MsgGraph.
Import ListNotations.
Local Open Scope string_scope.
Local Open Scope list_scope.

(** the nodes ThenNode and Component used in parser.py:837-954 *)
Record then_ := mkThen {
  t_target : option string;              (* None is null *)
  t_condition : option expr;
  t_aspects : list (string * expr)
}.
Record component := mkComponent {
  c_name : string;
  c_condition : option expr;
  c_aspects : list (string * expr);
  c_thens : list then_
}.

(** extract_aspect 819-835: errors, size, first *)
Fixpoint extract_aspect_loop (l : list (string * expr)) (errs : list string) (size first : option expr)
  : list string * option expr * option expr :=
  match l with
  | [] => (errs, size, first)
  | (n, e) :: t =>
    if String.eqb n "Size" then extract_aspect_loop t errs (Some e) first
    else if String.eqb n "First" then extract_aspect_loop t errs size (Some e)
    else extract_aspect_loop t (errs ++ ["invalid aspect"]) size first
  end.
Definition extract_aspect (l : list (string * expr)) := extract_aspect_loop l [] None None.

(** expr.TRUE if there is no condition: 843-845 and 889-893 *)
Definition cond_of (c : option expr) : expr := match c with Some e => e | None => ETrue end.

(** extract_then 837-849 and the link built of it, 855 and 952: errors, link *)
Definition extract_then (src : field) (t : then_) : list string * link :=
  let '(errs, size, first) := extract_aspect (t_aspects t) in
  (errs, mkLink src (match t_target t with Some n => lower n | None => FINAL end)
           (cond_of (t_condition t)) size first).

(** the body of the loop over the links, 896-940: errors, link *)
Definition apply_aspects (condition_ : expr) (size first : option expr) (l : link) : list string * link :=
  let '(e1, first') :=
    match first, lfirst l with
    | None, f => ([], f)
    | Some e, None => ([], Some e)
    | Some e, Some f => (["first aspect conflicts"], Some f)
    end in
  let '(e2, size') :=
    match size, lsize l with
    | None, s => ([], s)
    | Some e, None => ([], Some e)
    | Some e, Some s => (["size aspect conflicts"], Some s)
    end in
  let condition' :=
    if negb (expr_eqb condition_ ETrue) then
      if negb (expr_eqb (condition l) ETrue) then EAss OAnd [condition_; condition l] else condition_
    else condition l in
  (e1 ++ e2, mkLink (source l) (target l) condition' size' first').
(** 895-896 *)
Fixpoint apply_all (name : field) (condition_ : expr) (size first : option expr) (s : list link)
  : list string * list link :=
  match s with
  | [] => ([], [])
  | l :: t =>
    let '(e1, l') := if String.eqb (target l) name then apply_aspects condition_ size first l else ([], l) in
    let '(e2, t') := apply_all name condition_ size first t in
    (e1 ++ e2, l' :: t')
  end.

(** the loop over the then clauses, 942-952; [names] are the texts of all component names *)
Fixpoint add_thens (names : list string) (src : field) (ts : list then_) (errs : list string) (s : list link)
  : list string * list link :=
  match ts with
  | [] => (errs, s)
  | t :: rest =>
    if match t_target t with Some n => negb (existsb (String.eqb n) names) | None => false end then
      add_thens names src rest (errs ++ ["undefined field"]) s
    else
      let '(e, l) := extract_then src t in
      add_thens names src rest (errs ++ e) (s ++ [l])
  end.

(** the loop over the components, 864-952; [names] as above *)
Fixpoint add_components (names : list string) (cs : list component) (errs : list string) (s : list link)
  : list string * list link :=
  match cs with
  | [] => (errs, s)
  | c :: rest =>
    let src := lower (c_name c) in
    if String.eqb (lower (c_name c)) "message" then
      add_components names rest (errs ++ ["reserved word"]) s
    else
      (* 880-887 *)
      let s := match c_thens c with
               | [] => s ++ [mkLink src (match rest with n :: _ => lower (c_name n) | [] => FINAL end) ETrue None None]
               | _ => s
               end in
      (* 889-894 *)
      let condition_ := cond_of (c_condition c) in
      let '(e1, size, first) := extract_aspect (c_aspects c) in
      let '(e2, s) :=
        match first, size, negb (expr_eqb condition_ ETrue) with
        | None, None, false => ([], s)
        | _, _, _ => apply_all src condition_ size first s
        end in
      let '(e3, s) := add_thens names src (c_thens c) [] s in
      add_components names rest (errs ++ e1 ++ e2 ++ e3) s
  end.

(** create_message_structure 814-954; the result are the errors and the structure *)
Definition create_structure (initial : option then_) (cs : list component) : res (list string * list link) :=
  let go start := let '(errs, s) := add_components (map c_name cs) cs (fst start) [snd start] in Ok (errs, s) in
  match initial with
  | Some t => go (extract_then INITIAL t)
  | None =>
    match cs with
    | [] => Err "IndexError"
    | c :: _ => go ([], mkLink INITIAL (lower (c_name c)) ETrue None None)
    end
  end.
