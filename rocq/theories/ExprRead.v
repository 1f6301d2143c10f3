(** Specification: how the text of an expression is read (Ada RM 2.2-2.4 and 4.4, which
    the grammar of RecordFlux specifications follows), and what it means.  Independent of
    the printer. *)
From Coq Require Import String Ascii List ZArith Bool DecimalString.
From Verif Require Import Base Expr ExprEval Ident.
Import ListNotations.
Local Open Scope string_scope.
Local Open Scope list_scope.
Local Open Scope nat_scope.

(** ** Lexical elements *)

Definition is_space (c : ascii) : bool := let n := nat_of_ascii c in (n =? 32) || (n =? 10).
Definition is_digit (c : ascii) : bool := let n := nat_of_ascii c in (48 <=? n) && (n <=? 57).
Definition is_letter (c : ascii) : bool :=
  let n := nat_of_ascii c in ((65 <=? n) && (n <=? 90)) || ((97 <=? n) && (n <=? 122)).
(** identifiers contain underscores, qualified ones also "::" or "." *)
Definition is_word (c : ascii) : bool :=
  let n := nat_of_ascii c in is_digit c || is_letter c || (n =? 95) || (n =? 46) || (n =? 58).

(** compound delimiters *)
Definition compound (s : string) : bool := existsb (String.eqb s) ["**"; "/="; "<="; ">="; "=>"].
(** can [c] continue the lexical element [p]? *)
Definition joins (p : string) (c : ascii) : bool :=
  match p with
  | "" => false
  | String h _ => (is_word h && is_word c) || compound (p ++ String c "")
  end.
Definition flush (p : string) : list string := match p with "" => [] | _ => [p] end.
(** longest match; [p] is the lexical element that has been started *)
Fixpoint lex (p : string) (s : string) : list string :=
  match s with
  | "" => flush p
  | String c r =>
    if joins p c then lex (p ++ String c "") r
    else flush p ++ (if is_space c then lex "" r else lex (String c "") r)
  end.

(** ** Grammar *)

Inductive arith_op := AAdd | ASub | AMul | ADiv | AMod | APow.
Inductive log_op := LAnd | LAndThen | LOr | LOrElse.
Inductive tree :=
| TBool (b : bool)
| TNum (z : Z)
| TName (n : name)
| TNeg (t : tree)
| TNot (t : tree)
| TArith (o : arith_op) (l r : tree)
| TRel (o : relop) (l r : tree)
| TLog (o : log_op) (l r : tree).

Definition reserved (s : string) : bool :=
  existsb (String.eqb (lower s)) ["not"; "and"; "or"; "then"; "else"; "mod"].
Definition starts (f : ascii -> bool) (s : string) : bool := match s with "" => false | String c _ => f c end.

(** an identifier that can be used as name of an entity *)
Fixpoint all_word (s : string) : bool := match s with "" => true | String c r => is_word c && all_word r end.
Definition identifier (s : string) : bool :=
  starts is_letter s && all_word s && negb (reserved s)
  && negb (String.eqb (lower s) "true") && negb (String.eqb (lower s) "false").

Definition attribute (s : string) : option attr :=
  if String.eqb s "Size" then Some ASize
  else if String.eqb s "Length" then Some ALength
  else if String.eqb s "First" then Some AFirst
  else if String.eqb s "Last" then Some ALast
  else None.
(** numeric_literal *)
Definition numeral (s : string) : option Z :=
  match NilZero.uint_of_string s with Some d => Some (Z.of_N (N.of_uint d)) | None => None end.

(** multiplying_operator, binary_adding_operator, relational_operator *)
Definition mul_op (s : string) : option arith_op :=
  if String.eqb s "*" then Some AMul else if String.eqb s "/" then Some ADiv
  else if String.eqb s "mod" then Some AMod else None.
Definition add_op (s : string) : option arith_op :=
  if String.eqb s "+" then Some AAdd else if String.eqb s "-" then Some ASub else None.
Definition rel_op (s : string) : option relop :=
  if String.eqb s "<" then Some OLt else if String.eqb s "<=" then Some OLe else if String.eqb s "=" then Some OEq
  else if String.eqb s ">=" then Some OGe else if String.eqb s ">" then Some OGt else if String.eqb s "/=" then Some ONe else None.
(** logical operator at the beginning of the tokens *)
Definition log_op_at (ts : list string) : option (log_op * list string) :=
  match ts with
  | a :: r =>
    if String.eqb a "and" then
      match r with b :: r' => if String.eqb b "then" then Some (LAndThen, r') else Some (LAnd, r) | [] => Some (LAnd, r) end
    else if String.eqb a "or" then
      match r with b :: r' => if String.eqb b "else" then Some (LOrElse, r') else Some (LOr, r) | [] => Some (LOr, r) end
    else None
  | [] => None
  end.
Definition log_op_eqb (a b : log_op) : bool :=
  match a, b with LAnd, LAnd | LAndThen, LAndThen | LOr, LOr | LOrElse, LOrElse => true | _, _ => false end.

(** name and attribute_reference *)
Definition name_at (w : string) (r : list string) : option (tree * list string) :=
  if reserved w then None
  else match r with
       | q :: a :: r' =>
         if String.eqb q "'" then match attribute a with Some k => Some (TName (NAttr k w), r') | None => None end
         else Some (TName (NVar w), r)
       | _ => Some (TName (NVar w), r)
       end.
(** names of truth values *)
Definition literal (t : tree) : tree :=
  match t with
  | TName (NVar id) =>
    if String.eqb (lower id) "true" then TBool true else if String.eqb (lower id) "false" then TBool false else t
  | _ => t
  end.

(** The productions, by level: 0 primary, 1 factor, 2 term, 3 simple_expression,
    4 relation, 5 expression; [loop] is the repetition at levels 2, 3 and 5.  The first
    argument bounds the depth of the recursion. *)
Fixpoint rd (n : nat) (level : nat) (ts : list string) : option (tree * list string) :=
  match n with
  | O => None
  | S k =>
    match level with
    | 0 =>
      match ts with
      | w :: r =>
        if String.eqb w "(" then
          match rd k 5 r with
          | Some (t, c :: r') => if String.eqb c ")" then Some (t, r') else None
          | _ => None
          end
        else if starts is_digit w then match numeral w with Some z => Some (TNum z, r) | None => None end
        else if starts is_letter w then match name_at w r with Some (t, r') => Some (literal t, r') | None => None end
        else None
      | [] => None
      end
    | 1 =>
      match ts with
      | w :: r =>
        if String.eqb w "not" then match rd k 0 r with Some (t, r') => Some (TNot t, r') | None => None end
        else
          match rd k 0 ts with
          | Some (t, o :: r') =>
            if String.eqb o "**" then match rd k 0 r' with Some (u, r'') => Some (TArith APow t u, r'') | None => None end
            else Some (t, o :: r')
          | x => x
          end
      | [] => None
      end
    | 2 => match rd k 1 ts with Some (t, r) => loop k 2 None t r | None => None end
    | 3 =>
      match ts with
      | w :: r =>
        if String.eqb w "-" then match rd k 2 r with Some (t, r') => loop k 3 None (TNeg t) r' | None => None end
        else match rd k 2 ts with Some (t, r') => loop k 3 None t r' | None => None end
      | [] => None
      end
    | 4 =>
      match rd k 3 ts with
      | Some (t, o :: r) =>
        match rel_op o with
        | Some q => match rd k 3 r with Some (u, r') => Some (TRel q t u, r') | None => None end
        | None => Some (t, o :: r)
        end
      | x => x
      end
    | _ =>
      match rd k 4 ts with
      | Some (t, r) =>
        match log_op_at r with
        | Some (o, _) => loop k 5 (Some o) t r
        | None => Some (t, r)
        end
      | None => None
      end
    end
  end
with loop (n : nat) (level : nat) (o : option log_op) (t : tree) (ts : list string) : option (tree * list string) :=
  match n with
  | O => None
  | S k =>
    match o with
    | Some o =>
      match log_op_at ts with
      | Some (o', r) =>
        if log_op_eqb o' o then match rd k 4 r with Some (u, r') => loop k level (Some o) (TLog o t u) r' | None => None end
        else Some (t, ts)
      | None => Some (t, ts)
      end
    | None =>
      match ts with
      | w :: r =>
        match (if level =? 2 then mul_op w else add_op w) with
        | Some a =>
          match rd k (level - 1) r with Some (u, r') => loop k level None (TArith a t u) r' | None => None end
        | None => Some (t, ts)
        end
      | [] => Some (t, ts)
      end
    end
  end.

(** [s] is an expression with the syntax tree [t] *)
Definition reads (s : string) (t : tree) : Prop := exists n, rd n 5 (lex "" s) = Some (t, []).

(** ** Meaning *)

Local Open Scope Z_scope.
Definition arith_val (o : arith_op) (l r : option val) : option val :=
  match l, r with
  | Some (VInt x), Some (VInt y) =>
    match o with
    | AAdd => Some (VInt (x + y))
    | ASub => Some (VInt (x - y))
    | AMul => Some (VInt (x * y))
    | ADiv => if y =? 0 then None else Some (VInt (Z.quot x y))
    | AMod => if y =? 0 then None else Some (VInt (x mod y))
    | APow => if y <? 0 then None else Some (VInt (x ^ y))
    end
  | _, _ => None
  end.
Definition log_val (sc : bool) (o : log_op) (l r : option val) : option val :=
  match l with
  | Some (VBool x) =>
    let both := match r with
                | Some (VBool y) => Some (VBool match o with LAnd | LAndThen => x && y | LOr | LOrElse => x || y end)
                | _ => None
                end in
    match o, x with
    | LAndThen, false => if sc then Some (VBool false) else both
    | LOrElse, true => if sc then Some (VBool true) else both
    | _, _ => both
    end
  | _ => None
  end.
(** the value of an expression; with [sc] "and then" and "or else" do not evaluate
    operands that are not needed *)
Fixpoint teval (sc : bool) (g : env) (t : tree) : option val :=
  match t with
  | TBool b => Some (VBool b)
  | TNum z => Some (VInt z)
  | TName n => Some (g n)
  | TNeg u => match teval sc g u with Some (VInt z) => Some (VInt (- z)) | _ => None end
  | TNot u => match teval sc g u with Some (VBool b) => Some (VBool (negb b)) | _ => None end
  | TArith o l r => arith_val o (teval sc g l) (teval sc g r)
  | TRel o l r => rel_val o (teval sc g l) (teval sc g r)
  | TLog o l r => log_val sc o (teval sc g l) (teval sc g r)
  end.
