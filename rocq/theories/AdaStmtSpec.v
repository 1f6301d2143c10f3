(** Specification: how the text of Ada statements is read (Ada RM 5.1-5.4, 6.4, 6.5) and what statements
    do.  Independent of the printer. *)
From Coq Require Import String Ascii List ZArith Bool.
From Verif Require Import Base Ident Expr ExprEval ExprRead.
Import ListNotations.
Local Open Scope string_scope.
Local Open Scope list_scope.
Local Open Scope nat_scope.

(** statements with expressions of the type [E] *)
Inductive prog (E : Type) :=
| PNull
| PAssign (id : string) (e : E)
| PCall (id : string) (args : list E)
| PPragma (id : string) (args : list E)
| PReturn (e : E)
| PIf (arms : list (E * list (prog E))) (els : list (prog E))
| PCase (e : E) (arms : list (list E * list (prog E))).
Arguments PNull {E}. Arguments PAssign {E}. Arguments PCall {E}. Arguments PPragma {E}. Arguments PReturn {E}.
Arguments PIf {E}. Arguments PCase {E}.

(** ** Grammar *)

(** the reserved words at the beginning of statements, and those that end a sequence of statements *)
Definition stops_seq (w : string) : bool := existsb (String.eqb w) ["end"; "elsif"; "else"; "when"].
Definition begins (w : string) : bool := existsb (String.eqb w) ["null"; "pragma"; "return"; "if"; "case"].
(** a name of an entity *)
Definition entity (w : string) : bool := identifier w && negb (stops_seq (lower w)) && negb (begins (lower w)).

(** the tokens [l] at the beginning *)
Fixpoint eat (l ts : list string) : option (list string) :=
  match l, ts with
  | [], _ => Some ts
  | x :: l', y :: r => if String.eqb x y then eat l' r else None
  | _, [] => None
  end.

(** expression, for a bound of the depth *)
Definition expression (n : nat) (ts : list string) : option (tree * list string) := rd n 5 ts.
(** expressions between [sep], up to [stop] *)
Fixpoint several (n : nat) (sep stop : string) (ts : list string) : option (list tree * list string) :=
  match n with
  | O => None
  | S k =>
    match expression k ts with
    | Some (t, w :: r) =>
      if String.eqb w stop then Some ([t], r)
      else if String.eqb w sep then
        match several k sep stop r with Some (l, r') => Some (t :: l, r') | None => None end
      else None
    | _ => None
    end
  end.

(** [statement] reads a simple or compound statement; [sequence] statements up to a word that ends them or
    the end of the text; [branches] what follows "if" or "elsif"; [alternatives] what follows "is" or the
    statements of an alternative of a case statement.  A sequence has at least one statement, RM 5.1.  The
    lexer takes ":=" for two elements. *)
Fixpoint statement (n : nat) (ts : list string) : option (prog tree * list string) :=
  match n with
  | O => None
  | S k =>
    match ts with
    | [] => None
    | w :: r =>
      if String.eqb w "null" then match eat [";"] r with Some r => Some (PNull, r) | None => None end
      else if String.eqb w "return" then
        match expression k r with
        | Some (t, r) => match eat [";"] r with Some r => Some (PReturn t, r) | None => None end
        | None => None
        end
      else if String.eqb w "pragma" then
        match r with
        | id :: r =>
          if negb (entity id) then None
          else match eat [";"] r with
               | Some r => Some (PPragma id [], r)
               | None =>
                 match eat ["("] r with
                 | Some r =>
                   match several k "," ")" r with
                   | Some (l, r) => match eat [";"] r with Some r => Some (PPragma id l, r) | None => None end
                   | None => None
                   end
                 | None => None
                 end
               end
        | [] => None
        end
      else if String.eqb w "if" then
        match branches k r with
        | Some (l, e, r) => Some (PIf l e, r)
        | None => None
        end
      else if String.eqb w "case" then
        match expression k r with
        | Some (t, r) =>
          match eat ["is"] r with
          | Some r => match alternatives k r with Some (l, r) => Some (PCase t l, r) | None => None end
          | None => None
          end
        | None => None
        end
      else if negb (entity w) then None
      else match eat [":"; "="] r with
           | Some r =>
             match expression k r with
             | Some (t, r) => match eat [";"] r with Some r => Some (PAssign w t, r) | None => None end
             | None => None
             end
           | None =>
             match eat [";"] r with
             | Some r => Some (PCall w [], r)
             | None =>
               match eat ["("] r with
               | Some r =>
                 match several k "," ")" r with
                 | Some (l, r) => match eat [";"] r with Some r => Some (PCall w l, r) | None => None end
                 | None => None
                 end
               | None => None
               end
             end
           end
    end
  end
with sequence (n : nat) (ts : list string) : option (list (prog tree) * list string) :=
  match n with
  | O => None
  | S k =>
    match statement k ts with
    | Some (p, r) =>
      match r with
      | [] => Some ([p], [])
      | w :: _ =>
        if stops_seq w then Some ([p], r)
        else match sequence k r with Some (l, r) => Some (p :: l, r) | None => None end
      end
    | None => None
    end
  end
with branches (n : nat) (ts : list string) : option (list (tree * list (prog tree)) * list (prog tree) * list string) :=
  match n with
  | O => None
  | S k =>
    match expression k ts with
    | Some (c, r) =>
      match eat ["then"] r with
      | Some r =>
        match sequence k r with
        | Some (b, w :: r) =>
          if String.eqb w "elsif" then
            match branches k r with Some (l, e, r) => Some ((c, b) :: l, e, r) | None => None end
          else if String.eqb w "else" then
            match sequence k r with
            | Some (e, r) => match eat ["end"; "if"; ";"] r with Some r => Some ([(c, b)], e, r) | None => None end
            | None => None
            end
          else match eat ["end"; "if"; ";"] (w :: r) with Some r => Some ([(c, b)], [], r) | None => None end
        | _ => None
        end
      | None => None
      end
    | None => None
    end
  end
with alternatives (n : nat) (ts : list string) : option (list (list tree * list (prog tree)) * list string) :=
  match n with
  | O => None
  | S k =>
    match eat ["when"] ts with
    | Some r =>
      match several k "|" "=>" r with
      | Some (cs, r) =>
        match sequence k r with
        | Some (b, r) =>
          match eat ["end"; "case"; ";"] r with
          | Some r => Some ([(cs, b)], r)
          | None => match alternatives k r with Some (l, r) => Some ((cs, b) :: l, r) | None => None end
          end
        | None => None
        end
      | None => None
      end
    | None => None
    end
  end.

(** the text is a sequence of statements, namely [l], for all bounds of the depth that are large enough *)
Definition reads_body (s : string) (l : list (prog tree)) : Prop :=
  exists k, forall n, k <= n -> sequence n (lex "" s) = Some (l, []).

(** ** Meaning *)

Section Meaning.
  Context {E : Type}.
  (** the value of an expression; the name that it consists of, if it is one *)
  Context (value : env -> E -> option val) (variable : E -> option name).
  (** what assignments, calls and pragmas do; identifiers are not sensitive to case, RM 2.3; calls may
      change variables that are arguments *)
  Context (store : env -> string -> val -> env).
  Context (call pragma : string -> list (option name * val) -> env -> option env).

  (** the values of the arguments *)
  Fixpoint arguments (g : env) (l : list E) : option (list (option name * val)) :=
    match l with
    | [] => Some []
    | e :: r =>
      match value g e, arguments g r with
      | Some v, Some vs => Some ((variable e, v) :: vs)
      | _, _ => None
      end
    end.
  Definition others (e : E) : bool :=
    match variable e with Some (NVar id) => String.eqb (lower id) "others" | _ => false end.
  Definition val_eqb (a b : val) : bool :=
    match a, b with VInt x, VInt y => Z.eqb x y | VBool x, VBool y => Bool.eqb x y | _, _ => false end.
  (** does one of the choices cover [v]? *)
  Fixpoint covers (g : env) (v : val) (cs : list E) : option bool :=
    match cs with
    | [] => Some false
    | c :: r =>
      if others c then Some true
      else match value g c with
           | Some w => if val_eqb w v then Some true else covers g v r
           | None => None
           end
    end.
  (** statements in sequence, up to the first return *)
  Definition seq (exec : env -> prog E -> option (env * option val)) : list (prog E) -> env -> option (env * option val) :=
    fix go l g :=
      match l with
      | [] => Some (g, None)
      | p :: r =>
        match exec g p with
        | Some (g, None) => go r g
        | x => x
        end
      end.
  (** the variables after a statement and the returned value, if there is one; no result for errors *)
  Fixpoint exec (g : env) (p : prog E) : option (env * option val) :=
    match p with
    | PNull => Some (g, None)
    | PAssign id e => match value g e with Some v => Some (store g (lower id) v, None) | None => None end
    | PCall id l =>
      match arguments g l with
      | Some vs => match call (lower id) vs g with Some g => Some (g, None) | None => None end
      | None => None
      end
    | PPragma id l =>
      match arguments g l with
      | Some vs => match pragma (lower id) vs g with Some g => Some (g, None) | None => None end
      | None => None
      end
    | PReturn e => match value g e with Some v => Some (g, Some v) | None => None end
    | PIf arms els =>
      (fix go (l : list (E * list (prog E))) : option (env * option val) :=
         match l with
         | [] => seq exec els g
         | (c, b) :: r =>
           match value g c with
           | Some (VBool true) => seq exec b g
           | Some (VBool false) => go r
           | _ => None
           end
         end) arms
    | PCase e arms =>
      match value g e with
      | Some v =>
        (fix go (l : list (list E * list (prog E))) : option (env * option val) :=
           match l with
           | [] => None
           | (cs, b) :: r =>
             match covers g v cs with
             | Some true => seq exec b g
             | Some false => go r
             | None => None
             end
           end) arms
      | None => None
      end
    end.
End Meaning.

(** the variable that an expression of the text consists of *)
Definition tree_variable (t : tree) : option name := match t with TName n => Some n | _ => None end.
