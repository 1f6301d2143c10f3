(** Specification: how the text of conditional expressions of Ada is read and what their values are
    (Ada RM 4.5.7).  Independent of the printer. *)
From Coq Require Import String Ascii List ZArith Bool.
From Verif Require Import Base Ident Expr ExprEval ExprRead AdaStmtSpec.
Import ListNotations.
Local Open Scope string_scope.
Local Open Scope list_scope.
Local Open Scope nat_scope.

(** conditional expressions over expressions of the type [E] *)
Inductive cond (E : Type) :=
| VE (e : E)
| VIf (arms : list (E * cond E)) (els : option (cond E))
| VCase (e : E) (arms : list (list E * cond E)).
Arguments VE {E}. Arguments VIf {E}. Arguments VCase {E}.

(** ** Grammar *)

(** [conditional] reads an expression or a conditional expression in parentheses; [arms] what follows "if" or
    "elsif", up to the closing parenthesis; [choices] what follows "is" or "," in a case expression *)
Fixpoint conditional (n : nat) (ts : list string) : option (cond tree * list string) :=
  match n with
  | O => None
  | S k =>
    match eat ["("; "if"] ts with
    | Some r => match arms k r with Some (l, e, r) => Some (VIf l e, r) | None => None end
    | None =>
      match eat ["("; "case"] ts with
      | Some r =>
        match expression k r with
        | Some (t, r) =>
          match eat ["is"] r with
          | Some r => match choices k r with Some (l, r) => Some (VCase t l, r) | None => None end
          | None => None
          end
        | None => None
        end
      | None => match expression k ts with Some (t, r) => Some (VE t, r) | None => None end
      end
    end
  end
with arms (n : nat) (ts : list string) : option (list (tree * cond tree) * option (cond tree) * list string) :=
  match n with
  | O => None
  | S k =>
    match expression k ts with
    | Some (c, r) =>
      match eat ["then"] r with
      | Some r =>
        match conditional k r with
        | Some (x, w :: r) =>
          if String.eqb w "elsif" then
            match arms k r with Some (l, e, r) => Some ((c, x) :: l, e, r) | None => None end
          else if String.eqb w "else" then
            match conditional k r with
            | Some (e, r) => match eat [")"] r with Some r => Some ([(c, x)], Some e, r) | None => None end
            | None => None
            end
          else if String.eqb w ")" then Some ([(c, x)], None, r)
          else None
        | _ => None
        end
      | None => None
      end
    | None => None
    end
  end
with choices (n : nat) (ts : list string) : option (list (list tree * cond tree) * list string) :=
  match n with
  | O => None
  | S k =>
    match eat ["when"] ts with
    | Some r =>
      match several k "|" "=>" r with
      | Some (cs, r) =>
        match conditional k r with
        | Some (x, w :: r) =>
          if String.eqb w ")" then Some ([(cs, x)], r)
          else if String.eqb w "," then
            match choices k r with Some (l, r) => Some ((cs, x) :: l, r) | None => None end
          else None
        | _ => None
        end
      | None => None
      end
    | None => None
    end
  end.

(** the text is an expression, namely [c], for all bounds of the depth that are large enough *)
Definition reads_cond (s : string) (c : cond tree) : Prop :=
  exists k, forall n, k <= n -> conditional n (lex "" s) = Some (c, []).

(** a return statement (RM 6.5), in which a case expression may stand in parentheses once more *)
Definition returned (n : nat) (ts : list string) : option (cond tree * list string) :=
  match eat ["return"] ts with
  | Some r =>
    match eat ["("; "("; "case"] r with
    | Some _ =>
      match eat ["("] r with
      | Some r =>
        match conditional n r with
        | Some (c, r) => match eat [")"; ";"] r with Some r => Some (c, r) | None => None end
        | None => None
        end
      | None => None
      end
    | None =>
      match conditional n r with
      | Some (c, r) => match eat [";"] r with Some r => Some (c, r) | None => None end
      | None => None
      end
    end
  | None => None
  end.
Definition reads_return (s : string) (c : cond tree) : Prop :=
  exists k, forall n, k <= n -> returned n (lex "" s) = Some (c, []).

(** ** Meaning *)

Section Meaning.
  Context {E : Type} (value : env -> E -> option val) (variable : E -> option name).
  (** The value of an if expression is that of the dependent expression of the first condition that is true; it
      is True if there is none and no else part.  The value of a case expression is that of the first
      alternative that covers the value of the selecting expression. *)
  Fixpoint cvalue (g : env) (c : cond E) : option val :=
    match c with
    | VE e => value g e
    | VIf l els =>
      (fix go (l : list (E * cond E)) : option val :=
         match l with
         | [] => match els with Some e => cvalue g e | None => Some (VBool true) end
         | (c, x) :: r =>
           match value g c with
           | Some (VBool true) => cvalue g x
           | Some (VBool false) => go r
           | _ => None
           end
         end) l
    | VCase e l =>
      match value g e with
      | Some v =>
        (fix go (l : list (list E * cond E)) : option val :=
           match l with
           | [] => None
           | (cs, x) :: r =>
             match covers value variable g v cs with
             | Some true => cvalue g x
             | Some false => go r
             | None => None
             end
           end) l
      | None => None
      end
    end.
End Meaning.
