(** Specification: how the text of quantified expressions of Ada is read and what their values are
    (Ada RM 4.5.8, 5.5.2).  Independent of the printer. *)
From Coq Require Import String Ascii List ZArith Bool.
From Verif Require Import Base Ident Expr ExprEval ExprRead AdaStmtSpec AdaCondSpec.
Import ListNotations.
Local Open Scope string_scope.
Local Open Scope list_scope.
Local Open Scope nat_scope.

(** what is iterated over: a range, or what an expression stands for *)
Inductive domain (E : Type) := DRange (lower upper : E) | DExpr (e : E).
Arguments DRange {E}. Arguments DExpr {E}.
(** [all]: for all, otherwise for some; [of]: over the elements of an array, otherwise over discrete values *)
Inductive quant (E : Type) :=
| WC (c : cond E)
| WFor (all of : bool) (id : string) (d : domain E) (p : quant E).
Arguments WC {E}. Arguments WFor {E}.

(** ** Grammar *)

Definition word (yes no : string) (ts : list string) : option (bool * list string) :=
  match eat [yes] ts with
  | Some r => Some (true, r)
  | None => match eat [no] ts with Some r => Some (false, r) | None => None end
  end.
Definition range (n : nat) (ts : list string) : option (domain tree * list string) :=
  match expression n ts with
  | Some (a, r) =>
    match eat [".."] r with
    | Some r => match expression n r with Some (b, r) => Some (DRange a b, r) | None => None end
    | None => Some (DExpr a, r)
    end
  | None => None
  end.
Fixpoint quantified (n : nat) (ts : list string) : option (quant tree * list string) :=
  match n with
  | O => None
  | S k =>
    match eat ["("; "for"] ts with
    | Some r =>
      match word "all" "some" r with
      | Some (all, id :: r) =>
        if negb (entity id) then None
        else
          match word "of" "in" r with
          | Some (of, r) =>
            match range k r with
            | Some (d, r) =>
              match eat ["=>"] r with
              | Some r =>
                match quantified k r with
                | Some (p, r) => match eat [")"] r with Some r => Some (WFor all of id d p, r) | None => None end
                | None => None
                end
              | None => None
              end
            | None => None
            end
          | None => None
          end
      | _ => None
      end
    | None => match conditional k ts with Some (c, r) => Some (WC c, r) | None => None end
    end
  end.
Definition reads_quant (s : string) (q : quant tree) : Prop :=
  exists k, forall n, k <= n -> quantified n (lex "" s) = Some (q, []).

(** ** Meaning *)

(** the integers from [a] to [b] *)
Definition integers (a b : Z) : list val := map (fun i => VInt (a + Z.of_nat i)) (List.seq 0 (Z.to_nat (b - a + 1))).
(** the environment in which the parameter [id] has the value [v]; identifiers are not sensitive to case *)
Definition bound (g : env) (id : string) (v : val) : env :=
  fun n => match n with NVar y => if String.eqb (lower y) (lower id) then v else g n | _ => g n end.

Section Meaning.
  Context {E : Type} (value : env -> E -> option val) (variable : E -> option name).
  (** the elements of an array, or the values of a subtype *)
  Context (elements : bool -> name -> env -> option (list val)).
  Definition values (g : env) (of : bool) (d : domain E) : option (list val) :=
    match d with
    | DRange a b =>
      if of then None
      else match value g a, value g b with Some (VInt x), Some (VInt y) => Some (integers x y) | _, _ => None end
    | DExpr e => match variable e with Some n => elements of n g | None => None end
    end.
  (** The predicate is evaluated for each value in turn up to one for which it is False (for all) or True (for
      some). *)
  Fixpoint qvalue (g : env) (q : quant E) : option val :=
    match q with
    | WC c => cvalue value variable g c
    | WFor all of id d p =>
      match values g of d with
      | Some l =>
        (fix go (l : list val) : option val :=
           match l with
           | [] => Some (VBool all)
           | v :: r =>
             match qvalue (bound g id v) p with
             | Some (VBool b) => if Bool.eqb b all then go r else Some (VBool b)
             | _ => None
             end
           end) l
      | None => None
      end
    end.
End Meaning.
