(** What the fields of a message mean, without reference to the proofs made by
    RecordFlux: legal values and the layout along a path. *)
From Coq Require Import String List ZArith Bool.
From Verif Require Import Expr ExprEval Ident TypeSpec MsgGraph Solver SolverFacts Verify.
Import ListNotations.
Local Open Scope string_scope.
Local Open Scope list_scope.
Local Open Scope Z_scope.

(** the numbers a scalar type accepts *)
Definition valid_number (t : scalar) (v : Z) : Prop :=
  match t with
  | Modular _ _ modulus _ => 0 <= v < modulus
  | Range _ f l _ => f <= v <= l
  | Enum _ lits size av => if av then 0 <= v < 2 ^ size else In v (map snd lits)
  end.

(** the modulus expression of modular types has the value of the modulus *)
Definition modulus_known (m : vmessage) : Prop :=
  forall f id e v size, In (f, MScalar (Modular id e v size)) (v_types m) ->
    forall g, eval_sc g e = Some (VInt v) /\ tame g e.

Definition no_always_valid (m : vmessage) : Prop :=
  forall f id lits size, ~ In (f, MScalar (Enum id lits size true)) (v_types m).

(** an assignment of numbers in which all fields have values of their types and the
    names of literals and types have their meaning; the message takes whole bytes *)
Record legal (m : vmessage) (g : env) : Prop := {
  lg_int : int_env g;
  lg_value : forall f t, In (f, MScalar t) (v_types m) -> valid_number t (num g (NVar f));
  lg_size : forall f t, In (f, MScalar t) (v_types m) -> num g (NAttr ASize f) = type_size t;
  lg_literal : forall f id lits size av k z, In (f, MScalar (Enum id lits size av)) (v_types m) ->
    In (k, z) (literal_names id lits (id_eq (v_package m) (package id))) -> num g (NVar (var k)) = z;
  lg_type : forall f t, In (f, MScalar t) (v_types m) ->
    num g (NAttr ASize (var (if id_eq (package (type_id t)) builtins then [last (type_id t) ""] else type_id t)))
    = type_size t;
  lg_first : num g (NAttr AFirst MESSAGE) mod 8 = 1;
  lg_bytes : num g (NAttr ASize MESSAGE) mod 8 = 0
}.

(** the size given by a link or the type of its target *)
Definition sized (m : vmessage) (g : env) (l : link) (z : Z) : Prop :=
  match lsize l with
  | Some e => tame g e /\ eval_sc g e = Some (VInt z)
  | None => if String.eqb (target l) FINAL then z = 0
            else exists t, lookup (v_types m) (target l) = Some (MScalar t) /\ z = type_size t
  end.
(** the first bit given by a link *)
Definition starts (g : env) (l : link) (a : Z) : Prop :=
  if String.eqb (source l) INITIAL then a = num g (NAttr AFirst MESSAGE)
  else match lfirst l with
       | Some e => tame g e /\ eval_sc g e = Some (VInt a)
       | None => a = num g (NAttr ALast (source l)) + 1
       end.
(** the condition of a link is true *)
Definition taken (g : env) (l : link) : Prop :=
  tame g (condition l) /\ eval_sc g (condition l) = Some (VBool true).

(** under [g] the message goes along the link [l], and its target is placed accordingly *)
Definition laid (m : vmessage) (g : env) (l : link) : Prop :=
  taken g l /\
  starts g l (num g (NAttr AFirst (target l))) /\
  sized m g l (num g (NAttr ASize (target l))) /\
  num g (NAttr ALast (target l)) = num g (NAttr AFirst (target l)) + num g (NAttr ASize (target l)) - 1 /\
  num g (NAttr ALast (target l)) <= num g (NAttr ALast MESSAGE).

(** the bounds of the message *)
Definition bounds (g : env) : Prop :=
  0 <= num g (NAttr AFirst MESSAGE) <= num g (NAttr ALast MESSAGE) /\
  num g (NAttr ASize MESSAGE) = num g (NAttr ALast MESSAGE) - num g (NAttr AFirst MESSAGE) + 1.
