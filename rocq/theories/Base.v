(** Shared conventions of the model: exceptions as values.

    Python exceptions and failed Ada run-time checks/contracts are modelled by
    the constructor [Err]; a function that "may raise" returns [res A]. *)
From Coq Require Import String List ZArith Bool.
Import ListNotations.

Inductive res (A : Type) : Type :=
| Ok (a : A)
| Err (why : string).
Arguments Ok {A} a.
Arguments Err {A} why.

Definition bind {A B} (r : res A) (f : A -> res B) : res B :=
  match r with Ok a => f a | Err w => Err w end.

Declare Scope res_scope.
Delimit Scope res_scope with res.
Notation "'let*' x ':=' r 'in' k" := (bind r (fun x => k))
  (at level 200, x name, r at level 100, k at level 200, right associativity) : res_scope.
Notation "'check' b 'msg' m ';' k" := (if b then k else Err m)
  (at level 200, b at level 100, m at level 0, k at level 200, right associativity) : res_scope.

Definition is_ok {A} (r : res A) : bool :=
  match r with Ok _ => true | Err _ => false end.

Lemma Ok_inj {A} (a b : A) : Ok a = Ok b -> a = b.
Proof. intros H. exact (f_equal (fun r => match r with Ok x => x | Err _ => a end) H). Qed.
