(** What the text of an Ada package should contain, without the functions that print it. *)
From Coq Require Import String Ascii List Bool Arith.
From Verif Require Import Base Ident ExprPrint AdaStmt AdaUnit.
Import ListNotations.
Local Open Scope list_scope.
Local Open Scope string_scope.

(** a character put before the first string (no code of /repo) *)
Definition onto (c : ascii) (l : list string) : list string :=
  match l with [] => [String c ""] | h :: t => String c h :: t end.
(** the pieces of a text between blank lines (no code of /repo) *)
Fixpoint paragraphs (s : string) : list string :=
  match s with
  | "" => [""]
  | String c r =>
    match r with
    | "" => [s]
    | String d r' => if Ascii.eqb c newline && Ascii.eqb d newline then "" :: paragraphs r' else onto c (paragraphs r)
    end
  end.
(** no blank line and no newline at the end (no code of /repo) *)
Fixpoint tidy (s : string) : bool :=
  match s with
  | "" => true
  | String c r =>
    match r with
    | "" => negb (Ascii.eqb c newline)
    | String d _ => negb (Ascii.eqb c newline && Ascii.eqb d newline) && tidy r
    end
  end.

(** a list without some of its elements (no code of /repo) *)
Inductive within {A} : list A -> list A -> Prop :=
| within_nil : within [] []
| within_take x k l : within k l -> within (x :: k) (x :: l)
| within_skip x k l : within k l -> within k (x :: l).

(** ada.py:1601 *)
Definition is_pragma {X} (i : item X) : bool := match i with IPragma _ _ => true | _ => false end.

(** what the equality of ada.py does not compare though the text depends on it: the modes of parameters
    (ada.py:1416, 1422), whether an array type is unconstrained (1208), and the order of literals without
    values (1123-1131) *)
Definition uncompared (m : mode) : mode := match m with MAccess _ => MIn | _ => m end.
Definition modes {X} (s : spec X) : list mode := map (fun p => uncompared (p_mode p)) (s_params s).
Definition literal_order {X} (ls : list (string * option X)) : list string :=
  if unvalued ls then map (fun p => lower (fst p)) ls else [].
Definition shape {X} (i : item X) : list mode * bool * list string :=
  match i with
  | ISub s _ _ | IBody s _ _ _ | IExprFun s _ _ | IRename s _ => (modes s, false, [])
  | IType _ _ _ (TArray u _ _) => ([], u, [])
  | IType _ _ _ (TEnum ls _) => ([], false, literal_order ls)
  | _ => ([], false, [])
  end.

(** the literals of an enumeration type are the keys of a dict, ada.py:1119: they differ *)
Definition keys_differ {X} (i : item X) : Prop :=
  match i with IType _ _ _ (TEnum ls _) => NoDup (map (fun p => lower (fst p)) ls) | _ => True end.

Section Spec.
  (** [settled]: copies of an object compare equal to it *)
  Context {X : Type} (text : item X -> string) (settled : Prop).

  (** the printed texts are those of the declarations: in their order, each one at the place of the
      declaration or before up to the case of letters, no pragma lost, and nothing but pragmas twice
      (no code of /repo) *)
  Definition announces (texts : list string) (l : list (obj X)) : Prop :=
    exists kept,
      texts = map (fun o => text (snd o)) kept /\ within kept l /\
      (forall l1 o l2, l = l1 ++ o :: l2 ->
         exists o', In o' kept /\ In o' (l1 ++ [o]) /\ lower (text (snd o')) = lower (text (snd o)))%list /\
      (NoDup (map fst l) -> filter (fun o => is_pragma (snd o)) kept = filter (fun o => is_pragma (snd o)) l) /\
      (settled -> forall k1 a k2 b k3, kept = (k1 ++ a :: k2 ++ b :: k3)%list -> snd a = snd b -> is_pragma (snd a) = true).
End Spec.

(** objects with the same address are the same (no code of /repo) *)
Definition coherent {X} (l : list (obj X)) : Prop := forall a b, In a l -> In b l -> fst a = fst b -> a = b.
(** what is required of a list of declarations or context items: they have a hash, the names of literals differ,
    their texts contain no blank lines, and objects that compare equal agree in what is not compared
    (no code of /repo) *)
Record orderly {X} (xt : X -> string) (xeq : nat -> X -> X -> bool) (l : list (obj X)) : Prop := {
  o_hash : forallb (fun o => hashable (snd o)) l = true;
  o_keys : forall o, In o l -> keys_differ (snd o);
  o_tidy : forall o, In o l -> tidy (item_text xt (snd o)) = true;
  o_same : coherent l;
  o_shape : forall o o' n, In o l -> In o' l -> item_eqb xeq n (snd o) (snd o') = true -> shape (snd o) = shape (snd o') }.
