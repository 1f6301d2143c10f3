(** Model of the message graph of rflx/model/message.py: links, the structural
    checks of __validate, the topological sorting, paths, definite predecessors
    and field conditions.

    Fields are taken by their identifier in lower case (ID equality ignores case);
    the aspects size and first are [None] for UNDEFINED; locations are dropped.
    sorted (structure) (message.py:118) is a permutation that only determines an
    order: [structure] is the list after sorting, and no result below depends on
    which order it is. *)
From Coq Require Import String List ZArith Bool.
From Verif Require Import Base Expr.
Import ListNotations.
Local Open Scope string_scope.
Local Open Scope list_scope.
Local Open Scope res_scope.

(** Field, message.py:21-43; INITIAL and FINAL, 46-47 *)
Definition field := string.
Definition INITIAL : field := "initial".
Definition FINAL : field := "final".

(** Link, message.py:50-57 *)
Record link := mkLink {
  source : field;
  target : field;
  condition : expr;
  lsize : option expr;
  lfirst : option expr
}.

Definition opt_eqb (a b : option expr) : bool :=
  match a, b with
  | Some x, Some y => expr_eqb x y
  | None, None => true
  | _, _ => false
  end.
(** Link.__eq__, message.py:72-81 *)
Definition link_eqb (a b : link) : bool :=
  String.eqb (source a) (source b) && String.eqb (target a) (target b)
  && expr_eqb (condition a) (condition b) && opt_eqb (lsize a) (lsize b) && opt_eqb (lfirst a) (lfirst b).

(** "x in l" *)
Definition memf (x : field) (l : list field) : bool := existsb (String.eqb x) l.
Definition meml (x : link) (l : list link) : bool := existsb (link_eqb x) l.

(** AbstractMessage, message.py:104-141: structure, the fields of the dict types,
    the names of enumeration literals *)
Record message := mkMessage {
  structure : list link;
  type_fields : list field;
  enum_names : list field
}.

Section Graph.
  Variable s : list link.

  (** incoming 248-249, outgoing 251-252 *)
  Definition incoming (f : field) : list link := filter (fun l => String.eqb (target l) f) s.
  Definition outgoing (f : field) : list link := filter (fun l => String.eqb (source l) f) s.

  (** direct_predecessors 268-269, direct_successors 271-272: dict.fromkeys *)
  Definition direct_predecessors (f : field) : list field := unique String.eqb (map source (incoming f)).
  Definition direct_successors (f : field) : list field := unique String.eqb (map target (outgoing f)).

  (** the inner loop of __compute_topological_sorting, 547-550 *)
  Fixpoint relax (out : list link) (visited : list link) (fields : list field)
    : list link * list field :=
    match out with
    | [] => (visited, fields)
    | e :: es =>
      let visited' := e :: visited in
      let fields' := if forallb (fun l => meml l visited') (incoming (target e))
                     then fields ++ [target e] else fields in
      relax es visited' fields'
    end.
  (** the outer loop, 542-550; the number of iterations is bounded by the fuel *)
  Fixpoint kahn (n : nat) (fields result : list field) (visited : list link)
    : res (list field * list link) :=
    match fields with
    | [] => Ok (result, visited)
    | f :: rest =>
      match n with
      | O => Err out_of_fuel
      | S k =>
        let '(visited', fields') := relax (outgoing f) visited rest in
        kahn k fields' (result ++ [f]) visited'
      end
    end.
  (** __compute_topological_sorting, 540-561; None if the cycle error is recorded *)
  Definition topological_sorting (n : nat) (has_unreachable : bool) : res (option (list field)) :=
    let* r := kahn n [INITIAL] [] [] in
    let '(result, visited) := r in
    if negb has_unreachable && negb (forallb (fun l => meml l visited) s) then Ok None
    else Ok (Some (filter (fun f => negb (memf f [INITIAL; FINAL])) result)).

  (** paths, 301-316, without the cache; the fuel bounds the recursion depth *)
  Fixpoint paths (n : nat) (f : field) : res (list (list link)) :=
    if String.eqb f INITIAL then Ok []
    else
      match n with
      | O => Err out_of_fuel
      | S k =>
        let* rs := mapr (fun l =>
                     let* src := paths k (source l) in
                     Ok (match src with [] => [[l]] | _ => map (fun p => p ++ [l]) src end))
                   (incoming f) in
        Ok (concat rs)
      end.

  (** __compute_definite_predecessors, 563-568; [fields] is self.fields *)
  Definition definite_predecessors (n : nat) (fields : list field) (f : field) : res (list field) :=
    let* ps := paths n f in
    Ok (filter (fun x => forallb (existsb (fun l => String.eqb x (source l))) ps) fields).

  (** __compute_field_condition, 570-579 *)
  Fixpoint compute_field_condition (n : nat) (f : field) : res expr :=
    if String.eqb f INITIAL then Ok ETrue
    else
      match n with
      | O => Err out_of_fuel
      | S k =>
        let* ts := mapr (fun l => let* c := compute_field_condition k (source l) in
                                  Ok (EAss OAnd [c; condition l])) (incoming f) in
        Ok (EAss OOr ts)
      end.
  (** field_condition, 282-287 *)
  Definition field_condition (n m : nat) (f : field) : res expr :=
    let* c := compute_field_condition n f in simplify expr_eqb m c.
End Graph.

(** findall for Variable (expression.py:163-164, 337-342, 432-436, 1078-1079): not
    below a logical negation *)
Fixpoint finds_variable (e : expr) : bool :=
  match e with
  | EName _ _ => true
  | EAss _ ts => existsb finds_variable ts
  | EBin _ l r | ERel _ l r => finds_variable l || finds_variable r
  | ENot _ | ETrue | EFalse | ENum _ => false
  end.
(** a Pow found by findall whose exponent contains a variable, message.py:519-527 *)
Fixpoint finds_bad_pow (e : expr) : bool :=
  match e with
  | EBin o l r =>
    (match o with OPow => finds_variable r | _ => false end) || finds_bad_pow l || finds_bad_pow r
  | ERel _ l r => finds_bad_pow l || finds_bad_pow r
  | EAss _ ts => existsb finds_bad_pow ts
  | EName _ _ | ENot _ | ETrue | EFalse | ENum _ => false
  end.
Definition opt_expr (o : option expr) : list expr := match o with Some e => [e] | None => [] end.

(** the key (source, target, condition) of duplicate_links, 493-495 *)
Definition link_key_eqb (a b : link) : bool :=
  String.eqb (source a) (source b) && String.eqb (target a) (target b) && expr_eqb (condition a) (condition b).
Fixpoint has_duplicates (l : list link) : bool :=
  match l with
  | [] => false
  | x :: t => existsb (link_key_eqb x) t || has_duplicates t
  end.

Definition err_if (b : bool) (m : string) : list string := if b then [m] else [].

(** the checks of __validate before error.propagate, 412-481; initial_links[0]
    raises IndexError without an initial link (443) *)
Definition validate_first (m : message) : res (list string) :=
  let s := structure m in
  let tf := type_fields m ++ [INITIAL; FINAL] in
  let sf := map source s ++ map target s in
  let e1 := err_if (existsb (fun f => negb (memf f tf)) sf) "missing type" in
  let e2 := err_if (existsb (fun f => negb (memf f sf) && negb (String.eqb f FINAL)) tf) "unused field" in
  let e3 := err_if (negb (Nat.eqb (List.length (outgoing s INITIAL)) 1)) "ambiguous first field" in
  match outgoing s INITIAL with
  | [] => Err "IndexError"
  | l :: _ =>
    let e4 := err_if (match lfirst l with Some _ => true | None => false end)
                     "illegal first aspect at initial link" in
    let e5 := err_if (existsb (fun f => memf f (enum_names m)) tf) "name conflict" in
    Ok (e1 ++ e2 ++ e3 ++ e4 ++ e5)
  end.
(** "unreachable field": no link leads to it, 483-491 *)
Definition unreachable (m : message) : bool :=
  let s := structure m in
  existsb (fun f => negb (String.eqb f INITIAL) && negb (memf f (map target s)))
          (map source s ++ map target s).
(** the checks after error.propagate, 483-538 *)
Definition validate_second (m : message) : list string :=
  let s := structure m in
  err_if (unreachable m) "unreachable field"
  ++ err_if (has_duplicates s) "duplicate link"
  ++ err_if (existsb (fun l => existsb finds_bad_pow ([condition l] ++ opt_expr (lfirst l) ++ opt_expr (lsize l))) s)
       "unsupported expression".

(** AbstractMessage.__init__, 104-141: the errors and the sorted fields; the loop of
    483-487 stops at the first link for which "f in (INITIAL, l.target)" *)
Definition construct (n : nat) (m : message) : res (list string * list field) :=
  match structure m, type_fields m with
  | [], [] => Ok ([], [])
  | _, _ =>
    let* e1 := validate_first m in
    match e1 with
    | _ :: _ => Ok (e1, [])
    | [] =>
      let e2 := validate_second m in
      let* t := topological_sorting (structure m) n (unreachable m) in
      match t with
      | None => Ok (e2 ++ ["structure contains cycle"], [])
      | Some fields => Ok (e2, fields)
      end
    end
  end.

(** predecessors 254-259, successors 261-266 *)
Fixpoint before (f : field) (l : list field) : list field :=
  match l with [] => [] | x :: t => if String.eqb x f then [] else x :: before f t end.
Fixpoint after (f : field) (l : list field) : list field :=
  match l with [] => [] | x :: t => if String.eqb x f then t else after f t end.
Definition predecessors (fields : list field) (f : field) : res (list field) :=
  if String.eqb f INITIAL then Ok []
  else if String.eqb f FINAL then Ok fields
  else if memf f fields then Ok (before f fields) else Err "ValueError".
Definition successors (fields : list field) (f : field) : res (list field) :=
  if String.eqb f INITIAL then Ok fields
  else if String.eqb f FINAL then Ok []
  else if memf f fields then Ok (after f fields) else Err "ValueError".
