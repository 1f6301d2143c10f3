(** Model of the structural checks of sessions, rflx/model/session.py:118-285, 287-502.

    Identifiers are taken in lower case (ID equality ignores case).  A transition is
    given by its target and the variables of its condition; actions and declarations
    by the variables they use.  Type checking of expressions (typing_.py) is left out,
    so the errors here are a part of the errors of the session: a session is accepted
    only if there are none. *)
From Coq Require Import String List Arith Bool.
Import ListNotations.
Local Open Scope string_scope.
Local Open Scope list_scope.

(** declaration.py:14-268: a type declaration, a declaration with a type identifier
    (variable, renaming, function) or another one (channel); d_vars is variables () *)
Inductive decl_kind := KType | KTyped (type_identifier : string) | KOther.
Record decl := mkDecl { d_id : string; d_kind : decl_kind; d_vars : list string }.

(** Transition 20-43 and State 46-115 *)
Record transition := mkTransition { tr_target : string; tr_vars : list string }.
Record state := mkState {
  st_id : string;
  st_transitions : list transition;
  st_exception : option string;
  st_has_exceptions : bool;               (* has_exceptions 102-115 *)
  st_action_vars : list string;
  st_declarations : list decl
}.
(** AbstractSession 118-165 *)
Record session := mkSession {
  se_initial : string;
  se_final : string;
  se_states : list state;
  se_declarations : list decl;
  se_parameters : list decl
}.

Definition mem (x : string) (l : list string) : bool := existsb (String.eqb x) l.
Definition when (b : bool) (e : string) : list string := if b then [e] else [].

(** __validate_state_existence 214-239 *)
Definition existence_errors (s : session) : list string :=
  let ids := map st_id (se_states s) in
  when (negb (mem (se_initial s) ids)) "initial state does not exist"
  ++ when (negb (mem (se_final s) ids)) "final state does not exist"
  ++ flat_map (fun st => flat_map (fun t => when (negb (mem (tr_target t) ids)) "transition to non-existent state")
                                  (st_transitions st)) (se_states s).

(** __validate_duplicate_states 241-260: an error for every state with the name of an
    earlier one *)
Fixpoint duplicate_errors (seen : list string) (l : list state) : list string :=
  match l with
  | [] => []
  | st :: t => when (mem (st_id st) seen) "duplicate state" ++ duplicate_errors (st_id st :: seen) t
  end.

(** __validate_state_reachability 262-285; [inputs] are the keys of the dict *)
Fixpoint reachability_errors (initial final : string) (inputs : list string) (l : list state) : list string :=
  match l with
  | [] => []
  | st :: t =>
    let inputs := map tr_target (st_transitions st) ++ inputs in
    when (negb (String.eqb (st_id st) initial) && negb (mem (st_id st) inputs)) "unreachable state"
    ++ when (negb (String.eqb (st_id st) final) && match st_transitions st with [] => true | _ => false end)
         "detached state"
    ++ reachability_errors initial final inputs t
  end.

(** __validate_transitions 407-421 *)
Definition exception_errors (st : state) : list string :=
  match st_exception st with
  | None => when (st_has_exceptions st) "missing exception transition"
  | Some _ => when (negb (st_has_exceptions st)) "unnecessary exception transition"
  end.

(** {d.identifier: d for d in declarations} 72, 136-137: a later declaration replaces
    an earlier one of the same name *)
Fixpoint put (d : decl) (l : list decl) : list decl :=
  match l with
  | [] => [d]
  | e :: t => if String.eqb (d_id e) (d_id d) then d :: t else e :: put d t
  end.
Definition dict_of (l : list decl) : list decl := fold_left (fun acc d => put d acc) l [].
(** _global_declarations 144-147 *)
Definition globals (s : session) : list decl :=
  fold_left (fun acc d => put d acc) (dict_of (se_declarations s)) (dict_of (se_parameters s)).

(** A declaration is identified by its scope (the number of the state, or None for
    the session) and its name; a reference (reference (), declaration.py:26-27) is
    recorded by this pair. *)
Definition key := (option nat * string)%type.
Definition lookup (visible : list key) (n : string) : list key :=
  match find (fun k => String.eqb (snd k) n) visible with Some k => [k] | None => [] end.

(** __validate_declarations 287-379 without type checking: errors and references.
    [gnames] are the names in _global_declarations. *)
Fixpoint declarations_check (gnames : list string) (scope : option nat) (ds : list decl) (visible : list key)
  : list string * list key :=
  match ds with
  | [] => ([], [])
  | d :: t =>
    let errs := when (String.eqb (d_id d) "data_available") "declaration shadows built-in function"
                ++ when (mem (d_id d) (map snd visible)) "local variable shadows previous declaration" in
    let refs := flat_map (lookup visible) (d_vars d)
                ++ match d_kind d with
                   | KTyped ti => if mem ti gnames then [(None, ti)] else []
                   | _ => []
                   end in
    let '(errs', refs') := declarations_check gnames scope t ((scope, d_id d) :: visible) in
    (errs ++ errs', refs ++ refs')
  end.

(** the body of the loop over the states in __validate 494-500, without type checking;
    local declarations take precedence in the dict of 497 *)
Definition state_check (gnames : list string) (i : nat) (st : state) : list string * list key :=
  let visible := map (fun n => (None, n)) gnames in
  let locals := dict_of (st_declarations st) in
  let '(errs, refs) := declarations_check gnames (Some i) locals visible in
  let all := map (fun d => (Some i, d_id d)) locals ++ visible in
  (errs ++ exception_errors st,
   refs ++ flat_map (lookup all) (st_action_vars st)
   ++ flat_map (fun t => flat_map (lookup all) (tr_vars t)) (st_transitions st)).
Fixpoint states_check (gnames : list string) (i : nat) (l : list state) : list string * list key :=
  match l with
  | [] => ([], [])
  | st :: t =>
    let '(e1, r1) := state_check gnames i st in
    let '(e2, r2) := states_check gnames (S i) t in
    (e1 ++ e2, r1 ++ r2)
  end.

Definition key_eqb (a b : key) : bool :=
  match fst a, fst b with
  | None, None => String.eqb (snd a) (snd b)
  | Some i, Some j => Nat.eqb i j && String.eqb (snd a) (snd b)
  | _, _ => false
  end.
Fixpoint local_keys (i : nat) (l : list state) : list key :=
  match l with
  | [] => []
  | st :: t => map (fun d => (Some i, d_id d)) (dict_of (st_declarations st)) ++ local_keys (S i) t
  end.
(** __validate_usage 423-433 *)
Definition usage_errors (s : session) (refs : list key) : list string :=
  flat_map (fun k => when (negb (existsb (key_eqb k) refs)) "unused declaration")
    (map (fun d => (None, d_id d)) (globals s) ++ local_keys 0 (se_states s)).

(** __validate 489-502 and __validate_states 201-212 *)
Definition session_errors (s : session) : list string :=
  let gnames := map d_id (globals s) in
  let '(e1, r1) := declarations_check gnames None (globals s) [] in
  let '(e2, r2) := states_check gnames 0 (se_states s) in
  when (match se_states s with [] => true | _ => false end) "empty states"
  ++ existence_errors s
  ++ duplicate_errors [] (se_states s)
  ++ reachability_errors (se_initial s) (se_final s) [] (se_states s)
  ++ e1 ++ e2
  ++ usage_errors s (r1 ++ r2).
