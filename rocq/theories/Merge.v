(** Model of the merging of message fields, UnprovenMessage.merged and
    AbstractMessage.prefixed of rflx/model/message.py.

    Simplifications: fields are taken in lower case (see MsgGraph.v); locations and
    informational messages are dropped; aspects (checksums) and aggregates are not
    modelled.  The order into which sorted (message.py:118) brings the links is given by
    a function.  The verification of inner messages of class Message is a function as
    well (that of Verify.v for messages without message fields).  If the copy of an inner
    message has errors, the model stops; the code does so for inner messages of class
    Message, while it goes on if the inner message is an UnprovenMessage, which the
    parser never makes a type of a field (parser.py:778-788, 1017-1026). *)
From Coq Require Import String Ascii List ZArith Bool.
From Verif Require Import Base Expr Ident TypeSpec MsgGraph Solver Verify.
Import ListNotations.
Local Open Scope string_scope.
Local Open Scope list_scope.
Local Open Scope nat_scope.
Local Open Scope res_scope.

(** AbstractMessage, message.py:104-141: class Message or not, package, structure,
    types and _state.fields; a field has a type of type_.py or a message type (86-90) *)
Inductive ftype := FType (t : mtype) | FMsg (i : mmessage)
with mmessage := MM (proven : bool) (pkg : ident) (s : list link) (types : list (field * ftype)) (fs : list field).

Definition mm_proven (m : mmessage) : bool := match m with MM p _ _ _ _ => p end.
Definition mm_package (m : mmessage) : ident := match m with MM _ p _ _ _ => p end.
Definition mm_structure (m : mmessage) : list link := match m with MM _ _ s _ _ => s end.
Definition mm_types (m : mmessage) : list (field * ftype) := match m with MM _ _ _ t _ => t end.
Definition mm_fields (m : mmessage) : list field := match m with MM _ _ _ _ f => f end.

(** the types that are not messages: "isinstance (t, mty.Scalar)", message.py:374-380,
    type_.py:627-644 *)
Definition plain_types (ts : list (field * ftype)) : list (field * mtype) :=
  flat_map (fun kt => match snd kt with FType t => [(fst kt, t)] | FMsg _ => [] end) ts.
(** what type_constraints (message.py:355-410) sees of a message *)
Definition typed_part (m : mmessage) : vmessage :=
  mkVMessage (mm_structure m) (plain_types (mm_types m)) (mm_package m).
(** what __validate (412-538) sees of a message *)
Definition structural_part (pkg : ident) (s : list link) (ts : list (field * ftype)) : message :=
  mkMessage s (map fst ts) (map var (enum_literals (mkVMessage s (plain_types ts) pkg))).

Definition ftype_of (ts : list (field * ftype)) (f : field) : option ftype :=
  match find (fun kv => String.eqb (fst kv) f) ts with Some (_, t) => Some t | None => None end.

(** a message field among the fields of a message; for the first one 1396-1403 *)
Definition is_msg (t : ftype) : bool := match t with FMsg _ => true | FType _ => false end.

(** too many iterations of a "while" loop, see C29_termination *)
Definition too_many : string := "too many iterations".

Section Merge.
  (** z3 *)
  Variable solve : list expr -> answer.
  (** sorted, 118 *)
  Variable order : list link -> list link.
  (** Message.verify, 603-620, the errors *)
  Variable verified : mmessage -> res (list string).
  (** fuel of the simplifier and of the recursions over the graph *)
  Variable n : nat.

  (** {f: self.__types[f] for f in self._state.fields}, 134; keys of a dict are unique *)
  Definition arranged (ts : list (field * ftype)) (fs : list field) : res (list (field * ftype)) :=
    mapr (fun f => match ftype_of ts f with Some t => Ok (f, t) | None => Err "KeyError" end) (unique String.eqb fs).

  (** AbstractMessage.__init__, 104-141, with the errors recorded so far (the error
      object is shared between copies, 1350); error.propagate (481) ends __validate if
      there are some *)
  Definition build (errors : list string) (proven : bool) (pkg : ident) (s : list link) (ts : list (field * ftype))
    : res (list string * mmessage) :=
    let s' := order s in
    match errors with
    | _ :: _ =>
      let* e := validate_first (structural_part pkg s' ts) in Ok (errors ++ e, MM proven pkg s' ts [])
    | [] =>
      let* r := construct n (structural_part pkg s' ts) in
      let '(e, fs) := r in
      match fs with
      | [] => Ok (e, MM proven pkg s' ts [])
      | _ => let* ts' := arranged ts fs in Ok (e, MM proven pkg s' ts' fs)
      end
    end.

  (** *** prefixed, 318-353 *)

  (** len (l.parts) == 1 *)
  Definition single_part (x : string) : bool := negb (has_char ":"%char x).
  (** the literals of Boolean, type_.py:583-599 *)
  Definition builtin_literals : list string := ["true"; "false"].

  Section Prefixed.
    Variable prefix : string.
    Variable pkg : ident.
    (** {f.identifier for f in self.fields}, 319 *)
    Variable fs : list field.

    (** the values of the mapping, 326-339 *)
    Definition new_name (x : string) : string :=
      if memf x fs then (prefix ++ x)%string
      else if single_part x && negb (memf x builtin_literals) && negb (String.eqb x MESSAGE) then var (pkg ++ [x])
      else x.
    (** expression.substituted (mapping=...): a key is a variable with its sign (Variable.__eq__,
        expression.py:1024-1027), but a name is looked up without its sign (Name.substituted,
        993-999, Attribute.substituted 1081-1088); [keys] are the positive variables.
        Nothing is replaced below a logical negation (see Expr.substituted). *)
    Fixpoint renamed (keys : list string) (e : expr) : expr :=
      match e with
      | EName (NVar x) s => if memf x keys then EName (NVar (new_name x)) s else e
      | EName (NAttr a x) s => if memf x keys then EName (NAttr a (new_name x)) s else e
      | EAss o ts => EAss o (map (renamed keys) ts)
      | EBin o l r => EBin o (renamed keys l) (renamed keys r)
      | ERel o l r => ERel o (renamed keys l) (renamed keys r)
      | ENot _ | ETrue | EFalse | ENum _ => e
      end.
    (** prefixed_expression, 321-340 *)
    Definition positive (e : expr) : list string :=
      flat_map (fun v : string * bool => if snd v then [] else [fst v]) (variables e).
    Definition prefixed_expression (e : expr) : res expr := simplify expr_eqb n (renamed (positive e) e).
    Definition prefixed_option (o : option expr) : res (option expr) :=
      match o with None => Ok None | Some e => let* e' := prefixed_expression e in Ok (Some e') end.
    (** the body of the loop 344-350 *)
    Definition prefixed_link (l : link) : res link :=
      let src := if String.eqb (source l) INITIAL then INITIAL else (prefix ++ source l)%string in
      let tgt := if String.eqb (target l) FINAL then FINAL else (prefix ++ target l)%string in
      let* c := prefixed_expression (condition l) in
      let* z := prefixed_option (lsize l) in
      let* a := prefixed_option (lfirst l) in
      Ok (mkLink src tgt c z a).
  End Prefixed.

  (** prefixed, 318-353, with the copy of UnprovenMessage (1336-1353) or Message
      (622-637; the constructor 584-600 verifies the copy and raises its errors) *)
  Definition prefixed (m : mmessage) (prefix : string) : res mmessage :=
    let* s := mapr (prefixed_link prefix (mm_package m) (mm_fields m)) (mm_structure m) in
    let ts := map (fun kt => ((prefix ++ fst kt)%string, snd kt)) (mm_types m) in
    let* r := build [] (mm_proven m) (mm_package m) s ts in
    let '(e, m') := r in
    check match e with [] => true | _ => false end msg "RecordFluxError";
    let* e' := if mm_proven m then verified m' else Ok [] in
    check match e' with [] => true | _ => false end msg "RecordFluxError";
    Ok m'.

  (** *** merged, 1368-1475 *)

  (** field_condition, 282-287: the conditions of all fields are computed at once *)
  Definition all_field_conditions (m : mmessage) : res (list (field * expr)) :=
    mapr (fun f => let* c := field_condition (mm_structure m) n n f in Ok (f, c)) (INITIAL :: mm_fields m ++ [FINAL]).
  Definition field_condition_of (m : mmessage) (f : field) : res expr :=
    let* d := all_field_conditions m in
    match find (fun kv => String.eqb (fst kv) f) d with Some (_, c) => Ok c | None => Err "KeyError" end.

  (** a link from the message field and a link to the end of the inner message, 1443-1461 *)
  Definition joined (inner : mmessage) (l fl : link) : res (list link) :=
    let c := EAss OAnd [condition l; condition fl] in
    let* tc := type_constraints n (typed_part inner) in
    let* fc := field_condition_of inner (source fl) in
    let* a := check_facts solve c (tc ++ [fc]) in
    match a with
    | UNSAT => Ok []
    | _ => let* c' := simplify expr_eqb n c in Ok [mkLink (source fl) (target l) c' (lsize l) (lfirst l)]
    end.
  (** the body of the loop 1429-1463 *)
  Definition spliced (f : field) (inner : mmessage) (l : link) : res (list link) :=
    if String.eqb (target l) f then
      match outgoing (mm_structure inner) INITIAL with
      | [] => Err "IndexError"
      | il :: _ => Ok [mkLink (source l) (target il) (condition l) (lsize il) (lfirst l)]
      end
    else if String.eqb (source l) f then
      let* ls := mapr (joined inner l) (incoming (mm_structure inner) FINAL) in Ok (concat ls)
    else Ok [l].

  (** prune_dangling_fields, 1370-1387; the loop; the new dangling fields are appended in
      the order of a set *)
  Definition dangling_in (s : list link) : list field :=
    filter (fun f => negb (String.eqb f FINAL) && forallb (fun l => negb (String.eqb (source l) f)) s)
           (flat_map (fun l => [source l; target l]) s).
  Fixpoint prune (k : nat) (s : list link) (dangling : list field) : res (list link * list field) :=
    match k with
    | O => Err too_many
    | S k' =>
      let new := dangling_in s in
      let d := dangling ++ new in
      let s' := filter (fun l => negb (memf (target l) d)) s in
      match new with [] => Ok (s', d) | _ => prune k' s' d end
    end.
  Definition prune_dangling_fields (s : list link) (ts : list (field * ftype)) : res (list link * list (field * ftype)) :=
    let* r := prune (S (List.length s)) s [] in
    let '(s', d) := r in
    Ok (s', filter (fun kt => negb (memf (fst kt) d)) ts).

  (** dict assignment and the dict display 1466-1469 *)
  Fixpoint dict_set (d : list (field * ftype)) (k : field) (v : ftype) : list (field * ftype) :=
    match d with
    | [] => [(k, v)]
    | (k', v') :: t => if String.eqb k k' then (k', v) :: t else (k', v') :: dict_set t k v
    end.
  Definition dict_merge (a b : list (field * ftype)) : list (field * ftype) :=
    fold_left (fun d kt => dict_set d (fst kt) (snd kt)) b a.

  (** the body of the "while" loop, 1402-1473, for the field [f] *)
  Definition merge_field (errors : list string) (m : mmessage) (f : field) (i : mmessage)
    : res (list string * mmessage) :=
    let* inner := prefixed i (f ++ "_")%string in
    let errors' := if existsb (fun g => memf g (mm_fields inner)) (mm_fields m)
                   then errors ++ ["name conflict"] else errors in
    let* ls := mapr (spliced f inner) (mm_structure m) in
    let s := concat ls ++ filter (fun l => negb (String.eqb (target l) FINAL) && negb (String.eqb (source l) INITIAL))
                                 (mm_structure inner) in
    let ts := dict_merge (filter (fun kt => negb (String.eqb (fst kt) f)) (mm_types m)) (mm_types inner) in
    let* r := prune_dangling_fields s ts in
    let '(s', ts') := r in
    match s', ts' with
    | _ :: _, _ :: _ => build errors' (mm_proven m) (mm_package m) s' ts'
    | _, _ => Err "empty message type"
    end.

  (** the "while" loop, 1391-1475 *)
  Fixpoint merged_loop (k : nat) (errors : list string) (m : mmessage) : res (list string * mmessage) :=
    match find (fun kt => is_msg (snd kt)) (mm_types m) with
    | Some (f, FMsg i) =>
      match k with
      | O => Err too_many
      | S k' => let* r := merge_field errors m f i in let '(e, m') := r in merged_loop k' e m'
      end
    | _ => Ok (errors, m)
    end.
  (** merged, 1368-1475, of a message without errors *)
  Definition merged (k : nat) (m : mmessage) : res (list string * mmessage) := merged_loop k [] m.
End Merge.
