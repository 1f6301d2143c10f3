(** Model of the verification of messages, class Message of rflx/model/message.py.

    Not modelled: the checks of checksum definitions (__verify_checksums, 767-863),
    which can only reject more messages; aggregates (and with them the aggregate
    constraints of type_constraints, 383-389); fields of message types, which are merged
    before.  Error messages are abbreviated, informational entries dropped. *)
From Coq Require Import String List ZArith Bool.
From Verif Require Import Base Expr Ident TypeSpec MsgGraph Solver.
From Verif Require Typing ExprType.
Import ListNotations.
Local Open Scope string_scope.
Local Open Scope list_scope.
Local Open Scope Z_scope.
Local Open Scope res_scope.

(** types of fields: Scalar, Opaque and Array (type_.py:46-60, 528-555, 476-525) *)
Inductive mtype := MScalar (t : scalar) | MOpaque | MArray (id : ident).
Definition mtype_id (t : mtype) : ident :=
  match t with MScalar t => type_id t | MOpaque => ["__INTERNAL__"; "Opaque"] | MArray id => id end.

(** AbstractMessage.__init__, message.py:104-141: sorted structure, dict of types, package *)
Record vmessage := mkVMessage {
  v_structure : list link;
  v_types : list (field * mtype);
  v_package : ident
}.

Definition lookup (d : list (field * mtype)) (f : field) : option mtype :=
  match find (fun kv => String.eqb (fst kv) f) d with Some (_, t) => Some t | None => None end.

Section Literals.
  Variable m : vmessage.

  (** qualified_enum_literals, type_.py:627-638, the keys *)
  Definition enum_literals : list ident :=
    flat_map (fun kv =>
      match snd kv with
      | MScalar (Enum id lits _ _) =>
        flat_map (fun l =>
          (if id_eq (package id) builtins || id_eq (package id) (v_package m) then [fst l] else [])
          ++ (if id_eq (package id) builtins then [] else [package id ++ fst l])) lits
      | _ => []
      end) (v_types m).

  (** qualified_type_literals, type_.py:641-644; an identifier stands for one type *)
  Definition type_literals : list (ident * mtype) :=
    unique (fun a b => id_eq (fst a) (fst b))
      (map (fun kv => let t := snd kv in
              ((if id_eq (package (mtype_id t)) builtins then [last (mtype_id t) ""] else mtype_id t), t))
           (v_types m)).

  (** the part of the message the structural checks see, see MsgGraph.v *)
  Definition graph : message :=
    mkMessage (v_structure m) (map fst (v_types m)) (map var enum_literals).
End Literals.

(** expression_list, message.py:1671-1674 *)
Definition expression_list (e : expr) : list expr :=
  match e with EAss (OAnd | OAndThen) ts => ts | _ => [e] end.

(** Size, First and Last of a variable *)
Definition ESize (x : string) : expr := EName (NAttr ASize x) false.
Definition EFirst (x : string) : expr := EName (NAttr AFirst x) false.
Definition ELast (x : string) : expr := EName (NAttr ALast x) false.
Definition MESSAGE : string := "message".

(** the pairs of elements at positions i1 < i2 *)
Fixpoint pairs {A} (l : list A) : list (A * A) :=
  match l with [] => [] | x :: t => map (fun y => (x, y)) t ++ pairs t end.

(** loops that end with the first error ("return") *)
Fixpoint first_error (l : list (res (list string))) : res (list string) :=
  match l with
  | [] => Ok []
  | r :: t => let* e := r in match e with [] => first_error t | _ => Ok e end
  end.
Definition all_errors (l : list (res (list string))) : res (list string) :=
  let* es := sequence l in Ok (concat es).

(** Size attributes found by findall (not below a logical negation) *)
Fixpoint size_prefixes (e : expr) : list string :=
  match e with
  | EName (NAttr ASize x) _ => [x]
  | EAss _ ts => flat_map size_prefixes ts
  | EBin _ l r | ERel _ l r => size_prefixes l ++ size_prefixes r
  | _ => []
  end.

Section Verify.
  Variable solve : list expr -> answer.
  (** fuel of the recursions over the graph *)
  Variable n : nat.
  Variable m : vmessage.
  (** self.fields *)
  Variable fields : list field.

  Local Notation s := (v_structure m).

  (** type_constraints, message.py:356-410 *)
  Definition type_constraints : res (list expr) :=
    let message_constraints :=
      [ERel OEq (EBin OMod (EFirst MESSAGE) (ENum 8)) (ENum 1);
       ERel OEq (EBin OMod (ESize MESSAGE) (ENum 8)) (ENum 0)] in
    let* scalar_constraints :=
      mapr (fun kv => match snd kv with
                      | MScalar t =>
                        if memf (fst kv) (map var (enum_literals m)) || memf (fst kv) [MESSAGE; FINAL] then Ok []
                        else constraints n t (fst kv) true (id_eq (v_package m) (package (type_id t)))
                      | _ => Ok []
                      end) (v_types m) in
    let type_size_constraints :=
      flat_map (fun kv => match snd kv with
                          | MScalar t => [ERel OEq (ESize (var (fst kv))) (ENum (type_size t))]
                          | _ => []
                          end) (type_literals m) in
    Ok (message_constraints ++ concat scalar_constraints ++ type_size_constraints).

  (** field_size, message.py:289-299; None is UNDEFINED *)
  Definition field_size (f : field) : res (option expr) :=
    if String.eqb f FINAL then Ok (Some (ENum 0))
    else if negb (memf f fields) then Err "AssertionError"
    else match lookup (v_types m) f with
         | Some (MScalar t) => Ok (Some (ENum (type_size t)))
         | Some _ => Ok None
         | None => Err "KeyError"
         end.

  (** __target_first, 1234-1239 *)
  Definition target_first (l : link) : expr :=
    if String.eqb (source l) INITIAL then EFirst MESSAGE
    else match lfirst l with
         | Some e => e
         | None => EAss OAdd [ELast (source l); ENum 1]
         end.
  (** __target_size, 1241-1244 *)
  Definition target_size (l : link) : res (option expr) :=
    match lsize l with Some e => Ok (Some e) | None => field_size (target l) end.
  (** a size that is needed: z3expr of UNDEFINED is not implemented, expression.py:1422 *)
  Definition needed (o : option expr) : res expr :=
    match o with Some e => Ok e | None => Err "NotImplementedError" end.
  (** __target_last, 1246-1251 *)
  Definition last_expr (first size : expr) : expr := EBin OSub (EAss OAdd [first; size]) (ENum 1).
  Definition target_last (l : link) : res expr :=
    let* o := target_size l in let* size := needed o in Ok (last_expr (target_first l) size).
  (** __link_expression, 1253-1277 *)
  Definition link_expression (l : link) : res (list expr) :=
    let x := target l in
    let* size := target_size l in
    Ok ([ERel OEq (EFirst x) (target_first l)]
        ++ match size with
           | Some e => [ERel OEq (ESize x) e; ERel OEq (ELast x) (last_expr (target_first l) e)]
           | None => []
           end
        ++ [ERel OGe (EFirst MESSAGE) (ENum 0);
            ERel OGe (ELast MESSAGE) (ELast x);
            ERel OGe (ELast MESSAGE) (EFirst MESSAGE);
            ERel OEq (ESize MESSAGE) (EAss OAdd [EBin OSub (ELast MESSAGE) (EFirst MESSAGE); ENum 1])]
        ++ expression_list (condition l)).
  (** [fact for link in path for fact in self.__link_expression (link)] *)
  Definition path_facts (p : list link) : res (list expr) :=
    let* fs := mapr link_expression p in Ok (concat fs).
  (** the facts of a path and that the message goes on behind it, 911-921, 1096-1102 *)
  Definition reached_facts (f : field) (p : list link) : res (list expr) :=
    let* facts := path_facts p in
    Ok (facts ++ (if String.eqb f FINAL then []
                  else match outgoing s f with
                       | [] => []
                       | out => [EAss OOr (map condition out)]
                       end)).

  Local Notation ask := (check_facts solve).

  (** type_: Integer, type_.py:72-74, Enumeration 426-428, Array 521-523 (the type of the
      elements is determined by the name and left out), Opaque 550-552; full_name 32-34 *)
  Definition rtype (t : mtype) : Typing.ty :=
    match t with
    | MScalar (Enum id _ _ _) => Typing.TEnumeration (id_str id)
    | MScalar sc => Typing.TInteger (id_str (type_id sc)) (Typing.known (type_first sc) (type_last sc))
    | MOpaque => Typing.OPAQUE
    | MArray id => Typing.TArray (id_str id) Typing.TAny
    end.
  (** the values of qualified_enum_literals, type_.py:627-638: the last assignment counts *)
  Definition enum_literal_types : list (string * Typing.ty) :=
    flat_map (fun kv =>
      match snd kv with
      | MScalar (Enum id lits _ _) =>
        flat_map (fun l =>
          (if id_eq (package id) builtins || id_eq (package id) (v_package m) then [(var (fst l), rtype (snd kv))] else [])
          ++ (if id_eq (package id) builtins then [] else [(var (package id ++ fst l), rtype (snd kv))])) lits
      | _ => []
      end) (v_types m).
  (** typed_variable in __verify_expression_types, 658-669; [seen] are the fields in
      types *)
  Definition typed_variable (seen : list field) : ExprType.tenv := fun x =>
    if String.eqb x MESSAGE then Typing.OPAQUE
    else match (if memf x seen then lookup (v_types m) x else None) with
         | Some t => rtype t
         | None =>
           match find (fun kv => String.eqb (fst kv) x) (rev enum_literal_types) with
           | Some (_, t) => t
           | None =>
             match find (fun kv => String.eqb (var (fst kv)) x) (type_literals m) with
             | Some (_, t) => rtype t
             | None => Typing.TUndefined
             end
           end
         end.
  (** __prove_path_property, 1226-1231, for the property TRUE *)
  Definition path_property (p : list link) : res answer :=
    let* tc := type_constraints in
    ask ETrue (tc
               ++ flat_map (fun l => if expr_eqb (condition l) ETrue then [] else [condition l]) p
               ++ flat_map (fun l => match lsize l with
                                     | Some e => [ERel OEq (ESize (target l)) e]
                                     | None => []
                                     end) p).
  (** the expressions of a link other than UNDEFINED *)
  Definition expressions (l : link) : list expr :=
    condition l :: match lsize l with Some e => [e] | None => [] end
                ++ match lfirst l with Some e => [e] | None => [] end.
  (** the loop over the links of a path, 683-706 *)
  Fixpoint path_types (seen : list field) (p : list link) : list string :=
    match p with
    | [] => []
    | l :: t =>
      let seen' := if memf (source l) (map fst (v_types m)) then source l :: seen else seen in
      flat_map (fun e => ExprType.check_expr (typed_variable seen') e Typing.TAny) (expressions l)
      ++ path_types seen' t
    end.
  (** __verify_expression_types, 655-706; the same proof is made again for each link of a
      path *)
  Definition verify_expression_types : res (list string) :=
    let* ps := paths s n FINAL in
    all_errors (map (fun p =>
      match p with
      | [] => Ok []
      | _ =>
        match path_property p with
        | Ok UNSAT => Ok []
        | Ok _ => Ok (path_types [] p)
        | Err w => if String.eqb w "Z3TypeError" then Ok (path_types [] p) else Err w
        end
      end) ps).

  (** __verify_expressions, 708-714, with __check_attributes 715-730,
      __check_first_expression 732-739 and __check_size_expression 741-765 *)
  Definition check_attributes (e : expr) : list string :=
    flat_map (fun x =>
      err_if (negb (String.eqb x MESSAGE || memf x fields
                    || memf x (map (fun kv => var (fst kv)) (type_literals m))))
             "invalid use of size attribute") (size_prefixes e).
  Definition check_first_expression (l : link) : list string :=
    match lfirst l with
    | None | Some (EName (NAttr AFirst _) _) => []
    | Some _ => ["invalid First"]
    end.
  Definition defined (o : option expr) : bool := match o with Some _ => true | None => false end.
  Definition check_size_expression (l : link) : list string :=
    err_if (String.eqb (target l) FINAL && defined (lsize l)) "size attribute for final field"
    ++ (if String.eqb (target l) FINAL then []
        else match lookup (v_types m) (target l) with
             | None => []
             | Some t =>
               let unconstrained := match t with MOpaque | MArray _ => true | MScalar _ => false end in
               err_if (negb unconstrained && defined (lsize l)) "fixed size field with size aspect"
               ++ err_if (unconstrained && negb (defined (lsize l))) "unconstrained field without size aspect"
             end).
  Definition verify_expressions : list string :=
    flat_map (fun f => flat_map (fun l => check_attributes (condition l) ++ check_first_expression l
                                          ++ check_size_expression l) (outgoing s f)) (INITIAL :: fields).

  (** __prove_conflicting_conditions, 865-894 *)
  Definition conflicts : list expr :=
    flat_map (fun f => map (fun c => EAss OAnd [condition (fst c); condition (snd c)]) (pairs (outgoing s f)))
      (INITIAL :: fields).
  Definition prove_conflicting_conditions : res (list string) :=
    let* tc := type_constraints in
    all_errors (map (fun conflict =>
      let* a := ask conflict tc in
      Ok (match a with SAT => ["conflicting conditions"] | _ => [] end)) conflicts).

  (** has_final, 897-903 *)
  Fixpoint has_final (k : nat) (f : field) : res bool :=
    if String.eqb f FINAL then Ok true
    else match k with
         | O => Err out_of_fuel
         | S k' =>
           (fix go (ls : list link) : res bool :=
              match ls with
              | [] => Ok false
              | l :: t => let* b := has_final k' (target l) in if b then Ok true else go t
              end) (outgoing s f)
         end.
  (** the loop over the paths to a field, 913-928: proof.error asserts that the
      answer is UNSAT (expression.py:59-61) *)
  Fixpoint some_path (f : field) (ps : list (list link)) : res bool :=
    match ps with
    | [] => Ok false
    | p :: t =>
      let* facts := reached_facts f p in
      let* a := ask ETrue facts in
      match a with SAT => Ok true | UNSAT => some_path f t | UNKNOWN => Err "AssertionError" end
    end.
  (** __prove_reachability, 896-951 *)
  Definition prove_reachability : res (list string) :=
    let* e1 := all_errors (map (fun f => let* b := has_final n f in Ok (err_if (negb b) "no path to FINAL"))
                               (INITIAL :: fields)) in
    let* e2 := all_errors (map (fun f => let* ps := paths s n f in let* b := some_path f ps in
                                         Ok (err_if (negb b) "unreachable field")) (fields ++ [FINAL])) in
    Ok (e1 ++ e2).

  (** __prove_contradictions, 953-993: the (path, link) pairs of a field, and whether
      the link is contradicted *)
  Definition contradicted (p : list link) (c : link) : res bool :=
    let* facts := path_facts p in
    let* tc := type_constraints in
    let* a := ask (condition c) (tc ++ facts) in
    match a with SAT => Ok false | UNSAT => Ok true | UNKNOWN => Err "AssertionError" end.
  Definition prove_contradictions : res (list string) :=
    all_errors (map (fun f =>
      let* ps := paths s n f in
      let* bs := sequence (flat_map (fun p => map (contradicted p) (outgoing s f)) ps) in
      Ok (if forallb (fun b => b) bs then map (fun _ => "contradicting condition") bs else []))
      (INITIAL :: fields)).

  (** __prove_coverage, 995-1058, for the fields of a path to the end *)
  Definition BIT : string := "f".
  Definition coverage_facts (p : list link) : res (list expr) :=
    let* nots := mapr (fun l => let* last := target_last l in
                         Ok (ENot (EAss OAnd [ERel OGe (EVar BIT) (target_first l); ERel OLe (EVar BIT) last]))) p in
    let* facts := path_facts p in
    match rev p with
    | [] => Err "IndexError"
    | l :: _ =>
      let* last := target_last l in
      Ok ([ERel OGe (EVar BIT) (EFirst MESSAGE); ERel OLe (EVar BIT) (ELast MESSAGE)]
          ++ nots ++ [ERel OEq last (ELast MESSAGE)] ++ facts)
    end.
  Definition prove_coverage : res (list string) :=
    let* ps := paths s n FINAL in
    first_error (map (fun p =>
      let* facts := coverage_facts (removelast p) in
      let* a := ask ETrue facts in
      Ok (match a with SAT => ["path does not cover whole message"] | _ => [] end)) ps).

  (** __prove_overlays, 1060-1082 *)
  Definition overlay (p : list link) : res (list string) :=
    match rev p with
    | [] => Ok []
    | l :: _ =>
      match lfirst l with
      | Some (EName (NAttr AFirst x) _) =>
        let* facts := path_facts p in
        let* last := target_last l in
        let* a := ask (ERel OEq last (ELast x)) facts in
        match a with
        | SAT => Ok []
        | UNSAT => Ok ["field not congruent with overlaid field"]
        | UNKNOWN => Err "AssertionError"
        end
      | _ => Ok []
      end
    end.
  Definition prove_overlays : res (list string) :=
    all_errors (map (fun f => let* ps := paths s n f in all_errors (map overlay ps)) (INITIAL :: fields)).

  (** __prove_field_positions, 1084-1182, for one path to a field *)
  Definition field_position (f : field) (p : list link) : res (list string) :=
    match rev p with
    | [] => Err "IndexError"
    | l :: _ =>
      let* o := target_size l in
      let* size := needed o in
      let first := target_first l in
      let* rf := reached_facts f p in
      let* tc := type_constraints in
      let facts := rf ++ tc ++ tc in
      let* a := ask ETrue facts in
      match a with
      | SAT =>
        let* a1 := ask (ERel OLt size (ENum 0)) facts in
        match a1 with
        | UNSAT =>
          let* a2 := ask (ERel OGe first (EFirst MESSAGE)) facts in
          match a2 with
          | SAT =>
            match lookup (v_types m) f with
            | Some MOpaque =>
              let* a3 := ask (ENot (ERel OEq (EBin OMod first (ENum 8)) (ENum 1))) (facts ++ tc) in
              match a3 with
              | UNSAT =>
                let* a4 := ask (ENot (ERel OEq (EBin OMod size (ENum 8)) (ENum 0))) (facts ++ tc) in
                match a4 with UNSAT => Ok [] | _ => Ok ["size of opaque field not multiple of element size"] end
              | _ => Ok ["opaque field not aligned"]
              end
            | _ => Ok []
            end
          | UNSAT => Ok ["negative start"]
          | UNKNOWN => Err "AssertionError"
          end
        | _ => Ok ["negative size"]
        end
      | _ => Ok []
      end
    end.
  Definition prove_field_positions : res (list string) :=
    first_error (map (fun f => let* ps := paths s n f in first_error (map (field_position f) ps))
                     (fields ++ [FINAL])).

  (** __prove_message_size, 1184-1224 *)
  Definition message_size (p : list link) : expr :=
    EAss OAdd (flat_map (fun l => if negb (String.eqb (target l) FINAL) && negb (defined (lfirst l))
                                  then [ESize (target l)] else []) p).
  Definition field_size_constraints : list expr :=
    flat_map (fun kv => match snd kv with
                        | MScalar _ => []
                        | _ => [ERel OEq (EBin OMod (ESize (fst kv)) (ENum 8)) (ENum 0)]
                        end) (v_types m).
  Definition size_facts (p : list link) : res (list expr) :=
    let* facts := path_facts p in
    let* tc := type_constraints in
    Ok (facts ++ tc ++ field_size_constraints).
  Definition size_goal (p : list link) : expr := ERel ONe (EBin OMod (message_size p) (ENum 8)) (ENum 0).
  Definition prove_message_size : res (list string) :=
    let* ps := paths s n FINAL in
    first_error (map (fun p =>
      let q := removelast p in
      let* facts := size_facts q in
      let* a := ask (size_goal q) facts in
      Ok (match a with SAT => ["message size must be multiple of 8 bit"] | _ => [] end)) ps).

  (** verify, 602-618 *)
  Definition verify : res (list string) :=
    let* types := verify_expression_types in
    match types ++ verify_expressions with
    | e :: es => Ok (e :: es)
    | [] =>
      all_errors [prove_conflicting_conditions; prove_reachability; prove_contradictions;
                  prove_coverage; prove_overlays; prove_field_positions; prove_message_size]
    end.
End Verify.

(** Message.__init__, 584-600: the errors; no proofs after structural errors *)
Definition Message (solve : list expr -> answer) (n : nat) (m : vmessage) : res (list string) :=
  let* r := construct n (graph m) in
  let '(errors, fields) := r in
  match errors with
  | _ :: _ => Ok errors
  | [] => match v_structure m, v_types m with
          | [], [] => Ok []
          | _, _ => verify solve n m fields
          end
  end.
