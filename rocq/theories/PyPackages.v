(** Model of the objects that PyRFLX hands out, rflx/pyrflx/pyrflx.py, rflx/pyrflx/package.py and the
    parts of rflx/pyrflx/typevalue.py that create and share objects (505-593, 887-900, 1162-1176,
    1255-1261).

    What the fields of a message hold is a parameter: PyMessage.v, PySkip.v and PyChecksum.v describe
    it for one object.  Here the objects have addresses, so that it can be said which of them share
    something.  The object of a message refers to the list of its refinements, which is replaced and
    never changed in place (572), and to its dict of checksums, which is shared with its clones (591).
    The values of EvaluatedExpression are left out: they are set before each use. *)
From Coq Require Import String List Bool Arith.
From Verif Require Import Base Ident Expr SpecLoad.
Import ListNotations.
Local Open Scope string_scope.
Local Open Scope list_scope.
Local Open Scope nat_scope.

(** the identifier of a type has two parts, type_.py:18-27 *)
Record mid := mkId { i_package : string; i_name : string }.
(** ID.__eq__, identifier.py:35-40 *)
Definition id_eqb (a b : mid) : bool :=
  String.eqb (lower (i_package a)) (lower (i_package b)) && String.eqb (lower (i_name a)) (lower (i_name b)).
(** Message: identifier, fields and the checksum fields, message.py:245-246 *)
Record message := mkMsg { m_id : mid; m_fields : list string; m_sums : list string }.
(** Refinement, message.py:1551-1576 *)
Record refinement := mkRef { r_pdu : mid; r_field : string; r_sdu : mid; r_condition : expr }.
(** the types of a model *)
Inductive mtype := TMessage (m : message) | TRefinement (r : refinement) | TOther (i : mid).
(** Model.messages, model.py:34-36 *)
Definition messages (l : list mtype) : list message :=
  flat_map (fun t => match t with TMessage m => [m] | _ => [] end) l.
(** Model.refinements, model.py:38-40 *)
Definition refinements (l : list mtype) : list refinement :=
  flat_map (fun t => match t with TRefinement r => [r] | _ => [] end) l.

(** access to a dict with keys of type str *)
Fixpoint access {A} (d : list (string * A)) (k : string) : option A :=
  match d with [] => None | (k', w) :: r => if String.eqb k' k then Some w else access r k end.
(** assignment to a dict with keys of type str: an existing key keeps its place *)
Fixpoint assign {A} (d : list (string * A)) (k : string) (v : A) : list (string * A) :=
  match d with
  | [] => [(k, v)]
  | (k', w) :: r => if String.eqb k' k then (k', v) :: r else (k', w) :: assign r k v
  end.
(** access to a dict with keys of type ID *)
Fixpoint access_id {A} (d : list (mid * A)) (k : mid) : option A :=
  match d with [] => None | (k', w) :: r => if id_eqb k' k then Some w else access_id r k end.
(** assignment to a dict with keys of type ID *)
Fixpoint assign_id {A} (d : list (mid * A)) (k : mid) (v : A) : list (mid * A) :=
  match d with
  | [] => [(k, v)]
  | (k', w) :: r => if id_eqb k' k then (k', v) :: r else (k', w) :: assign_id r k v
  end.
(** update of a function at one address *)
Definition put {A} (f : nat -> A) (a : nat) (x : A) : nat -> A := fun b => if Nat.eqb b a then x else f b.

Section Objects.
  (** what the fields of an object hold (it may refer to other objects, the elements of arrays); what
      __init__ gives for a message and skip_verification, typevalue.py:515-567 *)
  Context (F : Type) (start : message -> bool -> F).
  (** checksum functions *)
  Context (fn : Type).

  (** MessageValue.Checksum, typevalue.py:1162-1176 *)
  Record checksum := mkSum { c_field : string; c_function : option fn; c_calculated : bool }.
  (** RefinementValue, typevalue.py:1255-1261; the object of the SDU by its address *)
  Record rvalue := mkRV { v_pdu : mid; v_field : string; v_condition : expr; v_sdu : nat }.
  (** MessageValue, typevalue.py:505-567; _checksums by its address *)
  Record obj := mkObj { o_type : message; o_refs : list rvalue; o_skip : bool; o_state : F; o_sums : nat }.
  (** the objects and the dicts of checksums; addresses from [next] on are free *)
  Record heap := mkHeap { objs : nat -> option obj; sums : nat -> list checksum; next : nat }.
  (** PyRFLX.__packages, pyrflx.py:21, with Package.__messages, package.py:10 *)
  Definition packages := list (string * list (string * nat)).

  (** the checksums of a new object, typevalue.py:535-538 *)
  Definition new_sums (m : message) : list checksum := map (fun f => mkSum f None false) (m_sums m).
  (** MessageValue.__init__, typevalue.py:505-567; [shared] is state.checksums (532-538) *)
  Definition create (h : heap) (m : message) (refs : list rvalue) (skip : bool) (shared : option nat) : nat * heap :=
    let a := next h in
    let own := (a, mkHeap (put (objs h) a (Some (mkObj m refs skip (start m skip) a))) (put (sums h) a (new_sums m)) (S a)) in
    match shared with
    | None => own
    | Some k =>
      match sums h k with
      | [] => own
      | _ => (a, mkHeap (put (objs h) a (Some (mkObj m refs skip (start m skip) k))) (sums h) (S a))
      end
    end.
  (** add_refinement, typevalue.py:571-572 *)
  Definition add_refinement (h : heap) (a : nat) (v : rvalue) : heap :=
    match objs h a with
    | Some o => mkHeap (put (objs h) a (Some (mkObj (o_type o) (o_refs o ++ [v]) (o_skip o) (o_state o) (o_sums o)))) (sums h) (next h)
    | None => h
    end.
  (** clone, typevalue.py:574-593: the fields get new values (111-112, 268-269) *)
  Definition clone (h : heap) (a : nat) : res (nat * heap) :=
    match objs h a with
    | Some o => Ok (create h (o_type o) (o_refs o) (o_skip o) (Some (o_sums o)))
    | None => Err "no object"
    end.

  (** the loop over the messages in PyRFLX.__init__, pyrflx.py:24-30 *)
  Fixpoint add_messages (skip : bool) (l : list message) (h : heap) (ps : packages) (ms : list (mid * nat))
    : heap * packages * list (mid * nat) :=
    match l with
    | [] => (h, ps, ms)
    | m :: r =>
      let p := i_package (m_id m) in
      let q := match access ps p with Some q => q | None => [] end in
      let '(a, h) := create h m [] skip None in
      add_messages skip r h (assign ps p (assign q (i_name (m_id m)) a)) (assign_id ms (m_id m) a)
    end.
  (** the loop over the refinements, pyrflx.py:32-35 *)
  Fixpoint add_refinements (l : list refinement) (ms : list (mid * nat)) (h : heap) : res heap :=
    match l with
    | [] => Ok h
    | r :: t =>
      match access_id ms (r_pdu r) with
      | None => Err "KeyError"
      | Some a =>
        match access_id ms (r_sdu r) with
        | None => Err "KeyError"
        | Some b => add_refinements t ms (add_refinement h a (mkRV (r_pdu r) (r_field r) (r_condition r) b))
        end
      end
    end.
  (** nothing exists yet *)
  Definition nothing : heap := mkHeap (fun _ => None) (fun _ => []) 0.
  (** PyRFLX.__init__, pyrflx.py:16-35 *)
  Definition pyrflx (skip : bool) (l : list mtype) : res (packages * heap) :=
    let '(h, ps, ms) := add_messages skip (messages l) nothing [] [] in
    bind (add_refinements (refinements l) ms h) (fun h => Ok (ps, h)).

  (** the prototype of a message: PyRFLX.__getitem__, pyrflx.py:53-54, and Package.__messages, package.py:10 *)
  Definition prototype (ps : packages) (p n : string) : option nat :=
    match access ps p with Some q => access q n | None => None end.
  (** pyrflx[p][n]: PyRFLX.__getitem__, pyrflx.py:53-54, and Package.__getitem__, package.py:16-17 *)
  Definition look_up (ps : packages) (h : heap) (p n : string) : res (nat * heap) :=
    match prototype ps p n with Some a => clone h a | None => Err "KeyError" end.
  (** the objects that iteration gives for a package: PyRFLX.__iter__, pyrflx.py:56-57, and
      Package.__iter__, package.py:22-23 *)
  Definition iterated (ps : packages) : list (string * list nat) := map (fun e => (fst e, map snd (snd e))) ps.

  (** the loop over _checksums in set_checksum_function, typevalue.py:893-900 *)
  Fixpoint set_function (f : string) (g : fn) (cs : list checksum) : list checksum * res unit :=
    match cs with
    | [] => ([], Ok tt)
    | c :: t =>
      if String.eqb (c_field c) f then
        let '(t', r) := set_function f g t in (mkSum (c_field c) (Some g) (c_calculated c) :: t', r)
      else (c :: t, Err "has not been defined as a checksum field")
    end.
  (** set_checksum_function, typevalue.py:887-900 *)
  Fixpoint set_checksum_function (h : heap) (o : obj) (l : list (string * fn)) : heap * res unit :=
    match l with
    | [] => (h, Ok tt)
    | (f, g) :: t =>
      if negb (existsb (String.eqb f) (m_fields (o_type o))) then (h, Err "is not defined")
      else
        match set_function f g (sums h (o_sums o)) with
        | (cs, Err w) => (mkHeap (objs h) (put (sums h) (o_sums o) cs) (next h), Err w)
        | (cs, Ok _) => set_checksum_function (mkHeap (objs h) (put (sums h) (o_sums o) cs) (next h)) o t
        end
    end.
  (** Package.set_checksum_functions, package.py:25-27, of the package [q] *)
  Fixpoint set_checksum_functions (h : heap) (q : list (string * nat)) (l : list (string * list (string * fn))) : heap * res unit :=
    match l with
    | [] => (h, Ok tt)
    | (n, fs) :: t =>
      match access q n with
      | None => (h, Err "KeyError")
      | Some a =>
        match objs h a with
        | None => (h, Err "no object")
        | Some o =>
          match set_checksum_function h o fs with
          | (h', Err w) => (h', Err w)
          | (h', Ok _) => set_checksum_functions h' q t
          end
        end
      end
    end.

  (** the dicts of checksums that a method of an object can reach: its own and, because nested
      messages are clones of the SDUs (346, 780), those of the SDUs of its refinements *)
  Inductive reachable (h : heap) : nat -> nat -> Prop :=
  | Reach_own : forall a o, objs h a = Some o -> reachable h a (o_sums o)
  | Reach_sdu : forall a o v k, objs h a = Some o -> In v (o_refs o) -> reachable h (v_sdu v) k -> reachable h a k.
  (** what methods do to checksums, 972: calculated is set *)
  Definition later (c d : checksum) : Prop :=
    c_field d = c_field c /\ c_function d = c_function c /\ (c_calculated c = true -> c_calculated d = true).

  (** one call of the user; the object that is called is [Some a].  Methods of messages (set, parse,
      get, ...; 684-1105) may do anything to the state of their object *)
  Inductive step (ps : packages) : option nat -> heap -> heap -> Prop :=
  | SLookUp : forall p n h a h', look_up ps h p n = Ok (a, h') -> step ps None h h'
  | SClone : forall a h b h', clone h a = Ok (b, h') -> step ps None h h'
  | SMethod : forall a o s h h', objs h a = Some o ->
      objs h' a = Some (mkObj (o_type o) (o_refs o) (o_skip o) s (o_sums o)) ->
      (forall b, b <> a -> objs h' b = objs h b) -> next h' = next h ->
      (forall k, sums h' k = sums h k \/ reachable h a k /\ Forall2 later (sums h k) (sums h' k)) ->
      step ps (Some a) h h'
  | SFunction : forall a o l h h' r, objs h a = Some o -> set_checksum_function h o l = (h', r) -> step ps (Some a) h h'
  | SFunctions : forall p q l h h' r, access ps p = Some q -> set_checksum_functions h q l = (h', r) -> step ps None h h'.
  (** sequences of calls that do not call the objects in [but] *)
  Inductive steps (ps : packages) (but : nat -> Prop) : heap -> heap -> Prop :=
  | Steps_refl : forall h, steps ps but h h
  | Steps_next : forall who h h' h'', steps ps but h h' -> step ps who h' h'' ->
      (forall a, who = Some a -> ~ but a) -> steps ps but h h''.
End Objects.

(** from_specs, pyrflx.py:37-51: the files of SpecLoad.v, [create_model] is Parser.create_model and
    the constructor; only missing files, errors of the parser and the rest are told apart *)
Inductive creation (A : Type) := Created (a : A) | NotFound (p : path) | Erroneous (l : list SpecLoad.message) | Other (why : string).
Arguments Created {A}. Arguments NotFound {A}. Arguments Erroneous {A}. Arguments Other {A}.
(** the loop over the paths, pyrflx.py:45-47 *)
Fixpoint first_missing (is_file : path -> bool) (l : list path) : option path :=
  match l with [] => None | p :: r => if is_file p then first_missing is_file r else Some p end.
(** from_specs, pyrflx.py:37-51 *)
Definition from_specs {A} (is_file : path -> bool) (fs : files) (create_model : specs -> res A) (n m : nat) (l : list path) : creation A :=
  match first_missing is_file l with
  | Some p => NotFound p
  | None =>
    match parse fs n m l with
    | Err why => Other why
    | Ok (e :: es, _) => Erroneous (e :: es)
    | Ok ([], sp) => match create_model sp with Ok a => Created a | Err why => Other why end
    end
  end.
