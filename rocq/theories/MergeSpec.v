(** What a message with message fields means, without reference to merging: the
    sequences of fields a parser may go through.  Independent of prefixed and merged. *)
From Coq Require Import String Ascii List ZArith Bool.
From Verif Require Import Base Expr ExprEval ExprFacts Ident TypeSpec MsgGraph Solver SolverFacts Verify VerifySpec GenSpec Merge.
Import ListNotations.
Local Open Scope string_scope.
Local Open Scope list_scope.
Local Open Scope Z_scope.

(** the world seen by a message whose names stand for other names *)
Definition under (r : string -> string) (g : env) : env := fun n =>
  match n with NVar x => g (NVar (r x)) | NAttr a x => g (NAttr a (r x)) end.

(** The name that [x] has outside if it is used by the message [i] put in the place of the
    field [p]: fields get the name of the place in front, names of literals the package
    of the message.  "Message" stands for the whole outer message. *)
Definition outer_name (p : string) (i : mmessage) (x : string) : string :=
  if memf x (map fst (mm_types i)) then (p ++ "_" ++ x)%string
  else if has_char ":" x || memf x ["true"; "false"; "message"] then x
  else var (mm_package i ++ [x]).

Definition holds (g : env) (l : link) : Prop := eval g (condition l) = Some (VBool true).
Definition value (g : env) (o : option expr) (v : option Z) : Prop :=
  match o, v with
  | None, None => True
  | Some e, Some z => eval g e = Some (VInt z)
  | _, _ => False
  end.

(** one field of a message without message fields: name, type, and the values of the
    size and first aspects if there are any *)
Record step := mkStep { s_field : field; s_type : mtype; s_size : option Z; s_first : option Z }.
(** the first aspect of a message field tells where its first field starts *)
Definition placed (v : option Z) (ss : list step) : list step :=
  match v, ss with
  | Some _, s :: t => mkStep (s_field s) (s_type s) (s_size s) v :: t
  | _, _ => ss
  end.

(** [run g m r a ss]: in the world [g] the message [m], whose names stand for those given
    by [r], may go from the field [a] to its end through the fields [ss].  A message field
    stands for the fields of its message. *)
Inductive run (g : env) : mmessage -> (string -> string) -> field -> list step -> Prop :=
| run_end m r a l : In l (mm_structure m) -> source l = a -> target l = FINAL -> holds (under r g) l -> run g m r a []
| run_field m r a l t z v ss : In l (mm_structure m) -> source l = a -> target l <> FINAL -> holds (under r g) l ->
    ftype_of (mm_types m) (target l) = Some (FType t) ->
    value (under r g) (lsize l) z -> value (under r g) (lfirst l) v ->
    run g m r (target l) ss ->
    run g m r a (mkStep (r (target l)) t z v :: ss)
| run_message m r a l i v ss1 ss2 : In l (mm_structure m) -> source l = a -> target l <> FINAL -> holds (under r g) l ->
    ftype_of (mm_types m) (target l) = Some (FMsg i) ->
    run g i (outer_name (r (target l)) i) INITIAL ss1 -> value (under r g) (lfirst l) v ->
    run g m r (target l) ss2 ->
    run g m r a (placed v ss1 ++ ss2).
Definition same (x : string) : string := x.

(** [occurs m r p i]: the message [i] is the type of a field below [m] that is called [p] *)
Inductive occurs : mmessage -> (string -> string) -> string -> mmessage -> Prop :=
| occurs_here m r x i : In (x, FMsg i) (mm_types m) -> occurs m r (r x) i
| occurs_below m r x i p j : In (x, FMsg i) (mm_types m) -> occurs i (outer_name (r x) i) p j -> occurs m r p j.

(** the expressions of the aspects of a link *)
Definition aspects (l : link) : list expr := opt_expr (lsize l) ++ opt_expr (lfirst l).

(** variables that are found when names are replaced: not below a logical negation, and
    not only negative *)
Fixpoint signed (e : expr) : list (name * bool) :=
  match e with
  | EName n s => [(n, s)]
  | ENot _ | ETrue | EFalse | ENum _ => []
  | EAss _ ts => flat_map signed ts
  | EBin _ l r | ERel _ l r => signed l ++ signed r
  end.
Fixpoint not_free (e : expr) : bool :=
  match e with
  | ENot x => match names x with [] => true | _ => false end
  | EName _ _ | ETrue | EFalse | ENum _ => true
  | EAss _ ts => forallb not_free ts
  | EBin _ l r | ERel _ l r => not_free l && not_free r
  end.
Definition replaceable (e : expr) : Prop :=
  not_free e = true /\
  forall x, In (NVar x, true) (signed e) -> In (NVar x, false) (signed e) \/ exists a b, In (NAttr a x, b) (signed e).

(** conditions that z3 understands in the way they are meant, and without expressions
    that the simplification distorts (see C01) *)
Definition clear (l : link) : Prop := plain (condition l) = Some ZBool /\ ok (condition l) = true.

Section Given.
  Variable order : list link -> list link.
  Variable n : nat.

  (** the object that the constructor of messages makes, without errors; no field is
      called Initial or Final, no link leaves the end *)
  Definition built (m : mmessage) : Prop :=
    (exists s ts, build order n [] (mm_proven m) (mm_package m) s ts = Ok ([], m) /\ NoDup (map fst ts) /\
       ~ In INITIAL (map fst ts) /\ ~ In FINAL (map fst ts)) /\
    forall l, In l (mm_structure m) -> source l <> FINAL.

  (** what is needed of a message to be put into another one *)
  Record mergeable (i : mmessage) : Prop := {
    mg_built : built i;
    mg_clear : forall l, In l (mm_structure i) -> clear l;
    mg_names : forall l e, In l (mm_structure i) -> In e (condition l :: aspects l) -> replaceable e;
    mg_aspects : forall l e, In l (mm_structure i) -> In e (aspects l) -> ok e = true;
    mg_start : forall l, In l (mm_structure i) -> source l = INITIAL -> condition l = ETrue /\ target l <> FINAL;
    mg_valid : no_always_valid (typed_part i);
    mg_modulus : modulus_known (typed_part i)
  }.
  (** what is needed of the outermost message *)
  Record mergeable_outer (m : mmessage) : Prop := {
    mo_built : built m;
    mo_clear : forall l, In l (mm_structure m) -> clear l;
    mo_inner : forall p i, occurs m same p i -> mergeable i
  }.
End Given.

(** the fields of [i] as they are called outside *)
Definition outside (p : string) (i : mmessage) : vmessage :=
  mkVMessage [] (map (fun kt => ((p ++ "_" ++ fst kt)%string, snd kt)) (plain_types (mm_types i))) (mm_package i).

(** a world in which all fields of inner messages have values of their types, and all
    sizes and positions are numbers *)
Definition world (m : mmessage) (g : env) : Prop :=
  int_env g /\
  forall p i, occurs m same p i ->
    legal (outside p i) g /\
    forall l e, In l (mm_structure i) -> In e (aspects l) -> exists z, eval (under (outer_name p i) g) e = Some (VInt z).

(** the number of message fields below a message *)
Fixpoint nested (m : mmessage) : nat :=
  match m with
  | MM _ _ _ ts _ =>
    (fix go (l : list (field * ftype)) : nat :=
       match l with
       | [] => 0
       | (_, FType _) :: t => go t
       | (_, FMsg i) :: t => S (nested i) + go t
       end)%nat ts
  end.

(** a loop without a bound on its iterations: as long as [next] gives something to do, the
    body is executed; an exception of the body ends the loop *)
Inductive loops {A B : Type} (next : A -> option B) (body : A -> B -> res A) : A -> res A -> Prop :=
| loops_done a : next a = None -> loops next body a (Ok a)
| loops_next a b a' r : next a = Some b -> body a b = Ok a' -> loops next body a' r -> loops next body a r
| loops_error a b why : next a = Some b -> body a b = Err why -> loops next body a (Err why).
