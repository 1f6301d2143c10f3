(** Specification of what it means that a buffer contains a message: a sequence of
    fields along the links of the graph whose conditions hold, each at its place in
    the buffer.  Independent of the generated code: there are no cursors. *)
From Coq Require Import String List ZArith Bool.
From Verif Require Import Expr ExprEval MsgGraph AdaTypes AdaBuffer AdaBufferFacts GenCode.
Import ListNotations.
Local Open Scope string_scope.
Local Open Scope list_scope.
Local Open Scope Z_scope.

(** a field found in the buffer: first and last bit and, for a scalar, its value *)
Record entry := mkEntry { e_fld : field; e_first : Z; e_last : Z; e_val : Z }.

Section Spec.
  Variable s : list link.
  Variable fields : list field.
  Variable types : field -> ftype.
  Variable constants : name -> option Z.

  Section Bounds.
    Variables first last : Z.

    (** what the names in conditions mean after the fields [es] *)
    Definition env_of (es : list entry) : env := fun n =>
      let const := match constants n with Some z => z | None => 0 end in
      let id := match n with NVar id | NAttr _ id => id end in
      match find (fun e => String.eqb (e_fld e) id) es with
      | Some e => VInt match n with
                       | NVar _ => e_val e
                       | NAttr AFirst _ => e_first e
                       | NAttr ALast _ => e_last e
                       | NAttr ASize _ => e_last e - e_first e + 1
                       | NAttr ALength _ => 0
                       end
      | None => VInt match n with
                     | NVar _ => const
                     | NAttr a id =>
                       if String.eqb id "message" then
                         match a with
                         | AFirst => first | ALast => last | ASize => last - first + 1 | ALength => 0
                         end
                       else const
                     end
      end.

    (** the last field of a sequence and the bit behind it *)
    Definition last_fld (es : list entry) : field := List.last (map e_fld es) INITIAL.
    Definition end_bit (es : list entry) : Z := List.last (map e_last es) (first - 1).

    Definition holds (es : list entry) (l : link) : Prop :=
      eval_sc (env_of es) (condition l) = Some (VBool true).
    Definition means (es : list entry) (o : option expr) (z : Z) : Prop :=
      exists e, o = Some e /\ eval_sc (env_of es) e = Some (VInt z).

    (** [f] comes after [es] and occupies the bits [a] to [b] *)
    Definition place (es : list entry) (f : field) (a b : Z) : Prop :=
      exists l size, In l s /\ source l = last_fld es /\ target l = f /\ f <> FINAL /\ holds es l /\
        match lfirst l with None => a = end_bit es + 1 | o => means es o a end /\
        match types f with FScalar z _ => size = z | FComposite => means es (lsize l) size end /\
        0 <= size /\ b = a + size - 1 /\ first <= a /\ b <= last.

    (** the value of a scalar is given by its bits in the buffer and is valid *)
    Definition content (buf : buffer) (e : entry) : Prop :=
      match types (e_fld e) with
      | FScalar size vd => 0 <= e_val e < 2 ^ size /\
          (forall k, 0 <= k < size -> Z.testbit (e_val e) k = bit_at buf (e_last e - k)) /\
          vd (e_val e) = true
      | FComposite => e_val e = 0
      end.

    (** some link leads on *)
    Definition leads_on (es : list entry) : Prop :=
      exists l, In l s /\ source l = last_fld es /\ holds es l.

    Definition step (buf : buffer) (es : list entry) (e : entry) : Prop :=
      place es (e_fld e) (e_first e) (e_last e) /\ content buf e /\ leads_on (es ++ [e]).

    (** the buffer starts with the fields [es] *)
    Inductive run (buf : buffer) : list entry -> Prop :=
    | run_nil : run buf []
    | run_snoc es e : run buf es -> step buf es e -> run buf (es ++ [e]).

    (** the message ends after [es] *)
    Definition complete (buf : buffer) (es : list entry) : Prop :=
      run buf es /\ exists l, In l s /\ source l = last_fld es /\ target l = FINAL /\ holds es l.
  End Bounds.

  (** at most one link leads on (established by message verification, C26) *)
  Definition deterministic : Prop := forall first last buf es l1 l2,
    run first last buf es -> In l1 s -> In l2 s -> source l1 = last_fld es -> source l2 = last_fld es ->
    holds first last es l1 -> holds first last es l2 -> l1 = l2.

  (** no field is placed over another one *)
  Definition no_overlay : Prop := forall l, In l s -> lfirst l = None.
End Spec.

(** the names in an expression *)
Fixpoint names (e : expr) : list name :=
  match e with
  | ETrue | EFalse | ENum _ => []
  | EName n _ => [n]
  | ENot a => names a
  | EAss _ ts => flat_map names ts
  | EBin _ l r | ERel _ l r => names l ++ names r
  end.
Definition name_id (n : name) : string := match n with NVar id | NAttr _ id => id end.

(** a link mentions only fields up to its source (established by the path-wise type
    check, message.py:655-706) *)
Definition scoped (s : list link) (fields : list field) : Prop :=
  forall l e n, In l s -> In e (condition l :: opt_expr (lsize l) ++ opt_expr (lfirst l)) -> In n (names e) ->
    In (name_id n) fields -> source l <> INITIAL /\ In (name_id n) (before (source l) fields ++ [source l]).
