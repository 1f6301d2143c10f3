(** Model of rflx/templates/rflx_message_sequence.{ads,adb} together with the part of a
    generated message package it is instantiated with (generator.py:2447-2475):
    Initialize (generator.py:720-820), Take_Buffer (866-903), Message_Last, Valid_Message
    and the part of the context predicate that is independent of the message
    (common.py:398-428, 477-488).

    A procedure returns [Err] if its precondition, the precondition of a procedure it
    calls, or the predicate of a resulting context is violated.  An access value is the
    number of the buffer it designates together with the buffer, or nothing (null). *)
From Coq Require Import String List ZArith Bool.
From Verif Require Import Base AdaTypes AdaBuffer.
Import ListNotations.
Local Open Scope string_scope.
Local Open Scope list_scope.
Local Open Scope Z_scope.
Local Open Scope res_scope.

(** Types.Bytes_Ptr *)
Definition pointer := option (nat * buffer).

(** type Context, ads:165-183 *)
Record context := mkContext {
  buffer_first : Z; buffer_last : Z; first : Z; last : Z;
  sequence_last : Z; buf : pointer; state_valid : bool
}.
(** type Element_Context: the discriminants and components of a generated context
    (generator.py:539-621), with the result of Valid_Message *)
Record econtext := mkEContext {
  e_buffer_first : Z; e_buffer_last : Z; e_first : Z; e_last : Z;
  e_message_last : Z; e_buf : pointer; e_valid_message : bool
}.

Section MessageSequence.
  Variable index_last : Z.       (** Types.Index'Last *)
  (** rflx_generic_types.ads:30-34 *)
  Definition bit_last : Z := 8 * index_last.

  (** Dynamic_Predicate ads:171-183 *)
  Definition context_predicate (c : context) : bool :=
    match buf c with
    | Some (_, b) => (b_first b =? buffer_first c) && (b_last b =? buffer_last c)
    | None => true
    end
    && (buffer_first c <=? Byte_Index (first c))
    && (Byte_Index (last c) <=? buffer_last c)
    && (first c mod 8 =? 1)
    && (first c <=? last c)
    && (last c <=? bit_last - 1)
    && (first c - 1 <=? sequence_last c)
    && (sequence_last c <=? last c).
  Definition checked (c : context) : res context := check context_predicate c msg "context predicate"; Ok c.
  (** Valid_Context without the part about cursors, common.py:398-428,477-488 *)
  Definition econtext_predicate (e : econtext) : bool :=
    match e_buf e with
    | Some (_, b) => (b_first b =? e_buffer_first e) && (b_last b =? e_buffer_last e)
    | None => true
    end
    && (e_buffer_first e <=? Byte_Index (e_first e))
    && (Byte_Index (e_last e) <=? e_buffer_last e)
    && (e_first e <=? e_last e)
    && (e_last e <? bit_last)
    && (e_first e <=? e_message_last e)
    && (e_message_last e <=? e_last e).
  Definition echecked (e : econtext) : res econtext := check econtext_predicate e msg "element context predicate"; Ok e.

  (** ads:185-197 *)
  Definition has_element (c : context) : bool := state_valid c && (sequence_last c <? last c).
  Definition has_buffer (c : context) : bool := match buf c with Some _ => true | None => false end.
  Definition e_has_buffer (e : econtext) : bool := match e_buf e with Some _ => true | None => false end.

  (** Initialize with bounds ads:53-64, adb:12-16 *)
  Definition initialize_bounds (p : pointer) (bf bl f l : Z) : res (context * pointer) :=
    match p with
    | None => Err "Initialize precondition"
    | Some (_, b) =>
      check (b_first b =? bf) && (b_last b =? bl) && (b_first b <=? Byte_Index f) && (Byte_Index l <=? b_last b)
            && (f mod 8 =? 1) && (f <=? l) && (l <=? bit_last - 1)
        msg "Initialize precondition";
      let* c := checked (mkContext bf bl f l (f - 1) p true) in
      Ok (c, None)
    end.
  (** Initialize ads:31-36, adb:7-10 *)
  Definition initialize (p : pointer) : res (context * pointer) :=
    match p with
    | None => Err "Initialize precondition"
    | Some (_, b) =>
      check (0 <? Z.of_nat (length (b_data b))) && (b_last b <? index_last) msg "Initialize precondition";
      initialize_bounds p (b_first b) (b_last b) (First_Bit_Index (b_first b)) (Last_Bit_Index (b_last b))
    end.
  (** Take_Buffer ads:77-79, adb:18-22 *)
  Definition take_buffer (c : context) : res (context * pointer) :=
    check has_buffer c msg "Take_Buffer precondition";
    let* c' := checked (mkContext (buffer_first c) (buffer_last c) (first c) (last c) (sequence_last c) None (state_valid c)) in
    Ok (c', buf c).
  (** Initialize of the generated package, generator.py:732-750 (precondition), 776-816 *)
  Definition element_initialize (p : pointer) (f l : Z) : res (econtext * pointer) :=
    match p with
    | None => Err "Element_Initialize precondition"
    | Some (_, b) =>
      check (0 <? Z.of_nat (length (b_data b))) && (b_first b <=? Byte_Index f) && (Byte_Index l <=? b_last b)
            && (f <=? l) && (l <? bit_last)
        msg "Element_Initialize precondition";
      let* e := echecked (mkEContext (b_first b) (b_last b) f l f p false) in
      Ok (e, None)
    end.
  (** Take_Buffer of the generated package, generator.py:866-903 *)
  Definition element_take_buffer (e : econtext) : res (econtext * pointer) :=
    check e_has_buffer e msg "Element_Take_Buffer precondition";
    let* e' := echecked (mkEContext (e_buffer_first e) (e_buffer_last e) (e_first e) (e_last e) (e_message_last e) None (e_valid_message e)) in
    Ok (e', e_buf e).
  (** Switch: precondition ads:108-112, body adb:33-41 *)
  Definition switch (c : context) : res (context * econtext) :=
    check has_buffer c && has_element c && state_valid c msg "Switch precondition";
    let* c' := checked (mkContext (buffer_first c) (buffer_last c) (first c) (last c) (sequence_last c) None (state_valid c)) in
    let* r := element_initialize (buf c) (sequence_last c + 1) (last c) in
    Ok (c', fst r).
  (** Update: precondition ads:133-141, body adb:43-60 *)
  Definition update_pre (c : context) (e : econtext) : bool :=
    negb (has_buffer c) && e_has_buffer e && has_element c && state_valid c
    && (buffer_first c =? e_buffer_first e) && (buffer_last c =? e_buffer_last e)
    && (first c <=? e_first e) && (e_last e <=? last c).
  Definition update (c : context) (e : econtext) : res (context * econtext) :=
    check update_pre c e msg "Update precondition";
    let valid := e_valid_message e in
    let last_bit := if valid then e_message_last e else 1 in
    let* r := element_take_buffer e in
    let* c' := checked (mkContext (buffer_first c) (buffer_last c) (first c) (last c)
                 (if valid then last_bit else sequence_last c) (snd r)
                 (if valid then state_valid c else false)) in
    Ok (c', fst r).

  (** ** Histories: any number of sequence contexts, element contexts and access
      variables *)
  Record world := mkWorld {
    seqs : nat -> context;
    elems : nat -> econtext;
    vars : nat -> pointer
  }.
  (** assignment *)
  Definition upd {A} (f : nat -> A) (i : nat) (x : A) : nat -> A := fun j => if Nat.eqb j i then x else f j.
  Inductive action :=
  | AInit (s v : nat) (f l : Z)      (* Initialize (Seq, Var, Var'First, Var'Last, F, L) *)
  | ATake (s v : nat)                (* Take_Buffer (Seq, Var) *)
  | ASwitch (s e : nat)              (* Switch (Seq, Elem) *)
  | AUpdate (s e : nat)              (* Update (Seq, Elem) *)
  | AElemInit (e v : nat) (f l : Z)  (* Initialize (Elem, Var, F, L) *)
  | AElemTake (e v : nat)            (* Take_Buffer (Elem, Var) *)
  | AWork (e : nat) (b : buffer) (m : Z) (valid : bool).
      (* any calls of setters or Verify on Elem: new contents, Message_Last and
         Valid_Message *)
  Definition act (a : action) (w : world) : res world :=
    match a with
    | AInit s v f l =>
      match vars w v with
      | None => Err "Initialize precondition"
      | Some (_, b) =>
        let* r := initialize_bounds (vars w v) (b_first b) (b_last b) f l in
        Ok (mkWorld (upd (seqs w) s (fst r)) (elems w) (upd (vars w) v (snd r)))
      end
    | ATake s v =>
      let* r := take_buffer (seqs w s) in
      Ok (mkWorld (upd (seqs w) s (fst r)) (elems w) (upd (vars w) v (snd r)))
    | ASwitch s e =>
      let* r := switch (seqs w s) in
      Ok (mkWorld (upd (seqs w) s (fst r)) (upd (elems w) e (snd r)) (vars w))
    | AUpdate s e =>
      let* r := update (seqs w s) (elems w e) in
      Ok (mkWorld (upd (seqs w) s (fst r)) (upd (elems w) e (snd r)) (vars w))
    | AElemInit e v f l =>
      let* r := element_initialize (vars w v) f l in
      Ok (mkWorld (seqs w) (upd (elems w) e (fst r)) (upd (vars w) v (snd r)))
    | AElemTake e v =>
      let* r := element_take_buffer (elems w e) in
      Ok (mkWorld (seqs w) (upd (elems w) e (fst r)) (upd (vars w) v (snd r)))
    | AWork e b m valid =>
      let x := elems w e in
      match e_buf x with
      | None => Err "no buffer"
      | Some (n, _) =>
        let* x' := echecked (mkEContext (e_buffer_first x) (e_buffer_last x) (e_first x) (e_last x) m (Some (n, b)) valid) in
        Ok (mkWorld (seqs w) (upd (elems w) e x') (vars w))
      end
    end.
  Inductive history : world -> world -> Prop :=
  | history_nil w : history w w
  | history_cons w w' w'' a : history w w' -> act a w' = Ok w'' -> history w w''.
End MessageSequence.
