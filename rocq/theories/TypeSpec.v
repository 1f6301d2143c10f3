(** Model of the scalar types of rflx/model/type_.py.

    A constructor returns the error messages it records and the object; [None]
    stands for an object left incomplete by an early "return".  [Err] is an
    exception raised while simplifying an expression.  Messages are abbreviated,
    locations dropped.  A type with recorded errors never gets into a model, but
    later declarations may look at it before the errors are raised
    (specification/parser.py:1369-1388, see SpecModel.v). *)
From Coq Require Import String Ascii List ZArith Bool.
From Verif Require Import Base Expr Ident.
Import ListNotations.
Local Open Scope string_scope.
Local Open Scope list_scope.
Local Open Scope Z_scope.
Local Open Scope res_scope.

(** int.bit_length: the digits of the absolute value *)
Definition bit_length (v : Z) : Z := if v =? 0 then 0 else Z.log2 (Z.abs v) + 1.

(** the objects: ModularInteger (type_.py:87-161) with the modulus expression and
    its value, RangeInteger (164-316), Enumeration (319-467) with the dict of
    literals in insertion order *)
Inductive scalar :=
| Modular (id : ident) (modulus : expr) (modulus_num : Z) (size : Z)
| Range (id : ident) (first last size : Z)
| Enum (id : ident) (literals : list (ident * Z)) (size : Z) (always_valid : bool).

(** Type.__init__, type_.py:15-30 *)
Definition type_errors (id : ident) : list string :=
  if Nat.eqb (List.length id) 2 then [] else ["invalid format of type identifier"].

(** "if b: self.error.append (m)" *)
Definition when (b : bool) (m : string) : list string := if b then [m] else [].

Section Types.
  (** fuel of the simplifier model *)
  Variable n : nat.
  Definition simp : expr -> res expr := simplify expr_eqb n.

  (** ModularInteger.__init__, type_.py:88-122 *)
  Definition ModularInteger (id : ident) (modulus : expr) : res (list string * option scalar) :=
    let* modulus_num := simp modulus in
    match modulus_num with
    | ENum m =>
      Ok (type_errors id
          ++ when (2 ^ 64 <? m) "modulus exceeds limit"
          ++ when ((m =? 0) || negb (Z.land m (m - 1) =? 0)) "modulus not power of two",
          Some (Modular id modulus m (bit_length (m - 1))))
    | _ => Ok (type_errors id ++ ["modulus contains variable"], None)
    end.

  (** RangeInteger.__init__, type_.py:165-250 *)
  Definition RangeInteger (id : ident) (first last size : expr) : res (list string * option scalar) :=
    let* first_num := simp first in
    let* last_num := simp last in
    let* size_num := simp size in
    let e1 := type_errors id ++ when (negb (is_num first_num)) "first contains variable" in
    match last_num with
    | ENum l =>
      let e2 := e1 ++ when (2 ^ 63 <=? l) "last exceeds limit"
                   ++ when (negb (is_num size_num)) "size contains variable" in
      match e2 with
      | _ :: _ => Ok (e2, None)
      | [] =>
        match first_num, size_num with
        | ENum f, ENum s =>
          Ok (when (f <? 0) "first negative"
              ++ when (l <? f) "range negative"
              ++ when (s <? bit_length l) "size too small"
              ++ when (64 <? s) "size exceeds limit",
              Some (Range id f l s))
        | _, _ => Err "AssertionError"
        end
      end
    | _ => Ok (e1 ++ ["last contains variable"], None)
    end.

  (** the pairs with i2 < i1 of the loops 332-346: one error per pair of equal names *)
  Fixpoint dup_names (seen l : list (ident * Z)) : list string :=
    match l with
    | [] => []
    | e1 :: t =>
      flat_map (fun e2 => when (id_eq (fst e1) (fst e2)) "duplicate literal") (rev seen)
      ++ dup_names (e1 :: seen) t
    end.

  (** self.literals[ID (k)] = v: dict assignment, type_.py:358 *)
  Fixpoint dict_set (d : list (ident * Z)) (k : ident) (v : Z) : list (ident * Z) :=
    match d with
    | [] => [(k, v)]
    | (k', v') :: t => if id_eq k k' then (k', v) :: t else (k', v') :: dict_set t k v
    end.
  (** type_.py:348-358 *)
  Definition bad_literal (k : ident) : bool := has_char " " (id_str k) || has_char "." (id_str k).
  Definition build_literals (l : list (ident * Z)) : list (ident * Z) :=
    fold_left (fun d kv => if bad_literal (fst kv) then d else dict_set d (fst kv) (snd kv)) l [].

  (** min and max over a non-empty list *)
  Definition minimum (x : Z) (l : list Z) : Z := fold_left Z.min l x.
  Definition maximum (x : Z) (l : list Z) : Z := fold_left Z.max l x.

  (** the loops 394-405: pairs with i1 < i2 of equal values *)
  Fixpoint dup_values (l : list Z) : list string :=
    match l with
    | [] => []
    | v1 :: t => flat_map (fun v2 => when (v1 =? v2) "duplicate enumeration value") t ++ dup_values t
    end.

  (** Enumeration.__init__, type_.py:320-415; 2 ** size is a float below 1 for a
      negative size and then equals no length *)
  Definition Enumeration (id : ident) (literals : list (ident * Z)) (size : expr) (always_valid : bool)
    : res (list string * option scalar) :=
    let d := build_literals literals in
    let e1 := type_errors id ++ dup_names [] literals
              ++ flat_map (fun kv => when (bad_literal (fst kv)) "invalid literal name") literals in
    let* size_num := simp size in
    match size_num with
    | ENum s =>
      let e2 := match map snd d with
                | [] => []
                | x :: l =>
                  when ((minimum x l <? 0) || (2 ^ 63 - 1 <? maximum x l)) "value outside of permitted range"
                  ++ when (s <? bit_length (maximum x l)) "size too small"
                end in
      let e3 := when (64 <? s) "size exceeds limit" in
      let e4 := dup_values (map snd d) in
      let e5 := when (always_valid && (0 <=? s) && (Z.of_nat (List.length d) =? 2 ^ s))
                     "unnecessary always-valid aspect" in
      Ok (e1 ++ e2 ++ e3 ++ e4 ++ e5, Some (Enum id d s always_valid))
    | _ => Ok (e1 ++ ["size contains variable"], None)
    end.

  (** ** Properties of the objects *)

  (** Scalar.size, type_.py:56-60 *)
  Definition type_size (t : scalar) : Z :=
    match t with Modular _ _ _ s => s | Range _ _ _ s => s | Enum _ _ s _ => s end.
  Definition type_id (t : scalar) : ident :=
    match t with Modular i _ _ _ => i | Range i _ _ _ => i | Enum i _ _ _ => i end.
  (** first and last: ModularInteger 132-140, RangeInteger 261-275 *)
  Definition type_first (t : scalar) : Z :=
    match t with Modular _ _ _ _ => 0 | Range _ f _ _ => f | Enum _ _ _ _ => 0 end.
  Definition type_last (t : scalar) : Z :=
    match t with Modular _ _ m _ => m - 1 | Range _ _ l _ => l | Enum _ _ _ _ => 0 end.

  (** the name of a variable for an identifier: variables are kept in lower case
      (see Expr.v) *)
  Definition var (i : ident) : string := lower (id_str i).
  Definition EVarI (i : ident) : expr := EVar (var i).

  (** const.py:3 *)
  Definition builtins : ident := ["__BUILTINS__"].

  (** package, type_.py:41-43: the parent of a two-part identifier *)
  Definition package (id : ident) : ident := removelast id.

  (** Enumeration.constraints, 438-446: the names the literals are known by;
      "package * l" is the concatenation of the parts (theorem C35_join) *)
  Definition literal_names (id : ident) (lits : list (ident * Z)) (same_package : bool)
    : list (ident * Z) :=
    let prefixed := map (fun kv => (package id ++ fst kv, snd kv)) lits in
    if id_eq (package id) builtins then lits
    else if same_package then lits ++ prefixed
    else prefixed.

  (** constraints: ModularInteger 142-151, RangeInteger 277-296, Enumeration
      435-459; [x] is the (lower-case) name of the constrained variable *)
  Definition constraints (t : scalar) (x : string) (proof same_package : bool) : res (list expr) :=
    match t with
    | Modular _ modulus _ size =>
      if proof then
        Ok [ERel OLt (EVar x) modulus; ERel OGe (EVar x) (ENum 0);
            ERel OEq (EName (NAttr ASize x) false) (ENum size)]
      else Ok [ETrue]
    | Range _ f l size =>
      if proof then
        Ok [ERel OGe (EVar x) (ENum f); ERel OLe (EVar x) (ENum l);
            ERel OEq (EName (NAttr ASize x) false) (ENum size)]
      else if f =? l then Ok [ERel OEq (EVar x) (ENum f)]
      else
        let* base_last := simp (EBin OSub (EBin OPow (ENum 2) (ENum size)) (ENum 1)) in
        let c1 := if negb (f =? 0) then ERel OGe (EVar x) (ENum f) else ETrue in
        let c2 := if negb (expr_eqb (ENum l) base_last)
                  then EAss OAnd [c1; ERel OLe (EVar x) (ENum l)] else c1 in
        let* c := simp c2 in
        Ok [c]
    | Enum id lits size _ =>
      if proof then
        let names := literal_names id lits same_package in
        Ok ([EAss OOr (map (fun kv => ERel OEq (EVar x) (EVarI (fst kv))) names)]
            ++ map (fun kv => ERel OEq (EVarI (fst kv)) (ENum (snd kv))) names
            ++ [ERel OEq (EName (NAttr ASize x) false) (ENum size)])
      else Ok [ETrue]
    end.
End Types.
