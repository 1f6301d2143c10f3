(** Model of rflx/identifier.py.

    An ID is the list of its parts; the source location is dropped.  str.lower is
    modelled on ASCII letters; other characters are left alone. *)
From Coq Require Import String Ascii List Bool Arith.
From Verif Require Import Base.
Import ListNotations.
Local Open Scope string_scope.
Local Open Scope list_scope.
Local Open Scope nat_scope.
Local Open Scope res_scope.

(** an ID object: the attribute _parts, identifier.py:10-21 *)
Definition ident := list string.

(** str.split ("::"), identifier.py:14 with the separator of line 103-104: cut at
    the leftmost separator, then go on behind it *)
Fixpoint split (s : string) : list string :=
  match s with
  | EmptyString => [EmptyString]
  | String c r =>
    let other := match split r with
                 | h :: t => String c h :: t
                 | [] => [String c EmptyString]
                 end in
    if Ascii.eqb c ":" then
      match r with
      | String d r' => if Ascii.eqb d ":" then EmptyString :: split r' else other
      | EmptyString => other
      end
    else other
  end.

(** "c in part" for a single character, identifier.py:31 *)
Fixpoint has_char (c : ascii) (s : string) : bool :=
  match s with
  | EmptyString => false
  | String d r => Ascii.eqb c d || has_char c r
  end.

(** the checks of ID.__init__, identifier.py:24-33; only the first message of the
    error is kept *)
Definition check_parts (p : list string) : res ident :=
  match p with
  | [] => Err "empty identifier"
  | _ =>
    if existsb (String.eqb "") p then Err "empty part in identifier"
    else if existsb (has_char " ") p then Err "blank in identifier parts"
    else if existsb (has_char ".") p then Err "dot in identifier parts"
    else if existsb (has_char ":") p then Err "colon in identifier parts"
    else Ok p
  end.

(** ID (str), identifier.py:13-14; ID (list), 15-16; ID (ID), 17-19 *)
Definition id_of_string (s : string) : res ident := check_parts (split s).
Definition id_of_list (l : list string) : res ident := check_parts l.
Definition id_of_id (i : ident) : res ident := check_parts i.

(** str.lower *)
Definition lower_char (c : ascii) : ascii :=
  let n := nat_of_ascii c in
  if (65 <=? n) && (n <=? 90) then ascii_of_nat (n + 32) else c.
Fixpoint lower (s : string) : string :=
  match s with
  | EmptyString => EmptyString
  | String c r => String (lower_char c) (lower r)
  end.

(** all (f (s, o) for s, o in zip (a, b)) *)
Fixpoint all_zip (f : string -> string -> bool) (a b : list string) : bool :=
  match a, b with
  | x :: a', y :: b' => f x y && all_zip f a' b'
  | _, _ => true
  end.

(** ID.__eq__, identifier.py:35-40 *)
Definition id_eq (a b : ident) : bool :=
  if negb (List.length a =? List.length b) then false
  else all_zip (fun s o => String.eqb (lower s) (lower o)) a b.

(** the tuple that is hashed in ID.__hash__, identifier.py:47-48 *)
Definition id_hash (a : ident) : list string := map lower a.

(** ID.__str__, identifier.py:53-54 *)
Definition id_str (a : ident) : string := String.concat "::" a.

(** str < str: by character codes *)
Fixpoint str_lt (a b : string) : bool :=
  match a, b with
  | _, EmptyString => false
  | EmptyString, String _ _ => true
  | String x a', String y b' =>
    (nat_of_ascii x <? nat_of_ascii y) || (Ascii.eqb x y && str_lt a' b')
  end.

(** ID.__lt__, identifier.py:42-45 *)
Definition id_lt (a b : ident) : bool := str_lt (id_str a) (id_str b).

(** ID.__add__ 56-59 and __radd__ 61-64; [other] is the text of the operand *)
Definition id_add (a : ident) (other : string) : res ident := id_of_string (id_str a ++ other)%string.
Definition id_radd (a : ident) (other : string) : res ident := id_of_string (other ++ id_str a)%string.

(** ID.__mul__ 66-71 and __rmul__ 73-78 *)
Definition id_mul (a : ident) (other : string) : res ident :=
  if String.eqb other "" then id_of_id a else id_of_string (id_str a ++ "::" ++ other)%string.
Definition id_rmul (a : ident) (other : string) : res ident :=
  if String.eqb other "" then id_of_id a else id_of_string (other ++ "::" ++ id_str a)%string.

(** ID.name 95-96 and ID.parent 98-100 *)
Definition id_name (a : ident) : res ident := id_of_string (last a "").
Definition id_parent (a : ident) : res ident := id_of_list (removelast a).
