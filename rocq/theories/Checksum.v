(** Model of rflx/pyrflx/utils.py. *)
From Coq Require Import String List ZArith Bool.
From Verif Require Import Base Bitstring.
Import ListNotations.
Local Open Scope string_scope.
Local Open Scope list_scope.
Local Open Scope Z_scope.
Local Open Scope res_scope.

(** utils.py:2-5 *)
Definition add_ones_complement (num1 num2 : Z) : Z :=
  let m := Z.shiftl 1 16 in
  let result := num1 + num2 in
  if result <? m then result else (result + 1) mod m.

(** utils.py:7-9: checksum_bytes[i : i + 2] for even i; the last chunk of an odd
    number of bytes is a single byte *)
Fixpoint chunks (l : list Z) : list Z :=
  match l with
  | a :: b :: t => int_from_bytes [a; b] :: chunks t
  | [a] => [int_from_bytes [a]]
  | [] => []
  end.

(** utils.py:1-16 *)
Definition internet_checksum (checksum_bytes : list Z) : res Z :=
  match chunks checksum_bytes with
  | [] => Err "IndexError"
  | c0 :: cs =>
    Ok (Z.lxor (fold_left add_ones_complement cs c0) 65535)
  end.
