(** Model of rflx/pyrflx/bitstring.py.

    A Bitstring object is the list of its bits; the constructor's check that the
    text consists of 0 and 1 (lines 7-10, 51-53) is modelled for the texts
    produced by format().  Bytes are lists of [Z]. *)
From Coq Require Import String List ZArith Bool.
From Verif Require Import Base.
Import ListNotations.
Local Open Scope string_scope.
Local Open Scope list_scope.
Local Open Scope Z_scope.
Local Open Scope res_scope.

Definition bits := list bool.

(** int (text, 2) for a non-empty text of binary digits *)
Definition int_of (l : bits) : Z :=
  fold_left (fun a (b : bool) => 2 * a + (if b then 1 else 0)) l 0.

(** Bitstring.__int__, bitstring.py:32-33; int ("", 2) raises ValueError *)
Definition Bitstring_int (b : bits) : res Z :=
  match b with [] => Err "ValueError" | _ => Ok (int_of b) end.

(** binary digits of a positive number, most significant first *)
Fixpoint pos_digits (p : positive) : bits :=
  match p with
  | xH => [true]
  | xO q => pos_digits q ++ [false]
  | xI q => pos_digits q ++ [true]
  end.

(** format (v, f"0{w}b"): digits padded with zeros to the width; a negative
    number has a sign, which Bitstring's constructor (7-10) rejects *)
Definition format_b (v : Z) (w : nat) : res bits :=
  match v with
  | Zneg _ => Err "Bitstring does not consist of only 0 and 1"
  | _ =>
    let d := match v with Zpos p => pos_digits p | _ => [false] end in
    Ok (repeat false (w - length d) ++ d)
  end.

(** int.from_bytes (msg, "big") *)
Definition int_from_bytes (l : list Z) : Z := fold_left (fun a b => 256 * a + b) l 0.

(** Bitstring.from_bytes, bitstring.py:47-49 *)
Definition from_bytes (data : list Z) : res bits :=
  format_b (int_from_bytes data) (length data * 8).

(** Bitstring.__bytes__, bitstring.py:40-43: eight bits at a time, a shorter last
    group is read as a number of its own; [n] bounds the number of groups *)
Fixpoint to_bytes_aux (n : nat) (b : bits) : list Z :=
  match n, b with
  | S n', _ :: _ => int_of (firstn 8 b) :: to_bytes_aux n' (skipn 8 b)
  | _, _ => []
  end.
Definition to_bytes (b : bits) : list Z := to_bytes_aux (length b) b.

(** Bitstring.__getitem__ with a slice, bitstring.py:19-22, for non-negative
    bounds; no stop means to the end *)
Definition slice (b : bits) (start : nat) (stop : option nat) : res bits :=
  match stop with
  | Some e => if Nat.ltb (length b) e then Err "IndexError" else Ok (skipn start (firstn e b))
  | None => Ok (skipn start b)
  end.

(** Bitstring.__add__ 12-13, __iadd__ 15-17 *)
Definition badd (a b : bits) : bits := a ++ b.
(** Bitstring.join, bitstring.py:55-61 *)
Definition join (l : list bits) : bits := fold_left badd l [].
