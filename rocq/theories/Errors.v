(** Model of RecordFluxError and fail, rflx/error.py.

    Containers are objects: the heap maps addresses to their deque of entries, so
    that sharing between containers would be visible.  An entry is kept as an
    opaque value (error.py:69-93, never modified after construction). *)
From Coq Require Import List Arith Bool.
Import ListNotations.
Local Open Scope list_scope.

Section Errors.
  Context {entry : Type}.

  (** the containers created so far, error.py:95-97; the address of a container is
      its index *)
  Definition heap := list (list entry).
  Definition get (h : heap) (i : nat) : list entry := nth i h [].
  Fixpoint put (h : heap) (i : nat) (v : list entry) : heap :=
    match h, i with
    | [], _ => []
    | _ :: t, O => v :: t
    | x :: t, S j => x :: put t j v
    end.

  (** the methods of RecordFluxError as operations of a history *)
  Inductive op :=
  | New                                  (* RecordFluxError (), 95-97 *)
  | Append (i : nat) (e : entry)         (* 133-136 *)
  | AppendLeft (i : nat) (e : entry)     (* 138-141 *)
  | ExtendList (i : nat) (l : list entry) (* 143-153, a list of tuples *)
  | Extend (i j : nat)                   (* 143-150, another container *)
  | IAdd (i j : nat)                     (* __iadd__, 123-127 *)
  | Plus (i j : nat).                    (* __add__, 115-121: a new container *)

  (** for-loop of extend, 151-153 *)
  Definition extend_list (d : list entry) (l : list entry) : list entry :=
    fold_left (fun d e => d ++ [e]) l d.

  Definition step (h : heap) (o : op) : heap :=
    match o with
    | New => h ++ [[]]
    | Append i e => put h i (get h i ++ [e])
    | AppendLeft i e => put h i (e :: get h i)
    | ExtendList i l => put h i (extend_list (get h i) l)
    | Extend i j | IAdd i j => put h i (get h i ++ get h j)
    | Plus i j =>
      let h1 := h ++ [[]] in
      let k := length h in
      let h2 := put h1 k (get h1 k ++ get h1 i) in
      put h2 k (get h2 k ++ get h2 j)
    end.
  Definition run (h : heap) (ops : list op) : heap := fold_left step ops h.

  (** check 155-156, propagate 158-160: [Some d] is "raised with the entries d" *)
  Definition check_ (d : list entry) : bool := 0 <? length d.
  Definition propagate (d : list entry) : option (list entry) := if check_ d then Some d else None.

  (** fail, error.py:163-171 *)
  Definition fail (e : entry) : option (list entry) := propagate ([] ++ [e]).
End Errors.
Arguments heap : clear implicits.
Arguments op : clear implicits.
