(** Specification for C52: what the expressions and statements of a session mean.  At this
    commit sessions have neither documentation nor generated code; this is the reading
    their syntax suggests.  An evaluation ends with a value, raises an exception (a run-time
    condition the types do not exclude: a field that is not present, the head of an empty
    sequence, bytes that are no message, division by zero, a full sequence) or is [Stuck]:
    an operation is applied to something it is not defined for, or a name has no value. *)
From Coq Require Import String List ZArith Bool.
From Verif Require Import Expr Typing SessionType.
Import ListNotations.
Local Open Scope string_scope.
Local Open Scope list_scope.
Local Open Scope Z_scope.

(** an enumeration literal carries the name of its type; a message the name of its type
    and the values of the fields that are present; a private value the name of its type *)
Inductive value :=
| VInt (z : Z)
| VEnum (t l : string)
| VSeq (vs : list value)
| VMsg (t : string) (fs : list (string * value))
| VPrivate (t : string) (z : Z)
| VChannel (readable writable : bool).
Definition boolean : string := "__BUILTINS__::Boolean".
Definition VBool (b : bool) : value := VEnum boolean (if b then "True" else "False").

Inductive outcome (A : Type) := Val (a : A) | Raise | Stuck.
Arguments Val {A} a.
Arguments Raise {A}.
Arguments Stuck {A}.
Definition after {A B} (o : outcome A) (k : A -> outcome B) : outcome B :=
  match o with Val a => k a | Raise => Raise | Stuck => Stuck end.
Notation "'do' x '<-' o ';;' k" := (after o (fun x => k)) (at level 200, x name, o at level 100, k at level 200).

(** the environment of a session: functions, and the operations on messages which this
    specification leaves open *)
Record world := mkWorld {
  w_fields : string -> list string;                  (* the fields of a message type *)
  w_message : string -> string;                      (* the name of the type a type identifier denotes *)
  w_call : string -> list value -> outcome value;    (* functions *)
  w_attr : attr -> value -> Z;                       (* 'Size etc. of a value *)
  w_name : attr -> string -> Z;                      (* 'Size etc. of a variable or type *)
  w_checksum : value -> bool;
  w_valid : value -> bool;
  w_bytes : value -> list Z;                         (* the bytes of a message *)
  w_parse : string -> list value -> option (list (string * value));  (* bytes as a message of a type *)
  w_full : list value -> bool                        (* no room for this sequence *)
}.
Definition store := string -> option value.
Definition upd (st : store) (x : string) (v : value) : store := fun y => if String.eqb y x then Some v else st y.
Fixpoint upd_all (st : store) (l : list (string * value)) : store :=
  match l with [] => st | (x, v) :: r => upd (upd_all st r) x v end.

Fixpoint value_eqb (a b : value) : bool :=
  match a, b with
  | VInt x, VInt y => x =? y
  | VEnum t l, VEnum t' l' => String.eqb t t' && String.eqb l l'
  | VSeq vs, VSeq ws =>
    (fix go (vs ws : list value) : bool :=
       match vs, ws with [], [] => true | v :: r, w :: s => value_eqb v w && go r s | _, _ => false end) vs ws
  | VMsg t fs, VMsg t' fs' =>
    String.eqb t t'
    && (fix go (fs fs' : list (string * value)) : bool :=
       match fs, fs' with
       | [], [] => true
       | (f, v) :: r, (f', w) :: s => String.eqb f f' && value_eqb v w && go r s
       | _, _ => false
       end) fs fs'
  | VPrivate t x, VPrivate t' y => String.eqb t t' && (x =? y)
  | VChannel r w, VChannel r' w' => Bool.eqb r r' && Bool.eqb w w'
  | _, _ => false
  end.
(** values of the same kind can be compared *)
Definition comparable (a b : value) : bool :=
  match a, b with
  | VInt _, VInt _ | VSeq _, VSeq _ | VChannel _ _, VChannel _ _ => true
  | VEnum t _, VEnum t' _ | VMsg t _, VMsg t' _ | VPrivate t _, VPrivate t' _ => String.eqb t t'
  | _, _ => false
  end.

Definition to_int (v : value) : outcome Z := match v with VInt z => Val z | _ => Stuck end.
Definition to_bool (v : value) : outcome bool :=
  match v with
  | VEnum t l =>
    if String.eqb t boolean then if String.eqb l "True" then Val true else if String.eqb l "False" then Val false else Stuck
    else Stuck
  | _ => Stuck
  end.
Definition to_seq (v : value) : outcome (list value) := match v with VSeq vs => Val vs | _ => Stuck end.
Definition arith (o : binop) (x y : Z) : outcome Z :=
  match o with
  | OSub => Val (x - y)
  | ODiv => if y =? 0 then Raise else Val (x / y)
  | OPow => if y <? 0 then Raise else Val (x ^ y)
  | OMod => if y =? 0 then Raise else Val (x mod y)
  end.
Definition less (o : relop) (x y : Z) : bool :=
  match o with OLt => x <? y | OLe => x <=? y | OGe => y <=? x | OGt => y <? x | OEq => x =? y | ONe => negb (x =? y) end.

Definition each {A B} (f : A -> outcome B) : list A -> outcome (list B) :=
  fix go (l : list A) : outcome (list B) :=
  match l with
  | [] => Val []
  | a :: r => do b <- f a ;; do bs <- go r ;; Val (b :: bs)
  end.

Fixpoint eval (w : world) (st : store) (e : sx) : outcome value :=
  match e with
  | SBool b => Val (VBool b)
  | SNum z => Val (VInt z)
  | SVar x => match st x with Some v => Val v | None => Stuck end
  | SNot x => do v <- eval w st x ;; do b <- to_bool v ;; Val (VBool (negb b))
  | SAss o ts =>
    do vs <- each (eval w st) ts ;;
    match o with
    | OAdd => do zs <- each to_int vs ;; Val (VInt (fold_right Z.add 0 zs))
    | OMul => do zs <- each to_int vs ;; Val (VInt (fold_right Z.mul 1 zs))
    | OAnd | OAndThen => do bs <- each to_bool vs ;; Val (VBool (forallb id bs))
    | OOr | OOrElse => do bs <- each to_bool vs ;; Val (VBool (existsb id bs))
    end
  | SBin o l r =>
    do a <- eval w st l ;; do b <- eval w st r ;; do x <- to_int a ;; do y <- to_int b ;; do z <- arith o x y ;; Val (VInt z)
  | SRel o l r =>
    do a <- eval w st l ;; do b <- eval w st r ;;
    match o with
    | OEq | ONe => if comparable a b then Val (VBool (Bool.eqb (value_eqb a b) (match o with OEq => true | _ => false end))) else Stuck
    | _ => do x <- to_int a ;; do y <- to_int b ;; Val (VBool (less o x y))
    end
  | SIn positive l r =>
    do a <- eval w st l ;; do b <- eval w st r ;; do vs <- to_seq b ;; Val (VBool (Bool.eqb (existsb (value_eqb a) vs) positive))
  | SAttr a p =>
    match a, p with
    | SInt at_, SVar x => Val (VInt (w_name w at_ x))
    | SInt at_, _ => do v <- eval w st p ;; Val (VInt (w_attr w at_ v))
    | SValidChecksum, _ => do v <- eval w st p ;; Val (VBool (w_checksum w v))
    | SValid, _ =>
      do v <- eval w st p ;; match v with VSeq _ | VMsg _ _ => Val (VBool (w_valid w v)) | _ => Stuck end
    | SPresent, SSel q f =>
      do v <- eval w st q ;; match v with VMsg _ fs => Val (VBool (has f fs)) | _ => Stuck end
    | SPresent, _ => Stuck
    | SHead, _ =>
      do v <- eval w st p ;; do vs <- to_seq v ;; match vs with [] => Raise | h :: _ => Val h end
    | SOpaque, _ =>
      do v <- eval w st p ;; match v with VMsg _ _ => Val (VSeq (map VInt (w_bytes w v))) | _ => Stuck end
    end
  | SSel p f =>
    do v <- eval w st p ;;
    match v with
    | VMsg t fs =>
      if existsb (String.eqb f) (w_fields w t)
      then match assoc f fs with Some x => Val x | None => Raise end else Stuck
    | _ => Stuck
    end
  | SCall f args => do vs <- each (eval w st) args ;; w_call w f vs
  | SAgg es => do vs <- each (eval w st) es ;; Val (VSeq vs)
  | SQuant all x i p =>
    do v <- eval w st i ;; do vs <- to_seq v ;;
    do bs <- each (fun y => do b <- eval w (upd st x y) p ;; to_bool b) vs ;;
    Val (VBool (if all then forallb id bs else existsb id bs))
  | SConv t a =>
    do v <- eval w st a ;; do bs <- to_seq v ;;
    match w_parse w (w_message w t) bs with Some fs => Val (VMsg (w_message w t) fs) | None => Raise end
  | SCompr x a s c =>
    do v <- eval w st a ;; do vs <- to_seq v ;;
    do r <- each (fun y => do b <- eval w (upd st x y) c ;; do k <- to_bool b ;;
                           if k then do z <- eval w (upd st x y) s ;; Val [z] else Val []) vs ;;
    if w_full w (List.concat r) then Raise else Val (VSeq (List.concat r))
  | SMsg t fs =>
    (** the value of an opaque field may be a message, which is inserted as its bytes *)
    do vs <- each (fun p => match p with (f, x) =>
                     do v <- eval w st x ;; Val (f, match v with VMsg _ _ => VSeq (map VInt (w_bytes w v)) | _ => v end) end) fs ;;
    if w_full w (map snd vs) then Raise else Val (VMsg (w_message w t) vs)
  | SBind e data =>
    do vs <- each (fun p => match p with (x, d) => do v <- eval w st d ;; Val (x, v) end) data ;; eval w (upd_all st vs) e
  end.

(** ** statements *)
(** [received]: the message that is received for a message type, if any *)
Definition exec (w : world) (received : string -> option (list (string * value))) (st : store) (s : stmt) : outcome store :=
  match s with
  | Assignment x e => do v <- eval w st e ;; match st x with Some _ => Val (upd st x v) | None => Stuck end
  | Append x e =>
    match st x with
    | Some (VSeq vs) => do v <- eval w st e ;; if w_full w (vs ++ [v]) then Raise else Val (upd st x (VSeq (vs ++ [v])))
    | _ => Stuck
    end
  | Extend x e =>
    match st x with
    | Some (VSeq vs) => do v <- eval w st e ;; do us <- to_seq v ;; if w_full w (vs ++ us) then Raise else Val (upd st x (VSeq (vs ++ us)))
    | _ => Stuck
    end
  | Reset x =>
    match st x with
    | Some (VSeq _) => Val (upd st x (VSeq []))
    | Some (VMsg t _) => Val (upd st x (VMsg t []))
    | _ => Stuck
    end
  | Read c e =>
    match st c with
    | Some (VChannel true _) =>
      do v <- eval w st e ;;
      match v with
      | VMsg t _ =>
        match received t, e with
        | Some fs, SVar x => Val (upd st x (VMsg t fs))
        | _, _ => Val st
        end
      | _ => Stuck
      end
    | _ => Stuck
    end
  | Write c e =>
    match st c with
    | Some (VChannel _ true) => do v <- eval w st e ;; match v with VMsg _ _ => Val st | _ => Stuck end
    | _ => Stuck
    end
  end.

(** ** sessions *)
(** the effect of a declaration; [start] gives the value of a variable without an
    initial value from its type *)
Definition enter (w : world) (package : string) (start : string -> value) (st : store) (d : sdecl) : outcome store :=
  match d with
  | DVar x t None => Val (upd st x (start t))
  | DVar x _ (Some e) => do v <- eval w st e ;; Val (upd st x v)
  | DRenaming x t p f =>
    do v <- eval w st p ;;
    match v with
    | VMsg n fs =>
      if existsb (String.eqb f) (w_fields w n) then
        match assoc f fs with
        | None => Raise
        | Some b =>
          do bs <- to_seq b ;;
          match w_parse w (w_message w (qualified package t)) bs with
          | Some fs' => Val (upd st x (VMsg (w_message w (qualified package t)) fs'))
          | None => Raise
          end
        end
      else Stuck
    | _ => Stuck
    end
  | DChannel x r wr => Val (upd st x (VChannel r wr))
  | DFunction _ _ _ | DType _ _ => Val st
  end.

(** a session is in a state, or in none while its global declarations are processed *)
Inductive phase := Entering (ds : list sdecl) | Acting (ss : list stmt) | Deciding (ts : list (string * sx)).
Record config := mkConfig { c_state : option sstate; c_phase : phase; c_store : store }.
(** [Aborted]: an exception without an exception transition; [Fault]: an evaluation is
    stuck or the next state does not exist *)
Inductive progress := Next (c : config) | Done | Aborted | Fault.
Definition goto (s : session) (id : string) (st : store) : progress :=
  match find (fun q => String.eqb (st_id q) id) (se_states s) with
  | Some q => Next (mkConfig (Some q) (Entering (dict [] (st_declarations q))) st)
  | None => Fault
  end.
Definition exception (s : session) (c : config) : progress :=
  match c_state c with
  | Some q => match st_exception q with Some t => goto s t (c_store c) | None => Aborted end
  | None => Aborted
  end.
Definition step (w : world) (start : string -> value) (s : session) (received : string -> option (list (string * value))) (c : config) : progress :=
  match c_phase c with
  | Entering (d :: r) =>
    match enter w (se_package s) start (c_store c) d with
    | Val st => Next (mkConfig (c_state c) (Entering r) st)
    | Raise => exception s c
    | Stuck => Fault
    end
  | Entering [] =>
    match c_state c with
    | Some q => Next (mkConfig (c_state c) (Acting (st_actions q)) (c_store c))
    | None => goto s (se_initial s) (c_store c)
    end
  | Acting (a :: r) =>
    match exec w received (c_store c) a with
    | Val st => Next (mkConfig (c_state c) (Acting r) st)
    | Raise => exception s c
    | Stuck => Fault
    end
  | Acting [] =>
    match c_state c with Some q => Next (mkConfig (c_state c) (Deciding (st_transitions q)) (c_store c)) | None => Done end
  | Deciding ((t, e) :: r) =>
    match (do v <- eval w (c_store c) e ;; to_bool v) with
    | Val true => goto s t (c_store c)
    | Val false => Next (mkConfig (c_state c) (Deciding r) (c_store c))
    | Raise => exception s c
    | Stuck => Fault
    end
  | Deciding [] => Done
  end.
