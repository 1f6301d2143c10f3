(** Model of the verification cache, rflx/specification/cache.py:1-59, and of its use
    in create_proven_message, rflx/specification/parser.py:1095-1104.

    json.dump of a dict of strings and json.load are given character by character for
    the texts json.dump can produce (characters other than double quote and backslash
    are written as they are; control characters and non-ASCII characters, which do not
    occur in identifiers and digests, are not treated).  The dict is an association
    list.  hashlib.md5 is a parameter. *)
From Coq Require Import String Ascii List Bool.
Import ListNotations.
Local Open Scope string_scope.
Local Open Scope list_scope.

Definition dict := list (string * string).
Fixpoint get (d : dict) (k : string) : option string :=
  match d with
  | [] => None
  | (k', v) :: t => if String.eqb k' k then Some v else get t k
  end.
Fixpoint set (d : dict) (k v : string) : dict :=
  match d with
  | [] => [(k, v)]
  | (k', w) :: t => if String.eqb k' k then (k', v) :: t else (k', w) :: set t k v
  end.

(** ** json.dump, cache.py:52 *)
Definition quote_char : ascii := """"%char.
Definition backslash : ascii := "\"%char.
Fixpoint escape (s : string) : string :=
  match s with
  | EmptyString => EmptyString
  | String c r =>
    if Ascii.eqb c quote_char || Ascii.eqb c backslash then String backslash (String c (escape r))
    else String c (escape r)
  end.
Definition quoted (s : string) : string := String quote_char (escape s ++ String quote_char "")%string.
Definition member (kv : string * string) : string := (quoted (fst kv) ++ ": " ++ quoted (snd kv))%string.
Fixpoint members (d : dict) : string :=
  match d with
  | [] => ""
  | [kv] => member kv
  | kv :: t => (member kv ++ ", " ++ members t)%string
  end.
Definition dump (d : dict) : string := ("{" ++ members d ++ "}")%string.

(** ** json.load, cache.py:45; None is json.JSONDecodeError *)
Fixpoint p_chars (s : string) : option (string * string) :=
  match s with
  | EmptyString => None
  | String c r =>
    if Ascii.eqb c quote_char then Some ("", r)
    else if Ascii.eqb c backslash then
      match r with
      | String c' r' =>
        if Ascii.eqb c' quote_char || Ascii.eqb c' backslash then
          match p_chars r' with Some (v, rest) => Some (String c' v, rest) | None => None end
        else None
      | EmptyString => None
      end
    else match p_chars r with Some (v, rest) => Some (String c v, rest) | None => None end
  end.
Definition p_string (s : string) : option (string * string) :=
  match s with
  | String c r => if Ascii.eqb c quote_char then p_chars r else None
  | EmptyString => None
  end.
Fixpoint p_expect (w s : string) : option string :=
  match w, s with
  | EmptyString, _ => Some s
  | String a w', String b s' => if Ascii.eqb a b then p_expect w' s' else None
  | _, EmptyString => None
  end.
Fixpoint p_members (n : nat) (s : string) : option (dict * string) :=
  match n with
  | O => None
  | S n' =>
    match p_string s with
    | None => None
    | Some (k, r1) =>
      match p_expect ": " r1 with
      | None => None
      | Some r2 =>
        match p_string r2 with
        | None => None
        | Some (v, r3) =>
          match p_expect "}" r3 with
          | Some r4 => Some ([(k, v)], r4)
          | None =>
            match p_expect ", " r3 with
            | None => None
            | Some r4 => match p_members n' r4 with Some (d, r5) => Some ((k, v) :: d, r5) | None => None end
            end
          end
        end
      end
    end
  end.
Definition p_object (n : nat) (s : string) : option (dict * string) :=
  match p_expect "{" s with
  | None => None
  | Some r => match p_expect "}" r with Some r' => Some ([], r') | None => p_members n r end
  end.
Definition json_load (s : string) : option dict :=
  match p_object (String.length s) s with
  | Some (d, EmptyString) => Some d
  | _ => None
  end.

(** ** The cache *)

(** the type of a field and its text: Array.__str__ type_.py:518-519 names the type of
    the elements only; the text of other types shows their whole definition *)
Inductive ftype := FArray (name element_name element_definition : string) | FOther (text : string).
Definition ftype_str (t : ftype) : string :=
  match t with
  | FArray n e _ => ("type " ++ n ++ " is array of " ++ e)%string
  | FOther x => x
  end.
(** a message: full_name, __str__ (message.py:154-178, made of the names of the fields
    and of their types and of the links), the types of the fields, and the aspects
    (checksums, message.py:116), which __str__ does not show *)
Record message := mkMessage {
  full_name : string;
  text : string;
  types : list ftype;
  checksums : list (string * list string)
}.

Section Cache.
  Variable md5 : string -> string.

  (** _message_hash 54-59; [version] is rflx.__version__ *)
  Definition message_hash (version : string) (m : message) : string :=
    md5 (version ++ "|" ++ text m ++ "|" ++ String.concat "|" (map ftype_str (types m)))%string.

  (** is_verified 24-30 *)
  Definition is_verified (version : string) (d : dict) (m : message) : bool :=
    match get d (full_name m) with
    | Some h => String.eqb h (message_hash version m)
    | None => false
    end.
  (** add_verified 32-42 without the writing of the file *)
  Definition add_verified (version : string) (d : dict) (m : message) : dict :=
    match get d (full_name m) with
    | Some h => if String.eqb h (message_hash version m) then d else set d (full_name m) (message_hash version m)
    | None => set d (full_name m) (message_hash version m)
    end.
  (** _load_cache 44-48: FileNotFoundError and JSONDecodeError leave the dict empty *)
  Definition load_cache (disk : option string) : dict :=
    match disk with
    | None => []
    | Some s => match json_load s with Some d => d | None => [] end
    end.

  (** The world: the file, the runs in progress (version and self._verification of
      each), and the messages verified so far (version and message). *)
  Record world := mkWorld {
    disk : option string;
    runs : list (string * dict);
    verified : list (string * message)
  }.
  (** What can happen, in any order:
      - a run starts, with any version (Cache.__init__ 14-22);
      - a run verifies a message with success (parser.py:1098-1102);
      - a run writes its dict (_write_cache 50-52), of which any part from the
        beginning can have reached the file: the run may be interrupted, or another
        run may read the file in the meantime;
      - a run ends, successfully or not;
      - the file is cut off or deleted. *)
  Inductive step : world -> world -> Prop :=
  | step_start v w : step w (mkWorld (disk w) ((v, load_cache (disk w)) :: runs w) (verified w))
  | step_verify a b v d m w : runs w = a ++ (v, d) :: b ->
      step w (mkWorld (disk w) (a ++ (v, add_verified v d m) :: b) ((v, m) :: verified w))
  | step_write v d p rest w : In (v, d) (runs w) -> dump d = (p ++ rest)%string ->
      step w (mkWorld (Some p) (runs w) (verified w))
  | step_end a b r w : runs w = a ++ r :: b -> step w (mkWorld (disk w) (a ++ b) (verified w))
  | step_cut p rest w : disk w = Some (p ++ rest)%string -> step w (mkWorld (Some p) (runs w) (verified w))
  | step_delete w : step w (mkWorld None (runs w) (verified w)).
  Inductive history : world -> Prop :=
  | history_start : history (mkWorld None [] [])
  | history_step w w' : history w -> step w w' -> history w'.
End Cache.
