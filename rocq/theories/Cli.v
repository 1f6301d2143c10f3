(** Model of the commands of rflx/cli.py after the arguments are parsed (argparse is left out).

    The files are what SpecLoad.v reads; what the rest of RecordFlux does with them is a parameter:
    the model that is created, the units that are generated, the graphs and the exported text (C57,
    C61, C63, C65, C66).  An entry of RecordFluxError is its line in the text of the error
    (error.py:103-113). *)
From Coq Require Import String Ascii List Bool Arith.
From Verif Require Import Base Ident SpecLoad.
From Verif Require GenUnits.
Import ListNotations.
Local Open Scope string_scope.
Local Open Scope list_scope.
Local Open Scope nat_scope.

(** what a function does: it returns, raises RecordFluxError with these lines, or ends otherwise *)
Inductive outcome (A : Type) := Ret (a : A) | Raise (lines : list string) | Crash (why : string).
Arguments Ret {A}. Arguments Raise {A}. Arguments Crash {A}.

(** Location, error.py:9-45: source, start and end *)
Record location := mkLoc { l_source : string; l_start : nat * nat; l_end : nat * nat }.
(** the dict locations of graph, cli.py:154 *)
Definition table := list (string * list (string * ((nat * nat) * (nat * nat)))).
(** the content of a file; the text that json.dump makes of locations is left out *)
Inductive data := Text (s : string) | Locations (t : table).
(** the files, by their paths, cli.py:175, 181, generator.py:2960 *)
Definition disk := path -> option data.
(** Path.is_file, cli.py:129 *)
Definition is_file (d : disk) (f : path) : bool := match d f with Some _ => true | None => false end.
(** open (p, "w") and write: create_file, generator.py:2957-2961, cli.py:174-176 and 181-182 *)
Definition write (d : disk) (p : path) (c : data) : disk := fun q => if path_eq q p then Some c else d q.
(** directory / name, generator.py:166, 179, 185, cli.py:159, 174 *)
Definition inside (dir : path) (name : string) : path := dir ++ [name].
(** str (Path), cli.py:109, 130, 151 *)
Definition path_text (p : path) : string := match p with [] => "." | _ => String.concat "/" p end.

(** str.split ("."), cli.py:105 and identifier.py:15 with the separator of ada.py:18-20 *)
Fixpoint split_dots (s : string) : list string :=
  match s with
  | EmptyString => [""]
  | String c r =>
    if Ascii.eqb c "."%char then "" :: split_dots r
    else match split_dots r with [] => [String c ""] | x :: l => String c x :: l end
  end.
(** a text in quotation marks, cli.py:106, 109, 130, 151 *)
Definition quoted (s : string) : string := (String (ascii_of_nat 34) "" ++ s ++ String (ascii_of_nat 34) "")%string.
(** the separator of the lines of an error, error.py:111 *)
Definition newline : string := String (ascii_of_nat 10) "".

(** dict assignment and access, cli.py:169 *)
Fixpoint assign {A} (d : list (string * A)) (k : string) (v : A) : list (string * A) :=
  match d with
  | [] => [(k, v)]
  | (k', w) :: r => if String.eqb k' k then (k', v) :: r else (k', w) :: assign r k v
  end.
Fixpoint access {A} (d : list (string * A)) (k : string) : option A :=
  match d with [] => None | (k', w) :: r => if String.eqb k' k then Some w else access r k end.

(** args, cli.py:22-84 *)
Inductive command :=
| Check (files : list path)
| Generate (prefix : string) (no_library : bool) (directory : path) (files : list path)
| Graph (fmt : string) (no_verification : bool) (directory : path) (files : list path)
| Export (files : list path) (output : path).
(** choices of --format, cli.py:70 *)
Definition formats : list string := ["dot"; "jpg"; "pdf"; "png"; "raw"; "svg"].

Section Cli.
  (** the parsed content of the files *)
  Context (fs : files).
  (** directories, Path.is_dir, cli.py:108, 150 *)
  Context (is_dir : path -> bool).
  (** the line of an entry of the parser *)
  Context (line : message -> string).
  (** Model; Parser.create_model, parser.py:1320-1333, with skip_verification *)
  Context (Model : Type) (create_model : bool -> specs -> outcome Model).
  (** Generator (...): the units with their files and texts, generator.py:142-154, 183-190; the text
      of library files, 156-175, and the license header *)
  Context (units : Model -> ident -> outcome (list (string * string))).
  Context (library_text : ident -> string -> string) (header : string).
  (** messages and sessions, cli.py:156, with their identifiers, graphs and locations *)
  Context (items : Model -> list (ident * (string -> outcome string) * location)).
  (** json.dump (model.serialize), cli.py:182 *)
  Context (exported : Model -> outcome string).

  (** the loop over the files in parse, cli.py:128-133 *)
  Fixpoint look_up (d : disk) (l : list path) (error : list string) (present : list path) : list string * list path :=
    match l with
    | [] => (error, present)
    | f :: r =>
      if is_file d f then look_up d r error (present ++ [f])
      else look_up d r (error ++ [("cli: error: file not found: " ++ quoted (path_text f))%string]) present
    end.
  (** parse, cli.py:123-146; the parser ends for [n] and [m] large enough, unless there are cycles (C30, C67) *)
  Definition parse_model (n m : nat) (d : disk) (l : list path) (skip : bool) : outcome Model :=
    let '(error, present) := look_up d l [] [] in
    match parse fs n m present with
    | Err why => Crash why
    | Ok (parse_errors, sp) =>
      let error := error ++ map line parse_errors in
      match create_model skip sp with
      | Crash why => Crash why
      | Ret model => match error with [] => Ret model | _ => Raise error end
      | Raise e => match error ++ e with [] => Crash "UnboundLocalError" | e' => Raise e' end
      end
    end.

  (** write_units and write_library_files: one file after the other *)
  Fixpoint write_all (d : disk) (dir : path) (l : list (string * string)) : disk :=
    match l with
    | [] => d
    | (name, text) :: r => write_all (write d (inside dir name) (Text text)) dir r
    end.
  (** Generator.__prefix, generator.py:144: ada.ID (prefix), identifier.py:15-33, or none *)
  Definition generator_prefix (prefix : string) : res ident :=
    if String.eqb prefix "" then Ok [] else check_parts (split_dots prefix).
  (** write_top_level_package, generator.py:177-181 *)
  Definition top_level (p : ident) : list (string * string) :=
    match p with
    | [] => []
    | _ => let name := String.concat "." p in
           [((GenUnits.file_name p ++ ".ads")%string,
             (header ++ "package " ++ name ++ " is" ++ newline ++ newline ++ "end " ++ name ++ ";")%string)]
    end.
  (** generate, cli.py:101-120 *)
  Definition generate_cmd (n m : nat) (d : disk) (prefix : string) (no_library : bool) (dir : path) (l : list path)
    : outcome unit * disk :=
    let prefix := if String.eqb prefix " " then "" else prefix in
    if negb (String.eqb prefix "") && existsb (String.eqb "") (split_dots prefix) then
      (Raise [("cli: error: invalid prefix: " ++ quoted prefix)%string], d)
    else if negb (is_dir dir) then (Raise [("cli: error: directory not found: " ++ quoted (path_text dir))%string], d)
    else match parse_model n m d l false with
         | Raise e => (Raise e, d)
         | Crash why => (Crash why, d)
         | Ret model =>
           match generator_prefix prefix with
           | Err e => (Raise [("id: error: " ++ e)%string], d)
           | Ok p =>
             match units model p with
             | Raise e => (Raise e, d)
             | Crash why => (Crash why, d)
             | Ret us =>
               let d := write_all d dir us in
               let d := if no_library then d
                        else write_all d dir (map (fun f => (f, library_text p f)) (GenUnits.library_files p)) in
               let d := if String.eqb prefix "RFLX" then write_all d dir (top_level p) else d in
               (Ret tt, d)
             end
           end
         end.

  (** with_suffix (f".{fmt}") of the flat name, cli.py:158-159: the name contains no dot *)
  Definition graph_name (i : ident) (fmt : string) : string := (GenUnits.flat_name i ++ "." ++ fmt)%string.
  (** locations[source][name] = ..., cli.py:169-172; locations is a defaultdict, 154 *)
  Definition add_location (t : table) (name : string) (loc : location) : table :=
    let inner := match access t (l_source loc) with Some i => i | None => [] end in
    assign t (l_source loc) (assign inner name (l_start loc, l_end loc)).
  (** the loop over messages and sessions, cli.py:156-172 *)
  Fixpoint write_graphs (d : disk) (dir : path) (fmt : string) (l : list (ident * (string -> outcome string) * location)) (t : table)
    : outcome table * disk :=
    match l with
    | [] => (Ret t, d)
    | (i, graph, loc) :: r =>
      match graph fmt with
      | Raise e => (Raise e, d)
      | Crash why => (Crash why, d)
      | Ret g => write_graphs (write d (inside dir (graph_name i fmt)) (Text g)) dir fmt r (add_location t (GenUnits.flat_name i) loc)
      end
    end.
  (** graph, cli.py:149-176 *)
  Definition graph_cmd (n m : nat) (d : disk) (fmt : string) (no_verification : bool) (dir : path) (l : list path) : outcome unit * disk :=
    if negb (is_dir dir) then (Raise [("graph: error: directory not found: " ++ quoted (path_text dir))%string], d)
    else match parse_model n m d l no_verification with
         | Raise e => (Raise e, d)
         | Crash why => (Crash why, d)
         | Ret model =>
           match write_graphs d dir fmt (items model) [] with
           | (Ret t, d) => (Ret tt, write d (inside dir "locations.json") (Locations t))
           | (Raise e, d) => (Raise e, d)
           | (Crash why, d) => (Crash why, d)
           end
         end.
  (** check, cli.py:97-98 *)
  Definition check_cmd (n m : nat) (d : disk) (l : list path) : outcome unit * disk :=
    match parse_model n m d l false with
    | Raise e => (Raise e, d)
    | Crash why => (Crash why, d)
    | Ret _ => (Ret tt, d)
    end.
  (** export, cli.py:179-182: the file is emptied when it is opened *)
  Definition export_cmd (n m : nat) (d : disk) (l : list path) (output : path) : outcome unit * disk :=
    match parse_model n m d l false with
    | Raise e => (Raise e, d)
    | Crash why => (Crash why, d)
    | Ret model =>
      match exported model with
      | Ret s => (Ret tt, write d output (Text s))
      | Raise e => (Raise e, write d output (Text ""))
      | Crash why => (Crash why, write d output (Text ""))
      end
    end.

  (** what the process does: it ends with status 0 or with a text on standard error (and status 1), or
      with an unexpected exception *)
  Inductive ending := Success | Failure (text : string) | Unexpected (why : string).
  (** main, cli.py:84-94 *)
  Definition main (n m : nat) (d : disk) (c : command) : ending * disk :=
    let '(o, d) :=
      match c with
      | Check l => check_cmd n m d l
      | Generate prefix no_library dir l => generate_cmd n m d prefix no_library dir l
      | Graph fmt no_verification dir l => graph_cmd n m d fmt no_verification dir l
      | Export l output => export_cmd n m d l output
      end in
    (match o with
     | Ret _ => Success
     | Raise lines => Failure (String.concat newline lines)
     | Crash why => Unexpected why
     end, d).
End Cli.
