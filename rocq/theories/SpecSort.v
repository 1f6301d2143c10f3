(** Model of the loading and ordering of specification files,
    rflx/specification/parser.py:1189-1306.

    A file is known by its name; the name of the withed file is computed from the
    withed package (1237) and packages and files are identified (check_naming
    reports an error if they differ, and "duplicate specification" 1242-1260 is only
    possible for files of different directories).  The content of a file is the list
    of the packages in its with clauses; a missing or unreadable file has none. *)
From Coq Require Import String List Arith Bool.
From Verif Require Import Base Expr.
Import ListNotations.
Local Open Scope string_scope.
Local Open Scope list_scope.
Local Open Scope res_scope.

Definition file := string.
Definition mem (x : file) (l : list file) : bool := existsb (String.eqb x) l.

(** OrderedDict: lookup and assignment (an existing key keeps its place) *)
Definition dict := list (file * list file).
Fixpoint dget (d : dict) (f : file) : option (list file) :=
  match d with
  | [] => None
  | (k, v) :: t => if String.eqb k f then Some v else dget t f
  end.
Fixpoint dset (d : dict) (f : file) (v : list file) : dict :=
  match d with
  | [] => [(f, v)]
  | (k, w) :: t => if String.eqb k f then (k, v) :: t else (k, w) :: dset t f v
  end.
Definition keys (d : dict) : list file := map fst d.

Section Parser.
  (** the files and their with clauses *)
  Variable fs : dict.

  (** the loop over the with clauses in __convert_unit 1216-1240; [rec] stands for
      self.__parse_specfile *)
  Fixpoint parse_items (rec : file -> list file -> dict -> res (list string * dict))
      (transitions items : list file) (errs : list string) (withed : list file) (specs : dict)
    : res (list string * list file * dict) :=
    match items with
    | [] => Ok (errs, withed, specs)
    | item :: rest =>
      if mem item transitions then
        parse_items rec transitions rest (errs ++ ["dependency cycle"]) withed specs
      else
        let withed' := withed ++ [item] in
        if mem item (keys specs) then parse_items rec transitions rest errs withed' specs
        else
          let* r := rec item (transitions ++ [item]) specs in
          parse_items rec transitions rest (errs ++ fst r) withed' (snd r)
    end.
  (** __parse_specfile 1265-1273 and __convert_unit 1206-1263; the arguments are the
      file, "transitions" and self.__specifications, the result are the errors and
      the new specifications; the fuel bounds the nesting *)
  Fixpoint parse_specfile (n : nat) (f : file) (transitions : list file) (specs : dict)
    : res (list string * dict) :=
    match n with
    | O => Err out_of_fuel
    | S k =>
      match dget fs f with
      | None => Ok (["unreadable"], specs)
      | Some items =>
        let* r := parse_items (parse_specfile k) transitions items [] [] specs in
        let '(errs, withed, specs') := r in
        Ok (errs, dset specs' f withed)
      end
    end.

  (** __sort_specs_topologically 1275-1298; [incoming] 1281-1285 *)
  Section Sort.
    Variable specs : dict.
    Definition includers (d : file) : list file :=
      map fst (filter (fun kv => mem d (snd kv)) specs).
    (** the inner loop 1293-1296 *)
    Fixpoint visit (ws : list file) (visited queue : list file) : list file * list file :=
      match ws with
      | [] => (visited, queue)
      | e :: t =>
        let visited' := e :: visited in
        let queue' := if mem e (keys specs) && forallb (fun x => mem x visited') (includers e)
                      then queue ++ [e] else queue in
        visit t visited' queue'
      end.
    (** the outer loop 1290-1296; [popped] are the popped files in order, so that
        "result" is its reverse *)
    Fixpoint sort_loop (n : nat) (queue popped visited : list file) : res (list file) :=
      match queue with
      | [] => Ok popped
      | f :: rest =>
        match n with
        | O => Err out_of_fuel
        | S k =>
          match dget specs f with
          | None => Err "KeyError"
          | Some ws =>
            let '(visited', queue') := visit ws visited rest in
            sort_loop k queue' (popped ++ [f]) visited'
          end
        end
      end.
    (** 1287-1298; OrderedDict (... for f in result): a repeated key keeps its first place *)
    Definition sort_specs (n : nat) : res (list file) :=
      let roots := filter (fun f => match includers f with [] => true | _ => false end) (keys specs) in
      let* popped := sort_loop n roots [] roots in
      Ok (unique String.eqb (rev popped)).
  End Sort.

  (** Parser.parse 1300-1306: the collected errors and the files in the order in
      which they are processed; [n] bounds the nesting, [m] the sorting loop *)
  Fixpoint parse_files (n : nat) (files : list file) (errs : list string) (specs : dict)
    : res (list string * dict) :=
    match files with
    | [] => Ok (errs, specs)
    | f :: t =>
      let* r := parse_specfile n f [] specs in
      parse_files n t (errs ++ fst r) (snd r)
    end.
  Definition parse (n m : nat) (files : list file) : res (list string * list file) :=
    let* r := parse_files n files [] [] in
    let* order := sort_specs (snd r) m in
    Ok (fst r, order).
End Parser.
