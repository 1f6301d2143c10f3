(** Model of the check of checksum definitions, Message.__verify_checksums,
    rflx/model/message.py:767-863.

    Fields are taken by their identifier in lower case (MsgGraph.v); locations are dropped.
    [expr] (Expr.v) has no ValidChecksum: F'Valid_Checksum is written as a variable with a
    name that is no identifier.  The attribute is a Name like a Variable (expression.py:968,
    1061, 1133) and simplification treats both alike. *)
From Coq Require Import String List ZArith Bool.
From Verif Require Import Base Expr MsgGraph.
Import ListNotations.
Local Open Scope string_scope.
Local Open Scope list_scope.
Local Open Scope Z_scope.
Local Open Scope res_scope.

(** ValidChecksum, expression.py:1133-1144 *)
Definition suffix : string := "'valid_checksum".
Definition valid_checksum (f : field) : expr := EVar (f ++ suffix)%string.
(** isinstance (x, ValidChecksum): the prefix *)
Fixpoint checksum_name (x : string) : option field :=
  if String.eqb x suffix then Some ""
  else match x with
       | EmptyString => None
       | String c t => match checksum_name t with Some p => Some (String c p) | None => None end
       end.

(** a parameter of a checksum: the expressions built by create_message_aspects,
    specification/parser.py:957-977; ValueRange, expression.py:1864-1906 *)
Inductive parameter := Plain (e : expr) | ValueRange (lower upper : expr).

(** findall for Variable, with the flag negative: expression.py:163-164 (nothing is found
    below a negation), 337-342, 432-436, 1078-1079 *)
Fixpoint find_variables (e : expr) : list (string * bool) :=
  match e with
  | EName (NVar x) s => [(x, s)]
  | EName (NAttr _ x) _ => [(x, false)]
  | EAss _ ts => flat_map find_variables ts
  | EBin _ l r | ERel _ l r => find_variables l ++ find_variables r
  | ENot _ | ETrue | EFalse | ENum _ => []
  end.
(** findall for ValidChecksum in a condition *)
Fixpoint find_checksums (e : expr) : list field :=
  match e with
  | EName (NVar x) _ => match checksum_name x with Some f => [f] | None => [] end
  | EAss _ ts => flat_map find_checksums ts
  | EBin _ l r | ERel _ l r => find_checksums l ++ find_checksums r
  | EName _ _ | ENot _ | ETrue | EFalse | ENum _ => []
  end.

(** valid_lower, 768-774 *)
Definition valid_lower (e : expr) : bool :=
  match e with
  | EName (NAttr AFirst _) _ => true
  | EAss OAdd [EName (NAttr ALast _) _; ENum z] => z =? 1
  | _ => false
  end.
(** valid_upper, 776-781 *)
Definition valid_upper (e : expr) : bool :=
  match e with
  | EName (NAttr ALast _) _ => true
  | EBin OSub (EName (NAttr AFirst _) _) (ENum z) => z =? 1
  | _ => false
  end.

Section Verify.
  (** structure and fields of the message; fuel of paths and of the simplification *)
  Variables (s : list link) (fields : list field) (n m : nat).

  (** the errors for one expression, 792-840; ValueRange does not define findall
      (expression.py:163-164), so that the variables of a range are not looked up *)
  Definition parameter_errors (p : parameter) : res (list string) :=
    match p with
    | Plain e =>
      Ok ((match e with
           | EName (NVar _) _ | EName (NAttr ASize _) _ => []
           | _ => ["unsupported expression in definition of checksum"]
           end)
          ++ flat_map (fun v => if memf (fst v) fields then [] else ["unknown field referenced in definition of checksum"])
                      (find_variables e))
    | ValueRange lower upper =>
      let supported := if valid_lower lower && valid_upper upper then []
                       else ["unsupported expression in definition of checksum"] in
      match find_variables lower, find_variables upper with
      | (x, sx) :: _, (y, sy) :: _ =>
        if String.eqb x y && Bool.eqb sx sy then Ok supported
        else
          let upper_field := if String.eqb y "message" then FINAL else y in
          let lower_field := if String.eqb x "message" then INITIAL else x in
          let* ps := paths s n upper_field in
          Ok (supported
              ++ flat_map (fun p => if existsb (fun l => String.eqb lower_field (source l)) p then []
                                    else ["invalid range in definition of checksum"]) ps)
      | _, _ => Err "IndexError"
      end
    end.

  (** __verify_checksums, 783-863; [checksums] is a dict *)
  Definition verify_checksums (checksums : list (field * list parameter)) : res (list string) :=
    let* es := mapr (fun c =>
                 let* ps := mapr parameter_errors (snd c) in
                 Ok ((if memf (fst c) fields then [] else ["checksum definition for unknown field"]) ++ concat ps))
               checksums in
    let* c := field_condition s n m FINAL in
    let checked := find_checksums c in
    Ok (concat es
        ++ flat_map (fun f => if memf f checked then [] else ["no validity check of checksum"]) (map fst checksums)
        ++ flat_map (fun f => if memf f (map fst checksums) then [] else ["validity check for undefined checksum"]) checked).
End Verify.
