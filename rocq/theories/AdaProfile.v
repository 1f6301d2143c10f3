(** Specification: how the text of a subprogram specification is read (Ada RM 6.1), independent of the
    printer; and that the printed text is read as the specification.  Parameters with defaults are left out. *)
From Coq Require Import String Ascii List Bool Arith Lia.
From Verif Require Import Base Ident ExprRead ExprReadFacts ExprPrint AdaStmt AdaStmtFacts AdaUnit.
Import ListNotations.
Local Open Scope string_scope.
Local Open Scope list_scope.

(** ** Grammar *)

(** a name: no reserved word that may stand in a profile *)
Definition entity_name (w : string) : bool :=
  identifier w && negb (existsb (String.eqb (lower w)) ["in"; "out"; "access"; "constant"; "return"; "procedure"; "function"; "is"; "with"; "renames"]).
(** defining_identifier_list ":" *)
Fixpoint defining (ts : list string) : option (list string * list string) :=
  match ts with
  | x :: w :: r =>
    if negb (entity_name x) then None
    else if String.eqb w ":" then Some ([x], r)
    else if String.eqb w "," then match defining r with Some (l, r') => Some (x :: l, r') | None => None end
    else None
  | _ => None
  end.
(** what stands between the colon and the type: the mode or access *)
Definition read_mode (ts : list string) : mode * list string :=
  match ts with
  | a :: r =>
    if String.eqb a "in" then
      match r with b :: r' => if String.eqb b "out" then (MInOut, r') else (MIn, r) | [] => (MIn, r) end
    else if String.eqb a "out" then (MOut, r)
    else if String.eqb a "access" then
      match r with b :: r' => if String.eqb b "constant" then (MAccess true, r') else (MAccess false, r) | [] => (MAccess false, r) end
    else (MIn, ts)
  | [] => (MIn, ts)
  end.
(** parameter_specification { ";" parameter_specification } ")" *)
Fixpoint parameters (n : nat) (ts : list string) : option (list (list string * mode * string) * list string) :=
  match n with
  | O => None
  | S k =>
    match defining ts with
    | Some (l, r) =>
      let (m, r) := read_mode r in
      match r with
      | t :: w :: r =>
        if negb (entity_name t) then None
        else if String.eqb w ")" then Some ([(l, m, t)], r)
        else if String.eqb w ";" then match parameters k r with Some (ps, r') => Some ((l, m, t) :: ps, r') | None => None end
        else None
      | _ => None
      end
    | None => None
    end
  end.
(** the parameters, if there are any *)
Definition profile (ts : list string) : option (list (list string * mode * string) * list string) :=
  match ts with
  | w :: r => if String.eqb w "(" then parameters (List.length ts) r else Some ([], ts)
  | [] => Some ([], ts)
  end.
(** procedure_specification or function_specification: name, parameters, type of the result *)
Definition subprogram_of (s : string) : option (string * list (list string * mode * string) * option string) :=
  match lex "" s with
  | kind :: x :: r =>
    if negb (entity_name x) then None
    else match profile r with
         | Some (ps, r) =>
           if String.eqb kind "procedure" then match r with [] => Some (x, ps, None) | _ => None end
           else if String.eqb kind "function" then
             match r with [w; t] => if String.eqb w "return" && entity_name t then Some (x, ps, Some t) else None | _ => None end
           else None
         | None => None
         end
  | _ => None
  end.

(** ** The text is read as the specification *)
Definition param_ok {X} (p : param X) : Prop :=
  p_ids p <> [] /\ Forall (fun x => entity_name x = true) (p_ids p) /\ entity_name (p_type p) = true /\ p_default p = None.
Definition spec_ok {X} (s : spec X) : Prop :=
  entity_name (s_id s) = true /\ Forall param_ok (s_params s) /\ match s_return s with Some t => entity_name t = true | None => True end.

Lemma entity_name_word x : entity_name x = true -> starts is_word x = true /\ all_word x = true.
Proof. unfold entity_name. intros H. apply andb_prop in H as [H _]. now apply identifier_word. Qed.
Lemma lex_name x r : entity_name x = true -> brk r -> lex "" (x ++ r)%string = x :: lex "" r.
Proof. intros H B. destruct (entity_name_word x H). now apply lex_word. Qed.
Lemma entity_not x w : entity_name x = true -> existsb (String.eqb w) ["in"; "out"; "access"; "constant"; "return"; "procedure"; "function"; "is"; "with"; "renames"] = true ->
  lower w = w -> String.eqb x w = false.
Proof.
  intros H E L. apply String.eqb_neq. intros ->. unfold entity_name in H. apply andb_prop in H as [_ H]. rewrite L, E in H. discriminate.
Qed.

Section Read.
  Context {X : Type} (xt : X -> string).
  Definition names_tokens (l : list string) : list string := sep_by "," (map (fun x => [x]) l).
  Definition mode_tokens (m : mode) : list string :=
    match m with MIn => [] | MOut => ["out"] | MInOut => ["in"; "out"] | MAccess c => if c then ["access"; "constant"] else ["access"] end.
  Definition param_tokens (p : param X) : list string := names_tokens (p_ids p) ++ ":" :: mode_tokens (p_mode p) ++ [p_type p].

  Lemma lex_comma r : lex "" (", " ++ r)%string = "," :: lex "" r.
  Proof. reflexivity. Qed.
  Lemma lex_semicolon r : lex "" ("; " ++ r)%string = ";" :: lex "" r.
  Proof. reflexivity. Qed.

  Lemma names_lexes l : l <> [] -> Forall (fun x => entity_name x = true) l -> lexes (commas l) (names_tokens l).
  Proof.
    intros N F. unfold commas, names_tokens. apply lex_join; [reflexivity|exact lex_comma| |exact N].
    clear N. induction F as [|x l H _ IH]; constructor; [|exact IH]. intros r B. now apply lex_name.
  Qed.
  Lemma param_lexes p : param_ok p -> lexes (param_text xt p) (param_tokens p).
  Proof.
    intros (N & F & T & D) r B. unfold param_text, param_tokens. rewrite D. cbn [default_text]. rewrite !app_assoc_s.
    rewrite (names_lexes _ N F) by reflexivity. rewrite <- app_assoc. f_equal. cbn [app].
    change (lex "" (" : " ++ mode_text (p_mode p) ++ p_type p ++ "" ++ r)%string) with (":" :: lex "" (mode_text (p_mode p) ++ p_type p ++ r)%string). f_equal.
    rewrite <- app_assoc. cbn [app]. rewrite <- (lex_name _ _ T B).
    destruct (p_mode p) as [| | |[]]; reflexivity.
  Qed.
  Definition params_tokens (l : list (param X)) : list string := match l with [] => [] | _ => "(" :: sep_by ";" (map param_tokens l) ++ [")"] end.
  Lemma params_lexes l r : Forall param_ok l -> lex "" (params_text xt l ++ r)%string = params_tokens l ++ lex "" r.
  Proof.
    intros F. destruct l as [|p l]; [reflexivity|]. unfold params_text, params_tokens. rewrite !app_assoc_s.
    assert (lexes (String.concat "; " (map (param_text xt) (p :: l))) (sep_by ";" (map param_tokens (p :: l)))) as L.
    { apply lex_join; [reflexivity|exact lex_semicolon| |discriminate]. clear r. induction F as [|x m H _ IH]; constructor; [now apply param_lexes|exact IH]. }
    match goal with |- lex "" (" (" ++ ?x)%string = _ => change (lex "" (" (" ++ x)%string) with (lex "" ("(" ++ x)%string) end.
    rewrite lex_open, L by reflexivity. rewrite lex_close. cbn [app]. now rewrite <- app_assoc.
  Qed.
  Lemma params_brk l r : brk r -> brk (params_text xt l ++ r)%string.
  Proof. destruct l; [trivial|reflexivity]. Qed.

  Lemma defining_read l r : l <> [] -> Forall (fun x => entity_name x = true) l -> defining (names_tokens l ++ ":" :: r) = Some (l, r).
  Proof.
    intros N F. induction F as [|x l H F IH]; [congruence|]. unfold names_tokens in *. destruct l as [|y l].
    - cbn [map sep_by app defining]. rewrite H. reflexivity.
    - specialize (IH ltac:(discriminate)). change (sep_by "," (map (fun x => [x]) (x :: y :: l))) with (x :: "," :: sep_by "," (map (fun x => [x]) (y :: l))).
      cbn [app]. cbn [defining]. rewrite H. cbn [negb]. replace (String.eqb "," ":") with false by reflexivity. rewrite String.eqb_refl, IH. reflexivity.
  Qed.
  Lemma mode_read m t r : entity_name t = true -> read_mode (mode_tokens m ++ t :: r) = (m, t :: r).
  Proof.
    intros H. destruct m as [| | |[]]; cbn [mode_tokens app]; unfold read_mode; try reflexivity.
    - rewrite !(entity_not t) by (exact H || reflexivity). reflexivity.
    - rewrite (entity_not t "constant") by (exact H || reflexivity). reflexivity.
  Qed.
  Definition as_read (p : param X) : list string * mode * string := (p_ids p, p_mode p, p_type p).
  Lemma parameters_read l : l <> [] -> Forall param_ok l -> forall n r, List.length l <= n ->
    parameters n (sep_by ";" (map param_tokens l) ++ ")" :: r) = Some (map as_read l, r).
  Proof.
    intros N F. induction F as [|p l (Np & Fp & T & D) F IH]; [congruence|]. intros n r L.
    destruct n as [|n]; [cbn in L; lia|]. destruct l as [|q l].
    - cbn [map sep_by]. unfold param_tokens. rewrite <- !app_assoc. cbn [app parameters]. rewrite (defining_read _ _ Np Fp). rewrite <- app_assoc. cbn [app].
      rewrite (mode_read _ _ _ T), T. cbn [negb]. rewrite String.eqb_refl. reflexivity.
    - change (sep_by ";" (map param_tokens (p :: q :: l))) with (param_tokens p ++ ";" :: sep_by ";" (map param_tokens (q :: l))).
      unfold param_tokens at 1. rewrite <- !app_assoc. cbn [app parameters]. rewrite (defining_read _ _ Np Fp). rewrite <- app_assoc. cbn [app].
      rewrite (mode_read _ _ _ T), T. cbn [negb]. replace (String.eqb ";" ")") with false by reflexivity. rewrite String.eqb_refl.
      rewrite IH; [reflexivity|discriminate|cbn in *; lia].
  Qed.
  Lemma sep_length l : Forall param_ok l -> List.length l <= List.length (sep_by ";" (map param_tokens l)).
  Proof.
    induction 1 as [|p l H F IH]; [cbn; lia|]. destruct l as [|q l].
    - cbn [map sep_by]. unfold param_tokens. rewrite !app_length. cbn. lia.
    - change (sep_by ";" (map param_tokens (p :: q :: l))) with (param_tokens p ++ ";" :: sep_by ";" (map param_tokens (q :: l))).
      rewrite app_length. cbn [List.length] in *. lia.
  Qed.
  Lemma profile_read l r : Forall param_ok l -> match r with w :: _ => String.eqb w "(" = false | [] => True end ->
    profile (params_tokens l ++ r) = Some (map as_read l, r).
  Proof.
    intros F H. destruct l as [|p l].
    - cbn [params_tokens app map]. unfold profile. destruct r as [|w r]; [reflexivity|]. now rewrite H.
    - unfold params_tokens, profile. cbn [app]. rewrite String.eqb_refl, <- app_assoc. cbn [app].
      apply parameters_read; [discriminate|exact F|]. pose proof (sep_length _ F). cbn [List.length] in *. rewrite app_length. cbn [List.length]. lia.
  Qed.

  Lemma subprogram_read s : spec_ok s -> subprogram_of (spec_text xt s) = Some (s_id s, map as_read (s_params s), s_return s).
  Proof.
    intros (I & P & R). unfold subprogram_of, spec_text. destruct (s_return s) as [t|].
    - match goal with |- context [lex "" ("function " ++ ?x)%string] => change (lex "" ("function " ++ x)%string) with ("function" :: lex "" x) end.
      rewrite (lex_name _ _ I) by (apply params_brk; reflexivity). rewrite (params_lexes _ _ P).
      change (lex "" (" return " ++ t)%string) with ("return" :: lex "" t).
      rewrite <- (app_nil_s t), (lex_name _ "" R) by exact Logic.I. rewrite app_nil_s. cbn [lex flush]. rewrite I. cbn [negb].
      rewrite (profile_read _ _ P) by reflexivity. cbn [String.eqb Ascii.eqb Bool.eqb]. rewrite R. reflexivity.
    - match goal with |- context [lex "" ("procedure " ++ ?x)%string] => change (lex "" ("procedure " ++ x)%string) with ("procedure" :: lex "" x) end.
      rewrite (lex_name _ _ I) by (rewrite <- (app_nil_s (params_text xt (s_params s))); apply params_brk; exact Logic.I).
      rewrite <- (app_nil_s (params_text xt (s_params s))), (params_lexes _ _ P). cbn [lex flush]. rewrite I. cbn [negb].
      rewrite (profile_read _ _ P) by exact Logic.I. reflexivity.
  Qed.
End Read.
