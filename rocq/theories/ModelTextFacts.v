(** Facts about the text of a model: its lexical elements, and how they are read. *)
From Coq Require Import String Ascii List ZArith Bool Lia.
From Verif Require Import Base Ident Expr ExprEval ExprFacts ExprPrint ExprRead ExprReadFacts ExprReadTree.
From Verif Require Import MsgGraph ModelText.
From Verif Require Import ModelRead.
Import ListNotations.
Local Open Scope string_scope.
Local Open Scope list_scope.
Local Open Scope nat_scope.

(** ** Lexical elements *)

Lemma lex_indent_from n r : forall s,
  (forall p, lex p (indent_from false s n ++ r)%string = lex p (s ++ r)%string)
  /\ lex "" (indent_from true s n ++ r)%string = lex "" (s ++ r)%string.
Proof.
  induction s as [|c s [IH1 IH2]]; [split; reflexivity|]. cbn [indent_from].
  destruct (Ascii.eqb_spec c newline) as [->|N].
  - assert (X : forall p, lex p (String newline (indent_from true s n) ++ r)%string = lex p (String newline s ++ r)%string).
    { intros p. cbn [String.append lex]. rewrite joins_newline. f_equal.
      replace (is_space newline) with true by reflexivity. exact IH2. }
    split; [exact X|apply X].
  - split.
    + intros p. cbn [String.append lex]. destruct (joins p c); [apply IH1|]. f_equal. destruct (is_space c); apply IH1.
    + rewrite app_assoc_s, lex_spaces. cbn [String.append lex joins]. f_equal. destruct (is_space c); apply IH1.
Qed.
Lemma lexes_indent_all s l n : lexes s l -> lexes (indent s n) l.
Proof. intros H r B. unfold indent. rewrite (proj2 (lex_indent_from n r s)). now apply H. Qed.

(** a text that ends with a complete lexical element *)
Definition pre (c : string) (l : list string) : Prop := forall s, lex "" (c ++ s)%string = l ++ lex "" s.
Lemma lexes_pre c k s l : pre c k -> lexes s l -> lexes (c ++ s)%string (k ++ l).
Proof. intros P H r B. now rewrite app_assoc_s, P, H, app_assoc. Qed.
Lemma pre_lexes c k : pre c k -> lexes c k.
Proof. intros P r _. apply P. Qed.
Lemma lexes_empty : lexes "" [].
Proof. intros r _. reflexivity. Qed.
Lemma lexes_word w : starts is_word w = true -> all_word w = true -> lexes w [w].
Proof. intros A B r K. now apply lex_word. Qed.
(** a literal that starts with a blank, a new line or a delimiter *)
Lemma lexes_mid s l c k s' l' : lexes s l -> (forall r, brk (c ++ r)%string) -> pre c k -> lexes s' l' ->
  lexes (s ++ c ++ s')%string (l ++ k ++ l').
Proof.
  intros H B P H'. apply lexes_app; [exact H| |now apply lexes_pre]. intros r _. rewrite app_assoc_s. apply B.
Qed.
Lemma lexes_end s l c k : lexes s l -> (forall r, brk (c ++ r)%string) -> pre c k -> lexes (s ++ c)%string (l ++ k).
Proof. intros H B P. apply lexes_app; [exact H|intros r _; apply B|now apply pre_lexes]. Qed.

(** the elements of joined texts *)
Lemma lexes_concat c k : pre c k -> (forall r, brk (c ++ r)%string) ->
  forall (xs : list (string * list string)), Forall (fun p => lexes (fst p) (snd p)) xs ->
  lexes (String.concat c (map fst xs)) (match map snd xs with [] => [] | x :: r => x ++ flat_map (fun y => k ++ y) r end).
Proof.
  intros P B. induction xs as [|[s l] xs IH]; intros H; [exact lexes_empty|].
  inversion H as [|? ? H1 H2]; subst. cbn [map fst snd]. destruct xs as [|[s' l'] xs].
  - cbn [map String.concat flat_map]. now rewrite app_nil_r.
  - specialize (IH H2). cbn [map fst snd] in IH |- *.
    change (String.concat c (s :: s' :: map fst xs)) with (s ++ c ++ String.concat c (s' :: map fst xs))%string.
    cbn [flat_map]. rewrite <- app_assoc. apply lexes_mid; auto.
Qed.

Lemma simple_word s : simple_name s = true -> starts is_word s = true /\ all_word s = true.
Proof.
  unfold simple_name. rewrite !andb_true_iff. intros ((((A & B) & _) & _) & _). split; [|exact B].
  eapply starts_mono; [|exact A]. apply letter_word.
Qed.
Lemma lexes_name s : simple_name s = true -> lexes s [s].
Proof. intros H. destruct (simple_word s H). now apply lexes_word. Qed.
Lemma simple_qualified s : simple_name s = true -> qualified_name s = true.
Proof. unfold simple_name, qualified_name. rewrite !andb_true_iff. tauto. Qed.

(** expressions whose text is read as the expression *)
Definition readable (e : expr) : bool := names_ok lexical e && sums e.
Lemma lexes_expr e : readable e = true -> lexes (str e) (tk e).
Proof. unfold readable. rewrite andb_true_iff. intros [A _]. now apply lexes_str. Qed.
Lemma rd_expr e rest : readable e = true -> stops 5 rest -> R 5 (tk e ++ rest) (tree_of e, rest).
Proof.
  unfold readable. rewrite andb_true_iff. intros [A B] S. apply (R_lift (rlevel e)); [apply rlevel_le|lia| |exact S].
  apply parses_all; auto. eapply stops_le; [apply rlevel_le|exact S].
Qed.

(** ** The elements of declarations *)

Definition opt {A B} (o : option A) (f : A -> list B) : list B := match o with Some a => f a | None => [] end.
Definition aspect_items (l : link) : list (string * expr) :=
  opt (lsize l) (fun e => [("Size", e)]) ++ opt (lfirst l) (fun e => [("First", e)]).
Definition item_tokens (p : string * expr) : list string := fst p :: "=>" :: tk (snd p).
Definition commas (l : list (list string)) : list string :=
  match l with [] => [] | x :: r => x ++ flat_map (fun y => "," :: y) r end.
Definition target_token (l : link) : string := if same_field (target l) FINAL then "null" else target l.
Definition with_tokens (l : link) : list string :=
  match aspect_items l with [] => [] | a => "with" :: commas (map item_tokens a) end.
Definition if_tokens (e : expr) : list string := if is_true e then [] else "if" :: tk e.
Definition link_tokens (l : link) : list string := "then" :: target_token l :: with_tokens l ++ if_tokens (condition l).

(** the expressions of a link are readable, and its target is a name *)
Definition link_ok (l : link) : bool :=
  readable (condition l) && match lsize l with Some e => readable e | None => true end
  && match lfirst l with Some e => readable e | None => true end
  && (same_field (target l) FINAL || simple_name (target l)).

Lemma lexes_item p : simple_name (fst p) = true -> readable (snd p) = true ->
  lexes (fst p ++ " => " ++ str (snd p))%string (item_tokens p).
Proof.
  intros N E. apply (lexes_mid _ [fst p] _ ["=>"]); [now apply lexes_name|reflexivity|intros s; reflexivity|now apply lexes_expr].
Qed.
Lemma aspects_items l : aspects l = map (fun p => fst p ++ " => " ++ str (snd p))%string (aspect_items l).
Proof. unfold aspects, aspect_items. now destruct (lsize l), (lfirst l). Qed.
Lemma items_ok l : link_ok l = true -> Forall (fun p => simple_name (fst p) = true /\ readable (snd p) = true) (aspect_items l).
Proof.
  unfold link_ok, aspect_items. rewrite !andb_true_iff. intros (((_ & A) & B) & _).
  apply Forall_app. split; [destruct (lsize l)|destruct (lfirst l)]; cbn [opt]; repeat constructor; auto.
Qed.
Lemma lexes_items ps : Forall (fun p => simple_name (fst p) = true /\ readable (snd p) = true) ps ->
  lexes (String.concat ", " (map (fun p => fst p ++ " => " ++ str (snd p))%string ps)) (commas (map item_tokens ps)).
Proof.
  intros H.
  assert (X := lexes_concat ", " [","] (fun s => eq_refl) (fun r => eq_refl)
    (map (fun p => ((fst p ++ " => " ++ str (snd p))%string, item_tokens p)) ps)).
  rewrite !map_map in X. cbn [fst snd] in X. apply X. apply Forall_map. eapply Forall_impl; [|exact H].
  intros p [A B]. now apply lexes_item.
Qed.

Lemma lexes_link l : link_ok l = true -> lexes (link_str l) (link_tokens l).
Proof.
  intros H. pose proof (items_ok l H) as I. unfold link_str, link_tokens.
  set (w := indent_next (match aspects l with [] => "" | _ => _ end) 3).
  set (c := indent_next (if is_true (condition l) then "" else _) 3).
  assert (C : lexes c (if_tokens (condition l)) /\ forall r, brk r -> brk (c ++ r)%string).
  { subst c. unfold if_tokens. destruct (is_true (condition l)); [split; [exact lexes_empty|auto]|]. split; [|reflexivity].
    apply lexes_indent. rewrite <- app_assoc_s. change ("if" :: tk (condition l)) with (["if"] ++ tk (condition l)).
    apply lexes_pre; [intros s; reflexivity|]. apply lexes_indent, lexes_expr.
    unfold link_ok in H. rewrite !andb_true_iff in H. tauto. }
  assert (W : lexes w (with_tokens l) /\ forall r, brk r -> brk (w ++ r)%string).
  { subst w. unfold with_tokens. rewrite aspects_items.
    pose proof (lexes_items _ I) as L. destruct (aspect_items l) as [|p ps] eqn:E; [split; [exact lexes_empty|auto]|].
    split; [|intros r _; reflexivity]. cbn [map].
    apply lexes_indent. rewrite <- app_assoc_s. apply (lexes_pre _ ["with"]); [intros s; reflexivity|exact L]. }
  apply (lexes_pre "then " ["then"]); [intros s; reflexivity|].
  apply (lexes_app _ [target_token l]).
  - unfold target_token. unfold link_ok in H. rewrite !andb_true_iff, orb_true_iff in H. destruct H as (_ & K).
    destruct (same_field (target l) FINAL); [apply lexes_word; reflexivity|]. destruct K as [K|K]; [discriminate|]. now apply lexes_name.
  - intros r B. rewrite app_assoc_s. apply W, C, B.
  - apply lexes_app; [apply W|apply C|apply C].
Qed.
Lemma lexes_links ls : Forall (fun l => link_ok l = true) ls ->
  lexes (String.concat nl (map link_str ls)) (flat_map link_tokens ls).
Proof.
  intros H.
  assert (X := lexes_concat nl [] (fun s => eq_refl) (fun r => eq_refl) (map (fun l => (link_str l, link_tokens l)) ls)).
  rewrite !map_map in X. cbn [fst snd] in X.
  assert (E : flat_map link_tokens ls = match map link_tokens ls with [] => [] | x :: r => x ++ flat_map (fun y => [] ++ y) r end).
  { destruct ls as [|l ls]; [reflexivity|]. cbn [flat_map map]. f_equal. clear. induction ls; [reflexivity|]. cbn [flat_map map app]. now rewrite IHls. }
  rewrite E. apply X. apply Forall_map. eapply Forall_impl; [|exact H]. intros l. apply lexes_link.
Qed.

(** ** The elements of a message *)

Definition next_of (rest : list (string * ident)) : option string := match rest with (n, _) :: _ => Some n | [] => None end.
Definition thens_tokens (structure : list link) (f : string) (next : option string) : list string :=
  let out := outgoing_of structure f in if plain out next then [] else flat_map link_tokens out.
Fixpoint fields_tokens (structure : list link) (l : list (string * ident)) : list string :=
  match l with
  | [] => []
  | (f, t) :: rest => f :: ":" :: name t :: thens_tokens structure f (next_of rest) ++ ";" :: fields_tokens structure rest
  end.
Definition initial_tokens (structure : list link) (next : option string) : list string :=
  let out := outgoing_of structure "Initial" in
  if plain out next then [] else "null" :: flat_map link_tokens out ++ [";"].

Definition fields_ok (l : list (string * ident)) : Prop :=
  Forall (fun p => simple_name (fst p) = true /\ simple_name (name (snd p)) = true) l.

Lemma simple_not_initial f : simple_name f = true -> same_field f INITIAL = false /\ same_field f FINAL = false.
Proof.
  unfold simple_name. rewrite !andb_true_iff, negb_true_iff. intros (_ & H).
  unfold same_field. split.
  - destruct (String.eqb_spec (lower f) (lower INITIAL)) as [E|]; [|reflexivity]. rewrite E in H. discriminate.
  - destruct (String.eqb_spec (lower f) (lower FINAL)) as [E|]; [|reflexivity]. rewrite E in H. discriminate.
Qed.
Lemma outgoing_links_ok structure f : Forall (fun l => link_ok l = true) structure ->
  Forall (fun l => link_ok l = true) (outgoing_of structure f).
Proof. intros H. apply Forall_forall. intros l I. apply filter_In in I as [I _]. rewrite Forall_forall in H. auto. Qed.
Lemma app_not_empty a b : b <> "" -> String.eqb (a ++ b)%string "" = false.
Proof. intros H. destruct a; [|reflexivity]. destruct b; [tauto|reflexivity]. Qed.

Lemma brk_nl r : brk (nl ++ r)%string.
Proof. reflexivity. Qed.

Lemma lexes_fields structure : Forall (fun l => link_ok l = true) structure ->
  forall l, fields_ok l -> forall acc A, lexes acc A -> (acc = "" -> A = []) ->
  lexes (fields_str structure l acc) (A ++ fields_tokens structure l).
Proof.
  intros HS. induction l as [|[f t] rest IH]; intros F acc A HA H0.
  - cbn [fields_str fields_tokens]. now rewrite app_nil_r.
  - inversion F as [|? ? [N T] F']; subst. cbn [fst snd] in N, T. cbn [fields_str].
    rewrite (proj1 (simple_not_initial f N)). cbn beta iota zeta.
    set (acc1 := ((if String.eqb acc "" then "" else (acc ++ nl)%string) ++ f ++ " : " ++ name t)%string).
    assert (L1 : lexes acc1 (A ++ [f; ":"; name t])).
    { assert (LF : lexes (f ++ " : " ++ name t)%string ([f] ++ [":"] ++ [name t])).
      { apply lexes_mid; [now apply lexes_name|reflexivity|intros s; reflexivity|now apply lexes_name]. }
      subst acc1. destruct (String.eqb_spec acc "") as [->|].
      - rewrite (H0 eq_refl). exact LF.
      - rewrite app_assoc_s. apply (lexes_mid _ A nl []); [exact HA|reflexivity|intros s; reflexivity|exact LF]. }
    assert (E1 : forall x, String.eqb (acc1 ++ x)%string "" = false).
    { intros x. unfold acc1. rewrite !app_assoc_s. apply app_not_empty. destruct f; discriminate. }
    set (acc2 := if plain _ _ then acc1 else _).
    assert (L2 : lexes acc2 (A ++ [f; ":"; name t] ++ thens_tokens structure f (next_of rest))).
    { subst acc2. unfold thens_tokens. fold (next_of rest). destruct (plain _ _).
      - now rewrite app_nil_r.
      - rewrite app_assoc. apply (lexes_mid _ (A ++ [f; ":"; name t]) nl []); [exact L1|apply brk_nl|intros s; reflexivity|].
        apply lexes_indent_all, lexes_links. now apply outgoing_links_ok. }
    assert (E2 : String.eqb acc2 "" = false).
    { subst acc2. destruct (plain _ _); [|apply E1]. rewrite <- (app_nil_s acc1). apply E1. }
    rewrite E2. cbn [fields_tokens].
    assert (L3 : lexes (acc2 ++ ";")%string ((A ++ [f; ":"; name t] ++ thens_tokens structure f (next_of rest)) ++ [";"])).
    { apply lexes_end; [exact L2|reflexivity|]. intros s. change (lex ";" s = [";"] ++ lex "" s). now rewrite lex_none by reflexivity. }
    specialize (IH F' _ _ L3). rewrite <- !app_assoc in IH. cbn [app] in IH. apply IH.
    intros E. apply (f_equal (fun x => String.eqb x "")) in E. cbn in E. rewrite app_not_empty in E; discriminate.
Qed.

Definition message_tokens (i : ident) (types : list (string * ident)) (structure : list link) : list string :=
  match structure, types with
  | [], _ | _, [] => ["type"; name i; "is"; "null"; "message"]
  | _, _ =>
    "type" :: name i :: "is" :: "message" :: initial_tokens structure (next_of types) ++ fields_tokens structure types
    ++ ["end"; "message"]
  end.

Lemma lexes_message i types structure : simple_name (name i) = true -> fields_ok types ->
  Forall (fun l => link_ok l = true) structure -> lexes (message_str i types structure) (message_tokens i types structure).
Proof.
  intros N F HS. pose proof (lexes_name _ N) as LN.
  assert (Null : lexes ("type " ++ name i ++ " is null message") ["type"; name i; "is"; "null"; "message"]).
  { apply (lexes_pre _ ["type"] _ [name i; "is"; "null"; "message"]); [intros s; reflexivity|].
    apply (lexes_mid _ [name i] " is null " ["is"; "null"] "message" ["message"]); [exact LN|reflexivity|intros s; reflexivity|].
    apply lexes_word; reflexivity. }
  unfold message_str, message_tokens. destruct structure as [|l0 ls] eqn:ES; [exact Null|]. rewrite <- ES in *.
  destruct types as [|p ps] eqn:ET; [exact Null|]. rewrite <- ET in *. clear Null.
  apply (lexes_pre _ ["type"]); [intros s; reflexivity|].
  replace (" is" ++ nl ++ "   message" ++ nl ++ indent (fields_str structure (("Initial", []) :: types) "") 6 ++ nl ++ "   end message")%string
    with ((" is" ++ nl ++ "   message" ++ nl) ++ indent (fields_str structure (("Initial", []) :: types) "") 6 ++ (nl ++ "   end ") ++ "message")%string
    by reflexivity.
  apply (lexes_mid _ [name i] _ ["is"; "message"]); [exact LN|reflexivity|intros s; reflexivity|].
  rewrite app_assoc. apply (lexes_mid _ _ _ ["end"] _ ["message"]); [|reflexivity|intros s; reflexivity|apply lexes_word; reflexivity].
  apply lexes_indent_all. cbn [fields_str].
  change (same_field "Initial" INITIAL) with true. cbn beta iota zeta. fold (next_of types). unfold initial_tokens.
  destruct (plain (outgoing_of structure "Initial") (next_of types)).
  - apply (lexes_fields structure HS types F "" [] lexes_empty). reflexivity.
  - set (b := (nl ++ indent _ 3)%string).
    replace (String.eqb _ "") with false by reflexivity.
    apply lexes_fields; auto; [|intros E; discriminate].
    rewrite app_comm_cons. apply lexes_end; [|reflexivity|intros s; change (lex ";" s = [";"] ++ lex "" s); now rewrite lex_none by reflexivity].
    subst b. change ("" ++ "null")%string with "null". rewrite <- app_assoc_s.
    apply (lexes_pre _ ["null"]); [intros s; reflexivity|]. apply lexes_indent_all, lexes_links. now apply outgoing_links_ok.
Qed.

(** ** The elements of the other declarations *)

Definition decl_tokens (d : decl) : list string :=
  match d with
  | Modular i e => "type" :: name i :: "is" :: "mod" :: tk e
  | Range i f l s => "type" :: name i :: "is" :: "range" :: tk f ++ ".." :: tk l ++ "with" :: "Size" :: "=>" :: tk s
  | Enumeration i ls s a =>
    "type" :: name i :: "is" :: "(" :: commas (map item_tokens ls) ++ ")" :: "with" :: "Size" :: "=>" :: tk s
    ++ (if a then [","; "Always_Valid"; "=>"; "True"] else [])
  | Array i e => ["type"; name i; "is"; "array"; "of"; name e]
  | Opaque => []
  | Message i ts s _ => message_tokens i ts s
  | Refinement _ pdu f sdu c => ["for"; name pdu; "use"; "("; f; "=>"; name sdu; ")"] ++ if_tokens c
  end.
(** names are names of the language and expressions are readable *)
Definition decl_lexical (d : decl) : Prop :=
  match d with
  | Modular i e => simple_name (name i) = true /\ readable e = true
  | Range i f l s => simple_name (name i) = true /\ readable f = true /\ readable l = true /\ readable s = true
  | Enumeration i ls s _ => simple_name (name i) = true /\ readable s = true
      /\ Forall (fun p => simple_name (fst p) = true /\ readable (snd p) = true) ls
  | Array i e => simple_name (name i) = true /\ simple_name (name e) = true
  | Opaque => False
  | Message i ts s _ => simple_name (name i) = true /\ fields_ok ts /\ Forall (fun l => link_ok l = true) s
  | Refinement _ pdu f sdu c => simple_name (name pdu) = true /\ simple_name f = true /\ simple_name (name sdu) = true
      /\ readable c = true
  end.

Lemma lexes_decl d : decl_lexical d -> lexes (decl_str d) (decl_tokens d).
Proof.
  destruct d as [i e|i f l s|i ls s a|i e| |i ts s cs|p pdu f sdu c]; cbn [decl_lexical decl_str decl_tokens].
  - intros [N E]. apply (lexes_pre _ ["type"]); [intros x; reflexivity|].
    apply (lexes_mid _ [name i] _ ["is"; "mod"]); [now apply lexes_name|reflexivity|intros x; reflexivity|now apply lexes_expr].
  - intros (N & F & L & S). apply (lexes_pre _ ["type"]); [intros x; reflexivity|].
    apply (lexes_mid _ [name i] _ ["is"; "range"]); [now apply lexes_name|reflexivity|intros x; reflexivity|].
    apply (lexes_mid _ (tk f) _ [".."]); [now apply lexes_expr|reflexivity|intros x; reflexivity|].
    apply (lexes_mid _ (tk l) _ ["with"; "Size"; "=>"]); [now apply lexes_expr|reflexivity|intros x; reflexivity|now apply lexes_expr].
  - intros (N & S & L). apply (lexes_pre _ ["type"]); [intros x; reflexivity|].
    apply (lexes_mid _ [name i] _ ["is"; "("]); [now apply lexes_name|reflexivity| |].
    { intros x. change (["is"] ++ lex "(" x = ["is"; "("] ++ lex "" x). now rewrite lex_none by reflexivity. }
    apply (lexes_mid _ (commas (map item_tokens ls)) _ [")"; "with"; "Size"; "=>"]); [now apply lexes_items|reflexivity|intros x; reflexivity|].
    apply lexes_app; [now apply lexes_expr| |].
    + intros r B. destruct a; [reflexivity|exact B].
    + destruct a; [|exact lexes_empty].
      apply (lexes_pre ", Always_Valid => " [","; "Always_Valid"; "=>"] "True" ["True"]); [intros x; reflexivity|apply lexes_word; reflexivity].
  - intros [N E]. apply (lexes_pre _ ["type"]); [intros x; reflexivity|].
    apply (lexes_mid _ [name i] _ ["is"; "array"; "of"] _ [name e]); [now apply lexes_name|reflexivity|intros x; reflexivity|now apply lexes_name].
  - tauto.
  - intros (N & F & L). now apply lexes_message.
  - intros (P & F & S & C). apply (lexes_pre _ ["for"]); [intros x; reflexivity|].
    apply (lexes_mid _ [name pdu] _ ["use"; "("]); [now apply lexes_name|reflexivity| |].
    { intros x. change (["use"] ++ lex "(" x = ["use"; "("] ++ lex "" x). now rewrite lex_none by reflexivity. }
    apply (lexes_mid _ [f] _ ["=>"]); [now apply lexes_name|reflexivity|intros x; reflexivity|].
    apply (lexes_mid _ [name sdu] ")" [")"]); [now apply lexes_name|reflexivity| |].
    { intros x. apply lex_close. }
    unfold if_tokens. destruct (is_true c); [exact lexes_empty|].
    rewrite <- app_assoc_s. apply (lexes_pre _ ["if"]); [intros x; reflexivity|now apply lexes_expr].
Qed.
