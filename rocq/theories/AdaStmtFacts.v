(** Facts: the text of statements is read as the statements. *)
From Coq Require Import String Ascii List ZArith Bool Lia.
From Verif Require Import Base Ident Expr ExprEval ExprTotal ExprMore ExprFacts ExprPrint ExprRead ExprReadFacts ExprReadTree ExprAda AdaStmt AdaStmtSpec.
Import ListNotations.
Local Open Scope string_scope.
Local Open Scope list_scope.
Local Open Scope nat_scope.

(** ** Statements *)

Section Ind.
  Variable P : stmt -> Prop.
  Hypothesis (Hn : P SNull) (Ha : forall id e, P (SAssign id e)) (Hc : forall id l, P (SCall id l))
    (Hp : forall id l, P (SPragma id l)) (Hr : forall e, P (SReturn e))
    (Hi : forall l e, Forall (fun p => Forall P (snd p)) l -> match e with Some b => Forall P b | None => True end -> P (SIf l e))
    (Hs : forall e l, Forall (fun p => Forall P (snd p)) l -> P (SCase e l)).
  Fixpoint stmt_ind' (s : stmt) : P s :=
    let all := fix all (l : list stmt) : Forall P l :=
      match l with [] => Forall_nil _ | x :: r => Forall_cons _ (stmt_ind' x) (all r) end in
    let arms := fix arms (l : list (expr * list stmt)) : Forall (fun p => Forall P (snd p)) l :=
      match l with [] => Forall_nil _ | x :: r => Forall_cons (P := fun p => Forall P (snd p)) x (all (snd x)) (arms r) end in
    match s with
    | SNull => Hn
    | SAssign id e => Ha id e
    | SCall id l => Hc id l
    | SPragma id l => Hp id l
    | SReturn e => Hr e
    | SIf l e => Hi l e (arms l) (match e with Some b => all b | None => Logic.I end)
    | SCase e l => Hs e l (arms l)
    end.
End Ind.

Section PInd.
  Context {E : Type}.
  Variable P : prog E -> Prop.
  Hypothesis (Hn : P PNull) (Ha : forall id e, P (PAssign id e)) (Hc : forall id l, P (PCall id l))
    (Hp : forall id l, P (PPragma id l)) (Hr : forall e, P (PReturn e))
    (Hi : forall l e, Forall (fun p => Forall P (snd p)) l -> Forall P e -> P (PIf l e))
    (Hs : forall e l, Forall (fun p => Forall P (snd p)) l -> P (PCase e l)).
  Fixpoint prog_ind' (s : prog E) : P s :=
    let all := fix all (l : list (prog E)) : Forall P l :=
      match l with [] => Forall_nil _ | x :: r => Forall_cons _ (prog_ind' x) (all r) end in
    match s with
    | PNull => Hn
    | PAssign id e => Ha id e
    | PCall id l => Hc id l
    | PPragma id l => Hp id l
    | PReturn e => Hr e
    | PIf l e => Hi l e
        ((fix arms (l : list (E * list (prog E))) : Forall (fun p => Forall P (snd p)) l :=
          match l with [] => Forall_nil _ | x :: r => Forall_cons (P := fun p => Forall P (snd p)) x (all (snd x)) (arms r) end) l) (all e)
    | PCase e l => Hs e l
        ((fix arms (l : list (list E * list (prog E))) : Forall (fun p => Forall P (snd p)) l :=
          match l with [] => Forall_nil _ | x :: r => Forall_cons (P := fun p => Forall P (snd p)) x (all (snd x)) (arms r) end) l)
    end.
End PInd.

(** expressions whose text is read as the expression (C51) *)
Definition good (e : expr) : bool := names_ok lexical e && sums e && solid e.
Definition full_list {A} (l : list A) : bool := match l with [] => false | _ => true end.
(** calls have arguments, branches have statements *)
Fixpoint wf (s : stmt) : bool :=
  match s with
  | SNull => true
  | SAssign id e => entity id && good e
  | SCall id l => entity id && full_list l && forallb good l
  | SPragma id l => entity id && forallb good l
  | SReturn e => good e
  | SIf l e =>
    full_list l && forallb (fun p => good (fst p) && full_list (snd p) && forallb wf (snd p)) l
    && match e with Some b => forallb wf b | None => true end
  | SCase e l => good e && full_list l && forallb (fun p => good (fst p) && full_list (snd p) && forallb wf (snd p)) l
  end.
Fixpoint pwf (s : prog expr) : bool :=
  match s with
  | PNull => true
  | PAssign id e => entity id && good e
  | PCall id l => entity id && full_list l && forallb good l
  | PPragma id l => entity id && forallb good l
  | PReturn e => good e
  | PIf l e =>
    full_list l && forallb (fun p => good (fst p) && full_list (snd p) && forallb pwf (snd p)) l && forallb pwf e
  | PCase e l =>
    good e && full_list l && forallb (fun p => full_list (fst p) && forallb good (fst p) && full_list (snd p) && forallb pwf (snd p)) l
  end.

(** the statements with groups of choices *)
Fixpoint grouped (alike : list stmt -> list stmt -> bool) (s : stmt) : prog expr :=
  match s with
  | SNull => PNull
  | SAssign id e => PAssign id e
  | SCall id l => PCall id l
  | SPragma id l => PPragma id l
  | SReturn e => PReturn e
  | SIf l e => PIf (map (fun p => (fst p, map (grouped alike) (snd p))) l)
                   match e with Some b => map (grouped alike) b | None => [] end
  | SCase e l => PCase e (map (fun p => (fst p, snd (snd p)))
      (group (fun x y => same_stmts alike (fst x) (fst y)) (map (fun p => (fst p, (snd p, map (grouped alike) (snd p)))) l)))
  end.

(** ** Tokens *)

Fixpoint sep_by (w : string) (l : list (list string)) : list string :=
  match l with [] => [] | [x] => x | x :: r => x ++ w :: sep_by w r end.
Definition arm_tokens (f : prog expr -> list string) : string -> list (expr * list (prog expr)) -> list string :=
  fix go kw l :=
    match l with
    | [] => []
    | (c, b) :: r => kw :: tk c ++ "then" :: flat_map f b ++ go "elsif" r
    end.
Fixpoint ptk (p : prog expr) : list string :=
  match p with
  | PNull => ["null"; ";"]
  | PAssign id e => id :: ":" :: "=" :: tk e ++ [";"]
  | PCall id l => id :: "(" :: sep_by "," (map tk l) ++ [")"; ";"]
  | PPragma id l => "pragma" :: id :: match l with [] => [] | _ => "(" :: sep_by "," (map tk l) ++ [")"] end ++ [";"]
  | PReturn e => "return" :: tk e ++ [";"]
  | PIf l e => arm_tokens ptk "if" l ++ match e with [] => [] | _ => "else" :: flat_map ptk e end ++ ["end"; "if"; ";"]
  | PCase e l =>
    "case" :: tk e ++ "is" ::
    flat_map (fun p => "when" :: sep_by "|" (map tk (fst p)) ++ "=>" :: flat_map ptk (snd p)) l ++ ["end"; "case"; ";"]
  end.

(** ** The text *)

Lemma ada_str_good e : solid e = true -> ada_str e = Ok (str e).
Proof.
  induction e as [| |v|n s|x IH|o ts IH|o l r IHl IHr|o l r IHl IHr] using expr_ind'; cbn [solid]; intros S; try reflexivity.
  - cbn [ada_str str]. rewrite (IH S). reflexivity.
  - apply andb_true_iff in S as [S0 S].
    assert (All : Forall (fun x => ada_str x = Ok (str x)) ts).
    { clear S0. induction IH as [|x l Hx _ IHl]; constructor; cbn in S; apply andb_true_iff in S as [? ?]; auto. }
    clear IH S. destruct ts as [|t ts]; [destruct o; try discriminate S0; reflexivity|]. clear S0.
    inversion All as [|? ? Ht Hs]; subst.
    destruct o.
    5: { cbn [ada_str str precedence]. rewrite Ht. cbn [bind].
      match goal with |- bind (?F ts) _ = Ok (_ ++ ?G ts)%string => assert (X : F ts = Ok (G ts)) end.
      { clear All Ht. induction Hs as [|x l Hx _ IHl]; [reflexivity|]. rewrite IHl.
        destruct x as [| |v|m [|]|x|o us|o a b|o a b]; cbn [bind] in *; try reflexivity;
          try (rewrite Hx; cbn [bind]; unfold parenthesized; cbn [precedence]; reflexivity).
        destruct (v <? 0)%Z; reflexivity. }
      rewrite X. reflexivity. }
    5: { cbn [ada_str str precedence]. rewrite Ht. cbn [bind].
      match goal with |- context [bind (?F ts) _] =>
        assert (X : F ts = Ok (map (fun x => parenthesized 5 x (str x)) ts)) end.
      { clear - Hs. induction Hs as [|x l Hx _ IHl]; [reflexivity|]. cbn [map]. rewrite Hx. cbn [bind]. rewrite IHl. reflexivity. }
      rewrite X. cbn [bind]. f_equal. unfold joined. rewrite concat_joined. f_equal.
      clear All Ht Hs X. induction ts as [|x l IHl]; [reflexivity|]. cbn [map fold_right]. rewrite IHl. reflexivity. }
    all: cbn [ada_str str precedence]; rewrite Ht; cbn [bind];
      match goal with |- bind (?F ?k) _ = Ok (_ ++ ?G ?k)%string => assert (X : F k = Ok (G k)) end;
      [clear All Ht; induction Hs as [|x l Hx _ IHl]; [reflexivity|];
       rewrite Hx; cbn [bind]; rewrite IHl; reflexivity
      |rewrite X; reflexivity].
  - apply andb_true_iff in S as [Sl Sr]. cbn [ada_str str]. rewrite (IHl Sl), (IHr Sr). destruct o; reflexivity.
  - apply andb_true_iff in S as [Sl Sr]. cbn [ada_str str]. rewrite (IHl Sl), (IHr Sr). reflexivity.
Qed.
Lemma good_text e : good e = true -> ada_str e = Ok (str e) /\ lexes (str e) (tk e).
Proof.
  unfold good. rewrite !andb_true_iff. intros [[N S] F]. split; [now apply ada_str_good|now apply lexes_str].
Qed.

Lemma lex_ind n r : forall s start p, (start = true -> p = "") -> lex p (indent_from start s n ++ r)%string = lex p (s ++ r)%string.
Proof.
  induction s as [|c s IH]; intros start p H; [reflexivity|]. cbn [indent_from].
  destruct (Ascii.eqb_spec c newline) as [->|].
  - cbn [String.append lex]. rewrite joins_newline. f_equal.
    replace (is_space newline) with true by reflexivity. now apply IH.
  - destruct start.
    + rewrite (H eq_refl), app_assoc_s, lex_spaces. cbn [String.append lex]. rewrite !IH by discriminate. reflexivity.
    + cbn [String.append lex]. rewrite !IH by discriminate. reflexivity.
Qed.
Lemma lexes_ind s l n : lexes s l -> lexes (indent s n) l.
Proof. intros H r B. unfold indent. rewrite lex_ind by auto. now apply H. Qed.

Lemma concat_empty (l : list string) x : String.concat "" (x :: l) = (x ++ String.concat "" l)%string.
Proof. destruct l; cbn; [now rewrite app_nil_s|reflexivity]. Qed.
Lemma lex_nl r : lex "" (nl ++ r)%string = lex "" r.
Proof. reflexivity. Qed.
Lemma brk_nl r : brk (nl ++ r)%string.
Proof. reflexivity. Qed.

Lemma lex_branch ts ls : Forall2 lexes ts ls -> forall r, lex "" (branch_text ts ++ r)%string = (List.concat ls ++ lex "" r)%list.
Proof.
  unfold branch_text. induction 1 as [|t l ts ls H _ IH]; intros r; [reflexivity|]. cbn [map List.concat].
  rewrite concat_empty, !app_assoc_s, (lexes_ind _ _ 3 H) by apply brk_nl. rewrite lex_nl, IH. now rewrite app_assoc.
Qed.

Lemma lex_condition c l r : lexes c l -> lex "" (condition_text c ++ r)%string = (l ++ lex "" r)%list.
Proof.
  intros H. unfold condition_text. destruct (one_line c).
  - rewrite !app_assoc_s. change (lex "" (" " ++ c ++ " " ++ r)%string) with (lex "" (c ++ " " ++ r)%string).
    rewrite H by reflexivity. reflexivity.
  - rewrite !app_assoc_s, lex_nl, (lexes_ind _ _ 2 H) by apply brk_nl. reflexivity.
Qed.
Lemma brk_condition c r : brk (condition_text c ++ r)%string.
Proof. unfold condition_text. destruct (one_line c); reflexivity. Qed.

Lemma lex_then r : lex "" ("then" ++ nl ++ r)%string = "then" :: lex "" r.
Proof. reflexivity. Qed.

Definition arm_lexes (x : string * list string) (y : list string * list (list string)) : Prop :=
  lexes (fst x) (fst y) /\ Forall2 lexes (snd x) (snd y).
Fixpoint arm_toks (kw : string) (l : list (list string * list (list string))) : list string :=
  match l with [] => [] | (c, b) :: r => kw :: c ++ "then" :: List.concat b ++ arm_toks "elsif" r end.
Lemma lex_arms l m : Forall2 arm_lexes l m -> forall first r,
  lex "" (arms_text first l ++ r)%string = (arm_toks (if first then "if" else "elsif") m ++ lex "" r)%list.
Proof.
  induction 1 as [|[c b] [c' b'] l m [Hc Hb] _ IH]; intros first r; [reflexivity|]. cbn [arms_text arm_toks fst snd] in *.
  rewrite !app_assoc_s. rewrite lex_word by (try apply brk_condition; now destruct first). cbn [app]. f_equal.
  rewrite (lex_condition _ _ _ Hc), lex_then, (lex_branch _ _ Hb), (IH false). rewrite <- !app_assoc. cbn [app].
  now rewrite <- !app_assoc.
Qed.

Lemma lex_join sep w : (forall r, brk (sep ++ r)%string) -> (forall r, lex "" (sep ++ r)%string = w :: lex "" r) ->
  forall ts ls, Forall2 lexes ts ls -> ts <> [] -> lexes (String.concat sep ts) (sep_by w ls).
Proof.
  intros B W ts ls. induction 1 as [|t l ts ls H F IH]; intros N; [congruence|].
  destruct F as [|u m us ms Hu F]; [exact H|].
  change (String.concat sep (t :: u :: us)) with (t ++ sep ++ String.concat sep (u :: us))%string.
  change (sep_by w (l :: m :: ms)) with (l ++ w :: sep_by w (m :: ms)).
  intros r Br. rewrite !app_assoc_s, H by apply B. rewrite W, (IH ltac:(discriminate) r Br).
  now rewrite <- app_assoc.
Qed.

Lemma lex_cases l m : Forall2 (fun x y => Forall2 lexes (fst x) (fst y) /\ fst x <> [] /\ Forall2 lexes (snd x) (snd y) /\ snd x <> []) l m ->
  forall r, brk r -> lex "" (cases_text l ++ r)%string =
    (flat_map (fun p => "when" :: sep_by "|" (fst p) ++ "=>" :: List.concat (snd p)) m ++ lex "" r)%list.
Proof.
  unfold cases_text. induction 1 as [|[cs b] [cs' b'] l m (Hc & Nc & Hb & Nb) F IH]; intros r Br; [reflexivity|].
  cbn [map fst snd flat_map] in *. rewrite concat_empty, !app_assoc_s, lex_nl.
  match goal with |- lex "" ("when " ++ ?x)%string = _ => change (lex "" ("when " ++ x)%string) with ("when" :: lex "" x) end.
  rewrite (lex_join " | " "|" ltac:(reflexivity) ltac:(reflexivity) _ _ Hc Nc) by reflexivity.
  match goal with |- context [lex "" (" =>" ++ ?x)%string] =>
    change (lex "" (" =>" ++ x)%string) with (lex "=>" x) end.
  rewrite lex_none by (intros; reflexivity). cbn [flush app]. rewrite lex_nl.
  assert (X : lexes (indent (String.concat nl b) 3) (List.concat b')).
  { apply lexes_ind. clear - Hb Nb. revert Nb. induction Hb as [|t l ts ls H F IH]; intros N; [congruence|].
    destruct F as [|u m us ms Hu F].
    - cbn [List.concat]. rewrite app_nil_r. exact H.
    - change (String.concat nl (t :: u :: us)) with (t ++ nl ++ String.concat nl (u :: us))%string.
      intros r Br. rewrite !app_assoc_s, H by apply brk_nl. rewrite lex_nl, (IH ltac:(discriminate) r Br).
      change (List.concat (l :: m :: ms)) with (l ++ List.concat (m :: ms)). now rewrite app_assoc. }
  rewrite X by (destruct F; [exact Br|cbn [map]; rewrite concat_empty; reflexivity]).
  rewrite IH by exact Br. cbn [app]. f_equal. rewrite <- !app_assoc. cbn [app]. now rewrite <- ?app_assoc.
Qed.

Lemma texts_ok {A B} (f : A -> res B) (R : A -> B -> Prop) l :
  Forall (fun x => exists t, f x = Ok t /\ R x t) l -> exists ts, texts f l = Ok ts /\ Forall2 R l ts.
Proof.
  induction 1 as [|x l (t & Ht & Hr) _ (ts & Hts & Hrs)]; [now exists []|].
  exists (t :: ts). split; [|now constructor]. cbn [texts]. rewrite Ht. cbn [bind]. fold (texts f l). rewrite Hts. reflexivity.
Qed.

Lemma group_rel {A B K L} (RA : A -> B -> Prop) (RK : K -> L -> Prop) (same1 : K -> K -> bool) (same2 : L -> L -> bool) :
  (forall k l k' l', RK k l -> RK k' l' -> same1 k k' = same2 l l') ->
  forall l m, Forall2 (fun x y => RA (fst x) (fst y) /\ RK (snd x) (snd y)) l m ->
  Forall2 (fun x y => Forall2 RA (fst x) (fst y) /\ RK (snd x) (snd y)) (group same1 l) (group same2 m).
Proof.
  intros S.
  assert (G : forall l m, Forall2 (fun x y => RA (fst x) (fst y) /\ RK (snd x) (snd y)) l m ->
    forall cs ds k q, Forall2 RA cs ds -> RK k q ->
    Forall2 (fun x y => Forall2 RA (fst x) (fst y) /\ RK (snd x) (snd y)) (group_from same1 cs k l) (group_from same2 ds q m)).
  { induction 1 as [|[a k'] [b q'] l m [Ha Hk] _ IH]; intros cs ds k q Hc H; cbn [group_from fst snd] in *; [now repeat constructor|].
    rewrite (S _ _ _ _ H Hk). destruct (same2 q q').
    - apply IH; [|exact H]. apply Forall2_app; auto.
    - constructor; [now split|]. apply IH; auto. }
  intros l m H. destruct H as [|[a k] [b q] l m [Ha Hk] H]; [constructor|]. cbn [group fst snd] in *. apply G; auto.
Qed.
Lemma group_full {A K} same : forall (l : list (A * K)), Forall (fun x => fst x <> []) (group same l).
Proof.
  assert (G : forall (l : list (A * K)) cs k, cs <> [] -> Forall (fun x => fst x <> []) (group_from same cs k l)).
  { induction l as [|[a k'] l IH]; intros cs k N; cbn [group_from]; [now repeat constructor|].
    destruct (same k k'); [apply IH; now destruct cs|constructor; [exact N|apply IH; discriminate]]. }
  intros [|[a k] l]; [constructor|]. apply G. discriminate.
Qed.

Lemma Forall2_of_map {A B C} (f : A -> C) (R : B -> C -> Prop) l m : Forall2 (fun x t => R t (f x)) l m -> Forall2 R m (map f l).
Proof. induction 1; constructor; auto. Qed.
Lemma full_nonempty {A} (l : list A) : full_list l = true -> l <> [].
Proof. now destruct l. Qed.
Lemma entity_word id : entity id = true -> starts is_word id = true /\ all_word id = true.
Proof. unfold entity. rewrite !andb_true_iff. intros [[H _] _]. now apply identifier_word. Qed.
Lemma lex_id id r : entity id = true -> brk r -> lex "" (id ++ r)%string = id :: lex "" r.
Proof. intros H B. destruct (entity_word id H). now apply lex_word. Qed.
Lemma lex_semi r : lex "" (";" ++ r)%string = ";" :: lex "" r.
Proof. change (lex "" (";" ++ r)%string) with (lex ";" r). now rewrite lex_none by (intros; reflexivity). Qed.
Lemma lex_paren_semi r : lex "" (");" ++ r)%string = ")" :: ";" :: lex "" r.
Proof. exact (eq_trans (lex_close (";" ++ r)) (f_equal _ (lex_semi r))). Qed.

Lemma texts_good l : forallb good l = true -> exists ts, texts ada_str l = Ok ts /\ Forall2 lexes ts (map tk l).
Proof.
  intros H. destruct (texts_ok ada_str (fun x t => lexes t (tk x)) l) as (ts & A & B).
  { apply Forall_forall. intros x Hx. exists (str x). apply good_text. now apply (proj1 (forallb_forall _ _) H). }
  exists ts. split; [exact A|]. now apply Forall2_of_map.
Qed.

Lemma concat_flat {A} (f : A -> list string) l : List.concat (map f l) = flat_map f l.
Proof. induction l; cbn; congruence. Qed.

Section Lex.
  Context (alike : list stmt -> list stmt -> bool).
  Definition shown (s : stmt) (t : string) : Prop := lexes t (ptk (grouped alike s)).

  Lemma shown_list b : Forall (fun s => wf s = true -> exists t, stmt_str alike s = Ok t /\ shown s t) b -> forallb wf b = true ->
    exists ts, texts (stmt_str alike) b = Ok ts /\ Forall2 lexes ts (map (fun s => ptk (grouped alike s)) b).
  Proof.
    intros F W. destruct (texts_ok (stmt_str alike) shown b) as (ts & A & B).
    { rewrite Forall_forall in *. intros x Hx. apply F; [exact Hx|]. now apply (proj1 (forallb_forall _ _) W). }
    exists ts. split; [exact A|]. now apply Forall2_of_map.
  Qed.

  Lemma stmt_text s : wf s = true -> exists t, stmt_str alike s = Ok t /\ shown s t.
  Proof.
    induction s as [|id e|id l|id l|e|l e IHl IHe|e l IHl] using stmt_ind'; cbn [wf]; intros W.
    - exists "null;". split; [reflexivity|]. intros r B.
      exact (eq_trans (lex_word "null" (";" ++ r)%string eq_refl eq_refl eq_refl) (f_equal _ (lex_semi r))).
    - apply andb_true_iff in W as [W1 W2]. destruct (good_text e W2) as [T X]. cbn [stmt_str]. rewrite T. eexists. split; [reflexivity|].
      intros r B. rewrite !app_assoc_s, lex_id by (auto; reflexivity). cbn [grouped ptk app]. f_equal.
      change (lex "" (" := " ++ str e ++ ";" ++ r)%string) with (":" :: "=" :: lex "" (str e ++ ";" ++ r)%string).
      rewrite X by reflexivity. rewrite lex_semi. now rewrite <- app_assoc.
    - rewrite !andb_true_iff in W. destruct W as [[W1 W2] W3]. destruct (texts_good l W3) as (ts & T & X).
      cbn [stmt_str]. rewrite T. eexists. split; [reflexivity|].
      intros r B. rewrite !app_assoc_s, lex_id by (auto; reflexivity). cbn [grouped ptk app]. f_equal.
      match goal with |- lex "" (" (" ++ ?x)%string = _ => change (lex "" (" (" ++ x)%string) with (lex "(" x) end.
      rewrite lex_none by (intros; reflexivity). cbn [flush app]. f_equal.
      rewrite (lex_join ", " "," ltac:(reflexivity) ltac:(reflexivity) _ _ X); [|destruct l; [discriminate W2|]; inversion X; discriminate|reflexivity].
      rewrite lex_paren_semi. now rewrite <- app_assoc.
    - apply andb_true_iff in W as [W1 W3]. destruct (texts_good l W3) as (ts & T & X).
      cbn [stmt_str]. rewrite T. eexists. split; [reflexivity|].
      intros r B. rewrite !app_assoc_s.
      match goal with |- lex "" ("pragma " ++ ?x)%string = _ => change (lex "" ("pragma " ++ x)%string) with ("pragma" :: lex "" x) end.
      cbn [grouped ptk app]. f_equal. destruct l as [|x l].
      + rewrite lex_id by (auto; reflexivity). cbn [app]. f_equal. apply lex_semi.
      + rewrite !app_assoc_s, lex_id by (auto; reflexivity). cbn [app]. f_equal.
        match goal with |- lex "" (" (" ++ ?x)%string = _ => change (lex "" (" (" ++ x)%string) with (lex "(" x) end.
        rewrite lex_none by (intros; reflexivity). cbn [flush app]. f_equal. rewrite lex_indent.
        rewrite (lex_join ", " "," ltac:(reflexivity) ltac:(reflexivity) _ _ X); [|destruct ts; [inversion X|discriminate]|reflexivity].
        rewrite lex_close, lex_semi. now rewrite <- !app_assoc.
    - destruct (good_text e W) as [T X]. cbn [stmt_str]. rewrite T. eexists. split; [reflexivity|].
      intros r B. rewrite !app_assoc_s.
      match goal with |- lex "" ("return " ++ ?x)%string = _ => change (lex "" ("return " ++ x)%string) with ("return" :: lex "" x) end.
      cbn [grouped ptk app]. f_equal. rewrite lex_indent, X by reflexivity. rewrite lex_semi. now rewrite <- app_assoc.
    - rewrite !andb_true_iff in W. destruct W as [[W1 W2] W3]. cbn [stmt_str].
      destruct (texts_ok (fun p => bind (ada_str (fst p)) (fun c => bind (texts (stmt_str alike) (snd p)) (fun b => Ok (c, b))))
        (fun p t => arm_lexes t (tk (fst p), map (fun s => ptk (grouped alike s)) (snd p))) l) as (ts & T & X).
      { rewrite Forall_forall in *. intros p Hp. specialize (IHl p Hp). apply (proj1 (forallb_forall _ _) W2) in Hp.
        rewrite !andb_true_iff in Hp. destruct Hp as [[Hc _] Hb]. destruct (good_text _ Hc) as [T X].
        destruct (shown_list _ IHl Hb) as (bs & Tb & Xb). exists (str (fst p), bs). rewrite T. cbn [bind]. rewrite Tb.
        split; [reflexivity|]. now split. }
      rewrite T. cbn [bind]. apply Forall2_of_map in X.
      set (el := match e with Some b => map (grouped alike) b | None => [] end).
      assert (E : exists t, match e with None => Ok "" | Some [] => Ok "" | Some b => bind (texts (stmt_str alike) b) (fun ts => Ok ("else" ++ nl ++ branch_text ts)%string) end = Ok t
        /\ forall r, lex "" (t ++ "end if;" ++ r)%string =
             (match el with [] => [] | _ => "else" :: flat_map ptk el end ++ lex "" ("end if;" ++ r)%string)%list).
      { destruct e as [[|b bs]|]; [now exists ""| |now exists ""].
        destruct (shown_list _ IHe W3) as (us & Tu & Xu). rewrite Tu. eexists. split; [reflexivity|].
        intros r. rewrite !app_assoc_s.
        match goal with |- lex "" ("else" ++ nl ++ ?x)%string = _ => change (lex "" ("else" ++ nl ++ x)%string) with ("else" :: lex "" x) end.
        rewrite (lex_branch _ _ Xu). unfold el. cbn [map]. rewrite <- map_cons, <- concat_flat, map_map. reflexivity. }
      destruct E as (te & Te & Xe). rewrite Te. cbn [bind]. eexists. split; [reflexivity|]. intros r B.
      rewrite !app_assoc_s, (lex_arms _ _ X true), Xe.
      change (lex "" ("end if;" ++ r)%string) with ("end" :: "if" :: lex "" (";" ++ r)%string). rewrite lex_semi.
      cbn [grouped ptk]. fold el.
      assert (Y : forall kw, arm_tokens ptk kw (map (fun p => (fst p, map (grouped alike) (snd p))) l)
                = arm_toks kw (map (fun p => (tk (fst p), map (fun s => ptk (grouped alike s)) (snd p))) l)).
      { clear. induction l as [|[c b] l IH]; intros kw; [reflexivity|]. cbn [map arm_tokens arm_toks fst snd].
        fold (arm_tokens ptk). rewrite IH. do 4 f_equal. now rewrite <- concat_flat, map_map. }
      rewrite Y, <- !app_assoc. reflexivity.
    - rewrite !andb_true_iff in W. destruct W as [[W1 W2] W3]. destruct (good_text e W1) as [T X]. cbn [stmt_str]. rewrite T. cbn [bind].
      set (K := fun (x : list stmt * list string) (y : list stmt * list (prog expr)) =>
        fst x = fst y /\ Forall2 lexes (snd x) (map ptk (snd y)) /\ snd x <> []).
      destruct (texts_ok (fun p => bind (ada_str (fst p)) (fun c => bind (texts (stmt_str alike) (snd p)) (fun b => Ok (c, (snd p, b)))))
        (fun p t => lexes (fst t) (tk (fst p)) /\ K (snd t) (snd p, map (grouped alike) (snd p))) l) as (ts & Tl & Xl).
      { rewrite Forall_forall in *. intros p Hp. specialize (IHl p Hp). apply (proj1 (forallb_forall _ _) W3) in Hp.
        rewrite !andb_true_iff in Hp. destruct Hp as [[Hc Hf] Hb]. destruct (good_text _ Hc) as [Tc Xc].
        destruct (shown_list _ IHl Hb) as (bs & Tb & Xb). exists (str (fst p), (snd p, bs)). rewrite Tc. cbn [bind]. rewrite Tb.
        split; [reflexivity|]. split; [exact Xc|]. split; [reflexivity|]. cbn [fst snd]. rewrite map_map. split; [exact Xb|].
        destruct (snd p); [discriminate Hf|]. inversion Xb. discriminate. }
      rewrite Tl. cbn [bind]. eexists. split; [reflexivity|]. intros r B.
      rewrite !app_assoc_s.
      match goal with |- lex "" ("case " ++ ?x)%string = _ => change (lex "" ("case " ++ x)%string) with ("case" :: lex "" x) end.
      rewrite X by reflexivity.
      assert (Xg : Forall2 (fun x y => Forall2 (fun t c => lexes t (tk c)) (fst x) (fst y) /\ K (snd x) (snd y))
        (group (fun x y => same_stmts alike (fst x) (fst y)) ts)
        (group (fun x y => same_stmts alike (fst x) (fst y)) (map (fun p => (fst p, (snd p, map (grouped alike) (snd p)))) l))).
      { apply group_rel.
        - intros k q k' q' [-> _] [-> _]. reflexivity.
        - clear - Xl. induction Xl; constructor; auto. }
      cbn [grouped ptk app]. f_equal. rewrite <- app_assoc. f_equal.
      set (G1 := group _ ts) in *. set (G2 := group _ (map _ l)) in *.
      assert (N : Forall (fun x => fst x <> []) G1) by apply group_full.
      assert (NE : G1 <> []).
      { unfold G1. destruct l as [|p l]; [discriminate W2|]. inversion Xl as [|? [a k] ? ? ? ?]; subst. cbn [group].
        clear. generalize [a]. match goal with |- forall l0, group_from ?s l0 k ?x <> [] => revert k; induction x as [|[b q] x IH]; intros k cs; cbn [group_from]; [discriminate|destruct (s k q); [apply IH|discriminate]] end. }
      assert (Xc : Forall2 (fun x y => Forall2 lexes (fst x) (fst y) /\ fst x <> [] /\ Forall2 lexes (snd x) (snd y) /\ snd x <> [])
        (map (fun p => (fst p, snd (snd p))) G1) (map (fun p => (map tk (fst p), map ptk (snd (snd p)))) G2)).
      { clear - Xg N. induction Xg as [|[cs [k b]] [ds [q p]] x y [H1 (H2 & H3 & H4)] F IH]; [constructor|]. inversion N; subst. cbn [map fst snd] in *.
        constructor; [|auto]. cbn [fst snd]. split; [|auto]. clear - H1. induction H1; constructor; auto. }
      assert (Is : lex "" (" is" ++ indent (cases_text (map (fun p => (fst p, snd (snd p))) G1)) 3 ++ nl ++ "end case;" ++ r)%string
        = "is" :: lex "" (cases_text (map (fun p => (fst p, snd (snd p))) G1) ++ nl ++ "end case;" ++ r)%string).
      { unfold indent. rewrite <- (lex_ind 3 (nl ++ "end case;" ++ r)%string _ true "") by auto.
        destruct G1 as [|g G1]; [congruence|]. unfold cases_text. cbn [map]. rewrite concat_empty, !app_assoc_s. reflexivity. }
      rewrite Is. f_equal. rewrite (lex_cases _ _ Xc) by apply brk_nl. rewrite lex_nl.
      change (lex "" ("end case;" ++ r)%string) with ("end" :: "case" :: lex "" (";" ++ r)%string). rewrite lex_semi.
      cbn [app]. f_equal. rewrite <- app_assoc. cbn [app]. f_equal. clear. induction G2 as [|[cs [k b]] G2 IH]; [reflexivity|]. cbn [map flat_map fst snd].
      rewrite IH, concat_flat. reflexivity.
  Qed.
End Lex.
