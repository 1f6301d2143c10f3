(** Facts: the text of conditional expressions is read as the expressions, and grouping keeps the value. *)
From Coq Require Import String Ascii List ZArith Bool Lia.
From Verif Require Import Base Ident Expr ExprEval ExprTotal ExprMore ExprFacts ExprPrint ExprRead ExprReadFacts ExprReadTree ExprAda AdaStmt AdaStmtSpec AdaStmtFacts AdaStmtRead AdaStmtMean AdaCond AdaCondSpec.
Import ListNotations.
Local Open Scope string_scope.
Local Open Scope list_scope.
Local Open Scope nat_scope.

Section CInd.
  Context (P : cexpr -> Prop) (He : forall e, P (CE e))
    (Hi : forall l o, Forall (fun p => P (snd p)) l -> (forall x, o = Some x -> P x) -> P (CIf l o))
    (Hc : forall e l, Forall (fun p => P (snd p)) l -> P (CCase e l)).
  Fixpoint cexpr_ind' (c : cexpr) : P c :=
    let arms := fix arms (l : list (expr * cexpr)) : Forall (fun p => P (snd p)) l :=
      match l with [] => Forall_nil _ | x :: r => Forall_cons (P := fun p => P (snd p)) x (cexpr_ind' (snd x)) (arms r) end in
    match c with
    | CE e => He e
    | CIf l o => Hi l o (arms l)
        match o return forall x, o = Some x -> P x with
        | Some y => fun x H => match H in _ = z return match z with Some x => P x | None => True end with eq_refl => cexpr_ind' y end
        | None => fun x H => match H in _ = z return match z with Some x => P x | None => True end with eq_refl => Logic.I end
        end
    | CCase e l => Hc e l (arms l)
    end.
End CInd.
Section VInd.
  Context {E : Type} (P : cond E -> Prop) (He : forall e, P (VE e))
    (Hi : forall l o, Forall (fun p => P (snd p)) l -> (forall x, o = Some x -> P x) -> P (VIf l o))
    (Hc : forall e l, Forall (fun p => P (snd p)) l -> P (VCase e l)).
  Fixpoint cond_ind' (c : cond E) : P c :=
    match c with
    | VE e => He e
    | VIf l o => Hi l o
        ((fix arms (l : list (E * cond E)) : Forall (fun p => P (snd p)) l :=
          match l with [] => Forall_nil _ | x :: r => Forall_cons (P := fun p => P (snd p)) x (cond_ind' (snd x)) (arms r) end) l)
        match o return forall x, o = Some x -> P x with
        | Some y => fun x H => match H in _ = z return match z with Some x => P x | None => True end with eq_refl => cond_ind' y end
        | None => fun x H => match H in _ = z return match z with Some x => P x | None => True end with eq_refl => Logic.I end
        end
    | VCase e l => Hc e l
        ((fix arms (l : list (list E * cond E)) : Forall (fun p => P (snd p)) l :=
          match l with [] => Forall_nil _ | x :: r => Forall_cons (P := fun p => P (snd p)) x (cond_ind' (snd x)) (arms r) end) l)
    end.
End VInd.

(** ** Conditions *)

(** an expression whose text does not begin like a conditional expression: the first word after opening
    parentheses is not reserved *)
Fixpoint opens (l : list string) : bool :=
  match l with
  | [] => false
  | w :: r => if String.eqb w "(" then opens r else negb (String.eqb w "if") && negb (String.eqb w "case") && negb (String.eqb w "for")
  end.
Definition leaf_ok (e : expr) : bool := opens (tk e).
Fixpoint cwf (c : cexpr) : bool :=
  match c with
  | CE e => good e && leaf_ok e
  | CIf l o =>
    full_list l && forallb (fun p => good (fst p) && cwf (snd p)) l && match o with Some x => cwf x | None => true end
  | CCase e l => good e && full_list l && forallb (fun p => good (fst p) && cwf (snd p)) l
  end.
Fixpoint vwf (c : cond expr) : bool :=
  match c with
  | VE e => good e && leaf_ok e
  | VIf l o =>
    full_list l && forallb (fun p => good (fst p) && vwf (snd p)) l && match o with Some x => vwf x | None => true end
  | VCase e l => good e && full_list l && forallb (fun p => full_list (fst p) && forallb good (fst p) && vwf (snd p)) l
  end.

(** each choice by itself; neighbours with equal expressions in groups *)
Fixpoint as_cond (c : cexpr) : cond expr :=
  match c with
  | CE e => VE e
  | CIf l o => VIf (map (fun p => (fst p, as_cond (snd p))) l) match o with Some x => Some (as_cond x) | None => None end
  | CCase e l => VCase e (map (fun p => ([fst p], as_cond (snd p))) l)
  end.
Fixpoint cgrouped (alike : cexpr -> cexpr -> bool) (c : cexpr) : cond expr :=
  match c with
  | CE e => VE e
  | CIf l o => VIf (map (fun p => (fst p, cgrouped alike (snd p))) l) match o with Some x => Some (cgrouped alike x) | None => None end
  | CCase e l => VCase e (map (fun p => (fst p, snd (snd p)))
      (group (fun x y => same_cexpr alike (fst x) (fst y)) (map (fun p => (fst p, (snd p, cgrouped alike (snd p)))) l)))
  end.
Fixpoint cmap {A B} (f : A -> B) (c : cond A) : cond B :=
  match c with
  | VE e => VE (f e)
  | VIf l o => VIf (map (fun p => (f (fst p), cmap f (snd p))) l) match o with Some x => Some (cmap f x) | None => None end
  | VCase e l => VCase (f e) (map (fun p => (map f (fst p), cmap f (snd p))) l)
  end.

(** ** Tokens *)

Definition carm_tokens (f : cond expr -> list string) : string -> list (expr * cond expr) -> list string :=
  fix go kw l :=
    match l with
    | [] => []
    | (c, x) :: r => kw :: tk c ++ "then" :: f x ++ go "elsif" r
    end.
Definition alt_toks (f : cond expr -> list string) (p : list expr * cond expr) : list string :=
  "when" :: sep_by "|" (map tk (fst p)) ++ "=>" :: f (snd p).
Fixpoint ctk (c : cond expr) : list string :=
  match c with
  | VE e => tk e
  | VIf l o => "(" :: carm_tokens ctk "if" l ++ match o with Some x => "else" :: ctk x | None => [] end ++ [")"]
  | VCase e l => "(" :: "case" :: tk e ++ "is" :: sep_by "," (map (fun p => alt_toks ctk p) l) ++ [")"]
  end.

Lemma opens_word l r w : opens l = true -> w = "if" \/ w = "case" \/ w = "for" -> eat [w] (l ++ r) = None.
Proof.
  intros H W. destruct l as [|a l]; [discriminate|]. cbn [opens app eat] in *. rewrite String.eqb_sym.
  destruct (String.eqb_spec a w) as [->|]; [|reflexivity]. destruct W as [-> | [-> | ->]]; discriminate H.
Qed.
Lemma opens_eat l r w : opens l = true -> w = "if" \/ w = "case" \/ w = "for" -> eat ["("; w] (l ++ r) = None.
Proof.
  intros H W. destruct l as [|a l]; [discriminate|]. cbn [opens app] in *.
  change (eat ["("; w] (a :: l ++ r)) with (if String.eqb "(" a then eat [w] (l ++ r) else None).
  rewrite String.eqb_sym. destruct (String.eqb a "("); [now apply opens_word|reflexivity].
Qed.
Lemma opens_twice l r w : opens l = true -> w = "if" \/ w = "case" \/ w = "for" -> eat ["("; "("; w] (l ++ r) = None.
Proof.
  intros H W. destruct l as [|a l]; [discriminate|]. cbn [opens app] in *.
  change (eat ["("; "("; w] (a :: l ++ r)) with (if String.eqb "(" a then eat ["("; w] (l ++ r) else None).
  rewrite String.eqb_sym. destruct (String.eqb a "("); [now apply opens_eat|reflexivity].
Qed.
Lemma leaf_eat e w rest : leaf_ok e = true -> w = "if" \/ w = "case" \/ w = "for" -> eat ["("; w] (tk e ++ rest) = None.
Proof. apply opens_eat. Qed.

Definition readable (c : cond expr) : Prop :=
  vwf c = true -> forall rest, stops 5 rest -> ev_all (fun n => conditional n (ctk c ++ rest) = Some (cmap tree_of c, rest)).

Definition else_toks (o : option (cond expr)) : list string := match o with Some x => "else" :: ctk x | None => [] end.
Lemma read_arms o : (forall x, o = Some x -> readable x) -> match o with Some x => vwf x | None => true end = true -> forall rest l c x,
  Forall (fun p => readable (snd p)) ((c, x) :: l) ->
  forallb (fun p => good (fst p) && vwf (snd p)) ((c, x) :: l) = true ->
  ev_all (fun n => arms n (tk c ++ "then" :: ctk x ++ carm_tokens ctk "elsif" l ++ else_toks o ++ ")" :: rest)
    = Some (map (fun p => (tree_of (fst p), cmap tree_of (snd p))) ((c, x) :: l), match o with Some y => Some (cmap tree_of y) | None => None end, rest)).
Proof.
  intros Fo Wo rest. induction l as [|[c' x'] l IH]; intros c x F W; cbn [forallb fst snd] in W; rewrite !andb_true_iff in W.
  - destruct W as [[Wc Wx] _]. inversion F as [|? ? Fx _]; subst. cbn [carm_tokens app snd] in *.
    destruct o as [y|]; cbn [else_toks app].
    + eapply ev_S; [exact (ev_and _ _ (read_expression c ("then" :: ctk x ++ "else" :: ctk y ++ ")" :: rest) Wc (stops_word "then" _ eq_refl))
        (ev_and _ _ (Fx Wx ("else" :: ctk y ++ ")" :: rest) (stops_word "else" _ eq_refl))
          (Fo y eq_refl Wo (")" :: rest) (stops_word ")" _ eq_refl))))|].
      intros n (H1 & H2 & H3). cbn [arms]. rewrite H1, eat_one, H2.
      change (String.eqb "else" "elsif") with false. change (String.eqb "else" "else") with true. cbn iota. rewrite H3, eat_one. reflexivity.
    + eapply ev_S; [exact (ev_and _ _ (read_expression c ("then" :: ctk x ++ ")" :: rest) Wc (stops_word "then" _ eq_refl))
        (Fx Wx (")" :: rest) (stops_word ")" _ eq_refl)))|].
      intros n (H1 & H2). cbn [arms]. rewrite H1, eat_one, H2. reflexivity.
  - destruct W as [[Wc Wx] W']. inversion F as [|? ? Fx F']; subst. cbn [snd] in Fx.
    assert (W'' : forallb (fun p => good (fst p) && vwf (snd p)) ((c', x') :: l) = true).
    { cbn [forallb fst snd]. rewrite !andb_true_iff. exact W'. }
    specialize (IH c' x' F' W''). cbn [carm_tokens]. fold (carm_tokens ctk). cbn [app].
    rewrite <- !app_assoc. cbn [app]. rewrite <- !app_assoc.
    eapply ev_S; [exact (ev_and _ _ (read_expression c ("then" :: ctk x ++ "elsif" :: tk c' ++ "then" :: ctk x' ++ carm_tokens ctk "elsif" l ++ else_toks o ++ ")" :: rest) Wc (stops_word "then" _ eq_refl))
      (ev_and _ _ (Fx Wx ("elsif" :: tk c' ++ "then" :: ctk x' ++ carm_tokens ctk "elsif" l ++ else_toks o ++ ")" :: rest) (stops_word "elsif" _ eq_refl)) IH))|].
    intros n (H1 & H2 & H3). cbn [arms]. rewrite H1, eat_one, H2.
    change (String.eqb "elsif" "elsif") with true. cbn iota. rewrite H3. reflexivity.
Qed.

Lemma read_choices rest : forall l, Forall (fun p => readable (snd p)) l -> l <> [] ->
  forallb (fun p => full_list (fst p) && forallb good (fst p) && vwf (snd p)) l = true ->
  ev_all (fun n => choices n (sep_by "," (map (fun p => alt_toks ctk p) l) ++ ")" :: rest)
    = Some (map (fun p => (map tree_of (fst p), cmap tree_of (snd p))) l, rest)).
Proof.
  induction l as [|[cs x] l IH]; intros F N W; [congruence|]. cbn [forallb fst snd] in W. rewrite !andb_true_iff in W.
  destruct W as [[[Wn Wc] Wx] W']. inversion F as [|? ? Fx F']; subst. cbn [snd] in Fx. destruct l as [|q l].
  - cbn [map sep_by]. unfold alt_toks. cbn [fst snd app]. rewrite <- !app_assoc. cbn [app].
    pose proof (read_several "|" "=>" (ctk x ++ ")" :: rest) eq_refl eq_refl eq_refl eq_refl eq_refl cs Wc (full_nonempty _ Wn)) as H1.
    eapply ev_S; [exact (ev_and _ _ H1 (Fx Wx (")" :: rest) (stops_word ")" _ eq_refl)))|]. intros n [K1 K2].
    cbn [choices]. rewrite eat_one, K1, K2. reflexivity.
  - specialize (IH F' ltac:(discriminate) W').
    change (sep_by "," (map (fun p => alt_toks ctk p) ((cs, x) :: q :: l)))
      with (alt_toks ctk (cs, x) ++ "," :: sep_by "," (map (fun p => alt_toks ctk p) (q :: l))).
    unfold alt_toks at 1. cbn [fst snd app]. rewrite <- !app_assoc. cbn [app]. rewrite <- ?app_assoc. cbn [app].
    set (rest' := sep_by "," (map (fun p => alt_toks ctk p) (q :: l)) ++ ")" :: rest) in *.
    pose proof (read_several "|" "=>" (ctk x ++ "," :: rest') eq_refl eq_refl eq_refl eq_refl eq_refl cs Wc (full_nonempty _ Wn)) as H1.
    eapply ev_S; [exact (ev_and _ _ H1 (ev_and _ _ (Fx Wx ("," :: rest') (stops_word "," _ eq_refl)) IH))|]. intros n (K1 & K2 & K3).
    cbn [choices]. rewrite eat_one, K1, K2. change (String.eqb "," ")") with false. change (String.eqb "," ",") with true. cbn iota.
    rewrite K3. reflexivity.
Qed.

Theorem read_conditional c : readable c.
Proof.
  induction c as [e|l o IHl IHo|e l IHl] using cond_ind'; intros W rest St; cbn [vwf] in W; rewrite ?andb_true_iff in W.
  - destruct W as [We Wl]. eapply ev_S; [exact (read_expression e rest We St)|]. intros n H. cbn [conditional ctk].
    rewrite !(leaf_eat e) by auto. now rewrite H.
  - destruct W as [[Wn W] Wo]. destruct l as [|[c x] l]; [discriminate Wn|].
    eapply ev_S; [exact (read_arms o IHo Wo rest l c x IHl W)|]. intros n H. cbn [ctk carm_tokens]. fold (carm_tokens ctk).
    cbn [app]. rewrite <- !app_assoc. cbn [app]. rewrite <- !app_assoc. cbn [app]. cbn [conditional]. fold (else_toks o).
    match goal with |- context [eat ["("; "if"] ("(" :: "if" :: ?r)] => rewrite (eat_app ["("; "if"] r : eat ["("; "if"] ("(" :: "if" :: r) = Some r) end.
    rewrite H. reflexivity.
  - destruct W as [[We Wn] W].
    eapply ev_S; [exact (ev_and _ _ (read_expression e ("is" :: sep_by "," (map (fun p => alt_toks ctk p) l) ++ ")" :: rest) We (stops_word "is" _ eq_refl)) (read_choices rest l IHl (full_nonempty _ Wn) W))|].
    intros n [H1 H2]. cbn [ctk app]. rewrite <- !app_assoc. cbn [app]. rewrite <- !app_assoc. cbn [app]. cbn [conditional].
    match goal with |- context [eat ["("; "if"] ("(" :: "case" :: ?r)] => change (eat ["("; "if"] ("(" :: "case" :: r)) with (@None (list string));
      rewrite (eat_app ["("; "case"] r : eat ["("; "case"] ("(" :: "case" :: r) = Some r) end.
    rewrite H1, eat_one, H2. reflexivity.
Qed.

(** ** The text *)

Fixpoint carm_toks (kw : string) (l : list (list string * list string)) : list string :=
  match l with [] => [] | (c, x) :: r => kw :: c ++ "then" :: x ++ carm_toks "elsif" r end.
Lemma lex_carms l m : Forall2 (fun x y => lexes (fst x) (fst y) /\ lexes (snd x) (snd y)) l m -> forall r, brk r ->
  lex "" (carms_text false l ++ r)%string = (carm_toks "elsif" m ++ lex "" r)%list.
Proof.
  induction 1 as [|[c b] [c' b'] l m [Hc Hb] F IH]; intros r B; [reflexivity|]. cbn [carms_text carm_toks fst snd] in *.
  rewrite !app_assoc_s.
  match goal with |- lex "" (nl ++ " elsif" ++ nl ++ ?x)%string = _ => change (lex "" (nl ++ " elsif" ++ nl ++ x)%string) with ("elsif" :: lex "" x) end.
  rewrite (lexes_ind _ _ 4 Hc) by reflexivity.
  match goal with |- context [lex "" (nl ++ " then" ++ nl ++ ?x)%string] => change (lex "" (nl ++ " then" ++ nl ++ x)%string) with ("then" :: lex "" x) end.
  assert (B' : brk (carms_text false l ++ r)%string) by (destruct l as [|[? ?] l]; [exact B|reflexivity]).
  rewrite (lexes_ind _ _ 4 Hb) by exact B'. rewrite (IH r B). cbn [app]. f_equal. rewrite <- !app_assoc. cbn [app]. now rewrite <- app_assoc.
Qed.

Lemma lex_ccases l m : Forall2 (fun x y => Forall2 lexes (fst x) (fst y) /\ fst x <> [] /\ lexes (snd x) (snd y)) l m -> l <> [] ->
  lexes (ccases_text l) (sep_by "," (map (fun p => "when" :: sep_by "|" (fst p) ++ "=>" :: snd p) m)).
Proof.
  intros F N. unfold ccases_text. apply (lex_join "," ",").
  - reflexivity.
  - intros r. change (lex "" ("," ++ r)%string) with (lex "," r). now rewrite lex_none by (intros; reflexivity).
  - clear N. induction F as [|[cs b] [cs' b'] l m (Hc & Nc & Hb) F IH]; [constructor|]. cbn [map fst snd] in *. constructor; [|exact IH].
    intros r B. rewrite !app_assoc_s, lex_nl.
    match goal with |- lex "" ("when " ++ ?x)%string = _ => change (lex "" ("when " ++ x)%string) with ("when" :: lex "" x) end.
    rewrite (lex_join " | " "|" ltac:(reflexivity) ltac:(reflexivity) _ _ Hc Nc) by reflexivity.
    match goal with |- context [lex "" (" =>" ++ ?x)%string] =>
      change (lex "" (" =>" ++ x)%string) with (lex "=>" x) end.
    rewrite lex_none by (intros; reflexivity). cbn [flush app]. rewrite lex_nl, (lexes_ind _ _ 3 Hb) by exact B.
    cbn [app]. f_equal. rewrite <- !app_assoc. reflexivity.
  - now destruct l.
Qed.

Section Lex.
  Context (alike : cexpr -> cexpr -> bool).
  Theorem cexpr_text c : cwf c = true -> exists t, cexpr_str alike c = Ok t /\ lexes t (ctk (cgrouped alike c)).
  Proof.
    induction c as [e|l o IHl IHo|e l IHl] using cexpr_ind'; cbn [cwf]; intros W.
    - apply andb_true_iff in W as [W _]. exists (str e). now apply good_text.
    - rewrite !andb_true_iff in W. destruct W as [[W1 W2] W3]. cbn [cexpr_str].
      destruct (texts_ok (fun p => bind (ada_str (fst p)) (fun c => bind (cexpr_str alike (snd p)) (fun e => Ok (c, e))))
        (fun p t => lexes (fst t) (tk (fst p)) /\ lexes (snd t) (ctk (cgrouped alike (snd p)))) l) as (ts & T & X).
      { rewrite Forall_forall in *. intros p Hp. specialize (IHl p Hp). apply (proj1 (forallb_forall _ _) W2) in Hp.
        apply andb_true_iff in Hp as [Hc Hb]. destruct (good_text _ Hc) as [T X]. destruct (IHl Hb) as (t & Tb & Xb).
        exists (str (fst p), t). rewrite T. cbn [bind]. rewrite Tb. split; [reflexivity|]. now split. }
      rewrite T. cbn [bind].
      assert (E : exists t, match o with None => Ok "" | Some e => bind (cexpr_str alike e) (fun t => Ok (nl ++ " else" ++ nl ++ indent t 4)%string) end = Ok t
        /\ (forall r, brk (t ++ ")" ++ r)%string) /\ forall r, lex "" (t ++ ")" ++ r)%string = (match o with Some x => "else" :: ctk (cgrouped alike x) | None => [] end ++ ")" :: lex "" r)%list).
      { destruct o as [x|].
        - destruct (IHo x eq_refl W3) as (t & Tx & Xx). rewrite Tx. eexists. split; [reflexivity|]. split; [reflexivity|]. intros r. rewrite !app_assoc_s.
          match goal with |- lex "" (nl ++ " else" ++ nl ++ ?x)%string = _ => change (lex "" (nl ++ " else" ++ nl ++ x)%string) with ("else" :: lex "" x) end.
          rewrite (lexes_ind _ _ 4 Xx) by reflexivity. now rewrite lex_close.
        - exists "". split; [reflexivity|]. split; [reflexivity|]. intros r. apply lex_close. }
      destruct E as (te & Te & Be & Xe). rewrite Te. cbn [bind]. eexists. split; [reflexivity|]. intros r B.
      destruct l as [|[c x] l]; [discriminate W1|]. inversion X as [|? [tc tx] ? ts' [Xc Xx] X']; subst. cbn [carms_text fst snd] in *.
      rewrite !app_assoc_s.
      match goal with |- lex "" ("(if" ++ nl ++ ?x)%string = _ => change (lex "" ("(if" ++ nl ++ x)%string) with (lex "(" ("if" ++ nl ++ x)%string) end.
      rewrite lex_none by (intros; reflexivity).
      match goal with |- context [lex "" ("if" ++ nl ++ ?x)%string] => change (lex "" ("if" ++ nl ++ x)%string) with ("if" :: lex "" x) end.
      rewrite (lexes_ind _ _ 4 Xc) by reflexivity.
      match goal with |- context [lex "" (nl ++ " then" ++ nl ++ ?x)%string] => change (lex "" (nl ++ " then" ++ nl ++ x)%string) with ("then" :: lex "" x) end.
      rewrite (lexes_ind _ _ 4 Xx) by (destruct ts' as [|[? ?] ?]; [apply Be|reflexivity]).
      assert (X'' : Forall2 (fun x y => lexes (fst x) (fst y) /\ lexes (snd x) (snd y)) ts' (map (fun p => (tk (fst p), ctk (cgrouped alike (snd p)))) l)).
      { clear - X'. induction X'; constructor; auto. }
      rewrite (lex_carms _ _ X'') by apply Be. rewrite Xe. cbn [cgrouped map ctk carm_tokens fst snd flush app]. fold (carm_tokens ctk).
      assert (Y : carm_tokens ctk "elsif" (map (fun p => (fst p, cgrouped alike (snd p))) l)
                = carm_toks "elsif" (map (fun p => (tk (fst p), ctk (cgrouped alike (snd p)))) l)).
      { clear. induction l as [|[c b] l IH]; [reflexivity|]. cbn [map carm_tokens carm_toks fst snd]. fold (carm_tokens ctk). now rewrite IH. }
      rewrite Y. rewrite <- !app_assoc. cbn [app]. rewrite <- !app_assoc. destruct o; reflexivity.
    - rewrite !andb_true_iff in W. destruct W as [[W1 W2] W3]. destruct (good_text e W1) as [T X]. cbn [cexpr_str].
      set (K := fun (x : cexpr * string) (y : cexpr * cond expr) => fst x = fst y /\ lexes (snd x) (ctk (snd y))).
      destruct (texts_ok (fun p => bind (ada_str (fst p)) (fun c => bind (cexpr_str alike (snd p)) (fun b => Ok (c, (snd p, b)))))
        (fun p t => lexes (fst t) (tk (fst p)) /\ K (snd t) (snd p, cgrouped alike (snd p))) l) as (ts & Tl & Xl).
      { rewrite Forall_forall in *. intros p Hp. specialize (IHl p Hp). apply (proj1 (forallb_forall _ _) W3) in Hp.
        apply andb_true_iff in Hp as [Hc Hb]. destruct (good_text _ Hc) as [Tc Xc]. destruct (IHl Hb) as (t & Tb & Xb).
        exists (str (fst p), (snd p, t)). rewrite Tc. cbn [bind]. rewrite Tb. split; [reflexivity|]. split; [exact Xc|]. now split. }
      rewrite Tl. cbn [bind]. rewrite T. cbn [bind]. eexists. split; [reflexivity|]. intros r B.
      rewrite !app_assoc_s.
      match goal with |- lex "" ("(case " ++ ?x)%string = _ => change (lex "" ("(case " ++ x)%string) with (lex "(" ("case " ++ x)%string) end.
      rewrite lex_none by (intros; reflexivity).
      match goal with |- context [lex "" ("case " ++ ?x)%string] => change (lex "" ("case " ++ x)%string) with ("case" :: lex "" x) end.
      rewrite X by reflexivity.
      assert (Xg : Forall2 (fun x y => Forall2 (fun t c => lexes t (tk c)) (fst x) (fst y) /\ K (snd x) (snd y))
        (group (fun x y => same_cexpr alike (fst x) (fst y)) ts)
        (group (fun x y => same_cexpr alike (fst x) (fst y)) (map (fun p => (fst p, (snd p, cgrouped alike (snd p)))) l))).
      { apply group_rel.
        - intros k q k' q' [-> _] [-> _]. reflexivity.
        - clear - Xl. induction Xl; constructor; auto. }
      cbn [cgrouped ctk flush app]. do 2 f_equal. rewrite <- app_assoc. f_equal.
      set (G1 := group _ ts) in *. set (G2 := group _ (map _ l)) in *.
      assert (N : Forall (fun x => fst x <> []) G1) by apply group_full.
      assert (NE : G1 <> []).
      { unfold G1. destruct l as [|p l]; [discriminate W2|]. inversion Xl as [|? [a k] ? ? ? ?]; subst. cbn [group].
        clear. generalize [a]. match goal with |- forall l0, group_from ?s l0 k ?x <> [] => revert k; induction x as [|[b q] x IH]; intros k cs; cbn [group_from]; [discriminate|destruct (s k q); [apply IH|discriminate]] end. }
      assert (Xc : Forall2 (fun x y => Forall2 lexes (fst x) (fst y) /\ fst x <> [] /\ lexes (snd x) (snd y))
        (map (fun p => (fst p, snd (snd p))) G1) (map (fun p => (map tk (fst p), ctk (snd (snd p)))) G2)).
      { clear - Xg N. induction Xg as [|[cs [k b]] [ds [q p]] x y [H1 (H2 & H3)] F IH]; [constructor|]. inversion N; subst. cbn [map fst snd] in *.
        constructor; [|auto]. cbn [fst snd]. split; [|auto]. clear - H1. induction H1; constructor; auto. }
      assert (NE' : map (fun p => (fst p, snd (snd p))) G1 <> []) by (destruct G1; [congruence|discriminate]).
      assert (Is : lex "" (" is" ++ indent (ccases_text (map (fun p => (fst p, snd (snd p))) G1)) 4 ++ ")" ++ r)%string
        = "is" :: lex "" (ccases_text (map (fun p => (fst p, snd (snd p))) G1) ++ ")" ++ r)%string).
      { unfold indent. rewrite <- (lex_ind 4 (")" ++ r)%string _ true "") by auto.
        destruct G1 as [|g G1]; [congruence|]. unfold ccases_text. cbn [map]. destruct (map _ (map _ G1)); reflexivity. }
      rewrite Is. cbn [app]. f_equal. rewrite (lex_ccases _ _ Xc NE') by reflexivity. rewrite lex_close.
      rewrite <- app_assoc. cbn [app]. f_equal. f_equal. rewrite !map_map. reflexivity.
  Qed.
End Lex.

Lemma group_keys {A K} same (P : A -> K -> Prop) : forall (l : list (A * K)), Forall (fun p => P (fst p) (snd p)) l -> 
  (forall a k a' k', P a k -> P a' k' -> P a' k) ->
  Forall (fun x => fst x <> [] /\ Forall (fun a => P a (snd x)) (fst x)) (group same l).
Proof.
  intros l F X.
  assert (G : forall (l : list (A * K)), Forall (fun p => P (fst p) (snd p)) l -> forall cs k, cs <> [] -> Forall (fun a => P a k) cs ->
    Forall (fun x => fst x <> [] /\ Forall (fun a => P a (snd x)) (fst x)) (group_from same cs k l)).
  { induction 1 as [|[a k'] m Ha _ IH]; intros cs k N Fc; cbn [group_from fst snd] in *; [repeat constructor; auto|].
    destruct (same k k').
    - apply IH; [now destruct cs|]. apply Forall_app. split; [exact Fc|]. constructor; [|constructor].
      destruct cs as [|b cs]; [congruence|]. inversion Fc; subst. eauto.
    - constructor; [now split|]. apply IH; [discriminate|]. repeat constructor; auto. }
  destruct l as [|[a k] l]; [constructor|]. inversion F; subst. cbn [group fst snd] in *. apply G; auto. discriminate.
Qed.
Lemma cgrouped_wf alike c : cwf c = true -> vwf (cgrouped alike c) = true.
Proof.
  induction c as [e|l o IHl IHo|e l IHl] using cexpr_ind'; cbn [cwf cgrouped vwf]; rewrite ?andb_true_iff; intros W; auto.
  - destruct W as [[W1 W2] W3]. repeat split.
    + now destruct l.
    + rewrite forallb_forall in *. rewrite Forall_forall in IHl. intros p Hp. apply in_map_iff in Hp as (q & <- & Hq). cbn [fst snd].
      specialize (IHl q Hq). apply W2 in Hq. apply andb_true_iff in Hq as [Q1 Q2]. rewrite Q1. cbn [andb]. auto.
    + destruct o; auto.
  - destruct W as [[W1 W2] W3]. repeat split; [exact W1| |].
    + destruct l as [|[c x] l]; [discriminate|]. cbn [map fst snd group]. clear. generalize [c]. generalize (x, cgrouped alike x).
      induction l as [|[c' x'] l IH]; intros k cs; [reflexivity|]. cbn [map group_from fst snd]. destruct (same_cexpr _ _ _); [apply IH|reflexivity].
    + set (m := map (fun p => (fst p, (snd p, cgrouped alike (snd p)))) l).
      assert (F : Forall (fun p : expr * (cexpr * cond expr) => good (fst p) = true /\ vwf (snd (snd p)) = true) m).
      { apply Forall_forall. intros p Hp. apply in_map_iff in Hp as (q & <- & Hq). cbn [fst snd]. rewrite Forall_forall in IHl.
        specialize (IHl q Hq). rewrite forallb_forall in W3. apply W3 in Hq. apply andb_true_iff in Hq as [Q1 Q2]. auto. }
      pose proof (group_keys (fun x y => same_cexpr alike (fst x) (fst y)) (fun (c : expr) (k : cexpr * cond expr) => good c = true /\ vwf (snd k) = true) m F) as F'.
      clear F. rename F' into F. lapply F; clear F; [intros F|].
      * rewrite forallb_forall. intros p Hp. apply in_map_iff in Hp as (q & <- & Hq). cbn [fst snd]. rewrite Forall_forall in F.
        apply F in Hq as [Q1 Q2]. destruct (fst q) as [|a cs] eqn:E; [congruence|]. cbn [full_list]. rewrite !andb_true_iff. repeat split.
        -- rewrite forallb_forall. rewrite Forall_forall in Q2. intros b Hb. now apply Q2.
        -- inversion Q2 as [|? ? Qa _]. apply Qa.
      * now intros a k a' k' [? ?] [? ?].
Qed.

(** ** Return statements *)

Definition is_case {E} (c : cond E) : bool := match c with VCase _ _ => true | _ => false end.
Lemma read_returned c rest : vwf c = true ->
  ev_all (fun n => returned n ("return" :: (if is_case c then ["("] else []) ++ ctk c ++ (if is_case c then [")"] else []) ++ ";" :: rest) = Some (cmap tree_of c, rest)).
Proof.
  intros W. destruct c as [e|l o|e l]; cbn [is_case app].
  - destruct (read_conditional (VE e) W (";" :: rest) (stops_word ";" _ eq_refl)) as [k H]. exists k. intros n L. specialize (H n L).
    unfold returned. rewrite eat_one. cbn [vwf ctk] in *. apply andb_true_iff in W as [_ W]. rewrite opens_twice by auto.
    rewrite H, eat_one. reflexivity.
  - destruct (read_conditional (VIf l o) W (";" :: rest) (stops_word ";" _ eq_refl)) as [k H]. exists k. intros n L. specialize (H n L).
    unfold returned. rewrite eat_one.
    assert (E : eat ["("; "("; "case"] (ctk (VIf l o) ++ ";" :: rest) = None).
    { destruct l as [|[c x] l]; [discriminate W|]. reflexivity. }
    rewrite E, H, eat_one. reflexivity.
  - destruct (read_conditional (VCase e l) W (")" :: ";" :: rest) (stops_word ")" _ eq_refl)) as [k H]. exists k. intros n L. specialize (H n L).
    unfold returned. rewrite eat_one.
    match goal with |- context [eat ["("; "("; "case"] ?x] => change (eat ["("; "("; "case"] x) with (Some (skipn 3 x)) end. cbn iota.
    rewrite eat_one, H. reflexivity.
Qed.
Lemma lex_return alike c : cwf c = true -> exists t, return_str alike c = Ok t /\
  lexes t ("return" :: (if is_case (cgrouped alike c) then ["("] else []) ++ ctk (cgrouped alike c) ++ (if is_case (cgrouped alike c) then [")"] else []) ++ [";"]).
Proof.
  intros W. destruct (cexpr_text alike c W) as (t & T & X). unfold return_str. rewrite T. cbn [bind]. eexists. split; [reflexivity|].
  intros r B. destruct c as [e|l o|e l]; cbn [cgrouped is_case app] in *; rewrite !app_assoc_s.
  3: { match goal with |- lex "" ("return (" ++ ?x)%string = _ => change (lex "" ("return (" ++ x)%string) with ("return" :: lex "(" x) end.
    rewrite lex_none by (intros; reflexivity). cbn [flush app]. do 2 f_equal. rewrite lex_indent, X by reflexivity. rewrite lex_paren_semi.
    rewrite <- app_assoc. reflexivity. }
  all: match goal with |- lex "" ("return " ++ ?x)%string = _ => change (lex "" ("return " ++ x)%string) with ("return" :: lex "" x) end;
    f_equal; rewrite lex_indent, X by reflexivity; rewrite lex_semi, <- app_assoc; reflexivity.
Qed.
