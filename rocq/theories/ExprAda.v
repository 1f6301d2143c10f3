(** Facts: the Ada text of an expression. *)
From Coq Require Import String Ascii List ZArith Bool Lia.
From Verif Require Import Base Ident Expr ExprEval ExprTotal ExprMore ExprFacts ExprPrint ExprRead ExprReadFacts ExprReadTree ExprPyEq.
Import ListNotations.
Local Open Scope string_scope.
Local Open Scope list_scope.
Local Open Scope Z_scope.

(** renaming *)
Fixpoint ren (f : name -> name) (e : expr) : expr :=
  match e with
  | ETrue | EFalse | ENum _ => e
  | EName n s => EName (f n) s
  | ENot x => ENot (ren f x)
  | EAss o ts => EAss o (map (ren f) ts)
  | EBin o l r => EBin o (ren f l) (ren f r)
  | ERel o l r => ERel o (ren f l) (ren f r)
  end.

(** sums, products and disjunctions have terms *)
Fixpoint solid (e : expr) : bool :=
  match e with
  | ETrue | EFalse | ENum _ | EName _ _ => true
  | ENot x => solid x
  | EAss o ts => (match o, ts with (OOr | OOrElse | OAdd | OMul), [] => false | _, _ => true end) && forallb solid ts
  | EBin _ l r | ERel _ l r => solid l && solid r
  end.

Lemma solid_full e : solid e = true -> full e = true.
Proof.
  induction e as [| |v|n s|x IH|o ts IH|o l r IHl IHr|o l r IHl IHr] using expr_ind'; cbn [solid full]; auto.
  - rewrite !andb_true_iff. intros [H1 H2]. split; [destruct o, ts; auto|].
    rewrite forallb_forall in *. rewrite Forall_forall in IH. auto.
  - rewrite !andb_true_iff. tauto.
  - rewrite !andb_true_iff. tauto.
Qed.

Lemma prec_ada e : precedence (ada_expr e) = precedence e.
Proof. destruct e as [| | | | |[]|[]|]; reflexivity. Qed.
Lemma prec_ren f e : precedence (ren f e) = precedence e.
Proof. destruct e as [| | | | |[]|[]|]; reflexivity. Qed.
Lemma paren_ada p f e s : parenthesized p (ada_expr e) s = parenthesized p (ren f e) s.
Proof. unfold parenthesized. now rewrite prec_ada, prec_ren. Qed.

Lemma concat_joined sep l : forall s, String.concat sep (s :: l) = (s ++ fold_right (fun x r => sep ++ x ++ r) "" l)%string.
Proof.
  induction l as [|x l IH]; intros s; [cbn; now rewrite app_nil_s|].
  change (String.concat sep (s :: x :: l)) with (s ++ sep ++ String.concat sep (x :: l))%string. now rewrite IH.
Qed.

Lemma ada_text e : solid e = true -> ada_str (ada_expr e) = Ok (str (ren ada_name e)).
Proof.
  induction e as [| |v|n s|x IH|o ts IH|o l r IHl IHr|o l r IHl IHr] using expr_ind'; cbn [solid]; intros S; try reflexivity.
  - cbn [ada_expr ada_str ren str]. rewrite (IH S). cbn [bind]. rewrite (paren_ada _ ada_name). reflexivity.
  - apply andb_true_iff in S as [S0 S]. cbn [ada_expr ren].
    assert (All : Forall (fun x => ada_str (ada_expr x) = Ok (str (ren ada_name x))) ts).
    { clear S0. induction IH as [|x l Hx _ IHl]; constructor; cbn in S; apply andb_true_iff in S as [? ?]; auto. }
    clear IH S. destruct ts as [|t ts]; [destruct o; try discriminate S0; reflexivity|]. clear S0.
    inversion All as [|? ? Ht Hs]; subst. cbn [map].
    destruct o.
    5: { cbn [ada_str str precedence]. rewrite Ht. cbn [bind].
      match goal with |- bind (?F (map ada_expr ts)) _ = Ok (_ ++ ?G (map (ren ada_name) ts))%string =>
        assert (X : F (map ada_expr ts) = Ok (G (map (ren ada_name) ts))) end.
      { clear All Ht. induction Hs as [|x l Hx _ IHl]; [reflexivity|]. cbn [map]. rewrite IHl.
        destruct x as [| |v|m [|]|x|o us|o a b|o a b]; cbn [ada_expr ren bind] in *; try reflexivity;
          try (rewrite Hx; cbn [bind]; unfold parenthesized; cbn [precedence]; reflexivity).
        destruct (v <? 0); reflexivity. }
      rewrite X. reflexivity. }
    5: { cbn [ada_str str precedence]. rewrite Ht. cbn [bind].
      match goal with |- context [bind (?F (map ada_expr ts)) _] =>
        assert (X : F (map ada_expr ts) = Ok (map (fun x => parenthesized 5 (ren ada_name x) (str (ren ada_name x))) ts)) end.
      { clear - Hs. induction Hs as [|x l Hx _ IHl]; [reflexivity|]. cbn [map]. rewrite Hx. cbn [bind]. rewrite IHl. cbn [bind].
        rewrite (paren_ada _ ada_name). reflexivity. }
      rewrite X. cbn [bind]. rewrite (paren_ada _ ada_name). f_equal. unfold joined. rewrite concat_joined. f_equal.
      clear All Ht Hs X. induction ts as [|x l IHl]; [reflexivity|]. cbn [map fold_right]. rewrite IHl. reflexivity. }
    all: cbn [ada_str str precedence]; rewrite Ht; cbn [bind];
      match goal with |- bind (?F (map ada_expr ?k)) _ = Ok (_ ++ ?G (map (ren ada_name) ?k))%string =>
        assert (X : F (map ada_expr k) = Ok (G (map (ren ada_name) k))) end;
      [clear All Ht; induction Hs as [|x l Hx _ IHl]; [reflexivity|];
       cbn [map]; rewrite Hx; cbn [bind]; rewrite IHl; cbn [bind]; rewrite (paren_ada _ ada_name); reflexivity
      |rewrite X; cbn [bind]; rewrite (paren_ada _ ada_name); reflexivity].
  - apply andb_true_iff in S as [Sl Sr]. cbn [ada_expr ada_str ren str]. rewrite (IHl Sl), (IHr Sr). cbn [bind].
    rewrite !(paren_ada _ ada_name). destruct o; reflexivity.
  - apply andb_true_iff in S as [Sl Sr]. cbn [ada_expr ada_str ren str]. rewrite (IHl Sl), (IHr Sr). cbn [bind].
    rewrite !(paren_ada _ ada_name). reflexivity.
Qed.

(** ** names *)
Fixpoint has_dot (s : string) : bool := match s with "" => false | String c r => Ascii.eqb c "." || has_dot r end.
Lemma string_ind2 (P : string -> Prop) : P "" -> (forall c, P (String c "")) ->
  (forall c d r, P r -> P (String d r) -> P (String c (String d r))) -> forall s, P s.
Proof.
  intros H0 H1 H2 s. enough (P s /\ forall c, P (String c s)) by tauto. induction s as [|c s [I1 I2]]; [auto|]. split; [apply I2|].
  intros d. apply H2; auto.
Qed.
Lemma dots_cons c d r : dots (String c (String d r)) =
  if Ascii.eqb c ":" && Ascii.eqb d ":" then String "." (dots r) else String c (dots (String d r)).
Proof. reflexivity. Qed.
Lemma dots_cases s : dots s = s \/ has_dot (dots s) = true.
Proof.
  induction s as [|c|c d r IH1 IH2] using string_ind2; [now left|now left|]. rewrite dots_cons.
  destruct (Ascii.eqb c ":" && Ascii.eqb d ":"); [now right|]. destruct IH2 as [-> | H]; [now left|]. right. cbn [has_dot]. rewrite H. apply orb_true_r.
Qed.
Lemma dots_word s : all_word s = true -> all_word (dots s) = true.
Proof.
  induction s as [|c|c d r IH1 IH2] using string_ind2; intros H; [exact H|exact H|]. rewrite dots_cons. cbn [all_word] in H.
  apply andb_true_iff in H as [H1 H2]. destruct (Ascii.eqb c ":" && Ascii.eqb d ":").
  - apply andb_true_iff in H2 as [_ H2]. exact (IH1 H2).
  - cbn [all_word]. rewrite H1. now apply IH2.
Qed.
Lemma dots_letter s : starts is_letter s = true -> starts is_letter (dots s) = true.
Proof.
  destruct s as [|c [|d r]]; auto. rewrite dots_cons. cbn [starts]. intros H.
  destruct (Ascii.eqb_spec c ":") as [->|]; [discriminate H|]. exact H.
Qed.
Lemma lower_dot s : has_dot (lower s) = has_dot s.
Proof.
  induction s as [|c s IH]; [reflexivity|]. cbn [lower has_dot]. rewrite IH. f_equal. clear.
  destruct c as [[] [] [] [] [] [] [] []]; reflexivity.
Qed.
Lemma lexical_ada n : lexical n = true -> lexical (ada_name n) = true.
Proof.
  assert (X : forall s, identifier s = true -> identifier (dots s) = true).
  { intros s. unfold identifier. rewrite !andb_true_iff. intros ((((A & B) & C) & D) & E).
    destruct (dots_cases s) as [F|F]; [rewrite F; auto|].
    assert (G : forall w, has_dot w = false -> String.eqb (lower (dots s)) w = false).
    { intros w K. destruct (String.eqb_spec (lower (dots s)) w) as [<-|]; [|reflexivity]. rewrite lower_dot in K. congruence. }
    unfold reserved. cbn [existsb]. rewrite !G by reflexivity. repeat split; auto using dots_letter, dots_word. }
  destruct n; apply X.
Qed.

Fixpoint names (e : expr) : list name :=
  match e with
  | ETrue | EFalse | ENum _ => []
  | EName n _ => [n]
  | ENot x => names x
  | EAss _ ts => flat_map names ts
  | EBin _ l r | ERel _ l r => names l ++ names r
  end.

Lemma ren_ok f (p q : name -> bool) e : (forall n, p n = true -> q (f n) = true) -> names_ok p e = true -> names_ok q (ren f e) = true.
Proof.
  intros X. induction e as [| |v|n s|x IH|o ts IH|o l r IHl IHr|o l r IHl IHr] using expr_ind'; cbn [names_ok ren]; auto.
  - intros H. induction IH as [|x l Hx _ IHl]; [reflexivity|]. cbn in *. apply andb_true_iff in H as [H1 H2]. now rewrite (Hx H1), (IHl H2).
  - rewrite !andb_true_iff. tauto.
  - rewrite !andb_true_iff. tauto.
Qed.
Lemma ren_sums f e : sums (ren f e) = sums e.
Proof.
  induction e as [| |v|n s|x IH|o ts IH|o l r IHl IHr|o l r IHl IHr] using expr_ind'; cbn [sums ren]; auto.
  - assert (X : forallb sums (map (ren f) ts) = forallb sums ts).
    { induction IH as [|x l Hx _ IHl]; [reflexivity|]. cbn. now rewrite Hx, IHl. }
    rewrite X. destruct o, ts; cbn [map]; rewrite ?prec_ren; reflexivity.
  - now rewrite IHl, IHr.
  - now rewrite IHl, IHr.
Qed.
Lemma ren_full f e : full (ren f e) = full e.
Proof.
  induction e as [| |v|n s|x IH|o ts IH|o l r IHl IHr|o l r IHl IHr] using expr_ind'; cbn [full ren]; auto.
  - assert (X : forallb full (map (ren f) ts) = forallb full ts).
    { induction IH as [|x l Hx _ IHl]; [reflexivity|]. cbn. now rewrite Hx, IHl. }
    rewrite X. destruct o, ts; reflexivity.
  - now rewrite IHl, IHr.
  - now rewrite IHl, IHr.
Qed.
Lemma ren_ev sc f g h e : (forall n, In n (names e) -> h (f n) = g n) -> ev sc h (ren f e) = ev sc g e.
Proof.
  induction e as [| |v|n s|x IH|o ts IH|o l r IHl IHr|o l r IHl IHr] using expr_ind'; cbn [names ren]; intros H.
  1-3: destruct sc; reflexivity.
  - destruct sc; cbn; rewrite (H n (or_introl eq_refl)); reflexivity.
  - specialize (IH H). destruct sc; cbn in *; now rewrite IH.
  - rewrite !ev_EAss, map_map. f_equal. apply map_ext_in. intros x Hx. rewrite Forall_forall in IH. apply IH; [exact Hx|].
    intros n Hn. apply H, in_flat_map. eauto.
  - assert (Hl := IHl (fun n K => H n (in_or_app _ _ _ (or_introl K)))). assert (Hr := IHr (fun n K => H n (in_or_app _ _ _ (or_intror K)))).
    destruct sc; cbn in *; now rewrite Hl, Hr.
  - assert (Hl := IHl (fun n K => H n (in_or_app _ _ _ (or_introl K)))). assert (Hr := IHr (fun n K => H n (in_or_app _ _ _ (or_intror K)))).
    destruct sc; cbn in *; now rewrite Hl, Hr.
Qed.
