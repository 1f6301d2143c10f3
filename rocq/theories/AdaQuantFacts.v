(** Facts: the text of quantified expressions is read as the expressions. *)
From Coq Require Import String Ascii List ZArith Bool Lia.
From Verif Require Import Base Ident Expr ExprEval ExprTotal ExprMore ExprFacts ExprPrint ExprRead ExprReadFacts ExprReadTree ExprAda AdaStmt AdaStmtSpec AdaStmtFacts AdaStmtRead AdaStmtMean AdaCond AdaCondSpec AdaCondFacts AdaCondMean AdaQuant AdaQuantSpec.
Import ListNotations.
Local Open Scope string_scope.
Local Open Scope list_scope.
Local Open Scope nat_scope.

(** ** Conditions *)

Definition iwf (i : iterable) : bool := match i with IRange a b => good a && good b | IExpr e => good e end.
Fixpoint qwf (q : qexpr) : bool :=
  match q with
  | QC c => cwf c
  | QFor _ id it p => entity id && iwf it && qwf p
  end.
Definition dwf (d : domain expr) : bool := match d with DRange a b => good a && good b | DExpr e => good e end.
Fixpoint wwf (q : quant expr) : bool :=
  match q with
  | WC c => vwf c
  | WFor _ _ id d p => entity id && dwf d && wwf p
  end.

(** for all or for some; of or in *)
Definition is_all (k : qclass) : bool := match k with ForSomeIn => false | _ => true end.
Definition is_of (k : qclass) : bool := match k with ForAllOf => true | _ => false end.
Definition as_domain (i : iterable) : domain expr := match i with IRange a b => DRange a b | IExpr e => DExpr e end.
(** the expression, for given conditional expressions *)
Fixpoint quant_of (f : cexpr -> cond expr) (q : qexpr) : quant expr :=
  match q with
  | QC c => WC (f c)
  | QFor k id it p => WFor (is_all k) (is_of k) id (as_domain it) (quant_of f p)
  end.
Definition dmap {A B} (f : A -> B) (d : domain A) : domain B :=
  match d with DRange a b => DRange (f a) (f b) | DExpr e => DExpr (f e) end.
Fixpoint qmap {A B} (f : A -> B) (q : quant A) : quant B :=
  match q with
  | WC c => WC (cmap f c)
  | WFor all of id d p => WFor all of id (dmap f d) (qmap f p)
  end.

(** ** Reading *)

Definition dtk (d : domain expr) : list string := match d with DRange a b => tk a ++ ".." :: tk b | DExpr e => tk e end.
Fixpoint qtk (q : quant expr) : list string :=
  match q with
  | WC c => ctk c
  | WFor all of id d p =>
    "(" :: "for" :: (if all then "all" else "some") :: id :: (if of then "of" else "in") :: dtk d ++ "=>" :: qtk p ++ [")"]
  end.

Lemma cond_open c rest : vwf c = true -> eat ["("; "for"] (ctk c ++ rest) = None.
Proof.
  destruct c as [e|l o|e l]; cbn [vwf ctk]; intros W.
  - apply andb_true_iff in W as [_ W]. apply leaf_eat; auto.
  - destruct l as [|[c x] l]; [discriminate W|]. reflexivity.
  - reflexivity.
Qed.
Lemma read_range d rest : dwf d = true -> ev_all (fun n => range n (dtk d ++ "=>" :: rest) = Some (dmap tree_of d, "=>" :: rest)).
Proof.
  destruct d as [a b|e]; cbn [dwf dtk dmap]; intros W.
  - apply andb_true_iff in W as [Wa Wb]. rewrite <- app_assoc. cbn [app].
    destruct (ev_and _ _ (read_expression a (".." :: tk b ++ "=>" :: rest) Wa (stops_word ".." _ eq_refl))
      (read_expression b ("=>" :: rest) Wb (stops_word "=>" _ eq_refl))) as [k H].
    exists k. intros n L. destruct (H n L) as [H1 H2]. unfold range. now rewrite H1, eat_one, H2.
  - destruct (read_expression e ("=>" :: rest) W (stops_word "=>" _ eq_refl)) as [k H].
    exists k. intros n L. unfold range. now rewrite (H n L).
Qed.
Theorem read_quantified q : wwf q = true -> forall rest, stops 5 rest -> ev_all (fun n => quantified n (qtk q ++ rest) = Some (qmap tree_of q, rest)).
Proof.
  induction q as [c|all of id d p IH]; cbn [wwf]; intros W rest St.
  - eapply ev_S; [exact (read_conditional c W rest St)|]. intros n H. cbn [quantified qtk]. now rewrite cond_open, H.
  - rewrite !andb_true_iff in W. destruct W as [[Wi Wd] Wp].
    eapply ev_S; [exact (ev_and _ _ (read_range d (qtk p ++ ")" :: rest) Wd) (IH Wp (")" :: rest) (stops_word ")" _ eq_refl)))|].
    intros n [H1 H2]. cbn [qtk app]. rewrite <- app_assoc. cbn [app]. rewrite <- app_assoc. cbn [app]. cbn [quantified].
    match goal with |- context [eat ["("; "for"] ("(" :: "for" :: ?r)] => rewrite (eat_app ["("; "for"] r : eat ["("; "for"] ("(" :: "for" :: r) = Some r) end.
    assert (A : forall r, word "all" "some" ((if all then "all" else "some") :: r) = Some (all, r)) by (destruct all; reflexivity).
    assert (B : forall r, word "of" "in" ((if of then "of" else "in") :: r) = Some (of, r)) by (destruct of; reflexivity).
    rewrite A, Wi. cbn [negb]. rewrite B, H1, eat_one, H2, eat_one. reflexivity.
Qed.

(** ** Text *)

Lemma iterable_text i : iwf i = true -> exists t, iterable_str i = Ok t /\ lexes t (dtk (as_domain i)).
Proof.
  destruct i as [a b|e]; cbn [iwf iterable_str as_domain dtk]; intros W.
  - apply andb_true_iff in W as [Wa Wb]. destruct (good_text a Wa) as [Ta Xa]. destruct (good_text b Wb) as [Tb Xb]. rewrite Ta, Tb.
    eexists. split; [reflexivity|]. intros r B. rewrite !app_assoc_s, Xa by reflexivity.
    match goal with |- context [lex "" (" .. " ++ ?x)%string] => change (lex "" (" .. " ++ x)%string) with (".." :: lex "" x) end.
    rewrite Xb by exact B. now rewrite <- app_assoc.
  - exists (str e). now apply good_text.
Qed.
Theorem qexpr_text alike q : qwf q = true -> exists t, qexpr_str alike q = Ok t /\ lexes t (qtk (quant_of (cgrouped alike) q)).
Proof.
  induction q as [c|k id it p IH]; cbn [qwf qexpr_str quant_of qtk]; intros W; [now apply cexpr_text|].
  rewrite !andb_true_iff in W. destruct W as [[Wi Wd] Wp]. destruct (iterable_text it Wd) as (i & Ti & Xi). destruct (IH Wp) as (t & Tp & Xp).
  rewrite Ti, Tp. eexists. split; [reflexivity|]. intros r B. rewrite !app_assoc_s.
  match goal with |- lex "" ("(for " ++ ?x)%string = _ => change (lex "" ("(for " ++ x)%string) with (lex "(" ("for " ++ x)%string) end.
  rewrite lex_none by (intros; reflexivity).
  match goal with |- context [lex "" ("for " ++ ?x)%string] => change (lex "" ("for " ++ x)%string) with ("for" :: lex "" x) end.
  assert (A : forall r, lex "" (quantifier k ++ " " ++ r)%string = (if is_all k then "all" else "some") :: lex "" r) by (destruct k; reflexivity).
  assert (K : forall r, lex "" (" " ++ keyword k ++ " " ++ r)%string = (if is_of k then "of" else "in") :: lex "" r) by (destruct k; reflexivity).
  rewrite A, lex_id by (auto; reflexivity). rewrite K, Xi by reflexivity.
  match goal with |- context [lex "" (" =>" ++ ?x)%string] => change (lex "" (" =>" ++ x)%string) with (lex "=>" x) end.
  rewrite lex_none by (intros; reflexivity). cbn [flush app]. rewrite lex_nl, (lexes_ind _ _ 4 Xp) by reflexivity. rewrite lex_close.
  do 5 f_equal. rewrite <- app_assoc. f_equal. cbn [app]. f_equal. now rewrite <- app_assoc.
Qed.
Lemma quant_wf alike q : qwf q = true -> wwf (quant_of (cgrouped alike) q) = true.
Proof.
  induction q as [c|k id it p IH]; cbn [qwf quant_of wwf]; intros W; [now apply cgrouped_wf|].
  rewrite !andb_true_iff in *. destruct W as [[Wi Wd] Wp]. repeat split; auto. now destruct it.
Qed.
