(** Property C72: the text of conditional expressions. *)
From Coq Require Import String Ascii List ZArith Bool Lia.
From Verif Require Import Base Ident Expr ExprEval ExprTotal ExprMore ExprFacts ExprPrint ExprRead ExprReadFacts ExprReadTree ExprAda AdaStmt AdaStmtSpec AdaStmtFacts AdaStmtRead AdaStmtMean P_AdaStmt AdaCond AdaCondSpec AdaCondFacts AdaCondMean.
Import ListNotations.
Local Open Scope string_scope.
Local Open Scope list_scope.
Local Open Scope nat_scope.

(** the expressions inside *)
Fixpoint inner (c : cexpr) : list expr :=
  match c with
  | CE e => [e]
  | CIf l o => flat_map (fun p => fst p :: inner (snd p)) l ++ match o with Some x => inner x | None => [] end
  | CCase e l => e :: flat_map (fun p => fst p :: inner (snd p)) l
  end.
(** no "and" and "or", or no "and then" and "or else" *)
Definition cuniform (c : cexpr) : Prop :=
  forallb (operators circuit) (inner c) = true \/ forallb (operators plain) (inner c) = true.

Lemma inner_se c : pexprs (as_prog (se c)) = inner c.
Proof.
  induction c as [e|l o IHl IHo|e l IHl] using cexpr_ind'; cbn [se as_prog pexprs inner]; [reflexivity| |].
  - f_equal.
    + induction IHl as [|[c x] l H _ IH]; [reflexivity|]. cbn [map flat_map fst snd] in *. now rewrite H, app_nil_r, IH.
    + destruct o; [|reflexivity]. cbn [map flat_map]. now rewrite app_nil_r, (IHo _ eq_refl).
  - f_equal. induction IHl as [|[c x] l H _ IH]; [reflexivity|]. cbn [map flat_map fst snd app] in *. now rewrite H, app_nil_r, IH.
Qed.
Lemma inner_list c : exprs_of [se c] = inner c.
Proof. unfold exprs_of. cbn [flat_map]. now rewrite app_nil_r, inner_se. Qed.
Lemma wf_se c : cwf c = true -> wf (se c) = true.
Proof.
  assert (L : forall l, Forall (fun p => cwf (snd p) = true -> wf (se (snd p)) = true) l -> forallb (fun p => good (fst p) && cwf (snd p)) l = true ->
    forallb (fun p => good (fst p) && full_list (snd p) && forallb wf (snd p)) (map (fun p => (fst p, [se (snd p)])) l) = true).
  { clear. induction 1 as [|[c x] l H _ IH]; [reflexivity|]. cbn [map forallb fst snd full_list] in *. rewrite !andb_true_iff. intros [[H1 H2] H3]. auto 10. }
  induction c as [e|l o IHl IHo|e l IHl] using cexpr_ind'; cbn [cwf se wf]; rewrite ?andb_true_iff.
  - tauto.
  - intros [[W1 W2] W3]. repeat split; [now destruct l|now apply L|]. destruct o; [|reflexivity]. cbn [forallb]. now rewrite (IHo _ eq_refl W3).
  - intros [[W1 W2] W3]. repeat split; [exact W1|now destruct l|now apply L].
Qed.

Lemma cond_fun s a b : reads_cond s a -> reads_cond s b -> a = b.
Proof. intros [k H] [m G]. specialize (H (max k m) ltac:(lia)). specialize (G (max k m) ltac:(lia)). congruence. Qed.
Lemma cond_reads alike c : cwf c = true -> exists txt, cexpr_str alike c = Ok txt /\ reads_cond txt (cmap tree_of (cgrouped alike c)).
Proof.
  intros W. destruct (cexpr_text alike c W) as (txt & T & X). exists txt. split; [exact T|].
  pose proof (X "" Logic.I) as Z. rewrite app_nil_s in Z. unfold reads_cond. rewrite Z.
  exact (read_conditional (cgrouped alike c) (cgrouped_wf alike c W) [] Logic.I).
Qed.
Lemma cond_value alike exact sc c g : cwf c = true -> (sc = true -> cuniform c) -> (exact = true -> forallb plural (inner c) = true) ->
  Qo exact (cvalue (ev sc) expr_variable g (as_cond c)) (cvalue (teval sc) tree_variable g (cmap tree_of (cgrouped alike c))).
Proof.
  intros W U P. rewrite !cvalue_run, pe_cmap, <- as_prog_se, <- grouped_se.
  assert (H : Qo exact (seq (exec (ev sc) expr_variable keep nothing nothing) [as_prog (se c)] g)
    (seq (exec (teval sc) tree_variable keep nothing nothing) [pmap tree_of (grouped (lifted alike) (se c))] g)).
  { apply (run_text (lifted alike) exact sc [se c]).
    - cbn [forallb]. now rewrite (wf_se c W).
    - unfold uniform. now rewrite inner_list.
    - now rewrite inner_list. }
  apply Qo_fin in H. now rewrite !seq_fin in H.
Qed.

(** The text of a conditional expression, with nested ones, is an expression of Ada that can be read in one way
    only, and it has the value of the conditional expression, whichever neighbouring alternatives of case
    expressions are merged because their expressions are equal. *)
Theorem C72_text : forall alike c, cwf c = true ->
  exists txt t, cexpr_str alike c = Ok txt /\ (forall q, reads_cond txt q <-> q = t) /\
    forall sc g v, (sc = true -> cuniform c) ->
      cvalue (ev sc) expr_variable g (as_cond c) = Some v -> cvalue (teval sc) tree_variable g t = Some v.
Proof.
  intros alike c W. destruct (cond_reads alike c W) as (txt & T & R). exists txt. eexists. split; [exact T|]. split.
  - intros q. split; [intros Q; exact (cond_fun _ _ _ Q R)|now intros ->].
  - intros sc g v U E. destruct (cond_value alike false sc c g W U ltac:(discriminate)) as [Q|[_ Q]]; [now rewrite Q|].
    rewrite Q in E. discriminate.
Qed.
Print Assumptions C72_text.

(** Without associative expressions of a single term the text also has no value exactly where the expression
    has none. *)
Theorem C72_exact : forall alike c txt t, cwf c = true -> forallb plural (inner c) = true ->
  cexpr_str alike c = Ok txt -> reads_cond txt t ->
  forall sc g, (sc = true -> cuniform c) ->
    cvalue (teval sc) tree_variable g t = cvalue (ev sc) expr_variable g (as_cond c).
Proof.
  intros alike c txt t W P T R sc g U. destruct (cond_reads alike c W) as (txt' & T' & R').
  rewrite T in T'. apply Ok_inj in T' as <-. rewrite (cond_fun _ _ _ R R').
  destruct (cond_value alike true sc c g W U (fun _ => P)) as [Q|[Q _]]; [exact Q|discriminate].
Qed.
Print Assumptions C72_exact.

(** The same holds of a return statement with a conditional expression. *)
Theorem C72_return : forall alike c, cwf c = true ->
  exists txt t, return_str alike c = Ok txt /\ (forall q, reads_return txt q <-> q = t) /\
    forall sc g v, (sc = true -> cuniform c) ->
      cvalue (ev sc) expr_variable g (as_cond c) = Some v -> cvalue (teval sc) tree_variable g t = Some v.
Proof.
  intros alike c W. destruct (lex_return alike c W) as (txt & T & X). exists txt. exists (cmap tree_of (cgrouped alike c)). split; [exact T|]. split.
  - assert (R : reads_return txt (cmap tree_of (cgrouped alike c))).
    { pose proof (X "" Logic.I) as Z. rewrite app_nil_s in Z. unfold reads_return. rewrite Z.
      destruct (read_returned (cgrouped alike c) [] (cgrouped_wf alike c W)) as [k H]. exists k. intros n L. specialize (H n L).
      rewrite <- H. f_equal. change (lex "" "") with (@nil string). now rewrite app_nil_r. }
    intros q. split; [|now intros ->]. intros [m Q]. destruct R as [k R].
    specialize (R (max k m) ltac:(lia)). specialize (Q (max k m) ltac:(lia)). congruence.
  - intros sc g v U E. destruct (cond_value alike false sc c g W U ltac:(discriminate)) as [Q|[_ Q]]; [now rewrite Q|].
    rewrite Q in E. discriminate.
Qed.
Print Assumptions C72_return.

(** If gives an expression with the value of the if expression with the same parts. *)
Theorem C72_if : forall sc g arms els,
  cvalue (ev sc) expr_variable g (as_cond (mk_if arms els)) = cvalue (ev sc) expr_variable g (as_cond (CIf arms els)).
Proof.
  intros sc g [|[c e] [|q l]] els; try reflexivity. cbn [mk_if]. destruct (ada_eqb c ETrue) eqn:E; [|reflexivity].
  destruct c; cbn [ada_eqb] in E; try discriminate. destruct sc; reflexivity.
Qed.
Print Assumptions C72_if.

(** Case gives an expression with the value of the case expression with the same parts, if the control
    expression has a value. *)
Theorem C72_case : forall sc g e arms, ev sc g e <> None ->
  cvalue (ev sc) expr_variable g (as_cond (mk_case e arms)) = cvalue (ev sc) expr_variable g (as_cond (CCase e arms)).
Proof.
  intros sc g e [|[c x] [|q l]] N; try reflexivity. cbn [mk_case]. destruct (ada_eqb c _) eqn:E; [|reflexivity].
  destruct c as [| |z|n s|y|o ts|o a b|o a b]; cbn [ada_eqb] in E; try discriminate. apply andb_true_iff in E as [E1 E2].
  apply name_eqb_eq in E1. subst n. apply eqb_prop in E2. subst s. cbn [as_cond map fst snd cvalue].
  destruct (ev sc g e) as [v|]; [reflexivity|congruence].
Qed.
Print Assumptions C72_case.

(** The expressions that If and Case give have a text that is read in one way if the parts have. *)
Theorem C72_made : forall arms els e, forallb (fun p => good (fst p) && cwf (snd p)) arms = true -> arms <> [] ->
  (match els with Some x => cwf x = true | None => True end -> cwf (mk_if arms els) = true) /\
  (good e = true -> cwf (mk_case e arms) = true).
Proof.
  intros arms els e W N. split.
  - intros We. assert (X : cwf (CIf arms els) = true).
    { cbn [cwf]. rewrite W. destruct arms; [congruence|]. now destruct els. }
    destruct arms as [|[c x] [|q l]]; try exact X. cbn [mk_if]. destruct (ada_eqb c ETrue); [|exact X].
    cbn [forallb fst snd] in W. rewrite !andb_true_iff in W. apply W.
  - intros We. assert (X : cwf (CCase e arms) = true).
    { cbn [cwf]. rewrite W, We. now destruct arms. }
    destruct arms as [|[c x] [|q l]]; try exact X. cbn [mk_case]. destruct (ada_eqb c _); [|exact X].
    cbn [forallb fst snd] in W. rewrite !andb_true_iff in W. apply W.
Qed.
Print Assumptions C72_made.

(** ** A case *)

Definition C72_expr : cexpr :=
  mk_case (v "Fld")
    [(v "F_Initial", CE (ENum 0)); (v "F_Final", CE (ENum 0));
     (v "F_Tag", mk_if [(EAss OAndThen [ERel OGt (v "X") (ENum 0); v "Valid"], CE (EAss OAdd [v "X"; ENum 1]));
                        (v "Other", mk_case (v "X") [(v "others", CE (ENum 5))])] (Some (CE (ENum (-2)))));
     (v "others", mk_if [(ETrue, CE (v "Last"))] None)].
Example C72_shown : cexpr_str (fun _ _ => true) C72_expr = Ok
"(case Fld is
    when F_Initial | F_Final =>
       0,
    when F_Tag =>
       (if
           X > 0
           and then Valid
        then
           X + 1
        elsif
           Other
        then
           5
        else
           (-2)),
    when others =>
       Last)"
  /\ cwf C72_expr = true /\ cuniform C72_expr /\ forallb plural (inner C72_expr) = true.
Proof. repeat split; try reflexivity. now left. Qed.
Example C72_run : cvalue (ev true) expr_variable C70_env (as_cond C72_expr) = Some (VInt 8) /\ ev true C70_env (v "Fld") <> None.
Proof. split; [vm_compute; reflexivity|discriminate]. Qed.
Example C72_parts : forallb (fun p => good (fst p) && cwf (snd p)) [(v "others", CE (ENum 5))] = true /\ good (v "X") = true.
Proof. split; reflexivity. Qed.
Example C72_returned : return_str (fun _ _ => true) (CCase (v "A") [(v "B", CE (ENum 1)); (v "others", CE (ENum 2))]) = Ok
"return ((case A is
            when B =>
               1,
            when others =>
               2));".
Proof. reflexivity. Qed.
(** without else part the value is True if no condition holds *)
Example C72_no_else : cvalue (ev true) expr_variable C70_env (as_cond (CIf [(ERel OLt (v "X") (ENum 0), CE EFalse)] None)) = Some (VBool true).
Proof. vm_compute. reflexivity. Qed.

(** ** What does not hold *)

(** Refuted: a case expression whose control expression has no value has none, but Case gives an expression
    that may have one. *)
Theorem C72_control_refuted : exists sc g e arms,
  cvalue (ev sc) expr_variable g (as_cond (CCase e arms)) = None /\
  cvalue (ev sc) expr_variable g (as_cond (mk_case e arms)) = Some (VInt 5).
Proof.
  exists true, C70_env, (EBin ODiv (ENum 1) (ENum 0)), [(v "others", CE (ENum 5))]. split; vm_compute; reflexivity.
Qed.
Print Assumptions C72_control_refuted.

(** Refuted: an if expression without conditions and a case expression without alternatives have no text of Ada. *)
Theorem C72_empty_refuted : exists c c' txt txt', cexpr_str (fun _ _ => true) c = Ok txt /\ cexpr_str (fun _ _ => true) c' = Ok txt' /\
  c = mk_if [] (Some (CE (v "A"))) /\ c' = mk_case (v "A") [] /\
  (forall t, ~ reads_cond txt t) /\ (forall t, ~ reads_cond txt' t).
Proof.
  exists (mk_if [] (Some (CE (v "A")))), (mk_case (v "A") []). eexists. eexists.
  split; [vm_compute; reflexivity|]. split; [vm_compute; reflexivity|]. do 2 (split; [reflexivity|]).
  split; intros t [k H]; specialize (H (10 + k) ltac:(lia)); vm_compute in H; discriminate H.
Qed.
Print Assumptions C72_empty_refuted.

(** Refuted: with short-circuit evaluation, merging "and" with "and then" changes the value. *)
Theorem C72_and_then_refuted : exists c txt t g w, cexpr_str (fun _ _ => true) c = Ok txt /\ cwf c = true /\ reads_cond txt t /\
  cvalue (ev true) expr_variable g (as_cond c) = Some w /\ cvalue (teval true) tree_variable g t <> Some w.
Proof.
  set (x := [ERel ONe (v "D") (ENum 0); ERel OGt (EBin ODiv (ENum 1) (v "D")) (ENum 0)]).
  set (c := CCase (v "Fld") [(v "F_A", CE (EAss OAnd x)); (v "others", CE (EAss OAndThen x))]).
  destruct (cond_reads (fun _ _ => true) c eq_refl) as (txt & T & R).
  exists c, txt. eexists. exists (fun n => match n with NVar "D" => VInt 0 | NVar "F_A" => VInt 1 | _ => VInt 2 end), (VBool false).
  split; [exact T|]. split; [reflexivity|]. split; [exact R|]. split; [vm_compute; reflexivity|vm_compute; discriminate].
Qed.
Print Assumptions C72_and_then_refuted.
