(** Property C70: the text of statements. *)
From Coq Require Import String Ascii List ZArith Bool Lia.
From Verif Require Import Base Ident Expr ExprEval ExprTotal ExprMore ExprFacts ExprPrint ExprRead ExprReadFacts ExprReadTree ExprAda AdaStmt AdaStmtSpec AdaStmtFacts AdaStmtRead AdaStmtMean.
Import ListNotations.
Local Open Scope string_scope.
Local Open Scope list_scope.
Local Open Scope nat_scope.

(** the operators of all associative expressions satisfy [p] *)
Fixpoint operators (p : assop -> bool) (e : expr) : bool :=
  match e with
  | ENot x => operators p x
  | EAss o ts => p o && forallb (operators p) ts
  | EBin _ l r | ERel _ l r => operators p l && operators p r
  | _ => true
  end.
(** no "and" and "or", or no "and then" and "or else" *)
Definition circuit (o : assop) : bool := match o with OAnd | OOr => false | _ => true end.
Definition plain (o : assop) : bool := match o with OAndThen | OOrElse => false | _ => true end.
Definition uniform (l : list stmt) : Prop :=
  forallb (operators circuit) (exprs_of l) = true \/ forallb (operators plain) (exprs_of l) = true.

Lemma operators_map p f : (forall o, p o = true -> f o = o) -> forall e, operators p e = true -> emap f e = e.
Proof.
  intros H. induction e as [| |v|n s|x IH|o ts IH|o l r IHl IHr|o l r IHl IHr] using expr_ind'; cbn [operators emap]; intros O; try reflexivity.
  - f_equal. auto.
  - apply andb_true_iff in O as [O1 O2]. f_equal; [auto|]. rewrite forallb_forall in O2. rewrite Forall_forall in IH.
    rewrite <- (map_id ts) at 2. apply map_ext_in. auto.
  - apply andb_true_iff in O as [O1 O2]. f_equal; auto.
  - apply andb_true_iff in O as [O1 O2]. f_equal; auto.
Qed.

Lemma kept_all sc l : (sc = true -> uniform l) -> exists h, (forall a b, ada_eqb a b = true -> h a = h b) /\
  forall e, In e (exprs_of l) -> kept h (ev sc) e.
Proof.
  intros U. destruct sc.
  - destruct (U eq_refl) as [O|O]; rewrite forallb_forall in O.
    + exists (emap short). split; [apply ada_eqb_map; reflexivity|]. intros e He.
      assert (E : emap short e = e) by (apply (operators_map circuit); [now intros []|auto]). split; now rewrite ?E.
    + exists (emap long). split; [apply ada_eqb_map; reflexivity|]. intros e He.
      assert (E : emap long e = e) by (apply (operators_map plain); [now intros []|auto]). split; now rewrite ?E.
  - exists (emap long). split; [apply ada_eqb_map; reflexivity|]. intros e _. split; [intros g; apply emap_value|apply emap_variable].
Qed.

(** what is read *)
Lemma reads_fun s a b : reads_body s a -> reads_body s b -> a = b.
Proof. intros [k H] [m G]. specialize (H (max k m) ltac:(lia)). specialize (G (max k m) ltac:(lia)). congruence. Qed.
Lemma body_reads alike l : forallb wf l = true -> l <> [] -> exists txt, body_str alike l = Ok txt /\
  reads_body txt (map (fun s => pmap tree_of (grouped alike s)) l).
Proof.
  intros W N. destruct (shown_list alike l) as (ts & T & X); [apply Forall_forall; intros s _; apply stmt_text|exact W|].
  unfold body_str. rewrite T. eexists. split; [reflexivity|].
  assert (Y : lexes (String.concat nl (map (fun t => indent t 3) ts)) (flat_map ptk (map (grouped alike) l))).
  { rewrite <- concat_flat, map_map.
    assert (X' : Forall2 lexes (map (fun t => indent t 3) ts) (map (fun s => ptk (grouped alike s)) l)).
    { clear - X. induction X; constructor; [now apply lexes_ind|auto]. }
    assert (N' : map (fun t => indent t 3) ts <> []) by (destruct l; [congruence|]; inversion X; discriminate).
    clear - X' N'. induction X' as [|t l' ts' ls H F IH]; [congruence|]. destruct F as [|u m us ms Hu F].
    - cbn [List.concat]. rewrite app_nil_r. exact H.
    - change (String.concat nl (t :: u :: us)) with (t ++ nl ++ String.concat nl (u :: us))%string.
      intros r Br. rewrite !app_assoc_s, H by apply brk_nl. rewrite lex_nl, (IH ltac:(discriminate) r Br).
      change (List.concat (l' :: m :: ms)) with (l' ++ List.concat (m :: ms)). now rewrite app_assoc. }
  unfold reads_body. pose proof (Y "" Logic.I) as Z. rewrite app_nil_s in Z. rewrite Z.
  destruct (read_sequence (map (grouped alike) l)) with (rest := @nil string) as [k H].
  - apply Forall_forall. intros p _. apply read_statement.
  - rewrite forallb_forall in *. intros p Hp. apply in_map_iff in Hp as (s & <- & Hs). apply grouped_wf. auto.
  - now destruct l.
  - exact Logic.I.
  - exists k. intros n L. specialize (H n L). rewrite map_map in H. exact H.
Qed.

Lemma pexprs_grouped alike s : forall e, In e (pexprs (grouped alike s)) -> In e (pexprs (as_prog s)).
Proof.
  assert (B : forall b, Forall (fun s => forall e, In e (pexprs (grouped alike s)) -> In e (pexprs (as_prog s))) b ->
    forall e, In e (flat_map pexprs (map (grouped alike) b)) -> In e (flat_map pexprs (map as_prog b))).
  { intros b F e He. rewrite Forall_forall in F. apply in_flat_map in He as (p & Hp & He). apply in_map_iff in Hp as (s' & <- & Hs).
    apply in_flat_map. exists (as_prog s'). split; [now apply in_map|]. now apply F. }
  induction s as [|id e|id l|id l|e|l e IHl IHe|e l IHl] using stmt_ind'; cbn [grouped as_prog pexprs]; auto; intros x Hx.
  - apply in_app_or in Hx as [Hx|Hx]; apply in_or_app; [left|right].
    + apply in_flat_map in Hx as (p & Hp & Hx). apply in_map_iff in Hp as (q & <- & Hq). apply in_flat_map.
      exists (fst q, map as_prog (snd q)). split; [apply in_map_iff; eauto|]. cbn [fst snd] in *. destruct Hx as [<-|Hx]; [now left|right].
      rewrite Forall_forall in IHl. now apply (B _ (IHl q Hq)).
    + destruct e as [b|]; [|exact Hx]. now apply (B _ IHe).
  - destruct Hx as [<-|Hx]; [now left|right]. apply in_flat_map in Hx as (p & Hp & Hx). apply in_map_iff in Hp as (q & <- & Hq).
    cbn [fst snd] in Hx. rewrite Forall_forall in IHl.
    set (same := fun x y : list stmt * list (prog expr) => same_stmts alike (fst x) (fst y)) in *.
    assert (G : forall m cs k, (forall y, In y (flat_map (fun p : expr * (list stmt * list (prog expr)) => fst p :: flat_map pexprs (snd (snd p))) m) -> In y (flat_map (fun p => fst p ++ flat_map pexprs (snd p)) (map (fun p => ([fst p], map as_prog (snd p))) l))) ->
      (forall y, In y (cs ++ flat_map pexprs (snd k)) -> In y (flat_map (fun p => fst p ++ flat_map pexprs (snd p)) (map (fun p => ([fst p], map as_prog (snd p))) l))) ->
      forall q, In q (group_from same cs k m) -> forall y, In y (fst q ++ flat_map pexprs (snd (snd q))) -> In y (flat_map (fun p => fst p ++ flat_map pexprs (snd p)) (map (fun p => ([fst p], map as_prog (snd p))) l))).
    { clear. induction m as [|[a k'] m IH]; intros cs k Hm Hk q Hq y Hy; cbn [group_from] in Hq.
      - destruct Hq as [<-|[]]. apply Hk, Hy.
      - cbn [flat_map fst snd] in Hm.
        assert (Hm' : forall y, In y (flat_map (fun p : expr * (list stmt * list (prog expr)) => fst p :: flat_map pexprs (snd (snd p))) m) -> In y (flat_map (fun p => fst p ++ flat_map pexprs (snd p)) (map (fun p => ([fst p], map as_prog (snd p))) l)))
          by (intros z Hz; apply Hm; right; apply in_or_app; now right).
        destruct (same k k').
        + eapply (IH (cs ++ [a]) k Hm'); [|exact Hq|exact Hy]. intros z Hz. rewrite <- app_assoc in Hz. apply in_app_or in Hz as [Hz|[<-|Hz]].
          * apply Hk, in_or_app. now left.
          * apply Hm. now left.
          * apply Hk, in_or_app. now right.
        + destruct Hq as [<-|Hq]; [apply Hk, Hy|]. eapply (IH [a] k' Hm'); [|exact Hq|exact Hy].
          intros z [<-|Hz]; apply Hm; [now left|]. right. apply in_or_app. now left. }
    assert (M : forall y, In y (flat_map (fun p => fst p :: flat_map pexprs (snd (snd p))) (map (fun p => (fst p, (snd p, map (grouped alike) (snd p)))) l)) ->
      In y (flat_map (fun p => fst p ++ flat_map pexprs (snd p)) (map (fun p => ([fst p], map as_prog (snd p))) l))).
    { intros y Hy. apply in_flat_map in Hy as (p & Hp & Hy). apply in_map_iff in Hp as (r & <- & Hr). apply in_flat_map.
      exists ([fst r], map as_prog (snd r)). split; [apply in_map_iff; eauto|]. cbn [fst snd app] in *. destruct Hy as [<-|Hy]; [now left|right].
      now apply (B _ (IHl r Hr)). }
    destruct (map (fun p => (fst p, (snd p, map (grouped alike) (snd p)))) l) as [|[a k] m]; [destruct Hq|]. cbn [group] in Hq.
    cbn [flat_map fst snd] in M.
    apply (G m [a] k) with (q := q); [| |exact Hq|exact Hx].
    + intros y Hy. apply M. right. apply in_or_app. now right.
    + intros y [<-|Hy]; apply M; [now left|]. right. apply in_or_app. now left.
Qed.

Lemma wf_good s : wf s = true -> forall e, In e (pexprs (as_prog s)) -> good e = true.
Proof.
  induction s as [|id e|id l|id l|e|l e IHl IHe|e l IHl] using stmt_ind'; cbn [wf as_prog pexprs]; rewrite ?andb_true_iff; intros W x Hx.
  - destruct Hx.
  - destruct Hx as [<-|[]]. apply W.
  - destruct W as [_ W]. rewrite forallb_forall in W. auto.
  - destruct W as [_ W]. rewrite forallb_forall in W. auto.
  - destruct Hx as [<-|[]]. exact W.
  - destruct W as [[_ W] We]. rewrite forallb_forall in W. rewrite Forall_forall in IHl. apply in_app_or in Hx as [Hx|Hx].
    + apply in_flat_map in Hx as (p & Hp & Hx). apply in_map_iff in Hp as (q & <- & Hq). cbn [fst snd] in Hx. specialize (IHl q Hq). apply W in Hq.
      rewrite !andb_true_iff in Hq. destruct Hq as [[Q1 _] Q2]. destruct Hx as [<-|Hx]; [exact Q1|].
      apply in_flat_map in Hx as (p & Hp & Hx). apply in_map_iff in Hp as (s & <- & Hs). rewrite Forall_forall in IHl. rewrite forallb_forall in Q2. eauto.
    + destruct e as [b|]; [|destruct Hx]. rewrite forallb_forall in We. rewrite Forall_forall in IHe.
      apply in_flat_map in Hx as (p & Hp & Hx). apply in_map_iff in Hp as (s & <- & Hs). eauto.
  - destruct W as [[We _] W]. rewrite forallb_forall in W. rewrite Forall_forall in IHl. destruct Hx as [<-|Hx]; [exact We|].
    apply in_flat_map in Hx as (p & Hp & Hx). apply in_map_iff in Hp as (q & <- & Hq). cbn [fst snd app] in Hx. specialize (IHl q Hq). apply W in Hq.
    rewrite !andb_true_iff in Hq. destruct Hq as [[Q1 _] Q2]. destruct Hx as [<-|Hx]; [exact Q1|].
    apply in_flat_map in Hx as (p & Hp & Hx). apply in_map_iff in Hp as (s & <- & Hs). rewrite Forall_forall in IHl. rewrite forallb_forall in Q2. eauto.
Qed.

Lemma run_text alike exact sc l store call pragma g : forallb wf l = true -> (sc = true -> uniform l) ->
  (exact = true -> forallb plural (exprs_of l) = true) ->
  Qo exact (seq (exec (ev sc) expr_variable store call pragma) (map as_prog l) g)
    (seq (exec (teval sc) tree_variable store call pragma) (map (fun s => pmap tree_of (grouped alike s)) l) g).
Proof.
  intros W U P. destruct (kept_all sc l U) as (h & Hh & K).
  assert (E : seq (exec (ev sc) expr_variable store call pragma) (map (grouped alike) l) g = seq (exec (ev sc) expr_variable store call pragma) (map as_prog l) g).
  { apply seq_ext, Forall2_maps, Forall_forall. intros s Hs. apply (exec_grouped store call pragma h Hh (ev sc) alike).
    intros e He. apply K, in_flat_map. eauto. }
  rewrite <- E, <- (map_map (grouped alike) (pmap tree_of)). apply seq_Q.
  - apply Forall_forall. intros p _. apply exec_Q.
  - intros e He. apply in_flat_map in He as (p & Hp & He). apply in_map_iff in Hp as (s & <- & Hs). apply pexprs_grouped in He.
    rewrite forallb_forall in W.
    assert (F : full e = true).
    { apply solid_full. pose proof (wf_good s (W s Hs) e He) as G. unfold good in G. rewrite !andb_true_iff in G. apply G. }
    split; [|apply expr_variable_tree]. intros g'. destruct (tree_value exact sc g' e F) as [T|T].
    + intros X. specialize (P X). rewrite forallb_forall in P. apply P, in_flat_map. eauto.
    + now left.
    + now right.
Qed.

(** The text of the statements of a body, with nested if and case statements, is a sequence of statements of
    Ada that can be read in one way only, and it does what the statements do: it changes the same variables in
    the same way, makes the same calls with the same arguments and returns the same value.  This holds
    whichever neighbouring alternatives of case statements are merged because their statements are equal.
    With short-circuit evaluation the statements must not contain both "and" and "and then" (see below). *)
Theorem C70_text : forall alike l, forallb wf l = true -> l <> [] ->
  exists txt ps, body_str alike l = Ok txt /\ (forall qs, reads_body txt qs <-> qs = ps) /\
    forall sc store call pragma g out, (sc = true -> uniform l) ->
      seq (exec (ev sc) expr_variable store call pragma) (map as_prog l) g = Some out ->
      seq (exec (teval sc) tree_variable store call pragma) ps g = Some out.
Proof.
  intros alike l W N. destruct (body_reads alike l W N) as (txt & T & R). exists txt. eexists. split; [exact T|]. split.
  - intros qs. split; [intros Q; exact (reads_fun _ _ _ Q R)|now intros ->].
  - intros sc store call pragma g out U E. destruct (run_text alike false sc l store call pragma g W U ltac:(discriminate)) as [Q|[_ Q]]; [now rewrite Q|].
    rewrite Q in E. discriminate.
Qed.
Print Assumptions C70_text.

(** Without associative expressions of a single term the text also fails exactly where the statements do. *)
Theorem C70_exact : forall alike l txt ps, forallb wf l = true -> l <> [] -> forallb plural (exprs_of l) = true ->
  body_str alike l = Ok txt -> reads_body txt ps ->
  forall sc store call pragma g, (sc = true -> uniform l) ->
    seq (exec (teval sc) tree_variable store call pragma) ps g = seq (exec (ev sc) expr_variable store call pragma) (map as_prog l) g.
Proof.
  intros alike l txt ps W N P T R sc store call pragma g U. destruct (body_reads alike l W N) as (txt' & T' & R').
  rewrite T in T'. apply Ok_inj in T' as <-. rewrite (reads_fun _ _ _ R R').
  destruct (run_text alike true sc l store call pragma g W U (fun _ => P)) as [Q|[Q _]]; [exact Q|discriminate].
Qed.
Print Assumptions C70_exact.

(** The text depends on what has been done with the statements before, but what it does, does not. *)
Theorem C70_again : forall alike alike' l txt txt' ps ps', forallb wf l = true -> l <> [] -> forallb plural (exprs_of l) = true ->
  body_str alike l = Ok txt -> body_str alike' l = Ok txt' -> reads_body txt ps -> reads_body txt' ps' ->
  forall sc store call pragma g, (sc = true -> uniform l) ->
    seq (exec (teval sc) tree_variable store call pragma) ps g = seq (exec (teval sc) tree_variable store call pragma) ps' g.
Proof.
  intros alike alike' l txt txt' ps ps' W N P T T' R R' sc store call pragma g U.
  rewrite (C70_exact alike l txt ps W N P T R sc store call pragma g U).
  now rewrite (C70_exact alike' l txt' ps' W N P T' R' sc store call pragma g U).
Qed.
Print Assumptions C70_again.

(** ** A case *)

Definition v (x : string) : expr := EName (NVar x) false.
Definition C70_body : list stmt :=
  [SAssign "Fst" (v "First");
   SCase (v "Fld")
     [(v "F_Initial", [SNull]); (v "F_Final", [SNull]);
      (v "F_Tag", [SCall "Insert" [v "Value"; EBin OSub (v "Last") (ENum 1)];
                   SIf [(EAss OAndThen [ERel OGt (v "X") (ENum 0); v "Valid"], [SReturn (v "X")]);
                        (v "Other", [SPragma "Assert" [ERel OLt (v "X") (ENum 5)]])] (Some [SAssign "X" (ENum (-2))])]);
      (v "others", [SNull])];
   SReturn (EAss OAdd [v "X"; ENum 1])].
Example C70_case : body_str (fun _ _ => true) C70_body = Ok
"   Fst := First;
   case Fld is
      when F_Initial | F_Final =>
         null;
      when F_Tag =>
         Insert (Value, Last - 1);
         if
           X > 0
           and then Valid
         then
            return X;
         elsif Other then
            pragma Assert (X < 5);
         else
            X := (-2);
         end if;
      when others =>
         null;
   end case;
   return X + 1;"
  /\ forallb wf C70_body = true /\ C70_body <> [] /\ uniform C70_body /\ forallb plural (exprs_of C70_body) = true.
Proof. repeat split; try reflexivity; try discriminate. now left. Qed.
(** with X = 7, Valid and Fld = F_Tag it returns 7 after the call *)
Definition C70_env : env := fun n =>
  match n with
  | NVar "X" => VInt 7 | NVar "Valid" => VBool true | NVar "Fld" | NVar "F_Tag" => VInt 2 | NVar "Last" => VInt 10
  | NVar "Calls" => VInt 0 | _ => VInt 100
  end.
Definition C70_store (g : env) (x : string) (w : val) : env := fun n => match n with NVar y => if String.eqb (lower y) x then w else g n | _ => g n end.
Definition C70_call (x : string) (l : list (option name * val)) (g : env) : option env :=
  match l with [_; (_, VInt z)] => Some (C70_store g "calls" (VInt z)) | _ => None end.
Example C70_run : exists g, seq (exec (ev true) expr_variable C70_store C70_call C70_call) (map as_prog C70_body) C70_env = Some (g, Some (VInt 7))
  /\ g (NVar "Fst") = VInt 100 /\ g (NVar "Calls") = VInt 9.
Proof. eexists. split; [vm_compute; reflexivity|]. split; reflexivity. Qed.

(** ** What does not hold *)

(** Refuted: calls without arguments have no text of Ada. *)
Theorem C70_arguments_refuted : exists s txt, body_str (fun _ _ => true) [s] = Ok txt /\
  s = SCall "Initialize" [] /\ txt = "   Initialize ();" /\ forall ps, ~ reads_body txt ps.
Proof.
  exists (SCall "Initialize" []), "   Initialize ();". do 3 (split; [reflexivity|]). intros ps [k H].
  specialize (H (10 + k) ltac:(lia)). vm_compute in H. discriminate H.
Qed.
Print Assumptions C70_arguments_refuted.

(** Refuted: neither have if and case statements with branches that have no statements. *)
Theorem C70_empty_refuted : exists s s' txt txt', body_str (fun _ _ => true) [s] = Ok txt /\ body_str (fun _ _ => true) [s'] = Ok txt' /\
  s = SIf [(v "A", [])] (Some [SNull]) /\ s' = SCase (v "A") [(v "B", [])] /\
  (forall ps, ~ reads_body txt ps) /\ (forall ps, ~ reads_body txt' ps).
Proof.
  exists (SIf [(v "A", [])] (Some [SNull])), (SCase (v "A") [(v "B", [])]).
  do 2 eexists. do 4 (split; [reflexivity|]). split; intros ps [k H]; specialize (H (10 + k) ltac:(lia)); vm_compute in H; discriminate H.
Qed.
Print Assumptions C70_empty_refuted.

(** Refuted: the statements have one text only.  The texts of the merged statements are not made, so that
    the statements are not equal when the text is made for the second time. *)
Theorem C70_once_refuted : exists alike alike' l txt txt', body_str alike l = Ok txt /\ body_str alike' l = Ok txt' /\
  forallb wf l = true /\ l <> [] /\ txt <> txt'.
Proof.
  exists (fun _ _ => true), (fun _ _ => false), [SCase (v "A") [(v "B", [SReturn (ENum 1)]); (v "C", [SReturn (ENum 1)])]].
  do 2 eexists. do 2 (split; [reflexivity|]). repeat split; discriminate.
Qed.
Print Assumptions C70_once_refuted.

(** Refuted: short-circuit evaluation without [uniform].  AndThen is a subclass of And, so statements that
    differ in this way are equal and one replaces the other. *)
Theorem C70_and_then_refuted : exists l txt ps g out, body_str (fun _ _ => true) l = Ok txt /\ forallb wf l = true /\ reads_body txt ps /\
  seq (exec (ev true) expr_variable C70_store C70_call C70_call) (map as_prog l) g = Some out /\
  seq (exec (teval true) tree_variable C70_store C70_call C70_call) ps g = None.
Proof.
  set (safe := fun o => EAss o [ERel ONe (v "D") (ENum 0); ERel OGt (EBin ODiv (v "X") (v "D")) (ENum 3)]).
  set (l := [SCase (v "Fld") [(v "F_A", [SReturn (safe OAnd)]); (v "F_B", [SReturn (safe OAndThen)])]]).
  destruct (body_reads (fun _ _ => true) l eq_refl ltac:(discriminate)) as (txt & T & R).
  exists l, txt. eexists.
  exists (fun n => match n with NVar "D" => VInt 0 | NVar "F_A" => VInt 1 | _ => VInt 2 end). eexists.
  split; [exact T|]. split; [reflexivity|]. split; [exact R|]. split; vm_compute; reflexivity.
Qed.
Print Assumptions C70_and_then_refuted.
