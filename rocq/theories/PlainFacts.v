(** Simplification does not leave the expressions on which z3 and the language agree
    (plain in SolverFacts.v). *)
From Coq Require Import String List ZArith Bool Lia.
From Verif Require Import Base Expr ExprEval ExprFacts Solver SolverFacts.
Import ListNotations.
Local Open Scope Z_scope.
Local Open Scope res_scope.

Definition sort_of_op (o : assop) : zsort := if boolean_op o then ZBool else ZInt.
Definition plain_as (k : zsort) (e : expr) : bool := match plain e with Some k' => zsort_eqb k k' | None => false end.

Lemma plain_as_iff k e : plain_as k e = true <-> plain e = Some k.
Proof. unfold plain_as. destruct (plain e) as [[]|], k; cbn; split; intros; congruence. Qed.
Lemma plain_ass o ts k : plain (EAss o ts) = Some k <-> k = sort_of_op o /\ forallb (plain_as (sort_of_op o)) ts = true.
Proof.
  cbn [plain]. fold (sort_of_op o). change (fun t => match plain t with Some k0 => zsort_eqb (sort_of_op o) k0 | None => false end) with (plain_as (sort_of_op o)).
  destruct (forallb _ ts); split; [intros H; injection H as <-; auto|intros [-> _]; reflexivity|discriminate|intros [_ H]; discriminate].
Qed.
Lemma plain_ebool b : plain (EBool b) = Some ZBool.
Proof. now destruct b. Qed.

Section Plain.
  Variable eqb : expr -> expr -> bool.
  Definition keeps (simp : expr -> res expr) : Prop := forall e e' k, simp e = Ok e' -> plain e = Some k -> plain e' = Some k.

  Lemma flattens_sort o p : flattens o p = true -> sort_of_op p = sort_of_op o.
  Proof. destruct o, p; cbn; congruence. Qed.

  Section Simp.
    Variable simp : expr -> res expr.
    Hypothesis K : keeps simp.

    Lemma collect_plain o m : forall work total acc tot terms,
      collect simp o m work total acc = Ok (tot, terms) ->
      forallb (plain_as (sort_of_op o)) work = true -> forallb (plain_as (sort_of_op o)) acc = true ->
      forallb (plain_as (sort_of_op o)) terms = true.
    Proof.
      induction m as [|m IH]; intros work total acc tot terms H W A.
      - destruct work; cbn in H; [|discriminate]. injection H as <- <-. rewrite forallb_forall in *. intros x I. apply A. now apply in_rev.
      - destruct work as [|t rest]; cbn [collect] in H.
        + injection H as <- <-. rewrite forallb_forall in *. intros x I. apply A. now apply in_rev.
        + cbn [forallb] in W. apply andb_true_iff in W as [T W]. destruct (simp t) as [t'|] eqn:E; cbn [bind] in H; [|discriminate].
          apply plain_as_iff in T. pose proof (K _ _ _ E T) as T'. pose proof (proj2 (plain_as_iff _ _) T') as T2.
          assert (A' : forallb (plain_as (sort_of_op o)) (t' :: acc) = true) by (cbn [forallb]; now rewrite T2).
          destruct t'; eauto. destruct (flattens o o0) eqn:F; eauto.
          apply plain_ass in T' as [_ U]. rewrite (flattens_sort _ _ F) in U. eapply IH; [exact H| |exact A].
          rewrite forallb_app. now rewrite W, U.
    Qed.

    Lemma finish_plain o tot terms : forallb (plain_as (sort_of_op o)) terms = true -> plain (finish o tot terms) = Some (sort_of_op o).
    Proof.
      intros H. unfold finish. destruct terms as [|t ts].
      { unfold sort_of_op. destruct (boolean_op o); [apply plain_ebool|reflexivity]. }
      set (extra := if boolean_op o then EBool (negb (tot =? 0)) else ENum tot).
      assert (X : plain extra = Some (sort_of_op o)).
      { unfold extra, sort_of_op. destruct (boolean_op o); [apply plain_ebool|reflexivity]. }
      set (l := if tot =? neutral o then t :: ts else (t :: ts) ++ [extra]).
      assert (L : forallb (plain_as (sort_of_op o)) l = true).
      { unfold l. destruct (tot =? neutral o); [exact H|]. rewrite forallb_app, H. cbn. rewrite (proj2 (plain_as_iff _ _) X). reflexivity. }
      destruct l as [|x [|y l']].
      - apply plain_ass. auto.
      - cbn in L. rewrite andb_true_r in L. now apply plain_as_iff.
      - apply plain_ass. auto.
    Qed.

    Lemma absorb_plain o e k : plain e = Some k -> plain (absorb eqb o e) = Some k.
    Proof.
      intros H. destruct o; try exact H; (destruct e as [| |?|? ?|?|p ts|? ? ?|? ? ?]; try exact H);
        (destruct p; try exact H); cbn [absorb]; (destruct (existsb _ ts); [|exact H]);
        apply plain_ass in H as [-> _]; reflexivity.
    Qed.

    Lemma neg_plain : forall e e', neg simp e = Ok e' -> plain e = Some ZInt -> plain e' = Some ZInt.
    Proof.
      induction e as [| |v|n s|e IHe|o ts IHts|o e1 e2 IHe1 IHe2|o e1 e2 IHe1 IHe2] using expr_ind';
        intros e' H P; cbn [neg] in H.
      - discriminate.
      - discriminate.
      - apply Ok_inj in H. now subst.
      - apply Ok_inj in H. now subst.
      - cbn in P. destruct (plain e) as [[]|]; discriminate.
      - apply plain_ass in P as [S P]. destruct o; try discriminate S.
        + match type of H with bind ?x _ = _ => destruct x as [ts'|] eqn:G; cbn [bind] in H; [|discriminate] end.
          apply Ok_inj in H. subst e'. apply plain_ass. split; [reflexivity|].
          change (sort_of_op OAdd) with ZInt in *. revert ts' G. induction IHts as [|x l Hx F IH]; intros ts' G.
          * apply Ok_inj in G. now subst.
          * cbn [forallb] in P. apply andb_true_iff in P as [P1 P2].
            destruct (neg simp x) as [y|] eqn:N; cbn [bind] in G; [|discriminate].
            match type of G with bind ?x _ = _ => destruct x as [ys|] eqn:G2; cbn [bind] in G; [|discriminate] end.
            apply Ok_inj in G. subst ts'. cbn [forallb]. apply plain_as_iff in P1.
            rewrite (proj2 (plain_as_iff _ _) (Hx _ eq_refl P1)). cbn. now apply IH.
        + apply (K _ _ _ H). apply plain_ass. split; [reflexivity|]. rewrite forallb_app, P. reflexivity.
      - destruct (neg simp e1) as [l'|] eqn:N; cbn [bind] in H; [|discriminate]. apply Ok_inj in H. subst e'.
        cbn [plain] in P |- *. destruct (plain e1) as [[]|] eqn:P1; try discriminate.
        rewrite (IHe1 _ eq_refl eq_refl). exact P.
      - cbn [plain] in P. destruct (plain e1) as [[]|], (plain e2) as [[]|]; discriminate.
    Qed.

    Lemma remove_first_in x l l' y : remove_first eqb x l = Some l' -> In y l' -> In y l.
    Proof.
      revert l'. induction l as [|z l IH]; intros l' H I; cbn in H; [discriminate|].
      destruct (eqb z x); [injection H as <-; now right|].
      destruct (remove_first eqb x l) as [l''|]; [|discriminate]. injection H as <-. destruct I as [->|I]; [now left|right; eauto].
    Qed.
    Lemma cancel_plain l : forall acc ts, cancel eqb simp l acc = Ok ts -> forallb (plain_as ZInt) l = true ->
      forallb (plain_as ZInt) acc = true -> forallb (plain_as ZInt) ts = true.
    Proof.
      induction l as [|t l IH]; intros acc ts H L A; cbn [cancel] in H; [apply Ok_inj in H; now subst|].
      cbn [forallb] in L. apply andb_true_iff in L as [T L].
      destruct acc as [|a acc]; [eapply IH; eauto; cbn [forallb]; now rewrite T|].
      destruct (neg simp t) as [nt|]; cbn [bind] in H; [|discriminate].
      destruct (remove_first eqb nt (a :: acc)) as [acc'|] eqn:R.
      - eapply IH; eauto. rewrite forallb_forall in *. intros x I. apply A. eapply remove_first_in; eauto.
      - eapply IH; eauto. cbn [forallb] in *. now rewrite T.
    Qed.
    Lemma add_tail_plain e e' k : add_tail eqb simp e = Ok e' -> plain e = Some k -> plain e' = Some k.
    Proof.
      intros H P. destruct e as [| |?|? ?|?|o ts|? ? ?|? ? ?]; cbn [add_tail] in H; try (apply Ok_inj in H; now subst).
      destruct o; try (apply Ok_inj in H; now subst).
      destruct (cancel eqb simp (rev ts) []) as [ts'|] eqn:C; cbn [bind] in H; [|discriminate].
      apply plain_ass in P as [-> P]. change (sort_of_op OAdd) with ZInt in *.
      apply cancel_plain in C; [|rewrite forallb_forall in *; intros x I; apply P; now apply in_rev|reflexivity].
      destruct ts' as [|x [|y ts']]; apply Ok_inj in H; subst.
      - reflexivity.
      - cbn in C. rewrite andb_true_r in C. now apply plain_as_iff.
      - apply plain_ass. auto.
    Qed.
  End Simp.

  Lemma simplify_plain n : keeps (simplify eqb n).
  Proof.
    induction n as [|n IH]; intros e e' k H P; [discriminate|].
    destruct e as [| |v|nm s|x|o ts|o l r|o l r]; cbn [simplify] in H; try (apply Ok_inj in H; now subst).
    - cbn [plain] in P. destruct (plain x) as [[]|] eqn:PX; try discriminate. injection P as <-.
      assert (D : forall x', simplify eqb n x = Ok x' -> plain (ENot x') = Some ZBool).
      { intros x' E. cbn [plain]. now rewrite (IH _ _ _ E PX). }
      destruct x as [| |v|nm s|y|o ts|o l r|o l r];
        try (match type of H with bind ?z _ = _ => destruct z as [x'|] eqn:E; cbn [bind] in H; [|discriminate] end;
             apply Ok_inj in H; subst; now apply D).
      cbn [plain] in PX. destruct (plain l) as [[]|] eqn:PL; try discriminate. destruct (plain r) as [[]|] eqn:PR; try discriminate.
      destruct (simplify eqb n l) as [l'|] eqn:EL; cbn [bind] in H; [|discriminate].
      destruct (simplify eqb n r) as [r'|] eqn:ER; cbn [bind] in H; [|discriminate].
      apply Ok_inj in H. subst. cbn [plain]. now rewrite (IH _ _ _ EL PL), (IH _ _ _ ER PR).
    - apply plain_ass in P as [-> P].
      destruct (collect (simplify eqb n) o n ts (neutral o) []) as [[tot terms]|] eqn:C; cbn [bind] in H; [|discriminate].
      apply (collect_plain _ IH) in C; [|exact P|reflexivity].
      pose proof (finish_plain o tot terms C) as F.
      destruct o; try (apply Ok_inj in H; subst; now (apply absorb_plain || exact F)).
      eapply add_tail_plain; eauto.
    - cbn [plain] in P.
      destruct (plain l) as [[]|] eqn:PL; try discriminate. destruct (plain r) as [[]|] eqn:PR; try discriminate.
      destruct (simplify eqb n l) as [l'|] eqn:EL; cbn [bind] in H; [|discriminate].
      destruct (simplify eqb n r) as [r'|] eqn:ER; cbn [bind] in H; [|discriminate].
      pose proof (IH _ _ _ EL PL) as QL. pose proof (IH _ _ _ ER PR) as QR.
      assert (NN : forall x y, l' = ENum x -> r' = ENum y -> bin_num o x y = Ok e' -> plain e' = Some k).
      { intros x y -> -> B. destruct o; try discriminate P; cbn in B.
        - apply Ok_inj in B. subst. exact P.
        - destruct r; try discriminate. destruct (0 <? v); [|discriminate]. injection P as <-.
          destruct (y <? 0); [discriminate|]. apply Ok_inj in B. now subst.
        - destruct r; try discriminate. destruct (0 <? v); [|discriminate]. injection P as <-.
          destruct (y =? 0); [discriminate|]. apply Ok_inj in B. now subst. }
      assert (GEN : (match o with OSub => let* nr := neg (simplify eqb n) r' in Ok (EAss OAdd [l'; nr]) | _ => Ok (EBin o l' r') end) = Ok e' -> plain e' = Some k).
      { intros B. destruct o; try discriminate P.
        - destruct (neg (simplify eqb n) r') as [nr|] eqn:N; cbn [bind] in B; [|discriminate]. apply Ok_inj in B. subst e'.
          injection P as <-. apply plain_ass. split; [reflexivity|]. change (sort_of_op OAdd) with ZInt. cbn [forallb].
          rewrite (proj2 (plain_as_iff _ _) QL), (proj2 (plain_as_iff _ _) (neg_plain _ IH _ _ N QR)). reflexivity.
        - destruct r; try discriminate. apply Ok_inj in B. subst e'.
          assert (r' = ENum v) as -> by (destruct n; [discriminate|]; cbn in ER; apply Ok_inj in ER; now subst).
          cbn [plain]. now rewrite QL.
        - destruct r; try discriminate. apply Ok_inj in B. subst e'.
          assert (r' = ENum v) as -> by (destruct n; [discriminate|]; cbn in ER; apply Ok_inj in ER; now subst).
          cbn [plain]. now rewrite QL. }
      destruct l'; try (apply GEN; exact H). destruct r'; try (apply GEN; exact H). eapply NN; eauto.
    - cbn [plain] in P.
      destruct (plain l) as [[]|] eqn:PL; try discriminate. destruct (plain r) as [[]|] eqn:PR; try discriminate.
      destruct (simplify eqb n l) as [l'|] eqn:EL; cbn [bind] in H; [|discriminate].
      destruct (simplify eqb n r) as [r'|] eqn:ER; cbn [bind] in H; [|discriminate].
      pose proof (IH _ _ _ EL PL) as QL. pose proof (IH _ _ _ ER PR) as QR. apply Ok_inj in H. subst e'. injection P as <-.
      assert (D : plain (ERel o l' r') = Some ZBool) by (cbn [plain]; now rewrite QL, QR).
      unfold rel_simp. destruct (_ && eqb l' r'); [reflexivity|]. destruct l'; try exact D. destruct r'; try exact D. apply plain_ebool.
  Qed.
End Plain.

(** ** Values of plain expressions *)
Lemma bools_some g ts : (forall e, In e ts -> exists b, eval g e = Some (VBool b)) -> exists bs, bools (map (eval g) ts) = Some bs.
Proof.
  induction ts as [|e ts IH]; intros H; cbn; [eauto|]. destruct (H e (or_introl eq_refl)) as [b ->].
  destruct IH as [bs ->]; [intros x I; apply H; now right|]. eauto.
Qed.
Lemma ints_some g ts : (forall e, In e ts -> exists b, eval g e = Some (VInt b)) -> exists bs, ints (map (eval g) ts) = Some bs.
Proof.
  induction ts as [|e ts IH]; intros H; cbn; [eauto|]. destruct (H e (or_introl eq_refl)) as [b ->].
  destruct IH as [bs ->]; [intros x I; apply H; now right|]. eauto.
Qed.
Lemma plain_eval g e : int_env g -> forall k, plain e = Some k -> exists v, eval g e = Some v /\ of_sort k v.
Proof.
  intros IE.
  induction e as [| |v0|n0 s0|e IHe|o ts IHts|o e1 e2 IHe1 IHe2|o e1 e2 IHe1 IHe2] using expr_ind'; intros k P.
  - injection P as <-. eexists. split; [reflexivity|exact Logic.I].
  - injection P as <-. eexists. split; [reflexivity|exact Logic.I].
  - injection P as <-. eexists. split; [reflexivity|exact Logic.I].
  - injection P as <-. cbn [eval]. destruct (IE n0) as [z ->]. destruct s0; eexists; (split; [reflexivity|exact Logic.I]).
  - cbn [plain] in P. destruct (plain e) as [[]|]; try discriminate. injection P as <-.
    destruct (IHe _ eq_refl) as ([z|b] & E & K); [destruct K|]. cbn [eval]. rewrite E. eexists. split; [reflexivity|exact Logic.I].
  - apply plain_ass in P as [-> P]. rewrite forallb_forall in P. rewrite Forall_forall in IHts.
    assert (Q : forall e, In e ts -> exists v, eval g e = Some v /\ of_sort (sort_of_op o) v).
    { intros e I. apply IHts; [exact I|]. apply plain_as_iff, P, I. }
    cbn [eval]. unfold sort_of_op in *. destruct (boolean_op o) eqn:B.
    + destruct (bools_some g ts) as [bs E]; [intros e I; destruct (Q e I) as ([z|b] & E & K); [destruct K|eauto]|].
      destruct o; try discriminate B; cbn [ass_val]; rewrite E; eexists; (split; [reflexivity|exact Logic.I]).
    + destruct (ints_some g ts) as [bs E]; [intros e I; destruct (Q e I) as ([z|b] & E & K); [eauto|destruct K]|].
      destruct o; try discriminate B; cbn [ass_val]; rewrite E; eexists; (split; [reflexivity|exact Logic.I]).
  - cbn [plain] in P. destruct (plain e1) as [[]|]; try discriminate. destruct (plain e2) as [[]|]; try discriminate.
    destruct (IHe1 _ eq_refl) as ([x|] & E1 & K1); [|destruct K1]. destruct (IHe2 _ eq_refl) as ([y|] & E2 & K2); [|destruct K2].
    cbn [eval]. rewrite E1, E2. cbn [bin_val]. destruct o; try discriminate P.
    + injection P as <-. eexists. split; [reflexivity|exact Logic.I].
    + destruct e2; try discriminate. destruct (Z.ltb_spec 0 v); [|discriminate]. injection P as <-. cbn in E2. injection E2 as <-.
      destruct (Z.ltb_spec v 0); [lia|]. eexists. split; [reflexivity|exact Logic.I].
    + destruct e2; try discriminate. destruct (Z.ltb_spec 0 v); [|discriminate]. injection P as <-. cbn in E2. injection E2 as <-.
      destruct (Z.eqb_spec v 0); [lia|]. eexists. split; [reflexivity|exact Logic.I].
  - cbn [plain] in P. destruct (plain e1) as [[]|]; try discriminate. destruct (plain e2) as [[]|]; try discriminate.
    destruct (IHe1 _ eq_refl) as ([x|] & E1 & K1); [|destruct K1]. destruct (IHe2 _ eq_refl) as ([y|] & E2 & K2); [|destruct K2].
    cbn [eval]. rewrite E1, E2. injection P as <-. eexists. split; [reflexivity|exact Logic.I].
Qed.
Lemma plain_tame g e : forall k, plain e = Some k -> tame g e.
Proof.
  induction e as [| |v0|n0 s0|e IHe|o ts IHts|o e1 e2 IHe1 IHe2|o e1 e2 IHe1 IHe2] using expr_ind'; intros k P; try exact Logic.I.
  - cbn [plain] in P. cbn [tame]. destruct (plain e) as [[]|]; try discriminate. eauto.
  - apply plain_ass in P as [_ P]. cbn [tame]. apply fold_and_Forall. rewrite forallb_forall in P. rewrite Forall_forall in *.
    intros e I. eapply IHts; [exact I|]. apply plain_as_iff, P, I.
  - cbn [plain] in P. destruct (plain e1) as [[]|]; try discriminate. destruct (plain e2) as [[]|]; try discriminate.
    cbn [tame]. split; [eauto|]. split; [eauto|]. destruct o; try exact Logic.I; try discriminate P.
    destruct e2; try discriminate. destruct (Z.ltb_spec 0 v); [|discriminate]. intros y E. injection E as <-. lia.
  - cbn [plain] in P. destruct (plain e1) as [[]|]; try discriminate. destruct (plain e2) as [[]|]; try discriminate.
    cbn [tame]. eauto.
Qed.
