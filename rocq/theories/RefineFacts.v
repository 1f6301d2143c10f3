(** Lemmas about the generated function Contains. *)
From Coq Require Import String List ZArith Bool Lia.
From Verif Require Import Base Expr ExprEval ExprFacts ExprTotal ExprMore MsgGraph MsgGraphFacts GenCode GenSpec GenFacts Refine.
Import ListNotations.
Local Open Scope string_scope.
Local Open Scope list_scope.
Local Open Scope Z_scope.
Local Open Scope res_scope.

(** ** Names *)
Lemma decode_call c : decode (call_name c) = Some c.
Proof. destruct c as [|f|f|f|f|f|f]; try destruct f; reflexivity. Qed.

(** ** The expressions that occur: no arithmetic *)
Fixpoint noarith (e : expr) : bool :=
  match e with
  | ETrue | EFalse | ENum _ => true
  | EName (NVar _) s => negb s
  | EName (NAttr _ _) _ => false
  | ENot x => noarith x
  | EAss (OAdd | OMul) _ => false
  | EAss _ ts => forallb noarith ts
  | EBin _ _ _ => false
  | ERel _ l r => noarith l && noarith r
  end.
Lemma noarith_ok e : noarith e = true -> ok e = true.
Proof.
  induction e as [ | |z|n s|a IH|o ts IH|o l r IHl IHr|o l r IHl IHr] using expr_ind'; cbn; auto; try discriminate.
  - destruct o; try discriminate; now apply forallb_impl.
  - rewrite !andb_true_iff. tauto.
Qed.

Section Simplified.
  (** what simplification keeps: the names and the absence of arithmetic *)
  Variable P : name -> Prop.
  Definition keeps (e : expr) : Prop := noarith e = true /\ forall n, In n (names e) -> P n.
  Lemma keeps_ass o ts : boolean_op o = true -> (keeps (EAss o ts) <-> Forall keeps ts).
  Proof.
    intros B. unfold keeps. cbn [names noarith].
    assert (E : (match o with OAdd | OMul => false | _ => forallb noarith ts end) = forallb noarith ts) by (destruct o; try discriminate; auto).
    rewrite E, forallb_forall, Forall_forall. split.
    - intros [A N] x I. split; [auto|]. intros n J. apply N, in_flat_map. eauto.
    - intros H. split; [intros x I; apply (H x I)|]. intros n J. apply in_flat_map in J as (x & I & J). eapply H; eauto.
  Qed.
  Lemma keeps_bool b : keeps (EBool b).
  Proof. destruct b; split; auto; intros n []. Qed.

  Lemma collect_keeps simp o m : boolean_op o = true -> (forall e e', simp e = Ok e' -> keeps e -> keeps e') ->
    forall work total acc tot terms, collect simp o m work total acc = Ok (tot, terms) ->
    Forall keeps work -> Forall keeps acc -> Forall keeps terms.
  Proof.
    intros B HS. induction m as [|m IH]; intros work total acc tot terms E W A.
    - destruct work; cbn in E; [|discriminate]. apply Ok_inj in E. injection E as <- <-. now apply Forall_rev.
    - destruct work as [|t work]; cbn [collect] in E.
      + apply Ok_inj in E. injection E as <- <-. now apply Forall_rev.
      + destruct (simp t) as [t'|] eqn:ET; cbn [bind] in E; [|discriminate].
        inversion W as [|? ? K1 K2]; subst. pose proof (HS _ _ ET K1) as K.
        assert (KA : Forall keeps (t' :: acc)) by (constructor; auto).
        destruct t' as [ | |v|nm s|x|q us|bo l r|ro l r]; eauto.
        destruct (flattens o q) eqn:F; eauto. apply (IH _ _ _ _ _ E); [|exact A].
        apply Forall_app. split; [exact K2|]. apply (keeps_ass q us); [|exact K].
        destruct o, q; cbn in *; congruence.
  Qed.
  Lemma finish_keeps o tot terms : boolean_op o = true -> Forall keeps terms -> keeps (finish o tot terms).
  Proof.
    intros B K. unfold finish. rewrite B. destruct terms as [|t ts]; [apply keeps_bool|].
    assert (K' : Forall keeps (if tot =? neutral o then t :: ts else (t :: ts) ++ [EBool (negb (tot =? 0))])).
    { destruct (tot =? neutral o); [exact K|]. apply Forall_app. split; [exact K|]. constructor; [apply keeps_bool|constructor]. }
    destruct (if tot =? neutral o then _ else _) as [|u [|u' us]].
    - apply keeps_ass; auto.
    - now inversion K'.
    - now apply keeps_ass.
  Qed.
  Lemma absorb_keeps o e : keeps e -> keeps (absorb expr_eqb o e).
  Proof.
    intros K. destruct o, e as [ | |z|n s|x|q us|bo l r|ro l r]; cbn [absorb]; auto; destruct q; auto;
      destruct (existsb _ _); auto; split; auto; intros n [].
  Qed.
  Lemma simplify_keeps n : forall e e', simplify expr_eqb n e = Ok e' -> keeps e -> keeps e'.
  Proof.
    induction n as [|n IH]; intros e e' E K; [discriminate|]. cbn [simplify] in E.
    destruct e as [ | |z|nm s|x|o ts|o l r|o l r]; try (apply Ok_inj in E; now subst).
    - assert (KX : keeps x) by (destruct K as [A N]; split; auto).
      assert (G : forall y, simplify expr_eqb n x = Ok y -> keeps (ENot y)).
      { intros y Y. destruct (IH _ _ Y KX) as [A N]. split; auto. }
      destruct x as [ | |z|nm s|x|o ts|o l r|o l r];
        try (match type of E with bind ?q _ = _ => destruct q as [y|] eqn:Y; cbn [bind] in E; [|discriminate]; apply Ok_inj in E; subst e'; now apply G end).
      destruct KX as [A N]. cbn [noarith names] in A, N. apply andb_true_iff in A as [A1 A2].
      destruct (simplify expr_eqb n l) as [l'|] eqn:L; cbn [bind] in E; [|discriminate].
      destruct (simplify expr_eqb n r) as [r'|] eqn:R; cbn [bind] in E; [|discriminate]. apply Ok_inj in E. subst e'.
      destruct (IH _ _ L) as [L1 L2]; [split; auto; intros; apply N, in_or_app; auto|].
      destruct (IH _ _ R) as [R1 R2]; [split; auto; intros; apply N, in_or_app; auto|].
      split; [cbn [noarith]; now rewrite L1, R1|]. cbn [names]. intros k J. apply in_app_or in J as [J|J]; auto.
    - assert (B : boolean_op o = true) by (destruct K as [A _]; destruct o; try discriminate; auto).
      destruct (collect (simplify expr_eqb n) o n ts (neutral o) []) as [[tot terms]|] eqn:C; cbn [bind] in E; [|discriminate].
      assert (KT : Forall keeps terms).
      { eapply collect_keeps; [exact B|exact IH|exact C| |constructor]. now apply (keeps_ass o). }
      pose proof (absorb_keeps o _ (finish_keeps o tot terms B KT)) as KF.
      destruct o; try discriminate; apply Ok_inj in E; subst e'; exact KF.
    - destruct K as [A _]. discriminate.
    - destruct K as [A N]. cbn [noarith names] in A, N. apply andb_true_iff in A as [A1 A2].
      destruct (simplify expr_eqb n l) as [l'|] eqn:L; cbn [bind] in E; [|discriminate].
      destruct (simplify expr_eqb n r) as [r'|] eqn:R; cbn [bind] in E; [|discriminate]. apply Ok_inj in E. subst e'.
      destruct (IH _ _ L) as [L1 L2]; [split; auto; intros; apply N, in_or_app; auto|].
      destruct (IH _ _ R) as [R1 R2]; [split; auto; intros; apply N, in_or_app; auto|].
      assert (KR : keeps (ERel o l' r')).
      { split; [cbn [noarith]; now rewrite L1, R1|]. cbn [names]. intros k J. apply in_app_or in J as [J|J]; auto. }
      unfold rel_simp. match goal with |- keeps (if ?c then _ else _) => destruct c end; [apply (keeps_bool true)|].
      destruct l'; auto. destruct r'; auto. apply keeps_bool.
  Qed.
End Simplified.

(** ** Evaluation *)
Section Eval.
  Variable inr : Z -> bool.
  Variable lk : name -> res val.

  (** without arithmetic nothing can overflow *)
  Lemma aeval_defined g e : noarith e = true -> (forall n, In n (names e) -> lk n = Ok (g n)) ->
    forall v, eval g e = Some v -> aeval inr lk e = Ok v.
  Proof.
    induction e as [ | |z|n s|a IH|o ts IH|o l r IHl IHr|o l r IHl IHr] using expr_ind'; cbn [noarith names eval aeval]; intros A N v E.
    - now injection E as <-.
    - now injection E as <-.
    - now injection E as <-.
    - destruct n as [id|k id]; [|discriminate]. destruct s; [discriminate|]. rewrite (N _ (or_introl eq_refl)). cbn [bind].
      cbn in E. congruence.
    - destruct (eval g a) as [[z|b]|]; try discriminate. cbn in E. injection E as <-. rewrite (IH A N _ eq_refl). reflexivity.
    - assert (B : boolean_op o = true) by (destruct o; auto; discriminate).
      assert (A' : forallb noarith ts = true) by (destruct o; auto; discriminate).
      assert (X : exists bs, bools (map (eval g) ts) = Some bs).
      { destruct o; try discriminate; cbn [ass_val] in E; destruct (bools _); try discriminate; eauto. }
      destruct X as (bs & X).
      assert (Y : Forall2 (fun t b => aeval inr lk t = Ok (VBool b)) ts bs).
      { clear E B A. revert bs X. induction IH as [|t ts Ht HF IHts]; intros bs X; cbn [map bools] in X.
        - injection X as <-. constructor.
        - destruct (eval g t) as [[z|b]|] eqn:ET; try discriminate. destruct (bools _) as [bs'|] eqn:EB; [|discriminate].
          injection X as <-. cbn [forallb] in A'. apply andb_true_iff in A' as [A1 A2]. constructor.
          + apply Ht; auto. intros n I. apply N. cbn [flat_map]. apply in_or_app. auto.
          + apply IHts; auto. intros n I. apply N. cbn [flat_map]. apply in_or_app. auto. }
      assert (AB : all_bools (map (aeval inr lk) ts) = Ok bs).
      { clear -Y. induction Y as [|t b ts bs H HF IH]; cbn [map all_bools]; [reflexivity|]. rewrite H. cbn [bind as_bool]. now rewrite IH. }
      assert (SA : forall st, stop_at st (map (aeval inr lk) ts) = Ok (if st then existsb (fun b => b) bs else forallb (fun b => b) bs)).
      { intros st. clear -Y. induction Y as [|t b ts bs H HF IH]; cbn [map stop_at]; [now destruct st|]. rewrite H. cbn [bind as_bool].
        rewrite IH. destruct b, st; reflexivity. }
      destruct o; try discriminate; cbn [ass_res]; rewrite ?AB, ?SA; cbn [bind]; cbn [ass_val] in E; rewrite X in E; injection E as <-; reflexivity.
    - discriminate.
    - apply andb_true_iff in A as [A1 A2].
      destruct (eval g l) as [lv|] eqn:EL; [|discriminate].
      rewrite (IHl A1 (fun n I => N n (in_or_app _ _ _ (or_introl I))) _ eq_refl). cbn [bind].
      destruct (eval g r) as [rv|] eqn:ER; [|destruct lv; discriminate].
      rewrite (IHr A2 (fun n I => N n (in_or_app _ _ _ (or_intror I))) _ eq_refl). cbn [bind].
      destruct lv, rv; cbn in *; try discriminate; [congruence|]. destruct o; try discriminate; congruence.
  Qed.
End Eval.

(** ** Guards *)

(** a guard is a name or the negation of one *)
Definition guard (e : expr) : bool :=
  match e with EName _ false | ENot (EName _ false) => true | _ => false end.
Lemma guard_simplify n a t : guard a = true -> simplify expr_eqb n a = Ok t -> t = a.
Proof.
  intros G E. destruct n as [|n]; [discriminate|]. destruct a as [ | |z|nm s|x|o ts|o l r|o l r]; try discriminate; cbn [simplify] in E.
  - now apply Ok_inj in E.
  - destruct x as [ | |z|nm [|]|x|o ts|o l r|o l r]; try discriminate. destruct n; cbn in E; [discriminate|]. now apply Ok_inj in E.
Qed.
(** [Starts hs e]: whatever else [e] tests, it first tests the guards [hs] *)
Inductive Starts : list expr -> expr -> Prop :=
| St_nil e : Starts [] e
| St_false hs : Starts hs EFalse
| St_flat hs us : Starts hs (EAss OAndThen (hs ++ us))
| St_one h : Starts [h] h
| St_nest gs hs e : Starts hs e -> Starts (gs ++ hs) (EAss OAndThen (gs ++ [e])).
(** the same after simplification *)
Definition Normal (hs : list expr) (e : expr) : Prop :=
  hs = [] \/ e = EFalse \/ (exists us, e = EAss OAndThen (hs ++ us)) \/ hs = [e].

Lemma collect_guards simp : (forall a t, guard a = true -> simp a = Ok t -> t = a) ->
  forall gs m work total acc r, forallb guard gs = true -> collect simp OAndThen m (gs ++ work) total acc = Ok r ->
  exists m', collect simp OAndThen m' work total (rev gs ++ acc) = Ok r.
Proof.
  intros HS. induction gs as [|a gs IH]; intros m work total acc r G E; [eauto|].
  cbn [forallb] in G. apply andb_true_iff in G as [G1 G2]. cbn [List.app] in E.
  destruct m as [|m]; cbn [collect] in E; [discriminate|].
  destruct (simp a) as [t|] eqn:ET; cbn [bind] in E; [|discriminate]. apply (HS _ _ G1) in ET. subst t.
  assert (E' : collect simp OAndThen m (gs ++ work) total (a :: acc) = Ok r) by (destruct a; try discriminate; exact E).
  destruct (IH _ _ _ _ _ G2 E') as (m' & M). exists m'. cbn [rev]. rewrite <- app_assoc. exact M.
Qed.
Lemma collect_prefix simp o : forall m work total acc tot terms, collect simp o m work total acc = Ok (tot, terms) ->
  exists us, terms = rev acc ++ us.
Proof.
  induction m as [|m IH]; intros work total acc tot terms E.
  - destruct work; cbn in E; [|discriminate]. apply Ok_inj in E. injection E as <- <-. exists []. now rewrite app_nil_r.
  - destruct work as [|t work]; cbn [collect] in E.
    + apply Ok_inj in E. injection E as <- <-. exists []. now rewrite app_nil_r.
    + destruct (simp t) as [t'|]; cbn [bind] in E; [|discriminate].
      assert (K : forall w c t', collect simp o m w c (t' :: acc) = Ok (tot, terms) -> exists us, terms = rev acc ++ us).
      { intros w c u X. destruct (IH _ _ _ _ _ X) as (us & ->). exists (u :: us). cbn [rev]. now rewrite <- app_assoc. }
      destruct t' as [ | |v|nm s|x|q us|bo l r|ro l r]; eauto. destruct (flattens o q); eauto.
Qed.
Lemma finish_normal gs tot us : Normal gs (absorb expr_eqb OAndThen (finish OAndThen tot (gs ++ us))).
Proof.
  destruct gs as [|g gs]; [now left|].
  assert (A : forall ts, exists e, absorb expr_eqb OAndThen (EAss OAndThen ((g :: gs) ++ ts)) = e /\ (e = EFalse \/ e = EAss OAndThen ((g :: gs) ++ ts))).
  { intros ts. cbn [absorb]. destruct (existsb _ _); eauto. }
  unfold finish. cbn [List.app boolean_op].
  destruct (tot =? neutral OAndThen).
  - destruct (gs ++ us) as [|u ts] eqn:E.
    + apply app_eq_nil in E as [-> ->]. right. destruct g as [ | |z|nm s|x|q us|bo l r|ro l r]; cbn [absorb]; auto.
      destruct q; auto; destruct (existsb _ _); auto.
    + rewrite <- E. destruct (A us) as (e & E1 & E2). cbn [List.app] in E1, E2. rewrite E1. right. destruct E2 as [->| ->]; [now left|]. right. left. exists us. reflexivity.
  - destruct (A (us ++ [EBool (negb (tot =? 0))])) as (e & E1 & E2). cbn [List.app] in E1, E2. rewrite <- app_assoc. 
    assert (X : absorb expr_eqb OAndThen
        match g :: gs ++ us ++ [EBool (negb (tot =? 0))] with
        | [t] => t | _ => EAss OAndThen (g :: gs ++ us ++ [EBool (negb (tot =? 0))]) end = e).
    { destruct (gs ++ us ++ [EBool (negb (tot =? 0))]) eqn:Q; [|exact E1].
      apply app_eq_nil in Q as [_ Q]. apply app_eq_nil in Q as [_ Q]. discriminate. }
    rewrite X. right. destruct E2 as [->| ->]; [now left|]. right. left. eexists. reflexivity.
Qed.

Lemma starts_simplify hs e : Starts hs e -> forallb guard hs = true ->
  forall n e', simplify expr_eqb n e = Ok e' -> Normal hs e'.
Proof.
  assert (FL : forall gs us n e', forallb guard gs = true -> simplify expr_eqb n (EAss OAndThen (gs ++ us)) = Ok e' -> Normal gs e').
  { intros gs us n e' G E. destruct n as [|n]; [discriminate|]. cbn [simplify] in E.
    destruct (collect _ _ _ _ _ _) as [[tot terms]|] eqn:C; cbn [bind] in E; [|discriminate]. apply Ok_inj in E. subst e'.
    destruct (collect_guards _ (guard_simplify n) _ _ _ _ _ _ G C) as (m' & C').
    destruct (collect_prefix _ _ _ _ _ _ _ _ C') as (vs & ->). rewrite app_nil_r, rev_involutive. apply finish_normal. }
  induction 1 as [e|hs|hs us|h|gs hs e S IH]; intros G n e' E.
  - now left.
  - destruct n; [discriminate|]. cbn in E. apply Ok_inj in E. subst. right. now left.
  - eapply FL; eauto.
  - right. right. right. cbn [forallb] in G. rewrite andb_true_r in G. f_equal. symmetry. eapply guard_simplify; eauto.
  - rewrite forallb_app in G. apply andb_true_iff in G as [G1 G2].
    destruct n as [|n]; [discriminate|]. cbn [simplify] in E.
    destruct (collect _ _ _ _ _ _) as [[tot terms]|] eqn:C; cbn [bind] in E; [|discriminate]. apply Ok_inj in E. subst e'.
    destruct (collect_guards _ (guard_simplify n) _ _ _ _ _ _ G1 C) as (m' & C'). clear C. rewrite app_nil_r in C'.
    destruct m' as [|m']; cbn [collect] in C'; [discriminate|].
    destruct (simplify expr_eqb n e) as [t|] eqn:ET; cbn [bind] in C'; [|discriminate].
    pose proof (IH G2 _ _ ET) as NT.
    assert (PF : (exists us, terms = gs ++ hs ++ us) -> Normal (gs ++ hs) (absorb expr_eqb OAndThen (finish OAndThen tot terms))).
    { intros (us & ->). rewrite app_assoc. apply finish_normal. }
    destruct NT as [->|[->|[(us & ->)|EH]]].
    + rewrite app_nil_r. 
      assert (X : exists us, terms = gs ++ us).
      { assert (Y : exists w c acc us, collect (simplify expr_eqb n) OAndThen m' w c acc = Ok (tot, terms) /\ rev acc = gs ++ us).
        { destruct t as [ | |v|nm s|x|q us|bo l r|ro l r]; try (eexists _, _, _, []; split; [exact C'|]; now rewrite rev_involutive, app_nil_r);
            try (eexists _, _, _, [_]; split; [exact C'|]; cbn [rev]; now rewrite rev_involutive).
          destruct (flattens OAndThen q); [eexists _, _, _, []; split; [exact C'|]; now rewrite rev_involutive, app_nil_r|].
          eexists _, _, _, [_]; split; [exact C'|]; cbn [rev]; now rewrite rev_involutive. }
        destruct Y as (w & c & acc & us & Y & R). destruct (collect_prefix _ _ _ _ _ _ _ _ Y) as (vs & ->). rewrite R, <- app_assoc. eauto. }
      destruct X as (us & ->). apply finish_normal.
    + assert (X : terms = gs /\ tot = 0).
      { destruct m'; cbn in C'; apply Ok_inj in C'; injection C' as <- <-; rewrite rev_involutive; auto. }
      destruct X as [-> ->]. right. left. destruct gs as [|g gs]; [reflexivity|]. unfold finish. cbn [boolean_op neutral Z.eqb negb EBool List.app].
      destruct (gs ++ [EFalse]) as [|u us] eqn:Q; [destruct gs; discriminate|]. rewrite <- Q. cbn [absorb].
      change (g :: gs ++ [EFalse]) with ((g :: gs) ++ [EFalse]). rewrite existsb_app. cbn [existsb expr_eqb orb]. now rewrite orb_true_r.
    + cbn [flattens List.app] in C'. destruct (collect_guards _ (guard_simplify n) _ _ _ _ _ _ G2 C') as (m2 & C2).
      destruct (collect_prefix _ _ _ _ _ _ _ _ C2) as (vs & X). rewrite rev_app_distr, !rev_involutive in X. apply PF. exists vs. rewrite X. now rewrite <- app_assoc.
    + subst hs. cbn [forallb] in G2. rewrite andb_true_r in G2.
      assert (C2 : collect (simplify expr_eqb n) OAndThen m' [] 1 (t :: rev gs) = Ok (tot, terms)) by (destruct t; try discriminate; exact C').
      destruct (collect_prefix _ _ _ _ _ _ _ _ C2) as (vs & X). cbn [rev] in X. rewrite rev_involutive in X. apply PF. exists vs. rewrite X. now rewrite <- app_assoc.
Qed.

Lemma normal_starts hs e : Normal hs e -> Starts hs e.
Proof. intros [->|[->|[(us & ->)| ->]]]; constructor. Qed.

(** the first guard that fails decides *)
Lemma normal_stop inr lk hs e g1 a g2 : Normal hs e -> hs = g1 ++ a :: g2 ->
  (forall h, In h g1 -> aeval inr lk h = Ok (VBool true)) -> aeval inr lk a = Ok (VBool false) ->
  aeval inr lk e = Ok (VBool false).
Proof.
  intros N E T F. destruct N as [->|[->|[(us & ->)|X]]].
  - destruct g1; discriminate.
  - reflexivity.
  - cbn [aeval ass_res]. subst hs. assert (ST : stop_at false (map (aeval inr lk) ((g1 ++ a :: g2) ++ us)) = Ok false).
    { clear -T F. induction g1 as [|h g1 IH]; cbn [List.app map stop_at].
      - rewrite F. reflexivity.
      - rewrite (T h (or_introl eq_refl)). cbn [bind as_bool Bool.eqb]. apply IH. intros k I. apply T. now right. }
    now rewrite ST.
  - rewrite X in E. destruct g1 as [|? [|]]; injection E as E1 E2; try discriminate. now subst.
Qed.
