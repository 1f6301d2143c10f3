(** Lemmas about the verification of messages: the facts given to the solver hold in
    every legal assignment along a path. *)
From Coq Require Import String List ZArith Bool Lia.
From Verif Require Import Base Expr ExprEval ExprFacts Ident TypeSpec MsgGraph MsgGraphFacts Solver SolverFacts Verify VerifySpec.
Import ListNotations.
Local Open Scope string_scope.
Local Open Scope list_scope.
Local Open Scope Z_scope.
Local Open Scope res_scope.

(** ** Lists of results *)

Ltac dok H x E := match type of H with bind ?r _ = _ => destruct r as [x|] eqn:E; cbn [bind] in H; [|discriminate H] end.

Lemma sequence_ok {A} (l : list (res A)) xs : sequence l = Ok xs -> l = map Ok xs.
Proof.
  revert xs. induction l as [|r l IH]; intros xs H; cbn [sequence] in H.
  - apply Ok_inj in H. now subst.
  - dok H x E. dok H ys E2. apply Ok_inj in H. subst xs. cbn. f_equal. now apply IH.
Qed.
Lemma all_errors_nil l : all_errors l = Ok [] -> forall r, In r l -> r = Ok [].
Proof.
  unfold all_errors. intros H r I. dok H es E. apply Ok_inj in H. apply sequence_ok in E. subst l.
  apply in_map_iff in I as (e & <- & I). f_equal. clear -H I. induction es as [|x es IH]; [destruct I|].
  cbn in H. apply app_eq_nil in H as [-> H]. destruct I as [<-|I]; auto.
Qed.
Lemma first_error_nil l : first_error l = Ok [] -> forall r, In r l -> r = Ok [].
Proof.
  induction l as [|x l IH]; intros H r I; [destruct I|]. cbn [first_error] in H. dok H e E.
  destruct e as [|w e]; [|discriminate H]. destruct I as [<-|I]; auto.
Qed.
Lemma mapr_In {A B} (f : A -> res B) l ys : mapr f l = Ok ys -> forall y, In y ys <-> exists x, In x l /\ f x = Ok y.
Proof.
  revert ys. induction l as [|x l IH]; intros ys H y; cbn [mapr] in H.
  - apply Ok_inj in H. subst. split; [intros []|intros (? & [] & _)].
  - dok H z E. dok H zs E2. apply Ok_inj in H. subst ys. specialize (IH zs eq_refl y). cbn [In]. rewrite IH. split.
    + intros [<-|(x' & I & F)]; eauto.
    + intros (x' & [<-|I] & F); [left; congruence|right; eauto].
Qed.
Lemma mapr_each {A B} (f : A -> res B) l ys : mapr f l = Ok ys -> forall x, In x l -> exists y, f x = Ok y /\ In y ys.
Proof.
  intros H x I. revert ys H. induction l as [|x' l IH]; intros ys H; [destruct I|]. cbn [mapr] in H.
  dok H z E. dok H zs E2. apply Ok_inj in H. subst ys. destruct I as [->|I]; [exists z; cbn; auto|].
  destruct (IH I zs eq_refl) as (y & F & J). exists y. cbn. auto.
Qed.

(** ** Answers *)

Lemma check_answer solve goal facts a : check_facts solve goal facts = Ok a -> a = solve (goal :: facts).
Proof. unfold check_facts. intros H. dok H u E. apply Ok_inj in H. auto. Qed.

Lemma pairs_two {A} (l : list A) x y : In x l -> In y l -> x <> y -> In (x, y) (pairs l) \/ In (y, x) (pairs l).
Proof.
  induction l as [|z l IH]; intros I J N; [destruct I|]. cbn [pairs].
  destruct I as [->|I], J as [->|J].
  - congruence.
  - left. apply in_or_app. left. now apply in_map.
  - right. apply in_or_app. left. now apply in_map.
  - destruct (IH I J N); [left|right]; apply in_or_app; auto.
Qed.

(** ** Truth of facts *)

Lemma models_app i a b : models i (a ++ b) <-> models i a /\ models i b.
Proof.
  unfold models. split.
  - intros H. split; intros e I; apply H, in_or_app; auto.
  - intros [H K] e I. apply in_app_or in I as [I|I]; auto.
Qed.
Lemma models_cons i a b : models i (a :: b) <-> zeval i a = VBool true /\ models i b.
Proof.
  unfold models. split.
  - intros H. split; [apply H; now left|]. intros e I. apply H. now right.
  - intros [H K] e [<-|I]; auto.
Qed.
Lemma models_nil i : models i [].
Proof. intros e []. Qed.


Section Facts.
  Variable m : vmessage.
  Variable n : nat.
  Variable fields : list field.
  Variable g : env.
  Hypothesis IE : int_env g.
  Local Notation i := (interp_of g).
  Local Notation s := (v_structure m).

  Lemma z_size x : zeval i (ESize x) = VInt (num g (NAttr ASize x)).
  Proof. reflexivity. Qed.

  Lemma bools_true ts : bools (map (eval_sc g) ts) = Some (map (fun _ => true) ts) ->
    forall t, In t ts -> eval_sc g t = Some (VBool true).
  Proof.
    induction ts as [|t ts IH]; intros H u I; [destruct I|]. cbn [map bools] in H.
    destruct (eval_sc g t) as [[z|b]|] eqn:E; try discriminate.
    destruct (bools (map (eval_sc g) ts)) as [bs|] eqn:B; [|discriminate]. injection H as -> ->.
    destruct I as [<-|I]; auto.
  Qed.
  Lemma allb_true ts bs : bools (map (eval_sc g) ts) = Some bs -> allb bs = true ->
    forall t, In t ts -> eval_sc g t = Some (VBool true).
  Proof.
    revert bs. induction ts as [|t ts IH]; intros bs H K u I; [destruct I|]. cbn [map bools] in H.
    destruct (eval_sc g t) as [[z|b]|] eqn:E; try discriminate.
    destruct (bools (map (eval_sc g) ts)) as [bs'|] eqn:B; [|discriminate]. injection H as <-.
    unfold allb in K. cbn [forallb] in K. apply andb_true_iff in K as [-> K].
    destruct I as [<-|I]; [exact E|]. eapply IH; eauto.
  Qed.
  Lemma sc_true ts : sc_val false (map (eval_sc g) ts) = Some (VBool true) ->
    forall t, In t ts -> eval_sc g t = Some (VBool true).
  Proof.
    induction ts as [|t ts IH]; intros H u I; [destruct I|]. cbn [map sc_val] in H.
    destruct (eval_sc g t) as [[z|b]|] eqn:E; try discriminate. destruct b; [|discriminate H]. cbn in H.
    destruct I as [<-|I]; auto.
  Qed.

  Lemma taken_zeval l : taken g l -> zeval i (condition l) = VBool true.
  Proof. intros [T E]. now apply agree. Qed.
  Lemma taken_list l : taken g l -> models i (expression_list (condition l)).
  Proof.
    intros TK. pose proof (taken_zeval l TK) as Z. destruct TK as [T E]. unfold expression_list.
    destruct (condition l) as [| | | | |o ts| |];
      try (rewrite models_cons; split; [exact Z|apply models_nil]).
    assert (X : forall (A : forall t, In t ts -> eval_sc g t = Some (VBool true)), models i ts).
    { intros A t I. apply agree; [exact IE| |auto]. cbn [tame] in T. apply fold_and_Forall in T.
      rewrite Forall_forall in T. auto. }
    destruct o; try (rewrite models_cons; split; [exact Z|apply models_nil]); apply X; cbn [eval_sc] in E.
    - cbn [ass_val] in E. destruct (bools _) as [bs|] eqn:B; [|discriminate]. injection E as E. eapply allb_true; eauto.
    - now apply sc_true.
  Qed.

  (** *** Type constraints *)

  Lemma scalar_models t f same cs : valid_number t (num g (NVar f)) -> num g (NAttr ASize f) = type_size t ->
    (forall id e v size, t = Modular id e v size -> eval_sc g e = Some (VInt v) /\ tame g e) ->
    (forall id lits size av, t = Enum id lits size av -> av = false /\
       forall k z, In (k, z) (literal_names id lits same) -> num g (NVar (var k)) = z) ->
    constraints n t f true same = Ok cs -> models i cs.
  Proof.
    intros V S M L C. destruct t as [id e v size|id f' l' size|id lits size av]; cbn [constraints] in C; apply Ok_inj in C; subst cs;
      cbn [valid_number type_size] in *.
    - destruct (M _ _ _ _ eq_refl) as [E T]. rewrite !models_cons. cbn [zeval EVar]. rewrite (agree g IE e T _ E).
      cbn [number z_name interp_of]. rewrite S. split; [f_equal; apply Z.ltb_lt; lia|]. split; [f_equal; apply Z.leb_le; lia|].
      split; [f_equal; apply Z.eqb_refl|apply models_nil].
    - rewrite !models_cons. cbn [zeval EVar number z_name interp_of]. rewrite S.
      split; [f_equal; apply Z.leb_le; lia|]. split; [f_equal; apply Z.leb_le; lia|].
      split; [f_equal; apply Z.eqb_refl|apply models_nil].
    - destruct (L _ _ _ _ eq_refl) as [-> K]. rewrite !models_app, !models_cons. split; [split; [|apply models_nil]|split].
      + cbn [zeval]. rewrite map_map. f_equal. apply existsb_exists. apply in_map_iff in V as ([k z] & E & I). cbn in E. subst z.
        assert (J : exists k', In (k', num g (NVar f)) (literal_names id lits same)).
        { assert (P : In (package id ++ k, num g (NVar f)) (map (fun kv => (package id ++ fst kv, snd kv)) lits))
            by exact (in_map (fun kv => (package id ++ fst kv, snd kv)) _ _ I).
          unfold literal_names. destruct (id_eq (package id) builtins); [eauto|]. destruct same; [exists k; apply in_or_app; auto|eauto]. }
        destruct J as [k' J].
        exists (zeval i (ERel OEq (EVar f) (EVarI (fst (k', num g (NVar f)))))). split.
        * apply (in_map (fun kv => zeval i (ERel OEq (EVar f) (EVarI (fst kv)))) _ _ J).
        * cbn [zeval EVar EVarI truth fst number z_name interp_of]. rewrite (K _ _ J). apply Z.eqb_refl.
      + intros e I. apply in_map_iff in I as ([k z] & <- & I). cbn [zeval EVar EVarI fst snd number z_name interp_of].
        rewrite (K _ _ I). f_equal. apply Z.eqb_refl.
      + cbn [zeval number z_name interp_of]. rewrite S. split; [f_equal; apply Z.eqb_refl|apply models_nil].
  Qed.

  Lemma in_unique_aux {A} (eqb : A -> A -> bool) l : forall seen x, In x (unique_aux eqb seen l) -> In x l.
  Proof.
    induction l as [|y l IH]; intros seen x I; cbn [unique_aux] in I; [destruct I|].
    destruct (existsb (eqb y) seen); [right; eapply IH; eauto|]. destruct I as [<-|I]; [now left|right; eapply IH; eauto].
  Qed.

  Lemma constraints_models tc : legal m g -> no_always_valid m -> modulus_known m ->
    type_constraints n m = Ok tc -> models i tc.
  Proof.
    intros LG NA MK H. unfold type_constraints in H. dok H sc E. apply Ok_inj in H. subst tc.
    rewrite !models_app. split; [|split].
    - rewrite !models_cons. cbn [zeval EFirst ESize number z_name interp_of]. change (8 =? 0) with false. cbv iota. unfold smt_mod. change (Z.abs 8) with 8.
      split; [|split; [|apply models_nil]]; f_equal; apply Z.eqb_eq; apply LG.
    - intros e I. apply in_concat in I as (cs & J & I). apply (mapr_In _ _ _ E) in J as ((f & t) & J & F). cbn [fst snd] in F.
      destruct t as [t| |id]; [|apply Ok_inj in F; subst; destruct I|apply Ok_inj in F; subst; destruct I].
      destruct (memf f (map var (enum_literals m)) || memf f [MESSAGE; FINAL]); [apply Ok_inj in F; subst; destruct I|].
      apply (scalar_models t f _ cs) in F; [exact (F e I)| | | |].
      + eapply lg_value; eauto.
      + eapply lg_size; eauto.
      + intros id e' v size ->. eapply MK; eauto.
      + intros id lits size av ->. destruct av; [exfalso; eapply NA; eauto|]. split; [reflexivity|].
        intros k z K. eapply lg_literal; eauto.
    - intros e I. apply in_flat_map in I as ((k & t) & J & I). cbn [fst snd] in I. destruct t as [t| |]; try (destruct I).
      + subst e. apply in_unique_aux in J. apply in_map_iff in J as ((f & t') & K & J). cbn [snd] in K. injection K as <- ->.
        cbn [zeval ESize number z_name interp_of]. f_equal. apply Z.eqb_eq. eapply lg_type; eauto.
      + destruct H.
  Qed.

  (** *** Layout *)

  Lemma starts_zeval l a : starts g l a -> zeval i (target_first l) = VInt a.
  Proof.
    unfold starts, target_first. destruct (String.eqb (source l) INITIAL).
    - intros ->. reflexivity.
    - destruct (lfirst l) as [e|].
      + intros [T E]. now apply agree.
      + intros ->. cbn. f_equal; lia.
  Qed.
  Lemma sized_zeval l z o : sized m g l z -> target_size m fields l = Ok o -> exists e, o = Some e /\ zeval i e = VInt z.
  Proof.
    unfold sized, target_size. destruct (lsize l) as [e|].
    - intros [T E] H. apply Ok_inj in H. exists e. split; [auto|]. now apply agree.
    - unfold field_size. destruct (String.eqb (target l) FINAL).
      + intros -> H. apply Ok_inj in H. subst o. eexists. split; reflexivity.
      + intros (t & L & ->) H. destruct (memf (target l) fields); cbn [negb] in H; [|discriminate].
        rewrite L in H. apply Ok_inj in H. subst o. eexists. split; reflexivity.
  Qed.
  Lemma last_zeval first size a z : zeval i first = VInt a -> zeval i size = VInt z ->
    zeval i (last_expr first size) = VInt (a + z - 1).
  Proof. intros A B. cbn [last_expr zeval map]. rewrite A, B. cbn [sumZ map fold_right number]. f_equal. lia. Qed.
  Lemma target_last_zeval l a z e : starts g l a -> sized m g l z -> target_last m fields l = Ok e -> zeval i e = VInt (a + z - 1).
  Proof.
    intros A Z H. unfold target_last in H. dok H o E. destruct (sized_zeval l z o Z E) as (e' & -> & E'). cbn in H.
    apply Ok_inj in H. subst e. apply last_zeval; [now apply starts_zeval|exact E'].
  Qed.

  Lemma link_models l fs : laid m g l -> bounds g -> link_expression m fields l = Ok fs -> models i fs.
  Proof.
    intros (TK & ST & SZ & LA & LE) [[B1 B2] B3] H. unfold link_expression in H. dok H o E. apply Ok_inj in H. subst fs.
    destruct (sized_zeval l _ o SZ E) as (e & -> & Z). rewrite !models_app. split; [|split; [|split]].
    - rewrite models_cons. split; [|apply models_nil]. cbn [zeval]. rewrite (starts_zeval l _ ST). cbn [number z_name interp_of EFirst zeval].
      f_equal. apply Z.eqb_refl.
    - rewrite !models_cons. cbn [zeval ESize ELast]. rewrite Z, (last_zeval _ _ _ _ (starts_zeval l _ ST) Z). cbn [number z_name interp_of].
      split; [f_equal; apply Z.eqb_refl|]. split; [f_equal; now apply Z.eqb_eq|apply models_nil].
    - rewrite !models_cons. cbn [zeval ESize ELast EFirst number z_name interp_of map sumZ fold_right].
      split; [f_equal; apply Z.leb_le; lia|]. split; [f_equal; apply Z.leb_le; lia|]. split; [f_equal; apply Z.leb_le; lia|].
      split; [f_equal; apply Z.eqb_eq; rewrite B3; lia|apply models_nil].
    - now apply taken_list.
  Qed.
  Lemma path_models p fs : (forall l, In l p -> laid m g l) -> bounds g -> path_facts m fields p = Ok fs -> models i fs.
  Proof.
    intros L B H. unfold path_facts in H. dok H ls E. apply Ok_inj in H. subst fs. intros e I.
    apply in_concat in I as (fs & J & I). apply (mapr_In _ _ _ E) in J as (l & J & F).
    exact (link_models l fs (L l J) B F e I).
  Qed.
  (** the message goes on behind [f] *)
  Lemma reached_models f p fs c : (forall l, In l p -> laid m g l) -> bounds g ->
    f = FINAL \/ (In c s /\ source c = f /\ taken g c) ->
    reached_facts m fields f p = Ok fs -> models i fs.
  Proof.
    intros L B C H. unfold reached_facts in H. dok H ps E. apply Ok_inj in H. subst fs. rewrite models_app.
    split; [eapply path_models; eauto|]. destruct (String.eqb_spec f FINAL) as [|N]; [apply models_nil|].
    destruct C as [|(I & S & T)]; [contradiction|].
    destruct (outgoing s f) as [|o out] eqn:O; [apply models_nil|]. rewrite models_cons. split; [|apply models_nil].
    assert (IO : In c (o :: out)). { rewrite <- O. apply filter_In. split; [exact I|]. rewrite S. apply String.eqb_refl. }
    clear -IO T IE. cbn [zeval]. f_equal. apply existsb_exists. exists (zeval i (condition c)). split.
    - apply (in_map (zeval i)), in_map, IO.
    - rewrite (taken_zeval c T). reflexivity.
  Qed.
End Facts.
