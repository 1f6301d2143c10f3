(** C45: in an accepted message every field can occur; C46: overlays.  Cases that meet
    the hypotheses are in P_VerifyCases.v. *)
From Coq Require Import String List ZArith Bool Lia.
From Verif Require Import Base Expr ExprEval ExprFacts ExprTotal Ident P_IdentErrors TypeSpec MsgGraph MsgGraphFacts P_MsgGraph Solver SolverFacts Verify VerifySpec VerifyFacts GenSpec GenFacts P_Verify.
Import ListNotations.
Local Open Scope string_scope.
Local Open Scope list_scope.
Local Open Scope Z_scope.
Local Open Scope res_scope.
Local Notation length := List.length.

(** expressions of which z3 and the generated code have the same idea *)
Definition plain_int (e : expr) : Prop := plain e = Some ZInt.
Definition plain_bool (e : expr) : Prop := plain e = Some ZBool.
Record plain_message (m : vmessage) : Prop := {
  pl_condition : forall l, In l (v_structure m) -> plain_bool (condition l);
  pl_size : forall l e, In l (v_structure m) -> lsize l = Some e -> plain_int e;
  pl_first : forall l e, In l (v_structure m) -> lfirst l = Some e -> plain_int e;
  pl_modulus : forall f id e v size, In (f, MScalar (Modular id e v size)) (v_types m) -> plain_int e
}.

(** the identifier by which a type is known in a message *)
Definition type_key (t : mtype) : ident :=
  if id_eq (package (mtype_id t)) builtins then [last (mtype_id t) ""] else mtype_id t.

(** what holds of the types of every message: one type per identifier, literals of
    enumerations fit into their size; no field is called Message or Final *)
Record sane (m : vmessage) : Prop := {
  sn_types : forall f1 t1 f2 t2, In (f1, t1) (v_types m) -> In (f2, t2) (v_types m) ->
    id_eq (type_key t1) (type_key t2) = true -> t1 = t2;
  sn_literals : forall f id lits size, In (f, MScalar (Enum id lits size true)) (v_types m) ->
    forall v, In v (map snd lits) -> 0 <= v < 2 ^ size;
  sn_names : forall f t, In (f, t) (v_types m) -> f <> MESSAGE /\ f <> FINAL;
  sn_final : forall l, In l (v_structure m) -> source l <> FINAL
}.

Lemma plain_tame g e : forall k, plain e = Some k -> tame g e.
Proof.
  induction e as [| |v0|n0 s0|e IHe|o ts IHts|o e1 e2 IHe1 IHe2|o e1 e2 IHe1 IHe2] using expr_ind';
    intros k P; cbn [plain tame] in *; auto.
  - destruct (plain e) as [[]|]; try discriminate. eapply IHe; eauto.
  - destruct (forallb _ ts) eqn:B in P; [|discriminate]. apply fold_and_Forall. rewrite Forall_forall in *.
    rewrite forallb_forall in B. intros e I. specialize (B e I). destruct (plain e) eqn:E; [|discriminate]. eapply IHts; eauto.
  - destruct (plain e1) as [[]|]; try discriminate. destruct (plain e2) as [[]|]; try discriminate.
    split; [eapply IHe1; eauto|]. split; [eapply IHe2; eauto|].
    destruct o; try discriminate; auto; destruct e2; try discriminate; destruct (Z.ltb_spec 0 v); try discriminate.
    intros y E. cbn in E. injection E as <-. lia.
  - destruct (plain e1) as [[]|]; try discriminate. destruct (plain e2) as [[]|]; try discriminate.
    split; [eapply IHe1|eapply IHe2]; eauto.
Qed.
Lemma plain_int_back i e : plain_int e -> exists z, zeval i e = VInt z /\ tame (env_of_interp i) e /\ eval_sc (env_of_interp i) e = Some (VInt z).
Proof.
  intros P. destruct (back i e _ P) as [E K]. destruct (zeval i e) as [z|]; [|destruct K].
  exists z. split; [reflexivity|]. split; [eapply plain_tame; exact P|exact E].
Qed.

Section Back.
  Context (m : vmessage) (n : nat) (fields : list field) (i : interp).
  Context (PL : plain_message m) (MK : modulus_known m) (SA : sane m).
  Local Notation g := (env_of_interp i).
  Local Notation s := (v_structure m).

  Lemma num_name x : num g x = z_name i x.
  Proof. reflexivity. Qed.

  Lemma rel_eq a b : zeval i (ERel OEq a b) = VBool true -> number (zeval i a) = number (zeval i b).
  Proof. cbn [zeval]. intros H. injection H as H. now apply Z.eqb_eq. Qed.
  Lemma rel_ge a b : zeval i (ERel OGe a b) = VBool true -> number (zeval i b) <= number (zeval i a).
  Proof. cbn [zeval]. intros H. injection H as H. now apply Z.leb_le. Qed.
  Lemma rel_le a b : zeval i (ERel OLe a b) = VBool true -> number (zeval i a) <= number (zeval i b).
  Proof. cbn [zeval]. intros H. injection H as H. now apply Z.leb_le. Qed.
  Lemma rel_lt a b : zeval i (ERel OLt a b) = VBool true -> number (zeval i a) < number (zeval i b).
  Proof. cbn [zeval]. intros H. injection H as H. now apply Z.ltb_lt. Qed.

  Lemma taken_back l : In l s -> zeval i (condition l) = VBool true -> taken g l.
  Proof.
    intros I Z. pose proof (pl_condition _ PL l I) as P. split; [eapply plain_tame; exact P|].
    destruct (back i _ _ P) as [E _]. now rewrite E, Z.
  Qed.
  Lemma list_back l : In l s -> models i (expression_list (condition l)) -> zeval i (condition l) = VBool true.
  Proof.
    intros I M. unfold expression_list in M. 
    assert (X : forall ts, models i ts -> forallb truth (map (zeval i) ts) = true).
    { intros ts H. apply forallb_forall. intros v J. apply in_map_iff in J as (e & <- & J). now rewrite (H e J). }
    destruct (condition l) as [| | | | |o ts| |] eqn:E; try (apply M; now left).
    destruct o; try (apply M; now left); cbn [zeval]; now rewrite (X ts M).
  Qed.

  Lemma starts_back l z : In l s -> number (zeval i (target_first l)) = z -> starts g l z.
  Proof.
    intros I E. unfold starts. unfold target_first in E.
    destruct (String.eqb (source l) INITIAL); [subst z; reflexivity|].
    destruct (lfirst l) as [e|] eqn:LF.
    - destruct (plain_int_back i e (pl_first _ PL l e I LF)) as (y & Z & T & EV). rewrite Z in E. cbn in E. subst y. auto.
    - cbn in E. subst z. cbn. lia.
  Qed.

  Lemma link_back l fs : In l s -> In (source l) (INITIAL :: fields) -> verify_expressions m fields = [] ->
    link_expression m fields l = Ok fs -> models i fs -> laid m g l /\ bounds g.
  Proof.
    intros I SF VE H M. unfold link_expression in H. dok H o TS. apply Ok_inj in H. subst fs.
    rewrite !models_app in M. destruct M as (M1 & M2 & M3 & M4).
    rewrite models_cons in M1. destruct M1 as [M1 _]. apply rel_eq in M1.
    rewrite !models_cons in M3. destruct M3 as (B1 & B2 & B3 & B4 & _).
    apply rel_ge in B1, B2, B3. apply rel_eq in B4. cbn in B1, B2, B3, B4.
    assert (LN : (target l = FINAL /\ lsize l = None) \/ (exists e, lsize l = Some e) \/
                 (target l <> FINAL /\ exists t, lookup (v_types m) (target l) = Some (MScalar t)) \/
                 (lookup (v_types m) (target l) = None /\ target l <> FINAL)).
    { unfold verify_expressions in VE.
      assert (CS : check_size_expression m l = []).
      { assert (X : forall A B (f : A -> list B) ls, flat_map f ls = [] -> forall a, In a ls -> f a = []).
        { intros A B f ls. induction ls as [|a ls IH]; cbn; intros HH a' J; [destruct J|].
          apply app_eq_nil in HH as [H1 H2]. destruct J as [<-|J]; auto. }
        pose proof (X _ _ _ _ VE _ SF) as Y. cbn beta in Y.
        assert (O : In l (outgoing s (source l))) by (apply filter_In; split; [exact I|apply String.eqb_refl]).
        pose proof (X _ _ _ _ Y _ O) as W. cbn beta in W. apply app_eq_nil in W as [_ W]. now apply app_eq_nil in W as [_ W]. }
      unfold check_size_expression in CS. apply app_eq_nil in CS as [C1 C2].
      destruct (String.eqb_spec (target l) FINAL) as [E|NE].
      - left. destruct (lsize l); [discriminate C1|auto].
      - right. destruct (lsize l) as [e|]; [left; eauto|right]. destruct (lookup (v_types m) (target l)) as [t|] eqn:LK; [|auto].
        left. split; [exact NE|]. destruct t; [eauto|discriminate C2|discriminate C2]. }
    assert (SZ : exists e z, o = Some e /\ zeval i e = VInt z /\ sized m g l z).
    { unfold target_size in TS. unfold sized. destruct (lsize l) as [e|] eqn:LS.
      - apply Ok_inj in TS. destruct (plain_int_back i e (pl_size _ PL l e I LS)) as (z & Z & T & EV). exists e, z. auto.
      - unfold field_size in TS. destruct (String.eqb_spec (target l) FINAL) as [E|NE].
        + apply Ok_inj in TS. eexists _, 0. split; [symmetry; exact TS|]. split; reflexivity.
        + destruct (memf (target l) fields); cbn [negb] in TS; [|discriminate].
          destruct LN as [[E _]|[(e & E)|[(_ & t & LK)|(LK & _)]]]; [contradiction|discriminate| |rewrite LK in TS; discriminate].
          rewrite LK in TS. apply Ok_inj in TS. exists (ENum (type_size t)), (type_size t). split; [now symmetry|]. split; [reflexivity|eauto]. }
    destruct SZ as (e & z & -> & Z & SZ). rewrite !models_cons in M2. destruct M2 as (S1 & S2 & _).
    apply rel_eq in S1, S2. rewrite Z in S1. cbn [number ESize zeval] in S1.
    cbn [last_expr zeval ELast number map] in S2. rewrite Z in S2. cbn [number] in S2.
    cbn [EFirst zeval number] in M1. rewrite <- M1 in S2. cbn in S2.
    split.
    - split; [apply taken_back; [exact I|now apply list_back]|]. unfold num, env_of_interp; cbn [number].
      split; [apply starts_back; auto|]. rewrite S1. split; [exact SZ|]. split; lia.
    - unfold bounds, num, env_of_interp; cbn [number]. lia.
  Qed.
  Lemma path_back p fs : (forall l, In l p -> In l s /\ In (source l) (INITIAL :: fields)) -> verify_expressions m fields = [] ->
    path_facts m fields p = Ok fs -> models i fs -> forall l, In l p -> laid m g l /\ bounds g.
  Proof.
    intros IN VE H M l I. unfold path_facts in H. dok H ls E. apply Ok_inj in H. subst fs.
    destruct (mapr_each _ _ _ E l I) as (y & F & J). destruct (IN l I). eapply link_back; eauto.
    intros e K. apply M. apply in_concat. eauto.
  Qed.

  Lemma scalar_back t f same cs : In (f, MScalar t) (v_types m) -> constraints n t f true same = Ok cs -> models i cs ->
    valid_number t (num g (NVar f)) /\ num g (NAttr ASize f) = type_size t /\
    (forall id lits size av, t = Enum id lits size av -> forall k z, In (k, z) (literal_names id lits same) -> num g (NVar (var k)) = z).
  Proof.
    intros I C M. destruct t as [id e v size|id f' l' size|id lits size av]; cbn [constraints] in C; apply Ok_inj in C; subst cs;
      cbn [valid_number type_size].
    - rewrite !models_cons in M. destruct M as (M1 & M2 & M3 & _). apply rel_lt in M1. apply rel_ge in M2. apply rel_eq in M3.
      destruct (plain_int_back i e (pl_modulus _ PL _ _ _ _ _ I)) as (z & Z & T & EV).
      destruct (MK _ _ _ _ _ I g) as [EV' _]. rewrite EV in EV'. injection EV' as ->. rewrite Z in M1. cbn in M1, M2, M3.
      rewrite !num_name. split; [lia|]. split; [exact M3|]. discriminate.
    - rewrite !models_cons in M. destruct M as (M1 & M2 & M3 & _). apply rel_ge in M1. apply rel_le in M2. apply rel_eq in M3.
      cbn in M1, M2, M3. rewrite !num_name. split; [lia|]. split; [exact M3|]. discriminate.
    - rewrite !models_app, !models_cons in M. destruct M as ((M1 & _) & M2 & M3 & _). apply rel_eq in M3. cbn in M3.
      assert (K : forall k z, In (k, z) (literal_names id lits same) -> num g (NVar (var k)) = z).
      { intros k z J. specialize (M2 _ (in_map (fun kv => ERel OEq (EVarI (fst kv)) (ENum (snd kv))) _ _ J)).
        apply rel_eq in M2. exact M2. }
      split; [|split; [exact M3|]].
      + cbn [zeval] in M1. injection M1 as M1. apply existsb_exists in M1 as (v & J & TV).
        rewrite map_map in J. apply in_map_iff in J as ([k z] & <- & J). cbn [fst zeval truth EVar EVarI number] in TV.
        apply Z.eqb_eq in TV. rewrite num_name, TV. specialize (K k z J). rewrite num_name in K. cbn in K. unfold var in *. rewrite K.
        assert (IZ : In z (map snd lits)).
        { assert (P : forall k z, In (k, z) (map (fun kv => (package id ++ fst kv, snd kv)) lits) -> In z (map snd lits)).
          { intros k' z' J'. apply in_map_iff in J' as ([a b] & E & J'). cbn in E. injection E as _ <-. change b with (snd (a, b)). now apply in_map. }
          assert (P' : forall k z, In (k, z) lits -> In z (map snd lits)).
          { intros k' z' J'. change z' with (snd (k', z')). now apply in_map. }
          unfold literal_names in J. destruct (id_eq (package id) builtins); [eapply P'; eauto|].
          destruct same; [apply in_app_or in J as [J|J]|]; [eapply P'|eapply P|eapply P]; eauto. }
        destruct av; [eapply sn_literals; eauto|exact IZ].
      + intros id' lits' size' av' E. injection E as <- <- <- <-. exact K.
  Qed.

  Lemma constraints_back tc : (forall f, In f (map fst (v_types m)) -> memf f (map var (enum_literals m)) = false) ->
    type_constraints n m = Ok tc -> models i tc -> legal m g.
  Proof.
    intros NL H M. unfold type_constraints in H. dok H sc E. apply Ok_inj in H. subst tc.
    rewrite !models_app in M. destruct M as (M1 & M2 & M3).
    assert (X : forall f t, In (f, MScalar t) (v_types m) -> exists cs,
      constraints n t f true (id_eq (v_package m) (package (type_id t))) = Ok cs /\ models i cs).
    { intros f t I. destruct (mapr_each _ _ _ E _ I) as (cs & F & J). cbn [fst snd] in F.
      rewrite NL in F by (change f with (fst (f, MScalar t)); now apply in_map).
      destruct (sn_names _ SA _ _ I) as [N1 N2]. unfold memf in F. cbn [existsb] in F.
      apply String.eqb_neq in N1, N2. rewrite N1, N2 in F. cbn [orb] in F. exists cs. split; [exact F|].
      intros e K. apply M2. apply in_concat. eauto. }
    constructor.
    - apply env_of_interp_int.
    - intros f t I. destruct (X f t I) as (cs & F & MM). eapply scalar_back; eauto.
    - intros f t I. destruct (X f t I) as (cs & F & MM). eapply scalar_back; eauto.
    - intros f id lits size av k z I J. destruct (X f _ I) as (cs & F & MM). cbn [type_id] in F.
      eapply (scalar_back _ _ _ _ I F MM); eauto.
    - intros f t I.
      assert (U : forall l seen x, In x l -> (exists y, In y seen /\ id_eq (fst x) (fst y) = true) \/
        exists y, In y (unique_aux (fun a b : ident * mtype => id_eq (fst a) (fst b)) seen l) /\ id_eq (fst x) (fst y) = true).
      { clear. induction l as [|a l IH]; intros seen x J; [destruct J|]. cbn [unique_aux].
        match goal with |- context [existsb ?f seen] => destruct (existsb f seen) eqn:EX end.
        - destruct J as [E|J]; [subst a|auto]. left. apply existsb_exists in EX as (y & K & Q). eauto.
        - destruct J as [E|J]; [subst a; right; exists x; split; [now left|apply (proj1 C35_equivalence)]|].
          destruct (IH (a :: seen) x J) as [(y & [K|K] & Q)|(y & K & Q)].
          + subst y. right. exists a. split; [now left|exact Q].
          + left. eauto.
          + right. exists y. split; [now right|exact Q]. }
      set (key := fun kv : field * mtype => (type_key (snd kv), snd kv)).
      destruct (U (map key (v_types m)) [] (key (f, MScalar t)) (in_map key _ _ I)) as [(y & [] & _)|(y & K & Q)].
      pose proof (in_unique_aux _ _ _ _ K) as K'. apply in_map_iff in K' as ([f' t'] & <- & K'). cbn [key fst snd] in Q, K.
      pose proof (sn_types _ SA _ _ _ _ I K' Q) as ET. subst t'.
      assert (Z : zeval i (ERel OEq (ESize (var (type_key (MScalar t)))) (ENum (type_size t))) = VBool true).
      { apply M3. apply in_flat_map. exists (key (f', MScalar t)). split; [exact K|now left]. }
      apply rel_eq in Z. exact Z.
    - exact (rel_eq _ _ (M1 (ERel OEq (EBin OMod (EFirst MESSAGE) (ENum 8)) (ENum 1)) (or_introl eq_refl))).
    - exact (rel_eq _ _ (M1 (ERel OEq (EBin OMod (ESize MESSAGE) (ENum 8)) (ENum 0)) (or_intror (or_introl eq_refl)))).
  Qed.
End Back.

Lemma has_final_outgoing m k f : has_final m k f = Ok true -> f <> FINAL -> outgoing (v_structure m) f <> [].
Proof.
  intros H N E. destruct k as [|k]; cbn [has_final] in H; destruct (String.eqb_spec f FINAL); try contradiction; try discriminate.
  rewrite E in H. discriminate.
Qed.
Lemma literal_free n m fields : construct n (graph m) = Ok ([], fields) -> v_structure m <> [] ->
  forall f, In f (map fst (v_types m)) -> memf f (map var (enum_literals m)) = false.
Proof.
  intros C Ne f I. destruct (accepted _ (graph m) _ Ne C) as (_ & _ & _ & _ & _ & _ & _ & _ & V1 & _).
  unfold validate_first in V1. cbn [graph structure type_fields enum_names] in V1.
  destruct (outgoing (v_structure m) INITIAL) as [|l t]; [discriminate|]. apply Ok_inj in V1.
  apply app_eq_nil in V1 as [_ V1]. apply app_eq_nil in V1 as [_ V1]. apply app_eq_nil in V1 as [_ V1]. apply app_eq_nil in V1 as [_ V1].
  apply err_if_nil in V1. destruct (memf f (map var (enum_literals m))) eqn:M; [|reflexivity].
  rewrite <- V1. symmetry. apply existsb_exists. exists f. split; [apply in_or_app; auto|exact M].
Qed.

Theorem C45_occurs : forall solve n m fields f,
  sound_sat solve -> Message solve n m = Ok [] -> construct n (graph m) = Ok ([], fields) ->
  (length (v_structure m) < n)%nat -> plain_message m -> modulus_known m -> sane m -> In f fields ->
  exists g p c, leads (v_structure m) INITIAL p f /\ p <> [] /\ (forall l, In l p -> laid m g l) /\ bounds g /\ legal m g /\
    In c (v_structure m) /\ source c = f /\ taken g c.
Proof.
  intros solve n m fields f SS A C FU PL MK SA IF.
  destruct (C22_fields _ _ _ C) as (_ & X & _ & RE). cbn [graph structure] in X, RE.
  pose proof (proj1 (X f) IF) as (NI & NF & l0 & I0 & _).
  assert (Ne : v_structure m <> []) by (intros E; rewrite E in I0; destruct I0).
  pose proof (verified solve n m fields A C Ne) as V.
  destruct (verify_accepted _ _ _ _ V) as (VE & _ & PR & PC & _).
  assert (OUT : outgoing (v_structure m) f <> []).
  { unfold prove_reachability in PR. dok PR e1 E1. dok PR e2 E2. apply Ok_inj in PR. apply app_eq_nil in PR as [-> _].
    pose proof (all_errors_nil _ E1 _ (in_map _ _ _ (in_cons INITIAL _ _ IF))) as H. cbn beta in H. dok H b HF. apply Ok_inj in H.
    destruct b; [|discriminate]. eapply has_final_outgoing; eauto. }
  unfold prove_contradictions in PC. pose proof (all_errors_nil _ PC _ (in_map _ _ _ (in_cons INITIAL _ _ IF))) as H. cbn beta in H.
  destruct (path_list n m fields C FU f) as (ps & PS & PI). rewrite PS in H. cbn [bind] in H. dok H bs SB.
  apply sequence_ok in SB.
  assert (FB : exists p c, In p ps /\ In c (outgoing (v_structure m) f) /\ contradicted solve n m fields p c = Ok false).
  { assert (NB : bs <> []).
    { intros ->. destruct (RE f IF) as (p & L). assert (IP : In p ps).
      { apply PI. split; [|exact L]. intros ->. cbn in L. congruence. }
      destruct (outgoing (v_structure m) f) as [|c out] eqn:O; [congruence|].
      assert (J : In (contradicted solve n m fields p c) (flat_map (fun p0 => map (contradicted solve n m fields p0) (c :: out)) ps)).
      { apply in_flat_map. exists p. split; [exact IP|now left]. }
      rewrite SB in J. destruct J. }
    apply Ok_inj in H. destruct (forallb (fun b => b) bs) eqn:FA; [destruct bs; [congruence|discriminate]|].
    assert (J : In false bs).
    { clear -FA. induction bs as [|b bs IH]; [discriminate|]. cbn in FA. destruct b; [right; auto|now left]. }
    apply (in_map Ok) in J. rewrite <- SB in J. apply in_flat_map in J as (p & IP & J).
    apply in_map_iff in J as (c & E & J). eauto. }
  destruct FB as (p & c & IP & IC & CO). unfold contradicted in CO. dok CO facts PF. dok CO tc TC. dok CO a E.
  apply check_answer in E. destruct a; [|discriminate CO|discriminate CO]. symmetry in E.
  apply PI in IP as [NP L]. apply filter_In in IC as [IC SC]. apply String.eqb_eq in SC.
  destruct (SS _ E) as (i & M). rewrite models_cons, models_app in M. destruct M as (M1 & M2 & M3).
  assert (IN : forall l, In l p -> In l (v_structure m) /\ In (source l) (INITIAL :: fields)).
  { intros l I. pose proof (leads_in _ _ _ _ L l I) as J. split; [exact J|]. eapply source_field; eauto. apply (sn_final _ SA l J). }
  pose proof (path_back m fields i PL p facts IN VE PF M3) as LB.
  exists (env_of_interp i), p, c. split; [exact L|]. split; [exact NP|]. split; [intros l I; apply LB, I|].
  split; [destruct p as [|l p]; [congruence|apply (LB l); now left]|].
  split; [exact (constraints_back m n i PL MK SA tc (literal_free _ _ _ C Ne) TC M2)|].
  split; [exact IC|]. split; [exact SC|]. now apply (taken_back m).
Qed.

(** the whole message can occur *)
Theorem C45_complete : forall solve n m fields,
  sound_sat solve -> Message solve n m = Ok [] -> construct n (graph m) = Ok ([], fields) ->
  (length (v_structure m) < n)%nat -> plain_message m -> modulus_known m -> sane m -> fields <> [] ->
  exists g p, leads (v_structure m) INITIAL p FINAL /\ p <> [] /\ along m g p /\ bounds g /\ legal m g.
Proof.
  intros solve n m fields SS A C FU PL MK SA NE. destruct (exists_last NE) as (r & f & E).
  assert (IF : In f fields) by (rewrite E; apply in_or_app; right; now left).
  destruct (C45_occurs solve n m fields f SS A C FU PL MK SA IF) as (g & p & c & L & NP & LA & B & LG & IC & SC & TC).
  destruct (C22_fields _ _ _ C) as (ND & X & _). cbn [graph structure] in X.
  pose proof (proj1 (X f) IF) as (NI & NF & _).
  assert (T : target c = FINAL).
  { destruct (String.string_dec (target c) FINAL) as [|NT]; [assumption|exfalso].
    destruct (C22_order _ _ _ c C IC) as (a & b & d & E'); [congruence|congruence|congruence|].
    rewrite SC in E'. rewrite E in E', ND.
    assert (NIN : ~ In f r). { apply NoDup_remove_2 in ND. rewrite app_nil_r in ND. exact ND. }
    assert (Y : In f r).
    { clear -E'. revert r E'. induction a as [|y a IH]; intros r E'.
      - destruct r as [|z r]; cbn in E'; [|injection E' as -> _; now left].
        injection E' as E'. destruct b; discriminate.
      - destruct r as [|z r]; cbn in E'; [destruct a; discriminate|]. injection E' as -> E'. right. eauto. }
    contradiction. }
  exists g, (p ++ [c]). split; [|split; [|split]].
  - eapply leads_app; [exact L|]. cbn. auto.
  - destruct p; discriminate.
  - split; [rewrite removelast_last; exact LA|]. intros l I. apply in_app_or in I as [I|[<-|[]]]; [apply LA, I|exact TC].
  - auto.
Qed.
Print Assumptions C45_occurs.
Print Assumptions C45_complete.

(** C46: a field that overlays another one can end where that one ends, on every path
    that leads to it *)
Theorem C46_congruent : forall solve n m fields f p l x neg,
  sound_sat solve -> Message solve n m = Ok [] -> construct n (graph m) = Ok ([], fields) ->
  (length (v_structure m) < n)%nat -> plain_message m -> sane m -> In f fields ->
  leads (v_structure m) INITIAL (p ++ [l]) f -> lfirst l = Some (EName (NAttr AFirst x) neg) ->
  exists g, int_env g /\ (forall k, In k (p ++ [l]) -> laid m g k) /\ bounds g /\
    num g (NAttr ALast f) = num g (NAttr ALast x).
Proof.
  intros solve n m fields f p l x neg SS A C FU PL SA IF L LF.
  destruct (C22_fields _ _ _ C) as (_ & X & _). cbn [graph structure] in X.
  pose proof (proj1 (X f) IF) as (NI & NF & l0 & I0 & _).
  assert (Ne : v_structure m <> []) by (intros E; rewrite E in I0; destruct I0).
  pose proof (verified solve n m fields A C Ne) as V.
  destruct (verify_accepted _ _ _ _ V) as (VE & _ & _ & _ & _ & PO & _).
  unfold prove_overlays in PO. pose proof (all_errors_nil _ PO _ (in_map _ _ _ (in_cons INITIAL _ _ IF))) as H. cbn beta in H.
  destruct (path_list n m fields C FU f) as (ps & PS & PI). rewrite PS in H. cbn [bind] in H.
  assert (IP : In (p ++ [l]) ps) by (apply PI; split; [destruct p; discriminate|exact L]).
  pose proof (all_errors_nil _ H _ (in_map _ _ _ IP)) as O. unfold overlay in O. rewrite rev_app_distr in O. cbn [rev app] in O.
  rewrite LF in O. dok O facts PF. dok O la TL. dok O a E. apply check_answer in E.
  destruct a; [|discriminate O|discriminate O]. symmetry in E.
  destruct (SS _ E) as (i & M). rewrite models_cons in M. destruct M as [M1 M2].
  assert (IN : forall k, In k (p ++ [l]) -> In k (v_structure m) /\ In (source k) (INITIAL :: fields)).
  { intros k I. pose proof (leads_in _ _ _ _ L k I) as J. split; [exact J|]. eapply source_field; eauto. apply (sn_final _ SA k J). }
  pose proof (path_back m fields i PL _ facts IN VE PF M2) as LB.
  assert (IL : In l (p ++ [l])) by (apply in_or_app; right; now left).
  destruct (leads_last m (p ++ [l]) f l (rev p) L) as [_ T]; [now rewrite rev_app_distr|].
  exists (env_of_interp i). split; [apply env_of_interp_int|]. split; [intros k I; apply LB, I|]. split; [apply (LB l IL)|].
  apply rel_eq in M1. cbn [ELast zeval number] in M1. unfold num, env_of_interp. cbn [number]. rewrite <- M1.
  destruct (LB l IL) as [(_ & ST & SZ & LA & _) _]. rewrite T in *.
  pose proof (target_last_zeval m fields (env_of_interp i) (env_of_interp_int i) l _ _ la ST SZ TL) as Z.
  assert (ZE : zeval i la = zeval (interp_of (env_of_interp i)) la).
  { unfold target_last in TL. dok TL o TS. unfold needed in TL. destruct o as [e|]; [|discriminate]. apply Ok_inj in TL. subst la.
    assert (E1 : zeval i (target_first l) = zeval (interp_of (env_of_interp i)) (target_first l)).
    { unfold target_first. destruct (String.eqb (source l) INITIAL); [reflexivity|]. rewrite LF. reflexivity. }
    assert (E2 : zeval i e = zeval (interp_of (env_of_interp i)) e).
    { unfold target_size in TS. destruct (lsize l) as [e'|] eqn:LS.
      - apply Ok_inj in TS. injection TS as ->. destruct (plain_int_back i e (pl_size _ PL l e (proj1 (IN l IL)) LS)) as (z & Z' & T' & EV).
        rewrite Z'. symmetry. apply agree; [apply env_of_interp_int|exact T'|exact EV].
      - unfold field_size in TS. destruct (String.eqb (target l) FINAL); [apply Ok_inj in TS; injection TS as <-; reflexivity|].
        destruct (memf (target l) fields); cbn [negb] in TS; [|discriminate].
        destruct (lookup (v_types m) (target l)) as [[t| |]|]; [|discriminate|discriminate|discriminate].
        apply Ok_inj in TS. injection TS as <-. reflexivity. }
    cbn [last_expr zeval map]. now rewrite E1, E2. }
  rewrite ZE, Z. cbn [number]. unfold num, env_of_interp in LA. cbn [number] in LA. exact LA.
Qed.
Print Assumptions C46_congruent.
