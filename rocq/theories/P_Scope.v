(** C47: the expressions of an accepted message are well-typed on every path that some
    message can take *)
From Coq Require Import String List ZArith Bool Lia.
From Verif Require Import Base Expr ExprEval ExprFacts ExprTotal Ident P_IdentErrors TypeSpec MsgGraph MsgGraphFacts P_MsgGraph Solver SolverFacts Verify VerifySpec VerifyFacts GenSpec GenFacts P_Verify P_Occur P_Reach.
From Verif Require Import ExprType P_ExprType.
From Verif Require Typing P_VerifyCases P_Verified.
Import ListNotations.
Local Open Scope string_scope.
Local Open Scope list_scope.
Local Open Scope Z_scope.
Local Open Scope res_scope.
Local Notation length := List.length.
Local Notation TUndefined := Typing.TUndefined.
Local Notation TAny := Typing.TAny.

(** the type of a field in expressions: numbers by name and range, enumerations by name *)
Definition field_type (t : mtype) : Typing.ty :=
  match t with
  | MScalar (Modular id _ modulus _) => Typing.TInteger (id_str id) (Typing.known 0 (modulus - 1))
  | MScalar (Range id f l _) => Typing.TInteger (id_str id) (Typing.known f l)
  | MScalar (Enum id _ _ _) => Typing.TEnumeration (id_str id)
  | MOpaque => Typing.OPAQUE
  | MArray id => Typing.TArray (id_str id) TAny
  end.

(** what a name may refer to behind the fields [seen] *)
Definition known_name (m : vmessage) (seen : list field) (x : string) : Prop :=
  x = MESSAGE \/ In x seen \/ In x (map var (enum_literals m)) \/ exists f t, In (f, t) (v_types m) /\ x = var (type_key t).
(** [G] gives the fields [seen] the types of the message and no type to unknown names *)
Definition typing_of (m : vmessage) (seen : list field) (G : tenv) : Prop :=
  (forall f t, In f seen -> f <> MESSAGE -> lookup (v_types m) f = Some t -> G f = field_type t) /\
  (forall x, G x <> TUndefined -> known_name m seen x) /\
  (forall x, G x <> TAny).
(** the assignment [g] takes all links of [p], with the sizes given there *)
Definition feasible (g : env) (p : list link) : Prop :=
  forall l, In l p -> taken g l /\ forall e, lsize l = Some e -> tame g e /\ eval_sc g e = Some (VInt (num g (NAttr ASize (target l)))).

Lemma enum_literal_names m : map fst (enum_literal_types m) = map var (enum_literals m).
Proof.
  unfold enum_literal_types, enum_literals. induction (v_types m) as [|[f t] d IH]; [reflexivity|]. cbn [flat_map snd].
  rewrite !map_app, IH. f_equal. destruct t as [sc| |]; try reflexivity. destruct sc as [| |id lits size av]; try reflexivity.
  generalize (rtype (MScalar (Enum id lits size av))). intros rt.
  induction lits as [|l lits IHl]; [reflexivity|]. cbn [flat_map]. rewrite !map_app, IHl. f_equal.
  destruct (id_eq (package id) builtins || id_eq (package id) (v_package m)), (id_eq (package id) builtins); reflexivity.
Qed.
Lemma rtype_not_any t : rtype t <> TAny.
Proof. destruct t as [[]| |]; discriminate. Qed.
Lemma rtype_field t : rtype t = field_type t.
Proof. destruct t as [[]| |]; reflexivity. Qed.
Lemma variable_types m seen : (forall f, In f seen -> In f (map fst (v_types m))) -> typing_of m seen (typed_variable m seen).
Proof.
  intros SN. assert (EL : forall k t, In (k, t) (enum_literal_types m) -> t <> TAny).
  { intros k t H. unfold enum_literal_types in H. apply in_flat_map in H as ([f ft] & _ & H). cbn [snd] in H.
    destruct ft as [[| |id lits size av]| |]; try destruct H. apply in_flat_map in H as (l & _ & H). apply in_app_or in H as [H|H];
      (destruct (_ : bool) in H; [destruct H as [H|[]]; injection H as _ <-; discriminate|destruct H]) ||
      (destruct (_ : bool) in H; [destruct H|destruct H as [H|[]]; injection H as _ <-; discriminate]). }
  split; [|split].
  - intros f t I N L. unfold typed_variable. apply String.eqb_neq in N. rewrite N. apply memf_iff in I. rewrite I, L. apply rtype_field.
  - intros x H. unfold typed_variable in H. unfold known_name. destruct (String.eqb_spec x MESSAGE) as [|N]; [now left|right].
    destruct (memf x seen) eqn:M; [left; now apply memf_iff|right].
    destruct (find (fun kv => String.eqb (fst kv) x) (rev (enum_literal_types m))) as [[k t]|] eqn:F.
    + left. apply find_some in F as [F E]. cbn in E. apply String.eqb_eq in E. subst k. apply in_rev in F.
      rewrite <- enum_literal_names. apply (in_map fst) in F. exact F.
    + right. destruct (find (fun kv => String.eqb (var (fst kv)) x) (type_literals m)) as [[k t]|] eqn:F2; [|congruence].
      apply find_some in F2 as [F2 E]. cbn in E. apply String.eqb_eq in E. unfold type_literals, unique in F2. apply in_unique_aux in F2.
      apply in_map_iff in F2 as ([f t'] & E' & J). injection E' as <- <-. exists f, t'. split; [exact J|]. symmetry. exact E.
  - intros x. unfold typed_variable. destruct (String.eqb x MESSAGE); [discriminate|].
    destruct (if memf x seen then lookup (v_types m) x else None); [apply rtype_not_any|].
    destruct (find _ (rev _)) as [[k t]|] eqn:F.
    + apply find_some in F as [F _]. apply in_rev in F. eapply EL; eauto.
    + destruct (find _ (type_literals m)) as [[k t]|]; [apply rtype_not_any|discriminate].
Qed.

(** the type check of a path *)
Lemma path_types_nil m p : forall seen, path_types m seen p = [] -> (forall f, In f seen -> In f (map fst (v_types m))) ->
  forall a l b, p = a ++ l :: b -> forall e, In e (expressions l) ->
  exists seen', (forall f, In f seen' <-> In f seen \/ In f (map source (a ++ [l])) /\ In f (map fst (v_types m))) /\
    check_expr (typed_variable m seen') e TAny = [].
Proof.
  induction p as [|k p IH]; intros seen H SN a l b E e I; [destruct a; discriminate|]. cbn [path_types] in H. cbv zeta in H.
  apply app_eq_nil in H as [H1 H2].
  set (seen1 := if memf (source k) (map fst (v_types m)) then source k :: seen else seen) in *.
  assert (SN1 : forall f, In f seen1 <-> In f seen \/ f = source k /\ In f (map fst (v_types m))).
  { intros f. unfold seen1. destruct (memf (source k) (map fst (v_types m))) eqn:M.
    - apply memf_iff in M. cbn. split; [intros [<-|J]; auto|intros [J|[-> J]]; auto].
    - split; [auto|]. intros [J|[-> J]]; [exact J|]. apply memf_iff in J. congruence. }
  destruct a as [|k' a].
  - cbn [app] in E. injection E as -> ->. exists seen1. split; [|exact (flat_nil _ _ H1 e I)].
    intros f. rewrite SN1. cbn. split; [intros [J|[-> J]]; auto|intros [J|[[E|[]] J]]; auto].
  - cbn [app] in E. injection E as <- E. destruct (IH seen1 H2) with (a := a) (l := l) (b := b) (e := e) as (seen' & S1 & S2); auto.
    + intros f J. apply SN1 in J as [J|[_ J]]; auto.
    + exists seen'. split; [|exact S2]. intros f. rewrite S1, SN1. cbn [map app In].
      split; [intros [[J|[-> J]]|[J K]]; auto|intros [J|[[E'|J] K]]; auto].
Qed.

Section Accepted.
  Context (solve : list expr -> answer) (n : nat) (m : vmessage) (fields : list field).
  Context (SU : sound_unsat solve) (A : Message solve n m = Ok []) (C : construct n (graph m) = Ok ([], fields)).
  Context (FU : (length (v_structure m) < n)%nat) (NA : no_always_valid m) (MK : modulus_known m).
  Local Notation s := (v_structure m).

  Lemma feasible_checked g p : legal m g -> leads s INITIAL p FINAL -> p <> [] -> feasible g p -> path_types m [] p = [].
  Proof.
    intros LG L NP FE. assert (Ne : s <> []).
    { intros E. destruct p as [|l p]; [congruence|]. cbn in L. rewrite E in L. destruct L as [[] _]. }
    pose proof (verify_types _ _ _ _ (verified solve n m fields A C Ne)) as VT.
    unfold verify_expression_types in VT. destruct (path_list n m fields C FU FINAL) as (ps & PS & PI). rewrite PS in VT. cbn [bind] in VT.
    assert (IP : In p ps) by (apply PI; auto).
    pose proof (all_errors_nil _ VT _ (in_map _ _ _ IP)) as H. cbn beta in H. destruct p as [|l p]; [congruence|].
    destruct (path_property solve n m (l :: p)) as [a|w] eqn:PP.
    - destruct a; try (apply Ok_inj in H; exact H). exfalso. unfold path_property in PP. dok PP tc TC. apply check_answer in PP.
      symmetry in PP. apply (SU _ (interp_of g) PP). rewrite models_cons. split; [reflexivity|]. rewrite !models_app. split; [|split].
      + eapply (constraints_models m n g (lg_int _ _ LG)); eauto.
      + intros e I. apply in_flat_map in I as (k & I & J). destruct (expr_eqb (condition k) ETrue); [destruct J|]. destruct J as [<-|[]].
        apply (taken_zeval g (lg_int _ _ LG)). apply (FE k I).
      + intros e I. apply in_flat_map in I as (k & I & J). destruct (lsize k) as [z|] eqn:LS; [|destruct J]. destruct J as [<-|[]].
        destruct (FE k I) as [_ SZ]. destruct (SZ z LS) as [T E]. cbn [zeval]. rewrite (agree g (lg_int _ _ LG) _ T _ E).
        cbn [ESize zeval number z_name interp_of]. unfold num. now rewrite Z.eqb_refl.
    - destruct (String.eqb w "Z3TypeError"); [apply Ok_inj in H; exact H|discriminate].
  Qed.

  (** on a path that a message can take, expressions are well-typed and only mention
      earlier fields, literals, types and the message *)
  Theorem C47_paths : forall g p a l b e,
    legal m g -> leads s INITIAL p FINAL -> feasible g p -> p = a ++ l :: b ->
    In e (condition l :: opt_expr (lsize l) ++ opt_expr (lfirst l)) ->
    (forall x, In x (names e) -> known_name m (map source (a ++ [l])) (name_id x)) /\
    (no_empty e -> exists G k, typing_of m (filter (fun f => memf f (map fst (v_types m))) (map source (a ++ [l]))) G /\ wt G e k).
  Proof.
    intros g p a l b e LG L FE E I. assert (NP : p <> []) by (subst p; destruct a; discriminate).
    pose proof (feasible_checked g p LG L NP FE) as PT.
    destruct (path_types_nil m p [] PT ltac:(intros f []) a l b E e) as (seen & SN & CH); [exact I|].
    destruct (variable_types m seen) as (V1 & V2 & V3); [intros f J; apply SN in J as [[]|[_ J]]; exact J|].
    assert (KN : forall x, known_name m seen x -> known_name m (map source (a ++ [l])) x).
    { intros x [K|[K|[K|K]]]; unfold known_name; auto. right. left. apply SN in K as [[]|[K _]]. exact K. }
    split.
    - intros x J. apply KN, V2. eapply C47_declared; eauto.
    - intros NE. destruct (proj1 (C47_exact e (typed_variable m seen) NE V3) CH) as (k & W).
      exists (typed_variable m seen), k. split; [|exact W]. split; [|split; [|exact V3]].
      + intros f t J N LK. apply V1; auto. apply filter_In in J as [J M]. apply SN. right. split; [exact J|now apply memf_iff].
      + intros x J. destruct (V2 x J) as [K|[K|[K|K]]]; unfold known_name; auto. right. left. apply SN in K as [[]|[K1 K2]].
        apply filter_In. split; [exact K1|now apply memf_iff].
  Qed.

  (** if all paths can be taken, links only mention fields that come before them *)
  Theorem C47_scoped :
    (forall p, leads s INITIAL p FINAL -> exists g, legal m g /\ feasible g p) ->
    (forall f, In f fields -> f <> MESSAGE /\ forall f' t, In (f', t) (v_types m) -> f <> var (type_key t)) ->
    (forall l, In l s -> source l <> FINAL /\ target l <> INITIAL) ->
    P_Verified.scoped_paths m fields /\ GenSpec.scoped s fields.
  Proof.
    intros ALL NAMES FIN.
    destruct (C22_fields _ _ _ C) as (ND & X & TF & RE). cbn [graph structure type_fields] in X, TF, RE.
    assert (TO_END : forall l, In l s -> exists q, leads s (target l) q FINAL).
    { intros l I. destruct (String.string_dec (target l) FINAL) as [->|NT]; [exists []; reflexivity|].
      assert (IF : In (target l) fields) by (apply X; split; [apply FIN, I|split; [exact NT|exists l; auto]]).
      assert (Ne : s <> []) by (intros E; rewrite E in I; destruct I).
      destruct (verify_accepted _ _ _ _ (verified solve n m fields A C Ne)) as (_ & _ & PR & _).
      unfold prove_reachability in PR. dok PR e1 E1. dok PR e2 E2. apply Ok_inj in PR. apply app_eq_nil in PR as [-> _].
      pose proof (all_errors_nil _ E1 _ (in_map _ _ _ (in_cons INITIAL _ _ IF))) as H. cbn beta in H. dok H bb HF. apply Ok_inj in H.
      destruct bb; [|discriminate]. eapply has_final_leads; eauto. }
    (* the names in expressions of a link behind any path *)
    assert (ON : forall p l e x, leads s INITIAL p (source l) -> In l s -> In e (condition l :: opt_expr (lsize l) ++ opt_expr (lfirst l)) ->
      In x (names e) -> In (name_id x) fields -> In (name_id x) (map source (p ++ [l]))).
    { intros p l e x L I IE IX IF. destruct (TO_END l I) as (q & Q).
      assert (LP : leads s INITIAL (p ++ l :: q) FINAL) by (eapply leads_app; [exact L|]; cbn; auto).
      destruct (ALL _ LP) as (g & LG & FE). destruct (C47_paths g _ p l q e LG LP FE eq_refl IE) as [K _].
      destruct (NAMES _ IF) as [N1 N2]. destruct (K x IX) as [K1|[K1|[K1|(f & t & K1 & K2)]]]; [contradiction|exact K1| |destruct (N2 f t K1 K2)].
      exfalso. assert (Ne : s <> []) by (intros E; rewrite E in I; destruct I).
      assert (J : In (name_id x) (map fst (v_types m))).
      { destruct (proj1 (X (name_id x)) IF) as (M1 & M2 & _). now apply (TF _ M1 M2). }
      pose proof (literal_free n m fields C Ne (name_id x) J) as F. apply memf_iff in K1. congruence. }
    assert (SRC : forall p a b, leads s a p b -> a :: map target p = map source p ++ [b]).
    { induction p as [|l p IH]; intros a b L; cbn in L; [now subst|]. destruct L as (_ & S & L). cbn [map app]. rewrite S. f_equal. now apply IH. }
    assert (TG : forall p l y, leads s INITIAL p (source l) -> In y fields -> In y (map source (p ++ [l])) -> In y (map target p)).
    { intros p l y L IF J. rewrite map_app in J. cbn [map] in J. rewrite <- (SRC p INITIAL (source l) L) in J.
      destruct J as [J|J]; [|exact J]. destruct (proj1 (X y) IF) as (M1 & _). congruence. }
    split.
    - intros p l x L I J K. eapply TG; eauto. apply (ON p l (condition l) x); auto. now left.
    - intros l e x I IE J K.
      assert (SI : In (source l) (INITIAL :: fields)) by (apply (source_field n m fields l C I); apply FIN, I).
      destruct SI as [SI|SI].
      + exfalso. assert (L : leads s INITIAL [] (source l)) by (cbn; congruence).
        pose proof (TG [] l _ L K (ON [] l e x L I IE J K)) as Z. destruct Z.
      + destruct (RE _ SI) as (p & L). pose proof (TG p l _ L K (ON p l e x L I IE J K)) as Z.
        split; [apply (proj1 (X _) SI)|]. clear -Z L K C X ND FIN SI.
        (* fields on a path to a field come before it *)
        assert (B : forall p f, leads s INITIAL p f -> In f fields -> forall y, In y (map target p) -> In y fields -> In y (before f fields ++ [f])).
        { clear -C X ND FIN. induction p as [|l p IH] using rev_ind; intros f L IF y J IY; [destruct J|].
          apply leads_split in L as (b & L1 & L2). cbn in L2. destruct L2 as (I & S & T). subst b f.
          rewrite map_app in J. apply in_app_or in J as [J|[J|[]]]; [|apply in_or_app; right; left; exact J].
          assert (SI : In (source l) (INITIAL :: fields)) by (apply (source_field n m fields l C I); apply FIN, I).
          destruct SI as [SI|SI].
          - exfalso. rewrite <- SI in L1. destruct p as [|k p] using rev_ind; [destruct J|]. apply leads_split in L1 as (c & _ & L1). cbn in L1.
            destruct L1 as (Ik & _ & T). destruct (FIN k Ik) as [_ NT]. congruence.
          - specialize (IH _ L1 SI y J IY). destruct (C22_order n (graph m) fields l C I) as (u & v & w & E);
              [apply (proj1 (X _) SI)|apply FIN, I|apply (proj1 (X _) IF)|].
            apply in_or_app. left. rewrite E in ND, IH |- *. clear -ND IH.
            assert (BF : forall u f r, ~ In f u -> before f (u ++ f :: r) = u).
            { clear. induction u as [|z u IH]; intros f r N; cbn [before app]; [now rewrite String.eqb_refl|].
              destruct (String.eqb_spec z f) as [->|NE]; [destruct N; now left|]. rewrite IH; [reflexivity|]. intros K. apply N. now right. }
            assert (N1 : ~ In (source l) u) by (apply NoDup_remove_2 in ND; intros K; apply ND, in_or_app; now left).
            rewrite BF in IH by exact N1.
            assert (N2 : ~ In (target l) (u ++ source l :: v)).
            { change (u ++ source l :: v ++ target l :: w) with (u ++ (source l :: v) ++ target l :: w) in ND. rewrite app_assoc in ND.
              apply NoDup_remove_2 in ND. intros K. apply ND, in_or_app. now left. }
            change (u ++ source l :: v ++ target l :: w) with (u ++ (source l :: v) ++ target l :: w). rewrite app_assoc, BF by exact N2.
            apply in_app_or in IH as [K|[<-|[]]]; apply in_or_app; [now left|right; now left]. }
        eapply B; eauto.
  Qed.
End Accepted.
Print Assumptions C47_paths.
Print Assumptions C47_scoped.

(** ** The message of P_VerifyCases.v *)
Import P_VerifyCases.
Lemma tlv_error : legal tlv (env_of error_values).
Proof.
  constructor.
  - apply env_of_int.
  - intros f t I. cbn in I. members; cbn; auto; vm_compute; intuition congruence.
  - intros f t I. cbn in I. members; reflexivity.
  - intros f id lits size av k z I K. cbn in I. members. vm_compute in K. members; reflexivity.
  - intros f t I. cbn in I. members; reflexivity.
  - reflexivity.
  - reflexivity.
Qed.
Lemma tlv_feasible p : leads (v_structure tlv) INITIAL p FINAL -> exists g, legal tlv g /\ feasible g p.
Proof.
  intros L. destruct (path_list 10 tlv tlv_fields tlv_constructed ltac:(cbn; lia) FINAL) as (ps & PS & PI).
  assert (IP : In p ps) by (apply PI; split; [intros ->; discriminate L|exact L]). vm_compute in PS. apply Ok_inj in PS. subst ps.
  cbn in IP. destruct IP as [<-|[<-|[]]].
  1: exists (env_of error_values). 2: exists (env_of data_values).
  all: (split; [apply tlv_error || apply tlv_data|]).
  all: intros l I; cbn in I; members; (split; [concrete|]); intros e E; inversion E; subst; concrete.
Qed.
Example C47_tlv : P_Verified.scoped_paths tlv tlv_fields /\ GenSpec.scoped (v_structure tlv) tlv_fields.
Proof.
  apply (C47_scoped tlv_solver 10 tlv tlv_fields tlv_unsat tlv_accepted tlv_constructed ltac:(cbn; lia) tlv_no_always_valid tlv_modulus tlv_feasible).
  - intros f I. cbn in I. members; split; try discriminate; intros f' t J; cbn in J; members; vm_compute; discriminate.
  - intros l I. cbn in I. members; split; discriminate.
Qed.
Example C47_tlv_path : exists G k, typing_of tlv ["tag"; "length"] G /\ wt G (EAss OMul [EVar "length"; ENum 8]) k.
Proof.
  refine (proj2 (C47_paths tlv_solver 10 tlv tlv_fields tlv_unsat tlv_accepted tlv_constructed ltac:(cbn; lia) tlv_no_always_valid tlv_modulus
    (env_of data_values) data_path (firstn 2 data_path) _ (skipn 3 data_path) _ (proj1 tlv_data) tlv_path _ eq_refl _) _).
  - intros l I; cbn in I; members; (split; [concrete|]); intros e E; inversion E; subst; concrete.
  - cbn. auto.
  - cbn. repeat split; discriminate.
Qed.

(** a path that cannot be taken is not checked: an undeclared name is accepted *)
Local Notation byte_t := (Modular ["P"; "Byte"] (ENum 256) 256 8).
Definition skipped_m : vmessage := mkVMessage
  [lk INITIAL "a" ETrue; lk "a" "b" (ERel ONe (EVar "a") (ENum 1)); lk "a" "c" (ERel OEq (EVar "a") (ENum 1));
   lk "b" "c" (EAss OAnd [ERel OEq (EVar "a") (ENum 1); ERel OEq (EVar "undeclared") (ENum 2)]);
   lk "b" FINAL (ERel ONe (EVar "a") (ENum 1)); lk "c" FINAL ETrue]
  [("a", MScalar byte_t); ("b", MScalar byte_t); ("c", MScalar byte_t)] ["P"].
Definition skipped_fields := ["a"; "b"; "c"].
Definition skipped_found :=
  map (fun z => values ([(NVar "a", z); (NAttr AFirst "message", 1); (NAttr ALast "message", 16); (NAttr ASize "message", 16)]
    ++ place "a" 1 8 ++ place "b" 9 16 ++ place "c" 9 16 ++ place FINAL 17 16 ++ type_sizes)) [1; 2].
Definition property_questions (n : nat) (m : vmessage) : list (list expr) :=
  oks [let* ps := paths (v_structure m) n FINAL in
       Ok (oks (map (fun p => let* tc := type_constraints n m in
         Ok [ETrue :: tc ++ flat_map (fun l => if expr_eqb (condition l) ETrue then [] else [condition l]) p
                      ++ flat_map (fun l => match lsize l with Some e => [ERel OEq (ESize (target l)) e] | None => [] end) p]) ps))].
Definition skipped_refuted := Eval vm_compute in
  unmet skipped_found (property_questions 10 skipped_m ++ questions 10 skipped_m skipped_fields).
Definition skipped_solver := try skipped_found skipped_refuted.
Lemma skipped_unsat : sound_unsat skipped_solver.
Proof. apply try_unsat. unfold skipped_refuted. repeat constructor. all: refute. Qed.
Theorem C47_scoped_refuted : exists solve n m fields l x,
  sound_unsat solve /\ sound_sat solve /\ Message solve n m = Ok [] /\ construct n (graph m) = Ok ([], fields) /\
  In l (v_structure m) /\ In x (names (condition l)) /\ ~ known_name m (map fst (v_types m)) (name_id x).
Proof.
  exists skipped_solver, 10%nat, skipped_m, skipped_fields.
  exists (lk "b" "c" (EAss OAnd [ERel OEq (EVar "a") (ENum 1); ERel OEq (EVar "undeclared") (ENum 2)])), (NVar "undeclared").
  split; [apply skipped_unsat|]. split; [apply try_sat|]. split; [vm_compute; reflexivity|]. split; [reflexivity|].
  split; [cbn; auto|]. split; [cbn; auto|].
  intros [H|[H|[H|(f & t & H & E)]]]; [discriminate|cbn in H; intuition discriminate|vm_compute in H; destruct H|].
  cbn in H. members; vm_compute in E; discriminate.
Qed.
Print Assumptions C47_scoped_refuted.
