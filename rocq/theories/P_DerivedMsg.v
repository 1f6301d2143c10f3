(** C58: a derived message means what its base means and is accepted when its base is;
    limits of this. *)
From Coq Require Import String List ZArith Bool Lia.
From Verif Require Import Base Expr ExprEval ExprFacts ExprTotal Ident TypeSpec MsgGraph MsgGraphFacts Solver SolverFacts Verify VerifySpec GenSpec GenFacts P_MsgGraph P_Verify P_VerifyCases DerivedMsg DerivedFacts DerivedVerify.
Import ListNotations.
Local Open Scope string_scope.
Local Open Scope list_scope.
Local Open Scope Z_scope.
Local Open Scope res_scope.

(** [h] is [g] as seen in the package of the base: a literal of the package has the value
    that its qualified name has *)
Definition seen_in_base (m : vmessage) (g h : env) : Prop :=
  (forall k, own_literal m k -> h (NVar (var k)) = g (NVar (qualified m k))) /\
  (forall x, (forall k, own_literal m k -> x <> NVar (var k)) -> h x = g x).
(** the same link but for the condition *)
Definition same_but_condition (l l' : link) : Prop :=
  source l' = source l /\ target l' = target l /\ lsize l' = lsize l /\ lfirst l' = lfirst l.

Lemma seen_pull m pkg g h x : ordinary m pkg -> seen_in_base m g h -> clean (lits m) (pk m) x ->
  pull_env (lits m) (pk m) g x = h x.
Proof.
  intros O [L R] C. unfold pull_env, ren_name. destruct (memf (id_of x) (lits m)) eqn:E.
  - apply memf_iff in E. rewrite rho_in by exact E. apply (lits_iff m) in E as (k & K & E).
    destruct x as [x|a x]; cbn in *.
    + subst x. rewrite (L k K). now rewrite <- (qualified_prefixed m pkg O k K).
    + assert (I : In x (lits m)) by (apply (lits_iff m); eauto). apply memf_iff in I. congruence.
  - rewrite rho_out by exact E. replace (with_id x (id_of x)) with x by (destruct x; reflexivity). symmetry. apply R.
    intros k K F. assert (I : In (id_of x) (lits m)) by (apply (lits_iff m); exists k; split; [exact K|now subst]). apply memf_iff in I. congruence.
Qed.

Lemma tame_ren ls p g e : tame g (ren ls p e) <-> tame (pull_env ls p g) e.
Proof.
  induction e as [ | |z|n b|a IH|o ts IH|o l r IHl IHr|o l r IHl IHr] using expr_ind'; cbn [tame ren]; try tauto.
  - induction IH as [|x l Hx HF IHl]; cbn; [tauto|]. now rewrite Hx, IHl.
  - rewrite IHl, IHr. destruct o; rewrite ?eval_sc_ren; reflexivity.
Qed.
Lemma Forall2_map_r {A B} (R : A -> B -> Prop) (f : A -> B) l : (forall x, In x l -> R x (f x)) -> Forall2 R l (map f l).
Proof. induction l as [|x l IH]; intros H; constructor; [apply H; now left|]. apply IH. intros y I. apply H. now right. Qed.
Lemma Forall2_inv {A B} (R : A -> B -> Prop) x l y k : Forall2 R (x :: l) (y :: k) -> R x y /\ Forall2 R l k.
Proof. intros H. now inversion H. Qed.
Lemma tame_same g h e : (forall x, In x (names e) -> g x = h x) -> (tame g e <-> tame h e).
Proof. intros H. split; apply tame_ext; auto. intros x I. symmetry. auto. Qed.

Section Base.
  Context (n : nat) (m : vmessage) (pkg : ident).
  Hypothesis O : ordinary m pkg.
  Context (g h : env).
  Hypothesis S : seen_in_base m g h.

  Lemma condition_value l : In l (v_structure m) ->
    eval_sc g (ren (lits m) (pk m) (condition l)) = eval_sc h (condition l) /\
    (tame g (ren (lits m) (pk m) (condition l)) <-> tame h (condition l)).
  Proof.
    intros L. pose proof (condition_clean m pkg O l L) as C. rewrite Forall_forall in C.
    assert (X : forall x, In x (names (condition l)) -> pull_env (lits m) (pk m) g x = h x) by (intros x I; eapply seen_pull; eauto).
    split; [rewrite eval_sc_ren; now apply eval_sc_ext|]. rewrite tame_ren. now apply tame_same.
  Qed.
  Lemma aspect_value l e : In l (v_structure m) -> In e (opt_expr (lsize l) ++ opt_expr (lfirst l)) ->
    eval_sc g e = eval_sc h e /\ (tame g e <-> tame h e).
  Proof.
    intros L E. destruct S as [_ R].
    assert (X : forall x, In x (names e) -> g x = h x).
    { intros x I. symmetry. apply R. intros k K F. destruct (o_aspects _ _ O l e x k L E I K) as [H _]. apply H. now rewrite F. }
    split; [now apply eval_sc_ext|now apply tame_same].
  Qed.
  Lemma message_value a : h (NAttr a MESSAGE) = g (NAttr a MESSAGE).
  Proof. apply (proj2 S). intros k K E. discriminate. Qed.

  Context (fields : list field).
  Hypothesis C : construct n (graph m) = Ok ([], fields).
  Hypothesis NE : v_structure m <> [].

  Lemma place_value f x : place m f -> id_of x = f -> h x = g x.
  Proof.
    intros P E. apply (proj2 S). intros k K F. apply (place_not_lit n m fields C (or_introl NE)) in P.
    assert (I : In f (lits m)) by (apply (lits_iff m); exists k; split; [exact K|subst; reflexivity]). apply memf_iff in I. congruence.
  Qed.
  Lemma field_place f t : In (f, t) (v_types m) -> place m f.
  Proof. intros I. apply in_app_iff. left. now apply (in_map fst) in I. Qed.
End Base.

(** ** The structure and its meaning *)

(** All links of the derived message are those of the base, in their order, except for
    the conditions; a condition has the value that the condition of the base has where
    the literals of the package of the base have the values of their qualified names. *)
Theorem C58_conditions : forall n m pkg d,
  ordinary m pkg -> derived n m pkg = Ok d ->
  v_package d = pkg /\ v_types d = v_types m /\
  Forall2 (fun l l' => same_but_condition l l' /\
    forall g h, seen_in_base m g h ->
      eval_sc g (condition l') = eval_sc h (condition l) /\ (taken g l' <-> taken h l))
    (v_structure m) (v_structure d).
Proof.
  intros n m pkg d O D. rewrite (derived_is n m pkg O) in D. apply Ok_inj in D. subst d. split; [reflexivity|]. split; [reflexivity|].
  cbn [v_structure dm]. apply Forall2_map_r. intros l L. split; [repeat split|]. intros g h S.
  destruct (condition_value m pkg O g h S l L) as [E T]. split; [exact E|]. unfold taken. cbn [condition rl]. now rewrite E, T.
Qed.
Print Assumptions C58_conditions.

(** The fields of the derived message lie where those of the base lie. *)
Theorem C58_layout : forall n m pkg d fields,
  ordinary m pkg -> construct n (graph m) = Ok ([], fields) -> derived n m pkg = Ok d ->
  Forall2 (fun l l' => forall g h, seen_in_base m g h -> (laid d g l' <-> laid m h l)) (v_structure m) (v_structure d).
Proof.
  intros n m pkg d fields O C D. rewrite (derived_is n m pkg O) in D. apply Ok_inj in D. subst d.
  cbn [v_structure dm]. apply Forall2_map_r. intros l L g h S.
  assert (NE : v_structure m <> []) by (intros E; rewrite E in L; destruct L).
  destruct (condition_value m pkg O g h S l L) as [E T].
  destruct (place_ends n m fields C (or_introl NE) l L) as [PS PT].
  assert (V : forall x, id_of x = target l -> num h x = num g x).
  { intros x Q. unfold num. now rewrite (place_value n m g h S fields C NE (target l) x PT Q). }
  assert (V' : forall a, num h (NAttr a (source l)) = num g (NAttr a (source l))).
  { intros a. unfold num. now rewrite (place_value n m g h S fields C NE (source l) (NAttr a (source l)) PS eq_refl). }
  assert (VM : forall a, num h (NAttr a MESSAGE) = num g (NAttr a MESSAGE)).
  { intros a. unfold num. now rewrite (message_value m g h S). }
  unfold laid, taken. cbn [condition rl target]. rewrite E, T, !V, VM by reflexivity.
  assert (ST : forall a, starts g (rl (lits m) (pk m) l) a <-> starts h l a).
  { intros a. unfold starts. cbn [source lfirst rl]. rewrite VM, V'. destruct (String.eqb (source l) INITIAL); [tauto|].
    destruct (lfirst l) as [e|] eqn:F; [|tauto].
    destruct (aspect_value m pkg O g h S l e L) as [A B]; [rewrite F; apply in_app_iff; right; now left|]. now rewrite A, B. }
  assert (SZ : forall z, sized (dm m pkg) g (rl (lits m) (pk m) l) z <-> sized m h l z).
  { intros z. unfold sized. cbn [lsize target rl v_types dm]. destruct (lsize l) as [e|] eqn:F; [|tauto].
    destruct (aspect_value m pkg O g h S l e L) as [A B]; [rewrite F; now left|]. now rewrite A, B. }
  now rewrite ST, SZ.
Qed.
Print Assumptions C58_layout.

(** An assignment that is legal for the derived message is legal for the base, as seen
    there. *)
Theorem C58_legal : forall n m pkg d fields g h,
  ordinary m pkg -> construct n (graph m) = Ok ([], fields) -> v_structure m <> [] -> derived n m pkg = Ok d ->
  seen_in_base m g h -> legal d g -> legal m h.
Proof.
  intros n m pkg d fields g h O C NE D S G. rewrite (derived_is n m pkg O) in D. apply Ok_inj in D. subst d.
  assert (VM : forall a, num h (NAttr a MESSAGE) = num g (NAttr a MESSAGE)).
  { intros a. unfold num. now rewrite (message_value m g h S). }
  assert (VF : forall f t x, In (f, t) (v_types m) -> id_of x = f -> num h x = num g x).
  { intros f t x I E. unfold num. now rewrite (place_value n m g h S fields C NE f x (field_place m f t I) E). }
  constructor.
  - intros x. destruct x as [x|a x]; [|rewrite (proj2 S); [apply (lg_int _ _ G)|discriminate]].
    destruct (in_dec String.string_dec x (lits m)) as [I|N].
    + apply (lits_iff m) in I as (k & K & ->). rewrite (proj1 S k K). apply (lg_int _ _ G).
    + rewrite (proj2 S); [apply (lg_int _ _ G)|]. intros k K E. injection E as ->. apply N, (lits_iff m). eauto.
  - intros f t I. rewrite (VF f _ (NVar f) I eq_refl). exact (lg_value _ _ G f t I).
  - intros f t I. rewrite (VF f _ (NAttr ASize f) I eq_refl). exact (lg_size _ _ G f t I).
  - intros f id ls size av k z I K.
    assert (P : forall k0 z0, In (k0, z0) (literal_names id ls (id_eq pkg (package id))) -> num g (NVar (var k0)) = z0).
    { intros k0 z0. exact (lg_literal _ _ G f id ls size av k0 z0 I). }
    destruct (id_eq (package id) (v_package m)) eqn:E.
    + (* a literal of the package *)
      assert (B : id_eq (package id) builtins = false).
      { pose proof (o_package _ _ O) as [_ Q]. rewrite <- (id_eq_trans _ _ builtins E). exact Q. }
      assert (PR : forall k0 z0, In (k0, z0) ls -> num g (NVar (qualified m k0)) = z0).
      { intros k0 z0 J.
        assert (OW : own_literal m k0) by (exists f, id, ls, size, av, z0; auto).
        assert (Q : var (package id ++ k0) = qualified m k0).
        { assert (k0 <> []) by apply (o_literal _ _ O k0 OW). destruct (o_package _ _ O) as [PN _]. unfold qualified.
          rewrite !var_app; try assumption; [now rewrite (id_eq_lower _ _ E)|]. intros Z. rewrite Z in E.
          destruct (v_package m); [now apply PN|discriminate E]. }
        rewrite <- Q. apply P. unfold literal_names. rewrite B.
        assert (PX : In (package id ++ k0, z0) (map (fun kv => (package id ++ fst kv, snd kv)) ls)).
        { apply in_map_iff. now exists (k0, z0). }
        destruct (id_eq pkg (package id)); [apply in_app_iff; now right|exact PX]. }
      unfold literal_names in K. rewrite B, id_eq_sym, E in K. apply in_app_iff in K as [K|K].
      * unfold num. rewrite (proj1 S); [exact (PR k z K)|]. exists f, id, ls, size, av, z. auto.
      * apply in_map_iff in K as ((k0 & z0) & Q & J). cbn [fst snd] in Q. injection Q as <- <-.
        assert (OW : own_literal m k0) by (exists f, id, ls, size, av, z0; auto).
        assert (Q : var (package id ++ k0) = qualified m k0).
        { assert (k0 <> []) by apply (o_literal _ _ O k0 OW). destruct (o_package _ _ O) as [PN _]. unfold qualified.
          rewrite !var_app; try assumption; [now rewrite (id_eq_lower _ _ E)|]. intros Z. rewrite Z in E.
          destruct (v_package m); [now apply PN|discriminate E]. }
        rewrite Q. unfold num. rewrite (proj2 S); [exact (PR k0 z0 J)|]. intros k' K' F. injection F as F.
        assert (X : In (qualified m k0) (lits m)) by (apply (lits_iff m); eauto).
        apply (lit_no_colon m pkg O) in X. rewrite (qualified_prefixed m pkg O k0 OW), has_colon in X. discriminate.
    + (* a literal of another package *)
      destruct (o_other _ _ O f id ls size av I E) as [F H]. rewrite (id_eq_sym pkg), F in P. rewrite id_eq_sym, E in K.
      unfold num. rewrite (proj2 S); [exact (P k z K)|]. intros k' K' Q. injection Q as Q. now destruct (H k z k' K K').
  - intros f t I. unfold num. rewrite (proj2 S); [exact (lg_type _ _ G f t I)|discriminate].
  - rewrite VM. exact (lg_first _ _ G).
  - rewrite VM. exact (lg_bytes _ _ G).
Qed.
Print Assumptions C58_legal.

(** ** Acceptance *)

(** Deriving from an accepted message that is not itself derived is accepted, and in
    general the errors are those which the proofs of the base would report, for a solver
    that does not care about names. *)
Theorem C58_accepted : forall solve n m pkg fields,
  ordinary m pkg -> indifferent (lits m) (pk m) solve -> construct n (graph m) = Ok ([], fields) ->
  DerivedMessage solve n m [] false pkg = Message solve n m.
Proof.
  intros solve n m pkg fields O IND C. unfold DerivedMessage. rewrite (derived_is n m pkg O). cbn [bind].
  destruct (list_eq_dec link_eq_dec (v_structure m) []) as [E|NE].
  - destruct (v_types m) as [|kt ts] eqn:T.
    + unfold dm. rewrite E, T. cbn [map]. unfold Message. rewrite C. cbn [bind fst]. destruct m as [s ts p]. cbn in E, T. subst s ts.
      reflexivity.
    + exfalso. destruct m as [s ts' p]. cbn in E, T. subst s ts'. unfold construct in C. discriminate C.
  - rewrite (construct_dm n m pkg O fields C). cbn [bind fst app].
    unfold Message. rewrite (construct_dm n m pkg O fields C), C. cbn [bind].
    rewrite (verify_same n m pkg O fields C (or_introl NE) solve IND). cbn [v_structure v_types dm].
    destruct (v_structure m) as [|l ls]; [now destruct NE|]. reflexivity.
Qed.
Print Assumptions C58_accepted.

(** a solver that answers every question, and rightly *)
Definition decides (solve : list expr -> answer) : Prop :=
  forall fs, (solve fs = SAT <-> exists i, models i fs) /\ (solve fs = UNSAT <-> ~ exists i, models i fs).
Lemma decides_indifferent ls p solve : decides solve -> indifferent ls p solve.
Proof.
  intros D fs fs' PL PS. destruct (D fs) as [S U], (D fs') as [S' U'].
  assert (Q : (exists i, models i fs') <-> (exists i, models i fs)) by (split; intros [i M]; eauto).
  destruct (solve fs) eqn:E.
  - apply S', Q, S. reflexivity.
  - apply U'. rewrite Q. now apply U.
  - destruct (solve fs') eqn:E'; [|  |reflexivity].
    + assert (X : UNKNOWN = SAT) by now apply S, Q, S'. discriminate.
    + assert (X : UNKNOWN = UNSAT) by (apply U; rewrite <- Q; now apply U'). discriminate.
Qed.

(** A message is not accepted if its base has errors or is itself derived. *)
Theorem C58_rejected : forall solve n m base_errors is_derived pkg,
  DerivedMessage solve n m base_errors is_derived pkg = Ok [] -> base_errors = [] /\ is_derived = false.
Proof.
  intros solve n m be dv pkg H. unfold DerivedMessage in H. destruct (derived n m pkg) as [d|]; [|discriminate]. cbn [bind] in H.
  destruct (construct n (graph d)) as [r|]; [|discriminate]. cbn [bind] in H.
  destruct be as [|e be]; [|discriminate H]. split; [reflexivity|]. destruct dv; [|reflexivity].
  destruct (fst r); discriminate H.
Qed.
Print Assumptions C58_rejected.

(** ** The TLV message, derived in another package *)

Lemma tlv_literal k : own_literal tlv k -> k = ["Msg_Data"] \/ k = ["Msg_Error"].
Proof. intros (f & id & ls & size & av & z & I & _ & K). cbn in I. members. cbn in K. members; auto. Qed.
Ltac tlv_lit := match goal with K : own_literal tlv _ |- _ => destruct (tlv_literal _ K) as [-> | ->] end.
Lemma tlv_ordinary : ordinary tlv ["Other"].
Proof.
  constructor.
  - split; [discriminate|reflexivity].
  - intros k K. tlv_lit; vm_compute; repeat split; discriminate.
  - intros f t I. cbn in I. members; reflexivity.
  - intros f id ls size av I E. cbn in I. members. discriminate E.
  - intros f t k I K. cbn in I. members; tlv_lit; vm_compute; discriminate.
  - intros f id e v size I. cbn in I. members. reflexivity.
  - intros l x k I J K. cbn in I. members; cbn in J; members; tlv_lit; split; try intros a; vm_compute; discriminate.
  - intros l x k I J K. cbn in I. members; cbn in J; members.
  - intros l e x k I J X K. cbn in I. members; cbn in J; members; cbn in X; members; tlv_lit; split; vm_compute; discriminate.
Qed.
Example tlv_derived : exists d, derived 10 tlv ["Other"] = Ok d /\
  map condition (v_structure d) =
    [ETrue; ETrue; ERel OEq (EVar "tag") (EVar "tlv::msg_error"); ERel OEq (EVar "tag") (EVar "tlv::msg_data"); ETrue].
Proof. eexists. split; reflexivity. Qed.

(** an assignment of the derived message, where "msg_data" means something else, and the
    same as seen in the base *)
Definition other_values := (NVar "msg_data", 99) :: (NVar "msg_error", 98) :: data_values.
Lemma tlv_seen : seen_in_base tlv (env_of other_values) (env_of data_values).
Proof.
  split.
  - intros k K. tlv_lit; reflexivity.
  - intros x H. unfold env_of, other_values. cbn [assoc].
    assert (D : own_literal tlv ["Msg_Data"]) by (unfold own_literal; cbn; repeat eexists; try (left; reflexivity); reflexivity).
    assert (E : own_literal tlv ["Msg_Error"]) by (unfold own_literal; cbn; repeat eexists; try (left; reflexivity); try (right; left; reflexivity); reflexivity).
    apply H in D. apply H in E. change (var ["Msg_Data"]) with "msg_data" in D. change (var ["Msg_Error"]) with "msg_error" in E.
    destruct (name_eqb x (NVar "msg_data")) eqn:A; [apply name_eqb_eq in A; congruence|].
    destruct (name_eqb x (NVar "msg_error")) eqn:B; [apply name_eqb_eq in B; congruence|]. reflexivity.
Qed.
Definition tlv_other : vmessage := Eval vm_compute in match derived 10 tlv ["Other"] with Ok d => d | Err _ => tlv end.
Example tlv_other_is : derived 10 tlv ["Other"] = Ok tlv_other.
Proof. reflexivity. Qed.
Example tlv_other_legal : legal tlv_other (env_of other_values).
Proof.
  constructor.
  - apply env_of_int.
  - intros f t I. cbn in I. members; cbn; auto; vm_compute; intuition congruence.
  - intros f t I. cbn in I. members; reflexivity.
  - intros f id ls size av k z I K. cbn in I. members. vm_compute in K. members; reflexivity.
  - intros f t I. cbn in I. members; reflexivity.
  - reflexivity.
  - reflexivity.
Qed.
Example C58_tlv_legal : legal tlv (env_of data_values).
Proof.
  exact (C58_legal 10 tlv ["Other"] tlv_other tlv_fields _ _ tlv_ordinary tlv_constructed ltac:(discriminate) tlv_other_is tlv_seen tlv_other_legal).
Qed.
Example C58_tlv_taken : taken (env_of other_values) (mkLink "tag" "length" (ERel OEq (EVar "tag") (EVar "tlv::msg_data")) None None).
Proof.
  destruct (C58_conditions 10 tlv ["Other"] tlv_other tlv_ordinary tlv_other_is) as (_ & _ & F).
  do 3 (apply Forall2_inv in F as [_ F]). apply Forall2_inv in F as [[_ H] _].
  apply (H _ _ tlv_seen). concrete.
Qed.
Example C58_tlv_laid : laid tlv_other (env_of other_values) (mkLink "tag" "length" (ERel OEq (EVar "tag") (EVar "tlv::msg_data")) None None).
Proof.
  pose proof (C58_layout 10 tlv ["Other"] tlv_other tlv_fields tlv_ordinary tlv_constructed tlv_other_is) as F.
  do 3 (apply Forall2_inv in F as [_ F]). apply Forall2_inv in F as [H _].
  apply (H _ _ tlv_seen). concrete.
Qed.

(** a solver that tries some interpretations only *)
Definition finite (found : list interp) (fs : list expr) : answer := if existsb (fun i => holds i fs) found then SAT else UNSAT.
Lemma finite_indifferent ls p found :
  (forall i x, In i found -> In x ls -> z_name i (NVar x) = z_name i (NVar (prefixed p x)) /\
     forall a, z_name i (NAttr a x) = z_name i (NAttr a (prefixed p x))) ->
  indifferent ls p (finite found).
Proof.
  intros A fs fs' PL PS. unfold finite. assert (E : existsb (fun i => holds i fs') found = existsb (fun i => holds i fs) found).
  { assert (X : forall i, In i found -> holds i fs' = holds i fs).
    { intros i I.
      assert (E1 : forall e, zeval (pull ls p i) e = zeval i e).
      { intros e. apply zeval_ext; try reflexivity. intros x _. cbn. unfold ren_name, rho.
        destruct (memf (id_of x) ls) eqn:M; [|destruct x; reflexivity]. apply memf_iff in M. destruct (A i (id_of x) I M) as [H1 H2].
        destruct x as [x|a x]; cbn in *; congruence. }
      assert (E2 : forall e, zeval (push ls p i) e = zeval i e).
      { intros e. apply zeval_ext; try reflexivity. intros [x|a x] _; [|reflexivity]. cbn. destruct (unprefixed ls p x) as [y|] eqn:U; [|reflexivity].
        unfold unprefixed in U. apply find_some in U as [J Q]. apply String.eqb_eq in Q. subst x. now apply A. }
      apply eq_true_iff_eq. rewrite !holds_models. split; intros M e J.
      - rewrite <- E1. now apply PL.
      - rewrite <- E2. now apply PS. }
    clear PL PS. induction found as [|i l IH]; [reflexivity|]. cbn. rewrite X by now left. f_equal. apply IH; intros; [apply A; auto; now right|apply X; now right]. }
  now rewrite E.
Qed.
Lemma tlv_finite : indifferent (lits tlv) (pk tlv) (finite tlv_found).
Proof.
  apply finite_indifferent. intros i x I X. vm_compute in X. unfold tlv_found in I. cbn [In] in I.
  destruct I as [<- | [<- | []]]; members; split; try intros []; vm_compute; reflexivity.
Qed.
Example C58_tlv_accepted : DerivedMessage (finite tlv_found) 10 tlv [] false ["Other"] = Ok [].
Proof.
  rewrite (C58_accepted (finite tlv_found) 10 tlv ["Other"] tlv_fields tlv_ordinary tlv_finite tlv_constructed).
  vm_compute. reflexivity.
Qed.
Example C58_tlv_rejected : DerivedMessage (finite tlv_found) 10 tlv ["some error"] true ["Other"] = Ok ["some error"; "some error"; "illegal derivation"].
Proof. vm_compute. reflexivity. Qed.

(** ** Limits *)

(** The sizes of a message are not qualified: a base with a literal as size is accepted,
    the message derived from it names an unknown variable and is rejected. *)
Definition size_m : vmessage := mkVMessage
  [lk INITIAL "tag" ETrue;
   mkLink "tag" "value" ETrue (Some (EVar "eight")) None;
   lk "value" FINAL ETrue]
  [("tag", MScalar (Enum ["P"; "E"] [(["Eight"], 8); (["Two"], 2)] 8 false)); ("value", MOpaque)] ["P"].
Definition size_found := [values ([(NVar "tag", 2); (NVar "eight", 8); (NVar "two", 2); (NVar "p::eight", 8); (NVar "p::two", 2)] ++ type_sizes ++ P_VerifyCases.place "message" 1 16 ++ P_VerifyCases.place "tag" 1 8 ++ P_VerifyCases.place "value" 9 16 ++ P_VerifyCases.place "final" 17 16)].
Theorem C58_size_refuted : exists solve n m pkg d e,
  indifferent (lits m) (pk m) solve /\ Message solve n m = Ok [] /\ derived n m pkg = Ok d /\
  In (Some (EVar "eight")) (map lsize (v_structure d)) /\
  DerivedMessage solve n m [] false pkg = Ok e /\ e <> [].
Proof.
  exists (finite size_found), 10%nat, size_m, ["Other"]. do 2 eexists.
  split. { apply finite_indifferent. intros i x I X. vm_compute in X. unfold size_found in I. cbn [In] in I.
    destruct I as [<- | []]; members; split; try intros []; vm_compute; reflexivity. }
  split; [vm_compute; reflexivity|]. split; [reflexivity|]. split; [cbn; tauto|]. split; [vm_compute; reflexivity|discriminate].
Qed.
Print Assumptions C58_size_refuted.
