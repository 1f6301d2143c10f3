(** The verification of a derived message makes the same proofs as that of its base. *)
From Coq Require Import String Ascii List ZArith Bool Lia.
From Verif Require Import Base Expr ExprEval ExprFacts ExprTotal Ident TypeSpec MsgGraph MsgGraphFacts Solver SolverFacts Verify VerifySpec VerifyFacts GenSpec DerivedMsg DerivedFacts.
From Verif Require ExprType Typing P_IdentErrors.
Import ListNotations.
Local Open Scope string_scope.
Local Open Scope list_scope.
Local Open Scope Z_scope.
Local Open Scope res_scope.

(** ** What is assumed of the base *)

(** a literal of an enumeration type of the package of the message *)
Definition own_literal (m : vmessage) (k : ident) : Prop :=
  exists f id lits size av z, In (f, MScalar (Enum id lits size av)) (v_types m) /\
    id_eq (package id) (v_package m) = true /\ In (k, z) lits.
(** its qualified name, as a variable *)
Definition qualified (m : vmessage) (k : ident) : string := var (v_package m ++ k).
(** the name by which a type is known in expressions *)
Definition type_name (t : mtype) : string :=
  var (if id_eq (package (mtype_id t)) builtins then [last (mtype_id t) ""] else mtype_id t).
(** the names below a logical negation *)
Fixpoint negated (e : expr) : list name :=
  match e with
  | ENot x => names x
  | EAss _ ts => flat_map negated ts
  | EBin _ l r | ERel _ l r => negated l ++ negated r
  | ETrue | EFalse | ENum _ | EName _ _ => []
  end.

Record ordinary (m : vmessage) (pkg : ident) : Prop := {
  o_package : v_package m <> [] /\ id_eq (v_package m) builtins = false;
  (** literals are simple identifiers *)
  o_literal : forall k, own_literal m k -> k <> [] /\ has_char ":" (var k) = false /\ var k <> MESSAGE /\ var k <> BIT;
  o_field : forall f t, In (f, t) (v_types m) -> has_char ":" f = false;
  (** literals of other packages are other names, and the derived message is not in one of these packages *)
  o_other : forall f id lits size av, In (f, MScalar (Enum id lits size av)) (v_types m) ->
    id_eq (package id) (v_package m) = false -> id_eq (package id) pkg = false /\
    forall k z k', In (k, z) (literal_names id lits false) -> own_literal m k' -> var k <> var k' /\ var k <> qualified m k';
  o_type : forall f t k, In (f, t) (v_types m) -> own_literal m k -> type_name t <> var k;
  o_modulus : forall f id e v size, In (f, MScalar (Modular id e v size)) (v_types m) -> names e = [];
  (** conditions use literals by their simple names and not below a negation *)
  o_condition : forall l x k, In l (v_structure m) -> In x (names (condition l)) -> own_literal m k ->
    x <> NVar (qualified m k) /\ forall a, x <> NAttr a (var k);
  o_negated : forall l x k, In l (v_structure m) -> In x (negated (condition l)) -> own_literal m k -> id_of x <> var k;
  (** sizes and positions use no literals *)
  o_aspects : forall l e x k, In l (v_structure m) -> In e (opt_expr (lsize l) ++ opt_expr (lfirst l)) -> In x (names e) ->
    own_literal m k -> id_of x <> var k /\ x <> NVar (qualified m k)
}.

(** ** Names *)

Lemma id_eq_sym a b : id_eq a b = id_eq b a.
Proof.
  destruct (id_eq a b) eqn:E, (id_eq b a) eqn:F; try reflexivity.
  - apply P_IdentErrors.id_eq_hash in E. assert (id_eq b a = true) by (apply P_IdentErrors.id_eq_hash; congruence). congruence.
  - apply P_IdentErrors.id_eq_hash in F. assert (id_eq a b = true) by (apply P_IdentErrors.id_eq_hash; congruence). congruence.
Qed.
Lemma id_eq_trans a b c : id_eq a b = true -> id_eq b c = id_eq a c.
Proof.
  intros E. apply P_IdentErrors.id_eq_hash in E. destruct (id_eq a c) eqn:F.
  - apply P_IdentErrors.id_eq_hash. apply P_IdentErrors.id_eq_hash in F. congruence.
  - destruct (id_eq b c) eqn:G; [|reflexivity]. apply P_IdentErrors.id_eq_hash in G.
    assert (id_eq a c = true) by (apply P_IdentErrors.id_eq_hash; congruence). congruence.
Qed.
Lemma lower_append a b : lower (a ++ b)%string = (lower a ++ lower b)%string.
Proof. induction a as [|c a IH]; cbn; [reflexivity|]. now rewrite IH. Qed.
Lemma lower_concat l : lower (String.concat "::" l) = String.concat "::" (map lower l).
Proof.
  induction l as [|x l IH]; [reflexivity|]. destruct l as [|y l]; [reflexivity|].
  change (String.concat "::" (x :: y :: l)) with (x ++ "::" ++ String.concat "::" (y :: l))%string.
  change (map lower (x :: y :: l)) with (lower x :: map lower (y :: l)).
  change (String.concat "::" (lower x :: map lower (y :: l))) with (lower x ++ "::" ++ String.concat "::" (map lower (y :: l)))%string.
  rewrite !lower_append, IH. reflexivity.
Qed.
Lemma var_app a b : a <> [] -> b <> [] -> var (a ++ b) = (lower (id_str a) ++ "::" ++ var b)%string.
Proof.
  intros A B. unfold var, id_str. rewrite P_IdentErrors.concat_app by assumption. rewrite !lower_append. reflexivity.
Qed.
Lemma id_eq_lower a b : id_eq a b = true -> lower (id_str a) = lower (id_str b).
Proof. intros E. apply P_IdentErrors.id_eq_hash in E. unfold id_hash in E. unfold id_str. now rewrite !lower_concat, E. Qed.
Lemma has_char_app c a b : has_char c (a ++ b)%string = has_char c a || has_char c b.
Proof. induction a as [|d a IH]; cbn; [reflexivity|]. rewrite IH. apply orb_assoc. Qed.
Lemma has_colon pk x : has_char ":" (prefixed pk x) = true.
Proof. unfold prefixed. rewrite has_char_app. cbn. apply orb_true_r. Qed.

(** ** The derived message *)

Section Derived.
  Context (n : nat) (m : vmessage) (pkg : ident).
  Hypothesis O : ordinary m pkg.

  Definition lits : list string := map var (base_enum_literals m).
  Definition pk : string := lower (id_str (v_package m)).
  Local Notation ren := (ren lits pk).
  Local Notation rl := (rl lits pk).
  Local Notation clean := (clean lits pk).
  Local Notation part := (part lits pk).
  Local Notation s := (v_structure m).
  (** the derived message *)
  Definition dm : vmessage := mkVMessage (map rl s) (v_types m) pkg.

  Lemma literal_iff k : In k (base_enum_literals m) <-> own_literal m k.
  Proof.
    unfold base_enum_literals, own_literal. rewrite in_flat_map. split.
    - intros ((f & t) & I & J). cbn [snd] in J. destruct t as [[| |id ls size av]| |]; try now destruct J.
      destruct (id_eq (package id) (v_package m)) eqn:E; [|now destruct J].
      apply in_map_iff in J as ((k' & z) & <- & J). cbn. eauto 12.
    - intros (f & id & ls & size & av & z & I & E & J). exists (f, MScalar (Enum id ls size av)). split; [exact I|].
      cbn [snd]. rewrite E. apply in_map_iff. now exists (k, z).
  Qed.
  Lemma lits_iff x : In x lits <-> exists k, own_literal m k /\ x = var k.
  Proof.
    unfold lits. rewrite in_map_iff. split.
    - intros (k & <- & I). exists k. split; [now apply literal_iff|reflexivity].
    - intros (k & I & ->). exists k. split; [reflexivity|now apply literal_iff].
  Qed.
  Lemma qualified_prefixed k : own_literal m k -> qualified m k = prefixed pk (var k).
  Proof.
    intros I. destruct (o_literal _ _ O k I) as (N & _). destruct (o_package _ _ O) as [P _]. unfold qualified, prefixed, pk.
    now apply var_app.
  Qed.
  Lemma not_lit x : (forall k, own_literal m k -> x <> var k) -> memf x lits = false.
  Proof.
    intros H. destruct (memf x lits) eqn:E; [|reflexivity]. apply memf_iff, lits_iff in E as (k & I & ->). now destruct (H k I).
  Qed.
  Lemma lit_no_colon x : In x lits -> has_char ":" x = false.
  Proof. intros I. apply lits_iff in I as (k & I & ->). now apply (o_literal _ _ O). Qed.
  Lemma colon_not_lit x : has_char ":" x = true -> memf x lits = false.
  Proof. intros H. destruct (memf x lits) eqn:E; [|reflexivity]. apply memf_iff, lit_no_colon in E. congruence. Qed.
  Lemma plain_unprefixed x : has_char ":" x = false -> unprefixed lits pk x = None.
  Proof. intros H. apply unprefixed_none. intros y _ ->. rewrite has_colon in H. discriminate. Qed.
  Lemma not_qualified x : (forall k, own_literal m k -> x <> qualified m k) -> unprefixed lits pk x = None.
  Proof.
    intros H. apply unprefixed_none. intros y I ->. apply lits_iff in I as (k & I & ->). apply (H k I). now rewrite qualified_prefixed.
  Qed.
  Lemma message_not_lit : memf MESSAGE lits = false.
  Proof. apply not_lit. intros k I E. destruct (o_literal _ _ O k I) as (_ & _ & H & _). now apply H. Qed.

  (** *** Structure *)
  Lemma qualification_some x : In (id_of x) lits -> qualification m x = Some (EName (ren_name lits pk x) false).
  Proof.
    intros I. unfold qualification. destruct (find _ (base_enum_literals m)) as [e|] eqn:F.
    - apply find_some in F as [J E]. apply String.eqb_eq in E. do 2 f_equal. unfold ren_name. f_equal.
      rewrite (rho_in _ _ _ I), <- E. apply qualified_prefixed. now apply literal_iff.
    - exfalso. unfold lits in I. apply in_map_iff in I as (e & E & J). apply (find_none _ _ F) in J. rewrite E, String.eqb_refl in J. discriminate.
  Qed.
  Lemma qualification_none x : memf (id_of x) lits = false -> qualification m x = None.
  Proof.
    intros I. unfold qualification. destruct (find _ (base_enum_literals m)) as [e|] eqn:F; [|reflexivity].
    apply find_some in F as [J E]. apply String.eqb_eq in E. exfalso. apply Bool.not_true_iff_false in I. apply I, memf_iff.
    unfold lits. apply in_map_iff. eauto.
  Qed.
  Lemma substituted_ren e : (forall x, In x (negated e) -> memf (id_of x) lits = false) ->
    substituted (neg (simplify expr_eqb n)) (qualification m) e = Ok (ren e).
  Proof.
    induction e as [ | |z|x b|a IH|o ts IH|o l r IHl IHr|o l r IHl IHr] using expr_ind'; intros N; cbn [substituted negated] in *; auto.
    - destruct (memf (id_of x) lits) eqn:E.
      + rewrite (qualification_some x) by now apply memf_iff. destruct b; reflexivity.
      + rewrite (qualification_none x E). rewrite (ren_id lits pk (EName x b)); [now destruct b|]. intros y [<-|[]]. exact E.
    - now rewrite (ren_id lits pk (ENot a)).
    - match goal with |- bind (?F ts) _ = _ => set (go := F) end.
      assert (G : go ts = Ok (map ren ts)).
      { induction IH as [|x l Hx HF IHl]; [reflexivity|]. cbn [go map]. rewrite Hx by (intros y J; apply N; cbn; apply in_app_iff; auto).
        cbn [bind]. fold go. rewrite IHl by (intros y J; apply N; cbn; apply in_app_iff; auto). reflexivity. }
      rewrite G. reflexivity.
    - rewrite IHl, IHr by (intros y J; apply N, in_app_iff; auto). reflexivity.
    - rewrite IHl, IHr by (intros y J; apply N, in_app_iff; auto). reflexivity.
  Qed.
  Lemma derived_is : derived n m pkg = Ok dm.
  Proof.
    unfold derived, derived_message_structure, dm.
    assert (E : mapr (derived_link n m) s = Ok (map rl s)).
    { assert (H : forall t, incl t s -> mapr (derived_link n m) t = Ok (map rl t)).
      { induction t as [|l t IH]; intros T; [reflexivity|]. apply incl_cons_inv in T as [L T]. cbn [mapr].
        unfold derived_link at 1. rewrite substituted_ren.
        - cbn [bind]. rewrite (IH T). reflexivity.
        - intros x I. apply not_lit. intros k K. exact (o_negated _ _ O l x k L I K). }
      apply H, incl_refl. }
    now rewrite E.
  Qed.
  Lemma condition_clean l : In l s -> Forall clean (names (condition l)).
  Proof.
    intros L. apply Forall_forall. intros [x|a x] I; cbn.
    - apply not_qualified. intros k K E. subst. destruct (o_condition _ _ O l _ k L I K) as [H _]. now destruct H.
    - apply not_lit. intros k K E. subst. destruct (o_condition _ _ O l _ k L I K) as [_ H]. now destruct (H a).
  Qed.
  Lemma aspect_clean l e : In l s -> In e (opt_expr (lsize l) ++ opt_expr (lfirst l)) -> Forall clean (names e) /\ ren e = e.
  Proof.
    intros L E. split.
    - apply Forall_forall. intros [x|a x] I; cbn.
      + apply not_qualified. intros k K Q. subst. destruct (o_aspects _ _ O l e _ k L E I K) as [_ H]. now destruct H.
      + apply not_lit. intros k K Q. subst. destruct (o_aspects _ _ O l e _ k L E I K) as [H _]. now destruct H.
    - apply ren_id. intros x I. apply not_lit. intros k K. now destruct (o_aspects _ _ O l e x k L E I K).
  Qed.

  (** *** Structural checks *)
  Lemma enum_literals_incl : incl (map var (enum_literals dm)) (map var (enum_literals m)).
  Proof.
    intros x I. apply in_map_iff in I as (k & <- & I). apply in_map. unfold enum_literals in *. cbn [v_types v_package dm] in I.
    apply in_flat_map in I as ((f & t) & T & I). apply in_flat_map. exists (f, t). split; [exact T|]. cbn [snd] in *.
    destruct t as [[| |id ls size av]| |]; try now destruct I. apply in_flat_map in I as ((l & z) & L & I). apply in_flat_map.
    exists (l, z). split; [exact L|]. cbn [fst] in *. apply in_app_iff in I. apply in_app_iff. destruct I as [I | I]; [|now right].
    left. destruct (id_eq (package id) builtins); [exact I|]. cbn [orb] in *.
    destruct (id_eq (package id) (v_package m)) eqn:E.
    - destruct (id_eq (package id) pkg); [exact I|now destruct I].
    - destruct (o_other _ _ O _ _ _ _ _ T E) as [F _]. rewrite F in I. now destruct I.
  Qed.
  Lemma lits_enum x : In x lits -> In x (map var (enum_literals m)).
  Proof.
    intros I. apply lits_iff in I as (k & (f & id & ls & size & av & z & T & E & L) & ->). apply in_map. unfold enum_literals.
    apply in_flat_map. eexists. split; [exact T|]. cbn [snd]. apply in_flat_map. exists (k, z). split; [exact L|]. cbn [fst].
    apply in_app_iff. left. rewrite E, orb_true_r. now left.
  Qed.

  Context (fields : list field).
  Hypothesis C : construct n (graph m) = Ok ([], fields).
  Hypothesis NE : s <> [] \/ v_types m <> [].

  Lemma construct_dm : construct n (graph dm) = Ok ([], fields).
  Proof.
    unfold graph. cbn [v_structure v_types dm]. eapply construct_rl; [|exact enum_literals_incl|exact C]. apply condition_clean.
  Qed.
  Lemma validated : validate_first (graph m) = Ok [].
  Proof.
    rewrite construct_body in C.
    - unfold body in C. destruct (validate_first (graph m)) as [[|]|]; cbn [bind] in C; [reflexivity|discriminate|discriminate].
    - cbn. destruct NE as [H|H]; [now left|right]. destruct (v_types m); [now destruct H|discriminate].
  Qed.
  Lemma checked : existsb (fun f => negb (memf f (map fst (v_types m) ++ [INITIAL; FINAL]))) (map source s ++ map target s) = false /\
    existsb (fun f => memf f (map var (enum_literals m))) (map fst (v_types m) ++ [INITIAL; FINAL]) = false.
  Proof.
    pose proof validated as V. unfold validate_first in V. cbn [graph structure type_fields enum_names] in V.
    destruct (outgoing s INITIAL) as [|l out]; [discriminate|]. apply Ok_inj in V.
    apply app_eq_nil in V as [V1 V]. repeat (apply app_eq_nil in V as [_ V]).
    unfold err_if in V1, V. split.
    - destruct (existsb _ (map source s ++ map target s)); [discriminate|reflexivity].
    - destruct (existsb _ (map fst (v_types m) ++ [INITIAL; FINAL])); [discriminate|reflexivity].
  Qed.
  Definition place (f : field) : Prop := In f (map fst (v_types m) ++ [INITIAL; FINAL]).
  Lemma place_conflict f : place f -> memf f (map var (enum_literals m)) = false.
  Proof.
    intros P. destruct checked as [_ H]. destruct (memf f (map var (enum_literals m))) eqn:E; [|reflexivity].
    rewrite <- H. symmetry. apply existsb_exists. eauto.
  Qed.
  Lemma place_not_lit f : place f -> memf f lits = false.
  Proof.
    intros P. apply place_conflict in P. destruct (memf f lits) eqn:E; [|reflexivity].
    apply memf_iff, lits_enum, memf_iff in E. congruence.
  Qed.
  Lemma place_ends l : In l s -> place (source l) /\ place (target l).
  Proof.
    intros L. destruct checked as [H _].
    assert (G : forall f, In f (map source s ++ map target s) -> place f).
    { intros f I. unfold place. apply memf_iff. destruct (memf f _) eqn:E; [reflexivity|].
      rewrite <- H. apply existsb_exists. exists f. rewrite E. split; [exact I|reflexivity]. }
    split; apply G, in_app_iff; [left|right]; now apply in_map.
  Qed.
  Lemma place_no_colon f : place f -> has_char ":" f = false.
  Proof.
    intros P. apply in_app_iff in P as [P|[<-|[<-|[]]]]; try reflexivity. apply in_map_iff in P as ((g & t) & <- & P).
    exact (o_field _ _ O g t P).
  Qed.

  (** *** Facts *)
  Ltac attr_clean := repeat (constructor; cbn; auto using message_not_lit, place_not_lit).
  Lemma ren_attr a x b : memf x lits = false -> ren (EName (NAttr a x) b) = EName (NAttr a x) b.
  Proof. intros H. apply ren_id. intros y [<-|[]]. exact H. Qed.
  Lemma rename_attr a x : memf x lits = false -> ren_name lits pk (NAttr a x) = NAttr a x.
  Proof. intros H. unfold ren_name. cbn [id_of]. rewrite rho_out by exact H. reflexivity. Qed.
  Lemma target_first_ren l : In l s -> target_first (rl l) = target_first l /\ ren (target_first l) = target_first l /\
    Forall clean (names (target_first l)).
  Proof.
    intros L. destruct (place_ends l L) as [S T]. split; [reflexivity|]. unfold target_first.
    destruct (source l =? INITIAL)%string.
    - split; [apply ren_attr, message_not_lit|attr_clean].
    - destruct (lfirst l) as [e|] eqn:E.
      + destruct (aspect_clean l e L); [|now split]. rewrite E. apply in_app_iff. right. now left.
      + unfold ELast. cbn [DerivedFacts.ren map]. split; [|attr_clean]. do 2 f_equal. apply ren_attr. now apply place_not_lit.
  Qed.
  Lemma target_size_ren l : In l s -> target_size dm fields (rl l) = target_size m fields l /\
    forall e, target_size m fields l = Ok (Some e) -> ren e = e /\ Forall clean (names e).
  Proof.
    intros L. split; [reflexivity|]. intros e E. unfold target_size, field_size in E. destruct (lsize l) as [e'|] eqn:Z.
    - apply Ok_inj in E. injection E as ->. destruct (aspect_clean l e L); [|now split]. rewrite Z. now left.
    - assert (D : exists z, e = ENum z).
      { destruct (target l =? FINAL)%string; [apply Ok_inj in E; injection E as <-; eauto|].
        destruct (negb (memf (target l) fields)); [discriminate|]. destruct (lookup (v_types m) (target l)) as [[t| |id]|]; try discriminate.
        apply Ok_inj in E. injection E as <-. eauto. }
      destruct D as [z ->]. split; [reflexivity|constructor].
  Qed.
  Lemma target_last_ren l : In l s -> target_last dm fields (rl l) = target_last m fields l /\
    forall e, target_last m fields l = Ok e -> ren e = e /\ Forall clean (names e).
  Proof.
    intros L. unfold target_last. destruct (target_size_ren l L) as [E H], (target_first_ren l L) as (E1 & F1 & F2).
    rewrite E, E1. split; [reflexivity|]. intros e T. dok T o Eo. destruct o as [z|]; [|discriminate]. cbn [needed bind] in T.
    apply Ok_inj in T. subst e. destruct (H z eq_refl) as [Z1 Z2]. unfold last_expr. cbn [DerivedFacts.ren map names flat_map].
    rewrite F1, Z1. split; [reflexivity|]. rewrite !app_nil_r. now apply Forall_app.
  Qed.
  Lemma expression_list_ren e : expression_list (ren e) = map ren (expression_list e).
  Proof. destruct e as [ | | | | |o ts| | ]; try reflexivity. destruct o; reflexivity. Qed.
  Lemma expression_list_clean e : Forall clean (names e) -> forall x, In x (expression_list e) -> Forall clean (names x).
  Proof.
    intros F x I. destruct e as [ | | | | |o ts| | ]; try (destruct I as [<-|[]]; exact F).
    destruct o; try (destruct I as [<-|[]]; exact F); cbn in F; apply Forall_forall; intros y J; rewrite Forall_forall in F;
      apply F, in_flat_map; eauto.
  Qed.

  (** facts that are renamed *)
  Definition renames (r r' : res (list expr)) : Prop :=
    r' = rmap (map ren) r /\ forall fs, r = Ok fs -> forall e, In e fs -> Forall clean (names e).
  Lemma link_expression_ren l : In l s -> renames (link_expression m fields l) (link_expression dm fields (rl l)).
  Proof.
    intros L. destruct (place_ends l L) as [S T]. destruct (target_size_ren l L) as [E H], (target_first_ren l L) as (E1 & F1 & F2).
    apply place_not_lit in T. pose proof message_not_lit as MN.
    unfold link_expression. rewrite E, E1. change (target (rl l)) with (target l). change (condition (rl l)) with (ren (condition l)).
    destruct (target_size m fields l) as [o|w]; cbn [bind]; [|split; [reflexivity|discriminate]].
    split.
    - cbn [rmap]. f_equal. rewrite expression_list_ren, !map_app. cbn [map DerivedFacts.ren EFirst ESize ELast].
      rewrite F1, !rename_attr by assumption. destruct o as [z|]; [|reflexivity].
      cbn [map last_expr DerivedFacts.ren ESize ELast]. rewrite F1, !rename_attr by assumption. destruct (H z eq_refl) as [-> _]. reflexivity.
    - intros fs Q. apply Ok_inj in Q. subst fs. intros e I.
      apply in_app_iff in I as [[<-|[]] | I]; [cbn [names EFirst app]; constructor; [exact T|exact F2]|].
      apply in_app_iff in I as [I | I].
      + destruct o as [z|]; [|destruct I]. destruct (H z eq_refl) as [_ Z].
        destruct I as [<-|[<-|[]]]; cbn [names ESize ELast last_expr app flat_map]; constructor; try exact T; try exact Z.
        rewrite !app_nil_r. now apply Forall_app.
      + apply in_app_iff in I as [I | I]; [|exact (expression_list_clean _ (condition_clean l L) e I)].
        destruct I as [<-|[<-|[<-|[<-|[]]]]]; cbn; repeat constructor; assumption.
  Qed.
  Lemma path_facts_ren p : incl p s -> renames (path_facts m fields p) (path_facts dm fields (map rl p)).
  Proof.
    intros P. unfold path_facts. rewrite mapr_map.
    rewrite (mapr_ext (fun l => link_expression dm fields (rl l)) (fun l => rmap (map ren) (link_expression m fields l))).
    2:{ intros l I. apply link_expression_ren, P, I. }
    rewrite mapr_rmap. destruct (mapr (link_expression m fields) p) as [fs|] eqn:E; cbn [rmap bind]; [|split; [reflexivity|discriminate]].
    split; [cbn; now rewrite concat_map|]. intros gs Q. apply Ok_inj in Q. subst gs. intros e I. apply in_concat in I as (f & F & I).
    apply (mapr_In _ _ _ E) in F as (l & L & F). destruct (link_expression_ren l (P l L)) as [_ H]. exact (H f F e I).
  Qed.
  Lemma reached_facts_ren f p : incl p s -> renames (reached_facts m fields f p) (reached_facts dm fields f (map rl p)).
  Proof.
    intros P. destruct (path_facts_ren p P) as [E H]. unfold reached_facts. rewrite E.
    destruct (path_facts m fields p) as [fs|]; cbn [rmap bind]; [|split; [reflexivity|discriminate]].
    cbn [v_structure dm]. rewrite outgoing_rl. split.
    - cbn [rmap]. rewrite map_app. do 2 f_equal. destruct (f =? FINAL)%string; [reflexivity|].
      destruct (outgoing s f) as [|l out]; [reflexivity|]. cbn [map DerivedFacts.ren]. rewrite !map_map. reflexivity.
    - intros gs Q. apply Ok_inj in Q. subst gs. intros e I. apply in_app_iff in I as [I | I]; [exact (H fs eq_refl e I)|].
      destruct (f =? FINAL)%string; [destruct I|]. destruct (outgoing s f) as [|l out] eqn:OUT; [destruct I|]. destruct I as [<-|[]].
      cbn [names]. apply Forall_forall. intros x X. apply in_flat_map in X as (c & X & J). apply in_map_iff in X as (k & <- & K).
      rewrite <- OUT in K. unfold outgoing in K. apply filter_In in K as [K _]. pose proof (condition_clean k K) as F.
      rewrite Forall_forall in F. now apply F.
  Qed.

  (** *** Constraints of types *)
  Definition enum_constraints (x : string) (ns : list (ident * Z)) (size : Z) : list expr :=
    [EAss OOr (map (fun kv => ERel OEq (EVar x) (EVarI (fst kv))) ns)]
    ++ map (fun kv => ERel OEq (EVarI (fst kv)) (ENum (snd kv))) ns
    ++ [ERel OEq (EName (NAttr ASize x) false) (ENum size)].
  Definition cl (t : scalar) (x : string) (b : bool) : list expr :=
    match t with
    | Modular _ modulus _ size =>
      [ERel OLt (EVar x) modulus; ERel OGe (EVar x) (ENum 0); ERel OEq (EName (NAttr ASize x) false) (ENum size)]
    | Range _ f l size =>
      [ERel OGe (EVar x) (ENum f); ERel OLe (EVar x) (ENum l); ERel OEq (EName (NAttr ASize x) false) (ENum size)]
    | Enum id ls size _ => enum_constraints x (literal_names id ls b) size
    end.
  Lemma constraints_cl t x b : constraints n t x true b = Ok (cl t x b).
  Proof. destruct t; reflexivity. Qed.

  Lemma enum_models i x ns size : models i (enum_constraints x ns size) <->
    (exists k z, In (k, z) ns /\ z_name i (NVar x) = z_name i (NVar (var k))) /\
    (forall k z, In (k, z) ns -> z_name i (NVar (var k)) = z) /\ z_name i (NAttr ASize x) = size.
  Proof.
    unfold enum_constraints. rewrite models_app, models_app, models_cons, models_cons.
    assert (A : zeval i (EAss OOr (map (fun kv => ERel OEq (EVar x) (EVarI (fst kv))) ns)) = VBool true <->
      exists k z, In (k, z) ns /\ z_name i (NVar x) = z_name i (NVar (var k))).
    { cbn [zeval]. rewrite map_map. split.
      - intros H. injection H as H. apply existsb_exists in H as (v & I & T). apply in_map_iff in I as ((k & z) & <- & I). exists k, z.
        split; [exact I|]. cbn in T. now apply Z.eqb_eq in T.
      - intros (k & z & I & E). f_equal. apply existsb_exists. eexists. split; [apply in_map; exact I|]. cbn. now apply Z.eqb_eq. }
    assert (B : models i (map (fun kv => ERel OEq (EVarI (fst kv)) (ENum (snd kv))) ns) <->
      forall k z, In (k, z) ns -> z_name i (NVar (var k)) = z).
    { split.
      - intros M k z I. specialize (M (ERel OEq (EVarI k) (ENum z))). cbn in M. apply Z.eqb_eq.
        assert (Q : VBool (z_name i (NVar (var k)) =? z) = VBool true); [|now injection Q].
        apply M. apply in_map_iff. now exists (k, z).
      - intros H e I. apply in_map_iff in I as ((k & z) & <- & I). cbn. f_equal. apply Z.eqb_eq. now apply H. }
    assert (D : zeval i (ERel OEq (EName (NAttr ASize x) false) (ENum size)) = VBool true <-> z_name i (NAttr ASize x) = size).
    { cbn. split; [intros H; injection H as H; now apply Z.eqb_eq in H|intros ->; now rewrite Z.eqb_refl]. }
    rewrite A, B, D. split; [intros ((? & _) & ? & ? & _)|intros (? & ? & ?)]; repeat split; auto using models_nil.
  Qed.
  Lemma ferr_none (fs : list expr) : (forall e, In e fs -> formula e = Ok tt) -> ferr fs = None.
  Proof.
    induction fs as [|e fs IH]; intros H; [reflexivity|]. cbn [ferr]. rewrite (H e) by now left. apply IH. intros x I. apply H. now right.
  Qed.
  Lemma ferr_enum x ns size : ferr (enum_constraints x ns size) = match ns with [] => Some "Z3Exception" | _ => None end.
  Proof.
    unfold enum_constraints. destruct ns as [|kv ns]; [reflexivity|]. rewrite ferr_app, ferr_app.
    assert (A : formula (EAss OOr (map (fun kv => ERel OEq (EVar x) (EVarI (fst kv))) (kv :: ns))) = Ok tt).
    { unfold formula. cbn [sort_of boolean_op]. rewrite map_map.
      assert (S : forall l : list (ident * Z), sequence (map (fun kv => sort_of (ERel OEq (EVar x) (EVarI (fst kv)))) l) = Ok (map (fun _ => ZBool) l)).
      { induction l as [|y l IH]; [reflexivity|]. cbn [map sequence]. rewrite IH. reflexivity. }
      rewrite S. cbn [bind]. rewrite map_length.
      assert (F : forall l : list (ident * Z), forallb (zsort_eqb ZBool) (map (fun _ => ZBool) l) = true).
      { induction l as [|y l IH]; [reflexivity|exact IH]. }
      rewrite F. reflexivity. }
    cbn [ferr]. rewrite A. rewrite ferr_none; [reflexivity|]. intros e I. apply in_map_iff in I as (y & <- & _). reflexivity.
  Qed.

  Lemma part_same fs : (forall e x, In e fs -> In x (names e) -> memf (id_of x) lits = false /\ clean x) -> part fs fs.
  Proof.
    intros H. assert (E : map ren fs = fs).
    { rewrite <- (map_id fs) at 2. apply map_ext_in. intros e I. apply ren_id. intros x J. now apply (H e x I J). }
    rewrite <- E at 2. apply part_ren. intros e I. apply Forall_forall. intros x J. now apply (H e x I J).
  Qed.
  Lemma part_concat {A} (f f' : A -> list expr) l : (forall x, In x l -> part (f x) (f' x)) ->
    part (concat (map f l)) (concat (map f' l)).
  Proof.
    induction l as [|x l IH]; intros H; cbn; [apply part_same; intros e ? []|]. apply part_app; [apply H; now left|].
    apply IH. intros y I. apply H. now right.
  Qed.
  Lemma place_clean x : place x -> memf x lits = false /\ clean (NVar x).
  Proof. intros P. split; [now apply place_not_lit|]. now apply plain_unprefixed, place_no_colon. Qed.

  Lemma own_part id ls size x b : place x -> id_eq (package id) (v_package m) = true ->
    (forall k z, In (k, z) ls -> own_literal m k) ->
    part (enum_constraints x (literal_names id ls true) size) (enum_constraints x (literal_names id ls b) size).
  Proof.
    intros P E OWN. destruct (place_clean x P) as [NL CX]. cbn in CX.
    assert (NB : id_eq (package id) builtins = false).
    { rewrite <- (id_eq_trans _ _ _ E). apply (o_package _ _ O). }
    unfold literal_names. rewrite NB.
    set (ps := map (fun kv => (package id ++ fst kv, snd kv)) ls).
    assert (V : forall k, own_literal m k -> var (package id ++ k) = prefixed pk (var k)).
    { intros k K. destruct (o_literal _ _ O k K) as (N & _). rewrite var_app; [|destruct (package id)|exact N].
      - unfold prefixed, pk. now rewrite (id_eq_lower _ _ E).
      - apply P_IdentErrors.id_eq_hash in E. unfold id_hash in E. destruct (v_package m) eqn:VP; [|discriminate]. destruct (o_package _ _ O) as [H _]. now destruct H.
      - discriminate. }
    assert (PS : forall k z, In (k, z) ps <-> exists k0, k = package id ++ k0 /\ In (k0, z) ls).
    { intros k z. unfold ps. rewrite in_map_iff. split.
      - intros ((k0 & z0) & Q & I). cbn in Q. injection Q as <- <-. eauto.
      - intros (k0 & -> & I). exists (k0, z). now split. }
    assert (PR : forall i k, own_literal m k -> z_name (pull lits pk i) (NVar (var k)) = z_name i (NVar (prefixed pk (var k)))).
    { intros i k K. cbn. rewrite rho_in; [reflexivity|]. apply lits_iff. eauto. }
    assert (PRP : forall i k, z_name (pull lits pk i) (NVar (prefixed pk k)) = z_name i (NVar (prefixed pk k))).
    { intros i k. cbn. rewrite rho_out; [reflexivity|]. apply colon_not_lit, has_colon. }
    assert (PX : forall i, z_name (pull lits pk i) (NVar x) = z_name i (NVar x)).
    { intros i. cbn. now rewrite rho_out. }
    assert (PSZ : forall i, z_name (pull lits pk i) (NAttr ASize x) = z_name i (NAttr ASize x)).
    { intros i. cbn. now rewrite rho_out. }
    assert (QR : forall j k, own_literal m k -> z_name (push lits pk j) (NVar (prefixed pk (var k))) = z_name j (NVar (var k))).
    { intros j k K. cbn. rewrite unprefixed_prefixed; [reflexivity|]. apply lits_iff. eauto. }
    assert (QX : forall j y, has_char ":" y = false -> z_name (push lits pk j) (NVar y) = z_name j (NVar y)).
    { intros j y Y. cbn. now rewrite plain_unprefixed. }
    split.
    - rewrite !ferr_enum. unfold ps. destruct ls, b; reflexivity.
    - intros i. rewrite !enum_models. intros (X & Y & Z).
      assert (YP : forall k z, In (k, z) ls -> z_name i (NVar (prefixed pk (var k))) = z).
      { intros k z I. rewrite <- V by eauto. apply Y. destruct b; [apply in_app_iff; right|]; apply PS; eauto. }
      split; [|split].
      + destruct X as (k & z & I & X). rewrite PX.
        assert (D : (exists k0, k = package id ++ k0 /\ In (k0, z) ls) \/ (In (k, z) ls /\ b = true)).
        { destruct b; [apply in_app_iff in I as [I|I]|]; auto; left; now apply PS. }
        destruct D as [(k0 & -> & J) | [J ->]].
        * exists k0, z. split; [apply in_app_iff; now left|]. rewrite PR by eauto. now rewrite X, V by eauto.
        * exists k, z. split; [apply in_app_iff; now left|]. rewrite PR by eauto. rewrite X, (YP k z J). apply Y.
          apply in_app_iff. now left.
      + intros k z I. apply in_app_iff in I as [I|I].
        * rewrite PR by eauto. now apply YP.
        * apply PS in I as (k0 & -> & I). rewrite V by eauto. rewrite PRP. now apply YP.
      + now rewrite PSZ.
    - intros j. rewrite !enum_models. intros (X & Y & Z).
      assert (YL : forall k z, In (k, z) ls -> z_name j (NVar (var k)) = z).
      { intros k z I. apply Y, in_app_iff. now left. }
      assert (YP : forall k z, In (k, z) ls -> z_name j (NVar (prefixed pk (var k))) = z).
      { intros k z I. rewrite <- V by eauto. apply Y, in_app_iff. right. apply PS. eauto. }
      split; [|split].
      + rewrite (QX j x) by now apply place_no_colon.
        assert (D : exists k0 z0, In (k0, z0) ls /\ z_name j (NVar x) = z0).
        { destruct X as (k & z & I & X). apply in_app_iff in I as [I|I].
          - exists k, z. split; [exact I|]. now rewrite X, (YL k z I).
          - apply PS in I as (k0 & -> & I). exists k0, z. split; [exact I|]. rewrite X, V by eauto. now apply YP. }
        destruct D as (k0 & z0 & I & D). exists (package id ++ k0), z0. split.
        * destruct b; [apply in_app_iff; right|]; apply PS; eauto.
        * rewrite V, QR by eauto. now rewrite D, (YL _ _ I).
      + intros k z I.
        assert (D : (exists k0, k = package id ++ k0 /\ In (k0, z) ls) \/ In (k, z) ls).
        { destruct b; [apply in_app_iff in I as [I|I]|]; auto; left; now apply PS. }
        destruct D as [(k0 & -> & J) | J].
        * rewrite V, QR by eauto. now apply YL.
        * rewrite QX; [now apply YL|]. now apply (o_literal _ _ O), (OWN k z).
      + exact Z.
  Qed.

  Definition same_in (pk' : ident) (t : scalar) : bool := id_eq pk' (package (type_id t)).
  Lemma scalar_part f t : In (f, MScalar t) (v_types m) ->
    part (cl t f (same_in (v_package m) t)) (cl t f (same_in pkg t)).
  Proof.
    intros I. assert (P : place f) by (apply in_app_iff; left; apply in_map_iff; now exists (f, MScalar t)).
    destruct (place_clean f P) as [NL CX].
    assert (S : forall e x, In x (names e) -> x = NVar f \/ x = NAttr ASize f -> memf (id_of x) lits = false /\ clean x).
    { intros e x _ [-> | ->]; now split. }
    destruct t as [id modulus v size|id a b size|id ls size av]; cbn [cl].
    - apply part_same. intros e x E X. pose proof (o_modulus _ _ O _ _ _ _ _ I) as N.
      destruct E as [<-|[<-|[<-|[]]]]; cbn in X; rewrite ?N in X; cbn in X; destruct X as [<-|[]]; now split.
    - apply part_same. intros e x E X. destruct E as [<-|[<-|[<-|[]]]]; cbn in X; destruct X as [<-|[]]; now split.
    - unfold same_in. cbn [type_id]. destruct (id_eq (package id) (v_package m)) eqn:E.
      + rewrite (id_eq_sym (v_package m)), E. apply own_part; [exact P|exact E|]. intros k z J. exists f, id, ls, size, av, z. auto.
      + rewrite (id_eq_sym (v_package m)), E. destruct (o_other _ _ O _ _ _ _ _ I E) as [F H]. rewrite (id_eq_sym pkg), F.
        assert (K : forall k z, In (k, z) (literal_names id ls false) -> memf (var k) lits = false /\ clean (NVar (var k))).
        { intros k z J. split; [apply not_lit; intros k' K'; now apply (H k z k' J K')|]. cbn. apply not_qualified. intros k' K'. now apply (H k z k' J K'). }
        apply part_same. intros e x J X. unfold enum_constraints in J. apply in_app_iff in J as [[<-|[]]|J].
        * cbn [names] in X. apply in_flat_map in X as (c & X & Y). apply in_map_iff in X as ((k & z) & <- & X).
          cbn in Y. destruct Y as [<-|[<-|[]]]; [now split|exact (K k z X)].
        * apply in_app_iff in J as [J|[<-|[]]].
          -- apply in_map_iff in J as ((k & z) & <- & J). cbn in X. destruct X as [<-|[]]. exact (K k z J).
          -- cbn in X. destruct X as [<-|[]]; now split.
  Qed.

  Definition field_constraints (pk' : ident) (kv : field * mtype) : list expr :=
    match snd kv with
    | MScalar t => if memf (fst kv) [MESSAGE; FINAL] then [] else cl t (fst kv) (same_in pk' t)
    | _ => []
    end.
  Definition message_constraints : list expr :=
    [ERel OEq (EBin OMod (EFirst MESSAGE) (ENum 8)) (ENum 1); ERel OEq (EBin OMod (ESize MESSAGE) (ENum 8)) (ENum 0)].
  Definition type_size_constraints : list expr :=
    flat_map (fun kv => match snd kv with
                        | MScalar t => [ERel OEq (ESize (var (fst kv))) (ENum (type_size t))]
                        | _ => []
                        end) (type_literals m).
  Definition tc (pk' : ident) : list expr :=
    message_constraints ++ concat (map (field_constraints pk') (v_types m)) ++ type_size_constraints.
  Lemma mapr_ok {A B} (f : A -> res B) (g : A -> B) l : (forall x, In x l -> f x = Ok (g x)) -> mapr f l = Ok (map g l).
  Proof.
    induction l as [|x l IH]; intros H; [reflexivity|]. cbn [mapr]. rewrite H by now left. cbn [bind]. rewrite IH; [reflexivity|].
    intros y I. apply H. now right.
  Qed.
  Lemma type_constraints_of (k : vmessage) : v_types k = v_types m ->
    (forall f t, In (f, t) (v_types m) -> memf f (map var (enum_literals k)) = false) ->
    type_constraints n k = Ok (tc (v_package k)).
  Proof.
    intros T H. unfold type_constraints. rewrite T. rewrite (mapr_ok _ (field_constraints (v_package k))).
    - cbn [bind]. unfold type_literals. rewrite T. reflexivity.
    - intros (f & t) I. cbn [fst snd]. unfold field_constraints. cbn [fst snd]. rewrite (H f t I), orb_false_l.
      destruct t as [t| |]; [|reflexivity|reflexivity]. rewrite constraints_cl. unfold same_in. destruct (memf f [MESSAGE; FINAL]); reflexivity.
  Qed.
  Lemma tc_base : type_constraints n m = Ok (tc (v_package m)).
  Proof.
    apply type_constraints_of; [reflexivity|]. intros f t I. apply place_conflict, in_app_iff. left. apply in_map_iff. now exists (f, t).
  Qed.
  Lemma tc_derived : type_constraints n dm = Ok (tc pkg).
  Proof.
    apply (type_constraints_of dm); [reflexivity|]. intros f t I. destruct (memf f (map var (enum_literals dm))) eqn:E; [|reflexivity].
    apply memf_iff, enum_literals_incl, memf_iff in E. rewrite place_conflict in E; [discriminate|].
    apply in_app_iff. left. apply in_map_iff. now exists (f, t).
  Qed.
  Lemma type_literals_in k t : In (k, t) (type_literals m) -> exists f, In (f, t) (v_types m) /\ var k = type_name t.
  Proof.
    intros I. unfold type_literals, unique in I. apply in_unique_aux in I. apply in_map_iff in I as ((f & t') & E & I). cbn [snd] in E.
    injection E as <- <-. exists f. split; [exact I|reflexivity].
  Qed.
  Lemma tc_part : part (tc (v_package m)) (tc pkg).
  Proof.
    unfold tc. apply part_app; [|apply part_app].
    - apply part_same. pose proof message_not_lit. intros e x [<-|[<-|[]]] X; cbn in X; destruct X as [<-|[]]; now split.
    - apply part_concat. intros (f & t) I. unfold field_constraints. cbn [fst snd]. destruct t as [t| |]; try (apply part_same; intros ? ? []).
      destruct (memf f [MESSAGE; FINAL]); [apply part_same; intros ? ? []|]. now apply scalar_part.
    - apply part_same. intros e x E X. unfold type_size_constraints in E. apply in_flat_map in E as ((k & t) & E & J). cbn [snd] in J.
      destruct t as [t| |]; try now destruct J. destruct J as [<-|[]]. cbn [names ESize app] in X. destruct X as [<-|[]]. cbn [id_of].
      apply type_literals_in in E as (f & I & E). cbn [fst]. rewrite E. assert (L : memf (type_name (MScalar t)) lits = false).
      { apply not_lit. intros k' K. exact (o_type _ _ O f _ k' I K). }
      now split.
  Qed.

  (** *** Types of expressions *)
  Section Typed.
    Variables g g' : ExprType.tenv.
    Hypothesis G : forall x, g' (rho lits pk x) = g x.
    Lemma new_type_ren e : ExprType.new_type g' (ren e) = ExprType.new_type g e.
    Proof.
      induction e as [ | |z|x b|a IH|o ts IH|o l r IHl IHr|o l r IHl IHr] using expr_ind'; cbn [ExprType.new_type DerivedFacts.ren]; auto.
      - destruct x as [x|a x]; cbn; [apply G|reflexivity].
      - assert (E : map (ExprType.new_type g') (map ren ts) = map (ExprType.new_type g) ts).
        { rewrite map_map. rewrite Forall_forall in IH. now apply map_ext_in. }
        destruct o; rewrite ?E; reflexivity.
      - now rewrite IHl, IHr.
    Qed.
    Lemma type_of_ren e : ExprType.type_of g' (ren e) = ExprType.type_of g e.
    Proof.
      induction e as [ | |z|x b|a IH|o ts IH|o l r IHl IHr|o l r IHl IHr] using expr_ind'; cbn [ExprType.type_of DerivedFacts.ren]; auto.
      - destruct x as [x|a x]; cbn; [apply G|reflexivity].
      - exact (new_type_ren (EAss o ts)).
      - now rewrite IHl, IHr.
    Qed.
  End Typed.
  Lemma untyped_type_ren e : ExprType.type_of ExprType.untyped (ren e) = ExprType.type_of ExprType.untyped e.
  Proof. now apply type_of_ren. Qed.
  Lemma subexpr_ren e : forall g g', (forall x, g' (rho lits pk x) = g x) ->
    ExprType.subexpr_errors g' (ren e) = ExprType.subexpr_errors g e.
  Proof.
    induction e as [ | |z|x b|a IH|o ts IH|o l r IHl IHr|o l r IHl IHr] using expr_ind'; intros g g' G;
      cbn [ExprType.subexpr_errors DerivedFacts.ren]; auto.
    - destruct x as [x|a x]; cbn; [reflexivity|]. now rewrite G.
    - rewrite untyped_type_ren. f_equal. now apply IH.
    - assert (E : forall k : list string -> Typing.ty -> list string,
        flat_map (fun t => k (ExprType.subexpr_errors g' t) (ExprType.type_of g' t)) (map ren ts) =
        flat_map (fun t => k (ExprType.subexpr_errors g t) (ExprType.type_of g t)) ts).
      { intros k. induction IH as [|x l Hx HF IHl]; [reflexivity|]. cbn [map flat_map]. now rewrite IHl, (Hx g g' G), (type_of_ren g g' G). }
      destruct o; first [exact (E (fun es t => es ++ Typing.check_type_instance t [Typing.CAnyInteger]))
                        |exact (E (fun es t => es ++ ExprType.expect t Typing.BOOLEAN))].
    - now rewrite (IHl g g' G), (IHr g g' G), !(type_of_ren g g' G).
    - destruct o; now rewrite (IHl g g' G), (IHr g g' G), !(type_of_ren g g' G).
  Qed.
  Lemma check_expr_ren g g' e t : (forall x, g' (rho lits pk x) = g x) -> ExprType.check_expr g' (ren e) t = ExprType.check_expr g e t.
  Proof. intros G. unfold ExprType.check_expr. now rewrite (subexpr_ren e g g' G), (type_of_ren g g' G). Qed.

  Lemma find_hd {A} (p : A -> bool) l : find p l = hd_error (filter p l).
  Proof. induction l as [|x l IH]; cbn; [reflexivity|]. destruct (p x); [reflexivity|exact IH]. Qed.
  Lemma filter_flat {A B} (p : B -> bool) (f : A -> list B) l : filter p (flat_map f l) = flat_map (fun x => filter p (f x)) l.
  Proof. induction l as [|x l IH]; cbn; [reflexivity|]. now rewrite filter_app, IH. Qed.
  Lemma flat_map_ext_in {A B} (f g : A -> list B) l : (forall x, In x l -> f x = g x) -> flat_map f l = flat_map g l.
  Proof.
    induction l as [|x l IH]; intros H; [reflexivity|]. cbn. rewrite H by now left. rewrite IH; [reflexivity|]. intros y I. apply H. now right.
  Qed.
  Lemma filter_none {A} (p : A -> bool) l : (forall x, In x l -> p x = false) -> filter p l = [].
  Proof.
    induction l as [|x l IH]; intros H; [reflexivity|]. cbn. rewrite H by now left. apply IH. intros y I. apply H. now right.
  Qed.
  Lemma filter_rev' {A} (p : A -> bool) l : filter p (rev l) = rev (filter p l).
  Proof. induction l as [|x l IH]; [reflexivity|]. cbn. rewrite filter_app, IH. cbn. destruct (p x); [reflexivity|]. apply app_nil_r. Qed.

  Local Notation keyed x := (fun kv : string * Typing.ty => String.eqb (fst kv) x).
  Lemma own_enum f id ls size av : In (f, MScalar (Enum id ls size av)) (v_types m) -> id_eq (package id) (v_package m) = true ->
    id_eq (package id) builtins = false /\ forall k z, In (k, z) ls -> own_literal m k /\ var (package id ++ k) = prefixed pk (var k).
  Proof.
    intros I E.
    assert (NB : id_eq (package id) builtins = false) by (rewrite <- (id_eq_trans _ _ _ E); apply (o_package _ _ O)).
    split; [exact NB|]. intros k z J. assert (K : own_literal m k) by (exists f, id, ls, size, av, z; auto). split; [exact K|].
    destruct (o_literal _ _ O k K) as (N & _). rewrite var_app; [|destruct (package id)|exact N].
    - unfold prefixed, pk. now rewrite (id_eq_lower _ _ E).
    - apply P_IdentErrors.id_eq_hash in E. unfold id_hash in E. destruct (v_package m) eqn:VP; [|discriminate].
      destruct (o_package _ _ O) as [H _]. now destruct H.
    - discriminate.
  Qed.
  (** the entries of an enumeration *)
  Lemma other_entries x : memf x lits = false ->
    filter (keyed x) (enum_literal_types dm) = filter (keyed x) (enum_literal_types m).
  Proof.
    intros X. unfold enum_literal_types. cbn [v_types v_package dm]. rewrite !filter_flat. apply flat_map_ext_in.
    intros (f & t) I. cbn [snd]. destruct t as [[| |id ls size av]| |]; try reflexivity.
    rewrite !filter_flat. apply flat_map_ext_in. intros (k & z) J. cbn [fst]. rewrite !filter_app. f_equal.
    destruct (id_eq (package id) (v_package m)) eqn:E.
    - destruct (own_enum f id ls size av I E) as [NB OWN]. rewrite NB. cbn [orb]. destruct (OWN k z J) as [K _].
      rewrite (filter_none (keyed x) [(var k, _)]).
      + destruct (id_eq (package id) pkg); [|reflexivity]. apply filter_none. intros ? [<-|[]]. cbn [fst].
        destruct (String.eqb (var k) x) eqn:Q; [|reflexivity]. apply String.eqb_eq in Q. subst x.
        assert (In (var k) lits) as L by (apply lits_iff; eauto). apply memf_iff in L. congruence.
      + intros ? [<-|[]]. cbn [fst]. destruct (String.eqb (var k) x) eqn:Q; [|reflexivity]. apply String.eqb_eq in Q. subst x.
        assert (In (var k) lits) as L by (apply lits_iff; eauto). apply memf_iff in L. congruence.
    - destruct (o_other _ _ O _ _ _ _ _ I E) as [F _]. now rewrite F.
  Qed.
  Lemma own_entries x : In x lits ->
    map snd (filter (keyed (prefixed pk x)) (enum_literal_types dm)) = map snd (filter (keyed x) (enum_literal_types m)).
  Proof.
    intros X. unfold enum_literal_types. cbn [v_types v_package dm]. rewrite !filter_flat. rewrite !flat_map_concat_map, !concat_map, !map_map.
    f_equal. apply map_ext_in. intros (f & t) I. cbn [snd]. destruct t as [[| |id ls size av]| |]; try reflexivity.
    rewrite !filter_flat, !flat_map_concat_map, !concat_map, !map_map. f_equal. apply map_ext_in. intros (k & z) J. cbn [fst].
    rewrite !filter_app, !map_app. set (ty := rtype _).
    destruct (id_eq (package id) (v_package m)) eqn:E.
    - destruct (own_enum f id ls size av I E) as [NB OWN]. rewrite NB. cbn [orb]. destruct (OWN k z J) as [K V]. rewrite V.
      assert (A : filter (keyed (prefixed pk x)) (if id_eq (package id) pkg then [(var k, ty)] else []) = []).
      { apply filter_none. intros kv Q. destruct (id_eq (package id) pkg); [|destruct Q]. destruct Q as [<-|[]]. cbn [fst].
        apply String.eqb_neq. intros Q. assert (H : has_char ":" (var k) = true) by (rewrite Q; apply has_colon).
        destruct (o_literal _ _ O k K) as (_ & N & _). congruence. }
      assert (B : filter (keyed x) [(prefixed pk (var k), ty)] = []).
      { apply filter_none. intros kv [<-|[]]. cbn [fst]. apply String.eqb_neq. intros Q. apply lit_no_colon in X. rewrite <- Q, has_colon in X. discriminate. }
      rewrite A, B. cbn [map app filter fst]. rewrite app_nil_r.
      assert (D : String.eqb (prefixed pk (var k)) (prefixed pk x) = String.eqb (var k) x).
      { destruct (String.eqb (var k) x) eqn:Q.
        - apply String.eqb_eq in Q. subst. apply String.eqb_refl.
        - apply String.eqb_neq in Q. apply String.eqb_neq. intros R. apply Q. now apply prefixed_inj in R. }
      rewrite D. destruct (String.eqb (var k) x); reflexivity.
    - destruct (o_other _ _ O _ _ _ _ _ I E) as [F H]. rewrite F. apply lits_iff in X as (k' & K' & ->).
      assert (N : forall y, In (y, z) (literal_names id ls false) -> String.eqb (var y) (var k') = false /\ String.eqb (var y) (prefixed pk (var k')) = false).
      { intros y Y. destruct (H y z k' Y K') as [H1 H2]. rewrite qualified_prefixed in H2 by exact K'. split; now apply String.eqb_neq. }
      unfold literal_names in N. destruct (id_eq (package id) builtins).
      + destruct (N k J) as [N1 N2]. cbn [orb filter fst]. now rewrite N1, N2.
      + destruct (N (package id ++ k)) as [N1 N2]; [apply in_map_iff; now exists (k, z)|]. cbn [orb filter fst]. now rewrite N1, N2.
  Qed.
  Lemma typed_ren seen x : (forall f, In f seen -> place f) -> typed_variable dm seen (rho lits pk x) = typed_variable m seen x.
  Proof.
    intros S. unfold typed_variable. change (v_types dm) with (v_types m). change (type_literals dm) with (type_literals m).
    rewrite !find_hd, !filter_rev'. destruct (memf x lits) eqn:L.
    - apply memf_iff in L. rewrite (rho_in _ _ _ L).
      assert (A : String.eqb (prefixed pk x) MESSAGE = false).
      { apply String.eqb_neq. intros Q. assert (H : has_char ":" MESSAGE = true) by (rewrite <- Q; apply has_colon). discriminate. }
      assert (B : String.eqb x MESSAGE = false).
      { apply String.eqb_neq. intros ->. pose proof message_not_lit as Q. apply memf_iff in L. congruence. }
      assert (D : memf (prefixed pk x) seen = false).
      { destruct (memf (prefixed pk x) seen) eqn:Q; [|reflexivity]. apply memf_iff, S, place_no_colon in Q. rewrite has_colon in Q. discriminate. }
      assert (E : memf x seen = false).
      { destruct (memf x seen) eqn:Q; [|reflexivity]. apply memf_iff, S, place_not_lit in Q. apply memf_iff in L. congruence. }
      rewrite A, B, D, E. pose proof (own_entries x L) as EQ.
      assert (NEM : filter (keyed x) (enum_literal_types m) <> []).
      { apply lits_iff in L as (k & (f & id & ls & size & av & z & T & Q & J) & ->). intros Z.
        assert (I : In (var k, rtype (MScalar (Enum id ls size av))) (filter (keyed (var k)) (enum_literal_types m))).
        { apply filter_In. split; [|cbn [fst]; apply String.eqb_refl]. unfold enum_literal_types. apply in_flat_map. eexists. split; [exact T|].
          cbn [snd]. apply in_flat_map. exists (k, z). split; [exact J|]. rewrite Q, orb_true_r. now left. }
        rewrite Z in I. destruct I. }
      assert (HD : forall a b : list (string * Typing.ty), map snd a = map snd b -> b <> [] ->
        exists k1 k2 t, hd_error (rev a) = Some (k1, t) /\ hd_error (rev b) = Some (k2, t)).
      { intros a b M NB. apply (f_equal (@rev _)) in M. rewrite <- !map_rev in M. destruct (rev b) as [|(k2 & t) b'] eqn:RB.
        - apply (f_equal (@rev _)) in RB. rewrite rev_involutive in RB. now destruct NB.
        - destruct (rev a) as [|(k1 & t1) a']; [discriminate|]. injection M as -> _. cbn. eauto. }
      destruct (HD _ _ EQ NEM) as (k1 & k2 & t & H1 & H2). rewrite H1, H2. reflexivity.
    - rewrite (rho_out _ _ _ L), (other_entries x L). reflexivity.
  Qed.

  (** *** The checks *)
  Context (solve : list expr -> answer).
  Hypothesis IND : indifferent lits pk solve.

  Lemma paths_incl k : forall f ps p, paths s k f = Ok ps -> In p ps -> incl p s.
  Proof.
    induction k as [|k IH]; intros f ps p H I; cbn [paths] in H; destruct (f =? INITIAL)%string; try discriminate;
      try (apply Ok_inj in H; subst ps; destruct I).
    dok H rs R. apply Ok_inj in H. subst ps. apply in_concat in I as (r & J & I). apply (mapr_In _ _ _ R) in J as (l & L & J).
    dok J src SRC. apply Ok_inj in J. subst r. unfold incoming in L. apply filter_In in L as [L _].
    assert (P : p = [l] \/ exists q, In q src /\ p = q ++ [l]).
    { destruct src as [|q0 src]; [destruct I as [<-|[]]; now left|]. right. apply in_map_iff in I as (q & <- & Q). eauto. }
    destruct P as [-> | (q & Q & ->)].
    - intros x [<-|[]]. exact L.
    - apply incl_app; [exact (IH _ _ _ SRC Q)|]. intros x [<-|[]]. exact L.
  Qed.
  Lemma removelast_incl {A} (p : list A) t : incl p t -> incl (removelast p) t.
  Proof.
    intros H x I. apply H. clear H. induction p as [|a p IH]; [destruct I|]. cbn in I. destruct p as [|b p]; [destruct I|].
    destruct I as [<-|I]; [now left|right]. now apply IH.
  Qed.
  Lemma removelast_map {A B} (f : A -> B) p : removelast (map f p) = map f (removelast p).
  Proof. induction p as [|a p IH]; [reflexivity|]. cbn [map removelast]. destruct p as [|b p]; [reflexivity|]. cbn [map] in *. now rewrite IH. Qed.

  (** a check of each path to a field *)
  Lemma each_path (h : list (res (list string)) -> res (list string)) (F F' : list link -> res (list string)) f :
    (forall p, incl p s -> F' (map rl p) = F p) ->
    (let* ps := paths (v_structure dm) n f in h (map F' ps)) = (let* ps := paths s n f in h (map F ps)).
  Proof.
    intros H. cbn [v_structure dm]. rewrite paths_rl. destruct (paths s n f) as [ps|] eqn:E; cbn [rmap bind]; [|reflexivity].
    f_equal. rewrite map_map. apply map_ext_in. intros p I. apply H. exact (paths_incl _ _ _ _ E I).
  Qed.
  Lemma renames_part r r' fs : renames r r' -> r = Ok fs -> r' = Ok (map ren fs) /\ part fs (map ren fs).
  Proof. intros [E H] ->. split; [exact E|]. apply part_ren. intros e I. exact (H fs eq_refl e I). Qed.
  Lemma part_true a b : part a b -> part (ETrue :: a) (ETrue :: b).
  Proof. apply (part_cons lits pk ETrue). constructor. Qed.

  Lemma path_property_same p : incl p s -> path_property solve n dm (map rl p) = path_property solve n m p.
  Proof.
    intros P. unfold path_property. rewrite tc_base, tc_derived. cbn [bind]. apply ask_same with (lits := lits) (pk := pk); [exact IND|].
    apply part_true, part_app; [exact tc_part|]. apply part_app.
    - rewrite !flat_map_concat_map, map_map. apply part_concat. intros l I.
      change (condition (rl l)) with (ren (condition l)).
      assert (E : expr_eqb (ren (condition l)) ETrue = expr_eqb (condition l) ETrue) by (destruct (condition l); reflexivity).
      rewrite E. destruct (expr_eqb (condition l) ETrue); [apply part_same; intros ? ? []|].
      apply (part_ren lits pk [condition l]). intros e [<-|[]]. apply condition_clean, P, I.
    - rewrite !flat_map_concat_map, map_map. apply part_concat. intros l I. cbn [lsize target DerivedFacts.rl].
      destruct (lsize l) as [e|] eqn:E; [|apply part_same; intros ? ? []].
      destruct (aspect_clean l e (P l I)) as [F R]; [rewrite E; now left|]. destruct (place_ends l (P l I)) as [_ T].
      apply place_not_lit in T.
      assert (Q : ren (ERel OEq (ESize (target l)) e) = ERel OEq (ESize (target l)) e).
      { unfold ESize. cbn [DerivedFacts.ren]. now rewrite R, rename_attr. }
      rewrite <- Q at 2. apply (part_ren lits pk [ERel OEq (ESize (target l)) e]). intros x [<-|[]]. cbn. constructor; [exact T|exact F].
  Qed.
  Lemma path_types_same p : forall seen, (forall f, In f seen -> place f) -> incl p s -> path_types dm seen (map rl p) = path_types m seen p.
  Proof.
    induction p as [|l p IH]; intros seen S P; [reflexivity|]. apply incl_cons_inv in P as [L P]. cbn [map path_types].
    change (source (rl l)) with (source l). change (v_types dm) with (v_types m).
    set (seen' := if memf (source l) (map fst (v_types m)) then source l :: seen else seen).
    assert (S' : forall f, In f seen' -> place f).
    { intros f I. unfold seen' in I. destruct (memf (source l) (map fst (v_types m))); [|now apply S]. destruct I as [<-|I]; [|now apply S].
      now apply place_ends. }
    rewrite (IH seen' S' P). f_equal. unfold expressions. cbn [condition lsize lfirst DerivedFacts.rl flat_map].
    assert (G : forall x, typed_variable dm seen' (rho lits pk x) = typed_variable m seen' x) by (intros x; now apply typed_ren).
    rewrite (check_expr_ren _ _ _ _ G). f_equal. apply flat_map_ext_in. intros e I.
    destruct (aspect_clean l e L) as [_ R]; [unfold opt_expr; exact I|]. rewrite <- R at 1. now apply check_expr_ren.
  Qed.
  Lemma verify_expression_types_same : verify_expression_types solve n dm = verify_expression_types solve n m.
  Proof.
    unfold verify_expression_types. apply each_path. intros p P.
    destruct p as [|l p]; [reflexivity|]. change (map rl (l :: p)) with (rl l :: map rl p).
    change (rl l :: map rl p) with (map rl (l :: p)). rewrite path_property_same, path_types_same by (auto; intros ? []). reflexivity.
  Qed.

  Lemma size_prefixes_ren e : Forall clean (names e) -> size_prefixes (ren e) = size_prefixes e.
  Proof.
    induction e as [ | |z|x b|a IH|o ts IH|o l r IHl IHr|o l r IHl IHr] using expr_ind'; cbn [size_prefixes DerivedFacts.ren names]; intros F; auto.
    - inversion_clear F. destruct x as [x|a x]; [reflexivity|]. unfold ren_name. cbn [id_of with_id]. now rewrite rho_out.
    - induction IH as [|x l Hx HF IHl]; [reflexivity|]. cbn in *. apply Forall_app in F as [F1 F2]. now rewrite Hx, IHl.
    - apply Forall_app in F as [F1 F2]. now rewrite IHl, IHr.
    - apply Forall_app in F as [F1 F2]. now rewrite IHl, IHr.
  Qed.
  Lemma flat_map_map {A B D} (f : B -> list D) (h : A -> B) l : flat_map f (map h l) = flat_map (fun x => f (h x)) l.
  Proof. induction l as [|x l IH]; cbn; [reflexivity|]. now rewrite IH. Qed.
  Lemma verify_expressions_same : verify_expressions dm fields = verify_expressions m fields.
  Proof.
    unfold verify_expressions. apply flat_map_ext_in. intros f _. cbn [v_structure dm]. rewrite outgoing_rl, flat_map_map.
    apply flat_map_ext_in. intros l L. unfold outgoing in L. apply filter_In in L as [L _]. f_equal.
    unfold check_attributes. cbn [condition DerivedFacts.rl]. rewrite size_prefixes_ren by now apply condition_clean. reflexivity.
  Qed.

  Lemma pairs_map {A B} (h : A -> B) l : pairs (map h l) = map (fun p => (h (fst p), h (snd p))) (pairs l).
  Proof. induction l as [|x l IH]; [reflexivity|]. cbn. rewrite IH, map_app, !map_map. reflexivity. Qed.
  Lemma pairs_in {A} (l : list A) a b : In (a, b) (pairs l) -> In a l /\ In b l.
  Proof.
    induction l as [|x l IH]; cbn; [intros []|]. intros I. apply in_app_iff in I as [I|I].
    - apply in_map_iff in I as (y & E & I). injection E as <- <-. auto.
    - destruct (IH I). auto.
  Qed.
  Lemma conflicts_ren : conflicts dm fields = map ren (conflicts m fields).
  Proof.
    unfold conflicts. rewrite !flat_map_concat_map, concat_map, map_map. f_equal. apply map_ext. intros f.
    cbn [v_structure dm]. rewrite outgoing_rl, pairs_map, !map_map. apply map_ext. intros [a b]. reflexivity.
  Qed.
  Lemma conflicts_clean e : In e (conflicts m fields) -> Forall clean (names e).
  Proof.
    intros I. unfold conflicts in I. apply in_flat_map in I as (f & _ & I). apply in_map_iff in I as ((a & b) & <- & I).
    apply pairs_in in I as [A B]. unfold outgoing in A, B. apply filter_In in A as [A _]. apply filter_In in B as [B _].
    cbn. rewrite app_nil_r. apply Forall_app. split; now apply condition_clean.
  Qed.
  Lemma conflicting_same : prove_conflicting_conditions solve n dm fields = prove_conflicting_conditions solve n m fields.
  Proof.
    unfold prove_conflicting_conditions. rewrite tc_base, tc_derived. cbn [bind]. rewrite conflicts_ren, map_map. f_equal. apply map_ext_in.
    intros e I. rewrite (ask_same lits pk solve e (ren e) (tc (v_package m)) (tc pkg) IND); [reflexivity|].
    apply part_cons; [now apply conflicts_clean|exact tc_part].
  Qed.

  Lemma has_final_same k : forall f, has_final dm k f = has_final m k f.
  Proof.
    induction k as [|k IH]; intros f; cbn [has_final]; [reflexivity|]. destruct (f =? FINAL)%string; [reflexivity|].
    cbn [v_structure dm]. rewrite outgoing_rl. induction (outgoing s f) as [|l ls IHl]; [reflexivity|]. cbn [map].
    change (target (rl l)) with (target l). rewrite IH. destruct (has_final m k (target l)) as [[|]|]; cbn [bind]; try reflexivity. exact IHl.
  Qed.
  Lemma some_path_same f ps : (forall p, In p ps -> incl p s) -> some_path solve dm fields f (map (map rl) ps) = some_path solve m fields f ps.
  Proof.
    induction ps as [|p ps IH]; intros P; [reflexivity|]. cbn [map some_path].
    pose proof (reached_facts_ren f p (P p (or_introl eq_refl))) as R.
    destruct (reached_facts m fields f p) as [fs|w] eqn:E.
    - destruct (renames_part _ _ fs R eq_refl) as [-> Q]. cbn [bind].
      rewrite (ask_same lits pk solve ETrue ETrue fs (map ren fs) IND); [|now apply part_true].
      destruct (check_facts solve ETrue fs) as [[| |]|]; cbn [bind]; try reflexivity. apply IH. intros x I. apply P. now right.
    - destruct R as [-> _]. reflexivity.
  Qed.
  Lemma reachability_same : prove_reachability solve n dm fields = prove_reachability solve n m fields.
  Proof.
    unfold prove_reachability.
    assert (A : map (fun f => let* b := has_final dm n f in Ok (err_if (negb b) "no path to FINAL")) (INITIAL :: fields) =
                map (fun f => let* b := has_final m n f in Ok (err_if (negb b) "no path to FINAL")) (INITIAL :: fields)).
    { apply map_ext. intros f. now rewrite has_final_same. }
    rewrite A. destruct (all_errors _) as [e1|]; cbn [bind]; [|reflexivity].
    assert (B : map (fun f => let* ps := paths (v_structure dm) n f in let* b := some_path solve dm fields f ps in
                       Ok (err_if (negb b) "unreachable field")) (fields ++ [FINAL]) =
                map (fun f => let* ps := paths s n f in let* b := some_path solve m fields f ps in
                       Ok (err_if (negb b) "unreachable field")) (fields ++ [FINAL])).
    { apply map_ext. intros f. cbn [v_structure dm]. rewrite paths_rl. destruct (paths s n f) as [ps|] eqn:E; cbn [rmap bind]; [|reflexivity].
      rewrite some_path_same; [reflexivity|]. intros p I. exact (paths_incl _ _ _ _ E I). }
    rewrite B. reflexivity.
  Qed.

  Lemma contradicted_same p c : incl p s -> In c s -> contradicted solve n dm fields (map rl p) (rl c) = contradicted solve n m fields p c.
  Proof.
    intros P I. unfold contradicted. pose proof (path_facts_ren p P) as R. rewrite tc_base, tc_derived.
    destruct (path_facts m fields p) as [fs|w] eqn:E.
    - destruct (renames_part _ _ fs R eq_refl) as [-> Q]. cbn [bind]. change (condition (rl c)) with (ren (condition c)).
      rewrite (ask_same lits pk solve (condition c) (ren (condition c)) (tc (v_package m) ++ fs) (tc pkg ++ map ren fs) IND); [reflexivity|].
      apply part_cons; [now apply condition_clean|]. apply part_app; [exact tc_part|exact Q].
    - destruct R as [-> _]. reflexivity.
  Qed.
  Lemma contradictions_same : prove_contradictions solve n dm fields = prove_contradictions solve n m fields.
  Proof.
    unfold prove_contradictions. f_equal. apply map_ext. intros f. cbn [v_structure dm]. rewrite paths_rl.
    destruct (paths s n f) as [ps|] eqn:E; cbn [rmap bind]; [|reflexivity].
    rewrite flat_map_map, outgoing_rl.
    assert (A : flat_map (fun p => map (contradicted solve n dm fields (map rl p)) (map rl (outgoing s f))) ps =
                flat_map (fun p => map (contradicted solve n m fields p) (outgoing s f)) ps).
    { apply flat_map_ext_in. intros p I. rewrite map_map. apply map_ext_in. intros c J. unfold outgoing in J. apply filter_In in J as [J _].
      apply contradicted_same; [exact (paths_incl _ _ _ _ E I)|exact J]. }
    rewrite A. reflexivity.
  Qed.

  Lemma bit_not_lit : memf BIT lits = false.
  Proof. apply not_lit. intros k I E. destruct (o_literal _ _ O k I) as (_ & _ & _ & H). now apply H. Qed.
  Lemma coverage_facts_ren p : incl p s -> renames (coverage_facts m fields p) (coverage_facts dm fields (map rl p)).
  Proof.
    intros P. pose proof (path_facts_ren p P) as [RE RC]. pose proof message_not_lit as MN. pose proof bit_not_lit as BN.
    assert (BC : clean (NVar BIT)) by now apply plain_unprefixed.
    assert (RB : ren_name lits pk (NVar BIT) = NVar BIT) by (unfold ren_name; cbn [id_of]; rewrite rho_out by exact BN; reflexivity).
    unfold coverage_facts. rewrite mapr_map.
    set (F := fun l => let* last := target_last m fields l in
      Ok (ENot (EAss OAnd [ERel OGe (EVar BIT) (target_first l); ERel OLe (EVar BIT) last]))).
    assert (N : mapr (fun l => let* last := target_last dm fields (rl l) in
      Ok (ENot (EAss OAnd [ERel OGe (EVar BIT) (target_first (rl l)); ERel OLe (EVar BIT) last]))) p = rmap (map ren) (mapr F p)).
    { rewrite <- mapr_rmap. apply mapr_ext. intros l I. unfold F. destruct (target_last_ren l (P l I)) as [E H], (target_first_ren l (P l I)) as (E1 & F1 & F2).
      rewrite E, E1. destruct (target_last m fields l) as [e|]; cbn [bind rmap]; [|reflexivity]. destruct (H e eq_refl) as [R _].
      cbn [DerivedFacts.ren map EVar]. rewrite RB, F1, R. reflexivity. }
    rewrite N. destruct (mapr F p) as [nots|] eqn:EN; cbn [rmap bind]; [|split; [reflexivity|discriminate]].
    rewrite RE. destruct (path_facts m fields p) as [fs|] eqn:EF; cbn [rmap bind]; [|split; [reflexivity|discriminate]].
    rewrite <- map_rev. destruct (rev p) as [|l q] eqn:ER; cbn [map]; [split; [reflexivity|discriminate]|].
    assert (L : In l s) by (apply P, in_rev; rewrite ER; now left).
    destruct (target_last_ren l L) as [E H]. rewrite E. destruct (target_last m fields l) as [last|]; cbn [bind]; [|split; [reflexivity|discriminate]].
    destruct (H last eq_refl) as [R RF]. split.
    - cbn [rmap]. f_equal. rewrite !map_app. cbn [map DerivedFacts.ren EVar EFirst ELast]. rewrite RB, R, !rename_attr by exact MN. reflexivity.
    - intros gs Q. apply Ok_inj in Q. subst gs. intros e I. apply in_app_iff in I as [I|I].
      + destruct I as [<-|[<-|[]]]; cbn [names EVar EFirst ELast app]; repeat constructor; assumption.
      + apply in_app_iff in I as [I|I].
        * apply (mapr_In _ _ _ EN) in I as (l' & L' & I). unfold F in I. destruct (target_last_ren l' (P l' L')) as [_ H'], (target_first_ren l' (P l' L')) as (_ & _ & F2).
          destruct (target_last m fields l') as [e'|]; [|discriminate]. cbn [bind] in I. apply Ok_inj in I. subst e. destruct (H' e' eq_refl) as [_ FE].
          cbn [names EVar flat_map app]. constructor; [exact BC|]. apply Forall_app. split; [exact F2|]. rewrite app_nil_r. constructor; [exact BC|exact FE].
        * apply in_app_iff in I as [I|I]; [|exact (RC fs eq_refl e I)]. destruct I as [<-|[]]. cbn [names ELast].
          apply Forall_app. split; [exact RF|]. constructor; [exact MN|constructor].
  Qed.
  Lemma coverage_same : prove_coverage solve n dm fields = prove_coverage solve n m fields.
  Proof.
    unfold prove_coverage. apply each_path. intros p P. rewrite removelast_map.
    pose proof (coverage_facts_ren _ (removelast_incl _ _ P)) as R. destruct (coverage_facts m fields (removelast p)) as [fs|w] eqn:E.
    - destruct (renames_part _ _ fs R eq_refl) as [-> Q]. cbn [bind].
      rewrite (ask_same lits pk solve ETrue ETrue fs (map ren fs) IND); [reflexivity|]. now apply part_true.
    - destruct R as [-> _]. reflexivity.
  Qed.

  Lemma overlay_same p : incl p s -> overlay solve dm fields (map rl p) = overlay solve m fields p.
  Proof.
    intros P. unfold overlay. rewrite <- map_rev. destruct (rev p) as [|l q] eqn:ER; cbn [map]; [reflexivity|].
    assert (L : In l s) by (apply P, in_rev; rewrite ER; now left). change (lfirst (rl l)) with (lfirst l).
    destruct (lfirst l) as [e|] eqn:EL; [|reflexivity]. destruct e as [ | | |x b| | | | ]; try reflexivity. destruct x as [x|a x]; [reflexivity|].
    destruct a; try reflexivity.
    destruct (aspect_clean l (EName (NAttr AFirst x) b) L) as [F _]; [rewrite EL; apply in_app_iff; right; now left|].
    assert (X : memf x lits = false) by (inversion_clear F; assumption).
    pose proof (path_facts_ren p P) as R. destruct (path_facts m fields p) as [fs|w] eqn:E.
    - destruct (renames_part _ _ fs R eq_refl) as [-> Q]. cbn [bind].
      destruct (target_last_ren l L) as [T H]. rewrite T. destruct (target_last m fields l) as [last|]; cbn [bind]; [|reflexivity].
      destruct (H last eq_refl) as [R' FR].
      rewrite (ask_same lits pk solve (ERel OEq last (ELast x)) (ERel OEq last (ELast x)) fs (map ren fs) IND); [reflexivity|].
      rewrite <- R' at 2. rewrite <- (ren_attr ALast x false X : ren (ELast x) = ELast x) at 2.
      apply (part_cons lits pk (ERel OEq last (ELast x))); [|exact Q]. cbn [names ELast]. apply Forall_app. split; [exact FR|].
      constructor; [exact X|constructor].
    - destruct R as [-> _]. reflexivity.
  Qed.
  Lemma overlays_same : prove_overlays solve n dm fields = prove_overlays solve n m fields.
  Proof. unfold prove_overlays. f_equal. apply map_ext. intros f. apply each_path. exact overlay_same. Qed.

  Lemma ask_fixed goal facts facts' : ren goal = goal -> Forall clean (names goal) -> part facts facts' ->
    check_facts solve goal facts' = check_facts solve goal facts.
  Proof.
    intros R F P. apply ask_same with (lits := lits) (pk := pk); [exact IND|]. rewrite <- R at 2. now apply part_cons.
  Qed.
  Lemma field_position_same f p : incl p s -> field_position solve n dm fields f (map rl p) = field_position solve n m fields f p.
  Proof.
    intros P. unfold field_position. rewrite <- map_rev. destruct (rev p) as [|l q] eqn:ER; cbn [map]; [reflexivity|].
    assert (L : In l s) by (apply P, in_rev; rewrite ER; now left).
    destruct (target_size_ren l L) as [TS HS], (target_first_ren l L) as (TF & F1 & F2). rewrite TS, TF, tc_base, tc_derived.
    destruct (target_size m fields l) as [o|]; cbn [bind]; [|reflexivity]. destruct o as [size|]; cbn [needed bind]; [|reflexivity].
    destruct (HS size eq_refl) as [RS CS]. change (v_types dm) with (v_types m). pose proof message_not_lit as MN.
    pose proof (reached_facts_ren f p P) as R. destruct (reached_facts m fields f p) as [fs|w] eqn:E.
    2:{ destruct R as [-> _]. reflexivity. }
    destruct (renames_part _ _ fs R eq_refl) as [-> Q]. cbn [bind]. cbv zeta.
    set (a := fs ++ tc (v_package m) ++ tc (v_package m)). set (a' := map ren fs ++ tc pkg ++ tc pkg).
    assert (PA : part a a') by (apply part_app; [exact Q|]; apply part_app; exact tc_part).
    assert (PB : part (a ++ tc (v_package m)) (a' ++ tc pkg)) by (apply part_app; [exact PA|exact tc_part]).
    rewrite (ask_fixed ETrue a a' eq_refl (Forall_nil _) PA).
    rewrite (ask_fixed (ERel OLt size (ENum 0)) a a'); [|cbn; now rewrite RS|cbn; now rewrite app_nil_r|exact PA].
    rewrite (ask_fixed (ERel OGe (target_first l) (EFirst MESSAGE)) a a').
    2:{ cbn [DerivedFacts.ren EFirst]. now rewrite F1, rename_attr. }
    2:{ cbn [names EFirst]. apply Forall_app. split; [exact F2|]. constructor; [exact MN|constructor]. }
    2:{ exact PA. }
    rewrite (ask_fixed (ENot (ERel OEq (EBin OMod (target_first l) (ENum 8)) (ENum 1))) (a ++ tc (v_package m)) (a' ++ tc pkg)).
    2:{ cbn [DerivedFacts.ren]. now rewrite F1. }
    2:{ cbn [names]. now rewrite !app_nil_r. }
    2:{ exact PB. }
    rewrite (ask_fixed (ENot (ERel OEq (EBin OMod size (ENum 8)) (ENum 0))) (a ++ tc (v_package m)) (a' ++ tc pkg)).
    2:{ cbn [DerivedFacts.ren]. now rewrite RS. }
    2:{ cbn [names]. now rewrite !app_nil_r. }
    2:{ exact PB. }
    reflexivity.
  Qed.
  Lemma positions_same : prove_field_positions solve n dm fields = prove_field_positions solve n m fields.
  Proof. unfold prove_field_positions. f_equal. apply map_ext. intros f. apply each_path. intros p P. now apply field_position_same. Qed.

  Lemma message_size_same : prove_message_size solve n dm fields = prove_message_size solve n m fields.
  Proof.
    unfold prove_message_size. apply each_path. intros p P. rewrite removelast_map. apply removelast_incl in P. set (q := removelast p) in *. clearbody q.
    cbv zeta. unfold size_facts. rewrite tc_base, tc_derived. pose proof (path_facts_ren q P) as R.
    destruct (path_facts m fields q) as [fs|w] eqn:E.
    2:{ destruct R as [-> _]. reflexivity. }
    destruct (renames_part _ _ fs R eq_refl) as [-> Q]. cbn [bind].
    assert (G : size_goal (map rl q) = size_goal q).
    { unfold size_goal, message_size. rewrite flat_map_map. reflexivity. }
    assert (SZ : forall x, In x (names (size_goal q)) -> exists f, place f /\ x = NAttr ASize f).
    { intros x I. unfold size_goal, message_size in I. cbn [names app] in I. rewrite app_nil_r in I.
      rewrite app_nil_r in I. apply in_flat_map in I as (e & I & J). apply in_flat_map in I as (l & L & I).
      destruct (negb (String.eqb (target l) FINAL) && negb (defined (lfirst l))); [|destruct I]. destruct I as [<-|[]]. destruct J as [<-|[]].
      exists (target l). split; [|reflexivity]. now apply place_ends, P. }
    rewrite G, (ask_fixed (size_goal q) (fs ++ tc (v_package m) ++ field_size_constraints m) (map ren fs ++ tc pkg ++ field_size_constraints dm)); [reflexivity| | |].
    - apply ren_id. intros x I. apply SZ in I as (f & F & ->). now apply place_not_lit.
    - apply Forall_forall. intros x I. apply SZ in I as (f & F & ->). now apply place_not_lit.
    - apply part_app; [exact Q|]. apply part_app; [exact tc_part|]. apply part_same. intros e x I J.
      unfold field_size_constraints in I. apply in_flat_map in I as ((f & t) & T & I). cbn [fst snd] in I.
      assert (F : place f) by (apply in_app_iff; left; apply in_map_iff; now exists (f, t)). apply place_not_lit in F.
      destruct t; [destruct I| |]; destruct I as [<-|[]]; destruct J as [<-|[]]; now split.
  Qed.

  Lemma verify_same : verify solve n dm fields = verify solve n m fields.
  Proof.
    unfold verify. rewrite verify_expression_types_same, verify_expressions_same, conflicting_same, reachability_same,
      contradictions_same, coverage_same, overlays_same, positions_same, message_size_same. reflexivity.
  Qed.
End Derived.
