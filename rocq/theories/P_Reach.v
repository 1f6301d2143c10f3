(** C45, C28, C46: what the single checks of the verification establish and when they
    complain.  Cases that meet the hypotheses are in P_VerifyCases.v and below. *)
From Coq Require Import String List ZArith Bool Lia.
From Verif Require Import Base Expr ExprEval ExprFacts ExprTotal Ident TypeSpec MsgGraph MsgGraphFacts P_MsgGraph Solver SolverFacts Verify VerifySpec VerifyFacts GenSpec P_Verify P_Occur.
From Verif Require P_VerifyCases.
Import ListNotations.
Local Open Scope string_scope.
Local Open Scope list_scope.
Local Open Scope Z_scope.
Local Open Scope res_scope.
Local Notation length := List.length.

(** under [g] the message gets to [f] along [p] and goes on *)
Definition reached (m : vmessage) (g : env) (p : list link) (f : field) : Prop :=
  leads (v_structure m) INITIAL p f /\ p <> [] /\ int_env g /\ bounds g /\ (forall l, In l p -> laid m g l) /\
  (f = FINAL \/ exists c, In c (v_structure m) /\ source c = f /\ taken g c).

Lemma some_path_true solve m fields f ps : some_path solve m fields f ps = Ok true ->
  exists p facts, In p ps /\ reached_facts m fields f p = Ok facts /\ solve (ETrue :: facts) = SAT.
Proof.
  induction ps as [|p ps IH]; cbn [some_path]; intros H; [discriminate|]. dok H facts E. dok H a A. apply check_answer in A.
  destruct a; [|destruct (IH H) as (q & fs & I & R); exists q, fs; split; [now right|exact R]|discriminate].
  exists p, facts. split; [now left|auto].
Qed.
Lemma some_path_false solve m fields f ps : some_path solve m fields f ps = Ok false ->
  forall p, In p ps -> exists facts, reached_facts m fields f p = Ok facts /\ solve (ETrue :: facts) = UNSAT.
Proof.
  induction ps as [|q ps IH]; cbn [some_path]; intros H p I; [destruct I|]. dok H facts E. dok H a A. apply check_answer in A.
  destruct a; [discriminate| |discriminate]. destruct I as [<-|I]; [exists facts; auto|auto].
Qed.

(** no complaint: every field is reached by some assignment *)
Theorem C45_reachable : forall solve n m fields f,
  sound_sat solve -> prove_reachability solve n m fields = Ok [] -> verify_expressions m fields = [] ->
  construct n (graph m) = Ok ([], fields) -> (length (v_structure m) < n)%nat -> plain_message m -> sane m ->
  In f (fields ++ [FINAL]) -> exists g p, reached m g p f.
Proof.
  intros solve n m fields f SS PR VE C FU PL SA IF.
  unfold prove_reachability in PR. dok PR e1 E1. dok PR e2 E2. apply Ok_inj in PR. apply app_eq_nil in PR as [-> ->].
  pose proof (all_errors_nil _ E2 _ (in_map _ _ _ IF)) as H. cbn beta in H.
  destruct (path_list n m fields C FU f) as (ps & PS & PI). rewrite PS in H. cbn [bind] in H. dok H b SP. apply Ok_inj in H.
  destruct b; [|discriminate]. destruct (some_path_true _ _ _ _ _ SP) as (p & facts & IP & RF & A).
  apply PI in IP as [NP L]. destruct (SS _ A) as (i & M). rewrite models_cons in M. destruct M as [_ M].
  unfold reached_facts in RF. dok RF pf PF. apply Ok_inj in RF. subst facts. rewrite models_app in M. destruct M as [M1 M2].
  assert (IN : forall l, In l p -> In l (v_structure m) /\ In (source l) (INITIAL :: fields)).
  { intros l I. pose proof (leads_in _ _ _ _ L l I) as J. split; [exact J|]. eapply source_field; eauto. apply (sn_final _ SA l J). }
  pose proof (path_back m fields i PL p pf IN VE PF M1) as LB.
  exists (env_of_interp i), p. split; [exact L|]. split; [exact NP|]. split; [apply env_of_interp_int|].
  split; [destruct p as [|l p]; [congruence|apply (LB l); now left]|]. split; [intros l I; apply LB, I|].
  destruct (String.eqb_spec f FINAL) as [|NF]; [now left|right].
  assert (IF' : In f (INITIAL :: fields)). { apply in_app_or in IF as [IF|[IF|[]]]; [now right|congruence]. }
  pose proof (all_errors_nil _ E1 _ (in_map _ _ _ IF')) as HF. cbn beta in HF. dok HF b HB. apply Ok_inj in HF. destruct b; [|discriminate].
  pose proof (has_final_outgoing m n f HB NF) as NO.
  destruct (outgoing (v_structure m) f) as [|c0 out] eqn:O; [congruence|].
  rewrite models_cons in M2. destruct M2 as [M2 _]. cbn [zeval] in M2. injection M2 as M2.
  change (existsb truth (map (zeval i) (map condition (c0 :: out))) = true) in M2.
  apply existsb_exists in M2 as (v & J & TV). rewrite map_map in J. apply in_map_iff in J as (c & E & J).
  assert (J' : In c (outgoing (v_structure m) f)) by (rewrite O; exact J). apply filter_In in J' as [J' SC]. apply String.eqb_eq in SC.
  exists c. split; [exact J'|]. split; [exact SC|]. apply (taken_back m i PL c J').
  destruct (back i _ _ (pl_condition _ PL c J')) as [_ K]. rewrite E in K |- *. destruct v; [destruct K|]. cbn in TV. now subst.
Qed.

(** a complaint: some field is reached by no assignment *)
Theorem C45_unreachable : forall solve n m fields es,
  sound_unsat solve -> prove_reachability solve n m fields = Ok es -> In "unreachable field" es ->
  construct n (graph m) = Ok ([], fields) -> (length (v_structure m) < n)%nat ->
  exists f, In f (fields ++ [FINAL]) /\ forall g p, ~ reached m g p f.
Proof.
  intros solve n m fields es SU PR IE C FU.
  unfold prove_reachability in PR. dok PR e1 E1. dok PR e2 E2. apply Ok_inj in PR. subst es.
  assert (N1 : ~ In "unreachable field" e1).
  { unfold all_errors in E1. dok E1 xs X. apply Ok_inj in E1. subst e1. apply sequence_ok in X. intros I.
    apply in_concat in I as (x & J & I). apply (in_map Ok) in J. rewrite <- X in J. apply in_map_iff in J as (f & E & _).
    dok E b HB. apply Ok_inj in E. subst x. destruct b; [destruct I|]. destruct I as [I|[]]; discriminate. }
  apply in_app_or in IE as [IE|IE]; [contradiction|].
  unfold all_errors in E2. dok E2 xs X. apply Ok_inj in E2. subst e2. apply sequence_ok in X.
  apply in_concat in IE as (x & J & I). apply (in_map Ok) in J. rewrite <- X in J. apply in_map_iff in J as (f & E & IF).
  destruct (path_list n m fields C FU f) as (ps & PS & PI). rewrite PS in E. cbn [bind] in E. dok E b SP. apply Ok_inj in E. subst x.
  destruct b; [destruct I|]. exists f. split; [exact IF|]. intros g p (L & NP & IG & B & LA & CC).
  assert (IP : In p ps) by (apply PI; auto).
  destruct (some_path_false _ _ _ _ _ SP p IP) as (facts & RF & U). apply (SU _ (interp_of g) U). rewrite models_cons.
  split; [reflexivity|]. destruct CC as [->|(c & IC & SC & TC)].
  - eapply (reached_models m fields g IG FINAL p facts (mkLink "" "" ETrue None None)); eauto.
  - eapply (reached_models m fields g IG f p facts c); eauto.
Qed.

Lemma has_final_leads m k : forall f, has_final m k f = Ok true -> exists p, leads (v_structure m) f p FINAL.
Proof.
  induction k as [|k IH]; intros f H; cbn [has_final] in H; destruct (String.eqb_spec f FINAL) as [E|N]; try discriminate H;
    try (exists []; exact E).
  assert (X : exists l, In l (outgoing (v_structure m) f) /\ has_final m k (target l) = Ok true).
  { revert H. induction (outgoing (v_structure m) f) as [|l ls IHl]; intros H; [discriminate|]. dok H b E.
    destruct b; [exists l; split; [now left|exact E]|]. destruct (IHl H) as (l' & I & Q). exists l'. split; [now right|exact Q]. }
  destruct X as (l & I & Q). destruct (IH _ Q) as (p & L). apply filter_In in I as [I S]. apply String.eqb_eq in S.
  exists (l :: p). cbn. auto.
Qed.
Lemma has_final_none m k : forall f, has_final m k f = Ok false -> forall p, ~ leads (v_structure m) f p FINAL.
Proof.
  induction k as [|k IH]; intros f H p L; cbn [has_final] in H; destruct (String.eqb_spec f FINAL) as [E|N]; try discriminate H.
  destruct p as [|l p]; [cbn in L; congruence|]. cbn in L. destruct L as (I & S & L).
  assert (J : In l (outgoing (v_structure m) f)) by (apply filter_In; split; [exact I|now apply String.eqb_eq]).
  revert H J. induction (outgoing (v_structure m) f) as [|l' ls IHl]; intros H J; [destruct J|]. dok H b E.
  destruct b; [discriminate|]. destruct J as [->|J]; [exact (IH _ E p L)|auto].
Qed.

(** from every field a path leads to the end, or there is an error *)
Theorem C45_dead_ends : forall solve n m fields es,
  prove_reachability solve n m fields = Ok es ->
  (In "no path to FINAL" es <-> exists f, In f (INITIAL :: fields) /\ forall p, ~ leads (v_structure m) f p FINAL).
Proof.
  intros solve n m fields es PR. unfold prove_reachability in PR. dok PR e1 E1. dok PR e2 E2. apply Ok_inj in PR. subst es.
  assert (N2 : ~ In "no path to FINAL" e2).
  { unfold all_errors in E2. dok E2 xs X. apply Ok_inj in E2. subst e2. apply sequence_ok in X. intros I.
    apply in_concat in I as (x & J & I). apply (in_map Ok) in J. rewrite <- X in J. apply in_map_iff in J as (f & E & _).
    dok E ps PS. dok E b HB. apply Ok_inj in E. subst x. destruct b; [destruct I|]. destruct I as [I|[]]; discriminate. }
  unfold all_errors in E1. dok E1 xs X. apply Ok_inj in E1. subst e1. apply sequence_ok in X. split.
  - intros I. apply in_app_or in I as [I|I]; [|contradiction]. apply in_concat in I as (x & J & I). apply (in_map Ok) in J.
    rewrite <- X in J. apply in_map_iff in J as (f & E & IF). dok E b HB. apply Ok_inj in E. subst x. destruct b; [destruct I|].
    exists f. split; [exact IF|]. eapply has_final_none; eauto.
  - intros (f & IF & NL). apply in_or_app. left.
    assert (J : In (let* b := has_final m n f in Ok (err_if (negb b) "no path to FINAL")) (map Ok xs))
      by (rewrite <- X; apply (in_map (fun f => let* b := has_final m n f in Ok (err_if (negb b) "no path to FINAL")) _ _ IF)).
    apply in_map_iff in J as (x & E & J). symmetry in E. dok E b HB. apply Ok_inj in E. subst x.
    destruct b; [destruct (has_final_leads _ _ _ HB) as (p & L); destruct (NL p L)|].
    apply in_concat. eexists. split; [exact J|now left].
Qed.
Print Assumptions C45_reachable.
Print Assumptions C45_unreachable.
Print Assumptions C45_dead_ends.

(** ** The checks of the expressions of links *)
Fixpoint no_not (e : expr) : Prop :=
  match e with
  | ENot _ => False
  | EAss _ ts => fold_right and True (map no_not ts)
  | EBin _ l r | ERel _ l r => no_not l /\ no_not r
  | _ => True
  end.
Lemma size_names e x : no_not e -> In (NAttr ASize x) (names e) -> In x (size_prefixes e).
Proof.
  induction e as [| |v0|n0 s0|e IHe|o ts IHts|o e1 e2 IHe1 IHe2|o e1 e2 IHe1 IHe2] using expr_ind'; cbn [no_not names size_prefixes]; intros N I;
    try destruct I; try contradiction.
  - subst n0. now left.
  - apply in_flat_map in I as (t & I & J). apply in_flat_map. exists t. split; [exact I|]. rewrite Forall_forall in IHts.
    apply IHts; auto. apply fold_and_Forall in N. rewrite Forall_forall in N. auto.
  - destruct N. apply in_app_or in I as [I|I]; apply in_or_app; auto.
  - destruct N. apply in_app_or in I as [I|I]; apply in_or_app; auto.
Qed.
Lemma flat_nil {A B} (f : A -> list B) l : flat_map f l = [] -> forall a, In a l -> f a = [].
Proof.
  induction l as [|b l IH]; cbn; intros H a I; [destruct I|]. apply app_eq_nil in H as [H1 H2]. destruct I as [<-|I]; auto.
Qed.
Lemma link_checked m fields l : verify_expressions m fields = [] -> In l (v_structure m) -> In (source l) (INITIAL :: fields) ->
  check_attributes m fields (condition l) = [] /\ check_first_expression l = [] /\ check_size_expression m l = [].
Proof.
  intros VE I SF. pose proof (flat_nil _ _ VE _ SF) as Y. cbn beta in Y.
  assert (O : In l (outgoing (v_structure m) (source l))) by (apply filter_In; split; [exact I|apply String.eqb_refl]).
  pose proof (flat_nil _ _ Y _ O) as W. cbn beta in W. apply app_eq_nil in W as [W1 W]. apply app_eq_nil in W as [W2 W3]. auto.
Qed.

(** a link has a size aspect if and only if the size of its target is not fixed by the
    type; attributes in conditions refer to fields, types or the message; the first
    aspect is the first bit of something *)
Theorem C28_sizes : forall solve n m fields l,
  Message solve n m = Ok [] -> construct n (graph m) = Ok ([], fields) -> In l (v_structure m) -> source l <> FINAL ->
  (target l = FINAL -> lsize l = None) /\
  (forall t, target l <> FINAL -> lookup (v_types m) (target l) = Some t -> ((exists e, lsize l = Some e) <-> forall sc, t <> MScalar sc)).
Proof.
  intros solve n m fields l A C I NF. assert (Ne : v_structure m <> []) by (intros E; rewrite E in I; destruct I).
  destruct (verify_accepted _ _ _ _ (verified solve n m fields A C Ne)) as (VE & _).
  destruct (link_checked m fields l VE I (source_field n m fields l C I NF)) as (_ & _ & CS).
  unfold check_size_expression in CS. apply app_eq_nil in CS as [C1 C2]. split.
  - intros T. rewrite T in C1. destruct (lsize l); [discriminate|reflexivity].
  - intros t NT LK. apply String.eqb_neq in NT. rewrite NT, LK in C2. apply app_eq_nil in C2 as [C2 C3].
    destruct (lsize l) as [e|].
    + split; [|intros _; eauto]. intros _ sc ->. discriminate.
    + split; [intros (e & E); discriminate|]. intros K. destruct t; [destruct (K t); reflexivity|discriminate|discriminate].
Qed.
Theorem C28_attributes : forall solve n m fields l x,
  Message solve n m = Ok [] -> construct n (graph m) = Ok ([], fields) -> In l (v_structure m) -> source l <> FINAL ->
  no_not (condition l) -> In (NAttr ASize x) (names (condition l)) ->
  x = MESSAGE \/ In x fields \/ exists f t, In (f, t) (v_types m) /\ x = var (type_key t).
Proof.
  intros solve n m fields l x A C I NF NN IX. assert (Ne : v_structure m <> []) by (intros E; rewrite E in I; destruct I).
  destruct (verify_accepted _ _ _ _ (verified solve n m fields A C Ne)) as (VE & _).
  destruct (link_checked m fields l VE I (source_field n m fields l C I NF)) as (CA & _).
  unfold check_attributes in CA. pose proof (flat_nil _ _ CA x (size_names _ _ NN IX)) as H. cbn beta in H. apply err_if_nil in H.
  apply negb_false_iff in H. apply orb_true_iff in H as [H|H]; [apply orb_true_iff in H as [H|H]|].
  - left. now apply String.eqb_eq.
  - right. left. now apply memf_iff.
  - right. right. apply memf_iff in H. apply in_map_iff in H as ([k t] & <- & H). unfold type_literals, unique in H.
    apply in_unique_aux in H. apply in_map_iff in H as ([f t'] & E & J). injection E as <- <-. exists f, t'. auto.
Qed.
Theorem C46_first : forall solve n m fields l e,
  Message solve n m = Ok [] -> construct n (graph m) = Ok ([], fields) -> In l (v_structure m) -> source l <> FINAL ->
  lfirst l = Some e -> exists x neg, e = EName (NAttr AFirst x) neg.
Proof.
  intros solve n m fields l e A C I NF LF. assert (Ne : v_structure m <> []) by (intros E; rewrite E in I; destruct I).
  destruct (verify_accepted _ _ _ _ (verified solve n m fields A C Ne)) as (VE & _).
  destruct (link_checked m fields l VE I (source_field n m fields l C I NF)) as (_ & CF & _).
  unfold check_first_expression in CF. rewrite LF in CF. destruct e as [| | |n0 s0| | | |]; try discriminate.
  destruct n0 as [|a y]; [discriminate|]. destruct a; try discriminate. eauto.
Qed.
Print Assumptions C28_sizes.
Print Assumptions C28_attributes.
Print Assumptions C46_first.

(** ** Cases *)
Import P_VerifyCases.
Example C45_tlv_reachable : forall f, In f (tlv_fields ++ [FINAL]) -> exists g p, reached tlv g p f.
Proof.
  intros f I. destruct (verify_accepted _ _ _ _ (verified tlv_solver 10 tlv tlv_fields tlv_accepted tlv_constructed ltac:(discriminate))) as (VE & _ & PR & _).
  exact (C45_reachable tlv_solver 10 tlv tlv_fields f (try_sat _ _) PR VE tlv_constructed ltac:(cbn; lia) tlv_plain tlv_sane I).
Qed.
Example C28_tlv_sizes : forall l, In l (v_structure tlv) -> ((exists e, lsize l = Some e) <-> target l = "value").
Proof.
  intros l I. assert (NF : source l <> FINAL) by (cbn in I; members; discriminate).
  destruct (C28_sizes tlv_solver 10 tlv tlv_fields l tlv_accepted tlv_constructed I NF) as [K1 K2].
  cbn in I. members; cbn [target] in *; (split; intros H; [|try discriminate H]); try (rewrite (K1 eq_refl) in H; destruct H as (? & H); discriminate);
    try reflexivity; try (eexists; reflexivity); exfalso; eapply (K2 _ ltac:(discriminate) eq_refl); eauto.
Qed.
Local Notation byte_t := (Modular ["P"; "Byte"] (ENum 256) 256 8).
(** the field b cannot be reached *)
Definition lost_m : vmessage := mkVMessage
  [lk INITIAL "a" ETrue; lk "a" "b" (EAss OAnd [ERel OEq (EVar "a") (ENum 1); ERel OEq (EVar "a") (ENum 2)]);
   lk "a" FINAL (ERel OEq (EVar "a") (ENum 3)); lk "b" FINAL ETrue]
  [("a", MScalar byte_t); ("b", MScalar byte_t)] ["P"].
Definition lost_found :=
  [values ([(NVar "a", 3); (NAttr AFirst "message", 1); (NAttr ALast "message", 8); (NAttr ASize "message", 8)]
    ++ place "a" 1 8 ++ place FINAL 9 8 ++ type_sizes)].
Definition lost_refuted := Eval vm_compute in
  oks (map (fun f => let* ps := paths (v_structure lost_m) 10 f in
         Ok (unmet lost_found (oks (map (fun p => let* rf := reached_facts lost_m ["a"; "b"] f p in Ok [ETrue :: rf]) ps)))) ["a"; "b"; FINAL]).
Example C45_lost : exists f, In f ["a"; "b"; FINAL] /\ forall g p, ~ reached lost_m g p f.
Proof.
  refine (C45_unreachable (try lost_found lost_refuted) 10 lost_m ["a"; "b"] ["unreachable field"] _ _ (or_introl eq_refl) eq_refl _).
  - apply try_unsat. unfold lost_refuted. repeat constructor. all: refute.
  - vm_compute. reflexivity.
  - cbn. lia.
Qed.
(** from b no path leads on *)
Example C45_dead_end_case : prove_reachability (fun _ => SAT) 10
    (mkVMessage [lk INITIAL "a" ETrue; lk "a" "b" (ERel OEq (EVar "a") (ENum 1)); lk "a" FINAL (ERel ONe (EVar "a") (ENum 1))]
       [("a", MScalar byte_t); ("b", MScalar byte_t)] ["P"]) ["a"; "b"] = Ok ["no path to FINAL"].
Proof. reflexivity. Qed.
