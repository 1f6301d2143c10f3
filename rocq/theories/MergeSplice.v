(** Lemmas about the merging of message fields: one message field replaced by the fields
    of its message. *)
From Coq Require Import String Ascii List ZArith Bool Lia Permutation.
From Verif Require Import Base Expr ExprEval ExprFacts ExprTotal Ident TypeSpec MsgGraph MsgGraphFacts Solver SolverFacts
  Verify VerifySpec VerifyFacts GenSpec PlainFacts P_MsgGraph Merge MergeSpec MergeFacts.
Import ListNotations.
Local Open Scope string_scope.
Local Open Scope list_scope.
Local Open Scope Z_scope.
Local Open Scope res_scope.

(** ** Conditions as the solver sees them *)
Lemma plain_true g e : int_env g -> plain e = Some ZBool -> eval g e = Some (VBool true) -> zeval (interp_of g) e = VBool true.
Proof. intros IE P E. apply (agree g IE); [eapply plain_tame; eauto|now apply eval_strict_sc]. Qed.

(** conjunction *)
Lemma and_true g a b : eval g (EAss OAnd [a; b]) = Some (VBool true) <->
  eval g a = Some (VBool true) /\ eval g b = Some (VBool true).
Proof.
  cbn [eval map ass_val bools]. destruct (eval g a) as [[x|x]|]; [split; [discriminate|intros [? _]; discriminate]| |split; [discriminate|intros [? _]; discriminate]].
  destruct (eval g b) as [[y|y]|]; [split; [discriminate|intros [_ ?]; discriminate]| |split; [discriminate|intros [_ ?]; discriminate]].
  cbn [allb fold_right]. destruct x, y; cbn; split; try tauto; try discriminate; intros [? ?]; congruence.
Qed.
Lemma and_clear l l' : clear l -> clear l' ->
  plain (EAss OAnd [condition l; condition l']) = Some ZBool /\ ok (EAss OAnd [condition l; condition l']) = true.
Proof.
  intros [P O] [P' O']. split.
  - apply plain_ass. split; [reflexivity|]. change (sort_of_op OAnd) with ZBool. cbn [forallb]. rewrite (proj2 (plain_as_iff _ _) P), (proj2 (plain_as_iff _ _) P'). reflexivity.
  - cbn. now rewrite O, O'.
Qed.
Lemma simplify_clear n e e' g : int_env g -> simplify expr_eqb n e = Ok e' -> plain e = Some ZBool -> ok e = true ->
  plain e' = Some ZBool /\ ok e' = true /\ (eval g e' = Some (VBool true) <-> eval g e = Some (VBool true)).
Proof.
  intros IE H P O. destruct (simplify_good _ expr_eqb_sound n _ _ H) as ([K R] & _); [exact O|].
  split; [exact (simplify_plain _ _ _ _ _ H P)|]. split; [exact K|].
  destruct (plain_eval _ _ IE _ P) as ([w|b] & E & Q); [destruct Q|]. rewrite E, (R _ _ E). reflexivity.
Qed.

(** ** The condition of a field *)
Inductive reached (g : env) (s : list link) : field -> Prop :=
| reached_start : reached g s INITIAL
| reached_next l : In l s -> reached g s (source l) -> holds g l -> reached g s (target l).

Lemma in_incoming s f l : In l (incoming s f) <-> In l s /\ target l = f.
Proof. unfold incoming. rewrite filter_In, String.eqb_eq. reflexivity. Qed.
Lemma in_outgoing s f l : In l (outgoing s f) <-> In l s /\ source l = f.
Proof. unfold outgoing. rewrite filter_In, String.eqb_eq. reflexivity. Qed.

Lemma bools_any g ts : (forall e, In e ts -> exists b, eval g e = Some (VBool b)) ->
  (exists e, In e ts /\ eval g e = Some (VBool true)) -> eval g (EAss OOr ts) = Some (VBool true).
Proof.
  intros F (e & I & E). cbn [eval ass_val]. destruct (bools_some g ts F) as [bs B]. rewrite B. f_equal. f_equal.
  clear F. revert bs B. induction ts as [|x ts IH]; intros bs B; [destruct I|]. cbn [map bools] in B.
  destruct (eval g x) as [[?|b]|] eqn:X; try discriminate. destruct (bools (map (eval g) ts)) as [bs'|] eqn:B'; [|discriminate].
  injection B as <-. unfold anyb in *. cbn. destruct I as [->|I]; [rewrite X in E; injection E as ->; reflexivity|].
  rewrite (IH I _ eq_refl). apply orb_true_r.
Qed.

Lemma computed_condition g s k : int_env g -> (forall l, In l s -> clear l) -> forall f e, compute_field_condition s k f = Ok e ->
  plain e = Some ZBool /\ ok e = true /\ (reached g s f -> eval g e = Some (VBool true)).
Proof.
  intros IE C. induction k as [|k IH]; intros f e H; cbn [compute_field_condition] in H; destruct (String.eqb_spec f INITIAL) as [E|N].
  - apply Ok_inj in H. subst. cbn. auto.
  - discriminate.
  - apply Ok_inj in H. subst. cbn. auto.
  - dok H ts T. apply Ok_inj in H. subst e. pose proof (mapr_In _ _ _ T) as W. cbv beta in W.
    assert (X : forall t, In t ts -> plain t = Some ZBool /\ ok t = true).
    { intros t I. apply W in I as (l & I & Q). dok Q c D. apply Ok_inj in Q. subst t. apply in_incoming in I as [I _].
      destruct (IH _ _ D) as (P & O & _). destruct (C l I) as [P' O'].
      apply (and_clear (mkLink "" "" c None None) l); split; assumption. }
    split; [|split].
    + apply plain_ass. split; [reflexivity|]. apply forallb_forall. intros t I. apply plain_as_iff. now apply X.
    + cbn [ok]. apply forallb_forall. intros t I. now apply X.
    + intros R. apply bools_any.
      * intros t I. destruct (plain_eval _ _ IE _ (proj1 (X t I))) as ([w|b] & E & Q); [destruct Q|eauto].
      * destruct R as [|l I R HL]; [congruence|].
        destruct (mapr_each _ _ _ T l) as (t & Q & J); [apply in_incoming; auto|]. exists t. split; [exact J|].
        dok Q c D. apply Ok_inj in Q. subst t. apply and_true. split; [|exact HL]. now apply (IH _ _ D).
Qed.
Lemma field_condition_true g s k f e : int_env g -> (forall l, In l s -> clear l) -> field_condition s k k f = Ok e ->
  plain e = Some ZBool /\ (reached g s f -> eval g e = Some (VBool true)).
Proof.
  intros IE C H. unfold field_condition in H. dok H c D. destruct (computed_condition _ _ _ IE C _ _ D) as (P & O & R).
  destruct (simplify_clear _ _ _ g IE H P O) as (P' & _ & Q). split; [exact P'|]. intros X. apply Q. auto.
Qed.

(** ** Runs in messages with more links *)
Lemma run_more g m m' r a ss : (forall l, In l (mm_structure m) -> In l (mm_structure m')) ->
  (forall x t, ftype_of (mm_types m) x = Some t -> ftype_of (mm_types m') x = Some t) -> run g m r a ss -> run g m' r a ss.
Proof.
  intros L T R. remember m as m0 eqn:E. revert E.
  induction R as [m1 r a l I E X H|m1 r a l t z v ss I E X H FT SZ FR R IH|m1 r a l j v ss1 ss2 I E X H FT R1 IH1 FR R2 IH2]; intros ->.
  - eapply run_end; eauto.
  - eapply run_field; eauto.
  - eapply run_message; eauto.
Qed.

Lemma run_inv g m r a ss : run g m r a ss -> exists l, In l (mm_structure m) /\ source l = a /\ holds (under r g) l /\
  (target l = FINAL /\ ss = [] \/
   target l <> FINAL /\ (exists t z v ss', ftype_of (mm_types m) (target l) = Some (FType t) /\
     value (under r g) (lsize l) z /\ value (under r g) (lfirst l) v /\ run g m r (target l) ss' /\ ss = mkStep (r (target l)) t z v :: ss') \/
   target l <> FINAL /\ (exists i v ss1 ss2, ftype_of (mm_types m) (target l) = Some (FMsg i) /\
     run g i (outer_name (r (target l)) i) INITIAL ss1 /\ value (under r g) (lfirst l) v /\ run g m r (target l) ss2 /\ ss = placed v ss1 ++ ss2)).
Proof.
  intros [m0 r0 a0 l I X Y H|m0 r0 a0 l t z v ss' I X Y H FT SZ FR R|m0 r0 a0 l j v ss1 ss2 I X Y H FT R1 FR R2];
    exists l; repeat (split; [assumption|]); [left|right; left|right; right]; (split; [assumption|]).
  - reflexivity.
  - exists t, z, v, ss'. auto.
  - exists j, v, ss1, ss2. auto.
Qed.

(** ** The spliced structure *)
Lemma bind_single {A B} (x : res A) (f : A -> B) y : (let* a := x in Ok (f a)) = Ok y -> exists a, x = Ok a /\ y = f a.
Proof. intros H. dok H a E. apply Ok_inj in H. eauto. Qed.

Section Splice.
  Variable solve : list expr -> answer.
  Hypothesis SO : sound_unsat solve.
  Variable n : nat.
  Variable g : env.
  Hypothesis IE : int_env g.
  Variables (m i i' : mmessage) (f : field).
  Hypothesis SM : shape n m.
  Hypothesis SI : shape n i'.
  Hypothesis CM : forall l, In l (mm_structure m) -> clear l.
  Hypothesis CI : forall l, In l (mm_structure i') -> clear l.
  Hypothesis NFM : forall l, In l (mm_structure m) -> source l <> FINAL.
  Hypothesis NFI : forall l, In l (mm_structure i') -> source l <> FINAL.
  Hypothesis FM : ftype_of (mm_types m) f = Some (FMsg i).
  Hypothesis ST : forall l, In l (mm_structure i') -> source l = INITIAL -> condition l = ETrue /\ target l <> FINAL.
  Hypothesis LG : legal (typed_part i') g.
  Hypothesis NA : no_always_valid (typed_part i').
  Hypothesis MK : modulus_known (typed_part i').
  Hypothesis DJ : forall x, In x (map fst (mm_types m)) -> ~ In x (map fst (mm_types i')).
  Hypothesis AEQ : forall ss, run g i (outer_name f i) INITIAL ss <-> run g i' same INITIAL ss.
  Hypothesis NE : forall x j ss, ftype_of (mm_types i') x = Some (FMsg j) -> run g j (outer_name x j) INITIAL ss -> ss <> [].
  Variable ls : list (list link).
  Hypothesis LS : mapr (spliced solve n f i') (mm_structure m) = Ok ls.

  Definition spliced_links : list link :=
    concat ls ++ filter (fun l => negb (String.eqb (target l) FINAL) && negb (String.eqb (source l) INITIAL)) (mm_structure i').

  (** the class of a link *)
  Inductive spliced_link (L : link) : Prop :=
  | sl_into l il : In l (mm_structure m) -> target l = f -> In il (mm_structure i') -> source il = INITIAL ->
      L = mkLink (source l) (target il) (condition l) (lsize il) (lfirst l) -> spliced_link L
  | sl_out l fl c : In l (mm_structure m) -> target l <> f -> source l = f -> In fl (mm_structure i') -> target fl = FINAL ->
      simplify expr_eqb n (EAss OAnd [condition l; condition fl]) = Ok c ->
      L = mkLink (source fl) (target l) c (lsize l) (lfirst l) -> spliced_link L
  | sl_outer l : In l (mm_structure m) -> target l <> f -> source l <> f -> L = l -> spliced_link L
  | sl_inner l : In l (mm_structure i') -> target l <> FINAL -> source l <> INITIAL -> L = l -> spliced_link L.

  Lemma spliced_links_sound L : In L spliced_links -> spliced_link L.
  Proof.
    unfold spliced_links. intros I. apply in_app_or in I as [I|I].
    - apply in_concat in I as (x & J & I). apply (mapr_In _ _ _ LS) in J as (l & J & Q). unfold spliced in Q.
      destruct (String.eqb_spec (target l) f) as [E|E].
      + destruct (outgoing (mm_structure i') INITIAL) as [|il t] eqn:O; [discriminate|]. apply Ok_inj in Q. subst x.
        destruct I as [<-|[]]. assert (X : In il (outgoing (mm_structure i') INITIAL)) by (rewrite O; now left).
        apply in_outgoing in X as [X Y]. eapply sl_into; eauto.
      + destruct (String.eqb_spec (source l) f) as [E'|E'].
        * dok Q jl K. apply Ok_inj in Q. subst x. apply in_concat in I as (y & Jy & I).
          apply (mapr_In _ _ _ K) in Jy as (fl & Jf & Q). unfold joined in Q.
          dok Q tc T. dok Q fc F. dok Q a A. apply in_incoming in Jf as [Jf Ff].
          destruct a; [|apply Ok_inj in Q; subst y; destruct I|];
            (dok Q c C; apply Ok_inj in Q; subst y; destruct I as [<-|[]]; eapply sl_out; eauto).
        * apply Ok_inj in Q. subst x. destruct I as [<-|[]]. eapply sl_outer; eauto.
    - apply filter_In in I as [I B]. apply andb_prop in B as [B1 B2]. apply negb_true_iff, String.eqb_neq in B1, B2. eapply sl_inner; eauto.
  Qed.

  Lemma into_in l il : In l (mm_structure m) -> target l = f -> In il (mm_structure i') -> source il = INITIAL ->
    In (mkLink (source l) (target il) (condition l) (lsize il) (lfirst l)) spliced_links.
  Proof.
    intros I E J F. apply in_or_app. left. destruct (mapr_each _ _ _ LS l I) as (x & Q & K). apply in_concat. exists x. split; [exact K|].
    unfold spliced in Q. rewrite (proj2 (String.eqb_eq _ _) E) in Q.
    destruct (outgoing (mm_structure i') INITIAL) as [|il' t] eqn:O; [discriminate|]. apply Ok_inj in Q. subst x. left.
    assert (X : In il' (outgoing (mm_structure i') INITIAL)) by (rewrite O; now left). apply in_outgoing in X as [X Y].
    now rewrite (proj2 (sh_first _ _ SI il J F) il' X Y).
  Qed.
  Lemma start_exists l : In l (mm_structure m) -> target l = f -> exists il, In il (mm_structure i') /\ source il = INITIAL.
  Proof.
    intros I E. destruct (mapr_each _ _ _ LS l I) as (x & Q & K).
    unfold spliced in Q. rewrite (proj2 (String.eqb_eq _ _) E) in Q.
    destruct (outgoing (mm_structure i') INITIAL) as [|il' t] eqn:O; [discriminate|]. exists il'.
    apply in_outgoing. rewrite O. now left.
  Qed.
  (** links that may be taken are kept *)
  Lemma out_in l fl : In l (mm_structure m) -> target l <> f -> source l = f -> In fl (mm_structure i') -> target fl = FINAL ->
    holds g l -> holds g fl -> reached g (mm_structure i') (source fl) ->
    exists c, In (mkLink (source fl) (target l) c (lsize l) (lfirst l)) spliced_links /\ eval g c = Some (VBool true).
  Proof.
    intros I E F J G HL HF RE. destruct (mapr_each _ _ _ LS l I) as (x & Q & K).
    unfold spliced in Q. apply String.eqb_neq in E. rewrite E, (proj2 (String.eqb_eq _ _) F) in Q.
    dok Q jl M. apply Ok_inj in Q. subst x.
    destruct (mapr_each _ _ _ M fl) as (y & Q & Jy); [now apply in_incoming|]. unfold joined in Q.
    dok Q tc T. dok Q fc FC. dok Q a A.
    destruct (and_clear l fl (CM l I) (CI fl J)) as [P O].
    assert (TR : eval g (EAss OAnd [condition l; condition fl]) = Some (VBool true)) by (apply and_true; now split).
    assert (NU : a <> UNSAT).
    { intros ->. unfold check_facts in A. dok A u U. apply Ok_inj in A. refine (SO _ (interp_of g) A _).
      rewrite models_cons, models_app, models_cons. split; [now apply plain_true|]. split; [eapply constraints_models; eauto|].
      split; [|apply models_nil]. unfold field_condition_of in FC. dok FC d D.
      match type of FC with context [find ?pp d] => destruct (find pp d) as [[k c]|] eqn:FD; [|discriminate] end. apply Ok_inj in FC. subst c.
      apply find_some in FD as [FD X]. cbn [fst] in X. apply String.eqb_eq in X. subst k.
      unfold all_field_conditions in D. apply (mapr_In _ _ _ D) in FD as (h & _ & W). dok W c' CC. apply Ok_inj in W. injection W as -> ->.
      destruct (field_condition_true g _ _ _ _ IE CI CC) as [P1 R1]. apply plain_true; auto. }
    assert (Z : exists c, simplify expr_eqb n (EAss OAnd [condition l; condition fl]) = Ok c /\ y = [mkLink (source fl) (target l) c (lsize l) (lfirst l)]).
    { destruct a; [|congruence|]; dok Q c C; apply Ok_inj in Q; eauto. }
    destruct Z as (c & C & ->). exists c. split.
    - apply in_or_app. left. apply in_concat. exists (concat jl). split; [exact K|]. apply in_concat. eexists. split; [exact Jy|]. now left.
    - now apply (simplify_clear _ _ _ g IE C P O).
  Qed.
  Lemma outer_in l : In l (mm_structure m) -> target l <> f -> source l <> f -> In l spliced_links.
  Proof.
    intros I E F. apply in_or_app. left. destruct (mapr_each _ _ _ LS l I) as (x & Q & K). apply in_concat. exists x. split; [exact K|].
    unfold spliced in Q. apply String.eqb_neq in E, F. rewrite E, F in Q. apply Ok_inj in Q. subst. now left.
  Qed.
  Lemma inner_in l : In l (mm_structure i') -> target l <> FINAL -> source l <> INITIAL -> In l spliced_links.
  Proof.
    intros I E F. apply in_or_app. right. apply filter_In. split; [exact I|]. apply String.eqb_neq in E, F. now rewrite E, F.
  Qed.

  Lemma spliced_clear L : In L spliced_links -> clear L /\ source L <> FINAL.
  Proof.
    intros I. apply spliced_links_sound in I as [l il I E J F ->|l fl c I E F J G C ->|l I E F ->|l I E F ->].
    - split; [exact (CM l I)|exact (NFM l I)].
    - split; [|exact (NFI fl J)]. destruct (and_clear l fl (CM l I) (CI fl J)) as [P O].
      destruct (simplify_clear _ _ _ g IE C P O) as (P' & O' & _). split; assumption.
    - split; [exact (CM l I)|exact (NFM l I)].
    - split; [exact (CI l I)|exact (NFI l I)].
  Qed.

  (** the types *)
  Variable ts : list (field * ftype).
  Hypothesis TI : forall x, In x (map fst (mm_types i')) -> ftype_of ts x = ftype_of (mm_types i') x.
  Hypothesis TM : forall x, In x (map fst (mm_types m)) -> x <> f -> ftype_of ts x = ftype_of (mm_types m) x.

  Let mr : mmessage := MM false [] spliced_links ts [].

  Definition node (m : mmessage) (x : field) : Prop := x = INITIAL \/ In x (map fst (mm_types m)).

  Lemma m_source l : In l (mm_structure m) -> node m (source l).
  Proof.
    intros I. destruct (String.eqb_spec (source l) INITIAL) as [E|E]; [now left|right].
    apply (sh_field _ _ SM). split; [exact E|]. split; [exact (NFM l I)|]. exists l. auto.
  Qed.
  Lemma m_target l : In l (mm_structure m) -> target l <> FINAL -> In (target l) (map fst (mm_types m)).
  Proof.
    intros I E. apply (sh_field _ _ SM). split; [exact (sh_no_initial _ _ SM l I)|]. split; [exact E|]. exists l. auto.
  Qed.
  Lemma i_source l : In l (mm_structure i') -> source l <> INITIAL -> In (source l) (map fst (mm_types i')).
  Proof. intros I E. apply (sh_field _ _ SI). split; [exact E|]. split; [exact (NFI l I)|]. exists l. auto. Qed.
  Lemma i_target l : In l (mm_structure i') -> target l <> FINAL -> In (target l) (map fst (mm_types i')).
  Proof.
    intros I E. apply (sh_field _ _ SI). split; [exact (sh_no_initial _ _ SI l I)|]. split; [exact E|]. exists l. auto.
  Qed.
  Lemma i_end l : In l (mm_structure i') -> target l = FINAL -> source l <> INITIAL.
  Proof. intros I E F. now apply (ST l I F). Qed.
  Lemma i_node x : In x (map fst (mm_types i')) -> x <> INITIAL.
  Proof. intros I. now apply (sh_field _ _ SI) in I. Qed.
  Lemma node_disjoint x : node m x -> ~ In x (map fst (mm_types i')).
  Proof. intros [->|I] J; [now apply i_node in J|exact (DJ x I J)]. Qed.
  Lemma f_key : In f (map fst (mm_types m)).
  Proof. exact (ftype_key _ _ _ FM). Qed.

  Lemma f_final : f <> FINAL.
  Proof. pose proof f_key as K. now apply (sh_field _ _ SM) in K. Qed.

  (** *** from the outer message *)
  Lemma inner_forward ss2 l : In l (mm_structure m) -> source l = f -> target l <> f -> holds g l ->
    (forall L, In L spliced_links -> target L = target l -> lsize L = lsize l -> lfirst L = lfirst l -> holds g L -> run g mr same (source L) ss2) ->
    forall q r b ss1, run g q r b ss1 -> q = i' -> r = same -> b <> INITIAL -> reached g (mm_structure i') b -> run g mr same b (ss1 ++ ss2).
  Proof.
    intros I F E HL K q r b ss1 R.
    induction R as [q r a fl J X Y H|q r a fl t z v ss J X Y H FT SZ FR R IH|q r a fl j v ssa ssb J X Y H FT R1 _ FR R2 IH]; intros -> -> NI RE; subst a.
    - cbn [app]. assert (H' : holds g fl) by (unfold holds in H |- *; now rewrite eval_same in H).
      destruct (out_in l fl I E F J Y HL H' RE) as (c & C & T). exact (K _ C eq_refl eq_refl eq_refl T).
    - cbn [app]. apply run_field with (l := fl); auto.
      + now apply inner_in.
      + cbn [mm_types mr]. rewrite TI; [exact FT|exact (ftype_key _ _ _ FT)].
      + apply IH; auto; [exact (sh_no_initial _ _ SI fl J)|]. apply reached_next; auto. unfold holds in H |- *. now rewrite eval_same in H.
    - rewrite <- app_assoc. apply run_message with (l := fl) (i := j); auto.
      + now apply inner_in.
      + cbn [mm_types mr]. rewrite TI; [exact FT|exact (ftype_key _ _ _ FT)].
      + apply IH; auto; [exact (sh_no_initial _ _ SI fl J)|]. apply reached_next; auto. unfold holds in H |- *. now rewrite eval_same in H.
  Qed.

  Lemma placed_app v a b : a <> [] -> placed v (a ++ b) = placed v a ++ b.
  Proof. destruct v, a; try reflexivity. congruence. Qed.

  Lemma splice_forward q r a ss : run g q r a ss -> q = m -> r = same ->
    (a <> f -> run g mr same a ss) /\
    (a = f -> exists l, In l (mm_structure m) /\ source l = f /\ target l <> f /\ holds g l /\
       forall L, In L spliced_links -> target L = target l -> lsize L = lsize l -> lfirst L = lfirst l -> holds g L -> run g mr same (source L) ss).
  Proof.
    induction 1 as [q r a l I X Y H|q r a l t z v ss I X Y H FT SZ FR R IH|q r a l j v ss1 ss2 I X Y H FT R1 _ FR R2 IH]; intros -> ->;
      (assert (H' : holds g l) by (unfold holds in H |- *; now rewrite eval_same in H)); subst a.
    - assert (NT : target l <> f) by (rewrite Y; intros Z; apply f_final; now symmetry).
      split.
      + intros N. apply run_end with (l := l); [exact (outer_in l I NT N)|reflexivity|exact Y|exact H].
      + intros N. exists l. split; [exact I|]. split; [exact N|]. split; [exact NT|]. split; [exact H'|].
        intros L J E1 _ _ HL. eapply run_end; [exact J|reflexivity|congruence|]. unfold holds. now rewrite eval_same.
    - assert (NT : target l <> f) by (intros E; rewrite E in FT; congruence).
      assert (K : In (target l) (map fst (mm_types m))) by now apply m_target.
      destruct (IH eq_refl eq_refl) as [IH1 _]. split.
      + intros N. apply run_field with (l := l); auto; [exact (outer_in l I NT N)|]. cbn [mm_types mr]. now rewrite TM.
      + intros N. exists l. split; [exact I|]. split; [exact N|]. split; [exact NT|]. split; [exact H'|].
        intros L J E1 E2 E3 HL. rewrite <- E1. apply run_field with (l := L); auto; rewrite ?E1, ?E2, ?E3; auto.
        * unfold holds. now rewrite eval_same.
        * cbn [mm_types mr]. now rewrite TM.
    - assert (K : In (target l) (map fst (mm_types m))) by now apply m_target.
      destruct (IH eq_refl eq_refl) as [IH1 IH2].
      destruct (String.eqb_spec (target l) f) as [E|NT].
      + assert (NS : source l <> f) by (intros Z; exact (sh_no_loop _ _ SM l I (eq_trans Z (eq_sym E)))).
        split; [intros _|intros Z; congruence]. destruct (IH2 E) as (l2 & I2 & F2 & E2 & H2 & K2).
        unfold same in R1. rewrite E in FT, R1. rewrite FM in FT. injection FT as <-. apply AEQ in R1.
        assert (GO : forall il ss', In il (mm_structure i') -> source il = INITIAL -> target il <> FINAL -> run g i' same (target il) ss' ->
                     reached g (mm_structure i') (target il) -> run g mr same (target il) (ss' ++ ss2)).
        { intros il ss' J _ _ R' RE. eapply inner_forward; eauto. exact (sh_no_initial _ _ SI il J). }
        assert (RE : forall il, In il (mm_structure i') -> source il = INITIAL -> holds (under same g) il -> reached g (mm_structure i') (target il)).
        { intros il J S0 HH. apply reached_next; [exact J|rewrite S0; apply reached_start|]. unfold holds in HH |- *. now rewrite eval_same in HH. }
        apply run_inv in R1 as (il & J & X1 & HH & [(Y1 & ->)|[(Y1 & t & z & v0 & ss & FT & SZ & FR0 & R' & ->)|(Y1 & j & v0 & ssa & ssb & FT & R0 & FR0 & R' & ->)]]).
        * exfalso. exact (proj2 (ST il J X1) Y1).
        * assert (v0 = None) as ->. { destruct (sh_first _ _ SI il J X1) as [Z _]. rewrite Z in FR0. destruct v0; [destruct FR0|reflexivity]. }
          assert (PL : placed v (mkStep (same (target il)) t z None :: ss) = mkStep (same (target il)) t z v :: ss) by (destruct v; reflexivity).
          rewrite PL. cbn [app].
          eapply (run_field g mr same (source l) (mkLink (source l) (target il) (condition l) (lsize il) (lfirst l))); cbn [target source condition lsize lfirst]; auto.
          -- now apply into_in.
          -- cbn [mm_types mr]. rewrite TI; [exact FT|exact (ftype_key _ _ _ FT)].
        * assert (v0 = None) as ->. { destruct (sh_first _ _ SI il J X1) as [Z _]. rewrite Z in FR0. destruct v0; [destruct FR0|reflexivity]. }
          change (placed None ssa) with ssa. rewrite placed_app by (eapply NE; eauto). rewrite <- app_assoc.
          eapply (run_message g mr same (source l) (mkLink (source l) (target il) (condition l) (lsize il) (lfirst l))); cbn [target source condition lsize lfirst]; auto.
          -- now apply into_in.
          -- cbn [mm_types mr]. rewrite TI; [exact FT|exact (ftype_key _ _ _ FT)].
          -- exact R0.
      + split.
        * intros N. apply run_message with (l := l) (i := j); auto; [exact (outer_in l I NT N)|]. cbn [mm_types mr]. now rewrite TM.
        * intros N. exists l. split; [exact I|]. split; [exact N|]. split; [exact NT|]. split; [exact H'|].
          intros L J E1 E2 E3 HL. apply run_message with (l := L) (i := j); auto; rewrite ?E1, ?E2, ?E3; auto.
          -- unfold holds. now rewrite eval_same.
          -- cbn [mm_types mr]. now rewrite TM.
  Qed.

  (** *** and back *)
  Lemma splice_back q r a ss : run g q r a ss -> q = mr -> r = same ->
    (node m a -> a <> f -> run g m same a ss) /\
    (In a (map fst (mm_types i')) -> exists ss1 ss2, ss = ss1 ++ ss2 /\ run g i' same a ss1 /\ run g m same f ss2).
  Proof.
    induction 1 as [q r a L I X Y H|q r a L t z v ss I X Y H FT SZ FR R IH|q r a L j v ss1 ss2 I X Y H FT R1 _ FR R2 IH]; intros -> ->;
      cbn [mm_structure mr] in I; apply spliced_links_sound in I as [l il I E J F ->|l fl c I E F J G C ->|l I E F ->|l I E F ->];
      cbn [source target condition lsize lfirst] in *; subst a.
    (* the end *)
    - exfalso. exact (proj2 (ST il J F) Y).
    - pose proof (i_source fl J (i_end fl J G)) as K. split; [intros N _; exfalso; exact (node_disjoint _ N K)|]. intros _.
      destruct (and_clear l fl (CM l I) (CI fl J)) as [P O]. unfold holds in H. cbn [condition] in H. rewrite eval_same in H.
      apply (simplify_clear _ _ _ g IE C P O) in H. apply and_true in H as [H1 H2].
      exists [], []. split; [reflexivity|]. split; eapply run_end; eauto; unfold holds; now rewrite eval_same.
    - split; [intros _ _|intros K; exfalso; exact (node_disjoint _ (m_source l I) K)]. eapply run_end; eauto.
    - contradiction.
    (* a field *)
    - destruct (IH eq_refl eq_refl) as [_ IH2]. pose proof (i_target il J Y) as K. destruct (IH2 K) as (sa & sb & -> & Ra & Rb).
      split; [intros _ _|intros Z; exfalso; exact (node_disjoint _ (m_source l I) Z)].
      destruct (ST il J F) as [CT _]. destruct (sh_first _ _ SI il J F) as [LF _].
      assert (PL : placed v (mkStep (same (target il)) t z None :: sa) = mkStep (same (target il)) t z v :: sa) by (destruct v; reflexivity).
      rewrite app_comm_cons. rewrite <- PL. apply run_message with (l := l) (i := i); auto.
      + rewrite E. apply f_final.
      + now rewrite E.
      + unfold same. rewrite E. apply AEQ. apply run_field with (l := il); auto.
        * unfold holds. rewrite CT. reflexivity.
        * cbn [mm_types mr] in FT. now rewrite TI in FT.
        * now rewrite LF.
      + now rewrite E.
    - destruct (IH eq_refl eq_refl) as [IH1 _]. pose proof (i_source fl J (i_end fl J G)) as K. split; [intros N _; exfalso; exact (node_disjoint _ N K)|]. intros _.
      destruct (and_clear l fl (CM l I) (CI fl J)) as [P O]. unfold holds in H. cbn [condition] in H. rewrite eval_same in H.
      apply (simplify_clear _ _ _ g IE C P O) in H. apply and_true in H as [H1 H2]. pose proof (m_target l I Y) as KT.
      exists [], (mkStep (same (target l)) t z v :: ss). split; [reflexivity|]. split.
      + eapply run_end; eauto; unfold holds; now rewrite eval_same.
      + apply run_field with (l := l); auto.
        * unfold holds. now rewrite eval_same.
        * cbn [mm_types mr] in FT. now rewrite TM in FT.
        * apply IH1; [now right|exact E].
    - destruct (IH eq_refl eq_refl) as [IH1 _]. pose proof (m_target l I Y) as KT.
      split; [intros _ _|intros K; exfalso; exact (node_disjoint _ (m_source l I) K)]. apply run_field with (l := l); auto.
      + cbn [mm_types mr] in FT. now rewrite TM in FT.
      + apply IH1; [now right|exact E].
    - destruct (IH eq_refl eq_refl) as [_ IH2]. pose proof (i_target l I Y) as K. destruct (IH2 K) as (sa & sb & -> & Ra & Rb).
      split; [intros N _; exfalso; exact (node_disjoint _ N (i_source l I F))|]. intros _.
      exists (mkStep (same (target l)) t z v :: sa), sb. split; [reflexivity|]. split; [|exact Rb]. apply run_field with (l := l); auto.
      cbn [mm_types mr] in FT. now rewrite TI in FT.
    (* a message field *)
    - destruct (IH eq_refl eq_refl) as [_ IH2]. pose proof (i_target il J Y) as K. destruct (IH2 K) as (sa & sb & -> & Ra & Rb).
      split; [intros _ _|intros Z; exfalso; exact (node_disjoint _ (m_source l I) Z)].
      destruct (ST il J F) as [CT _]. destruct (sh_first _ _ SI il J F) as [LF _].
      assert (FT' : ftype_of (mm_types i') (target il) = Some (FMsg j)) by (cbn [mm_types mr] in FT; now rewrite TI in FT).
      rewrite app_assoc. rewrite <- placed_app by (eapply NE; eauto).
      apply run_message with (l := l) (i := i); auto.
      + rewrite E. apply f_final.
      + now rewrite E.
      + unfold same. rewrite E. apply AEQ. change ss1 with (placed None ss1). apply run_message with (l := il) (i := j); auto.
        * unfold holds. rewrite CT. reflexivity.
        * now rewrite LF.
      + now rewrite E.
    - destruct (IH eq_refl eq_refl) as [IH1 _]. pose proof (i_source fl J (i_end fl J G)) as K. split; [intros N _; exfalso; exact (node_disjoint _ N K)|]. intros _.
      destruct (and_clear l fl (CM l I) (CI fl J)) as [P O]. unfold holds in H. cbn [condition] in H. rewrite eval_same in H.
      apply (simplify_clear _ _ _ g IE C P O) in H. apply and_true in H as [H1 H2]. pose proof (m_target l I Y) as KT.
      exists [], (placed v ss1 ++ ss2). split; [reflexivity|]. split.
      + eapply run_end; eauto; unfold holds; now rewrite eval_same.
      + apply run_message with (l := l) (i := j); auto.
        * unfold holds. now rewrite eval_same.
        * cbn [mm_types mr] in FT. now rewrite TM in FT.
        * apply IH1; [now right|exact E].
    - destruct (IH eq_refl eq_refl) as [IH1 _]. pose proof (m_target l I Y) as KT.
      split; [intros _ _|intros K; exfalso; exact (node_disjoint _ (m_source l I) K)]. apply run_message with (l := l) (i := j); auto.
      + cbn [mm_types mr] in FT. now rewrite TM in FT.
      + apply IH1; [now right|exact E].
    - destruct (IH eq_refl eq_refl) as [_ IH2]. pose proof (i_target l I Y) as K. destruct (IH2 K) as (sa & sb & -> & Ra & Rb).
      split; [intros N _; exfalso; exact (node_disjoint _ N (i_source l I F))|]. intros _.
      exists (placed v ss1 ++ sa), sb. split; [now rewrite app_assoc|]. split; [|exact Rb]. apply run_message with (l := l) (i := j); auto.
      cbn [mm_types mr] in FT. now rewrite TI in FT.
  Qed.

  Lemma splice_run ss : run g m same INITIAL ss <-> run g mr same INITIAL ss.
  Proof.
    assert (N : INITIAL <> f). { intros E. pose proof f_key as K. rewrite <- E in K. now apply (sh_field _ _ SM) in K. }
    split; intros R.
    - now apply (splice_forward _ _ _ _ R).
    - apply (splice_back _ _ _ _ R); [reflexivity|reflexivity|now left|exact N].
  Qed.
End Splice.
