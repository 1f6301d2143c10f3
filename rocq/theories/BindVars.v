(** Proofs for C59: the variables of an expression. *)
From Coq Require Import String List ZArith Bool Lia.
From Verif Require Import Base Expr ExprMore SessionType SessionEval BindExpr BindSpec BindFacts BindSound BindMain.
Import ListNotations.
Local Open Scope string_scope.
Local Open Scope list_scope.
Local Open Scope Z_scope.

Definition seen (vs : list (string * bool)) : scope := fun x => mem x (map fst vs).
Lemma seen_In vs x : seen vs x = true <-> exists s, In (x, s) vs.
Proof.
  unfold seen. rewrite mem_In, in_map_iff. split.
  - intros ([y s] & E & I). cbn in E. subst y. eauto.
  - intros (s & I). exists (x, s). auto.
Qed.
Lemma seen_unique vs x : seen (unique sv_eqb vs) x = seen vs x.
Proof.
  apply eq_true_iff_eq. rewrite !seen_In. split; intros (s & I); exists s; [exact (proj1 (unique_In _ sv_eqb_spec _ _) I)|exact (proj2 (unique_In _ sv_eqb_spec _ _) I)].
Qed.
Lemma seen_app a b x : seen (a ++ b) x = seen a x || seen b x.
Proof. apply eq_true_iff_eq. rewrite orb_true_iff, !seen_In. setoid_rewrite in_app_iff. firstorder. Qed.
Lemma seen_without y vs x : seen (without y vs) x = negb (String.eqb x y) && seen vs x.
Proof.
  apply eq_true_iff_eq. rewrite andb_true_iff, !seen_In. unfold without. setoid_rewrite filter_In. cbn [fst]. split.
  - intros (s & I & N). eauto.
  - intros (N & s & I). eauto.
Qed.

Lemma both_app_l A a b x : both A (seen a) x = true -> both A (seen (a ++ b)) x = true.
Proof. unfold both. rewrite seen_app. intros H. apply andb_true_iff in H as [-> ->]. reflexivity. Qed.
Lemma both_app_r A a b x : both A (seen b) x = true -> both A (seen (a ++ b)) x = true.
Proof. unfold both. rewrite seen_app. intros H. apply andb_true_iff in H as [-> ->]. apply orb_true_r. Qed.

Section Vars.
Variables (w : world) (sums strict : bool).
Variable eqb : bx -> bx -> bool.
Hypothesis eqb_sound : forall a b st, eqb a b = true -> ev w st a = ev w st b.
Notation ev := (ev w).
Notation good g := (good sums g).

(** ** every variable that matters is reported *)
Definition kept_in (A : scope) (e : bx) (vs : list (string * bool)) (e' : bx) : Prop :=
  (forall st, le (ev st e) (ev st e')) /\ within false (both A (seen vs)) e' = true /\ (is_name e = true -> forall st, same_head w st st e e').

Lemma list_complete vars ts vs :
  (forall e vs, vars e = Ok vs -> good true e -> forall A, within true A e = true -> exists e', kept_in A e vs e') ->
  gather vars ts = Ok vs -> Forall (good true) ts -> forall A, forallb (within true A) ts = true ->
  exists ts', (forall st, Forall2 (fun t t' => le (ev st t) (ev st t')) ts ts') /\ forallb (within false (both A (seen vs))) ts' = true.
Proof.
  intros H. revert vs. induction ts as [|t ts IH]; intros vs S G A W; cbn [gather] in S.
  - apply Ok_inj in S as <-. exists []. split; [constructor|reflexivity].
  - step S. step S. apply Ok_inj in S as <-. inversion G; subst. cbn [forallb] in W. apply andb_true_iff in W as [W1 W2].
    destruct (H _ _ E H2 A W1) as (t' & T1 & T2 & _). destruct (IH _ E0 H3 A W2) as (ts' & T3 & T4).
    exists (t' :: ts'). split; [constructor; auto|]. cbn [forallb]. apply andb_true_iff. split.
    + revert T2. apply within_mono. apply both_app_l.
    + revert T4. apply forallb_impl. apply Forall_forall. intros e _. apply within_mono. apply both_app_r.
Qed.
Lemma fields_complete vars (ts : list (string * bx)) vs :
  (forall e vs, vars e = Ok vs -> good true e -> forall A, within true A e = true -> exists e', kept_in A e vs e') ->
  gather (fun p => vars (snd p)) ts = Ok vs -> Forall (fun p => good true (snd p)) ts -> forall A, forallb (fun p => within true A (snd p)) ts = true ->
  exists ts', (forall st, Forall2 (fun p p' : string * bx => fst p = fst p' /\ le (ev st (snd p)) (ev st (snd p'))) ts ts') /\ forallb (fun p => within false (both A (seen vs)) (snd p)) ts' = true.
Proof.
  intros H. revert vs. induction ts as [|[k t] ts IH]; intros vs S G A W; cbn [gather snd] in S.
  - apply Ok_inj in S as <-. exists []. split; [constructor|reflexivity].
  - step S. step S. apply Ok_inj in S as <-. inversion G; subst. cbn [forallb snd] in *. apply andb_true_iff in W as [W1 W2].
    destruct (H _ _ E H2 A W1) as (t' & T1 & T2 & _). destruct (IH _ E0 H3 A W2) as (ts' & T3 & T4).
    exists ((k, t') :: ts'). split; [constructor; auto|]. cbn [forallb snd]. apply andb_true_iff. split.
    + revert T2. apply within_mono. apply both_app_l.
    + revert T4. apply forallb_impl. apply Forall_forall. intros e _. apply within_mono. apply both_app_r.
Qed.
Lemma both_left A vs ws x : both A (seen vs) x = true -> both A (seen (unique sv_eqb (vs ++ ws))) x = true.
Proof. intros H. apply (both_app_l _ _ ws) in H. unfold both in *. now rewrite seen_unique. Qed.
Lemma both_right A vs ws x : both A (seen ws) x = true -> both A (seen (unique sv_eqb (vs ++ ws))) x = true.
Proof. intros H. apply (both_app_r _ vs) in H. unfold both in *. now rewrite seen_unique. Qed.
Lemma bound_left (A : scope) vs us x y : both (minus A x) (seen vs) y = true -> (forall z, seen vs z = true -> seen us z = true) -> both A (seen (without x us)) y = true.
Proof.
  unfold both, minus. rewrite seen_without. intros H K. apply andb_true_iff in H as [H1 H2]. apply andb_true_iff in H1 as [H1 H3]. now rewrite H3, H1, (K y H2).
Qed.
Lemma bound_right (A : scope) vs us x y : both (plus A x) (seen vs) y = true -> (forall z, seen vs z = true -> seen us z = true) -> plus (both A (seen (without x us))) x y = true.
Proof.
  unfold both, plus. rewrite seen_without. intros H K. destruct (String.eqb y x); [reflexivity|]. cbn in *. apply andb_true_iff in H as [H1 H2]. now rewrite H1, (K y H2).
Qed.

Lemma vars_complete : forall n e vs, variables eqb n e = Ok vs -> good true e -> forall A, within true A e = true -> exists e', kept_in A e vs e'.
Proof.
  induction n as [|n IH]; [discriminate|]. intros e vs S G A W.
  destruct e; cbn [variables] in S.
  - exists (BBool b). split; [intros st; apply le_refl|]. split; [reflexivity|discriminate].
  - exists (BNum v). split; [intros st; apply le_refl|]. split; [reflexivity|discriminate].
  - apply Ok_inj in S as <-. exists (BVar x neg). split; [intros st; apply le_refl|]. split; [|intros _ st; reflexivity]. cbn [within] in *. unfold both, seen. cbn. now rewrite W, String.eqb_refl.
  - destruct (IH _ _ S G A W) as (e' & E1 & E2 & _). exists (BNot e'). split; [intros st; now apply le_not|]. split; [exact E2|discriminate].
  - step S. apply Ok_inj in S as <-. apply good_ass in G as [_ G]. destruct (list_complete _ _ _ IH E G A W) as (ts' & T1 & T2).
    exists (BAss o ts'). split; [intros st; now apply le_ass|]. split; [|discriminate]. cbn [within]. revert T2. apply forallb_impl. apply Forall_forall. intros t _. apply within_mono.
    unfold both. intros x. now rewrite seen_unique.
  - step S. step S. apply Ok_inj in S as <-. apply good_bin in G as (_ & GL & GR). cbn [within] in W. apply andb_true_iff in W as [W1 W2].
    destruct (IH _ _ E GL A W1) as (l' & L1 & L2 & _). destruct (IH _ _ E0 GR A W2) as (r' & R1 & R2 & _).
    exists (BBin o l' r'). split; [intros st; now apply le_bin|]. split; [|discriminate]. cbn [within]. apply andb_true_iff. split; [revert L2; apply within_mono; intros x; apply both_left|revert R2; apply within_mono; intros x; apply both_right].
  - step S. step S. apply Ok_inj in S as <-. apply good_rel in G as (GL & GR). cbn [within] in W. apply andb_true_iff in W as [W1 W2].
    destruct (IH _ _ E GL A W1) as (l' & L1 & L2 & _). destruct (IH _ _ E0 GR A W2) as (r' & R1 & R2 & _).
    exists (BRel o l' r'). split; [intros st; now apply le_rel|]. split; [|discriminate]. cbn [within]. apply andb_true_iff. split; [revert L2; apply within_mono; intros x; apply both_left|revert R2; apply within_mono; intros x; apply both_right].
  - step S. step S. apply Ok_inj in S as <-. apply good_in in G as (GL & GR). cbn [within] in W. apply andb_true_iff in W as [W1 W2].
    destruct (IH _ _ E GL A W1) as (l' & L1 & L2 & _). destruct (IH _ _ E0 GR A W2) as (r' & R1 & R2 & _).
    exists (BIn positive l' r'). split; [intros st; now apply le_in|]. split; [|discriminate]. cbn [within]. apply andb_true_iff. split; [revert L2; apply within_mono; intros x; apply both_left|revert R2; apply within_mono; intros x; apply both_right].
  - apply good_attr in G as ((M & N) & G). destruct (IH _ _ S G A W) as (e' & E1 & E2 & E3). exists (BAttr a e' neg). split; [|split; [exact E2|intros _ st; reflexivity]].
    intros st. apply le_attr; auto. intros O. rewrite O in N. cbn in N. auto.
  - assert (GE : good true e).
    { destruct G as [G1 G2]. unfold linear in G1. cbn [every] in G1. apply andb_true_iff in G1 as [_ G1]. split; [exact G1|exact G2]. }
    destruct (IH _ _ S GE A W) as (e' & E1 & E2 & _). exists (BSel e' selector neg). split; [intros st; now apply le_sel|]. split; [exact E2|].
    intros _ st. cbn [same_head]. exists e', neg. split; [reflexivity|]. intros ->. split; [reflexivity|apply E1].
  - step S. apply Ok_inj in S as <-.
    assert (GA : Forall (good true) args).
    { destruct G as [G1 G2]. unfold linear in G1. cbn [every] in G1. apply andb_true_iff in G1 as [_ G1]. cbn [bindings] in G2. apply bindings_list in G2. apply forallb_Forall in G1.
      rewrite Forall_forall in *. intros t I. split; [exact (G1 t I)|exact (G2 t I)]. }
    destruct (list_complete _ _ _ IH E GA A W) as (ts' & T1 & T2).
    exists (BCall f ts' neg). split; [intros st; now apply le_call|]. split; [|intros _ st; reflexivity]. cbn [within]. revert T2. apply forallb_impl. apply Forall_forall. intros t _. apply within_mono.
    intros x. apply (both_app_r A [(f, false)] a).
  - apply Ok_inj in S as <-. exists (BAgg es). split; [intros st; apply le_refl|]. split; [|discriminate]. cbn [within] in *. revert W. apply forallb_impl. apply Forall_forall. intros t _ H.
    apply (within_mono false _ nothing); [discriminate|]. now apply (within_false true).
  - step S. step S. apply Ok_inj in S as <-. apply good_quant in G as (GL & GR). cbn [within] in W. apply andb_true_iff in W as [W1 W2].
    destruct (IH _ _ E GL _ W1) as (l' & L1 & L2 & _). destruct (IH _ _ E0 GR _ W2) as (r' & R1 & R2 & _).
    exists (BQuant all x l' r'). split; [intros st; apply le_quant; [apply L1|intros y; apply R1]|]. split; [|discriminate]. cbn [within]. apply andb_true_iff. split.
    + revert L2. apply within_mono. intros y Hy. unfold both. rewrite seen_unique. apply (bound_left A a _ x y Hy). intros z Hz. rewrite seen_app, Hz. reflexivity.
    + revert R2. apply within_mono. intros y Hy. pose proof (bound_right A a0 (a ++ a0) x y Hy) as Q. unfold plus, both in *. rewrite seen_unique. apply Q. intros z Hz. rewrite seen_app, Hz. apply orb_true_r.
  - apply good_conv in G. destruct (IH _ _ S G A W) as (e' & E1 & E2 & _). exists (BConv t e'). split; [intros st; now apply le_conv|]. split; [exact E2|intros _ st; reflexivity].
  - step S. step S. step S. apply Ok_inj in S as <-. apply good_compr in G as (GL & GM & GR). cbn [within] in W. apply andb_true_iff in W as [W W3]. apply andb_true_iff in W as [W1 W2].
    destruct (IH _ _ E GL _ W1) as (l' & L1 & L2 & _). destruct (IH _ _ E0 GM _ W2) as (m' & M1 & M2 & _). destruct (IH _ _ E1 GR _ W3) as (r' & R1 & R2 & _).
    exists (BCompr x l' m' r'). split; [intros st; apply le_compr; [apply L1|intros y; apply M1|intros y; apply R1]|]. split; [|discriminate]. cbn [within]. apply andb_true_iff. split; [apply andb_true_iff; split|].
    + revert L2. apply within_mono. intros y Hy. apply (bound_left A a _ x y Hy). intros z Hz. rewrite seen_app, Hz. reflexivity.
    + revert M2. apply within_mono. intros y Hy. apply (bound_right A a0 _ x y Hy). intros z Hz. rewrite !seen_app, Hz. apply orb_true_r.
    + revert R2. apply within_mono. intros y Hy. apply (bound_right A a1 _ x y Hy). intros z Hz. rewrite !seen_app, Hz. now rewrite !orb_true_r.
  - apply good_msg in G. destruct (fields_complete _ _ _ IH S G A W) as (ts' & T1 & T2).
    exists (BMsg t ts'). split; [intros st; now apply le_msg|]. split; [exact T2|discriminate].
  - step S. pose proof (simplified_ok w sums true eqb eqb_sound n _ _ E G) as R.
    destruct (IH _ _ S (r_good _ _ _ _ _ R) A (r_sat _ _ _ _ _ R (Scope A) W)) as (e' & E1 & E2 & _).
    exists e'. split; [|split; [exact E2|discriminate]]. intros st v H. apply E1. now apply (r_val _ _ _ _ _ R).
Qed.

(** ** nothing else is reported *)
Definition named (A F : scope) (vs : list (string * bool)) : Prop := Forall (fun v => A (fst v) || F (fst v) = true) vs.
Lemma named_unique A F vs : named A F vs -> named A F (unique sv_eqb vs).
Proof. unfold named. rewrite !Forall_forall. intros H v I. apply H. exact (proj1 (unique_In _ sv_eqb_spec _ _) I). Qed.
Lemma named_app A F a b : named A F a -> named A F b -> named A F (a ++ b).
Proof. unfold named. intros H K. now apply Forall_app. Qed.
Lemma named_mono (A A' : scope) F vs : (forall x, A x = true -> A' x = true) -> named A F vs -> named A' F vs.
Proof.
  unfold named. intros H. apply Forall_impl. intros v K. apply orb_true_iff in K as [K|K]; [now rewrite (H _ K)|now rewrite K, orb_true_r].
Qed.
Lemma named_without (A : scope) F x vs : named (plus A x) F vs -> named A F (without x vs).
Proof.
  unfold named, without, plus. rewrite !Forall_forall. intros H v I. apply filter_In in I as [I N]. specialize (H v I).
  destruct (String.eqb (fst v) x); [discriminate N|]. exact H.
Qed.
Lemma named_gather {X} (f : X -> res (list (string * bool))) A F l vs : gather f l = Ok vs -> (forall x vs, In x l -> f x = Ok vs -> named A F vs) -> named A F vs.
Proof.
  revert vs. induction l as [|x l IH]; intros vs S H; cbn [gather] in S.
  - apply Ok_inj in S as <-. constructor.
  - step S. step S. apply Ok_inj in S as <-. apply named_app; [apply (H x); [now left|exact E]|apply IH; [exact E0|]]. intros y ws I. apply H. now right.
Qed.
Lemma vars_free : forall n e vs, variables eqb n e = Ok vs -> good strict e -> forall A F, within strict A e = true -> every (plain_in true F) e = true -> named A F vs.
Proof.
  assert (MI : forall (A : scope) x y, (if strict then minus A x else A) y = true -> plus A x y = true).
  { unfold minus, plus. intros A x y. destruct strict; destruct (String.eqb y x); auto. }
  induction n as [|n IH]; [discriminate|]. intros e vs S G A F W P.
  destruct e; cbn [variables] in S; cbn [within] in W; cbn [every] in P; try (apply andb_true_iff in P as [P0 P]).
  - apply Ok_inj in S as <-. constructor.
  - apply Ok_inj in S as <-. constructor.
  - apply Ok_inj in S as <-. constructor; [cbn; now rewrite W|constructor].
  - apply (IH _ _ S G A F W P).
  - step S. apply Ok_inj in S as <-. apply good_ass in G as [_ G]. apply named_unique. apply (named_gather _ A F _ _ E). intros t us I T.
    rewrite forallb_forall in W, P. rewrite Forall_forall in G. apply (IH _ _ T); auto.
  - step S. step S. apply Ok_inj in S as <-. apply good_bin in G as (_ & GL & GR). apply andb_true_iff in W as [W1 W2]. apply andb_true_iff in P as [P1 P2].
    apply named_unique. apply named_app; [apply (IH _ _ E)|apply (IH _ _ E0)]; auto.
  - step S. step S. apply Ok_inj in S as <-. apply good_rel in G as (GL & GR). apply andb_true_iff in W as [W1 W2]. apply andb_true_iff in P as [P1 P2].
    apply named_unique. apply named_app; [apply (IH _ _ E)|apply (IH _ _ E0)]; auto.
  - step S. step S. apply Ok_inj in S as <-. apply good_in in G as (GL & GR). apply andb_true_iff in W as [W1 W2]. apply andb_true_iff in P as [P1 P2].
    apply named_unique. apply named_app; [apply (IH _ _ E)|apply (IH _ _ E0)]; auto.
  - apply good_attr in G as (_ & G). apply (IH _ _ S G A F W P).
  - assert (GE : good strict e).
    { destruct G as [G1 G2]. unfold linear in G1. cbn [every] in G1. apply andb_true_iff in G1 as [_ G1]. split; [exact G1|exact G2]. }
    apply (IH _ _ S GE A F W P).
  - step S. apply Ok_inj in S as <-. constructor; [cbn; cbn in P0; now rewrite P0, orb_true_r|].
    destruct G as [G1 G2]. unfold linear in G1. cbn [every] in G1. apply andb_true_iff in G1 as [_ G1]. cbn [bindings] in G2. apply bindings_list in G2.
    apply (named_gather _ A F _ _ E). intros t us I T. rewrite forallb_forall in W, P, G1. rewrite Forall_forall in G2. apply (IH _ _ T); auto. split; [exact (G1 t I)|exact (G2 t I)].
  - apply Ok_inj in S as <-. constructor.
  - step S. step S. apply Ok_inj in S as <-. apply good_quant in G as (GL & GR). apply andb_true_iff in W as [W1 W2]. apply andb_true_iff in P as [P1 P2].
    apply named_unique. apply named_without. apply named_app; [|apply (IH _ _ E0); auto]. apply (named_mono _ _ F _ (MI A x)). apply (IH _ _ E); auto.
  - apply good_conv in G. apply (IH _ _ S G A F W P).
  - step S. step S. step S. apply Ok_inj in S as <-. apply good_compr in G as (GL & GM & GR). apply andb_true_iff in W as [W W3]. apply andb_true_iff in W as [W1 W2].
    apply andb_true_iff in P as [P P3]. apply andb_true_iff in P as [P1 P2].
    apply named_without. apply named_app; [|apply named_app; [apply (IH _ _ E0); auto|apply (IH _ _ E1); auto]]. apply (named_mono _ _ F _ (MI A x)). apply (IH _ _ E); auto.
  - apply good_msg in G. apply (named_gather _ A F _ _ S). intros t' us I T. rewrite forallb_forall in W, P. rewrite Forall_forall in G. apply (IH _ _ T); auto.
  - step S. pose proof (simplified_ok w sums strict eqb eqb_sound n _ _ E G) as R.
    apply (IH _ _ S (r_good _ _ _ _ _ R) A F).
    + apply (r_sat _ _ _ _ _ R (Scope A)). exact W.
    + apply (r_sat _ _ _ _ _ R (Each true F)). cbn [sat every]. rewrite P0. exact P.
Qed.
End Vars.

Lemma functions_every F : forall e, (forall f, In f (functions e) -> F f = true) -> every (plain_in true F) e = true.
Proof.
  induction e using bx_ind'; cbn [functions every plain_in]; intros I; auto; rewrite ?andb_true_l;
    try (apply andb_true_iff; split; [apply IHe1|apply IHe2]; intros f J; apply I; apply in_app_iff; auto);
    try (apply forallb_forall; rewrite Forall_forall in H; intros t T; apply H; [exact T|]; intros g J; apply I; apply in_flat_map; eauto).
  - apply andb_true_iff. split; [apply I; now left|]. apply forallb_forall. rewrite Forall_forall in H. intros t T. apply H; [exact T|]. intros g J. apply I. right. apply in_flat_map. eauto.
  - apply andb_true_iff. split; [apply andb_true_iff; split; [apply IHe1|apply IHe2]|apply IHe3]; intros f J; apply I; rewrite !in_app_iff; auto.
  - apply forallb_forall. rewrite Forall_forall in H. intros p T. apply H; [exact T|]. intros g J. apply I. apply in_flat_map. exists p. split; [exact T|exact J].
  - apply andb_true_iff. split; [apply IHe; intros f J; apply I; apply in_app_iff; auto|]. apply forallb_forall. rewrite Forall_forall in H. intros t T. apply H; [exact T|]. intros g J. apply I.
    apply in_app_iff. right. apply in_flat_map. eauto.
Qed.
Lemma every_functions F : forall e, every (plain_in true F) e = true -> forall f, In f (functions e) -> F f = true.
Proof.
  assert (L : forall ts, Forall (fun e => every (plain_in true F) e = true -> forall f, In f (functions e) -> F f = true) ts ->
    forallb (every (plain_in true F)) ts = true -> forall f, In f (flat_map functions ts) -> F f = true).
  { intros ts H E f I. apply in_flat_map in I as (t & T & I). rewrite Forall_forall in H. rewrite forallb_forall in E. apply (H t T (E t T) f I). }
  assert (LF : forall ts : list (string * bx), Forall (fun p => every (plain_in true F) (snd p) = true -> forall f, In f (functions (snd p)) -> F f = true) ts ->
    forallb (fun p => every (plain_in true F) (snd p)) ts = true -> forall f, In f (flat_map (fun p => functions (snd p)) ts) -> F f = true).
  { intros ts H E f I. apply in_flat_map in I as (t & T & I). rewrite Forall_forall in H. rewrite forallb_forall in E. apply (H t T (E t T) f I). }
  induction e using bx_ind'; cbn [functions every plain_in]; intros E g I; try contradiction; rewrite ?andb_true_l, ?andb_true_iff in E; auto;
    try (destruct E as [E1 E2]; apply in_app_iff in I as [I|I]; [now apply IHe1|now apply IHe2]);
    try (now apply (L _ H)); try (now apply (LF _ H)).
  - destruct E as [E1 E2]. destruct I as [<-|I]; [exact E1|now apply (L _ H)].
  - destruct E as [[E1 E2] E3]. rewrite !in_app_iff in I. destruct I as [I|[I|I]]; auto.
  - destruct E as [E1 E2]. apply in_app_iff in I as [I|I]; [auto|now apply (LF _ H)].
Qed.
