(** Lemmas about the merging of message fields: dangling fields, the types, the loop. *)
From Coq Require Import String Ascii List ZArith Bool Lia Permutation.
From Verif Require Import Base Expr ExprEval ExprFacts ExprTotal Ident TypeSpec MsgGraph MsgGraphFacts Solver SolverFacts
  Verify VerifySpec VerifyFacts GenSpec PlainFacts P_MsgGraph Merge MergeSpec MergeFacts MergeSplice.
Import ListNotations.
Local Open Scope string_scope.
Local Open Scope list_scope.
Local Open Scope Z_scope.
Local Open Scope res_scope.

(** ** Dangling fields *)
Lemma ftype_of_filter (q : field -> bool) ts x : ftype_of (filter (fun kt => q (fst kt)) ts) x = if q x then ftype_of ts x else None.
Proof.
  unfold ftype_of. induction ts as [|[k t] ts IH]; cbn [filter find fst]; [now destruct (q x)|].
  destruct (String.eqb_spec k x) as [->|N].
  - destruct (q x) eqn:Q; [cbn [find fst]; now rewrite String.eqb_refl|]. rewrite IH. reflexivity.
  - destruct (q k); [cbn [find fst]; apply String.eqb_neq in N; now rewrite N|exact IH].
Qed.
Lemma NoDup_filter_keys (q : field * ftype -> bool) ts : NoDup (map fst ts) -> NoDup (map fst (filter q ts)).
Proof.
  induction ts as [|[k t] ts IH]; intros N; [constructor|]. cbn [map fst] in N. apply NoDup_cons_iff in N as [N1 N2]. cbn [filter].
  destruct (q (k, t)); [|auto]. cbn [map fst]. constructor; [|auto]. intros I. apply N1. apply in_map_iff in I as (y & <- & I).
  apply filter_In in I as [I _]. now apply in_map.
Qed.

Lemma in_dangling s x : In x (dangling_in s) <->
  (exists l, In l s /\ (source l = x \/ target l = x)) /\ x <> FINAL /\ forall l, In l s -> source l <> x.
Proof.
  unfold dangling_in. rewrite filter_In, andb_true_iff, negb_true_iff, String.eqb_neq, forallb_forall.
  assert (E : In x (flat_map (fun l => [source l; target l]) s) <-> exists l, In l s /\ (source l = x \/ target l = x)).
  { rewrite in_flat_map. split; intros (l & I & H); exists l; (split; [exact I|]); cbn in *; intuition. }
  rewrite E. split; intros (A & B & C); repeat (split; [assumption|]); intros l I; specialize (C l I).
  - now apply negb_true_iff, String.eqb_neq in C.
  - now apply negb_true_iff, String.eqb_neq.
Qed.

Section Prune.
  Variables (g : env) (s0 : list link) (ts : list (field * ftype)).
  Let m0 := MM false [] s0 ts [].
  Definition dead (x : field) : Prop := forall ss, ~ run g m0 same x ss.
  Definition pruning (s : list link) (d : list field) : Prop :=
    incl s s0 /\ (forall l, In l s0 -> In l s \/ In (target l) d) /\ forall x, In x d -> x <> FINAL /\ dead x.

  Lemma prune_spec k : forall s d s' d', prune k s d = Ok (s', d') -> pruning s d ->
    pruning s' d' /\ forall l, In l s' -> ~ In (target l) d'.
  Proof.
    induction k as [|k IH]; intros s d s' d' H P; cbn [prune] in H; [discriminate|].
    assert (P' : pruning (filter (fun l => negb (memf (target l) (d ++ dangling_in s))) s) (d ++ dangling_in s)).
    { destruct P as (P1 & P2 & P3). split; [|split].
      - intros l I. apply filter_In in I as [I _]. auto.
      - intros l I. destruct (memf (target l) (d ++ dangling_in s)) eqn:M; [right; now apply memf_iff|left].
        apply filter_In. rewrite M. split; [|reflexivity]. destruct (P2 l I) as [J|J]; [exact J|].
        exfalso. apply not_true_iff_false in M. apply M. apply memf_iff. apply in_or_app. now left.
      - intros x I. apply in_app_or in I as [I|I]; [auto|]. apply in_dangling in I as (_ & NF & N). split; [exact NF|].
        intros ss R. apply run_inv in R as (l & I & E & _ & K). cbn [mm_structure m0] in I.
        destruct (P2 l I) as [J|J]; [exact (N l J E)|]. destruct (P3 _ J) as [J1 J2].
        destruct K as [(K & _)|[(K & t & z & v & ss' & _ & _ & _ & R & _)|(K & i & v & ss1 & ss2 & _ & _ & _ & R & _)]];
          [contradiction|exact (J2 _ R)|exact (J2 _ R)]. }
    destruct (dangling_in s) as [|x t] eqn:D; [|exact (IH _ _ _ _ H P')].
    apply Ok_inj in H. injection H as <- <-. split; [exact P'|]. intros l I. apply filter_In in I as [_ I].
    apply negb_true_iff, not_true_iff_false in I. now rewrite memf_iff in I.
  Qed.

  Lemma prune_run k s' d : prune k s0 [] = Ok (s', d) -> forall ss a,
    run g m0 same a ss <-> run g (MM false [] s' (filter (fun kt => negb (memf (fst kt) d)) ts) []) same a ss.
  Proof.
    intros H ss a. destruct (prune_spec _ _ _ _ _ H) as [(P1 & P2 & P3) P4].
    { split; [intros l I; exact I|]. split; [auto|intros x []]. }
    assert (TY : forall x t, ftype_of (filter (fun kt => negb (memf (fst kt) d)) ts) x = Some t <-> ~ In x d /\ ftype_of ts x = Some t).
    { intros x t. rewrite (ftype_of_filter (fun x => negb (memf x d)) ts x). rewrite <- memf_iff. destruct (memf x d); cbn; intuition congruence. }
    split.
    - intros R. refine ((_ : forall q r a ss, run g q r a ss -> q = m0 -> r = same -> _) m0 same a ss R eq_refl eq_refl).
      clear R a ss. intros q r a ss R. pattern a, ss.
      induction R as [q r a l I X Y Z|q r a l t z v ss I X Y Z FT SZ FR R IH|q r a l j v ss1 ss2 I X Y Z FT R1 _ FR R2 IH]; intros -> ->; cbn [mm_structure mm_types] in *.
      + apply run_end with (l := l); auto. cbn. destruct (P2 l I) as [J|J]; [exact J|]. rewrite Y in J. exfalso. now apply P3 in J.
      + assert (ND : ~ In (target l) d) by (intros J; exact (proj2 (P3 _ J) _ R)).
        apply run_field with (l := l); auto; cbn; [destruct (P2 l I); tauto|]. apply TY. auto.
      + assert (ND : ~ In (target l) d) by (intros J; exact (proj2 (P3 _ J) _ R2)).
        apply run_message with (l := l) (i := j); auto; cbn; [destruct (P2 l I); tauto|]. apply TY. auto.
    - apply run_more; cbn; [exact P1|]. intros x t E. now apply TY.
  Qed.
End Prune.

(** every round of the loop that does not end it removes a link *)
Lemma filter_less {A} (q : A -> bool) l : (exists x, In x l /\ q x = false) -> (length (filter q l) < length l)%nat.
Proof.
  assert (LE : forall l, (length (filter q l) <= length l)%nat).
  { clear l. induction l as [|x l IH]; cbn; [lia|]. destruct (q x); cbn; lia. }
  intros (x & I & Q). induction l as [|y l IH]; [destruct I|]. cbn. destruct I as [->|I]; [rewrite Q; specialize (LE l); lia|].
  specialize (IH I). destruct (q y); cbn; lia.
Qed.
Lemma prune_total k : forall s d, (length s < k)%nat -> exists s' d', prune k s d = Ok (s', d').
Proof.
  induction k as [|k IH]; intros s d H; [lia|]. cbn [prune]. destruct (dangling_in s) as [|x t] eqn:D; [eauto|].
  apply IH. assert (I : In x (dangling_in s)) by (rewrite D; now left). apply in_dangling in I as ((l & I & E) & _ & N).
  destruct E as [E|E]; [now apply N in E|].
  assert (L : (length (filter (fun l => negb (memf (target l) (d ++ x :: t))) s) < length s)%nat); [|lia].
  apply filter_less. exists l. split; [exact I|]. apply negb_false_iff, memf_iff. apply in_or_app. right. now left.
Qed.

(** ** Dictionaries *)
Lemma ftype_of_set d k v x : ftype_of (dict_set d k v) x = if String.eqb k x then Some v else ftype_of d x.
Proof.
  unfold ftype_of. induction d as [|[k' v'] d IH]; cbn [dict_set find fst].
  - destruct (String.eqb k x); reflexivity.
  - destruct (String.eqb_spec k k') as [->|N]; cbn [find fst].
    + destruct (String.eqb k' x); reflexivity.
    + destruct (String.eqb_spec k' x) as [->|M]; [apply String.eqb_neq in N; now rewrite N|exact IH].
Qed.
Lemma dict_set_keys d k v : NoDup (map fst d) -> NoDup (map fst (dict_set d k v)) /\
  forall x, In x (map fst (dict_set d k v)) <-> x = k \/ In x (map fst d).
Proof.
  induction d as [|[k' v'] d IH]; intros N; cbn [dict_set map fst].
  - split; [constructor; [intros []|constructor]|]. intros x. cbn. intuition.
  - cbn [map fst] in N. apply NoDup_cons_iff in N as [N1 N2]. destruct (String.eqb_spec k k') as [->|M]; cbn [map fst].
    + split; [now constructor|]. intros x. cbn. intuition.
    + destruct (IH N2) as [A B]. split; [constructor; [|exact A]; intros I; apply B in I as [I|I]; [congruence|contradiction]|].
      intros x. cbn [In]. rewrite B. intuition.
Qed.
Lemma dict_merge_keys b : forall a, NoDup (map fst a) -> NoDup (map fst (dict_merge a b)) /\
  forall x, In x (map fst (dict_merge a b)) <-> In x (map fst a) \/ In x (map fst b).
Proof.
  unfold dict_merge. induction b as [|[k v] b IH]; intros a N; cbn [fold_left map fst snd].
  - split; [exact N|]. intros x. cbn. intuition.
  - destruct (dict_set_keys a k v N) as [A B]. destruct (IH _ A) as [C D]. split; [exact C|]. intros x. rewrite D, B. cbn [In]. intuition.
Qed.
Lemma ftype_of_merge b : forall a x, NoDup (map fst b) ->
  ftype_of (dict_merge a b) x = match ftype_of b x with Some t => Some t | None => ftype_of a x end.
Proof.
  unfold dict_merge. induction b as [|[k v] b IH]; intros a x N; cbn [fold_left fst snd]; [reflexivity|].
  cbn [map fst] in N. apply NoDup_cons_iff in N as [N1 N2]. rewrite (IH _ _ N2), ftype_of_set.
  unfold ftype_of at 3. cbn [find fst snd]. destruct (String.eqb_spec k x) as [->|M].
  - apply ftype_of_None in N1. now rewrite N1.
  - fold (ftype_of b x). destruct (ftype_of b x); reflexivity.
Qed.

(** ** Errors and types of new messages *)
Lemma build_types order n errors p pkg s ts e m : build order n errors p pkg s ts = Ok (e, m) -> NoDup (map fst ts) ->
  NoDup (map fst (mm_types m)) /\ incl (mm_types m) ts /\ (errors <> [] -> e <> []).
Proof.
  unfold build. intros H N. destruct errors as [|x t].
  - dok H r C. destruct r as [e' fs]. destruct fs as [|f0 fs].
    + apply Ok_inj in H. injection H as <- <-. split; [exact N|]. split; [apply incl_refl|congruence].
    + dok H ts' A. apply Ok_inj in H. injection H as <- <-. cbn [mm_types]. destruct (arranged_nodup _ _ _ A) as [A1 A2].
      split; [exact A1|]. split; [exact A2|congruence].
  - dok H e' V. apply Ok_inj in H. injection H as <- <-. split; [exact N|]. split; [apply incl_refl|]. intros _. discriminate.
Qed.
Lemma prefixed_types order verified n i p i' : prefixed order verified n i p = Ok i' -> NoDup (map fst (mm_types i)) ->
  NoDup (map fst (mm_types i')) /\ incl (mm_types i') (map (fun kt => ((p ++ fst kt)%string, snd kt)) (mm_types i)).
Proof.
  unfold prefixed. intros H N. dok H s E. dok H r B. destruct r as [e m'].
  destruct e as [|]; [|discriminate]. dok H e' V. destruct e'; [|discriminate]. apply Ok_inj in H. subst m'.
  apply build_types in B.
  - destruct B as (B1 & B2 & _). auto.
  - rewrite map_map. cbn [fst]. rewrite <- (map_map fst (fun k => (p ++ k)%string)). apply NoDup_map_inj; [|exact N].
    intros x y. apply append_inj_l.
Qed.

Lemma merge_field_types solve order verified n errors m f i e m' : merge_field solve order verified n errors m f i = Ok (e, m') ->
  NoDup (map fst (mm_types m)) -> NoDup (map fst (mm_types i)) ->
  NoDup (map fst (mm_types m')) /\ (errors <> [] -> e <> []) /\
  incl (mm_types m') (filter (fun kt => negb (String.eqb (fst kt) f)) (mm_types m) ++
                      map (fun kt => (at_place f (fst kt), snd kt)) (mm_types i)).
Proof.
  unfold merge_field. intros H N NI. dok H i' P. dok H ls L. dok H r Q. destruct r as [s' ts'].
  unfold prune_dangling_fields in Q. dok Q r R. destruct r as [s2 d]. apply Ok_inj in Q. injection Q as <- Q.
  destruct (prefixed_types _ _ _ _ _ _ P NI) as [N' I'].
  assert (NM : NoDup (map fst (dict_merge (filter (fun kt => negb (String.eqb (fst kt) f)) (mm_types m)) (mm_types i'))))
    by (apply dict_merge_keys, NoDup_filter_keys, N).
  assert (NT : NoDup (map fst ts')) by (rewrite <- Q; now apply NoDup_filter_keys).
  destruct s2 as [|l0 s2]; [discriminate|]. destruct ts' as [|t0 ts']; [discriminate|].
  destruct (build_types _ _ _ _ _ _ _ _ _ H NT) as (B1 & B2 & B3). split; [exact B1|]. split.
  - intros NE. apply B3. destruct (existsb _ _); [destruct errors; discriminate|exact NE].
  - intros [x t] J. apply B2 in J. rewrite <- Q in J. apply filter_In in J as [J _]. apply In_ftype_of in J; [|exact NM].
    rewrite ftype_of_merge in J by exact N'. apply in_or_app.
    destruct (ftype_of (mm_types i') x) as [t'|] eqn:X.
    + right. injection J as ->. apply ftype_of_In in X. apply I' in X. apply in_map_iff in X as ([k t'] & E & X). cbn [fst snd] in E.
      apply in_map_iff. exists (k, t'). split; [|exact X]. cbn [fst snd]. unfold at_place. rewrite <- E, append_assoc. reflexivity.
    + left. now apply ftype_of_In.
Qed.

(** ** The number of iterations *)
Definition weight (kt : field * ftype) : nat := match snd kt with FType _ => 0 | FMsg i => S (nested i) end.
Definition weights (ts : list (field * ftype)) : nat := list_sum (map weight ts).
Lemma nested_weights m : nested m = weights (mm_types m).
Proof.
  destruct m as [p pkg s ts fs]. cbn [nested mm_types]. unfold weights. induction ts as [|[k [t|i]] ts IH]; [reflexivity|exact IH|].
  cbn [map list_sum fold_right weight snd]. unfold list_sum in IH. rewrite IH. reflexivity.
Qed.
Lemma weights_app a b : weights (a ++ b) = (weights a + weights b)%nat.
Proof. unfold weights. now rewrite map_app, list_sum_app. Qed.
Lemma weights_incl a : forall b, NoDup a -> incl a b -> (weights a <= weights b)%nat.
Proof.
  induction a as [|x a IH]; intros b N I; [unfold weights; cbn; lia|]. apply NoDup_cons_iff in N as [N1 N2].
  destruct (in_split x b) as (b1 & b2 & ->); [apply I; now left|].
  assert (L : (weights a <= weights (b1 ++ b2))%nat).
  { apply IH; [exact N2|]. intros y J. specialize (I y (or_intror J)). apply in_app_or in I as [I|[I|I]]; [apply in_or_app; auto|subst y; contradiction|apply in_or_app; auto]. }
  rewrite weights_app in *. cbn. unfold weights in *. cbn. unfold list_sum in *. lia.
Qed.
Lemma weights_filter f t ts : In (f, t) ts -> (weight (f, t) + weights (filter (fun kt => negb (String.eqb (fst kt) f)) ts) <= weights ts)%nat.
Proof.
  assert (LE : forall ts, (weights (filter (fun kt => negb (String.eqb (fst kt) f)) ts) <= weights ts)%nat).
  { clear ts. induction ts as [|x ts IH]; [cbn; lia|]. cbn [filter]. destruct (negb _); unfold weights in *; cbn; unfold list_sum in *; lia. }
  induction ts as [|x ts IH]; intros I; [destruct I|]. cbn [filter]. destruct I as [->|I].
  - cbn [fst]. rewrite String.eqb_refl. cbn [negb]. specialize (LE ts). unfold weights in *. cbn [map list_sum fold_right]. unfold list_sum in *. lia.
  - specialize (IH I). destruct (negb _); unfold weights in *; cbn [map list_sum fold_right] in *; unfold list_sum in *; lia.
Qed.

Lemma find_msg m f i : find (fun kt => is_msg (snd kt)) (mm_types m) = Some (f, FMsg i) -> In (f, FMsg i) (mm_types m).
Proof. intros H. now apply find_some in H. Qed.

Lemma merge_field_nested solve order verified n errors m f i e m' : merge_field solve order verified n errors m f i = Ok (e, m') ->
  NoDup (map fst (mm_types m)) -> NoDup (map fst (mm_types i)) -> In (f, FMsg i) (mm_types m) -> (nested m' < nested m)%nat.
Proof.
  intros H N NI I. destruct (merge_field_types _ _ _ _ _ _ _ _ _ _ H N NI) as (N' & _ & IN). rewrite !nested_weights.
  apply weights_incl in IN; [|eapply NoDup_map_inv; eauto]. rewrite weights_app in IN. pose proof (weights_filter _ _ _ I) as W.
  assert (E : weights (map (fun kt => (at_place f (fst kt), snd kt)) (mm_types i)) = nested i).
  { rewrite nested_weights. unfold weights. rewrite map_map. reflexivity. }
  rewrite E in IN. cbn [weight snd] in W. lia.
Qed.

(** dictionaries have unique keys *)
Definition dicts (m : mmessage) : Prop :=
  NoDup (map fst (mm_types m)) /\ forall p i, occurs m same p i -> NoDup (map fst (mm_types i)).

(** occurrences do not depend on names *)
Lemma occurs_other m r p i : occurs m r p i -> forall r', exists p', occurs m r' p' i.
Proof.
  induction 1 as [m r x i I|m r x i p j I O IH]; intros r'.
  - eexists. eapply occurs_here; eauto.
  - destruct (IH (outer_name (r' x) i)) as [p' P]. exists p'. eapply occurs_below; eauto.
Qed.
Lemma merge_field_dicts solve order verified n errors m f i e m' : merge_field solve order verified n errors m f i = Ok (e, m') ->
  dicts m -> In (f, FMsg i) (mm_types m) -> dicts m'.
Proof.
  intros H [N D] I. assert (NI : NoDup (map fst (mm_types i))) by (apply (D f); apply (occurs_here m same f i I)).
  destruct (merge_field_types _ _ _ _ _ _ _ _ _ _ H N NI) as (N' & _ & IN). split; [exact N'|].
  intros p j O. assert (X : forall x j', In (x, FMsg j') (mm_types m') -> In (x, FMsg j') (mm_types m) \/ exists y, x = at_place f y /\ In (y, FMsg j') (mm_types i)).
  { intros x j' J. apply IN in J. apply in_app_or in J as [J|J]; [left; now apply filter_In in J|right].
    apply in_map_iff in J as ([y t] & E & J). cbn [fst snd] in E. injection E as <- ->. eauto. }
  inversion O as [q r x j' J|q r x j' p' j'' J O']; subst.
  - destruct (X _ _ J) as [K|(y & -> & K)]; [eapply D, occurs_here; eauto|].
    eapply D. eapply occurs_below; [exact I|]. eapply occurs_here. exact K.
  - destruct (X _ _ J) as [K|(y & -> & K)].
    + eapply D. eapply occurs_below; eauto.
    + destruct (occurs_other _ _ _ _ O' (outer_name (outer_name (same f) i y) j')) as [p2 P2].
      eapply D. eapply occurs_below; [exact I|]. eapply occurs_below; [exact K|]. exact P2.
Qed.

Definition next_field (a : list string * mmessage) : option (field * mmessage) :=
  match find (fun kt => is_msg (snd kt)) (mm_types (snd a)) with Some (f, FMsg i) => Some (f, i) | _ => None end.
Definition next_message solve order verified n (a : list string * mmessage) (b : field * mmessage) : res (list string * mmessage) :=
  merge_field solve order verified n (fst a) (snd a) (fst b) (snd b).

Lemma loop_terminates solve order verified n k : forall errors m, dicts m -> (nested m <= k)%nat ->
  loops next_field (next_message solve order verified n) (errors, m) (merged_loop solve order verified n k errors m).
Proof.
  induction k as [|k IH]; intros errors m D L; cbn [merged_loop];
    destruct (find (fun kt => is_msg (snd kt)) (mm_types m)) as [[f [t|i]]|] eqn:F.
  - exfalso. apply find_some in F as [_ F]. discriminate.
  - exfalso. apply find_msg in F. pose proof (weights_filter _ _ _ F) as W. rewrite nested_weights in L. cbn [weight snd] in W. lia.
  - apply loops_done. unfold next_field. cbn [snd]. now rewrite F.
  - exfalso. apply find_some in F as [_ F]. discriminate.
  - assert (NX : next_field (errors, m) = Some (f, i)) by (unfold next_field; cbn [snd]; now rewrite F).
    destruct (merge_field solve order verified n errors m f i) as [[e m']|why] eqn:M; cbn [bind].
    + eapply loops_next; [exact NX|exact M|]. apply find_msg in F. apply IH; [eapply merge_field_dicts; eauto|].
      assert (NI : NoDup (map fst (mm_types i))) by (apply (proj2 D f); apply (occurs_here m same f i F)).
      pose proof (merge_field_nested _ _ _ _ _ _ _ _ _ _ M (proj1 D) NI F). lia.
    + eapply loops_error; [exact NX|exact M].
  - apply loops_done. unfold next_field. cbn [snd]. now rewrite F.
Qed.

(** ** One iteration *)
Lemma run_nonempty g q r a ss : run g q r a ss -> a = INITIAL ->
  let start (j : mmessage) := forall l, In l (mm_structure j) -> source l = INITIAL -> target l <> FINAL in
  start q -> (forall p j, occurs q r p j -> start j) -> ss <> [].
Proof.
  induction 1 as [q r a l I X Y Z|q r a l t z v ss I X Y Z FT SZ FR R IH|q r a l j v ss1 ss2 I X Y Z FT R1 IH1 FR R2 IH2]; intros A start Q O.
  - exfalso. subst. exact (Q l I A Y).
  - discriminate.
  - intros E. apply app_eq_nil in E as [E _]. apply ftype_of_In in FT. apply IH1; [reflexivity| | |].
    + eapply O. eapply occurs_here; eauto.
    + intros p j' O'. eapply O. eapply occurs_below; eauto.
    + destruct v, ss1; try discriminate; reflexivity.
Qed.

Lemma in_plain_types ts y t : In (y, t) (plain_types ts) <-> In (y, FType t) ts.
Proof.
  unfold plain_types. rewrite in_flat_map. split.
  - intros ([k [t'|i]] & I & J); cbn in J; [|destruct J]. destruct J as [J|[]]. injection J as -> ->. exact I.
  - intros I. exists (y, FType t). split; [exact I|]. now left.
Qed.

Section Iteration.
  Variable solve : list expr -> answer.
  Hypothesis SO : sound_unsat solve.
  Variable order : list link -> list link.
  Hypothesis OP : forall s, Permutation (order s) s.
  Variable verified : mmessage -> res (list string).
  Variable n : nat.
  Variables (m i m' : mmessage) (f : field).
  Hypothesis MO : mergeable_outer order n m.
  Hypothesis FI : In (f, FMsg i) (mm_types m).
  Hypothesis MF : merge_field solve order verified n [] m f i = Ok ([], m').

  Let SM : shape n m := built_shape _ _ _ (mo_built _ _ _ MO).
  Let O0 : occurs m same f i := occurs_here m same f i FI.
  Let MI : mergeable order n i := mo_inner _ _ _ MO f i O0.
  Let SHI : shape n i := built_shape _ _ _ (mg_built _ _ _ MI).

  Lemma m_nodup : NoDup (map fst (mm_types m)).
  Proof. exact (sh_nodup _ _ SM). Qed.
  Lemma i_nodup : NoDup (map fst (mm_types i)).
  Proof. exact (sh_nodup _ _ SHI). Qed.

  Lemma next_types x j : In (x, FMsg j) (mm_types m') ->
    In (x, FMsg j) (mm_types m) \/ exists y, x = outer_name f i y /\ In (y, FMsg j) (mm_types i).
  Proof.
    intros J. destruct (merge_field_types _ _ _ _ _ _ _ _ _ _ MF m_nodup i_nodup) as (_ & _ & IN). apply IN in J.
    apply in_app_or in J as [J|J]; [left; now apply filter_In in J|right].
    apply in_map_iff in J as ([y t] & E & J). cbn [fst snd] in E. injection E as <- ->. exists y. split; [|exact J].
    symmetry. apply outer_key. exact (in_map fst _ _ J).
  Qed.
  Lemma next_occurs p j : occurs m' same p j -> occurs m same p j.
  Proof.
    intros O. inversion O as [q r x j' J|q r x j' p' j'' J O']; subst.
    - destruct (next_types _ _ J) as [K|(y & -> & K)]; [now apply occurs_here|].
      eapply occurs_below; [exact FI|]. exact (occurs_here i (outer_name f i) y j K).
    - destruct (next_types _ _ J) as [K|(y & -> & K)].
      + eapply occurs_below; eauto.
      + eapply occurs_below; [exact FI|]. eapply occurs_below; [exact K|exact O'].
  Qed.

  (** the parts of the iteration *)
  Lemma parts : exists i' ls s' d,
    prefixed order verified n i (f ++ "_")%string = Ok i' /\
    (forall x, In x (map fst (mm_types m)) -> ~ In x (map fst (mm_types i'))) /\
    mapr (spliced solve n f i') (mm_structure m) = Ok ls /\
    let ts := dict_merge (filter (fun kt => negb (String.eqb (fst kt) f)) (mm_types m)) (mm_types i') in
    prune (S (length (spliced_links i' ls))) (spliced_links i' ls) [] = Ok (s', d) /\
    build order n [] (mm_proven m) (mm_package m) s' (filter (fun kt => negb (memf (fst kt) d)) ts) = Ok ([], m').
  Proof.
    unfold merge_field in MF. destruct (prefixed order verified n i (f ++ "_")%string) as [i'|] eqn:P; cbn [bind] in MF; [|discriminate].
    destruct (mapr (spliced solve n f i') (mm_structure m)) as [ls|] eqn:L; cbn [bind] in MF; [|discriminate].
    unfold prune_dangling_fields in MF. fold (spliced_links i' ls) in MF.
    destruct (prune (S (length (spliced_links i' ls))) (spliced_links i' ls) []) as [[s' d]|] eqn:R; cbn [bind] in MF; [|discriminate].
    exists i', ls, s', d. split; [reflexivity|].
    destruct (prefixed_spec order OP verified n f i i' SHI P) as (SI & _).
    destruct (existsb (fun x => memf x (mm_fields i')) (mm_fields m)) eqn:C.
    { exfalso. destruct s' as [|l0 s']; [discriminate|]. destruct (filter _ (dict_merge _ _)) as [|t0 ts']; [discriminate|].
      cbn [app] in MF. unfold build in MF. destruct (validate_first _) as [e|]; cbn [bind] in MF; [|discriminate]. apply Ok_inj in MF. discriminate. }
    split.
    { intros x I J. apply not_true_iff_false in C. apply C. apply existsb_exists. exists x.
      rewrite (sh_types _ _ SM) in I. rewrite (sh_types _ _ SI) in J. split; [exact I|now apply memf_iff]. }
    split; [exact L|]. split; [exact R|].
    destruct s' as [|l0 s']; [discriminate|]. destruct (filter _ (dict_merge _ _)) as [|t0 ts']; [discriminate|]. exact MF.
  Qed.

  Lemma iteration g : world m g -> mergeable_outer order n m' /\ world m' g /\
    forall ss, run g m same INITIAL ss <-> run g m' same INITIAL ss.
  Proof.
    intros WM.
    destruct parts as (i' & ls & s' & d & P & DJ & L & R & B).
    destruct (prefixed_spec order OP verified n f i i' SHI P) as (SI & PK & LK & TY & KY & ND & EX).
    set (ts := dict_merge (filter (fun kt => negb (String.eqb (fst kt) f)) (mm_types m)) (mm_types i')) in *.
    assert (NM : NoDup (map fst ts)) by (apply dict_merge_keys, NoDup_filter_keys, m_nodup).
    assert (KM : forall x, In x (map fst ts) -> x <> INITIAL /\ x <> FINAL).
    { intros x I. apply dict_merge_keys in I; [|apply NoDup_filter_keys, m_nodup]. destruct I as [I|I].
      - apply in_map_iff in I as (y & <- & I). apply filter_In in I as [I _]. apply (in_map fst) in I. apply (sh_field _ _ SM) in I. tauto.
      - apply (sh_field _ _ SI) in I. tauto. }
    assert (KF : forall x, In x (map fst (filter (fun kt => negb (memf (fst kt) d)) ts)) -> x <> INITIAL /\ x <> FINAL).
    { intros x I. apply in_map_iff in I as (y & <- & I). apply filter_In in I as [I _]. apply KM. now apply in_map. }
    assert (NK : NoDup (map fst (filter (fun kt => negb (memf (fst kt) d)) ts))) by now apply NoDup_filter_keys.
    destruct (build_spec order n _ _ _ _ _ B NK) as (S' & E1 & E2 & E3 & N' & L').
    { intros I. now apply KF in I. }
    { intros I. now apply KF in I. }
    assert (TI : forall x, In x (map fst (mm_types i')) -> ftype_of ts x = ftype_of (mm_types i') x).
    { intros x I. unfold ts. rewrite ftype_of_merge by exact ND. apply ftype_of_key in I as [t I]. now rewrite I. }
    assert (TM : forall x, In x (map fst (mm_types m)) -> x <> f -> ftype_of ts x = ftype_of (mm_types m) x).
    { intros x I NF. unfold ts. rewrite ftype_of_merge by exact ND.
      assert (X : ftype_of (mm_types i') x = None) by (apply ftype_of_None; auto). rewrite X.
      etransitivity; [exact (ftype_of_filter (fun k => negb (String.eqb k f)) (mm_types m) x)|]. apply String.eqb_neq in NF. now rewrite NF. }
    assert (FM : ftype_of (mm_types m) f = Some (FMsg i)) by (apply In_ftype_of; [apply m_nodup|exact FI]).
    assert (NFM : forall l, In l (mm_structure m) -> source l <> FINAL) by apply (mo_built _ _ _ MO).
    assert (CL : forall l, In l (mm_structure i) -> clear l) by apply (mg_clear _ _ _ MI).
    assert (NA : no_always_valid (typed_part i')).
    { intros x id lits size I. cbn [typed_part v_types] in I. apply in_plain_types in I. pose proof I as J. apply (in_map fst) in J. apply KY in J as (y & E & J).
      cbn [fst] in E. subst x. apply In_ftype_of in I; [|exact ND]. rewrite TY in I. apply ftype_of_In in I.
      apply (mg_valid _ _ _ MI y id lits size). now apply in_plain_types. }
    assert (MK : modulus_known (typed_part i')).
    { intros x id e v size I. cbn [typed_part v_types] in I. apply in_plain_types in I. pose proof I as J. apply (in_map fst) in J. apply KY in J as (y & E & J).
      cbn [fst] in E. subst x. apply In_ftype_of in I; [|exact ND]. rewrite TY in I. apply ftype_of_In in I.
      apply (mg_modulus _ _ _ MI y id e v size). now apply in_plain_types. }
    assert (W : (forall L0, In L0 (spliced_links i' ls) -> clear L0 /\ source L0 <> FINAL) /\
      forall ss, run g m same INITIAL ss <-> run g (MM false [] (spliced_links i' ls) ts []) same INITIAL ss).
    { destruct WM as [IE WO]. destruct (WO f i O0) as [LG AD].
      assert (PS := plink_spec order verified n f i i' SHI P g IE CL (mg_names _ _ _ MI) (mg_aspects _ _ _ MI) AD).
      assert (CI : forall l, In l (mm_structure i') -> clear l).
      { intros l' I. apply LK in I as (l & I & Q). now apply (PS l l' I Q). }
      assert (NFI : forall l, In l (mm_structure i') -> source l <> FINAL).
      { intros l' I. apply LK in I as (l & I & Q). destruct (PS l l' I Q) as (Q1 & _). rewrite Q1. apply starting_final. }
      assert (ST : forall l, In l (mm_structure i') -> source l = INITIAL -> condition l = ETrue /\ target l <> FINAL).
      { intros l' I S0. apply LK in I as (l & I & Q). destruct (PS l l' I Q) as (Q1 & Q2 & _ & _ & _ & _ & _ & Q8).
        rewrite Q1 in S0. change INITIAL with (starting f INITIAL) in S0. apply starting_inj in S0.
        destruct (mg_start _ _ _ MI l I S0) as [C T]. split; [auto|]. rewrite Q2. unfold ending. apply String.eqb_neq in T. rewrite T. apply place_final. }
      assert (LG' : legal (typed_part i') g).
      { assert (IN : forall x t, In (x, t) (v_types (typed_part i')) -> In (x, t) (v_types (outside f i))).
        { intros x t I. cbn [typed_part v_types] in I. apply in_plain_types in I. pose proof I as J. apply (in_map fst) in J. apply KY in J as (y & E & J).
          cbn [fst] in E. subst x. apply In_ftype_of in I; [|exact ND]. rewrite TY in I. apply ftype_of_In in I. cbn [outside v_types].
          apply in_map_iff. exists (y, t). split; [reflexivity|]. now apply in_plain_types. }
        assert (PE : v_package (typed_part i') = v_package (outside f i)) by exact PK.
        destruct LG as [G1 G2 G3 G4 G5 G6 G7]. split; eauto. rewrite PE. eauto. }
      assert (AEQ : forall ss, run g i (outer_name f i) INITIAL ss <-> run g i' same INITIAL ss).
      { intros ss. split; intros X.
        - change INITIAL with (starting f INITIAL). exact (prefixed_run_to order OP verified n f i i' SHI P g IE CL (mg_names _ _ _ MI) (mg_aspects _ _ _ MI) AD i _ INITIAL ss X eq_refl eq_refl).
        - exact (prefixed_run_from order OP verified n f i i' SHI P g IE CL (mg_names _ _ _ MI) (mg_aspects _ _ _ MI) AD i' _ INITIAL ss X eq_refl eq_refl INITIAL eq_refl). }
      assert (NE : forall x j ss, ftype_of (mm_types i') x = Some (FMsg j) -> run g j (outer_name x j) INITIAL ss -> ss <> []).
      { intros x j ss F X. pose proof (ftype_key _ _ _ F) as K. apply KY in K as (y & -> & K). rewrite TY in F. apply ftype_of_In in F.
        rewrite <- (outer_key f i y K) in X.
        assert (OJ : occurs m same (outer_name f i y) j) by (eapply occurs_below; [exact FI|]; exact (occurs_here i (outer_name f i) y j F)).
        apply (run_nonempty _ _ _ _ _ X); [reflexivity| |].
        - intros l I S0. now apply (mg_start _ _ _ (mo_inner _ _ _ MO _ _ OJ) l I).
        - intros p j' OO l I S0. assert (OJ' : occurs m same p j').
          { eapply occurs_below; [exact FI|]. eapply occurs_below; [exact F|exact OO]. }
          now apply (mg_start _ _ _ (mo_inner _ _ _ MO _ _ OJ') l I). }
      split.
      - intros L0 I0. exact (spliced_clear solve n g IE m i' f (mo_clear _ _ _ MO) CI NFM NFI ls L L0 I0).
      - intros ss. exact (splice_run solve SO n g IE m i i' f SM SI (mo_clear _ _ _ MO) CI NFM NFI FM ST LG' NA MK DJ AEQ NE ls L ts TI TM ss). }
    assert (PR : forall ss a, run g (MM false [] (spliced_links i' ls) ts []) same a ss <-> run g m' same a ss).
    { intros ss a. rewrite (prune_run g _ ts _ _ _ R). split; apply run_more; cbn [mm_structure mm_types]; intros.
      - rewrite E1. now apply in_order.
      - now rewrite L'.
      - rewrite E1 in *. now apply in_order in H.
      - now rewrite <- L'. }
    assert (INS : incl s' (spliced_links i' ls)).
    { destruct (prune_spec g (spliced_links i' ls) ts _ _ _ _ _ R) as [(X & _) _]; [|exact X].
      split; [apply incl_refl|]. split; [auto|intros x []]. }
    destruct W as [W1 W2]. split; [|split].
    - split.
      + split.
        * exists s', (filter (fun kt => negb (memf (fst kt) d)) ts). rewrite E2, E3. split; [exact B|]. split; [exact NK|].
          split; intros I; now apply KF in I.
        * intros l I. rewrite E1 in I. apply in_order in I; [|exact OP]. now apply W1, INS.
      + intros l I. rewrite E1 in I. apply in_order in I; [|exact OP]. now apply W1, INS.
      + intros p j O. exact (mo_inner _ _ _ MO p j (next_occurs p j O)).
    - split; [apply WM|]. intros p j O. exact (proj2 WM p j (next_occurs p j O)).
    - intros ss. rewrite W2. apply PR.
  Qed.
End Iteration.

Lemma merged_flat solve order verified n k : forall errors m e m', merged_loop solve order verified n k errors m = Ok (e, m') ->
  forall x i, ~ In (x, FMsg i) (mm_types m').
Proof.
  induction k as [|k IH]; intros errors m e m' H; cbn [merged_loop] in H;
    destruct (find (fun kt => is_msg (snd kt)) (mm_types m)) as [[f [t|i]]|] eqn:F;
    try (exfalso; apply find_some in F as [_ F]; discriminate); try discriminate;
    try (apply Ok_inj in H; injection H as -> ->; intros x i I; pose proof (find_none _ _ F _ I); discriminate).
  dok H r M. destruct r as [e1 m1]. exact (IH _ _ _ _ H).
Qed.
Lemma merged_errors solve order verified n k : forall errors m e m', merged_loop solve order verified n k errors m = Ok (e, m') ->
  dicts m -> errors <> [] -> e <> [].
Proof.
  induction k as [|k IH]; intros errors m e m' H D N; cbn [merged_loop] in H;
    destruct (find (fun kt => is_msg (snd kt)) (mm_types m)) as [[f [t|i]]|] eqn:F;
    try (exfalso; apply find_some in F as [_ F]; discriminate); try discriminate;
    try (apply Ok_inj in H; injection H as -> ->; exact N).
  apply find_msg in F. dok H r M. destruct r as [e1 m1].
  assert (NI : NoDup (map fst (mm_types i))) by (apply (proj2 D f); apply (occurs_here m same f i F)).
  eapply IH; [exact H|eapply merge_field_dicts; eauto|]. now apply (merge_field_types _ _ _ _ _ _ _ _ _ _ M (proj1 D) NI).
Qed.
Lemma outer_dicts order n m : mergeable_outer order n m -> dicts m.
Proof.
  intros MO. split; [exact (sh_nodup _ _ (built_shape _ _ _ (mo_built _ _ _ MO)))|].
  intros p i O. exact (sh_nodup _ _ (built_shape _ _ _ (mg_built _ _ _ (mo_inner _ _ _ MO p i O)))).
Qed.
Lemma merged_runs solve order verified n k g : sound_unsat solve -> (forall s, Permutation (order s) s) ->
  forall m m', mergeable_outer order n m -> world m g -> merged_loop solve order verified n k [] m = Ok ([], m') ->
  forall ss, run g m same INITIAL ss <-> run g m' same INITIAL ss.
Proof.
  intros SO OP. induction k as [|k IH]; intros m m' MO W H; cbn [merged_loop] in H;
    destruct (find (fun kt => is_msg (snd kt)) (mm_types m)) as [[f [t|i]]|] eqn:F;
    try (exfalso; apply find_some in F as [_ F]; discriminate); try discriminate;
    try (apply Ok_inj in H; injection H as ->; reflexivity).
  apply find_msg in F. dok H r M. destruct r as [e m1]. pose proof (outer_dicts _ _ _ MO) as D.
  destruct e as [|x e].
  - destruct (iteration solve SO order OP verified n m i m1 f MO F M g W) as (MO1 & W1 & R1).
    intros ss. rewrite R1. now apply IH.
  - exfalso. eapply (merged_errors _ _ _ _ _ _ _ _ _ H); [eapply merge_field_dicts; eauto|discriminate|reflexivity].
Qed.
