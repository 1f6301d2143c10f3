(** Lemmas about the generated parser and serializer. *)
From Coq Require Import String List ZArith Bool Lia Arith.
From Verif Require Import Base Expr ExprEval ExprFacts ExprMore MsgGraph MsgGraphFacts P_MsgGraph
  AdaTypes AdaBuffer AdaBufferFacts P_AdaTypes GenCode GenSpec.
Import ListNotations.
Local Open Scope string_scope.
Local Open Scope list_scope.
Local Open Scope Z_scope.
Local Open Scope res_scope.
Local Notation length := List.length.

(** ** Evaluation *)

Lemma bind_ok {A B} (r : res A) (k : A -> res B) b : bind r k = Ok b -> exists a, r = Ok a /\ k a = Ok b.
Proof. destruct r as [a|]; cbn [bind]; [eauto|discriminate]. Qed.

Ltac dbind H x E := apply bind_ok in H as (x & E & H).

Section EvalSound.
  Context (inr : Z -> bool) (lk : name -> res val) (g : env).

  Definition ok_sound (r : res val) (o : option val) : Prop := forall v, r = Ok v -> o = Some v.

  Lemma all_bools_sound l l' bs : Forall2 ok_sound l l' -> all_bools l = Ok bs -> bools l' = Some bs.
  Proof.
    intros F. revert bs. induction F as [|r o l l' R F IH]; intros bs; cbn [all_bools bools].
    - intros E. apply Ok_inj in E. now subst.
    - intros E. dbind E v E1. dbind E b E2. dbind E bs' E3. apply Ok_inj in E. subst bs.
      rewrite (R _ E1). destruct v; [discriminate|]. apply Ok_inj in E2. subst. now rewrite (IH _ E3).
  Qed.
  Lemma all_ints_sound l l' bs : Forall2 ok_sound l l' -> all_ints l = Ok bs -> ints l' = Some bs.
  Proof.
    intros F. revert bs. induction F as [|r o l l' R F IH]; intros bs; cbn [all_ints ints].
    - intros E. apply Ok_inj in E. now subst.
    - intros E. dbind E v E1. dbind E b E2. dbind E bs' E3. apply Ok_inj in E. subst bs.
      rewrite (R _ E1). destruct v; [|discriminate]. apply Ok_inj in E2. subst. now rewrite (IH _ E3).
  Qed.
  Lemma stop_at_sound stop l l' b : Forall2 ok_sound l l' -> stop_at stop l = Ok b -> sc_val stop l' = Some (VBool b).
  Proof.
    intros F. induction F as [|r o l l' R F IH]; cbn [stop_at sc_val].
    - intros E. apply Ok_inj in E. now subst.
    - intros E. dbind E v E1. dbind E b' E2. rewrite (R _ E1). destruct v as [|c]; [discriminate|].
      apply Ok_inj in E2. subst c. destruct (Bool.eqb b' stop); [|auto]. apply Ok_inj in E. now subst.
  Qed.

  Lemma int_res_ok z v : int_res inr z = Ok v -> v = VInt z.
  Proof. unfold int_res. destruct (inr z); [|discriminate]. intros E. apply Ok_inj in E. auto. Qed.

  Lemma aeval_sound e : (forall n v, In n (names e) -> lk n = Ok v -> g n = v) ->
    ok_sound (aeval inr lk e) (eval_sc g e).
  Proof.
    induction e as [ | |z|n neg|a IH|o ts IH|o l r IHl IHr|o l r IHl IHr] using expr_ind'; intros G v E;
      cbn [aeval eval_sc] in *.
    - apply Ok_inj in E. now subst.
    - apply Ok_inj in E. now subst.
    - apply Ok_inj in E. now subst.
    - dbind E w E1. rewrite (G n w (or_introl eq_refl) E1). unfold name_val. destruct neg.
      + dbind E z E2. destruct w; [|discriminate]. apply Ok_inj in E2. subst z. apply int_res_ok in E. now subst.
      + apply Ok_inj in E. now subst.
    - dbind E w E1. dbind E b E2. apply Ok_inj in E. rewrite (IH G _ E1). destruct w; [discriminate|].
      apply Ok_inj in E2. cbn. congruence.
    - assert (F : Forall2 ok_sound (map (aeval inr lk) ts) (map (eval_sc g) ts)).
      { assert (GG : forall t, In t ts -> forall n v, In n (names t) -> lk n = Ok v -> g n = v).
        { intros t It n w In_ L. apply (G n w); [cbn [names]; apply in_flat_map; eauto|exact L]. }
        clear E G. induction IH as [|t ts Ht Hts IHts]; cbn [map]; constructor.
        - apply Ht. apply (GG t). now left.
        - apply IHts. intros t' It. apply (GG t'). now right. }
      destruct o; cbn [ass_res] in E.
      + dbind E bs E1. apply Ok_inj in E. cbn [ass_val]. rewrite (all_bools_sound _ _ _ F E1). now subst.
      + dbind E b E1. apply Ok_inj in E. rewrite (stop_at_sound _ _ _ _ F E1). now subst.
      + dbind E bs E1. apply Ok_inj in E. cbn [ass_val]. rewrite (all_bools_sound _ _ _ F E1). now subst.
      + dbind E b E1. apply Ok_inj in E. rewrite (stop_at_sound _ _ _ _ F E1). now subst.
      + dbind E zs E1. cbn [ass_val]. rewrite (all_ints_sound _ _ _ F E1). apply int_res_ok in E. now subst.
      + dbind E zs E1. cbn [ass_val]. rewrite (all_ints_sound _ _ _ F E1). apply int_res_ok in E. now subst.
    - dbind E a E1. dbind E b E2. dbind E x E3. dbind E y E4.
      rewrite (IHl (fun n w I => G n w (in_or_app _ _ _ (or_introl I))) _ E1).
      rewrite (IHr (fun n w I => G n w (in_or_app _ _ _ (or_intror I))) _ E2).
      destruct a; [|discriminate]. destruct b; [|discriminate]. apply Ok_inj in E3, E4. subst.
      cbn [bin_val]. destruct o; cbn [bin_res] in E.
      + apply int_res_ok in E. now subst.
      + destruct (y =? 0); cbn [negb] in E; [discriminate|]. apply int_res_ok in E. now subst.
      + destruct (Z.leb_spec 0 y); [|discriminate]. destruct (Z.ltb_spec y 0); [lia|]. apply int_res_ok in E. now subst.
      + destruct (y =? 0); cbn [negb] in E; [discriminate|]. apply int_res_ok in E. now subst.
    - dbind E a E1. dbind E b E2.
      rewrite (IHl (fun n w I => G n w (in_or_app _ _ _ (or_introl I))) _ E1).
      rewrite (IHr (fun n w I => G n w (in_or_app _ _ _ (or_intror I))) _ E2).
      destruct a, b, o; cbn [rel_res rel_val] in *; try discriminate; apply Ok_inj in E; now subst.
  Qed.
End EvalSound.

(** the meaning of an expression depends on the names it contains *)
Lemma eval_sc_ext g g' e : (forall n, In n (names e) -> g n = g' n) -> eval_sc g e = eval_sc g' e.
Proof.
  induction e as [ | |z|n neg|a IH|o ts IH|o l r IHl IHr|o l r IHl IHr] using expr_ind'; intros G; cbn [eval_sc]; auto.
  - now rewrite (G n (or_introl eq_refl)).
  - now rewrite (IH G).
  - assert (E : map (eval_sc g) ts = map (eval_sc g') ts); [|destruct o; now rewrite E].
    assert (GG : forall t, In t ts -> forall n, In n (names t) -> g n = g' n).
    { intros t It n In_. apply G. cbn [names]. apply in_flat_map. eauto. }
    clear G. induction IH as [|t ts Ht Hts IHts]; cbn [map]; [reflexivity|]. f_equal.
    + apply Ht. apply (GG t). now left.
    + apply IHts. intros t' It. apply (GG t'). now right.
  - rewrite IHl, IHr; auto; intros n In_; apply G; cbn [names]; apply in_or_app; auto.
  - rewrite IHl, IHr; auto; intros n In_; apply G; cbn [names]; apply in_or_app; auto.
Qed.

Lemma or_all_true l : or_all l = Ok true -> In (Ok true) l.
Proof.
  induction l as [|r l IH]; cbn [or_all]; [discriminate|]. intros E. dbind E b E1. dbind E b' E2.
  apply Ok_inj in E. apply orb_true_iff in E as [-> | ->]; [now left|right; auto].
Qed.
Lemma or_all_false l : or_all l = Ok false -> forall r, In r l -> r = Ok false.
Proof.
  induction l as [|x l IH]; cbn [or_all]; [intros _ r []|]. intros E. dbind E b E1. dbind E b' E2.
  apply Ok_inj in E. apply orb_false_iff in E as [-> ->]. intros r [<-|I]; auto.
Qed.
Lemma or_all_ok l b : or_all l = Ok b -> forall r, In r l -> exists c, r = Ok c.
Proof.
  revert b. induction l as [|x l IH]; cbn [or_all]; [intros b _ r []|]. intros b E. dbind E c E1. dbind E b' E2.
  intros r [<-|I]; eauto.
Qed.
Lemma if_elsif_ok {A} (l : list (res bool * res A)) d v : if_elsif l d = Ok v ->
  (exists w, In (Ok true, w) l /\ w = Ok v) \/ (d = Ok v /\ forall c w, In (c, w) l -> c = Ok false).
Proof.
  induction l as [|[c w] l IH]; cbn [if_elsif].
  - intros E. right. split; [exact E|]. intros c w [].
  - intros E. dbind E b E1. destruct b.
    + left. exists w. split; [left; congruence|exact E].
    + destruct (IH E) as [(w' & I & E')|[D N]]; [left; exists w'; split; [now right|exact E']|right].
      split; [exact D|]. intros c' w' [X|I]; [congruence|eauto].
Qed.
Lemma and_then_true l : and_then l = Ok true -> forall r, In r l -> r = Ok true.
Proof.
  induction l as [|x l IH]; cbn [and_then]; [intros _ r []|]. intros E. dbind E b E1. destruct b; [|discriminate].
  intros r [<-|I]; auto.
Qed.
Lemma and_then_intro l b : (forall r c, In r l -> r = Ok c -> c = true) -> and_then l = Ok b -> b = true.
Proof.
  induction l as [|x l IH]; cbn [and_then]; intros H E; [apply Ok_inj in E; auto|].
  dbind E c E1. rewrite (H x c (or_introl eq_refl) E1) in E. eapply IH; eauto. intros r c' I. apply H. now right.
Qed.

(** ** Ranks *)

Fixpoint rank (l : list field) (f : field) : nat :=
  match l with
  | [] => O
  | x :: t => if String.eqb x f then 1%nat else match rank t f with O => O | S k => S (S k) end
  end.
Lemma rank_zero l f : rank l f = O <-> ~ In f l.
Proof.
  induction l as [|x l IH]; cbn; [tauto|]. destruct (String.eqb_spec x f) as [->|N].
  - split; [discriminate|intros H; exfalso; auto].
  - destruct (rank l f).
    + split; [|auto]. intros _ [->|I]; [congruence|]. now apply IH.
    + split; [discriminate|]. intros H. exfalso. assert (X : S n = O) by (apply IH; auto). discriminate.
Qed.
Lemma rank_pos l f : (0 < rank l f)%nat <-> In f l.
Proof.
  destruct (in_dec String.string_dec f l) as [I|N].
  - split; [auto|]. intros _. destruct (rank l f) eqn:E; [|lia]. now apply rank_zero in E.
  - apply rank_zero in N as E. rewrite E. split; [lia|contradiction].
Qed.
Lemma rank_app l r f : rank (l ++ r) f = if memf f l then rank l f else match rank r f with O => O | k => (length l + k)%nat end.
Proof.
  induction l as [|x l IH]; cbn [app rank memf existsb length].
  - now destruct (rank r f).
  - rewrite (String.eqb_sym f x). destruct (String.eqb_spec x f); [reflexivity|]. cbn [orb].
    rewrite IH. unfold memf. destruct (existsb (String.eqb f) l); [reflexivity|]. destruct (rank r f) as [|k]; [reflexivity|].
    rewrite Nat.add_succ_r. cbn. lia.
Qed.
Lemma rank_at a f r : ~ In f a -> rank (a ++ f :: r) f = S (length a).
Proof.
  intros N. rewrite rank_app. destruct (memf f a) eqn:E; [apply memf_iff in E; contradiction|].
  cbn [rank]. rewrite String.eqb_refl. lia.
Qed.
Lemma rank_le l f : (rank l f <= length l)%nat.
Proof.
  induction l as [|x l IH]; cbn; [lia|]. destruct (String.eqb x f); [lia|]. destruct (rank l f); lia.
Qed.
Lemma NoDup_app_disjoint {A} (l r : list A) x : NoDup (l ++ r) -> In x l -> In x r -> False.
Proof.
  induction l as [|y l IH]; cbn; [tauto|]. intros ND [->|I] J; inversion ND as [|? ? N ND']; subst.
  - apply N. apply in_or_app. auto.
  - eauto.
Qed.
Lemma rank_after a f r g : NoDup (a ++ f :: r) -> (In g r <-> (S (length a) < rank (a ++ f :: r) g)%nat).
Proof.
  intros ND. apply NoDup_remove in ND as ND2. destruct ND2 as [ND2 NF]. rewrite rank_app.
  destruct (memf g a) eqn:E.
  - apply memf_iff in E. split.
    + intros I. exfalso. exact (NoDup_app_disjoint _ _ g ND E (or_intror I)).
    + intros L. pose proof (rank_le a g). lia.
  - cbn [rank]. destruct (String.eqb_spec f g) as [->|N].
    + split; [intros I; exfalso; apply NF; apply in_or_app; auto|lia].
    + rewrite <- rank_pos. destruct (rank r g); lia.
Qed.
Lemma split_at f l : In f l -> l = before f l ++ f :: after f l /\ ~ In f (before f l).
Proof.
  induction l as [|x l IH]; [intros []|]. cbn [before after]. destruct (String.eqb_spec x f) as [->|N].
  - intros _. split; [reflexivity|intros []].
  - intros [|I]; [congruence|]. destruct (IH I) as [E NI]. split; [cbn; congruence|]. intros [|]; auto.
Qed.
Lemma in_after l f g : NoDup l -> In f l -> (In g (after f l) <-> (rank l f < rank l g)%nat).
Proof.
  intros ND I. destruct (split_at f l I) as [E NI]. pose proof ND as ND'. rewrite E in ND'.
  rewrite (rank_after _ _ _ g ND'), <- E. rewrite <- (rank_at (before f l) f (after f l) NI), <- E. reflexivity.
Qed.
Lemma in_upto l f g : NoDup l -> In f l -> In g (before f l ++ [f]) -> (rank l g <= rank l f)%nat.
Proof.
  intros ND I J. destruct (split_at f l I) as [E NI].
  destruct (le_lt_dec (rank l g) (rank l f)) as [L|L]; [exact L|exfalso].
  apply (in_after l f g ND I) in L. rewrite E in ND. apply in_app_or in J as [J|[<-|[]]].
  - apply (NoDup_app_disjoint _ _ g ND J). now right.
  - apply NoDup_remove in ND as [_ X]. apply X. apply in_or_app. auto.
Qed.

(** ** Graphs *)

(** what acceptance of the structure means for the generated code *)
Record wf (s : list link) (fields : list field) : Prop := {
  wf_nodup : NoDup fields;
  wf_initial : ~ In INITIAL fields;
  wf_final : ~ In FINAL fields;
  wf_source : forall l, In l s -> source l = INITIAL \/ In (source l) fields;
  wf_target : forall l, In l s -> target l = FINAL \/ In (target l) fields;
  wf_rank : forall l, In l s -> In (target l) fields -> (rank fields (source l) < rank fields (target l))%nat;
  wf_one : forall l l', In l s -> In l' s -> source l = INITIAL -> source l' = INITIAL -> l = l';
  wf_first : forall l, In l s -> source l = INITIAL -> lfirst l = None;
  wf_into_first : forall l, In l s -> target l = first_field fields -> target l <> FINAL -> source l = INITIAL;
  wf_from_initial : forall l, In l s -> source l = INITIAL -> target l <> FINAL -> target l = first_field fields
}.

Lemma leads_snoc s p : forall a b, leads s a p b -> p = [] /\ a = b \/ exists q l, p = q ++ [l] /\ In l s /\ target l = b.
Proof.
  induction p as [|l p IH]; intros a b; cbn [leads]; [auto|]. intros (I & S & L). right.
  destruct (IH _ _ L) as [[-> <-]|(q & l' & -> & I' & T)].
  - exists [], l. auto.
  - exists (l :: q), l'. auto.
Qed.
Lemma leads_app s p q : forall a b c, leads s a p b -> leads s b q c -> leads s a (p ++ q) c.
Proof. induction p as [|l p IH]; cbn; intros a b c H K; [now subst|]. destruct H as (I & S & L). eauto. Qed.

Lemma wf_construct n m fields : construct n m = Ok ([], fields) -> (forall l, In l (structure m) -> source l <> FINAL) ->
  wf (structure m) fields.
Proof.
  intros C NF. destruct (C22_fields n m fields C) as (ND & MEM & _ & REACH).
  pose proof (C22_no_cycle n m fields C) as AC.
  assert (NI : ~ In INITIAL fields) by (intros I; apply MEM in I; tauto).
  assert (NFin : ~ In FINAL fields) by (intros I; apply MEM in I; tauto).
  assert (SRC : forall l, In l (structure m) -> source l = INITIAL \/ In (source l) fields).
  { intros l I. destruct (String.eqb_spec (source l) INITIAL) as [|N]; [now left|right]. apply MEM.
    split; [exact N|]. split; [auto|]. eauto. }
  assert (TI : forall l, In l (structure m) -> target l <> INITIAL).
  { intros l I T. destruct (SRC l I) as [S|S].
    - apply (AC INITIAL [l]); [discriminate|]. cbn. auto.
    - destruct (REACH _ S) as (p & L). apply (AC INITIAL (p ++ [l])); [destruct p; discriminate|].
      eapply leads_app; [exact L|]. cbn. auto. }
  assert (TGT : forall l, In l (structure m) -> target l = FINAL \/ In (target l) fields).
  { intros l I. destruct (String.eqb_spec (target l) FINAL) as [|N]; [now left|right]. apply MEM.
    split; [auto|]. split; [exact N|]. eauto. }
  assert (RK : forall l, In l (structure m) -> In (target l) fields -> (rank fields (source l) < rank fields (target l))%nat).
  { intros l I T. destruct (SRC l I) as [S|S].
    - rewrite S. apply rank_zero in NI. rewrite NI. now apply rank_pos.
    - assert (N1 : source l <> INITIAL) by (intros E; rewrite E in S; auto).
      assert (N2 : target l <> FINAL) by (intros E; rewrite E in T; auto).
      destruct (C22_order n m fields l C I N1 (NF l I) N2) as (a & b & c & E).
      apply (in_after fields (source l)); auto. pose proof ND as ND'. rewrite E in ND'.
      destruct (split_at (source l) fields S) as [E' NB].
      assert (LA : length a = length (before (source l) fields)).
      { assert (NA : ~ In (source l) a).
        { intros J. apply (NoDup_app_disjoint _ _ _ ND' J). now left. }
        pose proof (rank_at a (source l) (b ++ target l :: c) NA) as R1. rewrite <- E in R1.
        pose proof (rank_at _ (source l) (after (source l) fields) NB) as R2. rewrite <- E' in R2. lia. }
      rewrite E in E' at 1. apply (f_equal (skipn (length a))) in E'.
      rewrite skipn_app, Nat.sub_diag, skipn_all2 in E' by lia. cbn [skipn app] in E'. rewrite LA, skipn_app, Nat.sub_diag, skipn_all2 in E' by lia.
      cbn in E'. injection E' as E'. rewrite <- E'. apply in_or_app. right. now left. }
  assert (INTO : forall l, In l (structure m) -> target l = first_field fields -> target l <> FINAL -> source l = INITIAL).
  { intros l I T N. destruct (TGT l I) as [|J]; [contradiction|]. pose proof (RK l I J) as R.
    destruct (SRC l I) as [|S]; [assumption|exfalso]. unfold first_field in T.
    destruct fields as [|f0 fs]; [destruct J|]. cbn [hd] in T. rewrite T in R.
    assert (R1 : rank (f0 :: fs) f0 = 1%nat) by (cbn; now rewrite String.eqb_refl).
    apply rank_pos in S. lia. }
  destruct (structure m) as [|l0 s0] eqn:ES.
  { split; auto; intros; contradiction. }
  destruct (C22_first n m fields C) as (i & U & FN); [rewrite ES; discriminate|]. rewrite ES in U.
  assert (ONE : forall l l', In l (l0 :: s0) -> In l' (l0 :: s0) -> source l = INITIAL -> source l' = INITIAL -> l = l').
  { intros l l' I I' S S'. transitivity i; [|symmetry]; apply U; auto. }
  split; auto.
  - intros l I S. assert (E : l = i) by (apply U; auto). now subst.
  - intros l I S N. destruct (TGT l I) as [|J]; [contradiction|].
    destruct fields as [|f0 fs] eqn:EF; [destruct J|]. cbn [first_field hd].
    assert (I0 : In f0 (f0 :: fs)) by now left.
    destruct (REACH f0 I0) as (p & L). destruct (leads_snoc _ _ _ _ L) as [[_ E]|(q & l' & _ & I' & T')].
    + exfalso. apply NI. rewrite E. now left.
    + assert (N' : target l' <> FINAL) by (rewrite T'; intros ->; apply NFin; now left).
      rewrite (ONE l l' I I' S (INTO l' I' T' N')). exact T'.
Qed.
