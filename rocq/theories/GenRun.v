(** Lemmas about the sequences of fields found in a buffer ([GenSpec.run]). *)
From Coq Require Import String List ZArith Bool Lia Arith.
From Verif Require Import Base Expr ExprEval MsgGraph MsgGraphFacts P_MsgGraph
  AdaTypes AdaBuffer AdaBufferFacts P_AdaTypes GenCode GenSpec GenFacts.
Import ListNotations.
Local Open Scope string_scope.
Local Open Scope list_scope.
Local Open Scope Z_scope.
Local Notation length := List.length.

Lemma find_app_ {A} (p : A -> bool) l r : find p (l ++ r) = match find p l with Some x => Some x | None => find p r end.
Proof. induction l as [|x l IH]; cbn; [reflexivity|]. now destruct (p x). Qed.
Lemma find_none_in {A} (p : A -> bool) l : (forall x, In x l -> p x = false) -> find p l = None.
Proof. induction l as [|x l IH]; cbn; intros H; [reflexivity|]. rewrite (H x) by auto. auto. Qed.
Lemma last_snoc {A} (l : list A) x d : List.last (l ++ [x]) d = x.
Proof. apply last_last. Qed.
Lemma snoc_inj {A} (l l' : list A) x x' : l ++ [x] = l' ++ [x'] -> l = l' /\ x = x'.
Proof. apply app_inj_tail. Qed.
(** a list that ends in [x] cut somewhere *)
Lemma snoc_split {A} (l : list A) x pre e post : l ++ [x] = pre ++ e :: post ->
  post = [] /\ pre = l /\ e = x \/ exists post', post = post' ++ [x] /\ l = pre ++ e :: post'.
Proof.
  intros E. destruct post as [|y post] using rev_ind.
  - left. apply snoc_inj in E. intuition congruence.
  - right. clear IHpost. exists post. change (pre ++ e :: post ++ [y]) with (pre ++ (e :: post) ++ [y]) in E.
    rewrite app_assoc in E. apply snoc_inj in E as [E ->]. auto.
Qed.

Lemma last_fld_snoc es e : last_fld (es ++ [e]) = e_fld e.
Proof. unfold last_fld. rewrite map_app. apply last_snoc. Qed.
Lemma end_bit_snoc F es e : end_bit F (es ++ [e]) = e_last e.
Proof. unfold end_bit. rewrite map_app. apply last_snoc. Qed.
Lemma last_fld_in es : es <> [] -> In (last_fld es) (map e_fld es).
Proof.
  intros N. destruct (exists_last N) as (es' & e & ->). rewrite last_fld_snoc, map_app. apply in_or_app. right. now left.
Qed.

Section Run.
  Context (s : list link) (fields : list field) (types : field -> ftype) (constants : name -> option Z).
  Context (W : wf s fields) (TS : forall f size vd, types f = FScalar size vd -> 1 <= size <= 64).
  Context (F L : Z).
  Local Notation run := (run s types constants F L).
  Local Notation step := (step s types constants F L).
  Local Notation place := (place s types constants F L).
  Local Notation holds := (holds constants F L).
  Local Notation env_of := (env_of constants F L).

  Lemma place_field es f a b : place es f a b -> In f fields.
  Proof.
    intros (l & z & I & _ & T & N & _). destruct (wf_target _ _ W l I) as [X|X]; [congruence|]. congruence.
  Qed.
  Lemma place_rank es f a b : place es f a b -> (rank fields (last_fld es) < rank fields f)%nat.
  Proof.
    intros P. pose proof (place_field _ _ _ _ P) as IF. destruct P as (l & z & I & S & T & _).
    rewrite <- S, <- T. apply (wf_rank _ _ W l I). now rewrite T.
  Qed.

  Lemma run_snoc_inv b es e : run b (es ++ [e]) -> run b es /\ step b es e.
  Proof.
    intros R. remember (es ++ [e]) as q. destruct R as [|es' e' R ST]; [destruct es; discriminate|].
    apply snoc_inj in Heqq as [-> ->]. auto.
  Qed.
  Lemma run_prefix b pre post : run b (pre ++ post) -> run b pre.
  Proof.
    induction post as [|e post IH] using rev_ind; [now rewrite app_nil_r|].
    rewrite app_assoc. intros R. apply run_snoc_inv in R as [R _]. auto.
  Qed.
  Lemma run_step b pre e post : run b (pre ++ e :: post) -> step b pre e.
  Proof.
    change (pre ++ e :: post) with (pre ++ [e] ++ post). rewrite app_assoc. intros R.
    apply run_prefix in R. now apply run_snoc_inv in R.
  Qed.
  Lemma run_in_fields b es e : run b es -> In e es -> In (e_fld e) fields.
  Proof.
    intros R I. apply in_split in I as (pre & post & ->). apply run_step in R as (P & _).
    eapply place_field, P.
  Qed.
  Lemma run_rank b es e : run b es -> In e es -> (rank fields (e_fld e) <= rank fields (last_fld es))%nat.
  Proof.
    intros R. revert e. induction R as [|es e' R IH ST]; intros e I; [destruct I|].
    rewrite last_fld_snoc. apply in_app_or in I as [I|[<-|[]]]; [|lia].
    pose proof (IH e I). destruct ST as (P & _). pose proof (place_rank _ _ _ _ P). lia.
  Qed.
  Lemma run_later b pre e post e' : run b (pre ++ e :: post) -> In e' post ->
    (rank fields (e_fld e) < rank fields (e_fld e'))%nat.
  Proof.
    intros R I. apply in_split in I as (p1 & p2 & ->).
    change (pre ++ e :: p1 ++ e' :: p2) with (pre ++ (e :: p1) ++ e' :: p2) in R. rewrite app_assoc in R.
    pose proof (run_step _ _ _ _ R) as (P & _). apply place_rank in P.
    assert (X : (rank fields (e_fld e) <= rank fields (last_fld (pre ++ e :: p1)))%nat); [|lia].
    apply (run_rank b); [eapply run_prefix, R|]. apply in_or_app. right. now left.
  Qed.
  (** the fields of [es] are before those that may follow *)
  Lemma run_fresh b es f : run b es -> (rank fields (last_fld es) < rank fields f)%nat -> ~ In f (map e_fld es).
  Proof. intros R K I. apply in_map_iff in I as (e & <- & I). pose proof (run_rank b es e R I). lia. Qed.
  Lemma run_nodup b es : run b es -> NoDup (map e_fld es).
  Proof.
    intros R. induction R as [|es e R IH ST]; [constructor|]. rewrite map_app. cbn [map].
    destruct ST as (P & _). apply place_rank in P. pose proof (run_fresh b es _ R P) as N.
    clear -IH N. induction (map e_fld es) as [|x l IHl]; cbn; [constructor; [intros []|constructor]|].
    inversion IH as [|? ? NX ND]; subst. constructor.
    - intros I. apply in_app_or in I as [I|[I|[]]]; [auto|subst; apply N; now left].
    - apply IHl; [exact ND|]. intros I. apply N. now right.
  Qed.
  Lemma run_find b es e : run b es -> In e es -> find (fun e' => String.eqb (e_fld e') (e_fld e)) es = Some e.
  Proof.
    intros R I. pose proof (run_nodup b es R) as ND. apply in_split in I as (pre & post & ->).
    rewrite find_app_, find_none_in.
    - cbn. now rewrite String.eqb_refl.
    - intros x I. apply String.eqb_neq. intros E. rewrite map_app in ND.
      apply (NoDup_app_disjoint _ _ (e_fld e) ND); [rewrite <- E; now apply in_map|now left].
  Qed.
  Lemma last_fld_field b es : run b es -> es <> [] -> In (last_fld es) fields.
  Proof.
    intros R N. destruct (exists_last N) as (es' & e & ->). rewrite last_fld_snoc.
    eapply run_in_fields; [exact R|]. apply in_or_app. right. now left.
  Qed.
  Lemma last_fld_nil b es : run b es -> last_fld es = INITIAL -> es = [].
  Proof.
    intros R E. destruct es as [|e es]; [reflexivity|exfalso]. apply (wf_initial _ _ W). rewrite <- E.
    apply (last_fld_field b); [exact R|discriminate].
  Qed.

  (** *** Names *)

  Lemma env_prefix pre post n : ~ In (name_id n) (map e_fld post) -> env_of (pre ++ post) n = env_of pre n.
  Proof.
    intros N. unfold GenSpec.env_of.
    assert (E : forall id, ~ In id (map e_fld post) -> find (fun e => String.eqb (e_fld e) id) (pre ++ post) = find (fun e => String.eqb (e_fld e) id) pre).
    { intros id NI. rewrite find_app_. rewrite (find_none_in _ post); [now destruct (find _ pre)|].
      intros x I. apply String.eqb_neq. intros X. apply NI. rewrite <- X. now apply in_map. }
    destruct n as [id|a id]; cbn [name_id] in N; rewrite (E id N); reflexivity.
  Qed.
  Lemma env_entry b es e n : run b es -> In e es -> name_id n = e_fld e ->
    env_of es n = VInt match n with
                       | NVar _ => e_val e
                       | NAttr AFirst _ => e_first e
                       | NAttr ALast _ => e_last e
                       | NAttr ASize _ => e_last e - e_first e + 1
                       | NAttr ALength _ => 0
                       end.
  Proof.
    intros R I E. unfold GenSpec.env_of. destruct n as [id|a id]; cbn [name_id] in E; subst id;
      now rewrite (run_find b es e R I).
  Qed.

  (** *** Determinism *)
  Context (DET : deterministic s types constants).

  Lemma holds_unique b es l l' : run b es -> In l s -> In l' s -> source l = last_fld es -> source l' = last_fld es ->
    holds es l -> holds es l' -> l = l'.
  Proof. intros. eapply DET; eauto. Qed.

  Lemma place_unique b es f a z f' a' z' : run b es -> place es f a z -> place es f' a' z' -> f = f' /\ a = a' /\ z = z'.
  Proof.
    intros R (l & k & I & S & T & N & H & A & K & K0 & B & _) (l' & k' & I' & S' & T' & N' & H' & A' & K' & K0' & B' & _).
    assert (l = l') by (eapply holds_unique; eauto). subst l'.
    assert (f = f') by congruence. subst f'. subst z z'.
    assert (M : forall o x y, means constants F L es o x -> means constants F L es o y -> x = y).
    { intros o x y (e & E & X) (e' & E' & Y). congruence. }
    assert (a = a') by (destruct (lfirst l); [eapply M; eauto|congruence]). subst a'.
    assert (k = k') by (rewrite T in K'; destruct (types f); [congruence|eapply M; eauto]). subst k'. auto.
  Qed.
  Lemma step_unique b es e e' : run b es -> step b es e -> step b es e' -> e = e'.
  Proof.
    intros R (P & C & _) (P' & C' & _). destruct (place_unique b _ _ _ _ _ _ _ R P P') as (E1 & E2 & E3).
    destruct e as [f a z v], e' as [f' a' z' v']. cbn [e_fld e_first e_last e_val] in *. subst f' a' z'.
    f_equal. unfold content in *. cbn [e_fld e_val e_last] in *. destruct (types f) as [size vd|] eqn:T; [|congruence].
    destruct C as (R1 & B1 & _), C' as (R2 & B2 & _). pose proof (TS _ _ _ T).
    apply (value_bits size); auto; [lia|]. intros k K. rewrite B1, B2; auto.
  Qed.
  (** two readings of the same buffer agree as far as they go *)
  Lemma run_det b es es' : run b es -> run b es' -> exists t, es' = es ++ t \/ es = es' ++ t.
  Proof.
    intros R R'. induction R as [|es e R IH ST].
    - exists es'. now left.
    - destruct IH as (t & [->| ->]).
      + destruct t as [|e' t].
        * exists [e]. right. now rewrite app_nil_r.
        * pose proof (run_step _ _ _ _ R') as ST'. rewrite (step_unique b _ _ _ R ST' ST).
          exists t. left. now rewrite <- app_assoc.
      + exists (t ++ [e]). right. now rewrite app_assoc.
  Qed.
  (** the message ends where it ends *)
  Lemma complete_run b es es' : complete s types constants F L b es -> run b es' -> exists t, es = es' ++ t.
  Proof.
    intros (R & l & I & S & T & H) R'. destruct (run_det b es es' R R') as (t & [->| E]); [|eauto].
    destruct t as [|e t]; [exists []; now rewrite !app_nil_r|exfalso].
    pose proof (run_step _ _ _ _ R') as ((l' & z & I' & S' & T' & N & H' & _) & _).
    assert (X : l = l') by (exact (holds_unique b es l l' R I I' S S' H H')). congruence.
  Qed.
End Run.
