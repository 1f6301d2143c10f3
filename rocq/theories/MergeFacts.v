(** Lemmas about the merging of message fields. *)
From Coq Require Import String Ascii List ZArith Bool Lia Permutation.
From Verif Require Import Base Expr ExprEval ExprFacts ExprTotal Ident TypeSpec MsgGraph MsgGraphFacts Solver SolverFacts
  Verify VerifySpec VerifyFacts GenSpec PlainFacts P_MsgGraph Merge MergeSpec.
Import ListNotations.
Local Open Scope string_scope.
Local Open Scope list_scope.
Local Open Scope Z_scope.
Local Open Scope res_scope.

Lemma eval_ext (E E' : env) e : (forall x, In x (names e) -> E x = E' x) -> eval E e = eval E' e.
Proof.
  induction e as [| |v|nm s|e IHe|o ts IHts|o e1 e2 IHe1 IHe2|o e1 e2 IHe1 IHe2] using expr_ind'; intros H; cbn [eval names] in *.
  - reflexivity.
  - reflexivity.
  - reflexivity.
  - now rewrite (H nm (or_introl eq_refl)).
  - now rewrite IHe.
  - f_equal. rewrite Forall_forall in IHts. apply map_ext_in. intros a I. apply IHts; [exact I|].
    intros x Ix. apply H. apply in_flat_map. eauto.
  - rewrite IHe1, IHe2; [reflexivity| |]; intros x Ix; apply H, in_or_app; auto.
  - rewrite IHe1, IHe2; [reflexivity| |]; intros x Ix; apply H, in_or_app; auto.
Qed.
Lemma eval_same g e : eval (under same g) e = eval g e.
Proof. apply eval_ext. intros [x|a x] _; reflexivity. Qed.
Lemma under_int r g : int_env g -> int_env (under r g).
Proof. intros H [x|a x]; apply H. Qed.

Lemma append_assoc a b c : ((a ++ b) ++ c = a ++ (b ++ c))%string.
Proof. induction a as [|x a IH]; cbn; [reflexivity|]. now rewrite IH. Qed.
Lemma append_inj_l a b c : (a ++ b = a ++ c)%string -> b = c.
Proof. induction a as [|x a IH]; cbn; [auto|]. intros H. injection H as H. auto. Qed.
Lemma has_char_app c a b : has_char c (a ++ b)%string = has_char c a || has_char c b.
Proof. induction a as [|x a IH]; cbn; [reflexivity|]. now rewrite IH, orb_assoc. Qed.

(** ** The replacement of names *)
Lemma sv_eqb_iff a b : sv_eqb a b = true <-> a = b.
Proof.
  destruct a as [x s], b as [y t]. unfold sv_eqb. cbn [fst snd]. rewrite andb_true_iff, String.eqb_eq, eqb_true_iff.
  split; [intros [-> ->]; reflexivity|intros H; injection H as -> ->; auto].
Qed.
Lemma in_unique_aux' {A} (eqb : A -> A -> bool) (H : forall a b, eqb a b = true <-> a = b) l : forall seen x,
  In x l -> In x seen \/ In x (unique_aux eqb seen l).
Proof.
  induction l as [|y l IH]; intros seen x I; [destruct I|]. cbn [unique_aux].
  destruct (existsb (eqb y) seen) eqn:E.
  - destruct I as [->|I]; [|auto]. left. apply existsb_exists in E as (z & J & E). apply H in E. now subst.
  - destruct I as [->|I]; [right; now left|]. destruct (IH (y :: seen) x I) as [[->|J]|J]; [right; now left|now left|right; now right].
Qed.
Lemma in_unique' {A} (eqb : A -> A -> bool) (H : forall a b, eqb a b = true <-> a = b) l x : In x l -> In x (unique eqb l).
Proof. intros I. destruct (in_unique_aux' eqb H l [] x I) as [[]|J]; exact J. Qed.

Lemma positive_spec e : forall x,
  In (NVar x, false) (signed e) \/ (exists a b, In (NAttr a x, b) (signed e)) -> In (x, false) (variables e).
Proof.
  induction e as [| |v|nm s|e IHe|o ts IHts|o e1 e2 IHe1 IHe2|o e1 e2 IHe1 IHe2] using expr_ind'; intros x H; cbn [signed variables] in *.
  - destruct H as [[]|(a & b & [])].
  - destruct H as [[]|(a & b & [])].
  - destruct H as [[]|(a & b & [])].
  - destruct H as [[H|[]]|(a & b & [H|[]])]; [injection H as -> ->|injection H as -> _]; cbn; now left.
  - destruct H as [[]|(a & b & [])].
  - apply in_unique'; [apply sv_eqb_iff|]. rewrite Forall_forall in IHts. apply in_flat_map.
    destruct H as [H|(a & b & H)]; apply in_flat_map in H as (e & I & J); exists e; (split; [exact I|]); apply IHts; eauto.
  - apply in_unique'; [apply sv_eqb_iff|]. apply in_or_app.
    destruct H as [H|(a & b & H)]; apply in_app_or in H as [H|H];
      first [left; apply IHe1; solve [left; exact H|right; exists a, b; exact H]
            |right; apply IHe2; solve [left; exact H|right; exists a, b; exact H]].
  - apply in_unique'; [apply sv_eqb_iff|]. apply in_or_app.
    destruct H as [H|(a & b & H)]; apply in_app_or in H as [H|H];
      first [left; apply IHe1; solve [left; exact H|right; exists a, b; exact H]
            |right; apply IHe2; solve [left; exact H|right; exists a, b; exact H]].
Qed.

Section Renamed.
  Variables (prefix : string) (pkg : ident) (fs : list field).
  Local Notation nn := (new_name prefix pkg fs).
  Local Notation rn := (renamed prefix pkg fs).

  Lemma renamed_eval keys g e : not_free e = true -> (forall m s, In (m, s) (signed e) -> memf (name_id m) keys = true) ->
    eval g (rn keys e) = eval (under nn g) e.
  Proof.
    induction e as [| |v|nm s|e IHe|o ts IHts|o e1 e2 IHe1 IHe2|o e1 e2 IHe1 IHe2] using expr_ind'; intros NF H; cbn [renamed signed not_free] in *.
    - reflexivity.
    - reflexivity.
    - reflexivity.
    - pose proof (H nm s (or_introl eq_refl)) as K. destruct nm as [x|a x]; cbn [name_id] in K; rewrite K; reflexivity.
    - destruct (names e) as [|x l] eqn:N; [|discriminate]. cbn [eval]. f_equal. apply eval_ext. intros x I. rewrite N in I. destruct I.
    - cbn [eval]. f_equal. rewrite map_map. rewrite Forall_forall in IHts. rewrite forallb_forall in NF. apply map_ext_in. intros a I.
      apply IHts; auto. intros m s J. apply (H m s). apply in_flat_map. eauto.
    - apply andb_true_iff in NF as [N1 N2]. cbn [eval]. rewrite IHe1, IHe2; auto; intros m s I; apply (H m s), in_or_app; auto.
    - apply andb_true_iff in NF as [N1 N2]. cbn [eval]. rewrite IHe1, IHe2; auto; intros m s I; apply (H m s), in_or_app; auto.
  Qed.
  Lemma replaceable_keys e : replaceable e -> forall m s, In (m, s) (signed e) -> memf (name_id m) (positive e) = true.
  Proof.
    intros [_ H] m s I. apply memf_iff. unfold positive. apply in_flat_map. exists (name_id m, false). split; [|now left].
    apply positive_spec. destruct m as [x|a x]; cbn [name_id]; [|right; eauto]. destruct s; [|left; exact I]. auto.
  Qed.

  Lemma renamed_plain keys e : plain (rn keys e) = plain e.
  Proof.
    induction e as [| |v|nm s|e IHe|o ts IHts|o e1 e2 IHe1 IHe2|o e1 e2 IHe1 IHe2] using expr_ind'; cbn [renamed]; try reflexivity.
    - destruct nm as [x|a x]; now destruct (memf x keys).
    - cbn [plain]. replace (forallb (fun t => match plain t with Some k => zsort_eqb (if boolean_op o then ZBool else ZInt) k | None => false end) (map (rn keys) ts))
        with (forallb (fun t => match plain t with Some k => zsort_eqb (if boolean_op o then ZBool else ZInt) k | None => false end) ts); [reflexivity|].
      induction IHts as [|x l Hx F IH]; [reflexivity|]. cbn [map forallb]. now rewrite Hx, IH.
    - cbn [plain]. rewrite IHe1, IHe2.
      destruct e2 as [| |?|[?|? ?] ?|?|? ?|? ? ?|? ? ?]; cbn [renamed] in *; try reflexivity;
        match goal with |- context [memf ?a ?b] => destruct (memf a b); reflexivity end.
    - cbn [plain]. now rewrite IHe1, IHe2.
  Qed.
  Lemma forallb_map_ext {A} (P : A -> bool) f l : Forall (fun x => P (f x) = P x) l -> forallb P (map f l) = forallb P l.
  Proof. induction 1 as [|x l H F IH]; cbn; [reflexivity|]. now rewrite H, IH. Qed.
  Lemma renamed_const keys e : const (rn keys e) = const e.
  Proof.
    induction e as [| |v|nm s|e IHe|o ts IHts|o e1 e2 IHe1 IHe2|o e1 e2 IHe1 IHe2] using expr_ind'; cbn [renamed]; try reflexivity.
    - destruct nm as [x|a x]; now destruct (memf x keys).
    - cbn [const]. rewrite forallb_map_ext by exact IHts. reflexivity.
    - cbn [const]. now rewrite IHe1, IHe2.
  Qed.
  Lemma renamed_safe keys e : safe (rn keys e) = safe e.
  Proof.
    induction e as [| |v|nm s|e IHe|o ts IHts|o e1 e2 IHe1 IHe2|o e1 e2 IHe1 IHe2] using expr_ind'; cbn [renamed]; try reflexivity.
    - destruct nm as [x|a x]; now destruct (memf x keys).
    - cbn [safe]. rewrite forallb_map_ext by exact IHts. reflexivity.
    - cbn [safe]. now rewrite IHe1, IHe2, !renamed_const.
  Qed.
  Lemma renamed_ok keys e : ok (rn keys e) = ok e.
  Proof.
    induction e as [| |v|nm s|e IHe|o ts IHts|o e1 e2 IHe1 IHe2|o e1 e2 IHe1 IHe2] using expr_ind'; cbn [renamed]; try reflexivity.
    - destruct nm as [x|a x]; now destruct (memf x keys).
    - cbn [ok]. rewrite forallb_map_ext by exact IHts.
      rewrite forallb_map_ext by (apply Forall_forall; intros; apply renamed_safe). reflexivity.
    - cbn [ok]. now rewrite IHe1, IHe2, !renamed_safe.
    - cbn [ok]. now rewrite IHe1, IHe2.
  Qed.

  Variable n : nat.
  (** the replacement followed by the simplification *)
  Lemma prefixed_value e e' g v : prefixed_expression n prefix pkg fs e = Ok e' -> replaceable e -> ok e = true ->
    eval (under nn g) e = Some v -> eval g e' = Some v.
  Proof.
    intros H R O E. unfold prefixed_expression in H.
    destruct (simplify_good _ expr_eqb_sound n _ _ H) as ([_ RF] & _); [now rewrite renamed_ok|].
    apply RF. rewrite renamed_eval; [exact E|apply R|now apply replaceable_keys].
  Qed.
  Lemma prefixed_plain e e' k : prefixed_expression n prefix pkg fs e = Ok e' -> plain e = Some k -> plain e' = Some k.
  Proof. intros H P. apply (simplify_plain _ _ _ _ _ H). now rewrite renamed_plain. Qed.
  Lemma prefixed_ok e e' : prefixed_expression n prefix pkg fs e = Ok e' -> ok e = true -> ok e' = true.
  Proof.
    intros H O. unfold prefixed_expression in H.
    destruct (simplify_good _ expr_eqb_sound n _ _ H) as ([K _] & _); [now rewrite renamed_ok|]. exact K.
  Qed.
End Renamed.

(** ** Messages made by the constructor *)
Lemma ftype_of_In ts f t : ftype_of ts f = Some t -> In (f, t) ts.
Proof.
  unfold ftype_of. match goal with |- context [find ?p ts] => destruct (find p ts) as [[k v]|] eqn:F end; [|discriminate]. intros H. injection H as ->.
  apply find_some in F as [I E]. apply String.eqb_eq in E. cbn in E. now subst.
Qed.
Lemma In_ftype_of ts f t : NoDup (map fst ts) -> In (f, t) ts -> ftype_of ts f = Some t.
Proof.
  unfold ftype_of. induction ts as [|[k v] ts IH]; intros N I; [destruct I|]. cbn [map fst] in N. inversion N as [|? ? N1 N2]; subst.
  cbn [find fst]. destruct (String.eqb_spec k f) as [->|E].
  - destruct I as [I|I]; [injection I as <-; reflexivity|]. exfalso. apply N1. now apply (in_map fst) in I.
  - destruct I as [I|I]; [congruence|]. now apply IH.
Qed.
Lemma ftype_of_None ts f : ftype_of ts f = None <-> ~ In f (map fst ts).
Proof.
  split.
  - intros H I. apply in_map_iff in I as ([k v] & E & I). cbn in E. subst k. unfold ftype_of in H.
    match type of H with context [find ?p ts] => destruct (find p ts) as [[k w]|] eqn:F end; [discriminate|]. apply (find_none _ _ F) in I. cbn in I. now rewrite String.eqb_refl in I.
  - intros H. destruct (ftype_of ts f) as [t|] eqn:F; [|reflexivity]. exfalso. apply H. apply ftype_of_In in F. now apply (in_map fst) in F.
Qed.
Lemma ftype_of_key ts f : In f (map fst ts) -> exists t, ftype_of ts f = Some t.
Proof. intros H. destruct (ftype_of ts f) as [t|] eqn:F; [eauto|]. apply ftype_of_None in F. contradiction. Qed.

Lemma unique_aux_same l : forall seen, NoDup l -> (forall x, In x l -> ~ In x seen) -> unique_aux String.eqb seen l = l.
Proof.
  induction l as [|x l IH]; intros seen N D; [reflexivity|]. cbn [unique_aux]. apply NoDup_cons_iff in N as [N1 N2].
  assert (E : existsb (String.eqb x) seen = false).
  { apply not_true_iff_false. intros E. apply existsb_exists in E as (y & I & E). apply String.eqb_eq in E. subst y. exact (D x (or_introl eq_refl) I). }
  rewrite E. f_equal. apply IH; [exact N2|]. intros y I [<-|J]; [exact (N1 I)|exact (D y (or_intror I) J)].
Qed.
Lemma unique_same l : NoDup l -> unique String.eqb l = l.
Proof. intros N. now apply unique_aux_same. Qed.
Lemma unique_aux_nodup' l : forall seen, NoDup (unique_aux String.eqb seen l) /\ forall x, In x seen -> ~ In x (unique_aux String.eqb seen l).
Proof.
  induction l as [|x l IH]; intros seen; cbn [unique_aux]; [split; [constructor|intros y _ []]|].
  destruct (existsb (String.eqb x) seen) eqn:E; [apply IH|].
  destruct (IH (x :: seen)) as [N D]. split.
  - constructor; [apply D; now left|exact N].
  - intros y I [->|J]; [|exact (D y (or_intror I) J)].
    apply not_true_iff_false in E. apply E. apply existsb_exists. exists y. split; [exact I|apply String.eqb_refl].
Qed.
Lemma arranged_keys ts fs : forall ts', arranged ts fs = Ok ts' ->
  map fst ts' = unique String.eqb fs /\ forall f t, In (f, t) ts' <-> In f (unique String.eqb fs) /\ ftype_of ts f = Some t.
Proof.
  unfold arranged. induction (unique String.eqb fs) as [|x us IH]; intros ts' H; cbn [mapr] in H.
  - apply Ok_inj in H. subst. split; [reflexivity|]. intros f t. split; [intros []|intros [[] _]].
  - destruct (ftype_of ts x) as [tx|] eqn:X; cbn [bind] in H; [|discriminate].
    match type of H with bind ?z _ = _ => destruct z as [ys|] eqn:Y; cbn [bind] in H; [|discriminate] end.
    apply Ok_inj in H. subst ts'. destruct (IH _ eq_refl) as [A B]. split; [cbn; now rewrite A|].
    intros f t. cbn [In]. rewrite B. split.
    + intros [E|[I E]]; [injection E as -> ->; auto|auto].
    + intros [[->|I] E]; [left; congruence|auto].
Qed.
Lemma arranged_spec ts fs ts' : NoDup fs -> arranged ts fs = Ok ts' ->
  map fst ts' = fs /\ forall f t, In (f, t) ts' <-> In f fs /\ ftype_of ts f = Some t.
Proof. intros N H. apply arranged_keys in H. now rewrite unique_same in H. Qed.
Lemma arranged_nodup ts fs ts' : arranged ts fs = Ok ts' -> NoDup (map fst ts') /\ incl ts' ts.
Proof.
  intros H. destruct (arranged_keys _ _ _ H) as [A B]. split; [rewrite A; apply unique_aux_nodup'|].
  intros [f t] I. apply B in I as [_ I]. now apply ftype_of_In.
Qed.

Record shape (n : nat) (m : mmessage) : Prop := {
  sh_construct : exists M, structure M = mm_structure m /\ construct n M = Ok ([], mm_fields m);
  sh_types : map fst (mm_types m) = mm_fields m
}.

Section Built.
  Variable order : list link -> list link.
  Hypothesis OP : forall s, Permutation (order s) s.
  Variable n : nat.

  Lemma in_order l s : In l (order s) <-> In l s.
  Proof. split; apply Permutation_in; [apply OP|symmetry; apply OP]. Qed.

  Lemma build_spec p pkg s ts m : build order n [] p pkg s ts = Ok ([], m) -> NoDup (map fst ts) ->
    ~ In INITIAL (map fst ts) -> ~ In FINAL (map fst ts) ->
    shape n m /\ mm_structure m = order s /\ mm_package m = pkg /\ mm_proven m = p /\ NoDup (map fst (mm_types m)) /\
    forall f, ftype_of (mm_types m) f = ftype_of ts f.
  Proof.
    intros H N NI NF. unfold build in H.
    destruct (construct n (structural_part pkg (order s) ts)) as [[e fs]|] eqn:C; cbn [bind] in H; [|discriminate].
    assert (E : e = []).
    { destruct fs; [apply Ok_inj in H; now injection H|]. destruct (arranged ts _); [|discriminate]. apply Ok_inj in H. now injection H. }
    subst e. destruct (C22_fields _ _ _ C) as (ND & FS & FT & _). cbn [structural_part type_fields structure] in FT, FS.
    assert (K : forall f, In f fs <-> In f (map fst ts)).
    { intros f. destruct (String.eqb_spec f INITIAL) as [E|E1].
      - subst f. split; [intros I; apply FS in I; tauto|contradiction].
      - destruct (String.eqb_spec f FINAL) as [E|E2]; [subst f; split; [intros I; apply FS in I; tauto|contradiction]|]. now apply FT. }
    destruct fs as [|f0 fs].
    - apply Ok_inj in H. injection H as <-. destruct ts as [|[k v] ts]; [|exfalso; apply (K k); now left].
      cbn [mm_types mm_structure mm_package mm_proven]. split; [|repeat split; auto].
      split; [exists (structural_part pkg (order s) []); cbn [mm_fields]; auto|reflexivity].
    - destruct (arranged ts (f0 :: fs)) as [ts'|] eqn:A; cbn [bind] in H; [|discriminate]. apply Ok_inj in H. injection H as <-.
      destruct (arranged_spec _ _ _ ND A) as [A1 A2].
      assert (ND' : NoDup (map fst ts')) by now rewrite A1.
      cbn [mm_types mm_structure mm_package mm_proven]. split; [split; [exists (structural_part pkg (order s) ts); auto|exact A1]|].
      split; [reflexivity|]. split; [reflexivity|]. split; [reflexivity|]. split; [exact ND'|].
      intros f. destruct (ftype_of ts f) as [t|] eqn:T.
      + apply In_ftype_of; [exact ND'|]. apply A2. split; [|exact T]. apply K. apply ftype_of_In in T. now apply (in_map fst) in T.
      + apply ftype_of_None. rewrite A1, K. now apply ftype_of_None.
  Qed.

  Lemma built_shape m : built order n m -> shape n m.
  Proof. intros ((s & ts & B & N & I & F) & _). eapply build_spec; eauto. Qed.
End Built.

Section Shape.
  Variables (n : nat) (m : mmessage).
  Hypothesis S : shape n m.

  Lemma sh_nodup : NoDup (map fst (mm_types m)).
  Proof. destruct (sh_construct _ _ S) as (M & E & C). rewrite (sh_types _ _ S). apply (C22_fields _ _ _ C). Qed.
  Lemma sh_field f : In f (map fst (mm_types m)) <-> f <> INITIAL /\ f <> FINAL /\
    exists l, In l (mm_structure m) /\ (source l = f \/ target l = f).
  Proof. destruct (sh_construct _ _ S) as (M & E & C). rewrite (sh_types _ _ S), <- E. apply (C22_fields _ _ _ C). Qed.
  Lemma sh_memf f : memf f (mm_fields m) = memf f (map fst (mm_types m)).
  Proof. now rewrite (sh_types _ _ S). Qed.
  Lemma sh_no_initial l : In l (mm_structure m) -> target l <> INITIAL.
  Proof.
    destruct (sh_construct _ _ S) as (M & E & C). rewrite <- E. intros I.
    assert (Ne : structure M <> []) by (intros X; rewrite X in I; destruct I).
    destruct (accepted _ _ _ Ne C) as (r & v & J & ALL & _). eapply f_no_initial; eauto.
  Qed.
  Lemma sh_no_loop l : In l (mm_structure m) -> source l <> target l.
  Proof.
    destruct (sh_construct _ _ S) as (M & E & C). rewrite <- E. intros I X.
    apply (C22_no_cycle _ _ _ C (source l) [l]); [discriminate|]. cbn. auto.
  Qed.
  Lemma sh_first l : In l (mm_structure m) -> source l = INITIAL ->
    lfirst l = None /\ forall l', In l' (mm_structure m) -> source l' = INITIAL -> l' = l.
  Proof.
    destruct (sh_construct _ _ S) as (M & E & C). rewrite <- E. intros I X.
    assert (Ne : structure M <> []) by (intros Y; rewrite Y in I; destruct I).
    destruct (C22_first _ _ _ C Ne) as (l0 & A & B).
    assert (l = l0) as -> by (apply A; auto). split; [exact B|]. intros l' I' X'. apply A; auto.
  Qed.
End Shape.

(** ** The copy of a message with other names *)
Definition at_place (p x : string) : string := (p ++ "_" ++ x)%string.
Lemma place_char p x : has_char "_" (at_place p x) = true.
Proof. unfold at_place. rewrite has_char_app. cbn. now rewrite orb_true_r. Qed.
Lemma place_initial p x : at_place p x <> INITIAL.
Proof. intros H. pose proof (place_char p x) as C. rewrite H in C. discriminate. Qed.
Lemma place_final p x : at_place p x <> FINAL.
Proof. intros H. pose proof (place_char p x) as C. rewrite H in C. discriminate. Qed.
Lemma place_inj p x y : at_place p x = at_place p y -> x = y.
Proof. intros H. apply append_inj_l in H. cbn in H. now injection H. Qed.

Definition starting (p x : string) : field := if String.eqb x INITIAL then INITIAL else at_place p x.
Lemma starting_inj p x y : starting p x = starting p y -> x = y.
Proof.
  unfold starting. destruct (String.eqb_spec x INITIAL) as [E|E], (String.eqb_spec y INITIAL) as [E'|E']; intros H.
  - congruence.
  - symmetry in H. now apply place_initial in H.
  - now apply place_initial in H.
  - now apply place_inj in H.
Qed.
Lemma starting_final p x : starting p x <> FINAL.
Proof. unfold starting. destruct (String.eqb x INITIAL); [discriminate|apply place_final]. Qed.
Definition ending (p x : string) : field := if String.eqb x FINAL then FINAL else at_place p x.
Lemma ending_starting p x : x <> INITIAL -> x <> FINAL -> ending p x = starting p x.
Proof. unfold ending, starting. now intros ->%String.eqb_neq ->%String.eqb_neq. Qed.

Lemma ftype_of_map p ts x : ftype_of (map (fun kt => (at_place p (fst kt), snd kt)) ts) (at_place p x) = ftype_of ts x.
Proof.
  unfold ftype_of. induction ts as [|[k t] ts IH]; [reflexivity|]. cbn [map find fst snd].
  destruct (String.eqb_spec k x) as [->|N]; [now rewrite String.eqb_refl|].
  destruct (String.eqb_spec (at_place p k) (at_place p x)) as [E|_]; [now apply place_inj in E|]. exact IH.
Qed.
Lemma NoDup_map_inj {A B} (f : A -> B) l : (forall x y, f x = f y -> x = y) -> NoDup l -> NoDup (map f l).
Proof.
  intros F. induction 1 as [|x l N D IH]; cbn; constructor; [|exact IH].
  intros I. apply in_map_iff in I as (y & E & I). apply F in E. now subst.
Qed.

Section Prefixed.
  Variable order : list link -> list link.
  Hypothesis OP : forall s, Permutation (order s) s.
  Variable verified : mmessage -> res (list string).
  Variable n : nat.
  Variables (p : string) (i i' : mmessage).
  Hypothesis SH : shape n i.
  Hypothesis PR : prefixed order verified n i (p ++ "_")%string = Ok i'.

  Let plink := prefixed_link n (p ++ "_")%string (mm_package i) (mm_fields i).

  Lemma prefixed_spec : shape n i' /\ mm_package i' = mm_package i /\
    (forall l', In l' (mm_structure i') <-> exists l, In l (mm_structure i) /\ plink l = Ok l') /\
    (forall x, ftype_of (mm_types i') (at_place p x) = ftype_of (mm_types i) x) /\
    (forall y, In y (map fst (mm_types i')) <-> exists x, y = at_place p x /\ In x (map fst (mm_types i))) /\
    NoDup (map fst (mm_types i')) /\
    (forall l, In l (mm_structure i) -> exists l', plink l = Ok l').
  Proof.
    unfold prefixed in PR.
    destruct (mapr _ (mm_structure i)) as [s|] eqn:M in PR; cbn [bind] in PR; [|discriminate].
    set (ts := map (fun kt => ((p ++ "_") ++ fst kt, snd kt)%string) (mm_types i)) in PR.
    assert (TS : ts = map (fun kt => (at_place p (fst kt), snd kt)) (mm_types i)).
    { unfold ts. apply map_ext. intros a. unfold at_place. now rewrite append_assoc. }
    assert (KS : map fst ts = map (at_place p) (map fst (mm_types i))) by (rewrite TS, !map_map; reflexivity).
    destruct (build _ _ _ _ _ _ ts) as [[e m']|] eqn:B in PR; cbn [bind] in PR; [|discriminate].
    destruct e as [|]; [|discriminate].
    destruct (if mm_proven i then verified m' else Ok []) as [e'|]; cbn [bind] in PR; [|discriminate].
    destruct e' as [|]; [|discriminate]. apply Ok_inj in PR. subst m'.
    apply build_spec in B.
    - destruct B as (S' & E1 & E2 & _ & ND & L).
      split; [exact S'|]. split; [exact E2|]. split; [|split; [|split; [|split; [exact ND|]]]].
      + intros l'. rewrite E1, in_order by exact OP. rewrite (mapr_In _ _ _ M). reflexivity.
      + intros x. rewrite L, TS. apply ftype_of_map.
      + intros y. split.
        * intros I. apply ftype_of_key in I as [t I]. rewrite L in I. apply ftype_of_In in I.
          assert (I2 : In y (map fst ts)) by exact (in_map fst _ _ I). rewrite KS in I2. apply in_map_iff in I2 as (x & <- & I3). eauto.
        * intros (x & -> & I). apply ftype_of_key in I as [t I]. apply (in_map fst _ (at_place p x, t)). apply ftype_of_In.
          rewrite L, TS. now rewrite ftype_of_map.
      + intros l I. destruct (mapr_each _ _ _ M l I) as (l' & X & _). now exists l'.
    - change (map fst ts) with (map (@fst string ftype) ts); rewrite KS. apply NoDup_map_inj; [apply place_inj|]. eapply sh_nodup; eauto.
    - change (map fst ts) with (map (@fst string ftype) ts); rewrite KS. intros I. apply in_map_iff in I as (x & E & _). now apply place_initial in E.
    - change (map fst ts) with (map (@fst string ftype) ts); rewrite KS. intros I. apply in_map_iff in I as (x & E & _). now apply place_final in E.
  Qed.

  Lemma new_name_outer x : new_name (p ++ "_")%string (mm_package i) (mm_fields i) x = outer_name p i x.
  Proof.
    unfold new_name, outer_name. rewrite (sh_memf _ _ SH). destruct (memf x _); [now rewrite append_assoc|].
    unfold single_part, builtin_literals, MESSAGE. destruct (has_char ":" x); [reflexivity|]. cbn [memf existsb negb andb orb].
    destruct (String.eqb x "true"), (String.eqb x "false"), (String.eqb x "message"); reflexivity.
  Qed.
  Lemma under_outer g e : eval (under (new_name (p ++ "_")%string (mm_package i) (mm_fields i)) g) e = eval (under (outer_name p i) g) e.
  Proof. apply eval_ext. intros [x|a x] _; cbn [under]; now rewrite new_name_outer. Qed.

  Variable g : env.
  Hypothesis IE : int_env g.
  Hypothesis CL : forall l, In l (mm_structure i) -> clear l.
  Hypothesis NM : forall l e, In l (mm_structure i) -> In e (condition l :: aspects l) -> replaceable e.
  Hypothesis AO : forall l e, In l (mm_structure i) -> In e (aspects l) -> ok e = true.
  Hypothesis AD : forall l e, In l (mm_structure i) -> In e (aspects l) -> exists z, eval (under (outer_name p i) g) e = Some (VInt z).
  Hypothesis NF : forall l, In l (mm_structure i) -> source l <> FINAL.

  Lemma plink_spec l l' : In l (mm_structure i) -> plink l = Ok l' ->
    source l' = starting p (source l) /\ target l' = ending p (target l) /\ clear l' /\
    (holds (under (outer_name p i) g) l <-> holds g l') /\
    (forall z, value (under (outer_name p i) g) (lsize l) z <-> value g (lsize l') z) /\
    (forall z, value (under (outer_name p i) g) (lfirst l) z <-> value g (lfirst l') z) /\
    (lfirst l = None <-> lfirst l' = None) /\ (condition l = ETrue -> condition l' = ETrue).
  Proof.
    intros I H. unfold plink, prefixed_link in H.
    destruct (prefixed_expression _ _ _ _ (condition l)) as [c|] eqn:C; cbn [bind] in H; [|discriminate].
    destruct (prefixed_option _ _ _ _ (lsize l)) as [sz|] eqn:Z; cbn [bind] in H; [|discriminate].
    destruct (prefixed_option _ _ _ _ (lfirst l)) as [fr|] eqn:F; cbn [bind] in H; [|discriminate].
    apply Ok_inj in H. subst l'. cbn [source target condition lsize lfirst].
    split; [unfold starting, at_place; rewrite append_assoc; reflexivity|].
    split; [unfold ending, at_place; rewrite append_assoc; reflexivity|].
    destruct (CL l I) as [P O]. assert (P' : plain c = Some ZBool) by (eapply prefixed_plain; eauto).
    split; [split; [exact P'|eapply prefixed_ok; eauto]|].
    split.
    { unfold holds. cbn [condition].
      destruct (plain_eval _ _ (under_int (outer_name p i) _ IE) _ P) as ([w|b] & E & K); [destruct K|].
      pose proof E as E'. rewrite <- under_outer in E'.
      apply (prefixed_value _ _ _ _ _ _ _ _ C) in E'; [|eapply NM; [exact I|now left]|exact O]. rewrite E, E'. reflexivity. }
    assert (V : forall o o', prefixed_option n (p ++ "_")%string (mm_package i) (mm_fields i) o = Ok o' -> incl (opt_expr o) (aspects l) ->
                (forall z, value (under (outer_name p i) g) o z <-> value g o' z) /\ (o = None <-> o' = None)).
    { intros o o' E J. destruct o as [e|]; cbn [prefixed_option] in E.
      - destruct (prefixed_expression _ _ _ _ e) as [e'|] eqn:Q; cbn [bind] in E; [|discriminate]. apply Ok_inj in E. subst o'.
        split; [|split; discriminate]. assert (A : In e (aspects l)) by (apply J; now left).
        intros z. unfold value. destruct z as [z|]; [|reflexivity]. destruct (AD l e I A) as [w W]. pose proof W as W'. rewrite <- under_outer in W'.
        apply (prefixed_value _ _ _ _ _ _ _ _ Q) in W'; [|eapply NM; [exact I|now right]|eapply AO; eauto]. rewrite W, W'. reflexivity.
      - apply Ok_inj in E. subst o'. split; [reflexivity|split; reflexivity]. }
    destruct (V _ _ Z) as [V1 _]; [intros e J; apply in_or_app; now left|].
    destruct (V _ _ F) as [V2 V3]; [intros e J; apply in_or_app; now right|].
    split; [exact V1|]. split; [exact V2|]. split; [exact V3|]. intros E. rewrite E in C. cbn in C.
    unfold prefixed_expression in C. destruct n; [discriminate|]. cbn in C. now apply Ok_inj in C.
  Qed.

  Lemma outer_key x : In x (map fst (mm_types i)) -> outer_name p i x = at_place p x.
  Proof. intros H. unfold outer_name. now rewrite (proj2 (memf_iff _ _) H). Qed.
  Lemma ftype_key ts x t : ftype_of ts x = Some t -> In x (map fst ts).
  Proof. intros H. apply ftype_of_In in H. now apply (in_map fst) in H. Qed.

  (** the same runs *)
  Lemma prefixed_run_to m r a ss : run g m r a ss -> m = i -> r = outer_name p i -> run g i' same (starting p a) ss.
  Proof.
    destruct prefixed_spec as (SH' & _ & LK & TY & _ & _ & EX).
    induction 1 as [m r a l I E T H|m r a l t z v ss I E T H FT SZ FR R IH|m r a l j v ss1 ss2 I E T H FT R1 IH1 FR R2 IH2]; intros -> ->;
      destruct (EX l I) as (l' & L'); pose proof (proj2 (LK l') (ex_intro _ l (conj I L'))) as I';
      destruct (plink_spec _ _ I L') as (Q1 & Q2 & _ & Q4 & Q5 & Q6 & _); subst a.
    - eapply run_end; [exact I'|exact Q1|now rewrite Q2, T|]. unfold holds. rewrite eval_same. now apply Q4.
    - pose proof (ftype_key _ _ _ FT) as K. rewrite (outer_key _ K).
      assert (NI : target l <> INITIAL) by exact (sh_no_initial _ _ SH _ I).
      assert (TT : target l' = at_place p (target l)) by (rewrite Q2; unfold ending; now apply String.eqb_neq in T as ->).
      rewrite <- TT. change (target l') with (same (target l')) at 1. apply run_field with (l := l'); auto.
      + rewrite TT. apply place_final.
      + unfold holds. rewrite eval_same. now apply Q4.
      + now rewrite TT, TY.
      + assert (X := proj1 (Q5 z) SZ). unfold value in *. destruct (lsize l'), z; try exact X. now rewrite eval_same.
      + assert (X := proj1 (Q6 v) FR). unfold value in *. destruct (lfirst l'), v; try exact X. now rewrite eval_same.
      + specialize (IH eq_refl eq_refl). unfold starting in IH. apply String.eqb_neq in NI. rewrite NI in IH. now rewrite TT.
    - pose proof (ftype_key _ _ _ FT) as K. rewrite (outer_key _ K) in R1.
      assert (NI : target l <> INITIAL) by exact (sh_no_initial _ _ SH _ I).
      assert (TT : target l' = at_place p (target l)) by (rewrite Q2; unfold ending; now apply String.eqb_neq in T as ->).
      apply run_message with (l := l') (i := j); auto.
      + rewrite TT. apply place_final.
      + unfold holds. rewrite eval_same. now apply Q4.
      + now rewrite TT, TY.
      + now rewrite TT.
      + assert (X := proj1 (Q6 v) FR). unfold value in *. destruct (lfirst l'), v; try exact X. now rewrite eval_same.
      + specialize (IH2 eq_refl eq_refl). unfold starting in IH2. apply String.eqb_neq in NI. rewrite NI in IH2. now rewrite TT.
  Qed.
  Lemma prefixed_run_from m r a' ss : run g m r a' ss -> m = i' -> r = same -> forall a, a' = starting p a -> run g i (outer_name p i) a ss.
  Proof.
    destruct prefixed_spec as (SH' & _ & LK & TY & _ & _ & EX).
    induction 1 as [m r a' l' I E T H|m r a' l' t z v ss I E T H FT SZ FR R IH|m r a' l' j v ss1 ss2 I E T H FT R1 IH1 FR R2 IH2]; intros -> -> a ->;
      apply LK in I as (l & I & L');
      destruct (plink_spec _ _ I L') as (Q1 & Q2 & _ & Q4 & Q5 & Q6 & _); rewrite Q1 in E; apply starting_inj in E;
      (assert (HL : holds (under (outer_name p i) g) l) by (apply Q4; unfold holds in *; now rewrite eval_same in H)).
    - eapply run_end; [exact I|exact E| |exact HL].
      rewrite Q2 in T. unfold ending in T. destruct (String.eqb_spec (target l) FINAL) as [X|X]; [exact X|]. now apply place_final in T.
    - assert (TT : target l' = at_place p (target l) /\ target l <> FINAL).
      { rewrite Q2 in T |- *. unfold ending in *. destruct (String.eqb_spec (target l) FINAL) as [X|X]; [congruence|auto]. }
      destruct TT as [TT NFI]. rewrite TT, TY in FT. pose proof (ftype_key _ _ _ FT) as K.
      assert (NI : target l <> INITIAL) by exact (sh_no_initial _ _ SH _ I).
      assert (X := outer_key _ K). unfold same. rewrite TT, <- X. apply run_field with (l := l); auto.
      + apply Q5. unfold value in *. destruct (lsize l'), z; try exact SZ. now rewrite eval_same in SZ.
      + apply Q6. unfold value in *. destruct (lfirst l'), v; try exact FR. now rewrite eval_same in FR.
      + apply IH; auto. rewrite TT. unfold starting. now apply String.eqb_neq in NI as ->.
    - assert (TT : target l' = at_place p (target l) /\ target l <> FINAL).
      { rewrite Q2 in T |- *. unfold ending in *. destruct (String.eqb_spec (target l) FINAL) as [X|X]; [congruence|auto]. }
      destruct TT as [TT NFI]. rewrite TT, TY in FT. pose proof (ftype_key _ _ _ FT) as K.
      assert (NI : target l <> INITIAL) by exact (sh_no_initial _ _ SH _ I).
      assert (X := outer_key _ K). unfold same in R1. rewrite TT, <- X in R1. apply run_message with (l := l) (i := j); auto.
      + apply Q6. unfold value in *. destruct (lfirst l'), v; try exact FR. now rewrite eval_same in FR.
      + apply IH2; auto. rewrite TT. unfold starting. now apply String.eqb_neq in NI as ->.
  Qed.
End Prefixed.
