(** C19: compatibility and common types of rflx/typing_.py *)
From Coq Require Import String List ZArith Bool Lia Permutation.
From Verif Require Import Base Typing.
Import ListNotations.
Local Open Scope string_scope.
Local Open Scope list_scope.
Local Open Scope Z_scope.

Section Induction.
  Variable P : ty -> Prop.
  Hypothesis HU : P TUndefined.
  Hypothesis HA : P TAny.
  Hypothesis HE : forall n, P (TEnumeration n).
  Hypothesis HAI : P TAnyInteger.
  Hypothesis HUI : P TUndefinedInteger.
  Hypothesis HUn : forall b, P (TUniversal b).
  Hypothesis HI : forall n b, P (TInteger n b).
  Hypothesis HAg : forall e, P e -> P (TAggregate e).
  Hypothesis HAr : forall n e, P e -> P (TArray n e).
  Hypothesis HM : forall n c ts rs, Forall (fun kv => P (snd kv)) ts -> Forall (fun kv => P (snd kv)) rs -> P (TMessage n c ts rs).
  Hypothesis HP : forall n, P (TPrivate n).
  Hypothesis HC : forall r w, P (TChannel r w).
  Fixpoint ty_ind' (t : ty) : P t :=
    match t with
    | TUndefined => HU | TAny => HA | TEnumeration n => HE n | TAnyInteger => HAI | TUndefinedInteger => HUI
    | TUniversal b => HUn b | TInteger n b => HI n b | TAggregate e => HAg e (ty_ind' e) | TArray n e => HAr n e (ty_ind' e)
    | TMessage n c ts rs =>
      let go := fix go (l : list (string * ty)) : Forall (fun kv => P (snd kv)) l :=
        match l with [] => Forall_nil _ | kv :: l' => Forall_cons kv (ty_ind' (snd kv)) (go l') end in
      HM n c ts rs (go ts) (go rs)
    | TPrivate n => HP n | TChannel r w => HC r w
    end.
End Induction.

(** the dict of field types has every key once *)
Fixpoint wf_ty (t : ty) : Prop :=
  match t with
  | TAggregate e | TArray _ e => wf_ty e
  | TMessage _ _ ts rs => NoDup (map fst ts) /\ fold_right and True (map (fun kv => wf_ty (snd kv)) ts)
                          /\ fold_right and True (map (fun kv => wf_ty (snd kv)) rs)
  | _ => True
  end.
Lemma fold_and {A} (P : A -> Prop) l : fold_right and True (map P l) <-> Forall P l.
Proof. induction l as [|a l IH]; cbn; [split; auto|]. rewrite IH. split; [intros []; auto|inversion 1; auto]. Qed.

Lemma opt_eqb_iff a b : opt_eqb a b = true <-> a = b.
Proof.
  destruct a, b; cbn; try (split; congruence). rewrite Z.eqb_eq. split; congruence.
Qed.
Lemma bounds_eqb_iff a b : bounds_eqb a b = true <-> a = b.
Proof.
  destruct a as [l u], b as [l' u']. unfold bounds_eqb. cbn. rewrite andb_true_iff, !opt_eqb_iff. split; [intros []|intros H; injection H as -> ->]; subst; auto.
Qed.
Lemma strings_eqb_iff a b : strings_eqb a b = true <-> a = b.
Proof. unfold strings_eqb. destruct (list_eq_dec string_dec a b); split; congruence. Qed.
Lemma set_eqb_refl a : set_eqb a a = true.
Proof.
  unfold set_eqb. assert (X : forallb (fun x => existsb (strings_eqb x) a) a = true).
  { apply forallb_forall. intros x I. apply existsb_exists. exists x. split; [exact I|now apply strings_eqb_iff]. }
  now rewrite X.
Qed.
Lemma set_eqb_sym a b : set_eqb a b = set_eqb b a.
Proof. unfold set_eqb. apply andb_comm. Qed.

Lemma ty_eqb_refl t : ty_eqb t t = true.
Proof.
  induction t as [| |n| | |b|n b|e IHe|n e IHe|n c ts rs IHt IHr|n|r w] using ty_ind'; cbn [ty_eqb]; auto;
    rewrite ?String.eqb_refl, ?IHe; cbn [andb]; auto; try (now apply bounds_eqb_iff).
  - rewrite set_eqb_refl, Nat.eqb_refl. cbn [andb].
    assert (X : forallb (fun kv => existsb (fun kv' => (fst kv =? fst kv')%string && ty_eqb (snd kv) (snd kv')) ts) ts = true).
    { apply forallb_forall. intros kv I. apply existsb_exists. exists kv. split; [exact I|].
      rewrite String.eqb_refl. rewrite Forall_forall in IHt. apply IHt, I. }
    rewrite X. cbn [andb]. clear X IHt. induction rs as [|[f t] rs IH]; [reflexivity|].
    inversion IHr; subst. cbn in H1. rewrite String.eqb_refl, H1. cbn [andb]. auto.
  - now rewrite !eqb_reflx.
Qed.

Lemma pigeon {A} (l l' : list A) : NoDup l -> incl l l' -> List.length l = List.length l' -> incl l' l.
Proof. intros ND I E. apply NoDup_length_incl; [exact ND|lia|exact I]. Qed.

Lemma nodup_key {A B} (l : list (A * B)) k v1 v2 : NoDup (map fst l) -> In (k, v1) l -> In (k, v2) l -> v1 = v2.
Proof.
  induction l as [|[a b] l IH]; cbn; intros ND I1 I2; [destruct I1|]. inversion ND as [|? ? N ND']; subst.
  destruct I1 as [E1|I1], I2 as [E2|I2].
  - congruence.
  - injection E1 as -> ->. exfalso. apply N. apply (in_map fst) in I2. exact I2.
  - injection E2 as -> ->. exfalso. apply N. apply (in_map fst) in I1. exact I1.
  - eauto.
Qed.

Lemma ty_eqb_sym_imp : forall a b, wf_ty a -> wf_ty b -> ty_eqb a b = true -> ty_eqb b a = true.
Proof.
  induction a as [| |n| | |b0|n b0|e IHe|n e IHe|n c ts rs IHt IHr|n|r w] using ty_ind'; intros b WA WB H;
    destruct b as [| |n'| | |b1|n' b1|e'|n' e'|n' c' ts' rs'|n'|r' w']; cbn [ty_eqb] in *; try discriminate; auto.
  - now rewrite String.eqb_sym.
  - apply bounds_eqb_iff in H. now apply bounds_eqb_iff.
  - apply andb_true_iff in H as [H1 H2]. rewrite String.eqb_sym, H1. apply bounds_eqb_iff in H2. now apply bounds_eqb_iff.
  - apply andb_true_iff in H as [H1 H2]. rewrite String.eqb_sym, H1. cbn [andb]. auto.
  - rewrite !andb_true_iff in H. destruct H as ((((H1 & H2) & H3) & H4) & H5).
    destruct WA as (N1 & W1 & V1), WB as (N2 & W2 & V2). rewrite fold_and in W1, V1, W2, V2.
    rewrite Forall_forall in W1, W2.
    rewrite !andb_true_iff. repeat apply conj.
    + now rewrite String.eqb_sym.
    + now rewrite set_eqb_sym.
    + apply Nat.eqb_eq in H3. now apply Nat.eqb_eq.
    + apply forallb_forall. intros [k v'] I. rewrite forallb_forall in H4.
      assert (KI : incl (map fst ts) (map fst ts')).
      { intros k0 J. apply in_map_iff in J as ([k1 v1] & <- & J). specialize (H4 _ J). apply existsb_exists in H4 as ([k2 v2] & J2 & E).
        cbn in E. apply andb_true_iff in E as [E _]. apply String.eqb_eq in E. subst. cbn. apply (in_map fst) in J2. exact J2. }
      apply Nat.eqb_eq in H3.
      assert (K : In k (map fst ts)).
      { apply (pigeon _ _ N1 KI); [now rewrite !map_length|]. apply (in_map fst) in I. exact I. }
      apply in_map_iff in K as ([k1 v] & E & K). cbn in E. subst k1.
      apply existsb_exists. exists (k, v). split; [exact K|]. cbn. rewrite String.eqb_refl. cbn.
      specialize (H4 _ K). apply existsb_exists in H4 as ([k2 v2] & J2 & E). cbn in E. apply andb_true_iff in E as [E1 E2].
      apply String.eqb_eq in E1. subst k2. assert (v2 = v') by (eapply nodup_key; eauto). subst v2.
      rewrite Forall_forall in IHt. apply (IHt _ K); [apply (W1 _ K)|apply (W2 _ I)|exact E2].
    + clear -IHr H5 V1 V2. revert rs' V2 H5. induction rs as [|[f t] rs IH]; intros [|[f' t'] rs'] V2 H5; try discriminate; auto.
      inversion IHr as [|? ? IA IB]; subst. inversion V1 as [|? ? WA WB]; subst. inversion V2 as [|? ? XA XB]; subst.
      cbn in IA, WA, XA. rewrite !andb_true_iff in *. destruct H5 as ((A & B) & C).
      split; [split; [now rewrite String.eqb_sym|auto]|]. auto.
  - now rewrite String.eqb_sym.
  - apply andb_true_iff in H as [H1 H2]. apply eqb_prop in H1, H2. subst. now rewrite !eqb_reflx.
Qed.
Lemma ty_eqb_sym a b : wf_ty a -> wf_ty b -> ty_eqb a b = ty_eqb b a.
Proof.
  intros WA WB. destruct (ty_eqb a b) eqn:E1.
  - symmetry. now apply ty_eqb_sym_imp.
  - destruct (ty_eqb b a) eqn:E2; [|reflexivity]. apply ty_eqb_sym_imp in E2; congruence.
Qed.

(** the fuel suffices *)
Lemma strong_enough : forall n m a b, (Nat.min (depth a) (depth b) <= n)%nat -> (Nat.min (depth a) (depth b) <= m)%nat ->
  strong n a b = strong m a b.
Proof.
  assert (X : forall n m a b, (n <= m)%nat -> (Nat.min (depth a) (depth b) <= n)%nat -> strong n a b = strong m a b).
  { induction n as [|n IH]; intros m a b L D.
    - destruct m as [|m]; [reflexivity|]. cbn [strong]. destruct a; cbn [strong_with]; try reflexivity; cbn [compatible_with];
        destruct b; try reflexivity; cbn [depth] in D; lia.
    - destruct m as [|m]; [lia|]. cbn [strong].
      destruct a; cbn [strong_with]; try reflexivity; cbn [compatible_with]; destruct b; try reflexivity; cbn [depth] in D.
      + apply IH; lia.
      + apply IH; lia. }
  intros n m a b D1 D2. destruct (Nat.le_ge_cases n m); [now apply X|symmetry; now apply X].
Qed.
(** is_compatible_strong calls is_compatible *)
Lemma strong_eq a b : is_compatible_strong a b = strong_with is_compatible a b.
Proof.
  unfold is_compatible_strong. destruct (depth a) as [|n] eqn:D.
  - cbn [strong]. destruct a; cbn in D; try discriminate; reflexivity.
  - cbn [strong]. unfold is_compatible. destruct a; cbn in D; try discriminate; cbn [strong_with compatible_with];
      destruct b; try reflexivity; unfold is_compatible_strong; apply strong_enough; lia.
Qed.
Global Opaque is_compatible_strong.

(** every type but the undefined one is compatible with itself *)
Theorem C19_reflexive : forall t, is_compatible t t = true <-> t <> TUndefined.
Proof.
  intros t. split; [intros H ->; discriminate|].
  destruct t; cbn [is_compatible compatible_with is_integer]; unfold is_compatible; cbn; rewrite ?String.eqb_refl, ?ty_eqb_refl; auto.
  all: intros H; try (now destruct H). all: now destruct readable, writable.
Qed.

(** every defined type is compatible with any type and the other way round *)
Theorem C19_any : forall t, is_compatible t TAny = is_compatible TAny t /\ (is_compatible TAny t = true <-> t <> TUndefined).
Proof. intros t. destruct t; cbn; split; auto; split; congruence. Qed.

(** compatibility does not depend on the side, channels aside *)
Theorem C19_symmetric : forall a b, wf_ty a -> wf_ty b -> (forall r w r' w', a = TChannel r w -> b <> TChannel r' w') ->
  is_compatible a b = is_compatible b a.
Proof.
  intros a b WA WB NC. unfold is_compatible. destruct a, b; cbn [compatible_with is_integer]; auto;
    try (now rewrite String.eqb_sym).
  - rewrite String.eqb_sym. f_equal. now apply ty_eqb_sym.
  - exfalso. eapply NC; reflexivity.
Qed.
Theorem C19_channel_refuted : exists a b, is_compatible a b = true /\ is_compatible b a = false.
Proof. exists (TChannel true true), (TChannel true false). split; reflexivity. Qed.

(** what is compatible in the strong sense is compatible *)
Theorem C19_strong : forall a b, is_compatible_strong a b = true -> is_compatible a b = true.
Proof.
  intros a b. rewrite strong_eq. destruct a; cbn [strong_with]; auto; unfold is_compatible; cbn [compatible_with].
  - destruct b; cbn; auto; discriminate.
  - destruct b; cbn; auto; discriminate.
Qed.
Print Assumptions C19_reflexive.
Print Assumptions C19_any.
Print Assumptions C19_symmetric.
Print Assumptions C19_strong.
Example C19_symmetric_case : let msg_t := TMessage "P::M" [["A"; "B"]] [("A", TInteger "P::T" (known 0 255)); ("B", OPAQUE)] [] in
  wf_ty (TArray "P::Ms" msg_t) /\ is_compatible (TArray "P::Ms" msg_t) (TAggregate msg_t) = true /\
  is_compatible (TArray "P::Ms" msg_t) (TArray "P::Ms" (TMessage "P::M" [["A"; "B"]] [("B", OPAQUE); ("A", TInteger "P::T" (known 0 255))] [])) = true /\
  is_compatible (TArray "P::Ms" msg_t) (TAggregate (TEnumeration "P::E")) = false.
Proof. cbn. repeat split; auto. repeat constructor; cbn; intuition discriminate. Qed.

(** the common type of two types, if there is one, is compatible with both; elements
    of arrays are types that can be declared *)
Fixpoint declared (t : ty) : Prop :=
  match t with
  | TEnumeration _ | TMessage _ _ _ _ | TPrivate _ => True
  | TInteger _ b => defined_bounds b = true
  | TArray _ e => declared e
  | _ => False
  end.
Definition declared_elements (t : ty) : Prop := match t with TArray _ e => declared e | _ => True end.
Lemma strong_back e e' : wf_ty e -> wf_ty e' -> declared e -> is_compatible_strong e e' = true -> is_compatible_strong e' e = true.
Proof.
  intros W W' D. rewrite !strong_eq. destruct e; cbn in D; try contradiction; cbn [strong_with].
  - destruct e'; cbn; auto; try discriminate. now rewrite String.eqb_sym.
  - intros H. apply orb_true_iff in H as [H|H].
    + destruct e'; try discriminate. cbn [strong_with]. apply orb_true_iff. left. now apply ty_eqb_sym_imp.
    + destruct e'; try discriminate. exact H.
  - destruct e'; cbn [strong_with]; unfold is_compatible; cbn [compatible_with]; auto; try discriminate.
    intros H. apply andb_true_iff in H as [H1 H2]. rewrite String.eqb_sym, H1. now apply ty_eqb_sym_imp.
  - destruct e'; cbn; auto; try discriminate. now rewrite String.eqb_sym.
  - destruct e'; cbn; auto; try discriminate. now rewrite String.eqb_sym.
Qed.
Theorem C19_common : forall a b c, wf_ty a -> wf_ty b -> declared_elements a -> declared_elements b ->
  common_type [a; b] = c -> c <> TUndefined -> a <> TUndefined -> is_compatible c a = true /\ is_compatible c b = true.
Proof.
  intros a b c WA WB DA DB E NE NA. unfold common_type in E. cbn [fold_left common_type_of] in E.
  assert (SO : match b with TAny => a | _ => if ty_eqb a b then a else TUndefined end = c ->
               (forall x, ty_eqb a x = true -> is_compatible a x = true) -> is_compatible c a = true /\ is_compatible c b = true).
  { intros H X.
    assert (Y : (b = TAny /\ c = a) \/ (ty_eqb a b = true /\ c = a)).
    { destruct b; try (destruct (ty_eqb a _) eqn:Q in H; [right; split; auto|congruence]). left. auto. }
    destruct Y as [[-> ->]|[Y ->]]; (split; [now apply C19_reflexive|]); [|auto]. rewrite (proj1 (C19_any a)). now apply C19_any. }
  destruct a; cbn [common_type_of] in E.
  - congruence.
  - subst c. split; [|now apply C19_reflexive]. rewrite (proj1 (C19_any b)). now apply C19_any.
  - apply SO; [exact E|]. intros [] X; try discriminate; exact X.
  - destruct b; cbn in E; subst c; try congruence; split; reflexivity.
  - destruct b; cbn in E; subst c; try congruence; split; reflexivity.
  - destruct b as [| |n'| | |b1|n' b1|e'|n' e'|n' c' ts' rs'|n'|r' w']; cbn in E; try (subst c; try congruence; split; reflexivity).
    + destruct (bounds_eqb b0 b1); subst c; split; reflexivity.
    + destruct (contains b1 b0); subst c; split; reflexivity.
  - destruct b as [| |n'| | |b1|n' b1|e'|n' e'|n' c' ts' rs'|n'|r' w']; cbn in E; try (subst c; try congruence; split; reflexivity).
    + destruct (contains b0 b1); subst c; split; reflexivity.
    + destruct ((name =? n')%string && bounds_eqb b0 b1); subst c; split; reflexivity.
  - destruct b as [| |n'| | |b1|n' b1|e'|n' e'|n' c' ts' rs'|n'|r' w']; try (cbn in E; subst c; try congruence; split; reflexivity).
    + destruct (ty_eqb a e'); subst c; split; reflexivity.
    + destruct (is_compatible_strong a e') eqn:Q; [|congruence]. subst c. split; [exact Q|]. now apply C19_reflexive.
  - destruct b as [| |n'| | |b1|n' b1|e'|n' e'|n' c' ts' rs'|n'|r' w'].
    8:{ destruct (is_compatible_strong a e') eqn:Q; [|congruence]. subst c. split; [now apply C19_reflexive|]. 
        unfold is_compatible. cbn [compatible_with]. now apply strong_back. }
    all: apply SO; [exact E|]; intros [] X; try discriminate; unfold is_compatible; cbn [compatible_with]; exact X.
  - apply SO; [exact E|]. intros [] X; try discriminate. cbn [ty_eqb] in X. rewrite !andb_true_iff in X. apply X.
  - apply SO; [exact E|]. intros [] X; try discriminate; exact X.
  - apply SO; [exact E|]. intros [] X; try discriminate. cbn in X. apply andb_true_iff in X as [X1 X2].
    apply eqb_prop in X1, X2. subst. now destruct readable0, writable0.
Qed.
Print Assumptions C19_common.
Example C19_common_case : let byte := TInteger "P::T" (known 0 255) in
  declared_elements (TArray "P::A" byte) /\ common_type [TArray "P::A" byte; TAggregate (TUniversal (known 1 9))] = TArray "P::A" byte /\
  common_type [TAggregate (TUniversal (known 1 300)); TArray "P::A" byte] = TUndefined.
Proof. repeat split. Qed.
(** but not with more types: a literal out of range is not noticed beside a variable *)
Theorem C19_common_refuted : exists ts t, In t ts /\ common_type ts <> TUndefined /\ is_compatible (common_type ts) t = false /\
  Forall (fun t => wf_ty t /\ declared_elements t) ts.
Proof.
  exists [TAggregate (TUniversal (known 300 300)); TAggregate (TInteger "P::T" (known 0 255)); TArray "P::A" (TInteger "P::T" (known 0 255))],
    (TAggregate (TUniversal (known 300 300))).
  split; [now left|]. split; [discriminate|]. split; [reflexivity|]. repeat constructor.
Qed.
(** and the order of composite types matters *)
Theorem C19_composite_order_refuted : exists a b, common_type [a; b] <> TUndefined /\ common_type [b; a] = TUndefined.
Proof.
  exists (TAggregate TAny), (TArray "P::A" (TInteger "P::T" (known 0 255))). split; [discriminate|reflexivity].
Qed.

(** the order of integer types does not matter *)
Definition known_integer (t : ty) : Prop := is_integer t = true /\ forall n b, t = TInteger n b -> defined_bounds b = true.
Lemma union_comm a b : union a b = union b a.
Proof.
  destruct a as [[x|] [y|]], b as [[u|] [v|]]; cbn; auto. unfold known. now rewrite Z.min_comm, Z.max_comm.
Qed.
Lemma common_integer a b : known_integer a -> known_integer b -> known_integer (common_type_of a b).
Proof.
  intros [A1 A2] [B1 B2]. destruct a; try discriminate; destruct b; try discriminate; cbn [common_type_of is_integer];
    repeat match goal with |- context [if ?c then _ else _] => destruct c end;
    split; try reflexivity; intros n0 b1 E; try discriminate; eauto.
Qed.
Lemma common_comm a b : known_integer a -> known_integer b -> common_type_of a b = common_type_of b a.
Proof.
  intros [A1 A2] [B1 B2]. destruct a as [| |n| | |x|n x| | | | |]; try discriminate; destruct b as [| |n'| | |y|n' y| | | | |]; try discriminate; cbn; auto.
  - destruct (bounds_eqb x y) eqn:E.
    + apply bounds_eqb_iff in E. subst y. assert (R : bounds_eqb x x = true) by now apply bounds_eqb_iff. now rewrite R.
    + destruct (bounds_eqb y x) eqn:E2; [apply bounds_eqb_iff in E2; subst y; assert (R : bounds_eqb x x = true) by (now apply bounds_eqb_iff); congruence|].
      now rewrite union_comm.
  - destruct ((n =? n')%string && bounds_eqb x y) eqn:E.
    + apply andb_true_iff in E as [E1 E2]. apply String.eqb_eq in E1. apply bounds_eqb_iff in E2. subst.
      rewrite String.eqb_refl. assert (R : bounds_eqb y y = true) by now apply bounds_eqb_iff. now rewrite R.
    + destruct ((n' =? n)%string && bounds_eqb y x) eqn:E2; [|reflexivity]. apply andb_true_iff in E2 as [E1 E2].
      apply String.eqb_eq in E1. apply bounds_eqb_iff in E2. subst. rewrite String.eqb_refl in E.
      assert (R : bounds_eqb x x = true) by now apply bounds_eqb_iff. rewrite R in E. discriminate.
Qed.
(** the union written without the test for equality *)
Definition join (a b : bounds) : bounds := if bounds_eqb a b then a else union a b.
Lemma join_contains c a b : defined_bounds c = true -> contains c (join a b) = contains c a && contains c b.
Proof.
  intros D. unfold join. destruct (bounds_eqb a b) eqn:E; [apply bounds_eqb_iff in E; subst; now rewrite andb_diag|].
  destruct c as [[x|] [y|]]; cbn in D; try discriminate.
  destruct a as [[p|] [q|]], b as [[u|] [v|]]; unfold contains; cbn; rewrite ?andb_false_r; auto.
  destruct (Z.leb_spec x (Z.min p u)), (Z.leb_spec (Z.max q v) y), (Z.leb_spec x p), (Z.leb_spec q y), (Z.leb_spec x u), (Z.leb_spec v y); cbn; auto; lia.
Qed.
Lemma join_defined a b : defined_bounds a = true -> defined_bounds b = true -> join a b = union a b.
Proof.
  intros DA DB. unfold join. destruct (bounds_eqb a b) eqn:E; [|reflexivity]. apply bounds_eqb_iff in E. subst b.
  destruct a as [[p|] [q|]]; cbn in *; try discriminate. unfold known. now rewrite Z.min_id, Z.max_id.
Qed.
Lemma union_undefined a b : defined_bounds a && defined_bounds b = false -> union a b = no_bounds.
Proof. destruct a as [[p|] [q|]], b as [[u|] [v|]]; cbn; intros; try discriminate; reflexivity. Qed.
Lemma join_refl a : join a a = a.
Proof. unfold join. assert (R : bounds_eqb a a = true) by now apply bounds_eqb_iff. now rewrite R. Qed.
Lemma union_defined a b : defined_bounds a = true -> defined_bounds b = true -> defined_bounds (union a b) = true.
Proof. destruct a as [[p|] [q|]], b as [[u|] [v|]]; cbn; intros; try discriminate; reflexivity. Qed.
Lemma join_none a : join a no_bounds = no_bounds.
Proof.
  unfold join. destruct (bounds_eqb a no_bounds) eqn:E; [now apply bounds_eqb_iff in E|].
  apply union_undefined. now rewrite andb_false_r.
Qed.
Lemma join_comm a b : join a b = join b a.
Proof.
  unfold join. destruct (bounds_eqb a b) eqn:E; destruct (bounds_eqb b a) eqn:E2.
  - now apply bounds_eqb_iff in E.
  - apply bounds_eqb_iff in E. subst. assert (R : bounds_eqb b b = true) by now apply bounds_eqb_iff. congruence.
  - apply bounds_eqb_iff in E2. subst. assert (R : bounds_eqb a a = true) by now apply bounds_eqb_iff. congruence.
  - apply union_comm.
Qed.
Lemma join_assoc a b c : join (join a b) c = join a (join b c).
Proof.
  destruct (defined_bounds a) eqn:A, (defined_bounds b) eqn:B, (defined_bounds c) eqn:C.
  1:{ rewrite (join_defined a b), (join_defined b c) by auto. rewrite (join_defined (union a b) c), (join_defined a (union b c)); auto using union_defined.
      destruct a as [[x|] [y|]], b as [[u|] [v|]], c as [[p|] [q|]]; cbn in *; try discriminate. unfold known.
      now rewrite Z.min_assoc, Z.max_assoc. }
  all: destruct a as [[x|] [y|]], b as [[u|] [v|]], c as [[p|] [q|]]; cbn in A, B, C; try discriminate;
    unfold join, union, bounds_eqb, no_bounds, known; cbn [lower upper opt_eqb andb];
    repeat (match goal with |- context [?g =? ?h] => destruct (Z.eqb_spec g h); [subst|] end; cbn [andb lower upper opt_eqb]);
    rewrite ?andb_false_r, ?andb_true_r; cbn [andb lower upper opt_eqb]; rewrite ?Z.eqb_refl; cbn [andb lower upper opt_eqb]; auto;
    try congruence.
Qed.

Lemma common_universal x y : common_type_of (TUniversal x) (TUniversal y) = TUniversal (join x y).
Proof. cbn. unfold join. now destruct (bounds_eqb x y). Qed.
Lemma same_integer n x n' y : (n =? n')%string && bounds_eqb x y = true <-> n = n' /\ x = y.
Proof. rewrite andb_true_iff, String.eqb_eq, bounds_eqb_iff. tauto. Qed.
Lemma common_assoc a b c : known_integer a -> known_integer b -> known_integer c ->
  common_type_of (common_type_of a b) c = common_type_of a (common_type_of b c).
Proof.
  intros [A1 A2] [B1 B2] [C1 C2].
  destruct a as [| |n| | |x|n x| | | | |]; try discriminate; destruct b as [| |n'| | |y|n' y| | | | |]; try discriminate;
    destruct c as [| |n''| | |z|n'' z| | | | |]; try discriminate; rewrite ?common_universal;
    cbn [common_type_of is_integer]; auto.
  all: try specialize (A2 _ _ eq_refl); try specialize (B2 _ _ eq_refl); try specialize (C2 _ _ eq_refl).
  all: repeat match goal with |- context [if bounds_eqb ?p ?q then TUniversal ?p else TUniversal (union ?p ?q)] =>
         replace (if bounds_eqb p q then TUniversal p else TUniversal (union p q)) with (TUniversal (join p q))
           by (unfold join; now destruct (bounds_eqb p q)) end.
  all: cbn [common_type_of is_integer]; auto.
  all: repeat match goal with |- context [if bounds_eqb ?p ?q then TUniversal ?p else TUniversal (union ?p ?q)] =>
         replace (if bounds_eqb p q then TUniversal p else TUniversal (union p q)) with (TUniversal (join p q))
           by (unfold join; now destruct (bounds_eqb p q)) end.
  all: try (repeat match goal with
              | |- context [contains ?p ?q] => destruct (contains p q)
              | |- context [(?p =? ?q)%string] => destruct (p =? q)%string
              | |- context [bounds_eqb ?p ?q] => destruct (bounds_eqb p q) end; reflexivity).
  - f_equal. apply join_assoc.
  - rewrite join_contains by exact C2. destruct (contains z x) eqn:E1, (contains z y) eqn:E2; cbn [andb common_type_of]; rewrite ?E1; auto.
  - destruct (contains y x) eqn:E1, (contains y z) eqn:E2; cbn [common_type_of]; rewrite ?E1, ?E2; auto.
  - destruct ((n' =? n'')%string && bounds_eqb y z) eqn:E.
    + apply same_integer in E as [-> ->]. destruct (contains z x) eqn:E1; cbn [common_type_of]; auto.
      assert (R : (n'' =? n'')%string && bounds_eqb z z = true) by now apply same_integer. now rewrite R.
    + destruct (contains y x) eqn:E1; cbn [common_type_of]; [|reflexivity]. now rewrite E.
  - rewrite join_contains by exact A2. destruct (contains x y) eqn:E1; cbn [andb common_type_of]; auto.
  - destruct (contains x y) eqn:E1, (contains z y) eqn:E2; cbn [common_type_of]; auto.
    + destruct ((n =? n'')%string && bounds_eqb x z) eqn:E; auto. apply same_integer in E as [-> ->]. congruence.
    + destruct ((n =? n'')%string && bounds_eqb x z) eqn:E; auto. apply same_integer in E as [-> ->]. congruence.
  - destruct ((n =? n')%string && bounds_eqb x y) eqn:E.
    + apply same_integer in E as [-> ->]. destruct (contains y z) eqn:E1; cbn [common_type_of]; rewrite ?E1; auto.
      assert (R : (n' =? n')%string && bounds_eqb y y = true) by now apply same_integer. now rewrite R.
    + destruct (contains y z) eqn:E1; cbn [common_type_of]; rewrite ?E; auto.
  - destruct ((n =? n')%string && bounds_eqb x y) eqn:E, ((n' =? n'')%string && bounds_eqb y z) eqn:E2; cbn [common_type_of]; rewrite ?E, ?E2; auto.
    + apply same_integer in E as [-> ->]. apply same_integer in E2 as [-> ->].
      assert (R : (n'' =? n'')%string && bounds_eqb z z = true) by now apply same_integer. now rewrite R.
    + apply same_integer in E as [-> ->]. now rewrite E2.
Qed.

Theorem C19_order : forall ts ts', Forall known_integer ts -> Permutation ts ts' -> common_type ts = common_type ts'.
Proof.
  assert (G : forall ts ts', Permutation ts ts' -> Forall known_integer ts -> forall a, a = TAny \/ known_integer a ->
    fold_left common_type_of ts a = fold_left common_type_of ts' a).
  { assert (K : forall a t, a = TAny \/ known_integer a -> known_integer t -> known_integer (common_type_of a t)).
    { intros a t [->|A] T; [exact T|now apply common_integer]. }
    induction 1 as [|t ts ts' P IH|t u ts|ts ts' ts'' P1 IH1 P2 IH2]; intros F a A.
    - reflexivity.
    - inversion F; subst. cbn. apply IH; auto.
    - inversion F as [|? ? U F']; subst. inversion F' as [|? ? T F'']; subst. cbn. f_equal.
      destruct A as [->|A]; [now apply common_comm|].
      rewrite (common_assoc a u t A U T), (common_assoc a t u A T U). f_equal. now apply common_comm.
    - rewrite IH1 by auto. apply IH2; auto. eapply Permutation_Forall; eauto. }
  intros ts ts' F P. apply G; auto.
Qed.
(** and the common type is an integer type compatible with each of them *)
Theorem C19_integers : forall ts t, Forall (fun t => is_integer t = true) ts -> In t ts ->
  is_integer (common_type ts) = true /\ is_compatible (common_type ts) t = true /\ is_compatible t (common_type ts) = true.
Proof.
  intros ts t F I.
  assert (G : forall ts a, Forall (fun t => is_integer t = true) ts -> is_integer a = true -> is_integer (fold_left common_type_of ts a) = true).
  { clear; induction ts as [|u us IH]; intros a F' A; [exact A|]. inversion F'; subst. cbn. apply IH; auto.
    destruct a; try discriminate; destruct u; try discriminate; cbn;
      repeat match goal with |- context [if ?c then _ else _] => destruct c end; reflexivity. }
  assert (X : is_integer (common_type ts) = true).
  { destruct ts as [|u us]; [destruct I|]. inversion F; subst. unfold common_type. cbn. auto. }
  rewrite Forall_forall in F. specialize (F t I). split; [exact X|].
  assert (Y : forall a b, is_integer a = true -> is_integer b = true -> is_compatible a b = true).
  { intros a b A B. destruct a; try discriminate; unfold is_compatible; cbn; destruct b; try discriminate; reflexivity. }
  split; auto.
Qed.
Print Assumptions C19_order.
Print Assumptions C19_integers.
Example C19_order_case : let ts := [TUniversal (known 3 3); TInteger "P::T" (known 0 255); TUniversal (known 9 9)] in
  Forall known_integer ts /\ common_type ts = TInteger "P::T" (known 0 255) /\
  common_type [TUniversal (known 300 300); TInteger "P::T" (known 0 255)] = TUndefinedInteger.
Proof.
  split; [|split; reflexivity]. repeat constructor; intros n b E; try discriminate. injection E as <- <-. reflexivity.
Qed.
(** with integer types without bounds the order matters *)
Theorem C19_unbounded_order_refuted : exists a b c, Forall (fun t => is_integer t = true) [a; b; c] /\
  common_type [a; b; c] <> common_type [b; c; a].
Proof.
  exists (TUniversal no_bounds), (TUniversal (known 0 0)), (TInteger "P::T" no_bounds). split; [repeat constructor|discriminate].
Qed.

(** an aggregate of numbers is compatible with an array of integers iff all numbers
    lie between the bounds *)
Definition literal (v : Z) : ty := TUniversal (known v v).
Theorem C19_literals : forall vs n m first last,
  is_compatible (TAggregate (common_type (map literal vs))) (TArray n (TInteger m (known first last))) = true <->
  forall v, In v vs -> first <= v <= last.
Proof.
  intros vs n m first last. unfold is_compatible. cbn [compatible_with]. rewrite strong_eq.
  assert (G : forall vs l u, l <= u -> exists l' u', fold_left common_type_of (map literal vs) (TUniversal (known l u)) = TUniversal (known l' u') /\
    l' <= u' /\ forall a b, (a <= l' /\ u' <= b) <-> (a <= l /\ u <= b /\ forall v, In v vs -> a <= v <= b)).
  { clear. induction vs as [|v vs IH]; intros l u L; cbn [map fold_left].
    - exists l, u. split; [reflexivity|]. split; [exact L|]. intros a b. cbn. intuition lia.
    - unfold literal at 2. rewrite common_universal, join_defined by reflexivity. cbn [union known lower upper].
      destruct (IH (Z.min l v) (Z.max u v)) as (l' & u' & E & L' & B); [lia|]. exists l', u'. split; [exact E|]. split; [exact L'|].
      intros a b. rewrite B. cbn [In]. split.
      + intros (B1 & B2 & B3). split; [lia|]. split; [lia|]. intros w [<-|I]; [lia|auto].
      + intros (B1 & B2 & B3). pose proof (B3 v (or_introl eq_refl)). split; [lia|]. split; [lia|]. auto. }
  destruct vs as [|v vs]; [cbn; split; [intros _ w []|reflexivity]|]. unfold common_type. cbn [map fold_left common_type_of].
  destruct (G vs v v) as (l' & u' & E & L' & B); [lia|]. unfold literal at 2. rewrite E. cbn [strong_with]. unfold contains. cbn.
  rewrite andb_true_iff, !Z.leb_le, B. split.
  - intros (B1 & B2 & B3) w [<-|I]; [lia|auto].
  - intros H. pose proof (H v (or_introl eq_refl)). split; [lia|]. split; [lia|]. intros w I. apply H. now right.
Qed.
Print Assumptions C19_literals.
Example C19_literals_case : is_compatible (TAggregate (common_type (map literal [1; 200; 7]))) OPAQUE = true /\
  is_compatible (TAggregate (common_type (map literal [1; 256; 7]))) OPAQUE = false.
Proof. split; reflexivity. Qed.
(** a number alone is accepted for every integer type *)
Theorem C19_literal_refuted : exists v t, check_type (literal v) (One t) = Ok [] /\ t = TInteger "P::T" (known 0 255) /\ ~ 0 <= v <= 255.
Proof. exists 300, (TInteger "P::T" (known 0 255)). repeat split. lia. Qed.
(** and an aggregate with a number out of range is if it contains a variable of another
    type as well: the elements have no common type *)
Theorem C19_aggregate_refuted : exists v t, check_type (TAggregate (common_type [literal v; t])) (One OPAQUE) = Ok [] /\
  t = TInteger "P::T" (known 0 255) /\ ~ 0 <= v <= 255.
Proof. exists 300, (TInteger "P::T" (known 0 255)). repeat split. lia. Qed.
