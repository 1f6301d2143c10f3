(** Lemmas about scalar values: evaluation of constraints by simplification,
    literals of enumerations, bitstrings of scalars. *)
From Coq Require Import String Ascii List ZArith Bool Lia.
From Verif Require Import Base Expr ExprEval ExprFacts ExprTotal ExprMono Ident TypeSpec Bitstring BitFacts PyValue.
From Verif Require Import P_IdentErrors P_Types.
Import ListNotations.
Local Open Scope string_scope.
Local Open Scope list_scope.
Local Open Scope Z_scope.

(** ** Simplifying conjunctions and disjunctions of literal truth values *)

Lemma collect_bools simp o ts bs : Forall2 (fun t b => simp t = Ok (EBool b)) ts bs ->
  forall m total acc, (List.length ts <= m)%nat ->
  collect simp o m ts total acc =
    Ok (fold_left (fun a (b : bool) => operation o a (if b then 1 else 0)) bs total, rev acc).
Proof.
  intros F. induction F as [|t b ts bs Ht F IH]; intros m total acc L; cbn [List.length] in L.
  - destruct m; reflexivity.
  - destruct m as [|m]; [lia|]. cbn [collect]. rewrite Ht. cbn [bind fold_left].
    destruct b; cbn [EBool]; apply IH; lia.
Qed.

Lemma fold_and bs : fold_left (fun a (b : bool) => operation OAnd a (if b then 1 else 0)) bs 1 =
  if forallb (fun b => b) bs then 1 else 0.
Proof.
  assert (Z0 : forall bs, fold_left (fun a (b : bool) => operation OAnd a (if b then 1 else 0)) bs 0 = 0)
    by (clear; induction bs; cbn; auto).
  induction bs as [|[] bs IH]; cbn; [reflexivity|exact IH|apply Z0].
Qed.
Lemma fold_or bs : fold_left (fun a (b : bool) => operation OOr a (if b then 1 else 0)) bs 0 =
  if existsb (fun b => b) bs then 1 else 0.
Proof.
  assert (Z1 : forall bs, fold_left (fun a (b : bool) => operation OOr a (if b then 1 else 0)) bs 1 = 1)
    by (clear; induction bs; cbn; auto).
  induction bs as [|[] bs IH]; cbn; [reflexivity|apply Z1|exact IH].
Qed.

Lemma simplify_and n ts bs : Forall2 (fun t b => simplify expr_eqb n t = Ok (EBool b)) ts bs ->
  (List.length ts <= n)%nat ->
  simplify expr_eqb (S n) (EAss OAnd ts) = Ok (EBool (forallb (fun b => b) bs)).
Proof.
  intros F L. cbn [simplify]. change (neutral OAnd) with 1.
  rewrite (collect_bools _ OAnd ts bs F) by exact L. cbn [bind]. rewrite fold_and.
  destruct (forallb (fun b => b) bs); reflexivity.
Qed.
Lemma simplify_or n ts bs : Forall2 (fun t b => simplify expr_eqb n t = Ok (EBool b)) ts bs ->
  (List.length ts <= n)%nat ->
  simplify expr_eqb (S n) (EAss OOr ts) = Ok (EBool (existsb (fun b => b) bs)).
Proof.
  intros F L. cbn [simplify]. change (neutral OOr) with 0.
  rewrite (collect_bools _ OOr ts bs F) by exact L. cbn [bind]. rewrite fold_or.
  destruct (existsb (fun b => b) bs); reflexivity.
Qed.

Lemma simplify_rel_num n o l r x y : simplify expr_eqb n l = Ok (ENum x) -> simplify expr_eqb n r = Ok (ENum y) ->
  simplify expr_eqb (S n) (ERel o l r) = Ok (EBool (rel_num o x y)).
Proof.
  intros El Er. cbn [simplify]. rewrite El. cbn [bind]. rewrite Er. cbn [bind]. unfold rel_simp.
  cbn [expr_eqb]. destruct o; cbn [andb rel_num]; try reflexivity.
  - destruct (Z.eqb_spec x y) as [->|]; [|reflexivity]. now rewrite Z.leb_refl.
  - destruct (Z.eqb_spec x y); reflexivity.
  - destruct (Z.eqb_spec x y) as [->|]; [|reflexivity]. now rewrite Z.leb_refl.
Qed.
Lemma simplify_num n z : simplify expr_eqb (S n) (ENum z) = Ok (ENum z).
Proof. reflexivity. Qed.
Lemma expr_eqb_true b : expr_eqb (EBool b) ETrue = b.
Proof. destruct b; reflexivity. Qed.

(** ** Integers *)

(** a scalar type as accepted by the model; the reserved name cannot be written in
    a specification *)
Definition accepted_int (n0 : nat) (t : scalar) : Prop :=
  (exists id modulus, ModularInteger n0 id modulus = Ok ([], Some t) /\
     forall x, In x (names modulus) -> x <> NVar value_name /\ x <> NAttr ASize value_name) \/
  (exists id fe le se, RangeInteger n0 id fe le se = Ok ([], Some t)).

Lemma substituted_all ng mapping cs cs' : Forall2 (fun c c' => substituted ng mapping c = Ok c') cs cs' ->
  substituted ng mapping (EAss OAnd cs) = Ok (EAss OAnd cs').
Proof.
  intros F. cbn [substituted].
  match goal with |- bind ?r _ = _ => assert (E : r = Ok cs') end.
  { induction F as [|c c' cs cs' H F IH]; [reflexivity|]. rewrite H. cbn [bind]. rewrite IH. reflexivity. }
  rewrite E. reflexivity.
Qed.
Lemma substituted_all_or ng mapping cs cs' : Forall2 (fun c c' => substituted ng mapping c = Ok c') cs cs' ->
  substituted ng mapping (EAss OOr cs) = Ok (EAss OOr cs').
Proof.
  intros F. cbn [substituted].
  match goal with |- bind ?r _ = _ => assert (E : r = Ok cs') end.
  { induction F as [|c c' cs cs' H F IH]; [reflexivity|]. rewrite H. cbn [bind]. rewrite IH. reflexivity. }
  rewrite E. reflexivity.
Qed.

Lemma name_neq_mapping t v x : x <> NVar value_name -> x <> NAttr ASize value_name -> int_mapping t v x = None.
Proof.
  intros H1 H2. destruct x as [x|a x]; cbn [int_mapping].
  - destruct (String.eqb_spec x value_name); [congruence|reflexivity].
  - destruct a; try reflexivity. destruct (String.eqb_spec x value_name); [congruence|reflexivity].
Qed.

Lemma int_assign_spec n0 n t v : accepted_int n0 t -> (n0 + 6 <= n)%nat ->
  int_assign n t v true =
    if (type_first t <=? v) && (v <=? type_last t) then Ok v else Err "value not in type range".
Proof.
  intros A L. destruct n as [|[|n]]; try lia.
  destruct A as [(id & modulus & A & N)|(id & fe & le & se & A)].
  - apply C20_modular in A as (_ & k & K & E & ->).
    unfold int_assign. cbn [constraints bind]. unfold constraint_true, simpv.
    erewrite substituted_all with
      (cs' := [ERel OLt (ENum v) modulus; ERel OGe (ENum v) (ENum 0); ERel OEq (ENum k) (ENum k)]).
    2:{ repeat constructor.
        assert (SM : substituted (neg (simplify expr_eqb (S (S n))))
                      (int_mapping (Modular id modulus (2 ^ k) k) v) modulus = Ok modulus).
        { apply substituted_id. intros x I. apply N in I as [I1 I2]. now apply name_neq_mapping. }
        cbn [substituted EVar]. cbn [int_mapping]. rewrite String.eqb_refl. cbn [bind].
        change (bind (substituted (neg (simplify expr_eqb (S (S n))))
                      (int_mapping (Modular id modulus (2 ^ k) k) v) modulus)
                 (fun r' => Ok (ERel OLt (ENum v) r')) = Ok (ERel OLt (ENum v) modulus)).
        rewrite SM. reflexivity. }
    cbn [bind].
    rewrite simplify_and with (bs := [rel_num OLt v (2 ^ k); rel_num OGe v 0; rel_num OEq k k]).
    + cbn [bind]. rewrite expr_eqb_true. cbn [forallb rel_num type_first type_last].
      rewrite Z.eqb_refl. cbn [andb]. rewrite andb_true_r.
      destruct (Z.ltb_spec v (2 ^ k)), (Z.leb_spec v (2 ^ k - 1)), (Z.leb_spec 0 v); cbn; (reflexivity || lia).
    + destruct n as [|n]; [lia|]. repeat constructor; apply simplify_rel_num; try reflexivity.
      apply (simplify_mono expr_eqb n0); [lia|exact E].
    + cbn. lia.
  - apply C20_range in A as (_ & f & l & s & _ & _ & _ & -> & _).
    unfold int_assign. cbn [constraints bind]. unfold constraint_true, simpv.
    erewrite substituted_all with
      (cs' := [ERel OGe (ENum v) (ENum f); ERel OLe (ENum v) (ENum l); ERel OEq (ENum s) (ENum s)]).
    2:{ repeat constructor. }
    cbn [bind].
    rewrite simplify_and with (bs := [rel_num OGe v f; rel_num OLe v l; rel_num OEq s s]).
    + cbn [bind]. rewrite expr_eqb_true. cbn [forallb rel_num type_first type_last].
      rewrite Z.eqb_refl. cbn [andb]. now rewrite andb_true_r.
    + destruct n as [|n]; [lia|]. repeat constructor; apply simplify_rel_num; reflexivity.
    + cbn. lia.
Qed.

Lemma accepted_int_range n0 t v : accepted_int n0 t -> type_first t <= v <= type_last t ->
  0 <= v < 2 ^ type_size t.
Proof.
  intros [(id & modulus & A & _)|(id & fe & le & se & A)] R.
  - apply C20_modular_range in A as (F & La & _). rewrite F, La in R. lia.
  - eapply C20_range_fits in A; [|exact R]. tauto.
Qed.

(** ** Bitstrings *)

Lemma format_size_ok v s : 0 < s -> 0 <= v < 2 ^ s ->
  format_size false v s = Ok (bits_of (Z.to_nat s) v).
Proof.
  intros S R. unfold format_size. apply format_b_ok; [lia|]. rewrite Z2Nat.id by lia. exact R.
Qed.
Lemma bits_int b : b <> [] -> Bitstring_int b = Ok (value b).
Proof. destruct b; [congruence|]. intros _. unfold Bitstring_int. now rewrite int_of_value. Qed.
Lemma bits_int_inv b z : Bitstring_int b = Ok z -> b <> [] /\ z = value b.
Proof.
  destruct b; [discriminate|]. unfold Bitstring_int. rewrite int_of_value. intros H. apply Ok_inj in H.
  split; [discriminate|congruence].
Qed.
Lemma bits_of_nonempty w v : (0 < w)%nat -> bits_of w v <> [].
Proof. intros H E. pose proof (bits_of_length w v). rewrite E in *. cbn in *. lia. Qed.
Lemma value_of_bits s v : 0 <= s -> 0 <= v < 2 ^ s -> value (bits_of (Z.to_nat s) v) = v.
Proof. intros S R. rewrite bits_of_value, Z2Nat.id by exact S. now apply Z.mod_small. Qed.

(** ** Text of identifiers *)

Lemma lower_char_colon c : lower_char c = ":"%char -> c = ":"%char.
Proof.
  unfold lower_char. destruct ((65 <=? nat_of_ascii c) && (nat_of_ascii c <=? 90))%nat eqn:E; [|auto].
  intros H. exfalso. apply andb_true_iff in E as [A B]. apply Nat.leb_le in A, B.
  apply (f_equal nat_of_ascii) in H. rewrite nat_ascii_embedding in H by lia. cbn in H. lia.
Qed.
Lemma lower_no_colon s : has_char ":" s = false -> has_char ":" (lower s) = false.
Proof.
  induction s as [|c s IH]; [reflexivity|]. cbn [has_char lower]. intros H.
  apply orb_false_iff in H as [H K]. apply orb_false_iff. split; [|now apply IH].
  destruct (Ascii.eqb_spec ":" (lower_char c)) as [E|E]; [|reflexivity].
  symmetry in E. apply lower_char_colon in E. subst c. discriminate H.
Qed.
Lemma lower_app a b : lower (a ++ b) = (lower a ++ lower b)%string.
Proof. induction a; cbn; congruence. Qed.
Lemma lower_concat a : lower (String.concat "::" a) = String.concat "::" (map lower a).
Proof.
  induction a as [|x a IH]; [reflexivity|]. destruct a as [|y a]; [reflexivity|].
  change (String.concat "::" (x :: y :: a)) with (x ++ "::" ++ String.concat "::" (y :: a))%string.
  rewrite !lower_app, IH. reflexivity.
Qed.
Lemma split_concat' a : Forall (fun s => has_char ":" s = false) a -> a <> [] ->
  split (String.concat "::" a) = a.
Proof.
  induction a as [|x a IH]; [congruence|]. intros G _. inversion G as [|? ? Cx Ga]; subst.
  destruct a as [|y a].
  - cbn. now apply split_plain.
  - change (String.concat "::" (x :: y :: a)) with (x ++ "::" ++ String.concat "::" (y :: a))%string.
    rewrite split_sep by exact Cx. f_equal. apply IH; [exact Ga|discriminate].
Qed.
Lemma good_no_colon a : Forall good_part a -> Forall (fun s => has_char ":" s = false) a.
Proof. apply Forall_impl. intros s H. apply good_part_b in H. tauto. Qed.
Lemma var_inj a b : good_id a -> good_id b -> var a = var b -> id_hash a = id_hash b.
Proof.
  intros [Na Ga] [Nb Gb] E. unfold var, id_str in E. rewrite !lower_concat in E.
  apply (f_equal split) in E. rewrite !split_concat' in E; [exact E| | | |];
    try (destruct a, b; cbn; congruence);
    apply Forall_map; (apply Forall_impl with (P := fun s => has_char ":" s = false);
      [intros; now apply lower_no_colon|now apply good_no_colon]).
Qed.
Lemma hash_var a b : id_hash a = id_hash b -> var a = var b.
Proof. unfold var, id_str. rewrite !lower_concat. unfold id_hash. congruence. Qed.
Lemma last_hash a b : id_hash a = id_hash b -> lower (last a "") = lower (last b "").
Proof.
  unfold id_hash. intros H.
  assert (L : forall l, lower (last l "") = last (map lower l) "").
  { induction l as [|x l IH]; [reflexivity|]. destruct l; [reflexivity|exact IH]. }
  rewrite !L. congruence.
Qed.
