(** C48: the generated types and their functions Valid, To_Base and To_Actual. *)
From Coq Require Import String Ascii List ZArith Bool Lia Permutation Sorted.
From Verif Require Import Base Expr ExprEval ExprFacts ExprMono ExprTotal ExprMore Ident TypeSpec GenCode GenSpec GenFacts GenTypes P_IdentErrors P_Types.
Import ListNotations.
Local Open Scope string_scope.
Local Open Scope list_scope.
Local Open Scope Z_scope.

(** ** Specification *)

(** the numbers that are values of a type (also used by PyRFLX, C08 and C09) *)
Definition is_value (t : scalar) (v : Z) : Prop :=
  match t with
  | Modular _ _ _ size => 0 <= v < 2 ^ size
  | Range _ f l _ => f <= v <= l
  | Enum _ lits size av => if av then 0 <= v < 2 ^ size else In v (map snd lits)
  end.
(** the Ada value for a number *)
Inductive stands_for (t : scalar) (v : Z) : aval -> Prop :=
| for_modular id m mn size : t = Modular id m mn size -> is_value t v -> stands_for t v (AInt v)
| for_range id f l size : t = Range id f l size -> is_value t v -> stands_for t v (AInt v)
| for_literal id lits size k : t = Enum id lits size false -> In (k, v) lits -> stands_for t v (ALiteral k)
| for_known id lits size k : t = Enum id lits size true -> In (k, v) lits -> stands_for t v (AKnown k)
| for_raw id lits size : t = Enum id lits size true -> ~ In v (map snd lits) -> is_value t v -> stands_for t v (ARaw v).

(** the expressions of a declaration: arithmetic that Ada can evaluate (there are no names),
    without operands for which simplification is wrong (C13); an enumeration has a
    literal *)
Definition bounds_of (d : declaration) : list expr :=
  match d with DModular _ m => [m] | DRange _ f l s => [f; l; s] | DEnum _ _ s _ => [s] end.
Definition plain (d : declaration) : Prop :=
  (forall e, In e (bounds_of d) -> arith e = true /\ ok e = true /\ exists z, static e = Ok z) /\
  match d with DEnum _ lits _ _ => lits <> [] | _ => True end.

(** ** Facts *)

Lemma static_value n e v z : arith e = true -> ok e = true -> static e = Ok z -> simplify expr_eqb n e = Ok (ENum v) -> v = z.
Proof.
  intros A O S H. unfold static in S.
  destruct (aeval (fun _ => true) (fun _ => Err "not visible") e) as [w|] eqn:E; cbn [bind] in S; [|discriminate].
  destruct w as [w|]; [|discriminate]. apply Ok_inj in S. subst w.
  set (g := fun _ : name => VInt 0).
  assert (X : eval_sc g e = Some (VInt z)).
  { refine (aeval_sound (fun _ => true) (fun _ => Err "not visible") g e _ _ E). intros m w _ L. discriminate. }
  rewrite (arith_eval g e A) in X.
  destruct (simplify_good expr_eqb expr_eqb_sound n _ _ H) as (R & _). destruct (R O) as [_ Q].
  specialize (Q g _ X). cbn [eval] in Q. now injection Q as <-.
Qed.
Lemma static_pow e z : static e = Ok z -> 0 <= z -> static (EBin OPow (ENum 2) e) = Ok (2 ^ z).
Proof.
  intros S Z0. unfold static in *. cbn [aeval bind as_int].
  destruct (aeval (fun _ => true) (fun _ => Err "not visible") e) as [w|] eqn:E; cbn [bind] in *; [|discriminate].
  rewrite S. cbn [bind bin_res]. destruct (Z.leb_spec 0 z); [|lia]. reflexivity.
Qed.

Lemma in_insert kv l x : In x (insert_literal kv l) <-> x = kv \/ In x l.
Proof.
  induction l as [|y l IH]; cbn [insert_literal In]; [intuition|]. destruct (snd kv <? snd y); cbn [In]; [intuition|]. rewrite IH. intuition.
Qed.
Lemma insert_permutation kv l : Permutation (insert_literal kv l) (kv :: l).
Proof.
  induction l as [|y l IH]; cbn [insert_literal]; [reflexivity|]. destruct (snd kv <? snd y); [reflexivity|].
  rewrite IH. apply perm_swap.
Qed.
Definition before (a b : ident * Z) : Prop := snd a < snd b.
Lemma insert_sorted kv l : StronglySorted before l -> ~ In (snd kv) (map snd l) -> StronglySorted before (insert_literal kv l).
Proof.
  intros S. induction S as [|y l S IH F]; intros N; cbn [insert_literal].
  - repeat constructor.
  - destruct (Z.ltb_spec (snd kv) (snd y)) as [L|G].
    + constructor; [now constructor|]. constructor; [exact L|]. rewrite Forall_forall in *. intros z I. specialize (F z I). unfold before in *. lia.
    + constructor; [apply IH; intros I; apply N; now right|]. rewrite Forall_forall in *. intros z I. apply in_insert in I as [->|I]; [|now apply F].
      unfold before. assert (snd y <> snd kv) by (intros E; apply N; left; exact E). lia.
Qed.
Lemma sorted_spec l : NoDup (map snd l) -> StronglySorted before (sorted_literals l) /\ Permutation (sorted_literals l) l.
Proof.
  intros N. unfold sorted_literals.
  assert (G : forall l acc, NoDup (map snd (l ++ acc)) -> StronglySorted before acc ->
    StronglySorted before (fold_left (fun acc kv => insert_literal kv acc) l acc) /\
    Permutation (fold_left (fun acc kv => insert_literal kv acc) l acc) (l ++ acc)).
  { clear. induction l as [|kv l IH]; intros acc N S; cbn [fold_left app] in *; [auto|].
    cbn [map] in N. apply NoDup_cons_iff in N as [N1 N2].
    destruct (IH (insert_literal kv acc)) as [A B].
    - eapply Permutation_NoDup; [|apply NoDup_cons; [exact N1|exact N2]].
      rewrite !map_app. rewrite (Permutation_map snd (insert_permutation kv acc)). cbn [map]. apply Permutation_middle.
    - apply insert_sorted; [exact S|]. intros I. apply N1. rewrite map_app. apply in_or_app. now right.
    - split; [exact A|]. rewrite B, insert_permutation. symmetry. apply Permutation_middle. }
  destruct (G l [] ltac:(now rewrite app_nil_r) ltac:(constructor)) as [A B]. rewrite app_nil_r in B. auto.
Qed.

Lemma find_value {A} (h : ident * Z -> A) lits k v : NoDup (map snd lits) -> In (k, v) lits ->
  find (fun a : Z * A => fst a =? v) (map (fun kv => (snd kv, h kv)) lits) = Some (v, h (k, v)).
Proof.
  induction lits as [|kv l IH]; intros N I; [destruct I|]. cbn [map find fst]. cbn [map] in N. apply NoDup_cons_iff in N as [N1 N2].
  destruct I as [->|I].
  - cbn [snd]. rewrite Z.eqb_refl. reflexivity.
  - destruct (Z.eqb_spec (snd kv) v) as [E|E].
    + exfalso. apply N1. rewrite E. apply in_map_iff. exists (k, v). auto.
    + now apply IH.
Qed.
Lemma find_no_value {A} (h : ident * Z -> A) lits v : ~ In v (map snd lits) ->
  find (fun a : Z * A => fst a =? v) (map (fun kv => (snd kv, h kv)) lits) = None.
Proof.
  induction lits as [|kv l IH]; intros N; [reflexivity|]. cbn [map find fst]. destruct (Z.eqb_spec (snd kv) v) as [E|E].
  - exfalso. apply N. now left.
  - apply IH. intros I. apply N. now right.
Qed.
Lemma literal_base_spec lits k v : NoDup (map (fun kv => id_hash (fst kv)) lits) -> In (k, v) lits -> literal_base lits k = Ok v.
Proof.
  intros N I. unfold literal_base. induction lits as [|kv l IH]; [destruct I|]. cbn [find]. cbn [map] in N. apply NoDup_cons_iff in N as [N1 N2].
  destruct I as [->|I].
  - cbn [fst]. rewrite (proj1 C35_equivalence k). reflexivity.
  - destruct (id_eq (fst kv) k) eqn:E; [|now apply IH]. exfalso. apply N1.
    apply in_map_iff. exists (k, v). split; [|exact I]. cbn [fst]. symmetry. now apply C35_hash.
Qed.

(** pigeonhole: as many different numbers as there are *)
Lemma all_covered (vs : list Z) (m : Z) : NoDup vs -> (forall v, In v vs -> 0 <= v < m) -> m <= Z.of_nat (List.length vs) ->
  forall v, 0 <= v < m -> In v vs.
Proof.
  intros N R L v V. set (all := map Z.of_nat (seq 0 (Z.to_nat m))).
  assert (IN : incl vs all).
  { intros x I. apply R in I. unfold all. apply in_map_iff. exists (Z.to_nat x). split; [lia|]. apply in_seq. lia. }
  assert (LE : (List.length all <= List.length vs)%nat) by (unfold all; rewrite map_length, seq_length; lia).
  apply (NoDup_length_incl N LE IN). unfold all. apply in_map_iff. exists (Z.to_nat v). split; [lia|]. apply in_seq. lia.
Qed.

Ltac found E := let H := fresh in pose proof E as H; cbv beta in H; rewrite H; clear H.

(** ** Valid *)

Lemma true_constraint n : (6 <= n)%nat -> simp n (EAss OAnd [ETrue]) = Ok ETrue.
Proof. intros Hn. apply (simplify_mono expr_eqb 6 n Hn). reflexivity. Qed.
Lemma range_constraint n id f l s v : (10 <= n)%nat -> 0 <= f <= l -> l < 2 ^ s -> 0 <= v < 2 ^ s ->
  constraint_valid n (Range id f l s) v = Ok ((f <=? v) && (v <=? l)).
Proof.
  intros Hn F L V. assert (S : 0 <= s) by (destruct (Z.leb_spec 0 s); [lia|]; rewrite Z.pow_neg_r in V; lia).
  unfold constraint_valid, constraint_of. cbn [constraints].
  destruct (Z.eqb_spec f l) as [->|N].
  - cbn [bind]. unfold simp.
    assert (E : simplify expr_eqb 10 (EAss OAnd [ERel OEq (EVar "val") (ENum l)]) = Ok (ERel OEq (EVar "val") (ENum l))) by (cbn; reflexivity).
    rewrite (simplify_mono expr_eqb 10 n Hn _ _ E). cbn. f_equal. lia.
  - unfold simp. rewrite base_last_value by (lia || assumption). cbn [bind expr_eqb].
    match goal with |- context [simplify expr_eqb n ?e] => set (c2 := e) end.
    assert (E : exists c c', simplify expr_eqb 9 c2 = Ok c /\ simplify expr_eqb 10 (EAss OAnd [c]) = Ok c' /\
      aeval (fun _ => true) (fun x => match x with NVar y => if String.eqb y "val" then Ok (VInt v) else Err "not visible" | _ => Err "not visible" end) c'
      = Ok (VBool ((f <=? v) && (v <=? l)))).
    { unfold c2. destruct (Z.eqb_spec l (2 ^ s - 1)) as [EL|NL], (Z.eqb_spec f 0) as [EF|NF]; cbn [negb]; do 2 eexists;
        (split; [cbn; reflexivity|split; [cbn; reflexivity|cbn; do 2 f_equal; lia]]). }
    destruct E as (c & c' & E1 & E2 & E3). rewrite (simplify_mono expr_eqb 9 n ltac:(lia) _ _ E1). cbn [bind].
    rewrite (simplify_mono expr_eqb 10 n Hn _ _ E2). cbn [bind]. rewrite E3. reflexivity.
Qed.

(** ** The theorems *)

Definition accepted (n : nat) (d : declaration) (t : scalar) : Prop := declared n d = Ok ([], Some t).

Lemma enum_size lits s : lits <> [] -> Forall (fun kv : ident * Z => 0 <= snd kv < 2 ^ s /\ snd kv < 2 ^ 63) lits -> 0 <= s.
Proof.
  intros N F. destruct lits as [|kv l]; [congruence|]. apply Forall_inv in F.
  destruct (Z.leb_spec 0 s); [assumption|]. rewrite Z.pow_neg_r in F; lia.
Qed.

(** The generated types are legal Ada; the base type has exactly the numbers of the size,
    a range type has the bounds of the specification, and the representation clause lists
    every literal with its value, in ascending order, as Ada demands. *)
Theorem C48_types : forall n d t, accepted n d t -> plain d ->
  0 <= type_size t <= 64 /\ base_type d = Ok (mkMod (2 ^ type_size t)) /\
  match t with
  | Range _ f l _ => actual_range d = Ok (mkRange f l)
  | Enum _ lits _ _ => StronglySorted before (et_literals (actual_enum t)) /\ Permutation (et_literals (actual_enum t)) lits
  | Modular _ _ _ _ => True
  end.
Proof.
  intros n d t A [P Q]. unfold accepted in A. destruct d as [id m|id f l s|id lits s av]; cbn [declared bounds_of] in *.
  - apply C20_modular in A as (_ & k & K & E & ->). destruct (P m (or_introl eq_refl)) as (AR & O & z & S).
    pose proof (static_value n _ _ _ AR O S E) as <-. cbn [type_size base_type]. split; [exact K|]. split; [|exact I].
    unfold mod_type. rewrite S. cbn [bind].
    pose proof (Z.pow_pos_nonneg 2 k ltac:(lia) ltac:(lia)). pose proof (Z.pow_le_mono_r 2 k 64 ltac:(lia) ltac:(lia)).
    destruct (Z.leb_spec 1 (2 ^ k)); [|lia]. destruct (Z.leb_spec (2 ^ k) (2 ^ 64)); [|lia]. reflexivity.
  - apply C20_range in A as (_ & f' & l' & s' & E1 & E2 & E3 & -> & Hf & Hfl & Hl & Hls & Hs).
    destruct (P f ltac:(cbn; auto)) as (AR1 & O1 & z1 & S1). pose proof (static_value n _ _ _ AR1 O1 S1 E1) as <-.
    destruct (P l ltac:(cbn; auto)) as (AR2 & O2 & z2 & S2). pose proof (static_value n _ _ _ AR2 O2 S2 E2) as <-.
    destruct (P s ltac:(cbn; auto)) as (AR3 & O3 & z3 & S3). pose proof (static_value n _ _ _ AR3 O3 S3 E3) as <-.
    assert (S0 : 0 <= s') by (destruct (Z.leb_spec 0 s'); [assumption|]; rewrite Z.pow_neg_r in Hls; lia).
    cbn [type_size base_type actual_range]. split; [lia|]. split.
    + unfold mod_type. rewrite (static_pow _ _ S3 S0). cbn [bind].
      pose proof (Z.pow_le_mono_r 2 s' 64 ltac:(lia) ltac:(lia)).
      destruct (Z.leb_spec 1 (2 ^ s')); [|lia]. destruct (Z.leb_spec (2 ^ s') (2 ^ 64)); [|lia]. reflexivity.
    + rewrite S1, S2. cbn [bind]. destruct (Z.leb_spec (- 2 ^ 63) f'); [|lia]. destruct (Z.ltb_spec f' (2 ^ 63)); [|lia].
      destruct (Z.leb_spec (- 2 ^ 63) l'); [|lia]. destruct (Z.ltb_spec l' (2 ^ 63)); [|lia]. reflexivity.
  - apply C20_enumeration in A as (_ & N1 & N2 & _ & s' & E & -> & Hs & F & _).
    destruct (P s ltac:(cbn; auto)) as (AR3 & O3 & z3 & S3). pose proof (static_value n _ _ _ AR3 O3 S3 E) as <-.
    pose proof (enum_size _ _ Q F) as S0. cbn [type_size base_type actual_enum et_literals]. split; [lia|]. split.
    + unfold mod_type. rewrite (static_pow _ _ S3 S0). cbn [bind].
      pose proof (Z.pow_pos_nonneg 2 s' ltac:(lia) ltac:(lia)). pose proof (Z.pow_le_mono_r 2 s' 64 ltac:(lia) ltac:(lia)).
      destruct (Z.leb_spec 1 (2 ^ s')); [|lia]. destruct (Z.leb_spec (2 ^ s') (2 ^ 64)); [|lia]. reflexivity.
    + apply sorted_spec. exact N2.
Qed.

(** Valid says for every number of the base type whether it is a value of the type. *)
Theorem C48_valid : forall n d t v, accepted n d t -> (10 <= n)%nat -> 0 <= v < 2 ^ type_size t ->
  exists b, Valid n t v = Ok b /\ (b = true <-> is_value t v).
Proof.
  intros n d t v A Hn V. unfold accepted in A. destruct d as [id m|id f l s|id lits s av]; cbn [declared] in A.
  - apply C20_modular in A as (_ & k & K & E & ->). exists true. cbn [Valid is_value type_size] in *. split; [|tauto].
    unfold constraint_valid, constraint_of. cbn [constraints bind]. rewrite true_constraint by lia. reflexivity.
  - apply C20_range in A as (_ & f' & l' & s' & E1 & E2 & E3 & -> & Hf & Hfl & Hl & Hls & Hs). cbn [Valid is_value type_size] in *.
    exists ((f' <=? v) && (v <=? l')). split; [apply range_constraint; lia|]. rewrite andb_true_iff, !Z.leb_le. tauto.
  - apply C20_enumeration in A as (_ & N1 & N2 & _ & s' & E & -> & Hs & F & _). cbn [type_size is_value] in *. destruct av; cbn [Valid].
    + exists true. split; [|tauto]. unfold constraint_valid, constraint_of. cbn [constraints bind]. rewrite true_constraint by lia. reflexivity.
    + unfold case_of, validation_cases. cbn [c_alternatives c_others].
      destruct (in_dec Z.eq_dec v (map snd lits)) as [I|I].
      * exists true. split; [|tauto]. apply in_map_iff in I as ((k & w) & <- & I). cbn [snd].
        found (find_value (fun _ => true) lits k w N2 I). reflexivity.
      * exists false. split; [|split; [discriminate|tauto]]. found (find_no_value (fun _ => true) lits v I).
        unfold is_incomplete. destruct (Z.ltb_spec (Z.of_nat (List.length lits)) (2 ^ s')); [reflexivity|]. exfalso. apply I.
        apply (all_covered _ (2 ^ s') N2); [|rewrite map_length; lia|exact V].
        intros w J. apply in_map_iff in J as (kv & <- & J). rewrite Forall_forall in F. now apply F.
Qed.

Lemma value_fits n d t v : accepted n d t -> plain d -> is_value t v -> 0 <= v < 2 ^ type_size t.
Proof.
  intros A [P Q] V. unfold accepted in A. destruct d as [id m|id f l s|id lits s av]; cbn [declared] in A.
  - apply C20_modular in A as (_ & k & K & E & ->). exact V.
  - apply C20_range in A as (_ & f' & l' & s' & E1 & E2 & E3 & -> & Hf & Hfl & Hl & Hls & Hs). cbn [is_value type_size] in *. lia.
  - apply C20_enumeration in A as (_ & N1 & N2 & _ & s' & E & -> & Hs & F & _). cbn [is_value type_size] in *. destruct av; [exact V|].
    apply in_map_iff in V as (kv & <- & V). rewrite Forall_forall in F. now apply F.
Qed.

(** A value of the generated type that stands for a number is converted to this number and
    back; the number is valid and within the base type, and no range check fails. *)
Theorem C48_to_base : forall n d t v a, accepted n d t -> plain d -> (10 <= n)%nat -> stands_for t v a ->
  0 <= v < 2 ^ type_size t /\ Valid n t v = Ok true /\ To_Base d t a = Ok v /\ To_Actual n d t v = Ok a.
Proof.
  intros n d t v a A P Hn S.
  assert (IV : is_value t v).
  { destruct S as [id m mn size -> V|id f l size -> V|id lits size k -> I|id lits size k -> I|id lits size -> N V]; try exact V.
    - cbn [is_value]. apply in_map_iff. exists (k, v). auto.
    - cbn [is_value]. unfold accepted in A. destruct d as [| |id' lits' s' av]; cbn [declared] in A.
      + apply C20_modular in A as (_ & ? & _ & _ & A). discriminate.
      + apply C20_range in A as (_ & ? & ? & ? & _ & _ & _ & A & _). discriminate.
      + apply C20_enumeration in A as (_ & _ & _ & _ & s2 & _ & A & _ & F & _). injection A as -> -> -> <-. rewrite Forall_forall in F. now apply (F (k, v)). }
  pose proof (value_fits n d t v A P IV) as FIT. split; [exact FIT|].
  destruct (C48_valid n d t v A Hn FIT) as (b & VB & B). apply B in IV. subst b. split; [exact VB|].
  pose proof (C48_types n d t A P) as (SZ & BT & T).
  unfold To_Actual. rewrite VB. cbn [bind].
  destruct S as [id m mn size -> V|id f l size -> V|id lits size k -> I|id lits size k -> I|id lits size -> N V].
  - split; reflexivity.
  - cbn [To_Base type_size is_value] in *. rewrite BT, T. cbn [bind rt_first rt_last mod_modulus].
    destruct (Z.leb_spec 0 v); [|lia]. destruct (Z.ltb_spec v (2 ^ size)); [|lia].
    destruct (Z.leb_spec f v); [|lia]. destruct (Z.leb_spec v l); [|lia]. split; reflexivity.
  - assert (U : NoDup (map (fun kv => id_hash (fst kv)) lits) /\ NoDup (map snd lits)).
    { unfold accepted in A. destruct d as [| |id' lits' s' av]; cbn [declared] in A.
      - apply C20_modular in A as (_ & ? & _ & _ & A). discriminate.
      - apply C20_range in A as (_ & ? & ? & ? & _ & _ & _ & A & _). discriminate.
      - apply C20_enumeration in A as (_ & N1 & N2 & _ & s2 & _ & A & _). injection A as -> -> -> <-. auto. }
    cbn [To_Base]. split; [now apply literal_base_spec|]. unfold case_of, actual_cases. cbn [c_alternatives].
    found (find_value (fun kv => Ok (ALiteral (fst kv))) lits k v (proj2 U) I). reflexivity.
  - assert (U : NoDup (map (fun kv => id_hash (fst kv)) lits) /\ NoDup (map snd lits)).
    { unfold accepted in A. destruct d as [| |id' lits' s' av]; cbn [declared] in A.
      - apply C20_modular in A as (_ & ? & _ & _ & A). discriminate.
      - apply C20_range in A as (_ & ? & ? & ? & _ & _ & _ & A & _). discriminate.
      - apply C20_enumeration in A as (_ & N1 & N2 & _ & s2 & _ & A & _). injection A as -> -> -> <-. auto. }
    cbn [To_Base]. split; [now apply literal_base_spec|]. unfold case_of, actual_cases. cbn [c_alternatives].
    found (find_value (fun kv => Ok (AKnown (fst kv))) lits k v (proj2 U) I). reflexivity.
  - cbn [To_Base]. split; [reflexivity|]. unfold case_of, actual_cases. cbn [c_alternatives c_others].
    found (find_no_value (fun kv => Ok (AKnown (fst kv))) lits v N). reflexivity.
Qed.

(** Every valid number is converted to a value that stands for it; every number that is
    not valid is refused by the precondition. *)
Theorem C48_to_actual : forall n d t v, accepted n d t -> plain d -> (10 <= n)%nat -> 0 <= v < 2 ^ type_size t ->
  (is_value t v -> exists a, stands_for t v a /\ To_Actual n d t v = Ok a) /\
  (~ is_value t v -> To_Actual n d t v = Err "precondition").
Proof.
  intros n d t v A P Hn FIT. split.
  - intros V. assert (S : exists a, stands_for t v a).
    { destruct t as [id m mn size|id f l size|id lits size av].
      - exists (AInt v). now eapply for_modular.
      - exists (AInt v). now eapply for_range.
      - destruct (in_dec Z.eq_dec v (map snd lits)) as [I|I].
        + apply in_map_iff in I as ((k & w) & E & I). cbn in E. subst w. destruct av.
          * exists (AKnown k). now eapply for_known.
          * exists (ALiteral k). now eapply for_literal.
        + destruct av; [|contradiction]. exists (ARaw v). now eapply for_raw. }
    destruct S as (a & S). exists a. split; [exact S|]. now apply (C48_to_base n d t v a A P Hn S).
  - intros V. destruct (C48_valid n d t v A Hn FIT) as (b & VB & B). destruct b; [exfalso; tauto|].
    unfold To_Actual. rewrite VB. reflexivity.
Qed.

(** The case expressions are legal Ada: no choice appears twice, all choices belong to the
    base type, and every number of the base type is covered. *)
Definition legal_case {A} (c : cases A) (m : Z) : Prop :=
  NoDup (map fst (c_alternatives c)) /\ (forall v, In v (map fst (c_alternatives c)) -> 0 <= v < m) /\
  (c_others c = None -> forall v, 0 <= v < m -> In v (map fst (c_alternatives c))).
Theorem C48_cases : forall n d id lits size av v, accepted n d (Enum id lits size av) ->
  legal_case (validation_cases lits size) (2 ^ size) /\ legal_case (actual_cases lits size av v) (2 ^ size).
Proof.
  intros n d id lits size av v A. unfold accepted in A. destruct d as [| |id' lits' s' av']; cbn [declared] in A.
  - apply C20_modular in A as (_ & ? & _ & _ & A). discriminate.
  - apply C20_range in A as (_ & ? & ? & ? & _ & _ & _ & A & _). discriminate.
  - apply C20_enumeration in A as (_ & N1 & N2 & _ & s2 & _ & A & _ & F & _). injection A as -> -> -> ->.
    assert (G : forall B (h : ident * Z -> B) o, (o = None -> is_incomplete lits' s2 = false) ->
      legal_case (mkCases (map (fun kv => (snd kv, h kv)) lits') o) (2 ^ s2)).
    { intros B h o O. unfold legal_case. cbn [c_alternatives c_others]. rewrite map_map. cbn [fst].
      assert (R : forall w, In w (map snd lits') -> 0 <= w < 2 ^ s2).
      { intros w J. apply in_map_iff in J as (kv & <- & J). rewrite Forall_forall in F. now apply F. }
      split; [exact N2|]. split; [exact R|]. intros O2 w W. apply (all_covered _ (2 ^ s2) N2 R); [|exact W].
      apply O in O2. unfold is_incomplete in O2. apply Z.ltb_ge in O2. rewrite map_length. exact O2. }
    split; [unfold validation_cases|unfold actual_cases; destruct av'].
    + apply (G bool (fun _ => true)). destruct (is_incomplete lits' s2); [discriminate|reflexivity].
    + apply (G (res aval) (fun kv => Ok (AKnown (fst kv)))). discriminate.
    + apply (G (res aval) (fun kv => Ok (ALiteral (fst kv)))). destruct (is_incomplete lits' s2); [discriminate|reflexivity].
Qed.

(** ** Cases *)

Definition colors : list (ident * Z) := [(["Red"], 2); (["Green"], 1)].
Definition color (av : bool) : declaration := DEnum ["P"; "Color"] colors (ENum 2) av.
Definition small : declaration := DRange ["P"; "Small"] (EBin OSub (ENum 3) (ENum 1)) (ENum 12) (EBin OPow (ENum 2) (ENum 2)).
Example C48_case :
  accepted 20 (color true) (Enum ["P"; "Color"] colors 2 true) /\ plain (color true) /\
  accepted 20 (color false) (Enum ["P"; "Color"] colors 2 false) /\ plain (color false) /\
  accepted 20 small (Range ["P"; "Small"] 2 12 4) /\ plain small /\
  et_literals (actual_enum (Enum ["P"; "Color"] colors 2 true)) = [(["Green"], 1); (["Red"], 2)] /\
  To_Actual 20 (color true) (Enum ["P"; "Color"] colors 2 true) 2 = Ok (AKnown ["Red"]) /\
  To_Actual 20 (color true) (Enum ["P"; "Color"] colors 2 true) 3 = Ok (ARaw 3) /\
  To_Actual 20 (color false) (Enum ["P"; "Color"] colors 2 false) 3 = Err "precondition" /\
  To_Actual 20 small (Range ["P"; "Small"] 2 12 4) 12 = Ok (AInt 12) /\
  Valid 20 (Range ["P"; "Small"] 2 12 4) 13 = Ok false.
Proof.
  repeat match goal with |- _ /\ _ => split end;
    try (vm_compute; reflexivity); try (split; [|exact I || discriminate]); intros e M; cbn in M;
    repeat match goal with H : _ \/ _ |- _ => destruct H | H : False |- _ => destruct H end; subst e;
    (split; [reflexivity|split; [reflexivity|eexists; vm_compute; reflexivity]]).
Qed.

(** ** What does not hold *)

(** A record for an unlisted value of an always valid enumeration may have the number of a
    literal: converted to a number and back it is another value. *)
Theorem C48_raw_refuted : exists d t z a, accepted 20 d t /\ plain d /\ base_type d = Ok (mkMod 4) /\ 0 <= z < 4 /\
  To_Base d t (ARaw z) = Ok z /\ To_Actual 20 d t z = Ok a /\ a <> ARaw z.
Proof.
  exists (color true), (Enum ["P"; "Color"] colors 2 true), 2, (AKnown ["Red"]).
  split; [vm_compute; reflexivity|]. split; [|split; [vm_compute; reflexivity|split; [lia|split; [reflexivity|split; [vm_compute; reflexivity|discriminate]]]]].
  split; [|discriminate]. intros e [<-|[]]. split; [reflexivity|split; [reflexivity|eexists; vm_compute; reflexivity]].
Qed.

(** The bounds of the generated type are the expressions of the specification, while Valid
    is made from what the tool takes for their values.  Because of the error in the
    simplification (C13) they may differ: with "9 + (7 / 2) ** 2 + ((-7) / 2) ** 2", which
    is 27, the tool takes the last value for 9. *)
Definition wrong_last : expr :=
  EAss OAdd [ENum 9; EBin OPow (EBin ODiv (ENum 7) (ENum 2)) (ENum 2); EBin OPow (EBin ODiv (ENum (-7)) (ENum 2)) (ENum 2)].
Theorem C48_static_refuted : exists d t r v, accepted 50 d t /\ actual_range d = Ok r /\ rt_first r <= v <= rt_last r /\
  To_Base d t (AInt v) = Ok v /\ Valid 50 t v = Ok false.
Proof.
  exists (DRange ["P"; "T"] (ENum 0) wrong_last (ENum 8)), (Range ["P"; "T"] 0 9 8), (mkRange 0 27), 20.
  repeat split; vm_compute; try reflexivity; discriminate.
Qed.

Print Assumptions C48_types.
Print Assumptions C48_valid.
Print Assumptions C48_to_base.
Print Assumptions C48_to_actual.
Print Assumptions C48_cases.
