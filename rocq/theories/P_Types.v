(** Properties C20 (accepted scalar types fit their size) and C21 (constraints). *)
From Coq Require Import String Ascii List ZArith Bool Lia.
From Verif Require Import Base Expr ExprEval ExprFacts ExprTotal ExprMono Ident TypeSpec.
From Verif Require P_IdentErrors.
Import ListNotations.
Local Open Scope string_scope.
Local Open Scope list_scope.
Local Open Scope Z_scope.

(** ** Arithmetic *)

Lemma bit_length_le v s : 0 <= v -> (bit_length v <= s <-> v < 2 ^ s).
Proof.
  intros Hv. unfold bit_length. destruct (Z.eqb_spec v 0) as [->|N].
  - split; intros H; [now apply Z.pow_pos_nonneg|].
    destruct (Z.leb_spec 0 s); [assumption|]. rewrite Z.pow_neg_r in H; lia.
  - rewrite Z.abs_eq by lia. assert (P : 0 < v) by lia. pose proof (Z.log2_nonneg v).
    split; intros H1.
    + destruct (Z.log2_spec v P) as [_ U]. eapply Z.lt_le_trans; [exact U|].
      apply Z.pow_le_mono_r; lia.
    + destruct (Z.leb_spec 0 s) as [S|S]; [|rewrite Z.pow_neg_r in H1; lia].
      apply Z.log2_lt_pow2 in H1; lia.
Qed.

Lemma bit_length_pred_pow2 k : 0 <= k -> bit_length (2 ^ k - 1) = k.
Proof.
  intros H. unfold bit_length. destruct (Z.eqb_spec (2 ^ k - 1) 0) as [E|N].
  - destruct (Z.eqb_spec k 0) as [->|Nk]; [reflexivity|].
    assert (2 ^ 1 <= 2 ^ k) by (apply Z.pow_le_mono_r; lia). lia.
  - assert (0 < k).
    { destruct (Z.eqb_spec k 0) as [->|]; [exfalso; apply N; reflexivity|lia]. }
    rewrite Z.abs_eq by (assert (0 < 2 ^ k) by (apply Z.pow_pos_nonneg; lia); lia).
    replace (2 ^ k - 1) with (Z.pred (2 ^ k)) by lia. rewrite Z.log2_pred_pow2 by lia. lia.
Qed.

Lemma power_of_two m : (m =? 0) || negb (Z.land m (m - 1) =? 0) = false <->
  exists k, 0 <= k /\ m = 2 ^ k.
Proof.
  rewrite orb_false_iff, negb_false_iff, Z.eqb_neq, Z.eqb_eq. split.
  - intros [N L]. assert (P : 0 < m).
    { destruct (Z.ltb_spec 0 m); [assumption|]. exfalso.
      assert (Z.land m (m - 1) < 0) by (apply Z.land_neg; lia). lia. }
    exists (Z.log2 m). split; [apply Z.log2_nonneg|].
    destruct (Z.log2_spec m P) as [Lo Hi]. destruct (Z.eqb_spec m (2 ^ Z.log2 m)) as [E|E]; [exact E|].
    exfalso. set (k := Z.log2 m) in *.
    assert (K : 0 <= k) by apply Z.log2_nonneg.
    assert (B : Z.testbit (Z.land m (m - 1)) k = true).
    { rewrite Z.land_spec. apply andb_true_iff. split.
      - apply Z.bit_log2. exact P.
      - replace k with (Z.log2 (m - 1)); [apply Z.bit_log2; assert (0 < 2 ^ k) by (apply Z.pow_pos_nonneg; lia); lia|].
        apply Z.log2_unique; [exact K|]. rewrite Z.pow_succ_r in * by exact K. lia. }
    rewrite L in B. now rewrite Z.bits_0 in B.
  - intros (k & K & ->). assert (P : 0 < 2 ^ k) by (apply Z.pow_pos_nonneg; lia). split; [lia|].
    replace (2 ^ k - 1) with (Z.ones k) by (rewrite Z.ones_equiv; lia).
    rewrite Z.land_ones by exact K. apply Z.mod_same. lia.
Qed.

Lemma app_nil_iff {A} (a b : list A) : a ++ b = [] <-> a = [] /\ b = [].
Proof. split; [apply app_eq_nil|intros [-> ->]; reflexivity]. Qed.
Lemma when_nil b m : when b m = [] <-> b = false.
Proof. destruct b; split; (reflexivity || discriminate). Qed.
Lemma type_errors_nil id : type_errors id = [] <-> List.length id = 2%nat.
Proof.
  unfold type_errors. destruct (Nat.eqb_spec (List.length id) 2); split; (congruence || discriminate).
Qed.

(** ** C20 *)

(** a modular integer is accepted exactly if its modulus is a power of two up to
    2^64; its size is the exponent, its range 0 .. 2^size - 1 *)
Theorem C20_modular : forall n id modulus t,
  ModularInteger n id modulus = Ok ([], Some t) <->
  List.length id = 2%nat /\
  exists k, 0 <= k <= 64 /\ simplify expr_eqb n modulus = Ok (ENum (2 ^ k)) /\
    t = Modular id modulus (2 ^ k) k.
Proof.
  intros n id modulus t. unfold ModularInteger, simp. split.
  - destruct (simplify expr_eqb n modulus) as [e|] eqn:E; cbn [bind]; [|discriminate].
    intros H.
    destruct e; try discriminate H. apply Ok_inj in H.
    assert (H1 := f_equal fst H). assert (H2 := f_equal snd H). cbn [fst snd] in H1, H2.
    assert (H3 : Modular id modulus v (bit_length (v - 1)) = t)
      by exact (f_equal (fun o => match o with Some x => x | None => t end) H2).
    apply app_nil_iff in H1 as [I H1]. apply app_nil_iff in H1 as [A B].
    apply type_errors_nil in I. apply when_nil in A, B. apply power_of_two in B as (k & K & ->).
    apply Z.ltb_ge in A. split; [exact I|]. exists k. split.
    + split; [exact K|]. apply Z.pow_le_mono_r_iff in A; lia.
    + split; [reflexivity|]. rewrite bit_length_pred_pow2 in H3 by exact K. congruence.
  - intros (I & k & [K1 K2] & E & ->). rewrite E. cbn [bind].
    rewrite bit_length_pred_pow2 by exact K1.
    assert (A : 2 ^ 64 <? 2 ^ k = false) by (apply Z.ltb_ge; apply Z.pow_le_mono_r; lia).
    assert (B : (2 ^ k =? 0) || negb (Z.land (2 ^ k) (2 ^ k - 1) =? 0) = false)
      by (apply power_of_two; eauto).
    rewrite A, B. apply type_errors_nil in I. rewrite I. reflexivity.
Qed.
Corollary C20_modular_range : forall n id modulus t, ModularInteger n id modulus = Ok ([], Some t) ->
  type_first t = 0 /\ type_last t = 2 ^ type_size t - 1 /\ 0 <= type_size t <= 64.
Proof.
  intros n id modulus t H. apply C20_modular in H as (_ & k & K & _ & ->). cbn. lia.
Qed.
Example C20_modular_case : exists t, ModularInteger 10 ["P"; "T"] (EBin OPow (ENum 2) (ENum 16)) = Ok ([], Some t) /\
  type_size t = 16.
Proof. eexists. split; vm_compute; reflexivity. Qed.
Example C20_modular_rejected : forall t,
  ModularInteger 10 ["P"; "T"] (ENum 255) <> Ok ([], Some t) /\
  ModularInteger 10 ["P"; "T"] (ENum 0) <> Ok ([], Some t) /\
  ModularInteger 10 ["P"; "T"] (ENum (-4)) <> Ok ([], Some t) /\
  ModularInteger 10 ["P"; "T"] (ENum (2 ^ 65)) <> Ok ([], Some t).
Proof. intros t. repeat split; vm_compute; discriminate. Qed.

(** a range integer is accepted exactly if 0 <= first <= last < 2^63 and last fits
    into the size, which is at most 64 *)
Theorem C20_range : forall n id fe le se t,
  RangeInteger n id fe le se = Ok ([], Some t) <->
  List.length id = 2%nat /\
  exists f l s, simplify expr_eqb n fe = Ok (ENum f) /\ simplify expr_eqb n le = Ok (ENum l) /\
    simplify expr_eqb n se = Ok (ENum s) /\ t = Range id f l s /\
    0 <= f /\ f <= l /\ l < 2 ^ 63 /\ l < 2 ^ s /\ s <= 64.
Proof.
  intros n id fe le se t. unfold RangeInteger, simp. split.
  - destruct (simplify expr_eqb n fe) as [fe'|] eqn:E1; cbn [bind]; [|discriminate].
    destruct (simplify expr_eqb n le) as [le'|] eqn:E2; cbn [bind]; [|discriminate].
    destruct (simplify expr_eqb n se) as [se'|] eqn:E3; cbn [bind]; [|discriminate].
    destruct le'; intros H; try (apply Ok_inj in H; discriminate H).
    destruct ((type_errors id ++ when (negb (is_num fe')) "first contains variable") ++
              when (2 ^ 63 <=? v) "last exceeds limit" ++
              when (negb (is_num se')) "size contains variable") eqn:E4;
      [|apply Ok_inj in H; discriminate H].
    apply app_nil_iff in E4 as [E4 E5]. apply app_nil_iff in E4 as [I E4].
    apply app_nil_iff in E5 as [E5 E6]. apply type_errors_nil in I.
    apply when_nil in E4, E5, E6. apply Z.leb_gt in E5.
    destruct fe'; try discriminate E4. destruct se'; try discriminate E6.
    apply Ok_inj in H. assert (H1 := f_equal fst H). assert (H2 := f_equal snd H).
    cbn [fst snd] in H1, H2. injection H2 as <-.
    apply app_nil_iff in H1 as [A H1]. apply app_nil_iff in H1 as [B H1].
    apply app_nil_iff in H1 as [C D]. apply when_nil in A, B, C, D.
    apply Z.ltb_ge in A, B, C, D. split; [exact I|]. exists v0, v, v1.
    repeat split; try assumption. apply bit_length_le; lia.
  - intros (I & f & l & s & E1 & E2 & E3 & -> & A & B & C & D & F).
    rewrite E1, E2, E3. cbn [bind is_num negb when].
    apply type_errors_nil in I. rewrite I.
    assert (X1 : 2 ^ 63 <=? l = false) by (apply Z.leb_gt; exact C). rewrite X1. cbn [when app].
    assert (X2 : f <? 0 = false) by (apply Z.ltb_ge; exact A).
    assert (X3 : l <? f = false) by (apply Z.ltb_ge; exact B).
    assert (X4 : s <? bit_length l = false) by (apply Z.ltb_ge; apply bit_length_le; lia).
    assert (X5 : 64 <? s = false) by (apply Z.ltb_ge; exact F).
    rewrite X2, X3, X4, X5. reflexivity.
Qed.
Corollary C20_range_fits : forall n id fe le se t v, RangeInteger n id fe le se = Ok ([], Some t) ->
  type_first t <= v <= type_last t -> 0 <= v < 2 ^ type_size t /\ 0 <= type_size t <= 64.
Proof.
  intros n id fe le se t v H R. apply C20_range in H as (_ & f & l & s & _ & _ & _ & -> & H).
  cbn in *. destruct (Z.leb_spec 0 s); [lia|]. rewrite Z.pow_neg_r in H; lia.
Qed.
Example C20_range_case : RangeInteger 10 ["P"; "T"] (ENum 46) (EBin OSub (EBin OPow (ENum 2) (ENum 16)) (ENum 1)) (ENum 16)
  = Ok ([], Some (Range ["P"; "T"] 46 65535 16)).
Proof. vm_compute. reflexivity. Qed.
Example C20_range_rejected : forall t,
  RangeInteger 10 ["P"; "T"] (ENum 0) (ENum 256) (ENum 8) <> Ok ([], Some t) /\
  RangeInteger 10 ["P"; "T"] (ENum 2) (ENum 1) (ENum 8) <> Ok ([], Some t) /\
  RangeInteger 10 ["P"; "T"] (EVar "x") (ENum 1) (ENum 8) <> Ok ([], Some t).
Proof. intros t. repeat split; vm_compute; discriminate. Qed.

(** enumerations *)
Lemma flat_map_nil {A B} (f : A -> list B) l : flat_map f l = [] <-> Forall (fun x => f x = []) l.
Proof.
  induction l as [|x l IH]; cbn; [split; auto|]. rewrite app_nil_iff, IH. split.
  - intros [H K]. now constructor.
  - intros H. inversion H; auto.
Qed.

Lemma id_eq_false a b : id_eq a b = false <-> id_hash a <> id_hash b.
Proof.
  rewrite <- P_IdentErrors.id_eq_hash. destruct (id_eq a b); split; congruence.
Qed.

Definition keys (l : list (ident * Z)) : list (list string) := map (fun kv => id_hash (fst kv)) l.

Lemma dup_names_nil l : forall seen, NoDup (keys seen) ->
  (dup_names seen l = [] <-> NoDup (keys (rev seen ++ l))).
Proof.
  induction l as [|[k v] l IH]; intros seen HS.
  - cbn. rewrite app_nil_r. split; [|reflexivity]. intros _. unfold keys in *.
    rewrite map_rev. now apply NoDup_rev.
  - cbn [dup_names]. rewrite app_nil_iff, flat_map_nil. cbn [fst].
    assert (A : Forall (fun e2 => when (id_eq k (fst e2)) "duplicate literal" = []) (rev seen) <->
                ~ In (id_hash k) (keys seen)).
    { rewrite Forall_forall. split.
      - intros H I. apply in_map_iff in I as ([k' v'] & E & I). apply in_rev in I. apply H in I.
        apply when_nil, id_eq_false in I. cbn in *. congruence.
      - intros H e2 I. apply when_nil, id_eq_false. intros E. apply H.
        apply in_map_iff. exists e2. rewrite in_rev. split; auto. }
    rewrite A.
    replace (rev seen ++ (k, v) :: l) with (rev ((k, v) :: seen) ++ l) by (cbn; now rewrite <- app_assoc).
    split.
    + intros [N D]. apply IH; [|exact D]. cbn. now constructor.
    + intros D.
      assert (N : ~ In (id_hash k) (keys seen)).
      { unfold keys in D. rewrite map_app, map_rev in D. cbn [map rev] in D.
        rewrite <- app_assoc in D. cbn in D. apply NoDup_remove_2 in D.
        intros I. apply D. apply in_or_app. left. now apply in_rev in I. }
      split; [exact N|]. apply IH; [|exact D]. cbn. now constructor.
Qed.

Lemma dict_set_new d k v : ~ In (id_hash k) (keys d) -> dict_set d k v = d ++ [(k, v)].
Proof.
  induction d as [|[k' v'] d IH]; cbn; [reflexivity|]. intros H.
  destruct (id_eq k k') eqn:E.
  - apply P_IdentErrors.id_eq_hash in E. exfalso. apply H. left. symmetry; exact E.
  - rewrite IH; [reflexivity|]. intros I. apply H. now right.
Qed.

Lemma build_literals_id l : NoDup (keys l) -> Forall (fun kv => bad_literal (fst kv) = false) l ->
  build_literals l = l.
Proof.
  intros D B. unfold build_literals.
  assert (G : forall l d, NoDup (keys (d ++ l)) -> Forall (fun kv => bad_literal (fst kv) = false) l ->
    fold_left (fun d kv => if bad_literal (fst kv) then d else dict_set d (fst kv) (snd kv)) l d = d ++ l).
  { clear. induction l as [|[k v] l IH]; intros d D B; cbn [fold_left]; [now rewrite app_nil_r|].
    inversion B as [|? ? Bk Bl]; subst. cbn [fst snd] in *. rewrite Bk.
    rewrite dict_set_new.
    - rewrite IH; [now rewrite <- app_assoc| |exact Bl]. now rewrite <- app_assoc.
    - unfold keys in *. rewrite map_app in D. cbn in D. apply NoDup_remove_2 in D.
      intros I. apply D, in_or_app. now left. }
  rewrite G; auto.
Qed.

Lemma minimum_spec l : forall x, minimum x l <= x /\ Forall (fun y => minimum x l <= y) l /\ In (minimum x l) (x :: l).
Proof.
  unfold minimum. induction l as [|y l IH]; intros x; cbn [fold_left].
  - repeat split; [lia|constructor|now left].
  - destruct (IH (Z.min x y)) as (A & B & C). repeat split; [lia| |].
    + constructor; [lia|exact B].
    + cbn in C. destruct C as [C|C]; [|right; now right].
      destruct (Z.min_spec x y) as [[_ E]|[_ E]]; rewrite E in C at 1; [now left|right; now left].
Qed.
Lemma maximum_spec l : forall x, x <= maximum x l /\ Forall (fun y => y <= maximum x l) l /\ In (maximum x l) (x :: l).
Proof.
  unfold maximum. induction l as [|y l IH]; intros x; cbn [fold_left].
  - repeat split; [lia|constructor|now left].
  - destruct (IH (Z.max x y)) as (A & B & C). repeat split; [lia| |].
    + constructor; [lia|exact B].
    + cbn in C. destruct C as [C|C]; [|right; now right].
      destruct (Z.max_spec x y) as [[_ E]|[_ E]]; rewrite E in C at 1; [right; now left|now left].
Qed.

Lemma dup_values_nil l : dup_values l = [] <-> NoDup l.
Proof.
  induction l as [|x l IH]; cbn; [split; [constructor|reflexivity]|].
  rewrite app_nil_iff, flat_map_nil, IH, Forall_forall. split.
  - intros [H D]. constructor; [|exact D]. intros I. apply H in I. apply when_nil in I.
    now rewrite Z.eqb_refl in I.
  - intros D. inversion D as [|? ? N D']; subst. split; [|exact D'].
    intros y I. apply when_nil, Z.eqb_neq. intros ->. contradiction.
Qed.

(** an enumeration is accepted exactly if names and values are pairwise distinct,
    the values fit into the size, the size is at most 64 and the always-valid
    aspect is not superfluous; the literals are kept as declared *)
Theorem C20_enumeration : forall n id lits se av t,
  Enumeration n id lits se av = Ok ([], Some t) <->
  List.length id = 2%nat /\
  NoDup (map (fun kv => id_hash (fst kv)) lits) /\ NoDup (map snd lits) /\
  Forall (fun kv => has_char " " (id_str (fst kv)) = false /\ has_char "." (id_str (fst kv)) = false) lits /\
  exists s, simplify expr_eqb n se = Ok (ENum s) /\ t = Enum id lits s av /\ s <= 64 /\
    Forall (fun kv => 0 <= snd kv < 2 ^ s /\ snd kv < 2 ^ 63) lits /\
    ~ (av = true /\ 0 <= s /\ Z.of_nat (List.length lits) = 2 ^ s).
Proof.
  intros n id lits se av t. unfold Enumeration, simp.
  assert (Bad : flat_map (fun kv => when (bad_literal (fst kv)) "invalid literal name") lits = [] <->
    Forall (fun kv => bad_literal (fst kv) = false) lits).
  { rewrite flat_map_nil, !Forall_forall. split; intros H x I; apply H in I; revert I; now rewrite when_nil. }
  assert (Bad' : Forall (fun kv => bad_literal (fst kv) = false) lits <->
    Forall (fun kv => has_char " " (id_str (fst kv)) = false /\ has_char "." (id_str (fst kv)) = false) lits).
  { rewrite !Forall_forall. split; intros H x I; apply H in I; now apply orb_false_iff. }
  assert (Dup := dup_names_nil lits [] (NoDup_nil _)). cbn [rev app] in Dup.
  assert (Vals : forall s,
    match map snd lits with
    | [] => []
    | x :: l =>
      when ((minimum x l <? 0) || (2 ^ 63 - 1 <? maximum x l)) "value outside of permitted range"
      ++ when (s <? bit_length (maximum x l)) "size too small"
    end = [] <-> Forall (fun kv => 0 <= snd kv < 2 ^ s /\ snd kv < 2 ^ 63) lits).
  { intros s. rewrite <- (Forall_map snd (fun v => 0 <= v < 2 ^ s /\ v < 2 ^ 63)).
    destruct (map snd lits) as [|x l]; [split; [constructor|reflexivity]|].
    destruct (minimum_spec l x) as (M1 & M2 & M3). destruct (maximum_spec l x) as (X1 & X2 & X3).
    rewrite app_nil_iff, !when_nil, orb_false_iff, !Z.ltb_ge. split.
    - intros [[A B] C]. apply bit_length_le in C; [|lia].
      assert (K : forall y, minimum x l <= y -> y <= maximum x l -> 0 <= y < 2 ^ s /\ y < 2 ^ 63) by (intros; lia).
      constructor; [apply K; assumption|].
      rewrite Forall_forall in *. intros y I. apply K; auto.
    - intros F. rewrite Forall_forall in F. pose proof (F _ M3) as Fm. pose proof (F _ X3) as Fx.
      assert (bit_length (maximum x l) <= s) by (apply bit_length_le; lia). lia. }
  split.
  - destruct (simplify expr_eqb n se) as [e|] eqn:E; cbn [bind]; [|discriminate].
    intros H. destruct e; try (apply Ok_inj in H; discriminate H).
    apply Ok_inj in H. assert (H1 := f_equal fst H). assert (H2 := f_equal snd H). cbn [fst snd] in H1, H2.
    apply app_nil_iff in H1 as [H1 H3]. apply app_nil_iff in H1 as [I H1].
    apply app_nil_iff in H1 as [D B]. apply Dup in D. apply Bad in B.
    rewrite build_literals_id in * by assumption.
    apply app_nil_iff in H3 as [V H3]. apply app_nil_iff in H3 as [S H3].
    apply app_nil_iff in H3 as [DV AV]. apply Vals in V. apply when_nil in S, AV. apply Z.ltb_ge in S.
    apply dup_values_nil in DV. apply type_errors_nil in I. apply Bad' in B.
    injection H2 as <-. repeat (split; [assumption|]). exists v. repeat (split; [reflexivity || assumption|]).
    intros (-> & P & Q). apply Z.leb_le in P. apply Z.eqb_eq in Q. rewrite P, Q in AV. discriminate.
  - intros (I & D & DV & B & s & E & -> & S & V & AV). rewrite E. cbn [bind].
    apply Bad' in B. rewrite build_literals_id by assumption.
    apply type_errors_nil in I. apply Dup in D. apply Bad in B. rewrite I, D, B.
    apply Vals in V. rewrite V. apply dup_values_nil in DV. rewrite DV.
    assert (X1 : 64 <? s = false) by (apply Z.ltb_ge; exact S). rewrite X1.
    assert (X2 : av && (0 <=? s) && (Z.of_nat (List.length lits) =? 2 ^ s) = false).
    { destruct av; [|reflexivity]. destruct (Z.leb_spec 0 s); [|reflexivity].
      destruct (Z.eqb_spec (Z.of_nat (List.length lits)) (2 ^ s)); [|reflexivity]. exfalso. apply AV. auto. }
    rewrite X2. reflexivity.
Qed.
Example C20_enumeration_case :
  Enumeration 10 ["P"; "T"] [(["A"], 1); (["B"], 7)] (ENum 8) true
  = Ok ([], Some (Enum ["P"; "T"] [(["A"], 1); (["B"], 7)] 8 true)).
Proof. vm_compute. reflexivity. Qed.
Example C20_enumeration_rejected : forall t,
  Enumeration 10 ["P"; "T"] [(["A"], 1); (["a"], 2)] (ENum 8) false <> Ok ([], Some t) /\
  Enumeration 10 ["P"; "T"] [(["A"], 1); (["B"], 1)] (ENum 8) false <> Ok ([], Some t) /\
  Enumeration 10 ["P"; "T"] [(["A"], 0); (["B"], 1)] (ENum 1) true <> Ok ([], Some t) /\
  Enumeration 10 ["P"; "T"] [(["A"], 256)] (ENum 8) false <> Ok ([], Some t).
Proof. intros t. repeat split; vm_compute; discriminate. Qed.

(** a size of zero bits is accepted, and an enumeration without literals even with
    a negative size *)
Theorem C20_zero_size_refuted : exists t u, ModularInteger 10 ["P"; "T"] (ENum 1) = Ok ([], Some t) /\
  RangeInteger 10 ["P"; "T"] (ENum 0) (ENum 0) (ENum 0) = Ok ([], Some u) /\
  type_size t = 0 /\ type_size u = 0.
Proof. do 2 eexists. repeat split; vm_compute; reflexivity. Qed.
Theorem C20_negative_size_refuted : exists t, Enumeration 10 ["P"; "T"] [] (ENum (-1)) false = Ok ([], Some t) /\
  type_size t < 0.
Proof. eexists. split; vm_compute; reflexivity. Qed.

Print Assumptions C20_modular.
Print Assumptions C20_modular_range.
Print Assumptions C20_range.
Print Assumptions C20_range_fits.
Print Assumptions C20_enumeration.
Print Assumptions C20_zero_size_refuted.
Print Assumptions C20_negative_size_refuted.

(** ** C21 *)

Definition holds (g : env) (cs : list expr) : Prop := forall c, In c cs -> eval g c = Some (VBool true).

Lemma holds_cons g c cs : holds g (c :: cs) <-> eval g c = Some (VBool true) /\ holds g cs.
Proof.
  unfold holds. split.
  - intros H. split; [apply H; now left|intros d I; apply H; now right].
  - intros [H K] d [<-|I]; auto.
Qed.
Lemma holds_nil g : holds g [].
Proof. intros c []. Qed.
Lemma holds_app g a b : holds g (a ++ b) <-> holds g a /\ holds g b.
Proof.
  unfold holds. split.
  - intros H. split; intros c I; apply H, in_or_app; auto.
  - intros [H K] c I. apply in_app_or in I as [I|I]; auto.
Qed.

Lemma some_true (b : bool) : Some (VBool b) = Some (VBool true) <-> b = true.
Proof. split; [congruence|intros ->; reflexivity]. Qed.

(** the constraints used in proofs, for the sizes the environment gives *)
Theorem C21_modular_proof : forall n id modulus t x g v cs same,
  ModularInteger n id modulus = Ok ([], Some t) -> ok modulus = true -> eval g modulus <> None ->
  g (NVar x) = VInt v -> g (NAttr ASize x) = VInt (type_size t) ->
  constraints n t x true same = Ok cs -> (holds g cs <-> 0 <= v < 2 ^ type_size t).
Proof.
  intros n id modulus t x g v cs same H OKm EM Gx Gs C. apply C20_modular in H as (_ & k & K & E & ->).
  cbn [constraints type_size] in *. apply Ok_inj in C. subst cs.
  destruct (eval g modulus) as [w|] eqn:V; [|congruence].
  destruct (simplify_good expr_eqb expr_eqb_sound n _ _ E) as (R & _).
  destruct (R OKm) as [_ R1]. specialize (R1 g w V). rename R1 into R2. clear R. rename R2 into R. cbn [eval] in R. injection R as <-.
  rewrite !holds_cons. cbn [eval EVar]. rewrite Gx, Gs. unfold name_val. rewrite V. cbn [rel_val].
  rewrite !some_true, Z.ltb_lt, Z.leb_le, Z.eqb_eq. pose proof (holds_nil g). tauto.
Qed.
Theorem C21_range_proof : forall n id fe le se t x g v cs same,
  RangeInteger n id fe le se = Ok ([], Some t) ->
  g (NVar x) = VInt v -> g (NAttr ASize x) = VInt (type_size t) ->
  constraints n t x true same = Ok cs -> (holds g cs <-> type_first t <= v <= type_last t).
Proof.
  intros n id fe le se t x g v cs same H Gx Gs C. apply C20_range in H as (_ & f & l & s & _ & _ & _ & -> & _).
  cbn [constraints type_size type_first type_last] in *. apply Ok_inj in C. subst cs.
  rewrite !holds_cons. cbn [eval EVar]. rewrite Gx, Gs. unfold name_val. cbn [rel_val].
  rewrite !some_true, !Z.leb_le, Z.eqb_eq. pose proof (holds_nil g). tauto.
Qed.
(** the constraints used in generated code: exact for numbers of the type's size *)
Lemma base_last_value n s : (3 <= n)%nat -> 0 <= s ->
  simplify expr_eqb n (EBin OSub (EBin OPow (ENum 2) (ENum s)) (ENum 1)) = Ok (ENum (2 ^ s - 1)).
Proof.
  intros Hn Hs. apply (simplify_mono expr_eqb 3 n Hn). cbn [simplify bind].
  unfold bin_num at 1. destruct (Z.ltb_spec s 0); [lia|]. reflexivity.
Qed.
Theorem C21_range_code : forall n id fe le se t x g v cs same,
  RangeInteger n id fe le se = Ok ([], Some t) -> (3 <= n)%nat ->
  g (NVar x) = VInt v -> 0 <= v < 2 ^ type_size t ->
  constraints n t x false same = Ok cs -> (holds g cs <-> type_first t <= v <= type_last t).
Proof.
  intros n id fe le se t x g v cs same H Hn Gx Rv C.
  apply C20_range in H as (_ & f & l & s & _ & _ & _ & -> & Hf & Hfl & Hl & Hls & Hs).
  cbn [constraints type_size type_first type_last] in *.
  assert (S : 0 <= s) by (destruct (Z.leb_spec 0 s); [lia|]; rewrite Z.pow_neg_r in Rv; lia).
  destruct (Z.eqb_spec f l) as [->|N].
  - apply Ok_inj in C. subst cs. rewrite holds_cons. cbn [eval EVar]. rewrite Gx. unfold name_val.
    cbn [rel_val]. rewrite some_true, Z.eqb_eq. pose proof (holds_nil g). split; [intros [? _]; lia|intros ?; split; [lia|assumption]].
  - unfold simp in C. rewrite base_last_value in C by assumption. cbn [bind expr_eqb] in C.
    match type of C with bind (simplify _ _ ?e) _ = _ =>
      assert (V : eval g e = Some (VBool ((f <=? v) && (v <=? l))) /\ ok e = true) end.
    { destruct (Z.eqb_spec l (2 ^ s - 1)) as [El|El], (Z.eqb_spec f 0) as [Ef|Ef]; cbn [negb].
      - split; [|reflexivity]. cbn [eval]. do 2 f_equal. symmetry. apply andb_true_iff. lia.
      - split; [|reflexivity]. cbn [eval EVar]. rewrite Gx. unfold name_val. cbn [rel_val].
        destruct (Z.leb_spec f v); destruct (Z.leb_spec v l); cbn [andb]; try reflexivity. lia.
      - split; [|reflexivity]. cbn [eval EVar map]. rewrite Gx. unfold name_val. cbn [rel_val ass_val bools].
        cbn. subst f. destruct (Z.leb_spec 0 v); [|lia]. cbn. now rewrite andb_true_r.
      - split; [|reflexivity]. cbn [eval EVar map]. rewrite Gx. unfold name_val. cbn [rel_val ass_val bools].
        cbn. now rewrite andb_true_r. }
    destruct V as [V OKe].
    match type of C with bind (simplify _ _ ?e) _ = _ =>
      destruct (simplify expr_eqb n e) as [c|] eqn:E; cbn [bind] in C; [|discriminate C] end.
    apply Ok_inj in C. subst cs.
    destruct (simplify_good expr_eqb expr_eqb_sound n _ _ E) as (R & _).
    destruct (R OKe) as [_ R1]. specialize (R1 g _ V). clear R. rename R1 into R. rewrite holds_cons, R, some_true, andb_true_iff, !Z.leb_le.
    pose proof (holds_nil g). tauto.
Qed.
(** these constraints are always produced *)
Theorem C21_range_code_total : forall n id fe le se t x same,
  RangeInteger n id fe le se = Ok ([], Some t) -> (6 <= n)%nat -> exists cs, constraints n t x false same = Ok cs.
Proof.
  intros n id fe le se t x same H Hn.
  apply C20_range in H as (_ & f & l & s & _ & _ & _ & -> & Hf & Hfl & Hl & Hls & Hs).
  cbn [constraints]. destruct (f =? l); [eauto|].
  assert (S : 0 <= s) by (destruct (Z.leb_spec 0 s); [lia|]; rewrite Z.pow_neg_r in Hls; lia).
  unfold simp. rewrite base_last_value by (lia || assumption). cbn [bind expr_eqb].
  match goal with |- exists cs, bind (simplify _ _ ?e) _ = _ =>
    assert (V : exists c, simplify expr_eqb 6 e = Ok c) end.
  { destruct (negb (l =? 2 ^ s - 1)), (negb (f =? 0)); eexists; cbn; reflexivity. }
  destruct V as [c V]. rewrite (simplify_mono expr_eqb 6 n Hn _ _ V). cbn [bind]. eauto.
Qed.

(** enumeration literals in scope of the constraint stand for their numbers *)
Theorem C21_enumeration_proof : forall n id lits se av t x g v cs same,
  Enumeration n id lits se av = Ok ([], Some t) ->
  g (NVar x) = VInt v -> g (NAttr ASize x) = VInt (type_size t) ->
  (forall k z, In (k, z) (literal_names id lits same) -> g (NVar (var k)) = VInt z) ->
  constraints n t x true same = Ok cs -> (holds g cs <-> In v (map snd lits)).
Proof.
  intros n id lits se av t x g v cs same H Gx Gs Gl C.
  apply C20_enumeration in H as (_ & _ & _ & _ & s & _ & -> & _).
  cbn [constraints type_size] in *. apply Ok_inj in C. subst cs.
  set (names := literal_names id lits same) in *.
  assert (Vals : forall z, In z (map snd names) <-> In z (map snd lits)).
  { intros z. subst names. unfold literal_names.
    match goal with |- context [map ?f lits] => match f with snd => fail 1 | _ => set (pre := map f lits) end end.
    assert (P : map snd pre = map snd lits) by (unfold pre; rewrite map_map; reflexivity).
    clearbody pre.
    destruct (id_eq (package id) builtins); [tauto|]. destruct same.
    - rewrite map_app, in_app_iff. change (In z (map snd lits) \/ In z (map snd pre) <-> In z (map snd lits)).
      rewrite P. tauto.
    - change (In z (map snd pre) <-> In z (map snd lits)). rewrite P. tauto. }
  rewrite <- Vals, !holds_app, !holds_cons.
  assert (H2 : holds g (map (fun kv => ERel OEq (EVarI (fst kv)) (ENum (snd kv))) names)).
  { intros c I. apply in_map_iff in I as ([k z] & <- & I). cbn [eval EVarI EVar fst snd].
    rewrite (Gl _ _ I). unfold name_val. cbn [rel_val]. now rewrite Z.eqb_refl. }
  assert (H3 : eval g (ERel OEq (EName (NAttr ASize x) false) (ENum s)) = Some (VBool true)).
  { cbn [eval]. rewrite Gs. unfold name_val. cbn [rel_val]. now rewrite Z.eqb_refl. }
  assert (H1 : eval g (EAss OOr (map (fun kv => ERel OEq (EVar x) (EVarI (fst kv))) names)) =
               Some (VBool (existsb (fun z => v =? z) (map snd names)))).
  { cbn [eval]. rewrite map_map.
    assert (B : bools (map (fun kv => eval g (ERel OEq (EVar x) (EVarI (fst kv)))) names) =
                Some (map (fun kv => v =? snd kv) names)).
    { clear Vals H2. clearbody names. induction names as [|[k z] names IH]; [reflexivity|].
      cbn [map bools].
      assert (Ek : eval g (ERel OEq (EVar x) (EVarI (fst (k, z)))) = Some (VBool (v =? z))).
      { unfold EVarI. cbn [eval EVar fst]. rewrite Gx, (Gl k z) by now left. reflexivity. }
      rewrite Ek, IH; [reflexivity|]. intros k' z' I. apply Gl. now right. }
    cbn [ass_val]. rewrite B. unfold anyb. do 2 f_equal. clear.
    induction names as [|[k z] names IH]; [reflexivity|]. cbn. now rewrite IH. }
  rewrite H1, H3, some_true. pose proof (holds_nil g).
  assert (EX : existsb (fun z => v =? z) (map snd names) = true <-> In v (map snd names)).
  { rewrite existsb_exists. split.
    - intros (z & I & E). apply Z.eqb_eq in E. now subst.
    - intros I. exists v. split; [exact I|apply Z.eqb_refl]. }
  rewrite EX. tauto.
Qed.

Definition g21 : env := fun nm => match nm with
  | NVar "x" => VInt 7 | NVar "a" | NVar "p::a" => VInt 1 | NVar "b" | NVar "p::b" => VInt 7
  | NAttr ASize "x" => VInt 8 | _ => VInt 0 end.
Example C21_enumeration_case : exists cs,
  constraints 10 (Enum ["P"; "T"] [(["A"], 1); (["B"], 7)] 8 false) "x" true true = Ok cs /\
  (forall k z, In (k, z) (literal_names ["P"; "T"] [(["A"], 1); (["B"], 7)] true) -> g21 (NVar (var k)) = VInt z) /\
  holds g21 cs.
Proof.
  eexists. split; [vm_compute; reflexivity|]. split.
  - intros k z I. vm_compute in I. repeat destruct I as [I|I]; try (injection I as <- <-; reflexivity). contradiction.
  - intros c I. repeat destruct I as [<-|I]; try (vm_compute; reflexivity). destruct I.
Qed.
Example C21_range_case : exists cs, constraints 10 (Range ["P"; "T"] 3 200 8) "x" false true = Ok cs /\
  (2 <=? List.length cs)%nat = false /\ holds g21 cs /\ ~ holds (fun _ => VInt 201) cs.
Proof.
  eexists. split; [vm_compute; reflexivity|]. split; [reflexivity|]. split.
  - intros c I. repeat destruct I as [<-|I]; try (vm_compute; reflexivity). destruct I.
  - intros H. specialize (H _ (or_introl eq_refl)). vm_compute in H. discriminate H.
Qed.
Example C21_modular_case : exists t cs,
  ModularInteger 10 ["P"; "T"] (EBin OPow (ENum 2) (ENum 8)) = Ok ([], Some t) /\
  ok (EBin OPow (ENum 2) (ENum 8)) = true /\ eval g21 (EBin OPow (ENum 2) (ENum 8)) <> None /\
  constraints 10 t "x" true true = Ok cs /\ holds g21 cs.
Proof.
  do 2 eexists. split; [vm_compute; reflexivity|]. split; [reflexivity|]. split; [vm_compute; discriminate|].
  split; [vm_compute; reflexivity|].
  intros c I. repeat destruct I as [<-|I]; try (vm_compute; reflexivity). destruct I.
Qed.

Print Assumptions C21_modular_proof.
Print Assumptions C21_range_proof.
Print Assumptions C21_range_code.
Print Assumptions C21_range_code_total.
Print Assumptions C21_enumeration_proof.
