(** Properties C08 (integer values), C09 (enumeration values), C10 (arrays of
    scalars), C43 (opaque values) and a refutation for C21. *)
From Coq Require Import String Ascii List ZArith Bool Lia.
From Verif Require Import Base Expr ExprEval ExprFacts ExprTotal ExprMono Ident TypeSpec Bitstring BitFacts PyValue.
From Verif Require Import P_IdentErrors P_Types PyValueFacts.
Import ListNotations.
Local Open Scope string_scope.
Local Open Scope list_scope.
Local Open Scope Z_scope.

(** ** C08 *)

(** [n0] is the simplifier fuel with which the type was accepted *)
Theorem C08_assign : forall n0 n t v w, accepted_int n0 t -> (n0 + 6 <= n)%nat ->
  (int_assign n t v true = Ok w <-> w = v /\ type_first t <= v <= type_last t).
Proof.
  intros n0 n t v w A L. rewrite (int_assign_spec n0) by assumption.
  destruct (Z.leb_spec (type_first t) v), (Z.leb_spec v (type_last t)); cbn [andb]; split;
    intros X; try discriminate X; try lia; [apply Ok_inj in X; subst; lia|destruct X as [-> _]; reflexivity].
Qed.
Theorem C08_bitstring : forall n0 n t v w, accepted_int n0 t -> (n0 + 6 <= n)%nat -> 0 < type_size t ->
  int_assign n t v true = Ok w ->
  exists b, int_bitstring false t (Some w) = Ok b /\ Z.of_nat (List.length b) = type_size t /\
    int_parse n t b true = Ok v.
Proof.
  intros n0 n t v w A L S H. apply (C08_assign n0 n t v w A L) in H as [-> R].
  pose proof (accepted_int_range n0 t v A R) as R'.
  exists (bits_of (Z.to_nat (type_size t)) v). unfold int_bitstring. rewrite format_size_ok by assumption.
  rewrite bits_of_length. split; [reflexivity|]. split; [lia|].
  unfold int_parse. rewrite bits_int by (apply bits_of_nonempty; lia).
  rewrite value_of_bits by (lia || assumption). cbn [bind]. now apply (C08_assign n0 n t v v A L).
Qed.
(** parsing succeeds exactly for the encodings of in-range numbers *)
Theorem C08_parse : forall n0 n t b v, accepted_int n0 t -> (n0 + 6 <= n)%nat -> b <> [] ->
  (int_parse n t b true = Ok v <->
   v = fold_left (fun a (x : bool) => 2 * a + (if x then 1 else 0)) b 0 /\ type_first t <= v <= type_last t).
Proof.
  intros n0 n t b v A L Nb. change (fold_left _ b 0) with (int_of b). rewrite int_of_value.
  unfold int_parse. rewrite bits_int by exact Nb. cbn [bind]. rewrite (C08_assign n0) by assumption.
  split; intros [-> R]; auto.
Qed.
Theorem C08_parse_bitstring : forall n0 n t b v, accepted_int n0 t -> (n0 + 6 <= n)%nat ->
  0 < type_size t -> Z.of_nat (List.length b) = type_size t ->
  int_parse n t b true = Ok v -> int_bitstring false t (Some v) = Ok b.
Proof.
  intros n0 n t b v A L S Lb H.
  assert (Nb : b <> []) by (destruct b; [cbn in Lb; lia|discriminate]).
  unfold int_parse in H. rewrite bits_int in H by exact Nb. cbn [bind] in H.
  apply (C08_assign n0 n) in H as [-> R]; trivial. pose proof (value_range b).
  unfold int_bitstring. rewrite format_size_ok by (rewrite <- ?Lb; lia || assumption).
  rewrite <- Lb, Nat2Z.id. now rewrite value_bits_of.
Qed.

Definition T8 : scalar := Modular ["P"; "T"] (EBin OPow (ENum 2) (ENum 8)) 256 8.
Definition R16 : scalar := Range ["P"; "R"] 46 1500 16.
Example C08_accepted_cases : accepted_int 5 T8 /\ accepted_int 5 R16.
Proof.
  split.
  - left. exists ["P"; "T"], (EBin OPow (ENum 2) (ENum 8)). split; [vm_compute; reflexivity|intros x []].
  - right. exists ["P"; "R"], (ENum 46), (ENum 1500), (ENum 16). vm_compute. reflexivity.
Qed.
Example C08_cases : int_assign 20 T8 200 true = Ok 200 /\ is_ok (int_assign 20 T8 256 true) = false /\
  is_ok (int_assign 20 T8 (-1) true) = false /\ int_assign 20 R16 46 true = Ok 46 /\
  is_ok (int_assign 20 R16 45 true) = false /\
  int_parse 20 R16 (bits_of 16 1500) true = Ok 1500 /\ is_ok (int_parse 20 R16 (bits_of 16 1501) true) = false.
Proof. repeat split; vm_compute; reflexivity. Qed.

(** a type of zero bits has a one-bit encoding, a size written with a base makes
    serialisation raise, and without check any number is stored *)
Theorem C08_zero_size_refuted : exists t b, accepted_int 5 t /\ int_assign 20 t 0 true = Ok 0 /\
  int_bitstring false t (Some 0) = Ok b /\ Z.of_nat (List.length b) <> type_size t.
Proof.
  exists (Range ["P"; "T"] 0 0 0), [false]. split.
  - right. exists ["P"; "T"], (ENum 0), (ENum 0), (ENum 0). vm_compute. reflexivity.
  - repeat split; vm_compute; congruence.
Qed.
Theorem C08_based_size_refuted : exists t v, accepted_int 5 t /\ int_assign 20 t v true = Ok v /\
  is_ok (int_bitstring true t (Some v)) = false.
Proof.
  exists R16, 46. split; [apply C08_accepted_cases|]. split; vm_compute; reflexivity.
Qed.
Theorem C08_unchecked_refuted : exists t v b, accepted_int 5 t /\ int_assign 20 t v false = Ok v /\
  int_bitstring false t (Some v) = Ok b /\ Z.of_nat (List.length b) <> type_size t.
Proof.
  exists T8, 256. eexists. split; [apply C08_accepted_cases|]. split; [reflexivity|]. split; [vm_compute; reflexivity|].
  vm_compute. discriminate.
Qed.

Print Assumptions C08_assign.
Print Assumptions C08_bitstring.
Print Assumptions C08_parse.
Print Assumptions C08_parse_bitstring.
Print Assumptions C08_zero_size_refuted.
Print Assumptions C08_based_size_refuted.
Print Assumptions C08_unchecked_refuted.

(** ** C09 *)

(** an enumeration type as it comes out of a specification: a qualified name,
    simple literal names, accepted by the model; "__VALUE__" is reserved *)
Record enum_ok (n0 : nat) (id : ident) (lits : list (ident * Z)) (size : Z) (av : bool) : Prop := {
  eo_acc : exists se, Enumeration n0 id lits se av = Ok ([], Some (Enum id lits size av));
  eo_id : good_id id;
  eo_names : Forall (fun kv => exists s, fst kv = [s] /\ good_part s /\ lower s <> value_name) lits;
  eo_size : 0 < size
}.

Lemma good1 a : good_part a -> good_id [a].
Proof. intros G. split; [discriminate|]. apply Forall_cons; [exact G|apply Forall_nil]. Qed.
Lemma good2 a b : good_part a -> good_part b -> good_id [a; b].
Proof. intros G H. split; [discriminate|]. apply Forall_cons; [exact G|]. apply Forall_cons; [exact H|apply Forall_nil]. Qed.

Section C09.
  Variables (n0 n : nat) (id : ident) (lits : list (ident * Z)) (size : Z) (av imported : bool).
  Hypothesis EO : enum_ok n0 id lits size av.
  Hypothesis FUEL : (2 * List.length lits + 8 <= n)%nat.

  Let d := enum_literals id lits imported.
  Definition canonical (k : ident) : ident :=
    if imported && negb (is_builtin id) then package id ++ k else k.

  Lemma two_parts : exists p t, id = [p; t] /\ good_part p /\ package id = [p].
  Proof.
    destruct EO as [[se A] [_ G] _ _]. apply C20_enumeration in A as (L & _).
    destruct id as [|p [|t [|]]]; try discriminate L. inversion G as [|? ? Gp _]; subst.
    exists p, t. split; [reflexivity|]. split; [exact Gp|reflexivity].
  Qed.
  Lemma lits_facts : NoDup (map (fun kv : ident * Z => id_hash (fst kv)) lits) /\ NoDup (map snd lits) /\
    Forall (fun kv => 0 <= snd kv < 2 ^ size) lits.
  Proof.
    destruct EO as [[se A] _ _ _]. apply C20_enumeration in A as (_ & D & V & _ & s & _ & E & _ & R & _).
    injection E as <-. repeat split; trivial. eapply Forall_impl; [|exact R]. cbn. tauto.
  Qed.
  Lemma lit_good k v : In (k, v) lits -> exists s, k = [s] /\ good_part s /\ lower s <> value_name.
  Proof. intros I. destruct EO as [_ _ N _]. rewrite Forall_forall in N. apply (N _ I). Qed.
  Lemma lit_unique_name k v k' v' : In (k, v) lits -> In (k', v') lits -> id_hash k = id_hash k' ->
    k = k' /\ v = v'.
  Proof.
    intros I I' E. destruct lits_facts as (D & _). revert I I' D. clear -E.
    induction lits as [|[a x] l IH]; [intros []|]. intros I I' D. cbn in D. inversion D as [|? ? N D']; subst.
    assert (K : forall k v, In (k, v) l -> id_hash k <> id_hash a).
    { intros k0 v0 H C. apply N. apply in_map_iff. exists (k0, v0). auto. }
    destruct I as [I|I], I' as [I'|I'].
    - injection I as <- <-. injection I' as <- <-. auto.
    - injection I as <- <-. apply K in I'. congruence.
    - injection I' as <- <-. apply K in I. congruence.
    - now apply IH.
  Qed.
  Lemma lit_unique_value k v k' : In (k, v) lits -> In (k', v) lits -> k = k'.
  Proof.
    intros I I'. destruct lits_facts as (_ & D & _). revert I I' D. clear.
    induction lits as [|[a x] l IH]; [intros []|]. intros I I' D. cbn in D. inversion D as [|? ? N D']; subst.
    assert (K : forall k v, In (k, v) l -> v <> x).
    { intros k0 v0 H C. apply N. apply in_map_iff. exists (k0, v0). auto. }
    destruct I as [I|I], I' as [I'|I'].
    - congruence.
    - injection I as <- <-. apply K in I'. congruence.
    - injection I' as <- <-. apply K in I. congruence.
    - now apply IH.
  Qed.

  (** the dict of literals *)
  Lemma in_d k v : In (k, v) d <-> exists k0, In (k0, v) lits /\
    ((is_builtin id || negb imported = true /\ k = k0) \/ (is_builtin id = false /\ k = package id ++ k0)).
  Proof.
    unfold d, enum_literals. rewrite in_flat_map. split.
    - intros ([k0 v0] & I & J). cbn [fst snd] in J. apply in_app_or in J as [J|J].
      + destruct (is_builtin id || negb imported) eqn:E; [|destruct J]. destruct J as [J|[]].
        injection J as <- <-. exists k0. auto.
      + destruct (is_builtin id) eqn:E; [destruct J|]. destruct J as [J|[]].
        injection J as <- <-. exists k0. auto.
    - intros (k0 & I & [[E ->]|[E ->]]); exists (k0, v); (split; [exact I|]); cbn [fst snd]; apply in_or_app.
      + left. rewrite E. now left.
      + right. rewrite E. now left.
  Qed.
  Lemma d_good k v : In (k, v) d -> good_id k.
  Proof.
    rewrite in_d. intros (k0 & I & H). destruct (lit_good _ _ I) as (s & -> & G & _).
    destruct two_parts as (p & t & _ & Gp & Ep).
    destruct H as [[_ ->]|[_ ->]].
    - now apply good1.
    - rewrite Ep. now apply good2.
  Qed.
  Lemma d_unique k v k' v' : In (k, v) d -> In (k', v') d -> id_hash k = id_hash k' -> v = v'.
  Proof.
    rewrite !in_d. intros (k0 & I & H) (k1 & I' & H') E.
    destruct (lit_good _ _ I) as (s & Es & _). destruct (lit_good _ _ I') as (s' & Es' & _).
    destruct two_parts as (p & t & _ & _ & Ep).
    assert (K : id_hash k0 = id_hash k1).
    { destruct H as [[_ ->]|[_ ->]], H' as [[_ ->]|[_ ->]].
      - exact E.
      - exfalso. subst. rewrite Ep in E. discriminate E.
      - exfalso. subst. rewrite Ep in E. discriminate E.
      - rewrite Ep in E. unfold id_hash in *. cbn [app map] in E. injection E as E. exact E. }
    destruct (lit_unique_name _ _ _ _ I I' K). assumption.
  Qed.

  Lemma dict_get_In (l : list (ident * Z)) k v : dict_get l k = Some v -> exists k', In (k', v) l /\ id_hash k = id_hash k'.
  Proof.
    induction l as [|[k' v'] l IH]; cbn [dict_get]; [discriminate|].
    destruct (id_eq k k') eqn:E.
    - intros H. injection H as <-. exists k'. split; [now left|]. now apply id_eq_hash.
    - intros H. destruct (IH H) as (k2 & I & E2). exists k2. split; [now right|exact E2].
  Qed.
  Lemma dict_get_some (l : list (ident * Z)) k k' v : In (k', v) l -> id_hash k = id_hash k' ->
    exists v', dict_get l k = Some v'.
  Proof.
    induction l as [|[k2 v2] l IH]; [intros []|]. intros I E. cbn [dict_get].
    destruct (id_eq k k2) eqn:Q; [eauto|]. destruct I as [I|I]; [|now apply IH].
    injection I as -> ->. apply id_eq_hash in E. congruence.
  Qed.
  Lemma dict_get_lits k k' v : In (k', v) lits -> id_hash k = id_hash k' -> dict_get lits k = Some v.
  Proof.
    intros I E. destruct (dict_get_some _ _ _ _ I E) as (v' & G). destruct (dict_get_In _ _ _ G) as (k2 & I2 & E2).
    assert (id_hash k2 = id_hash k') by congruence.
    destruct (lit_unique_name _ _ _ _ I2 I H) as [_ ->]. exact G.
  Qed.

  (** the constraint on a literal's own number always holds *)
  Lemma find_mapping k v v0 : In (k, v) d -> var k <> value_name ->
    enum_mapping d v0 size (NVar (var k)) = Some (ENum v).
  Proof.
    intros I N. cbn [enum_mapping]. destruct (String.eqb_spec (var k) value_name); [contradiction|].
    destruct (find (fun kv => String.eqb (var k) (var (fst kv))) (rev d)) as [[k' v']|] eqn:F.
    - apply find_some in F as [I' E]. apply in_rev in I'. cbn in E. apply String.eqb_eq in E.
      cbn [snd]. apply var_inj in E; [|eapply d_good; eauto|eapply d_good; eauto].
      now rewrite (d_unique _ _ _ _ I I' E).
    - exfalso. apply in_rev in I. apply (find_none _ _ F) in I. cbn in I.
      now rewrite String.eqb_refl in I.
  Qed.

  Lemma names_in_d k v : In (k, v) (literal_names id lits (negb imported)) -> In (k, v) d.
  Proof.
    intros I. apply in_d. unfold literal_names in I. fold (is_builtin id) in I.
    assert (P : forall k, In (k, v) (map (fun kv : ident * Z => (package id ++ fst kv, snd kv)) lits) ->
                exists k0, In (k0, v) lits /\ k = package id ++ k0).
    { intros k' J. apply in_map_iff in J as ([a x] & E & J). injection E as <- <-. eauto. }
    destruct (is_builtin id) eqn:B.
    - exists k. auto.
    - destruct imported; cbn [negb] in *.
      + apply P in I as (k0 & I & ->). exists k0. auto.
      + apply in_app_or in I as [I|I]; [exists k; auto|]. apply P in I as (k0 & I & ->). exists k0. auto.
  Qed.
  Lemma value_in_names k v : In (k, v) lits -> In v (map snd (literal_names id lits (negb imported))).
  Proof.
    intros I. unfold literal_names. fold (is_builtin id).
    assert (P : In v (map snd (map (fun kv : ident * Z => (package id ++ fst kv, snd kv)) lits))).
    { rewrite map_map. apply in_map_iff. exists (k, v). auto. }
    assert (Q : In v (map snd lits)) by (apply in_map_iff; exists (k, v); auto).
    destruct (is_builtin id); [exact Q|]. destruct (negb imported); [|exact P].
    rewrite map_app. apply in_or_app. auto.
  Qed.
  Lemma var_not_value k v : In (k, v) d -> var k <> value_name.
  Proof.
    rewrite in_d. intros (k0 & I & H). destruct (lit_good _ _ I) as (s & -> & G & N).
    destruct H as [[_ ->]|[_ ->]]; [exact N|]. destruct two_parts as (p & t & _ & Gp & Ep).
    rewrite Ep. intros E.
    assert (X : has_char ":" (var ([p] ++ [s])) = true).
    { unfold var, id_str. rewrite lower_concat. cbn [app map String.concat].
      generalize (lower p) (lower s). clear. intros a b. induction a as [|c a IH]; [reflexivity|].
      change (Ascii.eqb c ":" || has_char ":" (a ++ "::" ++ b)%string = true).
      rewrite IH. apply orb_true_r. }
    rewrite E in X. discriminate X.
  Qed.
  Lemma names_length : (List.length (literal_names id lits (negb imported)) <= 2 * List.length lits)%nat.
  Proof.
    unfold literal_names, ident. destruct (id_eq (package id) builtins); [lia|].
    destruct (negb imported); rewrite ?app_length, ?map_length; lia.
  Qed.

  Lemma enum_constraint k v : In (k, v) lits -> exists cs,
    constraints n (Enum id lits size av) value_name true (negb imported) = Ok cs /\
    constraint_true n cs (enum_mapping d v size) = Ok true.
  Proof.
    intros I. cbn [constraints]. eexists. split; [reflexivity|].
    set (nms := literal_names id lits (negb imported)) in *.
    unfold constraint_true, simpv.
    assert (HN : forall k0 v0, In (k0, v0) nms -> enum_mapping d v size (NVar (var k0)) = Some (ENum v0)).
    { intros k0 v0 J. apply names_in_d in J. apply find_mapping; [exact J|]. now apply var_not_value with v0. }
    assert (S1 : Forall2 (fun c c' => substituted (neg (simplify expr_eqb n)) (enum_mapping d v size) c = Ok c')
      (map (fun kv => ERel OEq (EVar value_name) (EVarI (fst kv))) nms)
      (map (fun kv => ERel OEq (ENum v) (ENum (snd kv))) nms)).
    { clearbody nms. induction nms as [|[k0 v0] l IH]; [constructor|]. cbn [map]. constructor.
      - unfold EVarI, EVar. cbn [substituted fst snd]. rewrite (HN k0 v0) by now left.
        cbn [enum_mapping]. rewrite String.eqb_refl. reflexivity.
      - apply IH. intros k1 v1 J. apply HN. now right. }
    assert (S2 : Forall2 (fun c c' => substituted (neg (simplify expr_eqb n)) (enum_mapping d v size) c = Ok c')
      (map (fun kv => ERel OEq (EVarI (fst kv)) (ENum (snd kv))) nms)
      (map (fun kv => ERel OEq (ENum (snd kv)) (ENum (snd kv))) nms)).
    { clear S1. clearbody nms. induction nms as [|[k0 v0] l IH]; [constructor|]. cbn [map]. constructor.
      - unfold EVarI, EVar. cbn [substituted fst snd]. rewrite (HN k0 v0) by now left. reflexivity.
      - apply IH. intros k1 v1 J. apply HN. now right. }
    erewrite substituted_all with (cs' :=
      [EAss OOr (map (fun kv => ERel OEq (ENum v) (ENum (snd kv))) nms)]
      ++ map (fun kv => ERel OEq (ENum (snd kv)) (ENum (snd kv))) nms ++ [ERel OEq (ENum size) (ENum size)]).
    2:{ apply Forall2_app; [constructor; [now apply substituted_all_or|constructor]|].
        apply Forall2_app; [exact S2|]. constructor; [reflexivity|constructor]. }
    cbn [bind]. pose proof names_length as NL. fold nms in NL.
    destruct n as [|[|[|n3]]]; try lia.
    rewrite simplify_and with (bs := [existsb (fun b => b) (map (fun kv => v =? snd kv) nms)]
      ++ map (fun kv => snd kv =? snd kv) nms ++ [size =? size]).
    - cbn [bind]. rewrite expr_eqb_true. f_equal. rewrite !forallb_app. cbn [forallb].
      rewrite Z.eqb_refl, !andb_true_r. apply andb_true_iff. split.
      + pose proof (value_in_names _ _ I) as J. fold nms in J. apply existsb_exists.
        apply in_map_iff in J as (kv & E & J). exists true. split; [|reflexivity].
        apply in_map_iff. exists kv. split; [|exact J]. rewrite E. apply Z.eqb_refl.
      + apply forallb_forall. intros b J. apply in_map_iff in J as (kv & <- & _). apply Z.eqb_refl.
    - assert (G : forall m (f g : ident * Z -> Z), Forall2 (fun t b => simplify expr_eqb (S (S m)) t = Ok (EBool b))
          (map (fun kv => ERel OEq (ENum (f kv)) (ENum (g kv))) nms) (map (fun kv => f kv =? g kv) nms)).
      { intros m f g. clear. induction nms as [|kv l IH]; [constructor|]. cbn [map]. constructor; [|exact IH].
        apply (simplify_rel_num (S m) OEq); reflexivity. }
      apply Forall2_app; [constructor; [|constructor]|].
      + apply simplify_or; [|rewrite map_length; lia]. destruct n3 as [|n4]; [lia|]. apply (G n4 (fun _ => v) snd).
      + apply Forall2_app; [apply (G n3 snd snd)|]. constructor; [|constructor].
        apply (simplify_rel_num (S n3) OEq); reflexivity.
    - rewrite !app_length, !map_length. cbn. lia.
  Qed.

  (** *** assign *)
  Lemma enum_assign_inv s txt v : enum_assign n id lits size av imported s true = Ok (txt, v) ->
    exists k, In (k, v) lits /\ lower txt = lower (id_str (canonical k)).
  Proof.
    unfold enum_assign. fold d.
    match goal with |- bind ?r _ = _ -> _ => destruct r as [pv|] eqn:EP; cbn [bind]; [|discriminate] end.
    assert (GP : good_id pv).
    { destruct (starts_with (id_str (package id)) s || negb imported || is_builtin id).
      - now apply C35_text_accepted_is_good in EP.
      - unfold id_mul in EP. destruct (String.eqb s "").
        + unfold id_of_id in EP. now apply check_parts_ok in EP as [-> ?].
        + now apply C35_text_accepted_is_good in EP. }
    destruct (dict_get d pv) as [z|] eqn:ED; [|discriminate].
    destruct (dict_get_In _ _ _ ED) as (k' & I' & E'). apply in_d in I' as (k0 & I0 & H0).
    destruct (lit_good _ _ I0) as (s0 & -> & G0 & _). destruct two_parts as (p & t & Eid & Gp & Ep).
    assert (LP : lower (last pv "") = lower s0).
    { rewrite (last_hash _ _ E'). destruct H0 as [[_ ->]|[_ ->]]; [reflexivity|]. rewrite Ep. reflexivity. }
    assert (GL : good_part (last pv "")).
    { destruct GP as [Np Gpv]. rewrite Forall_forall in Gpv. apply Gpv.
      destruct (exists_last Np) as (l0 & x0 & ->). rewrite last_last. apply in_or_app. right. now left. }
    unfold id_name, id_of_string. rewrite split_plain by (apply good_part_b in GL; tauto).
    rewrite (proj2 (check_parts_ok [last pv ""] [last pv ""]));
      [|split; [reflexivity|now apply good1]].
    cbn [bind]. rewrite (dict_get_lits [last pv ""] [s0] z I0) by (cbn; now rewrite LP).
    destruct (enum_constraint _ _ I0) as (cs & EC & ET). rewrite EC. cbn [bind]. fold d. rewrite ET. cbn [bind].
    intros H. apply Ok_inj in H. injection H as <- <-. exists [s0]. split; [exact I0|].
    unfold canonical. destruct (imported && negb (is_builtin id)) eqn:EI.
    - destruct H0 as [[B _]|[_ ->]].
      + apply andb_true_iff in EI as [E1 E2]. rewrite E1 in B. destruct (is_builtin id); discriminate.
      + exact (hash_var _ _ E').
    - exact LP.
  Qed.

  (** a literal is accepted by its simple name (unless its type is imported and the
      name starts with the package name) and by its qualified name *)
  Lemma enum_assign_simple k v : In (k, v) lits ->
    imported = false \/ is_builtin id = true \/ starts_with (id_str (package id)) (id_str k) = false ->
    enum_assign n id lits size av imported (id_str k) true = Ok (id_str (canonical k), v).
  Proof.
    intros I H. destruct (lit_good _ _ I) as (s0 & -> & G0 & _). destruct two_parts as (p & t & Eid & Gp & Ep).
    pose proof good1 as G1.
    assert (EQ : (if starts_with (id_str (package id)) (id_str [s0]) || negb imported || is_builtin id
               then id_of_string (id_str [s0]) else id_mul (package id) (id_str [s0])) = Ok (canonical [s0])).
    { assert (S1 : id_of_string (id_str [s0]) = Ok [s0])
        by (apply (C35_text_roundtrip [s0]); apply C35_accepted; auto).
      unfold canonical. destruct imported; cbn [negb andb] in *.
      - destruct (is_builtin id) eqn:B; cbn [negb].
        + rewrite orb_true_r. exact S1.
        + destruct H as [H|[H|H]]; try discriminate H. rewrite H. cbn [orb].
          rewrite Ep. apply C35_join; auto.
      - rewrite orb_true_r. cbn [orb]. exact S1. }
    unfold enum_assign. rewrite EQ. cbn [bind]. fold d.
    assert (ID : In (canonical [s0], v) d).
    { apply in_d. exists [s0]. split; [exact I|]. unfold canonical.
      destruct imported, (is_builtin id); cbn; auto. }
    destruct (dict_get_some _ _ _ _ ID eq_refl) as (z & ->).
    assert (NM : id_name (canonical [s0]) = Ok [s0]).
    { unfold id_name. replace (last (canonical [s0]) "") with s0.
      - apply (C35_text_roundtrip [s0] [s0]). apply C35_accepted. auto.
      - unfold canonical. destruct (imported && negb (is_builtin id)); [rewrite Ep|]; reflexivity. }
    rewrite NM. cbn [bind]. rewrite (dict_get_lits [s0] [s0] v I eq_refl).
    destruct (enum_constraint _ _ I) as (cs & EC & ET). rewrite EC. cbn [bind]. fold d. rewrite ET. cbn [bind].
    unfold canonical. destruct (imported && negb (is_builtin id)); reflexivity.
  Qed.
  Lemma starts_with_app a b : starts_with a (a ++ b)%string = true.
  Proof. induction a as [|c a IH]; [reflexivity|]. cbn. now rewrite Ascii.eqb_refl. Qed.
  Lemma enum_assign_qualified k v : In (k, v) lits -> is_builtin id = false ->
    enum_assign n id lits size av imported (id_str (package id ++ k)) true = Ok (id_str (canonical k), v).
  Proof.
    intros I B. destruct (lit_good _ _ I) as (s0 & -> & G0 & _). destruct two_parts as (p & t & Eid & Gp & Ep).
    assert (G2 : good_id (package id ++ [s0])).
    { rewrite Ep. now apply good2. }
    unfold enum_assign.
    assert (SW : starts_with (id_str (package id)) (id_str (package id ++ [s0])) = true)
      by (rewrite Ep; apply (starts_with_app p)).
    rewrite SW. cbn [orb].
    assert (S1 : id_of_string (id_str (package id ++ [s0])) = Ok (package id ++ [s0]))
      by (apply (C35_text_roundtrip (package id ++ [s0])); apply C35_accepted; auto).
    rewrite S1. cbn [bind]. fold d.
    assert (ID : In (package id ++ [s0], v) d) by (apply in_d; exists [s0]; auto).
    destruct (dict_get_some _ _ _ _ ID eq_refl) as (z & ->).
    assert (NM : id_name (package id ++ [s0]) = Ok [s0]).
    { unfold id_name. rewrite last_last. apply (C35_text_roundtrip [s0] [s0]). apply C35_accepted.
      split; [reflexivity|]. now apply good1. }
    rewrite NM. cbn [bind]. rewrite (dict_get_lits [s0] [s0] v I eq_refl).
    destruct (enum_constraint _ _ I) as (cs & EC & ET). rewrite EC. cbn [bind]. fold d. rewrite ET. cbn [bind].
    unfold canonical. rewrite B. cbn [negb]. destruct imported; reflexivity.
  Qed.

  (** *** parse *)
  Lemma enum_search_spec (l : list (ident * Z)) z R : forall init,
    (forall k, In (k, z) l -> (if imported then Ok (id_str k, z)
                               else bind (id_name k) (fun nm => Ok (id_str nm, z))) = Ok R) ->
    enum_search l imported z (Ok init) = if existsb (fun kv => snd kv =? z) l then Ok R else Ok init.
  Proof.
    induction l as [|[k v] l IH]; intros init H; [reflexivity|].
    unfold enum_search in *. cbn [fold_left existsb snd bind].
    destruct (Z.eqb_spec v z) as [->|N]; cbn [orb].
    - cbn [fst]. rewrite (H k) by now left. rewrite IH; [|intros k' J; apply H; now right].
      destruct (existsb _ l); reflexivity.
    - apply IH. intros k' J. apply H. now right.
  Qed.
  Lemma d_values z : existsb (fun kv => snd kv =? z) d = existsb (fun kv => snd kv =? z) lits.
  Proof.
    apply eq_true_iff_eq. rewrite !existsb_exists. split.
    - intros ([k v] & I & E). apply in_d in I as (k0 & I & _). exists (k0, v). auto.
    - intros ([k v] & I & E).
      destruct (is_builtin id) eqn:B.
      + exists (k, v). split; [|exact E]. apply in_d. exists k. rewrite B. auto.
      + exists (package id ++ k, v). split; [|exact E]. apply in_d. exists k. auto.
  Qed.
  Lemma enum_parse_listed k v b : In (k, v) lits -> Bitstring_int b = Ok v ->
    enum_parse id lits av imported b = Ok (id_str (canonical k), v).
  Proof.
    intros I E. unfold enum_parse. rewrite E. cbn [bind]. fold d. rewrite d_values.
    assert (X : existsb (fun kv => snd kv =? v) lits = true)
      by (apply existsb_exists; exists (k, v); split; [exact I|apply Z.eqb_refl]).
    rewrite X. cbn [negb].
    rewrite enum_search_spec with (R := (id_str (canonical k), v)); [now rewrite d_values, X|].
    intros k' J. apply in_d in J as (k0 & J & H). rewrite (lit_unique_value _ _ _ J I) in *. clear J k0.
    destruct (lit_good _ _ I) as (s0 & -> & G0 & _). destruct two_parts as (p & t & Eid & Gp & Ep).
    unfold canonical. destruct imported; cbn [negb andb] in *.
    - destruct H as [[B ->]|[B ->]]; [|now rewrite B].
      rewrite orb_false_r in B. rewrite B. reflexivity.
    - assert (S1 : id_of_string s0 = Ok [s0]).
      { apply (C35_text_roundtrip [s0] [s0]). apply C35_accepted. split; [reflexivity|].
        now apply good1. }
      destruct H as [[_ ->]|[_ ->]]; unfold id_name.
      + cbn [last]. rewrite S1. reflexivity.
      + rewrite last_last, S1. reflexivity.
  Qed.
  Lemma enum_parse_unlisted v b : ~ In v (map snd lits) -> Bitstring_int b = Ok v ->
    enum_parse id lits av imported b = if av then Ok ("UNKNOWN", v) else Err "not a valid enum value".
  Proof.
    intros N E. unfold enum_parse. rewrite E. cbn [bind]. fold d. rewrite d_values.
    destruct (existsb (fun kv => snd kv =? v) lits) eqn:X; [|reflexivity].
    exfalso. apply N. apply existsb_exists in X as (kv & I & X). apply Z.eqb_eq in X. subst v.
    now apply in_map.
  Qed.
End C09.

(** assigning a literal and parsing the encoding gives the literal back (up to case) *)
Theorem C09_roundtrip : forall n0 n id lits size av imported s txt v,
  enum_ok n0 id lits size av -> (2 * List.length lits + 8 <= n)%nat ->
  enum_assign n id lits size av imported s true = Ok (txt, v) ->
  In v (map snd lits) /\
  exists b txt', enum_bitstring false size (Some (txt, v)) = Ok b /\
    Z.of_nat (List.length b) = size /\
    enum_parse id lits av imported b = Ok (txt', v) /\ lower txt' = lower txt.
Proof.
  intros n0 n id lits size av imported s txt v EO FUEL H.
  destruct (enum_assign_inv n0 n _ _ _ _ imported EO FUEL _ _ _ H) as (k & I & T).
  split; [apply in_map_iff; exists (k, v); auto|].
  destruct (lits_facts _ _ _ _ _ EO) as (_ & _ & R). rewrite Forall_forall in R. specialize (R _ I). cbn in R.
  pose proof (eo_size _ _ _ _ _ EO) as S.
  exists (bits_of (Z.to_nat size) v), (id_str (canonical id imported k)).
  unfold enum_bitstring. rewrite format_size_ok by assumption. rewrite bits_of_length.
  repeat split; [lia| |congruence].
  eapply enum_parse_listed; eauto. rewrite bits_int by (apply bits_of_nonempty; lia).
  rewrite value_of_bits by (lia || assumption). reflexivity.
Qed.
(** every literal can be assigned and is then read back exactly *)
Theorem C09_literal_exact : forall n0 n id lits size av imported k v,
  enum_ok n0 id lits size av -> (2 * List.length lits + 8 <= n)%nat -> In (k, v) lits ->
  imported = false \/ is_builtin id = true \/ starts_with (id_str (package id)) (id_str k) = false ->
  exists txt b, enum_assign n id lits size av imported (id_str k) true = Ok (txt, v) /\
    enum_bitstring false size (Some (txt, v)) = Ok b /\ enum_parse id lits av imported b = Ok (txt, v).
Proof.
  intros n0 n id lits size av imported k v EO FUEL I H.
  exists (id_str (canonical id imported k)), (bits_of (Z.to_nat size) v).
  destruct (lits_facts _ _ _ _ _ EO) as (_ & _ & R). rewrite Forall_forall in R. specialize (R _ I). cbn in R.
  pose proof (eo_size _ _ _ _ _ EO) as S.
  split; [eapply enum_assign_simple; eauto|]. unfold enum_bitstring.
  rewrite format_size_ok by assumption. split; [reflexivity|].
  eapply enum_parse_listed; eauto. rewrite bits_int by (apply bits_of_nonempty; lia).
  rewrite value_of_bits by (lia || assumption). reflexivity.
Qed.
Theorem C09_qualified_literal : forall n0 n id lits size av imported k v,
  enum_ok n0 id lits size av -> (2 * List.length lits + 8 <= n)%nat -> In (k, v) lits -> is_builtin id = false ->
  exists txt b, enum_assign n id lits size av imported (id_str (package id ++ k)) true = Ok (txt, v) /\
    enum_bitstring false size (Some (txt, v)) = Ok b /\ enum_parse id lits av imported b = Ok (txt, v).
Proof.
  intros n0 n id lits size av imported k v EO FUEL I H.
  exists (id_str (canonical id imported k)), (bits_of (Z.to_nat size) v).
  destruct (lits_facts _ _ _ _ _ EO) as (_ & _ & R). rewrite Forall_forall in R. specialize (R _ I). cbn in R.
  pose proof (eo_size _ _ _ _ _ EO) as S.
  split; [eapply enum_assign_qualified; eauto|]. unfold enum_bitstring.
  rewrite format_size_ok by assumption. split; [reflexivity|].
  eapply enum_parse_listed; eauto. rewrite bits_int by (apply bits_of_nonempty; lia).
  rewrite value_of_bits by (lia || assumption). reflexivity.
Qed.
Theorem C09_distinct_encodings : forall n0 id lits size av k1 v1 k2 v2 b t1 t2,
  enum_ok n0 id lits size av -> In (k1, v1) lits -> In (k2, v2) lits ->
  enum_bitstring false size (Some (t1, v1)) = Ok b -> enum_bitstring false size (Some (t2, v2)) = Ok b ->
  k1 = k2.
Proof.
  intros n0 id lits size av k1 v1 k2 v2 b t1 t2 EO I1 I2 B1 B2.
  destruct (lits_facts _ _ _ _ _ EO) as (_ & _ & R). rewrite Forall_forall in R.
  pose proof (R _ I1) as R1. pose proof (R _ I2) as R2. cbn in R1, R2.
  pose proof (eo_size _ _ _ _ _ EO) as S. unfold enum_bitstring in *.
  rewrite format_size_ok in B1, B2 by assumption. apply Ok_inj in B1, B2.
  assert (V : v1 = v2).
  { rewrite <- (value_of_bits size v1), <- (value_of_bits size v2) by (lia || assumption). congruence. }
  subst v2. eapply lit_unique_value; eauto.
Qed.
(** an unlisted number is rejected, or kept with its encoding if always valid *)
Theorem C09_unlisted : forall n0 id lits size av imported b v,
  enum_ok n0 id lits size av -> Z.of_nat (List.length b) = size ->
  int_of b = v -> ~ In v (map snd lits) ->
  if av then enum_parse id lits av imported b = Ok ("UNKNOWN", v) /\
             enum_bitstring false size (Some ("UNKNOWN", v)) = Ok b
  else is_ok (enum_parse id lits av imported b) = false.
Proof.
  intros n0 id lits size av imported b v EO Lb V N. pose proof (eo_size _ _ _ _ _ EO) as S.
  assert (Nb : b <> []) by (destruct b; [cbn in Lb; lia|discriminate]). rewrite int_of_value in V.
  rewrite (enum_parse_unlisted id lits av imported v b N) by (rewrite bits_int by exact Nb; congruence).
  destruct av; [|reflexivity]. split; [reflexivity|]. unfold enum_bitstring.
  pose proof (value_range b). subst v. rewrite format_size_ok by (rewrite <- ?Lb; lia || assumption).
  rewrite <- Lb, Nat2Z.id. now rewrite value_bits_of.
Qed.

Local Ltac names := repeat (apply Forall_cons; [eexists; split; [reflexivity|
    split; [apply good_part_b; repeat split|discriminate]]|]); apply Forall_nil.
Definition lits9 : list (ident * Z) := [(["One"], 1); (["Two"], 2)].
Example C09_case : enum_ok 5 ["P"; "E"] lits9 8 false.
Proof.
  split; [exists (ENum 8); vm_compute; reflexivity|now apply (C35_accepted _ ["P"; "E"])| |lia].
  names.
Qed.
Example C09_case_values :
  enum_assign 20 ["P"; "E"] lits9 8 false false "Two" true = Ok ("Two", 2) /\
  enum_assign 20 ["P"; "E"] lits9 8 false true "Two" true = Ok ("P::Two", 2) /\
  enum_parse ["P"; "E"] lits9 false true (bits_of 8 2) = Ok ("P::Two", 2) /\
  is_ok (enum_parse ["P"; "E"] lits9 false true (bits_of 8 3)) = false /\
  enum_parse ["P"; "E"] lits9 true true (bits_of 8 3) = Ok ("UNKNOWN", 3) /\
  is_ok (enum_assign 20 ["P"; "E"] lits9 8 false false "Three" true) = false.
Proof. repeat split; vm_compute; reflexivity. Qed.

(** the literal is stored as written, so the text can change on the way *)
Theorem C09_case_refuted : exists b txt', 
  enum_assign 20 ["P"; "E"] lits9 8 false false "tWO" true = Ok ("tWO", 2) /\
  enum_bitstring false 8 (Some ("tWO", 2)) = Ok b /\
  enum_parse ["P"; "E"] lits9 false false b = Ok (txt', 2) /\ txt' <> "tWO".
Proof. do 2 eexists. repeat split; try (vm_compute; reflexivity). discriminate. Qed.
(** a literal of an imported type is rejected if its name starts with the package name *)
Theorem C09_prefix_refuted : exists id lits size k v, enum_ok 5 id lits size false /\ In (k, v) lits /\
  is_ok (enum_assign 20 id lits size false true (id_str k) true) = false /\
  is_ok (enum_assign 20 id lits size false false (id_str k) true) = true.
Proof.
  exists ["IP"; "E"], [(["IPSEC"], 1); (["UDP"], 2)], 8, ["IPSEC"], 1. split; [|repeat split].
  - split; [exists (ENum 8); vm_compute; reflexivity|now apply (C35_accepted _ ["IP"; "E"])| |lia].
    names.
  - now left.
Qed.
(** an unlisted number of an always-valid type cannot be told from a literal "UNKNOWN" *)
Theorem C09_unknown_refuted : exists id lits size b b', enum_ok 5 id lits size true /\ b <> b' /\
  (exists v, enum_parse id lits true false b = Ok ("UNKNOWN", v) /\ In (["UNKNOWN"], v) lits) /\
  (exists v, enum_parse id lits true false b' = Ok ("UNKNOWN", v) /\ ~ In v (map snd lits)).
Proof.
  exists ["P"; "E"], [(["UNKNOWN"], 1)], 8, (bits_of 8 1), (bits_of 8 5). split; [|split; [|split]].
  - split; [exists (ENum 8); vm_compute; reflexivity|now apply (C35_accepted _ ["P"; "E"])| |lia].
    names.
  - vm_compute. discriminate.
  - exists 1. split; [vm_compute; reflexivity|now left].
  - exists 5. split; [vm_compute; reflexivity|]. cbn. intros [H|[]]. discriminate H.
Qed.

Print Assumptions C09_roundtrip.
Print Assumptions C09_literal_exact.
Print Assumptions C09_qualified_literal.
Print Assumptions C09_distinct_encodings.
Print Assumptions C09_unlisted.
Print Assumptions C09_case_refuted.
Print Assumptions C09_prefix_refuted.
Print Assumptions C09_unknown_refuted.

(** ** C21: the proof constraints of an always-valid enumeration exclude numbers that
    are valid values of the type *)
Theorem C21_always_valid_refuted : exists id lits size b txt v g cs,
  enum_ok 5 id lits size true /\ Z.of_nat (List.length b) = size /\
  enum_parse id lits true false b = Ok (txt, v) /\
  constraints 20 (Enum id lits size true) "x" true true = Ok cs /\
  g (NVar "x") = VInt v /\ g (NAttr ASize "x") = VInt size /\
  (forall k z, In (k, z) (literal_names id lits true) -> g (NVar (var k)) = VInt z) /\
  ~ holds g cs.
Proof.
  exists ["P"; "E"], lits9, 8, (bits_of 8 5), "UNKNOWN", 5,
    (fun nm => match nm with NVar "x" => VInt 5 | NAttr ASize "x" => VInt 8
               | NVar "one" | NVar "p::one" => VInt 1 | _ => VInt 2 end).
  eexists. split; [|split; [reflexivity|split; [vm_compute; reflexivity|split; [vm_compute; reflexivity|]]]].
  - split; [exists (ENum 8); vm_compute; reflexivity|now apply (C35_accepted _ ["P"; "E"])| |lia].
    names.
  - repeat split.
    + intros k z I. vm_compute in I. repeat destruct I as [I|I]; try (injection I as <- <-; reflexivity). contradiction.
    + intros H. specialize (H _ (or_introl eq_refl)). vm_compute in H. discriminate H.
Qed.
Print Assumptions C21_always_valid_refuted.

(** ** C10 *)

Lemma Forall2_impl {A B} (P Q : A -> B -> Prop) l r : (forall a b, P a b -> Q a b) -> Forall2 P l r -> Forall2 Q l r.
Proof. intros H F. induction F; constructor; auto. Qed.
Lemma scalar_parse_lossless n t imported b v : 0 < type_size t -> Z.of_nat (List.length b) = type_size t ->
  scalar_parse n t imported b true = Ok v -> scalar_bitstring false t v = Ok b.
Proof.
  intros S Lb H. pose proof (value_range b) as R.
  assert (Nb : b <> []) by (destruct b; [cbn in Lb; lia|discriminate]).
  assert (F : format_size false (value b) (type_size t) = Ok b).
  { rewrite format_size_ok by (rewrite <- ?Lb; lia || assumption). rewrite <- Lb, Nat2Z.id. now rewrite value_bits_of. }
  assert (INT : forall v, int_parse n t b true = Ok v -> v = value b).
  { intros z. unfold int_parse. rewrite bits_int by exact Nb. cbn [bind]. unfold int_assign.
    destruct (constraints n t value_name true true) as [cs|]; cbn [bind]; [|discriminate].
    destruct (constraint_true n cs (int_mapping t (value b))) as [[]|]; cbn [bind]; try discriminate.
    intros E. now apply Ok_inj in E. }
  destruct t as [id modulus m s|id f l s|id lits s av]; cbn [scalar_parse] in H.
  - destruct (int_parse n _ b true) as [z|] eqn:E; cbn [bind] in H; [|discriminate]. apply Ok_inj in H. subst v.
    cbn [scalar_bitstring]. rewrite (INT _ eq_refl). exact F.
  - destruct (int_parse n _ b true) as [z|] eqn:E; cbn [bind] in H; [|discriminate]. apply Ok_inj in H. subst v.
    cbn [scalar_bitstring]. rewrite (INT _ eq_refl). exact F.
  - destruct (enum_parse id lits av imported b) as [[txt z]|] eqn:E; cbn [bind] in H; [|discriminate].
    apply Ok_inj in H. subst v. cbn [scalar_bitstring fst snd].
    assert (Z1 : z = value b); [|rewrite Z1; exact F].
    unfold enum_parse in E. rewrite bits_int in E by exact Nb. cbn [bind] in E.
    destruct (negb _).
    + destruct av; [|discriminate]. apply Ok_inj in E. congruence.
    + assert (G : forall d r, enum_search d imported (value b) r = Ok (txt, z) ->
                 (forall x, r = Ok x -> snd x = value b) -> z = value b).
      { clear. unfold enum_search. induction d as [|[k v0] d IH]; intros r H Hr; cbn [fold_left] in H.
        - exact (Hr _ H).
        - apply IH in H; [exact H|]. intros x Ex. destruct r as [old|]; cbn [bind] in Ex; [|discriminate].
          cbn [snd] in Ex. destruct (Z.eqb_spec v0 (value b)) as [->|].
          + destruct imported; [apply Ok_inj in Ex; subst; reflexivity|].
            destruct (id_name (fst (k, value b))); cbn [bind] in Ex; [|discriminate].
            apply Ok_inj in Ex. subst. reflexivity.
          + apply Ok_inj in Ex. subst. now apply Hr. }
      eapply G; [exact E|]. intros x Ex. apply Ok_inj in Ex. subst. reflexivity.
Qed.

(** the values of a type: what parsing an encoding of the type's size yields *)
Definition element n t imported (v : sval) : Prop :=
  exists b, Z.of_nat (List.length b) = type_size t /\ scalar_parse n t imported b true = Ok v.

Definition of_type (t : scalar) (vs : list sval) : list (scalar * sval) := map (fun v => (t, v)) vs.

Lemma array_bitstring_spec t vs bs : Forall2 (fun v b => scalar_bitstring false t v = Ok b) vs bs ->
  array_bitstring (of_type t vs) = Ok (concat bs).
Proof.
  intros F. unfold array_bitstring.
  assert (M : mapr (fun tv => scalar_bitstring false (fst tv) (snd tv)) (of_type t vs) = Ok bs).
  { induction F as [|v b vs bs H F IH]; [reflexivity|]. cbn [of_type map mapr fst snd]. rewrite H. cbn [bind].
    fold (of_type t vs). rewrite IH. reflexivity. }
  rewrite M. cbn [bind]. unfold join. now rewrite join_concat.
Qed.

(** the encoding of a list of elements is the concatenation of their encodings and
    parses back to the same list *)
Theorem C10_roundtrip : forall n t imported vs,
  0 < type_size t -> Forall (element n t imported) vs ->
  exists b bs, Forall2 (fun v c => scalar_bitstring false t v = Ok c /\
                          Z.of_nat (List.length c) = type_size t) vs bs /\
    array_bitstring (of_type t vs) = Ok b /\ b = concat bs /\
    array_parse n (Some (Z.of_nat (List.length vs) * type_size t)) t imported b true = Ok vs.
Proof.
  intros n t imported vs S F.
  assert (X : exists bs, Forall2 (fun v c => scalar_bitstring false t v = Ok c /\
                Z.of_nat (List.length c) = type_size t /\ scalar_parse n t imported c true = Ok v) vs bs).
  { induction F as [|v vs (b & Lb & P) F (bs & IH)]; [exists []; constructor|].
    exists (b :: bs). constructor; [|exact IH]. repeat split; trivial.
    eapply scalar_parse_lossless; eauto. }
  destruct X as (bs & X). exists (concat bs), bs. split; [|split; [|split; [reflexivity|]]].
  - eapply Forall2_impl; [|exact X]. cbn. tauto.
  - apply array_bitstring_spec. eapply Forall2_impl; [|exact X]. cbn. tauto.
  - assert (LC : Z.of_nat (List.length (concat bs)) = Z.of_nat (List.length vs) * type_size t).
    { clear -X. induction X as [|v b vs bs (_ & L & _) X IH]; [reflexivity|].
      cbn [concat List.length]. rewrite app_length. lia. }
    unfold array_parse, check_size. rewrite LC, Z.eqb_refl. cbn [bind].
    assert (G : forall fuel, (List.length (concat bs) <= fuel)%nat ->
              array_elements n fuel t imported (concat bs) true = Ok vs); [|now apply G].
    clear LC F. induction X as [|v b vs bs (E & L & P) X IH]; intros fuel LF; [destruct fuel; reflexivity|].
    cbn [concat] in *. rewrite app_length in LF.
    assert (Nb : exists c r, b = c :: r) by (destruct b; [cbn in L; lia|eauto]).
    destruct Nb as (c & r & Eb). destruct fuel as [|fuel]; [subst b; cbn in LF; lia|].
    assert (W : Z.to_nat (type_size t) = List.length b) by lia.
    assert (U : array_elements n (Datatypes.S fuel) t imported (b ++ concat bs) true =
      bind (scalar_parse n t imported (firstn (Z.to_nat (type_size t)) (b ++ concat bs)) true)
           (fun v => bind (array_elements n fuel t imported (skipn (Z.to_nat (type_size t)) (b ++ concat bs)) true)
           (fun vs => Ok (v :: vs)))) by (subst b; reflexivity).
    rewrite U, W, firstn_app_exact, skipn_app_exact, P. cbn [bind].
    rewrite IH; [reflexivity|]. subst b. cbn in LF. lia.
Qed.
(** and whatever is parsed from whole elements is re-encoded as it was *)
Theorem C10_parse_lossless : forall n t imported expected b vs k,
  0 < type_size t -> Z.of_nat (List.length b) = Z.of_nat k * type_size t ->
  array_parse n expected t imported b true = Ok vs ->
  List.length vs = k /\ array_bitstring (of_type t vs) = Ok b.
Proof.
  intros n t imported expected b vs k S L H. unfold array_parse in H.
  destruct (check_size expected (Z.of_nat (List.length b))); cbn [bind] in H; [|discriminate].
  assert (G : forall fuel b vs k, Z.of_nat (List.length b) = Z.of_nat k * type_size t ->
    array_elements n fuel t imported b true = Ok vs -> List.length vs = k /\
    exists bs, concat bs = b /\ Forall2 (fun v c => scalar_bitstring false t v = Ok c) vs bs).
  { clear -S. induction fuel as [|fuel IH]; intros b vs k L H.
    - destruct b; [|discriminate]. apply Ok_inj in H. subst vs. cbn in L.
      split; [cbn; nia|]. exists []. split; [reflexivity|constructor].
    - destruct b as [|c r].
      + apply Ok_inj in H. subst vs. cbn in L. split; [cbn; nia|]. exists []. split; [reflexivity|constructor].
      + cbn [array_elements] in H. set (b := c :: r) in *.
        set (w := Z.to_nat (type_size t)) in *.
        destruct (scalar_parse n t imported (firstn w b) true) as [v|] eqn:P; cbn [bind] in H; [|discriminate].
        destruct (array_elements n fuel t imported (skipn w b) true) as [vs'|] eqn:Q; cbn [bind] in H; [|discriminate].
        apply Ok_inj in H. subst vs.
        assert (K : exists k', k = Datatypes.S k') by (destruct k; [cbn in L; lia|eauto]).
        destruct K as (k' & ->).
        assert (Lw : (w <= List.length b)%nat) by (unfold w; nia).
        assert (Lf : List.length (firstn w b) = w) by (apply firstn_length_le; exact Lw).
        destruct (IH (skipn w b) vs' k') as (IL & bs & C & F); [rewrite skipn_length; unfold w in *; nia|exact Q|].
        split; [cbn; lia|]. exists (firstn w b :: bs). split; [cbn; rewrite C; apply firstn_skipn|].
        constructor; [|exact F]. eapply scalar_parse_lossless; [exact S| |exact P]. rewrite Lf. unfold w. lia. }
  destruct (G _ _ _ _ L H) as (IL & bs & C & F). split; [exact IL|]. rewrite <- C. now apply array_bitstring_spec.
Qed.

Example C10_case : Forall (element 20 R16 false) [SInt 46; SInt 1500; SInt 100] /\
  exists b, array_bitstring (of_type R16 [SInt 46; SInt 1500; SInt 100]) = Ok b /\ List.length b = 48%nat /\
  array_parse 20 (Some 48) R16 false b true = Ok [SInt 46; SInt 1500; SInt 100].
Proof.
  split.
  - repeat constructor; [exists (bits_of 16 46)|exists (bits_of 16 1500)|exists (bits_of 16 100)];
      split; vm_compute; reflexivity.
  - eexists. repeat split; vm_compute; reflexivity.
Qed.

(** an incomplete last element is accepted and grows, an empty byte string is read as
    one element, and elements of another type of the same class are accepted *)
Theorem C10_partial_element_refuted : exists t b vs b', accepted_int 5 t /\
  array_parse 20 None t false b true = Ok vs /\ array_bitstring (of_type t vs) = Ok b' /\ b' <> b.
Proof.
  exists T8, (bits_of 12 260). do 2 eexists. split; [apply C08_accepted_cases|].
  split; [vm_compute; reflexivity|]. split; [vm_compute; reflexivity|]. vm_compute. discriminate.
Qed.
Theorem C10_empty_bytes_refuted : exists t v, accepted_int 5 t /\
  array_parse_bytes 20 (Some 0) t false [] true = Ok [v].
Proof.
  exists T8. eexists. split; [apply C08_accepted_cases|]. vm_compute. reflexivity.
Qed.
Theorem C10_foreign_element_refuted : exists t u v b, accepted_int 5 t /\ accepted_int 5 u /\
  array_assign None t [(u, v)] true = Ok [(u, v)] /\ array_bitstring [(u, v)] = Ok b /\
  is_ok (array_parse 20 None t false b true) = false.
Proof.
  exists R16, (Range ["P"; "S"] 0 7 8), (SInt 5). eexists. split; [apply C08_accepted_cases|]. split.
  - right. exists ["P"; "S"], (ENum 0), (ENum 7), (ENum 8). vm_compute. reflexivity.
  - repeat split; vm_compute; reflexivity.
Qed.

Print Assumptions C10_roundtrip.
Print Assumptions C10_parse_lossless.
Print Assumptions C10_partial_element_refuted.
Print Assumptions C10_empty_bytes_refuted.
Print Assumptions C10_foreign_element_refuted.

(** ** C43: opaque values *)

Theorem C43_assign : forall l expected v, Forall isbyte l ->
  (opaque_assign expected l true = Ok v <->
   v = l /\ match expected with Some e => e = 8 * Z.of_nat (List.length l) | None => True end).
Proof.
  intros l expected v _. unfold opaque_assign, check_size. destruct expected as [e|]; cbn [bind].
  - destruct (Z.eqb_spec (Z.of_nat (List.length l) * 8) e) as [E|E]; cbn [bind]; split; intros X.
    + apply Ok_inj in X. split; [congruence|lia].
    + destruct X as [-> _]. reflexivity.
    + discriminate X.
    + destruct X. lia.
  - split; [intros X; apply Ok_inj in X; auto|intros [-> _]; reflexivity].
Qed.
Theorem C43_roundtrip : forall l, Forall isbyte l ->
  exists b, opaque_bitstring (Some l) = Ok b /\ List.length b = (8 * List.length l)%nat /\
    opaque_parse (Some (8 * Z.of_nat (List.length l))) b true = Ok l.
Proof.
  intros l F. exists (bytes_bits l). rewrite bytes_bits_length. split; [|split; [reflexivity|]].
  - unfold opaque_bitstring. destruct l as [|x l]; [reflexivity|].
    cbn [List.length]. cbn [Nat.mul Nat.eqb Nat.add]. apply (from_bytes_ok (x :: l) F). discriminate.
  - unfold opaque_parse, check_size. rewrite bytes_bits_length.
    replace (Z.of_nat (8 * List.length l)) with (8 * Z.of_nat (List.length l)) by lia.
    rewrite Z.eqb_refl. cbn [bind]. now rewrite to_bytes_ok.
Qed.
Theorem C43_parse_lossless : forall b k expected l, List.length b = (8 * k)%nat ->
  opaque_parse expected b true = Ok l -> List.length l = k /\ opaque_bitstring (Some l) = Ok b.
Proof.
  intros b k expected l L H. unfold opaque_parse in H.
  destruct (check_size expected (Z.of_nat (List.length b))); cbn [bind] in H; [|discriminate].
  apply Ok_inj in H. subst l.
  destruct (bytes_of_bits k b L) as (l & F & El & Lk). subst b.
  rewrite to_bytes_ok by exact F. split; [exact Lk|].
  destruct (C43_roundtrip l F) as (c & E & _). rewrite E. f_equal.
  unfold opaque_bitstring in E. destruct l as [|x l]; [cbn in E; apply Ok_inj in E; now subst|].
  cbn [List.length Nat.mul Nat.eqb Nat.add] in E.
  assert (Y : from_bytes (x :: l) = Ok c) by exact E.
  rewrite from_bytes_ok in Y by (exact F || discriminate). apply Ok_inj in Y. congruence.
Qed.
Example C43_case : exists b, opaque_bitstring (Some [1; 255; 0]) = Ok b /\ List.length b = 24%nat /\
  opaque_parse (Some 24) b true = Ok [1; 255; 0] /\ is_ok (opaque_parse (Some 16) b true) = false /\
  opaque_bitstring (Some []) = Ok [].
Proof. eexists. repeat split; vm_compute; reflexivity. Qed.
(** bits that are no whole bytes are not kept *)
Theorem C43_odd_bits_refuted : exists b l b', opaque_parse None b true = Ok l /\
  opaque_bitstring (Some l) = Ok b' /\ b' <> b.
Proof.
  exists [true; false; true]. do 2 eexists. split; [vm_compute; reflexivity|].
  split; [vm_compute; reflexivity|]. discriminate.
Qed.
Print Assumptions C43_assign.
Print Assumptions C43_roundtrip.
Print Assumptions C43_parse_lossless.
Print Assumptions C43_odd_bits_refuted.
