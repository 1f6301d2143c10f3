(** Property C53: what an accepted definition of checksums guarantees. *)
From Coq Require Import String List ZArith Bool Arith Lia.
From Verif Require Import Base Expr ExprEval ExprFacts GenSpec ExprNames MsgGraph P_MsgGraph ChecksumDef.
Import ListNotations.
Local Open Scope string_scope.
Local Open Scope list_scope.
Local Open Scope Z_scope.

(** ** Specification: where the fields of a path lie *)

(** the number of bits of the fields of a path *)
Fixpoint total (z : field -> Z) (p : list link) : Z :=
  match p with
  | [] => 0
  | l :: t => (if String.eqb (target l) FINAL then 0 else z (target l)) + total z t
  end.
(** the fields of the path [p] have the sizes [z], lie one after another and make up the
    message; [g] gives their first and last bits *)
Definition lays_out (z : field -> Z) (p : list link) (g : env) : Prop :=
  g (NAttr AFirst "message") = VInt 0 /\ g (NAttr ALast "message") = VInt (total z p - 1) /\
  forall a l b, p = a ++ l :: b -> target l <> FINAL ->
    g (NAttr AFirst (target l)) = VInt (total z a) /\ g (NAttr ALast (target l)) = VInt (total z a + z (target l) - 1).

Definition first_of (x : string) : expr := EName (NAttr AFirst x) false.
Definition last_of (x : string) : expr := EName (NAttr ALast x) false.
(** a range that begins with or behind [x] *)
Inductive begins : expr -> string -> bool -> Prop :=
| begins_with x : begins (first_of x) x false
| begins_behind x : x <> "message" -> begins (EAss OAdd [last_of x; ENum 1]) x true.
(** a range that ends with or before [y] *)
Inductive ends : expr -> string -> bool -> Prop :=
| ends_with y : ends (last_of y) y false
| ends_before y : y <> "message" -> ends (EBin OSub (first_of y) (ENum 1)) y true.

(** ** Facts *)

Lemma flat_map_nil {A B} (f : A -> list B) l : flat_map f l = [] <-> forall x, In x l -> f x = [].
Proof.
  induction l as [|a l IH]; cbn; [split; [intros _ x []|reflexivity]|].
  split.
  - intros H. apply app_eq_nil in H as [H1 H2]. intros x [<-|I]; [exact H1|]. now apply IH.
  - intros H. rewrite (H a (or_introl eq_refl)). cbn. apply IH. intros x I. apply H. now right.
Qed.
Lemma mapr_in {A B} (f : A -> res B) l : forall ys, mapr f l = Ok ys -> forall x, In x l -> exists y, f x = Ok y /\ In y ys.
Proof.
  induction l as [|a l IH]; intros ys H x I; [destruct I|]. cbn [mapr] in H.
  destruct (f a) as [y|] eqn:E; cbn [bind] in H; [|discriminate].
  destruct (mapr f l) as [t|] eqn:F; cbn [bind] in H; [|discriminate]. apply Ok_inj in H. subst.
  destruct I as [<-|I]; [exists y; split; [exact E|now left]|].
  destruct (IH _ eq_refl x I) as (y' & E' & I'). exists y'. split; [exact E'|now right].
Qed.
Lemma concat_nil {A} (l : list (list A)) : concat l = [] -> forall x, In x l -> x = [].
Proof.
  induction l as [|a l IH]; cbn; intros H x I; [destruct I|]. apply app_eq_nil in H as [H1 H2].
  destruct I as [<-|I]; auto.
Qed.
Lemma if_nil (b : bool) (x : string) : (if b then [] else [x]) = [] -> b = true.
Proof. now destruct b. Qed.

Lemma accepted_parts s fields n m cs : verify_checksums s fields n m cs = Ok [] ->
  (forall f ps, In (f, ps) cs -> In f fields /\ forall p, In p ps -> parameter_errors s fields n p = Ok []) /\
  exists c, field_condition s n m FINAL = Ok c /\
    (forall f, In f (map fst cs) -> In f (find_checksums c)) /\
    (forall f, In f (find_checksums c) -> In f (map fst cs)).
Proof.
  unfold verify_checksums. intros H.
  match type of H with bind ?r _ = _ => destruct r as [es|] eqn:E end; cbn [bind] in H; [|discriminate].
  destruct (field_condition s n m FINAL) as [c|] eqn:C; cbn [bind] in H; [|discriminate]. apply Ok_inj in H.
  apply app_eq_nil in H as [H1 H]. apply app_eq_nil in H as [H2 H3].
  split.
  - intros f ps I. destruct (mapr_in _ _ _ E _ I) as (y & F & J). cbn [fst snd] in F.
    destruct (mapr (parameter_errors s fields n) ps) as [xs|] eqn:X; cbn [bind] in F; [|discriminate]. apply Ok_inj in F.
    rewrite (concat_nil _ H1 _ J) in F. apply app_eq_nil in F as [F1 F2].
    apply if_nil, MsgGraphFacts.memf_iff in F1. split; [exact F1|]. intros p K.
    destruct (mapr_in _ _ _ X _ K) as (y' & Y & L). now rewrite (concat_nil _ F2 _ L) in Y.
  - exists c. split; [reflexivity|]. rewrite flat_map_nil in H2, H3. split; intros f I.
    + apply H2, if_nil, MsgGraphFacts.memf_iff in I. exact I.
    + apply H3, if_nil, MsgGraphFacts.memf_iff in I. exact I.
Qed.

Lemma leads_app s p : forall a q b, leads s a (p ++ q) b <-> exists c, leads s a p c /\ leads s c q b.
Proof.
  induction p as [|l p IH]; intros a q b; cbn [app leads].
  - split; [intros H; exists a; auto|]. intros (c & -> & H). exact H.
  - rewrite IH. split; [intros (I & E & c & P & Q); eauto|]. intros (c & (I & E & P) & Q). eauto.
Qed.
Lemma total_app z p q : total z (p ++ q) = total z p + total z q.
Proof. induction p as [|l p IH]; cbn [app total]; [reflexivity|]. rewrite IH. lia. Qed.
Lemma total_nonneg z p : (forall f, 0 <= z f) -> 0 <= total z p.
Proof. intros Z. induction p as [|l p IH]; cbn [total]; [lia|]. pose proof (Z (target l)). destruct (String.eqb _ _); lia. Qed.
Lemma sources_are_targets s p : forall a b x, leads s a p b -> In x (map source p) -> x = a \/ exists c l d, p = c ++ l :: d /\ target l = x /\ d <> [].
Proof.
  induction p as [|l p IH]; intros a b x L I; [destruct I|]. cbn [leads] in L. destruct L as (Il & S & L).
  cbn [map] in I. destruct I as [<-|I]; [now left|]. right.
  assert (Np : p <> []) by (intros ->; destruct I).
  destruct (IH _ _ _ L I) as [->|(c & l' & d & -> & T & N)].
  - exists [], l, p. auto.
  - exists (l :: c), l', d. auto.
Qed.
Lemma in_targets p x : In x (map target p) -> exists a l b, p = a ++ l :: b /\ target l = x.
Proof. intros I. apply in_map_iff in I as (l & T & I). apply in_split in I as (a & b & ->). eauto. Qed.

Section Accepted.
  Variables (k : nat) (m : message) (fields : list field).
  Hypothesis HC : construct k m = Ok ([], fields).
  Variable n : nat.
  Hypothesis HN : (List.length (structure m) < n)%nat.

  Lemma range_paths x y sx sy lower upper : 
    begins lower x sx -> ends upper y sy -> x <> y ->
    let x' := if String.eqb x "message" then INITIAL else x in
    let y' := if String.eqb y "message" then FINAL else y in
    parameter_errors (structure m) fields n (ValueRange lower upper) = Ok [] <->
    forall p, p <> [] -> leads (structure m) INITIAL p y' -> In x' (map source p).
  Proof.
    intros B E Nxy x' y'.
    assert (Q : parameter_errors (structure m) fields n (ValueRange lower upper) =
      bind (paths (structure m) n y') (fun ps => Ok (flat_map (fun p => if existsb (fun l => String.eqb x' (source l)) p then []
                                    else ["invalid range in definition of checksum"]) ps))).
    { unfold parameter_errors. apply String.eqb_neq in Nxy. destruct B as [x|x ?], E as [y|y ?];
        cbn [valid_lower valid_upper find_variables first_of last_of andb flat_map app];
        rewrite Nxy; cbn [andb Z.eqb Pos.eqb bind app]; reflexivity. }
    rewrite Q. destruct (C23_paths k m fields n y' HC HN) as (ps & P & _ & S). rewrite P. cbn [bind].
    assert (X : Ok (flat_map (fun p => if existsb (fun l => String.eqb x' (source l)) p then []
                                    else ["invalid range in definition of checksum"]) ps) = Ok [] <->
                forall p, In p ps -> existsb (fun l => String.eqb x' (source l)) p = true).
    { split.
      - intros H p I. apply Ok_inj in H. rewrite flat_map_nil in H. exact (if_nil _ _ (H p I)).
      - intros H. f_equal. apply flat_map_nil. intros p I. now rewrite (H p I). }
    rewrite X. split.
    - intros H p Np L. specialize (H p (proj2 (S p) (conj Np L))). apply existsb_exists in H as (l & I & T).
      apply String.eqb_eq in T. rewrite T. now apply in_map.
    - intros H p I. apply S in I as [Np L]. specialize (H p Np L). apply in_map_iff in H as (l & <- & J).
      apply existsb_exists. exists l. split; [exact J|apply String.eqb_refl].
  Qed.

  Lemma path_to_field p a l b : leads (structure m) INITIAL p FINAL -> p = a ++ l :: b ->
    leads (structure m) INITIAL (a ++ [l]) (target l) /\ leads (structure m) (target l) b FINAL /\
    leads (structure m) INITIAL a (source l).
  Proof.
    intros L ->. apply leads_app in L as (c & A & (I & <- & B)). split; [|split; [exact B|exact A]].
    apply leads_app. exists (source l). split; [exact A|]. cbn. auto.
  Qed.
End Accepted.

(** ** C53 *)

(** The definitions: each checksum is a field of the message, each parameter is the value or
    the size of a field or a range of the supported form. *)
Theorem C53_forms : forall s fields n m cs f ps, verify_checksums s fields n m cs = Ok [] -> In (f, ps) cs ->
  In f fields /\ forall p, In p ps ->
    (exists x neg, In x fields /\ (p = Plain (EName (NVar x) neg) \/ p = Plain (EName (NAttr ASize x) neg))) \/
    (exists lower upper x y neg neg', p = ValueRange lower upper /\
       (lower = EName (NAttr AFirst x) neg \/ lower = EAss OAdd [EName (NAttr ALast x) neg; ENum 1]) /\
       (upper = EName (NAttr ALast y) neg' \/ upper = EBin OSub (EName (NAttr AFirst y) neg') (ENum 1))).
Proof.
  intros s fields n m cs f ps H I. destruct (accepted_parts _ _ _ _ _ H) as [P _]. destruct (P f ps I) as [F Q].
  split; [exact F|]. intros p J. specialize (Q p J). destruct p as [e|lo up]; cbn [parameter_errors] in Q.
  - left. apply Ok_inj, app_eq_nil in Q as [Q1 Q2]. rewrite flat_map_nil in Q2.
    destruct e as [ | |z|[x|[] x] neg|e|o ts|o l r|o l r]; try discriminate Q1; exists x, neg;
      (split; [|auto]).
    + specialize (Q2 (x, neg) (or_introl eq_refl)). now apply if_nil, MsgGraphFacts.memf_iff in Q2.
    + specialize (Q2 (x, false) (or_introl eq_refl)). now apply if_nil, MsgGraphFacts.memf_iff in Q2.
  - right.
    assert (V : valid_lower lo && valid_upper up = true).
    { destruct (find_variables lo) as [|[x sx] ?]; [discriminate|]. destruct (find_variables up) as [|[y sy] ?]; [discriminate|].
      destruct (String.eqb x y && Bool.eqb sx sy); [apply Ok_inj in Q; now apply if_nil in Q|].
      destruct (paths _ _ _); cbn [bind] in Q; [|discriminate]. apply Ok_inj, app_eq_nil in Q as [Q _]. now apply if_nil in Q. }
    apply andb_true_iff in V as [VL VU].
    assert (L : exists x neg, lo = EName (NAttr AFirst x) neg \/ lo = EAss OAdd [EName (NAttr ALast x) neg; ENum 1]).
    { destruct lo as [ | |z|[x|[] x] neg|e|[] ts|o l r|o l r]; try discriminate VL; [eauto|].
      destruct ts as [|[ | |z|[x|[] x] neg|e|o ts|o l r|o l r] [|[ | |z'|? ?|?|? ?|? ? ?|? ? ?] [|]]]; try discriminate VL.
      apply Z.eqb_eq in VL. subst. eauto. }
    assert (U : exists x neg, up = EName (NAttr ALast x) neg \/ up = EBin OSub (EName (NAttr AFirst x) neg) (ENum 1)).
    { destruct up as [ | |z|[x|[] x] neg|e|o ts|[] l r|o l r]; try discriminate VU; [eauto|].
      destruct l as [ | |z|[x|[] x] neg|e|o ts|o l r'|o l r']; try discriminate VU.
      destruct r as [ | |z|? ?|e|? ?|? ? ?|? ? ?]; try discriminate VU. apply Z.eqb_eq in VU. subst. eauto. }
    destruct L as (x & neg & L), U as (y & neg' & U). exists lo, up, x, y, neg, neg'. auto.
Qed.

(** The ranges: on every path through the message that contains the field at its upper end,
    the range of an accepted definition lies inside the message and is not backwards
    (its length may be zero). *)
Theorem C53_range : forall k m fields n j cs f ps lower upper x y behind before p z g,
  construct k m = Ok ([], fields) -> (List.length (structure m) < n)%nat -> ~ In "message" fields ->
  verify_checksums (structure m) fields n j cs = Ok [] -> In (f, ps) cs -> In (ValueRange lower upper) ps ->
  begins lower x behind -> ends upper y before -> ~ (x = y /\ behind = true /\ before = true) ->
  x <> INITIAL -> x <> FINAL -> y <> INITIAL -> y <> FINAL ->
  leads (structure m) INITIAL p FINAL -> y = "message" \/ In y (map target p) ->
  (forall h, 0 <= z h) -> lays_out z p g ->
  (x = "message" \/ In x (map target p)) /\
  exists a b, eval g lower = Some (VInt a) /\ eval g upper = Some (VInt b) /\ 0 <= a <= b + 1 /\ b + 1 <= total z p.
Proof.
  intros k m fields n j cs f ps lower upper x y behind before p z g HC HN NM HV HF HP HB HE NS Xi Xf Yi Yf HL HY HZ (G1 & G2 & G3).
  destruct (accepted_parts _ _ _ _ _ HV) as [Q _]. destruct (Q f ps HF) as [_ Q']. specialize (Q' _ HP). clear Q.
  assert (PN : p <> []).
  { intros ->. cbn in HL. discriminate HL. }
  assert (TP := total_nonneg z p HZ).
  (* the position of a field of the path *)
  assert (POS : forall a l b, p = a ++ l :: b -> target l <> FINAL ->
    0 <= total z a /\ total z a + z (target l) <= total z p).
  { intros a l b -> NF. split; [now apply total_nonneg|]. rewrite total_app. cbn [total].
    apply String.eqb_neq in NF. rewrite NF. pose proof (total_nonneg z b HZ). lia. }
  (* x lies before y *)
  assert (ORD : x <> y -> x = "message" \/ exists a l b, p = a ++ l :: b /\ target l = x /\
     (y = "message" \/ exists c l' d, b = c ++ l' :: d /\ target l' = y)).
  { intros Nxy. pose proof (proj1 (range_paths k m fields HC n HN x y behind before lower upper HB HE Nxy) Q') as R. cbn zeta in R.
    destruct (String.eqb_spec x "message") as [->|Nx]; [now left|right].
    destruct HY as [->|HY].
    - cbn [String.eqb Ascii.eqb Bool.eqb] in R. destruct (sources_are_targets _ _ _ _ _ HL (R p PN HL)) as [?|(a & l & b & E & T & _)]; [congruence|].
      exists a, l, b. auto.
    - destruct (in_targets _ _ HY) as (c & l' & d & E & T).
      destruct (path_to_field m p c l' d HL E) as (L1 & L2 & L3).
      assert (NMy : y <> "message").
      { intros ->. apply NM. destruct (C22_fields _ _ _ HC) as (_ & X & _). apply X. split; [discriminate|]. split; [discriminate|].
        exists l'. split; [|now right]. assert (I : In l' p) by (rewrite E; apply in_elt). clear -I HL.
        revert HL I. generalize INITIAL. induction p as [|l t IH]; intros a0 L I; [destruct I|]. destruct L as (J & _ & L).
        destruct I as [<-|I]; [exact J|]. eapply IH; eauto. }
      apply String.eqb_neq in NMy. rewrite NMy in R. rewrite T in L1.
      assert (NN : c ++ [l'] <> []) by (destruct c; discriminate).
      destruct (sources_are_targets _ _ _ _ _ L1 (R _ NN L1)) as [?|(a & l & b & E' & T' & Nb)]; [congruence|].
      destruct (exists_last Nb) as (b' & u & ->). rewrite app_comm_cons, app_assoc in E'. apply app_inj_tail in E' as [E' <-].
      exists a, l, (b' ++ l' :: d). split; [rewrite E, E'; now rewrite <- app_assoc|]. split; [exact T'|].
      right. exists b', l', d. auto. }
  assert (MSG : forall h, In h (map target p) -> h <> FINAL -> h <> "message").
  { intros h I Nf ->. apply NM. destruct (C22_fields _ _ _ HC) as (_ & X & _). apply X. split; [discriminate|]. split; [discriminate|].
    apply in_map_iff in I as (l' & T & I). exists l'. split; [|now right]. clear -I HL.
    revert HL I. generalize INITIAL. induction p as [|l t IH]; intros a0 L I; [destruct I|]. destruct L as (J & _ & L).
    destruct I as [<-|I]; [exact J|]. eapply IH; eauto. }
  split.
  { destruct (String.string_dec x y) as [->|N]; [exact HY|].
    destruct (ORD N) as [?|(a & l & b & -> & T & _)]; [now left|right]. rewrite map_app, in_app_iff. right. cbn. now left. }
  (* the values of the two ends *)
  assert (LOWER : forall a l b, p = a ++ l :: b -> target l = x ->
    eval g lower = Some (VInt (if behind then total z a + z x else total z a))).
  { intros a l b E T. destruct (G3 a l b E ltac:(congruence)) as [F1 F2]. rewrite T in *.
    destruct HB as [x|x ?]; cbn; rewrite ?F1, ?F2; cbn; do 2 f_equal; lia. }
  assert (UPPER : forall a l b, p = a ++ l :: b -> target l = y ->
    eval g upper = Some (VInt (if before then total z a - 1 else total z a + z y - 1))).
  { intros a l b E T. destruct (G3 a l b E ltac:(congruence)) as [F1 F2]. rewrite T in *.
    destruct HE as [y|y ?]; cbn; rewrite ?F1, ?F2; cbn; do 2 f_equal; lia. }
  assert (LM : x = "message" -> eval g lower = Some (VInt 0)).
  { intros Ex. destruct HB as [x|x Nm]; [subst x|congruence]. cbn. now rewrite G1. }
  assert (UM : y = "message" -> eval g upper = Some (VInt (total z p - 1))).
  { intros Ey. destruct HE as [y|y Nm]; [subst y|congruence]. cbn. now rewrite G2. }
  pose proof (HZ x) as Zx. pose proof (HZ y) as Zy.
  destruct (String.string_dec x y) as [Exy|Nxy].
  - destruct HY as [->|HY].
    + exists 0, (total z p - 1). rewrite (LM Exy), (UM eq_refl). repeat split; lia.
    + subst x. destruct (in_targets _ _ HY) as (a & l & b & E & T).
      destruct (POS a l b E ltac:(congruence)) as [P1 P2]. rewrite T in P2.
      do 2 eexists. split; [exact (LOWER a l b E T)|]. split; [exact (UPPER a l b E T)|].
      destruct behind, before; try lia. exfalso. auto.
  - destruct (ORD Nxy) as [Ex|(a & l & b & E & T & Y)].
    + destruct HY as [->|HY].
      * congruence.
      * destruct (in_targets _ _ HY) as (c & l' & d & E' & T').
        destruct (POS c l' d E' ltac:(congruence)) as [P1 P2]. rewrite T' in P2.
        exists 0. eexists. split; [exact (LM Ex)|]. split; [exact (UPPER c l' d E' T')|]. destruct before; lia.
    + destruct (POS a l b E ltac:(congruence)) as [P1 P2]. rewrite T in P2.
      destruct Y as [Ey|(c & l' & d & Eb & T')].
      * do 2 eexists. split; [exact (LOWER a l b E T)|]. split; [exact (UM Ey)|]. destruct behind; lia.
      * assert (E' : p = (a ++ l :: c) ++ l' :: d) by (rewrite E, Eb; now rewrite <- app_assoc).
        destruct (POS _ l' d E' ltac:(congruence)) as [P3 P4]. rewrite T' in P4.
        do 2 eexists. split; [exact (LOWER a l b E T)|]. split; [exact (UPPER _ l' d E' T')|].
        assert (S : total z (a ++ l :: c) = total z a + z x + total z c).
        { rewrite total_app. cbn [total]. rewrite T. apply String.eqb_neq in Xf. rewrite Xf. lia. }
        pose proof (total_nonneg z c HZ). destruct behind, before; lia.
Qed.

(** A range of the supported form whose ends refer to different parts is rejected exactly if the part at the
    upper end can be reached without the part at the lower end. *)
Theorem C53_decides : forall k m fields n lower upper x y behind before,
  construct k m = Ok ([], fields) -> (List.length (structure m) < n)%nat ->
  begins lower x behind -> ends upper y before -> x <> y ->
  parameter_errors (structure m) fields n (ValueRange lower upper) = Ok [] <->
  forall p, p <> [] -> leads (structure m) INITIAL p (if String.eqb y "message" then FINAL else y) ->
    In (if String.eqb x "message" then INITIAL else x) (map source p).
Proof. intros k m fields n lower upper x y a b HC HN HB HE N. exact (range_paths k m fields HC n HN x y a b lower upper HB HE N). Qed.

Lemma checksum_name_spec x : forall f, checksum_name x = Some f -> x = (f ++ suffix)%string.
Proof.
  induction x as [|c x IH]; intros f H; cbn [checksum_name] in H.
  - discriminate.
  - destruct (String.eqb_spec (String c x) suffix) as [E|_].
    + injection H as <-. exact E.
    + destruct (checksum_name x) as [p|]; [|discriminate]. injection H as <-. cbn. now rewrite (IH p eq_refl).
Qed.
Lemma found_is_named e : forall f, In f (find_checksums e) -> In (NVar (f ++ suffix)%string) (names e).
Proof.
  induction e as [ | |z|[x|a x] neg|e IH|o ts IH|o l r IHl IHr|o l r IHl IHr] using expr_ind'; cbn [find_checksums names]; intros f I;
    try contradiction.
  - destruct (checksum_name x) as [h|] eqn:E; [|destruct I]. destruct I as [<-|[]]. left. f_equal. now apply checksum_name_spec.
  - apply in_flat_map in I as (t & J & I). apply in_flat_map. exists t. split; [exact J|].
    rewrite Forall_forall in IH. exact (IH t J f I).
  - apply in_app_iff in I as [I|I]; apply in_app_iff; auto.
  - apply in_app_iff in I as [I|I]; apply in_app_iff; auto.
Qed.
Lemma condition_names s k : forall f c, compute_field_condition s k f = Ok c ->
  forall x, In x (names c) -> exists l, In l s /\ In x (names (condition l)).
Proof.
  induction k as [|k IH]; intros f c H x I; cbn [compute_field_condition] in H.
  - destruct (String.eqb f INITIAL); [|discriminate]. apply Ok_inj in H. subst. destruct I.
  - destruct (String.eqb f INITIAL); [apply Ok_inj in H; subst; destruct I|].
    match type of H with bind ?r _ = _ => destruct r as [ts|] eqn:E end; cbn [bind] in H; [|discriminate].
    apply Ok_inj in H. subst c. cbn [names] in I. apply in_flat_map in I as (t & J & I).
    assert (S : forall l, In l (incoming s f) -> In l s) by (unfold incoming; intros l K; now apply filter_In in K).
    revert ts E J S. generalize (incoming s f). induction l as [|l ls IHl]; intros ts E J S; cbn [mapr] in E.
    + apply Ok_inj in E. subst. destruct J.
    + destruct (compute_field_condition s k (source l)) as [c|] eqn:C; cbn [bind] in E; [|discriminate].
      destruct (mapr _ ls) as [ts'|] eqn:M; cbn [bind] in E; [|discriminate]. apply Ok_inj in E. subst ts.
      destruct J as [<-|J].
      * cbn [names flat_map] in I. apply in_app_iff in I as [I|I]; [exact (IH _ _ C x I)|].
        rewrite app_nil_r in I. exists l. split; [apply S; now left|exact I].
      * apply (IHl ts' eq_refl J). intros l' K. apply S. now right.
Qed.

(** The validity of each checksum is checked in some condition of the message, and the
    checksums that the condition of the message checks are defined. *)
Theorem C53_checked : forall s fields n m cs, verify_checksums s fields n m cs = Ok [] ->
  (forall f, In f (map fst cs) -> In f fields /\ exists l, In l s /\ In (NVar (f ++ suffix)%string) (names (condition l))) /\
  exists c, field_condition s n m FINAL = Ok c /\ forall f, In f (find_checksums c) -> In f (map fst cs).
Proof.
  intros s fields n m cs H. destruct (accepted_parts _ _ _ _ _ H) as (P & c & C & A & B).
  split; [|eauto]. intros f I. split.
  - apply in_map_iff in I as ([f' ps] & <- & I). exact (proj1 (P f' ps I)).
  - specialize (A f I). apply found_is_named in A. unfold field_condition in C.
    destruct (compute_field_condition s n FINAL) as [c0|] eqn:E; cbn [bind] in C; [|discriminate].
    apply (condition_names _ _ _ _ E). exact (simplify_within (fun x => In x (names c0)) _ _ _ _ C (fun x X => X) _ A).
Qed.

(** ** Cases *)

Definition lk (a b : field) (c : expr) : link := mkLink a b c None None.
(** tag, then data unless the tag is 0, then the checksum *)
Definition frame : message := mkMessage
  [ lk INITIAL "tag" ETrue;
    lk "tag" "data" (ERel ONe (EVar "tag") (ENum 0));
    lk "tag" "crc" (ERel OEq (EVar "tag") (ENum 0));
    lk "data" "crc" ETrue;
    lk "crc" FINAL (valid_checksum "crc") ] ["tag"; "data"; "crc"] [].
Definition frame_checksums : list (field * list parameter) :=
  [("crc", [Plain (EVar "tag"); Plain (EName (NAttr ASize "data") false);
            ValueRange (first_of "message") (EBin OSub (first_of "crc") (ENum 1));
            ValueRange (EAss OAdd [last_of "tag"; ENum 1]) (last_of "data");
            ValueRange (EAss OAdd [last_of "crc"; ENum 1]) (last_of "message")])].
Definition frame_path : list link :=
  [ lk INITIAL "tag" ETrue; lk "tag" "data" (ERel ONe (EVar "tag") (ENum 0)); lk "data" "crc" ETrue;
    lk "crc" FINAL (valid_checksum "crc") ].
Definition frame_size (f : field) : Z := if String.eqb f "tag" then 8 else if String.eqb f "data" then 24 else 32.
Definition frame_env : env := fun x =>
  match x with
  | NAttr AFirst "message" => VInt 0 | NAttr ALast "message" => VInt 63
  | NAttr AFirst "tag" => VInt 0 | NAttr ALast "tag" => VInt 7
  | NAttr AFirst "data" => VInt 8 | NAttr ALast "data" => VInt 31
  | NAttr AFirst "crc" => VInt 32 | NAttr ALast "crc" => VInt 63
  | _ => VInt 0
  end.
Example C53_case : construct 20 frame = Ok ([], ["tag"; "data"; "crc"]) /\
  verify_checksums (structure frame) ["tag"; "data"; "crc"] 10 40 frame_checksums = Ok [] /\
  leads (structure frame) INITIAL frame_path FINAL /\ lays_out frame_size frame_path frame_env /\
  begins (EAss OAdd [last_of "tag"; ENum 1]) "tag" true /\ ends (last_of "data") "data" false /\
  eval frame_env (EAss OAdd [last_of "tag"; ENum 1]) = Some (VInt 8) /\ eval frame_env (last_of "data") = Some (VInt 31).
Proof.
  split; [reflexivity|]. split; [vm_compute; reflexivity|]. split; [cbn; repeat split; auto 10|].
  split; [|repeat split; discriminate || constructor; discriminate].
  split; [reflexivity|]. split; [reflexivity|]. intros a l b E N. unfold frame_path in E.
  destruct a as [|a0 [|a1 [|a2 [|a3 a]]]]; cbn in E; injection E; clear E; intros; subst; cbn in N; try (split; reflexivity).
  - now destruct N.
  - destruct a; discriminate.
Qed.
(** data is not on every path to the checksum *)
Example C53_case_rejected : verify_checksums (structure frame) ["tag"; "data"; "crc"] 10 40
  [("crc", [ValueRange (first_of "data") (EBin OSub (first_of "crc") (ENum 1))])] = Ok ["invalid range in definition of checksum"].
Proof. vm_compute. reflexivity. Qed.
Example C53_case_unchecked : verify_checksums (removelast (structure frame) ++ [lk "crc" FINAL ETrue]) ["tag"; "data"; "crc"] 10 40
  [("crc", [])] = Ok ["no validity check of checksum"].
Proof. vm_compute. reflexivity. Qed.
Example C53_case_undefined : verify_checksums (structure frame) ["tag"; "data"; "crc"] 10 40 []
  = Ok ["validity check for undefined checksum"].
Proof. vm_compute. reflexivity. Qed.

(** ** What does not hold *)

(** A range may refer to a field that does not exist. *)
Theorem C53_unknown_field_refuted : exists k m fields n j cs f ps lower upper x,
  construct k m = Ok ([], fields) /\ verify_checksums (structure m) fields n j cs = Ok [] /\
  In (f, ps) cs /\ In (ValueRange lower upper) ps /\ upper = last_of x /\ x <> "message" /\ ~ In x fields.
Proof.
  exists 20%nat, frame, ["tag"; "data"; "crc"], 10%nat, 40%nat, [("crc", [ValueRange (first_of "tag") (last_of "dta")])].
  do 5 eexists. split; [reflexivity|]. split; [vm_compute; reflexivity|]. split; [now left|]. split; [now left|].
  split; [reflexivity|]. split; [discriminate|]. cbn. intuition discriminate.
Qed.
(** A range from behind a field to before the same field is backwards. *)
Theorem C53_backwards_refuted : exists k m fields n j cs f ps lower upper x p z g a b,
  construct k m = Ok ([], fields) /\ verify_checksums (structure m) fields n j cs = Ok [] /\
  In (f, ps) cs /\ In (ValueRange lower upper) ps /\ begins lower x true /\ ends upper x true /\
  leads (structure m) INITIAL p FINAL /\ In x (map target p) /\ lays_out z p g /\ (forall h, 0 <= z h) /\
  eval g lower = Some (VInt a) /\ eval g upper = Some (VInt b) /\ b + 1 < a.
Proof.
  exists 20%nat, frame, ["tag"; "data"; "crc"], 10%nat, 40%nat,
    [("crc", [ValueRange (EAss OAdd [last_of "tag"; ENum 1]) (EBin OSub (first_of "tag") (ENum 1))])].
  exists "crc". do 3 eexists. exists "tag", frame_path, frame_size, frame_env, 8, (-1).
  split; [reflexivity|]. split; [vm_compute; reflexivity|]. split; [now left|]. split; [now left|].
  split; [constructor; discriminate|]. split; [constructor; discriminate|].
  destruct C53_case as (_ & _ & L & O & _). split; [exact L|]. split; [now left|]. split; [exact O|].
  split; [|repeat split; reflexivity]. intros h. unfold frame_size. destruct (String.eqb h "tag"), (String.eqb h "data"); lia.
Qed.
(** So is a range that begins behind the message. *)
Theorem C53_behind_message_refuted : exists k m fields n j cs f ps lower upper p z g a b,
  construct k m = Ok ([], fields) /\ verify_checksums (structure m) fields n j cs = Ok [] /\
  In (f, ps) cs /\ In (ValueRange lower upper) ps /\
  lower = EAss OAdd [last_of "message"; ENum 1] /\ ends upper "tag" false /\
  leads (structure m) INITIAL p FINAL /\ In "tag" (map target p) /\ lays_out z p g /\ (forall h, 0 <= z h) /\
  eval g lower = Some (VInt a) /\ eval g upper = Some (VInt b) /\ b + 1 < a.
Proof.
  exists 20%nat, frame, ["tag"; "data"; "crc"], 10%nat, 40%nat,
    [("crc", [ValueRange (EAss OAdd [last_of "message"; ENum 1]) (last_of "tag")])].
  exists "crc". do 3 eexists. exists frame_path, frame_size, frame_env, 64, 7.
  split; [reflexivity|]. split; [vm_compute; reflexivity|]. split; [now left|]. split; [now left|].
  split; [reflexivity|]. split; [constructor; discriminate|].
  destruct C53_case as (_ & _ & L & O & _). split; [exact L|]. split; [now left|]. split; [exact O|].
  split; [|repeat split; reflexivity]. intros h. unfold frame_size. destruct (String.eqb h "tag"), (String.eqb h "data"); lia.
Qed.
(** The validity of a checksum need not be checked on each path to the end of the message. *)
Definition two_ends : message := mkMessage
  [ lk INITIAL "tag" ETrue; lk "tag" "crc" ETrue;
    lk "crc" FINAL (EAss OAnd [ERel OEq (EVar "tag") (ENum 0); valid_checksum "crc"]);
    lk "crc" FINAL (ERel OGt (EVar "tag") (ENum 0)) ] ["tag"; "crc"] [].
Theorem C53_checked_always_refuted : exists k m fields n j cs f p,
  construct k m = Ok ([], fields) /\ verify_checksums (structure m) fields n j cs = Ok [] /\
  In f (map fst cs) /\ leads (structure m) INITIAL p FINAL /\ In f (map target p) /\
  forall l, In l p -> ~ In (NVar (f ++ suffix)%string) (names (condition l)).
Proof.
  exists 20%nat, two_ends, ["tag"; "crc"], 10%nat, 40%nat, [("crc", [Plain (EVar "tag")])], "crc",
    [lk INITIAL "tag" ETrue; lk "tag" "crc" ETrue; lk "crc" FINAL (ERel OGt (EVar "tag") (ENum 0))].
  split; [reflexivity|]. split; [vm_compute; reflexivity|]. split; [now left|]. split; [cbn; repeat split; auto 10|].
  split; [right; now left|]. intros l I J. destruct I as [<-|[<-|[<-|[]]]]; cbn in J; intuition discriminate.
Qed.
(** A check below a negation is overlooked: the checksum need not be defined. *)
Theorem C53_negated_check_refuted : exists k m fields n j f,
  construct k m = Ok ([], fields) /\ verify_checksums (structure m) fields n j [] = Ok [] /\
  exists l, In l (structure m) /\ condition l = ENot (valid_checksum f).
Proof.
  exists 20%nat, (mkMessage [lk INITIAL "tag" ETrue; lk "tag" FINAL (ENot (valid_checksum "crc"))] ["tag"] []), ["tag"], 10%nat, 40%nat, "crc".
  split; [reflexivity|]. split; [vm_compute; reflexivity|]. eexists. split; [right; now left|reflexivity].
Qed.

Print Assumptions C53_forms.
Print Assumptions C53_range.
Print Assumptions C53_decides.
Print Assumptions C53_checked.
Print Assumptions C53_unknown_field_refuted.
Print Assumptions C53_backwards_refuted.
Print Assumptions C53_behind_message_refuted.
Print Assumptions C53_checked_always_refuted.
Print Assumptions C53_negated_check_refuted.
