(** Parsing a message value from bits: every field holds the bits at its position. *)
From Coq Require Import String Ascii List ZArith Bool Lia.
From Verif Require Import Base Expr ExprEval ExprFacts ExprTotal Ident TypeSpec Bitstring BitFacts PyValue PyValueFacts.
From Verif Require Import P_PyValue MsgGraph MsgGraphFacts GenSpec PyMessage PyMessageFacts.
Import ListNotations.
Local Open Scope string_scope.
Local Open Scope list_scope.
Local Open Scope Z_scope.

Notation len b := (Z.of_nat (List.length b)).

(** ** Values of fields *)

(** a value read from at most as many bits as its type has *)
Lemma scalar_parse_short n t imported c v : 0 < type_size t -> c <> [] -> len c <= type_size t ->
  scalar_parse n t imported c true = Ok v ->
  exists x, scalar_bitstring false t v = Ok x /\ len x = type_size t.
Proof.
  intros S Nc L H.
  (* the bits with leading zeros *)
  set (b := repeat false (Z.to_nat (type_size t - len c)) ++ c).
  assert (Lb : len b = type_size t) by (unfold b; rewrite app_length, repeat_length; lia).
  assert (Nb : b <> []) by (unfold b; destruct (repeat _ _); [exact Nc|discriminate]).
  assert (Vb : Bitstring_int b = Bitstring_int c) by (rewrite !bits_int by assumption; unfold b; now rewrite value_repeat_false).
  exists b. split; [|exact Lb]. apply (scalar_parse_lossless n t imported b v S Lb).
  rewrite <- H. unfold scalar_parse, int_parse, enum_parse. rewrite Vb. reflexivity.
Qed.

Lemma array_elements_short n t imported : 0 < type_size t -> forall k b vs,
  array_elements n k t imported b true = Ok vs ->
  exists xs, Forall2 (fun v x => scalar_bitstring false t v = Ok x) vs xs /\
    len (concat xs) = len vs * type_size t /\ len b <= len vs * type_size t /\ (vs = [] -> b = []) .
Proof.
  intros S. set (w := Z.to_nat (type_size t)) in *.
  induction k as [|k IH]; intros b vs H; destruct b as [|c r]; cbn [array_elements] in H; try discriminate.
  - apply Ok_inj in H. subst vs. exists []. repeat split; cbn; try lia; constructor.
  - apply Ok_inj in H. subst vs. exists []. repeat split; cbn; try lia; constructor.
  - fold w in H. set (b := c :: r) in *.
    destruct (scalar_parse n t imported (firstn w b) true) as [v|] eqn:P; cbn [bind] in H; [|discriminate].
    destruct (array_elements n k t imported (skipn w b) true) as [vs'|] eqn:Q; cbn [bind] in H; [|discriminate].
    apply Ok_inj in H. subst vs.
    destruct (IH _ _ Q) as (xs & F & L1 & L2 & L3).
    assert (Lw : (0 < w)%nat) by (unfold w; lia).
    destruct (scalar_parse_short n t imported (firstn w b) v S) as (x & X & Lx); auto.
    { unfold b. destruct w; [lia|]. discriminate. }
    { rewrite firstn_length. unfold w in *. lia. }
    exists (x :: xs). split; [now constructor|]. cbn [concat]. rewrite app_length. cbn [List.length].
    rewrite skipn_length in L2. split; [nia|]. split; [|discriminate]. unfold w in *. nia.
Qed.

Lemma to_bytes_aux_length : forall k b, (List.length b <= k)%nat ->
  (8 * List.length (to_bytes_aux k b) < List.length b + 8 /\ List.length b <= 8 * List.length (to_bytes_aux k b))%nat.
Proof.
  induction k as [|k IH]; intros b L; destruct b as [|x t]; cbn [to_bytes_aux]; try (cbn in *; lia).
  cbn [List.length]. destruct (IH (skipn 8 (x :: t))) as [A B].
  { rewrite skipn_length. cbn in *. lia. }
  rewrite skipn_length in *. cbn [List.length] in *. lia.
Qed.
(** bytes of bits that are no longer than the bits *)
Lemma to_bytes_exact b : len (to_bytes b) * 8 <= len b -> exists k, List.length b = (8 * k)%nat.
Proof.
  intros L. destruct (to_bytes_aux_length (List.length b) b (le_n _)) as [_ B]. fold (to_bytes b) in B.
  exists (List.length (to_bytes b)). lia.
Qed.
Lemma opaque_bits b : len (to_bytes b) * 8 <= len b ->
  opaque_bitstring (Some (to_bytes b)) = Ok b /\ len (to_bytes b) * 8 = len b.
Proof.
  intros L. destruct (to_bytes_exact b L) as [k K].
  destruct (C43_parse_lossless b k None (to_bytes b) K) as [A B]; [reflexivity|]. split; [exact B|]. lia.
Qed.
Lemma to_bytes_mod b : Nat.modulo (List.length b) 8 = 0%nat -> len (to_bytes b) * 8 <= len b.
Proof.
  intros M. destruct (to_bytes_aux_length (List.length b) b (le_n _)) as [A _]. fold (to_bytes b) in A.
  pose proof (Nat.div_mod (List.length b) 8 ltac:(lia)). lia.
Qed.

Section Parse.
  Variables (n : nat) (mt : mtype) (rank : field -> nat).
  Variables (refs : list refinement) (inner : bool -> string -> bits -> res bits).
  Hypothesis T : tidy mt rank.
  (** nested messages re-serialise to leading bits of their input *)
  Hypothesis NP : forall r m b x, inner r m b = Ok x -> exists t, b = x ++ t.
  (** scalars take space *)
  Hypothesis POS : forall f t i, In f (m_fields mt) -> m_types mt f = FScalar t i \/ m_types mt f = FScalars t i ->
    0 < type_size t.

  Lemma parse_messages_all e : forall k b acc l, parse_messages inner k e b acc = Ok l ->
    concat l = concat acc ++ b /\ (l = [] -> b = []).
  Proof.
    induction k as [|k IH]; intros b acc l H; destruct b as [|c r]; cbn [parse_messages] in H; try discriminate.
    - apply Ok_inj in H. subst. now rewrite app_nil_r.
    - apply Ok_inj in H. subst. now rewrite app_nil_r.
    - destruct (inner false e (c :: r)) as [x|] eqn:X; cbn [bind] in H; [|discriminate].
      destruct (NP _ _ _ _ X) as [t Et]. destruct (IH _ _ _ H) as [C Nl].
      rewrite Et, skipn_app_exact in C. rewrite concat_app in C. cbn [concat] in C. rewrite app_nil_r, <- app_assoc in C.
      split; [now rewrite Et|]. intros ->. rewrite Et in Nl. rewrite skipn_app_exact in Nl. rewrite (Nl eq_refl) in *.
      symmetry in C. cbn in C. apply app_eq_nil in C as [_ C]. rewrite Et. exact C.
  Qed.

  (** the declared size of a composite value *)
  Definition declared (v : tval) : option Z :=
    match v with VScalar _ => None | VOpaque e _ _ _ | VScalars e _ | VMessages e _ => e end.
  Lemma parse_value f v0 size r s v : In f (m_fields mt) ->
    v0 = construct_tval (m_types mt f) \/
      (m_types mt f = FOpaque /\ exists z, v0 = VOpaque (Some z) None None None /\ size = Some z) ->
    (forall t i, m_types mt f = FScalar t i -> size = Some (type_size t)) ->
    (size = None -> m_types mt f = FOpaque) -> (forall z, size = Some z -> len s = z) ->
    tv_parse n inner (m_types mt f) (set_ref (match size with Some z => set_expected v0 z | None => v0 end) r) s = Ok v ->
    (match v with VScalar _ => True | _ => declared v = size end) /\ initialized v = true /\
    tv_size (m_types mt f) v <> None /\
    (forall e v', v = VMessages e v' -> size <> None /\ tv_size (m_types mt f) v = Some (len s)) /\
    forall z, tv_size (m_types mt f) v = Some z -> z <= len s -> (size <> None -> z = len s) ->
      (exists x u, tv_bits (m_types mt f) v = Ok x /\ len x = z /\ s = x ++ u) .
  Proof.
    intros If V0 SS SN SL H.
    assert (V0' : exists v1, set_ref (match size with Some z => set_expected v0 z | None => v0 end) r = v1 /\
      match m_types mt f with
      | FScalar _ _ => True
      | FOpaque => v1 = VOpaque size r None None
      | FScalars _ _ => v1 = VScalars size (Some [])
      | FMessages _ => v1 = VMessages size (Some [])
      end).
    { eexists. split; [reflexivity|]. destruct V0 as [->|(Ty & z & -> & ->)].
      - destruct (m_types mt f) eqn:Ty; cbn [construct_tval]; auto; destruct size; try reflexivity;
          specialize (SN eq_refl); discriminate.
      - rewrite Ty. reflexivity. }
    destruct V0' as (v1 & E1 & V1). rewrite E1 in H. clear E1.
    destruct (m_types mt f) as [t i| |t i|e] eqn:Ty; cbn [tv_parse] in H.
    - (* scalar *)
      destruct (scalar_parse n t i s true) as [w|] eqn:P; cbn [bind] in H; [|discriminate]. apply Ok_inj in H. subst v.
      assert (Sp : 0 < type_size t) by (eapply POS; [exact If|left; exact Ty]).
      assert (Ls : len s = type_size t) by (apply SL; eapply SS; reflexivity).
      split; [exact I|]. split; [reflexivity|]. split; [discriminate|]. split; [discriminate|]. cbn [tv_size tv_bits]. intros z Z _ _. injection Z as <-.
      exists s, []. split; [now apply (scalar_parse_lossless n t i)|]. split; [exact Ls|now rewrite app_nil_r].
    - (* opaque *)
      subst v1.
      destruct (check_size size (len s)) as [[]|] eqn:CS; cbn [bind] in H; [|discriminate].
      destruct r as [sdu|].
      + destruct (inner true sdu s) as [x|] eqn:X; cbn [bind] in H; [|discriminate].
        destruct (Nat.eqb_spec (Nat.modulo (List.length x) 8) 0) as [M|]; cbn [bind] in H; [|discriminate].
        apply Ok_inj in H. subst v. split; [reflexivity|]. split; [reflexivity|]. split; [discriminate|]. split; [discriminate|].
        cbn [tv_size tv_bits]. intros z Z _ _. injection Z as <-.
        destruct (NP _ _ _ _ X) as [u Eu]. destruct (opaque_bits x (to_bytes_mod x M)) as [B L].
        exists x, u. auto.
      + apply Ok_inj in H. subst v. split; [reflexivity|]. split; [reflexivity|]. split; [discriminate|]. split; [discriminate|].
        cbn [tv_size tv_bits]. intros z Z Lz _. injection Z as <-.
        destruct (opaque_bits s Lz) as [B L]. exists s, []. split; [exact B|]. split; [lia|now rewrite app_nil_r].
    - (* array of scalars *)
      subst v1.
      assert (Sp : 0 < type_size t) by (eapply POS; [exact If|right; exact Ty]).
      destruct size as [zs|]; [|specialize (SN eq_refl); discriminate].
      destruct (array_parse n (Some zs) t i s true) as [l|] eqn:P; cbn [bind] in H; [|discriminate].
      apply Ok_inj in H. subst v. split; [reflexivity|]. split; [reflexivity|].
      pose proof P as P'. unfold array_parse in P'. destruct (check_size (Some zs) (len s)) as [[]|]; cbn [bind] in P'; [|discriminate].
      destruct (array_elements_short n t i Sp _ _ _ P') as (xs & F & L1 & L2 & L3).
      fold (of_type t l). pose proof (array_bitstring_spec t l xs F) as AB.
      assert (ZS : tv_size (FScalars t i) (VScalars (Some zs) (Some (of_type t l))) = Some (if l then zs else len (concat xs))).
      { destruct l as [|a l]; [reflexivity|]. cbn [of_type map tv_size]. change ((t, a) :: map (fun v => (t, v)) l) with (of_type t (a :: l)).
        now rewrite AB. }
      rewrite ZS. split; [discriminate|]. split; [discriminate|]. cbn [tv_bits]. intros z Z Lz EZ. injection Z as <-.
      assert (Eq : (if l then zs else len (concat xs)) = len s) by (apply EZ; discriminate).
      assert (Lk : len s = len l * type_size t).
      { destruct l as [|a l]; [rewrite (L3 eq_refl); reflexivity|]. rewrite <- Eq. exact L1. }
      destruct (C10_parse_lossless n t i (Some zs) s l (List.length l) Sp Lk P) as [_ B].
      exists s, []. split; [exact B|]. split; [congruence|now rewrite app_nil_r].
    - (* array of messages *)
      subst v1.
      destruct size as [zs|]; [|specialize (SN eq_refl); discriminate].
      destruct (check_size (Some zs) (len s)) as [[]|] eqn:CS; cbn [bind] in H; [|discriminate].
      destruct (parse_messages inner (List.length s) e s []) as [l|] eqn:P; cbn [bind] in H; [|discriminate].
      apply Ok_inj in H. subst v. split; [reflexivity|]. split; [reflexivity|].
      destruct (parse_messages_all e _ _ _ _ P) as [C Nl]. cbn [concat app] in C.
      assert (J : join l = s) by (unfold join; rewrite join_concat; exact C).
      assert (ZS : tv_size (FMessages e) (VMessages (Some zs) (Some l)) = Some (len s)).
      { destruct l as [|a l]; cbn [tv_size]; [|now rewrite J]. now rewrite (SL zs eq_refl). }
      rewrite ZS. split; [discriminate|]. split; [intros ? ? _; split; [discriminate|reflexivity]|]. cbn [tv_bits]. rewrite J. intros z Z _ _. injection Z as <-.
      exists s, []. split; [reflexivity|]. split; [reflexivity|now rewrite app_nil_r].
  Qed.

  (** texts of parsed enumeration values *)
  Lemma search_err imported z : forall d w r, enum_search d imported z (Err w) <> Ok r.
  Proof. induction d as [|kv d IH]; intros w r; unfold enum_search in *; cbn [fold_left bind]; [discriminate|apply IH]. Qed.
  Lemma search_text imported z : forall d s0 r, enum_search d imported z (Ok s0) = Ok r ->
    (r = s0 /\ existsb (fun kv => snd kv =? z) d = false) \/
    In (lower (fst r)) (map (fun kv : ident * Z => if imported then lower (id_str (fst kv))
                              else match id_name (fst kv) with Ok nm => lower (id_str nm) | Err _ => "" end) d).
  Proof.
    induction d as [|[k v] d IH]; intros s0 r H.
    - left. unfold enum_search in H. cbn in H. apply Ok_inj in H. auto.
    - unfold enum_search in H. cbn [fold_left bind fst snd] in H. cbn [existsb snd].
      destruct (v =? z).
      + right. destruct imported.
        * destruct (IH _ _ H) as [[-> _]|I]; [now left|now right].
        * destruct (id_name k) as [nm|] eqn:N; cbn [bind] in H; [|exfalso; exact (search_err false z d _ r H)].
          destruct (IH _ _ H) as [[-> _]|I]; [left; cbn [fst]; now rewrite N|now right].
      + destruct (IH _ _ H) as [[-> X]|I]; [now left|right; now right].
  Qed.
  Lemma enum_text id lits av imported b s z : enum_parse id lits av imported b = Ok (s, z) ->
    In (lower s) (value_names id lits imported).
  Proof.
    unfold enum_parse, value_names. intros H.
    destruct (Bitstring_int b) as [v|]; cbn [bind] in H; [|discriminate].
    destruct (existsb _ _) eqn:Ex; cbn [negb] in H.
    - destruct (search_text _ _ _ _ _ H) as [[_ E]|I]; [congruence|right; exact I].
    - destruct av; [|discriminate]. apply Ok_inj in H. injection H as <- <-. left. reflexivity.
  Qed.
  Lemma parse_text f v0 s v : In f (m_fields mt) -> tv_parse n inner (m_types mt f) v0 s = Ok v ->
    forall txt z, v = VScalar (Some (SEnum txt z)) ->
      ~ In (lower txt) (m_fields mt) /\ lower txt <> "message" /\ lower txt <> INITIAL.
  Proof.
    intros If H txt z ->. destruct (m_types mt f) as [t i| |t i|e] eqn:Ty; cbn [tv_parse] in H.
    - destruct (scalar_parse n t i s true) as [w|] eqn:P; cbn [bind] in H; [|discriminate].
      apply Ok_inj in H. injection H as ->.
      destruct t as [id m l sz|id a l sz|id lits sz av]; cbn [scalar_parse] in P.
      + destruct (int_parse _ _ _ _); cbn [bind] in P; [|discriminate]. apply Ok_inj in P. discriminate.
      + destruct (int_parse _ _ _ _); cbn [bind] in P; [|discriminate]. apply Ok_inj in P. discriminate.
      + destruct (enum_parse id lits av i s) as [[txt' z']|] eqn:P'; cbn [bind] in P; [|discriminate].
        apply Ok_inj in P. injection P as -> ->. eapply (t_enum _ _ T); [exact If|exact Ty|]. eapply enum_text; eauto.
    - destruct v0; try discriminate. destruct (check_size _ _); cbn [bind] in H; [|discriminate].
      destruct ref; [|apply Ok_inj in H; discriminate]. destruct (inner _ _ _); cbn [bind] in H; [|discriminate].
      destruct (Nat.eqb _ _); cbn [bind] in H; [|discriminate]. apply Ok_inj in H; discriminate.
    - destruct v0; try discriminate.
      + destruct (check_size _ _); cbn [bind] in H; [|discriminate].
        destruct ref; [|apply Ok_inj in H; discriminate]. destruct (inner _ _ _); cbn [bind] in H; [|discriminate].
        destruct (Nat.eqb _ _); cbn [bind] in H; [|discriminate]. apply Ok_inj in H; discriminate.
      + destruct (array_parse _ _ _ _ _ _); cbn [bind] in H; [|discriminate]. apply Ok_inj in H; discriminate.
    - destruct v0 as [| |?|? [old|]]; try discriminate;
        destruct (check_size _ _); cbn [bind] in H; try discriminate.
      + destruct ref; [|apply Ok_inj in H; discriminate]. destruct (inner _ _ _); cbn [bind] in H; [|discriminate].
        destruct (Nat.eqb _ _); cbn [bind] in H; [|discriminate]. apply Ok_inj in H; discriminate.
      + destruct (parse_messages _ _ _ _ _); cbn [bind] in H; [|discriminate]. apply Ok_inj in H; discriminate.
      + destruct s; [apply Ok_inj in H|]; discriminate.
  Qed.

  (** ** The loop *)

  (** the field holds the bits at its position *)
  Definition placed (st : mvalue) (b : bits) (f : field) : Prop := exists p x u w,
    first (fields st f) = Some p /\ tv_bits (typ mt f) (tv (fields st f)) = Ok x /\
    size_of mt st f = Some (len x) /\ b = u ++ x ++ w /\ len u = p.
  (** the field takes the bits it was given *)
  Definition whole (st : mvalue) (b : bits) (f : field) : Prop :=
    match tv (fields st f) with
    | VScalar _ | VMessages _ _ => True
    | v => match declared v with
           | Some z => size_of mt st f = Some z
           | None => (exists p z, first (fields st f) = Some p /\ size_of mt st f = Some z /\ p + z <= len b) /\
                     forall l, In l (m_links mt) -> source l = f -> target l = FINAL
           end
    end.

  Lemma placed_ext st st' b f : fields st' f = fields st f -> placed st b f -> placed st' b f.
  Proof. intros E (p & x & u & w & H). exists p, x, u, w. unfold size_of in *. rewrite E. exact H. Qed.

  Lemma parse_set fs st st1 c f s st' b p : inv n mt fs st -> ends fs c -> next_field n mt (mapping st) c = Ok f ->
    f <> "" -> f <> FINAL ->
    (forall g, g <> f -> fields st1 g = fields st g) -> mapping st1 = mapping st -> accessible st1 = accessible st ->
    tv (fields st1 f) = tv (fields st f) ->
    (fields st1 f = fields st f \/ exists q, get_first n mt st f = Ok (Some q) /\ first (fields st1 f) = Some q) ->
    (get_size n mt st f = Ok None -> is_opaque (tv (fields st f)) = true) ->
    (forall z, get_size n mt st f = Ok (Some z) -> len s = z) ->
    set n mt refs inner st1 f (PBits s) = (st', Ok tt) ->
    (forall x z, first (fields st c) = Some x -> size_of mt st c = Some z -> p = x + z) ->
    (exists u w, b = u ++ s ++ w /\ len u = p /\ (get_size n mt st f = Ok None -> w = [])) ->
    (is_set mt st' f = true -> whole st' b f) ->
    inv n mt (fs ++ [f]) st' /\ grows mt st st' /\ In f (m_fields mt) /\ ~ In f fs /\ placed st' b f /\
      first (fields st' f) = Some p /\
      (get_size n mt st f = Ok None -> forall l, In l (m_links mt) -> source l = f -> target l = FINAL) /\
      (forall z, get_size n mt st f = Ok (Some z) -> size_of mt st' f = Some z).
  Proof.
    intros V Ec Nx N NF O M A TV1 F1 SN SL S EP EB W.
    pose proof (ends_in _ _ Ec) as Ic. pose proof (inv_path_field n mt fs st V c Ic) as Icf.
    destruct (next_link n mt rank _ c f T Icf Nx N) as (l & I & Sl & Tl & H).
    destruct (next_rank n mt rank _ c f T Icf Nx N) as [Lt In'].
    assert (If : In f (m_fields mt)) by auto. clear In'.
    pose proof (inv_rank n mt rank T fs st c V Ec) as Rk.
    assert (Nf : ~ In f fs) by (intros X; specialize (Rk f (or_intror X)); lia).
    assert (Rc : reached mt st c).
    { intros E D. destruct (v_path _ _ _ _ V _ _ _ D Ec) as [q Q]. eauto. }
    assert (Tf : typ mt f = m_types mt f) by now apply (typ_field mt rank T).
    (* the state in which the value is set *)
    assert (X1 : inv n mt fs st1 /\ grows mt st st1).
    { apply (inv_touch n mt rank T fs st f st1 V If Nf O M A).
      - intros q Hq E D. destruct F1 as [F1|(q' & G & F1)].
        + rewrite F1 in Hq. now apply (v_first _ _ _ _ V).
        + rewrite F1 in Hq. injection Hq as ->.
          destruct (inv_get_first n mt rank T fs st V l c q I Sl Rc H) as (x & z & Fc & Zc & ->); [now rewrite Tl|].
          destruct (inv_steps _ _ fs st V c x E Ic D Fc) as [k K]. exists (Datatypes.S k). rewrite <- Tl.
          now apply (inv_next n mt rank T fs st V E l k c x z).
      - intros q Hq. destruct F1 as [F1|(q' & _ & F1)]; rewrite F1; [rewrite Hq|]; discriminate.
      - left. exact TV1. }
    destruct X1 as [V1 G1].
    assert (GS : get_size n mt st1 f = get_size n mt st f).
    { apply get_size_ext; [exact M|]. intros l' _. destruct (string_dec (source l') f) as [->|Ng].
      - rewrite (inv_not_set n mt rank T fs st1 V1 f If Nf). symmetry. now apply (inv_not_set n mt rank T fs).
      - apply is_set_ext. auto. }
    destruct (set_steps n mt refs inner st1 f _ st' S) as (Ac & q & size & r & v & st4 & st5 & GF & GSz & TV & F4 & O4 & M4 & A4 & U & P).
    destruct (preset_frame n mt rank T _ _ _ _ (or_intror If) P) as [MP FP].
    destruct (update_fields n mt _ _ U) as [F5 A5].
    assert (Fst : fields st' f = mkField v (Some q)) by (rewrite FP, F5 by lia; exact F4).
    assert (Oc : c <> f) by (intros ->; lia).
    assert (Eq : q = p).
    { destruct (inv_get_first n mt rank T fs st1 V1 l c q I Sl) as (x & z & Fc & Zc & ->).
      - apply (reached_grows mt st); auto.
      - now rewrite M.
      - now rewrite Tl.
      - symmetry. apply EP; [now rewrite <- (O c Oc)|]. rewrite <- Zc. symmetry. apply size_of_ext. auto. }
    subst q. rewrite TV1 in TV. cbn [tv_set] in TV. rewrite Tf in TV. rewrite GSz in GS. symmetry in GS.
    (* what was parsed *)
    assert (V0 : tv (fields st f) = construct_tval (m_types mt f) \/
      (m_types mt f = FOpaque /\ exists z, tv (fields st f) = VOpaque (Some z) None None None /\ size = Some z)).
    { destruct (v_unset _ _ _ _ V f If Nf) as [X|(z & Ty & X & G)]; [now left|]. right. split; [exact Ty|].
      exists z. split; [exact X|]. congruence. }
    assert (PV : (match v with VScalar _ => True | _ => declared v = size end) /\ initialized v = true /\
      tv_size (m_types mt f) v <> None /\
      (forall e v', v = VMessages e v' -> size <> None /\ tv_size (m_types mt f) v = Some (len s)) /\
      forall z, tv_size (m_types mt f) v = Some z -> z <= len s -> (size <> None -> z = len s) ->
        exists x u, tv_bits (m_types mt f) v = Ok x /\ len x = z /\ s = x ++ u).
    { apply (parse_value f (tv (fields st f)) size r s v); auto.
      - intros t i Ty. unfold get_size in GS. rewrite Tf, Ty in GS. apply Ok_inj in GS. congruence.
      - intros ->. specialize (SN GS). destruct V0 as [X|(Ty & _)]; [|exact Ty]. rewrite X in SN.
        destruct (m_types mt f); try discriminate SN. reflexivity.
      - intros z ->. auto. }
    destruct PV as (DV & IV & ZN & MV & PV). 
    assert (Sz' : size_of mt st' f = tv_size (m_types mt f) v) by (unfold size_of; now rewrite Fst, Tf).
    destruct (tv_size (m_types mt f) v) as [zv|] eqn:ZV; [|congruence].
    destruct EB as (u & w & Eb & Lu & Ew).
    assert (IS : is_set mt st' f = true) by (unfold is_set; rewrite Sz', Fst; cbn [tv first]; now rewrite IV).
    specialize (W IS).
    assert (WS : (forall z, size = Some z -> zv = z) /\ (size = None -> zv <= len s /\
                   forall l, In l (m_links mt) -> source l = f -> target l = FINAL)).
    { unfold whole in W. rewrite Fst in W. cbn [tv first] in W. rewrite Sz' in W. destruct v as [sv|e ? ? ?|e ?|e ?].
      - assert (Sc : exists t i, m_types mt f = FScalar t i).
        { destruct (m_types mt f) as [t i| | |]; [eauto| | |]; cbn in ZV; discriminate. }
        destruct Sc as (t & i & Ty). unfold get_size in GS. rewrite Tf, Ty in GS. apply Ok_inj in GS. subst size.
        rewrite Ty in ZV. cbn in ZV. split; [|discriminate]. congruence.
      - cbn [declared] in W, DV. subst e. destruct size as [zz|].
        + split; [|discriminate]. congruence.
        + split; [discriminate|]. intros _. destruct W as [(p' & z' & X1 & X2 & X3) X4]. split; [|exact X4].
          injection X1 as <-. injection X2 as <-. rewrite Eb in X3. rewrite !app_length in X3.
          assert (w = []) as -> by (apply Ew; congruence). cbn [List.length] in X3. lia.
      - cbn [declared] in W, DV. subst e. destruct size as [zz|].
        + split; [|discriminate]. congruence.
        + split; [discriminate|]. intros _. destruct W as [(p' & z' & X1 & X2 & X3) X4]. split; [|exact X4].
          injection X1 as <-. injection X2 as <-. rewrite Eb in X3. rewrite !app_length in X3.
          assert (w = []) as -> by (apply Ew; congruence). cbn [List.length] in X3. lia.
      - destruct (MV _ _ eq_refl) as [SN' ZS]. split; [|intros E; contradiction]. intros zz E. rewrite E in GS.
        rewrite <- (SL zz GS). injection ZS as ->. reflexivity. }
    destruct WS as [WS WN].
    assert (Lz : zv <= len s).
    { destruct size as [z|]; [|now apply WN]. rewrite (WS z eq_refl). rewrite (SL z GS). lia. }
    destruct (PV zv eq_refl Lz) as (x & t & B & Lx & Es).
    { intros Y. destruct size as [z|]; [|now elim Y]. rewrite (WS z eq_refl). symmetry. auto. }
    assert (SI : inv n mt (fs ++ [f]) st' /\ grows mt st1 st' /\ In f (m_fields mt) /\ ~ In f fs /\
      exists p z, first (fields st1 c) = Some p /\ size_of mt st1 c = Some z /\ first (fields st' f) = Some (p + z)).
    { eapply (set_inv n mt rank T refs inner fs st1 c f (PBits s) st' V1 Ec); auto.
      - now rewrite M.
      - intros txt z Hv. rewrite Fst in Hv. cbn [tv] in Hv. eapply (parse_text f _ s v If TV); eauto.
      - intros z Ty G. rewrite Sz'. f_equal. apply WS. congruence. }
    destruct SI as (V' & G' & _ & _ & _).
    split; [exact V'|]. split; [eapply grows_trans; eauto|]. split; [exact If|]. split; [exact Nf|].
    split.
    { exists p, x, u, (t ++ w). rewrite Fst, Tf. cbn [tv first]. split; [reflexivity|]. split; [exact B|].
      split; [rewrite Sz'; congruence|]. split; [|exact Lu]. now rewrite Eb, Es, <- app_assoc. }
    split; [now rewrite Fst|]. split.
    - intros G. apply WN. congruence.
    - intros z G. rewrite Sz'. f_equal. apply WS. congruence.
  Qed.

  Lemma whole_ext st st' b f : fields st' f = fields st f -> whole st' b f -> whole st b f.
  Proof. intros E. unfold whole, size_of. now rewrite E. Qed.

  Lemma parse_loop_placed b : forall k fs st c f lp pos x z st', inv n mt fs st -> ends fs c ->
    next_field n mt (mapping st) c = Ok f -> first (fields st c) = Some x -> size_of mt st c = Some z ->
    0 <= x -> 0 <= z -> x + z <= len b -> (f <> FINAL -> lp = x /\ pos = x + z) -> (forall g, In g fs -> placed st b g) ->
    parse_loop n mt refs inner k st b f lp pos = Ok st' ->
    (forall g, In g (m_fields mt) -> is_set mt st' g = true -> whole st' b g) ->
    exists gs c', inv n mt (fs ++ gs) st' /\ ends (fs ++ gs) c' /\ next_field n mt (mapping st') c' = Ok FINAL /\
      (forall g, In g (fs ++ gs) -> placed st' b g).
  Proof.
    induction k as [|k IH]; intros fs st c f lp pos x z st' V Ec Nx Fc Zc X0 Z0 XZ LP PL H W; cbn [parse_loop] in H.
    - destruct (String.eqb_spec f FINAL) as [E|]; [|destruct (String.eqb f ""); discriminate].
      apply Ok_inj in H. subst st'. exists [], c. rewrite app_nil_r. rewrite E in Nx. auto.
    - destruct (String.eqb_spec f FINAL) as [E|NF].
      { apply Ok_inj in H. subst st'. exists [], c. rewrite app_nil_r. rewrite E in Nx. auto. }
      destruct (String.eqb_spec f "") as [E|N]; [discriminate|].
      destruct (LP NF) as [-> ->]. clear LP.
      pose proof (ends_in _ _ Ec) as Ic. pose proof (inv_path_field n mt fs st V c Ic) as Icf.
      destruct (next_link n mt rank _ c f T Icf Nx N) as (l & I & Sl & Tl & Hl).
      destruct (next_rank n mt rank _ c f T Icf Nx N) as [Lt In'].
      assert (If : In f (m_fields mt)) by auto. clear In'.
      assert (Rc : reached mt st c).
      { intros E D. destruct (v_path _ _ _ _ V _ _ _ D Ec) as [q Q]. eauto. }
      pose proof (inv_rank n mt rank T fs st c V Ec) as Rk.
      assert (Nf : ~ In f fs) by (intros X; specialize (Rk f (or_intror X)); lia).
      (* the position at which the field is read *)
      assert (CP : forall p, current_pos n mt st f x (x + z) = Ok p -> p = x + z).
      { intros p. unfold current_pos. destruct (prev_field n mt st f) as [g|] eqn:P; cbn [bind]; [|discriminate].
        destruct (String.eqb_spec g "") as [E|Ng]; [discriminate|].
        rewrite <- Tl in P. rewrite (inv_prev n mt rank T fs st V l c g I Sl Rc Hl P Ng), Fc.
        destruct (first (fields st f)) as [y|] eqn:Y; intros Q; apply Ok_inj in Q; [|auto].
        pose proof (inv_world n mt rank T fs st V) as D.
        destruct (v_first _ _ _ _ V _ f y D If Y) as [i Hi].
        destruct (inv_steps _ _ fs st V c x _ Ic D Fc) as [j Hj].
        pose proof (inv_next n mt rank T fs st V _ l j c x z D I Sl Hl Icf Hj Zc) as Hf. rewrite Tl in Hf.
        destruct (steps_index _ _ _ T (d_literals _ _ _ D) _ _ _ _ _ Hi Hf) as [_ ->].
        destruct (Z.eqb_spec x (x + z)); lia. }
      (* one field, then the rest *)
      assert (Go : forall st1 s st2 f' q size,
        (forall g, g <> f -> fields st1 g = fields st g) -> mapping st1 = mapping st -> accessible st1 = accessible st ->
        tv (fields st1 f) = tv (fields st f) ->
        (fields st1 f = fields st f \/ exists q, get_first n mt st f = Ok (Some q) /\ first (fields st1 f) = Some q) ->
        get_size n mt st f = Ok size -> (size = None -> is_opaque (tv (fields st f)) = true) ->
        (forall zz, size = Some zz -> len s = zz) ->
        (exists u w, b = u ++ s ++ w /\ len u = x + z /\ (size = None -> w = [])) ->
        try_set n mt refs inner st1 f (PBits s) = Ok st2 -> next_field n mt (mapping st2) f = Ok f' ->
        (forall zz, size = Some zz -> q = x + z + zz) ->
        parse_loop n mt refs inner k st2 b f' (x + z) q = Ok st' ->
        exists gs c', inv n mt (fs ++ gs) st' /\ ends (fs ++ gs) c' /\ next_field n mt (mapping st') c' = Ok FINAL /\
          (forall g, In g (fs ++ gs) -> placed st' b g)).
      { intros st1 s st2 f' q size O1 M1 A1 TV1 F1 GS SO SL EB S2 Nx' Hq R. apply try_set_ok in S2.
        assert (N' : f' <> "").
        { intros ->. destruct k; cbn in R; discriminate. }
        destruct (next_rank n mt rank _ f f' T (or_intror If) Nx' N') as [Lt' In'].
        assert (If' : In f' (FINAL :: "" :: m_fields mt)).
        { destruct (String.eqb_spec f' FINAL) as [->|NF']; [now left|]. right; right; auto. }
        pose proof (parse_loop_frame n mt refs inner rank T _ _ _ _ _ _ _ If' R f Lt') as Ff.
        destruct (parse_set fs st st1 c f s st2 b (x + z) V Ec Nx N NF O1 M1 A1 TV1 F1) as (V2 & G2 & _ & _ & P2 & F2 & L2 & Z2); auto.
        - rewrite GS. intros E. apply SO. apply Ok_inj in E. exact E.
        - rewrite GS. intros zz E. apply SL. apply Ok_inj in E. exact E.
        - intros x' z' E1 E2. congruence.
        - destruct EB as (u & w & E1 & E2 & E3). exists u, w. split; [exact E1|]. split; [exact E2|].
          rewrite GS. intros E. apply E3. apply Ok_inj in E. exact E.
        - intros IS. apply (whole_ext st2 st' b f Ff). apply W; [exact If|].
          rewrite (is_set_ext mt st2 st' f Ff). exact IS.
        - destruct (P2) as (p2 & x2 & u2 & w2 & F2' & B2 & S2' & E2 & Lu2).
          destruct (IH (fs ++ [f]) st2 f f' (x + z) q (x + z) (len x2) st' V2 (ends_app fs f)) as (gs & c' & V' & E' & Nf' & P'); auto.
          + lia.
          + lia.
          + assert (p2 = x + z) as <- by congruence. rewrite E2, !app_length. lia.
          + intros NF'. split; [reflexivity|]. destruct size as [zz|].
            * rewrite (Hq zz eq_refl). rewrite (Z2 zz GS) in S2'. injection S2' as ->. reflexivity.
            * exfalso. destruct (next_link n mt rank _ f f' T (or_intror If) Nx' N') as (l' & I' & Sl' & Tl' & _).
              apply NF'. rewrite <- Tl'. apply (L2 GS l' I' Sl').
          + intros g Ig. apply in_app_iff in Ig as [Ig|[<-|[]]]; [|exact P2].
            apply (placed_ext st); [|auto].
            assert (Lg : (rank g < rank f)%nat) by (specialize (Rk g (or_intror Ig)); lia).
            rewrite (set_frame n mt refs inner rank T _ _ _ _ If S2 g Lg). apply O1. intros ->. lia.
          + exists (f :: gs), c'. change (f :: gs) with ([f] ++ gs). rewrite app_assoc. auto. }
      binds H. destruct x0 as [zs|].
      + assert (H' : bind (current_pos n mt st f x (x + z)) (fun p =>
          if zs <? 0 then Err "invalid data size" else
            bind (slice b (Z.to_nat p) (Some (Z.to_nat (p + zs)))) (fun s =>
            bind (try_set n mt refs inner st f (PBits s)) (fun st' =>
            bind (next_field n mt (mapping st') f) (fun f' => parse_loop n mt refs inner k st' b f' p (p + zs))))) = Ok st').
        { destruct (is_opaque (tv (fields st f))); exact H. }
        clear H. rename H' into H. binds H. pose proof (CP x0 eq_refl) as Ep; clear CP; subst x0.
        destruct (Z.ltb_spec zs 0) as [Lz|Lz]; [discriminate|]. binds H.
        unfold slice in B1. destruct (Nat.ltb_spec (List.length b) (Z.to_nat (x + z + zs))) as [Lb|Lb]; [discriminate|].
        apply Ok_inj in B1. subst x0.
        eapply (Go st _ x1 x2 (x + z + zs) (Some zs)); eauto.
        * intros E. discriminate E.
        * intros zz E. injection E as <-. rewrite skipn_length, firstn_length. lia.
        * exists (firstn (Z.to_nat (x + z)) b), (skipn (Z.to_nat (x + z + zs)) b).
          split; [|split; [rewrite firstn_length; lia|discriminate]].
          rewrite <- (firstn_skipn (Z.to_nat (x + z + zs)) b) at 1.
          rewrite <- (firstn_skipn (Z.to_nat (x + z)) (firstn (Z.to_nat (x + z + zs)) b)) at 1.
          rewrite firstn_firstn, <- app_assoc. do 2 f_equal. lia.
        * intros zz E. injection E as <-. reflexivity.
      + destruct (is_opaque (tv (fields st f))) eqn:IO; [|discriminate]. binds H.
        destruct x1 as [q|]; [|discriminate]. binds H. pose proof (CP x0 eq_refl) as Ep; clear CP; subst x0.
        eapply (Go (set_first st f (Some q)) _ x1 x2 (x + z) None); eauto.
        * intros g Ng. now rewrite set_first_other.
        * now rewrite set_first_same.
        * right. exists q. split; [reflexivity|]. now rewrite set_first_same.
        * intros zz E. discriminate E.
        * exists (firstn (Z.to_nat (x + z)) b), []. rewrite app_nil_r, firstn_skipn. split; [reflexivity|].
          split; [|reflexivity]. rewrite firstn_length. lia.
        * intros zz E. discriminate E.
  Qed.

  Lemma parse_placed st0 b st : new n mt = Ok st0 -> parse n mt refs inner st0 b = Ok st ->
    (forall g, In g (m_fields mt) -> is_set mt st g = true -> whole st b g) ->
    exists fs c, inv n mt fs st /\ ends fs c /\ next_field n mt (mapping st) c = Ok FINAL /\
      (forall g, In g fs -> placed st b g).
  Proof.
    intros H P W. pose proof (new_inv n mt rank T st0 H) as V. unfold parse in P. binds P.
    assert (X : exists gs c', inv n mt ([] ++ gs) st /\ ends ([] ++ gs) c' /\
      next_field n mt (mapping st) c' = Ok FINAL /\ (forall g, In g ([] ++ gs) -> placed st b g)).
    { eapply (parse_loop_placed b n [] st0 INITIAL x 0 0 0 0 st V ends_nil B); auto; try lia.
      - now rewrite (v_initial _ _ _ _ V).
      - apply (inv_initial_size n mt [] st0 V).
      - intros g []. }
    destruct X as (gs & c & X). exists gs, c. exact X.
  Qed.

  (** ** The fields in a row *)

  (** the bits of the fields *)
  Definition row (st : mvalue) : list field -> list bits -> Prop :=
    Forall2 (fun f x => tv_bits (typ mt f) (tv (fields st f)) = Ok x /\ size_of mt st f = Some (len x)).

  Lemma nth_row st : forall fs xs i f, row st fs xs -> nth_error fs i = Some f ->
    exists x, nth_error xs i = Some x /\ tv_bits (typ mt f) (tv (fields st f)) = Ok x /\ size_of mt st f = Some (len x).
  Proof.
    intros fs xs i f R. revert i. induction R as [|g y fs xs H R IH]; intros i Hi; [destruct i; discriminate|].
    destruct i as [|i]; cbn in Hi |- *; [injection Hi as <-; eauto|auto].
  Qed.
  Lemma firstn_snoc {A} (l : list A) : forall i x, nth_error l i = Some x -> firstn (S i) l = firstn i l ++ [x].
  Proof.
    induction l as [|y l IH]; intros i x H; destruct i as [|i]; cbn in H; try discriminate.
    - injection H as <-. reflexivity.
    - cbn [firstn app]. f_equal. apply IH. exact H.
  Qed.

  (** positions along the path *)
  Lemma row_positions fs st xs E : inv n mt fs st -> row st fs xs -> describes mt st E -> forall i f p,
    nth_error (INITIAL :: fs) i = Some f -> steps mt E i f p -> p = len (concat (firstn (pred i) xs)).
  Proof.
    intros V R D. induction i as [|i IH]; intros f p Hf S.
    - inversion S; subst. reflexivity.
    - inversion S as [|k q l z S' I C Z]; subst.
      assert (L : (i < List.length (INITIAL :: fs))%nat).
      { assert (Y : (Datatypes.S i < List.length (INITIAL :: fs))%nat) by (apply nth_error_Some; congruence). lia. }
      apply nth_error_Some in L. destruct (nth_error (INITIAL :: fs) i) as [g|] eqn:G; [|congruence].
      destruct (v_path _ _ _ _ V E i g D G) as [q' Q'].
      destruct (steps_fun _ _ _ T (d_literals _ _ _ D) _ _ _ S' _ _ Q') as [Eg _].
      rewrite (IH g q eq_refl) by (rewrite <- Eg; exact S'). cbn [Nat.pred]. destruct i as [|i].
      + cbn in G. injection G as <-. rewrite Eg in Z.
        rewrite (d_size _ _ _ D INITIAL 0 (or_introl eq_refl) (inv_initial_size n mt fs st V)) in Z.
        injection Z as <-. reflexivity.
      + cbn [nth_error] in G. destruct (nth_row st fs xs i g R G) as (x & X & _ & Sx). cbn [Nat.pred].
        rewrite (firstn_snoc xs i x X), concat_app, app_length. cbn [concat]. rewrite app_nil_r.
        assert (Ig : In g (INITIAL :: m_fields mt)).
        { right. apply (v_fields _ _ _ _ V). eapply nth_error_In; eauto. }
        rewrite Eg in Z. rewrite (d_size _ _ _ D g _ Ig Sx) in Z. injection Z as <-. lia.
  Qed.
  Lemma row_first fs st xs i f : inv n mt fs st -> row st fs xs -> nth_error fs i = Some f ->
    first (fields st f) = Some (len (concat (firstn i xs))).
  Proof.
    intros V R Hi. assert (If : In f fs) by (eapply nth_error_In; eauto).
    destruct (v_fields _ _ _ _ V f If) as [If' S]. unfold is_set in S.
    destruct (first (fields st f)) as [p|] eqn:F; [|rewrite andb_false_r in S; discriminate].
    pose proof (inv_world n mt rank T fs st V) as D.
    destruct (v_first _ _ _ _ V _ f p D If' F) as [k K].
    destruct (v_path _ _ _ _ V _ (Datatypes.S i) f D Hi) as [q Q].
    destruct (steps_index _ _ _ T (d_literals _ _ _ D) _ _ _ _ _ K Q) as [-> ->].
    f_equal. apply (row_positions fs st xs _ V R D (Datatypes.S i) f q Hi Q).
  Qed.

  Lemma placed_row st b fs : (forall g, In g fs -> placed st b g) -> exists xs, row st fs xs.
  Proof.
    induction fs as [|f fs IH]; intros P; [exists []; constructor|].
    destruct IH as [xs R]; [intros g I; apply P; now right|].
    destruct (P f (or_introl eq_refl)) as (p & x & u & w & _ & B & S & _). exists (x :: xs). constructor; auto.
  Qed.
  Lemma row_prefix fs st xs b : inv n mt fs st -> row st fs xs -> (forall g, In g fs -> placed st b g) ->
    exists t, b = concat xs ++ t.
  Proof.
    intros V R P.
    assert (G : forall i, (i <= List.length xs)%nat -> exists t, b = concat (firstn i xs) ++ t).
    { induction i as [|i IH]; intros L; [exists b; reflexivity|].
      destruct IH as [t Et]; [lia|].
      assert (Lf : List.length fs = List.length xs) by (clear -R; induction R; cbn; auto).
      assert (L' : (i < List.length fs)%nat) by lia.
      apply nth_error_Some in L'. destruct (nth_error fs i) as [f|] eqn:F; [|congruence].
      destruct (nth_row st fs xs i f R F) as (x & X & B & S).
      destruct (P f) as (p & x' & u & w & Fp & B' & _ & Eb & Lu); [eapply nth_error_In; eauto|].
      rewrite B in B'. apply Ok_inj in B'. subst x'.
      rewrite (row_first fs st xs i f V R F) in Fp. injection Fp as <-.
      assert (u = concat (firstn i xs)).
      { apply Nat2Z.inj in Lu. rewrite Et in Eb. clear -Lu Eb. revert Lu Eb. generalize (concat (firstn i xs)) as a.
        intros a Lu Eb. apply (f_equal (firstn (List.length u))) in Eb.
        rewrite firstn_app_exact in Eb. rewrite Lu, firstn_app_exact in Eb. auto. }
      subst u. exists w. rewrite (firstn_snoc xs i x X), concat_app. cbn [concat]. rewrite app_nil_r, <- app_assoc.
      exact Eb. }
    destruct (G (List.length xs)) as [t Et]; [lia|]. rewrite firstn_all in Et. eauto.
  Qed.

  (** bitstring follows the path *)
  Lemma bits_loop_row fs st xs : inv n mt fs st -> row st fs xs -> forall k i c f x,
    nth_error (INITIAL :: fs) i = Some c -> next_field n mt (mapping st) c = Ok f ->
    bits_loop n mt k st f (concat (firstn i xs)) = Ok x -> exists j, x = concat (firstn j xs).
  Proof.
    intros V R. induction k as [|k IH]; intros i c f x Hc Nx H; cbn [bits_loop] in H.
    - destruct (String.eqb f "" || String.eqb f FINAL); [|discriminate]. apply Ok_inj in H. eauto.
    - destruct (String.eqb_spec f "") as [E|N]; cbn [orb] in H; [apply Ok_inj in H; eauto|].
      destruct (String.eqb_spec f FINAL) as [E|NF]; [apply Ok_inj in H; eauto|].
      destruct (is_set mt st f) eqn:S; [|apply Ok_inj in H; eauto].
      destruct (first (fields st f)) as [p|] eqn:F; [|apply Ok_inj in H; eauto].
      assert (Ic : In c (INITIAL :: fs)) by (eapply nth_error_In; eauto).
      pose proof (inv_path_field n mt fs st V c Ic) as Icf.
      destruct (next_link n mt rank _ c f T Icf Nx N) as (l & I & Sl & Tl & Hl).
      destruct (next_rank n mt rank _ c f T Icf Nx N) as [Lt In'].
      assert (If : In f (m_fields mt)) by auto. clear In'.
      pose proof (inv_set_in n mt rank T fs st V f (or_intror If) S) as [E|Ifs].
      { exfalso. now apply (initial_ne mt rank T f If). }
      assert (Hf : nth_error fs i = Some f).
      { pose proof (inv_world n mt rank T fs st V) as D.
        destruct (v_path _ _ _ _ V _ i c D Hc) as [q Q].
        destruct (proj1 (d_literals _ _ _ D) (NAttr ASize c)) as [z Z].
        assert (Q' : steps mt (world mt st) (Datatypes.S i) f (q + z)).
        { rewrite <- Tl. apply steps_S; [rewrite Sl; exact Q|exact I|now apply (inv_link n mt rank T fs st V)|rewrite Sl; exact Z]. }
        destruct (inv_path_in n mt fs st V f _ (or_intror Ifs) D) as (j & q' & Hj & J).
        destruct (steps_index _ _ _ T (d_literals _ _ _ D) _ _ _ _ _ Q' J) as [<- _]. exact Hj. }
      destruct (nth_row st fs xs i f R Hf) as (y & Y & B & _).
      rewrite (row_first fs st xs i f V R Hf) in F. injection F as <-.
      destruct (Z.leb_spec (len (concat (firstn i xs))) (len (concat (firstn i xs)))) as [_|X]; [|lia].
      rewrite B in H. cbn [bind] in H. binds H. rename x0 into f'.
      rewrite Nat2Z.id, firstn_all in H.
      apply (IH (Datatypes.S i) f f' x Hf); [assumption|].
      rewrite (firstn_snoc xs i y Y), concat_app. cbn [concat]. now rewrite app_nil_r.
  Qed.
  Lemma bitstring_row fs st xs x : inv n mt fs st -> row st fs xs -> bitstring n mt st = Ok x ->
    exists j, x = concat (firstn j xs).
  Proof.
    intros V R H. unfold bitstring in H. binds H.
    apply (bits_loop_row fs st xs V R n 0%nat INITIAL x0 x eq_refl); assumption.
  Qed.
  Lemma concat_firstn_prefix (xs : list bits) j : exists t, concat xs = concat (firstn j xs) ++ t.
  Proof. exists (concat (skipn j xs)). rewrite <- concat_app, firstn_skipn. reflexivity. Qed.
End Parse.
