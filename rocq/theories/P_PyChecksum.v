(** Property C54: checksums of PyRFLX message values. *)
From Coq Require Import String List ZArith Bool Lia.
From Verif Require Import Base Expr ExprEval ExprFacts ExprTotal Ident TypeSpec Bitstring PyValue MsgGraph MsgGraphFacts GenSpec.
From Verif Require Import ChecksumDef PyMessage PyMessageFacts PyMessageSet PyChecksum.
Import ListNotations.
Local Open Scope string_scope.
Local Open Scope list_scope.
Local Open Scope Z_scope.

(** ** Specification *)

(** the name of a validity check *)
Definition is_check (x : name) : Prop := exists f, x = NVar (f ++ suffix)%string.
(** [E] gives the names of fields, attributes and literals the values that the object has recorded *)
Record records (mt : mtype) (st : mvalue) (E : env) : Prop := {
  r_int : forall x, ~ is_check x -> exists z, E x = VInt z;
  r_literal : forall x z, literal mt x = Some z -> ~ is_check (NVar x) -> E (NVar x) = VInt z;
  r_mapping : forall x e, ~ is_check x -> mapping st x = Some e ->
    leaf e /\ eval E e = Some (E x) /\ forall y, e = EVar y -> ~ is_check (NVar y)
}.
(** the supported parameters, see C53_forms *)
Definition supported (mt : mtype) (p : parameter) : Prop :=
  match p with
  | Plain e => exists x neg, In x (m_fields mt) /\ (e = EName (NVar x) neg \/ e = EName (NAttr ASize x) neg)
  | ValueRange lower upper => exists x y neg neg',
      (lower = EName (NAttr AFirst x) neg \/ lower = EAss OAdd [EName (NAttr ALast x) neg; ENum 1]) /\
      (upper = EName (NAttr ALast y) neg' \/ upper = EBin OSub (EName (NAttr AFirst y) neg') (ENum 1))
  end.
(** [a] is the value of the parameter [p] *)
Inductive means (mt : mtype) (st : mvalue) (E : env) : parameter -> argument -> Prop :=
| means_number e z : eval E e = Some (VInt z) -> means mt st E (Plain e) (AInt z)
| means_range l u a b : eval E l = Some (VInt a) -> eval E u = Some (VInt b) -> means mt st E (ValueRange l u) (ARange a b)
| means_value e y neg a : eval E (EName (NVar y) neg) = eval E e -> In y (m_fields mt) -> is_set mt st y = true ->
    argument_value (tv (fields st y)) = Ok a ->
    (forall x s, e = EName (NVar x) s -> mapping st (NVar x) = None -> literal mt x = None -> y = x) ->
    means mt st E (Plain e) a.

(** ** Facts *)

Lemma checksum_name_spec x : forall f, checksum_name x = Some f -> x = (f ++ suffix)%string.
Proof.
  induction x as [|c x IH]; intros f H; cbn [checksum_name] in H.
  - discriminate.
  - destruct (String.eqb_spec (String c x) suffix) as [E|_].
    + injection H as <-. exact E.
    + destruct (checksum_name x) as [p|]; [|discriminate]. injection H as <-. cbn. now rewrite (IH p eq_refl).
Qed.
Lemma checksum_name_complete f : checksum_name (f ++ suffix)%string <> None.
Proof.
  induction f as [|c f IH]; [discriminate|]. cbn [append checksum_name].
  destruct (String.eqb _ suffix); [discriminate|]. destruct (checksum_name (f ++ suffix)); congruence.
Qed.

Section Facts.
  Variables (n : nat) (mt : mtype) (refs : list refinement) (inner : bool -> string -> bits -> res bits).
  Hypothesis plain_fields : forall f, In f (m_fields mt) -> checksum_name f = None.

  Lemma simplified_records st E e e' v : records mt st E -> ok e = true -> (forall x, In x (names e) -> ~ is_check x) ->
    simplified n mt (mapping st) e = Ok e' -> eval E e = Some v -> eval E e' = Some v.
  Proof.
    intros R O N H V. set (D := fun x => ~ is_check x).
    assert (F : forall x w, D x -> subst mt (mapping st) x = Some w -> leaf w /\ eval E w = Some (E x) /\ forall y, w = EVar y -> D (NVar y)).
    { intros x w Dx S. unfold subst in S. destruct (mapping st x) as [w'|] eqn:M.
      - injection S as <-. exact (r_mapping _ _ _ R x w' Dx M).
      - destruct x as [x|a x]; [|discriminate]. destruct (literal mt x) as [z|] eqn:L; [|discriminate]. injection S as <-.
        split; [left; eauto|]. split; [cbn; now rewrite (r_literal _ _ _ R x z L Dx)|discriminate]. }
    assert (K : bind (substituted (neg (simpv n)) (subst mt (mapping st)) e) (fun e1 =>
       bind (substituted (neg (simpv n)) (subst mt (mapping st)) e1) (fun e2 => simpv n e2)) = Ok e' -> eval E e' = Some v).
    { clear H. intros H.
      destruct (substituted (neg (simpv n)) (subst mt (mapping st)) e) as [e1|] eqn:S1; cbn [bind] in H; [|discriminate].
      destruct (substituted (neg (simpv n)) (subst mt (mapping st)) e1) as [e2|] eqn:S2; cbn [bind] in H; [|discriminate].
      destruct (subst_eval (simpv n) (subst mt (mapping st)) E D F e e1 N S1) as (V1 & N1 & _ & _ & O1).
      destruct (subst_eval (simpv n) (subst mt (mapping st)) E D F e1 e2 N1 S2) as (V2 & _ & _ & _ & O2).
      destruct (simplify_good expr_eqb expr_eqb_sound n _ _ H) as (Q & _).
      destruct (Q (O2 (O1 O))) as [_ R']. apply R'. congruence. }
    unfold simplified in H. destruct e; auto; apply Ok_inj in H; now subst e'.
  Qed.

  Lemma attr_no_check a x : ~ is_check (NAttr a x).
  Proof. intros (f & E). discriminate. Qed.
  Lemma field_no_check x : In x (m_fields mt) -> ~ is_check (NVar x).
  Proof. intros I (f & E). injection E as ->. apply (checksum_name_complete f). now apply plain_fields. Qed.

  Lemma argument_means st E p e a : records mt st E -> supported mt p -> evaluate n mt st p = Ok e ->
    argument_of mt st (p, e) = Ok (p, a) -> means mt st E p a.
  Proof.
    intros R S V A. unfold argument_of in A. cbn [snd fst] in A. destruct p as [x|l u]; cbn [evaluate] in V.
    - destruct (simplified n mt (mapping st) x) as [x'|] eqn:Q; cbn [bind] in V; [|discriminate]. apply Ok_inj in V. subst e.
      destruct S as (f & neg & I & S).
      assert (N : forall w, In w (names x) -> ~ is_check w).
      { destruct S as [-> | ->]; intros w [<-|[]]; [now apply field_no_check|apply attr_no_check]. }
      assert (O : ok x = true) by (destruct S as [-> | ->]; reflexivity).
      assert (D : exists v, eval E x = Some v).
      { destruct S as [-> | ->]; cbn [eval].
        - destruct (r_int _ _ _ R (NVar f) (field_no_check f I)) as [z ->]. destruct neg; cbn; eauto.
        - destruct (r_int _ _ _ R (NAttr ASize f) (attr_no_check _ _)) as [z ->]. destruct neg; cbn; eauto. }
      destruct D as [v D]. pose proof (simplified_records st E x x' v R O N Q D) as W.
      destruct x' as [ | |z|[y|at_ y] s| | | | ]; try discriminate A.
      + apply Ok_inj in A. injection A as <-. apply means_number. cbn in W. congruence.
      + destruct (memf y (m_fields mt)) eqn:M; cbn [andb] in A; [|discriminate]. apply memf_iff in M.
        destruct (is_set mt st y) eqn:IS; [|discriminate].
        destruct (argument_value (tv (fields st y))) as [a'|] eqn:AV; cbn [bind] in A; [|discriminate].
        apply Ok_inj in A. injection A as <-. apply (means_value mt st E x y s); auto.
        * congruence.
        * intros x0 s0 -> M0 L0. unfold simplified in Q. cbn [substituted] in Q. unfold subst in Q. rewrite M0, L0 in Q.
          destruct s0; cbn [substituted bind] in Q; rewrite M0, L0 in Q; cbn [bind] in Q;
            (destruct n as [|n']; [discriminate|]); apply Ok_inj in Q; congruence.
    - destruct (simplified n mt (mapping st) l) as [l'|] eqn:QL; cbn [bind] in V; [|discriminate].
      destruct (simplified n mt (mapping st) u) as [u'|] eqn:QU; cbn [bind] in V; [|discriminate]. apply Ok_inj in V. subst e.
      destruct l' as [ | |za| | | | | ]; try discriminate A. destruct u' as [ | |zb| | | | | ]; try discriminate A.
      apply Ok_inj in A. injection A as <-. destruct S as (x & y & neg & neg' & SL & SU).
      destruct (r_int _ _ _ R (NAttr AFirst x) (attr_no_check _ _)) as [z1 Z1].
      destruct (r_int _ _ _ R (NAttr ALast x) (attr_no_check _ _)) as [z2 Z2].
      destruct (r_int _ _ _ R (NAttr AFirst y) (attr_no_check _ _)) as [z3 Z3].
      destruct (r_int _ _ _ R (NAttr ALast y) (attr_no_check _ _)) as [z4 Z4].
      assert (DL : exists v, eval E l = Some v).
      { destruct SL as [-> | ->]; cbn; rewrite ?Z1, ?Z2; destruct neg; cbn; eauto. }
      assert (DU : exists v, eval E u = Some v).
      { destruct SU as [-> | ->]; cbn; rewrite ?Z3, ?Z4; destruct neg'; cbn; eauto. }
      destruct DL as [vl DL], DU as [vu DU].
      assert (OL : ok l = true) by (destruct SL as [-> | ->]; reflexivity).
      assert (OU : ok u = true) by (destruct SU as [-> | ->]; reflexivity).
      assert (NL : forall w, In w (names l) -> ~ is_check w).
      { destruct SL as [-> | ->]; intros w J; cbn in J; destruct J as [<-|[]]; apply attr_no_check. }
      assert (NU : forall w, In w (names u) -> ~ is_check w).
      { destruct SU as [-> | ->]; intros w J; cbn in J; destruct J as [<-|[]]; apply attr_no_check. }
      pose proof (simplified_records st E l _ vl R OL NL QL DL) as WL.
      pose proof (simplified_records st E u _ vu R OU NU QU DU) as WU.
      cbn in WL, WU. apply means_range; congruence.
  Qed.

  Lemma argument_first st pe q : argument_of mt st pe = Ok q -> fst q = fst pe.
  Proof.
    unfold argument_of. destruct (snd pe) as [[ | |z|[x|a x] s| | | | ]|l u]; try discriminate.
    - intros H. apply Ok_inj in H. now subst.
    - destruct (_ && _); [|discriminate]. destruct (argument_value _); cbn [bind]; [|discriminate].
      intros H. apply Ok_inj in H. now subst.
    - destruct l; try discriminate. destruct u; try discriminate. intros H. apply Ok_inj in H. now subst.
  Qed.

  (** what the arguments of a settable checksum are *)
  Lemma arguments_mean nm st E ps : forall l args, records mt st E -> Forall (supported mt) ps ->
    settable n mt nm st ps = Ok (Some l) -> mapr (argument_of mt st) l = Ok args ->
    map fst args = ps /\ Forall (fun pa => means mt st E (fst pa) (snd pa)) args.
  Proof.
    induction ps as [|p ps IH]; intros l args R S H A; cbn [settable] in H.
    - apply Ok_inj in H. injection H as <-. apply Ok_inj in A. subst. auto.
    - inversion S as [|? ? S1 S2]; subst.
      destruct (evaluate n mt st p) as [e|] eqn:V; cbn [bind] in H; [|discriminate].
      destruct (available n mt nm st p e) as [b|] eqn:B; cbn [bind] in H; [|discriminate].
      destruct b; [|apply Ok_inj in H; discriminate].
      destruct (settable n mt nm st ps) as [r|] eqn:Q; cbn [bind] in H; [|discriminate].
      destruct r as [l'|]; apply Ok_inj in H; [|discriminate]. injection H as <-.
      cbn [mapr] in A. destruct (argument_of mt st (p, e)) as [q|] eqn:AO; cbn [bind] in A; [|discriminate].
      destruct (mapr (argument_of mt st) l') as [qs|] eqn:AS; cbn [bind] in A; [|discriminate]. apply Ok_inj in A. subst args.
      destruct (IH l' qs R S2 eq_refl AS) as [I1 I2]. pose proof (argument_first _ _ _ AO) as F. cbn [fst] in F.
      cbn [map]. split; [now rewrite F, I1|]. constructor; [|exact I2].
      destruct q as [q1 q2]. cbn in F. subst q1. exact (argument_means st E p e q2 R S1 V AO).
  Qed.

  Lemma same_value_spec x y : same_value x y = true -> y = Some x.
  Proof.
    assert (Z : forall a b, zlist_eqb a b = true -> a = b).
    { induction a as [|u a IH]; intros [|w b] H; try discriminate; [reflexivity|]. cbn in H.
      apply andb_true_iff in H as [H1 H2]. apply Z.eqb_eq in H1. f_equal; auto. }
    destruct x, y as [[]|]; cbn; intros H; try discriminate.
    - apply Z in H. now subst.
    - apply Z.eqb_eq in H. now subst.
    - apply String.eqb_eq in H. now subst.
  Qed.

  Lemma all_valid nm st cs : checksums_valid n mt nm st cs = Ok true -> forall k, In k cs ->
    exists l x, settable n mt nm st (c_params k) = Ok (Some l) /\ calculate n mt st k l = Ok x /\
      get_c n mt st (c_field k) = Ok (Some x).
  Proof.
    induction cs as [|c cs IH]; intros H k I; [destruct I|]. cbn [checksums_valid] in H.
    destruct (settable n mt nm st (c_params c)) as [s|] eqn:S; cbn [bind] in H; [|discriminate].
    destruct s as [l|]; [|apply Ok_inj in H; discriminate].
    destruct (calculate n mt st c l) as [x|] eqn:C; cbn [bind] in H; [|discriminate].
    destruct (get_c n mt st (c_field c)) as [y|] eqn:G; cbn [bind] in H; [|discriminate].
    destruct (same_value x y) eqn:Q; [|apply Ok_inj in H; discriminate].
    destruct I as [<-|I]; [|now apply IH]. apply same_value_spec in Q. subst y. eauto.
  Qed.

  (** ** Fields that a set does not touch *)

  Lemma core_other nm st f x st' r g : set_core n mt refs inner nm st f x = (st', r) -> g <> f -> fields st' g = fields st g.
  Proof.
    intros H N. apply String.eqb_neq in N. unfold set_core in H.
    destruct (memf f (accessible st)); cbn [negb] in H; [|now injection H as <- _].
    destruct (get_first n mt st f) as [[p|]|]; [|destruct (get_size n mt st f); now injection H as <- _|now injection H as <- _].
    destruct (get_size n mt st f) as [size|]; [|now injection H as <- _].
    set (st2 := match size with Some z => _ | None => _ end) in H.
    assert (F2 : fields st2 g = fields st g) by (destruct size; cbn; unfold upd; now rewrite N).
    destruct (find_refinement n mt st2 f _ _) as [ref|]; [|injection H as <- _; exact F2].
    set (st3 := set_tv st2 f _) in H.
    assert (F3 : fields st3 g = fields st g) by (unfold st3; cbn; unfold upd; now rewrite N).
    destruct (tv_set n inner (typ mt f) (tv (fields st3 f)) x) as [v|]; [|injection H as <- _; exact F3].
    assert (F4 : fields (set_tv st3 f v) g = fields st g) by (cbn; unfold upd; now rewrite N).
    destruct (update_mapping_c n mt nm (set_tv st3 f v)) as [st5|] eqn:U; [|injection H as <- _; exact F4].
    assert (F5 : fields st5 g = fields st g).
    { unfold update_mapping_c in U. destruct (update_mapping n mt (set_tv st3 f v)) as [st6|] eqn:U'; cbn [bind] in U; [|discriminate].
      apply Ok_inj in U. subst st5. cbn [fields]. destruct (update_fields n mt _ _ U') as [-> _]. exact F4. }
    destruct (all_false n mt (mapping st5) (outgoing_ mt f)) as [[]|]; injection H as <- _; try exact F5.
    cbn. unfold upd. rewrite N. exact F5.
  Qed.

  (** a scalar field keeps its value and has a position *)
  Definition holds_scalar (st : mvalue) (f : field) (v : sval) : Prop :=
    exists p, fields st f = mkField (VScalar (Some v)) (Some p).
  Lemma preset_loop_scalar f v k : forall st nxt acc st' r, preset_loop n mt k st nxt acc = (st', r) ->
    holds_scalar st f v -> holds_scalar st' f v.
  Proof.
    induction k as [|k IH]; intros st nxt acc st' r H S; cbn [preset_loop] in H;
      (destruct (String.eqb nxt "" || String.eqb nxt FINAL); [now injection H as <- _|]); [now injection H as <- _|].
    destruct (get_first n mt st nxt) as [[p|]|]; [|destruct (get_size n mt st nxt); now injection H as <- _|now injection H as <- _].
    destruct (get_size n mt st nxt) as [size|]; [|now injection H as <- _].
    match type of H with match ?a with _ => _ end = _ => destruct a as [b|] end; [|now injection H as <- _].
    destruct size as [z|]; [|now injection H as <- _].
    assert (S1 : holds_scalar (set_first st nxt (Some p)) f v).
    { destruct S as [q S]. unfold holds_scalar. cbn. unfold upd. destruct (String.eqb_spec f nxt) as [<-|]; [|eauto].
      rewrite S. cbn. eauto. }
    set (st2 := if is_opaque _ then _ else _) in H.
    assert (S2 : holds_scalar st2 f v).
    { unfold st2. destruct S1 as [q S1]. destruct (is_opaque _) eqn:O; [|eexists; exact S1]. unfold holds_scalar. cbn [set_tv fields]. unfold upd at 1.
      destruct (String.eqb_spec f nxt) as [E|]; [|eexists; exact S1]. subst nxt. rewrite S1 in *. discriminate O. }
    destruct (is_set mt st2 nxt && is_opaque (tv (fields st2 nxt))) eqn:O.
    - injection H as <- _. unfold holds_scalar. cbn [set_tv fields]. unfold upd at 1. destruct (String.eqb_spec f nxt) as [E|N].
      + subst nxt. destruct S2 as [q S2]. rewrite S2 in O. rewrite andb_comm in O. discriminate O.
      + cbn. unfold upd. apply String.eqb_neq in N. rewrite N. exact S2.
    - destruct (next_field n mt (mapping st2) nxt) as [nxt'|]; [|now injection H as <- _]. exact (IH _ _ _ _ _ H S2).
  Qed.
  Lemma preset_scalar f v st g st' r : preset_fields n mt st g = (st', r) -> holds_scalar st f v -> holds_scalar st' f v.
  Proof.
    unfold preset_fields. intros H S. destruct (next_field n mt (mapping st) g) as [nxt|]; [|now injection H as <- _].
    destruct (preset_loop n mt n st nxt []) as [st1 r1] eqn:L. pose proof (preset_loop_scalar f v _ _ _ _ _ _ L S) as S1.
    destruct r1; injection H as <- _; exact S1.
  Qed.

  (** the recorded value of a field is its value, and that of an attribute a number *)
  Definition recorded (st : mvalue) : Prop := forall x e, ~ is_check x -> mapping st x = Some e ->
    match x with
    | NVar g => In g (INITIAL :: m_fields mt) /\ exists v, tv (fields st g) = VScalar (Some v) /\ e = sval_expr v
    | NAttr _ _ => exists z, e = ENum z
    end.
  Lemma core_recorded nm st f x st' u : set_core n mt refs inner nm st f x = (st', Ok u) -> recorded st'.
  Proof.
    intros H. unfold set_core in H.
    destruct (memf f (accessible st)); cbn [negb] in H; [|discriminate].
    destruct (get_first n mt st f) as [[p|]|]; [|destruct (get_size n mt st f); discriminate|discriminate].
    destruct (get_size n mt st f) as [size|]; [|discriminate].
    set (st2 := match size with Some z => _ | None => _ end) in H.
    destruct (find_refinement n mt st2 f _ _) as [ref|]; [|discriminate].
    set (st3 := set_tv st2 f _) in H.
    destruct (tv_set n inner (typ mt f) (tv (fields st3 f)) x) as [v|]; [|discriminate].
    destruct (update_mapping_c n mt nm (set_tv st3 f v)) as [st5|] eqn:U; [|discriminate].
    destruct (all_false n mt (mapping st5) (outgoing_ mt f)) as [[]|]; [discriminate| |discriminate]. injection H as <-.
    unfold update_mapping_c in U. destruct (update_mapping n mt (set_tv st3 f v)) as [st6|] eqn:U'; cbn [bind] in U; [|discriminate].
    apply Ok_inj in U. subst st5. unfold recorded. cbn [fields mapping]. intros y e NC M.
    unfold update_mapping in U'. set (st4 := set_tv st3 f v) in *. destruct (next_field n mt _ INITIAL) as [nxt|]; cbn [bind] in U'; [|discriminate].
    destruct (message_last n mt n st4 (field_mapping mt st4) nxt) as [z|]; cbn [bind] in U'; [|discriminate]. apply Ok_inj in U'. subst st6.
    cbn [fields mapping] in *. destruct y as [g|a g].
    - assert (CN : checksum_name g = None).
      { destruct (checksum_name g) as [h|] eqn:Q; [|reflexivity]. exfalso. apply NC. exists h. f_equal. now apply checksum_name_spec. }
      rewrite CN in M. assert (M' : field_mapping mt st4 (NVar g) = Some e) by (destruct z; exact M). clear M.
      unfold field_mapping in M'. destruct (memf g (INITIAL :: m_fields mt)) eqn:I; [|discriminate]. apply memf_iff in I.
      destruct (tv (fields st4 g)) as [[w|]| | | ]; try discriminate. destruct (is_set mt st4 g); [|discriminate].
      injection M' as <-. eauto.
    - assert (M' : (exists q, e = ENum q) \/ field_mapping mt st4 (NAttr a g) = Some e).
      { destruct z as [q|]; [|auto]. destruct a; auto; destruct (String.eqb g "message"); auto; left; injection M as <-; eauto. }
      destruct M' as [M'|M']; [exact M'|]. unfold field_mapping, num_expr in M'.
      destruct (memf g (INITIAL :: m_fields mt)).
      + destruct a; try discriminate M'.
        * destruct (typ mt g); try (injection M' as <-; eauto; fail); destruct (is_set mt st4 g); try discriminate;
            destruct (size_of mt st4 g); try discriminate; injection M' as <-; eauto.
        * destruct (first (fields st4 g)); try discriminate. injection M' as <-. eauto.
        * destruct (last mt st4 g); try discriminate. injection M' as <-. eauto.
      + destruct a; try discriminate M'. destruct (String.eqb g "message"); [|discriminate]. injection M' as <-. eauto.
  Qed.
  Lemma preset_recorded st f st' r : preset_fields n mt st f = (st', r) -> recorded st -> recorded st'.
  Proof.
    intros H R x e NC M. destruct (preset_kept n mt _ _ _ _ H) as (E & K & _). rewrite E in M.
    pose proof (R x e NC M) as Q. destruct x as [g|a g]; [|exact Q]. destruct Q as (I & v & T & ->). split; [exact I|].
    specialize (K g). rewrite T in K. destruct (tv (fields st' g)) as [w| | | ]; cbn in K; try contradiction. subst w. eauto.
  Qed.
  Lemma loop_recorded nm : forall todo st st' cs u, checksum_loop n mt refs inner nm st todo = (st', cs, Ok u) ->
    recorded st -> recorded st'.
  Proof.
    induction todo as [|c todo IH]; intros st st' cs u H R; cbn [checksum_loop] in H; [now injection H as <- _|].
    assert (NEXT : forall st1 c1, recorded st1 ->
      (let '(st2, t', r) := checksum_loop n mt refs inner nm st1 todo in (st2, c1 :: t', r)) = (st', cs, Ok u) -> recorded st').
    { intros st1 c1 R1 H1. destruct (checksum_loop n mt refs inner nm st1 todo) as [[st2 t'] r2] eqn:L. injection H1 as <- _ ->. eauto. }
    destruct (negb _ || _); [|eapply NEXT; eauto].
    destruct (settable n mt nm st (c_params c)) as [[l|]|]; [|eapply NEXT; eauto|discriminate].
    destruct (set_checksum n mt refs inner nm st c l) as [[st1 c1] r1] eqn:Q. destruct r1 as [u1|]; [|discriminate].
    apply (NEXT st1 c1); [|exact H]. unfold set_checksum in Q.
    destruct (assign_zero n mt (c_field c)) as [v|]; [|discriminate].
    match type of Q with match ?x with _ => _ end = _ => destruct x as [y|] end; [|discriminate].
    match type of Q with (let (_, _) := ?x in _) = _ => destruct x as [st2 r2] eqn:Q' end. injection Q as <- _ ->.
    exact (core_recorded _ _ _ _ _ _ Q').
  Qed.

  Lemma set_checksum_other nm st c l st' c' r g : set_checksum n mt refs inner nm st c l = (st', c', r) ->
    c_field c' = c_field c /\ c_params c' = c_params c /\ c_function c' = c_function c /\
    (g <> c_field c -> fields st' g = fields st g).
  Proof.
    unfold set_checksum. intros H. destruct (assign_zero n mt (c_field c)) as [v|]; [|injection H as <- <- _; auto].
    match type of H with match ?x with _ => _ end = _ => destruct x as [y|] end.
    - match type of H with (let (_, _) := ?x in _) = _ => destruct x as [st2 r2] eqn:Q end. injection H as <- <- _. cbn.
      repeat split. intros N. rewrite (core_other _ _ _ _ _ _ g Q N). cbn. unfold upd. apply String.eqb_neq in N. now rewrite N.
    - injection H as <- <- _. cbn. repeat split. intros N. unfold upd. apply String.eqb_neq in N. now rewrite N.
  Qed.

  Lemma loop_kept nm f v : (exists t i, typ mt f = FScalar t i) ->
    forall todo st st' cs r, checksum_loop n mt refs inner nm st todo = (st', cs, r) -> holds_scalar st f v ->
    (forall k, In k todo -> c_field k = f -> c_calculated k = false) ->
    holds_scalar st' f v /\ forall k, In k todo -> c_field k = f -> In k cs.
  Proof.
    intros (t & i & TY). induction todo as [|c todo IH]; intros st st' cs r H S M; cbn [checksum_loop] in H.
    - injection H as <- <- _. split; [exact S|]. intros k [].
    - assert (M' : forall k, In k todo -> c_field k = f -> c_calculated k = false) by (intros k I; apply M; now right).
      assert (NEXT : forall st1 c1, holds_scalar st1 f v -> (c_field c = f -> c1 = c) ->
        (let '(st2, t', r) := checksum_loop n mt refs inner nm st1 todo in (st2, c1 :: t', r)) = (st', cs, r) ->
        holds_scalar st' f v /\ forall k, In k (c :: todo) -> c_field k = f -> In k cs).
      { intros st1 c1 S1 E1 H1. destruct (checksum_loop n mt refs inner nm st1 todo) as [[st2 t'] r2] eqn:L. injection H1 as <- <- _.
        destruct (IH _ _ _ _ L S1 M') as [I1 I2]. split; [exact I1|]. intros k [<-|I] F; [left; now apply E1|right; auto]. }
      destruct (negb (is_set mt st (c_field c)) || c_calculated c) eqn:C; [|eapply NEXT; eauto].
      assert (NF : c_field c <> f).
      { intros E. rewrite (M c (or_introl eq_refl) E), orb_false_r, E in C. destruct S as [p S].
        unfold is_set, size_of in C. rewrite S, TY in C. cbn in C. discriminate C. }
      destruct (settable n mt nm st (c_params c)) as [[l|]|]; [| |injection H as <- <- _; split; [exact S|]; intros k I _; exact I].
      2:{ eapply NEXT; eauto. }
      destruct (set_checksum n mt refs inner nm st c l) as [[st1 c1] r1] eqn:Q.
      destruct (set_checksum_other _ _ _ _ _ _ _ f Q) as (_ & _ & _ & K).
      assert (S1 : holds_scalar st1 f v) by (unfold holds_scalar; rewrite K by congruence; exact S).
      destruct r1.
      + apply (NEXT st1 c1 S1); [congruence|exact H].
      + injection H as <- <- _. split; [exact S1|]. intros k [<-|I] F; [congruence|right; exact I].
  Qed.
End Facts.

(** ** C54 *)

(** A message is valid only if each of its checksum fields has the value that the checksum
    function gives for the bytes of the message and the values of its parameters. *)
Theorem C54_valid : forall n mt c k E, (forall f, In f (m_fields mt) -> checksum_name f = None) ->
  valid_message_c n mt c = Ok true -> In k (sums c) -> Forall (supported mt) (c_params k) -> records mt (base c) E ->
  exists fn bytes args x, c_function k = Some fn /\ unchecked_bytestring n mt (base c) = Ok bytes /\
    map fst args = c_params k /\ Forall (fun pa => means mt (base c) E (fst pa) (snd pa)) args /\
    got (tv (fields (base c) (c_field k))) = Ok (Some x) /\ x = fn bytes args.
Proof.
  intros n mt c k E PF H I S R. unfold valid_message_c in H.
  destruct (valid_message n mt (base c)) as [b|]; cbn [bind] in H; [|discriminate].
  destruct b; [|apply Ok_inj in H; discriminate].
  destruct (all_valid n mt _ _ _ H k I) as (l & x & SE & CA & G). unfold calculate in CA.
  destruct (c_function k) as [fn|]; [|discriminate].
  destruct (mapr (argument_of mt (base c)) l) as [args|] eqn:A; cbn [bind] in CA; [|discriminate].
  destruct (unchecked_bytestring n mt (base c)) as [bytes|] eqn:U; cbn [bind] in CA; [|discriminate]. apply Ok_inj in CA.
  destruct (arguments_mean n mt PF _ _ E _ _ _ R S SE A) as [A1 A2].
  exists fn, bytes, args, x. repeat split; auto. unfold get_c in G.
  destruct (valid_fields n mt (base c)) as [vf|]; cbn [bind] in G; [|discriminate].
  destruct (memf (c_field k) vf); [exact G|discriminate].
Qed.

(** The bytes that a message value gives out carry the checksums of exactly these bytes. *)
Theorem C54_bytestring : forall n mt c bytes k E, (forall f, In f (m_fields mt) -> checksum_name f = None) ->
  bytestring_c n mt c = Ok bytes -> In k (sums c) -> Forall (supported mt) (c_params k) -> records mt (base c) E ->
  exists fn args, c_function k = Some fn /\ map fst args = c_params k /\
    Forall (fun pa => means mt (base c) E (fst pa) (snd pa)) args /\
    got (tv (fields (base c) (c_field k))) = Ok (Some (fn bytes args)).
Proof.
  intros n mt c bytes k E PF H I S R. unfold bytestring_c in H.
  destruct (valid_message_c n mt c) as [b|] eqn:V; cbn [bind] in H; [|discriminate]. destruct b; [|discriminate].
  destruct (C54_valid n mt c k E PF V I S R) as (fn & bs & args & x & F & U & A1 & A2 & G & ->).
  rewrite U in H. apply Ok_inj in H. subst bs. exists fn, args. auto.
Qed.

Lemma set_recorded n mt refs inner c f x c' u : set_c n mt refs inner c f x = (c', Ok u) -> recorded mt (base c').
Proof.
  intros H. unfold set_c in H.
  destruct (set_core n mt refs inner (names_of c) (base c) f x) as [st [u0|]] eqn:C; [|discriminate].
  destruct (preset_fields n mt st f) as [st1 [u1|]] eqn:P; [|discriminate].
  destruct (checksum_loop n mt refs inner (names_of c) st1 (sums c)) as [[st2 cs] r2] eqn:L. injection H as <- ->. cbn [base].
  eapply loop_recorded; [exact L|]. eapply preset_recorded; [exact P|]. eapply core_recorded; eauto.
Qed.
(** After a field was set, the recorded values of the fields are their values; so the numbers
    that are passed to the function are the values of the fields. *)
Theorem C54_recorded : forall n mt refs inner c f x c' g e,
  set_c n mt refs inner c f x = (c', Ok tt) -> checksum_name g = None -> mapping (base c') (NVar g) = Some e ->
  exists v, tv (fields (base c') g) = VScalar (Some v) /\ e = sval_expr v.
Proof.
  intros n mt refs inner c f x c' g e H CN M. destruct (set_recorded _ _ _ _ _ _ _ _ _ H (NVar g) e) as [_ Q]; auto.
  intros (h & E). injection E as ->. exact (checksum_name_complete h CN).
Qed.

(** A checksum that was set by hand is kept when other fields are set, whatever happens. *)
Theorem C54_kept : forall n mt refs inner c f x c' r k v p t i,
  set_c n mt refs inner c f x = (c', r) -> In k (sums c) -> NoDup (map c_field (sums c)) ->
  c_calculated k = false -> c_field k <> f -> typ mt (c_field k) = FScalar t i ->
  fields (base c) (c_field k) = mkField (VScalar (Some v)) (Some p) ->
  In k (sums c') /\ exists q, fields (base c') (c_field k) = mkField (VScalar (Some v)) (Some q).
Proof.
  intros n mt refs inner c f x c' r k v p t i H I ND M N TY F.
  assert (U : forall k', In k' (sums c) -> c_field k' = c_field k -> k' = k).
  { intros k' I' E. clear -ND I I' E. induction (sums c) as [|a l IH]; [destruct I|]. inversion ND as [|? ? N1 N2]; subst.
    destruct I as [<-|I], I' as [<-|I']; auto.
    - exfalso. apply N1. rewrite <- E. now apply in_map.
    - exfalso. apply N1. rewrite E. now apply in_map. }
  unfold set_c in H. destruct (set_core n mt refs inner (names_of c) (base c) f x) as [st r0] eqn:C.
  assert (S1 : holds_scalar st (c_field k) v).
  { exists p. now rewrite (core_other n mt refs inner _ _ _ _ _ _ _ C N). }
  destruct r0 as [u|]; [|injection H as <- _; auto].
  destruct (preset_fields n mt st f) as [st1 r1] eqn:P. pose proof (preset_scalar n mt _ _ _ _ _ _ P S1) as S2.
  destruct r1; [|injection H as <- _; auto].
  destruct (checksum_loop n mt refs inner (names_of c) st1 (sums c)) as [[st2 cs] r2] eqn:L. injection H as <- _.
  destruct (loop_kept n mt refs inner (names_of c) (c_field k) v) with (todo := sums c) (st := st1) (st' := st2) (cs := cs) (r := r2)
    as [S3 K]; auto; [eauto|].
  intros k' I' E. now rewrite (U k' I' E).
Qed.

(** ** More than one checksum *)

Lemma set_function_fails f fn cs : NoDup (map c_field cs) -> (2 <= List.length cs)%nat ->
  exists cs' w, set_function f fn cs = (cs', Err w).
Proof.
  intros ND L. destruct cs as [|a [|b t]]; cbn in L; try lia. inversion ND as [|? ? N1 _]; subst. cbn [set_function].
  destruct (String.eqb_spec (c_field a) f) as [E|]; [|eauto].
  destruct (String.eqb_spec (c_field b) f) as [E'|]; [|eauto]. exfalso. apply N1. left. congruence.
Qed.
(** With two checksum fields no checksum function can be set without an error. *)
Theorem C54_two_functions : forall mt c f fn t, NoDup (map c_field (sums c)) -> (2 <= List.length (sums c))%nat ->
  exists c' w, set_checksum_function mt c ((f, fn) :: t) = (c', Err w).
Proof.
  intros mt c f fn t ND L. cbn [set_checksum_function]. destruct (memf f (m_fields mt)); cbn [negb]; [|eauto].
  destruct (set_function_fails f fn _ ND L) as (cs & w & ->). eauto.
Qed.

(** the calls of a message value that change it *)
Inductive call := CSet (f : field) (x : pyval) | CParse (b : bits) | CFunctions (fns : list (field * cfunction)).
Definition run (n : nat) (mt : mtype) (refs : list refinement) (inner : bool -> string -> bits -> res bits)
    (c : cvalue) (o : call) : cvalue :=
  match o with
  | CSet f x => fst (set_c n mt refs inner c f x)
  | CParse b => match parse_c n mt refs inner c b with Ok c' => c' | Err _ => c end
  | CFunctions fns => fst (set_checksum_function mt c fns)
  end.

Definition only_first (cs : list checksum) : Prop :=
  NoDup (map c_field cs) /\ match cs with [] => True | _ :: t => Forall (fun k => c_function k = None) t end.

Lemma loop_shape n mt refs inner nm : forall todo st st' cs r, checksum_loop n mt refs inner nm st todo = (st', cs, r) ->
  map c_field cs = map c_field todo /\ map c_function cs = map c_function todo.
Proof.
  induction todo as [|c todo IH]; intros st st' cs r H; cbn [checksum_loop] in H; [now injection H as _ <- _|].
  assert (NEXT : forall st1 c1, c_field c1 = c_field c -> c_function c1 = c_function c ->
    (let '(st2, t', r) := checksum_loop n mt refs inner nm st1 todo in (st2, c1 :: t', r)) = (st', cs, r) ->
    map c_field cs = map c_field (c :: todo) /\ map c_function cs = map c_function (c :: todo)).
  { intros st1 c1 E1 E2 H1. destruct (checksum_loop n mt refs inner nm st1 todo) as [[st2 t'] r2] eqn:L. injection H1 as _ <- _.
    destruct (IH _ _ _ _ L) as [I1 I2]. cbn [map]. now rewrite E1, E2, I1, I2. }
  destruct (negb _ || _); [|eapply NEXT; eauto].
  destruct (settable n mt nm st (c_params c)) as [[l|]|]; [|eapply NEXT; eauto|now injection H as _ <- _].
  destruct (set_checksum n mt refs inner nm st c l) as [[st1 c1] r1] eqn:Q.
  destruct (set_checksum_other n mt refs inner _ _ _ _ _ _ _ "" Q) as (E1 & _ & E2 & _).
  destruct r1; [exact (NEXT _ _ E1 E2 H)|]. injection H as _ <- _. cbn [map]. now rewrite E1, E2.
Qed.
Lemma only_first_shape cs cs' : map c_field cs' = map c_field cs -> map c_function cs' = map c_function cs -> only_first cs -> only_first cs'.
Proof.
  intros E1 E2 [N F]. split; [congruence|]. destruct cs as [|a cs], cs' as [|a' cs']; try discriminate; [exact I|].
  cbn in E2. injection E2 as _ E2. clear -E2 F. revert cs' E2. induction F as [|k t H F IH]; intros [|k' t'] E2; try discriminate; constructor.
  - cbn in E2. injection E2 as E2 _. congruence.
  - cbn in E2. injection E2 as _ E2. auto.
Qed.
Lemma set_function_shape f fn : forall cs cs' r, set_function f fn cs = (cs', r) -> map c_field cs' = map c_field cs.
Proof.
  induction cs as [|a t IH]; intros cs' r H; cbn [set_function] in H; [now injection H as <- _|].
  destruct (String.eqb (c_field a) f); [|now injection H as <- _].
  destruct (set_function f fn t) as [t' r'] eqn:Q. injection H as <- _. cbn. now rewrite (IH _ _ eq_refl).
Qed.
Lemma set_function_first f fn cs cs' r : set_function f fn cs = (cs', r) -> only_first cs -> only_first cs'.
Proof.
  intros H [N F]. pose proof (set_function_shape _ _ _ _ _ H) as SH. split; [now rewrite SH|].
  destruct cs as [|a t]; cbn [set_function] in H; [now injection H as <- _|].
  destruct (String.eqb_spec (c_field a) f) as [E|]; [|now injection H as <- _].
  destruct (set_function f fn t) as [t' r'] eqn:Q. injection H as <- _. inversion N as [|? ? N1 _]; subst.
  destruct t as [|b t]; cbn [set_function] in Q; [injection Q as <- _; constructor|].
  destruct (String.eqb_spec (c_field b) (c_field a)) as [E'|]; [exfalso; apply N1; now left|]. now injection Q as <- _.
Qed.
Lemma set_shape n mt refs inner c f x c' r : set_c n mt refs inner c f x = (c', r) ->
  map c_field (sums c') = map c_field (sums c) /\ map c_function (sums c') = map c_function (sums c).
Proof.
  unfold set_c. destruct (set_core n mt refs inner (names_of c) (base c) f x) as [st [u|]]; [|intros H; now injection H as <- _].
  destruct (preset_fields n mt st f) as [st1 [u1|]]; [|intros H; now injection H as <- _].
  destruct (checksum_loop n mt refs inner (names_of c) st1 (sums c)) as [[st2 cs] r2] eqn:L. intros H. injection H as <- _. cbn [sums].
  exact (loop_shape _ _ _ _ _ _ _ _ _ _ L).
Qed.
Lemma parse_shape n mt refs inner b k : forall c f l p c', parse_loop_c n mt refs inner k c b f l p = Ok c' ->
  map c_field (sums c') = map c_field (sums c) /\ map c_function (sums c') = map c_function (sums c).
Proof.
  induction k as [|k IH]; intros c f l p c' H; cbn [parse_loop_c] in H;
    (destruct (String.eqb f FINAL); [apply Ok_inj in H; now subst|]); (destruct (String.eqb f ""); [discriminate|]); [discriminate|].
  assert (STEP : forall c0 x, sums c0 = sums c -> forall c1, try_set_c n mt refs inner c0 f x = Ok c1 ->
    map c_field (sums c1) = map c_field (sums c) /\ map c_function (sums c1) = map c_function (sums c)).
  { intros c0 x E c1 T. unfold try_set_c in T. destruct (set_c n mt refs inner c0 f x) as [c2 [u|]] eqn:S; [|discriminate].
    apply Ok_inj in T. subst c2. rewrite <- E. exact (set_shape _ _ _ _ _ _ _ _ _ S). }
  destruct (get_size n mt (base c) f) as [[z|]|]; cbn [bind] in H; [| |discriminate].
  - destruct (current_pos n mt (base c) f l p) as [q|]; cbn [bind] in H; [|discriminate]. destruct (z <? 0); [discriminate|].
    destruct (slice b _ _) as [s|]; cbn [bind] in H; [|discriminate].
    destruct (try_set_c n mt refs inner c f (PBits s)) as [c1|] eqn:T; cbn [bind] in H; [|discriminate].
    destruct (next_field n mt (mapping (base c1)) f) as [g|]; cbn [bind] in H; [|discriminate].
    destruct (STEP c _ eq_refl _ T) as [S1 S2]. destruct (IH _ _ _ _ _ H). split; congruence.
  - destruct (is_opaque _); [|discriminate].
    destruct (current_pos n mt (base c) f l p) as [q|]; cbn [bind] in H; [|discriminate].
    destruct (get_first n mt (base c) f) as [[o|]|]; cbn [bind] in H; try discriminate.
    destruct (try_set_c n mt refs inner _ f _) as [c1|] eqn:T; cbn [bind] in H; [|discriminate].
    destruct (next_field n mt (mapping (base c1)) f) as [g|]; cbn [bind] in H; [|discriminate].
    destruct (STEP (mkC (set_first (base c) f (Some o)) (sums c)) _ eq_refl _ T) as [S1 S2]. destruct (IH _ _ _ _ _ H). split; congruence.
Qed.
Lemma run_first n mt refs inner c o : only_first (sums c) ->
  only_first (sums (run n mt refs inner c o)) /\ map c_field (sums (run n mt refs inner c o)) = map c_field (sums c).
Proof.
  destruct o as [f x|b|fns]; cbn [run]; intros F.
  - destruct (set_c n mt refs inner c f x) as [c' r] eqn:S. destruct (set_shape _ _ _ _ _ _ _ _ _ S). cbn [fst].
    split; [eapply only_first_shape; eauto|assumption].
  - destruct (parse_c n mt refs inner c b) as [c'|] eqn:P; [|auto]. unfold parse_c in P.
    destruct (next_field n mt (mapping (base c)) INITIAL) as [f|]; cbn [bind] in P; [|discriminate].
    destruct (parse_shape _ _ _ _ _ _ _ _ _ _ _ P). split; [eapply only_first_shape; eauto|assumption].
  - revert c F. induction fns as [|[f fn] t IH]; intros c F; cbn [set_checksum_function]; [auto|].
    destruct (memf f (m_fields mt)); cbn [negb]; [|auto].
    destruct (set_function f fn (sums c)) as [cs r] eqn:Q. pose proof (set_function_first _ _ _ _ _ Q F) as F'.
    pose proof (set_function_shape _ _ _ _ _ Q) as SH. destruct r; [|auto].
    destruct (IH (mkC (base c) cs) F') as [I1 I2]. split; [exact I1|]. rewrite I2. exact SH.
Qed.

(** So a message with two checksum fields never becomes valid, whatever is called. *)
Theorem C54_two_never_valid : forall n mt refs inner defs c calls,
  new_c n mt (new_checksums defs) = Ok c -> NoDup (map fst defs) -> (2 <= List.length defs)%nat ->
  valid_message_c n mt (fold_left (run n mt refs inner) calls c) <> Ok true.
Proof.
  intros n mt refs inner defs c calls H ND L V.
  unfold new_c in H. destruct (new n mt) as [st|]; cbn [bind] in H; [|discriminate]. apply Ok_inj in H.
  assert (F0 : only_first (sums c)).
  { subst c. cbn [sums]. split.
    - unfold new_checksums. rewrite map_map. exact ND.
    - destruct defs as [|d t]; cbn; [exact I|]. apply Forall_forall. intros k J. apply in_map_iff in J as (d' & <- & _). reflexivity. }
  assert (L0 : (2 <= List.length (map c_field (sums c)))%nat).
  { subst c. cbn [sums]. unfold new_checksums. now rewrite !map_length. }
  clear H. revert c F0 L0 V. induction calls as [|o calls IH]; intros c F L0 V; cbn [fold_left] in V.
  - unfold valid_message_c in V. destruct (valid_message n mt (base c)) as [[]|]; cbn [bind] in V; try discriminate.
    destruct F as [_ F]. destruct (sums c) as [|a [|b t]] eqn:Q; cbn in L0; try lia.
    destruct (all_valid n mt _ _ _ V b) as (l & x & _ & CA & _); [right; now left|].
    inversion F as [|? ? Fb _]; subst. unfold calculate in CA. rewrite Fb in CA. discriminate CA.
  - destruct (run_first n mt refs inner c o F) as [F1 F2]. apply (IH _ F1); [|exact V]. now rewrite F2.
Qed.

(** ** Cases *)

Definition u8 : scalar := Modular ["P"; "B"] (EBin OPow (ENum 2) (ENum 8)) 256 8.
Definition crc_checked : expr := EVar ("crc" ++ suffix)%string.
Definition three (t : scalar) (a b c : field) (last : expr) : mtype := mkMtype "P.Frame"
  [mkLink INITIAL a ETrue None None; mkLink a b ETrue None None; mkLink b c ETrue None None; mkLink c FINAL last None None]
  [a; b; c] (fun _ => FScalar t false).
(** a checksum at the end, and one in the middle *)
Definition trailing : mtype := three u8 "tag" "data" "crc" crc_checked.
Definition central : mtype := three u8 "tag" "crc" "data" crc_checked.
Definition before : parameter := ValueRange (EName (NAttr AFirst "message") false) (EBin OSub (EName (NAttr AFirst "crc") false) (ENum 1)).
Definition behind : parameter := ValueRange (EAss OAdd [EName (NAttr ALast "crc") false; ENum 1]) (EName (NAttr ALast "message") false).
Definition whole_message : parameter := ValueRange (EName (NAttr AFirst "message") false) (EName (NAttr ALast "message") false).

(** the sum of the bytes in the ranges *)
Definition covered (bytes : list Z) (a : argument) : list Z :=
  match a with
  | ARange x y => firstn (Z.to_nat ((y - x + 1) / 8)) (skipn (Z.to_nat (x / 8)) bytes)
  | AInt z => [z]
  | _ => []
  end.
Definition added : cfunction := fun bytes args =>
  PInt (fold_right Z.add 0 (flat_map (fun pa => covered bytes (snd pa)) args) mod 256).

Definition no_inner (r : bool) (m : string) (b : bits) : res bits := Err "KeyError".
Definition object (mt : mtype) (cs : list checksum) : res cvalue :=
  bind (new_c 40 mt cs) (fun c =>
    match set_checksum_function mt c (map (fun k => (c_field k, added)) cs) with (c', Ok _) => Ok c' | (_, Err w) => Err w end).
Fixpoint set_all (mt : mtype) (c : cvalue) (l : list (field * Z)) : res cvalue :=
  match l with [] => Ok c | (f, z) :: t => bind (try_set_c 40 mt [] no_inner c f (PInt z)) (fun c' => set_all mt c' t) end.
Definition of_bytes (l : list Z) : bits := match from_bytes l with Ok b => b | Err _ => [] end.
Definition parsed_from (mt : mtype) (cs : list checksum) (l : list Z) : res cvalue :=
  bind (object mt cs) (fun c => parse_c 40 mt [] no_inner c (of_bytes l)).
Definition filled (mt : mtype) (cs : list checksum) (l : list (field * Z)) : res cvalue :=
  bind (object mt cs) (fun c => set_all mt c l).
(** what the message says: its validity and its bytes *)
Definition outcome (mt : mtype) (r : res cvalue) : res (bool * res (list Z)) :=
  bind r (fun c => bind (valid_message_c 40 mt c) (fun v => Ok (v, bytestring_c 40 mt c))).
Definition fresh (ps : list parameter) : list checksum := new_checksums [("crc", ps)].
Definition refused : res (list Z) := Err "cannot create bytestring of invalid message".
Definition got_value (r : res cvalue) : cvalue := match r with Ok c => c | Err _ => mkC (blank trailing) [] end.

Lemma three_plain t last f : In f (m_fields (three t "tag" "data" "crc" last)) -> checksum_name f = None.
Proof. cbn. intros H. repeat destruct H as [<-|H]; try contradiction; reflexivity. Qed.

Lemma try_set_recorded n mt refs inner c f x c' : try_set_c n mt refs inner c f x = Ok c' -> recorded mt (base c').
Proof.
  unfold try_set_c. destruct (set_c n mt refs inner c f x) as [c2 [u2|]] eqn:S; intros Q; [|discriminate].
  apply Ok_inj in Q. subst c2. exact (set_recorded _ _ _ _ _ _ _ _ _ S).
Qed.
Lemma set_all_recorded mt : forall l c c', set_all mt c l = Ok c' -> l <> [] -> recorded mt (base c').
Proof.
  induction l as [|[f z] l IH]; intros c c' H N; [congruence|]. cbn [set_all] in H.
  destruct (try_set_c 40 mt [] no_inner c f (PInt z)) as [c1|] eqn:Q; cbn [bind] in H; [|discriminate].
  destruct l as [|y l]; [|apply (IH c1 c' H); discriminate]. cbn [set_all] in H. apply Ok_inj in H. subst c1.
  exact (try_set_recorded _ _ _ _ _ _ _ _ Q).
Qed.
Lemma got_ok r : is_ok r = true -> r = Ok (got_value r).
Proof. destruct r; [reflexivity|discriminate]. Qed.
Lemma filled_recorded mt cs l : l <> [] -> is_ok (filled mt cs l) = true -> recorded mt (base (got_value (filled mt cs l))).
Proof.
  unfold filled. destruct (object mt cs) as [c0|]; cbn [bind]; [|discriminate].
  destruct (set_all mt c0 l) as [c|] eqn:Q; [|discriminate]. intros N _. cbn [got_value]. exact (set_all_recorded mt l c0 c Q N).
Qed.
(** the checksum of a message is filled in, and the arguments are those that are meant *)
Example C54_case : outcome trailing (filled trailing (fresh [before; Plain (EVar "tag")]) [("tag", 3); ("data", 4)]) = Ok (true, Ok [3; 4; 10]) /\
  Forall (supported trailing) [before; Plain (EVar "tag")] /\
  exists E, records trailing (base (got_value (filled trailing (fresh [before; Plain (EVar "tag")]) [("tag", 3); ("data", 4)]))) E.
Proof.
  split; [vm_compute; reflexivity|]. split.
  - constructor; [|constructor; [|constructor]]; cbn.
    + exists "message", "crc", false, false. auto.
    + exists "tag", false. auto.
  - assert (R : recorded trailing (base (got_value (filled trailing (fresh [before; Plain (EVar "tag")]) [("tag", 3); ("data", 4)])))).
    { apply filled_recorded; [discriminate|vm_compute; reflexivity]. }
    set (st := base (got_value _)) in *.
    assert (V : forall g, In g [INITIAL; "tag"; "data"; "crc"] -> match tv (fields st g) with VScalar (Some (SEnum _ _)) => false | _ => true end = true).
    { intros g I. cbn in I. repeat destruct I as [<-|I]; try contradiction; vm_compute; reflexivity. }
    clearbody st.
    assert (M : forall x, ~ is_check x -> mapping st x = None \/ exists z, mapping st x = Some (ENum z)).
    { intros x N. destruct (mapping st x) as [e|] eqn:Q; [|auto]. right. pose proof (R x e N Q) as W.
      destruct x as [g|a g]; [|destruct W as [z ->]; eauto]. destruct W as (I & v & T & ->). specialize (V g I). rewrite T in V.
      destruct v; [cbn; eauto|discriminate]. }
    exists (fun x => match mapping st x with Some (ENum z) => VInt z | _ => VInt 0 end). constructor.
    + intros x N. destruct (M x N) as [->|[z ->]]; eauto.
    + intros x z L. discriminate L.
    + intros x e N Q. destruct (M x N) as [Q'|[z Q']]; rewrite Q in Q'; [discriminate|]. injection Q' as ->.
      split; [left; eauto|]. rewrite Q. split; [reflexivity|discriminate].
Qed.
(** a wrong checksum in the middle of a message is detected, a right one accepted *)
Example C54_case_parsed :
  outcome central (parsed_from central (fresh [before; behind]) [3; 9; 4]) = Ok (false, refused) /\
  outcome central (parsed_from central (fresh [before; behind]) [3; 7; 4]) = Ok (true, Ok [3; 7; 4]).
Proof. split; vm_compute; reflexivity. Qed.
(** a checksum set by hand is kept and judged *)
Example C54_case_kept :
  outcome central (filled central (fresh [before; behind]) [("tag", 3); ("crc", 9); ("data", 4)]) = Ok (false, refused) /\
  outcome central (filled central (fresh [before; behind]) [("tag", 3); ("crc", 7); ("data", 4)]) = Ok (true, Ok [3; 7; 4]) /\
  match filled central (fresh [before; behind]) [("tag", 3); ("crc", 9)] with
  | Ok c => (map c_calculated (sums c), map c_field (sums c), fields (base c) "crc", is_ok (snd (set_c 40 central [] no_inner c "data" (PInt 4))))
  | Err _ => ([], [], mkField (VScalar None) None, false)
  end = ([false], ["crc"], mkField (VScalar (Some (SInt 9))) (Some 8), true).
Proof. repeat split; vm_compute; reflexivity. Qed.
(** two checksum fields *)
Definition double : mtype := three u8 "tag" "sum" "crc" (EAss OAnd [EVar ("sum" ++ suffix)%string; crc_checked]).
Example C54_case_two : match new_c 40 double (new_checksums [("sum", [Plain (EVar "tag")]); ("crc", [before])]) with
  | Ok c => (List.length (sums c), is_ok (snd (set_checksum_function double c [("sum", added)])), is_ok (snd (set_checksum_function double c [("crc", added)])),
             map (fun k => match c_function k with Some _ => true | None => false end) (sums (fst (set_checksum_function double c [("sum", added)]))))
  | Err _ => (O, true, true, [])
  end = (2%nat, false, false, [true; false]).
Proof. vm_compute. reflexivity. Qed.

(** ** Where the expectations fail *)

(** Parsing does not detect a wrong checksum at the end of a message: the received value is
    replaced by the calculated one, the message is valid and gives out other bytes. *)
Theorem C54_parse_detects_refuted : exists mt ps bytes c bytes',
  parsed_from mt (fresh ps) bytes = Ok c /\ valid_message_c 40 mt c = Ok true /\ bytestring_c 40 mt c = Ok bytes' /\
  List.length bytes' = List.length bytes /\ bytes' <> bytes.
Proof.
  exists trailing, [before], [3; 4; 9], (got_value (parsed_from trailing (fresh [before]) [3; 4; 9])), [3; 4; 7].
  split; [apply got_ok; vm_compute; reflexivity|].
  split; [vm_compute; reflexivity|]. split; [vm_compute; reflexivity|]. split; [reflexivity|discriminate].
Qed.
(** The same octets are rejected by a new object and accepted by an object that is cloned from a
    used one: the objects share the checksums. *)
Theorem C54_clone_refuted : exists mt ps l used bytes bytes',
  filled mt (fresh ps) l = Ok used /\
  outcome mt (parsed_from mt (fresh ps) bytes) = Ok (false, refused) /\
  outcome mt (parsed_from mt (sums used) bytes) = Ok (true, Ok bytes').
Proof.
  exists central, [before; behind], [("tag", 1); ("data", 2)], (got_value (filled central (fresh [before; behind]) [("tag", 1); ("data", 2)])),
    [3; 9; 4], [3; 7; 4].
  split; [|split; vm_compute; reflexivity].
  apply got_ok. vm_compute. reflexivity.
Qed.
(** A message can be valid although fields are not set that its checksum covers; its bytes are
    then not those of the message. *)
Theorem C54_complete_refuted : exists mt ps l c, filled mt (fresh ps) l = Ok c /\
  valid_message_c 40 mt c = Ok true /\ bytestring_c 40 mt c = Ok [] /\ is_set mt (base c) "tag" = false.
Proof.
  exists trailing, [before], [("data", 4)], (got_value (filled trailing (fresh [before]) [("data", 4)])).
  split; [|repeat split; vm_compute; reflexivity].
  apply got_ok. vm_compute. reflexivity.
Qed.
(** A value that is set by hand for a calculated checksum is silently replaced. *)
Theorem C54_by_hand_refuted : exists mt ps l z c, filled mt (fresh ps) (l ++ [("crc", z)]) = Ok c /\
  tv (fields (base c) "crc") <> VScalar (Some (SInt z)).
Proof.
  exists trailing, [before], [("tag", 3); ("data", 4)], 9, (got_value (filled trailing (fresh [before]) [("tag", 3); ("data", 4); ("crc", 9)])).
  split.
  - cbn [app]. apply got_ok. vm_compute. reflexivity.
  - vm_compute. discriminate.
Qed.
(** A calculated checksum need not be right: it is calculated for a message in which it is zero. *)
Theorem C54_calculated_refuted : exists mt ps l c, filled mt (fresh ps) l = Ok c /\
  map c_calculated (sums c) = [true] /\ forallb (is_set mt (base c)) (m_fields mt) = true /\ valid_message_c 40 mt c = Ok false.
Proof.
  exists trailing, [whole_message], [("tag", 3); ("data", 4)], (got_value (filled trailing (fresh [whole_message]) [("tag", 3); ("data", 4)])).
  split; [|repeat split; vm_compute; reflexivity].
  apply got_ok. vm_compute. reflexivity.
Qed.
(** If the check is not on the last link, Message'Last is not known; the right checksum is then not accepted. *)
Definition early : mtype := mkMtype "P.Frame"
  [mkLink INITIAL "tag" ETrue None None; mkLink "tag" "crc" ETrue None None; mkLink "crc" "data" crc_checked None None;
   mkLink "data" FINAL ETrue None None] ["tag"; "crc"; "data"] (fun _ => FScalar u8 false).
Theorem C54_accepted_refuted : exists ps bytes, outcome central (parsed_from central (fresh ps) bytes) = Ok (true, Ok bytes) /\
  m_fields early = m_fields central /\ outcome early (parsed_from early (fresh ps) bytes) = Ok (false, refused).
Proof. exists [before; behind], [3; 7; 4]. repeat split; vm_compute; reflexivity. Qed.
(** If zero is no value of the checksum field, no message can be completed. *)
Definition positive_type : scalar := Range ["P"; "Positive"] 1 255 8.
Theorem C54_zero_refuted : exists mt ps l w, filled mt (fresh ps) l = Err w /\
  is_ok (filled mt (fresh ps) (removelast l)) = true /\ is_ok (filled mt [] l) = true.
Proof.
  exists (three positive_type "tag" "data" "crc" crc_checked), [before], [("tag", 3); ("data", 4)].
  destruct (filled (three positive_type "tag" "data" "crc" crc_checked) (fresh [before]) [("tag", 3); ("data", 4)]) as [c|w] eqn:Q.
  - exfalso. assert (X : is_ok (filled (three positive_type "tag" "data" "crc" crc_checked) (fresh [before]) [("tag", 3); ("data", 4)]) = true) by now rewrite Q.
    vm_compute in X. discriminate X.
  - exists w. split; [reflexivity|]. split; vm_compute; reflexivity.
Qed.
(** A message without checksums accepts a checksum function for any field. *)
Theorem C54_no_checksum : forall mt c f fn, sums c = [] -> In f (m_fields mt) ->
  set_checksum_function mt c [(f, fn)] = (mkC (base c) [], Ok tt).
Proof.
  intros mt c f fn S I. cbn [set_checksum_function]. apply memf_iff in I. rewrite I, S. reflexivity.
Qed.

Print Assumptions C54_valid.
Print Assumptions C54_bytestring.
Print Assumptions C54_recorded.
Print Assumptions C54_kept.
Print Assumptions C54_two_functions.
Print Assumptions C54_two_never_valid.
