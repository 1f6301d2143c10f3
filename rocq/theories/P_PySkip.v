(** C60: a message value that skips verification has the values, positions and bytes of one
    that verifies. *)
From Coq Require Import String List ZArith Bool Lia.
From Verif Require Import Base Expr ExprEval ExprFacts ExprTotal Ident TypeSpec Bitstring BitFacts PyValue PyValueFacts P_PyValue.
From Verif Require Import ExprNames DerivedFacts VerifyFacts P_Checksum.
From Verif Require Import MsgGraph MsgGraphFacts GenSpec PyMessage PyMessageFacts PyMessageParse P_PyMessage PyMessageSet P_PySet P_PyRound PySkip.
Import ListNotations.
Local Open Scope string_scope.
Local Open Scope list_scope.
Local Open Scope Z_scope.

(** ** Sizes can be computed whatever is known *)

Fixpoint no_not (e : expr) : bool :=
  match e with
  | ENot _ => false
  | EAss _ ts => forallb no_not ts
  | EBin _ l r | ERel _ l r => no_not l && no_not r
  | _ => true
  end.
(** The size of a link is a number whatever the values of the names are, is simplified
    without change of meaning, and there is enough fuel. *)
Definition measured (n : nat) (mt : mtype) : Prop := forall l e, In l (m_links mt) -> lsize l = Some e ->
  ok e = true /\ no_not e = true /\ (weight e < n)%nat /\ forall E, ints_only E -> exists v, eval E e = Some v.

Section Total.
  Variables (sp : expr -> res expr) (M : name -> option expr).
  Hypothesis ML : forall x e, M x = Some e -> leaf e.

  (** the values that names have after the substitution *)
  Definition through (E : env) : env := fun x =>
    match M x with
    | Some (ENum z) => VInt z
    | Some (EName y _) => E y
    | _ => E x
    end.
  Lemma through_ints E : ints_only E -> ints_only (through E).
  Proof. intros I x. unfold through. destruct (M x) as [[]|]; eauto. Qed.

  Lemma subst_total : forall e, exists e', substituted (neg sp) M e = Ok e' /\ weight e' = weight e /\
    (no_not e = true -> no_not e' = true /\ forall E, ints_only E -> eval E e' = eval (through E) e) /\
    (const e = true -> const e' = true) /\ (safe e = true -> safe e' = true) /\ (ok e = true -> ok e' = true).
  Proof.
    induction e as [ | |z|x s|a IH|o ts IH|o l r IHl IHr|o l r IHl IHr] using expr_ind'.
    - eexists. split; [reflexivity|]. auto 10.
    - eexists. split; [reflexivity|]. auto 10.
    - eexists. split; [reflexivity|]. auto 10.
    - cbn [substituted]. destruct (M x) as [e|] eqn:Mx.
      + destruct (ML x e Mx) as [[z ->]|[y ->]]; destruct s; eexists; (split; [reflexivity|]); (split; [reflexivity|]);
          (split; [intros _; split; [reflexivity|]; intros E EI; cbn [eval negb EVar]; unfold through; rewrite Mx; cbn [EVar name_val]; reflexivity|]); auto.
      + exists (EName x s). split; [destruct s; reflexivity|]. split; [reflexivity|]. split; [|auto].
        intros _. split; [reflexivity|]. intros E EI. cbn [eval]. unfold through. now rewrite Mx.
    - exists (ENot a). split; [reflexivity|]. split; [reflexivity|]. split; [discriminate|auto].
    - cbn [substituted]. match goal with |- context [bind (?F ts) _] => set (go := F) end.
      assert (G : exists ts', go ts = Ok ts' /\ weights ts' = weights ts /\
        (forallb no_not ts = true -> forallb no_not ts' = true /\ forall E, ints_only E -> map (eval E) ts' = map (eval (through E)) ts) /\
        (forallb const ts = true -> forallb const ts' = true) /\ (forallb safe ts = true -> forallb safe ts' = true) /\
        (forallb ok ts = true -> forallb ok ts' = true)).
      { induction IH as [|t ts Ht _ IHts].
        - exists []. split; [reflexivity|]. auto 10.
        - destruct Ht as (t' & St & Wt & Nt & Ct & Ft & Ot). destruct IHts as (ts' & Sts & Wts & Nts & Cts & Fts & Ots).
          exists (t' :: ts'). cbn [go]. fold go. rewrite St. cbn [bind]. rewrite Sts. cbn [bind]. split; [reflexivity|].
          rewrite !weights_cons, Wt, Wts. split; [reflexivity|]. cbn [forallb map]. rewrite !andb_true_iff.
          split.
          + intros [A B]. destruct (Nt A) as [A1 A2]. destruct (Nts B) as [B1 B2]. split; [auto|].
            intros E EI. now rewrite (A2 E EI), (B2 E EI).
          + tauto. }
      destruct G as (ts' & S & W & N & C & F & O). exists (EAss o ts'). rewrite S. cbn [bind]. split; [reflexivity|].
      split; [cbn [weight]; unfold weights in W; now rewrite W|]. split.
      + cbn [no_not]. intros A. destruct (N A) as [A1 A2]. split; [exact A1|]. intros E EI. cbn [eval]. now rewrite (A2 E EI).
      + cbn [const safe ok]. destruct o; auto.
    - destruct IHl as (l' & Sl & Wl & Nl & Cl & Fl & Ol). destruct IHr as (r' & Sr & Wr & Nr & Cr & Fr & Or).
      cbn [substituted]. rewrite Sl. cbn [bind]. rewrite Sr. cbn [bind]. eexists. split; [reflexivity|].
      split; [cbn [weight]; rewrite Wl, Wr; reflexivity|]. cbn [no_not const safe ok]. split.
      + rewrite !andb_true_iff. intros [A B]. destruct (Nl A) as [A1 A2]. destruct (Nr B) as [B1 B2]. split; [auto|].
        intros E EI. cbn [eval]. now rewrite (A2 E EI), (B2 E EI).
      + destruct o; rewrite ?andb_true_iff; tauto.
    - destruct IHl as (l' & Sl & Wl & Nl & Cl & Fl & Ol). destruct IHr as (r' & Sr & Wr & Nr & Cr & Fr & Or).
      cbn [substituted]. rewrite Sl. cbn [bind]. rewrite Sr. cbn [bind]. eexists. split; [reflexivity|].
      split; [cbn [weight]; rewrite Wl, Wr; reflexivity|]. cbn [no_not const safe ok]. split.
      + rewrite !andb_true_iff. intros [A B]. destruct (Nl A) as [A1 A2]. destruct (Nr B) as [B1 B2]. split; [auto|].
        intros E EI. cbn [eval]. now rewrite (A2 E EI), (B2 E EI).
      + rewrite ?andb_true_iff; tauto.
  Qed.
End Total.

Lemma subst_leaves mt m : (forall x e, m x = Some e -> leaf e) -> forall x e, subst mt m x = Some e -> leaf e.
Proof.
  intros L x e H. unfold subst in H. destruct (m x) as [y|] eqn:Mx; [injection H as <-; eauto|].
  destruct x as [v|]; [|discriminate]. destruct (literal mt v); [|discriminate]. injection H as <-. left. eauto.
Qed.
Lemma number_total n mt m e : (forall x y, m x = Some y -> leaf y) -> ok e = true -> no_not e = true -> (weight e < n)%nat ->
  (forall E, ints_only E -> exists v, eval E e = Some v) -> exists r, number n mt m e = Ok r.
Proof.
  intros L O N W D. pose proof (subst_leaves mt m L) as SL.
  destruct (subst_total (simpv n) (subst mt m) SL e) as (e1 & S1 & W1 & N1 & _ & _ & O1).
  destruct (subst_total (simpv n) (subst mt m) SL e1) as (e2 & S2 & W2 & N2 & _ & _ & O2).
  destruct (N1 N) as [N1' V1]. destruct (N2 N1') as [_ V2].
  set (E0 := (fun _ => VInt 0) : env). assert (I0 : ints_only E0) by (intros x; exists 0; reflexivity).
  pose proof (through_ints (subst mt m) E0 I0) as I1. pose proof (through_ints (subst mt m) _ I1) as I2.
  destruct (D _ I2) as [v V].
  assert (V' : eval E0 e2 = Some v) by (rewrite (V2 E0 I0), (V1 _ I1); exact V).
  destruct (simplify_total expr_eqb expr_eqb_sound E0 n e2 v) as [r R]; [lia|auto|exact V'|].
  unfold number, simplified.
  assert (X : exists r', match e with ETrue | EFalse => Ok e | _ =>
     bind (substituted (neg (simpv n)) (subst mt m) e) (fun e1 =>
     bind (substituted (neg (simpv n)) (subst mt m) e1) (fun e2 => simpv n e2)) end = Ok r').
  { rewrite S1. cbn [bind]. rewrite S2. cbn [bind]. destruct e; eauto. }
  destruct X as [r' X]. cbn zeta in *. unfold bind in X |- *. rewrite X. eauto.
Qed.

(** ** Values *)

(** the same value; the expected size and the nested message may differ *)
Definition same_value (v v' : tval) : Prop :=
  match v, v' with
  | VScalar a, VScalar b => a = b
  | VOpaque _ _ _ a, VOpaque _ _ _ b => a = b
  | VScalars _ a, VScalars _ b => a = b
  | VMessages _ a, VMessages _ b => a = b
  | _, _ => False
  end.
(** values that can be assigned: no bits, no empty array *)
Definition solid (x : pyval) : Prop :=
  match x with PBits _ | PScalars [] | PMessages [] => False | _ => True end.

Lemma same_bits t v v' : same_value v v' -> tv_bits t v = tv_bits t v'.
Proof. destruct v, v'; cbn; try contradiction; intros <-; destruct t; reflexivity. Qed.
Lemma same_initialized v v' : same_value v v' -> initialized v' = initialized v.
Proof. destruct v, v'; cbn; try contradiction; intros <-; reflexivity. Qed.

Definition expected_new (t : ftype) (size : option Z) : tval :=
  match size with Some z => set_expected (construct_tval t) z | None => construct_tval t end.

Lemma assign_alike n inner t x z size v0 v : prefixes inner -> spelled n inner t x -> solid x -> fresh t z v0 ->
  tv_set n inner t v0 x = Ok v -> tv_size t v = Some z ->
  exists v', skip_assign n t (expected_new t size) x = Ok v' /\ same_value v v' /\ tv_size t v' = tv_size t v.
Proof.
  intros FR Sp So F H Sz. destruct t as [s i| |s i|el].
  - assert (K : forall w, skip_assign n (FScalar s i) w x = Ok v).
    { intros w. destruct s as [tid m sz se|tid lo hi sz|tid lits sz av]; destruct x; cbn [spelled] in Sp; try contradiction;
        try (now elim So); cbn [tv_set tv_assign] in H.
      - destruct (int_assign _ _ _ _) as [r|] eqn:A; cbn [bind] in H; [|discriminate]. unfold int_assign in A.
        destruct (constraints _ _ _ _ _); cbn [bind] in A; [|discriminate]. destruct (constraint_true _ _ _) as [[|]|]; cbn [bind] in A; try discriminate.
        apply Ok_inj in A. subst r. exact H.
      - destruct (int_assign _ _ _ _) as [r|] eqn:A; cbn [bind] in H; [|discriminate]. unfold int_assign in A.
        destruct (constraints _ _ _ _ _); cbn [bind] in A; [|discriminate]. destruct (constraint_true _ _ _) as [[|]|]; cbn [bind] in A; try discriminate.
        apply Ok_inj in A. subst r. exact H.
      - cbn [skip_assign]. destruct (enum_assign _ _ _ _ _ _ _ true) as [r|] eqn:A; cbn [bind] in H; [|discriminate].
        unfold enum_assign in A |- *. match type of A with bind ?a _ = _ => destruct a as [pv|] end; cbn [bind] in A |- *; [|discriminate].
        destruct (dict_get _ pv); [|discriminate]. destruct (id_name pv) as [nm|]; cbn [bind] in A |- *; [|discriminate].
        destruct (dict_get lits nm); [|discriminate].
        match type of A with bind ?a _ = _ => destruct a as [[|]|] end; cbn [bind] in A; try discriminate.
        apply Ok_inj in A. subst r. exact H. }
    exists v. split; [apply K|]. split; [|reflexivity].
    assert (E : exists o, v = VScalar o).
    { specialize (K (VScalar None)). cbn [skip_assign] in K. destruct s, x; try discriminate;
        match type of K with bind ?a _ = _ => destruct a; cbn [bind] in K; [|discriminate] end; apply Ok_inj in K; subst v; eauto. }
    destruct E as [o ->]. reflexivity.
  - destruct F as (r & ->). destruct x; cbn [spelled] in Sp; try contradiction; try (now elim So).
    exists (VOpaque size None None (Some l)). split; [destruct size; reflexivity|].
    cbn [tv_set tv_assign] in H. unfold check_size in H.
    destruct (Z.eqb_spec (Z.of_nat (List.length l) * 8) z) as [Ez|]; cbn [bind] in H; [|discriminate].
    assert (K : exists nested, v = VOpaque (Some z) r nested (Some l)).
    { destruct r as [sdu|]; [|apply Ok_inj in H; subst v; eauto].
      destruct (from_bytes l) as [b|] eqn:B; cbn [bind] in H; [|discriminate].
      destruct (inner true sdu b) as [y|] eqn:Y; cbn [bind] in H; [|discriminate].
      destruct (Nat.eqb_spec (Nat.modulo (List.length y) 8) 0) as [Mo|]; cbn [bind] in H; [|discriminate].
      apply Ok_inj in H. subst v. exists (Some (sdu, y)). f_equal. f_equal. cbn [tv_size] in Sz. injection Sz as Sz.
      assert (Ll : List.length (to_bytes y) = List.length l) by lia.
      destruct l as [|a l]; [destruct (to_bytes y); [reflexivity|discriminate Ll]|].
      pose proof (from_bytes_ok (a :: l) Sp ltac:(discriminate)) as B'. rewrite B in B'. apply Ok_inj in B'. subst b.
      destruct (FR _ _ _ _ Y) as [u U]. apply Nat.mod_divides in Mo; [|lia]. destruct Mo as [k K].
      destruct (C43_parse_lossless y k None (to_bytes y) K eq_refl) as [Lk _].
      assert (Lu : List.length u = 0%nat).
      { apply (f_equal (@List.length bool)) in U. rewrite app_length, bytes_bits_length in U. lia. }
      destruct u; [|discriminate]. rewrite app_nil_r in U. rewrite <- U. now apply to_bytes_ok. }
    destruct K as [nested ->]. split; [reflexivity|]. reflexivity.
  - cbn [fresh] in F. subst v0. destruct x; cbn [spelled] in Sp; try contradiction; try (now elim So).
    cbn [tv_set tv_assign] in H. destruct (array_assign (Some z) s l true) as [l'|] eqn:A; cbn [bind] in H; [|discriminate].
    apply Ok_inj in H. subst v. unfold array_assign in A.
    match type of A with bind ?a _ = _ => destruct a as [[]|] end; cbn [bind] in A; [|discriminate].
    destruct (forallb _ l) eqn:Q; [|discriminate]. apply Ok_inj in A. subst l'.
    exists (VScalars size (Some l)). split.
    + destruct size; cbn [expected_new construct_tval set_expected skip_assign]; unfold array_assign; cbn [bind]; rewrite Q; reflexivity.
    + split; [reflexivity|]. destruct l; [now elim So|]. reflexivity.
  - cbn [fresh] in F. subst v0. destruct x; cbn [spelled] in Sp; try contradiction; try (now elim So).
    cbn [tv_set tv_assign] in H. unfold check_size in H. destruct (_ =? _); cbn [bind] in H; [|discriminate].
    destruct (forallb _ l) eqn:Q; [|discriminate]. apply Ok_inj in H. subst v.
    exists (VMessages size (Some (map snd l))). split.
    + destruct size; cbn [expected_new construct_tval set_expected skip_assign]; rewrite Q; reflexivity.
    + split; [reflexivity|]. destruct l; [now elim So|]. reflexivity.
Qed.

(** ** Both objects side by side *)

Section Alike.
  Variables (n : nat) (mt : mtype) (refs : list refinement) (inner : bool -> string -> bits -> res bits).
  Variable rank : field -> nat.
  Hypothesis T : tidy mt rank.
  Hypothesis stable : rereads inner.
  Hypothesis types : forall f, In f (m_fields mt) -> declared_type n (m_types mt f).
  Hypothesis front : prefixes inner.
  Hypothesis ME : measured n mt.

  (** [fs] are the fields set so far *)
  Record alike (fs : list field) (st : mvalue) (sv : svalue) : Prop := {
    a_last : s_last sv = List.last fs INITIAL;
    a_fields : forall f, In f (INITIAL :: fs) -> same_value (tv (fields st f)) (tv (fields (s_value sv) f)) /\
      first (fields (s_value sv) f) = first (fields st f) /\ size_of mt (s_value sv) f = size_of mt st f;
    a_fresh : forall f, In f (m_fields mt) -> ~ In f fs -> fields (s_value sv) f = mkField (construct_tval (m_types mt f)) None;
    a_next : forall i c, nth_error (INITIAL :: fs) i = Some c -> s_next sv c = nth i fs "";
    a_others : forall c, ~ In c (INITIAL :: fs) -> s_next sv c = "";
    a_map : forall x, In (name_id x) fs -> mapping (s_value sv) x = field_mapping mt st x;
    a_unmapped : forall x, ~ In (name_id x) (INITIAL :: fs) -> name_id x <> "message" -> mapping (s_value sv) x = None;
    a_leaf : forall x e, mapping (s_value sv) x = Some e -> leaf e;
    a_acc : accessible (s_value sv) = fs
  }.

  Lemma alike_new st : new n mt = Ok st -> alike [] st (skip_new mt).
  Proof.
    intros H. pose proof (new_inv n mt rank T st H) as V.
    constructor; cbn [skip_new s_value s_last s_next blank mapping accessible List.last].
    - reflexivity.
    - intros f [<-|[]]. rewrite (inv_initial_size n mt [] st V), (v_initial _ _ _ _ V). cbn. auto.
    - intros f I _. unfold blank. cbn [fields]. destruct (String.eqb_spec f INITIAL) as [E|]; [|reflexivity].
      now apply (initial_ne mt rank T) in I.
    - intros i c Hc. destruct i; reflexivity.
    - reflexivity.
    - intros x [].
    - intros x NI NM. unfold initial_mapping. destruct x as [y|a y]; [reflexivity|]. cbn [name_id] in *.
      destruct (String.eqb_spec y INITIAL) as [E|]; [subst; elim NI; now left|]. destruct (String.eqb_spec y "message"); [contradiction|].
      destruct a; reflexivity.
    - intros x e E. left. unfold initial_mapping in E. destruct x as [y|a y]; [discriminate|].
      destruct a; try discriminate; destruct (String.eqb y INITIAL); try (injection E as <-; eauto);
        destruct (String.eqb y "message"); try discriminate; injection E as <-; eauto.
    - reflexivity.
  Qed.

  Lemma no_first sv o : forall ls, (forall l, In l ls -> In l (m_links mt)) -> skip_link_first n mt sv ls o = o.
  Proof.
    induction ls as [|l ls IH]; intros I; [reflexivity|]. cbn [skip_link_first].
    rewrite (t_first _ _ T l) by (apply I; now left). apply IH. intros k K. apply I. now right.
  Qed.
  Lemma some_size sv f : (forall x e, mapping (s_value sv) x = Some e -> leaf e) -> exists size, skip_size n mt sv f = Ok size.
  Proof.
    intros L. unfold skip_size. destruct (typ mt f); eauto.
    all: assert (G : forall ls, (forall l, In l ls -> In l (m_links mt)) -> exists size, skip_link_size n mt sv ls = Ok size)
      by (induction ls as [|l ls IH]; intros I; cbn [skip_link_size]; [eauto|];
        destruct (is_set mt (s_value sv) (source l)); [|apply IH; intros k K; apply I; now right];
        destruct (lsize l) as [e|] eqn:E; [|apply IH; intros k K; apply I; now right];
        destruct (ME l e (I l (or_introl eq_refl)) E) as (O & N & W & D); now apply number_total).
    all: apply G; intros l I; now apply in_incoming in I.
  Qed.

  Lemma nth_last (fs : list field) c i : nth_error (INITIAL :: fs) i = Some c -> NoDup (INITIAL :: fs) ->
    c = List.last fs INITIAL -> i = List.length fs.
  Proof.
    intros H N E. pose proof (ends_last fs) as L. unfold ends in L. subst c.
    assert (Li : (i < List.length (INITIAL :: fs))%nat) by (apply nth_error_Some; congruence).
    apply (proj1 (NoDup_nth_error (INITIAL :: fs)) N i (List.length fs) Li). congruence.
  Qed.

  Lemma alike_step xs st f x st' z sv : entered n mt refs inner xs st -> alike (map fst xs) st sv ->
    next_field n mt (mapping st) (List.last (map fst xs) INITIAL) = Ok f -> f <> "" -> f <> FINAL ->
    spelled n inner (m_types mt f) x -> solid x -> set n mt refs inner st f x = (st', Ok tt) ->
    get_size n mt st f = Ok (Some z) -> size_of mt st' f = Some z ->
    exists sv', skip_set n mt sv f x = Ok sv' /\ alike (map fst xs ++ [f]) st' sv'.
  Proof.
    intros E A Nx N NF Sp So S GS Sz.
    pose proof (entered_set _ _ _ _ _ _ _ _ _ _ E Nx N NF Sp S GS Sz) as E'.
    pose proof (entered_filled n mt refs inner rank T stable types front _ _ E) as Fi.
    pose proof (entered_filled n mt refs inner rank T stable types front _ _ E') as Fi'.
    pose proof (filled_inv n mt refs inner rank T _ _ Fi) as V.
    pose proof (filled_inv n mt refs inner rank T _ _ Fi') as V'.
    destruct (C12_filled n mt rank refs inner _ _ T Fi') as (Set' & ND & Inc & _ & _ & Pos).
    rewrite map_app in *. cbn [map fst] in *. set (fs := map fst xs) in *.
    pose proof (ends_last fs) as Ec. set (c := List.last fs INITIAL) in *.
    pose proof (inv_path_field n mt fs st V c (ends_in _ _ Ec)) as Icf.
    destruct (next_rank n mt rank _ c f T Icf Nx N) as [Lt In']. assert (If : In f (m_fields mt)) by auto. clear In'.
    pose proof (inv_rank n mt rank T fs st c V Ec) as Rk.
    assert (Nf : ~ In f fs) by (intros X; specialize (Rk f (or_intror X)); lia).
    assert (Nfi : f <> INITIAL) by exact (initial_ne mt rank T f If).
    assert (Nfc : f <> c) by (intros ->; lia).
    pose proof (typ_field mt rank T f If) as Ty.
    assert (Kept : forall g, In g (INITIAL :: fs) -> fields st' g = fields st g).
    { intros g I. apply (set_frame n mt refs inner rank T _ _ _ _ If S). specialize (Rk g I). lia. }
    destruct (Pos (List.length fs) c f) as (p0 & z0 & Fp & Sp0 & Ff).
    { change (INITIAL :: fs ++ [f]) with ((INITIAL :: fs) ++ [f]). rewrite nth_error_app1 by (cbn; lia). exact Ec. }
    { rewrite nth_error_app2, Nat.sub_diag by lia. reflexivity. }
    destruct (set_value n mt refs inner rank T st f x st' S) as (size0 & r & v & p & GS' & Fv & TV & _).
    rewrite GS in GS'. apply Ok_inj in GS'. subst size0. rewrite Fv in Ff. cbn [first] in Ff. injection Ff as Ff.
    assert (Szv : tv_size (m_types mt f) v = Some z). { unfold size_of in Sz. rewrite Fv, Ty in Sz. exact Sz. }
    rewrite Ty in TV.
    assert (FRs : fresh (m_types mt f) z (set_ref (set_expected (tv (fields st f)) z) r)).
    { destruct (v_unset _ _ _ _ V f If Nf) as [Q|(z' & E1 & E2 & _)].
      - rewrite Q. destruct (m_types mt f); cbn; eauto.
      - rewrite E1, E2. cbn. eauto. }
    destruct (a_fields _ _ _ A c (ends_in _ _ Ec)) as (_ & Fc & Sc).
    rewrite (Kept c (ends_in _ _ Ec)) in Fp. unfold size_of in Sp0. rewrite (Kept c (ends_in _ _ Ec)) in Sp0. fold (size_of mt st c) in Sp0.
    assert (Ne : c <> "").
    { destruct Icf as [<-|I]; [discriminate|]. now apply (t_names _ _ T). }
    unfold skip_set. set (sv1 := mkSkip _ _ _ f).
    assert (PF : skip_first n mt sv1 f = Ok (Some p)).
    { unfold skip_first. rewrite no_first by (intros l I; now apply in_incoming in I).
      unfold skip_prev. destruct (String.eqb_spec f INITIAL); [contradiction|]. cbn [s_prev sv1]. rewrite upd_same, (a_last _ _ _ A).
      fold c. destruct (String.eqb_spec c ""); [contradiction|]. cbn [s_value sv1]. rewrite Fc, Sc, Fp, Sp0. now rewrite Ff. }
    destruct (some_size sv1 f (a_leaf _ _ _ A)) as [size Hs]. rewrite PF, Hs. cbn [bind].
    destruct (assign_alike n inner (m_types mt f) x z size _ v front Sp So FRs TV Szv) as (v' & SA & SV & SS).
    set (st1 := set_first (s_value sv1) f (Some p)).
    set (st2 := match size with Some z => set_tv st1 f (set_expected (tv (fields st1 f)) z) | None => st1 end).
    assert (F1 : fields st1 f = mkField (construct_tval (m_types mt f)) (Some p)).
    { unfold st1. rewrite set_first_same. cbn [sv1 s_value]. now rewrite (a_fresh _ _ _ A f If Nf). }
    assert (F2 : fields st2 f = mkField (expected_new (m_types mt f) size) (Some p)).
    { unfold st2, expected_new. destruct size; [rewrite set_tv_same|]; now rewrite F1. }
    assert (O2 : forall g, g <> f -> fields st2 g = fields (s_value sv) g).
    { intros g Ng. unfold st2, st1. destruct size; [rewrite set_tv_other by exact Ng|]; now rewrite set_first_other by exact Ng. }
    assert (M2 : mapping st2 = mapping (s_value sv) /\ accessible st2 = accessible (s_value sv)) by (unfold st2; destruct size; split; reflexivity).
    destruct M2 as [M2 A2]. clearbody st2. rewrite F2, Ty. cbn [tv]. rewrite SA. cbn [bind].
    set (st3 := set_tv st2 f v').
    assert (F3 : fields st3 f = mkField v' (Some p)) by (unfold st3; now rewrite set_tv_same, F2).
    assert (O3 : forall g, g <> f -> fields st3 g = fields (s_value sv) g).
    { intros g Ng. unfold st3. rewrite set_tv_other by exact Ng. now apply O2. }
    assert (S3 : size_of mt st3 f = Some z) by (unfold size_of; rewrite F3, Ty; cbn [tv]; now rewrite SS).
    unfold skip_mapping. rewrite F3, S3. cbn [first bind]. change (mapping st3) with (mapping st2). change (accessible st3) with (accessible st2).
    rewrite M2, A2. clearbody st3.
    eexists. split; [reflexivity|].
    assert (IS' : is_set mt st' f = true) by (apply Set'; [exact If|apply in_app_iff; right; now left]).
    constructor; cbn [s_last s_value s_next fields mapping accessible].
    - now rewrite last_last.
    - intros g I. assert (D : g = f \/ g <> f /\ In g (INITIAL :: fs)).
      { destruct (String.string_dec g f) as [->|Ng]; [now left|right]. split; [exact Ng|].
        destruct I as [<-|I]; [now left|]. apply in_app_iff in I as [I|[I|[]]]; [now right|congruence]. }
      destruct D as [->|[Ng Ig]].
      + rewrite F3, Fv. cbn [tv first]. split; [exact SV|]. split; [reflexivity|]. unfold size_of at 1. cbn [fields]. fold (size_of mt st3 f). now rewrite S3.
      + unfold size_of. cbn [fields]. rewrite (O3 g Ng), (Kept g Ig). apply (a_fields _ _ _ A g Ig).
    - intros g Ig Ng. assert (X : g <> f /\ ~ In g fs) by (split; intros Y; apply Ng; apply in_app_iff; [right; left; congruence|now left]).
      rewrite (O3 g (proj1 X)). apply (a_fresh _ _ _ A g Ig (proj2 X)).
    - intros i d Hd. cbn [sv1 s_next]. rewrite (a_last _ _ _ A). fold c.
      assert (ND0 : NoDup (INITIAL :: fs)).
      { constructor; [intros X; now apply (initial_ne mt rank T INITIAL (proj1 (v_fields _ _ _ _ V _ X)))|].
        apply NoDup_remove_1 with (l := fs) (l' := []) (a := f) in ND. now rewrite app_nil_r in ND. }
      assert (Li : (i < List.length (INITIAL :: fs ++ [f]))%nat) by (apply nth_error_Some; congruence).
      cbn [List.length] in Li. rewrite app_length in Li. cbn in Li.
      destruct (Nat.eq_dec i (Datatypes.S (List.length fs))) as [->|Ni].
      + cbn [nth_error] in Hd. rewrite nth_error_app2, Nat.sub_diag in Hd by lia. cbn in Hd. injection Hd as <-.
        rewrite upd_other by exact Nfc. rewrite nth_overflow by (rewrite app_length; cbn; lia).
        apply (a_others _ _ _ A). intros [Q|Q]; [now apply Nfi|contradiction].
      + change (INITIAL :: fs ++ [f]) with ((INITIAL :: fs) ++ [f]) in Hd. rewrite nth_error_app1 in Hd by (cbn; lia).
        destruct (String.string_dec d c) as [->|Nd].
        * rewrite upd_same. rewrite (nth_last fs c i Hd ND0 eq_refl). rewrite app_nth2, Nat.sub_diag by lia. reflexivity.
        * rewrite upd_other by exact Nd. rewrite (a_next _ _ _ A i d Hd). symmetry. apply app_nth1.
          assert (i <> List.length fs) by (intros ->; apply Nd; pose proof Ec as Ec'; unfold ends in Ec'; congruence). lia.
    - intros d Nd. cbn [sv1 s_next]. rewrite (a_last _ _ _ A). fold c. rewrite upd_other.
      + apply (a_others _ _ _ A). intros [Q|Q]; apply Nd; [now left|right; apply in_app_iff; now left].
      + intros ->. apply Nd. destruct (ends_in _ _ Ec) as [Q|Q]; [now left|right; apply in_app_iff; now left].
    - intros y Iy. assert (NMs : name_id y <> "message").
      { apply (t_names _ _ T). apply Inc. exact Iy. }
      destruct (String.string_dec (name_id y) f) as [Ey|Ny].
      + assert (U : mapping (s_value sv) y = None).
        { apply (a_unmapped _ _ _ A); [|exact NMs]. rewrite Ey. intros [Q|Q]; [now apply Nfi|contradiction]. }
        unfold field_mapping. assert (Hm : memf f (INITIAL :: m_fields mt) = true) by (apply memf_iff; now right).
        destruct y as [w|a w]; cbn [name_id] in Ey, NMs; subst w; rewrite Hm.
        * rewrite String.eqb_refl, Fv, IS'. cbn [tv].
          destruct v as [o|? ? ? o|? o|? o], v' as [o'|? ? ? o'|? o'|? o']; cbn [same_value] in SV; try contradiction; subst o'; try exact U.
          destruct o; [reflexivity|exact U].
        * rewrite String.eqb_refl. destruct (String.eqb_spec f "message"); [contradiction|]. destruct a.
          -- rewrite Ty. destruct (m_types mt f) eqn:Et; rewrite ?IS', ?Sz; cbn [num_expr]; try reflexivity.
             cbn [tv_size] in Szv. injection Szv as ->. reflexivity.
          -- exact U.
          -- rewrite Fv. reflexivity.
          -- unfold last. rewrite Fv, Sz. cbn [first num_expr]. reflexivity.
      + assert (Ifs : In (name_id y) fs) by (apply in_app_iff in Iy as [Iy|[Iy|[]]]; [exact Iy|congruence]).
        rewrite (field_mapping_ext mt st st' y (Kept _ (or_intror Ifs))). rewrite <- (a_map _ _ _ A y Ifs).
        destruct y as [w|a w]; cbn [name_id] in *.
        * destruct (String.eqb_spec w f); [contradiction|]. reflexivity.
        * destruct (String.eqb_spec w f); [contradiction|]. destruct (String.eqb_spec w "message"); [contradiction|]. destruct a; reflexivity.
    - intros y NI NM. assert (Ny : name_id y <> f) by (intros Q; apply NI; right; apply in_app_iff; right; left; congruence).
      assert (U : mapping (s_value sv) y = None).
      { apply (a_unmapped _ _ _ A); [|exact NM]. intros [Q|Q]; apply NI; [now left|right; apply in_app_iff; now left]. }
      destruct y as [w|a w]; cbn [name_id] in *.
      + destruct (String.eqb_spec w f); [contradiction|]. exact U.
      + destruct (String.eqb_spec w f); [contradiction|]. destruct (String.eqb_spec w "message"); [contradiction|]. destruct a; exact U.
    - intros y e Q. destruct y as [w|a w].
      + destruct (String.eqb w f); [|now apply (a_leaf _ _ _ A) in Q].
        cbn [tv] in Q. destruct v' as [[s|]| | |]; try (exact (a_leaf _ _ _ A _ _ Q)). assert (K : e = sval_expr s) by congruence. subst e.
        destruct s; [left|right]; cbn [sval_expr]; eauto.
      + assert (K : (exists q, e = ENum q) \/ mapping (s_value sv) (NAttr a w) = Some e).
        { destruct a, (String.eqb w "message"), (String.eqb w f); auto; left; injection Q as <-; eauto. }
        destruct K as [K|K]; [now left|now apply (a_leaf _ _ _ A) in K].
    - now rewrite (a_acc _ _ _ A).
  Qed.

  Lemma skip_sets_app : forall xs ys sv, skip_sets n mt sv (xs ++ ys) = bind (skip_sets n mt sv xs) (fun s => skip_sets n mt s ys).
  Proof.
    induction xs as [|[f x] xs IH]; intros ys sv; [reflexivity|]. cbn [app skip_sets].
    destruct (skip_set n mt sv f x); cbn [bind]; [apply IH|reflexivity].
  Qed.
  Lemma alike_entered xs st : entered n mt refs inner xs st -> Forall (fun fx => solid (snd fx)) xs ->
    exists sv, skip_sets n mt (skip_new mt) xs = Ok sv /\ alike (map fst xs) st sv.
  Proof.
    induction 1 as [st H|xs st f x st' z E IH Nx N NF Sp S GS Sz]; intros So.
    - exists (skip_new mt). split; [reflexivity|]. now apply alike_new.
    - apply Forall_app in So as [So1 So2]. inversion So2 as [|? ? So3 _]; subst. cbn [snd] in So3.
      destruct (IH So1) as (sv & K & A). destruct (alike_step xs st f x st' z sv E A Nx N NF Sp So3 S GS Sz) as (sv' & K' & A').
      exists sv'. rewrite skip_sets_app, K. cbn [bind skip_sets]. rewrite K'. cbn [bind]. split; [reflexivity|].
      rewrite map_app. exact A'.
  Qed.

  Lemma skip_next_last xs st sv : entered n mt refs inner xs st -> alike (map fst xs) st sv -> looks_back mt (map fst xs) ->
    next_field n mt (mapping (s_value sv)) (List.last (map fst xs) INITIAL) = next_field n mt (mapping st) (List.last (map fst xs) INITIAL).
  Proof.
    intros E A LB. pose proof (filled_inv n mt refs inner rank T _ _ (entered_filled n mt refs inner rank T stable types front _ _ E)) as V.
    destruct (entered_mapping n mt refs inner rank T stable types front _ _ E) as [M1 M2]. set (fs := map fst xs) in *.
    symmetry. apply (next_agree n mt (fun x => In (name_id x) fs \/ (~ In (name_id x) (m_fields mt) /\ plain_name x))).
    - intros x [I|[NI [PN PI]]]; unfold subst.
      + now rewrite (M1 x I), (a_map _ _ _ A x I).
      + rewrite (M2 x NI (conj PN PI)). rewrite (a_unmapped _ _ _ A x); [reflexivity| |exact PN].
        intros [Q|Q]; [now apply PI|]. apply NI. now apply (v_fields _ _ _ _ V).
    - intros x e [I|[NI PN]] Q; unfold subst in Q.
      + destruct (mapping st x) as [e0|] eqn:Mx.
        * injection Q as ->. rewrite (M1 x I) in Mx. unfold field_mapping in Mx.
          assert (Im : In (name_id x) (m_fields mt)) by now apply (v_fields _ _ _ _ V).
          assert (Hm : memf (name_id x) (INITIAL :: m_fields mt) = true) by (apply memf_iff; now right).
          destruct x as [y|a y]; cbn [name_id] in *; rewrite Hm in Mx.
          -- destruct (tv (fields st y)) as [[[z|s z]|]| | |] eqn:Tv; try discriminate;
               (destruct (is_set mt st y); [|discriminate]; injection Mx as <-); [left; eauto|right].
             exists (lower s). split; [reflexivity|]. right. cbn [name_id].
             destruct (v_texts _ _ _ _ V y s z Im Tv) as (X1 & X2 & X3). split; [exact X1|split; assumption].
          -- unfold num_expr in Mx. left. destruct a; try discriminate.
             ++ destruct (typ mt y); try (destruct (is_set mt st y); [|discriminate]; destruct (size_of mt st y); [|discriminate]); injection Mx as <-; eauto.
             ++ destruct (first (fields st y)); [|discriminate]. injection Mx as <-. eauto.
             ++ destruct (last mt st y); [|discriminate]. injection Mx as <-. eauto.
        * destruct x as [y|a y]; [|discriminate]. destruct (literal mt y); [|discriminate]. injection Q as <-. left. eauto.
      + rewrite (M2 x NI PN) in Q. destruct x as [y|a y]; [|discriminate]. destruct (literal mt y); [|discriminate]. injection Q as <-. left. eauto.
    - intros l x I Sl Ix. destruct (in_dec String.string_dec (name_id x) (m_fields mt)) as [Im|NI].
      + left. specialize (LB (List.length fs) _ l x (ends_last fs) I Sl Ix Im). now rewrite firstn_all in LB.
      + right. split; [exact NI|]. exact (t_plain _ _ T l x I Ix).
  Qed.

  Lemma skip_set_in fs st sv f : inv n mt fs st -> alike fs st sv -> In f fs -> is_set mt (s_value sv) f = true.
  Proof.
    intros V A I. destruct (a_fields _ _ _ A f (or_intror I)) as (SV & SF & SS). destruct (v_fields _ _ _ _ V f I) as [_ IS].
    unfold is_set in *. now rewrite SF, SS, (same_initialized _ _ SV).
  Qed.

  Lemma skip_bits_all fs st sv bs : inv n mt fs st -> row mt st fs bs -> alike fs st sv ->
    next_field n mt (mapping (s_value sv)) (List.last fs INITIAL) = Ok FINAL ->
    forall k i f, (List.length fs - i <= k)%nat ->
    match nth_error fs i with Some g => f = g | None => f = FINAL end ->
    skip_bits_loop n mt k sv f (concat (firstn i bs)) = Ok (concat bs).
  Proof.
    intros V R A Fin. assert (Lf : List.length fs = List.length bs) by (clear -R; induction R; cbn; auto).
    induction k as [|k IH]; intros i f L Hf.
    - assert (Hn : nth_error fs i = None) by (apply nth_error_None; lia). rewrite Hn in Hf. subst f. cbn.
      rewrite firstn_all2 by lia. reflexivity.
    - destruct (nth_error fs i) as [g|] eqn:Hg.
      2:{ subst f. cbn. rewrite firstn_all2; [reflexivity|]. apply nth_error_None in Hg. lia. }
      subst g. assert (If : In f fs) by (eapply nth_error_In; eauto).
      destruct (v_fields _ _ _ _ V f If) as [Im IS]. destruct (t_names _ _ T _ Im) as (N & _ & _ & NF).
      destruct (a_fields _ _ _ A f (or_intror If)) as (SV & SF & _).
      cbn [skip_bits_loop]. destruct (String.eqb_spec f ""); [contradiction|]. destruct (String.eqb_spec f FINAL); [contradiction|].
      cbn [orb]. rewrite (skip_set_in fs st sv f V A If), SF, (row_first n mt rank T fs st bs i f V R Hg).
      destruct (Z.leb_spec (len (concat (firstn i bs))) (len (concat (firstn i bs)))) as [_|X]; [|lia].
      destruct (nth_row mt st fs bs i f R Hg) as (y & Y & B & _). rewrite <- (same_bits _ _ _ SV), B. cbn [bind].
      rewrite Nat2Z.id, firstn_all.
      assert (Nx : exists f', skip_next n mt sv f = Ok f' /\
        match nth_error fs (Datatypes.S i) with Some g => f' = g | None => f' = FINAL end).
      { unfold skip_next. destruct (String.eqb_spec f FINAL); [contradiction|]. rewrite (a_next _ _ _ A (Datatypes.S i) f Hg).
        destruct (nth_error fs (Datatypes.S i)) as [g|] eqn:Hg'.
        - assert (Q : nth (Datatypes.S i) fs "" = g) by exact (nth_error_nth _ _ "" Hg').
          cbv beta in Q. match goal with |- context [nth ?a fs ""] => replace (nth a fs "") with g by (symmetry; exact Q) end. assert (Ng : g <> "").
          { apply (t_names _ _ T). apply (v_fields _ _ _ _ V). eapply nth_error_In; eauto. }
          destruct (String.eqb_spec g ""); [contradiction|]. cbn [negb]. eauto.
        - apply nth_error_None in Hg'. match goal with |- context [nth ?a fs ""] => replace (nth a fs "") with "" by (symmetry; exact (nth_overflow fs "" Hg')) end. cbn [String.eqb negb]. exists FINAL. split; [|reflexivity].
          rewrite <- Fin. f_equal. apply (last_ends fs). unfold ends.
          assert (Li : (i < List.length fs)%nat) by (apply nth_error_Some; congruence).
          replace (List.length fs) with (Datatypes.S i) by lia. exact Hg. }
      destruct Nx as (f' & Nx & Hf'). rewrite Nx. cbn [bind].
      rewrite <- (IH (Datatypes.S i) f'); [|lia|exact Hf']. f_equal.
      rewrite (firstn_snoc bs i y Y), concat_app. cbn [concat]. now rewrite app_nil_r.
  Qed.

  Lemma skip_bits xs st sv : entered n mt refs inner xs st -> alike (map fst xs) st sv -> definite mt ->
    (List.length (m_fields mt) <= n)%nat -> next_field n mt (mapping st) (List.last (map fst xs) INITIAL) = Ok FINAL ->
    exists b, bitstring n mt st = Ok b /\ skip_bitstring n mt sv = Ok b.
  Proof.
    intros E A DF Ln Fin. pose proof (entered_filled n mt refs inner rank T stable types front _ _ E) as F.
    pose proof (filled_inv n mt refs inner rank T _ _ F) as V.
    pose proof (entered_back n mt refs inner rank T stable types front _ _ DF E) as LB.
    assert (LF : (List.length (map fst xs) <= n)%nat).
    { etransitivity; [|exact Ln]. apply NoDup_incl_length; [exact (inv_nodup n mt rank T _ _ V)|].
      intros f I. now apply (v_fields _ _ _ _ V). }
    assert (N0 : exists st0 f0, new n mt = Ok st0 /\ next_field n mt (mapping st0) INITIAL = Ok f0).
    { clear -E. induction E as [st H|]; [|assumption]. exists st. eexists. split; [exact H|]. reflexivity. }
    destruct N0 as (st0 & f0 & N0 & Nf0).
    destruct (parse_again n mt refs inner rank T stable types front st0 f0 xs st N0 Nf0 E) as (bs & x & z & R & _).
    pose proof (skip_next_last xs st sv E A LB) as SL. rewrite Fin in SL. exists (concat bs).
    set (fs := map fst xs) in *. split.
    - unfold bitstring.
      assert (Nx : exists f, next_field n mt (mapping st) INITIAL = Ok f /\
        match nth_error fs 0 with Some g => f = g | None => f = FINAL end).
      { destruct (nth_error fs 0) as [g|] eqn:G.
        - exists g. split; [|reflexivity]. apply (path_kept n mt refs inner rank T stable types front xs st E LB 0 INITIAL g eq_refl G).
        - exists FINAL. split; [|reflexivity]. destruct fs; [exact Fin|discriminate]. }
      destruct Nx as (f & Nx & Hf). rewrite Nx. cbn [bind].
      apply (bits_all n mt rank T fs st bs V R (path_kept n mt refs inner rank T stable types front xs st E LB) Fin n 0 f); [lia|exact Hf].
    - unfold skip_bitstring.
      assert (Nx : exists f, skip_next n mt sv INITIAL = Ok f /\
        match nth_error fs 0 with Some g => f = g | None => f = FINAL end).
      { unfold skip_next. change (String.eqb INITIAL FINAL) with false. cbv iota. rewrite (a_next _ _ _ A 0 INITIAL eq_refl).
        destruct fs as [|g fs'] eqn:Q; cbn [nth nth_error].
        - exists FINAL. split; [exact SL|reflexivity].
        - assert (Ng : g <> "") by (apply (t_names _ _ T); apply (v_fields _ _ _ _ V); now left).
          destruct (String.eqb_spec g ""); [contradiction|]. cbn [negb]. eauto. }
      destruct Nx as (f & Nx & Hf). rewrite Nx. cbn [bind].
      apply (skip_bits_all fs st sv bs V R A SL n 0 f); [lia|exact Hf].
  Qed.
  (** *** Validity *)

  Lemma loop_ranks : forall k st nxt acc st' l, (nxt = "" \/ nxt = FINAL \/ In nxt (m_fields mt)) ->
    preset_loop n mt k st nxt acc = (st', Ok l) ->
    exists (b : bool) t, l = acc ++ (if b then [nxt] else []) ++ t /\ (forall g, In g t -> (rank nxt < rank g)%nat) /\
      (nxt = FINAL -> b = false /\ t = []).
  Proof.
    induction k as [|k IH]; intros st nxt acc st' l Hn H; cbn [preset_loop] in H.
    - destruct (_ || _)%bool; [|discriminate]. injection H as _ <-. exists false, []. cbn. rewrite app_nil_r. split; [reflexivity|]. split; [intros g []|auto].
    - assert (Z : l = acc -> exists (b : bool) t, l = acc ++ (if b then [nxt] else []) ++ t /\ (forall g, In g t -> (rank nxt < rank g)%nat) /\
        (nxt = FINAL -> b = false /\ t = [])).
      { intros ->. exists false, []. cbn. rewrite app_nil_r. split; [reflexivity|]. split; [intros g []|auto]. }
      destruct (String.eqb_spec nxt "") as [E|N]; cbn [orb] in H; [injection H as _ <-; auto|].
      destruct (String.eqb_spec nxt FINAL) as [E|NF]; [injection H as _ <-; auto|].
      assert (In_ : In nxt (m_fields mt)) by intuition.
      destruct (get_first n mt st nxt) as [[p|]|w1]; destruct (get_size n mt st nxt) as [size|w2];
        try discriminate; try (injection H as _ <-; auto; fail).
      match type of H with (match ?a with _ => _ end) = _ => destruct a as [b|w] end; [|discriminate].
      assert (Z' : l = (if b then acc ++ [nxt] else acc) -> exists (b : bool) t, l = acc ++ (if b then [nxt] else []) ++ t /\ (forall g, In g t -> (rank nxt < rank g)%nat) /\
        (nxt = FINAL -> b = false /\ t = [])).
      { intros ->. exists b, []. rewrite app_nil_r. split; [destruct b; now rewrite ?app_nil_r|]. split; [intros g []|contradiction]. }
      destruct size as [z|]; [|injection H as _ <-; auto].
      match type of H with (if ?c then _ else _) = _ => destruct c end; [injection H as _ <-; auto|].
      match type of H with (match ?c with _ => _ end) = _ => destruct c as [nxt'|] eqn:Nx end; [|discriminate].
      destruct (String.string_dec nxt' "") as [E'|N'].
      { subst nxt'. destruct k; cbn in H; injection H as _ <-; auto. }
      destruct (next_rank n mt rank _ _ _ T (or_intror In_) Nx N') as [R X].
      destruct (IH _ nxt' _ _ _ ltac:(right; destruct (String.string_dec nxt' FINAL); auto) H) as (b' & t & L & G & _).
      exists b, ((if b' then [nxt'] else []) ++ t). split.
      + rewrite L. destruct b; cbn [app]; rewrite <- ?app_assoc; reflexivity.
      + split; [|contradiction]. intros g I. apply in_app_iff in I as [I|I].
        * destruct b'; [|contradiction]. destruct I as [<-|[]]. exact R.
        * specialize (G g I). lia.
  Qed.
  Lemma up_to_app f : forall l t, ~ In f l -> up_to f (l ++ f :: t) = Some (l ++ [f]).
  Proof.
    induction l as [|x l IH]; intros t NI; cbn [app up_to]; [now rewrite String.eqb_refl|].
    destruct (String.eqb_spec x f) as [E|_]; [elim NI; now left|]. rewrite IH; [reflexivity|]. intros I. apply NI. now right.
  Qed.
  (** what can be set: the fields set so far, then those reachable *)
  Lemma entered_accessible xs st : entered n mt refs inner xs st -> exists nxt b t,
    next_field n mt (mapping st) (List.last (map fst xs) INITIAL) = Ok nxt /\
    accessible st = map fst xs ++ (if b : bool then [nxt] else []) ++ t /\
    (forall g, In g t -> (rank nxt < rank g)%nat) /\ (nxt = FINAL -> b = false /\ t = []).
  Proof.
    induction 1 as [st H|xs st f v st' zf E IH Nx N NF Sp S GS Sz].
    - unfold new in H. destruct (preset_fields n mt (blank mt) INITIAL) as [s [[]|]] eqn:P; [|discriminate].
      apply Ok_inj in H. subst s. rewrite (proj1 (preset_frame n mt rank T _ _ _ _ (or_introl eq_refl) P)).
      unfold preset_fields in P. cbn [map List.last]. destruct (next_field n mt (mapping (blank mt)) INITIAL) as [nxt|] eqn:Nx; [|discriminate].
      destruct (preset_loop n mt n (blank mt) nxt []) as [st1 [l|]] eqn:L; [|discriminate].
      assert (Hn : nxt = "" \/ nxt = FINAL \/ In nxt (m_fields mt)).
      { destruct (String.string_dec nxt "") as [|N']; [now left|]. right.
        destruct (next_rank n mt rank _ _ _ T (or_introl eq_refl) Nx N') as [_ X]. destruct (String.string_dec nxt FINAL); [now left|right; auto]. }
      destruct (loop_ranks _ _ _ _ _ _ Hn L) as (b & t & Q & G & Z). exists nxt, b, t. split; [reflexivity|].
      injection P as <-. cbn [set_accessible accessible]. destruct (preset_loop_kept n mt _ _ _ _ _ _ L) as (_ & A1 & _).
      rewrite A1. cbn [blank accessible up_to]. subst l. auto.
    - destruct IH as (nxt & b & t & Nx' & A & G & Z). rewrite Nx in Nx'. apply Ok_inj in Nx'. subst nxt.
      pose proof (filled_inv n mt refs inner rank T _ _ (entered_filled n mt refs inner rank T stable types front _ _ E)) as V.
      rewrite map_app. cbn [map fst]. set (fs := map fst xs) in *.
      pose proof (ends_last fs) as Ec. set (c := List.last fs INITIAL) in *.
      pose proof (inv_path_field n mt fs st V c (ends_in _ _ Ec)) as Icf.
      destruct (next_rank n mt rank _ c f T Icf Nx N) as [Lt In']. assert (If : In f (m_fields mt)) by auto. clear In'.
      pose proof (inv_rank n mt rank T fs st c V Ec) as Rk.
      assert (Nf : ~ In f fs) by (intros I; specialize (Rk f (or_intror I)); lia).
      destruct (set_steps n mt refs inner st f v st' S) as (Ia & p & size & r & w & st4 & st5 & _ & _ & _ & _ & _ & _ & A4 & U & P).
      assert (b = true) as ->.
      { rewrite A in Ia. destruct b; [reflexivity|]. cbn [app] in Ia. apply in_app_iff in Ia as [I|I]; [contradiction|].
        specialize (G f I). lia. }
      rewrite (proj1 (preset_frame n mt rank T _ _ _ _ (or_intror If) P)).
      unfold preset_fields in P. rewrite last_last. destruct (next_field n mt (mapping st5) f) as [nxt|] eqn:Nx5; [|discriminate].
      destruct (preset_loop n mt n st5 nxt []) as [st6 [l|]] eqn:L; [|discriminate].
      assert (Hn : nxt = "" \/ nxt = FINAL \/ In nxt (m_fields mt)).
      { destruct (String.string_dec nxt "") as [|N']; [now left|]. right.
        destruct (next_rank n mt rank _ _ _ T (or_intror If) Nx5 N') as [_ X]. destruct (String.string_dec nxt FINAL); [now left|right; auto]. }
      destruct (loop_ranks _ _ _ _ _ _ Hn L) as (b' & t' & Q & G' & Z'). exists nxt, b', t'. split; [reflexivity|].
      injection P as <-. cbn [set_accessible accessible]. destruct (preset_loop_kept n mt _ _ _ _ _ _ L) as (_ & A1 & _).
      rewrite A1, (proj2 (update_fields n mt _ _ U)), A4, A. cbn [app]. rewrite (up_to_app f fs t Nf). subst l. auto.
  Qed.
  Lemma entered_unset xs st y : entered n mt refs inner xs st -> In y (m_fields mt) -> ~ In y (map fst xs) -> mapping st (NVar y) = None.
  Proof.
    intros E I NI. destruct E as [st H|xs st f v st' zf E Nx N NF Sp S GS Sz].
    - unfold new in H. destruct (preset_fields n mt (blank mt) INITIAL) as [s [[]|]] eqn:P; [|discriminate].
      apply Ok_inj in H. subst s. rewrite (proj1 (preset_frame n mt rank T _ _ _ _ (or_introl eq_refl) P)). reflexivity.
    - pose proof (filled_inv n mt refs inner rank T _ _ (entered_filled n mt refs inner rank T stable types front _ _ E)) as V.
      rewrite map_app in NI. cbn [map fst] in NI. set (fs := map fst xs) in *.
      assert (Nf : y <> f) by (intros ->; apply NI, in_app_iff; right; now left).
      assert (Ny : ~ In y fs) by (intros J; apply NI, in_app_iff; now left).
      pose proof (ends_last fs) as Ec.
      pose proof (inv_path_field n mt fs st V _ (ends_in _ _ Ec)) as Icf.
      destruct (next_rank n mt rank _ _ f T Icf Nx N) as [Lt In']. assert (If : In f (m_fields mt)) by auto. clear In'.
      destruct (set_steps n mt refs inner st f v st' S) as (_ & p & size & r & w & st4 & st5 & _ & _ & _ & F4 & O4 & _ & _ & U & P).
      rewrite (proj1 (preset_frame n mt rank T _ _ _ _ (or_intror If) P)).
      unfold update_mapping in U. binds U. apply Ok_inj in U. subst st5. cbn [mapping].
      assert (K : field_mapping mt st4 (NVar y) = None).
      { pose proof (inv_not_set n mt rank T fs st V y I Ny) as IS. 
        assert (IS4 : is_set mt st4 y = false) by (unfold is_set, size_of in *; rewrite (O4 y Nf); exact IS).
        unfold field_mapping. rewrite IS4. destruct (memf _ _); [|reflexivity]. destruct (tv (fields st4 y)) as [[]| | |]; reflexivity. }
      match goal with |- context [match ?o with Some _ => _ | None => _ end] => destruct o as [zz|] end; exact K.
  Qed.

  (** conditions refer to the values of fields and to constants *)
  Definition on_values : Prop := forall l x, In l (m_links mt) -> In x (names (condition l)) -> exists y, x = NVar y.

  Lemma holds_alike xs st sv c : on_values -> entered n mt refs inner xs st -> alike (map fst xs) st sv ->
    (forall x, In x (names c) -> exists l, In l (m_links mt) /\ In x (names (condition l))) ->
    holds n mt (mapping (s_value sv)) c = holds n mt (mapping st) c.
  Proof.
    intros OV E A C. pose proof (filled_inv n mt refs inner rank T _ _ (entered_filled n mt refs inner rank T stable types front _ _ E)) as V.
    destruct (entered_mapping n mt refs inner rank T stable types front _ _ E) as [M1 M2].
    unfold holds. symmetry.
    rewrite (simplified_agree n mt (fun x => plain_name x /\ exists y, x = NVar y) (mapping st) (mapping (s_value sv))); [reflexivity| | |].
    - intros x [[PN PI] [y ->]]. unfold subst.
      replace (mapping (s_value sv) (NVar y)) with (mapping st (NVar y)); [reflexivity|].
      destruct (in_dec String.string_dec y (map fst xs)) as [I|NI].
      + now rewrite (M1 (NVar y) I), (a_map _ _ _ A (NVar y) I).
      + assert (Q : mapping (s_value sv) (NVar y) = None).
        { apply (a_unmapped _ _ _ A); [|exact PN]. cbn [name_id]. intros [Q|Q]; [now apply PI|contradiction]. }
        rewrite Q. destruct (in_dec String.string_dec y (m_fields mt)) as [Im|Nm].
        * exact (entered_unset xs st y E Im NI).
        * apply M2; [exact Nm|split; assumption].
    - intros x e [[PN PI] [y ->]] Q. unfold subst in Q.
      destruct (mapping st (NVar y)) as [e0|] eqn:Mx.
      + injection Q as ->. destruct (in_dec String.string_dec y (map fst xs)) as [I|NI].
        * rewrite (M1 (NVar y) I) in Mx. unfold field_mapping in Mx.
          assert (Im : In y (m_fields mt)) by now apply (v_fields _ _ _ _ V).
          assert (Hm : memf y (INITIAL :: m_fields mt) = true) by (apply memf_iff; now right). rewrite Hm in Mx.
          destruct (tv (fields st y)) as [[[z|s z]|]| | |] eqn:Tv; try discriminate;
            (destruct (is_set mt st y); [|discriminate]; injection Mx as <-); [left; eauto|right].
          exists (lower s). split; [reflexivity|]. destruct (v_texts _ _ _ _ V y s z Im Tv) as (X1 & X2 & X3).
          split; [split; assumption|eauto].
        * exfalso. destruct (in_dec String.string_dec y (m_fields mt)) as [Im|Nm].
          -- rewrite (entered_unset xs st y E Im NI) in Mx. discriminate.
          -- rewrite (M2 (NVar y) Nm (conj PN PI)) in Mx. discriminate.
      + destruct (literal mt y); [|discriminate]. injection Q as <-. left. eauto.
    - intros x I. destruct (C x I) as (l & Il & Ix). split; [exact (t_plain _ _ T l x Il Ix)|exact (OV l x Il Ix)].
  Qed.
  Lemma valid_field_alike xs st sv f : on_values -> entered n mt refs inner xs st -> alike (map fst xs) st sv -> In f (map fst xs) ->
    valid_field n mt (s_value sv) f = valid_field n mt st f.
  Proof.
    intros OV E A I. pose proof (filled_inv n mt refs inner rank T _ _ (entered_filled n mt refs inner rank T stable types front _ _ E)) as V.
    unfold valid_field. rewrite (skip_set_in _ st sv f V A I), (proj2 (v_fields _ _ _ _ V f I)).
    destruct (condition_of n mt f) as [c|] eqn:C; cbn [bind]; [|reflexivity].
    rewrite (holds_alike xs st sv c OV E A).
    - destruct (holds n mt (mapping st) c) as [[|]|]; cbn [bind]; try reflexivity.
      assert (G : forall ls, (forall l, In l ls -> In l (m_links mt)) -> any_holds n mt (mapping (s_value sv)) ls = any_holds n mt (mapping st) ls).
      { induction ls as [|l ls IH]; intros L; [reflexivity|]. cbn [any_holds].
        rewrite (holds_alike xs st sv (condition l) OV E A); [|intros x Ix; exists l; split; [apply L; now left|exact Ix]].
        destruct (holds n mt (mapping st) (condition l)) as [[|]|]; cbn [bind]; try reflexivity. apply IH. intros l' I'. apply L. now right. }
      apply G. intros l Il. unfold outgoing_, outgoing in Il. now apply filter_In in Il.
    - intros x Ix. unfold condition_of, field_condition in C.
      destruct (compute_field_condition (m_links mt) n f) as [c0|] eqn:C0; cbn [bind] in C; [|discriminate].
      apply (condition_names _ _ _ _ C0). exact (simplify_within (fun x => In x (names c0)) _ _ _ _ C (fun x X => X) _ Ix).
  Qed.
  Lemma valid_fields_alike xs st sv : on_values -> entered n mt refs inner xs st -> alike (map fst xs) st sv ->
    accessible st = map fst xs -> valid_fields n mt (s_value sv) = valid_fields n mt st.
  Proof.
    intros OV E A AC. unfold valid_fields. rewrite (a_acc _ _ _ A), AC.
    rewrite (mapr_ext _ (fun f => bind (valid_field n mt st f) (fun b => Ok (if b then [f] else [])))); [reflexivity|].
    intros f I. now rewrite (valid_field_alike xs st sv f OV E A I).
  Qed.
  Lemma valid_fields_in st l f : valid_fields n mt st = Ok l -> In f l -> In f (accessible st).
  Proof.
    unfold valid_fields. intros H I. destruct (mapr _ (accessible st)) as [ls|] eqn:M; cbn [bind] in H; [|discriminate].
    apply Ok_inj in H. subst l. apply in_concat in I as (y & Iy & I).
    apply (proj1 (mapr_In _ _ _ M y)) in Iy as (g & Ig & G).
    destruct (valid_field n mt st g) as [[|]|]; cbn [bind] in G; try discriminate; apply Ok_inj in G; subst y; [|contradiction].
    destruct I as [<-|[]]. exact Ig.
  Qed.

  Lemma skip_valid xs st sv : on_values -> definite mt -> entered n mt refs inner xs st -> alike (map fst xs) st sv ->
    (skip_valid_message n mt sv = Ok true <-> valid_message n mt st = Ok true).
  Proof.
    intros OV DF E A. pose proof (entered_filled n mt refs inner rank T stable types front _ _ E) as F.
    pose proof (filled_inv n mt refs inner rank T _ _ F) as V.
    pose proof (entered_back n mt refs inner rank T stable types front _ _ DF E) as LB.
    pose proof (skip_next_last xs st sv E A LB) as SL.
    destruct (entered_accessible xs st E) as (nxt & b & t & Nx & AC & _ & Z).
    assert (Full : next_field n mt (mapping st) (List.last (map fst xs) INITIAL) = Ok FINAL -> accessible st = map fst xs).
    { intros Q. rewrite Q in Nx. apply Ok_inj in Nx. destruct (Z (eq_sym Nx)) as [-> ->]. rewrite AC. cbn. now rewrite app_nil_r. }
    (** the field behind another one *)
    assert (Nth : forall g, In g (map fst xs) -> g = List.last (map fst xs) INITIAL \/
      exists h, In h (map fst xs) /\ next_field n mt (mapping st) g = Ok h /\ skip_next n mt sv g = Ok h).
    { intros g I. apply In_nth_error in I as [i Hi]. destruct (nth_error (map fst xs) (Datatypes.S i)) as [h|] eqn:Hh.
      - right. exists h. assert (Ih : In h (map fst xs)) by (eapply nth_error_In; eauto). split; [exact Ih|].
        split; [exact (path_kept n mt refs inner rank T stable types front xs st E LB (Datatypes.S i) g h Hi Hh)|].
        assert (Ig : In g (map fst xs)) by (eapply nth_error_In; eauto).
        destruct (t_names _ _ T g (proj1 (v_fields _ _ _ _ V g Ig))) as (_ & _ & _ & NF).
        destruct (t_names _ _ T h (proj1 (v_fields _ _ _ _ V h Ih))) as (Nh & _).
        unfold skip_next. destruct (String.eqb_spec g FINAL); [contradiction|]. rewrite (a_next _ _ _ A (Datatypes.S i) g Hi).
        assert (Q : nth (Datatypes.S i) (map fst xs) "" = h) by exact (nth_error_nth _ _ "" Hh).
        match goal with |- context [nth ?a (map fst xs) ""] => replace (nth a (map fst xs) "") with h by (symmetry; exact Q) end.
        destruct (String.eqb_spec h ""); [contradiction|]. reflexivity.
      - left. apply last_ends. unfold ends. apply nth_error_None in Hh.
        assert (Li : (i < List.length (map fst xs))%nat) by (apply nth_error_Some; congruence).
        replace (List.length (map fst xs)) with (Datatypes.S i) by lia. exact Hi. }
    assert (NoFinal : forall h, In h (map fst xs) -> h <> FINAL).
    { intros h I. now apply (t_names _ _ T h), (v_fields _ _ _ _ V). }
    assert (Last : In (List.last (map fst xs) INITIAL) (map fst xs) ->
      skip_next n mt sv (List.last (map fst xs) INITIAL) = next_field n mt (mapping st) (List.last (map fst xs) INITIAL)).
    { intros I. unfold skip_next. destruct (String.eqb_spec (List.last (map fst xs) INITIAL) FINAL) as [Q|_]; [now apply NoFinal in I|].
      rewrite (a_next _ _ _ A (List.length (map fst xs)) _ (ends_last (map fst xs))). rewrite (nth_overflow (map fst xs) "") by auto.
      cbn [String.eqb negb]. exact SL. }
    split; intros H.
    - unfold skip_valid_message in H. destruct (valid_fields n mt (s_value sv)) as [l|] eqn:VF; cbn [bind] in H; [|discriminate].
      destruct (rev l) as [|g l'] eqn:R; [discriminate|].
      assert (Ig : In g (map fst xs)).
      { rewrite <- (a_acc _ _ _ A). apply (valid_fields_in _ l); [exact VF|]. apply in_rev. rewrite R. now left. }
      destruct (skip_next n mt sv g) as [h|] eqn:SN; cbn [bind] in H; [|discriminate]. apply Ok_inj, String.eqb_eq in H. subst h.
      destruct (Nth g Ig) as [Q|(h & Ih & _ & Sh)].
      2:{ rewrite SN in Sh. apply Ok_inj in Sh. subst h. now apply NoFinal in Ih. }
      subst g. rewrite (Last Ig) in SN.
      unfold valid_message. rewrite <- (valid_fields_alike xs st sv OV E A (Full SN)), VF. cbn [bind]. rewrite R, SN. reflexivity.
    - pose proof (filled_final n mt refs inner rank T _ _ F H) as Fin. unfold valid_message in H.
      unfold skip_valid_message. rewrite (valid_fields_alike xs st sv OV E A (Full Fin)).
      destruct (valid_fields n mt st) as [l|] eqn:VF; cbn [bind] in H |- *; [|discriminate].
      destruct (rev l) as [|g l'] eqn:R; [discriminate|].
      assert (Ig : In g (map fst xs)).
      { rewrite <- (Full Fin). apply (valid_fields_in _ l); [exact VF|]. apply in_rev. rewrite R. now left. }
      destruct (next_field n mt (mapping st) g) as [h|] eqn:SN; cbn [bind] in H; [|discriminate]. apply Ok_inj, String.eqb_eq in H. subst h.
      destruct (Nth g Ig) as [Q|(h & Ih & Sh & _)].
      2:{ rewrite SN in Sh. apply Ok_inj in Sh. subst h. now apply NoFinal in Ih. }
      subst g. rewrite (Last Ig), SN. reflexivity.
  Qed.
End Alike.

(** ** The property *)

(** A message value that verifies is filled in message order.  Without verification the same
    calls succeed and give every field the same value and the same position. *)
Theorem C60_fields : forall n mt rank refs inner xs st, tidy mt rank -> declared_fields n mt -> prefixes inner -> rereads inner ->
  measured n mt -> entered n mt refs inner xs st -> Forall (fun fx => solid (snd fx)) xs ->
  exists sv, skip_sets n mt (skip_new mt) xs = Ok sv /\ accessible (s_value sv) = map fst xs /\
    forall f, In f (map fst xs) -> is_set mt (s_value sv) f = true /\
      same_value (tv (fields st f)) (tv (fields (s_value sv) f)) /\ first (fields (s_value sv) f) = first (fields st f) /\
      size_of mt (s_value sv) f = size_of mt st f.
Proof.
  intros n mt rank refs inner xs st T [L DT] FR ST ME E So.
  destruct (alike_entered n mt refs inner rank T ST DT FR ME xs st E So) as (sv & K & A). exists sv.
  split; [exact K|]. split; [exact (a_acc _ _ _ _ A)|]. intros f I.
  pose proof (filled_inv n mt refs inner rank T _ _ (entered_filled n mt refs inner rank T ST DT FR _ _ E)) as V.
  split; [exact (skip_set_in n mt _ st sv f V A I)|]. exact (a_fields _ _ _ _ A f (or_intror I)).
Qed.
(** If the message that verifies is valid then both have the same bytes. *)
Theorem C60_bytes : forall n mt rank refs inner xs st, tidy mt rank -> definite mt -> declared_fields n mt -> prefixes inner -> rereads inner ->
  measured n mt -> entered n mt refs inner xs st -> Forall (fun fx => solid (snd fx)) xs -> valid_message n mt st = Ok true ->
  exists sv b, skip_sets n mt (skip_new mt) xs = Ok sv /\ bitstring n mt st = Ok b /\ skip_bitstring n mt sv = Ok b /\
    skip_bytestring n mt sv = bytestring n mt st.
Proof.
  intros n mt rank refs inner xs st T D [L DT] FR ST ME E So VM.
  destruct (alike_entered n mt refs inner rank T ST DT FR ME xs st E So) as (sv & K & A).
  destruct (skip_bits n mt refs inner rank T ST DT FR xs st sv E A D L) as (b & B & B').
  { apply (filled_final n mt refs inner rank T); [|exact VM]. exact (entered_filled n mt refs inner rank T ST DT FR xs st E). }
  exists sv, b. split; [exact K|]. split; [exact B|]. split; [exact B'|].
  unfold bytestring, skip_bytestring. rewrite VM, B, B'. reflexivity.
Qed.
(** One is a valid message if the other is, if the conditions of the message refer to values. *)
Theorem C60_valid : forall n mt rank refs inner xs st sv, tidy mt rank -> definite mt -> declared_fields n mt -> prefixes inner -> rereads inner ->
  measured n mt -> on_values mt -> entered n mt refs inner xs st -> Forall (fun fx => solid (snd fx)) xs ->
  skip_sets n mt (skip_new mt) xs = Ok sv ->
  (skip_valid_message n mt sv = Ok true <-> valid_message n mt st = Ok true).
Proof.
  intros n mt rank refs inner xs st sv T D [L DT] FR ST ME OV E So K.
  destruct (alike_entered n mt refs inner rank T ST DT FR ME xs st E So) as (sv' & K' & A).
  rewrite K in K'. apply Ok_inj in K'. subst sv'. now apply (skip_valid n mt refs inner rank T ST DT FR xs).
Qed.

(** ** A concrete case *)

Definition skipped (mt : mtype) (xs : list (field * pyval)) : svalue :=
  match skip_sets 40 mt (skip_new mt) xs with Ok sv => sv | Err _ => skip_new mt end.
Lemma skipped_ok mt xs : match skip_sets 40 mt (skip_new mt) xs with Ok _ => true | Err _ => false end = true ->
  skip_sets 40 mt (skip_new mt) xs = Ok (skipped mt xs).
Proof. unfold skipped. destruct (skip_sets 40 mt (skip_new mt) xs); [reflexivity|discriminate]. Qed.

Lemma tlv_measured : measured 40 tlv.
Proof.
  intros l e I Q. cbn in I. repeat (destruct I as [<-|I]; [cbn in Q|]); try discriminate; try contradiction.
  injection Q as <-. split; [reflexivity|]. split; [reflexivity|]. split; [cbn; lia|]. intros E EI.
  destruct (EI (NVar "length")) as [z Hz]. unfold EVar. cbn [eval map]. rewrite Hz. cbn. eauto.
Qed.
Example C60_case : let xs := [("tag", PStr "Data"); ("length", PInt 2); ("value", PBytes [7; 8])] in
  let st := made tlv [] nothing xs in
  tidy tlv (position [INITIAL; "tag"; "length"; "value"]) /\ definite tlv /\ declared_fields 40 tlv /\
  prefixes nothing /\ rereads nothing /\ measured 40 tlv /\ entered 40 tlv [] nothing xs st /\
  Forall (fun fx => solid (snd fx)) xs /\ valid_message 40 tlv st = Ok true /\
  on_values tlv /\ skip_valid_message 40 tlv (skipped tlv xs) = Ok true /\
  skip_bytestring 40 tlv (skipped tlv xs) = Ok [1; 2; 7; 8] /\ first (fields (s_value (skipped tlv xs)) "value") = Some 16.
Proof.
  intros xs st. destruct C55_case as (T & D & DF & P & R & E & V & B).
  split; [exact T|]. split; [exact D|]. split; [exact DF|]. split; [exact P|]. split; [exact R|]. split; [exact tlv_measured|].
  split; [exact E|]. split; [repeat constructor|]. split; [exact V|].
  split. { intros l x I Ix. cbn in I. repeat (destruct I as [<-|I]; [cbn in Ix; repeat (destruct Ix as [<-|Ix]; [eauto|]); contradiction|]). contradiction. }
  split; [vm_compute; reflexivity|]. split; vm_compute; reflexivity.
Qed.

(** ** Where the expectations fail *)

(** An empty array takes the size of the first link that has one, whatever the condition of
    the link says: the field behind it gets a wrong position and is left out of the bytes. *)
Definition listed : mtype := mkMtype "P.Listed"
  [mkLink INITIAL "kind" ETrue None None;
   mkLink "kind" "list" (ERel OEq (EVar "kind") (ENum 1)) (Some (ENum 16)) None;
   mkLink "kind" "list" (ERel ONe (EVar "kind") (ENum 1)) (Some (ENum 0)) None;
   mkLink "list" "tail" ETrue None None;
   mkLink "tail" FINAL ETrue None None]
  ["kind"; "list"; "tail"] (fun f => if String.eqb f "list" then FMessages "P.Item" else FScalar byte false).
Theorem C60_empty_refuted : exists mt xs b b', measured 40 mt /\ valid_message 40 mt (made mt [] nothing xs) = Ok true /\
  bytestring 40 mt (made mt [] nothing xs) = Ok b /\ skip_sets 40 mt (skip_new mt) xs = Ok (skipped mt xs) /\
  skip_bytestring 40 mt (skipped mt xs) = Ok b' /\ b <> b'.
Proof.
  exists listed, [("kind", PInt 2); ("list", PMessages []); ("tail", PInt 9)], [2; 9], [2].
  split. { intros l e I Q. cbn in I. repeat (destruct I as [<-|I]; [cbn in Q|]); try discriminate; try contradiction;
    injection Q as <-; (split; [reflexivity|]); (split; [reflexivity|]); (split; [cbn; lia|]); cbn; eauto. }
  split; [vm_compute; reflexivity|]. split; [vm_compute; reflexivity|]. split; [apply skipped_ok; vm_compute; reflexivity|].
  split; [vm_compute; reflexivity|discriminate].
Qed.
(** The position that a link gives is taken whatever the condition of the link says. *)
Definition overlaid : mtype := mkMtype "P.Overlaid"
  [mkLink INITIAL "kind" ETrue None None;
   mkLink "kind" "value" (ERel OEq (EVar "kind") (ENum 1)) None (Some (EName (NAttr AFirst "kind") true));
   mkLink "kind" "value" (ERel ONe (EVar "kind") (ENum 1)) None None;
   mkLink "value" FINAL ETrue None None]
  ["kind"; "value"] (fun f => FScalar byte false).
Theorem C60_position_refuted : exists mt xs b b', valid_message 40 mt (made mt [] nothing xs) = Ok true /\
  bytestring 40 mt (made mt [] nothing xs) = Ok b /\ skip_sets 40 mt (skip_new mt) xs = Ok (skipped mt xs) /\
  skip_bytestring 40 mt (skipped mt xs) = Ok b' /\ b <> b'.
Proof.
  exists overlaid, [("kind", PInt 2); ("value", PInt 9)], [2; 9], [9].
  split; [vm_compute; reflexivity|]. split; [vm_compute; reflexivity|]. split; [apply skipped_ok; vm_compute; reflexivity|].
  split; [vm_compute; reflexivity|discriminate].
Qed.
(** A field that is set again follows itself: its value is not part of the bytes any more. *)
Theorem C60_twice_refuted : exists mt xs b b', valid_message 40 mt (made mt [] nothing xs) = Ok true /\
  bytestring 40 mt (made mt [] nothing xs) = Ok b /\ skip_sets 40 mt (skip_new mt) xs = Ok (skipped mt xs) /\
  skip_bytestring 40 mt (skipped mt xs) = Ok b' /\ b <> b'.
Proof.
  exists pair, [("a", PInt 1); ("a", PInt 2); ("b", PInt 5)], [2; 5], [].
  split; [vm_compute; reflexivity|]. split; [vm_compute; reflexivity|]. split; [apply skipped_ok; vm_compute; reflexivity|].
  split; [vm_compute; reflexivity|discriminate].
Qed.
(** If the field is empty the bytes are looked for without end. *)
Theorem C60_endless_refuted : exists mt xs, skip_sets 40 mt (skip_new mt) xs = Ok (skipped mt xs) /\
  valid_message 40 mt (made mt [] nothing xs) = Ok true /\
  exists f, skip_next 40 mt (skipped mt xs) INITIAL = Ok f /\ forall k, skip_bits_loop 40 mt k (skipped mt xs) f [] = Err out_of_fuel.
Proof.
  exists tlv, [("tag", PStr "Data"); ("length", PInt 0); ("value", PBytes []); ("value", PBytes [])].
  set (xs := [("tag", PStr "Data"); ("length", PInt 0); ("value", PBytes []); ("value", PBytes [])]).
  split; [apply skipped_ok; vm_compute; reflexivity|]. split; [vm_compute; reflexivity|].
  exists "tag". split; [vm_compute; reflexivity|].
  set (sv := skipped tlv xs).
  assert (T : is_set tlv (s_value sv) "tag" = true) by (vm_compute; reflexivity).
  assert (T1 : first (fields (s_value sv) "tag") = Some 0) by (vm_compute; reflexivity).
  assert (T2 : tv_bits (typ tlv "tag") (tv (fields (s_value sv) "tag")) = Ok (bits_of_bytes [1])) by (vm_compute; reflexivity).
  assert (T3 : skip_next 40 tlv sv "tag" = Ok "length") by (vm_compute; reflexivity).
  assert (L : is_set tlv (s_value sv) "length" = true) by (vm_compute; reflexivity).
  assert (L1 : first (fields (s_value sv) "length") = Some 8) by (vm_compute; reflexivity).
  assert (L2 : tv_bits (typ tlv "length") (tv (fields (s_value sv) "length")) = Ok (bits_of_bytes [0])) by (vm_compute; reflexivity).
  assert (L3 : skip_next 40 tlv sv "length" = Ok "value") by (vm_compute; reflexivity).
  assert (V : is_set tlv (s_value sv) "value" = true) by (vm_compute; reflexivity).
  assert (V1 : first (fields (s_value sv) "value") = Some 16) by (vm_compute; reflexivity).
  assert (V2 : tv_bits (typ tlv "value") (tv (fields (s_value sv) "value")) = Ok []) by (vm_compute; reflexivity).
  assert (V3 : skip_next 40 tlv sv "value" = Ok "value") by (vm_compute; reflexivity).
  clearbody sv.
  assert (W : forall k, skip_bits_loop 40 tlv k sv "value" (bits_of_bytes [1; 0]) = Err out_of_fuel).
  { induction k as [|k IH]; [reflexivity|]. cbn [skip_bits_loop]. change (String.eqb "value" "" || String.eqb "value" FINAL)%bool with false.
    cbv iota. rewrite V, V1, V2, V3. cbn [bind]. change (16 <=? Z.of_nat (List.length (bits_of_bytes [1; 0]))) with true. cbv iota.
    replace (firstn (Z.to_nat 16) (bits_of_bytes [1; 0]) ++ []) with (bits_of_bytes [1; 0]) by (vm_compute; reflexivity). exact IH. }
  intros [|[|k]]; [reflexivity| |]; cbn [skip_bits_loop]; change (String.eqb "tag" "" || String.eqb "tag" FINAL)%bool with false;
    cbv iota; rewrite T, T1, T2, T3; cbn [bind].
  - vm_compute. reflexivity.
  - change (0 <=? Z.of_nat (List.length (@nil bool))) with true. cbv iota.
    change (String.eqb "length" "" || String.eqb "length" FINAL)%bool with false. cbv iota. rewrite L, L1, L2, L3. cbn [bind].
    replace (8 <=? Z.of_nat (List.length (firstn (Z.to_nat 0) [] ++ bits_of_bytes [1]))) with true by (vm_compute; reflexivity). cbv iota.
    replace (firstn (Z.to_nat 8) (firstn (Z.to_nat 0) [] ++ bits_of_bytes [1]) ++ bits_of_bytes [0]) with (bits_of_bytes [1; 0]) by (vm_compute; reflexivity).
    apply W.
Qed.
(** Values outside their types are taken: the bits that do not fit are cut off at the wrong
    end, and the bytes are those of another valid message. *)
Theorem C60_range_refuted : exists mt xs ys b, snd (set 40 mt [] nothing (start mt) "a" (PInt 300)) <> Ok tt /\
  nth_error xs 0 = Some ("a", PInt 300) /\ skip_sets 40 mt (skip_new mt) xs = Ok (skipped mt xs) /\
  skip_bytestring 40 mt (skipped mt xs) = Ok b /\
  nth_error ys 0 = Some ("a", PInt 150) /\ valid_message 40 mt (made mt [] nothing ys) = Ok true /\ bytestring 40 mt (made mt [] nothing ys) = Ok b.
Proof.
  exists pair, [("a", PInt 300); ("b", PInt 5)], [("a", PInt 150); ("b", PInt 5)], [150; 5].
  split; [vm_compute; discriminate|]. split; [reflexivity|]. split; [apply skipped_ok; vm_compute; reflexivity|].
  split; [vm_compute; reflexivity|]. split; [reflexivity|]. split; vm_compute; reflexivity.
Qed.

Print Assumptions C60_fields.
Print Assumptions C60_bytes.
Print Assumptions C60_valid.
Print Assumptions C60_empty_refuted.
Print Assumptions C60_position_refuted.
Print Assumptions C60_twice_refuted.
Print Assumptions C60_endless_refuted.
Print Assumptions C60_range_refuted.
