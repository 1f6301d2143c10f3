(** C55: a message value that was filled in message order is read back from its own
    bits. *)
From Coq Require Import String List ZArith Bool Lia.
From Verif Require Import Base Expr ExprEval ExprFacts ExprTotal Ident TypeSpec Bitstring BitFacts PyValue PyValueFacts P_PyValue.
From Verif Require P_IdentErrors.
From Verif Require Import MsgGraph MsgGraphFacts GenSpec PyMessage PyMessageFacts PyMessageParse P_PyMessage PyMessageSet P_PySet.
Import ListNotations.
Local Open Scope string_scope.
Local Open Scope list_scope.
Local Open Scope Z_scope.

(** ** What is assigned *)

(** The declared types of fields: integer types and enumerations accepted by the
    declaration, with enough fuel for their constraints. *)
Definition declared_type (n : nat) (t : ftype) : Prop :=
  match t with
  | FScalar (Enum id lits size av) _ => (exists n0, enum_ok n0 id lits size av) /\ (2 * List.length lits + 8 <= n)%nat
  | FScalar t _ => (exists n0, accepted_int n0 t /\ (n0 + 6 <= n)%nat) /\ 0 < type_size t
  | FScalars t _ => 0 < type_size t
  | _ => True
  end.

(** Values that are written the way they are read: numbers, literals as declared, bytes,
    elements of the element type, elements that are read back themselves.  Bits always
    are, numbers and literals as many as their type has. *)
Definition spelled (n : nat) (inner : bool -> string -> bits -> res bits) (t : ftype) (x : pyval) : Prop :=
  match t, x with
  | FScalar (Enum id lits size av) imported, PStr s =>
    exists k v, In (k, v) lits /\ s = id_str k /\
      (imported = false \/ is_builtin id = true \/ starts_with (id_str (package id)) (id_str k) = false)
  | FScalar (Enum _ _ _ _) _, PInt _ => False
  | FScalar _ _, PInt _ => True
  | FOpaque, PBytes l => Forall isbyte l
  | FScalar t _, PBits b => Z.of_nat (List.length b) = type_size t
  | _, PBits _ => True
  | FScalars t imported, PScalars l => exists vs, l = of_type t vs /\ Forall (element n t imported) vs
  | FMessages el, PMessages l =>
    Forall (fun m => snd m <> [] /\ forall t, inner false el (snd m ++ t) = Ok (snd m)) l
  | _, _ => False
  end.

(** the value object of a field that has not been set *)
Definition fresh (t : ftype) (z : Z) (v : tval) : Prop :=
  match t with
  | FScalar _ _ => True
  | FOpaque => exists r, v = VOpaque (Some z) r None None
  | FScalars _ _ => v = VScalars (Some z) (Some [])
  | FMessages _ => v = VMessages (Some z) (Some [])
  end.

Section Value.
  Variables (n : nat) (inner : bool -> string -> bits -> res bits).
  Hypothesis stable : forall sdu b x, inner true sdu b = Ok x -> inner true sdu x = Ok x.

  Lemma join_cons (x : bits) l : join (x :: l) = x ++ join l.
  Proof. unfold join. rewrite !join_concat. reflexivity. Qed.
  Lemma parse_messages_back el : forall l acc k, Forall (fun x => x <> [] /\ forall t, inner false el (x ++ t) = Ok x) l ->
    (List.length l <= k)%nat -> parse_messages inner k el (join l) acc = Ok (acc ++ l).
  Proof.
    induction l as [|x l IH]; intros acc k F L.
    - rewrite app_nil_r. destruct k; reflexivity.
    - inversion F as [|? ? [N R] F']; subst. destruct k as [|k]; [cbn in L; lia|].
      rewrite join_cons.
      cbn [parse_messages]. destruct (x ++ join l) as [|y t] eqn:E.
      { apply app_eq_nil in E as [-> _]. congruence. }
      rewrite <- E, R. cbn [bind]. rewrite skipn_app, skipn_all, Nat.sub_diag. cbn [skipn app].
      etransitivity; [apply (IH (acc ++ [x]) k F'); cbn in L; lia|]. now rewrite <- app_assoc.
  Qed.
  Lemma join_length l : Forall (fun x : bits => x <> []) l -> (List.length l <= List.length (join l))%nat.
  Proof.
    induction 1 as [|x l N F IH]; [cbn; lia|]. rewrite join_cons.
    rewrite app_length. destruct x; [congruence|]. cbn [List.length]. lia.
  Qed.

  (** the bits of an assigned value are parsed to the same value object *)
  Lemma value_back t x z v0 v : declared_type n t -> spelled n inner t x -> (forall b, x <> PBits b) -> fresh t z v0 ->
    (forall s i, t = FScalar s i -> z = type_size s) ->
    tv_set n inner t v0 x = Ok v -> tv_size t v = Some z ->
    initialized v = true /\
    exists b, tv_bits t v = Ok b /\ Z.of_nat (List.length b) = z /\ tv_set n inner t v0 (PBits b) = Ok v.
  Proof.
    intros D S NB F Zt H Sz. destruct t as [t imported| |t imported|el].
    - specialize (Zt t imported eq_refl). subst z. destruct t as [tid m sz se|tid lo hi sz|tid lits size av].
      + destruct x; cbn [spelled] in S; try contradiction; try (now elim (NB b)). destruct D as ((n0 & A & L) & P).
        cbn [tv_set tv_assign] in H. destruct (int_assign _ _ _ _) as [w|] eqn:W; cbn [bind] in H; [|discriminate].
        apply Ok_inj in H. subst v. split; [reflexivity|].
        destruct (C08_bitstring n0 n _ _ _ A L P W) as (b & B & Lb & R). exists b.
        pose proof (proj1 (C08_assign n0 n _ _ _ A L) W) as [-> _].
        split; [exact B|]. split; [exact Lb|]. cbn [tv_set tv_parse scalar_parse]. rewrite R. reflexivity.
      + destruct x; cbn [spelled] in S; try contradiction; try (now elim (NB b)). destruct D as ((n0 & A & L) & P).
        cbn [tv_set tv_assign] in H. destruct (int_assign _ _ _ _) as [w|] eqn:W; cbn [bind] in H; [|discriminate].
        apply Ok_inj in H. subst v. split; [reflexivity|].
        destruct (C08_bitstring n0 n _ _ _ A L P W) as (b & B & Lb & R). exists b.
        pose proof (proj1 (C08_assign n0 n _ _ _ A L) W) as [-> _].
        split; [exact B|]. split; [exact Lb|]. cbn [tv_set tv_parse scalar_parse]. rewrite R. reflexivity.
      + destruct x; cbn [spelled] in S; try contradiction; try (now elim (NB b)). destruct D as ((n0 & EO) & L).
        destruct S as (k & w & I & -> & C).
        destruct (C09_literal_exact n0 n tid lits size av imported k w EO L I C) as (txt & b & A & B & R).
        cbn [tv_set tv_assign] in H. rewrite A in H. cbn [bind fst snd] in H. apply Ok_inj in H. subst v.
        split; [reflexivity|]. exists b. split; [exact B|]. split.
        * unfold enum_bitstring in B. destruct (lits_facts _ _ _ _ _ EO) as (_ & _ & R'). rewrite Forall_forall in R'.
          specialize (R' _ I). cbn [snd] in R'. pose proof (eo_size _ _ _ _ _ EO) as S0.
          rewrite format_size_ok in B by assumption. apply Ok_inj in B. subst b. rewrite bits_of_length. cbn [type_size]. lia.
        * cbn [tv_set tv_parse scalar_parse]. rewrite R. reflexivity.
    - destruct F as (r & ->). destruct x; cbn [spelled] in S; try contradiction; try (now elim (NB b)).
      cbn [tv_set tv_assign] in H. unfold check_size in H.
      destruct (Z.of_nat (List.length l) * 8 =? z) eqn:E; cbn [bind] in H; [|discriminate]. apply Z.eqb_eq in E.
      destruct r as [sdu|].
      + destruct (from_bytes l) as [b0|]; cbn [bind] in H; [|discriminate].
        destruct (inner true sdu b0) as [y|] eqn:Iy; cbn [bind] in H; [|discriminate].
        destruct (Nat.eqb_spec (Nat.modulo (List.length y) 8) 0) as [M|]; cbn [bind] in H; [|discriminate].
        apply Ok_inj in H. subst v. split; [reflexivity|]. cbn [tv_size] in Sz.
        assert (K : exists k, List.length y = (8 * k)%nat) by (apply Nat.mod_divides in M; [exact M|lia]).
        destruct K as [k K].
        destruct (C43_parse_lossless y k None (to_bytes y) K eq_refl) as [Lk Oy].
        exists y. split; [exact Oy|]. injection Sz as Sz. split; [lia|].
        cbn [tv_set tv_parse]. unfold check_size. replace (Z.of_nat (List.length y) =? z) with true by (symmetry; apply Z.eqb_eq; lia).
        cbn [bind]. rewrite (stable _ _ _ Iy). cbn [bind]. rewrite M. reflexivity.
      + apply Ok_inj in H. subst v. split; [reflexivity|].
        destruct (C43_roundtrip l S) as (b & B & Lb & R). exists b. split; [exact B|]. split; [lia|].
        cbn [tv_set tv_parse]. unfold opaque_parse in R. unfold check_size in *.
        replace (8 * Z.of_nat (List.length l)) with z in R by lia.
        destruct (Z.of_nat (List.length b) =? z); cbn [bind] in *; [|discriminate]. apply Ok_inj in R. now rewrite R.
    - cbn [fresh] in F. subst v0. destruct x; cbn [spelled] in S; try contradiction; try (now elim (NB b)). destruct S as (vs & -> & Fv).
      cbn [tv_set tv_assign] in H. unfold array_assign in H.
      destruct (C10_roundtrip n t imported vs D Fv) as (b & bs & F2 & AB & -> & R).
      destruct (mapr _ (of_type t vs)) as [bs'|] eqn:Mb; cbn [bind] in H; [|discriminate].
      unfold array_bitstring in AB. rewrite Mb in AB. cbn [bind] in AB. apply Ok_inj in AB.
      unfold check_size in H. destruct (Z.of_nat (List.length (join bs')) =? z) eqn:E; cbn [bind] in H; [|discriminate].
      destruct (forallb _ _); cbn [bind] in H; [|discriminate]. apply Ok_inj in H. subst v. split; [reflexivity|].
      exists (concat bs). split; [cbn [tv_bits]; unfold array_bitstring; rewrite Mb; cbn [bind]; congruence|].
      rewrite AB in E. apply Z.eqb_eq in E. split; [exact E|]. cbn [tv_set tv_parse].
      unfold array_parse in *. unfold check_size in *.
      destruct (Z.of_nat (List.length (concat bs)) =? Z.of_nat (List.length vs) * type_size t); cbn [bind] in R; [|discriminate].
      rewrite E, Z.eqb_refl. cbn [bind]. rewrite R. reflexivity.
    - cbn [fresh] in F. subst v0. destruct x; cbn [spelled] in S; try contradiction; try (now elim (NB b)).
      cbn [tv_set tv_assign] in H. unfold check_size in H.
      destruct (Z.of_nat (List.length (join (map snd l))) =? z) eqn:E; cbn [bind] in H; [|discriminate]. apply Z.eqb_eq in E.
      destruct (forallb _ _); [|discriminate]. apply Ok_inj in H. subst v. split; [reflexivity|].
      exists (join (map snd l)). split; [reflexivity|]. split; [exact E|]. cbn [tv_set tv_parse]. unfold check_size.
      rewrite E, Z.eqb_refl. cbn [bind].
      assert (Fl : Forall (fun x => x <> [] /\ forall t, inner false el (x ++ t) = Ok x) (map snd l)).
      { clear -S. induction S as [|m l H S IH]; cbn; constructor; auto. }
      rewrite (parse_messages_back el (map snd l) []) ; [reflexivity|exact Fl|].
      apply join_length. eapply Forall_impl; [|exact Fl]. cbn. tauto.
  Qed.
End Value.

(** ** Mappings that agree *)

(** The simplified conditions do not change if the mapping changes for other names. *)
Section Agree.
  Variables (n : nat) (mt : mtype) (A : name -> Prop) (m m' : name -> option expr).
  Hypothesis same : forall x, A x -> subst mt m x = subst mt m' x.
  Hypothesis leaves : forall x e, A x -> subst mt m x = Some e -> (exists z, e = ENum z) \/ exists y, e = EVar y /\ A (NVar y).

  Lemma substituted_agree sp e : (forall x, In x (names e) -> A x) ->
    substituted (neg sp) (subst mt m) e = substituted (neg sp) (subst mt m') e /\
    forall e', substituted (neg sp) (subst mt m) e = Ok e' -> forall x, In x (names e') -> A x.
  Proof.
    induction e as [ | |z|x s|a IH|o ts IH|o l r IHl IHr|o l r IHl IHr] using expr_ind'; intros H.
    - split; [reflexivity|]. intros e' E. apply Ok_inj in E. now subst.
    - split; [reflexivity|]. intros e' E. apply Ok_inj in E. now subst.
    - split; [reflexivity|]. intros e' E. apply Ok_inj in E. now subst.
    - assert (Ax : A x) by (apply H; now left). cbn [substituted]. rewrite <- (same x Ax).
      split; [reflexivity|]. intros e' E. pose proof (leaves x) as L. destruct (subst mt m x) as [y|].
      + destruct (L y Ax eq_refl) as [[z ->]|(w & -> & Aw)]; destruct s; cbn [neg EVar] in E; apply Ok_inj in E; subst e';
          intros k; cbn [names]; try (intros []; fail); intros [<-|[]]; exact Aw.
      + destruct s; apply Ok_inj in E; subst e'; intros k; cbn [names]; (intros [<-|[]]; exact Ax).
    - split; [reflexivity|]. intros e' E. cbn [substituted] in E. apply Ok_inj in E. subst e'. exact H.
    - cbn [substituted]. set (go := fun (M : name -> option expr) => fix go (l : list expr) : res (list expr) :=
        match l with
        | [] => Ok []
        | x :: t => bind (substituted (neg sp) M x) (fun y => bind (go t) (fun ys => Ok (y :: ys)))
        end).
      change (bind (go (subst mt m) ts) (fun ts' => Ok (EAss o ts')) = bind (go (subst mt m') ts) (fun ts' => Ok (EAss o ts')) /\
        forall e', bind (go (subst mt m) ts) (fun ts' => Ok (EAss o ts')) = Ok e' -> forall x, In x (names e') -> A x).
      assert (G : go (subst mt m) ts = go (subst mt m') ts /\
        forall ts', go (subst mt m) ts = Ok ts' -> forall x, In x (flat_map names ts') -> A x).
      { cbn [names] in H. clear same leaves. induction IH as [|t ts Ht _ IHt]; [split; [reflexivity|intros ts' E; apply Ok_inj in E; now subst]|].
        destruct Ht as [E1 N1]; [intros x I; apply H; cbn; apply in_app_iff; now left|].
        destruct IHt as [E2 N2]; [intros x I; apply H; cbn; apply in_app_iff; now right|].
        assert (U : forall M, go M (t :: ts) = bind (substituted (neg sp) M t) (fun y => bind (go M ts) (fun ys => Ok (y :: ys)))) by reflexivity.
        rewrite !U. rewrite <- E1, <- E2. split; [reflexivity|]. intros ts' E.
        destruct (substituted _ _ t) as [t'|]; cbn [bind] in E; [|discriminate].
        destruct (go (subst mt m) ts) as [r'|]; cbn [bind] in E; [|discriminate]. apply Ok_inj in E. subst ts'.
        intros x I. cbn [flat_map] in I. apply in_app_iff in I as [I|I]; [eapply N1|eapply N2]; eauto. }
      destruct G as [E N]. rewrite <- E. split; [reflexivity|]. intros e' Q.
      destruct (go (subst mt m) ts) as [ts'|]; cbn [bind] in Q; [|discriminate]. apply Ok_inj in Q. subst e'.
      cbn [names]. intros x I. exact (N ts' eq_refl x I).
    - cbn [names] in H. destruct IHl as [E1 N1]; [intros x I; apply H, in_app_iff; now left|].
      destruct IHr as [E2 N2]; [intros x I; apply H, in_app_iff; now right|].
      cbn [substituted]. rewrite <- E1, <- E2. split; [reflexivity|]. intros e' E.
      destruct (substituted _ _ l) as [l'|]; cbn [bind] in E; [|discriminate].
      destruct (substituted _ _ r) as [r'|]; cbn [bind] in E; [|discriminate]. apply Ok_inj in E. subst e'.
      cbn [names]. intros x I. apply in_app_iff in I as [I|I]; [eapply N1|eapply N2]; eauto.
    - cbn [names] in H. destruct IHl as [E1 N1]; [intros x I; apply H, in_app_iff; now left|].
      destruct IHr as [E2 N2]; [intros x I; apply H, in_app_iff; now right|].
      cbn [substituted]. rewrite <- E1, <- E2. split; [reflexivity|]. intros e' E.
      destruct (substituted _ _ l) as [l'|]; cbn [bind] in E; [|discriminate].
      destruct (substituted _ _ r) as [r'|]; cbn [bind] in E; [|discriminate]. apply Ok_inj in E. subst e'.
      cbn [names]. intros x I. apply in_app_iff in I as [I|I]; [eapply N1|eapply N2]; eauto.
  Qed.
  Lemma simplified_agree e : (forall x, In x (names e) -> A x) -> simplified n mt m e = simplified n mt m' e.
  Proof.
    intros H. unfold simplified. destruct (substituted_agree (simpv n) e H) as [E1 N1].
    assert (G : bind (substituted (neg (simpv n)) (subst mt m) e) (fun e1 => bind (substituted (neg (simpv n)) (subst mt m) e1) (simpv n)) =
      bind (substituted (neg (simpv n)) (subst mt m') e) (fun e1 => bind (substituted (neg (simpv n)) (subst mt m') e1) (simpv n))).
    { rewrite <- E1. destruct (substituted _ _ e) as [e1|]; cbn [bind]; [|reflexivity].
      destruct (substituted_agree (simpv n) e1 (N1 e1 eq_refl)) as [E2 _]. now rewrite <- E2. }
    destruct e; try reflexivity; exact G.
  Qed.
  Lemma next_agree f : (forall l x, In l (m_links mt) -> source l = f -> In x (names (condition l)) -> A x) ->
    next_field n mt m f = next_field n mt m' f.
  Proof.
    intros H. unfold next_field. destruct (String.eqb f FINAL); [reflexivity|]. destruct (String.eqb f INITIAL); [reflexivity|].
    assert (G : forall ls, (forall l, In l ls -> In l (m_links mt) /\ source l = f) -> first_holding n mt m ls = first_holding n mt m' ls).
    { induction ls as [|l t IH]; intros L; [reflexivity|]. cbn [first_holding].
      destruct (L l (or_introl eq_refl)) as [I S]. unfold holds.
      rewrite (simplified_agree (condition l)) by (intros x; now apply H).
      destruct (simplified n mt m' (condition l)); cbn [bind]; [|reflexivity].
      destruct (expr_eqb _ _); [reflexivity|]. apply IH. intros l' I'. apply L. now right. }
    apply G. intros l I. unfold outgoing_, outgoing in I. apply filter_In in I as [I S]. apply String.eqb_eq in S. auto.
  Qed.
End Agree.

(** ** Fields filled one after the other *)

(** conditions look back: a link refers to fields that were set up to its source *)
Definition looks_back (mt : mtype) (fs : list field) : Prop :=
  forall i c l x, nth_error (INITIAL :: fs) i = Some c -> In l (m_links mt) -> source l = c ->
    In x (names (condition l)) -> In (name_id x) (m_fields mt) -> In (name_id x) (firstn i fs).

(** every path leads through the fields that its links refer to (C47) *)
Fixpoint chain (mt : mtype) (p : list field) : Prop :=
  match p with
  | a :: ((b :: _) as t) => (exists l, In l (m_links mt) /\ source l = a /\ target l = b) /\ chain mt t
  | _ => True
  end.
Definition definite (mt : mtype) : Prop := forall fs, chain mt (INITIAL :: fs) -> looks_back mt fs.

(** a value has the size it was given; numbers, literals and arrays of messages always
    have it *)
Definition sized (mt : mtype) (st : mvalue) (f : field) : Prop :=
  match tv (fields st f) with VScalar _ | VMessages _ _ => True | v => declared v <> None /\ size_of mt st f = declared v end.

Section Round.
  Variables (n : nat) (mt : mtype) (refs : list refinement) (inner : bool -> string -> bits -> res bits).

  (** each call sets the field after the last one, whose size is known *)
  Inductive entered : list (field * pyval) -> mvalue -> Prop :=
  | entered_new st : new n mt = Ok st -> entered [] st
  | entered_set xs st f x st' z : entered xs st ->
      next_field n mt (mapping st) (List.last (map fst xs) INITIAL) = Ok f -> f <> "" -> f <> FINAL ->
      spelled n inner (m_types mt f) x -> set n mt refs inner st f x = (st', Ok tt) ->
      get_size n mt st f = Ok (Some z) -> size_of mt st' f = Some z ->
      entered (xs ++ [(f, x)]) st'.

  Variable rank : field -> nat.
  Hypothesis T : tidy mt rank.
  Hypothesis stable : forall sdu b x, inner true sdu b = Ok x -> inner true sdu x = Ok x.
  Hypothesis types : forall f, In f (m_fields mt) -> declared_type n (m_types mt f).

  Hypothesis front : prefixes inner.

  Lemma positive : positive_sizes mt.
  Proof.
    intros f t i I [E|E]; pose proof (types f I) as D; rewrite E in D; cbn [declared_type] in D; [|exact D].
    destruct t; [apply D|apply D|]. destruct D as [[n0 EO] _]. exact (eo_size _ _ _ _ _ EO).
  Qed.

  (** set depends on the assigned value only through the value object *)
  Lemma set_value st f x st' : set n mt refs inner st f x = (st', Ok tt) ->
    exists size r v p, get_size n mt st f = Ok size /\ fields st' f = mkField v (Some p) /\
      tv_set n inner (typ mt f)
        (set_ref (match size with Some z => set_expected (tv (fields st f)) z | None => tv (fields st f) end) r) x = Ok v /\
      (forall x', tv_set n inner (typ mt f)
        (set_ref (match size with Some z => set_expected (tv (fields st f)) z | None => tv (fields st f) end) r) x' = Ok v ->
        set n mt refs inner st f x' = (st', Ok tt)).
  Proof.
    intros H. unfold set in *.
    destruct (memf f (accessible st)) eqn:A; cbn [negb] in *; [|discriminate].
    destruct (get_first n mt st f) as [[p|]|] eqn:GF; destruct (get_size n mt st f) as [size|] eqn:GS; try discriminate.
    set (st1 := set_first st f (Some p)) in *.
    set (st2 := match size with Some z => set_tv st1 f (set_expected (tv (fields st1 f)) z) | None => st1 end) in *.
    assert (F2 : fields st2 f = mkField (match size with Some z => set_expected (tv (fields st f)) z
                                         | None => tv (fields st f) end) (Some p)).
    { unfold st2, st1. destruct size; [rewrite set_tv_same|]; rewrite set_first_same; reflexivity. }
    destruct (find_refinement _ _ _ _ _ _) as [r|] eqn:FR; [|discriminate].
    exists size, r. rewrite set_tv_same, F2 in *. cbn [tv] in *.
    destruct (tv_set _ _ _ _ _) as [v|] eqn:TV; [|discriminate].
    exists v, p. split; [reflexivity|]. split; [|split; [reflexivity|intros x' E; rewrite E; exact H]].
    match type of H with context [update_mapping n mt ?s] => set (st4 := s) in * end.
    destruct (update_mapping n mt st4) as [st5|] eqn:U; [|discriminate].
    destruct (all_false _ _ _ _) as [[|]|]; try discriminate.
    rewrite (preset_front n mt rank (t_rank _ _ T) _ _ _ _ H) by lia. rewrite (proj1 (update_fields n mt _ _ U)).
    unfold st4. now rewrite set_tv_same, set_tv_same, F2.
  Qed.

  Lemma step_back fs st c f x st' z : inv n mt fs st -> ends fs c -> next_field n mt (mapping st) c = Ok f ->
    f <> "" -> f <> FINAL -> spelled n inner (m_types mt f) x -> set n mt refs inner st f x = (st', Ok tt) ->
    get_size n mt st f = Ok (Some z) -> size_of mt st' f = Some z ->
    is_set mt st' f = true /\ exists b, tv_bits (typ mt f) (tv (fields st' f)) = Ok b /\ len b = z /\
      set n mt refs inner st f (PBits b) = (st', Ok tt).
  Proof.
    intros V Ec Nx N NF Sp S GS Sz.
    pose proof (ends_in _ _ Ec) as Ic. pose proof (inv_path_field n mt fs st V c Ic) as Icf.
    destruct (next_rank n mt rank _ c f T Icf Nx N) as [Lt In']. assert (If : In f (m_fields mt)) by auto. clear In'.
    pose proof (inv_rank n mt rank T fs st c V Ec) as Rk.
    assert (Nf : ~ In f fs) by (intros X; specialize (Rk f (or_intror X)); lia).
    pose proof (typ_field mt rank T f If) as Ty.
    destruct (set_value st f x st' S) as (size & r & v & p & GS' & Fv & TV & Back). rewrite GS in GS'. apply Ok_inj in GS'. subst size.
    unfold size_of in Sz. rewrite Fv, Ty in Sz. cbn [tv] in Sz. rewrite Ty in *.
    assert (FR : fresh (m_types mt f) z (set_ref (set_expected (tv (fields st f)) z) r)).
    { destruct (v_unset _ _ _ _ V f If Nf) as [E|(z' & E1 & E2 & _)].
      - rewrite E. destruct (m_types mt f); cbn; eauto.
      - rewrite E1, E2. cbn. eauto. }
    assert (ZT : forall s i, m_types mt f = FScalar s i -> z = type_size s).
    { intros s i E. unfold get_size in GS. rewrite Ty, E in GS. apply Ok_inj in GS. now injection GS. }
    assert (VB : initialized v = true /\ exists b, tv_bits (m_types mt f) v = Ok b /\ len b = z /\
      tv_set n inner (m_types mt f) (set_ref (set_expected (tv (fields st f)) z) r) (PBits b) = Ok v).
    { assert (DB : (exists b, x = PBits b) \/ forall b, x <> PBits b) by (destruct x; [left; eauto|right..]; discriminate).
      destruct DB as [[b ->]|NB]; [|exact (value_back n inner stable _ _ _ _ _ (types f If) Sp NB FR ZT TV Sz)].
      assert (Lb : len b = z).
      { pose proof TV as TV'. cbn [tv_set] in TV'. destruct (m_types mt f) as [s i| |s i|el]; cbn [fresh] in FR.
        - rewrite (ZT s i eq_refl). destruct s; exact Sp.
        - destruct FR as [q Q]. rewrite Q in TV'. cbn [tv_parse] in TV'. unfold check_size in TV'.
          destruct (Z.eqb_spec (len b) z); [assumption|discriminate].
        - rewrite FR in TV'. cbn [tv_parse] in TV'. unfold array_parse, check_size in TV'.
          destruct (Z.eqb_spec (len b) z); [assumption|discriminate].
        - rewrite FR in TV'. cbn [tv_parse] in TV'. unfold check_size in TV'.
          destruct (Z.eqb_spec (len b) z); [assumption|discriminate]. }
      destruct (parse_value n mt inner front positive f (tv (fields st f)) (Some z) r b v If) as (_ & Iv & _ & _ & PV); auto.
      - destruct (v_unset _ _ _ _ V f If Nf) as [E|(z' & E1 & E2 & E3)]; [now left|right].
        split; [exact E1|]. exists z'. split; [exact E2|]. rewrite GS in E3. now apply Ok_inj in E3.
      - intros t i Et. now rewrite (ZT t i Et).
      - discriminate.
      - intros z' E. injection E as <-. exact Lb.
      - destruct (PV z Sz) as (y & u & B & Ly & Eb); [lia|intros _; lia|].
        assert (u = []) as -> by (apply (f_equal (@List.length bool)) in Eb; rewrite app_length in Eb; destruct u; [reflexivity|cbn in Eb; lia]).
        rewrite app_nil_r in Eb. subst y. split; [exact Iv|]. exists b. auto. }
    destruct VB as (Iv & b & B & Lb & Rb).
    split. { unfold is_set, size_of. rewrite Fv, Ty. cbn [tv first]. now rewrite Iv, Sz. }
    exists b. rewrite Fv. cbn [tv]. auto.
  Qed.

  Lemma entered_filled xs st : entered xs st -> filled n mt refs inner (map fst xs) st.
  Proof.
    induction 1 as [st H|xs st f x st' z E IH Nx N NF Sp S GS Sz]; [now apply filled_new|].
    rewrite map_app. cbn [map fst]. eapply filled_set; eauto. intros _.
    pose proof (filled_inv n mt refs inner rank T _ _ IH) as V.
    destruct (step_back _ st _ f x st' z V (ends_last _) Nx N NF Sp S GS Sz) as [IS _].
    split; [exact IS|]. intros z' G. rewrite GS in G. apply Ok_inj in G. injection G as <-. exact Sz.
  Qed.

  Lemma last_ends fs c : ends fs c -> c = List.last fs INITIAL.
  Proof. intros H. pose proof (ends_last fs) as H'. unfold ends in *. congruence. Qed.
  Lemma row_snoc st st' fs bs f b : row mt st fs bs -> (forall g, In g fs -> fields st' g = fields st g) ->
    tv_bits (typ mt f) (tv (fields st' f)) = Ok b -> size_of mt st' f = Some (len b) -> row mt st' (fs ++ [f]) (bs ++ [b]).
  Proof.
    intros R F B S. apply Forall2_app; [|constructor; [auto|constructor]].
    revert F. induction R as [|g y fs bs [H1 H2] R IH]; intros F; constructor; [|apply IH; intros g' I; apply F; now right].
    unfold size_of in *. rewrite F by now left. auto.
  Qed.

  (** parsing repeats the calls *)
  Lemma parse_again st0 f0 xs st : new n mt = Ok st0 -> next_field n mt (mapping st0) INITIAL = Ok f0 -> entered xs st ->
    exists bs x z, row mt st (map fst xs) bs /\ first (fields st (List.last (map fst xs) INITIAL)) = Some x /\
      size_of mt st (List.last (map fst xs) INITIAL) = Some z /\ x + z = len (concat bs) /\
      forall t k f, next_field n mt (mapping st) (List.last (map fst xs) INITIAL) = Ok f -> f <> "" ->
        parse_loop n mt refs inner (List.length xs + k) st0 (concat bs ++ t) f0 0 0 =
        parse_loop n mt refs inner k st (concat bs ++ t) f x (x + z).
  Proof.
    intros H0 N0. induction 1 as [st H|xs st f v st' zf E IH Nx N NF Sp S GS Sz].
    - rewrite H0 in H. apply Ok_inj in H. subst st. pose proof (new_inv n mt rank T st0 H0) as V.
      exists [], 0, 0. cbn [map List.last]. split; [constructor|]. rewrite (v_initial _ _ _ _ V). split; [reflexivity|].
      split; [apply (inv_initial_size n mt [] st0 V)|]. split; [reflexivity|]. intros t k f Nx _.
      rewrite N0 in Nx. apply Ok_inj in Nx. now subst f0.
    - destruct IH as (bs & x & z & R & Fc & Zc & Lb & L).
      pose proof (filled_inv n mt refs inner rank T _ _ (entered_filled _ _ E)) as V. set (fs := map fst xs) in *.
      pose proof (ends_last fs) as Ec. set (c := List.last fs INITIAL) in *.
      destruct (step_back fs st c f v st' zf V Ec Nx N NF Sp S GS Sz) as (IS & b & B & Lf & Back).
      pose proof (ends_in _ _ Ec) as Ic. pose proof (inv_path_field n mt fs st V c Ic) as Icf.
      destruct (next_link n mt rank _ c f T Icf Nx N) as (l & I & Sl & Tl & Hl).
      destruct (next_rank n mt rank _ c f T Icf Nx N) as [Lt In']. assert (If : In f (m_fields mt)) by auto. clear In'.
      pose proof (inv_rank n mt rank T fs st c V Ec) as Rk.
      assert (Rc : reached mt st c). { intros E' D. destruct (v_path _ _ _ _ V _ _ _ D Ec) as [q Q]. eauto. }
      destruct (set_steps n mt refs inner st f v st' S) as (_ & p & _ & _ & _ & _ & _ & GF & _).
      destruct (get_first_spec n mt rank st f p T GF) as (g & xg & zg & Pg & Ng & Fg & Zg & Ep).
      assert (g = c) as -> by (rewrite <- Tl in Pg; exact (inv_prev n mt rank T fs st V l c g I Sl Rc Hl Pg Ng)).
      assert (xg = x) as -> by congruence. assert (zg = z) as -> by congruence. clear Fg Zg.
      assert (CP : current_pos n mt st f x (x + z) = Ok (x + z)).
      { unfold current_pos. rewrite Pg. cbn [bind]. destruct (String.eqb_spec c ""); [contradiction|]. rewrite Fc.
        destruct (first (fields st f)) as [y|] eqn:Y; [|reflexivity].
        pose proof (inv_world n mt rank T fs st V) as D.
        destruct (v_first _ _ _ _ V _ f y D If Y) as [i Hi].
        destruct (inv_steps _ _ fs st V c x _ Ic D Fc) as [j Hj].
        pose proof (inv_next n mt rank T fs st V _ l j c x z D I Sl Hl Icf Hj Zc) as Hf. rewrite Tl in Hf.
        destruct (steps_index _ _ _ T (d_literals _ _ _ D) _ _ _ _ _ Hi Hf) as [_ ->].
        destruct (Z.eqb_spec x (x + z)); [|reflexivity]. f_equal. lia. }
      destruct (set_value st f v st' S) as (_ & _ & w & q & _ & Fv & _ & _).
      exists (bs ++ [b]), (x + z), zf. rewrite map_app. cbn [map fst]. rewrite last_last. fold fs.
      split. { apply (row_snoc st); auto; [|congruence].
        intros g Ig. apply (set_frame n mt refs inner rank T _ _ _ _ If S g). specialize (Rk g (or_intror Ig)). lia. }
      split. { destruct (set_inv n mt rank T refs inner fs st c f v st' V Ec Nx N NF S) as (V' & _ & _ & _ & p' & z' & F1 & F2 & F3).
        - intros s z0 Es. pose proof (entered_set _ _ _ _ _ _ E Nx N NF Sp S GS Sz) as E'.
          apply (v_texts _ _ _ _ (filled_inv n mt refs inner rank T _ _ (entered_filled _ _ E')) f s z0 If Es).
        - exact IS.
        - intros z0 _ G. rewrite GS in G. apply Ok_inj in G. injection G as <-. exact Sz.
        - rewrite F3. congruence. }
      split; [exact Sz|]. rewrite concat_app. cbn [concat]. rewrite app_nil_r.
      split; [rewrite app_length; lia|]. intros t k f' Nx' N'. rewrite app_length. cbn [List.length].
      rewrite <- app_assoc. replace (List.length xs + 1 + k)%nat with (List.length xs + Datatypes.S k)%nat by lia.
      rewrite (L (b ++ t) (Datatypes.S k) f Nx N). cbn [parse_loop].
      destruct (String.eqb_spec f FINAL); [contradiction|]. destruct (String.eqb_spec f ""); [contradiction|].
      rewrite GS. cbn [bind].
      assert (G : bind (current_pos n mt st f x (x + z)) (fun p =>
          if zf <? 0 then Err "invalid data size" else
            bind (slice (concat bs ++ b ++ t) (Z.to_nat p) (Some (Z.to_nat (p + zf)))) (fun s =>
            bind (try_set n mt refs inner st f (PBits s)) (fun st' =>
            bind (next_field n mt (mapping st') f) (fun f' => parse_loop n mt refs inner k st' (concat bs ++ b ++ t) f' p (p + zf)))))
          = parse_loop n mt refs inner k st' (concat bs ++ b ++ t) f' (x + z) (x + z + zf)).
      { rewrite CP. cbn [bind]. destruct (Z.ltb_spec zf 0); [lia|]. unfold slice.
        assert (X1 : Z.to_nat (x + z) = List.length (concat bs)) by lia.
        assert (X2 : Z.to_nat (x + z + zf) = (List.length (concat bs) + List.length b)%nat) by lia.
        rewrite X1, X2, !app_length. destruct (Nat.ltb_spec (List.length (concat bs) + (List.length b + List.length t)) (List.length (concat bs) + List.length b)); [lia|].
        cbn [bind]. rewrite firstn_app_2, skipn_app, skipn_all, Nat.sub_diag. cbn [skipn app].
        rewrite firstn_app, firstn_all, Nat.sub_diag. cbn [firstn]. rewrite app_nil_r.
        unfold try_set. rewrite Back. cbn [bind]. rewrite Nx'. reflexivity. }
      destruct (is_opaque (tv (fields st f))); exact G.
  Qed.

  (** what is recorded of the fields that were set does not change any more *)
  Lemma field_mapping_ext st st' x : fields st' (name_id x) = fields st (name_id x) -> field_mapping mt st' x = field_mapping mt st x.
  Proof.
    intros F. unfold field_mapping, last, is_set, size_of. destruct x as [y|a y]; cbn [name_id] in F; rewrite F; reflexivity.
  Qed.
  Lemma entered_mapping xs st : entered xs st ->
    (forall x, In (name_id x) (map fst xs) -> mapping st x = field_mapping mt st x) /\
    (forall x, ~ In (name_id x) (m_fields mt) -> plain_name x -> mapping st x = None).
  Proof.
    intros E. destruct E as [st H|xs st f v st' zf E Nx N NF Sp S GS Sz].
    - split; [intros x []|]. intros x NI [NM NIn].
      unfold new in H. destruct (preset_fields n mt (blank mt) INITIAL) as [s [[]|]] eqn:P; [|discriminate].
      apply Ok_inj in H. subst s. rewrite (proj1 (preset_frame n mt rank T _ _ _ _ (or_introl eq_refl) P)).
      cbn [blank mapping]. unfold initial_mapping. destruct x as [y|a y]; [reflexivity|]. cbn [name_id] in *.
      destruct (String.eqb_spec y INITIAL); [contradiction|]. destruct (String.eqb_spec y "message"); [contradiction|].
      destruct a; reflexivity.
    - pose proof (filled_inv n mt refs inner rank T _ _ (entered_filled _ _ E)) as V. set (fs := map fst xs) in *.
      pose proof (ends_last fs) as Ec. set (c := List.last fs INITIAL) in *.
      pose proof (inv_path_field n mt fs st V c (ends_in _ _ Ec)) as Icf.
      destruct (next_rank n mt rank _ c f T Icf Nx N) as [Lt In']. assert (If : In f (m_fields mt)) by auto. clear In'.
      pose proof (inv_rank n mt rank T fs st c V Ec) as Rk.
      destruct (set_steps n mt refs inner st f v st' S) as (_ & p & size & r & w & st4 & st5 & _ & _ & _ & F4 & O4 & _ & _ & U & P).
      destruct (preset_frame n mt rank T _ _ _ _ (or_intror If) P) as [M5 F5]. rewrite M5.
      pose proof (proj1 (update_fields n mt _ _ U)) as U5.
      assert (M : forall x, name_id x <> "message" -> mapping st5 x = field_mapping mt st4 x).
      { intros x NM. unfold update_mapping in U. binds U. apply Ok_inj in U. subst st5. cbn [mapping].
        match goal with |- context [match ?o with Some _ => _ | None => _ end] => destruct o as [zz|]; [|reflexivity] end.
        destruct x as [y|a y]; [reflexivity|]. cbn [name_id] in NM. destruct (String.eqb_spec y "message"); [contradiction|].
        destruct a; reflexivity. }
      split.
      + intros x I. rewrite map_app in I. cbn [map fst] in I. fold fs in I.
        assert (Im : In (name_id x) (m_fields mt) /\ (rank (name_id x) <= rank f)%nat).
        { apply in_app_iff in I as [I|[I|[]]]; [|rewrite <- I; auto]. split; [now apply (v_fields _ _ _ _ V)|].
          specialize (Rk _ (or_intror I)). lia. }
        destruct Im as [Im Lr]. rewrite M by now apply (t_names _ _ T).
        symmetry. apply field_mapping_ext. rewrite F5 by exact Lr. now rewrite U5.
      + intros x NI [NM NIn]. rewrite M by exact NM. unfold field_mapping.
        assert (Hm : memf (name_id x) (INITIAL :: m_fields mt) = false).
        { apply memf_false. intros [Q|Q]; [now apply NIn|contradiction]. }
        destruct x as [y|a y]; cbn [name_id] in *; rewrite Hm; [reflexivity|].
        destruct a; try reflexivity. destruct (String.eqb_spec y "message"); [contradiction|reflexivity].
  Qed.

  Lemma path_kept xs st : entered xs st -> looks_back mt (map fst xs) -> forall i c f,
    nth_error (INITIAL :: map fst xs) i = Some c -> nth_error (map fst xs) i = Some f ->
    next_field n mt (mapping st) c = Ok f.
  Proof.
    induction 1 as [st H|xs st f v st' zf E IH Nx N NF Sp S GS Sz]; intros LB i c g Hc Hg; [destruct i; discriminate|].
    pose proof (entered_set _ _ _ _ _ _ E Nx N NF Sp S GS Sz) as E'.
    pose proof (filled_inv n mt refs inner rank T _ _ (entered_filled _ _ E)) as V.
    destruct (entered_mapping _ _ E) as [M1 M2]. destruct (entered_mapping _ _ E') as [M1' M2'].
    rewrite map_app in *. cbn [map fst] in *. set (fs := map fst xs) in *.
    pose proof (ends_last fs) as Ec. set (c0 := List.last fs INITIAL) in *.
    pose proof (inv_path_field n mt fs st V c0 (ends_in _ _ Ec)) as Icf.
    destruct (next_rank n mt rank _ c0 f T Icf Nx N) as [Lt In']. assert (If : In f (m_fields mt)) by auto. clear In'.
    pose proof (inv_rank n mt rank T fs st c0 V Ec) as Rk.
    assert (Li : (i <= List.length fs)%nat).
    { assert (Q : nth_error (fs ++ [f]) i <> None) by congruence. apply nth_error_Some in Q. rewrite app_length in Q. cbn in Q. lia. }
    assert (Hc' : nth_error (INITIAL :: fs) i = Some c).
    { change (INITIAL :: fs ++ [f]) with ((INITIAL :: fs) ++ [f]) in Hc. rewrite nth_error_app1 in Hc by (cbn; lia). exact Hc. }
    assert (K : next_field n mt (mapping st) c = next_field n mt (mapping st') c).
    { apply (next_agree n mt (fun x => In (name_id x) fs \/ (~ In (name_id x) (m_fields mt) /\ plain_name x))).
      - intros x [I|[NI PN]].
        + assert (Q : mapping st x = mapping st' x).
          { rewrite M1 by exact I. rewrite M1' by (apply in_app_iff; now left). symmetry. apply field_mapping_ext.
            apply (set_frame n mt refs inner rank T _ _ _ _ If S). specialize (Rk _ (or_intror I)). lia. }
          unfold subst. now rewrite Q.
        + unfold subst. rewrite (M2 x NI PN), (M2' x NI PN). reflexivity.
      - intros x e [I|[NI PN]] Q; unfold subst in Q.
        + destruct (mapping st x) as [e0|] eqn:Mx.
          * injection Q as ->. rewrite (M1 x I) in Mx. unfold field_mapping in Mx.
            assert (Im : In (name_id x) (m_fields mt)) by now apply (v_fields _ _ _ _ V).
            assert (Hm : memf (name_id x) (INITIAL :: m_fields mt) = true) by (apply memf_iff; now right).
            destruct x as [y|a y]; cbn [name_id] in *; rewrite Hm in Mx.
            -- destruct (tv (fields st y)) as [[[z|s z]|]| | |] eqn:Tv; try discriminate;
                 (destruct (is_set mt st y); [|discriminate]; injection Mx as <-); [left; eauto|right].
               exists (lower s). split; [reflexivity|]. right. cbn [name_id].
               destruct (v_texts _ _ _ _ V y s z Im Tv) as (X1 & X2 & X3). split; [exact X1|split; assumption].
            -- unfold num_expr in Mx. left. destruct a; try discriminate.
               ++ destruct (typ mt y); try (destruct (is_set mt st y); [|discriminate]; destruct (size_of mt st y); [|discriminate]); injection Mx as <-; eauto.
               ++ destruct (first (fields st y)); [|discriminate]. injection Mx as <-. eauto.
               ++ destruct (last mt st y); [|discriminate]. injection Mx as <-. eauto.
          * destruct x as [y|a y]; [|discriminate]. destruct (literal mt y); [|discriminate]. injection Q as <-. left. eauto.
        + rewrite (M2 x NI PN) in Q. destruct x as [y|a y]; [|discriminate]. destruct (literal mt y); [|discriminate]. injection Q as <-. left. eauto.
      - intros l x I Sl Ix. destruct (in_dec String.string_dec (name_id x) (m_fields mt)) as [Im|NI].
        + left. specialize (LB i c l x Hc I Sl Ix Im). rewrite firstn_app in LB.
          replace (i - List.length fs)%nat with O in LB by lia. cbn [firstn] in LB. rewrite app_nil_r in LB.
          rewrite <- (firstn_skipn i fs). apply in_app_iff. now left.
        + right. split; [exact NI|]. exact (t_plain _ _ T l x I Ix). }
    rewrite <- K. destruct (Nat.eq_dec i (List.length fs)) as [->|Ni].
    - pose proof Ec as Ec'. unfold ends in Ec'. rewrite Ec' in Hc'. injection Hc' as <-.
      rewrite nth_error_app2, Nat.sub_diag in Hg by lia. cbn in Hg. injection Hg as <-. exact Nx.
    - rewrite nth_error_app1 in Hg by lia. apply (IH) with (i := i); auto.
      intros j d l x Hd I Sl Ix Im. assert (Lj : (j <= List.length fs)%nat).
      { assert (Q : nth_error (INITIAL :: fs) j <> None) by congruence. apply nth_error_Some in Q. cbn in Q. lia. }
      assert (Hd' : nth_error (INITIAL :: fs ++ [f]) j = Some d).
      { change (INITIAL :: fs ++ [f]) with ((INITIAL :: fs) ++ [f]). rewrite nth_error_app1 by (cbn; lia). exact Hd. }
      specialize (LB j d l x Hd' I Sl Ix Im). rewrite firstn_app in LB.
      replace (j - List.length fs)%nat with O in LB by lia. cbn [firstn] in LB. now rewrite app_nil_r in LB.
  Qed.

  (** the bits of all fields *)
  Lemma bits_all fs st bs : inv n mt fs st -> row mt st fs bs ->
    (forall i c f, nth_error (INITIAL :: fs) i = Some c -> nth_error fs i = Some f -> next_field n mt (mapping st) c = Ok f) ->
    next_field n mt (mapping st) (List.last fs INITIAL) = Ok FINAL ->
    forall k i f, (List.length fs - i <= k)%nat ->
    match nth_error fs i with Some g => f = g | None => f = FINAL end ->
    bits_loop n mt k st f (concat (firstn i bs)) = Ok (concat bs).
  Proof.
    intros V R Pth Fin. assert (Lf : List.length fs = List.length bs) by (clear -R; induction R; cbn; auto).
    induction k as [|k IH]; intros i f L Hf.
    - assert (Hn : nth_error fs i = None) by (apply nth_error_None; lia). rewrite Hn in Hf. subst f. cbn.
      rewrite firstn_all2 by lia. reflexivity.
    - destruct (nth_error fs i) as [g|] eqn:Hg.
      2:{ subst f. cbn. rewrite firstn_all2; [reflexivity|]. apply nth_error_None in Hg. lia. }
      subst g. assert (If : In f fs) by (eapply nth_error_In; eauto).
      destruct (v_fields _ _ _ _ V f If) as [Im IS]. destruct (t_names _ _ T _ Im) as (N & _ & _ & NF).
      cbn [bits_loop]. destruct (String.eqb_spec f ""); [contradiction|]. destruct (String.eqb_spec f FINAL); [contradiction|].
      cbn [orb]. rewrite IS, (row_first n mt rank T fs st bs i f V R Hg).
      destruct (Z.leb_spec (len (concat (firstn i bs))) (len (concat (firstn i bs)))) as [_|X]; [|lia].
      destruct (nth_row mt st fs bs i f R Hg) as (y & Y & B & _). rewrite B. cbn [bind]. rewrite Nat2Z.id, firstn_all.
      assert (Nx : exists f', next_field n mt (mapping st) f = Ok f' /\
        match nth_error fs (Datatypes.S i) with Some g => f' = g | None => f' = FINAL end).
      { destruct (nth_error fs (Datatypes.S i)) as [g|] eqn:Hg'.
        - exists g. split; [|reflexivity]. apply (Pth (Datatypes.S i) f g); [exact Hg|exact Hg'].
        - exists FINAL. split; [|reflexivity]. rewrite <- Fin. f_equal. apply (last_ends fs). unfold ends.
          apply nth_error_None in Hg'. assert (Li : (i < List.length fs)%nat) by (apply nth_error_Some; congruence).
          replace (List.length fs) with (Datatypes.S i) by lia. exact Hg. }
      destruct Nx as (f' & Nx & Hf'). rewrite Nx. cbn [bind].
      rewrite <- (IH (Datatypes.S i) f'); [|lia|exact Hf']. f_equal.
      rewrite (firstn_snoc bs i y Y), concat_app. cbn [concat]. now rewrite app_nil_r.
  Qed.

  Lemma filled_final fs st : filled n mt refs inner fs st -> valid_message n mt st = Ok true ->
    next_field n mt (mapping st) (List.last fs INITIAL) = Ok FINAL.
  Proof.
    intros H VM. pose proof (filled_inv n mt refs inner rank T fs st H) as V.
    destruct (history_facts n mt refs inner rank T st (filled_history _ _ _ _ _ _ H)) as (_ & _ & _ & AC).
    destruct (valid_last n mt st VM) as (f & Ia & Vf & Nx). pose proof (AC f Ia) as If.
    unfold valid_field in Vf. destruct (is_set mt st f) eqn:IS; [|discriminate].
    destruct (next_link n mt rank _ _ _ T (or_intror If) Nx ltac:(discriminate)) as (l & I & S & Tl & Hl).
    pose proof (inv_world n mt rank T fs st V) as D. set (E := world mt st) in *.
    pose proof (inv_link n mt rank T fs st V E l D I Hl) as Cl.
    destruct (inv_path_in n mt fs st V f E (inv_set_in n mt rank T fs st V f (or_intror If) IS) D) as (i & p & Hi & P).
    assert (Li : (i < List.length (INITIAL :: fs))%nat) by (apply nth_error_Some; congruence). cbn [List.length] in Li.
    assert (Ei : i = List.length fs).
    { destruct (Nat.eq_dec i (List.length fs)) as [|N]; [assumption|exfalso].
      destruct (nth_error fs i) as [g|] eqn:G. 2:{ apply nth_error_None in G. lia. }
      destruct (v_path _ _ _ _ V E (Datatypes.S i) g D G) as [q Q]. inversion Q as [|k q' l' z S' I' C' Z]; subst.
      destruct (steps_fun _ _ _ T (d_literals _ _ _ D) _ _ _ S' _ _ P) as [Es _].
      assert (l = l') by (apply (t_exclusive _ _ T l l' E I I'); [congruence|exact (d_literals _ _ _ D)|exact Cl|exact C']).
      subst l'. apply nth_error_In in G. destruct (v_fields _ _ _ _ V _ G) as [Y _].
      destruct (t_names _ _ T _ Y) as (_ & _ & _ & X). congruence. }
    subst i. rewrite <- Nx. f_equal. symmetry. apply (last_ends fs). exact Hi.
  Qed.


  Lemma linked_chain E : forall p, linked mt E p -> chain mt p.
  Proof.
    induction p as [|a p IH]; intros H; [exact Logic.I|]. destruct p as [|b p]; [exact Logic.I|].
    destruct H as [(l & I & S & Tl & _) H]. split; [exists l; auto|now apply IH].
  Qed.
  Lemma entered_back xs st : definite mt -> entered xs st -> looks_back mt (map fst xs).
  Proof.
    intros D E. apply D. pose proof (filled_inv n mt refs inner rank T _ _ (entered_filled _ _ E)) as V.
    eapply linked_chain. exact (inv_linked n mt rank T _ st _ V (inv_world n mt rank T _ st V)).
  Qed.

  Lemma entered_round xs st : entered xs st -> definite mt -> (List.length (m_fields mt) <= n)%nat ->
    next_field n mt (mapping st) (List.last (map fst xs) INITIAL) = Ok FINAL ->
    exists b, bitstring n mt st = Ok b /\
      forall t st0, new n mt = Ok st0 -> parse n mt refs inner st0 (b ++ t) = Ok st.
  Proof.
    intros E DF Ln Fin. pose proof (entered_filled _ _ E) as F. pose proof (filled_inv n mt refs inner rank T _ _ F) as V.
    pose proof (entered_back _ _ DF E) as LB.
    assert (LF : (List.length (map fst xs) <= n)%nat).
    { etransitivity; [|exact Ln]. apply NoDup_incl_length; [exact (inv_nodup n mt rank T _ _ V)|].
      intros f I. now apply (v_fields _ _ _ _ V). }
    assert (N0 : exists st0 f0, new n mt = Ok st0 /\ next_field n mt (mapping st0) INITIAL = Ok f0).
    { clear -E. induction E as [st H|]; [|assumption]. exists st. eexists. split; [exact H|]. reflexivity. }
    destruct N0 as (st0 & f0 & N0 & Nf0).
    destruct (parse_again st0 f0 xs st N0 Nf0 E) as (bs & x & z & R & _ & _ & _ & L).
    exists (concat bs). split.
    - unfold bitstring.
      assert (Nx : exists f, next_field n mt (mapping st) INITIAL = Ok f /\
        match nth_error (map fst xs) 0 with Some g => f = g | None => f = FINAL end).
      { destruct (nth_error (map fst xs) 0) as [g|] eqn:G.
        - exists g. split; [|reflexivity]. apply (path_kept xs st E LB 0 INITIAL g eq_refl G).
        - exists FINAL. split; [|reflexivity]. destruct (map fst xs); [exact Fin|discriminate]. }
      destruct Nx as (f & Nx & Hf). rewrite Nx. cbn [bind].
      apply (bits_all (map fst xs) st bs V R (path_kept xs st E LB) Fin n 0 f); [lia|exact Hf].
    - intros t st1 N1. rewrite N0 in N1. apply Ok_inj in N1. subst st1. unfold parse. rewrite Nf0. cbn [bind].
      rewrite map_length in LF. pose proof (L t (n - List.length xs)%nat FINAL Fin ltac:(discriminate)) as Q.
      replace (List.length xs + (n - List.length xs))%nat with n in Q by lia. rewrite Q. destruct (n - List.length xs)%nat; reflexivity.
  Qed.

  (** a parsed message value was filled with the parsed bits *)
  Lemma parse_entered b : forall k xs st f x z st', entered xs st ->
    next_field n mt (mapping st) (List.last (map fst xs) INITIAL) = Ok f ->
    first (fields st (List.last (map fst xs) INITIAL)) = Some x -> size_of mt st (List.last (map fst xs) INITIAL) = Some z ->
    parse_loop n mt refs inner k st b f x (x + z) = Ok st' ->
    (forall g, In g (m_fields mt) -> is_set mt st' g = true -> sized mt st' g) ->
    exists ys, entered (xs ++ ys) st' /\ next_field n mt (mapping st') (List.last (map fst (xs ++ ys)) INITIAL) = Ok FINAL.
  Proof.
    induction k as [|k IH]; intros xs st f x z st' E Nx Fc Zc H W; cbn [parse_loop] in H.
    - destruct (String.eqb_spec f FINAL) as [Ef|]; [|destruct (String.eqb f ""); discriminate].
      apply Ok_inj in H. subst st' f. exists []. rewrite app_nil_r. auto.
    - destruct (String.eqb_spec f FINAL) as [Ef|NF]; [apply Ok_inj in H; subst st' f; exists []; rewrite app_nil_r; auto|].
      destruct (String.eqb_spec f "") as [Ef|N]; [discriminate|].
      pose proof (filled_inv n mt refs inner rank T _ _ (entered_filled _ _ E)) as V. set (fs := map fst xs) in *.
      pose proof (ends_last fs) as Ec. set (c := List.last fs INITIAL) in *.
      pose proof (inv_path_field n mt fs st V c (ends_in _ _ Ec)) as Icf.
      destruct (next_rank n mt rank _ c f T Icf Nx N) as [Lt In']. assert (If : In f (m_fields mt)) by auto. clear In'.
      pose proof (inv_rank n mt rank T fs st c V Ec) as Rk.
      assert (Nf : ~ In f fs) by (intros X; specialize (Rk f (or_intror X)); lia).
      pose proof (typ_field mt rank T f If) as Ty.
      assert (XZ : 0 <= x + z).
      { assert (N0 : exists st0 f0, new n mt = Ok st0 /\ next_field n mt (mapping st0) INITIAL = Ok f0).
        { clear -E. induction E as [st H|]; [|assumption]. exists st. eexists. split; [exact H|]. reflexivity. }
        destruct N0 as (st0 & f0 & N0 & Nf0).
        destruct (parse_again st0 f0 xs st N0 Nf0 E) as (bs & x' & z' & _ & F' & Z' & Lb & _). fold fs c in F', Z'.
        assert (x' = x) by congruence. assert (z' = z) by congruence. lia. }
      assert (CP : forall p, current_pos n mt st f x (x + z) = Ok p -> p = x + z).
      { destruct (next_link n mt rank _ c f T Icf Nx N) as (l & I & Sl & Tl & Hl).
        assert (Rc : reached mt st c). { intros E' D. destruct (v_path _ _ _ _ V _ _ _ D Ec) as [q Q]. eauto. }
        pose proof (ends_in _ _ Ec) as Ic.
        intros p. unfold current_pos. destruct (prev_field n mt st f) as [g|] eqn:P; cbn [bind]; [|discriminate].
        destruct (String.eqb_spec g "") as [Eg|Ng]; [discriminate|].
        rewrite <- Tl in P. rewrite (inv_prev n mt rank T fs st V l c g I Sl Rc Hl P Ng), Fc.
        destruct (first (fields st f)) as [y|] eqn:Y; intros Q; apply Ok_inj in Q; [|auto].
        pose proof (inv_world n mt rank T fs st V) as D.
        destruct (v_first _ _ _ _ V _ f y D If Y) as [i Hi].
        destruct (inv_steps _ _ fs st V c x _ Ic D Fc) as [j Hj].
        pose proof (inv_next n mt rank T fs st V _ l j c x z D I Sl Hl Icf Hj Zc) as Hf. rewrite Tl in Hf.
        destruct (steps_index _ _ _ T (d_literals _ _ _ D) _ _ _ _ _ Hi Hf) as [_ ->].
        destruct (Z.eqb_spec x (x + z)); lia. }
      (* the value after the call is that of the parsed message *)
      assert (Go : forall st1 bs st2 f' x' z' size, tv (fields st1 f) = tv (fields st f) ->
        get_size n mt st1 f = Ok size -> get_size n mt st f = Ok size -> (size = None -> m_types mt f = FOpaque) ->
        (forall zz, size = Some zz -> len bs = zz) ->
        set n mt refs inner st1 f (PBits bs) = (st2, Ok tt) -> next_field n mt (mapping st2) f = Ok f' ->
        parse_loop n mt refs inner k st2 b f' x' z' = Ok st' ->
        exists zz, size = Some zz /\ size_of mt st2 f = Some zz).
      { intros st1 bs st2 f' x' z' size Tv G1 G0 SN SL S Nx' R.
        assert (N' : f' <> "") by (intros ->; destruct k; cbn in R; discriminate).
        destruct (next_rank n mt rank _ f f' T (or_intror If) Nx' N') as [Lt' In'].
        assert (If' : In f' (FINAL :: "" :: m_fields mt)).
        { destruct (String.eqb_spec f' FINAL) as [->|NF']; [now left|]. right; right; auto. }
        pose proof (parse_loop_frame n mt refs inner rank T _ _ _ _ _ _ _ If' R f Lt') as Ff.
        destruct (set_value st1 f (PBits bs) st2 S) as (size' & r & v & p & GS' & Fv & TV & _).
        rewrite G1 in GS'. apply Ok_inj in GS'. subst size'. rewrite Ty, Tv in TV.
        assert (SS : forall t i, m_types mt f = FScalar t i -> size = Some (type_size t)).
        { intros t i Et. unfold get_size in G0. rewrite Ty, Et in G0. now apply Ok_inj in G0. }
        destruct (parse_value n mt inner front positive f (tv (fields st f)) size r bs v If) as (DV & Iv & Nv & MV & _); auto.
        { destruct (v_unset _ _ _ _ V f If Nf) as [Eu|(zu & E1 & E2 & E3)]; [now left|right].
          split; [exact E1|]. exists zu. split; [exact E2|]. rewrite G0 in E3. now apply Ok_inj in E3. }
        assert (IS : is_set mt st' f = true).
        { unfold is_set, size_of. rewrite Ff, Fv, Ty. cbn [tv first]. rewrite Iv. destruct (tv_size (m_types mt f) v); [reflexivity|congruence]. }
        specialize (W f If IS). unfold sized, size_of in W. rewrite Ff, Fv, Ty in W. cbn [tv] in W.
        unfold size_of. rewrite Fv, Ty. cbn [tv].
        destruct v as [v|e rr nn vv|e vv|e vv]; cbn [declared] in *.
        - destruct (m_types mt f) as [t i| |t i|el] eqn:Et; [|cbn in Nv; congruence..].
          exists (type_size t). split; [now apply (SS t i)|reflexivity].
        - destruct W as [W1 W2]. subst e. destruct size as [zz|]; [|congruence]. eauto.
        - destruct W as [W1 W2]. subst e. destruct size as [zz|]; [|congruence]. eauto.
        - destruct (MV e vv eq_refl) as [SN' ZS]. destruct size as [zz|]; [|congruence]. rewrite (SL zz eq_refl) in ZS. eauto. }
      binds H. destruct x0 as [zs|].
      + assert (H' : bind (current_pos n mt st f x (x + z)) (fun p =>
          if zs <? 0 then Err "invalid data size" else
            bind (slice b (Z.to_nat p) (Some (Z.to_nat (p + zs)))) (fun s =>
            bind (try_set n mt refs inner st f (PBits s)) (fun st' =>
            bind (next_field n mt (mapping st') f) (fun f' => parse_loop n mt refs inner k st' b f' p (p + zs))))) = Ok st').
        { destruct (is_opaque (tv (fields st f))); exact H. }
        clear H. rename H' into H. binds H. pose proof (CP x0 eq_refl) as Ep. subst x0.
        destruct (Z.ltb_spec zs 0) as [Lz|Lz]; [discriminate|]. binds H. rename x0 into s. rename x1 into st2. rename x2 into f'.
        apply try_set_ok in B2.
        assert (SL : len s = zs).
        { unfold slice in B1. destruct (Nat.ltb_spec (List.length b) (Z.to_nat (x + z + zs))) as [Lb|Lb]; [discriminate|].
          apply Ok_inj in B1. subst s. rewrite skipn_length, firstn_length. lia. }
        destruct (Go st s st2 f' (x + z) (x + z + zs) (Some zs)) as (zz & Ez & Sz); auto; try discriminate.
        { intros zz Ez. injection Ez as <-. exact SL. }
        injection Ez as <-.
        assert (E' : entered (xs ++ [(f, PBits s)]) st2).
        { eapply entered_set; eauto. unfold spelled. destruct (m_types mt f) as [t i| |t i|el] eqn:Et; auto.
          unfold get_size in B. rewrite Ty in B. apply Ok_inj in B. injection B as <-. destruct t; exact SL. }
        destruct (IH (xs ++ [(f, PBits s)]) st2 f' (x + z) zs st' E') as (ys & Ey & Fy); auto.
        { rewrite map_app. cbn [map fst]. now rewrite last_last. }
        { rewrite map_app. cbn [map fst]. rewrite last_last.
          destruct (C12_filled n mt rank refs inner _ _ T (entered_filled _ _ E')) as (_ & _ & _ & _ & _ & Pos).
          destruct (Pos (List.length fs) c f) as (p & w & Fp & Sw & Ff).
          - rewrite map_app. change (INITIAL :: map fst xs ++ map fst [(f, PBits s)]) with ((INITIAL :: fs) ++ [f]).
            rewrite nth_error_app1 by (cbn; lia). exact Ec.
          - rewrite map_app. cbn [map fst]. fold fs. rewrite nth_error_app2, Nat.sub_diag by lia. reflexivity.
          - assert (Fr : fields st2 c = fields st c) by (apply (set_frame n mt refs inner rank T _ _ _ _ If B2); exact Lt).
            unfold size_of in *. rewrite Fr in *. congruence. }
        { rewrite map_app. cbn [map fst]. now rewrite last_last. }
        exists ((f, PBits s) :: ys). change ((f, PBits s) :: ys) with ([(f, PBits s)] ++ ys). rewrite app_assoc. auto.
      + destruct (is_opaque (tv (fields st f))) eqn:IO; [|discriminate]. binds H. rename x0 into q.
        destruct x1 as [y|]; [|discriminate]. binds H. rename x0 into st2. rename x1 into f'. apply try_set_ok in B2.
        exfalso. destruct (Go (set_first st f (Some y)) (skipn (Z.to_nat q) b) st2 f' q q None) as (zz & Ez & _); auto; try discriminate.
        * now rewrite set_first_same.
        * rewrite <- B. apply get_size_ext; [reflexivity|]. intros l _.
          destruct (string_dec (source l) f) as [->|Ng]; [|apply is_set_ext; now rewrite set_first_other].
          unfold is_set. rewrite set_first_same. cbn [tv].
          destruct (v_unset _ _ _ _ V f If Nf) as [Eu|(zu & _ & E2 & _)]; [|rewrite E2; reflexivity].
          rewrite Eu in *. destruct (m_types mt f); try discriminate. reflexivity.
        * intros _. destruct (v_unset _ _ _ _ V f If Nf) as [Eu|(zu & E1 & _)]; [|exact E1].
          rewrite Eu in IO. destruct (m_types mt f); try discriminate. reflexivity.
  Qed.
End Round.

(** ** The property *)

(** nested message values are read again from their own bits *)
Definition rereads (inner : bool -> string -> bits -> res bits) : Prop :=
  forall sdu b x, inner true sdu b = Ok x -> inner true sdu x = Ok x.
(** the types of the fields are accepted declarations and there is enough fuel *)
Definition declared_fields (n : nat) (mt : mtype) : Prop :=
  (List.length (m_fields mt) <= n)%nat /\ forall f, In f (m_fields mt) -> declared_type n (m_types mt f).

(** A message value that was filled in message order and is valid has bits from which, with
    any bits behind, parse makes the very same object again. *)
Theorem C55_roundtrip : forall n mt rank refs inner xs st, tidy mt rank -> definite mt -> declared_fields n mt ->
  prefixes inner -> rereads inner -> entered n mt refs inner xs st -> valid_message n mt st = Ok true ->
  exists b, bitstring n mt st = Ok b /\
    forall t st0, new n mt = Ok st0 -> parse n mt refs inner st0 (b ++ t) = Ok st.
Proof.
  intros n mt rank refs inner xs st T D [L DT] FR ST E VM.
  apply (entered_round n mt refs inner rank T ST DT FR xs st E D L).
  apply (filled_final n mt refs inner rank T); [|exact VM].
  exact (entered_filled n mt refs inner rank T ST DT FR xs st E).
Qed.
(** The same for bytes: parse reads its own bytestring. *)
Theorem C55_bytes : forall n mt rank refs inner xs st l, tidy mt rank -> definite mt -> declared_fields n mt ->
  prefixes inner -> rereads inner -> entered n mt refs inner xs st -> bytestring n mt st = Ok l ->
  l = [] \/ exists b, from_bytes l = Ok b /\ forall st0, new n mt = Ok st0 -> parse n mt refs inner st0 b = Ok st.
Proof.
  intros n mt rank refs inner xs st l T D DF FR ST E H. unfold bytestring in H.
  destruct (valid_message n mt st) as [[|]|] eqn:VM; cbn [bind] in H; try discriminate.
  destruct (C55_roundtrip n mt rank refs inner xs st T D DF FR ST E VM) as (b & B & P). rewrite B in H. cbn [bind] in H.
  destruct (Nat.eqb_spec (Nat.modulo (List.length b) 8) 0) as [M|]; [|discriminate]. apply Ok_inj in H. subst l.
  apply Nat.mod_divides in M; [|lia]. destruct M as [k K].
  destruct (C43_parse_lossless b k None (to_bytes b) K eq_refl) as [Lk Ob].
  destruct k as [|k]; [left; destruct (to_bytes b); [reflexivity|discriminate]|right]. exists b.
  split.
  - unfold opaque_bitstring in Ob. rewrite Lk in Ob. cbn [Nat.mul Nat.eqb Nat.add] in Ob. unfold from_bytes. rewrite Lk. exact Ob.
  - intros st0 N0. specialize (P [] st0 N0). now rewrite app_nil_r in P.
Qed.
(** A parsed message value whose fields have the sizes they were given is made again from
    its own bits, which are the front of the parsed ones. *)
Theorem C55_reparse : forall n mt rank refs inner st0 b st, tidy mt rank -> definite mt -> declared_fields n mt ->
  prefixes inner -> rereads inner -> new n mt = Ok st0 -> parse n mt refs inner st0 b = Ok st ->
  (forall f, In f (m_fields mt) -> is_set mt st f = true -> sized mt st f) ->
  exists x, bitstring n mt st = Ok x /\ (exists t, b = x ++ t) /\
    forall t, parse n mt refs inner st0 (x ++ t) = Ok st.
Proof.
  intros n mt rank refs inner st0 b st T D [L DT] FR ST N0 P W.
  pose proof (positive n mt DT) as POS. pose proof (new_inv n mt rank T st0 N0) as V0.
  pose proof P as P'. unfold parse in P'. binds P'.
  destruct (parse_entered n mt refs inner rank T ST DT FR b n [] st0 x 0 0 st (entered_new _ _ _ _ st0 N0) B) as (ys & E & Fin); auto.
  { cbn [map List.last]. now rewrite (v_initial _ _ _ _ V0). }
  { exact (inv_initial_size n mt [] st0 V0). }
  cbn [app] in E, Fin.
  destruct (entered_round n mt refs inner rank T ST DT FR ys st E D L Fin) as (y & Y & R).
  exists y. split; [exact Y|]. split; [|intros t; now apply R].
  destruct (C11_parse_prefix n mt rank refs inner st0 b st T POS FR N0 P) as (fs & bs & rest & _ & _ & _ & _ & _ & _ & _ & Eb & J).
  { intros f I S. specialize (W f I S). unfold sized in W. unfold whole.
    destruct (tv (fields st f)) as [v|e r nn v|e v|e v]; cbn [declared] in *; auto;
      (destruct W as [We Ws]; destruct e; [exact Ws|congruence]). }
  destruct (J y Y) as [j ->]. destruct (concat_firstn_prefix bs j) as [t Et]. exists (t ++ rest).
  now rewrite Eb, Et, <- app_assoc.
Qed.
(** Such a message is read as the element of an array: its bits and no more. *)
Theorem C55_nested : forall n types refs d m mt rank xs st, types m = Some mt -> tidy mt rank -> definite mt ->
  declared_fields n mt -> prefixes (parse_message n types refs d) -> rereads (parse_message n types refs d) ->
  entered n mt [] (parse_message n types refs d) xs st -> valid_message n mt st = Ok true ->
  exists b, bitstring n mt st = Ok b /\ forall t, parse_message n types refs (S d) false m (b ++ t) = Ok b.
Proof.
  intros n types refs d m mt rank xs st Tm T D DF FR ST E VM.
  destruct (C55_roundtrip n mt rank [] _ xs st T D DF FR ST E VM) as (b & B & P). exists b. split; [exact B|].
  intros t. cbn [parse_message]. rewrite Tm.
  assert (N0 : exists st0, new n mt = Ok st0).
  { clear -E. induction E as [st H|]; [eauto|assumption]. }
  destruct N0 as [st0 N0]. rewrite N0. cbn [bind]. rewrite (P t st0 N0). cbn [bind]. rewrite VM. cbn [bind]. exact B.
Qed.

(** Parsing of messages in messages: what was read is read again, with anything behind. *)
Theorem C55_messages : forall n types refs,
  (forall m mt, types m = Some mt -> (exists rank, tidy mt rank) /\ definite mt /\ declared_fields n mt) ->
  (forall depth rs m mt b st0 st, types m = Some mt -> new n mt = Ok st0 ->
     parse n mt rs (parse_message n types refs depth) st0 b = Ok st ->
     forall f, In f (m_fields mt) -> is_set mt st f = true -> sized mt st f) ->
  forall depth refined m b x, parse_message n types refs depth refined m b = Ok x ->
    (exists t, b = x ++ t) /\ forall t, parse_message n types refs depth refined m (x ++ t) = Ok x.
Proof.
  intros n types refs HT HW. induction depth as [|d IH]; intros refined m b x H; [discriminate|].
  cbn [parse_message] in *. destruct (types m) as [mt|] eqn:Tm; [|discriminate].
  destruct (HT m mt Tm) as ((rank & T) & D & DF).
  destruct (new n mt) as [st0|] eqn:N0; cbn [bind] in *; [|discriminate].
  destruct (parse n mt _ _ st0 b) as [st|] eqn:P; cbn [bind] in H; [|discriminate].
  destruct (valid_message n mt st) as [[|]|] eqn:VM; cbn [bind] in H; try discriminate.
  assert (FR : prefixes (parse_message n types refs d)) by (intros r m' b' x' H'; now apply (IH r m' b' x')).
  assert (ST : rereads (parse_message n types refs d)).
  { intros m' b' x' H'. destruct (IH true m' b' x' H') as [_ R]. specialize (R []). now rewrite app_nil_r in R. }
  destruct (C55_reparse n mt rank _ _ st0 b st T D DF FR ST N0 P (HW d _ m mt b st0 st Tm N0 P)) as (y & Y & Fy & R).
  rewrite H in Y. apply Ok_inj in Y. subst y. split; [exact Fy|]. intros t. rewrite (R t). cbn [bind]. now rewrite VM.
Qed.

(** ** Cases *)

Lemma byte_declared n i : (11 <= n)%nat -> declared_type n (FScalar byte i).
Proof.
  intros L. split; [|cbn; lia]. exists 5%nat. split; [|lia]. left.
  exists ["P"; "B"], (EBin OPow (ENum 2) (ENum 8)). split; [vm_compute; reflexivity|]. cbn. intros x [].
Qed.
Lemma tag_declared : declared_type 40 (FScalar tag_type false).
Proof.
  split; [|cbn; lia]. exists 5%nat. split; [exists (ENum 8); vm_compute; reflexivity|now apply (P_IdentErrors.C35_accepted _ ["P"; "Tag"])| |lia].
  repeat (apply Forall_cons; [eexists; split; [reflexivity| split; [apply P_IdentErrors.good_part_b; repeat split|discriminate]]|]); apply Forall_nil.
Qed.
(** conditions that refer to the source of their link only *)
Lemma definite_own mt : (forall l x, In l (m_links mt) -> In x (names (condition l)) -> In (name_id x) (m_fields mt) ->
    name_id x = source l) -> (forall x, In x (m_fields mt) -> x <> INITIAL) -> definite mt.
Proof.
  intros H NI fs _ i c l x Hc I S Ix Im. assert (E : name_id x = c) by (rewrite <- S; now apply H). rewrite E in Im |- *.
  destruct i as [|i]; cbn [nth_error] in Hc; [injection Hc as <-; now elim (NI INITIAL)|].
  apply (nth_error_In _ i). etransitivity; [|exact Hc].
  rewrite <- (firstn_skipn (Datatypes.S i) fs) at 2.
  rewrite nth_error_app1; [reflexivity|]. rewrite firstn_length.
  assert (i < List.length fs)%nat by (apply nth_error_Some; congruence). lia.
Qed.
Lemma nothing_prefixes : prefixes nothing.
Proof. intros r m b x H. discriminate. Qed.
Lemma nothing_rereads : rereads nothing.
Proof. intros m b x H. discriminate. Qed.
Lemma entered_step mt refs inner xs st f x z : entered 40 mt refs inner xs st ->
  next_field 40 mt (mapping st) (List.last (map fst xs) INITIAL) = Ok f -> (String.eqb f "" || String.eqb f FINAL)%bool = false ->
  spelled 40 inner (m_types mt f) x -> snd (set 40 mt refs inner st f x) = Ok tt ->
  get_size 40 mt st f = Ok (Some z) -> size_of mt (sets mt refs inner [(f, x)] st) f = Some z ->
  entered 40 mt refs inner (xs ++ [(f, x)]) (sets mt refs inner [(f, x)] st).
Proof.
  intros E N D Sp S G Z. apply Bool.orb_false_iff in D as [D1 D2]. apply String.eqb_neq in D1, D2. cbn [sets] in *.
  eapply entered_set; eauto. now apply succeeded.
Qed.

Example C55_case : let xs := [("tag", PStr "Data"); ("length", PInt 2); ("value", PBytes [7; 8])] in
  let st := made tlv [] nothing xs in
  tidy tlv (position [INITIAL; "tag"; "length"; "value"]) /\ definite tlv /\ declared_fields 40 tlv /\
  prefixes nothing /\ rereads nothing /\ entered 40 tlv [] nothing xs st /\ valid_message 40 tlv st = Ok true /\
  bytestring 40 tlv st = Ok [1; 2; 7; 8].
Proof.
  intros xs st. split; [exact tlv_tidy|]. split.
  { apply definite_own.
    - intros l x I. cbn in I. repeat (destruct I as [<-|I]; [cbn; intros Ix Im|]); try contradiction;
        repeat (destruct Ix as [<-|Ix]; [cbn in *|]); try contradiction; try reflexivity;
        repeat (destruct Im as [Im|Im]; [discriminate Im|]); contradiction.
    - intros x I ->. cbn in I. repeat (destruct I as [I|I]; [discriminate I|]). exact I. }
  split. { split; [cbn; lia|]. intros f _. cbn [m_types tlv]. destruct (String.eqb f "tag"); [exact tag_declared|].
    destruct (String.eqb f "length"); [apply byte_declared; lia|exact Logic.I]. }
  split; [exact nothing_prefixes|]. split; [exact nothing_rereads|]. split; [|split; vm_compute; reflexivity].
  subst st. pose proof (sets_app tlv [] nothing [("tag", PStr "Data"); ("length", PInt 2)] [("value", PBytes [7; 8])] (start tlv)) as E.
  pose proof (sets_app tlv [] nothing [("tag", PStr "Data")] [("length", PInt 2)] (start tlv)) as E'.
  cbn [app] in E, E'. unfold made, xs. rewrite E, E'. clear E E'.
  assert (E0 : entered 40 tlv [] nothing [] (start tlv)).
  { apply entered_new. unfold start. destruct (new 40 tlv) eqn:N; [reflexivity|vm_compute in N; discriminate]. }
  apply (entered_step tlv [] nothing [("tag", PStr "Data"); ("length", PInt 2)] _ "value" _ 16);
    [|vm_compute; reflexivity|reflexivity| |vm_compute; reflexivity|vm_compute; reflexivity|vm_compute; reflexivity].
  - apply (entered_step tlv [] nothing [("tag", PStr "Data")] _ "length" _ 8);
      [|vm_compute; reflexivity|reflexivity|exact Logic.I|vm_compute; reflexivity|vm_compute; reflexivity|vm_compute; reflexivity].
    apply (entered_step tlv [] nothing [] _ "tag" _ 8 E0);
      [vm_compute; reflexivity|reflexivity| |vm_compute; reflexivity|vm_compute; reflexivity|vm_compute; reflexivity].
    exists ["Data"], 1. split; [now left|]. split; [reflexivity|now left].
  - repeat constructor; lia.
Qed.

(** messages of numbers and arrays of messages, without conditions *)
Lemma straight_definite mt : (forall l, In l (m_links mt) -> condition l = ETrue) -> definite mt.
Proof. intros H fs _ i c l x _ I _ Ix. rewrite (H l I) in Ix. contradiction. Qed.
Lemma kinds_sized n mt rank refs inner st0 b st : tidy mt rank -> new n mt = Ok st0 -> parse n mt refs inner st0 b = Ok st ->
  (forall f, In f (m_fields mt) -> (exists t i, m_types mt f = FScalar t i) \/ exists e, m_types mt f = FMessages e) ->
  forall f, In f (m_fields mt) -> is_set mt st f = true -> sized mt st f.
Proof.
  intros T N P F f If _. pose proof (kinds_parse n mt refs inner st0 b st N P f) as K.
  rewrite (typ_field mt rank T f If) in K. unfold sized.
  destruct (F f If) as [(t & i & Ty)|(e & Ty)]; rewrite Ty in K; destruct (tv (fields st f)); auto; contradiction.
Qed.
Lemma item_types_kinds m mt : item_types m = Some mt ->
  (exists rank, tidy mt rank) /\ definite mt /\ declared_fields 40 mt /\
  forall f, In f (m_fields mt) -> (exists t i, m_types mt f = FScalar t i) \/ exists e, m_types mt f = FMessages e.
Proof.
  unfold item_types. destruct (String.eqb m "P.Items"); [|destruct (String.eqb m "P.Item"); [|discriminate]];
    intros H; injection H as <-.
  - split; [exists (position [INITIAL; "length"; "list"]); straight|].
    split; [apply straight_definite; intros l I; cbn in I; in_cases I; subst l; reflexivity|].
    split; [split; [cbn; lia|]; intros f _; cbn; destruct (String.eqb f "list"); [exact Logic.I|apply byte_declared; lia]|].
    intros f _. cbn. destruct (String.eqb f "list"); eauto.
  - split; [exists (position [INITIAL; "x"; "y"]); straight|].
    split; [apply straight_definite; intros l I; cbn in I; in_cases I; subst l; reflexivity|].
    split; [split; [cbn; lia|]; intros f _; apply byte_declared; lia|].
    intros f _. cbn. eauto.
Qed.
Example C55_messages_case :
  (forall m mt, item_types m = Some mt -> (exists rank, tidy mt rank) /\ definite mt /\ declared_fields 40 mt) /\
  (forall depth rs m mt b st0 st, item_types m = Some mt -> new 40 mt = Ok st0 ->
     parse 40 mt rs (parse_message 40 item_types [] depth) st0 b = Ok st ->
     forall f, In f (m_fields mt) -> is_set mt st f = true -> sized mt st f) /\
  parse_message 40 item_types [] 2 false "P.Items" (bits_of_bytes [4; 1; 2; 3; 4; 5]) = Ok (bits_of_bytes [4; 1; 2; 3; 4]) /\
  parse_message 40 item_types [] 2 false "P.Items" (bits_of_bytes [4; 1; 2; 3; 4; 9; 9]) = Ok (bits_of_bytes [4; 1; 2; 3; 4]).
Proof.
  split; [intros m mt H; destruct (item_types_kinds m mt H) as (A & B & C & _); auto|].
  split; [|split; vm_compute; reflexivity].
  intros depth rs m mt b st0 st H N P. destruct (item_types_kinds m mt H) as ((rank & A) & _ & _ & K).
  exact (kinds_sized 40 mt rank rs _ st0 b st A N P K).
Qed.
(** the messages of an array are entered as objects *)
Example C55_nested_case : let inner := parse_message 40 item_types [] 1 in
  let xs := [("length", PInt 4); ("list", PMessages [("P.Item", true, bits_of_bytes [1; 2]); ("P.Item", true, bits_of_bytes [3; 4])])] in
  entered 40 items [] inner xs (made items [] inner xs) /\ prefixes inner /\ rereads inner /\
  valid_message 40 items (made items [] inner xs) = Ok true /\
  bytestring 40 items (made items [] inner xs) = Ok [4; 1; 2; 3; 4].
Proof.
  intros inner xs.
  assert (A : forall r m b x, inner r m b = Ok x -> (exists t, b = x ++ t) /\ forall t, inner r m (x ++ t) = Ok x).
  { intros r m b x H. apply (C55_messages 40 item_types [] (proj1 C55_messages_case) (proj1 (proj2 C55_messages_case)) 1 r m b x H). }
  split; [|split; [|split; [|split; vm_compute; reflexivity]]].
  - pose proof (sets_app items [] inner [("length", PInt 4)]
      [("list", PMessages [("P.Item", true, bits_of_bytes [1; 2]); ("P.Item", true, bits_of_bytes [3; 4])])] (start items)) as E.
    cbn [app] in E. unfold made, xs. rewrite E. clear E.
    apply (entered_step items [] inner [("length", PInt 4)] _ "list" _ 32);
      [|vm_compute; reflexivity|reflexivity| |vm_compute; reflexivity|vm_compute; reflexivity|vm_compute; reflexivity].
    + apply (entered_step items [] inner [] _ "length" _ 8);
        [|vm_compute; reflexivity|reflexivity|exact Logic.I|vm_compute; reflexivity|vm_compute; reflexivity|vm_compute; reflexivity].
      apply entered_new. unfold start. destruct (new 40 items) eqn:N; [reflexivity|vm_compute in N; discriminate].
    + cbn [spelled items m_types]. cbn [String.eqb]. constructor; [|constructor; [|constructor]]; (split; [discriminate|]); intros t;
        [assert (B : inner false "P.Item" (bits_of_bytes [1; 2]) = Ok (bits_of_bytes [1; 2])) by (vm_compute; reflexivity)
        |assert (B : inner false "P.Item" (bits_of_bytes [3; 4]) = Ok (bits_of_bytes [3; 4])) by (vm_compute; reflexivity)];
        exact (proj2 (A _ _ _ _ B) t).
  - intros r m b x H. exact (proj1 (A _ _ _ _ H)).
  - intros m b x H. pose proof (proj2 (A _ _ _ _ H) []) as R. now rewrite app_nil_r in R.
Qed.

(** ** Where the expectations fail *)

(** A literal is found whatever the case of its letters and keeps the text it was given,
    so that the object that is read back is another one. *)
Theorem C55_spelling_refuted : exists mt xs b st', valid_message 40 mt (made mt [] nothing xs) = Ok true /\
  bytestring 40 mt (made mt [] nothing xs) = Ok b /\ parse 40 mt [] nothing (start mt) (bits_of_bytes b) = Ok st' /\
  bytestring 40 mt st' = Ok b /\ tv (fields st' "tag") <> tv (fields (made mt [] nothing xs) "tag").
Proof.
  exists tlv, [("tag", PStr "data"); ("length", PInt 2); ("value", PBytes [7; 8])], [1; 2; 7; 8].
  destruct (parse 40 tlv [] nothing (start tlv) (bits_of_bytes [1; 2; 7; 8])) as [st'|] eqn:P.
  - exists st'. split; [vm_compute; reflexivity|]. split; [vm_compute; reflexivity|]. split; [reflexivity|].
    assert (X : match parse 40 tlv [] nothing (start tlv) (bits_of_bytes [1; 2; 7; 8]) with
                | Ok s => (bytestring 40 tlv s, tv (fields s "tag")) | Err e => (Err e, VScalar None) end
              = (Ok [1; 2; 7; 8], VScalar (Some (SEnum "Data" 1)))) by (vm_compute; reflexivity).
    rewrite P in X. injection X as X Y. split; [exact X|]. rewrite Y. vm_compute. discriminate.
  - exfalso. assert (X : match parse 40 tlv [] nothing (start tlv) (bits_of_bytes [1; 2; 7; 8]) with Ok _ => true | Err _ => false end = true)
      by (vm_compute; reflexivity). rewrite P in X. discriminate X.
Qed.
(** Fields may be set in another order: the bytes of a valid message are then not read at all. *)
Theorem C55_order_refuted : exists mt rank xs b w, tidy mt rank /\ definite mt /\ declared_fields 40 mt /\
  history 40 mt [] nothing (made mt [] nothing xs) /\ valid_message 40 mt (made mt [] nothing xs) = Ok true /\
  bitstring 40 mt (made mt [] nothing xs) = Ok b /\ parse 40 mt [] nothing (start mt) b = Err w.
Proof.
  exists pair, (position [INITIAL; "a"; "b"]), [("b", PInt 5)], [], "IndexError". split; [straight|].
  split; [apply straight_definite; intros l I; cbn in I; in_cases I; subst l; reflexivity|].
  split; [split; [cbn; lia|]; intros f _; apply byte_declared; lia|].
  split; [apply made_history; vm_compute; reflexivity|]. repeat split; vm_compute; reflexivity.
Qed.

(** An object that has been read before keeps the messages of its arrays: reading appends
    to them, and the bytes of the object are not those that were read last. *)
Theorem C55_again_refuted : exists mt inner b c d st st',
  parse 40 mt [] inner (start mt) (bits_of_bytes b) = Ok st /\ bytestring 40 mt st = Ok b /\
  parse 40 mt [] inner st (bits_of_bytes c) = Ok st' /\ valid_message 40 mt st' = Ok true /\
  bytestring 40 mt st' = Ok d /\ d <> c.
Proof.
  exists items, (parse_message 40 item_types [] 1), [4; 1; 2; 3; 4], [2; 5; 6], [2; 1; 2; 3; 4; 5; 6].
  set (inner := parse_message 40 item_types [] 1).
  assert (X : match parse 40 items [] inner (start items) (bits_of_bytes [4; 1; 2; 3; 4]) with
              | Ok s => (bytestring 40 items s,
                  match parse 40 items [] inner s (bits_of_bytes [2; 5; 6]) with
                  | Ok s' => (valid_message 40 items s', bytestring 40 items s') | Err e => (Err e, Err e) end)
              | Err e => (Err e, (Err e, Err e)) end
            = (Ok [4; 1; 2; 3; 4], (Ok true, Ok [2; 1; 2; 3; 4; 5; 6]))) by (vm_compute; reflexivity).
  clearbody inner.
  destruct (parse 40 items [] inner (start items) (bits_of_bytes [4; 1; 2; 3; 4])) as [st|] eqn:P; [|discriminate X].
  destruct (parse 40 items [] inner st (bits_of_bytes [2; 5; 6])) as [st'|] eqn:Q; [|discriminate X].
  injection X as X Y Z. exists st, st'. repeat split; try assumption. discriminate.
Qed.

Print Assumptions C55_roundtrip.
Print Assumptions C55_bytes.
Print Assumptions C55_reparse.
Print Assumptions C55_nested.
Print Assumptions C55_messages.
Print Assumptions C55_spelling_refuted.
Print Assumptions C55_order_refuted.
Print Assumptions C55_again_refuted.
