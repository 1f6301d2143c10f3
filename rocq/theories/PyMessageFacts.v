(** Lemmas about message values: substitution by the mapping of a message value keeps
    the meaning of conditions, and what the loops of parse and _preset_fields do. *)
From Coq Require Import String Ascii List ZArith Bool Lia.
From Verif Require Import Base Expr ExprEval ExprFacts ExprTotal Ident TypeSpec Bitstring BitFacts PyValue PyValueFacts.
From Verif Require Import MsgGraph MsgGraphFacts GenSpec PyMessage.
Import ListNotations.
Local Open Scope string_scope.
Local Open Scope list_scope.
Local Open Scope Z_scope.

(** ** Substitution of names by numbers and names *)

Definition leaf (e : expr) : Prop := (exists z, e = ENum z) \/ exists x, e = EVar x.
Definition ints_only (E : env) : Prop := forall x, exists z, E x = VInt z.

Section Subst.
  Variable sp : expr -> res expr.
  Variable M : name -> option expr.
  Variable E : env.
  Variable D : name -> Prop.
  Hypothesis EI : ints_only E.
  Hypothesis ML : forall x e, D x -> M x = Some e ->
    leaf e /\ eval E e = Some (E x) /\ forall y, e = EVar y -> D (NVar y).

  Lemma subst_leaf x s e' : D x -> substituted (neg sp) M (EName x s) = Ok e' ->
    eval E e' = name_val (E x) s /\ ((exists z, e' = ENum z) \/ exists y t, e' = EName y t) /\
    forall y, In y (names e') -> D y.
  Proof.
    intros Dx H. cbn [substituted] in H. destruct (M x) as [e|] eqn:Mx.
    - destruct (ML x e Dx Mx) as ([[z ->]|[y ->]] & V & C); destruct s; apply Ok_inj in H; subst e'.
      + cbn in V. injection V as V. rewrite <- V. cbn. split; [reflexivity|]. split; [left; eauto|]. intros y [].
      + cbn in V. injection V as V. rewrite <- V. cbn. split; [reflexivity|]. split; [left; eauto|]. intros y [].
      + cbn in V. injection V as V. cbn. rewrite V. split; [reflexivity|]. split; [right; do 2 eexists; reflexivity|].
        intros w [<-|[]]. now apply C.
      + cbn in V. cbn. injection V as V. rewrite V. split; [reflexivity|]. split; [right; do 2 eexists; reflexivity|].
        intros w [<-|[]]. now apply C.
    - assert (e' = EName x s) as -> by (destruct s; apply Ok_inj in H; now subst).
      cbn. split; [reflexivity|]. split; [right; do 2 eexists; reflexivity|]. intros y [<-|[]]. exact Dx.
  Qed.

  (** the meaning, the fragment of sound simplification and the set of names are kept *)
  Lemma subst_eval : forall e e', (forall x, In x (names e) -> D x) -> substituted (neg sp) M e = Ok e' ->
    eval E e' = eval E e /\ (forall y, In y (names e') -> D y) /\
    (const e = true -> const e' = true) /\ (safe e = true -> safe e' = true) /\ (ok e = true -> ok e' = true).
  Proof.
    induction e as [ | |z|x s|a IH|o ts IH|o l r IHl IHr|o l r IHl IHr] using expr_ind'; intros e' HD H.
    - apply Ok_inj in H. subst. auto.
    - apply Ok_inj in H. subst. auto.
    - apply Ok_inj in H. subst. auto.
    - destruct (subst_leaf x s e') as (V & S & N); [apply HD; cbn; auto|exact H|].
      split; [exact V|]. split; [exact N|].
      destruct S as [[z ->]|(y & t & ->)]; cbn; auto.
    - apply Ok_inj in H. subst. auto.
    - cbn [substituted] in H.
      match type of H with bind (?F ts) _ = _ => set (go := F) in * end.
      destruct (go ts) as [ts'|] eqn:G; cbn [bind] in H; [|discriminate]. apply Ok_inj in H. subst e'.
      assert (K : map (eval E) ts' = map (eval E) ts /\ (forall y, In y (flat_map names ts') -> D y) /\
        (forallb const ts = true -> forallb const ts' = true) /\
        (forallb safe ts = true -> forallb safe ts' = true) /\ (forallb ok ts = true -> forallb ok ts' = true)).
      { cbn [names] in HD. revert ts' G. induction IH as [|t l Ht _ IHl]; intros ts' G; cbn in G.
        - apply Ok_inj in G. subst. repeat split; auto.
        - destruct (substituted (neg sp) M t) as [t'|] eqn:T; cbn [bind] in G; [|discriminate].
          fold go in G. destruct (go l) as [l'|] eqn:L; cbn [bind] in G; [|discriminate].
          apply Ok_inj in G. subst ts'.
          assert (HDt : forall x, In x (names t) -> D x) by (intros; apply HD; cbn; apply in_app_iff; auto).
          assert (HDl : forall x, In x (flat_map names l) -> D x) by (intros; apply HD; cbn; apply in_app_iff; auto).
          destruct (Ht t' HDt eq_refl) as (V & N & A & B & C).
          destruct (IHl HDl l' eq_refl) as (V' & N' & A' & B' & C').
          cbn. rewrite V, V'. split; [reflexivity|]. split.
          + intros y I. apply in_app_iff in I as [I|I]; auto.
          + rewrite !andb_true_iff. tauto. }
      destruct K as (V & N & A & B & C). cbn [eval names]. rewrite V. split; [reflexivity|]. split; [exact N|].
      cbn [const safe ok]. destruct o; auto.
    - cbn [substituted] in H.
      destruct (substituted (neg sp) M l) as [l'|] eqn:L; cbn [bind] in H; [|discriminate].
      destruct (substituted (neg sp) M r) as [r'|] eqn:R; cbn [bind] in H; [|discriminate].
      apply Ok_inj in H. subst e'. cbn [names] in HD.
      destruct (IHl l') as (V & N & A & B & C); [intros; apply HD, in_app_iff; auto|reflexivity|].
      destruct (IHr r') as (V' & N' & A' & B' & C'); [intros; apply HD, in_app_iff; auto|reflexivity|].
      cbn [eval names]. rewrite V, V'. split; [reflexivity|]. split.
      + intros y I. apply in_app_iff in I as [I|I]; auto.
      + cbn [const safe ok]. destruct o; rewrite ?andb_true_iff; tauto.
    - cbn [substituted] in H.
      destruct (substituted (neg sp) M l) as [l'|] eqn:L; cbn [bind] in H; [|discriminate].
      destruct (substituted (neg sp) M r) as [r'|] eqn:R; cbn [bind] in H; [|discriminate].
      apply Ok_inj in H. subst e'. cbn [names] in HD.
      destruct (IHl l') as (V & N & A & B & C); [intros; apply HD, in_app_iff; auto|reflexivity|].
      destruct (IHr r') as (V' & N' & A' & B' & C'); [intros; apply HD, in_app_iff; auto|reflexivity|].
      cbn [eval names]. rewrite V, V'. split; [reflexivity|]. split.
      + intros y I. apply in_app_iff in I as [I|I]; auto.
      + cbn [const safe ok]. rewrite ?andb_true_iff; tauto.
  Qed.
End Subst.

(** ** Conditions *)

Section Holds.
  Variables (n : nat) (mt : mtype).

  (** a name that is not an attribute of the message or of the initial node *)
  Definition plain_name (x : name) : Prop := name_id x <> "message" /\ name_id x <> INITIAL.
  (** [E] interprets names as the mapping [m] does *)
  Definition fits (E : env) (m : name -> option expr) : Prop :=
    forall x e, plain_name x -> subst mt m x = Some e ->
      leaf e /\ eval E e = Some (E x) /\ forall y, e = EVar y -> plain_name (NVar y).

  Lemma simplified_value E m e e' v : ints_only E -> fits E m -> ok e = true ->
    (forall x, In x (names e) -> plain_name x) -> simplified n mt m e = Ok e' -> eval E e = Some v ->
    eval E e' = Some v.
  Proof.
    intros EI F O N H V.
    assert (G : match e with ETrue | EFalse => Ok e | _ =>
       bind (substituted (neg (simpv n)) (subst mt m) e) (fun e1 =>
       bind (substituted (neg (simpv n)) (subst mt m) e1) (fun e2 => simpv n e2)) end = Ok e') by exact H.
    assert (K : bind (substituted (neg (simpv n)) (subst mt m) e) (fun e1 =>
       bind (substituted (neg (simpv n)) (subst mt m) e1) (fun e2 => simpv n e2)) = Ok e' -> eval E e' = Some v).
    { clear H G. intros H.
      destruct (substituted (neg (simpv n)) (subst mt m) e) as [e1|] eqn:S1; cbn [bind] in H; [|discriminate].
      destruct (substituted (neg (simpv n)) (subst mt m) e1) as [e2|] eqn:S2; cbn [bind] in H; [|discriminate].
      destruct (subst_eval (simpv n) (subst mt m) E plain_name F e e1 N S1) as (V1 & N1 & _ & _ & O1).
      destruct (subst_eval (simpv n) (subst mt m) E plain_name F e1 e2 N1 S2) as (V2 & _ & _ & _ & O2).
      destruct (simplify_good expr_eqb expr_eqb_sound n _ _ H) as (R & _).
      destruct (R (O2 (O1 O))) as [_ R']. apply R'. congruence. }
    destruct e; auto; apply Ok_inj in G; now subst e'.
  Qed.
  Lemma holds_true E m c v : ints_only E -> fits E m -> ok c = true ->
    (forall x, In x (names c) -> plain_name x) -> holds n mt m c = Ok true -> eval E c = Some v -> v = VBool true.
  Proof.
    intros EI F O N H V. unfold holds in H.
    destruct (simplified n mt m c) as [r|] eqn:S; cbn [bind] in H; [|discriminate]. apply Ok_inj in H.
    apply expr_eqb_iff in H. subst r. pose proof (simplified_value E m c _ v EI F O N S V) as X.
    cbn in X. congruence.
  Qed.
End Holds.

(** ** Messages whose conditions leave no choice *)

(** the texts that an enumeration field can hold after parsing, in lower case *)
Definition value_names (id : ident) (lits : list (ident * Z)) (imported : bool) : list string :=
  "unknown" :: map (fun kv => if imported then lower (id_str (fst kv))
                              else match id_name (fst kv) with Ok nm => lower (id_str nm) | Err _ => "" end)
                   (enum_literals id lits imported).

(** all names denote numbers, the literals of the message their values *)
Definition literal_env (mt : mtype) (E : env) : Prop :=
  ints_only E /\ forall k v, In (k, v) (type_literals mt) -> E (NVar (var k)) = VInt v.

Record tidy (mt : mtype) (rank : field -> nat) : Prop := {
  (** no cycles *)
  t_rank : forall l, In l (m_links mt) -> (rank (source l) < rank (target l))%nat;
  (** one unconditional link from the initial node *)
  t_initial : exists l, outgoing (m_links mt) INITIAL = [l] /\ condition l = ETrue;
  (** links between declared fields *)
  t_source : forall l, In l (m_links mt) -> In (source l) (INITIAL :: m_fields mt);
  t_target : forall l, In l (m_links mt) -> In (target l) (FINAL :: m_fields mt);
  t_names : forall x, In x (m_fields mt) -> x <> "" /\ x <> "message" /\ x <> INITIAL /\ x <> FINAL;
  (** no overlays *)
  t_first : forall l, In l (m_links mt) -> lfirst l = None;
  (** conditions are defined whatever the values of the fields are, do not depend on
      the length of the message and are simplified without change of meaning *)
  t_ok : forall l, In l (m_links mt) -> ok (condition l) = true;
  t_plain : forall l x, In l (m_links mt) -> In x (names (condition l)) -> plain_name x;
  t_defined : forall l E, In l (m_links mt) -> literal_env mt E ->
    exists b, eval E (condition l) = Some (VBool b);
  (** never two ways to go on *)
  t_exclusive : forall l l' E, In l (m_links mt) -> In l' (m_links mt) -> source l = source l' ->
    literal_env mt E -> eval E (condition l) = Some (VBool true) -> eval E (condition l') = Some (VBool true) -> l = l';
  (** literals and fields have different names *)
  t_literal : forall k v, In (k, v) (type_literals mt) ->
    literal mt (var k) = Some v /\ ~ In (var k) (m_fields mt) /\ var k <> "message" /\ var k <> INITIAL;
  t_enum : forall f id lits size av imported x, In f (m_fields mt) ->
    m_types mt f = FScalar (Enum id lits size av) imported -> In x (value_names id lits imported) ->
    ~ In x (m_fields mt) /\ x <> "message" /\ x <> INITIAL
}.

(** [E] gives every name the value it has in the message value: fields their numbers
    (enumeration values that of their literal), First, Last and Size their positions *)
Record describes (mt : mtype) (st : mvalue) (E : env) : Prop := {
  d_literals : literal_env mt E;
  d_int : forall f z, In f (m_fields mt) -> tv (fields st f) = VScalar (Some (SInt z)) -> E (NVar f) = VInt z;
  d_enum : forall f s z, In f (m_fields mt) -> tv (fields st f) = VScalar (Some (SEnum s z)) ->
    E (NVar f) = E (NVar (lower s));
  d_first : forall f p, In f (INITIAL :: m_fields mt) -> first (fields st f) = Some p -> E (NAttr AFirst f) = VInt p;
  d_size : forall f z, In f (INITIAL :: m_fields mt) -> size_of mt st f = Some z -> E (NAttr ASize f) = VInt z;
  d_last : forall f p z, In f (INITIAL :: m_fields mt) -> first (fields st f) = Some p -> size_of mt st f = Some z ->
    E (NAttr ALast f) = VInt (p + z - 1)
}.

(** the walk through the message in the world [E]: number of steps, field, first bit *)
Inductive steps (mt : mtype) (E : env) : nat -> field -> Z -> Prop :=
| steps_0 : steps mt E 0 INITIAL 0
| steps_S k p l z : steps mt E k (source l) p -> In l (m_links mt) ->
    eval E (condition l) = Some (VBool true) -> E (NAttr ASize (source l)) = VInt z ->
    steps mt E (S k) (target l) (p + z).

Section Walk.
  Variables (mt : mtype) (rank : field -> nat) (E : env).
  Hypothesis T : tidy mt rank.
  Hypothesis LE : literal_env mt E.

  Lemma steps_fun : forall k f p, steps mt E k f p -> forall f' p', steps mt E k f' p' -> f = f' /\ p = p'.
  Proof.
    induction 1 as [|k p l z S IH I C Z]; intros f' p' H; inversion H as [|k' q l' z' S' I' C' Z']; subst; auto.
    destruct (IH _ _ S') as [Es ->].
    assert (l = l') as <- by (eapply (t_exclusive _ _ T); eauto).
    split; [reflexivity|]. congruence.
  Qed.
  Lemma steps_before : forall k f p, steps mt E k f p -> forall j, (j <= k)%nat -> exists g q, steps mt E j g q /\
    ((j < k)%nat -> (rank g < rank f)%nat).
  Proof.
    induction 1 as [|k p l z S IH I C Z]; intros j J.
    - assert (j = 0%nat) by lia. subst. exists INITIAL, 0. split; [constructor|lia].
    - destruct (Nat.eq_dec j (Datatypes.S k)) as [->|N].
      + exists (target l), (p + z). split; [now constructor|lia].
      + destruct (IH j) as (g & q & G & R); [lia|]. exists g, q. split; [exact G|].
        intros _. pose proof (t_rank _ _ T l I). destruct (Nat.eq_dec j k) as [->|N'].
        * destruct (steps_fun _ _ _ S _ _ G) as [Eg _]. rewrite <- Eg. lia.
        * assert (rank g < rank (source l))%nat by (apply R; lia). lia.
  Qed.
  Lemma steps_rank k f p j g q : steps mt E k f p -> steps mt E j g q -> (j < k)%nat -> (rank g < rank f)%nat.
  Proof.
    intros S G L. destruct (steps_before k f p S j) as (g' & q' & G' & R); [lia|].
    destruct (steps_fun _ _ _ G _ _ G') as [Eg _]. rewrite Eg. auto.
  Qed.
  Lemma steps_index k f p j q : steps mt E k f p -> steps mt E j f q -> k = j /\ p = q.
  Proof.
    intros S G. assert (k = j).
    { destruct (Nat.lt_trichotomy k j) as [L|[L|L]]; auto.
      - pose proof (steps_rank _ _ _ _ _ _ G S L). lia.
      - pose proof (steps_rank _ _ _ _ _ _ S G L). lia. }
    subst j. destruct (steps_fun _ _ _ S _ _ G). auto.
  Qed.
  (** two fields with a link to the same field *)
  Lemma steps_pred k f p j g q l l' : steps mt E k f p -> steps mt E j g q ->
    In l (m_links mt) -> In l' (m_links mt) -> source l = f -> source l' = g -> target l = target l' ->
    eval E (condition l) = Some (VBool true) -> eval E (condition l') = Some (VBool true) -> f = g.
  Proof.
    intros S G I I' Hf Hg Ht C C'. subst f g.
    destruct LE as [EI _].
    destruct (EI (NAttr ASize (source l))) as [z Z]. destruct (EI (NAttr ASize (source l'))) as [z' Z'].
    pose proof (steps_S mt E k p l z S I C Z) as A. pose proof (steps_S mt E j q l' z' G I' C' Z') as B.
    rewrite <- Ht in B. destruct (steps_index _ _ _ _ _ A B) as [K _].
    assert (k = j) by lia. subst j. now destruct (steps_fun _ _ _ S _ _ G).
  Qed.
End Walk.

(** ** The graph functions *)

Ltac binds H := repeat match type of H with
  | bind ?r _ = Ok _ => let x := fresh "x" in let E := fresh "B" in
                        destruct r as [x|] eqn:E; cbn [bind] in H; [|discriminate H]
  end.

Lemma upd_same {A} (m : field -> A) x v : upd m x v x = v.
Proof. unfold upd. now rewrite String.eqb_refl. Qed.
Lemma upd_other {A} (m : field -> A) x v y : y <> x -> upd m x v y = m y.
Proof. unfold upd. intros N. destruct (String.eqb_spec y x); congruence. Qed.
Lemma set_tv_same st f v : fields (set_tv st f v) f = mkField v (first (fields st f)).
Proof. apply upd_same. Qed.
Lemma set_tv_other st f v g : g <> f -> fields (set_tv st f v) g = fields st g.
Proof. apply upd_other. Qed.
Lemma set_first_same st f p : fields (set_first st f p) f = mkField (tv (fields st f)) p.
Proof. apply upd_same. Qed.
Lemma set_first_other st f p g : g <> f -> fields (set_first st f p) g = fields st g.
Proof. apply upd_other. Qed.

Section Graph.
  Variables (n : nat) (mt : mtype).

  Lemma in_outgoing l f : In l (outgoing_ mt f) <-> In l (m_links mt) /\ source l = f.
  Proof. unfold outgoing_, outgoing. rewrite filter_In, String.eqb_eq. tauto. Qed.
  Lemma in_incoming l f : In l (incoming_ mt f) <-> In l (m_links mt) /\ target l = f.
  Proof. unfold incoming_, incoming. rewrite filter_In, String.eqb_eq. tauto. Qed.

  Lemma first_holding_in m : forall ls f, first_holding n mt m ls = Ok f -> f <> "" ->
    exists l, In l ls /\ target l = f /\ holds n mt m (condition l) = Ok true.
  Proof.
    induction ls as [|l t IH]; intros f H Nf; cbn in H; [apply Ok_inj in H; congruence|].
    destruct (holds n mt m (condition l)) as [b|] eqn:B; cbn [bind] in H; [|discriminate].
    destruct b.
    - apply Ok_inj in H. exists l. cbn. auto.
    - destruct (IH f H Nf) as (l' & I & R). exists l'. cbn. auto.
  Qed.
  (** the field found by _next_field is the target of a link whose condition holds *)
  Lemma next_link rank m f g : tidy mt rank -> In f (INITIAL :: m_fields mt) ->
    next_field n mt m f = Ok g -> g <> "" ->
    exists l, In l (m_links mt) /\ source l = f /\ target l = g /\ holds n mt m (condition l) = Ok true.
  Proof.
    intros T If H Ng. unfold next_field in H.
    destruct (String.eqb_spec f FINAL) as [Ef|Nf]; [apply Ok_inj in H; congruence|].
    destruct (String.eqb_spec f INITIAL) as [Ei|Ni].
    - destruct (t_initial _ _ T) as (l & O & C). unfold outgoing_ in H. rewrite O in H. apply Ok_inj in H.
      exists l. assert (I : In l (outgoing_ mt INITIAL)) by (unfold outgoing_; rewrite O; now left).
      apply in_outgoing in I as [I S]. rewrite C. repeat split; congruence.
    - destruct (first_holding_in m _ _ H Ng) as (l & I & Tl & Hl). apply in_outgoing in I as [I S].
      exists l. auto.
  Qed.
  Lemma next_rank rank m f g : tidy mt rank -> In f (INITIAL :: m_fields mt) ->
    next_field n mt m f = Ok g -> g <> "" -> (rank f < rank g)%nat /\ (g <> FINAL -> In g (m_fields mt)).
  Proof.
    intros T If H Ng. destruct (next_link rank m f g T If H Ng) as (l & I & Sl & Tl & _).
    pose proof (t_rank _ _ T l I) as R. pose proof (t_target _ _ T l I) as Tg. rewrite Sl, Tl in R.
    rewrite Tl in Tg. split; [exact R|]. intros NF. destruct Tg; congruence.
  Qed.

  Lemma prev_candidates (st : mvalue) : forall ls ps,
    mapr (fun l => bind (holds n mt (mapping st) (condition l)) (fun b => Ok (if b then [source l] else []))) ls = Ok ps ->
    forall g, In g (concat ps) <-> exists l, In l ls /\ source l = g /\ holds n mt (mapping st) (condition l) = Ok true.
  Proof.
    induction ls as [|l t IH]; intros ps H g; cbn [mapr] in H.
    - apply Ok_inj in H. subst. cbn. split; [contradiction|]. intros (l & [] & _).
    - destruct (holds n mt (mapping st) (condition l)) as [b|] eqn:B; cbn [bind] in H; [|discriminate].
      match type of H with bind ?r _ = _ => destruct r as [rest|] eqn:R end; cbn [bind] in H; [|discriminate].
      apply Ok_inj in H. subst ps. cbn [concat]. rewrite in_app_iff, (IH rest eq_refl g). cbn [In]. split.
      + intros [I|(l' & I & X)].
        * destruct b; [|destruct I]. destruct I as [<-|[]]. exists l. auto.
        * exists l'. tauto.
      + intros (l' & [<-|I] & S & X).
        * left. rewrite X in B. apply Ok_inj in B. subst b. now left.
        * right. exists l'. auto.
  Qed.
  (** _prev_field: the source of a link that holds, or an accessible one *)
  Lemma prev_spec st f g : prev_field n mt st f = Ok g -> g <> "" -> 
    (exists l, In l (m_links mt) /\ source l = g /\ target l = f /\ holds n mt (mapping st) (condition l) = Ok true) /\
    (In g (accessible st) \/
     forall l, In l (m_links mt) -> target l = f -> holds n mt (mapping st) (condition l) = Ok true -> source l = g).
  Proof.
    intros H Ng. unfold prev_field in H.
    destruct (String.eqb_spec f INITIAL) as [Ef|Nf]; [apply Ok_inj in H; congruence|].
    match type of H with bind ?r _ = _ => destruct r as [ps|] eqn:R end; cbn [bind] in H; [|discriminate].
    pose proof (prev_candidates st _ _ R) as C.
    assert (K : forall l', concat ps = l' -> Ok (match find (fun g => memf g (accessible st)) l' with Some g => g | None => "" end) = Ok g ->
      In g (concat ps) /\ In g (accessible st)).
    { intros l' El X. apply Ok_inj in X. destruct (find _ l') as [h|] eqn:F; [|congruence]. subst h.
      apply find_some in F as [I M]. rewrite memf_iff in M. now rewrite El. }
    assert (G : (In g (concat ps) /\ In g (accessible st)) \/ concat ps = [g]).
    { destruct (concat ps) as [|a [|b r]] eqn:L.
      - left. now apply (K []).
      - right. apply Ok_inj in H. now subst a.
      - left. now apply (K (a :: b :: r)). }
    destruct G as [[I A]|L].
    - split; [|now left]. apply C in I as (l & I & S & Hl). apply in_incoming in I as [I Tl]. exists l. auto.
    - split.
      + assert (I : In g (concat ps)) by (rewrite L; now left).
        apply C in I as (l & I & S & Hl). apply in_incoming in I as [I Tl]. exists l. auto.
      + right. intros l I Tl Hl. assert (X : In (source l) (concat ps)).
        { apply C. exists l. split; [now apply in_incoming|auto]. }
        rewrite L in X. destruct X as [X|[]]. auto.
  Qed.

  (** without overlays *)
  Lemma get_first_spec rank st f p : tidy mt rank -> get_first n mt st f = Ok (Some p) ->
    exists g x z, prev_field n mt st f = Ok g /\ g <> "" /\ first (fields st g) = Some x /\
      size_of mt st g = Some z /\ p = x + z.
  Proof.
    intros T H. unfold get_first in H.
    assert (O : forall ls o, (forall l, In l ls -> lfirst l = None) -> link_first n mt st ls o = o).
    { induction ls as [|l t IH]; intros o HL; [reflexivity|]. cbn. rewrite (HL l) by now left. apply IH.
      intros l' I. apply HL. now right. }
    rewrite O in H.
    2:{ intros l I. apply in_incoming in I as [I _]. now apply (t_first _ _ T). }
    destruct (prev_field n mt st f) as [g|] eqn:P; cbn [bind] in H; [|discriminate].
    destruct (String.eqb_spec g "") as [E|Ng]; [discriminate|].
    destruct (first (fields st g)) as [x|] eqn:X; [|discriminate].
    destruct (size_of mt st g) as [z|] eqn:Z; [|discriminate].
    exists g, x, z. apply Ok_inj in H. injection H as <-. auto.
  Qed.

  Lemma link_size_spec st : forall ls z, link_size n mt st ls = Ok (Some z) ->
    exists l, In l ls /\ is_set mt st (source l) = true /\ holds n mt (mapping st) (condition l) = Ok true.
  Proof.
    induction ls as [|l t IH]; intros z H; cbn in H; [discriminate|].
    assert (K : link_size n mt st t = Ok (Some z) -> exists l', In l' (l :: t) /\ is_set mt st (source l') = true /\
      holds n mt (mapping st) (condition l') = Ok true).
    { intros X. destruct (IH z X) as (l' & I & R). exists l'. cbn. tauto. }
    destruct (is_set mt st (source l)) eqn:S; [|auto]. destruct (lsize l) as [e|]; [|auto].
    destruct (holds n mt (mapping st) (condition l)) as [b|] eqn:B; cbn [bind] in H; [|discriminate].
    destruct b; [|auto]. exists l. cbn. auto.
  Qed.
  Lemma link_size_ext st st' : mapping st' = mapping st -> forall ls,
    (forall l, In l ls -> is_set mt st' (source l) = is_set mt st (source l)) ->
    link_size n mt st' ls = link_size n mt st ls.
  Proof.
    intros M. induction ls as [|l t IH]; intros H; cbn; [reflexivity|].
    rewrite (H l) by now left. rewrite IH by (intros; apply H; now right). now rewrite M.
  Qed.
  Lemma get_size_ext st st' f : mapping st' = mapping st ->
    (forall l, In l (m_links mt) -> is_set mt st' (source l) = is_set mt st (source l)) ->
    get_size n mt st' f = get_size n mt st f.
  Proof.
    intros M H. unfold get_size. destruct (typ mt f); auto; apply link_size_ext; auto;
      intros l I; apply in_incoming in I as [I _]; auto.
  Qed.
End Graph.

(** ** What is left alone *)

Section Frame.
  Variables (n : nat) (mt : mtype) (refs : list refinement) (inner : bool -> string -> bits -> res bits).
  Variable rank : field -> nat.
  Hypothesis T : tidy mt rank.

  Lemma preset_loop_frame : forall k st nxt acc st' r, In nxt (FINAL :: "" :: m_fields mt) ->
    preset_loop n mt k st nxt acc = (st', r) ->
    mapping st' = mapping st /\ accessible st' = accessible st /\
    forall g, (rank g < rank nxt)%nat -> fields st' g = fields st g.
  Proof.
    induction k as [|k IH]; intros st nxt acc st' r I H; cbn [preset_loop] in H.
    - destruct (String.eqb nxt "" || String.eqb nxt FINAL); injection H as <- _; auto.
    - destruct (String.eqb_spec nxt "") as [E|N]; cbn [orb] in H; [injection H as <- _; auto|].
      destruct (String.eqb_spec nxt FINAL) as [E|NF]; [injection H as <- _; auto|].
      assert (If : In nxt (m_fields mt)) by (destruct I as [<-|[<-|I]]; congruence). clear I.
      destruct (get_first n mt st nxt) as [[p|]|w]; destruct (get_size n mt st nxt) as [size|w'];
        try (injection H as <- _; auto; fail).
      match type of H with (match ?a with _ => _ end) = _ => destruct a as [b|w] end;
        [|injection H as <- _; auto].
      destruct size as [z|]; [|injection H as <- _; auto].
      set (st1 := set_first st nxt (Some p)) in *.
      set (st2 := if is_opaque (tv (fields st1 nxt)) then set_tv st1 nxt (set_expected (tv (fields st1 nxt)) z)
                  else st1) in *.
      assert (F2 : mapping st2 = mapping st /\ accessible st2 = accessible st /\
        forall g, g <> nxt -> fields st2 g = fields st g).
      { unfold st2, st1. destruct (is_opaque _); (split; [reflexivity|split; [reflexivity|]]); intros g Ng.
        - rewrite set_tv_other by exact Ng. now rewrite set_first_other.
        - now rewrite set_first_other. }
      destruct F2 as (M2 & A2 & F2).
      assert (Lt : forall g, (rank g < rank nxt)%nat -> fields st2 g = fields st g).
      { intros g L. apply F2. intros ->. lia. }
      destruct (is_set mt st2 nxt && is_opaque (tv (fields st2 nxt))).
      + injection H as <- _. split; [exact M2|]. split; [exact A2|]. intros g L.
        rewrite set_tv_other by (intros ->; lia). rewrite set_first_other by (intros ->; lia). auto.
      + destruct (next_field n mt (mapping st2) nxt) as [nxt'|w] eqn:Nx.
        * destruct (String.eqb_spec nxt' "") as [E'|N'].
          -- subst nxt'. destruct k; cbn in H; injection H as <- _; auto.
          -- destruct (next_rank n mt rank _ _ _ T (or_intror If) Nx N') as [R In'].
             assert (I' : In nxt' (FINAL :: "" :: m_fields mt)).
             { destruct (String.eqb_spec nxt' FINAL) as [->|NF']; [now left|]. right; right; auto. }
             destruct (IH _ _ _ _ _ I' H) as (M & A & F). split; [congruence|]. split; [congruence|].
             intros g L. rewrite F by lia. auto.
        * injection H as <- _. auto.
  Qed.
  Lemma preset_frame st f st' r : In f (INITIAL :: m_fields mt) -> preset_fields n mt st f = (st', r) ->
    mapping st' = mapping st /\ forall g, (rank g <= rank f)%nat -> fields st' g = fields st g.
  Proof.
    intros If H. unfold preset_fields in H.
    destruct (next_field n mt (mapping st) f) as [nxt|w] eqn:Nx; [|injection H as <- _; auto].
    destruct (String.eqb_spec nxt "") as [E|N].
    - subst nxt. destruct n; cbn in H; injection H as <- _; cbn; auto.
    - destruct (next_rank n mt rank _ _ _ T If Nx N) as [R In'].
      assert (I' : In nxt (FINAL :: "" :: m_fields mt)).
      { destruct (String.eqb_spec nxt FINAL) as [->|NF']; [now left|]. right; right; auto. }
      destruct (preset_loop n mt n st nxt []) as [st1 r1] eqn:L.
      destruct (preset_loop_frame _ _ _ _ _ _ I' L) as (M & A & F).
      destruct r1; injection H as <- _; cbn; (split; [exact M|]); intros g Lg; apply F; lia.
  Qed.

  Lemma update_fields st st' : update_mapping n mt st = Ok st' -> fields st' = fields st /\ accessible st' = accessible st.
  Proof.
    unfold update_mapping. intros H. binds H. apply Ok_inj in H. subst st'. auto.
  Qed.

  (** a successful set: the steps of the function *)
  Lemma set_steps st f x st' : set n mt refs inner st f x = (st', Ok tt) ->
    In f (accessible st) /\ exists p size r v st4 st5,
      get_first n mt st f = Ok (Some p) /\ get_size n mt st f = Ok size /\
      tv_set n inner (typ mt f)
        (set_ref (match size with Some z => set_expected (tv (fields st f)) z | None => tv (fields st f) end) r) x = Ok v /\
      fields st4 f = mkField v (Some p) /\ (forall g, g <> f -> fields st4 g = fields st g) /\
      mapping st4 = mapping st /\ accessible st4 = accessible st /\
      update_mapping n mt st4 = Ok st5 /\ preset_fields n mt st5 f = (st', Ok tt).
  Proof.
    intros H. unfold set in H.
    destruct (memf f (accessible st)) eqn:A; cbn [negb] in H; [|discriminate]. apply memf_iff in A.
    split; [exact A|].
    destruct (get_first n mt st f) as [[p|]|] eqn:GF; destruct (get_size n mt st f) as [size|] eqn:GS; try discriminate.
    set (st1 := set_first st f (Some p)) in *.
    set (st2 := match size with Some z => set_tv st1 f (set_expected (tv (fields st1 f)) z) | None => st1 end) in *.
    assert (F2 : fields st2 f = mkField (match size with Some z => set_expected (tv (fields st f)) z
                                         | None => tv (fields st f) end) (Some p) /\
                 (forall g, g <> f -> fields st2 g = fields st g) /\ mapping st2 = mapping st /\
                 accessible st2 = accessible st).
    { unfold st2, st1. destruct size; (split; [|split; [|split; reflexivity]]).
      - rewrite set_tv_same, set_first_same. reflexivity.
      - intros g N. rewrite set_tv_other by exact N. now rewrite set_first_other.
      - now rewrite set_first_same.
      - intros g N. now rewrite set_first_other. }
    destruct F2 as (F2 & O2 & M2 & A2).
    destruct (find_refinement _ _ _ _ _ _) as [r|] eqn:FR; [|discriminate].
    destruct (tv_set _ _ _ _ _) as [v|] eqn:TV; [|discriminate].
    rewrite set_tv_same, F2 in TV. cbn [tv] in TV.
    match type of H with context [update_mapping n mt ?s] => set (st4 := s) in * end.
    destruct (update_mapping n mt st4) as [st5|] eqn:U; [|discriminate].
    destruct (all_false _ _ _ _) as [[|]|]; try discriminate.
    exists p, size, r, v, st4, st5. repeat (split; [first [reflexivity|assumption]|]).
    split. { unfold st4. now rewrite set_tv_same, set_tv_same, F2. }
    split. { intros g N. unfold st4. rewrite !set_tv_other by exact N. auto. }
    split; [exact M2|]. split; [exact A2|]. split; [exact U|exact H].
  Qed.
  Lemma set_frame st f x st' : In f (m_fields mt) -> set n mt refs inner st f x = (st', Ok tt) ->
    forall g, (rank g < rank f)%nat -> fields st' g = fields st g.
  Proof.
    intros If H g L. destruct (set_steps _ _ _ _ H) as (_ & p & size & r & v & st4 & st5 & _ & _ & _ & _ & O & _ & _ & U & P).
    destruct (preset_frame _ _ _ _ (or_intror If) P) as [_ F]. rewrite F by lia.
    destruct (update_fields _ _ U) as [-> _]. apply O. intros ->. lia.
  Qed.
  Lemma try_set_ok st f x st' : try_set n mt refs inner st f x = Ok st' -> set n mt refs inner st f x = (st', Ok tt).
  Proof.
    unfold try_set. destruct (set n mt refs inner st f x) as [s [[]|]]; intros H; [apply Ok_inj in H; now subst|discriminate].
  Qed.

  Lemma parse_loop_frame : forall k st b f last_pos pos st', In f (FINAL :: "" :: m_fields mt) ->
    parse_loop n mt refs inner k st b f last_pos pos = Ok st' ->
    forall g, (rank g < rank f)%nat -> fields st' g = fields st g.
  Proof.
    induction k as [|k IH]; intros st b f lp pos st' If H g L; cbn [parse_loop] in H.
    - destruct (String.eqb f FINAL); [apply Ok_inj in H; now subst|]. destruct (String.eqb f ""); discriminate.
    - destruct (String.eqb_spec f FINAL) as [E|NF]; [apply Ok_inj in H; now subst|].
      destruct (String.eqb_spec f "") as [E|N]; [discriminate|].
      assert (Ifm : In f (m_fields mt)) by (destruct If as [<-|[<-|I]]; congruence). clear If.
      assert (Go : forall st1 x f' p q, (forall g, g <> f -> fields st1 g = fields st g) ->
        try_set n mt refs inner st1 f x = Ok st' \/
        (exists st2, try_set n mt refs inner st1 f x = Ok st2 /\ next_field n mt (mapping st2) f = Ok f' /\
          parse_loop n mt refs inner k st2 b f' p q = Ok st') -> fields st' g = fields st g).
      { intros st1 x f' p q F1 [H1|(st2 & S & Nx & H1)].
        - apply try_set_ok in H1. rewrite (set_frame _ _ _ _ Ifm H1) by exact L. apply F1. intros ->. lia.
        - apply try_set_ok in S.
          assert (X : fields st2 g = fields st g).
          { rewrite (set_frame _ _ _ _ Ifm S) by exact L. apply F1. intros ->. lia. }
          rewrite <- X. destruct (String.eqb_spec f' "") as [E'|N'].
          + subst f'. destruct k; cbn in H1; discriminate.
          + destruct (next_rank n mt rank _ _ _ T (or_intror Ifm) Nx N') as [R In'].
            apply (IH st2 b f' p q st'); [|exact H1|lia].
            destruct (String.eqb_spec f' FINAL) as [->|NF']; [now left|]. right; right; auto. }
      binds H. destruct x as [z|], (is_opaque (tv (fields st f))); try discriminate H; binds H.
      + destruct (z <? 0); [discriminate|]. binds H. eapply Go; [reflexivity|]. right. eexists. split; [eassumption|].
        split; [eassumption|exact H].
      + destruct (z <? 0); [discriminate|]. binds H. eapply Go; [reflexivity|]. right. eexists. split; [eassumption|].
        split; [eassumption|exact H].
      + destruct x0 as [q|]; [|discriminate]. binds H.
        eapply Go; [|right; eexists; split; [eassumption|split; [eassumption|exact H]]].
        intros h Nh. now rewrite set_first_other.
  Qed.
End Frame.

(** ** Worlds *)

Section World.
  Variables (mt : mtype) (rank : field -> nat).
  Hypothesis T : tidy mt rank.

  Lemma literal_in x z : literal mt x = Some z -> exists k, In (k, z) (type_literals mt) /\ var k = x.
  Proof.
    unfold literal. destruct (find _ _) as [[k v]|] eqn:F; [|discriminate]. intros H. injection H as <-.
    apply find_some in F as [I E]. apply in_rev in I. apply String.eqb_eq in E. exists k. auto.
  Qed.

  Definition lit_value (x : string) : Z := match literal mt x with Some z => z | None => 0 end.
  Definition opt0 (o : option Z) : Z := match o with Some z => z | None => 0 end.
  (** a world for every message value *)
  Definition world (st : mvalue) : env := fun x => VInt
    match x with
    | NVar f => if memf f (m_fields mt) then
                  match tv (fields st f) with
                  | VScalar (Some (SInt z)) => z
                  | VScalar (Some (SEnum s _)) => lit_value (lower s)
                  | _ => 0
                  end
                else lit_value f
    | NAttr AFirst f => opt0 (first (fields st f))
    | NAttr ASize f => opt0 (size_of mt st f)
    | NAttr ALast f => opt0 (last mt st f)
    | NAttr ALength _ => 0
    end.

  (** the texts of enumeration values are not names of fields *)
  Definition texts (st : mvalue) : Prop := forall f s z, In f (m_fields mt) ->
    tv (fields st f) = VScalar (Some (SEnum s z)) ->
    ~ In (lower s) (m_fields mt) /\ lower s <> "message" /\ lower s <> INITIAL.

  Lemma memf_false f l : ~ In f l -> memf f l = false.
  Proof. intros N. destruct (memf f l) eqn:M; [|reflexivity]. apply memf_iff in M. contradiction. Qed.
  Lemma world_describes st : texts st -> describes mt st (world st).
  Proof.
    intros TX. constructor.
    - split.
      + intros x. eexists. reflexivity.
      + intros k v I. destruct (t_literal _ _ T k v I) as (L & N & _). unfold world.
        rewrite memf_false by exact N. unfold lit_value. now rewrite L.
    - intros f z I V. unfold world. apply memf_iff in I. now rewrite I, V.
    - intros f s z I V. destruct (TX f s z I V) as (N & _). unfold world. pose proof I as M. apply memf_iff in M.
      rewrite M, V. rewrite memf_false by exact N. reflexivity.
    - intros f p _ V. unfold world. now rewrite V.
    - intros f p _ V. unfold world. now rewrite V.
    - intros f p z _ V Z. unfold world, last. now rewrite V, Z.
  Qed.

  Lemma fits_fields st E m : texts st -> is_opaque (tv (fields st INITIAL)) = true -> describes mt st E ->
    (forall x, plain_name x -> m x = field_mapping mt st x) -> fits mt E m.
  Proof.
    intros TX TI D Hm x e P H. unfold subst in H. rewrite (Hm x P) in H.
    destruct (field_mapping mt st x) as [e'|] eqn:F.
    - injection H as ->. unfold field_mapping in F.
      destruct P as [P1 P2].
      set (f := match x with NVar x | NAttr _ x => x end) in *.
      assert (Ef : f = name_id x) by (unfold f; destruct x; reflexivity).
      destruct (memf f (INITIAL :: m_fields mt)) eqn:M.
      + apply memf_iff in M.
        assert (Mf : In f (m_fields mt)) by (destruct M as [M|M]; [congruence|exact M]).
        destruct x as [y|a y]; cbn in f; subst f.
        * destruct (tv (fields st y)) as [[v|]| | |] eqn:V; try discriminate.
          destruct (is_set mt st y); [|discriminate]. injection F as <-. destruct v as [z|s z].
          -- cbn. split; [left; eauto|]. split; [|discriminate]. now rewrite (d_int _ _ _ D _ _ Mf V).
          -- destruct (TX _ _ _ Mf V) as (N & Nm & Ni). cbn. split; [right; eauto|]. split.
             ++ now rewrite (d_enum _ _ _ D _ _ _ Mf V).
             ++ intros w W. injection W as <-. split; cbn; assumption.
        * assert (K : forall o, num_expr o = Some e -> (forall z, o = Some z -> E (NAttr a y) = VInt z) ->
            leaf e /\ eval E e = Some (E (NAttr a y)) /\ forall w, e = EVar w -> plain_name (NVar w)).
          { intros [z|] X Y; [|discriminate]. injection X as <-. rewrite (Y z eq_refl). cbn.
            split; [left; eauto|]. split; [reflexivity|discriminate]. }
          destruct a; try discriminate F.
          -- assert (G : num_expr (size_of mt st y) = Some e).
             { unfold size_of. destruct (typ mt y) eqn:Ty; try (destruct (is_set mt st y); [|discriminate];
                 unfold size_of in F; rewrite Ty in F; exact F). exact F. }
             apply (K _ G). intros z Z. now apply (d_size _ _ _ D).
          -- apply (K _ F). intros z Z. now apply (d_first _ _ _ D).
          -- apply (K _ F). intros z Z. unfold last in Z.
             destruct (first (fields st y)) as [p|] eqn:Fp; [|discriminate]. destruct (size_of mt st y) as [w|] eqn:Fw; [|discriminate].
             injection Z as <-. now apply (d_last _ _ _ D).
      + destruct x as [y|[] y]; try discriminate. cbn in f. subst f.
        destruct (String.eqb_spec y "message") as [Ey|]; [|discriminate]. cbn in P1. congruence.
    - destruct x as [y|]; [|discriminate]. destruct (literal mt y) as [z|] eqn:L; [|discriminate].
      injection H as <-. destruct (literal_in _ _ L) as (k & I & Ek). cbn. split; [left; eauto|].
      split; [|discriminate]. destruct (d_literals _ _ _ D) as [_ DL]. rewrite <- Ek. now rewrite (DL _ _ I).
  Qed.
  Lemma update_plain n st st' : update_mapping n mt st = Ok st' ->
    forall x, plain_name x -> mapping st' x = field_mapping mt st x.
  Proof.
    unfold update_mapping. intros H x [P _]. binds H. apply Ok_inj in H. subst st'. cbn [mapping].
    destruct x1; [|reflexivity]. destruct x as [|[] y]; try reflexivity;
      (destruct (String.eqb_spec y "message") as [Ey|]; [cbn in P; congruence|reflexivity]).
  Qed.
  Lemma fits_initial E st : describes mt st E -> fits mt E initial_mapping.
  Proof.
    intros D x e [P1 P2] H. unfold subst in H.
    assert (N : initial_mapping x = None).
    { destruct x as [y|[] y]; cbn in *; try reflexivity;
        (destruct (String.eqb_spec y INITIAL); [congruence|]); try reflexivity.
      destruct (String.eqb_spec y "message"); [congruence|reflexivity]. }
    rewrite N in H. destruct x as [y|]; [|discriminate]. destruct (literal mt y) as [z|] eqn:L; [|discriminate].
    injection H as <-. destruct (literal_in _ _ L) as (k & I & Ek). cbn. split; [left; eauto|].
    split; [|discriminate]. destruct (d_literals _ _ _ D) as [_ DL]. rewrite <- Ek. now rewrite (DL _ _ I).
  Qed.

  (** in a described world, a condition that the message value finds TRUE is true *)
  Lemma link_true n E m l : literal_env mt E -> fits mt E m -> In l (m_links mt) ->
    holds n mt m (condition l) = Ok true -> eval E (condition l) = Some (VBool true).
  Proof.
    intros LE F I H. destruct (t_defined _ _ T l E I LE) as [b B].
    pose proof (holds_true n mt E m (condition l) (VBool b) (proj1 LE) F (t_ok _ _ T l I)
                  (fun x => t_plain _ _ T l x I) H B) as X. now rewrite B, X.
  Qed.
End World.

(** ** Message values built from front to back *)

Section Front.
  Variables (n : nat) (mt : mtype) (rank : field -> nat).
  Hypothesis T : tidy mt rank.

  (** what is known stays known *)
  Definition grows (st st' : mvalue) : Prop := forall f, In f (INITIAL :: m_fields mt) ->
    (forall p, first (fields st f) = Some p -> first (fields st' f) = Some p) /\
    (forall z, size_of mt st f = Some z -> size_of mt st' f = Some z) /\
    (forall v, tv (fields st f) = VScalar (Some v) -> tv (fields st' f) = VScalar (Some v)).
  Lemma grows_refl st : grows st st.
  Proof. intros f _. auto. Qed.
  Lemma grows_trans a b c : grows a b -> grows b c -> grows a c.
  Proof. intros X Y f I. destruct (X f I) as (A & B & C), (Y f I) as (A' & B' & C'). auto. Qed.
  Lemma grows_describes st st' E : grows st st' -> describes mt st' E -> describes mt st E.
  Proof.
    intros G D. constructor.
    - apply (d_literals _ _ _ D).
    - intros f z I V. apply (d_int _ _ _ D); [exact I|]. now apply (G f (or_intror I)).
    - intros f s z I V. apply (d_enum _ _ _ D f s z I). now apply (G f (or_intror I)).
    - intros f p I V. apply (d_first _ _ _ D); [exact I|]. now apply (G f I).
    - intros f p I V. apply (d_size _ _ _ D); [exact I|]. now apply (G f I).
    - intros f p z I V Z. destruct (G f I) as (A & B & _). apply (d_last _ _ _ D); auto.
  Qed.

  Definition reached (st : mvalue) (f : field) : Prop := forall E, describes mt st E -> exists k p, steps mt E k f p.

  (** [fs] are the fields set so far *)
  Record inv (fs : list field) (st : mvalue) : Prop := {
    v_initial : fields st INITIAL = mkField (VOpaque None None None (Some [])) (Some 0);
    v_fields : forall f, In f fs -> In f (m_fields mt) /\ is_set mt st f = true;
    v_unset : forall f, In f (m_fields mt) -> ~ In f fs ->
      tv (fields st f) = construct_tval (m_types mt f) \/
      exists z, m_types mt f = FOpaque /\ tv (fields st f) = VOpaque (Some z) None None None /\
        get_size n mt st f = Ok (Some z);
    v_texts : texts mt st;
    v_map : forall E, describes mt st E -> fits mt E (mapping st);
    v_first : forall E f p, describes mt st E -> In f (m_fields mt) -> first (fields st f) = Some p ->
      exists k, steps mt E k f p;
    v_acc : forall f, In f (accessible st) -> reached st f;
    v_path : forall E i f, describes mt st E -> nth_error (INITIAL :: fs) i = Some f -> exists p, steps mt E i f p
  }.

  Lemma typ_field f : In f (m_fields mt) -> typ mt f = m_types mt f.
  Proof.
    intros I. unfold typ. destruct (String.eqb_spec f INITIAL) as [E|]; [|reflexivity].
    destruct (t_names _ _ T f I) as (_ & _ & N & _). contradiction.
  Qed.
  Lemma typ_initial : typ mt INITIAL = FOpaque.
  Proof. reflexivity. Qed.
  Lemma initial_ne f : In f (m_fields mt) -> f <> INITIAL.
  Proof. intros I. now destruct (t_names _ _ T f I) as (_ & _ & N & _). Qed.

  Section Inv.
    Variables (fs : list field) (st : mvalue).
    Hypothesis V : inv fs st.

    Lemma inv_world : describes mt st (world mt st).
    Proof. apply (world_describes _ _ T). apply (v_texts _ _ V). Qed.
    Lemma inv_initial_size : size_of mt st INITIAL = Some 0.
    Proof. unfold size_of. rewrite typ_initial, (v_initial _ _ V). reflexivity. Qed.
    Lemma inv_initial_set : is_set mt st INITIAL = true.
    Proof. unfold is_set. rewrite inv_initial_size, (v_initial _ _ V). reflexivity. Qed.
    (** fields that are not set, whatever their position is *)
    Lemma inv_unset f : In f (m_fields mt) -> ~ In f fs ->
      initialized (tv (fields st f)) = false \/ size_of mt st f = None.
    Proof.
      intros I N. destruct (v_unset _ _ V f I N) as [E|(z & Ty & E & _)].
      - unfold size_of. rewrite E, (typ_field f I). destruct (m_types mt f); cbn; auto.
      - rewrite E. now left.
    Qed.
    Lemma inv_unset_set f p : In f (m_fields mt) -> ~ In f fs -> is_set mt (set_first st f p) f = false.
    Proof.
      intros I N. unfold is_set, size_of. rewrite set_first_same. cbn [tv first].
      destruct (inv_unset f I N) as [E|E].
      - now rewrite E.
      - unfold size_of in E. rewrite E. now rewrite andb_false_r.
    Qed.
    Lemma inv_not_set f : In f (m_fields mt) -> ~ In f fs -> is_set mt st f = false.
    Proof.
      intros I N. unfold is_set. destruct (inv_unset f I N) as [E|E]; rewrite E; [reflexivity|].
      now rewrite andb_false_r.
    Qed.
    Lemma inv_set_in f : In f (INITIAL :: m_fields mt) -> is_set mt st f = true -> In f (INITIAL :: fs).
    Proof.
      intros [<-|I] H; [now left|]. right. destruct (in_dec string_dec f fs) as [Y|N]; [exact Y|].
      rewrite (inv_not_set f I N) in H. discriminate.
    Qed.
    Lemma inv_path_in f E : In f (INITIAL :: fs) -> describes mt st E -> exists i p,
      nth_error (INITIAL :: fs) i = Some f /\ steps mt E i f p.
    Proof.
      intros I D. apply In_nth_error in I as [i I]. destruct (v_path _ _ V E i f D I) as [p P]. eauto.
    Qed.
    Lemma inv_path_field f : In f (INITIAL :: fs) -> In f (INITIAL :: m_fields mt).
    Proof. intros [<-|I]; [now left|right; now apply (v_fields _ _ V)]. Qed.
    (** the position of a set field is that of the walk *)
    Lemma inv_steps f p E : In f (INITIAL :: fs) -> describes mt st E -> first (fields st f) = Some p ->
      exists k, steps mt E k f p.
    Proof.
      intros [<-|I] D F.
      - rewrite (v_initial _ _ V) in F. injection F as <-. exists 0%nat. constructor.
      - apply (v_first _ _ V); auto. now apply (v_fields _ _ V).
    Qed.
    Lemma inv_link E l : describes mt st E -> In l (m_links mt) ->
      holds n mt (mapping st) (condition l) = Ok true -> eval E (condition l) = Some (VBool true).
    Proof.
      intros D I H. apply (link_true _ _ T n E (mapping st) l); auto.
      - apply (d_literals _ _ _ D).
      - now apply (v_map _ _ V).
    Qed.
    (** the predecessor found by _prev_field is the one we come from *)
    Lemma inv_prev l c g : In l (m_links mt) -> source l = c -> reached st c ->
      holds n mt (mapping st) (condition l) = Ok true -> prev_field n mt st (target l) = Ok g -> g <> "" -> g = c.
    Proof.
      intros I Sl Rc H P Ng. pose proof inv_world as D. pose proof (inv_link _ l D I H) as C.
      destruct (prev_spec n mt st _ g P Ng) as [(l' & I' & Sl' & Tl' & H') O].
      pose proof (inv_link _ l' D I' H') as C'.
      destruct O as [A|U].
      - destruct (v_acc _ _ V g A _ D) as (k & p & K). destruct (Rc _ D) as (j & q & J).
        eapply (steps_pred mt rank _ T (d_literals _ _ _ D)); [exact K|exact J|exact I'|exact I|exact Sl'|exact Sl|exact Tl'|exact C'|exact C].
      - rewrite <- (U l I eq_refl H). exact Sl.
    Qed.
    Lemma inv_get_first l c p : In l (m_links mt) -> source l = c -> reached st c ->
      holds n mt (mapping st) (condition l) = Ok true -> get_first n mt st (target l) = Ok (Some p) ->
      exists x z, first (fields st c) = Some x /\ size_of mt st c = Some z /\ p = x + z.
    Proof.
      intros I Sl Rc H G. destruct (get_first_spec n mt rank st _ p T G) as (g & x & z & P & Ng & F & Z & E).
      rewrite (inv_prev l c g I Sl Rc H P Ng) in *. eauto.
    Qed.
    (** one step further *)
    Lemma inv_next E l k c x z : describes mt st E -> In l (m_links mt) -> source l = c ->
      holds n mt (mapping st) (condition l) = Ok true -> In c (INITIAL :: m_fields mt) -> steps mt E k c x ->
      size_of mt st c = Some z -> steps mt E (S k) (target l) (x + z).
    Proof.
      intros D I Sl H Ic Sc Z. subst c. apply steps_S; auto.
      - now apply inv_link.
      - now apply (d_size _ _ _ D).
    Qed.
    (** only the field after the last one set has a declared size *)
    Lemma inv_sized f l c z : In l (m_links mt) -> source l = c -> target l = f -> reached st c ->
      holds n mt (mapping st) (condition l) = Ok true -> typ mt f = FOpaque ->
      get_size n mt st f = Ok (Some z) -> In c (INITIAL :: fs).
    Proof.
      intros I Sl Tl Rc H Ty G. pose proof inv_world as D. unfold get_size in G. rewrite Ty in G.
      destruct (link_size_spec n mt st _ z G) as (l' & I' & S' & H'). apply in_incoming in I' as [I' Tl'].
      pose proof (inv_set_in _ (t_source _ _ T l' I') S') as A.
      destruct (inv_path_in _ _ A D) as (i & p & _ & P). destruct (Rc _ D) as (j & q & Q).
      assert (Eq : source l' = c).
      { eapply (steps_pred mt rank _ T (d_literals _ _ _ D)); [exact P|exact Q|exact I'|exact I|reflexivity|exact Sl|congruence|now apply inv_link|now apply inv_link]. }
      now rewrite <- Eq.
    Qed.
  End Inv.

  Lemma is_set_ext st st' g : fields st' g = fields st g -> is_set mt st' g = is_set mt st g.
  Proof. intros E. unfold is_set, size_of. now rewrite E. Qed.
  Lemma size_of_ext st st' g : fields st' g = fields st g -> size_of mt st' g = size_of mt st g.
  Proof. intros E. unfold size_of. now rewrite E. Qed.

  Lemma reached_grows st st' f : grows st st' -> reached st f -> reached st' f.
  Proof. intros G R E D. apply R. eapply grows_describes; eauto. Qed.

  (** changes of a field that is not set *)
  Lemma inv_touch fs st f st' : inv fs st -> In f (m_fields mt) -> ~ In f fs ->
    (forall g, g <> f -> fields st' g = fields st g) -> mapping st' = mapping st -> accessible st' = accessible st ->
    (forall p, first (fields st' f) = Some p -> forall E, describes mt st E -> exists k, steps mt E k f p) ->
    (forall p, first (fields st f) = Some p -> first (fields st' f) <> None) ->
    (tv (fields st' f) = tv (fields st f) \/
     exists z, m_types mt f = FOpaque /\ tv (fields st' f) = VOpaque (Some z) None None None /\
       get_size n mt st f = Ok (Some z)) ->
    inv fs st' /\ grows st st'.
  Proof.
    intros V If Nf O M A P PN TV. pose proof (inv_world _ _ V) as D.
    assert (Ni : f <> INITIAL) by now apply initial_ne.
    assert (Tf : typ mt f = m_types mt f) by now apply typ_field.
    assert (Un : is_set mt st' f = false).
    { unfold is_set, size_of. destruct TV as [E|(z & Ty & E & _)]; rewrite E; [|reflexivity].
      destruct (inv_unset _ _ V f If Nf) as [X|X]; [now rewrite X|]. unfold size_of in X. rewrite X.
      now rewrite andb_false_r. }
    assert (IS : forall g, is_set mt st' g = is_set mt st g).
    { intros g. destruct (string_dec g f) as [->|N]; [|apply is_set_ext; auto].
      rewrite Un. symmetry. now apply (inv_not_set fs). }
    assert (GS : forall g, get_size n mt st' g = get_size n mt st g) by (intros g; now apply get_size_ext).
    assert (G : grows st st').
    { intros g Ig. destruct (string_dec g f) as [->|N].
      2:{ unfold size_of. rewrite (O g N). auto. }
      split; [|split].
      - intros p Hp. destruct (first (fields st' f)) as [q|] eqn:Q; [|exfalso; now apply (PN p Hp)].
        destruct (v_first _ _ V _ f p D If Hp) as [k K]. destruct (P q eq_refl _ D) as [j J].
        destruct (steps_index _ _ _ T (d_literals _ _ _ D) _ _ _ _ _ K J) as [_ E]. congruence.
      - intros z Hz. unfold size_of in *. destruct TV as [E|(z' & Ty & E & S)]; [now rewrite E|].
        rewrite E, Tf, Ty. cbn. rewrite Tf, Ty in Hz.
        destruct (v_unset _ _ V f If Nf) as [X|(z'' & _ & X & S')]; rewrite X in Hz; [rewrite Ty in Hz; discriminate|].
        cbn in Hz. congruence.
      - intros v Hv. destruct TV as [E|(z & Ty & E & _)]; [now rewrite E|].
        destruct (v_unset _ _ V f If Nf) as [X|(z'' & _ & X & S')]; rewrite X in Hv; [rewrite Ty in Hv|]; discriminate. }
    split; [|exact G]. constructor.
    - rewrite (O INITIAL) by auto. apply (v_initial _ _ V).
    - intros g Ig. rewrite IS. now apply (v_fields _ _ V).
    - intros g Ig Ng. destruct (string_dec g f) as [->|N].
      + destruct TV as [E|(z & Ty & E & S)].
        * rewrite E, GS. now apply (v_unset _ _ V).
        * right. exists z. rewrite GS. auto.
      + rewrite (O g N), GS. now apply (v_unset _ _ V).
    - intros g s z Ig H. destruct (string_dec g f) as [->|N].
      + exfalso. destruct TV as [E|(z' & Ty & E & _)]; [|congruence]. rewrite E in H.
        destruct (v_unset _ _ V f If Nf) as [X|(z'' & _ & X & S')]; rewrite X in H; [|discriminate].
        destruct (m_types mt f); discriminate.
      + rewrite (O g N) in H. now apply (v_texts _ _ V g s z).
    - intros E DE. rewrite M. apply (v_map _ _ V). eapply grows_describes; eauto.
    - intros E g p DE Ig H. pose proof (grows_describes _ _ _ G DE) as DE'.
      destruct (string_dec g f) as [->|N]; [now apply P|]. rewrite (O g N) in H. now apply (v_first _ _ V).
    - intros g Ig. rewrite A in Ig. apply (reached_grows st); [exact G|]. now apply (v_acc _ _ V).
    - intros E i g DE Ig. apply (v_path _ _ V E i g); [|exact Ig]. eapply grows_describes; eauto.
  Qed.

  (** _preset_fields walks on along the path that the message is bound to take *)
  Lemma preset_loop_inv fs : forall k st l c acc st' acc', inv fs st ->
    In l (m_links mt) -> source l = c -> In c (INITIAL :: m_fields mt) ->
    (forall g, In g (INITIAL :: fs) -> (rank g <= rank c)%nat) ->
    holds n mt (mapping st) (condition l) = Ok true ->
    reached st c ->
    (forall E x, describes mt st E -> first (fields st c) = Some x -> exists k, steps mt E k c x) ->
    (forall g, In g acc -> reached st g) ->
    preset_loop n mt k st (target l) acc = (st', Ok acc') ->
    inv fs st' /\ grows st st' /\ accessible st' = accessible st /\ forall g, In g acc' -> reached st' g.
  Proof.
    induction k as [|k IH]; intros st l c acc st' acc' V I Sl Ic Rk H Rc Sc RA R; cbn [preset_loop] in R.
    - destruct (String.eqb (target l) "" || String.eqb (target l) FINAL); [|discriminate].
      injection R as <- <-. repeat (split; [first [exact V|apply grows_refl|reflexivity]|]). exact RA.
    - destruct (String.eqb_spec (target l) "") as [E|N]; cbn [orb] in R.
      { injection R as <- <-. repeat (split; [first [exact V|apply grows_refl|reflexivity]|]). exact RA. }
      destruct (String.eqb_spec (target l) FINAL) as [E|NF].
      { injection R as <- <-. repeat (split; [first [exact V|apply grows_refl|reflexivity]|]). exact RA. }
      pose proof (t_rank _ _ T l I) as Lt. rewrite Sl in Lt.
      set (f := target l) in *.
      assert (If : In f (m_fields mt)) by (destruct (t_target _ _ T l I); [exfalso; apply NF; symmetry; assumption|assumption]).
      assert (Nf : ~ In f fs) by (intros X; specialize (Rk f (or_intror X)); lia).
      destruct (get_first n mt st f) as [[p|]|w] eqn:GF; destruct (get_size n mt st f) as [size|w'] eqn:GS;
        try discriminate R.
      2:{ injection R as <- <-. repeat (split; [first [exact V|apply grows_refl|reflexivity]|]). exact RA. }
      destruct (inv_get_first fs st V l c p I Sl Rc H GF) as (x & z & Fc & Zc & ->).
      assert (Rf : forall E, describes mt st E -> exists j, steps mt E j f (x + z)).
      { intros E D. destruct (Sc E x D Fc) as [j J]. exists (S j).
        apply (inv_next fs st V E l j c x z); assumption. }
      match type of R with (match ?a with _ => _ end) = _ => destruct a as [b|w] end; [|discriminate].
      assert (RA' : forall g, In g (if b then acc ++ [f] else acc) -> reached st g).
      { intros g Ig. destruct b; [|auto]. apply in_app_iff in Ig as [Ig|[<-|[]]]; [auto|].
        intros E D. destruct (Rf E D) as [j J]. eauto. }
      destruct size as [zf|].
      2:{ injection R as <- <-. repeat (split; [first [exact V|apply grows_refl|reflexivity]|]). exact RA'. }
      set (st1 := set_first st f (Some (x + z))) in *.
      set (st2 := if is_opaque (tv (fields st1 f)) then set_tv st1 f (set_expected (tv (fields st1 f)) zf) else st1) in *.
      assert (F1 : tv (fields st1 f) = tv (fields st f)) by (unfold st1; now rewrite set_first_same).
      assert (F2 : first (fields st2 f) = Some (x + z)).
      { unfold st2. destruct (is_opaque _); [rewrite set_tv_same|]; unfold st1; now rewrite set_first_same. }
      assert (TV2 : (tv (fields st2 f) = tv (fields st f) /\ m_types mt f <> FOpaque) \/
        m_types mt f = FOpaque /\ tv (fields st2 f) = VOpaque (Some zf) None None None).
      { unfold st2. rewrite F1. destruct (v_unset _ _ V f If Nf) as [X|(z'' & Ty & X & _)]; rewrite X.
        - destruct (m_types mt f) eqn:Ty; cbn [is_opaque construct_tval];
            try (left; rewrite F1, X; split; [reflexivity|discriminate]).
          right. split; [reflexivity|]. rewrite set_tv_same. reflexivity.
        - right. split; [exact Ty|]. cbn [is_opaque]. rewrite set_tv_same. reflexivity. }
      assert (X2 : inv fs st2 /\ grows st st2).
      { apply (inv_touch fs st f st2 V If Nf).
        - intros g Ng. unfold st2. destruct (is_opaque _); [rewrite set_tv_other by exact Ng|]; unfold st1; now rewrite set_first_other.
        - unfold st2. destruct (is_opaque _); reflexivity.
        - unfold st2. destruct (is_opaque _); reflexivity.
        - intros p Hp. rewrite F2 in Hp. injection Hp as <-. exact Rf.
        - intros _ _. rewrite F2. discriminate.
        - destruct TV2 as [[E _]|[Ty E]]; [now left|]. right. exists zf. auto. }
      destruct X2 as [V2 G2].
      rewrite (inv_not_set fs st2 V2 f If Nf) in R. cbn [andb] in R.
      assert (A2 : accessible st2 = accessible st) by (unfold st2; destruct (is_opaque _); reflexivity).
      destruct (next_field n mt (mapping st2) f) as [nxt|w] eqn:Nx; [|discriminate].
      destruct (String.eqb_spec nxt "") as [E'|N'].
      + subst nxt. assert (R' : (st2, Ok (if b then acc ++ [f] else acc)) = (st', Ok acc')) by (destruct k; exact R).
        injection R' as <- <-. split; [exact V2|]. split; [exact G2|]. split; [exact A2|].
        intros g Ig. apply (reached_grows st); auto.
      + destruct (next_link n mt rank _ f nxt T (or_intror If) Nx N') as (l' & I' & Sl' & Tl' & H').
        subst nxt.
        destruct (IH st2 l' f (if b then acc ++ [f] else acc) st' acc' V2 I' Sl' (or_intror If)) as (V3 & G3 & A3 & R3); auto.
        * intros g Ig. specialize (Rk g Ig). lia.
        * intros E D. destruct (Rf E) as [j J]; [eapply grows_describes; eauto|eauto].
        * intros E y D Hy. rewrite F2 in Hy. injection Hy as <-. apply Rf. eapply grows_describes; eauto.
        * intros g Ig. apply (reached_grows st); auto.
        * split; [exact V3|]. split; [eapply grows_trans; eauto|]. split; [congruence|exact R3].
  Qed.

  Definition ends (fs : list field) (c : field) : Prop := nth_error (INITIAL :: fs) (List.length fs) = Some c.
  Lemma ends_in fs c : ends fs c -> In c (INITIAL :: fs).
  Proof. intros H. eapply nth_error_In. exact H. Qed.
  Lemma ends_app fs f : ends (fs ++ [f]) f.
  Proof.
    unfold ends. rewrite app_length. cbn [List.length]. rewrite Nat.add_1_r. cbn [nth_error].
    rewrite nth_error_app2 by lia. now rewrite Nat.sub_diag.
  Qed.
  Lemma ends_nil : ends [] INITIAL.
  Proof. reflexivity. Qed.
  Lemma inv_rank fs st c : inv fs st -> ends fs c -> forall g, In g (INITIAL :: fs) -> (rank g <= rank c)%nat.
  Proof.
    intros V Ec g Ig. pose proof (inv_world _ _ V) as D. destruct (inv_path_in _ _ V g _ Ig D) as (i & p & Hi & S).
    destruct (v_path _ _ V _ _ _ D Ec) as [q Q].
    assert (L : (i < List.length (INITIAL :: fs))%nat) by (apply nth_error_Some; congruence).
    cbn [List.length] in L. destruct (Nat.eq_dec i (List.length fs)) as [E|N].
    - rewrite E in Hi. unfold ends in Ec. assert (g = c) by congruence. subst. lia.
    - pose proof (steps_rank _ _ _ T (d_literals _ _ _ D) _ _ _ _ _ _ Q S). lia.
  Qed.

  Lemma inv_accessible fs st l : inv fs st -> (forall g, In g l -> reached st g) -> inv fs (set_accessible st l).
  Proof.
    intros V R.
    assert (DD : forall E, describes mt (set_accessible st l) E -> describes mt st E).
    { intros E D. constructor; apply D. }
    constructor.
    - apply (v_initial _ _ V).
    - apply (v_fields _ _ V).
    - intros f If Nf. destruct (v_unset _ _ V f If Nf) as [X|(z & Ty & X & G)]; [now left|].
      right. exists z. split; [exact Ty|]. split; [exact X|]. rewrite <- G. now apply get_size_ext.
    - apply (v_texts _ _ V).
    - intros E D. apply (v_map _ _ V). auto.
    - intros E f p D. apply (v_first _ _ V). auto.
    - intros g Ig E D. apply (R g Ig). auto.
    - intros E i f D. apply (v_path _ _ V). auto.
  Qed.
  Lemma up_to_incl f : forall l r, up_to f l = Some r -> incl r l.
  Proof.
    induction l as [|a t IH]; intros r H; cbn in H; [discriminate|].
    destruct (String.eqb a f).
    - injection H as <-. intros x [<-|[]]. now left.
    - destruct (up_to f t) as [r'|] eqn:U; [|discriminate]. injection H as <-.
      intros x [<-|I]; [now left|]. right. now apply (IH r').
  Qed.
  Lemma preset_fields_inv fs st c st' : inv fs st -> ends fs c -> preset_fields n mt st c = (st', Ok tt) ->
    inv fs st' /\ grows st st'.
  Proof.
    intros V Ec P. pose proof (ends_in _ _ Ec) as Ic. pose proof (inv_path_field _ _ V c Ic) as Icf.
    unfold preset_fields in P.
    destruct (next_field n mt (mapping st) c) as [nxt|] eqn:Nx; [|discriminate].
    destruct (preset_loop n mt n st nxt []) as [st1 [l|w]] eqn:L; [|discriminate].
    injection P as <-.
    assert (X : inv fs st1 /\ grows st st1 /\ accessible st1 = accessible st /\ forall g, In g l -> reached st1 g).
    { destruct (String.eqb_spec nxt "") as [E|N].
      - subst nxt. assert (L' : (st, Ok []) = (st1, Ok l)) by (destruct n; exact L). injection L' as <- <-.
        split; [exact V|]. split; [apply grows_refl|]. split; [reflexivity|]. intros g [].
      - destruct (next_link n mt rank _ c nxt T Icf Nx N) as (lk & I & Sl & Tl & H). subst nxt.
        eapply (preset_loop_inv fs n st lk c []); eauto.
        + now apply (inv_rank fs st).
        + intros E D. destruct (v_path _ _ V _ _ _ D Ec) as [q Q]. eauto.
        + intros E x D F. now apply (inv_steps _ _ V).
        + intros g []. }
    destruct X as (V1 & G1 & A1 & R1). split.
    - apply inv_accessible; [exact V1|]. intros g Ig.
      destruct (up_to c (accessible st1)) as [r|] eqn:U; [|auto].
      apply in_app_iff in Ig as [Ig|Ig]; [|auto]. apply up_to_incl in U. apply (v_acc _ _ V1). auto.
    - intros f If. apply (G1 f If).
  Qed.

  Lemma new_inv st : new n mt = Ok st -> inv [] st.
  Proof.
    intros H. unfold new in H. destruct (preset_fields n mt (blank mt) INITIAL) as [st1 [[]|]] eqn:P; [|discriminate].
    apply Ok_inj in H. subst st1. refine (proj1 (preset_fields_inv [] (blank mt) INITIAL st _ ends_nil P)).
    assert (B : forall f, In f (m_fields mt) -> fields (blank mt) f = mkField (construct_tval (m_types mt f)) None).
    { intros f I. unfold blank. cbn [fields]. destruct (String.eqb_spec f INITIAL) as [E|]; [|reflexivity].
      now apply initial_ne in I. }
    constructor.
    - reflexivity.
    - intros f [].
    - intros f I _. left. now rewrite (B f I).
    - intros f s z I X. rewrite (B f I) in X. destruct (m_types mt f); discriminate.
    - intros E D. eapply fits_initial; eauto.
    - intros E f p D I X. rewrite (B f I) in X. discriminate.
    - intros f [].
    - intros E i f D X. destruct i as [|[|i]]; try discriminate X. injection X as <-. exists 0. constructor.
  Qed.

  Section SetInv.
    Variables (refs : list refinement) (inner : bool -> string -> bits -> res bits).
    Lemma set_inv fs st c f x st' : inv fs st -> ends fs c -> next_field n mt (mapping st) c = Ok f ->
      f <> "" -> f <> FINAL -> set n mt refs inner st f x = (st', Ok tt) ->
      (forall s z, tv (fields st' f) = VScalar (Some (SEnum s z)) ->
         ~ In (lower s) (m_fields mt) /\ lower s <> "message" /\ lower s <> INITIAL) ->
      is_set mt st' f = true ->
      (forall z, m_types mt f = FOpaque -> get_size n mt st f = Ok (Some z) -> size_of mt st' f = Some z) ->
      inv (fs ++ [f]) st' /\ grows st st' /\ In f (m_fields mt) /\ ~ In f fs /\
      exists p z, first (fields st c) = Some p /\ size_of mt st c = Some z /\ first (fields st' f) = Some (p + z).
    Proof.
      intros V Ec Nx N NF S TX IS FS.
      pose proof (ends_in _ _ Ec) as Ic. pose proof (inv_path_field _ _ V c Ic) as Icf.
      destruct (next_link n mt rank _ c f T Icf Nx N) as (l & I & Sl & Tl & H).
      destruct (next_rank n mt rank _ c f T Icf Nx N) as [Lt In'].
      assert (If : In f (m_fields mt)) by auto. clear In'.
      pose proof (inv_rank fs st c V Ec) as Rk.
      assert (Nf : ~ In f fs) by (intros X; specialize (Rk f (or_intror X)); lia).
      assert (Ni : f <> INITIAL) by now apply initial_ne.
      assert (Rc : reached st c).
      { intros E D. destruct (v_path _ _ V _ _ _ D Ec) as [q Q]. eauto. }
      pose proof (inv_world _ _ V) as D.
      destruct (set_steps n mt refs inner st f x st' S) as (Ac & p & size & r & v & st4 & st5 & GF & GS & TV & F4 & O4 & M4 & A4 & U & P).
      destruct (preset_frame n mt rank T _ _ _ _ (or_intror If) P) as [MP FP].
      destruct (update_fields n mt _ _ U) as [F5 A5].
      assert (Fst : fields st' f = mkField v (Some p)) by (rewrite FP, F5 by lia; exact F4).
      destruct (inv_get_first fs st V l c p I Sl Rc H) as (x0 & z0 & Fc & Zc & ->); [now rewrite Tl|].
      assert (Rf : forall E, describes mt st E -> steps mt E (Datatypes.S (List.length fs)) f (x0 + z0)).
      { intros E DE. rewrite <- Tl. destruct (v_path _ _ V _ _ _ DE Ec) as [q Q].
        destruct (inv_steps _ _ V c x0 E Ic DE Fc) as [k K].
        destruct (steps_index _ _ _ T (d_literals _ _ _ DE) _ _ _ _ _ Q K) as [Ek Eq]. subst k q.
        apply (inv_next fs st V E l (List.length fs) c x0 z0); assumption. }
      (* the value before the fields after it are preset *)
      assert (O5 : forall g, g <> f -> fields st5 g = fields st g) by (intros g Ng; rewrite F5; auto).
      assert (S5 : fields st5 f = mkField v (Some (x0 + z0))) by (rewrite F5; exact F4).
      assert (Sz : size_of mt st5 f = size_of mt st' f) by (unfold size_of; now rewrite S5, Fst).
      assert (G5 : grows st st5).
      { intros g Ig. destruct (string_dec g f) as [->|Ng].
        2:{ unfold size_of. rewrite (O5 g Ng). auto. }
        split; [|split].
        - intros q Hq. rewrite S5. cbn. destruct (v_first _ _ V _ f q D If Hq) as [k K].
          destruct (steps_index _ _ _ T (d_literals _ _ _ D) _ _ _ _ _ K (Rf _ D)) as [_ ->]. reflexivity.
        - intros z Hz. rewrite Sz. destruct (v_unset _ _ V f If Nf) as [X|(z' & Ty & X & G)].
          + unfold size_of in *. rewrite X, (typ_field f If) in Hz. rewrite (typ_field f If).
            destruct (m_types mt f); try discriminate Hz. exact Hz.
          + unfold size_of in Hz. rewrite X, (typ_field f If), Ty in Hz. cbn in Hz. injection Hz as <-. auto.
        - intros w Hw. exfalso. destruct (v_unset _ _ V f If Nf) as [X|(z' & Ty & X & G)]; rewrite X in Hw; [|discriminate].
          destruct (m_types mt f); discriminate. }
      assert (TX5 : texts mt st5).
      { intros g s z Ig Hg. destruct (string_dec g f) as [->|Ng].
        - apply (TX s z). rewrite Fst. rewrite S5 in Hg. exact Hg.
        - rewrite (O5 g Ng) in Hg. now apply (v_texts _ _ V g s z). }
      assert (V5 : inv (fs ++ [f]) st5).
      { constructor.
        - rewrite (O5 INITIAL) by auto. apply (v_initial _ _ V).
        - intros g Ig. apply in_app_iff in Ig as [Ig|[<-|[]]].
          + destruct (v_fields _ _ V g Ig) as [A B]. split; [exact A|]. rewrite <- B. apply is_set_ext. apply O5.
            intros ->. contradiction.
          + split; [exact If|]. rewrite <- IS. apply is_set_ext. congruence.
        - intros g Ig Ng. assert (Ng1 : ~ In g fs) by (intros X; apply Ng; apply in_app_iff; now left).
          assert (Ng2 : g <> f) by (intros ->; apply Ng; apply in_app_iff; right; now left).
          rewrite (O5 g Ng2). destruct (v_unset _ _ V g Ig Ng1) as [X|(z' & Ty & X & G)]; [now left|]. exfalso.
          pose proof (typ_field g Ig) as Tg. unfold get_size in G. rewrite Tg, Ty in G.
          destruct (link_size_spec n mt st _ z' G) as (l' & I' & S' & H'). apply in_incoming in I' as [I' Tl'].
          pose proof (inv_set_in _ _ V _ (t_source _ _ T l' I') S') as A.
          destruct (inv_path_in _ _ V _ _ A D) as (i & q & Hi & Q).
          assert (L : (i < List.length (INITIAL :: fs))%nat) by (apply nth_error_Some; congruence).
          cbn [List.length] in L. pose proof (inv_link _ _ V _ l' D I' H') as C'.
          assert (Go : exists y, steps mt (world mt st) (Datatypes.S i) g y).
          { destruct (proj1 (d_literals _ _ _ D) (NAttr ASize (source l'))) as [zz Z].
            exists (q + zz). rewrite <- Tl'. apply steps_S; assumption. }
          destruct Go as [y Y]. destruct (Nat.eq_dec i (List.length fs)) as [E|NE].
          + rewrite E in Y. destruct (steps_fun _ _ _ T (d_literals _ _ _ D) _ _ _ Y _ _ (Rf _ D)) as [E' _]. contradiction.
          + assert (L' : (Datatypes.S i < List.length (INITIAL :: fs))%nat) by (cbn [List.length]; lia).
            apply nth_error_Some in L'. destruct (nth_error (INITIAL :: fs) (Datatypes.S i)) as [h|] eqn:Hh; [|congruence].
            destruct (v_path _ _ V _ _ _ D Hh) as [q' Q'].
            destruct (steps_fun _ _ _ T (d_literals _ _ _ D) _ _ _ Y _ _ Q') as [E' _]. subst h.
            apply Ng1. cbn [nth_error] in Hh. eapply nth_error_In; eauto.
        - exact TX5.
        - intros E DE. apply (fits_fields mt st5 E (mapping st5) TX5).
          + rewrite (O5 INITIAL) by auto. rewrite (v_initial _ _ V). reflexivity.
          + exact DE.
          + intros y Py. rewrite (update_plain mt n st4 st5 U y Py).
            unfold field_mapping, is_set, last, size_of. rewrite F5. reflexivity.
        - intros E g q DE Ig Hq. pose proof (grows_describes _ _ _ G5 DE) as DE'.
          destruct (string_dec g f) as [->|Ng].
          + rewrite S5 in Hq. cbn in Hq. injection Hq as <-. eexists. now apply Rf.
          + rewrite (O5 g Ng) in Hq. now apply (v_first _ _ V).
        - intros g Ig. rewrite A5, A4 in Ig. apply (reached_grows st); [exact G5|]. now apply (v_acc _ _ V).
        - intros E i g DE Hi. pose proof (grows_describes _ _ _ G5 DE) as DE'.
          destruct (Nat.lt_ge_cases i (List.length (INITIAL :: fs))) as [L|L].
          + apply (v_path _ _ V E i g DE'). rewrite <- Hi. change (INITIAL :: fs ++ [f]) with ((INITIAL :: fs) ++ [f]).
            now rewrite nth_error_app1.
          + change (INITIAL :: fs ++ [f]) with ((INITIAL :: fs) ++ [f]) in Hi. rewrite nth_error_app2 in Hi by exact L.
            destruct (i - List.length (INITIAL :: fs))%nat as [|k] eqn:K; [|now destruct k].
            injection Hi as <-. cbn [List.length] in *. assert (i = Datatypes.S (List.length fs)) as -> by lia.
            eexists. now apply Rf. }
      destruct (preset_fields_inv _ _ _ _ V5 (ends_app fs f) P) as [V' G'].
      split; [exact V'|]. split; [eapply grows_trans; eauto|]. split; [exact If|]. split; [exact Nf|].
      exists x0, z0. rewrite Fst. auto.
    Qed.
  End SetInv.
End Front.

(** ** Values stay of the kind of their type *)

Definition kind (t : ftype) (v : tval) : Prop :=
  match t, v with
  | FScalar _ _, VScalar _ | FOpaque, VOpaque _ _ _ _ | FScalars _ _, VScalars _ _ | FMessages _, VMessages _ _ => True
  | _, _ => False
  end.
Section Kinds.
  Variables (n : nat) (mt : mtype) (refs : list refinement) (inner : bool -> string -> bits -> res bits).
  Definition kinds (st : mvalue) : Prop := forall f, kind (typ mt f) (tv (fields st f)).

  Lemma kind_construct t : kind t (construct_tval t).
  Proof. now destruct t. Qed.
  Lemma kind_expected t v z : kind t v -> kind t (set_expected v z).
  Proof. now destruct t, v. Qed.
  Lemma kind_ref t v r : kind t v -> kind t (set_ref v r).
  Proof. now destruct t, v. Qed.
  Lemma kind_clear t v : kind t v -> kind t (clear v).
  Proof. now destruct t, v. Qed.
  Lemma kind_set t v x v' : kind t v -> tv_set n inner t v x = Ok v' -> kind t v'.
  Proof.
    intros K H. destruct x as [b|l|z|s|l|l]; cbn [tv_set] in H;
      destruct t as [t i| |t i|e], v as [w|e' r ne w|e' w|e' w]; try contradiction; cbn [tv_parse tv_assign] in H;
      try destruct t; try destruct w; try destruct r; try discriminate H; binds H;
      repeat match type of H with
             | bind (if ?c then _ else _) _ = _ => destruct c; cbn [bind] in H
             | (if ?c then _ else _) = _ => destruct c
             | match ?c with _ => _ end = _ => destruct c
             end; try discriminate H; try (apply Ok_inj in H; subst v'; exact I).
  Qed.
  Lemma kinds_tv st f v : kinds st -> kind (typ mt f) v -> kinds (set_tv st f v).
  Proof.
    intros K H g. destruct (string_dec g f) as [->|N]; [now rewrite set_tv_same|].
    rewrite set_tv_other by exact N. apply K.
  Qed.
  Lemma kinds_first st f p : kinds st -> kinds (set_first st f p).
  Proof.
    intros K g. destruct (string_dec g f) as [->|N]; [rewrite set_first_same; apply K|].
    rewrite set_first_other by exact N. apply K.
  Qed.
  Lemma kinds_ext st st' : fields st' = fields st -> kinds st -> kinds st'.
  Proof. intros E K f. rewrite E. apply K. Qed.

  Lemma kinds_preset_loop : forall k st nxt acc st' r, kinds st -> preset_loop n mt k st nxt acc = (st', r) -> kinds st'.
  Proof.
    induction k as [|k IH]; intros st nxt acc st' r K H; cbn [preset_loop] in H.
    - destruct (String.eqb nxt "" || String.eqb nxt FINAL); injection H as <- _; exact K.
    - destruct (String.eqb nxt "" || String.eqb nxt FINAL); [injection H as <- _; exact K|].
      destruct (get_first n mt st nxt) as [[p|]|w]; destruct (get_size n mt st nxt) as [size|w'];
        try (injection H as <- _; exact K).
      match type of H with (match ?a with _ => _ end) = _ => destruct a as [b|w] end; [|injection H as <- _; exact K].
      destruct size as [z|]; [|injection H as <- _; exact K].
      set (st1 := set_first st nxt (Some p)) in *.
      set (st2 := if is_opaque (tv (fields st1 nxt)) then set_tv st1 nxt (set_expected (tv (fields st1 nxt)) z)
                  else st1) in *.
      assert (K1 : kinds st1) by now apply kinds_first.
      assert (K2 : kinds st2).
      { unfold st2. destruct (is_opaque _); [|exact K1]. apply kinds_tv; [exact K1|]. apply kind_expected. apply K1. }
      destruct (is_set mt st2 nxt && is_opaque (tv (fields st2 nxt))).
      + injection H as <- _. apply kinds_tv; [now apply kinds_first|]. apply kind_clear. apply K2.
      + destruct (next_field n mt (mapping st2) nxt); [eapply IH; eauto|injection H as <- _; exact K2].
  Qed.
  Lemma kinds_preset st f st' r : kinds st -> preset_fields n mt st f = (st', r) -> kinds st'.
  Proof.
    intros K H. unfold preset_fields in H. destruct (next_field n mt (mapping st) f) as [nx|]; [|injection H as <- _; exact K].
    destruct (preset_loop n mt n st nx []) as [st1 [l|w]] eqn:L; apply kinds_preset_loop in L; auto;
      injection H as <- _; exact L.
  Qed.
  Lemma kinds_new st : new n mt = Ok st -> kinds st.
  Proof.
    unfold new. destruct (preset_fields n mt (blank mt) INITIAL) as [st1 [u|]] eqn:P; intros H; [|discriminate].
    apply Ok_inj in H. subst st1. eapply kinds_preset; [|exact P]. intros f. unfold typ, blank. cbn [fields].
    destruct (String.eqb f INITIAL); [exact I|apply kind_construct].
  Qed.
  Lemma kinds_set st f x st' r : kinds st -> set n mt refs inner st f x = (st', r) -> kinds st'.
  Proof.
    intros K H. unfold set in H. destruct (negb _); [injection H as <- _; exact K|].
    destruct (get_first n mt st f) as [[p|]|]; destruct (get_size n mt st f) as [size|];
      try (injection H as <- _; exact K).
    set (st1 := set_first st f (Some p)) in *.
    set (st2 := match size with Some z => set_tv st1 f (set_expected (tv (fields st1 f)) z) | None => st1 end) in *.
    assert (K1 : kinds st1) by now apply kinds_first.
    assert (K2 : kinds st2).
    { unfold st2. destruct size; [|exact K1]. apply kinds_tv; [exact K1|]. apply kind_expected. apply K1. }
    destruct (find_refinement _ _ _ _ _ _) as [q|]; [|injection H as <- _; exact K2].
    set (st3 := set_tv st2 f (set_ref (tv (fields st2 f)) q)) in *.
    assert (K3 : kinds st3) by (apply kinds_tv; [exact K2|]; apply kind_ref; apply K2).
    destruct (tv_set _ _ _ _ _) as [v|] eqn:TV; [|injection H as <- _; exact K3].
    assert (Kv : kind (typ mt f) v) by (eapply kind_set; [apply K3|exact TV]).
    assert (K4 : kinds (set_tv st3 f v)) by now apply kinds_tv.
    destruct (update_mapping n mt (set_tv st3 f v)) as [st5|] eqn:U; [|injection H as <- _; exact K4].
    destruct (update_fields n mt _ _ U) as [F5 _].
    assert (K5 : kinds st5) by (eapply kinds_ext; eauto).
    destruct (all_false _ _ _ _) as [[|]|].
    - injection H as <- _. apply kinds_tv; [exact K5|]. now apply kind_clear.
    - eapply kinds_preset; eauto.
    - injection H as <- _. exact K5.
  Qed.
  Lemma kinds_parse_loop : forall k st b f lp pos st', kinds st -> parse_loop n mt refs inner k st b f lp pos = Ok st' -> kinds st'.
  Proof.
    induction k as [|k IH]; intros st b f lp pos st' K H; cbn [parse_loop] in H.
    - destruct (String.eqb f FINAL); [apply Ok_inj in H; now subst|]. destruct (String.eqb f ""); discriminate.
    - destruct (String.eqb f FINAL); [apply Ok_inj in H; now subst|]. destruct (String.eqb f ""); [discriminate|].
      assert (Go : forall st1 x st2 f' p q, kinds st1 -> try_set n mt refs inner st1 f x = Ok st2 ->
        parse_loop n mt refs inner k st2 b f' p q = Ok st' -> kinds st').
      { intros st1 x st2 f' p q K1 S R. apply try_set_ok in S. eapply IH; [|exact R]. eapply kinds_set; eauto. }
      binds H. destruct x as [z|], (is_opaque (tv (fields st f))); try discriminate H; binds H.
      + destruct (z <? 0); [discriminate|]. binds H. eapply (Go st); eauto.
      + destruct (z <? 0); [discriminate|]. binds H. eapply (Go st); eauto.
      + destruct x0 as [q|]; [|discriminate]. binds H. eapply (Go (set_first st f (Some q))); eauto. now apply kinds_first.
  Qed.
  Lemma kinds_parse st0 b st : new n mt = Ok st0 -> parse n mt refs inner st0 b = Ok st -> kinds st.
  Proof.
    intros H P. unfold parse in P. binds P. eapply kinds_parse_loop; [|exact P]. now apply kinds_new.
  Qed.
End Kinds.
