(** Lemmas on substitution, variables, unique and short-circuit guards. *)
From Coq Require Import String List ZArith Bool Lia.
From Verif Require Import Base Expr ExprEval ExprFacts ExprTotal.
Import ListNotations.
Local Open Scope Z_scope.

(** ** unique *)
Section Unique.
  Context {A : Type} (eqb : A -> A -> bool).
  Hypothesis eqb_spec : forall a b, eqb a b = true <-> a = b.

  Lemma existsb_eqb x l : existsb (eqb x) l = true <-> In x l.
  Proof.
    rewrite existsb_exists. split.
    - intros (y & Hin & E). apply eqb_spec in E. now subst.
    - intros Hin. exists x. split; auto. now apply eqb_spec.
  Qed.

  Lemma unique_aux_In x l : forall seen,
    In x (unique_aux eqb seen l) <-> In x l /\ ~ In x seen.
  Proof.
    induction l as [|y l IH]; intros seen; cbn [unique_aux].
    - cbn. tauto.
    - destruct (existsb (eqb y) seen) eqn:E.
      + rewrite IH. apply existsb_eqb in E. cbn. split.
        * tauto.
        * intros [[->|H] H']; [contradiction|auto].
      + assert (~ In y seen).
        { rewrite <- existsb_eqb, E. discriminate. }
        cbn [In]. rewrite IH. cbn [In]. split.
        * intros [->|[H1 H2]]; tauto.
        * intros [[->|H1] H2]; [tauto|].
          destruct (eqb y x) eqn:Eq.
          -- apply eqb_spec in Eq. auto.
          -- right. split; auto. intros [->|H3]; [|contradiction].
             assert (eqb x x = true) by now apply eqb_spec. congruence.
  Qed.

  Lemma unique_In x l : In x (unique eqb l) <-> In x l.
  Proof. unfold unique. rewrite unique_aux_In. cbn. tauto. Qed.

  Lemma unique_aux_NoDup l : forall seen, NoDup (unique_aux eqb seen l).
  Proof.
    induction l as [|y l IH]; intros seen; cbn [unique_aux]; [constructor|].
    destruct (existsb (eqb y) seen); auto. constructor; auto.
    rewrite unique_aux_In. cbn. tauto.
  Qed.

  Lemma unique_NoDup l : NoDup (unique eqb l).
  Proof. apply unique_aux_NoDup. Qed.
End Unique.

Lemma sv_eqb_spec a b : sv_eqb a b = true <-> a = b.
Proof.
  unfold sv_eqb. destruct a as [x s], b as [y t]; cbn. rewrite andb_true_iff.
  rewrite String.eqb_eq, eqb_true_iff. split; [intros [-> ->]; auto|intros E; now injection E].
Qed.

(** ** variables *)

(** occurrence of an identifier, as a relation *)
Inductive occurs (x : string) : expr -> Prop :=
| occ_var s : occurs x (EName (NVar x) s)
| occ_attr a s : occurs x (EName (NAttr a x) s)
| occ_not e : occurs x e -> occurs x (ENot e)
| occ_ass o ts t : In t ts -> occurs x t -> occurs x (EAss o ts)
| occ_bin_l o l r : occurs x l -> occurs x (EBin o l r)
| occ_bin_r o l r : occurs x r -> occurs x (EBin o l r)
| occ_rel_l o l r : occurs x l -> occurs x (ERel o l r)
| occ_rel_r o l r : occurs x r -> occurs x (ERel o l r).

Lemma occurs_variables x e : occurs x e <-> exists s, In (x, s) (variables e).
Proof.
  split.
  - induction 1; cbn [variables]; eauto using in_eq.
    + destruct IHoccurs as [s Hs]. exists s. rewrite (unique_In _ sv_eqb_spec), in_flat_map. eauto.
    + destruct IHoccurs as [s Hs]. exists s. rewrite (unique_In _ sv_eqb_spec), in_app_iff. auto.
    + destruct IHoccurs as [s Hs]. exists s. rewrite (unique_In _ sv_eqb_spec), in_app_iff. auto.
    + destruct IHoccurs as [s Hs]. exists s. rewrite (unique_In _ sv_eqb_spec), in_app_iff. auto.
    + destruct IHoccurs as [s Hs]. exists s. rewrite (unique_In _ sv_eqb_spec), in_app_iff. auto.
  - induction e as [ | |z|n b|a IH|o ts IH|o l r IHl IHr|o l r IHl IHr] using expr_ind';
      cbn [variables]; intros [s Hs]; try contradiction.
    + destruct n as [y|k y]; destruct Hs as [E|[]]; inversion E; subst; constructor.
    + constructor. eauto.
    + rewrite (unique_In _ sv_eqb_spec) in Hs. apply in_flat_map in Hs as (t & Ht & Hs).
      rewrite Forall_forall in IH. econstructor; eauto.
    + rewrite (unique_In _ sv_eqb_spec) in Hs. apply in_app_iff in Hs as [Hs|Hs].
      * apply occ_bin_l; eauto.
      * apply occ_bin_r; eauto.
    + rewrite (unique_In _ sv_eqb_spec) in Hs. apply in_app_iff in Hs as [Hs|Hs].
      * apply occ_rel_l; eauto.
      * apply occ_rel_r; eauto.
Qed.

(** environments that agree on an identifier and its attributes *)
Definition agree (x : string) (g h : env) : Prop :=
  g (NVar x) = h (NVar x) /\ forall a, g (NAttr a x) = h (NAttr a x).

Lemma eval_agree_sc g h e : (forall x, occurs x e -> agree x g h) ->
  eval g e = eval h e /\ eval_sc g e = eval_sc h e.
Proof.
  induction e as [ | |z|n b|a IH|o ts IH|o l r IHl IHr|o l r IHl IHr] using expr_ind';
    intros HA; cbn [eval eval_sc]; auto.
  - assert (g n = h n) as ->; auto.
    destruct n as [x|k x]; apply (HA x); constructor.
  - destruct IH as [-> ->]; auto. intros x Hx. apply HA. now constructor.
  - assert (map (eval g) ts = map (eval h) ts /\ map (eval_sc g) ts = map (eval_sc h) ts) as [-> ->].
    { rewrite Forall_forall in IH. split; apply map_ext_in; intros t Ht; apply IH; auto;
        intros x Hx; apply HA; econstructor; eauto. }
    auto.
  - destruct IHl as [-> ->]; [intros x Hx; apply HA; now constructor|].
    destruct IHr as [-> ->]; [intros x Hx; apply HA; now apply occ_bin_r|]. auto.
  - destruct IHl as [-> ->]; [intros x Hx; apply HA; now constructor|].
    destruct IHr as [-> ->]; [intros x Hx; apply HA; now apply occ_rel_r|]. auto.
Qed.

(** ** substitution *)

(** no logical negation, negative names only if [allow] *)
Fixpoint plain (allow : bool) (e : expr) : bool :=
  match e with
  | ENot _ => false
  | EName _ s => allow || negb s
  | ETrue | EFalse | ENum _ => true
  | EAss _ ts => forallb (plain allow) ts
  | EBin _ l r | ERel _ l r => plain allow l && plain allow r
  end.

Section SubstSound.
  Variable ng : expr -> res expr.
  Variable mapping : name -> option expr.
  Variables g g' : env.
  Variable allow : bool.
  Hypothesis Hmap : forall n x, mapping n = Some x -> eval g x = Some (g' n).
  Hypothesis Hkeep : forall n, mapping n = None -> g n = g' n.
  Hypothesis Hneg : allow = true -> forall n x y z, mapping n = Some x -> ng x = Ok y ->
    eval g x = Some (VInt z) -> eval g y = Some (VInt (- z)).

  Lemma substituted_sound e : forall e', plain allow e = true ->
    substituted ng mapping e = Ok e' ->
    forall v, eval g' e = Some v -> eval g e' = Some v.
  Proof.
    induction e as [ | |z|n b|a IH|o ts IH|o l r IHl IHr|o l r IHl IHr] using expr_ind';
      intros e' HP HS v HV; cbn [substituted] in HS; cbn [plain] in HP; try discriminate.
    1-3: injection HS as <-; exact HV.
    - cbn [eval] in HV. destruct b.
      + destruct (mapping n) as [x|] eqn:Em.
        * rewrite orb_false_r in HP. cbn in HV.
          pose proof (Hmap _ _ Em) as Hx. destruct (g' n) as [z|c]; [|discriminate].
          injection HV as <-. eapply Hneg; eauto.
        * injection HS as <-. cbn [eval]. now rewrite (Hkeep _ Em).
      + destruct (mapping n) as [x|] eqn:Em; injection HS as <-.
        * rewrite (Hmap _ _ Em). exact HV.
        * cbn [eval]. now rewrite (Hkeep _ Em).
    - match type of HS with bind (?F ts) _ = _ => set (go := F) in * end.
      destruct (go ts) as [ts'|] eqn:Eg; cbn [bind] in HS; [|discriminate]. injection HS as <-.
      assert (HF : Forall2 (fun t t' => forall v, eval g' t = Some v -> eval g t' = Some v) ts ts').
      { clear HV. revert ts' Eg. induction IH as [|x l Hx HF IHl]; intros ts' Eg; cbn in Eg.
        - injection Eg as <-. constructor.
        - cbn in HP. apply andb_true_iff in HP as [HP1 HP2].
          destruct (substituted ng mapping x) as [y|] eqn:E1; cbn [bind] in Eg; [|discriminate].
          fold go in Eg. destruct (go l) as [ys|] eqn:E2; cbn [bind] in Eg; [|discriminate].
          injection Eg as <-. constructor; eauto. }
      cbn [eval] in *.
      assert (HI : forall zs, ints (map (eval g') ts) = Some zs -> ints (map (eval g) ts') = Some zs).
      { clear -HF. induction HF as [|x y l l' Hx HF IHl]; intros zs E; auto. cbn in E.
        destruct (eval g' x) as [[z|b]|]; try discriminate.
        destruct (ints (map (eval g') l)) as [zl|]; [|discriminate].
        cbn. rewrite (Hx _ eq_refl), (IHl _ eq_refl). auto. }
      assert (HB : forall zs, bools (map (eval g') ts) = Some zs -> bools (map (eval g) ts') = Some zs).
      { clear -HF. induction HF as [|x y l l' Hx HF IHl]; intros zs E; auto. cbn in E.
        destruct (eval g' x) as [[z|b]|]; try discriminate.
        destruct (bools (map (eval g') l)) as [zl|]; [|discriminate].
        cbn. rewrite (Hx _ eq_refl), (IHl _ eq_refl). auto. }
      destruct o; cbn [ass_val] in *;
        first [ destruct (bools (map (eval g') ts)) as [bs|]; [|discriminate]; now rewrite (HB _ eq_refl)
              | destruct (ints (map (eval g') ts)) as [bs|]; [|discriminate]; now rewrite (HI _ eq_refl) ].
    - apply andb_true_iff in HP as [HP1 HP2].
      destruct (substituted ng mapping l) as [l'|] eqn:El; cbn [bind] in HS; [|discriminate].
      destruct (substituted ng mapping r) as [r'|] eqn:Er; cbn [bind] in HS; [|discriminate].
      injection HS as <-. cbn [eval] in *. unfold bin_val in HV.
      destruct (eval g' l) as [x|] eqn:Ex; [|discriminate].
      destruct (eval g' r) as [y|] eqn:Ey; [|destruct x; discriminate].
      rewrite (IHl _ HP1 eq_refl _ eq_refl), (IHr _ HP2 eq_refl _ eq_refl). exact HV.
    - apply andb_true_iff in HP as [HP1 HP2].
      destruct (substituted ng mapping l) as [l'|] eqn:El; cbn [bind] in HS; [|discriminate].
      destruct (substituted ng mapping r) as [r'|] eqn:Er; cbn [bind] in HS; [|discriminate].
      injection HS as <-. cbn [eval] in *. unfold rel_val in HV.
      destruct (eval g' l) as [x|] eqn:Ex; [|discriminate].
      destruct (eval g' r) as [y|] eqn:Ey; [|destruct x; discriminate].
      rewrite (IHl _ HP1 eq_refl _ eq_refl), (IHr _ HP2 eq_refl _ eq_refl). exact HV.
  Qed.
End SubstSound.

(** without negative names substitution never fails *)
Lemma substituted_total ng mapping e : plain false e = true ->
  exists e', substituted ng mapping e = Ok e'.
Proof.
  induction e as [ | |z|n b|a IH|o ts IH|o l r IHl IHr|o l r IHl IHr] using expr_ind';
    cbn [plain substituted]; intros HP; eauto; try discriminate.
  - destruct b; [discriminate|]. destruct (mapping n); eauto.
  - match goal with |- context [bind (?F ts) _] => set (go := F) in * end.
    assert (exists ts', go ts = Ok ts') as [ts' ->].
    { induction IH as [|x l Hx HF IHl]; cbn; eauto.
      cbn in HP. apply andb_true_iff in HP as [HP1 HP2].
      destruct (Hx HP1) as [y ->]. cbn. fold go. destruct (IHl HP2) as [ys ->]. cbn. eauto. }
    cbn. eauto.
  - apply andb_true_iff in HP as [HP1 HP2]. destruct (IHl HP1) as [l' ->], (IHr HP2) as [r' ->].
    cbn. eauto.
  - apply andb_true_iff in HP as [HP1 HP2]. destruct (IHl HP1) as [l' ->], (IHr HP2) as [r' ->].
    cbn. eauto.
Qed.

(** mapped names that are not below a negation disappear *)
Lemma substituted_untouched ng e e' : substituted ng (fun _ => None) e = Ok e' -> e' = e.
Proof.
  revert e'. induction e as [ | |z|n b|a IH|o ts IH|o l r IHl IHr|o l r IHl IHr] using expr_ind';
    intros e' HS; cbn [substituted] in HS; try (injection HS as <-; reflexivity).
  - destruct b; injection HS as <-; reflexivity.
  - match type of HS with bind (?F ts) _ = _ => set (go := F) in * end.
    assert (HG : forall ts', go ts = Ok ts' -> ts' = ts).
    { clear HS. induction IH as [|x l Hx HF IHl]; intros ts' E; cbn in E.
      - now injection E as <-.
      - destruct (substituted ng _ x) as [y|] eqn:E1; cbn [bind] in E; [|discriminate].
        fold go in E. destruct (go l) as [ys|] eqn:E2; cbn [bind] in E; [|discriminate].
        injection E as <-. f_equal; auto. }
    destruct (go ts) as [ts'|] eqn:Eg; cbn [bind] in HS; [|discriminate]. injection HS as <-.
    f_equal. auto.
  - destruct (substituted ng _ l) as [l'|] eqn:El; cbn [bind] in HS; [|discriminate].
    destruct (substituted ng _ r) as [r'|] eqn:Er; cbn [bind] in HS; [|discriminate].
    injection HS as <-. f_equal; auto.
  - destruct (substituted ng _ l) as [l'|] eqn:El; cbn [bind] in HS; [|discriminate].
    destruct (substituted ng _ r) as [r'|] eqn:Er; cbn [bind] in HS; [|discriminate].
    injection HS as <-. f_equal; auto.
Qed.

(** ** short-circuit guards *)

(** no connective inside: arithmetic, relations and names only *)
Fixpoint arith (e : expr) : bool :=
  match e with
  | ETrue | EFalse | ENum _ | EName _ _ => true
  | ENot _ => false
  | EAss (OAdd | OMul) ts => forallb arith ts
  | EAss _ _ => false
  | EBin _ l r => arith l && arith r
  | ERel _ _ _ => false
  end.

(** relations, negated relations, truth values and boolean names *)
Definition atom (e : expr) : bool :=
  match e with
  | ETrue | EFalse | EName _ _ => true
  | ERel _ l r | ENot (ERel _ l r) => arith l && arith r
  | _ => false
  end.

Lemma arith_eval g e : arith e = true -> eval_sc g e = eval g e.
Proof.
  induction e as [ | |z|n b|a IH|o ts IH|o l r IHl IHr|o l r IHl IHr] using expr_ind';
    cbn [arith eval eval_sc]; intros H; auto; try discriminate.
  - assert (HM : forallb arith ts = true -> map (eval_sc g) ts = map (eval g) ts).
    { intros HF. rewrite forallb_forall in HF. rewrite Forall_forall in IH.
      apply map_ext_in. intros t Ht. auto. }
    destruct o; try discriminate; now rewrite HM.
  - apply andb_true_iff in H as [H1 H2]. now rewrite IHl, IHr.
Qed.

Lemma atom_eval g e : atom e = true -> eval_sc g e = eval g e.
Proof.
  destruct e as [ | |z|n b|a|o ts|o l r|o l r]; cbn [atom]; auto; try discriminate.
  - destruct a; try discriminate. intros H. apply andb_true_iff in H as [H1 H2].
    cbn [eval eval_sc]. now rewrite !arith_eval.
  - intros H. apply andb_true_iff in H as [H1 H2]. cbn [eval eval_sc]. now rewrite !arith_eval.
Qed.

(** what an atom simplifies to *)
Definition rel_like (e : expr) : bool :=
  match e with ETrue | EFalse | EName _ _ | ERel _ _ _ => true | _ => false end.

Section Guards.
  Variable eqb : expr -> expr -> bool.
  Hypothesis eqb_sound : forall a b, eqb a b = true -> forall g, eval g a = eval g b.
  Hypothesis eqb_refl : forall a, eqb a a = true.
  Variable g : env.

  Lemma neg_arith simp : (forall e e', simp e = Ok e' -> arith e = true -> arith e' = true) ->
    forall e e', neg simp e = Ok e' -> arith e = true -> arith e' = true.
  Proof.
    intros HS. induction e using expr_ind'; intros e' HN Ha; cbn [neg] in HN; cbn [arith] in Ha;
      try discriminate; try (injection HN as <-; auto; fail).
    - destruct o; try discriminate.
      + match type of HN with bind (?F ts) _ = _ => set (go := F) in * end.
        assert (HG : forall ts', go ts = Ok ts' -> forallb arith ts' = true).
        { clear HN. induction H as [|x l Hx HF IHl]; intros ts' E; cbn in E.
          - injection E as <-. auto.
          - cbn in Ha. apply andb_true_iff in Ha as [Ha1 Ha2].
            destruct (neg simp x) as [y|] eqn:E1; cbn [bind] in E; [|discriminate].
            fold go in E. destruct (go l) as [ys|] eqn:E2; cbn [bind] in E; [|discriminate].
            injection E as <-. cbn. rewrite (Hx _ eq_refl Ha1). now rewrite (IHl Ha2 _ eq_refl). }
        destruct (go ts); cbn [bind] in HN; [|discriminate]. injection HN as <-. cbn. auto.
      + eapply HS; eauto. cbn. rewrite forallb_app, Ha. reflexivity.
    - destruct (neg simp e1) eqn:E; cbn [bind] in HN; [|discriminate]. injection HN as <-.
      apply andb_true_iff in Ha as [H1 H2]. cbn. rewrite (IHe1 _ eq_refl H1). auto.
  Qed.

  Lemma collect_arith simp o m : boolean_op o = false ->
    (forall e e', simp e = Ok e' -> arith e = true -> arith e' = true) ->
    forall work total acc tot' terms', collect simp o m work total acc = Ok (tot', terms') ->
    forallb arith work = true -> forallb arith acc = true -> forallb arith terms' = true.
  Proof.
    intros Ho HS. induction m as [|m IH]; intros work total acc tot' terms' HC Hw Ha.
    - destruct work; cbn in HC; [|discriminate]. injection HC as <- <-.
      rewrite forallb_forall in *. intros x Hx. apply Ha. now apply in_rev.
    - destruct work as [|t rest]; cbn [collect] in HC.
      + injection HC as <- <-. rewrite forallb_forall in *. intros x Hx. apply Ha. now apply in_rev.
      + cbn in Hw. apply andb_true_iff in Hw as [Hw1 Hw2].
        destruct (simp t) as [t'|] eqn:Et; cbn [bind] in HC; [|discriminate].
        pose proof (HS _ _ Et Hw1) as Ht.
        destruct t' as [ | | v | nm s | x | p us | bo l r | ro l r];
          try (eapply IH; [exact HC| |]; auto; cbn; rewrite ?Ha, ?andb_true_r; exact Ht).
        destruct (flattens o p) eqn:EF; eapply IH; try exact HC; auto.
        * rewrite forallb_app, Hw2. destruct o, p; try discriminate; exact Ht.
        * cbn [forallb]. now rewrite Ht, Ha.
  Qed.

  Lemma simplify_arith n : forall e e', simplify eqb n e = Ok e' -> arith e = true -> arith e' = true.
  Proof.
    induction n as [|n IH]; intros e e' HS Ha; [discriminate|]. cbn [simplify] in HS.
    destruct e as [ | | v | nm s | x | o ts | o l r | o l r]; cbn [arith] in Ha; try discriminate.
    1-4: injection HS as <-; auto.
    - destruct (collect (simplify eqb n) o n ts (neutral o) []) as [[tot terms]|] eqn:EC;
        cbn [bind] in HS; [|discriminate].
      assert (HT : boolean_op o = false -> forallb arith ts = true -> arith (finish o tot terms) = true).
      { intros Ho Hts. apply finish_G.
        - intros b; rewrite Ho; discriminate.
        - reflexivity.
        - intros l Hl. destruct o; try discriminate; exact Hl.
        - eapply collect_arith; eauto. }
      destruct o; try discriminate.
      + specialize (HT eq_refl Ha). unfold add_tail in HS.
        destruct (finish OAdd tot terms) as [ | | v | nm s | x | o ts' | o l r | o l r];
          try (injection HS as <-; exact HT).
        destruct o; try (injection HS as <-; exact HT). cbn in HT.
        destruct (cancel eqb (simplify eqb n) (rev ts') []) as [us|] eqn:EC'; cbn [bind] in HS; [|discriminate].
        assert (HU : forallb arith us = true).
        { assert (HX : forall l acc us, cancel eqb (simplify eqb n) l acc = Ok us ->
            forallb arith l = true -> forallb arith acc = true -> forallb arith us = true).
          { clear -eqb. induction l as [|t l IHl]; intros acc us E Hl Hacc; cbn [cancel] in E.
            - now injection E as <-.
            - cbn in Hl. apply andb_true_iff in Hl as [Hl1 Hl2]. destruct acc as [|a acc].
              + eapply IHl; eauto. cbn. now rewrite Hl1.
              + destruct (neg _ t) as [nt|]; cbn [bind] in E; [|discriminate].
                destruct (remove_first eqb nt (a :: acc)) as [acc'|] eqn:Er.
                * eapply IHl; eauto. destruct (remove_first_sound eqb _ _ _ Er) as (y & _ & HP).
                  eapply forallb_perm in HP; [|exact Hacc]. cbn in HP.
                  now apply andb_true_iff in HP as [_ HP].
                * eapply IHl; eauto. cbn [forallb] in *. now rewrite Hl1, Hacc. }
          eapply HX; eauto. rewrite forallb_forall in *. intros x Hx. apply HT. now apply in_rev. }
        destruct us as [|t [|]]; injection HS as <-; cbn in *; auto. now rewrite andb_true_r in HU.
      + injection HS as <-. auto.
    - apply andb_true_iff in Ha as [H1 H2].
      destruct (simplify eqb n l) as [l'|] eqn:El; cbn [bind] in HS; [|discriminate].
      destruct (simplify eqb n r) as [r'|] eqn:Er; cbn [bind] in HS; [|discriminate].
      pose proof (IH _ _ El H1) as Hl. pose proof (IH _ _ Er H2) as Hr.
      assert (HG : (match o with
          | OSub => (let* nr := neg (simplify eqb n) r' in Ok (EAss OAdd [l'; nr]))%res
          | _ => Ok (EBin o l' r') end) = Ok e' -> arith e' = true).
      { destruct o; try (intros E; injection E as <-; cbn; now rewrite Hl, Hr).
        destruct (neg (simplify eqb n) r') as [nr|] eqn:En; cbn [bind]; [|discriminate].
        intros E; injection E as <-. cbn. rewrite Hl, (neg_arith _ IH _ _ En Hr). reflexivity. }
      destruct l'; try (apply HG; exact HS). destruct r'; try (apply HG; exact HS).
      destruct o; cbn [bin_num] in HS.
      + injection HS as <-. auto.
      + destruct (v0 =? 0); [discriminate|]. destruct (_ =? 0); injection HS as <-; auto.
      + destruct (v0 <? 0); [discriminate|]. injection HS as <-. auto.
      + destruct (v0 =? 0); [discriminate|]. injection HS as <-. auto.
  Qed.

  Lemma atom_simplify n e e' : simplify eqb n e = Ok e' -> atom e = true ->
    rel_like e' = true /\ atom e' = true.
  Proof.
    destruct n as [|n]; [discriminate|]. cbn [simplify].
    destruct e as [ | | v | nm s | x | o ts | o l r | o l r]; cbn [atom]; try discriminate.
    1-3: intros E; injection E as <-; auto.
    - destruct x as [ | | v | nm s | x | o ts | o l r | o l r]; try discriminate.
      destruct (simplify eqb n l) as [l'|] eqn:El; cbn [bind]; [|discriminate].
      destruct (simplify eqb n r) as [r'|] eqn:Er; cbn [bind]; [|discriminate].
      intros E H; injection E as <-. apply andb_true_iff in H as [H1 H2].
      split; auto. cbn. now rewrite (simplify_arith _ _ _ El H1), (simplify_arith _ _ _ Er H2).
    - destruct (simplify eqb n l) as [l'|] eqn:El; cbn [bind]; [|discriminate].
      destruct (simplify eqb n r) as [r'|] eqn:Er; cbn [bind]; [|discriminate].
      intros E H; injection E as <-. apply andb_true_iff in H as [H1 H2].
      assert (HD : rel_like (ERel o l' r') = true /\ atom (ERel o l' r') = true).
      { split; auto. cbn. now rewrite (simplify_arith _ _ _ El H1), (simplify_arith _ _ _ Er H2). }
      unfold rel_simp. match goal with |- context [if ?c then _ else _] => destruct c end; auto.
      destruct l'; auto. destruct r'; auto. unfold EBool. destruct (rel_num _ _ _); auto.
  Qed.

  (** the conjunction of the kept terms followed by the constant found *)
  Definition stop_of (o : assop) : bool := match o with OAndThen => false | _ => true end.

  Lemma sc_val_app stop l1 l2 v : sc_val stop (l1 ++ l2) = Some v ->
    (sc_val stop l1 = Some (VBool stop) /\ v = VBool stop) \/
    (sc_val stop l1 = Some (VBool (negb stop)) /\ sc_val stop l2 = Some v).
  Proof.
    induction l1 as [|[[z|b]|] l1 IH]; cbn; try discriminate; auto.
    destruct (Bool.eqb b stop); auto. intros E; injection E as <-; auto.
  Qed.

  Lemma collect_guard o simp m : o = OAndThen \/ o = OOrElse ->
    (forall e e', simp e = Ok e' -> atom e = true -> ok e = true ->
       rel_like e' = true /\ atom e' = true /\ refines e e') ->
    forall work total acc tot' terms', collect simp o m work total acc = Ok (tot', terms') ->
    forallb atom work = true -> forallb ok work = true -> dom o total ->
    exists kept, terms' = rev acc ++ kept /\ forallb atom kept = true /\ dom o tot' /\
      (total <> neutral o -> tot' <> neutral o) /\
      forall v, sc_val (stop_of o) (map (eval g) work) = Some v ->
        if tot' =? neutral o then sc_val (stop_of o) (map (eval g) kept) = Some v
        else (total <> neutral o \/ v = VBool (stop_of o)).
  Proof.
    intros Ho HS. induction m as [|m IH]; intros work total acc tot' terms' HC Ha Hk Hd.
    - destruct work; cbn in HC; [|discriminate]. injection HC as <- <-.
      exists []. rewrite app_nil_r. repeat split; auto. intros v E.
      destruct (Z.eqb_spec total (neutral o)); auto.
    - destruct work as [|t rest]; cbn [collect] in HC.
      + injection HC as <- <-. exists []. rewrite app_nil_r. repeat split; auto. intros v E.
        destruct (Z.eqb_spec total (neutral o)); auto.
      + cbn in Ha, Hk. apply andb_true_iff in Ha as [Ha1 Ha2]. apply andb_true_iff in Hk as [Hk1 Hk2].
        destruct (simp t) as [t'|] eqn:Et; cbn [bind] in HC; [|discriminate].
        destruct (HS _ _ Et Ha1 Hk1) as (Hl & Hat & R).
        assert (Hkeep : collect simp o m rest total (t' :: acc) = Ok (tot', terms') ->
          exists kept, terms' = rev acc ++ kept /\ forallb atom kept = true /\ dom o tot' /\
          (total <> neutral o -> tot' <> neutral o) /\
          forall v, sc_val (stop_of o) (map (eval g) (t :: rest)) = Some v ->
            if tot' =? neutral o then sc_val (stop_of o) (map (eval g) kept) = Some v
            else (total <> neutral o \/ v = VBool (stop_of o))).
        { intros HC'. destruct (IH _ _ _ _ _ HC' Ha2 Hk2 Hd) as (kept & -> & K1 & K2 & K3 & K4).
          exists (t' :: kept). split; [cbn; now rewrite <- app_assoc|].
          split; [cbn; now rewrite Hat|]. split; auto. split; auto.
          intros v E. cbn [map sc_val] in E.
          destruct (eval g t) as [[z|b]|] eqn:Ev; try discriminate.
          destruct (tot' =? neutral o) eqn:En.
          - cbn [map sc_val]. rewrite (R _ _ Ev). destruct (Bool.eqb b (stop_of o)); auto.
          - destruct (Bool.eqb b (stop_of o)) eqn:Eb; [right; congruence|]. auto. }
        assert (Hconst : forall c, dom o c -> eval g t' = Some (VBool (negb (c =? 0))) ->
          collect simp o m rest (operation o total c) acc = Ok (tot', terms') ->
          exists kept, terms' = rev acc ++ kept /\ forallb atom kept = true /\ dom o tot' /\
          (total <> neutral o -> tot' <> neutral o) /\
          forall v, sc_val (stop_of o) (map (eval g) (t :: rest)) = Some v ->
            if tot' =? neutral o then sc_val (stop_of o) (map (eval g) kept) = Some v
            else (total <> neutral o \/ v = VBool (stop_of o))).
        { intros c Hc Ec HC'.
          destruct (IH _ _ _ _ _ HC' Ha2 Hk2 (dom_op _ _ _ Hd Hc)) as (kept & -> & K1 & K2 & K3 & K4).
          assert (HB : boolean_op o = true) by (destruct Ho; subst; reflexivity).
          assert (Hop : operation o total c <> neutral o <-> total <> neutral o \/ c <> neutral o).
          { destruct (Hd HB), (Hc HB), Ho; subst; cbn; intuition congruence. }
          exists kept. split; auto. split; auto. split; auto. split; [tauto|].
          intros v E. cbn [map sc_val] in E.
          destruct (eval g t) as [[z|b]|] eqn:Ev; try discriminate.
          pose proof (R _ _ Ev) as Ev'. rewrite Ec in Ev'. injection Ev' as <-.
          assert (Hcs : Bool.eqb (negb (c =? 0)) (stop_of o) = true <-> c <> neutral o).
          { destruct (Hc HB), Ho; subst; cbn; intuition congruence. }
          destruct (tot' =? neutral o) eqn:En.
          - apply Z.eqb_eq in En. assert (~ (c <> neutral o)) by tauto.
            destruct (Bool.eqb (negb (c =? 0)) (stop_of o)); [tauto|]. auto.
          - destruct (Bool.eqb (negb (c =? 0)) (stop_of o)) eqn:Eb; [right; congruence|].
            specialize (K4 _ E). destruct K4 as [K4|K4]; auto.
            assert (~ (c <> neutral o)) by (intros X; apply Hcs in X; congruence). tauto. }
        destruct t' as [ | | v | nm s | x | p us | bo l r | ro l r]; try discriminate; eauto.
        * apply (Hconst 1); auto. intros _; auto.
        * apply (Hconst 0); auto. intros _; auto.
  Qed.

  Lemma guard_sound o n ts e' : o = OAndThen \/ o = OOrElse ->
    forallb atom ts = true -> forallb ok ts = true ->
    simplify eqb n (EAss o ts) = Ok e' ->
    forall v, eval_sc g (EAss o ts) = Some v -> eval_sc g e' = Some v.
  Proof.
    intros Ho Ha Hk HS v HV. destruct n as [|n]; [discriminate|]. cbn [simplify] in HS.
    assert (HM : forall l, forallb atom l = true -> map (eval_sc g) l = map (eval g) l).
    { intros l Hl. apply map_ext_in. intros t Ht. apply atom_eval.
      rewrite forallb_forall in Hl. auto. }
    assert (HE : forall l, forallb atom l = true ->
      eval_sc g (EAss o l) = sc_val (stop_of o) (map (eval g) l)).
    { intros l Hl. rewrite <- (HM l Hl). destruct Ho; subst; reflexivity. }
    rewrite (HE _ Ha) in HV.
    destruct (collect (simplify eqb n) o n ts (neutral o) []) as [[tot terms]|] eqn:EC;
      cbn [bind] in HS; [|discriminate].
    destruct (collect_guard o (simplify eqb n) n Ho) with (2 := EC) as (kept & -> & K1 & K2 & K3 & K4); auto.
    { intros e e1 E H1 H2. destruct (atom_simplify _ _ _ E H1).
      destruct (simplify_good eqb eqb_sound n _ _ E) as (H3 & _). destruct (H3 H2). auto. }
    { apply dom_neutral. }
    specialize (K4 _ HV). cbn [app rev] in HS.
    assert (HB : boolean_op o = true) by (destruct Ho; subst; reflexivity).
    assert (HR : e' = absorb eqb o (finish o tot kept)).
    { destruct Ho; subst o; injection HS as <-; reflexivity. }
    subst e'. clear HS. unfold finish. rewrite HB.
    destruct kept as [|t kept].
    - destruct (Z.eqb_spec tot (neutral o)) as [Ee|Ee].
      + cbn in K4. rewrite Ee. destruct Ho; subst o; cbn in *; congruence.
      + destruct K4 as [K4|K4]; [congruence|]. subst v.
        destruct (K2 HB), Ho; subst o tot; cbn in *; try congruence.
    - destruct (Z.eqb_spec tot (neutral o)) as [Ee|Ee].
      + (* no constant that decides *)
        assert (HL : forall l, l <> [] -> forallb atom l = true ->
          sc_val (stop_of o) (map (eval g) l) = Some v ->
          eval_sc g (absorb eqb o (match l with [x] => x | _ => EAss o l end)) = Some v).
        { intros l Hne Hl E. destruct l as [|x [|y l]]; [congruence| |].
          - assert (absorb eqb o x = x) as ->.
            { cbn in Hl. rewrite andb_true_r in Hl. destruct x; try discriminate; destruct o; auto. }
            cbn in Hl. rewrite andb_true_r in Hl. rewrite atom_eval by auto.
            cbn in E. destruct (eval g x) as [[z|b]|]; try discriminate.
            destruct b, (stop_of o); cbn in *; congruence.
          - assert (HX : eval_sc g (EAss o (x :: y :: l)) = Some v) by now rewrite HE.
            destruct Ho; subst o; cbn [absorb].
            + destruct (existsb (eqb EFalse) (x :: y :: l)) eqn:Ex; auto.
              apply existsb_exists in Ex as (w & Hin & Ew).
              pose proof (eqb_sound _ _ Ew g) as Hw. cbn in Hw. cbn [eval_sc].
              f_equal. clear -E Hin Hw. cbn [stop_of] in E.
              induction (x :: y :: l) as [|a l' IH]; [contradiction|].
              cbn [map sc_val] in E. destruct (eval g a) as [[z|b]|] eqn:Ea; try discriminate.
              destruct b; cbn in E; [|congruence].
              destruct Hin as [->|Hin]; [congruence|auto].
            + destruct (existsb (eqb ETrue) (x :: y :: l)) eqn:Ex; auto.
              apply existsb_exists in Ex as (w & Hin & Ew).
              pose proof (eqb_sound _ _ Ew g) as Hw. cbn in Hw. cbn [eval_sc].
              f_equal. clear -E Hin Hw. cbn [stop_of] in E.
              induction (x :: y :: l) as [|a l' IH]; [contradiction|].
              cbn [map sc_val] in E. destruct (eval g a) as [[z|b]|] eqn:Ea; try discriminate.
              destruct b; cbn in E; [congruence|].
              destruct Hin as [->|Hin]; [congruence|auto]. }
        exact (HL (t :: kept) ltac:(discriminate) K1 K4).
      + destruct K4 as [K4|K4]; [congruence|]. subst v.
        assert (EX : forall c l, existsb (eqb c) ((t :: l) ++ [c]) = true).
        { intros c l. rewrite existsb_app. cbn. rewrite eqb_refl. cbn. now rewrite orb_true_r. }
        destruct (K2 HB), Ho; subst o tot; try (cbn in Ee; congruence).
        * cbn [Z.eqb negb EBool].
          destruct kept as [|t2 kept]; cbn [app]; cbn [absorb].
          -- change [t; EFalse] with ([t] ++ [EFalse]). rewrite (EX EFalse []). reflexivity.
          -- change (t :: t2 :: kept ++ [EFalse]) with ((t :: t2 :: kept) ++ [EFalse]).
             rewrite (EX EFalse (t2 :: kept)). reflexivity.
        * cbn [Z.eqb negb EBool].
          destruct kept as [|t2 kept]; cbn [app]; cbn [absorb].
          -- change [t; ETrue] with ([t] ++ [ETrue]). rewrite (EX ETrue []). reflexivity.
          -- change (t :: t2 :: kept ++ [ETrue]) with ((t :: t2 :: kept) ++ [ETrue]).
             rewrite (EX ETrue (t2 :: kept)). reflexivity.
  Qed.
End Guards.

Lemma expr_eqb_refl e : expr_eqb e e = true.
Proof.
  induction e as [ | |z|n b|a IH|o ts IH|o l r IHl IHr|o l r IHl IHr] using expr_ind'; cbn; auto.
  - apply Z.eqb_refl.
  - rewrite eqb_reflx, andb_true_r. now apply name_eqb_eq.
  - assert (assop_eqb o o = true) as -> by (destruct o; auto). cbn.
    induction IH as [|x l Hx HF IHl]; auto. now rewrite Hx.
  - assert (binop_eqb o o = true) as -> by (destruct o; auto). now rewrite IHl, IHr.
  - assert (relop_eqb o o = true) as -> by (destruct o; auto). now rewrite IHl, IHr.
Qed.
