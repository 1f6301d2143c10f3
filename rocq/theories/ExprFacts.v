(** Soundness of simplification: lemmas. *)
From Coq Require Import String List ZArith Bool Lia Permutation.
From Verif Require Import Base Expr ExprEval.
Import ListNotations.
Local Open Scope Z_scope.

Section ExprInd.
  Variable P : expr -> Prop.
  Hypothesis HT : P ETrue.
  Hypothesis HF : P EFalse.
  Hypothesis HN : forall v, P (ENum v).
  Hypothesis HNm : forall n s, P (EName n s).
  Hypothesis HNot : forall e, P e -> P (ENot e).
  Hypothesis HA : forall o ts, Forall P ts -> P (EAss o ts).
  Hypothesis HB : forall o l r, P l -> P r -> P (EBin o l r).
  Hypothesis HR : forall o l r, P l -> P r -> P (ERel o l r).
  Fixpoint expr_ind' (e : expr) : P e :=
    match e with
    | ETrue => HT
    | EFalse => HF
    | ENum v => HN v
    | EName n s => HNm n s
    | ENot x => HNot x (expr_ind' x)
    | EAss o ts => HA o ts ((fix go (l : list expr) : Forall P l :=
        match l with [] => Forall_nil P | x :: t => Forall_cons x (expr_ind' x) (go t) end) ts)
    | EBin o l r => HB o l r (expr_ind' l) (expr_ind' r)
    | ERel o l r => HR o l r (expr_ind' l) (expr_ind' r)
    end.
End ExprInd.

(** ** Fragments *)

(** arithmetic over literals only, without division *)
Fixpoint const (e : expr) : bool :=
  match e with
  | ENum _ => true
  | EAss OAdd ts | EAss OMul ts => forallb const ts
  | EBin OSub l r | EBin OPow l r | EBin OMod l r => const l && const r
  | _ => false
  end.

(** may be an operand of + and -: powers and modulo only of literals *)
Fixpoint safe (e : expr) : bool :=
  match e with
  | ENum _ | EName _ _ => true
  | EAss OAdd ts | EAss OMul ts => forallb safe ts
  | EBin OSub l r | EBin ODiv l r => safe l && safe r
  | EBin OPow l r | EBin OMod l r => const l && const r
  | _ => false
  end.

(** the fragment on which simplification is claimed to be sound *)
Fixpoint ok (e : expr) : bool :=
  match e with
  | ETrue | EFalse | ENum _ | EName _ _ => true
  | ENot x => ok x
  | EAss OAdd ts => forallb safe ts
  | EAss _ ts => forallb ok ts
  | EBin OSub l r => safe l && safe r
  | EBin _ l r => ok l && ok r
  | ERel _ l r => ok l && ok r
  end.

(** simplified operands of + *)
Fixpoint nsafe (e : expr) : bool :=
  match e with
  | ENum _ | EName _ _ => true
  | EAss OAdd ts | EAss OMul ts => forallb nsafe ts
  | EBin ODiv l r => nsafe l && nsafe r
  | _ => false
  end.

Lemma forallb_impl {A} (f g : A -> bool) l :
  Forall (fun x => f x = true -> g x = true) l -> forallb f l = true -> forallb g l = true.
Proof.
  induction 1; cbn; auto. rewrite !andb_true_iff. intuition.
Qed.

Lemma const_safe e : const e = true -> safe e = true.
Proof.
  induction e using expr_ind'; cbn; auto; try discriminate.
  - destruct o; try discriminate; now apply forallb_impl.
  - destruct o; rewrite ?andb_true_iff in *; try discriminate; intuition.
Qed.

Lemma safe_ok e : safe e = true -> ok e = true.
Proof.
  induction e using expr_ind'; cbn; auto; try discriminate.
  - destruct o; try discriminate; auto. now apply forallb_impl.
  - destruct o; rewrite ?andb_true_iff in *; try discriminate; intuition;
      auto using const_safe.
Qed.

Lemma nsafe_safe e : nsafe e = true -> safe e = true.
Proof.
  induction e using expr_ind'; cbn; auto; try discriminate.
  - destruct o; try discriminate; now apply forallb_impl.
  - destruct o; rewrite ?andb_true_iff in *; try discriminate; intuition.
Qed.

Lemma forallb_nsafe_safe l : forallb nsafe l = true -> forallb safe l = true.
Proof. apply forallb_impl. apply Forall_forall. intros; now apply nsafe_safe. Qed.
Lemma forallb_safe_ok l : forallb safe l = true -> forallb ok l = true.
Proof. apply forallb_impl. apply Forall_forall. intros; now apply safe_ok. Qed.

(** ** Uniform view of the associative operators *)

Definition b2z (b : bool) : Z := if b then 1 else 0.

Definition tvals (o : assop) (vs : list (option val)) : option (list Z) :=
  if boolean_op o then option_map (map b2z) (bools vs) else ints vs.

Definition comb (o : assop) (zs : list Z) : Z := fold_right (operation o) (neutral o) zs.

Definition mk (o : assop) (z : Z) : val :=
  if boolean_op o then VBool (negb (z =? 0)) else VInt z.

Definition dom (o : assop) (z : Z) : Prop := boolean_op o = true -> z = 0 \/ z = 1.

Lemma dom_neutral o : dom o (neutral o).
Proof. destruct o; cbv; intuition. Qed.

Lemma dom_op o a b : dom o a -> dom o b -> dom o (operation o a b).
Proof.
  unfold dom; intros Ha Hb E. specialize (Ha E). specialize (Hb E).
  destruct o; try discriminate; cbn; destruct Ha; subst a; cbn; auto.
Qed.

Lemma dom_comb o l : Forall (dom o) l -> dom o (comb o l).
Proof. induction 1; cbn. apply dom_neutral. now apply dom_op. Qed.

Lemma op_assoc o a b c : operation o a (operation o b c) = operation o (operation o a b) c.
Proof.
  destruct o; cbn; try ring; destruct (Z.eqb_spec a 0); auto; subst;
    try reflexivity; destruct (Z.eqb_spec a 0); auto; contradiction.
Qed.

Lemma op_comm o a b : dom o a -> dom o b -> operation o a b = operation o b a.
Proof.
  unfold dom; intros Ha Hb.
  destruct o; cbn in *; try ring;
    destruct (Ha eq_refl), (Hb eq_refl); subst; reflexivity.
Qed.

Lemma op_neutral_l o a : operation o (neutral o) a = a.
Proof. destruct o; cbn; auto; destruct a; auto. Qed.
Lemma op_neutral_r o a : dom o a -> operation o a (neutral o) = a.
Proof.
  unfold dom; intros Ha. destruct o; cbn in *; try ring; destruct (Ha eq_refl); subst; reflexivity.
Qed.

Lemma comb_app o l1 l2 : comb o (l1 ++ l2) = operation o (comb o l1) (comb o l2).
Proof.
  induction l1; cbn.
  - now rewrite op_neutral_l.
  - unfold comb in *. rewrite IHl1. apply op_assoc.
Qed.

Lemma comb_and l : (negb (comb OAnd (map b2z l) =? 0)) = allb l.
Proof. induction l as [|[] l IH]; cbn in *; auto. Qed.
Lemma comb_or l : (negb (comb OOr (map b2z l) =? 0)) = anyb l.
Proof. induction l as [|[] l IH]; cbn in *; auto. Qed.

Lemma ass_val_spec o vs :
  ass_val o vs = match tvals o vs with Some zs => Some (mk o (comb o zs)) | None => None end.
Proof.
  unfold tvals, mk.
  destruct o; cbn [boolean_op ass_val]; destruct (bools vs) eqn:E1; destruct (ints vs) eqn:E2;
    cbn [option_map]; auto; do 2 f_equal; rewrite <- ?comb_and, <- ?comb_or; reflexivity.
Qed.

Lemma ints_app l1 l2 :
  ints (l1 ++ l2) = match ints l1, ints l2 with
                    | Some a, Some b => Some (a ++ b) | _, _ => None end.
Proof.
  induction l1 as [|[[z|b]|] l1 IH]; cbn; auto.
  - destruct (ints l2); auto.
  - rewrite IH. destruct (ints l1), (ints l2); auto.
Qed.
Lemma bools_app l1 l2 :
  bools (l1 ++ l2) = match bools l1, bools l2 with
                    | Some a, Some b => Some (a ++ b) | _, _ => None end.
Proof.
  induction l1 as [|[[z|b]|] l1 IH]; cbn; auto.
  - destruct (bools l2); auto.
  - rewrite IH. destruct (bools l1), (bools l2); auto.
Qed.

Lemma tvals_app o l1 l2 :
  tvals o (l1 ++ l2) = match tvals o l1, tvals o l2 with
                    | Some a, Some b => Some (a ++ b) | _, _ => None end.
Proof.
  unfold tvals. destruct (boolean_op o).
  - rewrite bools_app. destruct (bools l1), (bools l2); cbn; auto. now rewrite map_app.
  - apply ints_app.
Qed.

(** [Some z] when the value has the operand type of [o] *)
Definition tval (o : assop) (v : option val) : option Z :=
  match v with
  | Some (VInt z) => if boolean_op o then None else Some z
  | Some (VBool b) => if boolean_op o then Some (b2z b) else None
  | None => None
  end.

Lemma tvals_cons o v l :
  tvals o (v :: l) = match tval o v, tvals o l with
                     | Some z, Some zs => Some (z :: zs) | _, _ => None end.
Proof.
  unfold tvals, tval. destruct v as [[z|b]|]; cbn; destruct (boolean_op o); auto.
  - destruct (bools l); auto.
Qed.

Lemma tvals_dom o vs zs : tvals o vs = Some zs -> Forall (dom o) zs.
Proof.
  revert zs; induction vs as [|v vs IH]; intros zs.
  - unfold tvals. destruct (boolean_op o); cbn; intros E; injection E as <-; constructor.
  - rewrite tvals_cons.
    destruct (tval o v) as [z|] eqn:E; [|discriminate].
    destruct (tvals o vs) as [l|] eqn:E2; [|discriminate].
    intros H; injection H as <-. constructor; [|auto].
    unfold tval in E. unfold dom. destruct v as [[y|b]|]; try discriminate;
      destruct (boolean_op o); try discriminate. injection E as <-. destruct b; cbn; auto.
Qed.

Lemma tval_mk o z : dom o z -> tval o (Some (mk o z)) = Some z.
Proof.
  unfold dom, tval, mk. destruct (boolean_op o); auto.
  intros H. destruct (H eq_refl); subst; reflexivity.
Qed.

Lemma mk_tval o v z : tval o v = Some z -> v = Some (mk o z) /\ dom o z.
Proof.
  unfold tval, mk, dom. destruct v as [[x|b]|]; try discriminate; destruct (boolean_op o);
    try discriminate; intros E; injection E as <-; split; auto; try discriminate;
    destruct b; cbn; auto.
Qed.

Lemma flattens_same o p : flattens o p = true ->
  boolean_op p = boolean_op o /\ neutral p = neutral o /\
  (forall a b, operation p a b = operation o a b).
Proof. destruct o, p; try discriminate; cbn; auto. Qed.

Lemma flattens_comb o p : flattens o p = true -> forall l, comb p l = comb o l.
Proof.
  intros H. destruct (flattens_same _ _ H) as (_ & H2 & H3). unfold comb.
  induction l; cbn; auto. now rewrite IHl, H3.
Qed.
Lemma flattens_tvals o p : flattens o p = true -> forall l, tvals p l = tvals o l.
Proof. intros H l. destruct (flattens_same _ _ H) as (H1 & _). unfold tvals. now rewrite H1. Qed.
Lemma flattens_mk o p : flattens o p = true -> forall z, mk p z = mk o z.
Proof. intros H l. destruct (flattens_same _ _ H) as (H1 & _). unfold mk. now rewrite H1. Qed.

(** ** Preservation *)

Definition refines (e e' : expr) : Prop :=
  forall g v, eval g e = Some v -> eval g e' = Some v.

Lemma refines_refl e : refines e e.
Proof. firstorder. Qed.

Section Sound.
  Variable eqb : expr -> expr -> bool.
  Hypothesis eqb_sound : forall a b, eqb a b = true -> forall g, eval g a = eval g b.

  Section Collect.
    Variable simp : expr -> res expr.
    Variable o : assop.
    Variables Gin Gout : expr -> bool.
    Hypothesis simp_ok : forall e e', simp e = Ok e' -> Gin e = true ->
      Gout e' = true /\ refines e e'.
    Hypothesis Gflat : forall p us, Gout (EAss p us) = true -> flattens o p = true ->
      forallb Gin us = true.

    Lemma collect_sound m : forall work total acc tot' terms',
      collect simp o m work total acc = Ok (tot', terms') ->
      forallb Gin work = true -> forallb Gout acc = true ->
      forallb Gout terms' = true /\
      forall g zw za, dom o total ->
        tvals o (map (eval g) work) = Some zw ->
        tvals o (map (eval g) (rev acc)) = Some za ->
        exists zt, tvals o (map (eval g) terms') = Some zt /\ dom o tot' /\
          operation o tot' (comb o zt)
          = operation o (operation o total (comb o za)) (comb o zw).
    Proof.
      induction m as [|m IH]; intros work total acc tot' terms' HC Hw Ha.
      - destruct work; cbn in HC; [|discriminate]. injection HC as <- <-.
        split.
        + rewrite forallb_forall in *. intros x Hx. apply Ha. now apply in_rev.
        + intros g zw za Hd Hzw Hza. exists za. split; auto. split; auto.
          unfold tvals in Hzw. destruct (boolean_op o); cbn in Hzw; injection Hzw as <-;
            cbn [comb fold_right map]; rewrite op_neutral_r; auto;
            apply dom_op; auto; apply dom_comb; eapply tvals_dom; eauto.
      - destruct work as [|term rest]; cbn [collect] in HC.
        + injection HC as <- <-. split.
          * rewrite forallb_forall in *. intros x Hx. apply Ha. now apply in_rev.
          * intros g zw za Hd Hzw Hza. exists za. split; auto. split; auto.
            unfold tvals in Hzw. destruct (boolean_op o); cbn in Hzw; injection Hzw as <-;
              cbn [comb fold_right map]; rewrite op_neutral_r; auto;
              apply dom_op; auto; apply dom_comb; eapply tvals_dom; eauto.
        + cbn [forallb] in Hw. apply andb_true_iff in Hw as [Hterm Hrest].
          destruct (simp term) as [t|w] eqn:ES; cbn [bind] in HC; [|discriminate].
          destruct (simp_ok _ _ ES Hterm) as [Gt Rt].
          (* value of the head *)
          assert (Hhead : forall g zw, tvals o (map (eval g) (term :: rest)) = Some zw ->
                    exists z zr, zw = z :: zr /\ tval o (eval g t) = Some z /\ dom o z /\
                      tvals o (map (eval g) rest) = Some zr).
          { intros g zw. cbn [map]. rewrite tvals_cons.
            destruct (tval o (eval g term)) as [z|] eqn:E1; [|discriminate].
            destruct (tvals o (map (eval g) rest)) as [zr|] eqn:E2; [|discriminate].
            intros E; injection E as <-. exists z, zr.
            destruct (mk_tval _ _ _ E1) as [E3 Hd]. apply Rt in E3. rewrite E3.
            rewrite tval_mk by auto. auto. }
          (* constant case *)
          assert (Hconst : forall c,
            (forall g z, tval o (eval g t) = Some z -> z = c) ->
            collect simp o m rest (operation o total c) acc = Ok (tot', terms') ->
            forallb Gout terms' = true /\
            forall g zw za, dom o total ->
              tvals o (map (eval g) (term :: rest)) = Some zw ->
              tvals o (map (eval g) (rev acc)) = Some za ->
              exists zt, tvals o (map (eval g) terms') = Some zt /\ dom o tot' /\
                operation o tot' (comb o zt)
                = operation o (operation o total (comb o za)) (comb o zw)).
          { intros c Hc HC'. destruct (IH _ _ _ _ _ HC' Hrest Ha) as [G1 G2].
            split; auto. intros g zw za Hd Hzw Hza.
            destruct (Hhead g zw Hzw) as (z & zr & -> & E1 & Hdz & E2).
            pose proof (Hc g z E1); subst c.
            destruct (G2 g zr za (dom_op _ _ _ Hd Hdz) E2 Hza) as (zt & E3 & Hd' & E4).
            exists zt. split; auto. split; auto. rewrite E4.
            change (comb o (z :: zr)) with (operation o z (comb o zr)).
            assert (dom o (comb o za)) by (apply dom_comb; eapply tvals_dom; eauto).
            rewrite <- !op_assoc. f_equal.
            rewrite (op_assoc o z), (op_assoc o (comb o za)). f_equal.
            apply op_comm; auto. }
          assert (Hkeep :
            collect simp o m rest total (t :: acc) = Ok (tot', terms') ->
            forallb Gout terms' = true /\
            forall g zw za, dom o total ->
              tvals o (map (eval g) (term :: rest)) = Some zw ->
              tvals o (map (eval g) (rev acc)) = Some za ->
              exists zt, tvals o (map (eval g) terms') = Some zt /\ dom o tot' /\
                operation o tot' (comb o zt)
                = operation o (operation o total (comb o za)) (comb o zw)).
          { intros HC'. destruct (IH _ _ _ _ _ HC' Hrest) as [G1 G2].
            { cbn. now rewrite Gt, Ha. }
            split; auto. intros g zw za Hd Hzw Hza.
            destruct (Hhead g zw Hzw) as (z & zr & -> & E1 & Hdz & E2).
            assert (Hza' : tvals o (map (eval g) (rev (t :: acc))) = Some (za ++ [z])).
            { cbn [rev]. rewrite map_app, tvals_app, Hza. cbn [map].
              rewrite tvals_cons, E1. unfold tvals. destruct (boolean_op o); reflexivity. }
            destruct (G2 g zr (za ++ [z]) Hd E2 Hza') as (zt & E3 & Hd' & E4).
            exists zt. split; auto. split; auto. rewrite E4.
            rewrite comb_app.
            change (comb o (z :: zr)) with (operation o z (comb o zr)).
            change (comb o [z]) with (operation o z (neutral o)).
            rewrite (op_neutral_r o z) by auto.
            rewrite <- !op_assoc. reflexivity. }
          destruct t as [ | | v | nm s | x | p us | bo l r | ro l r]; try (apply Hkeep; assumption).
          * apply (Hconst 1); [|assumption]. intros g z. cbn. destruct (boolean_op o); congruence.
          * apply (Hconst 0); [|assumption]. intros g z. cbn. destruct (boolean_op o); congruence.
          * apply (Hconst v); [|assumption]. intros g z. cbn. destruct (boolean_op o); congruence.
          * destruct (flattens o p) eqn:EF; [|apply Hkeep; assumption].
            pose proof (Gflat _ _ Gt EF) as Gus.
            destruct (IH _ _ _ _ _ HC) as [G1 G2]; auto.
            { rewrite forallb_app. now rewrite Hrest, Gus. }
            split; auto. intros g zw za Hd Hzw Hza.
            destruct (Hhead g zw Hzw) as (z & zr & -> & E1 & Hdz & E2).
            cbn [eval] in E1. rewrite ass_val_spec in E1.
            destruct (tvals p (map (eval g) us)) as [zu|] eqn:E5; [|discriminate].
            rewrite (flattens_mk _ _ EF), (flattens_comb _ _ EF) in E1.
            rewrite (flattens_tvals _ _ EF) in E5.
            assert (dom o (comb o zu)) by (apply dom_comb; eapply tvals_dom; eauto).
            rewrite tval_mk in E1 by auto. injection E1 as <-.
            destruct (G2 g (zr ++ zu) za Hd) as (zt & E3 & Hd' & E4); auto.
            { rewrite map_app, tvals_app, E2, E5. reflexivity. }
            exists zt. split; auto. split; auto. rewrite E4. f_equal.
            rewrite comb_app.
            change (comb o (comb o zu :: zr)) with (operation o (comb o zu) (comb o zr)).
            apply op_comm; auto.
            apply dom_comb; eapply tvals_dom; eauto.
    Qed.
  End Collect.

  Lemma finish_eval o tot terms g zt :
    tvals o (map (eval g) terms) = Some zt -> dom o tot ->
    eval g (finish o tot terms) = Some (mk o (operation o tot (comb o zt))).
  Proof.
    intros E Hd.
    assert (Hlast : forall z, dom o z ->
      tval o (eval g (if boolean_op o then EBool (negb (z =? 0)) else ENum z)) = Some z).
    { intros z Hz. unfold tval, dom in *. destruct (boolean_op o) eqn:Eo; cbn [eval]; auto.
      destruct (Hz eq_refl); subst; reflexivity. }
    assert (Hmk : forall z, dom o z ->
      eval g (if boolean_op o then EBool (negb (z =? 0)) else ENum z) = Some (mk o z)).
    { intros z Hz. apply Hlast in Hz. now apply mk_tval in Hz. }
    assert (Hlist : forall ts zs, tvals o (map (eval g) ts) = Some zs ->
      ts <> [] -> eval g (match ts with [t] => t | _ => EAss o ts end) = Some (mk o (comb o zs))).
    { intros ts zs Ez Hne. destruct ts as [|t [|t2 ts]]; [congruence| |].
      - cbn [map] in Ez. rewrite tvals_cons in Ez.
        destruct (tval o (eval g t)) as [z|] eqn:E1; [|discriminate].
        destruct (mk_tval _ _ _ E1) as [E2 Hz]. rewrite E2.
        assert (zs = [z]) as ->.
        { unfold tvals in Ez. destruct (boolean_op o); cbn in Ez; congruence. }
        cbn [comb fold_right]. now rewrite op_neutral_r.
      - cbn [eval]. rewrite ass_val_spec. cbn [map] in *. rewrite Ez. reflexivity. }
    destruct terms as [|t ts].
    - cbn [finish]. rewrite Hmk by auto.
      assert (zt = []) as ->.
      { unfold tvals in E. destruct (boolean_op o); cbn in E; congruence. }
      cbn [comb fold_right]. now rewrite op_neutral_r.
    - unfold finish. destruct (Z.eqb_spec tot (neutral o)) as [->|Hne].
      + rewrite op_neutral_l. exact (Hlist (t :: ts) zt E ltac:(discriminate)).
      + assert (EE : tvals o (map (eval g) ((t :: ts) ++
            [if boolean_op o then EBool (negb (tot =? 0)) else ENum tot])) = Some (zt ++ [tot])).
        { rewrite map_app, tvals_app, E. cbn [map]. rewrite tvals_cons, Hlast by auto.
          unfold tvals. destruct (boolean_op o); reflexivity. }
        etransitivity; [exact (Hlist _ _ EE ltac:(discriminate))|]. do 2 f_equal.
        rewrite comb_app. change (comb o [tot]) with (operation o tot (neutral o)).
        rewrite op_neutral_r by auto.
        apply op_comm; auto. apply dom_comb. eapply tvals_dom; eauto.
  Qed.

  Lemma finish_G o (G : expr -> bool) tot terms :
    (forall b, boolean_op o = true -> G (EBool b) = true) ->
    (forall z, boolean_op o = false -> G (ENum z) = true) ->
    (forall ts, forallb G ts = true -> G (EAss o ts) = true) ->
    forallb G terms = true -> G (finish o tot terms) = true.
  Proof.
    intros HB HN HA Ht.
    assert (Hlast : forall z, G (if boolean_op o then EBool (negb (z =? 0)) else ENum z) = true).
    { intros z. destruct (boolean_op o); auto. }
    unfold finish. destruct terms as [|t ts]; [apply Hlast|].
    set (l := if tot =? neutral o then t :: ts else _).
    assert (Hl : forallb G l = true).
    { subst l. destruct (tot =? neutral o); auto. rewrite forallb_app, Ht. cbn.
      now rewrite Hlast. }
    destruct l as [|a [|b l]]; [now apply HA | cbn in Hl; now rewrite andb_true_r in Hl | now apply HA].
  Qed.

  Lemma allb_false l : In false l -> allb l = false.
  Proof. intros H. apply not_true_iff_false. intros E. unfold allb in E.
    rewrite forallb_forall in E. now specialize (E _ H). Qed.
  Lemma anyb_true l : In true l -> anyb l = true.
  Proof. intros H. unfold anyb. apply existsb_exists. eauto. Qed.

  Lemma bools_In g ts bs t b : bools (map (eval g) ts) = Some bs -> In t ts ->
    eval g t = Some (VBool b) -> In b bs.
  Proof.
    revert bs; induction ts as [|x ts IH]; intros bs E Hin Et; [contradiction|].
    cbn in E. destruct (eval g x) as [[z|c]|] eqn:Ex; try discriminate.
    destruct (bools (map (eval g) ts)) as [bs'|] eqn:E2; [|discriminate].
    injection E as <-. destruct Hin as [->|Hin].
    - left. congruence.
    - right. eapply IH; eauto.
  Qed.

  Lemma absorb_refines o e : refines e (absorb eqb o e).
  Proof.
    destruct e as [ | | v | nm s | x | p us | bo l r | ro l r];
      try (destruct o; apply refines_refl).
    assert (HA : p = OAnd \/ p = OAndThen -> existsb (eqb EFalse) us = true ->
                 refines (EAss p us) EFalse).
    { intros Hp HE. apply existsb_exists in HE as (t & Hin & He).
      intros g v. pose proof (eqb_sound _ _ He g) as Ht. cbn [eval] in Ht.
      destruct Hp; subst p; cbn [eval ass_val];
        (destruct (bools (map (eval g) us)) as [bs|] eqn:Eb; [|discriminate]);
        intros E; injection E as <-;
        rewrite (allb_false bs); auto; eapply bools_In; eauto. }
    assert (HO : p = OOr \/ p = OOrElse -> existsb (eqb ETrue) us = true ->
                 refines (EAss p us) ETrue).
    { intros Hp HE. apply existsb_exists in HE as (t & Hin & He).
      intros g v. pose proof (eqb_sound _ _ He g) as Ht. cbn [eval] in Ht.
      destruct Hp; subst p; cbn [eval ass_val];
        (destruct (bools (map (eval g) us)) as [bs|] eqn:Eb; [|discriminate]);
        intros E; injection E as <-;
        rewrite (anyb_true bs); auto; eapply bools_In; eauto. }
    destruct o, p; cbn [absorb]; try apply refines_refl;
      match goal with |- context [if ?c then _ else _] => destruct c eqn:EE end;
      try apply refines_refl; auto.
  Qed.

  Lemma absorb_ok o e : ok e = true -> ok (absorb eqb o e) = true.
  Proof.
    destruct e; destruct o; cbn [absorb]; auto;
      destruct o0; auto; destruct (existsb _ _); auto.
  Qed.

  (** negation of a simplified operand *)
  Lemma neg_sound simp :
    (forall e e', simp e = Ok e' -> safe e = true -> nsafe e' = true /\ refines e e') ->
    forall e e', neg simp e = Ok e' -> nsafe e = true ->
      nsafe e' = true /\
      forall g z, eval g e = Some (VInt z) -> eval g e' = Some (VInt (- z)).
  Proof.
    intros HS. induction e using expr_ind'; intros e' HN Hs; cbn [nsafe] in Hs; try discriminate.
    - cbn in HN. injection HN as <-. split; auto. intros g z E. cbn in *. congruence.
    - cbn in HN. injection HN as <-. split; auto. intros g z. cbn [eval].
      unfold name_val. destruct (g n) as [y|b], s; cbn; try discriminate;
        intros E; injection E as <-; do 2 f_equal; lia.
    - destruct o; try discriminate.
      + (* Add *)
        cbn [neg] in HN.
        match type of HN with bind (?F ts) _ = _ => set (go := F) in * end.
        assert (HG : forall ts', go ts = Ok ts' -> forallb nsafe ts' = true /\
          forall g zs, ints (map (eval g) ts) = Some zs ->
            ints (map (eval g) ts') = Some (map Z.opp zs)).
        { clear HN. induction H as [|x l Hx HF IHl]; intros ts' E; cbn in E.
          - injection E as <-. split; auto. intros g zs E. cbn in *. injection E as <-. reflexivity.
          - cbn in Hs. apply andb_true_iff in Hs as [Hs1 Hs2].
            destruct (neg simp x) as [y|] eqn:E1; cbn [bind] in E; [|discriminate].
            fold go in E. destruct (go l) as [ys|] eqn:E2; cbn [bind] in E; [|discriminate].
            injection E as <-. destruct (Hx _ eq_refl Hs1) as [N1 V1].
            destruct (IHl Hs2 _ eq_refl) as [N2 V2].
            split; [cbn; now rewrite N1, N2|].
            intros g zs E. cbn in E. destruct (eval g x) as [[z|b]|] eqn:Ex; try discriminate.
            destruct (ints (map (eval g) l)) as [zl|] eqn:El; [|discriminate].
            injection E as <-. cbn [map ints]. rewrite (V1 _ _ Ex), (V2 _ _ El). reflexivity. }
        destruct (go ts) as [ts'|] eqn:E; cbn [bind] in HN; [|discriminate].
        injection HN as <-. destruct (HG _ eq_refl) as [N V]. split; auto.
        intros g z. cbn [eval ass_val].
        destruct (ints (map (eval g) ts)) as [zs|] eqn:Ez; [|discriminate].
        intros E1; injection E1 as <-. rewrite (V _ _ Ez). do 2 f_equal.
        clear. induction zs; cbn; auto. unfold sumZ in IHzs. rewrite IHzs. lia.
      + (* Mul *)
        cbn [neg] in HN.
        destruct (HS _ _ HN) as [N R].
        { cbn [safe]. rewrite forallb_app. rewrite (forallb_nsafe_safe _ Hs). reflexivity. }
        split; auto. intros g z Ez. apply R. cbn [eval ass_val] in *.
        rewrite map_app, ints_app.
        destruct (ints (map (eval g) ts)) as [zs|] eqn:Ez'; [|discriminate].
        injection Ez as <-. cbn. do 2 f_equal.
        clear. unfold prodZ. induction zs; cbn in *; auto. rewrite IHzs. ring.
    - destruct o; try discriminate. apply andb_true_iff in Hs as [Hs1 Hs2].
      cbn [neg] in HN. destruct (neg simp e1) as [l'|] eqn:E1; cbn [bind] in HN; [|discriminate].
      injection HN as <-. destruct (IHe1 _ eq_refl Hs1) as [N V]. split.
      { cbn. now rewrite N, Hs2. }
      intros g z. cbn [eval].
      destruct (eval g e1) as [[x|b]|] eqn:Ex; [|discriminate|discriminate].
      destruct (eval g e2) as [[y|b]|] eqn:Ey; [|discriminate|discriminate].
      rewrite (V _ _ Ex). cbn. destruct (Z.eqb_spec y 0); [discriminate|].
      intros E; injection E as <-. do 2 f_equal. now apply Z.quot_opp_l.
  Qed.

  Lemma remove_first_sound x l l' : remove_first eqb x l = Some l' ->
    exists y, eqb y x = true /\ Permutation l (y :: l').
  Proof.
    revert l'; induction l as [|a l IH]; cbn; intros l' E; [discriminate|].
    destruct (eqb a x) eqn:Ea.
    - injection E as <-. eauto.
    - destruct (remove_first eqb x l) as [l''|] eqn:E2; [|discriminate].
      injection E as <-. destruct (IH _ eq_refl) as (y & Hy & HP). exists y. split; auto.
      etransitivity; [apply perm_skip, HP|]. apply perm_swap.
  Qed.

  Lemma ints_perm g l l' zs : Permutation l l' -> ints (map (eval g) l) = Some zs ->
    exists zs', ints (map (eval g) l') = Some zs' /\ sumZ zs' = sumZ zs.
  Proof.
    intros HP; revert zs. induction HP; intros zs E.
    - eauto.
    - cbn in E. destruct (eval g x) as [[z|b]|] eqn:Ex; try discriminate.
      destruct (ints (map (eval g) l)) as [zl|] eqn:El; [|discriminate].
      injection E as <-. destruct (IHHP _ eq_refl) as (zs' & E' & S').
      exists (z :: zs'). cbn. rewrite Ex, E'. split; auto. unfold sumZ in *. cbn. lia.
    - cbn in E. destruct (eval g y) as [[z|b]|] eqn:Ey; try discriminate.
      destruct (eval g x) as [[z'|b]|] eqn:Ex; try discriminate.
      destruct (ints (map (eval g) l)) as [zl|] eqn:El; [|discriminate].
      injection E as <-. exists (z' :: z :: zl). cbn. rewrite Ex, Ey, El. split; auto. cbn. lia.
    - destruct (IHHP1 _ E) as (z1 & E1 & S1). destruct (IHHP2 _ E1) as (z2 & E2 & S2).
      exists z2. split; auto. lia.
  Qed.

  Lemma forallb_perm (G : expr -> bool) l l' : Permutation l l' ->
    forallb G l = true -> forallb G l' = true.
  Proof.
    intros HP. rewrite !forallb_forall. intros H x Hx. apply H.
    eapply Permutation_in; [symmetry; eauto|auto].
  Qed.

  Lemma cancel_sound simp :
    (forall e e', simp e = Ok e' -> safe e = true -> nsafe e' = true /\ refines e e') ->
    forall l acc ts', cancel eqb simp l acc = Ok ts' ->
      forallb nsafe l = true -> forallb nsafe acc = true ->
      forallb nsafe ts' = true /\
      forall g zl za, ints (map (eval g) l) = Some zl -> ints (map (eval g) acc) = Some za ->
        exists zt, ints (map (eval g) ts') = Some zt /\ sumZ zt = sumZ zl + sumZ za.
  Proof.
    intros HS. induction l as [|t l IH]; intros acc ts' HC Hl Ha; cbn [cancel] in HC.
    - injection HC as <-. split; auto. intros g zl za E1 E2. exists za. split; auto.
      cbn in E1. injection E1 as <-. reflexivity.
    - cbn in Hl. apply andb_true_iff in Hl as [Ht Hl].
      assert (Hins : forall acc', acc' = acc -> cancel eqb simp l (t :: acc') = Ok ts' ->
        forallb nsafe ts' = true /\
        forall g zl za, ints (map (eval g) (t :: l)) = Some zl -> ints (map (eval g) acc) = Some za ->
          exists zt, ints (map (eval g) ts') = Some zt /\ sumZ zt = sumZ zl + sumZ za).
      { intros acc' -> E. destruct (IH _ _ E) as [N V]; auto.
        { cbn. now rewrite Ht, Ha. }
        split; auto. intros g zl za E1 E2. cbn in E1.
        destruct (eval g t) as [[z|b]|] eqn:Et; try discriminate.
        destruct (ints (map (eval g) l)) as [zl'|] eqn:El; [|discriminate].
        injection E1 as <-.
        destruct (V g zl' (z :: za)) as (zt & E3 & S3); auto.
        { cbn. now rewrite Et, E2. }
        exists zt. split; auto. rewrite S3. unfold sumZ. cbn. lia. }
      destruct acc as [|a acc]; [now apply (Hins [])|].
      destruct (neg simp t) as [nt|] eqn:En; cbn [bind] in HC; [|discriminate].
      destruct (remove_first eqb nt (a :: acc)) as [acc'|] eqn:Er; [|now apply (Hins _ eq_refl)].
      destruct (neg_sound simp HS _ _ En Ht) as [Nn Vn].
      destruct (remove_first_sound _ _ _ Er) as (y & Hy & HP).
      pose proof (forallb_perm nsafe _ _ HP Ha) as Ha'. cbn in Ha'.
      apply andb_true_iff in Ha' as [Hy' Ha'].
      destruct (IH _ _ HC Hl Ha') as [N V]. split; auto.
      intros g zl za E1 E2. cbn [map ints] in E1.
      destruct (eval g t) as [[z|b]|] eqn:Et; try discriminate.
      destruct (ints (map (eval g) l)) as [zl'|] eqn:El; [|discriminate].
      injection E1 as <-.
      destruct (ints_perm g _ _ _ HP E2) as (zp & Ep & Sp).
      cbn in Ep. rewrite (eqb_sound _ _ Hy g), (Vn _ _ Et) in Ep.
      destruct (ints (map (eval g) acc')) as [za'|] eqn:Ea; [|discriminate].
      injection Ep as <-.
      destruct (V g zl' za' El Ea) as (zt & E3 & S3). exists zt. split; auto.
      rewrite S3. unfold sumZ in *. cbn in *. lia.
  Qed.

  Lemma add_tail_sound simp :
    (forall e e', simp e = Ok e' -> safe e = true -> nsafe e' = true /\ refines e e') ->
    forall e e', add_tail eqb simp e = Ok e' -> nsafe e = true ->
      nsafe e' = true /\ refines e e'.
  Proof.
    intros HS e e' HA Hn. unfold add_tail in HA.
    destruct e as [ | | v | nm s | x | p us | bo l r | ro l r];
      try (injection HA as <-; split; [auto | apply refines_refl]).
    destruct p; try (injection HA as <-; split; [auto | apply refines_refl]).
    destruct (cancel eqb simp (rev us) []) as [ts'|] eqn:EC; cbn [bind] in HA; [|discriminate].
    cbn in Hn.
    destruct (cancel_sound simp HS _ _ _ EC) as [N V]; auto.
    { rewrite forallb_forall in *. intros x Hx. apply Hn. now apply in_rev. }
    assert (HE : refines (EAss OAdd us) (EAss OAdd ts')).
    { intros g v. cbn [eval ass_val].
      destruct (ints (map (eval g) us)) as [zs|] eqn:Ez; [|discriminate].
      intros E; injection E as <-.
      destruct (ints_perm g us (rev us) zs (Permutation_rev us) Ez) as (zr & Er & Sr).
      destruct (V g zr [] Er eq_refl) as (zt & Et & St). rewrite Et. do 2 f_equal.
      unfold sumZ in *. cbn in St. lia. }
    destruct ts' as [|t [|t2 ts']]; injection HA as <-.
    - split; auto.
    - cbn in N. rewrite andb_true_r in N. split; auto.
      intros g v E. apply HE in E. cbn in E.
      destruct (eval g t) as [[z|b]|]; try discriminate. cbn in E. rewrite Z.add_0_r in E.
      exact E.
    - split; auto.
  Qed.

  Lemma rel_simp_refines o l r l' r' : refines l l' -> refines r r' ->
    refines (ERel o l r) (rel_simp eqb o l' r').
  Proof.
    intros Hl Hr g v. cbn [eval]. intros E.
    assert (El : exists x y, eval g l = Some x /\ eval g r = Some y).
    { unfold rel_val in E. destruct (eval g l) as [[]|], (eval g r) as [[]|]; try discriminate; eauto. }
    destruct El as (x & y & Ex & Ey). rewrite Ex, Ey in E.
    pose proof (Hl _ _ Ex) as Ex'. pose proof (Hr _ _ Ey) as Ey'.
    unfold rel_simp.
    match goal with |- context [if ?c then _ else _] => destruct c eqn:Ec end.
    - apply andb_true_iff in Ec as [Eo Eq].
      pose proof (eqb_sound _ _ Eq g) as Eg. rewrite Ex', Ey' in Eg. injection Eg as <-.
      cbn [eval]. rewrite <- E. unfold rel_val. destruct x as [z|b], o; try discriminate Eo;
        rewrite ?Z.eqb_refl, ?Z.leb_refl, ?eqb_reflx; auto; discriminate E.
    - assert (Hdef : eval g (ERel o l' r') = Some v) by (cbn [eval]; now rewrite Ex', Ey').
      destruct l'; try exact Hdef. destruct r'; try exact Hdef.
      cbn [eval rel_val] in Hdef. rewrite <- Hdef.
      destruct o; cbn [rel_num]; match goal with |- context [EBool ?b] => destruct b end; reflexivity.
  Qed.

  Lemma rel_simp_ok o l r : ok l = true -> ok r = true -> ok (rel_simp eqb o l r) = true.
  Proof.
    intros Hl Hr. unfold rel_simp.
    match goal with |- context [if ?c then _ else _] => destruct c end; auto.
    assert (HD : ok (ERel o l r) = true) by (cbn; now rewrite Hl, Hr).
    destruct l; auto. destruct r; auto. unfold EBool. destruct (rel_num _ _ _); auto.
  Qed.

  Lemma bin_num_sound o x y e' : bin_num o x y = Ok e' ->
    nsafe e' = true /\ refines (EBin o (ENum x) (ENum y)) e'.
  Proof.
    destruct o; cbn [bin_num]; intros E.
    - injection E as <-. split; auto. intros g v. cbn. auto.
    - destruct (Z.eqb_spec y 0); [discriminate|].
      destruct (Z.eqb_spec (x mod y) 0); injection E as <-; (split; [auto|]); intros g v; cbn.
      + destruct (Z.eqb_spec y 0); [contradiction|]. intros E; injection E as <-.
        do 2 f_equal. pose proof (Z.div_mod x y n) as Hd. rewrite e, Z.add_0_r in Hd.
        rewrite Hd at 2. rewrite Z.mul_comm. now rewrite Z.quot_mul.
      + auto.
    - destruct (Z.ltb_spec y 0); [discriminate|]. injection E as <-. split; auto.
      intros g v. cbn. destruct (Z.ltb_spec y 0); [lia|auto].
    - destruct (Z.eqb_spec y 0); [discriminate|]. injection E as <-. split; auto.
      intros g v. cbn. destruct (Z.eqb_spec y 0); [contradiction|auto].
  Qed.

  Lemma bin_refines o l r l' r' : refines l l' -> refines r r' ->
    refines (EBin o l r) (EBin o l' r').
  Proof.
    intros Hl Hr g v. cbn [eval]. unfold bin_val at 1.
    destruct (eval g l) as [[x|b]|] eqn:El; [|discriminate|discriminate].
    destruct (eval g r) as [[y|b]|] eqn:Er; [|discriminate|discriminate].
    rewrite (Hl _ _ El), (Hr _ _ Er). auto.
  Qed.

  Lemma refines_trans a b c : refines a b -> refines b c -> refines a c.
  Proof. firstorder. Qed.

  Definition good (f : expr -> res expr) : Prop :=
    forall e e', f e = Ok e' ->
      (ok e = true -> ok e' = true /\ refines e e') /\
      (safe e = true -> nsafe e' = true) /\
      (const e = true -> is_num e' = true).

  Lemma collect_const simp o : boolean_op o = false ->
    (forall e e', simp e = Ok e' -> const e = true -> is_num e' = true) ->
    forall m work total tot' terms',
    collect simp o m work total [] = Ok (tot', terms') ->
    forallb const work = true -> terms' = [].
  Proof.
    intros Ho HS. induction m as [|m IH]; intros work total tot' terms' HC Hw.
    - destruct work; cbn in HC; [|discriminate]. now injection HC as <- <-.
    - destruct work as [|t rest]; cbn [collect] in HC; [now injection HC as <- <-|].
      cbn in Hw. apply andb_true_iff in Hw as [Ht Hr].
      destruct (simp t) as [t'|] eqn:Es; cbn [bind] in HC; [|discriminate].
      pose proof (HS _ _ Es Ht) as Hn. destruct t'; try discriminate. eauto.
  Qed.

  Theorem simplify_good n : good (simplify eqb n).
  Proof.
    induction n as [|n IH]; intros e e' HS; [discriminate|].
    assert (IHsafe : forall e e', simplify eqb n e = Ok e' -> safe e = true ->
              nsafe e' = true /\ refines e e').
    { intros x x' E Hx. destruct (IH _ _ E) as (H1 & H2 & _).
      split; [auto|]. apply H1. now apply safe_ok. }
    cbn [simplify] in HS.
    destruct e as [ | | v | nm s | x | o ts | o l r | o l r].
    - injection HS as <-. repeat split; auto using refines_refl.
    - injection HS as <-. repeat split; auto using refines_refl.
    - injection HS as <-. repeat split; auto using refines_refl.
    - injection HS as <-. repeat split; auto using refines_refl.
    - (* Not *)
      split; [|split; discriminate].
      intros Hok. cbn in Hok.
      assert (HD : forall z, (let* x' := simplify eqb n x in Ok (ENot x'))%res = Ok z ->
                 ok z = true /\ refines (ENot x) z).
      { intros z E. destruct (simplify eqb n x) as [x'|] eqn:Ex; cbn [bind] in E; [|discriminate].
        injection E as <-. destruct (IH _ _ Ex) as ((H1 & H2) & _); auto. split; auto.
        intros g v. cbn [eval]. unfold not_val at 1.
        destruct (eval g x) as [[z|b]|] eqn:Ev; try discriminate. rewrite (H2 _ _ Ev). auto. }
      destruct x as [ | | v | nm s | x | o ts | o l r | o l r]; try (apply HD; assumption).
      clear HD. cbn in Hok. apply andb_true_iff in Hok as [Hl Hr].
      destruct (simplify eqb n l) as [l'|] eqn:El; cbn [bind] in HS; [|discriminate].
      destruct (simplify eqb n r) as [r'|] eqn:Er; cbn [bind] in HS; [|discriminate].
      injection HS as <-.
      destruct (IH _ _ El) as ((H1 & H2) & _); auto.
      destruct (IH _ _ Er) as ((H3 & H4) & _); auto.
      split; [cbn; now rewrite H1, H3|].
      intros g v. cbn [eval]. unfold rel_val at 1.
      destruct (eval g l) as [x|] eqn:E1; [|discriminate].
      destruct (eval g r) as [y|] eqn:E2; [|destruct x; discriminate].
      rewrite (H2 _ _ E1), (H4 _ _ E2).
      destruct x as [x|x], y as [y|y]; try discriminate.
      + intros E; injection E as <-. destruct o; cbn [inverse rel_val]; do 2 f_equal;
          rewrite ?negb_involutive; auto; try (symmetry; apply Z.leb_antisym);
          try (rewrite Z.leb_antisym; now rewrite ?negb_involutive).
      + destruct o; try discriminate; intros E; injection E as <-;
          cbn [inverse rel_val]; rewrite ?negb_involutive; auto.
    - (* associative *)
      destruct (collect (simplify eqb n) o n ts (neutral o) []) as [[tot terms]|] eqn:EC;
        cbn [bind] in HS; [|discriminate].
      assert (Hval : forall Gin Gout,
        (forall e e', simplify eqb n e = Ok e' -> Gin e = true -> Gout e' = true /\ refines e e') ->
        (forall p us, Gout (EAss p us) = true -> flattens o p = true -> forallb Gin us = true) ->
        (forall b, boolean_op o = true -> Gout (EBool b) = true) ->
        (forall z, boolean_op o = false -> Gout (ENum z) = true) ->
        (forall ts, forallb Gout ts = true -> Gout (EAss o ts) = true) ->
        forallb Gin ts = true ->
        Gout (finish o tot terms) = true /\ refines (EAss o ts) (finish o tot terms)).
      { intros Gin Gout HG1 HG2 HG3 HG4 HG5 Hts.
        destruct (collect_sound _ _ Gin Gout HG1 HG2 n _ _ _ _ _ EC Hts eq_refl) as [T V].
        split; [now apply finish_G|].
        intros g v. cbn [eval]. rewrite ass_val_spec.
        destruct (tvals o (map (eval g) ts)) as [zw|] eqn:Ez; [|discriminate].
        intros E; injection E as <-.
        destruct (V g zw [] (dom_neutral o) Ez) as (zt & E1 & Hd & E2).
        { unfold tvals. destruct (boolean_op o); reflexivity. }
        rewrite (finish_eval _ _ _ _ _ E1 Hd). do 2 f_equal. rewrite E2.
        cbn [comb fold_right]. rewrite !op_neutral_l. reflexivity. }
      assert (Hok2 : forall p us, ok (EAss p us) = true -> flattens o p = true ->
                forallb ok us = true).
      { intros p us Hp _. destruct p; cbn in Hp; auto using forallb_safe_ok. }
      assert (Hns : forall p us, nsafe (EAss p us) = true -> flattens o p = true ->
                forallb safe us = true).
      { intros p us Hp _. destruct p; cbn in Hp; try discriminate; auto using forallb_nsafe_safe. }
      assert (HokIH : forall e e', simplify eqb n e = Ok e' -> ok e = true ->
                ok e' = true /\ refines e e').
      { intros a a' E Ha. destruct (IH _ _ E) as (H1 & _). auto. }
      assert (Hbool : boolean_op o = true -> e' = absorb eqb o (finish o tot terms) ->
        (ok (EAss o ts) = true -> ok e' = true /\ refines (EAss o ts) e') /\
        (safe (EAss o ts) = true -> nsafe e' = true) /\
        (const (EAss o ts) = true -> is_num e' = true)).
      { intros Ho ->. split; [|destruct o; try discriminate; split; cbn; discriminate].
        intros Hok. destruct (Hval ok ok) as [G R]; auto.
        - intros []; reflexivity.
        - intros ts0 H0; destruct o; cbn; auto; discriminate.
        - destruct o; cbn in Hok; auto; discriminate.
        - split; [now apply absorb_ok|]. eapply refines_trans; [exact R|apply absorb_refines]. }
      destruct o; try (apply Hbool; [reflexivity|congruence]).
      + (* Add *)
        assert (HA : safe (EAss OAdd ts) = true -> nsafe e' = true /\ refines (EAss OAdd ts) e').
        { intros Hsf. destruct (Hval safe nsafe) as [G R]; auto.
          - discriminate.
          - destruct (add_tail_sound _ IHsafe _ _ HS G) as [G' R']. split; auto.
            eapply refines_trans; eauto. }
        split; [|split].
        * intros Hok. destruct (HA Hok) as [G R]. split; auto using nsafe_safe, safe_ok.
        * intros Hsf. now apply HA.
        * intros Hc. cbn in Hc.
          assert (terms = []) as ->.
          { eapply (collect_const _ OAdd eq_refl); [ |exact EC|exact Hc].
            intros a a' E. now apply IH. }
          cbn in HS. injection HS as <-. reflexivity.
      + (* Mul *)
        injection HS as <-. split; [|split].
        * intros Hok. apply (Hval ok ok); auto. intros []; reflexivity.
        * intros Hsf. apply (Hval safe nsafe); auto. discriminate.
        * intros Hc. cbn in Hc.
          assert (terms = []) as ->.
          { eapply (collect_const _ OMul eq_refl); [ |exact EC|exact Hc].
            intros a a' E. now apply IH. }
          reflexivity.
    - (* binary *)
      destruct (simplify eqb n l) as [l'|] eqn:El; cbn [bind] in HS; [|discriminate].
      destruct (simplify eqb n r) as [r'|] eqn:Er; cbn [bind] in HS; [|discriminate].
      destruct (IH _ _ El) as (L1 & L2 & L3). destruct (IH _ _ Er) as (R1 & R2 & R3).
      assert (HNum : forall x y, l' = ENum x -> r' = ENum y -> bin_num o x y = Ok e' ->
        (ok (EBin o l r) = true -> ok e' = true /\ refines (EBin o l r) e') /\
        nsafe e' = true).
      { intros x y -> -> E. destruct (bin_num_sound _ _ _ _ E) as [N R]. split; auto.
        intros Hok. split; [auto using nsafe_safe, safe_ok|].
        eapply refines_trans; [|exact R].
        assert (ok l = true /\ ok r = true) as [Hl Hr].
        { destruct o; cbn in Hok; apply andb_true_iff in Hok as [? ?]; auto using safe_ok. }
        apply bin_refines; [now apply L1|now apply R1]. }
      assert (HGen : (match o with
          | OSub => (let* nr := neg (simplify eqb n) r' in Ok (EAss OAdd [l'; nr]))%res
          | _ => Ok (EBin o l' r') end) = Ok e' ->
        (is_num l' && is_num r' = false) ->
        (ok (EBin o l r) = true -> ok e' = true /\ refines (EBin o l r) e') /\
        (safe (EBin o l r) = true -> nsafe e' = true) /\
        (const (EBin o l r) = true -> is_num e' = true)).
      { intros E Hnn.
        assert (Hnc : const (EBin o l r) = true -> False).
        { cbn [const]. intros Hc. destruct o; try discriminate;
            apply andb_true_iff in Hc as [Hc1 Hc2];
            rewrite (L3 Hc1), (R3 Hc2) in Hnn; discriminate. }
        assert (Hplain : o <> OSub -> Ok (EBin o l' r') = Ok e' ->
          (ok (EBin o l r) = true -> ok e' = true /\ refines (EBin o l r) e') /\
          (safe (EBin o l r) = true -> nsafe e' = true) /\
          (const (EBin o l r) = true -> is_num e' = true)).
        { intros Ho E'. injection E' as <-. split; [|split].
          - intros Hok. assert (ok l = true /\ ok r = true) as [Hl Hr].
            { destruct o; try congruence; cbn in Hok; apply andb_true_iff in Hok as [? ?]; auto. }
            destruct (L1 Hl), (R1 Hr). split; [|now apply bin_refines].
            destruct o; try congruence; cbn; now rewrite H, H1.
          - intros Hs. destruct o; try congruence; cbn in Hs; apply andb_true_iff in Hs as [Hs1 Hs2].
            + cbn. now rewrite (L2 Hs1), (R2 Hs2).
            + rewrite (L3 Hs1), (R3 Hs2) in Hnn; discriminate.
            + rewrite (L3 Hs1), (R3 Hs2) in Hnn; discriminate.
          - intros Hc. destruct (Hnc Hc). }
        destruct o; try (apply Hplain; [discriminate|exact E]).
        destruct (neg (simplify eqb n) r') as [nr|] eqn:En; cbn [bind] in E; [|discriminate].
        injection E as <-.
        assert (HA : safe (EBin OSub l r) = true ->
          nsafe (EAss OAdd [l'; nr]) = true /\ refines (EBin OSub l r) (EAss OAdd [l'; nr])).
        { cbn [safe]. intros Hs. apply andb_true_iff in Hs as [Hs1 Hs2].
          destruct (neg_sound _ IHsafe _ _ En (R2 Hs2)) as [Nn Vn].
          split; [cbn; now rewrite (L2 Hs1), Nn|].
          intros g v. cbn [eval bin_val].
          destruct (eval g l) as [[x|b]|] eqn:E1; try discriminate.
          destruct (eval g r) as [[y|b]|] eqn:E2; try discriminate.
          intros E; injection E as <-.
          destruct (L1 (safe_ok _ Hs1)) as [_ RL]. destruct (R1 (safe_ok _ Hs2)) as [_ RR].
          cbn [map ass_val ints]. rewrite (RL _ _ E1), (Vn _ _ (RR _ _ E2)).
          cbn. do 2 f_equal. lia. }
        split; [|split].
        - intros Hok. destruct (HA Hok). split; auto using nsafe_safe, safe_ok.
        - intros Hs. now apply HA.
        - intros Hc. destruct (Hnc Hc). }
      destruct l' as [ | | lv | lnm ls | lx | lo lts | lo ll lr | lo ll lr];
        try (apply HGen; [exact HS|reflexivity]).
      destruct r' as [ | | rv | rnm rs | rx | ro rts | ro rl rr | ro rl rr];
        try (apply HGen; [exact HS|reflexivity]).
      destruct (HNum _ _ eq_refl eq_refl HS) as [H1 H2].
      split; [exact H1|]. split; [auto|].
      intros Hc. cbn [const] in Hc. destruct o; try discriminate; cbn [bin_num] in HS.
      + now injection HS as <-.
      + destruct (rv <? 0); [discriminate|]. now injection HS as <-.
      + destruct (rv =? 0); [discriminate|]. now injection HS as <-.
    - (* relation *)
      destruct (simplify eqb n l) as [l'|] eqn:El; cbn [bind] in HS; [|discriminate].
      destruct (simplify eqb n r) as [r'|] eqn:Er; cbn [bind] in HS; [|discriminate].
      injection HS as <-. split; [|split; discriminate].
      cbn [ok]. intros Hok. apply andb_true_iff in Hok as [Hl Hr].
      destruct (IH _ _ El) as ((L1 & L2) & _); auto.
      destruct (IH _ _ Er) as ((R1 & R2) & _); auto.
      split; [now apply rel_simp_ok|now apply rel_simp_refines].
  Qed.
End Sound.
