(** Simplification terminates and does not raise on well-defined expressions:
    lemmas.  Also: tree equality decides equality. *)
From Coq Require Import String List ZArith Bool Lia Permutation.
From Verif Require Import Base Expr ExprEval ExprFacts.
Import ListNotations.
Local Open Scope nat_scope.

(** weight of an expression; the fuel needed by [simplify] *)
Fixpoint weight (e : expr) : nat :=
  match e with
  | ETrue | EFalse | ENum _ | EName _ _ => 1
  | ENot x => 1 + weight x
  | EAss _ ts => 1 + list_sum (map weight ts)
  | EBin OSub l r => 1 + weight l + 2 * weight r
  | EBin _ l r => 1 + weight l + weight r
  | ERel _ l r => 1 + weight l + weight r
  end.

Definition weights (l : list expr) : nat := list_sum (map weight l).

Lemma weight_pos e : 1 <= weight e.
Proof. destruct e as [ | | | | | | [] | ]; cbn; lia. Qed.

Lemma weights_app l1 l2 : weights (l1 ++ l2) = weights l1 + weights l2.
Proof. unfold weights. now rewrite map_app, list_sum_app. Qed.
Lemma weights_cons x l : weights (x :: l) = weight x + weights l.
Proof. reflexivity. Qed.
Lemma weights_rev l : weights (rev l) = weights l.
Proof. induction l; cbn [rev]; rewrite ?weights_app, ?weights_cons in *; cbn in *; lia. Qed.
Lemma weights_perm l l' : Permutation l l' -> weights l = weights l'.
Proof. induction 1; rewrite ?weights_cons in *; lia. Qed.
Lemma weights_In x l : In x l -> weight x <= weights l.
Proof.
  induction l; [intros []|]. rewrite weights_cons. intros [->|H]; [lia|].
  apply IHl in H. lia.
Qed.
Lemma weight_ass o ts : weight (EAss o ts) = 1 + weights ts.
Proof. reflexivity. Qed.

Section Weights.
  Variable eqb : expr -> expr -> bool.

  Definition shrinks (f : expr -> res expr) : Prop :=
    forall e e', f e = Ok e' -> weight e' <= weight e.

  Lemma collect_weight simp o : shrinks simp -> forall m work total acc tot' terms',
    collect simp o m work total acc = Ok (tot', terms') ->
    weights terms' + (if (tot' =? neutral o)%Z then 0 else 1)
    <= weights work + weights acc + (if (total =? neutral o)%Z then 0 else 1).
  Proof.
    intros HS. induction m as [|m IH]; intros work total acc tot' terms' HC.
    - destruct work; cbn in HC; [|discriminate]. injection HC as <- <-.
      rewrite weights_rev. cbn. lia.
    - destruct work as [|term rest]; cbn [collect] in HC.
      + injection HC as <- <-. rewrite weights_rev. cbn. lia.
      + destruct (simp term) as [t|w] eqn:ES; cbn [bind] in HC; [|discriminate].
        apply HS in ES. rewrite weights_cons. pose proof (weight_pos t).
        assert (Hc : forall c, collect simp o m rest c acc = Ok (tot', terms') ->
          weights terms' + (if (tot' =? neutral o)%Z then 0 else 1)
          <= weight term + weights rest + weights acc + (if (total =? neutral o)%Z then 0 else 1)).
        { intros c E. apply IH in E. destruct (c =? neutral o)%Z, (total =? neutral o)%Z; lia. }
        assert (Hk : collect simp o m rest total (t :: acc) = Ok (tot', terms') ->
          weights terms' + (if (tot' =? neutral o)%Z then 0 else 1)
          <= weight term + weights rest + weights acc + (if (total =? neutral o)%Z then 0 else 1)).
        { intros E. apply IH in E. rewrite weights_cons in E. lia. }
        destruct t as [ | | v | nm s | x | p us | bo l r | ro l r]; eauto.
        destruct (flattens o p); eauto. apply IH in HC. rewrite weights_app in HC.
        rewrite weight_ass in ES. lia.
  Qed.

  Lemma finish_weight o tot terms :
    weight (finish o tot terms) <= 1 + weights terms + (if (tot =? neutral o)%Z then 0 else 1).
  Proof.
    assert (Hl : forall z, weight (if boolean_op o then EBool (negb (z =? 0)%Z) else ENum z) = 1).
    { intros. destruct (boolean_op o); auto. unfold EBool. destruct (negb _); auto. }
    unfold finish. destruct terms as [|t ts]; [rewrite Hl; lia|].
    destruct (tot =? neutral o)%Z.
    - destruct ts; [cbn; lia|]. rewrite weight_ass. lia.
    - cbn [app]. destruct ts as [|t2 ts]; cbn [app].
      + rewrite weight_ass, !weights_cons, Hl. cbn. lia.
      + rewrite weight_ass. rewrite !weights_cons, weights_app, weights_cons, Hl. cbn. lia.
  Qed.

  Lemma absorb_weight o e : weight (absorb eqb o e) <= weight e.
  Proof.
    pose proof (weight_pos e).
    destruct e; destruct o; cbn [absorb]; auto; destruct o0; auto; destruct (existsb _ _); auto.
  Qed.

  Lemma remove_first_weight x l l' : remove_first eqb x l = Some l' -> weights l' <= weights l.
  Proof.
    revert l'; induction l as [|a l IH]; cbn [remove_first]; intros l' E; [discriminate|].
    destruct (eqb a x); [injection E as <-; rewrite weights_cons; lia|].
    destruct (remove_first eqb x l); [|discriminate]. injection E as <-.
    rewrite !weights_cons. specialize (IH _ eq_refl). lia.
  Qed.

  Lemma cancel_weight simp l : forall acc ts', cancel eqb simp l acc = Ok ts' ->
    weights ts' <= weights l + weights acc.
  Proof.
    induction l as [|t l IH]; intros acc ts' HC; cbn [cancel] in HC.
    - injection HC as <-. cbn. lia.
    - rewrite weights_cons. destruct acc as [|a acc].
      + apply IH in HC. rewrite weights_cons in HC. cbn in *. lia.
      + destruct (neg simp t); cbn [bind] in HC; [|discriminate].
        destruct (remove_first eqb a0 (a :: acc)) eqn:E.
        * apply remove_first_weight in E. apply IH in HC. lia.
        * apply IH in HC. rewrite !weights_cons in *. lia.
  Qed.

  Lemma neg_weight simp : shrinks simp -> forall e e', neg simp e = Ok e' ->
    weight e' <= 2 * weight e.
  Proof.
    intros HS. induction e using expr_ind'; intros e' HN; cbn [neg] in HN.
    1-5: injection HN as <-; cbn; lia.
    - destruct o; try discriminate.
      + match type of HN with bind (?F ts) _ = _ => set (go := F) in * end.
        assert (HG : forall ts', go ts = Ok ts' -> weights ts' <= 2 * weights ts).
        { clear HN. induction H as [|x l Hx HF IHl]; intros ts' E; cbn in E.
          - injection E as <-. cbn. lia.
          - destruct (neg simp x) as [y|] eqn:E1; cbn [bind] in E; [|discriminate].
            fold go in E. destruct (go l) as [ys|] eqn:E2; cbn [bind] in E; [|discriminate].
            injection E as <-. rewrite !weights_cons.
            specialize (Hx _ eq_refl). specialize (IHl _ eq_refl). lia. }
        destruct (go ts) as [ts'|]; cbn [bind] in HN; [|discriminate]. injection HN as <-.
        rewrite !weight_ass. specialize (HG _ eq_refl). lia.
      + apply HS in HN. rewrite !weight_ass, weights_app in *.
        assert (weights [ENum (-1)] = 1) by reflexivity. lia.
    - destruct (neg simp e1); cbn [bind] in HN; [|discriminate]. injection HN as <-.
      specialize (IHe1 _ eq_refl). destruct o; cbn; lia.
    - injection HN as <-. cbn. lia.
  Qed.

  Lemma add_tail_weight simp e e' : add_tail eqb simp e = Ok e' -> weight e' <= weight e.
  Proof.
    unfold add_tail. destruct e as [ | | | | | o ts | | ];
      try (intros E; injection E as <-; lia).
    destruct o; try (intros E; injection E as <-; lia).
    destruct (cancel eqb simp (rev ts) []) as [ts'|] eqn:EC; cbn [bind]; [|discriminate].
    apply cancel_weight in EC. rewrite weights_rev in EC. cbn in EC.
    destruct ts' as [|t [|t2 ts']]; intros E; injection E as <-;
      rewrite ?weight_ass; rewrite ?weights_cons in *; cbn in *; unfold weights in *; lia.
  Qed.

  Lemma simplify_weight n : shrinks (simplify eqb n).
  Proof.
    induction n as [|n IH]; intros e e' HS; [discriminate|]. cbn [simplify] in HS.
    destruct e as [ | | v | nm s | x | o ts | o l r | o l r].
    1-4: injection HS as <-; lia.
    - assert (HD : (let* x' := simplify eqb n x in Ok (ENot x'))%res = Ok e' ->
                   weight e' <= weight (ENot x)).
      { destruct (simplify eqb n x) as [x'|] eqn:E; cbn [bind]; [|discriminate].
        intros E'; injection E' as <-. apply IH in E. cbn. lia. }
      destruct x as [ | | v | nm s | x | o ts | o l r | o l r]; try (apply HD; assumption).
      destruct (simplify eqb n l) as [l'|] eqn:El; cbn [bind] in HS; [|discriminate].
      destruct (simplify eqb n r) as [r'|] eqn:Er; cbn [bind] in HS; [|discriminate].
      injection HS as <-. apply IH in El, Er. cbn. lia.
    - destruct (collect (simplify eqb n) o n ts (neutral o) []) as [[tot terms]|] eqn:EC;
        cbn [bind] in HS; [|discriminate].
      apply (collect_weight _ _ IH) in EC. rewrite Z.eqb_refl in EC. cbn match in EC.
      pose proof (finish_weight o tot terms) as HF. rewrite weight_ass.
      assert (weights [] = 0) by reflexivity.
      assert (HL : weight (finish o tot terms) <= 1 + weights ts) by lia.
      pose proof (absorb_weight o (finish o tot terms)) as HA.
      destruct o; try (injection HS as <-; eapply Nat.le_trans; [exact HA|exact HL]).
      apply add_tail_weight in HS. lia.
    - destruct (simplify eqb n l) as [l'|] eqn:El; cbn [bind] in HS; [|discriminate].
      destruct (simplify eqb n r) as [r'|] eqn:Er; cbn [bind] in HS; [|discriminate].
      apply IH in El, Er.
      assert (HG : (match o with
          | OSub => (let* nr := neg (simplify eqb n) r' in Ok (EAss OAdd [l'; nr]))%res
          | _ => Ok (EBin o l' r') end) = Ok e' -> weight e' <= weight (EBin o l r)).
      { destruct o; try (intros E; injection E as <-; cbn; lia).
        destruct (neg (simplify eqb n) r') as [nr|] eqn:En; cbn [bind]; [|discriminate].
        intros E; injection E as <-. apply (neg_weight _ IH) in En. cbn. lia. }
      destruct l'; try (apply HG; exact HS). destruct r'; try (apply HG; exact HS).
      pose proof (weight_pos (EBin o l r)).
      destruct o; cbn [bin_num] in HS.
      + injection HS as <-. cbn; lia.
      + destruct (v0 =? 0)%Z; [discriminate|].
        destruct (_ =? 0)%Z; injection HS as <-; cbn in *; lia.
      + destruct (v0 <? 0)%Z; [discriminate|]. injection HS as <-. cbn; lia.
      + destruct (v0 =? 0)%Z; [discriminate|]. injection HS as <-. cbn; lia.
    - destruct (simplify eqb n l) as [l'|] eqn:El; cbn [bind] in HS; [|discriminate].
      destruct (simplify eqb n r) as [r'|] eqn:Er; cbn [bind] in HS; [|discriminate].
      apply IH in El, Er. injection HS as <-. unfold rel_simp.
      match goal with |- context [if ?c then _ else _] => destruct c end; [cbn; lia|].
      assert (weight (ERel o l' r') <= weight (ERel o l r)) by (cbn; lia).
      destruct l'; auto. destruct r'; auto. unfold EBool. destruct (rel_num _ _ _); cbn; lia.
  Qed.
End Weights.

(** ** Totality *)
Section Total.
  Variable eqb : expr -> expr -> bool.
  Hypothesis eqb_sound : forall a b, eqb a b = true -> forall g, eval g a = eval g b.
  Variable g : env.

  (** [f] returns on every expression lighter than [n] of the fragment that has a value *)
  Definition total_on (n : nat) (G : expr -> bool) (f : expr -> res expr) : Prop :=
    forall e v, weight e < n -> G e = true -> eval g e = Some v -> exists e', f e = Ok e'.

  Lemma neg_total simp n : total_on n safe simp ->
    forall e z, weight e + 1 < n -> nsafe e = true -> eval g e = Some (VInt z) ->
      exists e', neg simp e = Ok e'.
  Proof.
    intros HT. induction e using expr_ind'; intros z Hw Hn Hv; cbn [neg]; eauto;
      cbn [nsafe] in Hn; try discriminate.
    - destruct o; try discriminate.
      + match goal with |- context [bind (?F ts) _] => set (go := F) in * end.
        assert (HG : exists ts', go ts = Ok ts').
        { rewrite weight_ass in Hw. cbn [eval ass_val] in Hv.
          destruct (ints (map (eval g) ts)) as [zs|] eqn:Ez; [|discriminate]. clear Hv.
          revert zs Ez. induction H as [|x l Hx HF IHl]; intros zs Ez; cbn; eauto.
          cbn in Hn. apply andb_true_iff in Hn as [Hn1 Hn2].
          cbn in Ez. destruct (eval g x) as [[y|b]|] eqn:Ex; try discriminate.
          destruct (ints (map (eval g) l)) as [zl|] eqn:El; [|discriminate].
          rewrite weights_cons in Hw.
          destruct (Hx y) as [x' Ex']; [lia|auto|auto|]. rewrite Ex'. cbn [bind].
          fold go. destruct (IHl ltac:(lia) Hn2 _ eq_refl) as [l' El']. rewrite El'. cbn. eauto. }
        destruct HG as [ts' ->]. cbn. eauto.
      + rewrite weight_ass in Hw. cbn [eval ass_val] in Hv.
        destruct (ints (map (eval g) ts)) as [zs|] eqn:Ez; [|discriminate].
        eapply HT.
        * rewrite weight_ass, weights_app, weights_cons. change (weights []) with 0. cbn [weight]. lia.
        * cbn [safe]. rewrite forallb_app, (forallb_nsafe_safe _ Hn). reflexivity.
        * cbn [eval ass_val]. rewrite map_app, ints_app, Ez. reflexivity.
    - destruct o; try discriminate. apply andb_true_iff in Hn as [Hn1 Hn2].
      cbn [eval bin_val] in Hv.
      destruct (eval g e1) as [[x|b]|] eqn:Ex; [|discriminate|discriminate].
      cbn in Hw. destruct (IHe1 x) as [e1' ->]; [lia|auto|auto|]. cbn. eauto.
  Qed.

  Section CollectTotal.
    Variable simp : expr -> res expr.
    Variable n : nat.
    Variable o : assop.
    Variables Gin Gout : expr -> bool.
    Hypothesis simp_total : total_on n Gin simp.
    Hypothesis simp_shrinks : shrinks simp.
    Hypothesis simp_ok : forall e e', simp e = Ok e' -> Gin e = true ->
      Gout e' = true /\ refines e e'.
    Hypothesis Gflat : forall p us, Gout (EAss p us) = true -> flattens o p = true ->
      forallb Gin us = true.

    Lemma collect_total m : forall work total acc zw,
      weights work <= m -> weights work < n -> forallb Gin work = true ->
      tvals o (map (eval g) work) = Some zw ->
      exists p, collect simp o m work total acc = Ok p.
    Proof.
      induction m as [|m IH]; intros work total acc zw Hm Hn Hw Hz.
      - destruct work as [|t work]; cbn; eauto. rewrite weights_cons in Hm.
        pose proof (weight_pos t). lia.
      - destruct work as [|term rest]; cbn [collect]; eauto.
        rewrite weights_cons in *. cbn in Hw. apply andb_true_iff in Hw as [Hw1 Hw2].
        cbn [map] in Hz. rewrite tvals_cons in Hz.
        destruct (tval o (eval g term)) as [z|] eqn:E1; [|discriminate].
        destruct (tvals o (map (eval g) rest)) as [zr|] eqn:E2; [|discriminate].
        destruct (mk_tval _ _ _ E1) as [E3 Hd].
        destruct (simp_total term _ ltac:(lia) Hw1 E3) as [t Et]. rewrite Et. cbn [bind].
        destruct (simp_ok _ _ Et Hw1) as [Gt Rt]. apply simp_shrinks in Et.
        pose proof (weight_pos term).
        destruct t as [ | | v | nm s | x | p us | bo l r | ro l r];
          try (eapply IH; eauto; lia).
        destruct (flattens o p) eqn:EF; [|eapply IH; eauto; lia].
        apply Rt in E3. cbn [eval] in E3. rewrite ass_val_spec in E3.
        destruct (tvals p (map (eval g) us)) as [zu|] eqn:E5; [|discriminate].
        rewrite (flattens_tvals _ _ EF) in E5. rewrite weight_ass in Et.
        eapply (IH _ _ _ (zr ++ zu)).
        + rewrite weights_app. lia.
        + rewrite weights_app. lia.
        + rewrite forallb_app, Hw2. cbn. eauto.
        + now rewrite map_app, tvals_app, E2, E5.
    Qed.
  End CollectTotal.

  Lemma cancel_total simp n : total_on n safe simp ->
    forall l acc zs, (forall x, In x l -> weight x + 1 < n) -> forallb nsafe l = true ->
      ints (map (eval g) l) = Some zs -> exists ts', cancel eqb simp l acc = Ok ts'.
  Proof.
    intros HT. induction l as [|t l IH]; intros acc zs Hw Hn Hz; cbn [cancel]; eauto.
    cbn in Hn. apply andb_true_iff in Hn as [Hn1 Hn2].
    cbn in Hz. destruct (eval g t) as [[z|b]|] eqn:Et; try discriminate.
    destruct (ints (map (eval g) l)) as [zl|] eqn:El; [|discriminate].
    assert (Hr : forall acc, exists ts', cancel eqb simp l acc = Ok ts').
    { intros a. eapply IH; eauto. intros; apply Hw; now right. }
    destruct acc as [|a acc]; [apply Hr|].
    destruct (neg_total simp n HT t z) as [nt ->]; auto.
    { apply Hw. now left. }
    cbn [bind]. destruct (remove_first eqb nt (a :: acc)); apply Hr.
  Qed.

  Lemma two_terms x l : In x l -> (exists a b t, l = a :: b :: t) -> weight x + 1 <= weights l.
  Proof.
    intros Hin (a & b & t & ->). rewrite !weights_cons.
    pose proof (weight_pos a). pose proof (weight_pos b).
    destruct Hin as [->|[->|Hin]]; [lia|lia|]. apply weights_In in Hin. lia.
  Qed.

  Lemma finish_ass o tot terms p us : finish o tot terms = EAss p us ->
    (exists t, terms = [t] /\ t = EAss p us) \/ (exists a b t, us = a :: b :: t).
  Proof.
    unfold finish. destruct terms as [|t ts].
    - destruct (boolean_op o); [unfold EBool; destruct (negb _)|]; discriminate.
    - destruct (tot =? neutral o)%Z.
      + destruct ts as [|t2 ts]; intros E; [left; eauto|right].
        injection E as <- <-. eauto.
      + destruct ts as [|t2 ts]; cbn; intros E; right; injection E as <- <-; eauto.
  Qed.

  (** members of the collected list are not flattenable *)
  Lemma collect_no_flat simp o m : forall work total acc tot' terms',
    collect simp o m work total acc = Ok (tot', terms') ->
    (forall p us, In (EAss p us) acc -> flattens o p = false) ->
    forall p us, In (EAss p us) terms' -> flattens o p = false.
  Proof.
    induction m as [|m IH]; intros work total acc tot' terms' HC Ha.
    - destruct work; cbn in HC; [|discriminate]. injection HC as <- <-.
      intros p us Hin. apply in_rev in Hin. eauto.
    - destruct work as [|term rest]; cbn [collect] in HC.
      + injection HC as <- <-. intros p us Hin. apply in_rev in Hin. eauto.
      + destruct (simp term) as [t|]; cbn [bind] in HC; [|discriminate].
        destruct t as [ | | v | nm s | x | p0 us0 | bo l r | ro l r];
          try (apply (IH _ _ _ _ _ HC); first [exact Ha | intros p us [E|Hin]; [discriminate|eauto]]).
        destruct (flattens o p0) eqn:EF; eapply IH; try exact HC; auto.
        intros q ws [E|Hin]; [congruence|eauto].
  Qed.

  Lemma not_total l : forall v, not_val l = Some v -> exists b, l = Some (VBool b).
  Proof. destruct l as [[]|]; cbn; try discriminate; eauto. Qed.

  Theorem simplify_total n : forall e v, weight e < n -> ok e = true -> eval g e = Some v ->
    exists e', simplify eqb n e = Ok e'.
  Proof.
    induction n as [|n IH]; intros e v Hw Hok Hv; [lia|]. cbn [simplify].
    assert (IHs : total_on n safe (simplify eqb n)).
    { intros e0 v0 H1 H2 H3. eapply IH; eauto. now apply safe_ok. }
    assert (IHo : total_on n ok (simplify eqb n)) by (intros e0 v0 H1 H2 H3; eauto).
    pose proof (simplify_good eqb eqb_sound n) as HG.
    pose proof (simplify_weight eqb n) as HW.
    assert (HGs : forall e e', simplify eqb n e = Ok e' -> safe e = true ->
              nsafe e' = true /\ refines e e').
    { intros x x' E Hx. destruct (HG _ _ E) as (H1 & H2 & _).
      split; [auto|]. apply H1. now apply safe_ok. }
    assert (HGo : forall e e', simplify eqb n e = Ok e' -> ok e = true ->
              ok e' = true /\ refines e e').
    { intros x x' E Hx. destruct (HG _ _ E) as (H1 & _). auto. }
    destruct e as [ | | z | nm s | x | o ts | o l r | o l r]; eauto.
    - cbn in Hok, Hw. cbn [eval] in Hv. destruct (not_total _ _ Hv) as [b Eb].
      assert (HD : exists e', (let* x' := simplify eqb n x in Ok (ENot x'))%res = Ok e').
      { destruct (IH x _ ltac:(lia) Hok Eb) as [x' ->]. cbn. eauto. }
      destruct x as [ | | z | nm s | x | o ts | o l r | o l r]; auto.
      cbn in Hok, Hw. apply andb_true_iff in Hok as [H1 H2]. cbn [eval] in Eb.
      assert (exists x y, eval g l = Some x /\ eval g r = Some y) as (x & y & Ex & Ey).
      { unfold rel_val in Eb. destruct (eval g l) as [[]|], (eval g r) as [[]|]; try discriminate; eauto. }
      destruct (IH l _ ltac:(lia) H1 Ex) as [l' ->].
      destruct (IH r _ ltac:(lia) H2 Ey) as [r' ->]. cbn. eauto.
    - rewrite weight_ass in Hw. cbn [eval] in Hv. rewrite ass_val_spec in Hv.
      destruct (tvals o (map (eval g) ts)) as [zw|] eqn:Ez; [|discriminate].
      assert (Hok2 : forall p us, ok (EAss p us) = true -> flattens o p = true ->
                forallb ok us = true).
      { intros p us Hp _. destruct p; cbn in Hp; auto using forallb_safe_ok. }
      assert (Hns : forall p us, nsafe (EAss p us) = true -> flattens o p = true ->
                forallb safe us = true).
      { intros p us Hp _. destruct p; cbn in Hp; try discriminate; auto using forallb_nsafe_safe. }
      destruct (assop_eqb o OAdd) eqn:Eo.
      + destruct o; try discriminate. cbn in Hok.
        destruct (collect_total _ n OAdd safe nsafe IHs HW HGs Hns n ts (neutral OAdd) [] zw)
          as [[tot terms] EC]; auto; try lia.
        rewrite EC. cbn [bind]. pose proof EC as EC2. pose proof EC as EC3.
        apply (collect_weight _ _ HW) in EC3.
        destruct (collect_sound _ _ safe nsafe HGs Hns n _ _ _ _ _ EC Hok eq_refl) as [T V].
        destruct (V g zw [] (dom_neutral _) Ez eq_refl) as (zt & Et & Hd & _).
        unfold add_tail.
        destruct (finish OAdd tot terms) as [ | | z | nm s | x | p us | bo l r | ro l r] eqn:EF; eauto.
        destruct p; eauto.
        pose proof (finish_eval _ _ _ _ _ Et Hd) as HE. rewrite EF in HE. cbn [eval ass_val] in HE.
        destruct (ints (map (eval g) us)) as [zu|] eqn:Eu; [|discriminate].
        assert (HN : nsafe (EAss OAdd us) = true).
        { rewrite <- EF. apply finish_G; auto. discriminate. }
        assert (HWf : weight (EAss OAdd us) <= weight (EAss OAdd ts)).
        { rewrite <- EF. rewrite weight_ass.
          pose proof (finish_weight OAdd tot terms) as Hf.
          rewrite Z.eqb_refl in EC3. cbn match in EC3. assert (weights [] = 0) by reflexivity. lia. }
        rewrite !weight_ass in HWf.
        destruct (ints_perm g us (rev us) zu (Permutation_rev us) Eu) as (zr & Er & _).
        destruct (cancel_total _ n IHs (rev us) [] zr) as [ts' ->].
        * intros x Hx. apply in_rev in Hx.
          destruct (finish_ass _ _ _ _ _ EF) as [(t & -> & ->)|Htwo].
          -- pose proof (collect_no_flat _ _ _ _ _ _ _ _ EC2 ltac:(intros ? ? [])
               OAdd us ltac:(now left)) as Hf. discriminate Hf.
          -- pose proof (two_terms _ _ Hx Htwo). lia.
        * cbn in HN. rewrite forallb_forall in *. intros x Hx. apply HN. now apply in_rev.
        * exact Er.
        * cbn. destruct ts' as [|? [|]]; eauto.
      + assert (Hok' : forallb ok ts = true) by (destruct o; try discriminate; exact Hok).
        destruct (collect_total _ n o ok ok IHo HW HGo Hok2 n ts (neutral o) [] zw)
          as [[tot terms] EC]; auto; try lia.
        rewrite EC. cbn [bind]. destruct o; try discriminate; eauto.
    - assert (Hlr : ok l = true /\ ok r = true).
      { destruct o; cbn in Hok; apply andb_true_iff in Hok as [? ?]; auto using safe_ok. }
      destruct Hlr as [Hl Hr]. cbn [eval] in Hv.
      assert (exists x y, eval g l = Some (VInt x) /\ eval g r = Some (VInt y)) as (x & y & Ex & Ey).
      { unfold bin_val in Hv. destruct (eval g l) as [[]|], (eval g r) as [[]|]; try discriminate; eauto. }
      assert (Hwl : weight l < n) by (destruct o; cbn in Hw; lia).
      assert (Hwr : weight r < n) by (destruct o; cbn in Hw; lia).
      destruct (IH l _ Hwl Hl Ex) as [l' El]. destruct (IH r _ Hwr Hr Ey) as [r' Er].
      rewrite El, Er. cbn [bind].
      pose proof (HGo _ _ El Hl) as [_ Rl]. pose proof (HGo _ _ Er Hr) as [_ Rr].
      pose proof (Rl _ _ Ex) as Ex'. pose proof (Rr _ _ Ey) as Ey'.
      rewrite Ex, Ey in Hv.
      assert (HGen : exists e', (match o with
          | OSub => (let* nr := neg (simplify eqb n) r' in Ok (EAss OAdd [l'; nr]))%res
          | _ => Ok (EBin o l' r') end) = Ok e').
      { destruct o; eauto. cbn in Hok. apply andb_true_iff in Hok as [H1 H2].
        destruct (HGs _ _ Er H2) as [Hn _]. apply HW in Er. cbn in Hw.
        pose proof (weight_pos l). pose proof (weight_pos r).
        destruct (neg_total _ n IHs r' y ltac:(lia) Hn Ey') as [nr ->].
        cbn. eauto. }
      destruct l'; auto. destruct r'; auto. cbn in Ex', Ey'.
      assert (v0 = x) by congruence. assert (v1 = y) by congruence. subst v0 v1.
      cbn [bin_val] in Hv. destruct o; cbn [bin_num]; eauto.
      + destruct (y =? 0)%Z; [discriminate|]. destruct (_ =? 0)%Z; eauto.
      + destruct (y <? 0)%Z; [discriminate|]. eauto.
      + destruct (y =? 0)%Z; [discriminate|]. eauto.
    - cbn in Hok, Hw. apply andb_true_iff in Hok as [Hl Hr]. cbn [eval] in Hv.
      assert (exists x y, eval g l = Some x /\ eval g r = Some y) as (x & y & Ex & Ey).
      { unfold rel_val in Hv. destruct (eval g l) as [[]|], (eval g r) as [[]|]; try discriminate; eauto. }
      destruct (IH l _ ltac:(lia) Hl Ex) as [l' ->].
      destruct (IH r _ ltac:(lia) Hr Ey) as [r' ->]. cbn. eauto.
  Qed.
End Total.

(** ** Tree equality *)
Lemma name_eqb_eq a b : name_eqb a b = true <-> a = b.
Proof.
  split.
  - destruct a as [x|k x], b as [y|l y]; cbn; try discriminate;
      try destruct k; try destruct l; try discriminate;
      intros E; apply String.eqb_eq in E; subst; auto.
  - intros ->. destruct b as [y|l y]; cbn; try destruct l; apply String.eqb_refl.
Qed.

Lemma expr_eqb_eq : forall a b, expr_eqb a b = true -> a = b.
Proof.
  induction a as [ | |v|n s|a IH|o ts IH|o l r IHl IHr|o l r IHl IHr] using expr_ind';
    intros b E; destruct b as [ | |v'|n' s'|b'|o' ts'|o' l' r'|o' l' r']; cbn [expr_eqb] in E;
    try discriminate; auto.
  - apply Z.eqb_eq in E. now subst.
  - apply andb_true_iff in E as [E1 E2]. apply name_eqb_eq in E1. apply eqb_prop in E2. now subst.
  - f_equal. auto.
  - apply andb_true_iff in E as [E1 E2].
    assert (o = o') by (destruct o, o'; try discriminate; auto). subst o'. f_equal.
    clear E1. revert ts' E2. induction IH as [|x l Hx HF IHl]; intros [|y l'] E; try discriminate; auto.
    apply andb_true_iff in E as [E1 E2]. f_equal; auto.
  - rewrite !andb_true_iff in E. destruct E as [[E1 E2] E3].
    assert (o = o') by (destruct o, o'; try discriminate; auto). subst. f_equal; auto.
  - rewrite !andb_true_iff in E. destruct E as [[E1 E2] E3].
    assert (o = o') by (destruct o, o'; try discriminate; auto). subst. f_equal; auto.
Qed.

Lemma expr_eqb_sound a b : expr_eqb a b = true -> forall g, eval g a = eval g b.
Proof. intros E g. apply expr_eqb_eq in E. now subst. Qed.

(** ** Strict evaluation determines short-circuit evaluation *)
Lemma sc_val_bools stop vs bs : bools vs = Some bs ->
  sc_val stop vs = Some (VBool (if stop then anyb bs else allb bs)).
Proof.
  revert bs; induction vs as [|[[z|b]|] vs IH]; cbn; intros bs E; try discriminate.
  - injection E as <-. destruct stop; reflexivity.
  - destruct (bools vs) as [bs'|]; [|discriminate]. injection E as <-.
    specialize (IH _ eq_refl). cbn. destruct stop, b; cbn; auto.
Qed.

Lemma eval_strict_sc g : forall e v, eval g e = Some v -> eval_sc g e = Some v.
Proof.
  induction e as [ | |z|n s|a IH|o ts IH|o l r IHl IHr|o l r IHl IHr] using expr_ind';
    intros v; cbn [eval eval_sc]; auto.
  - unfold not_val. destruct (eval g a) as [x|]; [|discriminate]. now rewrite (IH _ eq_refl).
  - assert (HI : forall zs, ints (map (eval g) ts) = Some zs -> ints (map (eval_sc g) ts) = Some zs).
    { induction IH as [|x l Hx HF IHl]; intros zs E; auto. cbn in E.
      destruct (eval g x) as [[z|b]|]; try discriminate.
      destruct (ints (map (eval g) l)) as [zl|]; [|discriminate].
      cbn. rewrite (Hx _ eq_refl), (IHl _ eq_refl). auto. }
    assert (HB : forall zs, bools (map (eval g) ts) = Some zs -> bools (map (eval_sc g) ts) = Some zs).
    { clear HI. induction IH as [|x l Hx HF IHl]; intros zs E; auto. cbn in E.
      destruct (eval g x) as [[z|b]|]; try discriminate.
      destruct (bools (map (eval g) l)) as [zl|]; [|discriminate].
      cbn. rewrite (Hx _ eq_refl), (IHl _ eq_refl). auto. }
    destruct o; cbn [ass_val].
    + destruct (bools (map (eval g) ts)) as [bs|]; [|discriminate]. now rewrite (HB _ eq_refl).
    + destruct (bools (map (eval g) ts)) as [bs|]; [|discriminate].
      rewrite (sc_val_bools false _ _ (HB _ eq_refl)). auto.
    + destruct (bools (map (eval g) ts)) as [bs|]; [|discriminate]. now rewrite (HB _ eq_refl).
    + destruct (bools (map (eval g) ts)) as [bs|]; [|discriminate].
      rewrite (sc_val_bools true _ _ (HB _ eq_refl)). auto.
    + destruct (ints (map (eval g) ts)) as [bs|]; [|discriminate]. now rewrite (HI _ eq_refl).
    + destruct (ints (map (eval g) ts)) as [bs|]; [|discriminate]. now rewrite (HI _ eq_refl).
  - unfold bin_val. destruct (eval g l) as [x|]; [|discriminate].
    destruct (eval g r) as [y|]; [|destruct x; discriminate].
    now rewrite (IHl _ eq_refl), (IHr _ eq_refl).
  - unfold rel_val. destruct (eval g l) as [x|]; [|discriminate].
    destruct (eval g r) as [y|]; [|destruct x; discriminate].
    now rewrite (IHl _ eq_refl), (IHr _ eq_refl).
Qed.
