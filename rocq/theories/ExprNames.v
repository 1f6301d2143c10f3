(** Simplification introduces no names. *)
From Coq Require Import String List ZArith Bool.
From Verif Require Import Base Expr ExprFacts GenSpec.
Import ListNotations.
Local Open Scope string_scope.
Local Open Scope list_scope.
Local Open Scope Z_scope.

Section Names.
  Variable P : name -> Prop.
  Definition within (e : expr) : Prop := forall n, In n (names e) -> P n.

  Lemma within_ass o ts : within (EAss o ts) <-> Forall within ts.
  Proof.
    unfold within. cbn [names]. rewrite Forall_forall. split.
    - intros H x I n J. apply H, in_flat_map. eauto.
    - intros H n J. apply in_flat_map in J as (x & I & J). exact (H x I n J).
  Qed.
  Lemma within_bin o l r : within (EBin o l r) <-> within l /\ within r.
  Proof. unfold within. cbn [names]. setoid_rewrite in_app_iff. firstorder. Qed.
  Lemma within_rel o l r : within (ERel o l r) <-> within l /\ within r.
  Proof. unfold within. cbn [names]. setoid_rewrite in_app_iff. firstorder. Qed.
  Lemma within_const e : names e = [] -> within e.
  Proof. intros E n. rewrite E. intros []. Qed.
  Lemma within_bool b : within (EBool b).
  Proof. apply within_const. now destruct b. Qed.

  Section Step.
    Variables (eqb : expr -> expr -> bool) (simp : expr -> res expr).
    Hypothesis HS : forall e e', simp e = Ok e' -> within e -> within e'.

    Lemma neg_within e : forall e', neg simp e = Ok e' -> within e -> within e'.
    Proof.
      induction e as [ | |z|nm s|a IH|o ts IH|o l r IHl IHr|o l r IHl IHr] using expr_ind'; intros e' E W; cbn [neg] in E.
      - apply Ok_inj in E. subst. exact W.
      - apply Ok_inj in E. subst. exact W.
      - apply Ok_inj in E. subst. exact W.
      - apply Ok_inj in E. subst. exact W.
      - apply Ok_inj in E. subst. exact W.
      - destruct o; try discriminate E.
        + match type of E with bind ?r _ = _ => destruct r as [ts'|] eqn:G end; cbn [bind] in E; [|discriminate].
          apply Ok_inj in E. subst e'. apply within_ass. apply within_ass in W. clear HS.
          revert ts' G. induction ts as [|x t IHt]; intros ts' G.
          * apply Ok_inj in G. subst. constructor.
          * inversion IH as [|? ? I1 I2]. inversion W as [|? ? W1 W2]. subst.
            destruct (neg simp x) as [y|] eqn:Ex; cbn [bind] in G; [|discriminate].
            match type of G with bind ?r _ = _ => destruct r as [ys|] eqn:Gt end; cbn [bind] in G; [|discriminate].
            apply Ok_inj in G. subst. constructor; [now apply I1|]. apply IHt; auto.
        + apply (HS _ _ E). apply within_ass. apply within_ass in W. apply Forall_app. split; [exact W|].
          constructor; [now apply within_const|constructor].
      - destruct (neg simp l) as [l'|] eqn:El; cbn [bind] in E; [|discriminate]. apply Ok_inj in E. subst.
        apply within_bin in W as [W1 W2]. apply within_bin. auto.
      - apply Ok_inj in E. subst. exact W.
    Qed.

    Lemma collect_within o m : forall work total acc tot terms, collect simp o m work total acc = Ok (tot, terms) ->
      Forall within work -> Forall within acc -> Forall within terms.
    Proof.
      induction m as [|m IH]; intros work total acc tot terms E W A.
      - destruct work; cbn in E; [|discriminate]. apply Ok_inj in E. injection E as <- <-. now apply Forall_rev.
      - destruct work as [|t work]; cbn [collect] in E.
        + apply Ok_inj in E. injection E as <- <-. now apply Forall_rev.
        + destruct (simp t) as [t'|] eqn:ET; cbn [bind] in E; [|discriminate].
          inversion W as [|? ? K1 K2]; subst. pose proof (HS _ _ ET K1) as K.
          assert (KA : Forall within (t' :: acc)) by (constructor; auto).
          destruct t' as [ | |v|nm s|x|q us|bo l r|ro l r]; eauto.
          destruct (flattens o q); eauto. apply (IH _ _ _ _ _ E); [|exact A].
          apply Forall_app. split; [exact K2|]. now apply within_ass in K.
    Qed.
    Lemma finish_within o tot terms : Forall within terms -> within (finish o tot terms).
    Proof.
      intros K. assert (C : forall z, within (if boolean_op o then EBool (negb (z =? 0)) else ENum z)).
      { intros z. destruct (boolean_op o); [apply within_bool|now apply within_const]. }
      unfold finish. destruct terms as [|t ts]; [apply C|].
      assert (K' : Forall within (if tot =? neutral o then t :: ts else (t :: ts) ++ [if boolean_op o then EBool (negb (tot =? 0)) else ENum tot])).
      { destruct (tot =? neutral o); [exact K|]. apply Forall_app. split; [exact K|]. constructor; [apply C|constructor]. }
      destruct (if tot =? neutral o then _ else _) as [|u [|u' us]].
      - now apply within_ass.
      - now inversion K'.
      - now apply within_ass.
    Qed.
    Lemma absorb_within o e : within e -> within (absorb eqb o e).
    Proof.
      intros W. unfold absorb. destruct o; try exact W; destruct e as [ | |v|nm s|x|q us|bo l r|ro l r]; try exact W;
        destruct q; try exact W; match goal with |- context [if ?c then _ else _] => destruct c end; try exact W; now apply within_const.
    Qed.
    Lemma remove_first_within x l : forall l', remove_first eqb x l = Some l' -> Forall within l -> Forall within l'.
    Proof.
      induction l as [|y t IH]; intros l' E F; cbn in E; [discriminate|]. inversion F; subst.
      destruct (eqb y x); [injection E as <-; assumption|].
      destruct (remove_first eqb x t) as [t'|]; [|discriminate]. injection E as <-. constructor; auto.
    Qed.
    Lemma cancel_within l : forall acc ts, cancel eqb simp l acc = Ok ts -> Forall within l -> Forall within acc -> Forall within ts.
    Proof.
      induction l as [|t l IH]; intros acc ts E L A; cbn [cancel] in E; [apply Ok_inj in E; now subst|].
      inversion L; subst. destruct acc as [|a acc]; [apply (IH _ _ E); auto|].
      destruct (neg simp t) as [nt|]; cbn [bind] in E; [|discriminate].
      destruct (remove_first eqb nt (a :: acc)) as [acc'|] eqn:R; apply (IH _ _ E); auto.
      now apply (remove_first_within _ _ _ R).
    Qed.
    Lemma add_tail_within e e' : add_tail eqb simp e = Ok e' -> within e -> within e'.
    Proof.
      destruct e as [ | |v|nm s|x|q us|bo l r|ro l r]; cbn [add_tail]; try (intros E W; apply Ok_inj in E; now subst).
      destruct q; try (intros E W; apply Ok_inj in E; now subst). intros E W. apply within_ass in W.
      destruct (cancel eqb simp (rev us) []) as [ts|] eqn:C; cbn [bind] in E; [|discriminate].
      pose proof (cancel_within _ _ _ C (Forall_rev W) (Forall_nil _)) as K.
      destruct ts as [|a [|b ts]]; apply Ok_inj in E; subst; [now apply within_ass|now inversion K|now apply within_ass].
    Qed.
    Lemma rel_simp_within o l r : within l -> within r -> within (rel_simp eqb o l r).
    Proof.
      intros L R. unfold rel_simp. destruct (_ && eqb l r); [now apply within_const|].
      destruct l, r; try (apply within_rel; split; assumption). apply within_bool.
    Qed.
  End Step.

  Lemma simplify_within eqb n : forall e e', simplify eqb n e = Ok e' -> within e -> within e'.
  Proof.
    induction n as [|n IH]; intros e e' E W; [discriminate|].
    destruct e as [ | |v|nm s|x|o ts|o l r|o l r]; cbn [simplify] in E; try (apply Ok_inj in E; now subst).
    - assert (D : bind (simplify eqb n x) (fun x' => Ok (ENot x')) = Ok e' -> within e').
      { intros D. destruct (simplify eqb n x) as [x'|] eqn:X; cbn [bind] in D; [|discriminate]. apply Ok_inj in D. subst.
        exact (IH _ _ X W). }
      destruct x as [ | |v|nm s|y|o ts|o l r|o l r]; try exact (D E).
      destruct (simplify eqb n l) as [l'|] eqn:L; cbn [bind] in E; [|discriminate].
      destruct (simplify eqb n r) as [r'|] eqn:R; cbn [bind] in E; [|discriminate]. apply Ok_inj in E. subst.
      change (within (ERel o l r)) in W. apply within_rel in W as [W1 W2]. apply within_rel. split; eapply IH; eassumption.
    - destruct (collect (simplify eqb n) o n ts (neutral o) []) as [[tot terms]|] eqn:C; cbn [bind] in E; [|discriminate].
      apply within_ass in W. pose proof (collect_within _ IH _ _ _ _ _ _ _ C W (Forall_nil _)) as K.
      apply (finish_within o tot) in K.
      destruct o; try (apply Ok_inj in E; subst; now apply absorb_within).
      + exact (add_tail_within _ _ _ _ E K).
      + apply Ok_inj in E. now subst.
    - apply within_bin in W as [W1 W2].
      destruct (simplify eqb n l) as [l'|] eqn:L; cbn [bind] in E; [|discriminate].
      destruct (simplify eqb n r) as [r'|] eqn:R; cbn [bind] in E; [|discriminate].
      pose proof (IH _ _ L W1) as Wl. pose proof (IH _ _ R W2) as Wr.
      assert (D : match o with OSub => bind (neg (simplify eqb n) r') (fun nr => Ok (EAss OAdd [l'; nr])) | _ => Ok (EBin o l' r') end = Ok e' -> within e').
      { intros D. destruct o; try (apply Ok_inj in D; subst; now apply within_bin).
        destruct (neg (simplify eqb n) r') as [nr|] eqn:N; cbn [bind] in D; [|discriminate]. apply Ok_inj in D. subst.
        apply within_ass. constructor; [exact Wl|]. constructor; [|constructor]. exact (neg_within _ IH _ _ N Wr). }
      destruct l' as [ | |v|nm s|x|q us|bo l0 r0|ro l0 r0]; try exact (D E).
      destruct r' as [ | |v'|nm s|x|q us|bo l0 r0|ro l0 r0]; try exact (D E).
      destruct o; cbn [bin_num] in E.
      + apply Ok_inj in E. subst. now apply within_const.
      + destruct (v' =? 0); [discriminate|]. destruct (v mod v' =? 0); apply Ok_inj in E; subst; now apply within_const.
      + destruct (v' <? 0); [discriminate|]. apply Ok_inj in E. subst. now apply within_const.
      + destruct (v' =? 0); [discriminate|]. apply Ok_inj in E. subst. now apply within_const.
    - apply within_rel in W as [W1 W2].
      destruct (simplify eqb n l) as [l'|] eqn:L; cbn [bind] in E; [|discriminate].
      destruct (simplify eqb n r) as [r'|] eqn:R; cbn [bind] in E; [|discriminate]. apply Ok_inj in E. subst.
      apply rel_simp_within; eapply IH; eassumption.
  Qed.
End Names.
