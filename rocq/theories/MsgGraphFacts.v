(** Lemmas about the message graph: Kahn's algorithm, paths, conditions. *)
From Coq Require Import String List ZArith Bool Arith Lia.
From Verif Require Import Base Expr ExprEval ExprFacts ExprTotal ExprMore MsgGraph.
Import ListNotations.
Local Open Scope string_scope.
Local Open Scope list_scope.
Local Open Scope nat_scope.
Local Notation length := List.length.

Lemma expr_eqb_iff a b : expr_eqb a b = true <-> a = b.
Proof. split; [apply expr_eqb_eq|intros ->; apply expr_eqb_refl]. Qed.
Lemma opt_eqb_iff a b : opt_eqb a b = true <-> a = b.
Proof.
  destruct a, b; cbn; rewrite ?expr_eqb_iff; split; congruence.
Qed.
Lemma link_eqb_iff a b : link_eqb a b = true <-> a = b.
Proof.
  unfold link_eqb. rewrite !andb_true_iff, !String.eqb_eq, expr_eqb_iff, !opt_eqb_iff.
  destruct a, b; cbn. split; [intros [[[[-> ->] ->] ->] ->]; reflexivity|intros E; injection E; tauto].
Qed.
Lemma meml_iff x l : meml x l = true <-> In x l.
Proof.
  unfold meml. rewrite existsb_exists. split.
  - intros (y & I & E). apply link_eqb_iff in E. now subst.
  - intros I. exists x. split; [exact I|]. now apply link_eqb_iff.
Qed.
Lemma memf_iff x l : memf x l = true <-> In x l.
Proof.
  unfold memf. rewrite existsb_exists. split.
  - intros (y & I & E). apply String.eqb_eq in E. now subst.
  - intros I. exists x. split; [exact I|]. apply String.eqb_refl.
Qed.
Lemma link_eq_dec (a b : link) : {a = b} + {a <> b}.
Proof.
  destruct (link_eqb a b) eqn:E; [left; now apply link_eqb_iff|right].
  intros ->. rewrite (proj2 (link_eqb_iff b b) eq_refl) in E. discriminate.
Qed.

Section Graph.
  Variable s : list link.
  Notation incoming := (incoming s).
  Notation outgoing := (outgoing s).

  Lemma in_incoming l f : In l (incoming f) <-> In l s /\ target l = f.
  Proof. unfold MsgGraph.incoming. rewrite filter_In, String.eqb_eq. tauto. Qed.
  Lemma in_outgoing l f : In l (outgoing f) <-> In l s /\ source l = f.
  Proof. unfold MsgGraph.outgoing. rewrite filter_In, String.eqb_eq. tauto. Qed.

  (** all links into [t] are visited *)
  Definition done (v : list link) (t : field) : Prop := forall l, In l s -> target l = t -> In l v.
  Lemma done_b v t : forallb (fun l => meml l v) (incoming t) = true <-> done v t.
  Proof.
    rewrite forallb_forall. unfold done. split.
    - intros H l I T. apply meml_iff, H, in_incoming. auto.
    - intros H l I. apply meml_iff. apply in_incoming in I as [I T]. auto.
  Qed.
  Lemma done_mono v v' t : incl v v' -> done v t -> done v' t.
  Proof. intros I D l A B. apply I, D; auto. Qed.
  Lemma done_dec v t : done v t \/ exists l, In l s /\ target l = t /\ ~ In l v.
  Proof.
    destruct (forallb (fun l => meml l v) (incoming t)) eqn:E; [left; now apply done_b|right].
    assert (X : exists l, In l (incoming t) /\ meml l v = false).
    { revert E. generalize (incoming t). clear. intros i. induction i as [|l i IH]; [discriminate|]. cbn [forallb].
      destruct (meml l v) eqn:M; [|intros _; exists l; cbn; auto].
      intros E. destruct (IH E) as (x & I & F). exists x. cbn; auto. }
    destruct X as (l & I & F). exists l. apply in_incoming in I as [I T]. repeat split; auto.
    intros C. apply meml_iff in C. congruence.
  Qed.

  (** *** connected sequences of links *)
  Fixpoint chain (a : field) (p : list link) (b : field) : Prop :=
    match p with
    | [] => a = b
    | l :: p' => In l s /\ source l = a /\ chain (target l) p' b
    end.
  Lemma chain_app a p b q c : chain a p b -> chain b q c -> chain a (p ++ q) c.
  Proof.
    revert a. induction p as [|l p IH]; intros a H K; cbn in *; [now subst|].
    destruct H as (I & S & H). auto.
  Qed.
  Lemma chain_snoc a p l c : chain a (p ++ [l]) c <-> chain a p (source l) /\ In l s /\ target l = c.
  Proof.
    revert a. induction p as [|x p IH]; intros a; cbn [app chain].
    - intuition congruence.
    - rewrite IH. tauto.
  Qed.

  (** *** the inner loop *)
  Lemma relax_spec out : forall v q v' q', relax s out v q = (v', q') ->
    exists added, q' = q ++ added /\ v' = rev out ++ v /\
    (forall t, In t added -> done v' t /\ exists e, In e out /\ target e = t) /\
    (forall t, done v' t -> done v t \/ In t added) /\
    (forall e, In e out -> done v' (target e) -> In (target e) added) /\
    (NoDup out -> (forall e, In e out -> In e s) -> (forall e, In e out -> ~ In e v) ->
       NoDup added /\ forall t, In t added -> ~ done v t).
  Proof.
    induction out as [|e es IH]; intros v q v' q' H; cbn [relax] in H.
    - injection H as <- <-. exists []. rewrite app_nil_r. repeat split; auto; try contradiction.
      constructor.
    - apply IH in H as (added & -> & -> & A & B & C & D).
      assert (Inc : incl (e :: v) (rev es ++ e :: v)) by (intros x Hx; apply in_or_app; auto).
      cbn [rev]. rewrite <- app_assoc. cbn [app].
      destruct (forallb (fun l => meml l (e :: v)) (MsgGraph.incoming s (target e))) eqn:F.
      + apply done_b in F. exists (target e :: added). rewrite <- app_assoc. cbn [app].
        repeat split; trivial.
        * destruct H as [<-|H]; [now apply (done_mono (e :: v))|now apply A].
        * destruct H as [<-|H]; [exists e; cbn; auto|].
          destruct (A _ H) as (_ & e' & I & T). exists e'. cbn; auto.
        * intros t Dt. destruct (B t Dt) as [B1|B1]; [|right; now right].
          destruct (String.eqb_spec (target e) t) as [<-|N]; [right; now left|].
          left. intros l I T. destruct (B1 l I T) as [->|]; [congruence|assumption].
        * intros e' [<-|I] Dt; [now left|]. right. now apply C.
        * apply NoDup_cons_iff in H as [N1 N2].
          assert (N3 : forall x, In x es -> ~ In x (e :: v)).
          { intros x Hx [->|Hv]; [contradiction|]. apply (H1 x); cbn; auto. }
          destruct (D N2) as [D1 D2]; auto. { intros x Hx. apply H0. now right. }
          constructor; [|exact D1]. intros Hin. apply (D2 _ Hin). exact F.
        * intros t Ht Dt.
          apply NoDup_cons_iff in H as [N1 N2].
          assert (N3 : forall x, In x es -> ~ In x (e :: v)).
          { intros x Hx [->|Hv]; [contradiction|]. apply (H1 x); cbn; auto. }
          destruct (D N2) as [D1 D2]; auto. { intros x Hx. apply H0. now right. }
          destruct Ht as [<-|Ht].
          { apply (H1 e); [now left|]. apply Dt; [apply H0; now left|reflexivity]. }
          apply (D2 _ Ht). apply (done_mono v); [intros x; cbn; auto|exact Dt].
      + assert (F' : ~ done (e :: v) (target e)) by (rewrite <- done_b, F; discriminate).
        exists added. repeat split; trivial.
        * now apply A.
        * destruct (A _ H) as (_ & e' & I & T). exists e'. cbn; auto.
        * intros t Dt. destruct (B t Dt) as [B1|B1]; [|now right].
          left. intros l I T. destruct (B1 l I T) as [->|]; [|assumption].
          subst t. contradiction.
        * intros e' [<-|I] Dt; [|now apply C]. destruct (B _ Dt) as [B1|B1]; [contradiction|exact B1].
        * apply NoDup_cons_iff in H as [N1 N2].
          apply D; auto. { intros x Hx. apply H0. now right. }
          intros x Hx [->|Hv]; [contradiction|]. apply (H1 x); cbn; auto.
        * intros t Ht Dt. apply NoDup_cons_iff in H as [N1 N2].
          destruct (D N2) as [D1 D2]; auto. { intros x Hx. apply H0. now right. }
          { intros x Hx [->|Hv]; [contradiction|]. apply (H1 x); cbn; auto. }
          apply (D2 _ Ht). apply (done_mono v); [intros x; cbn; auto|exact Dt].
  Qed.

  (** *** the outer loop: whatever the input, behind every occurrence of a node in
      the result come all its finished successors *)
  Record inv (q r : list field) (v : list link) : Prop := {
    i_vis : forall l, In l v <-> In l s /\ In (source l) r;
    i_origin : forall t, In t (r ++ q) -> t = INITIAL \/ (done v t /\ exists l, In l s /\ target l = t /\ In (source l) r);
    i_later : forall a n b, r = a ++ n :: b -> forall e, In e s -> source e = n -> done v (target e) ->
                In (target e) (b ++ q);
    i_comp : forall l, In l v -> done v (target l) -> In (target l) (r ++ q);
    i_init : exists t, r ++ q = INITIAL :: t;
    i_reach : forall t, In t (r ++ q) -> exists p, chain INITIAL p t
  }.

  Lemma inv_start : inv [INITIAL] [] [].
  Proof.
    split.
    - intros l. cbn. tauto.
    - intros t [<-|[]]. now left.
    - intros a n b E. destruct a; discriminate.
    - intros l [].
    - exists []. reflexivity.
    - intros t [<-|[]]. exists []. reflexivity.
  Qed.
  Lemma inv_step f q r v v' q' : inv (f :: q) r v -> relax s (outgoing f) v q = (v', q') ->
    inv q' (r ++ [f]) v'.
  Proof.
    intros [IV IO IL IC II IR] H. apply relax_spec in H as (added & -> & -> & A & B & C & _).
    assert (VI : forall l, In l (rev (outgoing f) ++ v) <-> In l s /\ In (source l) (r ++ [f])).
    { intros l. rewrite !in_app_iff, <- in_rev, in_outgoing, IV. cbn. intuition congruence. }
    assert (Inc : incl v (rev (outgoing f) ++ v)) by (intros x Hx; apply in_or_app; auto).
    assert (EQ : (r ++ [f]) ++ q ++ added = (r ++ f :: q) ++ added)
      by (rewrite <- !app_assoc; reflexivity).
    split.
    - exact VI.
    - intros t It. rewrite EQ in It. apply in_app_or in It as [It|It].
      + destruct (IO t It) as [E|(D & l & I & T & S)]; [now left|right].
        split; [now apply (done_mono v)|]. exists l. repeat split; auto. apply in_or_app; auto.
      + right. destruct (A t It) as (D & e & I & T). apply in_outgoing in I as [I S].
        split; [exact D|]. exists e. repeat split; auto. apply in_or_app. right. left. congruence.
    - intros a n b E e Ie Se De.
      destruct (B _ De) as [D0|D0]; [|apply in_or_app; right; apply in_or_app; auto].
      destruct (list_eq_dec String.string_dec b []) as [->|Nb].
      + apply app_inj_tail in E as [<- <-]. cbn [app].
        apply in_or_app. right. apply C; [|exact De]. apply in_outgoing. auto.
      + destruct (exists_last Nb) as (b' & x & ->).
        replace (a ++ n :: b' ++ [x]) with ((a ++ n :: b') ++ [x]) in E by (rewrite <- app_assoc; reflexivity).
        apply app_inj_tail in E as [E <-].
        specialize (IL _ _ _ E e Ie Se D0). rewrite <- app_assoc. cbn [app].
        rewrite !in_app_iff in *. cbn [In] in *. rewrite !in_app_iff. tauto.
    - intros l Il Dl. rewrite EQ, in_app_iff. destruct (B _ Dl) as [D0|D0]; [|now right].
      apply in_app_or in Il as [Il|Il]; [|left; now apply IC].
      right. apply C; [now apply in_rev|exact Dl].
    - rewrite EQ. destruct II as (t & ->). exists (t ++ added). reflexivity.
    - intros t It. rewrite EQ in It. apply in_app_or in It as [It|It]; [now apply IR|].
      destruct (A t It) as (_ & e & I & T). apply in_outgoing in I as [I S].
      destruct (IR f) as (p & Hp). { apply in_or_app. right. now left. }
      exists (p ++ [e]). apply chain_snoc. rewrite S. auto.
  Qed.
  Lemma kahn_inv n : forall q r v r' v', inv q r v -> kahn s n q r v = Ok (r', v') -> inv [] r' v'.
  Proof.
    induction n as [|n IH]; intros q r v r' v' I H; destruct q as [|f q]; cbn [kahn] in H.
    - apply Ok_inj in H. injection H as <- <-. exact I.
    - discriminate.
    - apply Ok_inj in H. injection H as <- <-. exact I.
    - destruct (relax s (outgoing f) v q) as [v1 q1] eqn:R.
      eapply IH; [|exact H]. eapply inv_step; eauto.
  Qed.

  (** *** uniqueness if nothing leads back to INITIAL *)
  Record uniq (q r : list field) (v : list link) : Prop := {
    u_nodup : NoDup (r ++ q);
    u_done : forall t, In t (r ++ q) -> t <> INITIAL -> done v t
  }.
  Hypothesis NDs : NoDup s.
  Lemma NoDup_filter {A} (f : A -> bool) l : NoDup l -> NoDup (filter f l).
  Proof.
    intros N. induction N as [|x l H N IH]; cbn; [constructor|].
    destruct (f x); [|exact IH]. constructor; [|exact IH]. rewrite filter_In. tauto.
  Qed.
  Lemma NoDup_app_intro {A} (a b : list A) : NoDup a -> NoDup b -> (forall x, In x a -> ~ In x b) -> NoDup (a ++ b).
  Proof.
    intros Na Nb D. induction Na as [|x a H Na IH]; [exact Nb|]. cbn. constructor.
    - rewrite in_app_iff. intros [C|C]; [contradiction|]. apply (D x); cbn; auto.
    - apply IH. intros y Hy. apply D. now right.
  Qed.
  Lemma uniq_step f q r v v' q' : (forall l, In l s -> target l <> INITIAL) ->
    inv (f :: q) r v -> uniq (f :: q) r v -> relax s (outgoing f) v q = (v', q') ->
    uniq q' (r ++ [f]) v'.
  Proof.
    intros NI [IV IO IL IC II IR] [UN UD] H. apply relax_spec in H as (added & -> & -> & A & B & C & D).
    assert (Inc : incl v (rev (outgoing f) ++ v)) by (intros x Hx; apply in_or_app; auto).
    assert (EQ : (r ++ [f]) ++ q ++ added = (r ++ f :: q) ++ added)
      by (rewrite <- !app_assoc; reflexivity).
    assert (ND : NoDup added /\ forall t, In t added -> ~ done v t).
    { apply D.
      - now apply NoDup_filter.
      - intros e I. now apply in_outgoing in I.
      - intros e I C'. apply in_outgoing in I as [I S]. apply IV in C' as [_ C'].
        apply NoDup_remove_2 in UN. apply UN. apply in_or_app. left. congruence. }
    destruct ND as [N1 N2]. split; rewrite EQ.
    - apply NoDup_app_intro; auto. intros t It Ia.
      destruct (A t Ia) as (_ & e & I & T). apply in_outgoing in I as [I _].
      apply (N2 _ Ia). apply UD; [exact It|]. specialize (NI _ I). congruence.
    - intros t It Nt. apply in_app_or in It as [It|It].
      + apply (done_mono v); auto.
      + now apply A.
  Qed.
  Lemma kahn_uniq n : (forall l, In l s -> target l <> INITIAL) -> forall q r v r' v',
    inv q r v -> uniq q r v -> kahn s n q r v = Ok (r', v') -> uniq [] r' v'.
  Proof.
    intros NI. induction n as [|n IH]; intros q r v r' v' I U H; destruct q as [|f q]; cbn [kahn] in H.
    - apply Ok_inj in H. injection H as <- <-. exact U.
    - discriminate.
    - apply Ok_inj in H. injection H as <- <-. exact U.
    - destruct (relax s (outgoing f) v q) as [v1 q1] eqn:R.
      eapply IH; [| |exact H]; [eapply inv_step|eapply uniq_step]; eauto.
  Qed.
  Lemma uniq_start : uniq [INITIAL] [] [].
  Proof.
    split; cbn.
    - repeat constructor. intros [].
    - intros t [<-|[]] N. congruence.
  Qed.
  (** the loop ends *)
  Lemma kahn_total n : (forall l, In l s -> target l <> INITIAL) -> forall q r v,
    inv q r v -> uniq q r v -> length s + 1 < n + length r -> exists x, kahn s n q r v = Ok x.
  Proof.
    intros NI. induction n as [|n IH]; intros q r v I U L; destruct q as [|f q]; cbn [kahn]; eauto.
    - exfalso. destruct U as [UN UD]. destruct I as [IV IO IL IC II IR].
      assert (X : incl (r ++ f :: q) (INITIAL :: map target s)).
      { intros t It. destruct (IO _ It) as [->|(_ & l & J & <- & _)]; [now left|right; now apply in_map]. }
      apply NoDup_incl_length in X; [|exact UN]. cbn in X. rewrite app_length, map_length in X. cbn in X. lia.
    - destruct (relax s (outgoing f) v q) as [v1 q1] eqn:R.
      apply IH; [eapply inv_step; eauto|eapply uniq_step; eauto|]. rewrite app_length. cbn. lia.
  Qed.

  (** *** a finished run that visited every link *)
  Section Finished.
    Variables (r : list field) (v : list link).
    Hypothesis I : inv [] r v.
    Hypothesis ALL : forall l, In l s -> In l v.

    Lemma all_done t : done v t.
    Proof. intros l A _. auto. Qed.
    Lemma f_source l : In l s -> In (source l) r.
    Proof. intros A. apply ALL in A. now apply (i_vis _ _ _ I) in A. Qed.
    Lemma f_target l : In l s -> In (target l) r.
    Proof. intros A. apply ALL in A. apply (i_comp _ _ _ I) in A; [|apply all_done]. now rewrite app_nil_r in A. Qed.
    (** following links moves towards the end of the result *)
    Lemma f_later a n b e : r = a ++ n :: b -> In e s -> source e = n -> In (target e) b.
    Proof.
      intros E Ie Se. pose proof (i_later _ _ _ I a n b E e Ie Se (all_done _)) as H.
      now rewrite app_nil_r in H.
    Qed.
    Lemma f_chain p : forall a n b m, r = a ++ n :: b -> p <> [] -> chain n p m -> In m b.
    Proof.
      induction p as [|l p IH]; intros a n b m E Np H; [congruence|]. cbn in H. destruct H as (Il & Sl & H).
      pose proof (f_later _ _ _ _ E Il Sl) as T.
      destruct p as [|l' p]; [cbn in H; now subst|].
      apply in_split in T as (b1 & b2 & ->).
      apply in_or_app. right. right.
      refine (IH (a ++ n :: b1) (target l) b2 m _ _ H); [|discriminate].
      rewrite E, <- app_assoc. reflexivity.
    Qed.
    Lemma f_acyclic n p : In n r -> p <> [] -> ~ chain n p n.
    Proof.
      intros In_ Np H.
      assert (X : exists a b, r = a ++ n :: b /\ ~ In n b).
      { clear -In_. induction r as [|x l IH]; [contradiction|].
        destruct (in_dec String.string_dec n l) as [J|J].
        - destruct (IH J) as (a & b & -> & N). exists (x :: a), b. auto.
        - destruct In_ as [->|]; [|contradiction]. exists [], l. auto. }
      destruct X as (a & b & E & N). apply N. eapply f_chain; eauto.
    Qed.
    Lemma f_reach n : In n r -> exists p, chain INITIAL p n.
    Proof. intros H. apply (i_reach _ _ _ I). now rewrite app_nil_r. Qed.
    Lemma f_initial : In INITIAL r.
    Proof. destruct (i_init _ _ _ I) as (t & E). rewrite app_nil_r in E. rewrite E. now left. Qed.
    Lemma f_no_initial l : In l s -> target l <> INITIAL.
    Proof.
      intros Il T. destruct (f_reach _ (f_source _ Il)) as (p & Hp).
      apply (f_acyclic INITIAL (p ++ [l]) f_initial); [destruct p; discriminate|].
      apply chain_snoc. auto.
    Qed.

    Hypothesis U : uniq [] r v.
    Lemma r_nodup : NoDup r.
    Proof. pose proof (u_nodup _ _ _ U) as H. now rewrite app_nil_r in H. Qed.
    Lemma r_length : length r <= length s + 1.
    Proof.
      pose proof r_nodup as N. apply NoDup_incl_length with (l' := INITIAL :: map target s) in N.
      - cbn in N. rewrite map_length in N. lia.
      - intros t It. destruct (i_origin _ _ _ I t) as [->|(_ & l & J & <- & _)].
        + now rewrite app_nil_r.
        + now left.
        + right. now apply in_map.
    Qed.
    (** the sources of links into the node at position [length a] lie before it *)
    Lemma f_earlier a f b l : r = a ++ f :: b -> In l s -> target l = f ->
      exists a' b', r = a' ++ source l :: b' /\ length a' < length a.
    Proof.
      intros E Il T. destruct (in_split _ _ (f_source _ Il)) as (a' & b' & E').
      exists a', b'. split; [exact E'|].
      pose proof (f_later _ _ _ _ E' Il eq_refl) as J. rewrite T in J.
      apply in_split in J as (c & d & ->).
      pose proof r_nodup as N.
      assert (a = a' ++ source l :: c).
      { rewrite E in E', N. clear -E' N.
        assert (E2 : a ++ f :: b = (a' ++ source l :: c) ++ f :: d) by (rewrite E', <- app_assoc; reflexivity).
        clear E'. revert E2 N. generalize (a' ++ source l :: c). clear. intros x. revert x.
        induction a as [|y a IH]; intros [|z x] E N; cbn in *.
        - reflexivity.
        - injection E as -> E. exfalso. apply NoDup_cons_iff in N as [N _]. apply N. rewrite E.
          apply in_or_app. right. now left.
        - injection E as <- E. exfalso. apply NoDup_cons_iff in N as [N _]. apply N.
          apply in_or_app. right. now left.
        - injection E as <- E. f_equal. apply IH; [exact E|]. now apply NoDup_cons_iff in N. }
      subst a. rewrite app_length. cbn. lia.
    Qed.
    Lemma r_split f : In f r -> exists a b, r = a ++ f :: b /\ length a <= length s.
    Proof.
      intros H. destruct (in_split _ _ H) as (a & b & E). exists a, b. split; [exact E|].
      pose proof r_length as L. rewrite E, app_length in L. cbn in L. lia.
    Qed.

    (** *** paths *)
    Lemma mapr_ok {A B} (f : A -> res B) (l : list A) : (forall x, In x l -> exists y, f x = Ok y) ->
      exists ys, mapr f l = Ok ys.
    Proof.
      induction l as [|x l IH]; intros H; [eexists; reflexivity|]. cbn [mapr].
      destruct (H x) as (y & E); [now left|]. rewrite E. cbn [bind].
      destruct IH as (ys & Ys); [intros z Hz; apply H; now right|]. rewrite Ys. eexists. reflexivity.
    Qed.
    Lemma mapr_inv {A B} (f : A -> res B) (l : list A) : forall ys, mapr f l = Ok ys ->
      Forall2 (fun x y => f x = Ok y) l ys.
    Proof.
      induction l as [|x l IH]; intros ys H; cbn [mapr] in H.
      - apply Ok_inj in H. subst. constructor.
      - destruct (f x) as [y|] eqn:E; cbn [bind] in H; [|discriminate].
        destruct (mapr f l) as [zs|] eqn:M; cbn [bind] in H; [|discriminate].
        apply Ok_inj in H. subst. constructor; auto.
    Qed.
    Lemma mapr_total {A B} (f : A -> B) (l : list A) g : (forall x, In x l -> g x = Ok (f x)) ->
      mapr g l = Ok (map f l).
    Proof.
      induction l as [|x l IH]; intros H; [reflexivity|]. cbn [mapr map].
      rewrite H by now left. cbn [bind]. rewrite IH; [reflexivity|]. intros y Hy. apply H. now right.
    Qed.

    Definition is_paths (ps : list (list link)) (f : field) : Prop :=
      NoDup ps /\ forall p, In p ps <-> p <> [] /\ chain INITIAL p f.

    Lemma paths_spec k : forall a f b, r = a ++ f :: b -> length a <= k ->
      exists ps, paths s k f = Ok ps /\ is_paths ps f.
    Proof.
      induction k as [k IH] using (well_founded_induction lt_wf). intros a f b E L.
      assert (Hf : In f r) by (rewrite E; apply in_or_app; right; now left).
      destruct k as [|k]; cbn [paths]; destruct (String.eqb_spec f INITIAL) as [->|Nf].
      1,3: exists []; split; [reflexivity|]; split; [constructor|]; intros p; split; [intros []|intros [Np C]];
           exfalso; exact (f_acyclic _ _ Hf Np C).
      - exfalso. destruct a; [|cbn in L; lia]. destruct (i_init _ _ _ I) as (t & E0).
        rewrite app_nil_r, E in E0. injection E0 as -> _. congruence.
      - set (F := fun l : link => bind (paths s k (source l)) _).
        assert (X : forall l, In l (incoming f) -> exists ps, F l = Ok ps /\ NoDup ps /\
          forall p, In p ps <-> exists q, p = q ++ [l] /\ chain INITIAL q (source l)).
        { intros l Hl. apply in_incoming in Hl as [Il T]. destruct (f_earlier _ _ _ _ E Il T) as (a' & b' & E' & L').
          destruct (IH k (Nat.lt_succ_diag_r k) a' (source l) b' E' ltac:(lia)) as (ps & Hp & ND & Sp).
          unfold F. rewrite Hp. cbn [bind]. eexists. split; [reflexivity|].
          assert (Hsrc : In (source l) r) by now apply f_source.
          destruct ps as [|p0 ps0].
          - assert (Ei : source l = INITIAL).
            { destruct (f_reach _ Hsrc) as (p & Hc). destruct p as [|x p]; [cbn in Hc; congruence|].
              exfalso. apply (Sp (x :: p)). split; [discriminate|exact Hc]. }
            split; [repeat constructor; intros []|]. intros p. split.
            + intros [<-|[]]. exists []. split; [reflexivity|]. cbn. congruence.
            + intros (q & -> & C). left. destruct q as [|x q]; [reflexivity|].
              exfalso. apply (Sp (x :: q)). split; [discriminate|exact C].
          - set (ps := p0 :: ps0) in *. assert (NE : source l <> INITIAL).
            { intros C. destruct (Sp p0) as [S1 _]. destruct S1 as [S1 S2]; [now left|]. rewrite C in *.
              exact (f_acyclic _ _ Hsrc S1 S2). }
            split.
            + apply FinFun.Injective_map_NoDup; [|exact ND]. intros x y Exy. now apply app_inj_tail in Exy.
            + intros p. rewrite in_map_iff. split.
              * intros (q & <- & Hq). exists q. split; [reflexivity|]. now apply Sp.
              * intros (q & -> & C). exists q. split; [reflexivity|]. apply Sp. split; [|exact C].
                intros ->. cbn in C. congruence. }
        destruct (mapr_ok F (incoming f)) as (rs & Hr). { intros l Hl. destruct (X l Hl) as (ps & Y & _). eauto. }
        change (exists ps, bind (mapr F (incoming f)) (fun rs => Ok (concat rs)) = Ok ps /\ is_paths ps f).
        rewrite Hr. cbn [bind]. exists (concat rs). split; [reflexivity|].
        apply mapr_inv in Hr.
        assert (NI : NoDup (incoming f)) by now apply NoDup_filter.
        assert (Y : NoDup (concat rs) /\ forall p, In p (concat rs) <->
                    exists q l, In l (incoming f) /\ p = q ++ [l] /\ chain INITIAL q (source l)).
        { revert X NI Hr. generalize (incoming f). clear. intros ls X NI Hr.
          induction Hr as [|l ps ls rs Hl Hr IH].
          - split; [constructor|]. intros p. cbn. split; [intros []|intros (? & ? & [] & _)].
          - cbn [concat]. destruct (X l (or_introl eq_refl)) as (ps' & E & ND & Sp).
            rewrite Hl in E. apply Ok_inj in E. subst ps'.
            apply NoDup_cons_iff in NI as [Nl NI].
            destruct IH as [IH1 IH2]; [intros l' Hl'; apply X; now right|exact NI|].
            split.
            + apply NoDup_app_intro; auto. intros p P1 P2. apply Sp in P1 as (q & -> & _).
              apply IH2 in P2 as (q' & l' & Il' & E & _). apply app_inj_tail in E as [_ <-]. contradiction.
            + intros p. rewrite in_app_iff, Sp, IH2. split.
              * intros [(q & -> & C)|(q & l' & Il & -> & C)].
                -- exists q, l. cbn; auto.
                -- exists q, l'. cbn; auto.
              * intros (q & l' & [<-|Il] & -> & C); [left; eauto|right; exists q, l'; auto]. }
        destruct Y as [Y1 Y2]. split; [exact Y1|]. intros p. rewrite Y2. split.
        + intros (q & l & Il & -> & C). apply in_incoming in Il as [Il T].
          split; [destruct q; discriminate|]. apply chain_snoc. auto.
        + intros [Np C]. destruct (exists_last Np) as (q & l & ->). apply chain_snoc in C as (C & Il & T).
          exists q, l. split; [now apply in_incoming|]. auto.
    Qed.
    Lemma not_in_r f : ~ In f r -> incoming f = [] /\ f <> INITIAL.
    Proof.
      intros N. split; [|intros ->; apply N, f_initial].
      destruct (incoming f) as [|l t] eqn:E; [reflexivity|]. exfalso.
      assert (H : In l (incoming f)) by (rewrite E; now left). apply in_incoming in H as [Il T].
      apply N. rewrite <- T. now apply f_target.
    Qed.
    Lemma paths_all k f : length s < k -> exists ps, paths s k f = Ok ps /\ is_paths ps f.
    Proof.
      intros L. destruct (in_dec String.string_dec f r) as [J|J].
      - destruct (r_split _ J) as (a & b & E & La). eapply paths_spec; [exact E|lia].
      - destruct (not_in_r _ J) as [E N]. exists []. split.
        + destruct k as [|k]; [lia|]. cbn [paths]. rewrite E.
          destruct (String.eqb_spec f INITIAL); [contradiction|reflexivity].
        + split; [constructor|]. intros p. split; [intros []|]. intros [Np C].
          destruct (exists_last Np) as (q & l & ->). apply chain_snoc in C as (C & Il & T).
          apply J. rewrite <- T. now apply f_target.
    Qed.

    (** *** field conditions *)
    Lemma condition_spec g k : (forall l, In l s -> exists b, eval g (condition l) = Some (VBool b)) ->
      forall a f b, r = a ++ f :: b -> length a <= k ->
      exists e c, compute_field_condition s k f = Ok e /\ eval g e = Some (VBool c) /\
        (c = true <-> exists p, chain INITIAL p f /\ Forall (fun l => eval g (condition l) = Some (VBool true)) p) /\
        ((forall l, In l s -> ok (condition l) = true) -> ok e = true).
    Proof.
      intros G. induction k as [k IH] using (well_founded_induction lt_wf). intros a f b E L.
      assert (Hf : In f r) by (rewrite E; apply in_or_app; right; now left).
      destruct k as [|k]; cbn [compute_field_condition]; destruct (String.eqb_spec f INITIAL) as [->|Nf].
      1,3: exists ETrue, true; split; [reflexivity|]; split; [reflexivity|]; split; [|reflexivity];
           split; [intros _; exists []; split; [reflexivity|constructor]|reflexivity].
      - exfalso. destruct a; [|cbn in L; lia]. destruct (i_init _ _ _ I) as (t & E0).
        rewrite app_nil_r, E in E0. injection E0 as -> _. congruence.
      - set (F := fun l : link => bind (compute_field_condition s k (source l)) _).
        assert (X : forall l, In l (incoming f) -> exists e c, F l = Ok e /\ eval g e = Some (VBool c) /\
          (c = true <-> exists p, chain INITIAL (p ++ [l]) f /\ Forall (fun l => eval g (condition l) = Some (VBool true)) (p ++ [l])) /\
          ((forall l, In l s -> ok (condition l) = true) -> ok e = true)).
        { intros l Hl. apply in_incoming in Hl as [Il T]. destruct (f_earlier _ _ _ _ E Il T) as (a' & b' & E' & L').
          destruct (IH k (Nat.lt_succ_diag_r k) a' (source l) b' E' ltac:(lia)) as (e & c & He & Ee & Sp & Oe).
          unfold F. rewrite He. cbn [bind]. destruct (G l Il) as (d & Ed).
          do 2 eexists. split; [reflexivity|]. split; [cbn; rewrite Ee, Ed; reflexivity|]. split.
          - cbn. rewrite andb_true_r, andb_true_iff, Sp. split.
            + intros [(p & C & S) ->]. exists p. split; [apply chain_snoc; auto|].
              apply Forall_app. split; [exact S|]. constructor; [exact Ed|constructor].
            + intros (p & C & S). apply chain_snoc in C as (C & _). apply Forall_app in S as [S1 S2].
              inversion S2; subst. split; [exists p; auto|congruence].
          - intros O. cbn [ok forallb]. rewrite Oe, O by auto. reflexivity. }
        destruct (mapr_ok F (incoming f)) as (ts & Ht). { intros l Hl. destruct (X l Hl) as (e & c & Y & _). eauto. }
        change (exists e c, bind (mapr F (incoming f)) (fun ts => Ok (EAss OOr ts)) = Ok e /\ eval g e = Some (VBool c) /\
          (c = true <-> exists p, chain INITIAL p f /\ Forall (fun l => eval g (condition l) = Some (VBool true)) p) /\
          ((forall l, In l s -> ok (condition l) = true) -> ok e = true)).
        rewrite Ht. cbn [bind]. apply mapr_inv in Ht.
        assert (Y : exists cs, bools (map (eval g) ts) = Some cs /\
          (anyb cs = true <-> exists p l, In l (incoming f) /\ chain INITIAL (p ++ [l]) f /\ 
              Forall (fun l => eval g (condition l) = Some (VBool true)) (p ++ [l])) /\
          ((forall l, In l s -> ok (condition l) = true) -> forallb ok ts = true)).
        { revert X Ht. generalize (incoming f). clear. intros ls X Hr.
          induction Hr as [|l e ls ts Hl Hr IH].
          - exists []. split; [reflexivity|]. split; [|reflexivity].
            cbn. split; [discriminate|intros (? & ? & [] & _)].
          - destruct (X l (or_introl eq_refl)) as (e' & c & E & Ev & Sp & O).
            rewrite Hl in E. apply Ok_inj in E. subst e'.
            destruct IH as (cs & IH1 & IH2 & IH3); [intros l' Hl'; apply X; now right|].
            exists (c :: cs). cbn [map bools]. rewrite Ev, IH1. split; [reflexivity|]. split.
            + cbn [anyb existsb]. rewrite orb_true_iff, Sp. fold (anyb cs). rewrite IH2. split.
              * intros [(p & A)|(p & l' & Il & A)]; [exists p, l; cbn; tauto|exists p, l'; cbn; tauto].
              * intros (p & l' & [<-|Il] & A); [left; eauto|right; exists p, l'; auto].
            + intros A. cbn [forallb]. rewrite O, IH3 by auto. reflexivity. }
        destruct Y as (cs & Y1 & Y2 & Y3). exists (EAss OOr ts), (anyb cs). split; [reflexivity|].
        split; [cbn; now rewrite Y1|]. split; [|exact Y3]. rewrite Y2. split.
        + intros (p & l & Il & A & B). exists (p ++ [l]). auto.
        + intros (p & C & S). destruct p as [|x p0] eqn:Ep; [cbn in C; congruence|].
          assert (Np : p <> []) by (subst; discriminate). rewrite <- Ep in *. clear Ep.
          destruct (exists_last Np) as (q & l & ->). exists q, l.
          split; [|auto]. apply chain_snoc in C as (C & Il & T). now apply in_incoming.
    Qed.
  End Finished.
End Graph.
