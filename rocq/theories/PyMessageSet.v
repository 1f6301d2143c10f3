(** Lemmas about MessageValue.set: what a call leaves alone, what an exception leaves
    behind, and what the recorded mapping says in every history of calls. *)
From Coq Require Import String Ascii List ZArith Bool Lia.
From Verif Require Import Base Expr ExprEval ExprFacts ExprTotal Ident TypeSpec Bitstring BitFacts PyValue PyValueFacts.
From Verif Require Import MsgGraph MsgGraphFacts GenSpec PyMessage PyMessageFacts PyMessageParse.
Import ListNotations.
Local Open Scope string_scope.
Local Open Scope list_scope.
Local Open Scope Z_scope.

(** ** Values that are left alone *)

(** the second value is the first one, or an opaque value that was cleared; expected
    sizes may differ *)
Definition kept (v v' : tval) : Prop :=
  match v, v' with
  | VScalar a, VScalar b => a = b
  | VOpaque _ r x a, VOpaque _ r' x' b => r' = r /\ x' = x /\ (b = a \/ b = None)
  | VScalars _ a, VScalars _ b => a = b
  | VMessages _ a, VMessages _ b => a = b
  | _, _ => False
  end.
Lemma kept_refl v : kept v v.
Proof. destruct v; cbn; auto. Qed.
Lemma kept_trans a b c : kept a b -> kept b c -> kept a c.
Proof.
  destruct a, b; cbn; try contradiction; destruct c; cbn; try contradiction; try congruence.
  intros (-> & -> & H) (-> & -> & [->| ->]); auto.
Qed.
Lemma kept_expected v z : kept v (set_expected v z).
Proof. destruct v; cbn; auto. Qed.
Lemma kept_clear v : is_opaque v = true -> kept v (clear v).
Proof. destruct v; cbn; try discriminate; auto. Qed.

(** a graph without cycles through the fields *)
Definition acyclic (mt : mtype) (rank : field -> nat) : Prop :=
  forall l, In l (m_links mt) -> (rank (source l) < rank (target l))%nat.

(** an exception that is raised by the evaluation of the conditions and sizes of the
    message, not by the value *)
Definition internal (n : nat) (mt : mtype) (w : string) : Prop :=
  w = out_of_fuel \/ w = "KeyError" \/ w = "AssertionError" \/
  (exists m e, simplified n mt m e = Err w) \/ exists f, condition_of n mt f = Err w.

Section Errors.
  Variables (n : nat) (mt : mtype).
  Local Notation internal := (internal n mt).

  Lemma Err_inj {A} a b : @Err A a = Err b -> a = b.
  Proof. congruence. Qed.
  Lemma holds_err m e w : holds n mt m e = Err w -> internal w.
  Proof.
    unfold holds. destruct (simplified n mt m e) as [r|] eqn:S; cbn [bind]; intros H; [discriminate|].
    apply Err_inj in H. subst. do 3 right. left. eauto.
  Qed.
  Lemma number_err m e w : number n mt m e = Err w -> internal w.
  Proof.
    unfold number. destruct (simplified n mt m e) as [r|] eqn:S; cbn [bind]; intros H; [discriminate|].
    apply Err_inj in H. subst. do 3 right. left. eauto.
  Qed.
  Lemma first_holding_err m : forall ls w, first_holding n mt m ls = Err w -> internal w.
  Proof.
    induction ls as [|l t IH]; intros w H; cbn [first_holding] in H; [discriminate|].
    destruct (holds n mt m (condition l)) as [[]|] eqn:B; cbn [bind] in H; [discriminate|auto|].
    apply Err_inj in H. subst. eapply holds_err; eauto.
  Qed.
  Lemma next_field_err m f w : next_field n mt m f = Err w -> internal w.
  Proof.
    unfold next_field. destruct (String.eqb f FINAL); [discriminate|]. destruct (String.eqb f INITIAL); [discriminate|].
    apply first_holding_err.
  Qed.
  Lemma prev_field_err st f w : prev_field n mt st f = Err w -> internal w.
  Proof.
    unfold prev_field. destruct (String.eqb f INITIAL); [discriminate|]. intros H.
    match type of H with bind ?r _ = _ => destruct r as [ps|] eqn:R end; cbn [bind] in H.
    - destruct (concat ps) as [|? []]; discriminate.
    - apply Err_inj in H. subst. revert R. generalize (incoming_ mt f).
      induction l as [|l t IH]; cbn [mapr]; intros R; [discriminate|].
      destruct (holds n mt (mapping st) (condition l)) as [b|] eqn:B; cbn [bind] in R.
      + match type of R with bind ?r _ = _ => destruct r eqn:Q end; cbn [bind] in R; [discriminate|].
        apply Err_inj in R. subst. now apply IH.
      + apply Err_inj in R. subst. eapply holds_err; eauto.
  Qed.
  Lemma link_size_err st : forall ls w, link_size n mt st ls = Err w -> internal w.
  Proof.
    induction ls as [|l t IH]; intros w H; cbn [link_size] in H; [discriminate|].
    destruct (is_set mt st (source l)), (lsize l); auto.
    destruct (holds n mt (mapping st) (condition l)) as [[]|] eqn:B; cbn [bind] in H; [eapply number_err; eauto|auto|].
    apply Err_inj in H. subst. eapply holds_err; eauto.
  Qed.
  Lemma get_size_err st f w : get_size n mt st f = Err w -> internal w.
  Proof. unfold get_size. destruct (typ mt f); try discriminate; apply link_size_err. Qed.
  Lemma link_first_err st o : (forall w, o = Err w -> internal w) -> forall ls w, link_first n mt st ls o = Err w -> internal w.
  Proof.
    intros O. induction ls as [|l t IH]; intros w H; cbn [link_first] in H; [auto|].
    destruct (lfirst l); auto.
    destruct (holds n mt (mapping st) (condition l)) as [[]|] eqn:B; cbn [bind] in H; [eapply number_err; eauto|auto|].
    apply Err_inj in H. subst. eapply holds_err; eauto.
  Qed.
  Lemma get_first_err st f w : get_first n mt st f = Err w -> internal w.
  Proof.
    apply link_first_err. intros v H. destruct (prev_field n mt st f) as [g|] eqn:P; cbn [bind] in H.
    - destruct (String.eqb g ""); discriminate.
    - apply Err_inj in H. subst. eapply prev_field_err; eauto.
  Qed.
  Lemma valid_opaque_err st : forall ls w, valid_opaque n mt st ls = Err w -> internal w.
  Proof.
    induction ls as [|l t IH]; intros w H; cbn [valid_opaque] in H; [discriminate|].
    destruct (lsize l); auto. destruct (is_set mt st (source l)); auto.
    destruct (holds n mt (mapping st) (condition l)) as [[]|] eqn:B; cbn [bind] in H; [discriminate|auto|].
    apply Err_inj in H. subst. eapply holds_err; eauto.
  Qed.
  Lemma message_last_err st m : forall k f w, message_last n mt k st m f = Err w -> internal w.
  Proof.
    induction k as [|k IH]; intros f w H; cbn [message_last] in H; destruct (String.eqb f ""); try discriminate.
    - apply Err_inj in H. subst. now left.
    - destruct (next_field n mt m f) as [g|] eqn:N; cbn [bind] in H.
      + destruct (String.eqb f FINAL); [apply Err_inj in H; subst; right; now left|].
        destruct (last mt st f); [|discriminate]. destruct (String.eqb g FINAL); [discriminate|].
        destruct (String.eqb g ""); cbn [negb] in H; [|eauto]. destruct (existsb _ _); discriminate.
      + apply Err_inj in H. subst. eapply next_field_err; eauto.
  Qed.
  Lemma update_err st w : update_mapping n mt st = Err w -> internal w.
  Proof.
    unfold update_mapping. intros H. destruct (next_field n mt (field_mapping mt st) INITIAL) as [g|] eqn:N; cbn [bind] in H.
    - destruct (message_last n mt n st (field_mapping mt st) g) as [z|] eqn:L; cbn [bind] in H; [discriminate|].
      apply Err_inj in H. subst. eapply message_last_err; eauto.
    - apply Err_inj in H. subst. eapply next_field_err; eauto.
  Qed.
  Lemma all_false_err m : forall ls w, all_false n mt m ls = Err w -> internal w.
  Proof.
    induction ls as [|l t IH]; intros w H; cbn [all_false] in H; [discriminate|].
    destruct (simplified n mt m (condition l)) as [r|] eqn:S; cbn [bind] in H.
    - destruct (expr_eqb r EFalse); [auto|discriminate].
    - apply Err_inj in H. subst. do 3 right. left. eauto.
  Qed.
  Lemma find_refinement_err st f : forall rs r w, find_refinement n mt st f rs r = Err w -> internal w.
  Proof.
    induction rs as [|x t IH]; intros r w H; cbn [find_refinement] in H; [discriminate|].
    destruct (String.eqb _ _ && _); [|eauto].
    destruct (holds n mt (mapping st) (r_condition x)) as [b|] eqn:B; cbn [bind] in H; [eauto|].
    apply Err_inj in H. subst. eapply holds_err; eauto.
  Qed.

  (** *** _preset_fields *)
  Lemma preset_loop_kept : forall k st nxt acc st' r, preset_loop n mt k st nxt acc = (st', r) ->
    mapping st' = mapping st /\ accessible st' = accessible st /\
    (forall g, kept (tv (fields st g)) (tv (fields st' g))) /\ (forall w, r = Err w -> internal w).
  Proof.
    induction k as [|k IH]; intros st nxt acc st' r H; cbn [preset_loop] in H.
    - destruct (_ || _); injection H as <- <-; repeat split; auto using kept_refl; intros w X; try discriminate.
      apply Err_inj in X. subst. now left.
    - destruct (_ || _). { injection H as <- <-; repeat split; auto using kept_refl; intros w X; discriminate. }
      destruct (get_first n mt st nxt) as [[p|]|w1] eqn:GF; destruct (get_size n mt st nxt) as [size|w2] eqn:GS;
        try (injection H as <- <-; repeat split; auto using kept_refl; intros w X; try discriminate; apply Err_inj in X; subst;
             first [eapply get_first_err; eassumption|eapply get_size_err; eassumption]; fail).
      match type of H with (match ?a with _ => _ end) = _ => destruct a as [b|w] eqn:A end.
      2:{ injection H as <- <-; repeat split; auto using kept_refl; intros w' X; apply Err_inj in X; subst.
          destruct (condition_of n mt nxt) as [c|] eqn:C; cbn [bind] in A.
          - destruct (holds n mt (mapping st) c) as [[]|] eqn:B; cbn [bind] in A; try discriminate.
            + destruct (is_opaque _); [eapply valid_opaque_err; eauto|discriminate].
            + apply Err_inj in A. subst. eapply holds_err; eauto.
          - apply Err_inj in A. subst. do 4 right. eauto. }
      destruct size as [z|].
      2:{ injection H as <- <-; repeat split; auto using kept_refl; intros w' X; discriminate. }
      set (st1 := set_first st nxt (Some p)) in *.
      set (st2 := if is_opaque (tv (fields st1 nxt)) then set_tv st1 nxt (set_expected (tv (fields st1 nxt)) z)
                  else st1) in *.
      assert (K2 : mapping st2 = mapping st /\ accessible st2 = accessible st /\
        forall g, kept (tv (fields st g)) (tv (fields st2 g))).
      { assert (K1 : forall g, kept (tv (fields st g)) (tv (fields st1 g))).
        { intros g. unfold st1. destruct (string_dec g nxt) as [->|N]; [rewrite set_first_same|rewrite set_first_other by exact N];
            apply kept_refl. }
        clear A H. unfold st2. destruct (is_opaque (tv (fields st1 nxt))); (split; [reflexivity|split; [reflexivity|]]); [|exact K1].
        intros g. eapply kept_trans; [apply K1|].
        destruct (string_dec g nxt) as [->|N]; [rewrite set_tv_same; apply kept_expected|rewrite set_tv_other by exact N; apply kept_refl]. }
      destruct K2 as (M2 & A2 & K2).
      destruct (is_set mt st2 nxt && is_opaque (tv (fields st2 nxt))) eqn:C.
      + apply andb_true_iff in C as [_ C]. injection H as <- <-. split; [exact M2|]. split; [exact A2|].
        split; [|intros w X; discriminate]. intros g. eapply kept_trans; [apply K2|].
        destruct (string_dec g nxt) as [->|N].
        * rewrite set_tv_same. now apply kept_clear.
        * rewrite set_tv_other by exact N. rewrite set_first_other by exact N. apply kept_refl.
      + destruct (next_field n mt (mapping st2) nxt) as [nxt'|w] eqn:Nx.
        * destruct (IH _ _ _ _ _ H) as (M & A' & K & E). split; [congruence|]. split; [congruence|]. split; [|exact E].
          intros g. eapply kept_trans; [apply K2|apply K].
        * injection H as <- <-. split; [exact M2|]. split; [exact A2|]. split; [exact K2|].
          intros w' X. apply Err_inj in X. subst. eapply next_field_err; eauto.
  Qed.
  Lemma preset_kept st f st' r : preset_fields n mt st f = (st', r) ->
    mapping st' = mapping st /\ (forall g, kept (tv (fields st g)) (tv (fields st' g))) /\ (forall w, r = Err w -> internal w).
  Proof.
    unfold preset_fields. intros H. destruct (next_field n mt (mapping st) f) as [nxt|w] eqn:Nx.
    - destruct (preset_loop n mt n st nxt []) as [st1 r1] eqn:L.
      destruct (preset_loop_kept _ _ _ _ _ _ L) as (M & A & K & E).
      destruct r1; injection H as <- <-; cbn; (split; [exact M|]); (split; [exact K|]); intros w X; [discriminate|].
      apply Err_inj in X. subst. auto.
    - injection H as <- <-. split; [reflexivity|]. split; [intros; apply kept_refl|].
      intros w' X. apply Err_inj in X. subst. eapply next_field_err; eauto.
  Qed.

  (** fields that are not behind [f] in the graph are not touched *)
  Variable rank : field -> nat.
  Hypothesis G : acyclic mt rank.
  Lemma next_edge m f g : next_field n mt m f = Ok g -> g <> "" -> g <> FINAL ->
    exists l, In l (m_links mt) /\ source l = f /\ target l = g.
  Proof.
    intros H Ng NF. unfold next_field in H.
    destruct (String.eqb_spec f FINAL) as [Ef|Nf]; [apply Ok_inj in H; congruence|].
    destruct (String.eqb_spec f INITIAL) as [Ei|Ni].
    - apply Ok_inj in H. destruct (outgoing_ mt INITIAL) as [|l t] eqn:O; [congruence|]. exists l.
      assert (I : In l (outgoing_ mt INITIAL)) by (rewrite O; now left). apply in_outgoing in I as [I S].
      split; [exact I|]. split; congruence.
    - destruct (first_holding_in n mt m _ _ H Ng) as (l & I & Tl & Hl). apply in_outgoing in I as [I S]. exists l. auto.
  Qed.
  Lemma preset_loop_front : forall k st nxt acc st' r, preset_loop n mt k st nxt acc = (st', r) ->
    forall g, (rank g < rank nxt)%nat -> fields st' g = fields st g.
  Proof.
    induction k as [|k IH]; intros st nxt acc st' r H g Lt; cbn [preset_loop] in H.
    - destruct (_ || _); injection H as <- <-; reflexivity.
    - destruct (String.eqb_spec nxt "") as [E|N]; cbn [orb] in H; [injection H as <- _; auto|].
      destruct (String.eqb_spec nxt FINAL) as [E|NF]; [injection H as <- _; auto|].
      destruct (get_first n mt st nxt) as [[p|]|w1]; destruct (get_size n mt st nxt) as [size|w2];
        try (injection H as <- <-; reflexivity).
      match type of H with (match ?a with _ => _ end) = _ => destruct a as [b|w] end; [|injection H as <- _; auto].
      destruct size as [z|]; [|injection H as <- _; auto].
      set (st1 := set_first st nxt (Some p)) in *.
      set (st2 := if is_opaque (tv (fields st1 nxt)) then set_tv st1 nxt (set_expected (tv (fields st1 nxt)) z)
                  else st1) in *.
      assert (Ng : g <> nxt) by (intros ->; lia).
      assert (F2 : fields st2 g = fields st g).
      { unfold st2, st1. destruct (is_opaque _).
        - rewrite set_tv_other by exact Ng. now rewrite set_first_other.
        - now rewrite set_first_other. }
      destruct (is_set mt st2 nxt && is_opaque (tv (fields st2 nxt))).
      + injection H as <- _. rewrite set_tv_other by exact Ng. now rewrite set_first_other.
      + destruct (next_field n mt (mapping st2) nxt) as [nxt'|w] eqn:Nx; [|injection H as <- _; auto].
        destruct (String.eqb_spec nxt' "") as [E|N'].
        { subst. destruct k; cbn in H; injection H as <- _; auto. }
        destruct (String.eqb_spec nxt' FINAL) as [E|NF'].
        { subst. destruct k; cbn in H; injection H as <- _; auto. }
        destruct (next_edge _ _ _ Nx N' NF') as (l & I & S & Tl). pose proof (G l I) as R. rewrite S, Tl in R.
        rewrite (IH _ _ _ _ _ H) by lia. exact F2.
  Qed.
  Lemma preset_front st f st' r : preset_fields n mt st f = (st', r) ->
    forall g, (rank g <= rank f)%nat -> fields st' g = fields st g.
  Proof.
    unfold preset_fields. intros H g Lt. destruct (next_field n mt (mapping st) f) as [nxt|w] eqn:Nx; [|injection H as <- _; auto].
    destruct (preset_loop n mt n st nxt []) as [st1 r1] eqn:L.
    assert (F : fields st1 g = fields st g).
    { destruct (String.eqb_spec nxt "") as [E|N].
      { subst. destruct n; cbn in L; injection L as <- _; auto. }
      destruct (String.eqb_spec nxt FINAL) as [E|NF].
      { subst. destruct n; cbn in L; injection L as <- _; auto. }
      destruct (next_edge _ _ _ Nx N NF) as (l & I & S & Tl). pose proof (G l I) as R. rewrite S, Tl in R.
      apply (preset_loop_front _ _ _ _ _ _ L). lia. }
    destruct r1; injection H as <- _; exact F.
  Qed.
End Errors.

(** ** All ways through set *)
Section Set_.
  Variables (n : nat) (mt : mtype) (refs : list refinement) (inner : bool -> string -> bits -> res bits).

  (** the state before the fields behind [f] are preset *)
  Lemma set_split st f x st' r : set n mt refs inner st f x = (st', r) ->
    (* the value is not taken *)
    ((forall g, g <> f -> fields st' g = fields st g) /\ mapping st' = mapping st /\ accessible st' = accessible st /\
     (exists ref, kept (set_ref (tv (fields st f)) ref) (tv (fields st' f))) /\ exists w, r = Err w) \/
    exists p size ref v st4,
      get_first n mt st f = Ok (Some p) /\ get_size n mt st f = Ok size /\
      find_refinement n mt st f (if is_opaque (tv (fields st f)) then refs else []) (get_ref (tv (fields st f))) = Ok ref /\
      tv_set n inner (typ mt f)
        (set_ref (match size with Some z => set_expected (tv (fields st f)) z | None => tv (fields st f) end) ref) x = Ok v /\
      fields st4 f = mkField v (Some p) /\ (forall g, g <> f -> fields st4 g = fields st g) /\
      mapping st4 = mapping st /\ accessible st4 = accessible st /\ In f (accessible st) /\
      ((st' = st4 /\ exists w, r = Err w /\ internal n mt w) \/
       exists st5, update_mapping n mt st4 = Ok st5 /\
         ((st' = st5 /\ exists w, r = Err w /\ internal n mt w) \/
          (st' = set_tv st5 f (clear v) /\ r = Err "none of the field conditions have been met") \/
          preset_fields n mt st5 f = (st', r))).
  Proof.
    intros H. unfold set in H.
    assert (SR : forall v, exists ref, kept (set_ref v ref) v).
    { intros v. exists (get_ref v). destruct v; cbn; auto. }
    destruct (memf f (accessible st)) eqn:A; cbn [negb] in H.
    2:{ injection H as <- <-. left. repeat split; eauto. }
    apply memf_iff in A.
    destruct (get_first n mt st f) as [[p|]|] eqn:GF; destruct (get_size n mt st f) as [size|] eqn:GS;
      try (injection H as <- <-; left; repeat split; eauto; fail).
    set (st1 := set_first st f (Some p)) in *.
    set (st2 := match size with Some z => set_tv st1 f (set_expected (tv (fields st1 f)) z) | None => st1 end) in *.
    assert (F2 : fields st2 f = mkField (match size with Some z => set_expected (tv (fields st f)) z
                                         | None => tv (fields st f) end) (Some p) /\
                 (forall g, g <> f -> fields st2 g = fields st g) /\ mapping st2 = mapping st /\
                 accessible st2 = accessible st).
    { unfold st2, st1. destruct size; (split; [|split; [|split; reflexivity]]).
      - rewrite set_tv_same, set_first_same. reflexivity.
      - intros g N. rewrite set_tv_other by exact N. now rewrite set_first_other.
      - now rewrite set_first_same.
      - intros g N. now rewrite set_first_other. }
    destruct F2 as (F2 & O2 & M2 & A2).
    assert (FRE : find_refinement n mt st2 f (if is_opaque (tv (fields st2 f)) then refs else []) (get_ref (tv (fields st2 f)))
      = find_refinement n mt st f (if is_opaque (tv (fields st f)) then refs else []) (get_ref (tv (fields st f)))).
    { rewrite F2. cbn [tv].
      assert (X : forall v, is_opaque (match size with Some z => set_expected v z | None => v end) = is_opaque v /\
        get_ref (match size with Some z => set_expected v z | None => v end) = get_ref v).
      { intros v. destruct size, v; split; reflexivity. }
      rewrite (proj1 (X _)), (proj2 (X _)). generalize (get_ref (tv (fields st f))).
      generalize (if is_opaque (tv (fields st f)) then refs else []). clear -M2.
      induction l as [|a t IH]; intros o; cbn [find_refinement]; [reflexivity|]. rewrite M2.
      destruct (String.eqb _ _ && _); [|apply IH]. destruct (holds _ _ _ _); cbn [bind]; [apply IH|reflexivity]. }
    rewrite FRE in H. clear FRE.
    destruct (find_refinement n mt st f _ _) as [ref|] eqn:FR.
    2:{ injection H as <- <-. left. split; [exact O2|]. split; [exact M2|]. split; [exact A2|]. split; [|eauto].
        rewrite F2. exists (get_ref (tv (fields st f))). destruct size, (tv (fields st f)); cbn; auto. }
    destruct (tv_set _ _ _ _ _) as [v|] eqn:TV.
    2:{ injection H as <- <-. left. split. { intros g N. rewrite set_tv_other by exact N. auto. }
        split; [exact M2|]. split; [exact A2|]. split; [|eauto].
        exists ref. rewrite set_tv_same, F2. cbn [tv]. destruct size, (tv (fields st f)); cbn; auto. }
    rewrite set_tv_same, F2 in TV. cbn [tv] in TV. right.
    match type of H with context [update_mapping n mt ?s] => set (st4 := s) in * end.
    exists p, size, ref, v, st4. split; [reflexivity|]. split; [reflexivity|]. split; [reflexivity|]. split; [exact TV|].
    split. { unfold st4. now rewrite set_tv_same, set_tv_same, F2. }
    split. { intros g N. unfold st4. rewrite !set_tv_other by exact N. auto. }
    split; [exact M2|]. split; [exact A2|]. split; [exact A|].
    destruct (update_mapping n mt st4) as [st5|] eqn:U.
    2:{ injection H as <- <-. left. split; [reflexivity|]. eexists. split; [reflexivity|]. eapply update_err; eauto. }
    right. exists st5. split; [reflexivity|].
    destruct (all_false _ _ _ _) as [[|]|] eqn:AF.
    - injection H as <- <-. right. left. auto.
    - right. right. exact H.
    - injection H as <- <-. left. split; [reflexivity|]. eexists. split; [reflexivity|]. eapply all_false_err; eauto.
  Qed.
End Set_.

(** ** What the recorded mapping says *)

Lemma eval_ext (E E' : env) e : (forall x, In x (names e) -> E x = E' x) -> eval E e = eval E' e.
Proof.
  induction e as [ | |z|x s|a IH|o ts IH|o l r IHl IHr|o l r IHl IHr] using expr_ind'; intros H; cbn [eval]; auto.
  - rewrite H by (cbn; auto). reflexivity.
  - now rewrite IH.
  - f_equal. cbn [names] in H. induction IH as [|t ts Ht _ IHt]; [reflexivity|]. cbn [map]. f_equal.
    + apply Ht. intros x I. apply H. cbn. apply in_app_iff. now left.
    + apply IHt. intros x I. apply H. cbn. apply in_app_iff. now right.
  - cbn [names] in H. rewrite IHl, IHr; auto; intros x I; apply H; apply in_app_iff; auto.
  - cbn [names] in H. rewrite IHl, IHr; auto; intros x I; apply H; apply in_app_iff; auto.
Qed.

Section Histories.
  Variables (n : nat) (mt : mtype) (refs : list refinement) (inner : bool -> string -> bits -> res bits).
  Variable rank : field -> nat.
  Hypothesis T : tidy mt rank.

  (** objects after any calls of set, successful or not *)
  Inductive history : mvalue -> Prop :=
  | h_new st : new n mt = Ok st -> history st
  | h_set st f x st' r : history st -> set n mt refs inner st f x = (st', r) -> history st'.

  (** the numbers and texts that occur in the mapping *)
  Definition mapped (st : mvalue) : Prop := forall x e, mapping st x = Some e ->
    (exists z, e = ENum z) \/ exists y, e = EVar y /\ plain_name x /\ plain_name (NVar y).
  (** the world [E] gives names the values that are recorded in the mapping *)
  Definition agrees (st : mvalue) (E : env) : Prop := literal_env mt E /\
    forall x e, plain_name x -> mapping st x = Some e -> eval E e = Some (E x).

  Lemma literal_var k v : In (k, v) (type_literals mt) -> ~ In (var k) (m_fields mt) /\ var k <> "message" /\ var k <> INITIAL.
  Proof. intros I. destruct (t_literal _ _ T k v I) as (_ & A). exact A. Qed.

  (** texts of assigned enumeration values *)
  Lemma dict_get_key (l : list (ident * Z)) k v : dict_get l k = Some v -> exists k', In (k', v) l /\ var k = var k'.
  Proof.
    induction l as [|[k' v'] l IH]; cbn [dict_get]; [discriminate|]. intros H.
    destruct (id_eq k k') eqn:E.
    - injection H as <-. exists k'. split; [now left|]. apply hash_var.
      unfold id_eq in E. destruct (Nat.eqb_spec (List.length k) (List.length k')) as [L|]; [|discriminate].
      cbn [negb] in E. clear IH. unfold id_hash. revert k' L E.
      induction k as [|a k IHk]; intros [|b k'] L E; try discriminate L; [reflexivity|].
      cbn [all_zip] in E. apply andb_true_iff in E as [A B]. cbn [map]. f_equal; [now apply String.eqb_eq|].
      apply IHk; [now injection L|exact B].
    - destruct (IH H) as (k2 & I & E2). exists k2. split; [now right|exact E2].
  Qed.
  Lemma assign_text f id lits size av imported s s' z : In f (m_fields mt) ->
    m_types mt f = FScalar (Enum id lits size av) imported ->
    enum_assign n id lits size av imported s true = Ok (s', z) ->
    ~ In (lower s') (m_fields mt) /\ lower s' <> "message" /\ lower s' <> INITIAL.
  Proof.
    intros If Ty H. unfold enum_assign in H.
    assert (L : forall k v, In (k, v) (enum_literals id lits imported) -> In (k, v) (type_literals mt)).
    { intros k v I. unfold type_literals. apply in_flat_map. exists f. rewrite Ty. auto. }
    match type of H with bind ?r _ = _ => destruct r as [pv|] end; cbn [bind] in H; [|discriminate].
    destruct (dict_get (enum_literals id lits imported) pv) as [z0|] eqn:D; [|discriminate].
    destruct (id_name pv) as [nm|] eqn:Nm; cbn [bind] in H; [|discriminate].
    destruct (dict_get lits nm) as [v|] eqn:DL; [|discriminate].
    match type of H with bind ?r _ = _ => destruct r as [[|]|] end; cbn [bind] in H; try discriminate.
    apply Ok_inj in H. injection H as <- <-.
    destruct (imported && negb (is_builtin id)) eqn:B.
    - destruct (dict_get_key _ _ _ D) as (k & I & E). apply L in I. change (lower (id_str pv)) with (var pv).
      rewrite E. now apply literal_var in I.
    - destruct (dict_get_key _ _ _ DL) as (k & I & E). change (lower (id_str nm)) with (var nm). rewrite E.
      apply (literal_var k v). apply L. unfold enum_literals. apply in_flat_map. exists (k, v). split; [exact I|].
      apply in_app_iff. left. destruct (is_builtin id), imported; try discriminate B; now left.
  Qed.
  Lemma set_text f v0 x v : In f (m_fields mt) -> tv_set n inner (m_types mt f) v0 x = Ok v ->
    forall txt z, v = VScalar (Some (SEnum txt z)) ->
      ~ In (lower txt) (m_fields mt) /\ lower txt <> "message" /\ lower txt <> INITIAL.
  Proof.
    intros If H txt z E. destruct x as [b|l|i|s|l|l]; cbn [tv_set] in H.
    - exact (parse_text n mt rank inner T f v0 b v If H txt z E).
    - destruct (m_types mt f) as [[]| | |]; cbn [tv_assign] in H; try discriminate; destruct v0; try discriminate.
      destruct (check_size _ _); cbn [bind] in H; [|discriminate].
      destruct ref; [|apply Ok_inj in H; subst; discriminate].
      destruct (from_bytes _); cbn [bind] in H; [|discriminate]. destruct (inner _ _ _); cbn [bind] in H; [|discriminate].
      destruct (Nat.eqb _ _); cbn [bind] in H; [|discriminate]. apply Ok_inj in H. subst. discriminate.
    - destruct (m_types mt f) as [[]| | |]; cbn [tv_assign] in H; try discriminate; destruct v0; try discriminate;
        (destruct (int_assign _ _ _ _); cbn [bind] in H; [|discriminate]; apply Ok_inj in H; subst; discriminate).
    - destruct (m_types mt f) as [[| |id lits size av] imp| | |] eqn:Ty; cbn [tv_assign] in H; try discriminate;
        try (destruct v0; discriminate).
      destruct (enum_assign _ _ _ _ _ _ _ _) as [[s' z']|] eqn:A; cbn [bind] in H; [|discriminate].
      apply Ok_inj in H. rewrite E in H. injection H as <- <-. eapply assign_text; eauto.
    - destruct (m_types mt f) as [[]| | |]; cbn [tv_assign] in H; try discriminate; destruct v0; try discriminate.
      destruct (array_assign _ _ _ _); cbn [bind] in H; [|discriminate]. apply Ok_inj in H. subst. discriminate.
    - destruct (m_types mt f) as [[]| | |]; cbn [tv_assign] in H; try discriminate; destruct v0; try discriminate.
      destruct (check_size _ _); cbn [bind] in H; [|discriminate].
      destruct (forallb _ _); [apply Ok_inj in H; subst|]; discriminate.
  Qed.

  Lemma texts_kept st st' : (forall g, kept (tv (fields st g)) (tv (fields st' g))) -> texts mt st -> texts mt st'.
  Proof.
    intros K H f s z If E. specialize (K f). rewrite E in K. apply (H f s z If).
    destruct (tv (fields st f)); cbn in K; try contradiction. now rewrite K.
  Qed.
  Lemma mapped_fields st : texts mt st -> is_opaque (tv (fields st INITIAL)) = true -> forall x e, field_mapping mt st x = Some e ->
    (exists z, e = ENum z) \/ exists y, e = EVar y /\ plain_name x /\ plain_name (NVar y).
  Proof.
    intros TX TI x e F. unfold field_mapping in F.
    assert (NE : forall o, num_expr o = Some e -> exists z, e = ENum z).
    { intros [z|] X; [injection X as <-; eauto|discriminate]. }
    set (f := match x with NVar x | NAttr _ x => x end) in *.
    destruct (memf f (INITIAL :: m_fields mt)) eqn:M.
    - apply memf_iff in M. destruct x as [y|a y]; cbn in f; subst f.
      + destruct (tv (fields st y)) as [[v|]| | |] eqn:V; try discriminate.
        destruct (is_set mt st y); [|discriminate]. injection F as <-. destruct v as [z|s z]; [left; eexists; reflexivity|].
        assert (My : In y (m_fields mt)) by (destruct M as [<-|M]; [rewrite V in TI; discriminate|exact M]).
        destruct (TX _ _ _ My V) as (N & Nm & Ni). right. exists (lower s). split; [reflexivity|].
        destruct (t_names _ _ T y My) as (_ & A & B & _). split; split; assumption.
      + left. destruct a; try discriminate F; eauto. destruct (typ mt y); [injection F as <-; eauto| | |];
          (destruct (is_set mt st y); [eauto|discriminate]).
    - left. destruct x as [y|[] y]; try discriminate. cbn in f. subst f.
      destruct (String.eqb y "message"); [injection F as <-; eauto|discriminate].
  Qed.
  Lemma update_mapped st st' : texts mt st -> is_opaque (tv (fields st INITIAL)) = true -> update_mapping n mt st = Ok st' -> mapped st'.
  Proof.
    intros TX TI U x e H. unfold update_mapping in U. binds U. apply Ok_inj in U. subst st'. cbn [mapping] in H.
    pose proof (mapped_fields st TX TI) as F. destruct x1 as [z|]; [|now apply F].
    destruct x as [y|[] y]; try (now apply F);
      (destruct (String.eqb y "message"); [injection H as <-; left; eauto|now apply F]).
  Qed.

  Lemma typ_fld f : In f (m_fields mt) -> typ mt f = m_types mt f.
  Proof. apply (typ_field mt rank T). Qed.

  Lemma accessible_loop : forall k st nxt acc st' l, (nxt = "" \/ nxt = FINAL \/ In nxt (m_fields mt)) ->
    preset_loop n mt k st nxt acc = (st', Ok l) -> incl acc (m_fields mt) -> incl l (m_fields mt).
  Proof.
    induction k as [|k IH]; intros st nxt acc st' l Hn H A; cbn [preset_loop] in H.
    - destruct (_ || _); [|discriminate]. injection H as _ <-. exact A.
    - destruct (String.eqb_spec nxt "") as [E|N]; cbn [orb] in H; [injection H as _ <-; exact A|].
      destruct (String.eqb_spec nxt FINAL) as [E|NF]; [injection H as _ <-; exact A|].
      assert (In_ : In nxt (m_fields mt)) by intuition.
      destruct (get_first n mt st nxt) as [[p|]|w1]; destruct (get_size n mt st nxt) as [size|w2];
        try discriminate; try (injection H as _ <-; exact A).
      match type of H with (match ?a with _ => _ end) = _ => destruct a as [b|w] end; [|discriminate].
      assert (A' : incl (if b then acc ++ [nxt] else acc) (m_fields mt)).
      { destruct b; [|exact A]. intros g Ig. apply in_app_iff in Ig as [Ig|[<-|[]]]; auto. }
      destruct size as [z|]; [|injection H as _ <-; exact A'].
      match type of H with (if ?c then _ else _) = _ => destruct c end; [injection H as _ <-; exact A'|].
      match type of H with (match ?c with _ => _ end) = _ => destruct c as [nxt'|] eqn:Nx end; [|discriminate].
      eapply (IH _ nxt'); [|exact H|exact A'].
      destruct (string_dec nxt' "") as [|N']; [now left|]. right.
      destruct (next_rank n mt rank _ _ _ T (or_intror In_) Nx N') as [_ X].
      destruct (string_dec nxt' FINAL); [now left|right; auto].
  Qed.
  Lemma accessible_preset st f st' r : In f (INITIAL :: m_fields mt) -> preset_fields n mt st f = (st', r) ->
    incl (accessible st) (m_fields mt) -> incl (accessible st') (m_fields mt).
  Proof.
    unfold preset_fields. intros If H A. destruct (next_field n mt (mapping st) f) as [nxt|w] eqn:Nx; [|injection H as <- _; exact A].
    destruct (preset_loop n mt n st nxt []) as [st1 r1] eqn:L.
    destruct (preset_loop_kept n mt _ _ _ _ _ _ L) as (_ & A1 & _).
    destruct r1 as [l|]; injection H as <- _; [|now rewrite A1]. cbn.
    assert (Il : incl l (m_fields mt)).
    { apply (accessible_loop _ _ _ _ _ _) with (2 := L); [|intros g []].
      destruct (string_dec nxt "") as [|N']; [now left|]. right.
      destruct (next_rank n mt rank _ _ _ T If Nx N') as [_ X]. destruct (string_dec nxt FINAL); [now left|right; auto]. }
    destruct (up_to f (accessible st1)) as [p|] eqn:Up; [|exact Il].
    intros g Ig. apply in_app_iff in Ig as [Ig|Ig]; [|auto]. apply A. rewrite <- A1. eapply up_to_incl; eauto.
  Qed.

  Lemma history_facts st : history st ->
    texts mt st /\ mapped st /\ is_opaque (tv (fields st INITIAL)) = true /\ incl (accessible st) (m_fields mt).
  Proof.
    induction 1 as [st H|st f x st' r H (TX & MP & OI & AC) S].
    - unfold new in H. destruct (preset_fields n mt (blank mt) INITIAL) as [s [[]|]] eqn:P; [|discriminate].
      apply Ok_inj in H. subst s. destruct (preset_kept n mt _ _ _ _ P) as (M & K & _).
      split; [|split; [|split]].
      + eapply texts_kept; [exact K|]. intros f s z If E. unfold blank in E. cbn in E.
        destruct (String.eqb f INITIAL); [discriminate|]. destruct (m_types mt f); discriminate.
      + intros y e E. rewrite M in E. left. destruct y as [y|[] y]; cbn in E; try discriminate;
          (destruct (String.eqb y INITIAL); [injection E as <-; eauto|]); try discriminate.
        destruct (String.eqb y "message"); [injection E as <-; eauto|discriminate].
      + specialize (K INITIAL). cbn in K. destruct (tv (fields st INITIAL)); try contradiction. reflexivity.
      + eapply accessible_preset; [now left|exact P|]. intros g [].
    - destruct (set_split n mt refs inner st f x st' r S) as
        [(O & M & A & (ref & K) & _)|(p & size & ref & v & st4 & GF & GS & FR & TV & F4 & O4 & M4 & A4 & Acc & C)].
      + assert (OP : is_opaque (tv (fields st' INITIAL)) = true).
        { destruct (string_dec INITIAL f) as [<-|N]; [|now rewrite O].
          destruct (tv (fields st INITIAL)); try discriminate OI. cbn in K. destruct (tv (fields st' INITIAL)); try contradiction. reflexivity. }
        split; [|split; [|split; [exact OP|now rewrite A]]].
        * intros g s z Ig E. destruct (string_dec g f) as [->|N].
          -- rewrite E in K. apply (TX f s z Ig). destruct (tv (fields st f)); cbn in K; try contradiction. now rewrite K.
          -- rewrite (O g N) in E. now apply (TX g s z).
        * intros y e E. rewrite M in E. now apply MP.
      + assert (If : In f (m_fields mt)) by auto.
        assert (Nfi : f <> INITIAL) by (destruct (t_names _ _ T f If) as (_ & _ & X & _); exact X).
        assert (TX4 : texts mt st4).
        { intros g s z Ig E. destruct (string_dec g f) as [->|N].
          - rewrite F4 in E. rewrite (typ_fld f If) in TV. eapply set_text; eauto.
          - rewrite (O4 g N) in E. now apply (TX g s z). }
        assert (OI4 : is_opaque (tv (fields st4 INITIAL)) = true) by (rewrite O4; auto).
        destruct C as [[-> _]|(st5 & U & C)].
        { split; [exact TX4|]. split; [intros y e E; rewrite M4 in E; now apply MP|]. split; [exact OI4|now rewrite A4]. }
        pose proof (update_mapped _ _ TX4 OI4 U) as MP5. destruct (update_fields n mt _ _ U) as [F5 A5].
        assert (TX5 : texts mt st5) by (unfold texts; rewrite F5; exact TX4).
        destruct C as [[-> _]|[[-> _]|P]].
        * split; [exact TX5|]. split; [exact MP5|]. rewrite F5, A5, A4. auto.
        * split; [|split; [exact MP5|]].
          -- intros g s z Ig E. destruct (string_dec g f) as [->|N].
             ++ rewrite set_tv_same in E. cbn in E. destruct v; discriminate.
             ++ rewrite set_tv_other in E by exact N. now apply (TX5 g s z).
          -- rewrite set_tv_other by auto. rewrite F5. split; [exact OI4|]. cbn. now rewrite A5, A4.
        * destruct (preset_kept n mt _ _ _ _ P) as (M & K & _). split; [|split; [|split]].
          -- eapply texts_kept; eauto.
          -- intros y e E. rewrite M in E. now apply MP5.
          -- specialize (K INITIAL). rewrite F5 in K. destruct (tv (fields st4 INITIAL)); try discriminate OI4.
             destruct (tv (fields st' INITIAL)); try contradiction. reflexivity.
          -- eapply accessible_preset; [right; exact If|exact P|]. now rewrite A5, A4.
  Qed.

  (** some world agrees with every object *)
  Definition mapped_vars (st : mvalue) : Prop := forall x e, mapping st x = Some e ->
    match x with
    | NVar y => In y (m_fields mt) /\ forall w, e = EVar w -> ~ In w (m_fields mt)
    | NAttr _ _ => exists z, e = ENum z
    end.
  Lemma update_vars st st' : texts mt st -> is_opaque (tv (fields st INITIAL)) = true -> update_mapping n mt st = Ok st' -> mapped_vars st'.
  Proof.
    intros TX TI U y e H. unfold update_mapping in U. binds U. apply Ok_inj in U. subst st'. cbn [mapping] in H.
    assert (NE : forall o, num_expr o = Some e -> exists z, e = ENum z).
    { intros [z|] X; [injection X as <-; eauto|discriminate]. }
    destruct y as [y|a y].
    - assert (F : field_mapping mt st (NVar y) = Some e) by (destruct x0; exact H). clear H. unfold field_mapping in F.
      destruct (memf y (INITIAL :: m_fields mt)) eqn:M; [|discriminate]. apply memf_iff in M.
      destruct (tv (fields st y)) as [[v|]| | |] eqn:V; try discriminate.
      destruct (is_set mt st y); [|discriminate]. injection F as <-.
      assert (My : In y (m_fields mt)) by (destruct M as [<-|M]; [rewrite V in TI; discriminate|exact M]).
      split; [exact My|]. intros w E. destruct v as [z|s z]; [discriminate|].
      injection E as <-. apply (TX _ _ _ My V).
    - assert (F : field_mapping mt st (NAttr a y) = Some e -> exists z, e = ENum z).
      { unfold field_mapping. destruct (memf y (INITIAL :: m_fields mt)).
        - destruct a; try discriminate; eauto. destruct (typ mt y); [intros X; injection X as <-; eauto| | |];
            (destruct (is_set mt st y); [eauto|discriminate]).
        - destruct a; try discriminate. destruct (String.eqb y "message"); [intros X; injection X as <-; eauto|discriminate]. }
      destruct x0 as [z|]; [|now apply F].
      destruct a; try (now apply F); (destruct (String.eqb y "message"); [injection H as <-; eauto|now apply F]).
  Qed.
  Lemma history_vars st : history st -> mapped_vars st.
  Proof.
    induction 1 as [st H|st f x st' r H IH S].
    - unfold new in H. destruct (preset_fields n mt (blank mt) INITIAL) as [s [[]|]] eqn:P; [|discriminate].
      apply Ok_inj in H. subst s. destruct (preset_kept n mt _ _ _ _ P) as (M & _ & _).
      intros y e E. rewrite M in E. destruct y as [y|[] y]; cbn in E; try discriminate;
        (destruct (String.eqb y INITIAL); [injection E as <-; eauto|]); try discriminate.
      destruct (String.eqb y "message"); [injection E as <-; eauto|discriminate].
    - destruct (history_facts st H) as (TX & MP & OI & AC).
      destruct (set_split n mt refs inner st f x st' r S) as
        [(O & M & A & (ref & K) & _)|(p & size & ref & v & st4 & GF & GS & FR & TV & F4 & O4 & M4 & A4 & Acc & C)].
      + intros y e E. rewrite M in E. now apply IH.
      + assert (If : In f (m_fields mt)) by auto.
        assert (Nfi : f <> INITIAL) by (destruct (t_names _ _ T f If) as (_ & _ & X & _); exact X).
        assert (TX4 : texts mt st4).
        { intros g s z Ig E. destruct (string_dec g f) as [->|N].
          - rewrite F4 in E. rewrite (typ_fld f If) in TV. eapply set_text; eauto.
          - rewrite (O4 g N) in E. now apply (TX g s z). }
        assert (OI4 : is_opaque (tv (fields st4 INITIAL)) = true) by (rewrite O4; auto).
        destruct C as [[-> _]|(st5 & U & C)].
        { intros y e E. rewrite M4 in E. now apply IH. }
        pose proof (update_vars _ _ TX4 OI4 U) as MP5.
        destruct C as [[-> _]|[[-> _]|P]]; [exact MP5|exact MP5|].
        destruct (preset_kept n mt _ _ _ _ P) as (M & _ & _). intros y e E. rewrite M in E. now apply MP5.
  Qed.
  Definition mapping_world (st : mvalue) : env := fun x => VInt
    match mapping st x with
    | Some (ENum z) => z
    | Some (EName (NVar y) _) => lit_value mt y
    | _ => match x with NVar y => lit_value mt y | _ => 0 end
    end.
  Lemma mapping_world_agrees st : history st -> agrees st (mapping_world st).
  Proof.
    intros H. destruct (history_facts st H) as (_ & MP & _ & _). pose proof (history_vars st H) as MV. split.
    - split; [intros x; eexists; reflexivity|]. intros k v I. destruct (t_literal _ _ T k v I) as (L & N & _).
      unfold mapping_world. destruct (mapping st (NVar (var k))) as [e|] eqn:M; [exfalso; apply N; apply (MV _ e M)|].
      unfold lit_value. now rewrite L.
    - intros x e P M. destruct (MP x e M) as [(z & ->)|(y & -> & _)]; unfold mapping_world; rewrite M; [reflexivity|].
      unfold EVar. cbn [eval]. destruct (mapping st (NVar y)) as [e|] eqn:My.
      + exfalso. destruct x as [x|a x].
        * destruct (MV _ _ M) as [_ N]. apply (N y eq_refl). apply (MV _ e My).
        * destruct (MV _ _ M) as [z Z]. discriminate Z.
      + reflexivity.
  Qed.

  (** a world for all names *)
  Definition plainb (x : name) : bool := negb (String.eqb (name_id x) "message") && negb (String.eqb (name_id x) INITIAL).
  Lemma plainb_spec x : plainb x = true <-> plain_name x.
  Proof. unfold plainb, plain_name. rewrite andb_true_iff, !negb_true_iff, !String.eqb_neq. reflexivity. Qed.
  Definition extended (st : mvalue) (E : env) : env := fun x =>
    if plainb x then E x else match mapping st x with Some (ENum z) => VInt z | _ => VInt 0 end.

  Section World.
    Variables (st : mvalue) (E : env).
    Hypothesis MP : mapped st.
    Hypothesis AG : agrees st E.
    Local Notation E' := (extended st E).

    Lemma extended_plain x : plain_name x -> E' x = E x.
    Proof. intros P. unfold extended. apply plainb_spec in P. now rewrite P. Qed.
    Lemma agrees_fits : fits mt E (mapping st).
    Proof.
      intros x e P H. unfold subst in H. destruct (mapping st x) as [e'|] eqn:M.
      - injection H as ->. split; [|split].
        + destruct (MP x e M) as [[z ->]|(y & -> & _)]; [left; eauto|right; eauto].
        + now apply (proj2 AG).
        + intros y ->. destruct (MP x _ M) as [[z X]|(y' & X & _ & Py)]; [discriminate|]. injection X as ->. exact Py.
      - destruct x as [y|]; [|discriminate]. destruct (literal mt y) as [z|] eqn:L; [|discriminate]. injection H as <-.
        destruct (literal_in mt _ _ L) as (k & I & Ek). split; [left; eauto|]. split; [|discriminate].
        cbn. rewrite <- Ek. now rewrite (proj2 (proj1 AG) _ _ I).
    Qed.
    Lemma extended_all x e : subst mt (mapping st) x = Some e -> leaf e /\ eval E' e = Some (E' x) /\ forall y, e = EVar y -> True.
    Proof.
      intros H. destruct (plainb x) eqn:P.
      - apply plainb_spec in P. destruct (agrees_fits x e P H) as (L & V & Y). split; [exact L|]. split; [|auto].
        rewrite (extended_plain x P), <- V. destruct L as [[z ->]|[y ->]]; [reflexivity|].
        cbn. f_equal. rewrite (extended_plain (NVar y)); auto.
      - unfold subst in H. destruct (mapping st x) as [e'|] eqn:M.
        + injection H as ->. destruct (MP x e M) as [[z ->]|(y & -> & Px & _)].
          * split; [left; eauto|]. split; [|auto]. unfold extended. rewrite P, M. reflexivity.
          * apply plainb_spec in Px. congruence.
        + destruct x as [y|]; [|discriminate]. destruct (literal mt y) as [z|] eqn:L; [|discriminate]. exfalso.
          destruct (literal_in mt _ _ L) as (k & I & Ek). destruct (literal_var k z I) as (_ & A & B).
          assert (X : plainb (NVar y) = true) by (apply plainb_spec; split; cbn; congruence). congruence.
    Qed.
    Lemma extended_ints : ints_only E'.
    Proof.
      intros x. unfold extended. destruct (plainb x); [apply (proj1 (proj1 AG))|].
      destruct (mapping st x) as [[]|]; eauto.
    Qed.
    Lemma extended_literals : literal_env mt E'.
    Proof.
      split; [apply extended_ints|]. intros k v I. destruct (literal_var k v I) as (_ & A & B).
      rewrite extended_plain by (split; assumption). now apply (proj2 (proj1 AG)).
    Qed.
    Lemma extended_condition l : In l (m_links mt) -> eval E' (condition l) = eval E (condition l).
    Proof. intros I. apply eval_ext. intros x Ix. apply extended_plain. eapply t_plain; eauto. Qed.
    Lemma holds_value c v : ok c = true -> holds n mt (mapping st) c = Ok true -> eval E' c = Some v -> v = VBool true.
    Proof.
      intros O H V. unfold holds in H.
      destruct (simplified n mt (mapping st) c) as [r|] eqn:S; cbn [bind] in H; [|discriminate]. apply Ok_inj in H.
      apply expr_eqb_iff in H. subst r.
      assert (K : bind (substituted (neg (simpv n)) (subst mt (mapping st)) c) (fun e1 =>
        bind (substituted (neg (simpv n)) (subst mt (mapping st)) e1) (fun e2 => simpv n e2)) = Ok ETrue -> Some (VBool true) = Some v).
      { clear S. intros S.
        destruct (substituted _ _ c) as [e1|] eqn:S1; cbn [bind] in S; [|discriminate].
        destruct (substituted _ _ e1) as [e2|] eqn:S2; cbn [bind] in S; [|discriminate].
        pose proof (fun x e (_ : True) => extended_all x e) as EA.
        destruct (subst_eval (simpv n) (subst mt (mapping st)) E' (fun _ => True) EA c e1 (fun _ _ => I) S1) as (V1 & _ & _ & _ & O1).
        destruct (subst_eval (simpv n) (subst mt (mapping st)) E' (fun _ => True) EA e1 e2 (fun _ _ => I) S2) as (V2 & _ & _ & _ & O2).
        destruct (simplify_good expr_eqb expr_eqb_sound n _ _ S) as (R & _).
        destruct (R (O2 (O1 O))) as [_ R']. specialize (R' E' v). cbn in R'. apply R'. congruence. }
      destruct c; try (unfold simplified in S; apply K in S; congruence).
      - cbn in V. congruence.
      - cbn in S. discriminate.
    Qed.
  End World.

  (** the condition of a field *)
  Lemma field_path E : (forall l, In l (m_links mt) -> exists b, eval E (condition l) = Some (VBool b)) ->
    forall k f e, compute_field_condition (m_links mt) k f = Ok e ->
    ok e = true /\ exists b, eval E e = Some (VBool b) /\
      (b = true -> f = INITIAL \/ exists l, In l (m_links mt) /\ target l = f /\ eval E (condition l) = Some (VBool true) /\
         exists j e', compute_field_condition (m_links mt) j (source l) = Ok e' /\ (j < k)%nat /\ eval E e' = Some (VBool true)).
  Proof.
    intros DF. induction k as [|k IH]; intros f e H; cbn [compute_field_condition] in H;
      destruct (String.eqb_spec f INITIAL) as [->|N]; try discriminate.
    1,2: apply Ok_inj in H; subst e; split; [reflexivity|]; exists true; split; [reflexivity|now left].
    match type of H with bind ?r _ = _ => destruct r as [ts|] eqn:R end; cbn [bind] in H; [|discriminate].
    apply Ok_inj in H. subst e.
    assert (X : forall ls ts, (forall l, In l ls -> In l (m_links mt)) ->
      mapr (fun l => bind (compute_field_condition (m_links mt) k (source l)) (fun c => Ok (EAss OAnd [c; condition l]))) ls = Ok ts ->
      forallb ok ts = true /\ exists bs, bools (map (eval E) ts) = Some bs /\
      (anyb bs = true -> exists l, In l ls /\ eval E (condition l) = Some (VBool true) /\
         exists e', compute_field_condition (m_links mt) k (source l) = Ok e' /\ eval E e' = Some (VBool true))).
    { clear -IH DF T. induction ls as [|l t IHt]; intros ts HI H; cbn [mapr] in H.
      - apply Ok_inj in H. subst. split; [reflexivity|]. exists []. split; [reflexivity|discriminate].
      - destruct (compute_field_condition (m_links mt) k (source l)) as [c|] eqn:C; cbn [bind] in H; [|discriminate].
        match type of H with bind ?r _ = _ => destruct r as [us|] eqn:U end; cbn [bind] in H; [|discriminate].
        apply Ok_inj in H. subst ts. destruct (IHt us (fun l' I => HI l' (or_intror I)) eq_refl) as (O & bs & B & A).
        destruct (IH _ _ C) as (Oc & b & Eb & _). destruct (DF l (HI l (or_introl eq_refl))) as [d D]. split.
        + cbn [forallb ok]. rewrite O, Oc, (t_ok _ _ T l) by (apply HI; now left). reflexivity.
        + exists ((b && d) :: bs). cbn [map bools eval ass_val]. rewrite Eb, D. cbn. rewrite andb_true_r.
          fold (eval E). rewrite B. split; [reflexivity|]. intros Y. apply orb_true_iff in Y as [Y|Y].
          * apply andb_true_iff in Y as [-> ->]. exists l. split; [now left|]. split; [exact D|]. eauto.
          * destruct (A Y) as (l' & I & Z). exists l'. split; [now right|exact Z]. }
    destruct (X _ _ (fun l I => proj1 (proj1 (in_incoming mt l f) I)) R) as (O & bs & B & A). split; [exact O|].
    exists (anyb bs). split; [cbn; now rewrite B|]. intros Y. right. destruct (A Y) as (l & I & C & e' & Ce & Ee).
    apply in_incoming in I as [I Tl]. exists l. split; [exact I|]. split; [exact Tl|]. split; [exact C|].
    exists k, e'. split; [exact Ce|]. split; [lia|exact Ee].
  Qed.
End Histories.
