(** C12: histories of set calls on a message value.  C42: refinements. *)
From Coq Require Import String List ZArith Bool Lia.
From Verif Require Import Base Expr ExprEval ExprFacts ExprTotal Ident TypeSpec Bitstring BitFacts PyValue PyValueFacts.
From Verif Require Import MsgGraph MsgGraphFacts GenSpec PyMessage PyMessageFacts PyMessageParse P_PyMessage PyMessageSet.
Import ListNotations.
Local Open Scope string_scope.
Local Open Scope list_scope.
Local Open Scope Z_scope.

(** ** C12 *)

(** A successful call stores the value and leaves the values of all other fields alone,
    apart from opaque fields that come later, which may be cleared. *)
Theorem C12_set_value : forall n mt rank refs inner st f x st',
  acyclic mt rank -> set n mt refs inner st f x = (st', Ok tt) ->
  In f (accessible st) /\
  (forall g, g <> f -> kept (tv (fields st g)) (tv (fields st' g))) /\
  (forall g, g <> f -> (rank g <= rank f)%nat -> fields st' g = fields st g) /\
  match x with
  | PInt z => tv (fields st' f) = VScalar (Some (SInt z))
  | PStr _ => exists s z, tv (fields st' f) = VScalar (Some (SEnum s z))
  | PBytes l => exists e r nested l', tv (fields st' f) = VOpaque e r nested (Some l') /\
      (r = None -> l' = l /\ forall z, get_size n mt st f = Ok (Some z) -> Z.of_nat (List.length l) * 8 = z)
  | PScalars l => exists e, tv (fields st' f) = VScalars e (Some l)
  | PMessages l => exists e, tv (fields st' f) = VMessages e (Some (map snd l))
  | PBits _ => initialized (tv (fields st' f)) = true \/ exists e, tv (fields st' f) = VMessages e None
  end.
Proof.
  intros n mt rank refs inner st f x st' A H.
  destruct (set_split n mt refs inner st f x st' _ H) as
    [(_ & _ & _ & _ & w & W)|(p & size & ref & v & st4 & GF & GS & FR & TV & F4 & O4 & M4 & A4 & Acc & C)]; [discriminate W|].
  destruct C as [(_ & w & W & _)|(st5 & U & [(_ & w & W & _)|[(_ & W)|P]])]; try discriminate W.
  destruct (update_fields n mt _ _ U) as [F5 A5]. destruct (preset_kept n mt _ _ _ _ P) as (_ & K & _).
  pose proof (preset_front n mt rank A _ _ _ _ P) as Fr.
  assert (Fv : tv (fields st' f) = v) by (rewrite Fr by lia; rewrite F5, F4; reflexivity).
  split; [exact Acc|]. split. { intros g N. specialize (K g). rewrite F5, (O4 g N) in K. exact K. }
  split. { intros g N L. rewrite Fr by exact L. rewrite F5. auto. }
  rewrite Fv. rewrite GS. clear -TV. destruct x as [b|l|z|s|l|l]; cbn [tv_set] in TV.
  - destruct (typ mt f) as [t i| |t i|e]; cbn [tv_parse] in TV.
    + destruct (scalar_parse _ _ _ _ _); cbn [bind] in TV; [|discriminate]. apply Ok_inj in TV. subst. now left.
    + destruct (set_ref _ _) as [|e r nst o| |]; try discriminate. destruct (check_size _ _); cbn [bind] in TV; [|discriminate].
      destruct r; [|apply Ok_inj in TV; subst; now left]. destruct (inner _ _ _); cbn [bind] in TV; [|discriminate].
      destruct (Nat.eqb _ _); cbn [bind] in TV; [|discriminate]. apply Ok_inj in TV. subst. now left.
    + destruct (set_ref _ _) as [|e r nst o|e o|]; try discriminate.
      * destruct (check_size _ _); cbn [bind] in TV; [|discriminate].
        destruct r; [|apply Ok_inj in TV; subst; now left]. destruct (inner _ _ _); cbn [bind] in TV; [|discriminate].
        destruct (Nat.eqb _ _); cbn [bind] in TV; [|discriminate]. apply Ok_inj in TV. subst. now left.
      * destruct (array_parse _ _ _ _ _ _); cbn [bind] in TV; [|discriminate]. apply Ok_inj in TV. subst. now left.
    + destruct (set_ref _ _) as [|e' r nst o|e' o|e' [o|]]; try discriminate;
        (destruct (check_size _ _); cbn [bind] in TV; [|discriminate]).
      * destruct r; [|apply Ok_inj in TV; subst; now left]. destruct (inner _ _ _); cbn [bind] in TV; [|discriminate].
        destruct (Nat.eqb _ _); cbn [bind] in TV; [|discriminate]. apply Ok_inj in TV. subst. now left.
      * destruct (parse_messages _ _ _ _ _); cbn [bind] in TV; [|discriminate]. apply Ok_inj in TV. subst. now left.
      * destruct b; [|discriminate]. apply Ok_inj in TV. subst. right. eauto.
  - destruct (typ mt f) as [[]| | |]; cbn [tv_assign] in TV; try discriminate;
      destruct (match size with Some z => set_expected (tv (fields st f)) z | None => tv (fields st f) end) as [|e r nst o| |] eqn:S;
      try discriminate.
    cbn [set_ref] in TV.
    destruct (check_size e (Z.of_nat (List.length l) * 8)) as [[]|] eqn:C; cbn [bind] in TV; [|discriminate].
    destruct ref as [sdu|].
    + destruct (from_bytes _); cbn [bind] in TV; [|discriminate]. destruct (inner _ _ _); cbn [bind] in TV; [|discriminate].
      destruct (Nat.eqb _ _); cbn [bind] in TV; [|discriminate]. apply Ok_inj in TV. subst.
      do 4 eexists. split; [reflexivity|discriminate].
    + apply Ok_inj in TV. subst. do 4 eexists. split; [reflexivity|]. intros _. split; [reflexivity|].
      intros z Z. apply Ok_inj in Z. subst size. destruct (tv (fields st f)); try discriminate S. injection S as <- _ _ _.
      unfold check_size in C. destruct (Z.eqb_spec (Z.of_nat (List.length l) * 8) z) as [X|]; [exact X|discriminate].
  - destruct (typ mt f) as [[]| | |]; cbn [tv_assign] in TV; try discriminate; try (destruct (set_ref _ _); discriminate);
      unfold int_assign in TV;
      (match type of TV with bind (bind ?r _) _ = _ => destruct r; cbn [bind] in TV; [|discriminate] end;
       match type of TV with bind (bind ?r _) _ = _ => destruct r as [[]|]; cbn [bind] in TV; try discriminate end;
       apply Ok_inj in TV; now subst).
  - destruct (typ mt f) as [[]| | |]; cbn [tv_assign] in TV; try discriminate;
      try (destruct (set_ref _ _); discriminate).
    destruct (enum_assign _ _ _ _ _ _ _ _) as [[a c]|]; cbn [bind] in TV; [|discriminate]. apply Ok_inj in TV. subst. eauto.
  - destruct (typ mt f) as [[]| | |]; cbn [tv_assign] in TV; try discriminate; destruct (set_ref _ _) as [| |e o|]; try discriminate.
    unfold array_assign in TV.
    match type of TV with bind (bind ?r _) _ = _ => destruct r; cbn [bind] in TV; [|discriminate] end.
    destruct (forallb _ _); cbn [bind] in TV; [|discriminate]. apply Ok_inj in TV. subst. eauto.
  - destruct (typ mt f) as [[]| | |]; cbn [tv_assign] in TV; try discriminate; destruct (set_ref _ _) as [| | |e o]; try discriminate.
    destruct (check_size _ _); cbn [bind] in TV; [|discriminate].
    destruct (forallb _ _); [|discriminate]. apply Ok_inj in TV. subst. eauto.
Qed.

(** The position of the field is that declared for it or the end of a field from which a
    true link leads to it. *)
Theorem C12_set_position : forall n mt rank refs inner st f x st', tidy mt rank \/ acyclic mt rank ->
  set n mt refs inner st f x = (st', Ok tt) ->
  exists p l, first (fields st' f) = Some p /\ In l (m_links mt) /\ target l = f /\
    holds n mt (mapping st) (condition l) = Ok true /\
    ((exists e, lfirst l = Some e /\ number n mt (mapping st) e = Ok (Some p)) \/
     (exists q z, first (fields st' (source l)) = Some q /\ size_of mt st' (source l) = Some z /\ p = q + z)).
Proof.
  intros n mt rank refs inner st f x st' TA H.
  assert (A : acyclic mt rank) by (destruct TA as [T|A]; [exact (t_rank _ _ T)|exact A]). clear TA.
  destruct (set_split n mt refs inner st f x st' _ H) as
    [(_ & _ & _ & _ & w & W)|(p & size & ref & v & st4 & GF & GS & FR & TV & F4 & O4 & M4 & A4 & Acc & C)]; [discriminate W|].
  destruct C as [(_ & w & W & _)|(st5 & U & [(_ & w & W & _)|[(_ & W)|P]])]; try discriminate W.
  destruct (update_fields n mt _ _ U) as [F5 A5].
  pose proof (preset_front n mt rank A _ _ _ _ P) as Fr. exists p.
  assert (Fp : first (fields st' f) = Some p) by (rewrite Fr by lia; rewrite F5, F4; reflexivity).
  unfold get_first in GF.
  assert (X : forall ls o, link_first n mt st ls o = Ok (Some p) ->
    (exists l e, In l ls /\ holds n mt (mapping st) (condition l) = Ok true /\ lfirst l = Some e /\
       number n mt (mapping st) e = Ok (Some p)) \/ o = Ok (Some p)).
  { induction ls as [|l t IH]; intros o Y; cbn [link_first] in Y; [now right|].
    destruct (lfirst l) as [e|] eqn:L.
    - destruct (holds n mt (mapping st) (condition l)) as [[]|] eqn:B; cbn [bind] in Y; [|destruct (IH o Y) as [(l' & e' & I & Z)|]|discriminate].
      + left. exists l, e. split; [now left|]. auto.
      + left. exists l', e'. split; [now right|exact Z].
      + now right.
    - destruct (IH o Y) as [(l' & e' & I & Z)|]; [|now right]. left. exists l', e'. split; [now right|exact Z]. }
  destruct (X _ _ GF) as [(l & e & I & B & L & N)|Y].
  - apply in_incoming in I as [I Tl]. exists l. eauto 10.
  - destruct (prev_field n mt st f) as [g|] eqn:Pv; cbn [bind] in Y; [|discriminate].
    destruct (String.eqb_spec g "") as [E|Ng]; [discriminate|].
    destruct (prev_spec n mt st f g Pv Ng) as [(l & I & S & Tl & B) _]. exists l.
    split; [exact Fp|]. split; [exact I|]. split; [exact Tl|]. split; [exact B|]. right. rewrite S.
    assert (R : (rank g < rank f)%nat) by (rewrite <- S, <- Tl; now apply A).
    assert (Fg : fields st' g = fields st g) by (rewrite Fr by lia; rewrite F5; apply O4; intros ->; lia).
    unfold size_of in *. rewrite Fg. destruct (first (fields st g)) as [q|]; [|discriminate].
    destruct (tv_size (typ mt g) (tv (fields st g))) as [z|]; [|discriminate]. apply Ok_inj in Y. injection Y as <-. eauto.
Qed.

(** A call that raises leaves the other fields alone and the field with its old value or
    with none, unless the evaluation of the conditions or sizes of the message itself
    raises. *)
Theorem C12_failed_set : forall n mt rank refs inner st f x st' w, acyclic mt rank ->
  set n mt refs inner st f x = (st', Err w) ->
  (forall g, g <> f -> kept (tv (fields st g)) (tv (fields st' g))) /\
  (forall g, g <> f -> (rank g <= rank f)%nat -> fields st' g = fields st g) /\
  (internal n mt w \/
   (forall g, g <> f -> fields st' g = fields st g) /\ accessible st' = accessible st /\
   ((exists r, kept (set_ref (tv (fields st f)) r) (tv (fields st' f))) /\ mapping st' = mapping st \/
    initialized (tv (fields st' f)) = false)).
Proof.
  intros n mt rank refs inner st f x st' w A H.
  destruct (set_split n mt refs inner st f x st' _ H) as
    [(O & M & Ac & K & _)|(p & size & ref & v & st4 & GF & GS & FR & TV & F4 & O4 & M4 & A4 & Acc & C)].
  { split; [intros g N; rewrite O by exact N; apply kept_refl|]. split; [intros g N _; auto|]. right. auto. }
  destruct C as [(-> & w' & W & IW)|(st5 & U & C)].
  { injection W as <-. split; [intros g N; rewrite O4 by exact N; apply kept_refl|]. split; [intros g N _; auto|]. now left. }
  destruct (update_fields n mt _ _ U) as [F5 A5].
  destruct C as [(-> & w' & W & IW)|[(-> & W)|P]].
  - injection W as <-. rewrite F5. split; [intros g N; rewrite O4 by exact N; apply kept_refl|]. split; [intros g N _; auto|]. now left.
  - split. { intros g N. rewrite set_tv_other by exact N. rewrite F5, O4 by exact N. apply kept_refl. }
    split. { intros g N _. rewrite set_tv_other by exact N. rewrite F5. auto. }
    right. split. { intros g N. rewrite set_tv_other by exact N. rewrite F5. auto. }
    split; [cbn; now rewrite A5, A4|]. right. rewrite set_tv_same. destruct v; reflexivity.
  - destruct (preset_kept n mt _ _ _ _ P) as (_ & K & E). pose proof (preset_front n mt rank A _ _ _ _ P) as Fr.
    split. { intros g N. specialize (K g). rewrite F5, (O4 g N) in K. exact K. }
    split. { intros g N L. rewrite Fr by exact L. rewrite F5. auto. }
    left. now apply E.
Qed.

(** After a successful call the value recorded for a field, which conditions and sizes
    refer to, is that of the field. *)
Theorem C12_recorded : forall n mt refs inner st f x st', set n mt refs inner st f x = (st', Ok tt) ->
  forall g e, mapping st' (NVar g) = Some e ->
  exists v, tv (fields st' g) = VScalar (Some v) /\
    e = match v with SInt z => ENum z | SEnum s _ => EVar (lower s) end.
Proof.
  intros n mt refs inner st f x st' H g e M.
  destruct (set_split n mt refs inner st f x st' _ H) as
    [(_ & _ & _ & _ & w & W)|(p & size & ref & v & st4 & GF & GS & FR & TV & F4 & O4 & M4 & A4 & Acc & C)]; [discriminate W|].
  destruct C as [(_ & w & W & _)|(st5 & U & [(_ & w & W & _)|[(_ & W)|P]])]; try discriminate W.
  destruct (update_fields n mt _ _ U) as [F5 A5]. destruct (preset_kept n mt _ _ _ _ P) as (M5 & K & _).
  rewrite M5 in M. specialize (K g). rewrite F5 in K.
  unfold update_mapping in U. binds U. apply Ok_inj in U. subst st5. cbn [mapping] in M.
  assert (F : field_mapping mt st4 (NVar g) = Some e) by (destruct x1; exact M). unfold field_mapping in F.
  destruct (memf g (INITIAL :: m_fields mt)); [|discriminate].
  destruct (tv (fields st4 g)) as [[u|]| | |]; try discriminate.
  destruct (is_set mt st4 g); [|discriminate]. injection F as <-. exists u.
  destruct (tv (fields st' g)); cbn in K; try contradiction. subst. split; [reflexivity|]. now destruct u.
Qed.

(** *** Valid messages *)

Lemma linked_extend mt E : forall p c g, linked mt E p -> nth_error p (pred (List.length p)) = Some c ->
  (exists l, In l (m_links mt) /\ source l = c /\ target l = g /\ eval E (condition l) = Some (VBool true)) ->
  linked mt E (p ++ [g]).
Proof.
  induction p as [|f p IH]; intros c g L Hc H; [exact I|]. destruct p as [|h p].
  - cbn in Hc. injection Hc as ->. cbn. auto.
  - destruct L as [L1 L2]. split; [exact L1|]. apply (IH c g L2); auto.
Qed.
Lemma condition_path mt rank E : tidy mt rank ->
  (forall l, In l (m_links mt) -> exists b, eval E (condition l) = Some (VBool b)) ->
  forall k f e, compute_field_condition (m_links mt) k f = Ok e -> eval E e = Some (VBool true) ->
  exists p, linked mt E (INITIAL :: p) /\ nth_error (INITIAL :: p) (List.length p) = Some f.
Proof.
  intros T DF. induction k as [k IH] using (well_founded_induction Wf_nat.lt_wf). intros f e C V.
  destruct (field_path mt rank T E DF k f e C) as (_ & b & B & X). rewrite V in B. injection B as <-.
  destruct (X eq_refl) as [->|(l & I & Tl & Cl & j & e' & Ce & L & Ve)].
  - exists []. split; [exact Logic.I|reflexivity].
  - destruct (IH j L _ _ Ce Ve) as (p & Lp & Np). exists (p ++ [f]). split.
    + change (INITIAL :: p ++ [f]) with ((INITIAL :: p) ++ [f]). apply linked_extend with (c := source l); auto.
      exists l. auto.
    + change (INITIAL :: p ++ [f]) with ((INITIAL :: p) ++ [f]). rewrite app_length. cbn [List.length].
      rewrite nth_error_app2 by (cbn; lia). cbn [List.length]. now replace (List.length p + 1 - S (List.length p))%nat with O by lia.
Qed.

Lemma valid_last n mt st : valid_message n mt st = Ok true -> exists f, In f (accessible st) /\
  valid_field n mt st f = Ok true /\ next_field n mt (mapping st) f = Ok FINAL.
Proof.
  unfold valid_message, valid_fields. intros H.
  destruct (mapr _ (accessible st)) as [ls|] eqn:M; cbn [bind] in H; [|discriminate].
  destruct (rev (concat ls)) as [|f t] eqn:R; [discriminate|]. exists f.
  destruct (next_field n mt (mapping st) f) as [g|] eqn:Nx; cbn [bind] in H; [|discriminate].
  apply Ok_inj, String.eqb_eq in H. subst g.
  assert (I : In f (concat ls)) by (apply in_rev; rewrite R; now left).
  assert (X : forall l ls, mapr (fun f => bind (valid_field n mt st f) (fun b => Ok (if b then [f] else []))) l = Ok ls ->
    In f (concat ls) -> In f l /\ valid_field n mt st f = Ok true).
  { clear. induction l as [|g l IH]; intros ls H J; cbn [mapr] in H; [apply Ok_inj in H; subst; contradiction|].
    destruct (valid_field n mt st g) as [b|] eqn:V; cbn [bind] in H; [|discriminate].
    match type of H with bind ?r _ = _ => destruct r as [us|] eqn:U end; cbn [bind] in H; [|discriminate].
    apply Ok_inj in H. subst ls. cbn [concat] in J. apply in_app_iff in J as [J|J].
    - destruct b; [|contradiction]. destruct J as [->|[]]. split; [now left|exact V].
    - destruct (IH us eq_refl J) as [A B]. split; [now right|exact B]. }
  destruct (X _ _ M I) as [A V]. auto.
Qed.

(** After any calls of set, successful or not: a message is reported as valid only if in
    every world that agrees with the recorded values a path of true links leads from the
    initial to the final node; the last field of the path is set. *)
Theorem C12_valid_message : forall n mt rank refs inner st, tidy mt rank -> history n mt refs inner st ->
  valid_message n mt st = Ok true -> (exists E, agrees mt st E) /\ forall E, agrees mt st E ->
  exists fs f, linked mt E (INITIAL :: fs ++ [FINAL]) /\ nth_error (INITIAL :: fs) (List.length fs) = Some f /\
    In f (m_fields mt) /\ In f (accessible st) /\ is_set mt st f = true.
Proof.
  intros n mt rank refs inner st T H V.
  split; [exists (mapping_world mt st); now apply (mapping_world_agrees n mt refs inner rank T)|]. intros E AG.
  destruct (history_facts n mt refs inner rank T st H) as (TX & MP & _ & AC).
  destruct (valid_last n mt st V) as (f & Ia & Vf & Nx). pose proof (AC f Ia) as If.
  unfold valid_field in Vf. destruct (is_set mt st f) eqn:IS; [|discriminate].
  destruct (condition_of n mt f) as [c|] eqn:C; cbn [bind] in Vf; [|discriminate].
  destruct (holds n mt (mapping st) c) as [[]|] eqn:B; cbn [bind] in Vf; try discriminate.
  destruct (next_link n mt rank _ _ _ T (or_intror If) Nx ltac:(discriminate)) as (l & I & S & Tl & Hl).
  pose proof (link_true mt rank T n E _ l (proj1 AG) (agrees_fits mt st E MP AG) I Hl) as Cl.
  unfold condition_of, field_condition in C.
  destruct (compute_field_condition (m_links mt) n f) as [c0|] eqn:C0; cbn [bind] in C; [|discriminate].
  pose proof (extended_literals mt rank T st E AG) as LE.
  assert (DF : forall l, In l (m_links mt) -> exists b, eval (extended st E) (condition l) = Some (VBool b)).
  { intros l' I'. now apply (t_defined _ _ T). }
  destruct (field_path mt rank T (extended st E) DF n f c0 C0) as (O & b & Bv & _).
  destruct (simplify_good expr_eqb expr_eqb_sound n _ _ C) as (R & _). destruct (R O) as [Oc Rc].
  pose proof (holds_value n mt rank T st E MP AG c (VBool b) Oc B (Rc _ _ Bv)) as X. injection X as ->.
  destruct (condition_path mt rank (extended st E) T DF n f c0 C0 Bv) as (p & Lp & Np).
  assert (Lp' : forall q, linked mt (extended st E) q -> linked mt E q).
  { induction q as [|a q IH]; [auto|]. destruct q as [|a' q]; [auto|]. intros [(l' & I' & S' & T' & V') L'].
    split; [|now apply IH]. exists l'. rewrite <- (extended_condition mt rank T st E l' I'). auto. }
  exists p, f. split; [|auto].
  change (INITIAL :: p ++ [FINAL]) with ((INITIAL :: p) ++ [FINAL]). apply linked_extend with (c := f); auto.
  exists l. auto.
Qed.

(** *** Histories in the order of the fields *)

Section Filled.
  Variables (n : nat) (mt : mtype) (refs : list refinement) (inner : bool -> string -> bits -> res bits).

  (** each call sets the field after the last one; fields of composite types get as many
      bits as declared *)
  Inductive filled : list field -> mvalue -> Prop :=
  | filled_new st : new n mt = Ok st -> filled [] st
  | filled_set fs st f x st' : filled fs st ->
      next_field n mt (mapping st) (List.last fs INITIAL) = Ok f -> f <> "" -> f <> FINAL ->
      set n mt refs inner st f x = (st', Ok tt) ->
      ((forall t i, m_types mt f <> FScalar t i) -> is_set mt st' f = true /\
         forall z, get_size n mt st f = Ok (Some z) -> size_of mt st' f = Some z) ->
      filled (fs ++ [f]) st'.

  Lemma filled_history fs st : filled fs st -> history n mt refs inner st.
  Proof. induction 1; [now apply h_new|eapply h_set; eauto]. Qed.

  Variable rank : field -> nat.
  Hypothesis T : tidy mt rank.
  Lemma ends_last fs : ends fs (List.last fs INITIAL).
  Proof.
    unfold ends. destruct fs as [|a fs] using rev_ind; [reflexivity|]. rewrite last_last.
    change (INITIAL :: fs ++ [a]) with ((INITIAL :: fs) ++ [a]). rewrite nth_error_app2; rewrite app_length; cbn [List.length]; [|lia].
    now replace (List.length fs + 1 - S (List.length fs))%nat with O by lia.
  Qed.
  Lemma filled_inv fs st : filled fs st -> inv n mt fs st.
  Proof.
    induction 1 as [st H|fs st f x st' F IH Nx N NF S CP].
    - eapply new_inv; eauto.
    - pose proof (filled_history _ _ F) as Hy.
      destruct (history_facts n mt refs inner rank T st' (h_set _ _ _ _ _ _ _ _ _ Hy S)) as (TX & _ & _ & AC').
      destruct (history_facts n mt refs inner rank T st Hy) as (_ & _ & _ & AC).
      destruct (set_split n mt refs inner st f x st' _ S) as
        [(_ & _ & _ & _ & w & W)|(p & size & ref & v & st4 & GF & GS & FR & TV & F4 & O4 & M4 & A4 & Acc & C)]; [discriminate W|].
      pose proof (AC f Acc) as If. pose proof (typ_field mt rank T f If) as Ty.
      destruct C as [(_ & w & W & _)|(st5 & U & [(_ & w & W & _)|[(_ & W)|P]])]; try discriminate W.
      destruct (update_fields n mt _ _ U) as [F5 A5]. pose proof (preset_front n mt rank (t_rank _ _ T) _ _ _ _ P) as Fr.
      assert (Fv : fields st' f = mkField v (Some p)) by (rewrite Fr by lia; rewrite F5, F4; reflexivity).
      refine (proj1 (set_inv n mt rank T refs inner fs st _ f x st' IH (ends_last fs) Nx N NF S _ _ _)).
      + intros s z E. now apply (TX f s z).
      + assert (D : (exists t i, m_types mt f = FScalar t i) \/ forall t i, m_types mt f <> FScalar t i).
        { destruct (m_types mt f); [left; eauto|right; discriminate|right; discriminate|right; discriminate]. }
        destruct D as [(t & i & E)|D]; [|now apply CP]. rewrite Ty, E in TV.
        unfold is_set, size_of. rewrite Fv, Ty, E. cbn [tv first tv_size]. rewrite !andb_true_r.
        destruct x as [b|l|z|s|l|l]; cbn [tv_set tv_parse] in TV.
        * destruct (scalar_parse _ _ _ _ _); cbn [bind] in TV; [|discriminate]. apply Ok_inj in TV. now subst.
        * destruct t; discriminate.
        * destruct t; cbn [tv_assign] in TV; try discriminate;
            (destruct (int_assign _ _ _ _); cbn [bind] in TV; [|discriminate]; apply Ok_inj in TV; now subst).
        * destruct t; cbn [tv_assign] in TV; try discriminate.
          destruct (enum_assign _ _ _ _ _ _ _ _); cbn [bind] in TV; [|discriminate]. apply Ok_inj in TV. now subst.
        * destruct t; discriminate.
        * destruct t; discriminate.
      + intros z E G. apply CP; [rewrite E; discriminate|exact G].
  Qed.
End Filled.

(** Fields set one after the other: the set fields are a path through the message whose
    conditions are true for the values, and every field stands where the one before it
    ends. *)
Theorem C12_filled : forall n mt rank refs inner fs st, tidy mt rank -> filled n mt refs inner fs st ->
  (forall f, In f (m_fields mt) -> (is_set mt st f = true <-> In f fs)) /\ NoDup fs /\ incl fs (m_fields mt) /\
  (exists E, describes mt st E) /\ (forall E, describes mt st E -> linked mt E (INITIAL :: fs)) /\
  (forall i c f, nth_error (INITIAL :: fs) i = Some c -> nth_error fs i = Some f ->
     exists p z, first (fields st c) = Some p /\ size_of mt st c = Some z /\ first (fields st f) = Some (p + z)).
Proof.
  intros n mt rank refs inner fs st T H. pose proof (filled_inv n mt refs inner rank T fs st H) as V.
  pose proof (inv_world n mt rank T fs st V) as D.
  split. { intros f If. split; intros X.
    - destruct (inv_set_in n mt rank T fs st V f (or_intror If) X) as [E|]; [|assumption].
      subst f. now apply (initial_ne mt rank T) in If.
    - now apply (v_fields _ _ _ _ V). }
  split; [exact (inv_nodup n mt rank T fs st V)|]. split; [intros f X; now apply (v_fields _ _ _ _ V)|].
  split; [eauto|]. split; [intros E DE; exact (inv_linked n mt rank T fs st E V DE)|].
  intros i c f Hc Hf.
  destruct (v_path _ _ _ _ V _ (Datatypes.S i) f D Hf) as [pf Pf]. destruct (v_path _ _ _ _ V _ i c D Hc) as [pc Pc].
  assert (ST : forall g, In g (INITIAL :: fs) -> exists p z, first (fields st g) = Some p /\ size_of mt st g = Some z).
  { intros g [<-|I].
    - rewrite (inv_initial_size n mt fs st V), (v_initial _ _ _ _ V). cbn [first]. eauto.
    - destruct (v_fields _ _ _ _ V g I) as [_ IS]. unfold is_set in IS. apply andb_true_iff in IS as [IS A].
      apply andb_true_iff in IS as [_ B]. destruct (first (fields st g)); [|discriminate]. destruct (size_of mt st g); [eauto|discriminate]. }
  pose proof (nth_error_In _ _ Hc) as Ic. pose proof (nth_error_In _ _ Hf) as If.
  destruct (ST c Ic) as (p & z & Fp & Sz). destruct (ST f (or_intror If)) as (q & z' & Fq & _).
  destruct (inv_steps n mt fs st V c p _ Ic D Fp) as [k K]. destruct (inv_steps n mt fs st V f q _ (or_intror If) D Fq) as [j J].
  destruct (steps_index _ _ _ T (d_literals _ _ _ D) _ _ _ _ _ K Pc) as [-> ->].
  destruct (steps_index _ _ _ T (d_literals _ _ _ D) _ _ _ _ _ J Pf) as [-> ->].
  inversion Pf as [|k' q' l z0 S I C Z]; subst.
  destruct (steps_fun _ _ _ T (d_literals _ _ _ D) _ _ _ S _ _ Pc) as [Es ->].
  assert (Ec : In c (INITIAL :: m_fields mt)) by now apply (inv_path_field n mt fs st V).
  pose proof (d_size _ _ _ D c z Ec Sz) as Zc. rewrite Es, Zc in Z. injection Z as <-.
  exists pc, z. auto.
Qed.
(** If such a message is reported as valid then its fields are a complete path. *)
Theorem C12_filled_valid : forall n mt rank refs inner fs st, tidy mt rank -> filled n mt refs inner fs st ->
  valid_message n mt st = Ok true -> forall E, describes mt st E -> linked mt E (INITIAL :: fs ++ [FINAL]).
Proof.
  intros n mt rank refs inner fs st T H VM E D. pose proof (filled_inv n mt refs inner rank T fs st H) as V.
  destruct (history_facts n mt refs inner rank T st (filled_history _ _ _ _ _ _ H)) as (_ & _ & _ & AC).
  destruct (valid_last n mt st VM) as (f & Ia & Vf & Nx). pose proof (AC f Ia) as If.
  unfold valid_field in Vf. destruct (is_set mt st f) eqn:IS; [|discriminate].
  destruct (next_link n mt rank _ _ _ T (or_intror If) Nx ltac:(discriminate)) as (l & I & S & Tl & Hl).
  pose proof (inv_link n mt rank T fs st V E l D I Hl) as Cl.
  destruct (inv_path_in n mt fs st V f E (inv_set_in n mt rank T fs st V f (or_intror If) IS) D) as (i & p & Hi & P).
  assert (Li : (i < List.length (INITIAL :: fs))%nat) by (apply nth_error_Some; congruence). cbn [List.length] in Li.
  assert (Ei : i = List.length fs).
  { destruct (Nat.eq_dec i (List.length fs)) as [|N]; [assumption|exfalso].
    destruct (nth_error fs i) as [g|] eqn:G. 2:{ apply nth_error_None in G. lia. }
    destruct (v_path _ _ _ _ V E (Datatypes.S i) g D G) as [q Q]. inversion Q as [|k q' l' z S' I' C' Z]; subst.
    destruct (steps_fun _ _ _ T (d_literals _ _ _ D) _ _ _ S' _ _ P) as [Es _].
    assert (l = l') by (apply (t_exclusive _ _ T l l' E I I'); [congruence|exact (d_literals _ _ _ D)|exact Cl|exact C']).
    subst l'. apply nth_error_In in G. destruct (v_fields _ _ _ _ V _ G) as [Y _].
    destruct (t_names _ _ T _ Y) as (_ & _ & _ & X). congruence. }
  subst i. change (INITIAL :: fs ++ [FINAL]) with ((INITIAL :: fs) ++ [FINAL]). apply linked_extend with (c := f); auto.
  - exact (inv_linked n mt rank T fs st E V D).
  - exists l. auto.
Qed.

(** *** Cases *)

Fixpoint sets (mt : mtype) refs inner (xs : list (string * pyval)) (st : mvalue) : mvalue :=
  match xs with [] => st | (f, x) :: t => sets mt refs inner t (fst (set 40 mt refs inner st f x)) end.
Definition start (mt : mtype) : mvalue := match new 40 mt with Ok st => st | Err _ => blank mt end.
Definition made (mt : mtype) refs inner (xs : list (string * pyval)) : mvalue := sets mt refs inner xs (start mt).

Lemma succeeded {A} (p : A * res unit) : snd p = Ok tt -> p = (fst p, Ok tt).
Proof. destruct p. cbn. now intros ->. Qed.
Lemma sets_history mt refs inner : forall xs st, history 40 mt refs inner st -> history 40 mt refs inner (sets mt refs inner xs st).
Proof.
  induction xs as [|[f x] t IH]; intros st H; [exact H|]. cbn [sets]. apply IH.
  eapply h_set; [exact H|apply surjective_pairing].
Qed.
Lemma made_history mt refs inner xs : is_ok (new 40 mt) = true -> history 40 mt refs inner (made mt refs inner xs).
Proof.
  intros H. apply sets_history. unfold start. destruct (new 40 mt) as [st|] eqn:N; [|discriminate]. now apply h_new.
Qed.

Lemma filled_step mt refs inner fs st f x : filled 40 mt refs inner fs st ->
  next_field 40 mt (mapping st) (List.last fs INITIAL) = Ok f -> (String.eqb f "" || String.eqb f FINAL)%bool = false ->
  snd (set 40 mt refs inner st f x) = Ok tt ->
  (exists t i, m_types mt f = FScalar t i) \/
  (is_set mt (sets mt refs inner [(f, x)] st) f = true /\ get_size 40 mt st f = Ok (size_of mt (sets mt refs inner [(f, x)] st) f)) ->
  filled 40 mt refs inner (fs ++ [f]) (sets mt refs inner [(f, x)] st).
Proof.
  intros F N D S C. apply Bool.orb_false_iff in D as [D1 D2]. apply String.eqb_neq in D1, D2. cbn [sets] in *.
  eapply filled_set; try eassumption; [now apply succeeded|]. intros NS. destruct C as [(t & i & E)|(I & G)]; [now apply NS in E|].
  split; [exact I|]. intros z Z. rewrite G in Z. now apply Ok_inj in Z.
Qed.

Lemma sets_app mt refs inner : forall xs ys st, sets mt refs inner (xs ++ ys) st = sets mt refs inner ys (sets mt refs inner xs st).
Proof. induction xs as [|[f x] xs IH]; intros ys st; [reflexivity|apply IH]. Qed.
Lemma filled_tlv : filled 40 tlv [] nothing ["tag"; "length"; "value"] (made tlv [] nothing [("tag", PStr "Data"); ("length", PInt 2); ("value", PBytes [7; 8])]).
Proof.
  pose proof (sets_app tlv [] nothing [("tag", PStr "Data"); ("length", PInt 2)] [("value", PBytes [7; 8])] (start tlv)) as E.
  pose proof (sets_app tlv [] nothing [("tag", PStr "Data")] [("length", PInt 2)] (start tlv)) as E'.
  cbn [app] in E, E'. unfold made. rewrite E, E'. clear E E'.
  apply (filled_step tlv [] nothing ["tag"; "length"]); try (vm_compute; reflexivity).
  - apply (filled_step tlv [] nothing ["tag"]); try (vm_compute; reflexivity).
    + apply (filled_step tlv [] nothing []); try (vm_compute; reflexivity); [|left; vm_compute; eauto].
      apply filled_new. unfold start. destruct (new 40 tlv) eqn:N; [reflexivity|vm_compute in N; discriminate].
    + left. vm_compute. eauto.
  - right. vm_compute. auto.
Qed.
Example C12_case : let st := made tlv [] nothing [("tag", PStr "Data"); ("length", PInt 2); ("value", PBytes [7; 8])] in
  filled 40 tlv [] nothing ["tag"; "length"; "value"] st /\ history 40 tlv [] nothing st /\
  valid_message 40 tlv st = Ok true /\ bytestring 40 tlv st = Ok [1; 2; 7; 8] /\
  map (fun f => first (fields st f)) (m_fields tlv) = [Some 0; Some 8; Some 16] /\
  is_ok (snd (set 40 tlv [] nothing st "length" (PInt 300))) = false /\
  is_ok (snd (set 40 tlv [] nothing st "tag" (PStr "None"))) = false.
Proof.
  intros st. split; [|split; [apply made_history; vm_compute; reflexivity|repeat split; vm_compute; reflexivity]].
  exact filled_tlv.
Qed.
(** the conditions of the links decide what may be set and when the message is valid *)
Example C12_error_case : let st := made tlv [] nothing [("tag", PStr "Error"); ("length", PInt 2); ("tag", PStr "Unknown")] in
  history 40 tlv [] nothing st /\ valid_message 40 tlv st = Ok true /\ bytestring 40 tlv st = Ok [3] /\
  map (is_set tlv st) (m_fields tlv) = [true; false; false].
Proof. intros st. split; [apply made_history; vm_compute; reflexivity|repeat split; vm_compute; reflexivity]. Qed.

(** *** Where the property fails *)

(** A field may be set before the one in front of it; the message is then valid although
    a field on its path is missing, and gives no bytes at all. *)
Definition pair : mtype := mkMtype "P.Pair"
  [mkLink INITIAL "a" ETrue None None; mkLink "a" "b" ETrue None None; mkLink "b" FINAL ETrue None None]
  ["a"; "b"] (fun _ => FScalar byte false).
Theorem C12_unset_refuted : exists mt rank st xs, tidy mt rank /\ history 40 mt [] nothing st /\ st = made mt [] nothing xs /\
  valid_message 40 mt st = Ok true /\ required_fields 40 mt st = Ok ["a"] /\
  map (is_set mt st) (m_fields mt) = [false; true] /\ bytestring 40 mt st = Ok [].
Proof.
  exists pair, (position [INITIAL; "a"; "b"]), (made pair [] nothing [("b", PInt 5)]), [("b", PInt 5)].
  split; [straight|]. split; [apply made_history; vm_compute; reflexivity|]. repeat split; vm_compute; reflexivity.
Qed.

(** The size of an array is checked when it is set, not when the length is changed. *)
Definition bytes : mtype := mkMtype "P.Bytes"
  [mkLink INITIAL "length" ETrue None None;
   mkLink "length" "list" ETrue (Some (EAss OMul [EVar "length"; ENum 8])) None;
   mkLink "list" FINAL ETrue None None]
  ["length"; "list"] (fun f => if String.eqb f "list" then FScalars byte false else FScalar byte false).
Theorem C12_array_size_refuted : exists mt rank st, tidy mt rank /\
  st = made mt [] nothing [("length", PInt 1); ("list", PScalars [(byte, SInt 7)]); ("length", PInt 2)] /\
  history 40 mt [] nothing st /\ valid_message 40 mt st = Ok true /\ bytestring 40 mt st = Ok [2; 7] /\
  get_size 40 mt st "list" = Ok (Some 16) /\ size_of mt st "list" = Some 8.
Proof.
  exists bytes, (position [INITIAL; "length"; "list"]). eexists. split; [straight|]. split; [reflexivity|].
  split; [apply made_history; vm_compute; reflexivity|]. repeat split; vm_compute; reflexivity.
Qed.
(** An array that was never given a value counts as set, with no elements. *)
Theorem C12_unset_array_refuted : exists mt rank st, tidy mt rank /\
  st = made mt [] nothing [("length", PInt 2); ("list", PScalars [(byte, SInt 7)])] /\
  history 40 mt [] nothing st /\
  is_ok (snd (set 40 mt [] nothing (made mt [] nothing [("length", PInt 2)]) "list" (PScalars [(byte, SInt 7)]))) = false /\
  valid_message 40 mt st = Ok true /\ bytestring 40 mt st = Ok [2] /\ is_set mt st "list" = true.
Proof.
  exists bytes, (position [INITIAL; "length"; "list"]). eexists. split; [straight|]. split; [reflexivity|].
  split; [apply made_history; vm_compute; reflexivity|]. repeat split; vm_compute; reflexivity.
Qed.

(** Fields that are no longer part of the message keep their values. *)
Theorem C12_stale_refuted : exists st,
  st = made tlv [] nothing [("tag", PStr "Data"); ("length", PInt 1); ("value", PBytes [7]); ("tag", PStr "Error")] /\
  history 40 tlv [] nothing st /\ valid_message 40 tlv st = Ok true /\ valid_fields 40 tlv st = Ok ["tag"] /\
  map (is_set tlv st) (m_fields tlv) = [true; true; true].
Proof.
  eexists. split; [reflexivity|]. split; [apply made_history; vm_compute; reflexivity|]. repeat split; vm_compute; reflexivity.
Qed.

(** The positions that conditions refer to are those before the fields behind moved: the
    message is valid although the condition of its last link is false. *)
Definition shift : mtype := mkMtype "P.Shift"
  [mkLink INITIAL "length" ETrue None None;
   mkLink "length" "value" ETrue (Some (EAss OMul [EVar "length"; ENum 8])) None;
   mkLink "value" "tail" ETrue None None;
   mkLink "tail" FINAL (ERel OEq (EName (NAttr AFirst "tail") false) (ENum 16)) None None]
  ["length"; "value"; "tail"]
  (fun f => if String.eqb f "value" then FOpaque else FScalar byte false).
Theorem C12_stale_position_refuted : exists st,
  st = made shift [] nothing [("length", PInt 1); ("value", PBytes [1]); ("tail", PInt 3); ("length", PInt 2); ("value", PBytes [1; 2])] /\
  history 40 shift [] nothing st /\ valid_message 40 shift st = Ok true /\ first (fields st "tail") = Some 24 /\
  forall E, describes shift st E -> ~ exists l, In l (m_links shift) /\ target l = FINAL /\ eval E (condition l) = Some (VBool true).
Proof.
  eexists. split; [reflexivity|]. split; [apply made_history; vm_compute; reflexivity|].
  split; [vm_compute; reflexivity|]. split; [vm_compute; reflexivity|].
  intros E D (l & I & Tl & C). pose proof (d_first _ _ _ D "tail" 24 ltac:(cbn; auto) ltac:(vm_compute; reflexivity)) as F.
  cbn in I. in_cases I; subst l; try discriminate Tl. cbn -[Z.eqb] in C. rewrite F in C. discriminate C.
Qed.

(** ** C42 *)

Section Refinements.
  Variables (n : nat) (mt : mtype).
  Definition offers (st : mvalue) (f : field) (x : refinement) : Prop :=
    r_pdu x = m_name mt /\ r_field x = f /\ holds n mt (mapping st) (r_condition x) = Ok true.
  Lemma find_some st f : forall rs r s, find_refinement n mt st f rs r = Ok (Some s) ->
    (r = Some s /\ forall x, In x rs -> ~ offers st f x) \/
    exists a x b, rs = a ++ x :: b /\ offers st f x /\ r_sdu x = s /\ forall y, In y b -> ~ offers st f y.
  Proof.
    induction rs as [|x t IH]; intros r s H; cbn [find_refinement] in H.
    - left. apply Ok_inj in H. split; [exact H|intros x []].
    - destruct (String.eqb (r_pdu x) (m_name mt) && String.eqb (r_field x) f) eqn:M.
      + apply andb_true_iff in M as [M1 M2]. apply String.eqb_eq in M1, M2.
        destruct (holds n mt (mapping st) (r_condition x)) as [b|] eqn:B; cbn [bind] in H; [|discriminate].
        destruct (IH _ _ H) as [[E N]|(a & y & c & -> & O & S & N)].
        * destruct b.
          -- right. injection E as E. exists [], x, t. split; [reflexivity|]. repeat split; auto.
          -- left. split; [exact E|]. intros y [<-|I]; [|auto]. intros (_ & _ & X). rewrite B in X. discriminate X.
        * right. exists (x :: a), y, c. auto.
      + assert (NO : ~ offers st f x).
        { intros (A & B & _). rewrite A, B, !String.eqb_refl in M. discriminate M. }
        destruct (IH _ _ H) as [[E N]|(a & y & c & -> & O & S & N)].
        * left. split; [exact E|]. intros y [<-|I]; auto.
        * right. exists (x :: a), y, c. auto.
  Qed.
  Lemma find_none st f : forall rs r, find_refinement n mt st f rs r = Ok None -> r = None /\ forall x, In x rs -> ~ offers st f x.
  Proof.
    induction rs as [|x t IH]; intros r H; cbn [find_refinement] in H.
    - apply Ok_inj in H. split; [exact H|intros x []].
    - destruct (String.eqb (r_pdu x) (m_name mt) && String.eqb (r_field x) f) eqn:M.
      + destruct (holds n mt (mapping st) (r_condition x)) as [b|] eqn:B; cbn [bind] in H; [|discriminate].
        destruct (IH _ H) as [E N]. destruct b; [discriminate E|]. split; [exact E|]. intros y [<-|I]; [|auto].
        intros (_ & _ & X). rewrite B in X. discriminate X.
      + destruct (IH _ H) as [E N]. split; [exact E|]. intros y [<-|I]; [|auto].
        intros (A & B & _). rewrite A, B, !String.eqb_refl in M. discriminate M.
  Qed.
End Refinements.

(** what a successful call stores in an opaque field *)
Lemma set_opaque n mt rank refs inner st f x st' : acyclic mt rank -> set n mt refs inner st f x = (st', Ok tt) ->
  is_opaque (tv (fields st f)) = true -> typ mt f = FOpaque ->
  exists ref e nested l, find_refinement n mt st f refs (get_ref (tv (fields st f))) = Ok ref /\
    tv (fields st' f) = VOpaque e ref nested (Some l) /\
    (forall s, ref = Some s -> exists r b m, nested = Some (s, m) /\ inner r s b = Ok m /\ l = to_bytes m /\
       Nat.modulo (List.length m) 8 = O /\ (x = PBits b \/ exists bs, x = PBytes bs /\ from_bytes bs = Ok b)) /\
    (ref = None -> forall bs, x = PBytes bs -> l = bs).
Proof.
  intros A H O Ty.
  destruct (set_split n mt refs inner st f x st' _ H) as
    [(_ & _ & _ & _ & w & W)|(p & size & ref & v & st4 & GF & GS & FR & TV & F4 & O4 & M4 & A4 & Acc & C)]; [discriminate W|].
  destruct C as [(_ & w & W & _)|(st5 & U & [(_ & w & W & _)|[(_ & W)|P]])]; try discriminate W.
  destruct (update_fields n mt _ _ U) as [F5 A5].
  pose proof (preset_front n mt rank A _ _ _ _ P) as Fr.
  assert (Fv : tv (fields st' f) = v) by (rewrite Fr by lia; rewrite F5, F4; reflexivity).
  rewrite Fv. rewrite O in FR. exists ref. rewrite Ty in TV. clear -TV FR O.
  destruct (tv (fields st f)) as [|e0 r0 n0 o0| |]; try discriminate O.
  assert (S : exists e, set_ref (match size with Some z => set_expected (VOpaque e0 r0 n0 o0) z | None => VOpaque e0 r0 n0 o0 end) ref
    = VOpaque e ref n0 o0) by (destruct size; cbn; eauto).
  destruct S as [e S]. rewrite S in TV. destruct x as [b|l|z|s|l|l]; cbn [tv_set tv_parse tv_assign] in TV; try discriminate TV.
  - destruct (check_size e _); cbn [bind] in TV; [|discriminate]. destruct ref as [sdu|].
    + destruct (inner true sdu b) as [m|] eqn:I; cbn [bind] in TV; [|discriminate].
      destruct (Nat.eqb_spec (Nat.modulo (List.length m) 8) 0); cbn [bind] in TV; [|discriminate]. apply Ok_inj in TV. subst v.
      exists e, (Some (sdu, m)), (to_bytes m). split; [exact FR|]. split; [reflexivity|]. split; [|discriminate].
      intros s X. injection X as <-. exists true, b, m. auto 10.
    + apply Ok_inj in TV. subst v. do 3 eexists. split; [exact FR|]. split; [reflexivity|]. split; discriminate.
  - destruct (check_size e _); cbn [bind] in TV; [|discriminate]. destruct ref as [sdu|].
    + destruct (from_bytes l) as [b|] eqn:FB; cbn [bind] in TV; [|discriminate].
      destruct (inner true sdu b) as [m|] eqn:I; cbn [bind] in TV; [|discriminate].
      destruct (Nat.eqb_spec (Nat.modulo (List.length m) 8) 0); cbn [bind] in TV; [|discriminate]. apply Ok_inj in TV. subst v.
      exists e, (Some (sdu, m)), (to_bytes m). split; [exact FR|]. split; [reflexivity|]. split; [|discriminate].
      intros s X. injection X as <-. exists true, b, m. eauto 12.
    + apply Ok_inj in TV. subst v. do 3 eexists. split; [exact FR|]. split; [reflexivity|]. split; [discriminate|].
      intros _ bs X. now injection X.
Qed.

(** The message in a payload that had no refinement so far is that of the last refinement
    of the field whose condition is true for the values set so far. *)
Theorem C42_selected : forall n mt rank refs inner st f x st' s, tidy mt rank -> history n mt refs inner st ->
  set n mt refs inner st f x = (st', Ok tt) -> typ mt f = FOpaque -> is_opaque (tv (fields st f)) = true ->
  get_ref (tv (fields st f)) = None -> get_ref (tv (fields st' f)) = Some s ->
  exists a r b, refs = a ++ r :: b /\ r_pdu r = m_name mt /\ r_field r = f /\ r_sdu r = s /\
    (forall E v, agrees mt st E -> ok (r_condition r) = true -> (forall x, In x (names (r_condition r)) -> plain_name x) ->
       eval E (r_condition r) = Some v -> v = VBool true) /\
    (forall y, In y b -> r_pdu y = m_name mt -> r_field y = f -> holds n mt (mapping st) (r_condition y) <> Ok true) /\
    exists e m w z, tv (fields st' f) = VOpaque e (Some s) (Some (s, m)) (Some (to_bytes m)) /\ inner w s z = Ok m.
Proof.
  intros n mt rank refs inner st f x st' s T Hy H Ty O RN RS.
  destruct (set_opaque n mt rank refs inner st f x st' (t_rank _ _ T) H O Ty) as (ref & e & nested & l & FR & V & NS & _).
  rewrite V in RS. cbn in RS. subst ref. rewrite RN in FR.
  destruct (find_some n mt st f _ _ _ FR) as [[X _]|(a & r & b & Er & (O1 & O2 & O3) & Es & N)]; [discriminate X|].
  destruct (NS s eq_refl) as (w & z & m & -> & I & -> & _).
  exists a, r, b. split; [exact Er|]. split; [exact O1|]. split; [exact O2|]. split; [exact Es|].
  split. { intros E v AG Ok Pl Ev. destruct (history_facts n mt refs inner rank T st Hy) as (_ & MP & _ & _).
    exact (holds_true n mt E (mapping st) (r_condition r) v (proj1 (proj1 AG)) (agrees_fits mt st E MP AG) Ok Pl O3 Ev). }
  split. { intros y Iy Y1 Y2 Y3. apply (N y Iy). repeat split; auto. }
  exists e, m, w, z. auto.
Qed.
(** None of the refinements of a payload that is stored as plain bytes applies. *)
Theorem C42_plain : forall n mt rank refs inner st f x st', acyclic mt rank -> 
  set n mt refs inner st f x = (st', Ok tt) -> typ mt f = FOpaque -> is_opaque (tv (fields st f)) = true ->
  get_ref (tv (fields st' f)) = None ->
  (forall r, In r refs -> r_pdu r = m_name mt -> r_field r = f -> holds n mt (mapping st) (r_condition r) <> Ok true) /\
  forall l, x = PBytes l -> exists e nested, tv (fields st' f) = VOpaque e None nested (Some l).
Proof.
  intros n mt rank refs inner st f x st' T H Ty O RS.
  destruct (set_opaque n mt rank refs inner st f x st' T H O Ty) as (ref & e & nested & l & FR & V & _ & NS).
  rewrite V in RS. cbn in RS. subst ref. destruct (find_none n mt st f _ _ FR) as [_ N]. split.
  - intros r I A B C. apply (N r I). repeat split; auto.
  - intros bs X. rewrite V, (NS eq_refl bs X). eauto.
Qed.
(** A refinement whose condition the message finds true is applied unless a later one is. *)
Theorem C42_applied : forall n mt rank refs inner st f x st' a r b, acyclic mt rank ->
  set n mt refs inner st f x = (st', Ok tt) -> typ mt f = FOpaque -> is_opaque (tv (fields st f)) = true ->
  refs = a ++ r :: b -> r_pdu r = m_name mt -> r_field r = f -> holds n mt (mapping st) (r_condition r) = Ok true ->
  (forall y, In y b -> ~ (r_pdu y = m_name mt /\ r_field y = f /\ holds n mt (mapping st) (r_condition y) = Ok true)) ->
  get_ref (tv (fields st' f)) = Some (r_sdu r).
Proof.
  intros n mt rank refs inner st f x st' a r b T H Ty O -> P F C L.
  destruct (set_opaque n mt rank _ inner st f x st' T H O Ty) as (ref & e & nested & l & FR & V & _ & _).
  rewrite V. cbn. revert FR. generalize (get_ref (tv (fields st f))). clear -P F C L.
  induction a as [|y a IH]; intros o FR; cbn [List.app find_refinement] in FR.
  - rewrite P, F, !String.eqb_refl in FR. cbn [andb] in FR. rewrite C in FR. cbn [bind] in FR. destruct ref as [s|].
    + destruct (find_some n mt st f _ _ _ FR) as [[E _]|(a & y & c & -> & (A1 & A2 & A3) & _)]; [now rewrite E|].
      exfalso. apply (L y); [apply in_or_app; right; now left|auto].
    + destruct (find_none n mt st f _ _ FR). discriminate.
  - destruct (String.eqb (r_pdu y) (m_name mt) && String.eqb (r_field y) f); [|eauto].
    destruct (holds n mt (mapping st) (r_condition y)); cbn [bind] in FR; [eauto|discriminate].
Qed.

(** Once applied a refinement stays when its condition becomes false: here a payload of two
    bytes is taken for a message of one byte and loses its second byte. *)
Definition alt_refs : list refinement := [mkRef "P.Cut" "value" "P.One" (ERel OEq (EVar "length") (ENum 1))].
Definition alt_inner := parse_message 40 cut_types [] 1.
Example C42_case :
  let st := made cut alt_refs alt_inner [("length", PInt 1)] in
  let st2 := made cut alt_refs alt_inner [("length", PInt 2)] in
  history 40 cut alt_refs alt_inner st /\ tidy cut (position [INITIAL; "length"; "value"; "tail"]) /\
  get_ref (tv (fields st "value")) = None /\
  snd (set 40 cut alt_refs alt_inner st "value" (PBytes [1])) = Ok tt /\
  tv (fields (fst (set 40 cut alt_refs alt_inner st "value" (PBytes [1]))) "value")
    = VOpaque (Some 8) (Some "P.One") (Some ("P.One", bits_of_bytes [1])) (Some [1]) /\
  snd (set 40 cut alt_refs alt_inner st2 "value" (PBytes [1; 4])) = Ok tt /\
  tv (fields (fst (set 40 cut alt_refs alt_inner st2 "value" (PBytes [1; 4]))) "value") = VOpaque (Some 16) None None (Some [1; 4]).
Proof.
  intros st st2. split; [apply made_history; vm_compute; reflexivity|]. split; [straight|]. repeat split; vm_compute; reflexivity.
Qed.
Theorem C42_stale_refuted : exists st,
  st = made cut alt_refs alt_inner [("length", PInt 1); ("value", PBytes [1]); ("length", PInt 2); ("value", PBytes [1; 4]); ("tail", PInt 3)] /\
  history 40 cut alt_refs alt_inner st /\ valid_message 40 cut st = Ok true /\ bytestring 40 cut st = Ok [2; 1; 3] /\
  get_ref (tv (fields st "value")) = Some "P.One" /\
  forall E r, describes cut st E -> In r alt_refs -> eval E (r_condition r) = Some (VBool false).
Proof.
  eexists. split; [reflexivity|]. split; [apply made_history; vm_compute; reflexivity|].
  split; [vm_compute; reflexivity|]. split; [vm_compute; reflexivity|]. split; [vm_compute; reflexivity|].
  intros E r D [<-|[]]. pose proof (d_int _ _ _ D "length" 2 ltac:(cbn; auto) ltac:(vm_compute; reflexivity)) as F.
  cbn -[Z.eqb]. now rewrite F.
Qed.

Print Assumptions C12_set_value.
Print Assumptions C12_set_position.
Print Assumptions C12_failed_set.
Print Assumptions C12_recorded.
Print Assumptions C12_valid_message.
Print Assumptions C12_filled.
Print Assumptions C12_filled_valid.
Print Assumptions C12_stale_position_refuted.
Print Assumptions C42_selected.
Print Assumptions C42_plain.
Print Assumptions C42_applied.
Print Assumptions C42_stale_refuted.
