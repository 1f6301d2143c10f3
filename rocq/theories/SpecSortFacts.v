(** Proofs about the loading and ordering of specification files. *)
From Coq Require Import String List Arith Bool Lia.
From Verif Require Import Base Expr SpecSort.
Import ListNotations.
Local Open Scope string_scope.
Local Open Scope list_scope.
Local Open Scope nat_scope.
Local Open Scope res_scope.
Local Notation length := List.length.

Lemma mem_iff x l : mem x l = true <-> In x l.
Proof.
  unfold mem. rewrite existsb_exists. split.
  - intros (y & I & E). apply String.eqb_eq in E. now subst.
  - intros I. exists x. split; [exact I|]. apply String.eqb_refl.
Qed.
Lemma mem_false x l : mem x l = false <-> ~ In x l.
Proof. rewrite <- mem_iff. destruct (mem x l); intuition congruence. Qed.
Lemma dget_in d f v : dget d f = Some v -> In f (keys d).
Proof.
  induction d as [|[k w] d IH]; [discriminate|]. cbn. destruct (String.eqb_spec k f); [now left|]. intros H. right. auto.
Qed.
Lemma in_dget d f : In f (keys d) -> exists v, dget d f = Some v.
Proof.
  induction d as [|[k w] d IH]; [intros []|]. cbn. destruct (String.eqb_spec k f); [eauto|]. intros [<-|H]; [congruence|auto].
Qed.
Lemma dget_dset d f v g : dget (dset d f v) g = if String.eqb f g then Some v else dget d g.
Proof.
  induction d as [|[k w] d IH]; cbn; [reflexivity|].
  destruct (String.eqb_spec k f) as [->|N]; cbn.
  - destruct (String.eqb_spec f g); reflexivity.
  - rewrite IH. destruct (String.eqb_spec k g); [|reflexivity]. destruct (String.eqb_spec f g); congruence.
Qed.
Lemma keys_dset d f v g : In g (keys (dset d f v)) <-> g = f \/ In g (keys d).
Proof.
  induction d as [|[k w] d IH]; cbn; [intuition auto|].
  destruct (String.eqb_spec k f) as [->|N]; cbn; [intuition auto|]. unfold keys in IH. rewrite IH. intuition auto.
Qed.
Lemma nodup_dset d f v : NoDup (keys d) -> NoDup (keys (dset d f v)).
Proof.
  induction d as [|[k w] d IH]; cbn; intros H; [repeat constructor; intros []|].
  inversion H; subst. destruct (String.eqb_spec k f) as [->|N]; cbn; [exact H|]. constructor; [|auto].
  intros I. apply keys_dset in I as [->|I]; auto.
Qed.

Definition withs (d : dict) (f : file) : list file := match dget d f with Some ws => ws | None => [] end.
(** [d] can be reached from [f] through with clauses *)
Inductive reach (fs : dict) : file -> file -> Prop :=
| reach_refl f : reach fs f f
| reach_step f g d : In g (withs fs f) -> reach fs g d -> reach fs f d.
Lemma reach_snoc fs f g d : reach fs f g -> In d (withs fs g) -> reach fs f d.
Proof. intros H. induction H; intros I; econstructor; eauto using reach_refl. Qed.
Lemma reach_trans fs f g d : reach fs f g -> reach fs g d -> reach fs f d.
Proof. intros H. induction H; intros I; [exact I|econstructor; eauto]. Qed.

(** ** Loading *)
Section Load.
  Variable fs : dict.

  (** what holds of the specifications as long as no cycle was reported *)
  Definition good (specs : dict) : Prop :=
    NoDup (keys specs) /\
    (forall x ws, dget specs x = Some ws -> dget fs x = Some ws) /\
    exists rank : file -> nat, forall x w, In x (keys specs) -> In w (withs fs x) -> In w (keys fs) ->
      In w (keys specs) /\ rank w < rank x.

  Lemma good_add specs f ws : good specs -> dget fs f = Some ws ->
    (forall w, In w ws -> In w (keys fs) -> In w (keys specs)) -> good (dset specs f ws).
  Proof.
    intros (ND & EX & rank & R) F C. split; [now apply nodup_dset|]. split.
    { intros x us. rewrite dget_dset. destruct (String.eqb_spec f x) as [<-|N]; [congruence|apply EX]. }
    assert (W : withs fs f = ws) by (unfold withs; now rewrite F).
    destruct (in_dec string_dec f (keys specs)) as [I|I].
    - exists rank. intros x w Ix Iw Ik. rewrite keys_dset in *. destruct Ix as [->|Ix]; destruct (R _ _ ltac:(eassumption) Iw Ik); auto.
    - exists (fun x => if String.eqb x f then S (fold_right Nat.max 0 (map rank ws)) else rank x).
      assert (M : forall w, In w ws -> rank w <= fold_right Nat.max 0 (map rank ws)).
      { clear. induction ws as [|y l IH]; intros w; [intros []|]. intros [<-|J]; cbn; [lia|]. specialize (IH _ J). lia. }
      intros x w Ix Iw Ik. rewrite keys_dset in *.
      assert (Iws : In w (keys specs)).
      { destruct Ix as [->|Ix]; [apply C; [now rewrite <- W|exact Ik]|]. now apply (R x w). }
      split; [now right|]. destruct (String.eqb_spec w f) as [->|Nw]; [contradiction|].
      destruct (String.eqb_spec x f) as [->|Nx].
      + rewrite W in Iw. specialize (M _ Iw). lia.
      + destruct Ix as [->|Ix]; [congruence|]. now apply (R x w).
  Qed.

  Definition cyc := "dependency cycle".
  Definition loads (f : file) (specs : dict) (errs : list string) (specs' : dict) : Prop :=
    incl (keys specs) (keys specs') /\
    (forall x, In x (keys specs') -> In x (keys specs) \/ (In x (keys fs) /\ reach fs f x)) /\
    (~ In cyc errs -> good specs -> good specs' /\ (In f (keys fs) -> In f (keys specs'))).

  Lemma items_spec (rec : file -> list file -> dict -> res (list string * dict)) trans f :
    (forall g t sp errs sp', rec g t sp = Ok (errs, sp') -> loads g sp errs sp') ->
    forall items errs withed specs errs' withed' specs',
    incl items (withs fs f) ->
    parse_items rec trans items errs withed specs = Ok (errs', withed', specs') ->
    incl errs errs' /\ incl (keys specs) (keys specs') /\
    (forall x, In x (keys specs') -> In x (keys specs) \/ (In x (keys fs) /\ reach fs f x)) /\
    (~ In cyc errs' -> good specs ->
       good specs' /\ withed' = withed ++ items /\ forall w, In w items -> In w (keys fs) -> In w (keys specs')).
  Proof.
    intros REC items. induction items as [|i items IH]; intros errs withed specs errs' withed' specs' SUB H; cbn in H.
    - injection H as <- <- <-. repeat apply conj; [apply incl_refl|apply incl_refl|auto|].
      intros _ G. rewrite app_nil_r. split; [exact G|]. split; [reflexivity|]. intros w [].
    - assert (SUB' : incl items (withs fs f)) by (intros x J; apply SUB; now right).
      destruct (mem i trans) eqn:M.
      { apply IH in H as (A & B & C & D); [|exact SUB']. repeat apply conj; auto.
        - intros x J. apply A, in_or_app. now left.
        - intros NC _. destruct NC. apply A, in_or_app. right. now left. }
      destruct (mem i (keys specs)) eqn:K.
      { apply mem_iff in K. apply IH in H as (A & B & C & D); [|exact SUB']. repeat apply conj; auto.
        intros NC G. destruct (D NC G) as (D1 & -> & D3). split; [exact D1|]. rewrite <- app_assoc. split; [reflexivity|].
        intros w [<-|J]; auto. }
      destruct (rec i (trans ++ [i]) specs) as [[er sp]|] eqn:R; [|discriminate]. cbn in H.
      apply REC in R as (R1 & R2 & R3). apply IH in H as (A & B & C & D); [|exact SUB']. repeat apply conj.
      + intros x J. apply A, in_or_app. now left.
      + intros x J. auto.
      + intros x J. destruct (C x J) as [J'|J']; [|now right]. destruct (R2 x J') as [|[J1 J2]]; [now left|].
        right. split; [exact J1|]. econstructor; [apply SUB; now left|exact J2].
      + intros NC G.
        destruct R3 as [G' I']; [intros X; apply NC, A, in_or_app; now right|exact G|].
        destruct (D NC G') as (D1 & -> & D3). split; [exact D1|]. rewrite <- app_assoc. split; [reflexivity|].
        intros w [<-|J]; auto.
  Qed.

  Lemma specfile_spec n : forall f trans specs errs specs',
    parse_specfile fs n f trans specs = Ok (errs, specs') -> loads f specs errs specs'.
  Proof.
    induction n as [|n IH]; intros f trans specs errs specs' H; cbn in H; [discriminate|].
    destruct (dget fs f) as [items|] eqn:F.
    - destruct (parse_items (parse_specfile fs n) trans items [] [] specs) as [[[er wi] sp]|] eqn:P; [|discriminate].
      cbn in H. injection H as <- <-.
      assert (W : withs fs f = items) by (unfold withs; now rewrite F).
      apply items_spec with (f := f) in P as (A & B & C & D); [|exact IH|rewrite W; apply incl_refl].
      split; [intros x J; apply keys_dset; auto|]. split.
      + intros x J. apply keys_dset in J as [->|J]; [|auto]. right. split; [eapply dget_in; eassumption|constructor].
      + intros NC G. destruct (D NC G) as (D1 & -> & D3). cbn [app]. split; [apply good_add; auto|].
        intros _. apply keys_dset. now left.
    - injection H as <- <-. split; [apply incl_refl|]. split; [auto|]. intros _ G. split; [exact G|].
      intros I. apply in_dget in I as [v I]. congruence.
  Qed.

  Lemma files_spec n files : forall errs specs errs' specs',
    parse_files fs n files errs specs = Ok (errs', specs') ->
    incl errs errs' /\ incl (keys specs) (keys specs') /\
    (forall x, In x (keys specs') -> In x (keys specs) \/ (In x (keys fs) /\ exists f, In f files /\ reach fs f x)) /\
    (~ In cyc errs' -> good specs -> good specs' /\ forall f, In f files -> In f (keys fs) -> In f (keys specs')).
  Proof.
    induction files as [|f files IH]; intros errs specs errs' specs' H; cbn in H.
    - injection H as <- <-. repeat apply conj; [apply incl_refl|apply incl_refl|auto|]. intros _ G. split; [exact G|]. intros f [].
    - destruct (parse_specfile fs n f [] specs) as [[er sp]|] eqn:P; [|discriminate]. cbn in H.
      apply specfile_spec in P as (P1 & P2 & P3). apply IH in H as (A & B & C & D). repeat apply conj.
      + intros x J. apply A, in_or_app. now left.
      + intros x J. auto.
      + intros x J. destruct (C x J) as [J'|(J1 & g & J2 & J3)].
        * destruct (P2 x J') as [|[J1 J2]]; [now left|]. right. split; [exact J1|]. exists f. split; [now left|exact J2].
        * right. split; [exact J1|]. exists g. split; [now right|exact J3].
      + intros NC G. destruct P3 as [G' I']; [intros X; apply NC, A, in_or_app; now right|exact G|].
        destruct (D NC G') as (D1 & D2). split; [exact D1|]. intros g [<-|J]; auto.
  Qed.

  Lemma good_reach specs f x : good specs -> In f (keys specs) -> reach fs f x -> In x (keys fs) -> In x (keys specs).
  Proof.
    intros (ND & EX & rank & R) I H. induction H as [f|f g d J H IH]; intros K; [exact I|].
    apply IH; [|exact K]. apply (R f g I J).
    inversion H; subst; [exact K|]. unfold withs in H0. destruct (dget fs g) eqn:G; [|destruct H0]. eapply dget_in; eassumption.
  Qed.
  Lemma good_acyclic specs x y : good specs -> In x (keys specs) -> In y (withs fs x) -> reach fs y x -> False.
  Proof.
    intros G I J H.
    pose proof G as (ND & EX & rank & R).
    assert (KX : In x (keys fs)). { apply in_dget in I as [v I]. apply EX in I. eapply dget_in; eassumption. }
    assert (L : forall a b, In a (keys specs) -> reach fs a b -> In b (keys fs) -> rank b <= rank a).
    { intros a b Ia Hab. induction Hab as [a|a g d Jg Hg IH]; intros Kb; [lia|].
      assert (Kg : In g (keys fs)).
      { inversion Hg as [|u v w Z]; subst; [exact Kb|]. unfold withs in Z. destruct (dget fs g) eqn:G'; [|destruct Z]. eapply dget_in; eassumption. }
      destruct (R a g Ia Jg Kg) as [Ig Lt]. specialize (IH Ig Kb). lia. }
    assert (KY : In y (keys fs)).
    { inversion H as [|u v w Z]; subst; [exact KX|]. unfold withs in Z. destruct (dget fs y) eqn:G'; [|destruct Z]. eapply dget_in; eassumption. }
    destruct (R x y I J KY) as [IY LT]. specialize (L y x IY H KX). lia.
  Qed.

  (** a reported cycle exists *)
  Lemma items_cycle (rec : file -> list file -> dict -> res (list string * dict)) trans f :
    (forall g t sp errs sp', (forall t', In t' t -> reach fs t' g) -> rec g t sp = Ok (errs, sp') -> In cyc errs ->
       exists x y, reach fs g x /\ In y (withs fs x) /\ reach fs y x) ->
    (forall t, In t trans -> reach fs t f) ->
    forall items errs withed specs errs' withed' specs',
    incl items (withs fs f) ->
    parse_items rec trans items errs withed specs = Ok (errs', withed', specs') ->
    In cyc errs' -> In cyc errs \/ exists x y, reach fs f x /\ In y (withs fs x) /\ reach fs y x.
  Proof.
    intros REC TR items. induction items as [|i items IH]; intros errs withed specs errs' withed' specs' SUB H NC; cbn in H.
    - injection H as <- <- <-. now left.
    - assert (SUB' : incl items (withs fs f)) by (intros x J; apply SUB; now right).
      assert (Ii : In i (withs fs f)) by (apply SUB; now left).
      destruct (mem i trans) eqn:M.
      { right. exists f, i. split; [constructor|]. split; [exact Ii|]. apply TR. now apply mem_iff. }
      destruct (mem i (keys specs)) eqn:K; [eapply IH; eauto|].
      destruct (rec i (trans ++ [i]) specs) as [[er sp]|] eqn:R; [|discriminate]. cbn in H.
      specialize (IH _ _ _ _ _ _ SUB' H NC). destruct IH as [IH|IH]; [|now right].
      apply in_app_or in IH as [IH|IH]; [now left|]. right.
      assert (TR' : forall t, In t (trans ++ [i]) -> reach fs t i).
      { intros t' J. apply in_app_or in J as [J|[<-|[]]]; [eapply reach_snoc; [apply TR; exact J|exact Ii]|constructor]. }
      destruct (REC i _ _ _ _ TR' R IH) as (x & y & A & B & C).
      exists x, y. split; [econstructor; eassumption|auto].
  Qed.
  Lemma specfile_cycle n : forall f trans specs errs specs',
    (forall t, In t trans -> reach fs t f) ->
    parse_specfile fs n f trans specs = Ok (errs, specs') -> In cyc errs ->
    exists x y, reach fs f x /\ In y (withs fs x) /\ reach fs y x.
  Proof.
    induction n as [|n IH]; intros f trans specs errs specs' TR H NC; cbn in H; [discriminate|].
    destruct (dget fs f) as [items|] eqn:F.
    - destruct (parse_items (parse_specfile fs n) trans items [] [] specs) as [[[er wi] sp]|] eqn:P; [|discriminate].
      cbn in H. injection H as <- <-.
      assert (W : withs fs f = items) by (unfold withs; now rewrite F).
      assert (SUB : incl items (withs fs f)) by (rewrite W; apply incl_refl).
      destruct (items_cycle (parse_specfile fs n) trans f IH TR _ _ _ _ _ _ _ SUB P NC) as [[]|X]. exact X.
    - injection H as <- <-. destruct NC as [X|[]]. discriminate X.
  Qed.
  Lemma files_cycle n files : forall errs specs errs' specs',
    parse_files fs n files errs specs = Ok (errs', specs') -> In cyc errs' ->
    In cyc errs \/ exists f x y, In f files /\ reach fs f x /\ In y (withs fs x) /\ reach fs y x.
  Proof.
    induction files as [|f files IH]; intros errs specs errs' specs' H NC; cbn in H.
    - injection H as <- <-. now left.
    - destruct (parse_specfile fs n f [] specs) as [[er sp]|] eqn:P; [|discriminate]. cbn in H.
      destruct (IH _ _ _ _ H NC) as [J|(g & x & y & A & B)].
      + apply in_app_or in J as [J|J]; [now left|]. right.
        assert (TR : forall t, In t [] -> reach fs t f) by (intros t []).
        destruct (specfile_cycle _ _ _ _ _ _ TR P J) as (x & y & X). exists f, x, y. split; [now left|exact X].
      + right. exists g, x, y. split; [now right|exact B].
  Qed.

  (** loading terminates *)
  Lemma items_total (rec : file -> list file -> dict -> res (list string * dict)) trans :
    forall items errs withed specs,
    (forall i sp, In i items -> ~ In i trans -> exists r, rec i (trans ++ [i]) sp = Ok r) ->
    exists r, parse_items rec trans items errs withed specs = Ok r.
  Proof.
    induction items as [|i items IH]; intros errs withed specs REC; cbn; [eauto|].
    assert (REC' : forall j sp, In j items -> ~ In j trans -> exists r, rec j (trans ++ [j]) sp = Ok r) by (intros; apply REC; [now right|auto]).
    destruct (mem i trans) eqn:M; [apply IH; auto|].
    destruct (mem i (keys specs)); [apply IH; auto|].
    apply mem_false in M. destruct (REC i specs (or_introl eq_refl) M) as [r ->]. cbn. apply IH; auto.
  Qed.
  Lemma specfile_total n : forall f trans specs,
    NoDup trans -> incl trans (f :: keys fs) -> length fs + 2 <= n + length trans ->
    exists r, parse_specfile fs n f trans specs = Ok r.
  Proof.
    induction n as [|n IH]; intros f trans specs ND INC L.
    - pose proof (NoDup_incl_length ND INC) as B. cbn in B. unfold keys in B. rewrite map_length in B. lia.
    - cbn. destruct (dget fs f) as [items|] eqn:F; [|eauto].
      destruct (items_total (parse_specfile fs n) trans items [] [] specs) as [[[er wi] sp] ->]; [|cbn; eauto].
      intros i sp Ii Ni. apply IH.
      + apply NoDup_rev in ND. rewrite <- (rev_involutive (trans ++ [i])). apply NoDup_rev. rewrite rev_app_distr. cbn.
        constructor; [|exact ND]. now rewrite <- in_rev.
      + intros x J. apply in_app_or in J as [J|[<-|[]]]; [|now left]. right.
        destruct (INC x J) as [<-|K]; [eapply dget_in; eassumption|exact K].
      + rewrite app_length. cbn. lia.
  Qed.
  Lemma files_total n files : forall errs specs, length fs + 2 <= n ->
    exists r, parse_files fs n files errs specs = Ok r.
  Proof.
    induction files as [|f files IH]; intros errs specs L; cbn; [eauto|].
    destruct (specfile_total n f [] specs) as [r ->]; [constructor|intros x []|cbn; lia|]. cbn. now apply IH.
  Qed.
End Load.

(** ** Sorting *)
Section SortFacts.
  Variable specs : dict.
  Hypothesis ND : NoDup (keys specs).
  Variable rank : file -> nat.
  Hypothesis R : forall f d, In d (withs specs f) -> In d (keys specs) -> rank d < rank f.

  Lemma includers_iff y e : In y (includers specs e) <-> In e (withs specs y).
  Proof.
    unfold includers, withs. rewrite in_map_iff. split.
    - intros ([k ws] & <- & I). apply filter_In in I as [I M]. cbn in *. apply mem_iff in M.
      replace (dget specs k) with (Some ws); [exact M|].
      clear R. induction specs as [|[k' w'] t IH]; [destruct I|]. cbn in *. inversion ND; subst.
      destruct I as [X|I]; [injection X as -> ->; now rewrite String.eqb_refl|].
      destruct (String.eqb_spec k' k) as [->|]; [|auto]. destruct H1. apply in_map_iff. exists (k, ws). auto.
    - destruct (dget specs y) as [ws|] eqn:D; [|intros []]. intros I. exists (y, ws). split; [reflexivity|].
      apply filter_In. split; [|now apply mem_iff].
      clear -D. induction specs as [|[k w] t IH]; [discriminate|]. cbn in *.
      destruct (String.eqb_spec k y) as [->|]; [injection D as ->; now left|right; auto].
  Qed.
  Lemma includer_key y e : In y (includers specs e) -> In y (keys specs).
  Proof. unfold includers. rewrite in_map_iff. intros ([k w] & <- & I). apply filter_In in I as [I _]. apply in_map_iff. exists (k, w). auto. Qed.

  Lemma visit_spec ws : forall v q v' q', visit specs ws v q = (v', q') ->
    incl v v' /\ exists added, q' = q ++ added /\
    (forall e, In e added -> In e ws /\ In e (keys specs) /\ In e v') /\
    length added <= length ws /\
    (forall e, In e ws -> In e (keys specs) -> incl (includers specs e) v -> In e added).
  Proof.
    induction ws as [|e ws IH]; intros v q v' q' H; cbn in H.
    - injection H as <- <-. split; [apply incl_refl|]. exists []. rewrite app_nil_r. repeat apply conj; auto; intros e [].
    - destruct (mem e (keys specs) && forallb (fun x => mem x (e :: v)) (includers specs e)) eqn:C; cbn [mem existsb] in H;
        unfold mem in C, H; cbn [existsb] in C, H; rewrite ?C in H; apply IH in H as (A & added & -> & P & L & Q).
      + apply andb_true_iff in C as [C1 C2]. apply mem_iff in C1. split; [intros x J; apply A; now right|].
        exists (e :: added). rewrite <- app_assoc. split; [reflexivity|]. repeat apply conj.
        * intros x [<-|J]; [split; [now left|split; [exact C1|apply A; now left]]|]. destruct (P x J) as (? & ? & ?). split; [now right|auto].
        * cbn. lia.
        * intros x [<-|J] K I; [now left|]. right. apply Q; auto. intros y Y. right. auto.
      + split; [intros x J; apply A; now right|]. exists added. split; [reflexivity|]. repeat apply conj.
        * intros x J. destruct (P x J) as (? & ? & ?). split; [now right|auto].
        * cbn. lia.
        * intros x [<-|J] K I; [|apply Q; auto; intros y Y; right; auto]. exfalso.
          apply andb_false_iff in C as [C|C]; [change (mem e (keys specs) = false) in C; now apply mem_false in C|].
          assert (T : forallb (fun x => ((x =? e)%string || existsb (String.eqb x) v)%bool) (includers specs e) = true).
          { apply forallb_forall. intros y Y. apply orb_true_iff. right. apply mem_iff. auto. }
          assert (TF : true = false) by (rewrite <- T; exact C). discriminate TF.
  Qed.

  Record sinv (queue popped visited : list file) : Prop := {
    si_keys : forall x, In x (popped ++ queue) -> In x (keys specs);
    si_vis : forall x, In x (popped ++ queue) -> In x visited;
    si_root : forall x, In x (keys specs) -> includers specs x = [] -> In x (popped ++ queue);
    si_later : forall e, In e (keys specs) -> incl (includers specs e) popped ->
      forall p1 y p2, popped = p1 ++ y :: p2 -> In e (withs specs y) -> In e (p2 ++ queue)
  }.
  Lemma sort_loop_spec n : forall queue popped visited r,
    sinv queue popped visited -> sort_loop specs n queue popped visited = Ok r ->
    exists v, sinv [] r v.
  Proof.
    induction n as [|n IH]; intros [|f rest] popped visited r V H; cbn in H; try discriminate.
    - apply Ok_inj in H. subst. eauto.
    - apply Ok_inj in H. subst. eauto.
    - destruct V as [VK VV VR VL].
      destruct (dget specs f) as [ws|] eqn:D; [|discriminate].
      destruct (visit specs ws visited rest) as [v' q'] eqn:W.
      apply visit_spec in W as (A & added & -> & P & L & Q).
      assert (Wf : withs specs f = ws) by (unfold withs; now rewrite D).
      apply (IH _ _ _ _) in H; [exact H|]. constructor.
      + intros x J. rewrite <- app_assoc in J. cbn in J. rewrite app_comm_cons, app_assoc in J.
        apply in_app_or in J as [J|J]; [apply VK; exact J|]. now apply P.
      + intros x J. rewrite <- app_assoc in J. cbn in J. rewrite app_comm_cons, app_assoc in J.
        apply in_app_or in J as [J|J]; [apply A, VV; exact J|]. now apply P.
      + intros x K E. specialize (VR x K E). rewrite <- app_assoc. cbn. rewrite app_comm_cons, app_assoc. apply in_or_app. now left.
      + intros e K I p1 y p2 E Ie.
        destruct (in_dec string_dec f (includers specs e)) as [F|F].
        * (* f is the last includer: e has just been enqueued *)
          apply in_or_app. right. apply in_or_app. right. apply Q.
          -- rewrite <- Wf. now apply includers_iff.
          -- exact K.
          -- intros z Z. apply VV. apply I in Z. apply in_app_or in Z as [Z|[<-|[]]]; apply in_or_app; [now left|right; now left].
        * assert (I' : incl (includers specs e) popped).
          { intros z Z. specialize (I z Z). apply in_app_or in I as [I|[<-|[]]]; [exact I|contradiction]. }
          assert (X : exists p2', popped = p1 ++ y :: p2' /\ p2 = p2' ++ [f]).
          { clear -E F Ie ND.
            destruct (exists_last (l := y :: p2)) as (l' & z & Z); [discriminate|].
            rewrite Z, app_assoc in E. apply app_inj_tail in E as [E <-].
            destruct l' as [|y' l']; cbn in Z.
            - injection Z as -> ->. exfalso. apply F. now apply includers_iff.
            - injection Z as <- ->. exists l'. split; [exact E|reflexivity]. }
          destruct X as (p2' & X & ->). specialize (VL e K I' p1 y p2' X Ie).
          rewrite <- app_assoc. cbn. rewrite app_comm_cons, app_assoc. apply in_or_app. now left.
  Qed.

  Lemma all_popped r v : sinv [] r v -> forall x, In x (keys specs) -> In x r.
  Proof.
    intros [VK VV VR VL].
    (* includers have a larger rank *)
    assert (B : exists b, forall x, In x (keys specs) -> rank x <= b).
    { exists (fold_right Nat.max 0 (map rank (keys specs))). intros x. generalize (keys specs).
      intros l. induction l as [|y l IH]; [intros []|]. intros [<-|J]; cbn; [lia|]. specialize (IH J). lia. }
    destruct B as [b B].
    assert (G : forall k x, In x (keys specs) -> b - rank x <= k -> In x r).
    { induction k as [k IH] using lt_wf_ind. intros x K Lk.
      destruct (includers specs x) as [|y l] eqn:E.
      - specialize (VR x K E). now rewrite app_nil_r in VR.
      - assert (I : incl (includers specs x) r).
        { intros z Z. pose proof (includer_key _ _ Z) as Kz. pose proof (proj1 (includers_iff _ _) Z) as Z'.
          specialize (R _ _ Z' K). specialize (B _ Kz). apply (IH (b - rank z)); [lia|exact Kz|lia]. }
        assert (Y : In y r) by (apply I; rewrite E; now left).
        apply in_split in Y as (p1 & p2 & X).
        specialize (VL x K I p1 y p2 X). rewrite app_nil_r in VL.
        rewrite X. apply in_or_app. right. right. apply VL. apply includers_iff. rewrite E. now left. }
    intros x K. exact (G _ x K (le_n _)).
  Qed.

  (** termination *)
  Definition breadth : nat := S (fold_right Nat.max 0 (map (fun kv => length (snd kv)) specs)).
  Definition weight (f : file) : nat := breadth ^ rank f.
  Fixpoint total (l : list file) : nat := match l with [] => 0 | f :: t => weight f + total t end.
  Lemma total_app l l' : total (l ++ l') = total l + total l'.
  Proof. induction l; cbn; lia. Qed.
  Lemma breadth_spec f ws : dget specs f = Some ws -> length ws < breadth.
  Proof.
    unfold breadth. clear. induction specs as [|[k w] t IH]; [discriminate|]. cbn.
    destruct (String.eqb k f); [intros X; injection X as ->; lia|]. intros X. specialize (IH X). lia.
  Qed.
  Lemma total_bound l c : (forall x, In x l -> weight x <= c) -> total l <= length l * c.
  Proof.
    induction l as [|x l IH]; intros H; cbn; [lia|]. pose proof (H x (or_introl eq_refl)).
    assert (total l <= length l * c) by (apply IH; intros; apply H; now right). lia.
  Qed.
  Lemma sort_loop_total n : forall queue popped visited,
    (forall x, In x queue -> In x (keys specs)) -> total queue <= n ->
    exists r, sort_loop specs n queue popped visited = Ok r.
  Proof.
    assert (WP : forall f, 1 <= weight f).
    { intros f. unfold weight. assert (breadth ^ rank f <> 0); [|lia]. apply Nat.pow_nonzero. unfold breadth. discriminate. }
    induction n as [|n IH]; intros [|f rest] popped visited K L; cbn [sort_loop]; [eauto| |eauto|].
    - cbn in L. specialize (WP f). lia.
    - destruct (in_dget specs f) as [ws D]; [apply K; now left|]. rewrite D.
      destruct (visit specs ws visited rest) as [v' q'] eqn:W.
      apply visit_spec in W as (A & added & -> & P & LA & Q). apply IH.
      + intros x J. apply in_app_or in J as [J|J]; [apply K; now right|]. now apply P.
      + rewrite total_app. cbn [total] in L. enough (total added < weight f) by lia.
        pose proof (breadth_spec _ _ D) as Bf.
        destruct added as [|a0 added']; [cbn; apply WP|]. set (added := a0 :: added') in *.
        assert (RK : 1 <= rank f).
        { destruct (P a0 (or_introl eq_refl)) as (P1 & P2 & _). enough (rank a0 < rank f) by lia. apply R; [|exact P2]. unfold withs. now rewrite D. }
        assert (TB : total added <= length added * breadth ^ (rank f - 1)).
        { apply total_bound. intros x J. unfold weight. apply Nat.pow_le_mono_r; [unfold breadth; lia|].
          destruct (P x J) as (P1 & P2 & _). assert (rank x < rank f) by (apply R; [unfold withs; now rewrite D|exact P2]). lia. }
        assert (E : weight f = breadth * breadth ^ (rank f - 1)).
        { unfold weight. replace (rank f) with (S (rank f - 1)) at 1 by lia. reflexivity. }
        rewrite E. eapply Nat.le_lt_trans; [exact TB|]. apply Nat.mul_lt_mono_pos_r; [|lia].
        assert (breadth ^ (rank f - 1) <> 0); [|lia]. apply Nat.pow_nonzero. unfold breadth. discriminate.
  Qed.

  (** the order *)
  Definition before (d f : file) (l : list file) : Prop := exists a b c, l = a ++ d :: b ++ f :: c.

  Lemma unique_aux_app l1 : forall seen l2,
    exists seen', unique_aux String.eqb seen (l1 ++ l2) = unique_aux String.eqb seen l1 ++ unique_aux String.eqb seen' l2 /\
      (forall x, In x seen' <-> In x seen \/ In x l1).
  Proof.
    induction l1 as [|x l1 IH]; intros seen l2; cbn.
    - exists seen. split; [reflexivity|]. intuition auto.
    - destruct (existsb (String.eqb x) seen) eqn:M.
      + destruct (IH seen l2) as (s' & -> & S). exists s'. split; [reflexivity|]. intros y. rewrite S.
        apply mem_iff in M. intuition (subst; auto).
      + destruct (IH (x :: seen) l2) as (s' & -> & S). exists s'. split; [reflexivity|]. intros y. rewrite S. cbn. intuition auto.
  Qed.
  Lemma unique_aux_in l : forall seen x, In x (unique_aux String.eqb seen l) <-> In x l /\ ~ In x seen.
  Proof.
    induction l as [|y l IH]; intros seen x; cbn; [tauto|].
    destruct (existsb (String.eqb y) seen) eqn:M.
    - apply mem_iff in M. rewrite IH. intuition (subst; auto). now subst.
    - change (mem y seen = false) in M. apply mem_false in M. cbn. rewrite IH. cbn.
      destruct (string_dec y x); intuition (subst; auto).
  Qed.
  Lemma unique_aux_nodup l : forall seen, NoDup (unique_aux String.eqb seen l).
  Proof.
    induction l as [|y l IH]; intros seen; cbn; [constructor|].
    destruct (existsb (String.eqb y) seen); [apply IH|]. constructor; [|apply IH].
    rewrite unique_aux_in. intros [_ N]. apply N. now left.
  Qed.
  Lemma first_split (x : file) l : In x l -> exists l1 l2, l = l1 ++ x :: l2 /\ ~ In x l1.
  Proof.
    induction l as [|y l IH]; [intros []|]. intros I. destruct (string_dec y x) as [->|N].
    - exists [], l. split; [reflexivity|intros []].
    - destruct I as [<-|I]; [congruence|]. destruct (IH I) as (l1 & l2 & -> & N1). exists (y :: l1), l2. split; [reflexivity|].
      intros [|]; auto.
  Qed.
  Lemma unique_before d f l : In f l -> (forall l1 l2, l = l1 ++ f :: l2 -> In d l1) -> before d f (unique String.eqb l).
  Proof.
    intros I H. destruct (first_split _ _ I) as (l1 & l2 & E & N). specialize (H _ _ E).
    unfold file in *. unfold unique, before. rewrite E. destruct (unique_aux_app l1 [] (f :: l2)) as (s' & -> & S).
    assert (Id : In d (unique_aux String.eqb [] l1)) by (apply unique_aux_in; split; [exact H|intros []]).
    apply in_split in Id as (a & b & ->). exists a, b.
    cbn. destruct (existsb (String.eqb f) s') eqn:M.
    - apply mem_iff in M. apply S in M as [[]|M]. contradiction.
    - exists (unique_aux String.eqb (f :: s') l2). rewrite <- app_assoc. reflexivity.
  Qed.

  Lemma sort_ok : exists m0, forall m, m0 <= m -> exists order, sort_specs specs m = Ok order /\
    NoDup order /\ (forall f, In f order <-> In f (keys specs)) /\
    forall f d, In d (withs specs f) -> In d (keys specs) -> before d f order.
  Proof.
    set (roots := filter (fun f => match includers specs f with [] => true | _ => false end) (keys specs)).
    assert (RK : forall x, In x roots -> In x (keys specs)) by (intros x J; now apply filter_In in J).
    exists (total roots). intros m L. unfold sort_specs. fold roots.
    destruct (sort_loop_total m roots [] roots RK L) as [popped E]. rewrite E. cbn [bind].
    assert (V : sinv roots [] roots).
    { constructor; cbn; auto.
      - intros x K X. apply filter_In. split; [exact K|]. now rewrite X.
      - intros e _ _ [|? p1]; discriminate. }
    destruct (sort_loop_spec _ _ _ _ _ V E) as [v F]. eexists. split; [reflexivity|].
    split; [apply unique_aux_nodup|]. split.
    - intros f. unfold unique. rewrite unique_aux_in, <- in_rev. split.
      + intros [I _]. destruct F as [FK _ _ _]. apply FK. now rewrite app_nil_r.
      + intros K. split; [eapply all_popped; eauto|intros []].
    - intros f d I K. pose proof (all_popped _ _ F) as AP. apply unique_before.
      + rewrite <- in_rev. apply AP. unfold withs in I. destruct (dget specs f) eqn:D; [|destruct I]. eapply dget_in; eassumption.
      + intros l1 l2 X. apply (f_equal (@rev _)) in X. rewrite rev_involutive, rev_app_distr in X. cbn in X. rewrite <- app_assoc in X. cbn in X.
        rewrite in_rev. destruct F as [FK FV FR FL].
        assert (IN : incl (includers specs d) popped) by (intros z Z; apply AP; eapply includer_key; eassumption).
        specialize (FL d K IN _ _ _ X I). now rewrite app_nil_r in FL.
  Qed.
End SortFacts.
