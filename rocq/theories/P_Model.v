(** C34: accepted models have unique names. *)
From Coq Require Import String List Arith Bool Lia.
From Verif Require Import ModelCheck.
Import ListNotations.
Local Open Scope string_scope.
Local Open Scope list_scope.
Local Open Scope nat_scope.

Lemma ident2_eqb_iff a b : ident2_eqb a b = true <-> a = b.
Proof.
  destruct a, b. unfold ident2_eqb. cbn. rewrite andb_true_iff, !String.eqb_eq. split; [intros [-> ->]; reflexivity|].
  intros E. now injection E as -> ->.
Qed.
Lemma exists_iff x l : existsb (ident2_eqb x) l = true <-> In x l.
Proof.
  rewrite existsb_exists. split; [intros (y & I & E); apply ident2_eqb_iff in E; now subst|].
  intros I. exists x. split; [exact I|]. now apply ident2_eqb_iff.
Qed.
Lemma exists_false x l : existsb (ident2_eqb x) l = false <-> ~ In x l.
Proof. rewrite <- exists_iff. destruct (existsb _ _); intuition congruence. Qed.
Lemma when_nil b e : when b e = [] <-> b = false.
Proof. destruct b; cbn; split; congruence. Qed.
Lemma app_nil {A} (l l' : list A) : l ++ l' = [] <-> l = [] /\ l' = [].
Proof. split; [apply app_eq_nil|]. intros [-> ->]. reflexivity. Qed.
Lemma flat_map_nil {A B} (f : A -> list B) l : flat_map f l = [] <-> forall x, In x l -> f x = [].
Proof.
  induction l as [|a l IH]; cbn; [split; [intros _ x []|reflexivity]|]. rewrite app_nil, IH. split.
  - intros [H K] x [<-|I]; auto.
  - intros H. split; [apply H; now left|]. intros x I. apply H. now right.
Qed.
Lemma type_duplicates_iff l : forall seen, type_duplicates seen l = [] <->
  NoDup (map ty_id l) /\ forall x, In x (map ty_id l) -> ~ In x seen.
Proof.
  induction l as [|st l IH]; intros seen; cbn; [split; [intros _; split; [constructor|intros x []]|reflexivity]|].
  rewrite app_nil, when_nil, exists_false, IH. split.
  - intros (A & B & C). split.
    + constructor; [|exact B]. intros I. exact (C _ I (or_introl eq_refl)).
    + intros x [<-|I] J; [contradiction|]. apply (C x I). now right.
  - intros (A & B). inversion A as [|? ? N A']; subst. split; [apply B; now left|].
    split; [exact A'|]. intros x I [<-|J]; [contradiction|]. exact (B x (or_intror I) J).
Qed.
Lemma session_duplicates_iff types l : forall seen, session_duplicates types seen l = [] <->
  NoDup l /\ forall x, In x l -> ~ In x types /\ ~ In x seen.
Proof.
  induction l as [|s l IH]; intros seen; cbn; [split; [intros _; split; [constructor|intros x []]|reflexivity]|].
  rewrite app_nil, when_nil, orb_false_iff, !exists_false, IH. split.
  - intros ((A & B) & C & D). split.
    + constructor; [|exact C]. intros I. apply (proj2 (D _ I)). now left.
    + intros x [<-|I]; [auto|]. destruct (D x I) as [P Q]. split; [exact P|]. intros J. apply Q. now right.
  - intros (A & B). inversion A as [|? ? N A']; subst. split; [apply B; now left|]. split; [exact A'|].
    intros x I. destruct (B x (or_intror I)) as [P Q]. split; [exact P|]. intros [<-|J]; contradiction.
Qed.

(** literal [l] is a literal of the [i]-th type, whose package is [p] *)
Definition literal (m : model) (i : nat) (p l : string) : Prop :=
  exists t ls, nth_error (m_types m) i = Some t /\ fst (ty_id t) = p /\ ty_literals t = Some ls /\ In l ls.

Record unique_names (m : model) : Prop := {
  un_ids : NoDup (map ty_id (m_types m) ++ m_sessions m);
  (* literals of the same package or of the built-in package belong to one type *)
  un_literals : forall i j p q l, literal m i p l -> literal m j q l ->
    p = q \/ p = "__builtins__" \/ q = "__builtins__" -> i = j;
  un_types : forall i p l, literal m i p l ->
    ~ In (p, l) (map ty_id (m_types m)) /\ (In ("__builtins__", "boolean") (map ty_id (m_types m)) -> l <> "boolean")
}.

Lemma common_nil a b : common a b = [] <-> forall x, In x a -> ~ In x b.
Proof.
  unfold common. split.
  - intros H x Ia Ib. assert (X : In x (filter (fun x => existsb (String.eqb x) b) a)).
    { apply filter_In. split; [exact Ia|]. apply existsb_exists. exists x. split; [exact Ib|]. apply String.eqb_refl. }
    rewrite H in X. destruct X.
  - intros H. destruct (filter _ a) as [|x r] eqn:F; [reflexivity|exfalso].
    assert (X : In x (x :: r)) by now left. rewrite <- F in X. apply filter_In in X as [Ia E].
    apply existsb_exists in E as (y & Ib & E). apply String.eqb_eq in E. subst y. exact (H x Ia Ib).
Qed.
Lemma literal_conflict_nil a b : literal_conflict a b = [] <->
  forall la lb x, ty_literals a = Some la -> ty_literals b = Some lb ->
    package a = package b \/ package a = BUILTINS_PACKAGE \/ package b = BUILTINS_PACKAGE -> In x la -> ~ In x lb.
Proof.
  unfold literal_conflict, comparable. destruct (ty_literals a) as [la|]; [|split; [intros _ ? ? ?; discriminate|reflexivity]].
  destruct (ty_literals b) as [lb|]; [|split; [intros _ ? ? ? _; discriminate|reflexivity]].
  destruct (_ || _) eqn:C.
  - rewrite !orb_true_iff, !String.eqb_eq in C. destruct (common lb la) as [|c r] eqn:X.
    + split; [|reflexivity]. intros _ la' lb' x E1 E2 _ I J. injection E1 as <-. injection E2 as <-. apply common_nil with (x := x) in X; auto.
    + split; [discriminate|]. intros H. exfalso.
      assert (Y : In c (common lb la)) by (rewrite X; now left). apply filter_In in Y as [I E].
      apply existsb_exists in E as (y & J & E). apply String.eqb_eq in E. subst y. apply (H la lb c); auto. tauto.
  - rewrite !orb_false_iff, !String.eqb_neq in C. split; [|reflexivity]. intros _ ? ? ? _ _ P. exfalso. tauto.
Qed.
Lemma literal_conflicts_iff l : literal_conflicts l = [] <->
  forall i j a b, i < j -> nth_error l i = Some a -> nth_error l j = Some b -> literal_conflict a b = [].
Proof.
  induction l as [|t l IH]; cbn [literal_conflicts]; [split; [intros _ [|i] j a b _; discriminate|reflexivity]|].
  rewrite app_nil, flat_map_nil, IH. split.
  - intros [A B] [|i] [|j] a b L E F; try lia; cbn in E, F.
    + injection E as <-. apply A. eapply nth_error_In; eassumption.
    + eapply (B i j); eauto. lia.
  - intros H. split.
    + intros b I. apply In_nth_error in I as [j J]. apply (H 0 (S j) t b); [lia|reflexivity|exact J].
    + intros i j a b L E F. apply (H (S i) (S j) a b); [lia|exact E|exact F].
Qed.
Lemma all_literals_in l p x : In (p, x) (all_literals l) <-> exists t ls, In t l /\ package t = p /\ ty_literals t = Some ls /\ In x ls.
Proof.
  unfold all_literals. rewrite in_flat_map. split.
  - intros (t & I & J). destruct (ty_literals t) as [ls|] eqn:L; [|destruct J]. apply in_map_iff in J as (y & E & J).
    injection E as <- <-. eauto 10.
  - intros (t & ls & I & P & L & J). exists t. split; [exact I|]. rewrite L. apply in_map_iff. exists x. subst p. auto.
Qed.

(** A model is accepted exactly if its names are unique. *)
Theorem C34_unique m : model_errors m = [] <-> unique_names m.
Proof.
  unfold model_errors, check_duplicates, check_conflicts. rewrite !app_nil, type_duplicates_iff, session_duplicates_iff, literal_conflicts_iff.
  assert (NC : name_conflicts (m_types m) = [] <->
    forall p x t, In (p, x) (all_literals (m_types m)) -> In t (m_types m) ->
      ~ ((p = package t \/ ty_id t = (BUILTINS_PACKAGE, "boolean")) /\ x = snd (ty_id t))).
  { unfold name_conflicts. rewrite flat_map_nil. split.
    - intros H p x t I J (P & X). specialize (H _ I). rewrite flat_map_nil in H. specialize (H t J). rewrite when_nil in H.
      cbn [fst snd] in H. subst x. rewrite String.eqb_refl, andb_true_r, orb_false_iff in H. destruct H as [H1 H2].
      destruct P as [->|P]; [now rewrite String.eqb_refl in H1|]. rewrite P in H2. discriminate.
    - intros H [p x] I. apply flat_map_nil. intros t J. rewrite when_nil. cbn [fst snd].
      destruct (String.eqb_spec x (snd (ty_id t))) as [E|E]; [|apply andb_false_r].
      rewrite andb_true_r, orb_false_iff. split.
      + apply String.eqb_neq. intros P. apply (H p x t I J). auto.
      + destruct (is_builtin (ty_id t)) eqn:B; [|reflexivity]. apply ident2_eqb_iff in B. destruct (H p x t I J). auto. }
  rewrite NC. clear NC. split.
  - intros (((A & _) & (B & C)) & LC & NC). constructor.
    + clear -A B C. induction (map ty_id (m_types m)) as [|x l IH]; cbn; [exact B|].
      inversion A as [|? ? N A']; subst. constructor.
      * intros I. apply in_app_or in I as [I|I]; [contradiction|]. apply (proj1 (C x I)). now left.
      * apply IH; [exact A'|]. intros y I. destruct (C y I) as [P Q]. split; [|exact Q]. intros J. apply P. now right.
    + intros i j p q l (t & ls & T & P & L & I) (u & us & U & Q & M & J) X.
      assert (G : forall i j t u ls us, i < j -> nth_error (m_types m) i = Some t -> nth_error (m_types m) j = Some u ->
                ty_literals t = Some ls -> ty_literals u = Some us -> In l ls -> In l us ->
                package t = package u \/ package t = BUILTINS_PACKAGE \/ package u = BUILTINS_PACKAGE -> False).
      { intros i' j' t' u' ls' us' Lt T' U' L' M' I' J' X'. specialize (LC i' j' t' u' Lt T' U'). rewrite literal_conflict_nil in LC. eapply LC; eauto. }
      unfold package, BUILTINS_PACKAGE in G. rewrite <- P, <- Q in X.
      destruct (Nat.lt_trichotomy i j) as [Lt|[E|Lt]]; [|exact E|]; exfalso.
      * eapply (G i j t u); eauto.
      * eapply (G j i u t); eauto. intuition auto.
    + intros i p l (t & ls & T & P & L & I).
      assert (AL : In (p, l) (all_literals (m_types m))).
      { apply all_literals_in. exists t, ls. split; [eapply nth_error_In; eassumption|]. auto. }
      split.
      * intros X. apply in_map_iff in X as (u & E & U). apply (NC p l u AL U). unfold package. rewrite E. auto.
      * intros X ->. apply in_map_iff in X as (u & E & U). apply (NC p "boolean" u AL U). rewrite E. auto.
  - intros [A B C].
    assert (ND : NoDup (map ty_id (m_types m)) /\ NoDup (m_sessions m) /\ forall x, In x (m_sessions m) -> ~ In x (map ty_id (m_types m))).
    { clear -A. induction (map ty_id (m_types m)) as [|y l IH]; cbn in A.
      - split; [constructor|]. split; [exact A|]. intros x _ [].
      - inversion A as [|? ? N A']; subst. destruct (IH A') as (P & Q & R). split; [|split].
        + constructor; [|exact P]. intros I. apply N, in_or_app. now left.
        + exact Q.
        + intros x I [<-|J]; [apply N, in_or_app; now right|]. exact (R x I J). }
    destruct ND as (P & Q & R). repeat apply conj; auto.
    + intros i j a b L E F. apply literal_conflict_nil. intros la lb x La Lb X Ia Ib.
      assert (i = j); [|lia]. apply (B i j (package a) (package b) x); auto; [exists a, la|exists b, lb]; auto.
    + intros p x t I J (X & ->). apply all_literals_in in I as (u & us & U & <- & Lu & Iu).
      apply In_nth_error in U as [i Ui]. destruct (C i (package u) (snd (ty_id t))) as [C1 C2]; [exists u, us; auto|].
      destruct X as [X|X].
      * apply C1. rewrite X. apply in_map_iff. exists t. split; [|exact J]. apply surjective_pairing.
      * apply C2; [change ("__builtins__", "boolean") with (BUILTINS_PACKAGE, "boolean"); rewrite <- X; now apply in_map|now rewrite X].
Qed.
Print Assumptions C34_unique.

(** a model with two packages and the built-in type *)
Definition ex_model : model :=
  mkModel [mkType ("__builtins__", "boolean") (Some ["false"; "true"]);
           mkType ("p", "color") (Some ["red"; "green"]);
           mkType ("p", "size") (Some ["small"]);
           mkType ("q", "red") (Some ["size"; "green"]);
           mkType ("q", "message") None] [("p", "session"); ("q", "session")].
Example C34_meets : unique_names ex_model.
Proof. apply C34_unique. vm_compute. reflexivity. Qed.
Example C34_rejects :
  model_errors (mkModel [mkType ("p", "color") (Some ["red"; "t"]); mkType ("p", "t") None; mkType ("p", "lamp") (Some ["red"])] [("p", "t")])
  = ["name conflict for session"; "conflicting literals"; "literal conflicts with type declaration"].
Proof. vm_compute. reflexivity. Qed.
(** a literal and a session of the same package may have the same name *)
Theorem C34_session_literal_refuted : exists m i p l, model_errors m = [] /\ literal m i p l /\ In (p, l) (m_sessions m).
Proof.
  exists (mkModel [mkType ("p", "color") (Some ["red"])] [("p", "red")]), 0, "p", "red".
  split; [vm_compute; reflexivity|]. split; [|now left].
  exists (mkType ("p", "color") (Some ["red"])), ["red"]. cbn. auto.
Qed.
Print Assumptions C34_session_literal_refuted.
