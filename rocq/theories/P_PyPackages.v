(** C69: looking up messages in a PyRFLX object. *)
From Coq Require Import String List Bool Arith ZArith Lia.
From Verif Require Import Base Ident Expr PyPackages.
From Verif Require SpecLoad P_SpecLoad.
Import ListNotations.
Local Open Scope string_scope.
Local Open Scope list_scope.
Local Open Scope nat_scope.

(** no two messages have the same identifier (C34) *)
Definition distinct (l : list mtype) : Prop :=
  NoDup (flat_map (fun t => match t with TMessage m => [(lower (i_package (m_id m)), lower (i_name (m_id m)))] | _ => [] end) l).
(** the identifiers are equal *)
Definition same (a b : mid) : Prop := lower (i_package a) = lower (i_package b) /\ lower (i_name a) = lower (i_name b).
(** the elements at their first occurrence *)
Fixpoint firsts (seen l : list string) : list string :=
  match l with
  | [] => []
  | x :: r => if in_dec string_dec x seen then firsts seen r else x :: firsts (x :: seen) r
  end.

(** ** Dicts *)

Lemma id_eqb_iff a b : id_eqb a b = true <-> same a b.
Proof. unfold id_eqb, same. now rewrite andb_true_iff, !String.eqb_eq. Qed.
Lemma access_assign {A} (d : list (string * A)) k v k' :
  access (assign d k v) k' = if String.eqb k k' then Some v else access d k'.
Proof.
  induction d as [|[x w] r IH]; cbn [assign access]; [reflexivity|].
  destruct (String.eqb_spec x k) as [->|N]; cbn [access]; [destruct (String.eqb k k'); reflexivity|].
  rewrite IH. destruct (String.eqb_spec x k') as [->|]; [|reflexivity]. destruct (String.eqb_spec k k'); [congruence|reflexivity].
Qed.
Lemma access_assign_id {A} (d : list (mid * A)) k v k' :
  access_id (assign_id d k v) k' = if id_eqb k k' then Some v else access_id d k'.
Proof.
  induction d as [|[x w] r IH]; cbn [assign_id access_id]; [reflexivity|].
  destruct (id_eqb x k) eqn:E; cbn [access_id].
  - assert (X : id_eqb x k' = id_eqb k k').
    { apply id_eqb_iff in E as [E1 E2]. unfold id_eqb. now rewrite E1, E2. }
    rewrite X. destruct (id_eqb k k'); reflexivity.
  - rewrite IH. destruct (id_eqb x k') eqn:E'; [|reflexivity]. destruct (id_eqb k k') eqn:E2; [|reflexivity].
    exfalso. apply id_eqb_iff in E' as [A1 A2]. apply id_eqb_iff in E2 as [B1 B2].
    assert (id_eqb x k = true) by (apply id_eqb_iff; split; congruence). congruence.
Qed.
Lemma keys_assign {A} (d : list (string * A)) k v :
  map fst (assign d k v) = match access d k with Some _ => map fst d | None => map fst d ++ [k] end.
Proof.
  induction d as [|[x w] r IH]; cbn [assign access]; [reflexivity|]. destruct (String.eqb_spec x k) as [->|N]; [reflexivity|].
  cbn [map fst]. rewrite IH. destruct (access r k); reflexivity.
Qed.
Lemma access_keys {A} (d : list (string * A)) k : access d k = None <-> ~ In k (map fst d).
Proof.
  induction d as [|[x w] r IH]; cbn [access map fst]; [split; [intros _ []|reflexivity]|].
  destruct (String.eqb_spec x k) as [->|N]; [split; [discriminate|intros H; exfalso; apply H; now left]|].
  rewrite IH. cbn. tauto.
Qed.
Lemma access_in {A} (d : list (string * A)) k v : access d k = Some v -> In (k, v) d.
Proof.
  induction d as [|[x w] r IH]; cbn [access]; [discriminate|]. destruct (String.eqb_spec x k) as [->|N]; [intros E; injection E as ->; now left|].
  intros E. right. now apply IH.
Qed.
Lemma firsts_snoc l : forall seen x, firsts seen (l ++ [x]) = firsts seen l ++ (if in_dec string_dec x (seen ++ l) then [] else [x]).
Proof.
  induction l as [|y r IH]; intros seen x; cbn [app firsts].
  - rewrite app_nil_r. destruct (in_dec string_dec x seen); reflexivity.
  - destruct (in_dec string_dec y seen) as [I|N].
    + rewrite IH. f_equal. destruct (in_dec string_dec x (seen ++ r)) as [J|J], (in_dec string_dec x (seen ++ y :: r)) as [K|K]; try reflexivity; exfalso.
      * apply K. rewrite in_app_iff in *. cbn. tauto.
      * apply J. rewrite in_app_iff in *. cbn in K. destruct K as [K|[->|K]]; tauto.
    + cbn [app]. f_equal. rewrite IH. f_equal.
      destruct (in_dec string_dec x ((y :: seen) ++ r)) as [J|J], (in_dec string_dec x (seen ++ y :: r)) as [K|K]; try reflexivity; exfalso.
      * apply K. rewrite in_app_iff in *. cbn in *. tauto.
      * apply J. rewrite in_app_iff in *. cbn in *. tauto.
Qed.
Lemma firsts_in l : forall seen x, In x (firsts seen l) <-> In x l /\ ~ In x seen.
Proof.
  induction l as [|y r IH]; intros seen x; cbn [firsts]; [cbn; tauto|].
  destruct (in_dec string_dec y seen) as [I|N].
  - rewrite IH. cbn. split; [tauto|]. intros [[->|J] K]; tauto.
  - cbn [In]. rewrite IH. cbn. split; [intros [->|[J K]]; tauto|]. intros [[->|J] K]; [now left|].
    destruct (string_dec y x); [now left|right; tauto].
Qed.

Section Proofs.
  Context (F : Type) (start : message -> bool -> F) (fn : Type).
  Notation obj := (obj F). Notation heap := (heap F fn).

  (** ** Construction *)

  Definition key (m : message) := (lower (i_package (m_id m)), lower (i_name (m_id m))).
  Lemma distinct_key l : distinct l <-> NoDup (map key (messages l)).
  Proof.
    unfold distinct. enough (E : flat_map (fun t => match t with TMessage m => [(lower (i_package (m_id m)), lower (i_name (m_id m)))] | _ => [] end) l
      = map key (messages l)) by now rewrite E.
    induction l as [|t r IH]; [reflexivity|]. cbn. rewrite IH. destruct t; reflexivity.
  Qed.
  Lemma in_messages l m : In m (messages l) <-> In (TMessage m) l.
  Proof.
    unfold messages. rewrite in_flat_map. split; [|intros I; exists (TMessage m); split; [exact I|now left]].
    intros (t & I & J). destruct t; cbn in J; [|contradiction|contradiction]. destruct J as [->|[]]. exact I.
  Qed.

  Definition made (skip : bool) (done : list message) (h : heap) (ps : packages) (ms : list (mid * nat)) : Prop :=
    next _ _ h = List.length done
    /\ (forall i, objs _ _ h i = option_map (fun m => mkObj F m [] skip (start m skip) i) (nth_error done i))
    /\ (forall i m, nth_error done i = Some m -> sums _ _ h i = new_sums fn m)
    /\ (forall k a, access_id ms k = Some a <-> exists m, nth_error done a = Some m /\ same (m_id m) k)
    /\ (forall p n a, prototype ps p n = Some a <-> exists m, nth_error done a = Some m /\ m_id m = mkId p n)
    /\ map fst ps = firsts [] (map (fun m => i_package (m_id m)) done)
    /\ forall p q, access ps p = Some q ->
         map fst q = map (fun m => i_name (m_id m)) (filter (fun m => String.eqb (i_package (m_id m)) p) done).

  Lemma nth_snoc {A} (l : list A) x i y : nth_error (l ++ [x]) i = Some y <-> nth_error l i = Some y \/ i = List.length l /\ y = x.
  Proof.
    destruct (lt_eq_lt_dec i (List.length l)) as [[L|E]|G].
    - rewrite nth_error_app1 by exact L. split; [tauto|]. intros [H|[-> _]]; [exact H|lia].
    - subst i. rewrite nth_error_app2, Nat.sub_diag by lia. cbn. split; [intros H; injection H as ->; tauto|].
      intros [H|[_ ->]]; [|reflexivity]. assert (List.length l < List.length l) by (apply nth_error_Some; congruence). lia.
    - assert (X : nth_error (l ++ [x]) i = None) by (apply nth_error_None; rewrite app_length; cbn; lia). rewrite X.
      split; [discriminate|]. intros [H|[-> _]]; [|lia]. assert (i < List.length l) by (apply nth_error_Some; congruence). lia.
  Qed.

  Lemma made_step skip done h ps ms m h' a : made skip done h ps ms -> ~ In (key m) (map key done) ->
    create F start fn h m [] skip None = (a, h') ->
    made skip (done ++ [m]) h'
      (assign ps (i_package (m_id m)) (assign (match access ps (i_package (m_id m)) with Some q => q | None => [] end) (i_name (m_id m)) a))
      (assign_id ms (m_id m) a).
  Proof.
    intros (NX & OB & SU & MS & PS & ORD & NAMES) ND C. unfold create in C. injection C as <- <-.
    assert (NEW : forall i x, nth_error done i = Some x -> same (m_id x) (m_id m) -> False).
    { intros i x E [S1 S2]. apply ND. apply in_map_iff. exists x. split; [|eapply nth_error_In; exact E]. unfold key. congruence. }
    assert (PROT : forall n, prototype ps (i_package (m_id m)) n
        = access (match access ps (i_package (m_id m)) with Some q => q | None => [] end) n).
    { intros n. unfold prototype. destruct (access ps (i_package (m_id m))); reflexivity. }
    assert (FRESH : access (match access ps (i_package (m_id m)) with Some q => q | None => [] end) (i_name (m_id m)) = None).
    { rewrite <- PROT. destruct (prototype ps (i_package (m_id m)) (i_name (m_id m))) as [a|] eqn:E; [|reflexivity].
      exfalso. apply PS in E as (x & E1 & E2). apply (NEW _ _ E1). rewrite E2. split; reflexivity. }
    split; [|split; [|split; [|split; [|split; [|split]]]]].
    - cbn. rewrite NX, app_length. cbn. lia.
    - intros i. cbn. unfold put. rewrite OB. destruct (Nat.eqb_spec i (next _ _ h)) as [->|N].
      + rewrite NX, nth_error_app2, Nat.sub_diag by lia. reflexivity.
      + destruct (Nat.lt_ge_cases i (List.length done)) as [L|G]; [now rewrite nth_error_app1 by exact L|].
        rewrite (proj2 (nth_error_None _ _) G). rewrite (proj2 (nth_error_None (done ++ [m]) i)); [reflexivity|].
        rewrite app_length. cbn. lia.
    - intros i x E. cbn. unfold put. apply nth_snoc in E as [E|[-> ->]].
      + destruct (Nat.eqb_spec i (next _ _ h)) as [->|N]; [|now apply SU].
        assert (next _ _ h < List.length done) by (apply nth_error_Some; congruence). lia.
      + rewrite NX, Nat.eqb_refl. reflexivity.
    - intros k b. rewrite access_assign_id. destruct (id_eqb (m_id m) k) eqn:E.
      + apply id_eqb_iff in E. split.
        * intros X. injection X as <-. exists m. split; [apply nth_snoc; right; now rewrite NX|exact E].
        * intros (x & X & S). apply nth_snoc in X as [X|[-> ->]]; [|now rewrite NX].
          exfalso. apply (NEW _ _ X). destruct E, S. split; congruence.
      + rewrite MS. split; intros (x & X & S); exists x; (split; [|exact S]).
        * apply nth_snoc. now left.
        * apply nth_snoc in X as [X|[-> ->]]; [exact X|]. apply id_eqb_iff in S. congruence.
    - intros p n b. assert (P : forall q, prototype (assign ps (i_package (m_id m)) q) p n
        = if String.eqb (i_package (m_id m)) p then access q n else prototype ps p n).
      { intros q. unfold prototype. rewrite access_assign. destruct (String.eqb (i_package (m_id m)) p); reflexivity. }
      rewrite P, access_assign. clear P.
      destruct (String.eqb_spec (i_package (m_id m)) p) as [<-|NP]; [destruct (String.eqb_spec (i_name (m_id m)) n) as [<-|NN]|].
      + split.
        * intros X. injection X as <-. exists m. split; [apply nth_snoc; right; now rewrite NX|now destruct (m_id m)].
        * intros (x & X & E). apply nth_snoc in X as [X|[-> ->]]; [|now rewrite NX]. exfalso. apply (NEW _ _ X). rewrite E. split; reflexivity.
      + rewrite <- PROT, PS. split; intros (x & X & E); exists x; (split; [|exact E]); [apply nth_snoc; now left|].
        apply nth_snoc in X as [X|[-> ->]]; [exact X|]. rewrite E in NN. cbn in NN. congruence.
      + rewrite PS. split; intros (x & X & E); exists x; (split; [|exact E]); [apply nth_snoc; now left|].
        apply nth_snoc in X as [X|[-> ->]]; [exact X|]. rewrite E in NP. cbn in NP. congruence.
    - rewrite keys_assign, map_app. cbn [map]. rewrite firsts_snoc, <- ORD. cbn [app].
      destruct (access ps (i_package (m_id m))) eqn:E.
      + destruct (in_dec _ _ _) as [I|N]; [now rewrite app_nil_r|]. exfalso.
        assert (J : In (i_package (m_id m)) (map fst ps)).
        { destruct (in_dec string_dec (i_package (m_id m)) (map fst ps)) as [J|J]; [exact J|]. apply access_keys in J. congruence. }
        rewrite ORD in J. apply firsts_in in J. tauto.
      + destruct (in_dec _ _ _) as [I|N]; [|reflexivity]. exfalso. apply access_keys in E. apply E. rewrite ORD. apply firsts_in.
        split; [exact I|intros []].
    - intros p q. rewrite access_assign, filter_app, map_app. cbn [filter].
      destruct (String.eqb_spec (i_package (m_id m)) p) as [<-|NP]; cbn [map].
      + intros X. injection X as <-. rewrite keys_assign, FRESH. f_equal.
        destruct (access ps (i_package (m_id m))) as [q|] eqn:E; [now apply NAMES|]. cbn [map].
        destruct (filter _ done) as [|x r] eqn:FI; [reflexivity|]. exfalso.
        assert (I : In x (filter (fun m0 => String.eqb (i_package (m_id m0)) (i_package (m_id m))) done)) by (rewrite FI; now left).
        apply filter_In in I as [I J]. apply String.eqb_eq in J. apply access_keys in E. apply E. rewrite ORD. apply firsts_in.
        split; [|intros []]. apply in_map_iff. exists x. tauto.
      + rewrite app_nil_r. apply NAMES.
  Qed.

  Lemma made_all skip : forall l done h ps ms h' ps' ms', made skip done h ps ms -> NoDup (map key (done ++ l)) ->
    add_messages F start fn skip l h ps ms = (h', ps', ms') -> made skip (done ++ l) h' ps' ms'.
  Proof.
    induction l as [|m r IH]; intros done h ps ms h' ps' ms' M ND E; cbn [add_messages] in E.
    - injection E as <- <- <-. now rewrite app_nil_r.
    - destruct (create F start fn h m [] skip None) as [a h1] eqn:C.
      change (done ++ m :: r) with (done ++ [m] ++ r) in *. rewrite app_assoc in *.
      eapply IH; [|exact ND|exact E]. apply (made_step _ _ _ _ _ _ _ _ M); [|exact C].
      rewrite !map_app in ND. cbn in ND. rewrite <- app_assoc in ND. apply NoDup_remove_2 in ND. rewrite in_app_iff in ND. tauto.
  Qed.
  Lemma made_nil skip : made skip [] (nothing F fn) [] [].
  Proof.
    split; [reflexivity|]. split; [intros []; reflexivity|]. split; [intros [] m; discriminate|].
    split; [intros k a; split; [discriminate|intros (m & E & _); destruct a; discriminate]|].
    split; [intros p n a; split; [discriminate|intros (m & E & _); destruct a; discriminate]|].
    split; [reflexivity|]. intros p q. discriminate.
  Qed.

  (** the refinements of the object at [i] *)
  Definition refs_at (ms : list (mid * nat)) (l : list refinement) (i : nat) : list rvalue :=
    flat_map (fun r => match access_id ms (r_pdu r), access_id ms (r_sdu r) with
                       | Some a, Some b => if Nat.eqb a i then [mkRV (r_pdu r) (r_field r) (r_condition r) b] else []
                       | _, _ => []
                       end) l.
  Definition with_refs (o : obj) (l : list rvalue) : obj := mkObj F (o_type F o) (o_refs F o ++ l) (o_skip F o) (o_state F o) (o_sums F o).
  Lemma refined ms : forall l h h', (forall k a, access_id ms k = Some a -> objs _ _ h a <> None) ->
    add_refinements F fn l ms h = Ok h' ->
    (forall i, objs _ _ h' i = option_map (fun o => with_refs o (refs_at ms l i)) (objs _ _ h i))
    /\ sums _ _ h' = sums _ _ h /\ next _ _ h' = next _ _ h.
  Proof.
    induction l as [|r t IH]; intros h h' X E; cbn [add_refinements] in E.
    - injection E as <-. split; [|split; reflexivity]. intros i. destruct (objs _ _ h i) as [[]|]; [|reflexivity].
      cbn. unfold with_refs. cbn. now rewrite app_nil_r.
    - destruct (access_id ms (r_pdu r)) as [a|] eqn:A; [|discriminate]. destruct (access_id ms (r_sdu r)) as [b|] eqn:B; [|discriminate].
      destruct (objs _ _ h a) as [o|] eqn:O; [|now apply X in A].
      unfold add_refinement in E. rewrite O in E.
      apply IH in E as (E1 & E2 & E3).
      + split; [|split; assumption]. intros i. rewrite E1. cbn [objs]. unfold put. cbn [refs_at flat_map]. rewrite A, B.
        rewrite (Nat.eqb_sym a i). destruct (Nat.eqb_spec i a) as [->|N].
        * rewrite O. cbn. unfold with_refs. cbn. rewrite <- app_assoc. reflexivity.
        * destruct (objs _ _ h i) as [o'|]; reflexivity.
      + intros k c K. cbn. unfold put. destruct (Nat.eqb c a); [discriminate|now apply (X k)].
  Qed.
  Lemma refinements_fail ms : forall l h w, add_refinements F fn l ms h = Err w ->
    exists r, In r l /\ (access_id ms (r_pdu r) = None \/ access_id ms (r_sdu r) = None).
  Proof.
    induction l as [|r t IH]; intros h w E; cbn [add_refinements] in E; [discriminate|].
    destruct (access_id ms (r_pdu r)) eqn:A; [|exists r; split; [now left|now left]].
    destruct (access_id ms (r_sdu r)) eqn:B; [|exists r; split; [now left|now right]].
    destruct (IH _ _ E) as (r' & I & J). exists r'. split; [now right|exact J].
  Qed.
  Lemma refinements_found ms : forall l h h', add_refinements F fn l ms h = Ok h' -> forall r, In r l ->
    access_id ms (r_pdu r) <> None /\ access_id ms (r_sdu r) <> None.
  Proof.
    induction l as [|r t IH]; intros h h' E r' I; [destruct I|]. cbn [add_refinements] in E.
    destruct (access_id ms (r_pdu r)) eqn:A; [|discriminate]. destruct (access_id ms (r_sdu r)) eqn:B; [|discriminate].
    destruct I as [<-|I]; [split; congruence|]. exact (IH _ _ E r' I).
  Qed.
  Lemma in_refinements l r : In r (refinements l) <-> In (TRefinement r) l.
  Proof.
    unfold refinements. rewrite in_flat_map. split; [|intros I; exists (TRefinement r); split; [exact I|now left]].
    intros (t & I & J). destruct t; cbn in J; [contradiction| |contradiction]. destruct J as [->|[]]. exact I.
  Qed.

  (** ** What stays true while the user calls methods *)

  Definition inv (skip : bool) (ml : list message) (ra : nat -> list rvalue) (h : heap) : Prop :=
    (forall i m, nth_error ml i = Some m -> exists s, objs _ _ h i = Some (mkObj F m (ra i) skip s i))
    /\ (forall b o, objs _ _ h b = Some o -> b < next _ _ h /\ o_sums F o < next _ _ h
          /\ (exists i, nth_error ml i = Some (o_type F o) /\ o_refs F o = ra i /\ (m_sums (o_type F o) <> [] -> o_sums F o = i))
          /\ o_skip F o = skip
          /\ map (c_field fn) (sums _ _ h (o_sums F o)) = m_sums (o_type F o)).

  Lemma new_fields m : map (c_field fn) (new_sums fn m) = m_sums m.
  Proof. unfold new_sums. rewrite map_map. cbn. apply map_id. Qed.

  Lemma inv_clone skip ml ra h a b h' : inv skip ml ra h -> clone F start fn h a = Ok (b, h') ->
    exists o, objs _ _ h a = Some o /\ b = next _ _ h
      /\ (exists k, objs _ _ h' b = Some (mkObj F (o_type F o) (o_refs F o) skip (start (o_type F o) skip) k)
            /\ sums _ _ h' k = sums _ _ h (o_sums F o) /\ (m_sums (o_type F o) <> [] -> k = o_sums F o))
      /\ (forall c, c <> b -> objs _ _ h' c = objs _ _ h c)
      /\ (forall c o', objs _ _ h c = Some o' -> sums _ _ h' (o_sums F o') = sums _ _ h (o_sums F o'))
      /\ inv skip ml ra h'.
  Proof.
    intros (A & B) C. unfold clone in C. destruct (objs _ _ h a) as [o|] eqn:O; [|discriminate]. exists o. split; [reflexivity|].
    destruct (B _ _ O) as (La & Lk & (i & N & R & K) & SK & FI).
    unfold create in C. destruct (sums _ _ h (o_sums F o)) as [|c cs] eqn:S.
    - injection C as <- <-. assert (Z : m_sums (o_type F o) = []) by (rewrite <- FI; reflexivity).
      split; [reflexivity|]. split; [|split; [|split]].
      + exists (next _ _ h). cbn. unfold put. rewrite Nat.eqb_refl, SK. split; [reflexivity|].
        split; [unfold new_sums; now rewrite Z|]. rewrite Z. congruence.
      + intros c NC. cbn. unfold put. destruct (Nat.eqb_spec c (next _ _ h)); [contradiction|reflexivity].
      + intros c o' O'. destruct (B _ _ O') as (_ & L' & _). cbn. unfold put. destruct (Nat.eqb_spec (o_sums F o') (next _ _ h)); [lia|reflexivity].
      + split.
        * intros j m J. destruct (A j m J) as [s X]. exists s. cbn. unfold put.
          destruct (Nat.eqb_spec j (next _ _ h)) as [->|]; [destruct (B _ _ X); lia|exact X].
        * intros c o' O'. cbn in *. unfold put in *. destruct (Nat.eqb_spec c (next _ _ h)) as [->|NC].
          -- injection O' as <-. cbn. rewrite Nat.eqb_refl, new_fields. repeat split; try lia.
             ++ exists i. repeat split; [exact N|exact R|]. rewrite Z. congruence.
             ++ exact SK.
          -- destruct (B _ _ O') as (P1 & P2 & P3 & P4 & P5).
             destruct (Nat.eqb_spec (o_sums F o') (next _ _ h)); [lia|]. repeat split; [lia|lia|exact P3|exact P4|exact P5].
    - injection C as <- <-.
      split; [reflexivity|]. split; [|split; [|split]].
      + exists (o_sums F o). cbn. unfold put. rewrite Nat.eqb_refl, SK. split; [reflexivity|]. split; [exact S|reflexivity].
      + intros d NC. cbn. unfold put. destruct (Nat.eqb_spec d (next _ _ h)); [contradiction|reflexivity].
      + reflexivity.
      + split.
        * intros j m J. destruct (A j m J) as [s X]. exists s. cbn. unfold put.
          destruct (Nat.eqb_spec j (next _ _ h)) as [->|]; [destruct (B _ _ X); lia|exact X].
        * intros d o' O'. cbn in *. unfold put in *. destruct (Nat.eqb_spec d (next _ _ h)) as [->|NC].
          -- injection O' as <-. cbn. rewrite S. repeat split; try lia.
             ++ exists i. repeat split; assumption.
             ++ exact SK.
             ++ exact FI.
          -- destruct (B _ _ O') as (P1 & P2 & P3 & P4 & P5). repeat split; [lia|lia|exact P3|exact P4|exact P5].
  Qed.

  Lemma set_function_fields f g cs : forall r cs', set_function fn f g cs = (cs', r) -> map (c_field fn) cs' = map (c_field fn) cs.
  Proof.
    induction cs as [|c t IH]; intros r cs' E; cbn [set_function] in E; [injection E as <- _; reflexivity|].
    destruct (String.eqb (c_field fn c) f); [|injection E as <- _; reflexivity].
    destruct (set_function fn f g t) as [t' r'] eqn:S. injection E as <- _. cbn. f_equal. eapply IH. reflexivity.
  Qed.
  Lemma set_function_ok f g cs : forall cs', set_function fn f g cs = (cs', Ok tt) -> forall c, In c cs' -> c_field fn c = f /\ c_function fn c = Some g.
  Proof.
    induction cs as [|c t IH]; intros cs' E d I; cbn [set_function] in E; [injection E as <-; destruct I|].
    destruct (String.eqb_spec (c_field fn c) f) as [X|]; [|discriminate]. destruct (set_function fn f g t) as [t' r'] eqn:S.
    injection E as <- ->. destruct I as [<-|I]; [split; [exact X|reflexivity]|]. exact (IH _ eq_refl d I).
  Qed.
  Lemma checksum_function_same l : forall h o h' r, set_checksum_function F fn h o l = (h', r) ->
    objs _ _ h' = objs _ _ h /\ next _ _ h' = next _ _ h
    /\ (forall k, k <> o_sums F o -> sums _ _ h' k = sums _ _ h k)
    /\ forall k, map (c_field fn) (sums _ _ h' k) = map (c_field fn) (sums _ _ h k).
  Proof.
    induction l as [|[f g] t IH]; intros h o h' r E; cbn [set_checksum_function] in E; [injection E as <- _; repeat split; reflexivity|].
    destruct (negb _); [injection E as <- _; repeat split; reflexivity|].
    destruct (set_function fn f g (sums _ _ h (o_sums F o))) as [cs q] eqn:S. apply set_function_fields in S.
    assert (P : forall k, map (c_field fn) (put (sums _ _ h) (o_sums F o) cs k) = map (c_field fn) (sums _ _ h k)).
    { intros k. unfold put. destruct (Nat.eqb_spec k (o_sums F o)) as [->|]; [exact S|reflexivity]. }
    assert (Q : forall k, k <> o_sums F o -> put (sums _ _ h) (o_sums F o) cs k = sums _ _ h k).
    { intros k N. unfold put. destruct (Nat.eqb_spec k (o_sums F o)); [contradiction|reflexivity]. }
    destruct q as [u|w].
    - apply IH in E as (E1 & E2 & E3 & E4). cbn in *. repeat split; try assumption.
      + intros k N. rewrite E3 by exact N. now apply Q.
      + intros k. rewrite E4. apply P.
    - injection E as <- _. cbn. repeat split; assumption.
  Qed.
  Lemma checksum_functions_same q l : forall h h' r, set_checksum_functions F fn h q l = (h', r) ->
    objs _ _ h' = objs _ _ h /\ next _ _ h' = next _ _ h /\ forall k, map (c_field fn) (sums _ _ h' k) = map (c_field fn) (sums _ _ h k).
  Proof.
    induction l as [|[n fs] t IH]; intros h h' r E; cbn [set_checksum_functions] in E; [injection E as <- _; repeat split; reflexivity|].
    destruct (access q n) as [a|]; [|injection E as <- _; repeat split; reflexivity].
    destruct (objs _ _ h a) as [o|]; [|injection E as <- _; repeat split; reflexivity].
    destruct (set_checksum_function F fn h o fs) as [h1 [u|w]] eqn:S; apply checksum_function_same in S as (S1 & S2 & _ & S4).
    - apply IH in E as (E1 & E2 & E3). repeat split; [congruence|congruence|]. intros k. now rewrite E3.
    - injection E as <- _. repeat split; assumption.
  Qed.
  Lemma inv_sums skip ml ra h h' : inv skip ml ra h -> objs _ _ h' = objs _ _ h -> next _ _ h' = next _ _ h ->
    (forall k, map (c_field fn) (sums _ _ h' k) = map (c_field fn) (sums _ _ h k)) -> inv skip ml ra h'.
  Proof.
    intros (A & B) O N S. split.
    - intros i m I. rewrite O. now apply A.
    - intros b o. rewrite O, N. intros X. destruct (B _ _ X) as (P1 & P2 & P3 & P4 & P5). rewrite S. repeat split; assumption.
  Qed.
  Lemma later_fields cs ds : Forall2 (later fn) cs ds -> map (c_field fn) ds = map (c_field fn) cs.
  Proof. induction 1 as [|c d cs ds (L & _) _ IH]; [reflexivity|]. cbn. now rewrite L, IH. Qed.

  Lemma inv_step skip ml ra ps who h h' : inv skip ml ra h -> step F start fn ps who h h' -> inv skip ml ra h'.
  Proof.
    intros I S. destruct S as [p n h a h' E|a h b h' E|a o s h h' E1 E2 E3 E4 E5|a o l h h' r E1 E2|p q l h h' r E1 E2].
    - unfold look_up in E. destruct (prototype ps p n); [|discriminate]. destruct (inv_clone _ _ _ _ _ _ _ I E) as (_ & _ & _ & _ & _ & _ & J). exact J.
    - destruct (inv_clone _ _ _ _ _ _ _ I E) as (_ & _ & _ & _ & _ & _ & J). exact J.
    - destruct I as (A & B).
      assert (SF : forall k, map (c_field fn) (sums _ _ h' k) = map (c_field fn) (sums _ _ h k)).
      { intros k. destruct (E5 k) as [->|[_ L]]; [reflexivity|now apply later_fields]. }
      split.
      + intros i m J. destruct (A i m J) as [s' X]. destruct (Nat.eq_dec i a) as [->|N].
        * rewrite X in E1. injection E1 as <-. rewrite E2. eexists. reflexivity.
        * rewrite (E3 _ N). eauto.
      + intros b o' X. rewrite E4, SF. destruct (Nat.eq_dec b a) as [->|N].
        * rewrite E2 in X. injection X as <-. cbn. exact (B _ _ E1).
        * rewrite (E3 _ N) in X. exact (B _ _ X).
    - apply checksum_function_same in E2 as (S1 & S2 & _ & S4). now apply (inv_sums _ _ _ _ _ I).
    - apply checksum_functions_same in E2 as (S1 & S2 & S4). now apply (inv_sums _ _ _ _ _ I).
  Qed.
  Lemma inv_steps skip ml ra ps but h h' : inv skip ml ra h -> steps F start fn ps but h h' -> inv skip ml ra h'.
  Proof. intros I S. induction S as [h|who h h1 h2 S IH T N]; [exact I|]. eapply inv_step; [|exact T]. now apply IH. Qed.

  Lemma inv_start skip l ps h : distinct l -> pyrflx F start fn skip l = Ok (ps, h) ->
    exists ms, inv skip (messages l) (refs_at ms (refinements l)) h
      /\ (forall r, In r (refinements l) -> access_id ms (r_pdu r) <> None /\ access_id ms (r_sdu r) <> None)
      /\ exists h0, made skip (messages l) h0 ps ms.
  Proof.
    intros D E. apply distinct_key in D. unfold pyrflx in E.
    destruct (add_messages F start fn skip (messages l) (nothing F fn) [] []) as [[h0 ps0] ms] eqn:A.
    pose proof (made_all skip (messages l) [] _ _ _ _ _ _ (made_nil skip) D A) as M. cbn [app] in M.
    destruct (add_refinements F fn (refinements l) ms h0) as [h1|] eqn:R; [|discriminate]. cbn in E. injection E as -> ->.
    exists ms. pose proof M as (NX & OB & SU & MS & PS & ORD & NAMES). split; [|split; [|exists h0; exact M]].
    - apply refined in R as (R1 & R2 & R3).
      + split.
        * intros i m X. rewrite R1, OB, X. cbn. eexists. reflexivity.
        * intros b o X. rewrite R1, OB in X. destruct (nth_error (messages l) b) as [m|] eqn:N; [|discriminate]. cbn in X. injection X as <-. cbn.
          rewrite R2, R3, NX, (SU _ _ N), new_fields.
          assert (b < List.length (messages l)) by (apply nth_error_Some; congruence).
          repeat split; try assumption. exists b. repeat split; assumption.
      + intros k a X. apply MS in X as (m & X & _). rewrite OB, X. discriminate.
    - exact (refinements_found _ _ _ _ R).
  Qed.

  Lemma refs_spec ms skip ra h l b m :
    (forall k a, access_id ms k = Some a <-> exists m, nth_error (messages l) a = Some m /\ same (m_id m) k) ->
    (forall i m, nth_error (messages l) i = Some m -> exists s, objs F fn h i = Some (mkObj F m (ra i) skip s i)) ->
    nth_error (messages l) b = Some m ->
    (forall r, In r (refinements l) -> access_id ms (r_pdu r) <> None /\ access_id ms (r_sdu r) <> None) ->
    Forall2 (fun v r => v_pdu v = r_pdu r /\ v_field v = r_field r /\ v_condition v = r_condition r
              /\ exists o, objs _ _ h (v_sdu v) = Some o /\ In (TMessage (o_type F o)) l /\ same (m_id (o_type F o)) (r_sdu r))
      (refs_at ms (refinements l) b) (filter (fun r => id_eqb (r_pdu r) (m_id m)) (refinements l)).
  Proof.
    intros MS JA N. induction (refinements l) as [|r t IH]; intros FT; [constructor|]. cbn [refs_at flat_map filter].
    specialize (IH (fun x I => FT x (or_intror I))). destruct (FT r (or_introl eq_refl)) as [A B].
    destruct (access_id ms (r_pdu r)) as [a|] eqn:EA; [|contradiction]. destruct (access_id ms (r_sdu r)) as [c|] eqn:EC; [|contradiction].
    assert (T : Nat.eqb a b = id_eqb (r_pdu r) (m_id m)).
    { apply Bool.eq_iff_eq_true. rewrite Nat.eqb_eq, id_eqb_iff. split.
      - intros ->. apply MS in EA as (x & EA & SX). rewrite N in EA. injection EA as <-. destruct SX. split; congruence.
      - intros [S1 S2]. assert (X : access_id ms (r_pdu r) = Some b) by (apply MS; exists m; split; [exact N|split; congruence]). congruence. }
    rewrite T. destruct (id_eqb (r_pdu r) (m_id m)); [|exact IH]. cbn [app]. constructor; [|exact IH].
    cbn. repeat split. apply MS in EC as (x & EC & SX). destruct (JA _ _ EC) as [s' O]. eexists. split; [exact O|]. cbn.
    split; [|exact SX]. apply in_messages. eapply nth_error_In. exact EC.
  Qed.

  (** ** Theorems *)

  (** The object is created exactly if the messages of all refinements are in the model. *)
  Theorem C69_created skip l : distinct l ->
    (exists ps h, pyrflx F start fn skip l = Ok (ps, h)) <->
    forall r, In (TRefinement r) l ->
      (exists m, In (TMessage m) l /\ same (m_id m) (r_pdu r)) /\ exists m, In (TMessage m) l /\ same (m_id m) (r_sdu r).
  Proof.
    intros D. pose proof D as D'. apply distinct_key in D'. unfold pyrflx.
    destruct (add_messages F start fn skip (messages l) (nothing F fn) [] []) as [[h0 ps0] ms] eqn:A.
    pose proof (made_all skip (messages l) [] _ _ _ _ _ _ (made_nil skip) D' A) as (_ & _ & _ & MS & _). cbn [app] in MS.
    assert (K : forall k, access_id ms k <> None <-> exists m, In (TMessage m) l /\ same (m_id m) k).
    { intros k. split.
      - intros X. destruct (access_id ms k) as [a|] eqn:E; [|congruence]. apply MS in E as (m & E & S). exists m. split; [|exact S].
        apply in_messages. eapply nth_error_In. exact E.
      - intros (m & I & S). apply in_messages, In_nth_error in I as [a I]. rewrite (proj2 (MS k a)); [discriminate|eauto]. }
    split.
    - intros (ps & h & E) r I. destruct (add_refinements F fn (refinements l) ms h0) as [h1|] eqn:R; [|discriminate].
      destruct (refinements_found _ _ _ _ R r (proj2 (in_refinements l r) I)) as [X Y]. split; now apply K.
    - intros X. destruct (add_refinements F fn (refinements l) ms h0) as [h1|w] eqn:R; [cbn; eauto|].
      apply refinements_fail in R as (r & I & R). apply in_refinements in I. destruct (X r I) as [X1 X2].
      apply K in X1. apply K in X2. tauto.
  Qed.

  (** Whatever has been called before: pyrflx[p][n] is a new object of the message of the model with
      exactly this package and name.  Its fields are as in the beginning.  Its refinements are those of
      the model for this message, in order, and each refers to an object of its SDU. *)
  Theorem C69_found skip l ps h0 h p n : distinct l -> pyrflx F start fn skip l = Ok (ps, h0) -> steps F start fn ps (fun _ => False) h0 h ->
    match look_up F start fn ps h p n with
    | Ok (a, h') => exists m refs k, In (TMessage m) l /\ m_id m = mkId p n /\ objs _ _ h a = None
        /\ objs _ _ h' a = Some (mkObj F m refs skip (start m skip) k)
        /\ (forall b, b <> a -> objs _ _ h' b = objs _ _ h b)
        /\ Forall2 (fun v r => v_pdu v = r_pdu r /\ v_field v = r_field r /\ v_condition v = r_condition r
              /\ exists o, objs _ _ h (v_sdu v) = Some o /\ In (TMessage (o_type F o)) l /\ same (m_id (o_type F o)) (r_sdu r))
             refs (filter (fun r => id_eqb (r_pdu r) (m_id m)) (refinements l))
    | Err w => w = "KeyError" /\ ~ exists m, In (TMessage m) l /\ m_id m = mkId p n
    end.
  Proof.
    intros D E S. destruct (inv_start _ _ _ _ D E) as (ms & I & FOUND & hm & M). apply distinct_key in D.
    pose proof M as (_ & _ & _ & MS & PS & _ & _). pose proof (inv_steps _ _ _ _ _ _ _ I S) as J.
    destruct (look_up F start fn ps h p n) as [[a h']|w] eqn:L; unfold look_up in L; destruct (prototype ps p n) as [b|] eqn:P; try discriminate.
    - apply PS in P as (m & N & ID). pose proof (inv_clone _ _ _ _ _ _ _ J L) as (o & O & -> & (k & X & _) & FR & _ & _).
      destruct J as (JA & JB). destruct (JA _ _ N) as [s O']. rewrite O in O'. injection O' as ->. cbn in X.
      exists m, (refs_at ms (refinements l) b), k. repeat split.
      + apply in_messages. eapply nth_error_In. exact N.
      + exact ID.
      + destruct (objs _ _ h (next _ _ h)) as [o'|] eqn:Z; [|reflexivity]. destruct (JB _ _ Z). lia.
      + exact X.
      + exact FR.
      + exact (refs_spec ms _ _ h l b m MS JA N FOUND).
    - exfalso. apply PS in P as (m & N & _). destruct J as (JA & _). destruct (JA _ _ N) as [s O]. unfold clone in L. rewrite O in L. discriminate.
    - injection L as <-. split; [reflexivity|]. intros (m & X & ID). apply in_messages, In_nth_error in X as [a X].
      rewrite (proj2 (PS p n a)) in P; [discriminate|eauto].
  Qed.

  (** A call changes nothing in other objects: an object that is not called keeps its message, its
      refinements and what its fields hold. *)
  Theorem C69_kept skip l ps h0 h h' b o : distinct l -> pyrflx F start fn skip l = Ok (ps, h0) -> steps F start fn ps (fun _ => False) h0 h ->
    steps F start fn ps (fun a => a = b) h h' -> objs _ _ h b = Some o -> objs _ _ h' b = Some o.
  Proof.
    intros D E S T O. destruct (inv_start _ _ _ _ D E) as (ms & I & _). pose proof (inv_steps _ _ _ _ _ _ _ I S) as J. clear S E I.
    induction T as [h|who h h1 h2 T IH U N]; [exact O|]. pose proof (inv_steps _ _ _ _ _ _ _ J T) as K. specialize (IH O J). clear J T O.
    destruct U as [p n h1 a h2 E|a h1 c h2 E|a o1 s h1 h2 E1 E2 E3 E4 E5|a o1 l1 h1 h2 r E1 E2|p q l1 h1 h2 r E1 E2].
    - unfold look_up in E. destruct (prototype ps p n); [|discriminate].
      destruct (inv_clone _ _ _ _ _ _ _ K E) as (_ & _ & -> & _ & FR & _). rewrite FR; [exact IH|]. destruct K as (_ & B). destruct (B _ _ IH). lia.
    - destruct (inv_clone _ _ _ _ _ _ _ K E) as (_ & _ & -> & _ & FR & _). rewrite FR; [exact IH|]. destruct K as (_ & B). destruct (B _ _ IH). lia.
    - rewrite E3; [exact IH|]. intros ->. exact (N _ eq_refl eq_refl).
    - apply checksum_function_same in E2 as (-> & _). exact IH.
    - apply checksum_functions_same in E2 as (-> & _). exact IH.
  Qed.

  (** A checksum function that is set for a message of a package is used by all objects of this
      message, whether they were looked up before or are looked up after, and by no object of another
      message. *)
  Theorem C69_functions skip l ps h0 h p q n f g h' : distinct l -> pyrflx F start fn skip l = Ok (ps, h0) ->
    steps F start fn ps (fun _ => False) h0 h -> access ps p = Some q ->
    set_checksum_functions F fn h q [(n, [(f, g)])] = (h', Ok tt) ->
    exists m, In (TMessage m) l /\ m_id m = mkId p n
      /\ (forall b o, objs _ _ h' b = Some o ->
            if id_eqb (m_id (o_type F o)) (mkId p n)
            then map (c_field fn) (sums _ _ h' (o_sums F o)) = m_sums m
                 /\ forall c, In c (sums _ _ h' (o_sums F o)) -> c_field fn c = f /\ c_function fn c = Some g
            else sums _ _ h' (o_sums F o) = sums _ _ h (o_sums F o))
      /\ forall a h'' o, look_up F start fn ps h' p n = Ok (a, h'') -> objs _ _ h'' a = Some o ->
            map (c_field fn) (sums _ _ h'' (o_sums F o)) = m_sums m
            /\ forall c, In c (sums _ _ h'' (o_sums F o)) -> c_field fn c = f /\ c_function fn c = Some g.
  Proof.
    intros D E S Q C. destruct (inv_start _ _ _ _ D E) as (ms & I & _ & hm & M). apply distinct_key in D.
    pose proof M as (_ & _ & _ & MS & PS & _ & _). pose proof (inv_steps _ _ _ _ _ _ _ I S) as J. clear I S E.
    pose proof (checksum_functions_same _ _ _ _ _ C) as (C1 & C2 & C3). pose proof (inv_sums _ _ _ _ _ J C1 C2 C3) as J'.
    cbn [set_checksum_functions] in C. destruct (access q n) as [b|] eqn:A; [|discriminate].
    assert (P : prototype ps p n = Some b) by (unfold prototype; now rewrite Q). pose proof P as P'. apply PS in P as (m & N & ID).
    destruct J as (JA & JB). destruct (JA _ _ N) as [s O]. rewrite O in C.
    destruct (set_checksum_function F fn h (mkObj F m (refs_at ms (refinements l) b) skip s b) [(f, g)]) as [h1 [[]|w]] eqn:X; [|discriminate].
    injection C as <-. pose proof (checksum_function_same _ _ _ _ _ X) as (_ & _ & X3 & _). cbn in X3.
    cbn [set_checksum_function o_type] in X. destruct (negb _); [discriminate|]. cbn [o_sums] in X.
    destruct (set_function fn f g (sums _ _ h b)) as [cs [[]|w]] eqn:SF; [|discriminate]. pose proof (set_function_ok _ _ _ _ SF) as OK.
    assert (CS : sums _ _ h1 b = cs) by (injection X as <-; cbn; unfold put; now rewrite Nat.eqb_refl).
    assert (UNIQ : forall i x, nth_error (messages l) i = Some x -> id_eqb (m_id x) (mkId p n) = true -> i = b /\ x = m).
    { intros i x NX EQ. apply id_eqb_iff in EQ. rewrite <- ID in EQ. assert (i = b).
      { assert (T1 : access_id ms (m_id m) = Some i) by (apply MS; eauto).
        assert (T2 : access_id ms (m_id m) = Some b) by (apply MS; exists m; split; [exact N|split; reflexivity]). congruence. }
      subst i. split; [reflexivity|congruence]. }
    assert (SAME : forall c o, objs _ _ h1 c = Some o -> id_eqb (m_id (o_type F o)) (mkId p n) = true ->
      map (c_field fn) (sums _ _ h1 (o_sums F o)) = m_sums m /\ forall d, In d (sums _ _ h1 (o_sums F o)) -> c_field fn d = f /\ c_function fn d = Some g).
    { intros c o OC EQ. destruct J' as (_ & JB'). destruct (JB' _ _ OC) as (_ & _ & (i & N1 & _ & K) & _ & FI).
      destruct (UNIQ _ _ N1 EQ) as [-> TM]. rewrite TM in FI, K. split; [exact FI|].
      destruct (m_sums m) as [|y ys] eqn:Z; [destruct (sums _ _ h1 (o_sums F o)); [intros d []|discriminate]|].
      rewrite K by discriminate. rewrite CS. exact OK. }
    exists m. split; [apply in_messages; eapply nth_error_In; exact N|]. split; [exact ID|]. split.
    - intros c o OC. destruct (id_eqb (m_id (o_type F o)) (mkId p n)) eqn:EQ; [exact (SAME _ _ OC EQ)|].
      destruct (Nat.eq_dec (o_sums F o) b) as [Z|Z]; [|now apply X3].
      rewrite C1 in OC. destruct (JB _ _ OC) as (_ & _ & (i & N1 & _ & K) & _ & FI).
      assert (EM : m_sums (o_type F o) = []).
      { destruct (m_sums (o_type F o)) eqn:Y; [reflexivity|]. assert (i = b) by (rewrite <- Z; symmetry; apply K; discriminate). subst i.
        rewrite N in N1. injection N1 as N1. rewrite <- N1, ID in EQ. unfold id_eqb in EQ. cbn in EQ. rewrite !String.eqb_refl in EQ. discriminate. }
      rewrite EM, Z in FI. specialize (C3 b). rewrite Z. destruct (sums _ _ h b); [|discriminate]. destruct (sums _ _ h1 b); [reflexivity|discriminate].
    - intros a h'' o L OA. unfold look_up in L. rewrite P' in L.
      destruct (inv_clone _ _ _ _ _ _ _ J' L) as (o' & O' & -> & (k & Y & SU & _) & _).
      rewrite OA in Y. injection Y as ->. cbn. rewrite SU. apply (SAME b _ O').
      assert (T : objs _ _ h b = Some o') by (rewrite <- C1; exact O'). rewrite O in T. injection T as <-. cbn. rewrite ID.
      unfold id_eqb. cbn. now rewrite !String.eqb_refl.
  Qed.

  (** Iteration gives the packages in the order of their first messages, each once, and the messages of
      each package in the order of the model; the objects it gives are the same each time. *)
  Theorem C69_iterated skip l ps h0 : distinct l -> pyrflx F start fn skip l = Ok (ps, h0) ->
    map fst (iterated ps) = firsts [] (map (fun m => i_package (m_id m)) (messages l))
    /\ NoDup (map fst (iterated ps))
    /\ forall p as_, In (p, as_) (iterated ps) ->
         Forall2 (fun a m => forall h, steps F start fn ps (fun _ => False) h0 h -> exists s, objs _ _ h a = Some s /\ o_type F s = m)
           as_ (filter (fun m => String.eqb (i_package (m_id m)) p) (messages l)).
  Proof.
    intros D E. destruct (inv_start _ _ _ _ D E) as (ms & I & _ & hm & M). apply distinct_key in D.
    pose proof M as (_ & _ & _ & MS & PS & ORD & NAMES).
    assert (K : map fst (iterated ps) = map fst ps) by (unfold iterated; rewrite map_map; reflexivity).
    assert (ND : NoDup (map fst ps)).
    { rewrite ORD. generalize (map (fun m => i_package (m_id m)) (messages l)) as x. generalize (@nil string) as seen.
      intros seen x. revert seen. induction x as [|y r IH]; intros seen; cbn [firsts]; [constructor|].
      destruct (in_dec string_dec y seen); [apply IH|]. constructor; [|apply IH]. rewrite firsts_in. cbn. tauto. }
    split; [now rewrite K|]. split; [now rewrite K|].
    intros p as_ X. unfold iterated in X. apply in_map_iff in X as ([p' q] & X & IN). cbn in X. injection X as -> <-.
    assert (Q : access ps p = Some q).
    { clear - ND IN. induction ps as [|[x w] r IH]; [destruct IN|]. cbn [access]. cbn in ND. inversion ND as [|? ? N1 N2]; subst.
      destruct IN as [IN|IN]; [injection IN as -> ->; now rewrite String.eqb_refl|].
      destruct (String.eqb_spec x p) as [->|]; [|now apply IH]. exfalso. apply N1. apply in_map_iff. now exists (p, q). }
    pose proof (NAMES _ _ Q) as NQ.
    assert (NDQ : NoDup (map fst q)).
    { rewrite NQ. clear - D. induction (messages l) as [|m r IH]; [constructor|]. cbn in D. inversion D as [|? ? N1 N2]; subst. cbn [filter].
      destruct (String.eqb_spec (i_package (m_id m)) p) as [P|]; [|now apply IH]. cbn [map]. constructor; [|now apply IH].
      intros Z. apply in_map_iff in Z as (y & Z1 & Z2). apply filter_In in Z2 as [Z2 Z3]. apply String.eqb_eq in Z3.
      apply N1. apply in_map_iff. exists y. split; [|exact Z2]. unfold key. congruence. }
    assert (ACC : forall n a, In (n, a) q -> exists m, nth_error (messages l) a = Some m /\ m_id m = mkId p n).
    { intros n a Y. apply PS. unfold prototype. rewrite Q. clear - NDQ Y. induction q as [|[x w] r IH]; [destruct Y|].
      cbn [access]. cbn in NDQ. inversion NDQ as [|? ? N1 N2]; subst.
      destruct Y as [Y|Y]; [injection Y as -> ->; now rewrite String.eqb_refl|].
      destruct (String.eqb_spec x n) as [->|]; [|now apply IH]. exfalso. apply N1. apply in_map_iff. now exists (n, a). }
    assert (KEYS : forall x y, In x (messages l) -> In y (messages l) -> m_id x = m_id y -> x = y).
    { intros x y Ix Iy Exy. apply In_nth_error in Ix as [i Ix]. apply In_nth_error in Iy as [j Iy].
      assert (T1 : access_id ms (m_id y) = Some i) by (apply MS; exists x; split; [exact Ix|rewrite Exy; split; reflexivity]).
      assert (T2 : access_id ms (m_id y) = Some j) by (apply MS; exists y; split; [exact Iy|split; reflexivity]). congruence. }
    assert (SUB : incl (filter (fun m => String.eqb (i_package (m_id m)) p) (messages l)) (messages l)) by (intros x Y; apply filter_In in Y; tauto).
    assert (PK : forall x, In x (filter (fun m => String.eqb (i_package (m_id m)) p) (messages l)) -> i_package (m_id x) = p)
      by (intros x Y; apply filter_In in Y as [_ Y]; now apply String.eqb_eq).
    clear NDQ Q IN. revert NQ SUB PK. generalize (filter (fun m => String.eqb (i_package (m_id m)) p) (messages l)) as fl.
    induction q as [|[n a] q IH]; intros [|m fl] NQ SUB PK; try discriminate; [constructor|]. cbn [map fst snd] in *. injection NQ as Hn NQ.
    constructor.
    - intros h S. pose proof (inv_steps _ _ _ _ _ _ _ I S) as (JA & _). destruct (ACC n a (or_introl eq_refl)) as (x & N & ID).
      destruct (JA _ _ N) as [s O]. eexists. split; [exact O|]. cbn. apply KEYS; [eapply nth_error_In; exact N|apply SUB; now left|].
      rewrite ID. subst n. rewrite <- (PK m (or_introl eq_refl)). now destruct (m_id m).
    - apply IH; [intros n' a' Y; apply ACC; now right|exact NQ|intros x Y; apply SUB; now right|intros x Y; apply PK; now right].
  Qed.
End Proofs.
Print Assumptions C69_created.
Print Assumptions C69_found.
Print Assumptions C69_kept.
Print Assumptions C69_functions.
Print Assumptions C69_iterated.

(** from_specs: an object is only created if all files exist and are parsed without complaint.
    Otherwise the first missing file is named or all errors of the parser are raised. *)
Theorem C69_specs A is_file fs (create_model : SpecLoad.specs -> res A) n m l :
  match from_specs is_file fs create_model n m l with
  | Created _ => forall f, In f l -> is_file f = true /\ exists s, SpecLoad.content_of fs f = SpecLoad.Parsed s /\ P_SpecLoad.fine f s
  | NotFound p => exists a b, l = a ++ p :: b /\ is_file p = false /\ forall f, In f a -> is_file f = true
  | Erroneous e => e <> [] /\ (forall f, In f l -> is_file f = true) /\ exists sp, SpecLoad.parse fs n m l = Ok (e, sp)
  | Other _ => forall f, In f l -> is_file f = true
  end.
Proof.
  assert (M : forall p, first_missing is_file l = Some p -> exists a b, l = a ++ p :: b /\ is_file p = false /\ forall f, In f a -> is_file f = true).
  { intros p. induction l as [|x r IH]; cbn [first_missing]; [discriminate|]. destruct (is_file x) eqn:X.
    - intros E. destruct (IH E) as (a & b & -> & Y & Z). exists (x :: a), b. split; [reflexivity|]. split; [exact Y|].
      intros f [<-|I]; [exact X|now apply Z].
    - intros E. injection E as <-. exists [], r. split; [reflexivity|]. split; [exact X|]. intros f []. }
  assert (N : first_missing is_file l = None -> forall f, In f l -> is_file f = true).
  { clear M. induction l as [|x r IH]; cbn [first_missing]; [intros _ f []|]. destruct (is_file x) eqn:X; [|discriminate].
    intros E f [<-|I]; [exact X|now apply IH]. }
  unfold from_specs. destruct (first_missing is_file l) as [p|]; [now apply M|]. specialize (N eq_refl). clear M.
  destruct (SpecLoad.parse fs n m l) as [[[|e es] sp]|w] eqn:P; [|split; [discriminate|eauto]|exact N].
  destruct (create_model sp); [|exact N]. intros f I. split; [now apply N|].
  destruct (P_SpecLoad.C67_accepted _ _ _ _ _ P f I) as (s & C & FI & _). eauto.
Qed.
Print Assumptions C69_specs.

(** ** A case: a packet that carries a datagram with a checksum *)
Definition packet : message := mkMsg (mkId "IP" "Packet") ["Protocol"; "Payload"] [].
Definition fragment : message := mkMsg (mkId "IP" "Fragment") ["Payload"] [].
Definition datagram : message := mkMsg (mkId "UDP" "Datagram") ["Length"; "Sum"; "Payload"] ["Sum"].
Definition is_udp : expr := ERel OEq (EVar "Protocol") (ENum 17%Z).
Definition carried : refinement := mkRef (mkId "IP" "Packet") "Payload" (mkId "UDP" "Datagram") is_udp.
Definition tunnelled : refinement := mkRef (mkId "udp" "Datagram") "Payload" (mkId "IP" "Packet") ETrue.
Definition network : list mtype :=
  [TMessage packet; TOther (mkId "UDP" "Port"); TMessage datagram; TRefinement carried; TMessage fragment; TRefinement tunnelled].
Definition no_fields (m : message) (skip : bool) : list (string * nat) := [].
Notation new_network := (pyrflx _ no_fields nat false network).
Definition network_heap : heap (list (string * nat)) nat := match new_network with Ok (_, h) => h | Err _ => nothing _ _ end.
Definition network_packages : packages := match new_network with Ok (ps, _) => ps | Err _ => [] end.
Example C69_case_distinct : distinct network.
Proof. repeat constructor; cbn; intuition discriminate. Qed.
Example C69_case : new_network = Ok (network_packages, network_heap)
  /\ network_packages = [("IP", [("Packet", 0); ("Fragment", 2)]); ("UDP", [("Datagram", 1)])]
  /\ objs _ _ network_heap 0 = Some (mkObj _ packet [mkRV (mkId "IP" "Packet") "Payload" is_udp 1] false [] 0)
  /\ sums _ _ network_heap 1 = [mkSum _ "Sum" None false].
Proof. repeat split. Qed.
(** two objects are looked up, one is called, a function is set for the package *)
Definition two_objects : heap (list (string * nat)) nat :=
  match look_up _ no_fields nat network_packages network_heap "IP" "Packet" with
  | Ok (_, h) => match look_up _ no_fields nat network_packages h "UDP" "Datagram" with Ok (_, h') => h' | Err _ => h end
  | Err _ => network_heap
  end.
Example C69_case_objects : objs _ _ two_objects 3 = Some (mkObj _ packet [mkRV (mkId "IP" "Packet") "Payload" is_udp 1] false [] 3)
  /\ objs _ _ two_objects 4 = Some (mkObj _ datagram [mkRV (mkId "udp" "Datagram") "Payload" ETrue 0] false [] 1).
Proof. split; reflexivity. Qed.
Lemma two_reached : steps _ no_fields nat network_packages (fun _ => False) network_heap two_objects.
Proof.
  eapply Steps_next; [eapply Steps_next; [apply Steps_refl| |]| |].
  - apply (SLookUp _ _ _ _ "IP" "Packet" _ 3). reflexivity.
  - discriminate.
  - apply (SLookUp _ _ _ _ "UDP" "Datagram" _ 4). reflexivity.
  - discriminate.
Qed.
Example C69_case_functions : exists h', set_checksum_functions _ nat two_objects [("Datagram", 1)] [("Datagram", [("Sum", 7)])] = (h', Ok tt)
  /\ sums _ _ h' 1 = [mkSum _ "Sum" (Some 7) false].
Proof. eexists. split; reflexivity. Qed.
Example C69_case_specs : from_specs (fun _ => true) P_SpecLoad.case_fs (fun sp => Ok (List.length sp)) 6 20 P_SpecLoad.case_files = Created 4
  /\ from_specs (fun f => negb (SpecLoad.path_eq f ["d.rflx"])) P_SpecLoad.case_fs (fun sp => Ok (List.length sp)) 6 20 P_SpecLoad.case_files
     = NotFound ["d.rflx"].
Proof. split; vm_compute; reflexivity. Qed.

(** ** What is false *)

(** A method of one object can change another one: whether a checksum counts as calculated is shared
    by all objects of the message, and by those of the messages that carry it.  Here a call of a packet
    changes a datagram that has nothing to do with it. *)
Theorem C69_isolated_refuted : exists h' o, step _ no_fields nat network_packages (Some 3) two_objects h'
  /\ objs _ _ two_objects 4 = Some o /\ objs _ _ h' 4 = Some o
  /\ sums _ _ two_objects (o_sums _ o) = [mkSum _ "Sum" None false]
  /\ sums _ _ h' (o_sums _ o) = [mkSum _ "Sum" None true].
Proof.
  exists (mkHeap _ _ (put (objs _ _ two_objects) 3 (Some (mkObj _ packet [mkRV (mkId "IP" "Packet") "Payload" is_udp 1] false [("Protocol", 17)] 3)))
     (put (sums _ _ two_objects) 1 [mkSum _ "Sum" None true]) (next _ _ two_objects)).
  eexists. split; [|repeat split].
  eapply SMethod; [apply C69_case_objects|reflexivity| |reflexivity|].
  - intros b N. cbn. unfold put at 1. destruct (Nat.eqb_spec b 3); [contradiction|reflexivity].
  - intros k. destruct (Nat.eq_dec k 1) as [->|N].
    + right. split.
      * eapply Reach_sdu; [apply C69_case_objects|now left|]. cbn. apply (Reach_own _ _ two_objects 1 (mkObj _ datagram [mkRV (mkId "udp" "Datagram") "Payload" ETrue 0] false [] 1)). reflexivity.
      * cbn. constructor; [|constructor]. repeat split.
    + left. cbn. unfold put at 1. destruct (Nat.eqb_spec k 1); [contradiction|reflexivity].
Qed.
Print Assumptions C69_isolated_refuted.

(** Identifiers are equal without regard to case, but pyrflx[p][n] is not. *)
Theorem C69_case_refuted : exists l ps h m p n, distinct l /\ pyrflx _ no_fields nat false l = Ok (ps, h) /\ In (TMessage m) l
  /\ same (m_id m) (mkId p n) /\ look_up _ no_fields nat ps h p n = Err "KeyError".
Proof.
  exists network, network_packages, network_heap, datagram, "udp", "Datagram".
  split; [exact C69_case_distinct|]. split; [apply C69_case|]. split; [right; right; now left|]. split; [split; reflexivity|reflexivity].
Qed.
Print Assumptions C69_case_refuted.
