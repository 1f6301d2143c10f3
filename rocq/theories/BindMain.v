(** Proofs for C59: substitution and simplification keep values and scopes. *)
From Coq Require Import String List ZArith Bool Lia.
From Verif Require Import Base Expr SessionType SessionEval BindExpr BindSpec BindFacts BindSound.
Import ListNotations.
Local Open Scope string_scope.
Local Open Scope list_scope.
Local Open Scope Z_scope.

(** ** the second outcome is the first one, if that is a value *)
Definition le {A} (o o' : outcome A) : Prop := forall v, o = Val v -> o' = Val v.
Lemma le_refl {A} (o : outcome A) : le o o.
Proof. intros v H; exact H. Qed.
Lemma le_after {A B} (o o' : outcome A) (k k' : A -> outcome B) : le o o' -> (forall u, le (k u) (k' u)) -> le (after o k) (after o' k').
Proof. intros H K v E. apply after_val in E as (u & E1 & E2). rewrite (H _ E1). now apply K. Qed.
Lemma le_sgn s o o' : le o o' -> le (sgn s o) (sgn s o').
Proof. intros H. destruct s; [|exact H]. cbn [sgn]. apply le_after; [exact H|]. intros u. apply le_refl. Qed.
Lemma le_each {A A' B} (f : A -> outcome B) (g : A' -> outcome B) l l' : Forall2 (fun a a' => le (f a) (g a')) l l' -> le (each f l) (each g l').
Proof. intros F bs. now apply each_mono. Qed.
Lemma le_each_same {A B} (f g : A -> outcome B) l : (forall a, le (f a) (g a)) -> le (each f l) (each g l).
Proof. intros H. apply le_each. induction l; constructor; auto. Qed.

Section Cong.
Variable w : world.
Notation ev := (ev w).
Variables st st' : store.
Lemma le_not p p' : le (ev st p) (ev st' p') -> le (ev st (BNot p)) (ev st' (BNot p')).
Proof. intros H. rewrite !ev_not. apply le_after; [exact H|]. intros u. apply le_refl. Qed.
Lemma le_ass o ts ts' : Forall2 (fun t t' => le (ev st t) (ev st' t')) ts ts' -> le (ev st (BAss o ts)) (ev st' (BAss o ts')).
Proof. intros H. rewrite !ev_ass. apply le_after; [now apply le_each|]. intros u. apply le_refl. Qed.
Lemma le_bin o l r l' r' : le (ev st l) (ev st' l') -> le (ev st r) (ev st' r') -> le (ev st (BBin o l r)) (ev st' (BBin o l' r')).
Proof. intros H1 H2. rewrite !ev_bin. apply le_after; [exact H1|]. intros a. apply le_after; [exact H2|]. intros b. apply le_refl. Qed.
Lemma le_rel o l r l' r' : le (ev st l) (ev st' l') -> le (ev st r) (ev st' r') -> le (ev st (BRel o l r)) (ev st' (BRel o l' r')).
Proof. intros H1 H2. rewrite !ev_rel. apply le_after; [exact H1|]. intros a. apply le_after; [exact H2|]. intros b. apply le_refl. Qed.
Lemma le_in s l r l' r' : le (ev st l) (ev st' l') -> le (ev st r) (ev st' r') -> le (ev st (BIn s l r)) (ev st' (BIn s l' r')).
Proof. intros H1 H2. rewrite !ev_in. apply le_after; [exact H1|]. intros a. apply le_after; [exact H2|]. intros b. apply le_refl. Qed.
Lemma le_sel p p' f s : le (ev st p) (ev st' p') -> le (ev st (BSel p f s)) (ev st' (BSel p' f s)).
Proof. intros H. rewrite !ev_sel. apply le_sgn. apply le_after; [exact H|]. intros u. apply le_refl. Qed.
Lemma le_call f ts ts' s : Forall2 (fun t t' => le (ev st t) (ev st' t')) ts ts' -> le (ev st (BCall f ts s)) (ev st' (BCall f ts' s)).
Proof. intros H. rewrite !ev_call. apply le_sgn. apply le_after; [now apply le_each|]. intros u. apply le_refl. Qed.
Lemma le_agg ts ts' : Forall2 (fun t t' => le (ev st t) (ev st' t')) ts ts' -> le (ev st (BAgg ts)) (ev st' (BAgg ts')).
Proof. intros H. rewrite !ev_agg. apply le_after; [now apply le_each|]. intros u. apply le_refl. Qed.
Lemma le_conv t p p' : le (ev st p) (ev st' p') -> le (ev st (BConv t p)) (ev st' (BConv t p')).
Proof. intros H. rewrite !ev_conv. apply le_after; [exact H|]. intros u. apply le_refl. Qed.
Lemma le_quant a x i p i' p' : le (ev st i) (ev st' i') -> (forall y, le (ev (upd st x y) p) (ev (upd st' x y) p')) ->
  le (ev st (BQuant a x i p)) (ev st' (BQuant a x i' p')).
Proof.
  intros H K. rewrite !ev_quant. apply le_after; [exact H|]. intros u. apply le_after; [apply le_refl|]. intros vs. apply le_after; [|intros bs; apply le_refl].
  apply le_each_same. intros y. apply le_after; [apply K|]. intros b. apply le_refl.
Qed.
Lemma le_compr x a s c a' s' c' : le (ev st a) (ev st' a') -> (forall y, le (ev (upd st x y) s) (ev (upd st' x y) s')) ->
  (forall y, le (ev (upd st x y) c) (ev (upd st' x y) c')) -> le (ev st (BCompr x a s c)) (ev st' (BCompr x a' s' c')).
Proof.
  intros H K1 K2. rewrite !ev_compr. apply le_after; [exact H|]. intros u. apply le_after; [apply le_refl|]. intros vs. apply le_after; [|intros bs; apply le_refl].
  apply le_each_same. intros y. apply le_after; [apply K2|]. intros b. apply le_after; [apply le_refl|]. intros [|]; [|apply le_refl].
  apply le_after; [apply K1|]. intros z. apply le_refl.
Qed.
Lemma le_msg t fs fs' : Forall2 (fun p p' : string * bx => fst p = fst p' /\ le (ev st (snd p)) (ev st' (snd p'))) fs fs' ->
  le (ev st (BMsg t fs)) (ev st' (BMsg t fs')).
Proof.
  intros H. rewrite !ev_msg. apply le_after; [|intros u; apply le_refl]. apply le_each.
  induction H as [|p p' l l' [H1 H2] _ IH]; constructor; [|exact IH]. rewrite H1. apply le_after; [exact H2|]. intros u. apply le_refl.
Qed.
(** the prefix of an attribute of a name is kept, or its head is *)
Definition same_head (e e' : bx) : Prop :=
  match e with
  | BVar _ _ => e' = e
  | BSel q f s => exists q' s', e' = BSel q' f s' /\ (s = false -> s' = false /\ le (ev st q) (ev st' q'))
  | _ => headof e' = HOther
  end.
Lemma le_attr a p p' s : le (ev st p) (ev st' p') -> (of_name a = true -> same_head p p') -> le (ev st (BAttr a p s)) (ev st' (BAttr a p' s)).
Proof.
  intros H N. destruct (of_name a) eqn:O.
  2:{ rewrite !attr_plain by exact O. apply le_sgn. apply le_after; [exact H|]. intros u. apply le_refl. }
  specialize (N eq_refl). destruct a as [at_| | | | |]; try discriminate O.
  - destruct (headof p) eqn:Q.
    + destruct p; try discriminate Q. cbn [same_head] in N. subst p'. rewrite !ev_attr. apply le_sgn. destruct neg; [|apply le_refl].
      apply le_after; [exact H|]. intros u. apply le_refl.
    + rewrite (attr_int w at_ st p) by congruence. rewrite (attr_int w at_ st' p').
      * apply le_sgn. apply le_after; [exact H|]. intros u. apply le_refl.
      * destruct p; try discriminate Q. cbn [same_head] in N. destruct N as (q' & s' & -> & _). discriminate.
    + rewrite (attr_int w at_ st p) by congruence. rewrite (attr_int w at_ st' p').
      * apply le_sgn. apply le_after; [exact H|]. intros u. apply le_refl.
      * destruct p; try discriminate Q; cbn [same_head] in N; rewrite N; discriminate.
  - intros v E. destruct (attr_present w st p s v E) as (q & f & ->). cbn [same_head] in N. destruct N as (q' & s' & -> & N). destruct (N eq_refl) as [-> L].
    revert v E. rewrite !ev_attr. apply le_sgn. apply le_after; [exact L|]. intros u. apply le_refl.
Qed.
End Cong.

Lemma assoc_cons {A} x k (v : A) l : assoc x ((k, v) :: l) = if String.eqb k x then Some v else assoc x l.
Proof. unfold assoc. cbn [find fst]. now destruct (String.eqb k x). Qed.
Lemma assoc_In {A} x (l : list (string * A)) v : assoc x l = Some v -> In (x, v) l.
Proof.
  induction l as [|[k u] l IH]; [discriminate|]. rewrite assoc_cons. destruct (String.eqb k x) eqn:Q; [apply String.eqb_eq in Q as ->; intros [= ->]; now left|right; auto].
Qed.
Lemma assoc_None {A} x (l : list (string * A)) : assoc x l = None <-> ~ In x (map fst l).
Proof.
  induction l as [|[k u] l IH]; [intuition|]. rewrite assoc_cons. cbn [map fst In]. destruct (String.eqb k x) eqn:Q.
  - apply String.eqb_eq in Q as ->. split; [discriminate|tauto].
  - apply String.eqb_neq in Q. rewrite IH. intuition.
Qed.

(** no bindings *)
Definition no_bindings : kind := Each false (fun _ => true).

Section Subst.
Variables (w : world) (sums strict : bool).
Notation ev := (ev w).
Variable ng : bx -> res bx.
Variable mp : list (string * bx).
Variable B : scope.
Notation ks := (map fst mp).
Definition image (d : bx) : Prop := linear sums d = true /\ bindless d = true /\ within strict B d = true.
Hypothesis images : Forall (fun p => image (snd p)) mp.
Hypothesis negs : sums = true -> forall k d d', In (k, d) mp -> ng d = Ok d' ->
  image d' /\ (forall st z, ev st d = Val (VInt z) -> ev st d' = Val (VInt (- z))) /\
  (forall b F, every (plain_in b F) d = true -> every (plain_in b F) d' = true).

Definition related (st1 st : store) : Prop :=
  forall x, match assoc x mp with Some d => exists v, st1 x = Some v /\ ev st d = Val v | None => st1 x = st x end.
Lemma related_upd st1 st x y : related st1 st -> B x = false -> ~ In x ks -> related (upd st1 x y) (upd st x y).
Proof.
  intros R Bx Kx z. specialize (R z). destruct (assoc z mp) as [d|] eqn:Q.
  - pose proof (assoc_In _ _ _ Q) as I. destruct R as (v & R1 & R2). exists v. unfold upd at 1. destruct (String.eqb z x) eqn:Z0.
    + apply String.eqb_eq in Z0 as ->. destruct Kx. now apply (in_map fst) in I.
    + split; [exact R1|]. rewrite <- R2. rewrite Forall_forall in images. destruct (images _ I) as (_ & _ & W). cbn [snd] in W. apply (ev_agree w strict _ B); [exact W|].
      intros u Hu. unfold upd. destruct (String.eqb u x) eqn:U; [apply String.eqb_eq in U as ->; congruence|reflexivity].
  - unfold upd. destruct (String.eqb z x); auto.
Qed.

Definition closes (A A' : scope) : Prop :=
  (forall x, A x = true -> ~ In x ks -> A' x = true) /\ (forall k, A k = true -> In k ks -> forall x, B x = true -> A' x = true).
Lemma closes_minus A A' x : closes A A' -> B x = false -> closes (if strict then minus A x else A) (if strict then minus A' x else A').
Proof.
  intros [C1 C2] Bx. destruct strict; [|now split]. split; unfold minus.
  - intros z H K. apply andb_true_iff in H as [H1 H2]. now rewrite H1, (C1 z H2 K).
  - intros k H K z Hz. apply andb_true_iff in H as [H1 H2]. rewrite (C2 k H2 K z Hz), andb_true_r. apply negb_true_iff. apply String.eqb_neq. congruence.
Qed.
Lemma closes_plus A A' x : closes A A' -> ~ In x ks -> closes (plus A x) (plus A' x).
Proof.
  intros [C1 C2] Kx. split; unfold plus.
  - intros z H K. destruct (String.eqb z x); [reflexivity|]. cbn in *. now apply C1.
  - intros k H K z Hz. destruct (String.eqb k x) eqn:Q; [apply String.eqb_eq in Q as ->; contradiction|]. cbn in H. rewrite (C2 k H K z Hz). now rewrite orb_true_r.
Qed.
Lemma closes_nothing A A' : closes A A' -> closes (if strict then nothing else A) (if strict then nothing else A').
Proof. intros C. destruct strict; [|exact C]. split; discriminate. Qed.

Record sub (e e' : bx) : Prop := mkSub {
  s_lin : linear sums e' = true;
  s_bl : bindless e' = true;
  s_in : forall A A', within strict A e = true -> closes A A' -> within strict A' e' = true;
  s_val : forall st1 st, related st1 st -> le (ev st1 e) (ev st e');
  s_each : forall b F, Forall (fun p => every (plain_in b F) (snd p) = true) mp -> every (plain_in b F) e = true -> every (plain_in b F) e' = true
}.
Definition binders_ok (e : bx) : Prop := Forall (fun y => B y = false /\ ~ In y ks) (binders e).
Definition pre (e : bx) : Prop := linear sums e = true /\ bindless e = true /\ unsigned e = true /\ exposed ks e = true /\ binders_ok e.

Lemma binders_list ts : Forall (fun y => B y = false /\ ~ In y ks) (flat_map binders ts) <-> Forall binders_ok ts.
Proof. unfold binders_ok. rewrite Forall_flat_map. reflexivity. Qed.
Lemma binders_fields (fs : list (string * bx)) : Forall (fun y => B y = false /\ ~ In y ks) (flat_map (fun p => binders (snd p)) fs) <-> Forall (fun p => binders_ok (snd p)) fs.
Proof. unfold binders_ok. rewrite Forall_flat_map. reflexivity. Qed.

Lemma pre_list (f : list bx -> bx) ts :
  (forall p, every p (f ts) = true -> forallb (every p) ts = true) -> binders (f ts) = flat_map binders ts -> pre (f ts) -> Forall pre ts.
Proof.
  intros E Bf (P1 & P2 & P3 & P4 & P5). unfold binders_ok in P5. rewrite Bf, binders_list in P5.
  apply E in P1, P2, P3, P4. rewrite forallb_Forall in *. rewrite Forall_forall in *. intros t I. repeat split; [exact (P1 t I)|exact (P2 t I)|exact (P3 t I)|exact (P4 t I)|exact (P5 t I)].
Qed.
Lemma pre_fields (f : list (string * bx) -> bx) ts :
  (forall p, every p (f ts) = true -> forallb (fun g => every p (snd g)) ts = true) -> binders (f ts) = flat_map (fun p => binders (snd p)) ts -> pre (f ts) -> Forall (fun p => pre (snd p)) ts.
Proof.
  intros E Bf (P1 & P2 & P3 & P4 & P5). unfold binders_ok in P5. rewrite Bf, binders_fields in P5.
  apply E in P1, P2, P3, P4. rewrite forallb_Forall in *. rewrite Forall_forall in *. intros t I. repeat split; [exact (P1 t I)|exact (P2 t I)|exact (P3 t I)|exact (P4 t I)|exact (P5 t I)].
Qed.
Lemma pre_part (e p : bx) :
  (forall c, every c e = true -> every c p = true) -> (forall y, In y (binders p) -> In y (binders e)) -> pre e -> pre p.
Proof.
  intros E Bf (P1 & P2 & P3 & P4 & P5). repeat split; try (now apply E). unfold binders_ok in *. rewrite Forall_forall in *. auto.
Qed.
Ltac part := apply pre_part; [intros c; cbn [every]; rewrite ?andb_true_iff; tauto|intros y; cbn [binders]; rewrite ?in_app_iff; cbn [In]; rewrite ?in_app_iff; tauto].
Lemma subs_list ts ts' : Forall (fun e => forall e', substituted ng mp e = Ok e' -> pre e -> sub e e') ts -> Forall pre ts ->
  map_res (substituted ng mp) ts = Ok ts' -> Forall2 sub ts ts'.
Proof.
  intros H P M. apply map_res_ok in M. induction M as [|t t' l l' E _ IH]; constructor; inversion H; inversion P; subst; auto.
Qed.
Lemma subs_fields ts ts' : Forall (fun p => forall e', substituted ng mp (snd p) = Ok e' -> pre (snd p) -> sub (snd p) e') ts -> Forall (fun p => pre (snd p)) ts ->
  map_values (substituted ng mp) ts = Ok ts' -> Forall2 (fun p p' : string * bx => fst p = fst p' /\ sub (snd p) (snd p')) ts ts'.
Proof.
  intros H P M. apply map_values_ok in M. induction M as [|t t' l l' [E1 E2] _ IH]; constructor; inversion H; inversion P; subst; auto.
Qed.
Lemma lin_list ts ts' : Forall2 sub ts ts' -> forallb (linear sums) ts' = true /\ forallb bindless ts' = true.
Proof. induction 1 as [|t t' l l' S _ [I1 I2]]; [auto|]. cbn [forallb]. rewrite (s_lin _ _ S), (s_bl _ _ S). auto. Qed.
Lemma lin_fields ts ts' : Forall2 (fun p p' : string * bx => fst p = fst p' /\ sub (snd p) (snd p')) ts ts' ->
  forallb (fun f => linear sums (snd f)) ts' = true /\ forallb (fun f => bindless (snd f)) ts' = true.
Proof. induction 1 as [|t t' l l' [_ S] _ [I1 I2]]; [auto|]. cbn [forallb]. rewrite (s_lin _ _ S), (s_bl _ _ S). auto. Qed.
Lemma in_list A A' ts ts' : Forall2 sub ts ts' -> forallb (within strict A) ts = true -> closes A A' -> forallb (within strict A') ts' = true.
Proof.
  intros H W C. induction H as [|t t' l l' S _ IH]; [auto|]. cbn [forallb] in *. apply andb_true_iff in W as [W1 W2]. now rewrite (s_in _ _ S A A' W1 C), IH.
Qed.
Lemma in_fields A A' ts ts' : Forall2 (fun p p' : string * bx => fst p = fst p' /\ sub (snd p) (snd p')) ts ts' ->
  forallb (fun f => within strict A (snd f)) ts = true -> closes A A' -> forallb (fun f => within strict A' (snd f)) ts' = true.
Proof.
  intros H W C. induction H as [|t t' l l' [_ S] _ IH]; [auto|]. cbn [forallb] in *. apply andb_true_iff in W as [W1 W2]. now rewrite (s_in _ _ S A A' W1 C), IH.
Qed.
Lemma val_list st1 st ts ts' : Forall2 sub ts ts' -> related st1 st -> Forall2 (fun t t' => le (ev st1 t) (ev st t')) ts ts'.
Proof. intros H R. induction H as [|t t' l l' S _ IH]; constructor; [now apply s_val|exact IH]. Qed.

Lemma each_list b F ts ts' : Forall (fun p => every (plain_in b F) (snd p) = true) mp -> Forall2 sub ts ts' ->
  forallb (every (plain_in b F)) ts = true -> forallb (every (plain_in b F)) ts' = true.
Proof.
  intros M. induction 1 as [|t t' l l' S _ IH]; [auto|]. cbn [forallb]. rewrite !andb_true_iff. intros [H1 H2]. split; [now apply (s_each _ _ S)|auto].
Qed.
Lemma each_fields b F ts ts' : Forall (fun p => every (plain_in b F) (snd p) = true) mp -> Forall2 (fun p p' : string * bx => fst p = fst p' /\ sub (snd p) (snd p')) ts ts' ->
  forallb (fun f => every (plain_in b F) (snd f)) ts = true -> forallb (fun f => every (plain_in b F) (snd f)) ts' = true.
Proof.
  intros M. induction 1 as [|t t' l l' [_ S] _ IH]; [auto|]. cbn [forallb]. rewrite !andb_true_iff. intros [H1 H2]. split; [now apply (s_each _ _ S)|auto].
Qed.

Lemma sub_ok : forall e e', substituted ng mp e = Ok e' -> pre e -> sub e e'.
Proof.
  induction e using bx_ind'; intros e' S P; cbn [substituted] in S.
  - apply Ok_inj in S as <-. split; auto. intros st1 st _. apply le_refl.
  - apply Ok_inj in S as <-. split; auto. intros st1 st _. apply le_refl.
  - destruct (assoc x mp) as [d|] eqn:Q.
    + pose proof (assoc_In _ _ _ Q) as I. pose proof (in_map fst _ _ I) as IK. cbn [fst] in IK.
      rewrite Forall_forall in images. destruct (images _ I) as (D1 & D2 & D3). cbn [snd] in *.
      destruct s.
      * assert (M : sums = true). { destruct P as (P1 & _). unfold linear in P1. cbn in P1. unfold sign_ok in P1. destruct sums; [reflexivity|discriminate]. }
        destruct (negs M _ _ _ I S) as ((N1 & N2 & N3) & N4 & N5). split; auto.
        -- intros A A' W [_ C]. cbn [within] in W. now apply (within_mono strict _ B); [apply (C x)|].
        -- intros st1 st R v. rewrite ev_var. specialize (R x). rewrite Q in R. destruct R as (u & -> & R). cbn [sgn after]. intros E.
           apply after_val in E as (z & E & F). apply to_int_inv in E as ->. apply Val_inj in F as <-. now apply N4.
        -- intros b F M' _. rewrite Forall_forall in M'. apply N5. exact (M' _ I).
      * apply Ok_inj in S as <-. split; auto.
        -- intros A A' W [_ C]. cbn [within] in W. now apply (within_mono strict _ B); [apply (C x)|].
        -- intros st1 st R v. rewrite ev_var. specialize (R x). rewrite Q in R. destruct R as (u & -> & R). cbn [sgn]. intros E. now apply Val_inj in E as <-.
        -- intros b F M' _. rewrite Forall_forall in M'. exact (M' _ I).
    + apply Ok_inj in S as <-. split; try apply P.
      * intros A A' W [C _]. cbn [within] in *. apply C; [exact W|]. now apply assoc_None.
      * intros st1 st R. rewrite !ev_var. specialize (R x). rewrite Q in R. rewrite R. apply le_refl.
      * intros b F _ K. exact K.
  - apply Ok_inj in S as <-. destruct P as (P1 & P2 & P3 & P4 & P5). cbn [exposed every] in P4. unfold exposed in P4. cbn [every] in P4. apply andb_true_iff in P4 as [P4 _].
    split; auto.
    + intros A A' W [C _]. cbn [within] in *. apply (within_mono strict _ (both A (outside ks))); [|now apply within_both].
      unfold both, outside. intros x H. apply andb_true_iff in H as [H1 H2]. apply C; [exact H1|]. intros I. apply mem_In in I. now rewrite I in H2.
    + intros st1 st R. rewrite (ev_agree w false (BNot e) (outside ks) st1 st P4); [apply le_refl|].
      intros x H. unfold outside in H. specialize (R x). destruct (assoc x mp) as [d|] eqn:Q; [|exact R].
      apply assoc_In in Q. apply (in_map fst) in Q. apply mem_In in Q. cbn [fst] in Q. now rewrite Q in H.
  - step S. apply Ok_inj in S as <-. assert (Q := pre_list (BAss o) ts). cbn [every] in Q.
    assert (PL : Forall pre ts) by (apply Q; [intros p X; now apply andb_true_iff in X|reflexivity|exact P]). clear Q.
    pose proof (subs_list ts a H PL E) as F. destruct (lin_list _ _ F) as [L1 L2]. destruct P as (P1 & _). unfold linear in P1. cbn [every] in P1. apply andb_true_iff in P1 as [P1 _].
    split.
    + unfold linear. cbn [every]. fold (linear sums). now rewrite P1.
    + unfold bindless. cbn [every]. exact L2.
    + intros A A' W C. cbn [within] in *. now apply (in_list A A' ts).
    + intros st1 st R. apply le_ass. now apply val_list.
    + intros b G M'. cbn [every]. rewrite !andb_true_iff. intros [H0 H1]. split; [exact H0|]. now apply (each_list b G ts).
  - step S. step S. apply Ok_inj in S as <-.
    assert (Q1 : pre e1) by (revert P; part). assert (Q2 : pre e2) by (revert P; part).
    pose proof (IHe1 _ E Q1) as [A1 A2 A3 A4 A5]. pose proof (IHe2 _ E0 Q2) as [B1 B2 B3 B4 B5].
    destruct P as (P1 & _). unfold linear in P1. cbn [every] in P1. apply andb_true_iff in P1 as [P1 _]. split.
    + unfold linear. cbn [every]. fold (linear sums). now rewrite P1, A1, B1.
    + unfold bindless. cbn [every]. fold bindless. now rewrite A2, B2.
    + intros A A' W C. cbn [within] in *. apply andb_true_iff in W as [W1 W2]. now rewrite (A3 A A' W1 C), (B3 A A' W2 C).
    + intros st1 st R. apply le_bin; auto.
    + intros b G M'. cbn [every]. rewrite !andb_true_iff. intros [H0 [H1 H2]]. auto.
  - step S. step S. apply Ok_inj in S as <-.
    assert (Q1 : pre e1) by (revert P; part). assert (Q2 : pre e2) by (revert P; part).
    pose proof (IHe1 _ E Q1) as [A1 A2 A3 A4 A5]. pose proof (IHe2 _ E0 Q2) as [B1 B2 B3 B4 B5]. split.
    + unfold linear. cbn [every]. fold (linear sums). now rewrite A1, B1.
    + unfold bindless. cbn [every]. fold bindless. now rewrite A2, B2.
    + intros A A' W C. cbn [within] in *. apply andb_true_iff in W as [W1 W2]. now rewrite (A3 A A' W1 C), (B3 A A' W2 C).
    + intros st1 st R. apply le_rel; auto.
    + intros b G M'. cbn [every]. rewrite !andb_true_iff. intros [H0 [H1 H2]]. auto.
  - step S. step S. apply Ok_inj in S as <-.
    assert (Q1 : pre e1) by (revert P; part). assert (Q2 : pre e2) by (revert P; part).
    pose proof (IHe1 _ E Q1) as [A1 A2 A3 A4 A5]. pose proof (IHe2 _ E0 Q2) as [B1 B2 B3 B4 B5]. split.
    + unfold linear. cbn [every]. fold (linear sums). now rewrite A1, B1.
    + unfold bindless. cbn [every]. fold bindless. now rewrite A2, B2.
    + intros A A' W C. cbn [within] in *. apply andb_true_iff in W as [W1 W2]. now rewrite (A3 A A' W1 C), (B3 A A' W2 C).
    + intros st1 st R. apply le_in; auto.
    + intros b G M'. cbn [every]. rewrite !andb_true_iff. intros [H0 [H1 H2]]. auto.
  - step S. apply Ok_inj in S as <-. rename a0 into p'.
    assert (Q1 : pre e) by (revert P; part). pose proof (IHe _ E Q1) as [A1 A2 A3 A4 A5].
    assert (KX : forall x, of_name a = true -> e = BVar x false \/ e = BVar x true -> assoc x mp = None).
    { intros x O Ex. destruct P as (_ & _ & _ & P4 & _). unfold exposed in P4. cbn [every] in P4. apply andb_true_iff in P4 as [P4 _].
      destruct Ex as [-> | ->]; rewrite O in P4; cbn [andb] in P4; apply assoc_None; intros I; apply mem_In in I; rewrite I in P4; discriminate. }
    assert (NM : of_name a = true -> is_name e = true).
    { intros O. destruct P as (P1 & _). unfold linear in P1. cbn [every] in P1. rewrite O in P1. cbn [negb orb] in P1.
      apply andb_true_iff in P1 as [P1 _]. now apply andb_true_iff in P1 as [_ P1]. }
    assert (NM' : of_name a = true -> is_name p' = true).
    { intros O. specialize (NM O). destruct e; try discriminate NM; cbn [substituted] in E; try (step E; apply Ok_inj in E as <-; reflexivity).
      rewrite (KX x O) in E by (destruct neg; auto). apply Ok_inj in E as <-. reflexivity. }
    assert (HD : forall st1 st, related st1 st -> of_name a = true -> same_head w st1 st e p').
    { intros st1 st R O. specialize (NM O). destruct e; try discriminate NM; cbn [substituted] in E.
      - rewrite (KX x O) in E by (destruct neg; auto). apply Ok_inj in E as <-. reflexivity.
      - step E. apply Ok_inj in E as <-. reflexivity.
      - step E. apply Ok_inj in E as <-. cbn [same_head]. exists a0, false. split; [reflexivity|]. intros ->. split; [reflexivity|].
        cbn [below] in H. apply s_val; [|exact R]. apply (H _ E0). revert Q1. part.
      - step E. apply Ok_inj in E as <-. reflexivity.
      - step E. apply Ok_inj in E as <-. reflexivity. }
    split.
    + destruct P as (P1 & _). unfold linear in *. cbn [every] in *. fold (linear sums). apply andb_true_iff in P1 as [P1 _]. apply andb_true_iff in P1 as [P1 P2].
      rewrite P1. unfold linear. rewrite A1, andb_true_r. cbn [andb]. destruct (of_name a) eqn:O; [|reflexivity]. now rewrite NM'.
    + unfold bindless. cbn [every]. exact A2.
    + intros A A' W C. cbn [within] in *. now apply (A3 A).
    + intros st1 st R. apply le_attr; auto.
    + intros b G M'. cbn [every]. rewrite !andb_true_iff. intros [H0 H1]. auto.
  - step S. apply Ok_inj in S as <-. assert (Q1 : pre e) by (revert P; part). pose proof (IHe _ E Q1) as [A1 A2 A3 A4 A5].
    assert (N : s = false). { destruct P as (_ & _ & P3 & _). unfold unsigned in P3. cbn [every] in P3. destruct s; [discriminate|reflexivity]. } subst s.
    split.
    + unfold linear. cbn [every]. fold (linear sums). unfold sign_ok. cbn [negb]. now rewrite orb_true_r, A1.
    + unfold bindless. cbn [every]. exact A2.
    + intros A A' W C. cbn [within] in *. now apply (A3 A).
    + intros st1 st R. apply le_sel; auto.
    + intros b G M'. cbn [every]. rewrite !andb_true_iff. intros [H0 H1]. auto.
  - step S. apply Ok_inj in S as <-. assert (Q := pre_list (fun ts => BCall f ts s) args). cbn [every] in Q.
    assert (PL : Forall pre args) by (apply Q; [intros p X; now apply andb_true_iff in X|reflexivity|exact P]). clear Q.
    pose proof (subs_list args a H PL E) as F. destruct (lin_list _ _ F) as [L1 L2]. destruct P as (P1 & _). unfold linear in P1. cbn [every] in P1. apply andb_true_iff in P1 as [P1 _].
    split.
    + unfold linear. cbn [every]. fold (linear sums). now rewrite P1.
    + unfold bindless. cbn [every]. exact L2.
    + intros A A' W C. cbn [within] in *. now apply (in_list A A' args).
    + intros st1 st R. apply le_call. now apply val_list.
    + intros b G M'. cbn [every]. rewrite !andb_true_iff. intros [H0 H1]. split; [exact H0|]. now apply (each_list b G args).
  - step S. apply Ok_inj in S as <-. assert (Q := pre_list BAgg es). cbn [every] in Q.
    assert (PL : Forall pre es) by (apply Q; [intros p X; now apply andb_true_iff in X|reflexivity|exact P]). clear Q.
    pose proof (subs_list es a H PL E) as F. destruct (lin_list _ _ F) as [L1 L2].
    split.
    + unfold linear. cbn [every]. fold (linear sums). exact L1.
    + unfold bindless. cbn [every]. exact L2.
    + intros A A' W C. cbn [within] in *. apply (in_list (if strict then nothing else A) _ es); auto. now apply closes_nothing.
    + intros st1 st R. apply le_agg. now apply val_list.
    + intros b G M'. cbn [every]. rewrite !andb_true_iff. intros [H0 H1]. split; [exact H0|]. now apply (each_list b G es).
  - step S. step S. apply Ok_inj in S as <-.
    assert (Q1 : pre e1) by (revert P; part). assert (Q2 : pre e2) by (revert P; part).
    pose proof (IHe1 _ E Q1) as [A1 A2 A3 A4 A5]. pose proof (IHe2 _ E0 Q2) as [B1 B2 B3 B4 B5].
    destruct P as (_ & _ & _ & _ & P5). unfold binders_ok in P5. cbn [binders] in P5. inversion P5 as [|? ? [BX KX] _]; subst. split.
    + unfold linear. cbn [every]. fold (linear sums). now rewrite A1, B1.
    + unfold bindless. cbn [every]. fold bindless. now rewrite A2, B2.
    + intros A A' W C. cbn [within] in *. apply andb_true_iff in W as [W1 W2].
      rewrite (A3 _ _ W1 (closes_minus A A' x C BX)), (B3 _ _ W2 (closes_plus A A' x C KX)). reflexivity.
    + intros st1 st R. apply le_quant; auto. intros y. apply B4. now apply related_upd.
    + intros b G M'. cbn [every]. rewrite !andb_true_iff. intros [H0 [H1 H2]]. auto.
  - step S. apply Ok_inj in S as <-. assert (Q1 : pre e) by (revert P; part). pose proof (IHe _ E Q1) as [A1 A2 A3 A4 A5].
    split.
    + unfold linear. cbn [every]. exact A1.
    + unfold bindless. cbn [every]. exact A2.
    + intros A A' W C. cbn [within] in *. now apply (A3 A).
    + intros st1 st R. apply le_conv; auto.
    + intros b G M'. cbn [every]. rewrite !andb_true_iff. intros [H0 H1]. auto.
  - step S. step S. step S. apply Ok_inj in S as <-.
    assert (Q1 : pre e1) by (revert P; part). assert (Q2 : pre e2) by (revert P; part). assert (Q3 : pre e3) by (revert P; part).
    pose proof (IHe1 _ E Q1) as [A1 A2 A3 A4 A5]. pose proof (IHe2 _ E0 Q2) as [B1 B2 B3 B4 B5]. pose proof (IHe3 _ E1 Q3) as [C1 C2 C3 C4 C5].
    destruct P as (_ & _ & _ & _ & P5). unfold binders_ok in P5. cbn [binders] in P5. inversion P5 as [|? ? [BX KX] _]; subst. split.
    + unfold linear. cbn [every]. fold (linear sums). now rewrite A1, B1, C1.
    + unfold bindless. cbn [every]. fold bindless. now rewrite A2, B2, C2.
    + intros A A' W C. cbn [within] in *. apply andb_true_iff in W as [W W3]. apply andb_true_iff in W as [W1 W2].
      rewrite (A3 _ _ W1 (closes_minus A A' x C BX)), (B3 _ _ W2 (closes_plus A A' x C KX)), (C3 _ _ W3 (closes_plus A A' x C KX)). reflexivity.
    + intros st1 st R. apply le_compr; auto; intros y; [apply B4|apply C4]; now apply related_upd.
    + intros b G M'. cbn [every]. rewrite !andb_true_iff. intros [H0 [[H1 H2] H3]]. auto.
  - step S. apply Ok_inj in S as <-. assert (Q := pre_fields (BMsg t) fs). cbn [every] in Q.
    assert (PL : Forall (fun p => pre (snd p)) fs) by (apply Q; [intros p X; now apply andb_true_iff in X|reflexivity|exact P]). clear Q.
    pose proof (subs_fields fs a H PL E) as F. destruct (lin_fields _ _ F) as [L1 L2].
    split.
    + unfold linear. cbn [every]. fold (linear sums). exact L1.
    + unfold bindless. cbn [every]. exact L2.
    + intros A A' W C. cbn [within] in *. now apply (in_fields A A' fs).
    + intros st1 st R. apply le_msg. clear - F R. induction F as [|p p' l l' [H1 H2] _ IH]; constructor; [|exact IH]. split; [exact H1|]. now apply s_val.
    + intros b G M'. cbn [every]. rewrite !andb_true_iff. intros [H0 H1]. split; [exact H0|]. now apply (each_fields b G fs).
  - destruct P as (_ & P2 & _). unfold bindless in P2. cbn in P2. discriminate P2.
Qed.
End Subst.

Section Main.
Variables (w : world) (sums strict : bool).
Variable eqb : bx -> bx -> bool.
Hypothesis eqb_sound : forall a b st, eqb a b = true -> ev w st a = ev w st b.
Notation ev := (ev w).
Notation red := (red w sums strict).
Notation good := (good sums strict).
Notation sat := (sat strict).

Section Step.
Variable simp : bx -> res bx.
Hypothesis HS : forall e e', simp e = Ok e' -> good e -> red e e'.
Lemma red_le e e' st : red e e' -> le (ev st e) (ev st e').
Proof. intros R v. apply R. Qed.
Lemma reds_list ts ts' : map_res simp ts = Ok ts' -> Forall good ts -> Forall2 red ts ts'.
Proof. intros M G. apply map_res_ok in M. induction M as [|t t' l l' E _ IH]; constructor; inversion G; subst; auto. Qed.
Lemma reds_fields ts ts' : map_values simp ts = Ok ts' -> Forall (fun p => good (snd p)) ts -> Forall2 (fun p p' : string * bx => fst p = fst p' /\ red (snd p) (snd p')) ts ts'.
Proof. intros M G. apply map_values_ok in M. induction M as [|t t' l l' [E1 E2] _ IH]; constructor; inversion G; subst; auto. Qed.
Lemma red_bind x data facts x' e' : map_values simp data = Ok facts -> substituted (neg simp) facts x = Ok x' -> simp x' = Ok e' ->
  good (BBind x data) -> red (BBind x data) e' /\ bindless e' = true.
Proof.
  intros M S T [GL GB]. cbn [bindings] in GB. destruct GB as (B1 & B2 & B3 & B4 & B & B5 & B6).
  unfold linear in GL. cbn [every] in GL. apply andb_true_iff in GL as [_ GL]. apply andb_true_iff in GL as [GX GD]. fold (linear sums) in GX, GD.
  assert (GF : Forall (fun p => good (snd p)) data).
  { apply forallb_Forall in GD. rewrite Forall_forall in *. intros p I. split; [now apply GD|]. apply bindless_bindings. now apply B2. }
  pose proof (reds_fields _ _ M GF) as RD.
  assert (KS : map fst facts = map fst data) by (clear - RD; induction RD as [|? ? ? ? [H _] _ IH]; cbn; congruence).
  assert (PR : forall C : scope, (forall y, C y = true -> B y = true) -> pre sums facts C x).
  { intros C HC. split; [exact GX|]. split; [exact B1|]. split; [exact B3|]. split; [now rewrite KS|]. unfold binders_ok. rewrite KS.
    eapply Forall_impl; [|exact B6]. cbn. intros y [Y1 Y2]. split; [|exact Y2]. destruct (C y) eqn:Q; [|reflexivity]. apply HC in Q. congruence. }
  assert (IM : forall C : scope, Forall (fun p => within strict C (snd p) = true) data -> Forall (fun p => image sums strict C (snd p) /\ hn (snd p) = true) facts).
  { intros C HC. clear - RD HC B2. induction RD as [|p p' l l' [_ R] _ IH]; constructor.
    - inversion B2; inversion HC; subst. split; [|apply R]. split; [apply (r_good _ _ _ _ _ R)|]. split; [now apply (r_sat _ _ _ _ _ R no_bindings)|now apply (r_sat _ _ _ _ _ R (Scope C))].
    - inversion B2; inversion HC; subst. auto. }
  assert (SB : forall C : scope, (forall y, C y = true -> B y = true) -> Forall (fun p => within strict C (snd p) = true) data -> sub w sums strict facts C x x').
  { intros C C1 C2. pose proof (IM C C2) as I. apply (sub_ok w sums strict (neg simp)); [|clear S|exact S|now apply PR].
    - eapply Forall_impl; [|exact I]. cbn. tauto.
    - intros MS k d d' Id N. rewrite Forall_forall in I. destruct (I _ Id) as [(I1 & I2 & I3) I4]. cbn [snd] in *.
      destruct (neg_ok w sums strict simp HS d d' N MS (conj I1 (bindless_bindings strict _ I2)) I4) as (N1 & N2 & N3 & N4).
      split; [|split; [exact N4|intros b F; apply (N3 (Each b F))]]. split; [apply N1|]. split; [now apply (N3 no_bindings)|now apply (N3 (Scope C))]. }
  pose proof (SB B (fun y H => H) B5) as SB0.
  assert (GX' : good x') by (split; [apply (s_lin _ _ _ _ _ _ _ SB0)|apply bindless_bindings; apply (s_bl _ _ _ _ _ _ _ SB0)]).
  pose proof (HS _ _ T GX') as R. split; [|exact (r_sat _ _ _ _ _ R no_bindings (s_bl _ _ _ _ _ _ _ SB0))]. split; try apply R.
  - intros [A|b F] Hs.
    2:{ apply (r_sat _ _ _ _ _ R (Each b F)). cbn [BindSound.sat every] in *. apply andb_true_iff in Hs as [_ Hs]. apply andb_true_iff in Hs as [H1 H2].
        apply (s_each _ _ _ _ _ _ _ SB0 b F); [|exact H1]. apply forallb_Forall in H2. clear - RD H2. induction RD as [|p p' l l' [_ Rp] _ IH]; constructor; inversion H2; subst; auto.
        now apply (r_sat _ _ _ _ _ Rp (Each b F)). }
    apply (r_sat _ _ _ _ _ R (Scope A)). cbn [BindSound.sat within] in *. apply andb_true_iff in Hs as [H1 H2].
    assert (CB : Forall (fun p => within strict (both A B) (snd p) = true) data).
    { apply forallb_Forall in H1. rewrite Forall_forall in *. intros p I. apply within_both; [now apply H1|]. apply (within_false strict). now apply B5. }
    assert (SC : sub w sums strict facts (both A B) x x').
    { apply SB; [|exact CB]. unfold both. intros y Y. now apply andb_true_iff in Y. }
    apply (s_in _ _ _ _ _ _ _ SC (plus_all A (map fst data)) A H2). split; rewrite KS; unfold plus_all, both.
    + intros y Y N. destruct (mem y (map fst data)) eqn:Q; [now apply mem_In in Q|exact Y].
    + intros k _ _ y Y. now apply andb_true_iff in Y.
  - intros st v E. apply (r_val _ _ _ _ _ R). rewrite ev_bind in E. apply after_val in E as (vs & E1 & E2). apply each_val in E1.
    revert E2. apply (s_val _ _ _ _ _ _ _ SB0). clear - E1 RD.
    revert vs E1. induction RD as [|[k d] [k' d'] l l' [K R] _ IH]; intros vs E; inversion E as [|? b ? r Eb F]; subst.
    + intros y. reflexivity.
    + cbn [fst snd] in *. subst k'. apply after_val in Eb as (v & Ev & Eb). apply Val_inj in Eb as <-. specialize (IH _ F).
      intros y. rewrite assoc_cons. cbn [upd_all]. unfold upd. rewrite (String.eqb_sym k y). destruct (String.eqb y k); [|apply IH].
      exists v. split; [reflexivity|]. now apply (r_val _ _ _ _ _ R).
Qed.
End Step.

Lemma sat_rel c o l r : sat c (BRel o l r) = sat c l && sat c r.
Proof. now destruct c. Qed.
Lemma sat_bin c o l r : sat c (BBin o l r) = sat c l && sat c r.
Proof. now destruct c. Qed.
Lemma sat_in c s l r : sat c (BIn s l r) = sat c l && sat c r.
Proof. now destruct c. Qed.
Lemma sat_not c p : sat c (BNot p) = sat c p.
Proof. now destruct c. Qed.
Lemma sat_conv c t p : sat c (BConv t p) = sat c p.
Proof. now destruct c. Qed.
Lemma sat_attr c a p s : sat c (BAttr a p s) = sat c p.
Proof. now destruct c. Qed.
Lemma sat_quant0 b F a x l r : sat (Each b F) (BQuant a x l r) = sat (Each b F) l && sat (Each b F) r.
Proof. reflexivity. Qed.
Lemma sat_compr0 b F x l m r : sat (Each b F) (BCompr x l m r) = sat (Each b F) l && sat (Each b F) m && sat (Each b F) r.
Proof. reflexivity. Qed.
Ltac good_tac := unfold BindSound.good; unfold linear at 1; cbn [every bindings]; fold (linear sums); rewrite ?andb_true_iff; tauto.
Lemma good_rel o l r : good (BRel o l r) <-> good l /\ good r.
Proof. good_tac. Qed.
Lemma good_in s l r : good (BIn s l r) <-> good l /\ good r.
Proof. good_tac. Qed.
Lemma good_bin o l r : good (BBin o l r) <-> (match o with OSub => sums | _ => negb sums end) = true /\ good l /\ good r.
Proof. good_tac. Qed.
Lemma good_conv t p : good (BConv t p) <-> good p.
Proof. good_tac. Qed.
Lemma good_attr a p s : good (BAttr a p s) <-> (sign_ok sums s = true /\ negb (of_name a) || is_name p = true) /\ good p.
Proof. good_tac. Qed.
Lemma good_quant a x l r : good (BQuant a x l r) <-> good l /\ good r.
Proof. good_tac. Qed.
Lemma good_compr x l m r : good (BCompr x l m r) <-> good l /\ good m /\ good r.
Proof. good_tac. Qed.
Lemma good_agg ts : good (BAgg ts) <-> Forall good ts.
Proof.
  unfold BindSound.good. unfold linear at 1. cbn [every bindings]. fold (linear sums). rewrite andb_true_l, bindings_list, forallb_Forall, !Forall_forall.
  split; [intros [H1 H2] t I; split; auto|intros H; split; intros t I; now apply H].
Qed.
Lemma good_msg t fs : good (BMsg t fs) <-> Forall (fun p => good (snd p)) fs.
Proof.
  unfold BindSound.good. unfold linear at 1. cbn [every bindings]. fold (linear sums). rewrite andb_true_l, bindings_fields, forallb_Forall, !Forall_forall.
  split; [intros [H1 H2] p I; split; auto|intros H; split; intros p I; now apply H].
Qed.
Lemma red_good_list ts ts' : Forall2 red ts ts' -> Forall good ts'.
Proof. induction 1 as [|? ? ? ? R _ IH]; constructor; [apply R|exact IH]. Qed.
Lemma red_sat_list c ts ts' : Forall2 red ts ts' -> forallb (sat c) ts = true -> forallb (sat c) ts' = true.
Proof.
  induction 1 as [|? ? ? ? R _ IH]; [auto|]. cbn [forallb]. rewrite !andb_true_iff. intros [H1 H2]. split; [now apply (r_sat _ _ _ _ _ R)|auto].
Qed.
Lemma red_sat_fields c ts ts' : Forall2 (fun p p' : string * bx => fst p = fst p' /\ red (snd p) (snd p')) ts ts' ->
  forallb (fun p => sat c (snd p)) ts = true -> forallb (fun p => sat c (snd p)) ts' = true.
Proof.
  induction 1 as [|? ? ? ? [_ R] _ IH]; [auto|]. cbn [forallb]. rewrite !andb_true_iff. intros [H1 H2]. split; [now apply (r_sat _ _ _ _ _ R)|auto].
Qed.

Lemma simplified_ok : forall n e e', simplified eqb n e = Ok e' -> good e -> red e e'.
Proof.
  induction n as [|n HS]; [discriminate|]. intros e e' S G.
  assert (ID : hn e = true -> red e e) by (intros Hh; split; auto).
  destruct e; cbn [simplified] in S.
  - apply Ok_inj in S as <-. now apply ID.
  - apply Ok_inj in S as <-. now apply ID.
  - apply Ok_inj in S as <-. now apply ID.
  - assert (GE : good e) by exact G. destruct e as [| | | | | |o l r| | | | | | | | | |].
    7:{ step S. step S. apply Ok_inj in S as <-. apply good_rel in GE as [GL GR].
        destruct (HS _ _ E GL) as [L1 L2 L3 L4]. destruct (HS _ _ E0 GR) as [R1 R2 R3 R4]. split.
        - now apply good_rel.
        - reflexivity.
        - intros c. rewrite sat_not, !sat_rel, !andb_true_iff. intros [H1 H2]. auto.
        - intros st v H. apply (le_rel w st st (inverse o) l r); [intros u; apply L4|intros u; apply R4|]. now apply inverse_val. }
    all: step S; apply Ok_inj in S as <-; destruct (HS _ _ E GE) as [L1 L2 L3 L4]; split; [exact L1|exact L2|intros c; rewrite !sat_not; apply L3|intros st; apply le_not; intros u; apply L4].
  - step S. destruct a as [total terms]. apply good_ass in G as [M G].
    destruct (collect_ok w sums strict (simplified eqb n) HS o n ts _ _ _ _ E G (Forall_nil _)) as (C1 & C2 & C3).
    destruct (finish_ok w sums strict o total terms M C1) as (F1 & F2 & F3 & F4).
    assert (FV : forall st v, ev st (BAss o ts) = Val v -> ev st (finish o total terms) = Val v).
    { intros st v H. apply ass_val in H as (zs & H1 & ->). destruct (C3 st zs [] (neutral_dom o) H1 (Forall2_nil _)) as (us & D1 & D2 & D3).
      rewrite (F4 st us D2 D1), D3. do 2 f_equal. cbn [tot fold_right]. pose proof (tot_dom o zs (sem_dom _ _ _ _ _ H1)) as D.
      rewrite op_neutral_l. now rewrite (op_neutral_r o _ D). }
    assert (FS : forall c, sat c (BAss o ts) = true -> sat c (finish o total terms) = true).
    { intros c H. rewrite sat_ass in H. apply forallb_Forall in H. apply F3. apply C2; auto. }
    assert (AB : forall o', red (BAss o ts) (absorb eqb o' (finish o total terms))).
    { intros o'. destruct (absorb_ok w sums strict eqb eqb_sound o' _ F1 F2) as (X1 & X2 & X3 & X4). split; auto. }
    destruct o; try (apply Ok_inj in S as <-; solve [apply AB|now split]).
    destruct (add_tail_ok w sums strict eqb eqb_sound _ HS _ _ S (M eq_refl) F1 F2) as (X1 & X2 & X3 & X4). split; auto.
  - step S. step S. apply good_bin in G as (M & GL & GR).
    destruct (HS _ _ E GL) as [L1 L2 L3 L4]. destruct (HS _ _ E0 GR) as [R1 R2 R3 R4].
    assert (V : forall st, le (ev st (BBin o e1 e2)) (ev st (BBin o a a0))) by (intros st; apply le_bin; [intros u; apply L4|intros u; apply R4]).
    assert (ST : forall c, sat c (BBin o e1 e2) = true -> sat c a = true /\ sat c a0 = true) by (intros c; rewrite sat_bin, andb_true_iff; intros [H1 H2]; auto).
    assert (OTHER : (match o with
          | OSub => match neg (simplified eqb n) a0 with Ok nr => Ok (BAss OAdd [a; nr]) | Err s => Err s end
          | _ => Ok (BBin o a a0)
          end) = Ok e' -> red (BBin o e1 e2) e').
    { intros T. destruct o; try (apply Ok_inj in T as <-; split; [now apply good_bin|reflexivity|intros c H; rewrite sat_bin; apply ST in H as [-> ->]; reflexivity|exact V]).
      step T. apply Ok_inj in T as <-. destruct (neg_ok w sums strict _ HS _ _ E1 M R1 R2) as (N1 & N2 & N3 & N4). split.
      - apply good_ass. split; [auto|]. repeat constructor; try apply L1; apply N1.
      - cbn [hn forallb]. now rewrite L2, N2.
      - intros c H. apply ST in H as [H1 H2]. rewrite sat_ass. cbn [forallb]. now rewrite H1, (N3 c H2).
      - intros st v H. apply V in H. rewrite ev_bin in H. apply after_val in H as (x & Ex & H). apply after_val in H as (y & Ey & H).
        unfold binv in H. apply after_val in H as (i & Ei & H). apply after_val in H as (j & Ej & H). apply to_int_inv in Ei as ->. apply to_int_inv in Ej as ->.
        cbn [arith after] in H. apply Val_inj in H as <-. rewrite ev_ass. cbn [each]. rewrite Ex, (N4 _ _ Ey). cbn [after assv each to_int fold_right]. do 2 f_equal. lia. }
    destruct a as [|x| | | | | | | | | | | | | | |]; try exact (OTHER S). destruct a0 as [|y| | | | | | | | | | | | | | |]; try exact (OTHER S).
    destruct (bin_num_ok w sums strict o x y e' S) as (X1 & X2 & X3 & X4); [now apply good_bin|]. split; auto. intros st v H. apply X4. now apply V.
  - step S. step S. apply Ok_inj in S as <-. apply good_rel in G as (GL & GR).
    destruct (HS _ _ E GL) as [L1 L2 L3 L4]. destruct (HS _ _ E0 GR) as [R1 R2 R3 R4].
    destruct (rel_simp_ok w sums strict eqb eqb_sound o a a0 L1 R1) as (X1 & X2 & X3 & X4). split; auto.
    + intros c. rewrite sat_rel, andb_true_iff. intros [H1 H2]. auto.
    + intros st v H. apply X4. revert v H. apply le_rel; [intros u; apply L4|intros u; apply R4].
  - step S. step S. apply Ok_inj in S as <-. apply good_in in G as (GL & GR).
    destruct (HS _ _ E GL) as [L1 L2 L3 L4]. destruct (HS _ _ E0 GR) as [R1 R2 R3 R4]. split.
    + now apply good_in.
    + reflexivity.
    + intros c. rewrite !sat_in, !andb_true_iff. intros [H1 H2]. auto.
    + intros st. apply le_in; [intros u; apply L4|intros u; apply R4].
  - step S. apply Ok_inj in S as <-. rename a0 into p'. apply good_attr in G as ((M & N) & GL).
    destruct (HS _ _ E GL) as [L1 L2 L3 L4].
    assert (HD : of_name a = true -> is_name p' = true /\ (forall st, same_head w st st e p')).
    { intros O. rewrite O in N. cbn in N. destruct n as [|n]; [discriminate E|].
      destruct e; try discriminate N; cbn [simplified] in E; try (apply Ok_inj in E as <-; split; [reflexivity|]; intros st; try reflexivity);
        try (step E; apply Ok_inj in E as <-; split; [reflexivity|]; intros st; reflexivity).
      cbn [same_head]. do 2 eexists. split; [reflexivity|]. intros ->. split; [reflexivity|apply le_refl]. }
    split.
    + apply good_attr. repeat split; auto; try apply L1. destruct (of_name a) eqn:O; [|reflexivity]. cbn. now apply HD.
    + reflexivity.
    + intros c. rewrite !sat_attr. apply L3.
    + intros st. apply le_attr; [intros u; apply L4|]. intros O. now apply HD.
  - apply Ok_inj in S as <-. now apply ID.
  - apply Ok_inj in S as <-. now apply ID.
  - step S. apply Ok_inj in S as <-. apply good_agg in G. pose proof (reds_list _ HS _ _ E G) as R. split.
    + apply good_agg. now apply (red_good_list es).
    + reflexivity.
    + intros [A|b F]; [apply (red_sat_list (Scope (if strict then nothing else A)) _ _ R)|apply (red_sat_list (Each b F) _ _ R)].
    + intros st. apply le_agg. clear - R. induction R; constructor; auto. now apply red_le.
  - step S. step S. apply Ok_inj in S as <-. apply good_quant in G as (GL & GR).
    destruct (HS _ _ E GL) as [L1 L2 L3 L4]. destruct (HS _ _ E0 GR) as [R1 R2 R3 R4]. split.
    + now apply good_quant.
    + reflexivity.
    + intros [A|b F] H.
      * cbn [BindSound.sat within] in *. apply andb_true_iff in H as [H1 H2]. apply andb_true_iff. split; [exact (L3 (Scope _) H1)|exact (R3 (Scope _) H2)].
      * rewrite sat_quant0 in *. apply andb_true_iff in H as [H1 H2]. apply andb_true_iff. split; [apply (L3 (Each b F) H1)|apply (R3 (Each b F) H2)].
    + intros st. apply le_quant; [intros u; apply L4|intros y u; apply R4].
  - step S. apply Ok_inj in S as <-. apply good_conv in G. destruct (HS _ _ E G) as [L1 L2 L3 L4]. split.
    + now apply good_conv.
    + reflexivity.
    + intros c. rewrite !sat_conv. apply L3.
    + intros st. apply le_conv. intros u. apply L4.
  - step S. step S. step S. apply Ok_inj in S as <-. apply good_compr in G as (GL & GM & GR).
    destruct (HS _ _ E GL) as [L1 L2 L3 L4]. destruct (HS _ _ E0 GM) as [M1 M2 M3 M4]. destruct (HS _ _ E1 GR) as [R1 R2 R3 R4]. split.
    + now apply good_compr.
    + reflexivity.
    + intros [A|b F] H.
      * cbn [BindSound.sat within] in *. apply andb_true_iff in H as [H H3]. apply andb_true_iff in H as [H1 H2]. apply andb_true_iff. split; [apply andb_true_iff; split; [exact (L3 (Scope _) H1)|exact (M3 (Scope _) H2)]|exact (R3 (Scope _) H3)].
      * rewrite sat_compr0 in *. apply andb_true_iff in H as [H H3]. apply andb_true_iff in H as [H1 H2]. apply andb_true_iff. split; [apply andb_true_iff; split; [apply (L3 (Each b F) H1)|apply (M3 (Each b F) H2)]|apply (R3 (Each b F) H3)].
    + intros st. apply le_compr; [intros u; apply L4|intros y u; apply M4|intros y u; apply R4].
  - step S. apply Ok_inj in S as <-. apply good_msg in G. pose proof (reds_fields _ HS _ _ E G) as R. split.
    + apply good_msg. clear - R. induction R as [|? ? ? ? [_ R] _ IH]; constructor; auto. apply R.
    + reflexivity.
    + intros [A|b F]; [apply (red_sat_fields (Scope A) _ _ R)|apply (red_sat_fields (Each b F) _ _ R)].
    + intros st. apply le_msg. clear - R. induction R as [|? ? ? ? [K R] _ IH]; constructor; auto. split; [exact K|]. now apply red_le.
  - step S. step S. exact (proj1 (red_bind _ HS e data a a0 e' E E0 S G)).
Qed.
End Main.
