(** C56: the formulas given to z3 mean what the expressions mean. *)
From Coq Require Import String Ascii List ZArith Bool Lia Permutation.
From Verif Require Import Base Expr ExprEval ExprFacts Ident Solver SolverFacts GenSpec Typing ExprType P_ExprType Smt.
Import ListNotations.
Local Open Scope string_scope.
Local Open Scope list_scope.
Local Open Scope Z_scope.

(** ** The translation and Solver.v *)

(** the interpretation of names that an interpretation of constants gives *)
Definition by_name (i : zinterp) : interp :=
  mkInterp (fun n => c_const i (name_text n)) (c_div0 i) (c_mod0 i) (c_pow i).
Definition value (i : zinterp) (t : zterm) : val :=
  match class_of t with ZBool => VBool (holds i t) | ZInt => VInt (holds_int i t) end.

Lemma same_length_filter {A} (p : A -> bool) l : Nat.eqb (List.length l) (List.length (filter p l)) = forallb p l.
Proof.
  assert (L : forall l, (List.length (filter p l) <= List.length l)%nat).
  { clear l. induction l as [|x l IH]; cbn; [lia|]. destruct (p x); cbn; lia. }
  induction l as [|x l IH]; [reflexivity|]. cbn [filter forallb]. destruct (p x); cbn [andb]; [exact IH|].
  apply Nat.eqb_neq. specialize (L l). cbn [List.length]. lia.
Qed.
Lemma filter_all {A} (p : A -> bool) l : forallb p l = true -> filter p l = l.
Proof.
  induction l as [|x l IH]; [reflexivity|]. cbn. destruct (p x); [|discriminate]. intros H. now rewrite IH.
Qed.
(** the class that z3expr finds is that of Solver.v, and the errors are the same *)
Lemma sort_of_z3expr e : sort_of e = match z3expr e with Ok t => Ok (class_of t) | Err w => Err w end.
Proof.
  induction e as [| |v0|n0 s0|e IHe|o ts IHts|o e1 e2 IHe1 IHe2|o e1 e2 IHe1 IHe2] using expr_ind'.
  - reflexivity.
  - reflexivity.
  - reflexivity.
  - cbn. destruct s0; reflexivity.
  - cbn [sort_of z3expr]. rewrite IHe. destruct (z3expr e) as [t|]; cbn [bind]; [|reflexivity].
    unfold is_bool. destruct (class_of t); reflexivity.
  - cbn [sort_of z3expr].
    assert (SQ : sequence (map sort_of ts) = match sequence (map z3expr ts) with Ok zs => Ok (map class_of zs) | Err w => Err w end).
    { induction IHts as [|x ts H F IH]; [reflexivity|]. cbn [map sequence]. rewrite H. destruct (z3expr x) as [t|]; cbn [bind]; [|reflexivity].
      rewrite IH. destruct (sequence (map z3expr ts)); reflexivity. }
    rewrite SQ. destruct (sequence (map z3expr ts)) as [zs|]; cbn [bind]; [|reflexivity].
    rewrite same_length_filter.
    assert (FE : forallb (zsort_eqb (if boolean_op o then ZBool else ZInt)) (map class_of zs) =
                 forallb (if boolean_op o then is_bool else is_arith) zs).
    { clear. induction zs as [|z zs IH]; [reflexivity|]. cbn [map forallb]. rewrite IH. f_equal.
      unfold is_bool, is_arith. destruct (boolean_op o), (class_of z); reflexivity. }
    rewrite FE. destruct (forallb _ zs); [|reflexivity]. destruct (negb _); [|reflexivity]. destruct o; reflexivity.
  - cbn [sort_of z3expr]. rewrite IHe1, IHe2. destruct (z3expr e1) as [a|]; cbn [bind]; [|reflexivity].
    destruct (z3expr e2) as [b|]; cbn [bind]; [|reflexivity]. unfold is_arith. destruct (_ && _)%bool; [|reflexivity]. destruct o; reflexivity.
  - cbn [sort_of z3expr]. rewrite IHe1, IHe2. destruct (z3expr e1) as [a|]; cbn [bind]; [|destruct o; reflexivity].
    destruct (z3expr e2) as [b|]; cbn [bind]; [|destruct o; reflexivity]. unfold is_arith.
    destruct o; try (destruct (_ && _)%bool; reflexivity); destruct (coerced a b); reflexivity.
Qed.

Lemma sequence_Forall2 {A B} (f : A -> res B) l : forall ys, sequence (map f l) = Ok ys -> Forall2 (fun x y => f x = Ok y) l ys.
Proof.
  induction l as [|x l IH]; intros ys; cbn [map sequence].
  - intros H. apply Ok_inj in H. subst. constructor.
  - destruct (f x) as [y|] eqn:E; cbn [bind]; [|discriminate]. destruct (sequence (map f l)) as [t|]; cbn [bind]; [|discriminate].
    intros H. apply Ok_inj in H. subst. constructor; auto.
Qed.

(** Everything that is built is accepted by z3 and has the value that Solver.v gives. *)
Lemma z3expr_value i e : forall t, z3expr e = Ok t -> sorted t (class_of t) /\ zeval (by_name i) e = value i t.
Proof.
  induction e as [| |v0|n0 s0|e IHe|o ts IHts|o e1 e2 IHe1 IHe2|o e1 e2 IHe1 IHe2] using expr_ind'; intros t H; cbn [z3expr] in H.
  - apply Ok_inj in H. subst. split; [constructor|reflexivity].
  - apply Ok_inj in H. subst. split; [constructor|reflexivity].
  - apply Ok_inj in H. subst. split; [constructor|reflexivity].
  - apply Ok_inj in H. subst. destruct s0; (split; [repeat constructor|reflexivity]).
  - destruct (z3expr e) as [u|]; cbn [bind] in H; [|discriminate]. destruct (is_bool u) eqn:B; [|discriminate]. apply Ok_inj in H. subst.
    destruct (IHe u eq_refl) as [S E]. unfold is_bool in B. destruct (class_of u) eqn:C; [|discriminate].
    split; [constructor; exact S|]. cbn [zeval]. rewrite E. unfold value. rewrite C. reflexivity.
  - destruct (sequence (map z3expr ts)) as [zs|] eqn:SQ; cbn [bind] in H; [|discriminate]. apply sequence_Forall2 in SQ.
    rewrite same_length_filter in H. destruct (forallb _ zs) eqn:FB; [|discriminate]. rewrite filter_all in H by exact FB.
    destruct (Nat.eqb_spec (List.length ts) 0) as [|NZ]; [discriminate|]. cbn [negb] in H. apply Ok_inj in H.
    assert (NN : zs <> []). { intros ->. inversion SQ; subst. now elim NZ. }
    assert (K : Forall (fun t => sorted t (class_of t)) zs /\ map (zeval (by_name i)) ts = map (value i) zs).
    { clear -IHts SQ. revert IHts. induction SQ as [|x y ts zs E F IH]; intros A; [split; [constructor|reflexivity]|].
      inversion A as [|? ? Hx Ht]; subst. destruct (IH Ht) as [IA IB]. destruct (Hx y E) as [S V]. split; [now constructor|].
      cbn [map]. now rewrite V, IB. }
    destruct K as [S V].
    assert (W : forall k, forallb (fun t => zsort_eqb (class_of t) k) zs = true -> Forall (fun t => sorted t k) zs).
    { intros k. clear -S. induction S as [|z zs H F IH]; [constructor|]. cbn [forallb]. intros B. apply andb_prop in B as [B1 B2].
      constructor; [|auto]. destruct (class_of z), k; try discriminate; exact H. }
    assert (VB : forallb (fun t => zsort_eqb (class_of t) ZBool) zs = true -> map truth (map (value i) zs) = map (holds i) zs).
    { clear. induction zs as [|z zs IH]; [reflexivity|]. cbn [forallb map]. intros B. apply andb_prop in B as [B1 B2].
      rewrite IH by exact B2. unfold value at 1. destruct (class_of z); [reflexivity|discriminate]. }
    assert (VI : forallb (fun t => zsort_eqb (class_of t) ZInt) zs = true -> map number (map (value i) zs) = map (holds_int i) zs).
    { clear. induction zs as [|z zs IH]; [reflexivity|]. cbn [forallb map]. intros B. apply andb_prop in B as [B1 B2].
      rewrite IH by exact B2. unfold value at 1. destruct (class_of z); [discriminate|reflexivity]. }
    assert (FA : forall vs, forallb truth vs = forallb (fun b => b) (map truth vs)) by (clear; induction vs; cbn; congruence).
    assert (EA : forall vs, existsb truth vs = existsb (fun b => b) (map truth vs)) by (clear; induction vs; cbn; congruence).
    assert (FH : forallb (fun b => b) (map (holds i) zs) = forallb (holds i) zs) by (clear; induction zs; cbn; congruence).
    assert (EH : existsb (fun b => b) (map (holds i) zs) = existsb (holds i) zs) by (clear; induction zs; cbn; congruence).
    destruct o; cbn [boolean_op] in *; subst t; cbn [class_of]; (split; [constructor; auto|]); cbn [zeval]; rewrite V.
    1, 2: rewrite FA, VB, FH by exact FB; reflexivity.
    1, 2: rewrite EA, VB, EH by exact FB; reflexivity.
    all: rewrite VI by exact FB; reflexivity.
  - destruct (z3expr e1) as [a|]; cbn [bind] in H; [|discriminate]. destruct (z3expr e2) as [b|]; cbn [bind] in H; [|discriminate].
    destruct (IHe1 a eq_refl) as [S1 V1], (IHe2 b eq_refl) as [S2 V2]. unfold is_arith in H.
    cbn [zeval]. rewrite V1, V2. unfold value.
    destruct (class_of a) eqn:C1, (class_of b) eqn:C2; try discriminate. cbn [zsort_eqb andb number] in *. apply Ok_inj in H.
    destruct o; subst t; cbn [class_of]; (split; [constructor; assumption|reflexivity]).
  - destruct (z3expr e1) as [a|]; [|destruct o; discriminate]. destruct (z3expr e2) as [b|]; [|destruct o; discriminate].
    destruct (IHe1 a eq_refl) as [S1 V1], (IHe2 b eq_refl) as [S2 V2]. cbn [zeval]. rewrite V1, V2. unfold is_arith, coerced in H.
    cbn [bind] in H. unfold value.
    assert (BN : forall x y : bool, ((if x then 1 else 0) =? (if y then 1 else 0)) = Bool.eqb x y) by (intros [] []; reflexivity).
    destruct o, (class_of a) eqn:C1, (class_of b) eqn:C2; cbn [zsort_eqb andb] in H; try discriminate; apply Ok_inj in H; subst t; cbn [class_of];
      (split; [econstructor; try eassumption; constructor; assumption|]); cbn [number holds holds_int]; unfold is_bool; rewrite ?C1, ?C2; cbn [zsort_eqb class_of];
      rewrite ?BN; reflexivity.
Qed.

(** ** Names *)

Fixpoint no_quote (s : string) : Prop :=
  match s with "" => True | String c t => c <> "'"%char /\ no_quote t end.
(** identifiers have no apostrophes (ID, identifier.py:14-27, and the grammar of C35) *)
Definition written (e : expr) : Prop := forall n, In n (names e) -> no_quote (name_id n).

Fixpoint split_quote (s : string) : string * option string :=
  match s with
  | "" => ("", None)
  | String c t => if Ascii.eqb c "'" then ("", Some t) else let (a, b) := split_quote t in (String c a, b)
  end.
Lemma split_plain s : no_quote s -> split_quote s = (s, None).
Proof.
  induction s as [|c s IH]; [reflexivity|]. intros [N Q]. cbn [split_quote]. destruct (Ascii.eqb_spec c "'"); [contradiction|]. now rewrite IH.
Qed.
Lemma split_quoted s r : no_quote s -> split_quote (s ++ String "'" r) = (s, Some r).
Proof.
  induction s as [|c s IH]; [reflexivity|]. intros [N Q]. cbn [split_quote append]. destruct (Ascii.eqb_spec c "'"); [contradiction|]. now rewrite IH.
Qed.
Definition text_name (s : string) : name :=
  match split_quote s with
  | (x, None) => NVar x
  | (x, Some r) => NAttr (if String.eqb r "Size" then ASize else if String.eqb r "Length" then ALength else if String.eqb r "First" then AFirst else ALast) x
  end.
Lemma text_name_back n : no_quote (name_id n) -> text_name (name_text n) = n.
Proof.
  destruct n as [x|a x]; cbn [name_id name_text]; intros Q; unfold text_name.
  - now rewrite split_plain.
  - rewrite split_quoted by exact Q. destruct a; reflexivity.
Qed.

(** z3 sees the constants of an assignment of numbers to identifiers *)
Definition seen (g : env) : zinterp := mkZinterp (fun s => num g (low_name (text_name s))) (fun _ => 0) (fun _ => 0) (fun _ _ => 1).
Lemma zeval_ext i j e : (forall n, In n (names e) -> z_name i n = z_name j n) -> z_div0 i = z_div0 j -> z_mod0 i = z_mod0 j -> z_pow i = z_pow j ->
  zeval i e = zeval j e.
Proof.
  intros N D M P. induction e as [| |v0|n0 s0|e IHe|o ts IHts|o e1 e2 IHe1 IHe2|o e1 e2 IHe1 IHe2] using expr_ind'; cbn [zeval names] in *; auto.
  - rewrite (N n0) by now left. reflexivity.
  - now rewrite IHe.
  - assert (E : map (zeval i) ts = map (zeval j) ts).
    { apply map_ext_in. intros t I. rewrite Forall_forall in IHts. apply IHts; [exact I|]. intros n J. apply N. apply in_flat_map. eauto. }
    now rewrite E.
  - rewrite IHe1, IHe2, D, M, P by (intros n I; apply N, in_or_app; auto). reflexivity.
  - rewrite IHe1, IHe2 by (intros n I; apply N, in_or_app; auto). reflexivity.
Qed.
Lemma names_low e : names (low e) = map low_name (names e).
Proof.
  induction e as [| |v0|n0 s0|e IHe|o ts IHts|o e1 e2 IHe1 IHe2|o e1 e2 IHe1 IHe2] using expr_ind'; cbn [names low map]; auto.
  - induction IHts as [|t ts H F IH]; [reflexivity|]. cbn [map flat_map]. now rewrite H, IH, map_app.
  - now rewrite IHe1, IHe2, map_app.
  - now rewrite IHe1, IHe2, map_app.
Qed.
Lemma zeval_low i j e : (forall n, In n (names e) -> z_name i n = z_name j (low_name n)) -> z_div0 i = z_div0 j -> z_mod0 i = z_mod0 j -> z_pow i = z_pow j ->
  zeval i e = zeval j (low e).
Proof.
  intros N D M P. induction e as [| |v0|n0 s0|e IHe|o ts IHts|o e1 e2 IHe1 IHe2|o e1 e2 IHe1 IHe2] using expr_ind'; cbn [zeval names low] in *; auto.
  - rewrite (N n0) by now left. reflexivity.
  - now rewrite IHe.
  - assert (E : map (zeval i) ts = map (zeval j) (map low ts)).
    { rewrite map_map. apply map_ext_in. intros t I. rewrite Forall_forall in IHts. apply IHts; [exact I|]. intros n J. apply N. apply in_flat_map. eauto. }
    now rewrite E.
  - rewrite IHe1, IHe2, D, M, P by (intros n I; apply N, in_or_app; auto). reflexivity.
  - rewrite IHe1, IHe2 by (intros n I; apply N, in_or_app; auto). reflexivity.
Qed.

(** a term has a sort and a value *)
Definition means (i : zinterp) (t : zterm) (v : val) : Prop :=
  match v with VBool b => sorted t ZBool /\ holds i t = b | VInt z => sorted t ZInt /\ holds_int i t = z end.
Lemma value_means i t : sorted t (class_of t) -> means i t (value i t).
Proof. unfold value. destruct (class_of t); intros S; split; auto. Qed.

(** ** C56 *)

(** z3 accepts every term that is built. *)
Theorem C56_sorted : forall e t, z3expr e = Ok t -> sorted t ZBool \/ sorted t ZInt.
Proof.
  intros e t H. destruct (z3expr_value (mkZinterp (fun _ => 0) (fun _ => 0) (fun _ => 0) (fun _ _ => 0)) e t H) as [S _].
  destruct (class_of t); auto.
Qed.
(** Well-typed expressions without Boolean variables are translated. *)
Theorem C56_typed : forall e g, check_expr g e TAny = [] -> no_empty e -> (forall x, g x <> TAny) -> (forall x, g x <> BOOLEAN) ->
  exists t, z3expr e = Ok t /\ sorted t (if ty_eqb (type_of g e) BOOLEAN then ZBool else ZInt).
Proof.
  intros e g C N A B. pose proof (C47_z3 e g C N A B) as S. rewrite sort_of_z3expr in S.
  destruct (z3expr e) as [t|] eqn:E; [|discriminate]. apply Ok_inj in S. exists t. split; [reflexivity|]. rewrite <- S.
  exact (proj1 (z3expr_value (mkZinterp (fun _ => 0) (fun _ => 0) (fun _ => 0) (fun _ _ => 0)) e t E)).
Qed.
(** For every assignment of numbers to identifiers there is one interpretation of the
    constants under which the terms of all expressions have the value of the expression. *)
Theorem C56_meaning : forall g, int_env g -> exists i, forall e t v, written e -> tame g (low e) -> z3expr e = Ok t ->
  eval_sc g (low e) = Some v -> means i t v.
Proof.
  intros g IE. exists (seen g). intros e t v W T H E. destruct (z3expr_value (seen g) e t H) as [S V].
  assert (Z : zeval (by_name (seen g)) e = v).
  { rewrite (zeval_low _ (interp_of g)); try reflexivity; [now apply agree|].
    intros n I. cbn. now rewrite text_name_back by now apply W. }
  rewrite Z in V. rewrite V. now apply value_means.
Qed.

(** one spelling for each identifier *)
Definition one_spelling (es : list expr) : Prop := forall n m, In n (flat_map names es) -> In m (flat_map names es) ->
  low_name n = low_name m -> n = m.
Definition meant (i : zinterp) (es : list expr) : env := fun n =>
  match find (fun m => name_eqb (low_name m) n) (flat_map names es) with Some m => VInt (c_const i (name_text m)) | None => VInt 0 end.
Lemma name_eqb_refl n : name_eqb n n = true.
Proof. destruct n as [x|[] x]; cbn; apply String.eqb_refl. Qed.
Lemma name_eqb_eq n m : name_eqb n m = true -> n = m.
Proof. destruct n as [x|[] x], m as [y|[] y]; cbn; try discriminate; intros H; apply String.eqb_eq in H; congruence. Qed.
Lemma meant_name i es n : one_spelling es -> In n (flat_map names es) -> meant i es (low_name n) = VInt (c_const i (name_text n)).
Proof.
  intros O I. unfold meant. destruct (find _ _) as [m|] eqn:F.
  - apply find_some in F as [J E]. apply name_eqb_eq in E. now rewrite (O m n J I E).
  - apply find_none with (x := n) in F; [|exact I]. rewrite name_eqb_refl in F. discriminate.
Qed.
(** Every interpretation of the constants is an assignment of numbers to identifiers, if
    these are written in one way only. *)
Theorem C56_back : forall i es, one_spelling es -> exists g, int_env g /\
  forall e t k, In e es -> plain (low e) = Some k -> z3expr e = Ok t ->
    exists v, eval_sc g (low e) = Some v /\ means i t v.
Proof.
  intros i es O. exists (meant i es). split.
  - intros n. unfold meant. destruct (find _ _); eauto.
  - intros e t k I P H. destruct (z3expr_value i e t H) as [S V].
    set (j := mkInterp (fun n => num (meant i es) n) (c_div0 i) (c_mod0 i) (c_pow i)).
    assert (Z : zeval (by_name i) e = zeval j (low e)).
    { apply zeval_low; try reflexivity. intros n J. cbn. unfold num. rewrite (meant_name i es n O); [reflexivity|]. apply in_flat_map. eauto. }
    destruct (back j (low e) k P) as [E _]. exists (zeval j (low e)). split.
    + rewrite <- E. assert (X : forall n, env_of_interp j n = meant i es n).
      { intros n. unfold env_of_interp, j. cbn. unfold num, meant. destruct (find _ _); reflexivity. }
      clear -X. induction (low e) as [| |v0|n0 s0|e0 IHe|o ts IHts|o e1 e2 IHe1 IHe2|o e1 e2 IHe1 IHe2] using expr_ind'; cbn [eval_sc]; auto.
      * now rewrite X.
      * now rewrite IHe.
      * assert (M : map (eval_sc (meant i es)) ts = map (eval_sc (env_of_interp j)) ts).
        { apply map_ext_in. rewrite Forall_forall in IHts. auto. }
        now rewrite M.
      * now rewrite IHe1, IHe2.
      * now rewrite IHe1, IHe2.
    + rewrite <- Z, V. now apply value_means.
Qed.

(** ** Proof.result *)

Definition unsat_sound (solver : list zterm -> answer) : Prop :=
  forall ts i, solver ts = UNSAT -> exists t, In t ts /\ holds i t = false.
Definition sat_sound (solver : list zterm -> answer) : Prop :=
  forall ts, solver ts = SAT -> exists i, forall t, In t ts -> holds i t = true.

Lemma asserted_list l : forall ts, mapr asserted l = Ok ts ->
  (forall e, In e l -> exists t, In t ts /\ z3expr e = Ok t /\ class_of t = ZBool) /\
  (forall t, In t ts -> exists e, In e l /\ z3expr e = Ok t /\ class_of t = ZBool).
Proof.
  induction l as [|e l IH]; intros ts H; cbn [mapr] in H.
  - apply Ok_inj in H. subst. split; intros ? [].
  - destruct (asserted e) as [t|] eqn:A; cbn [bind] in H; [|discriminate]. destruct (mapr asserted l) as [us|] eqn:M; cbn [bind] in H; [|discriminate].
    apply Ok_inj in H. subst ts. destruct (IH us eq_refl) as [F B].
    assert (Z : z3expr e = Ok t /\ class_of t = ZBool).
    { unfold asserted in A. destruct (z3expr e) as [u|]; cbn [bind] in A; [|discriminate]. unfold is_bool in A.
      destruct (class_of u) eqn:C; [|discriminate]. apply Ok_inj in A. subst. auto. }
    split.
    + intros x [<-|I]; [exists t; cbn; auto|]. destruct (F x I) as (u & J & K). exists u. cbn. auto.
    + intros u [<-|I]; [exists e; cbn; auto|]. destruct (B u I) as (x & J & K). exists x. cbn. auto.
Qed.

(** "unsatisfiable" is said only of expressions that are not all true. *)
Theorem C56_unsat : forall solver goal facts g, unsat_sound solver -> proof_result solver goal facts = Ok UNSAT -> int_env g ->
  (forall e, In e (goal :: facts) -> written e /\ tame g (low e)) ->
  exists e, In e (goal :: facts) /\ eval_sc g (low e) <> Some (VBool true).
Proof.
  intros solver goal facts g S H IE W. unfold proof_result in H. destruct (mapr asserted (goal :: facts)) as [ts|] eqn:M; cbn [bind] in H; [|discriminate].
  apply Ok_inj in H. destruct (C56_meaning g IE) as [i I]. destruct (S ts i H) as (t & J & F).
  destruct (asserted_list _ _ M) as [_ B]. destruct (B t J) as (e & K & Z & _). exists e. split; [exact K|]. intros E.
  destruct (W e K) as [W1 W2]. destruct (I e t _ W1 W2 Z E) as [_ X]. congruence.
Qed.
(** "satisfiable" is said only of expressions that can all be true. *)
Theorem C56_sat : forall solver goal facts, sat_sound solver -> proof_result solver goal facts = Ok SAT -> one_spelling (goal :: facts) ->
  (forall e, In e (goal :: facts) -> plain (low e) <> None) ->
  exists g, int_env g /\ forall e, In e (goal :: facts) -> eval_sc g (low e) = Some (VBool true).
Proof.
  intros solver goal facts S H O P. unfold proof_result in H. destruct (mapr asserted (goal :: facts)) as [ts|] eqn:M; cbn [bind] in H; [|discriminate].
  apply Ok_inj in H. destruct (S ts H) as [i I]. destruct (C56_back i _ O) as (g & IE & K). exists g. split; [exact IE|].
  intros e J. destruct (asserted_list _ _ M) as [F _]. destruct (F e J) as (t & Jt & Z & C).
  destruct (plain (low e)) as [k|] eqn:Pe; [|now elim (P e J)]. destruct (K e t k J Pe Z) as (v & E & V). rewrite E. f_equal.
  specialize (I t Jt). destruct (z3expr_value i e t Z) as [St _]. rewrite C in St.
  destruct v as [z|b]; cbn [means] in V; [|destruct V; congruence]. exfalso. destruct V as [V _]. clear -St V. inversion St; subst; inversion V.
Qed.
(** What is reported as the reason of "unsatisfiable" is a part of the facts that is not all true. *)
Theorem C56_error : forall solver core goal facts es g,
  (forall ts i, solver ts = UNSAT -> exists k t, In k (core ts) /\ nth_error ts k = Some t /\ holds i t = false) ->
  proof_error solver core goal facts = Ok es -> int_env g ->
  (forall e, In e (goal :: facts) -> written e /\ tame g (low e)) ->
  incl es (goal :: facts) /\ exists e, In e es /\ eval_sc g (low e) <> Some (VBool true).
Proof.
  intros solver core goal facts es g S H IE W. unfold proof_error in H.
  destruct (proof_result solver goal facts) as [a|]; cbn [bind] in H; [|discriminate]. destruct a; try discriminate.
  destruct (mapr asserted (facts ++ [goal])) as [ts|] eqn:M; cbn [bind] in H; [|discriminate].
  destruct (solver ts) eqn:U; try discriminate.
  set (f := fun k => match nth_error (facts ++ [goal]) k with Some e => Ok e | None => Err "KeyError" end) in H.
  assert (MI : forall ks ys, mapr f ks = Ok ys -> (forall y, In y ys -> In y (facts ++ [goal])) /\ forall k, In k ks -> exists y, nth_error (facts ++ [goal]) k = Some y /\ In y ys).
  { clear. induction ks as [|k ks IH]; intros ys H; cbn [mapr] in H.
    - apply Ok_inj in H. subst. split; intros ? [].
    - destruct (f k) as [y|] eqn:E; cbn [bind] in H; [|discriminate]. destruct (mapr f ks) as [zs|] eqn:F; cbn [bind] in H; [|discriminate].
      apply Ok_inj in H. subst. destruct (IH zs eq_refl) as [A B]. unfold f in E. destruct (nth_error _ k) as [x|] eqn:N; [|discriminate].
      apply Ok_inj in E. subst y. split.
      + intros y [<-|I]; [now apply nth_error_In in N|auto].
      + intros q [<-|I]; [exists x; cbn; auto|]. destruct (B q I) as (y & C & D). exists y. cbn. auto. }
  destruct (MI _ _ H) as [A B]. split.
  { intros y I. specialize (A y I). apply in_app_or in A as [A|[<-|[]]]; cbn; auto. }
  destruct (C56_meaning g IE) as [i I]. destruct (S ts i U) as (k & t & Ik & Nt & F).
  destruct (B k Ik) as (e & Ne & Ie). exists e. split; [exact Ie|]. intros E.
  assert (Z : z3expr e = Ok t).
  { clear -M Ne Nt. revert ts k M Ne Nt. induction (facts ++ [goal]) as [|x l IH]; intros ts k M Ne Nt; [destruct k; discriminate|].
    cbn [mapr] in M. destruct (asserted x) as [u|] eqn:Ax; cbn [bind] in M; [|discriminate]. destruct (mapr asserted l) as [us|]; cbn [bind] in M; [|discriminate].
    apply Ok_inj in M. subst ts. destruct k as [|k]; cbn [nth_error] in *; [|now apply (IH us k)].
    injection Ne as ->. injection Nt as ->. unfold asserted in Ax. destruct (z3expr e) as [u|]; cbn [bind] in Ax; [|discriminate].
    destruct (is_bool u); [|discriminate]. exact Ax. }
  assert (J : In e (goal :: facts)). { specialize (A e Ie). apply in_app_or in A as [A|[<-|[]]]; cbn; auto. }
  destruct (W e J) as [W1 W2]. destruct (I e t _ W1 W2 Z E) as [_ X]. congruence.
Qed.

(** The solver that the theorems about messages speak of (C26-C29, C45, C46) is this one. *)
Definition on_expressions (solver : list zterm -> answer) (es : list expr) : answer :=
  match mapr asserted es with Ok ts => solver ts | Err _ => UNKNOWN end.
Lemma formula_asserted e : formula e = match asserted e with Ok _ => Ok tt | Err w => Err w end.
Proof.
  unfold formula, asserted. rewrite sort_of_z3expr. destruct (z3expr e) as [t|]; cbn [bind]; [|reflexivity].
  unfold is_bool. destruct (zsort_eqb _ _); reflexivity.
Qed.
Theorem C56_solver : forall solver goal facts, proof_result solver goal facts = check_facts (on_expressions solver) goal facts.
Proof.
  intros solver goal facts. unfold proof_result, check_facts, on_expressions.
  assert (M : forall l, mapr formula l = match mapr asserted l with Ok ts => Ok (map (fun _ => tt) ts) | Err w => Err w end).
  { induction l as [|e l IH]; [reflexivity|]. cbn [mapr]. rewrite formula_asserted, IH. destruct (asserted e); cbn [bind]; [|reflexivity].
    destruct (mapr asserted l); reflexivity. }
  rewrite M. destruct (mapr asserted (goal :: facts)); reflexivity.
Qed.
Theorem C56_solver_sound : forall solver,
  (unsat_sound solver -> forall es i, (forall e, In e es -> written e) -> on_expressions solver es = UNSAT -> ~ models i es) /\
  (sat_sound solver -> sound_sat (on_expressions solver)).
Proof.
  intros solver. split.
  - intros S es i W H M. unfold on_expressions in H. destruct (mapr asserted es) as [ts|] eqn:A; [|discriminate].
    destruct (S ts (mkZinterp (fun s => z_name i (text_name s)) (z_div0 i) (z_mod0 i) (z_pow i)) H) as (t & I & F).
    destruct (asserted_list _ _ A) as [_ B]. destruct (B t I) as (e & J & Z & C). specialize (M e J).
    destruct (z3expr_value (mkZinterp (fun s => z_name i (text_name s)) (z_div0 i) (z_mod0 i) (z_pow i)) e t Z) as [_ V].
    assert (X : zeval i e = VBool false); [|congruence].
    rewrite <- F. unfold value in V. rewrite C in V. rewrite <- V. apply zeval_ext; try reflexivity.
    intros n K. cbn. now rewrite text_name_back by now apply (W e J).
  - intros S es H. unfold on_expressions in H. destruct (mapr asserted es) as [ts|] eqn:A; [|discriminate].
    destruct (S ts H) as [i I]. exists (by_name i). intros e J. destruct (asserted_list _ _ A) as [F _]. destruct (F e J) as (t & K & Z & C).
    destruct (z3expr_value i e t Z) as [_ V]. rewrite V. unfold value. rewrite C. now rewrite (I t K).
Qed.

(** ** Cases *)

Definition len_ok : expr := ERel OLe (EAss OMul [EVar "Length"; ENum 8]) (EName (NAttr ASize "Value") false).
Definition len_pos : expr := EAss OAndThen [ERel OGt (EVar "Length") (ENum 0); ENot (ERel OEq (EBin ODiv (EVar "Length") (ENum 2)) (EName (NVar "Tag") true))].
Definition some_env : env := fun n => match n with NVar "length" => VInt 2 | NVar "tag" => VInt 5 | NAttr ASize "value" => VInt 16 | _ => VInt 0 end.
Example C56_case : int_env some_env /\
  z3expr len_ok = Ok (TLe (TProduct [TConst "Length"; TInt 8]) (TConst "Value'Size")) /\
  z3expr len_pos = Ok (TAnd [TGt (TConst "Length") (TInt 0); TNot (TEq (TDiv (TConst "Length") (TInt 2)) (TNeg (TConst "Tag")))]) /\
  (forall e, In e [len_ok; len_pos] -> written e /\ tame some_env (low e) /\ eval_sc some_env (low e) = Some (VBool true)) /\
  plain (low len_ok) = Some ZBool /\ one_spelling [len_ok] /\
  z3expr (ERel OLt ETrue (ENum 1)) = Err "Z3TypeError" /\
  z3expr (ERel OEq ETrue (ENum 1)) = Ok (TEq (TIf (TBool true)) (TInt 1)).
Proof.
  split. { intros n. unfold some_env. repeat match goal with |- context [match ?x with _ => _ end] => destruct x end; eauto. }
  split; [reflexivity|]. split; [reflexivity|]. split.
  { intros e [<-|[<-|[]]]; (split; [|split; [|reflexivity]]).
    - intros n I. cbn in I. repeat (destruct I as [<-|I]; [cbn; repeat split; discriminate|]). contradiction.
    - cbn. auto.
    - intros n I. cbn in I. repeat (destruct I as [<-|I]; [cbn; repeat split; discriminate|]). contradiction.
    - cbn. repeat split; auto; intros; repeat match goal with H : Some _ = Some _ |- _ => injection H as <- end; lia. }
  split; [reflexivity|]. split; [|split; reflexivity].
  intros n m I J. cbn in I, J. repeat (destruct I as [<-|I]); try contradiction; repeat (destruct J as [<-|J]); try contradiction; try reflexivity; discriminate.
Qed.
(** a solver that finds a relation and its opposite *)
Example C56_case_unsat : let solver := fun ts : list zterm => match ts with
    | [TLt (TConst x) (TInt a); TGe (TConst y) (TInt b)] => if (String.eqb x y && (a =? b))%bool then UNSAT else UNKNOWN
    | _ => UNKNOWN end in
  unsat_sound solver /\ proof_result solver (ERel OLt (EVar "x") (ENum 0)) [ERel OGe (EVar "x") (ENum 0)] = Ok UNSAT.
Proof.
  intros solver. split; [|reflexivity]. intros ts i H. unfold solver in H.
  repeat match type of H with match ?x with _ => _ end = _ => destruct x eqn:?; try discriminate end.
  subst. match goal with B : (_ && _)%bool = true |- _ => apply andb_prop in B as [B1 B2] end.
  apply String.eqb_eq in B1. apply Z.eqb_eq in B2. subst.
  match goal with |- exists t, In t [TLt (TConst ?x) (TInt ?a); _] /\ _ => destruct (Z.ltb_spec (c_const i x) a) as [L|L] end.
  - eexists. split; [right; left; reflexivity|]. cbn. apply Z.leb_gt. exact L.
  - eexists. split; [left; reflexivity|]. cbn. apply Z.ltb_ge. exact L.
Qed.

(** ** Where the expectations fail *)

(** Ada rounds quotients towards zero, SMT-LIB does not: true expressions are contradictory for z3. *)
Theorem C56_division_refuted : exists es g, int_env g /\ (forall e, In e es -> written e /\ eval_sc g (low e) = Some (VBool true)) /\
  exists ts, mapr asserted es = Ok ts /\ forall i, exists t, In t ts /\ holds i t = false.
Proof.
  exists [ERel OEq (EVar "x") (ENum (-1)); ERel OEq (EBin ODiv (EVar "x") (ENum 2)) (ENum 0)], (fun _ => VInt (-1)).
  split; [intros n; eauto|]. split.
  - intros e [<-|[<-|[]]]; (split; [intros n [<-|[]]; cbn; repeat split; discriminate|reflexivity]).
  - eexists. split; [reflexivity|]. intros i. destruct (Z.eqb_spec (c_const i "x") (-1)) as [E|E].
    + eexists. split; [right; left; reflexivity|]. cbn [holds holds_int is_bool class_of zsort_eqb name_text EVar]. rewrite E. reflexivity.
    + eexists. split; [left; reflexivity|]. cbn. now apply Z.eqb_neq.
Qed.
(** The remainder takes the sign of the divisor in Ada, it is never negative in SMT-LIB. *)
Theorem C56_modulo_refuted : exists es g, int_env g /\ (forall e, In e es -> written e /\ eval_sc g (low e) = Some (VBool true)) /\
  exists ts, mapr asserted es = Ok ts /\ forall i, exists t, In t ts /\ holds i t = false.
Proof.
  exists [ERel OEq (EVar "x") (ENum 1); ERel OEq (EBin OMod (EVar "x") (ENum (-2))) (ENum (-1))], (fun _ => VInt 1).
  split; [intros n; eauto|]. split.
  - intros e [<-|[<-|[]]]; (split; [intros n [<-|[]]; cbn; repeat split; discriminate|reflexivity]).
  - eexists. split; [reflexivity|]. intros i. destruct (Z.eqb_spec (c_const i "x") 1) as [E|E].
    + eexists. split; [right; left; reflexivity|]. cbn [holds holds_int is_bool class_of zsort_eqb name_text EVar]. rewrite E. reflexivity.
    + eexists. split; [left; reflexivity|]. cbn. now apply Z.eqb_neq.
Qed.
(** Identifiers that differ in case only are one name, but two constants for z3: expressions
    that are never true together are satisfiable. *)
Theorem C56_case_refuted : exists es, (forall e, In e es -> written e /\ plain (low e) = Some ZBool) /\
  (exists ts i, mapr asserted es = Ok ts /\ forall t, In t ts -> holds i t = true) /\
  forall g, exists e, In e es /\ eval_sc g (low e) <> Some (VBool true).
Proof.
  exists [ERel OEq (EVar "Length") (ENum 1); ERel OEq (EVar "length") (ENum 2)]. split; [|split].
  - intros e [<-|[<-|[]]]; (split; [intros n [<-|[]]; cbn; repeat split; discriminate|reflexivity]).
  - eexists. exists (mkZinterp (fun s => if String.eqb s "Length" then 1 else 2) (fun _ => 0) (fun _ => 0) (fun _ _ => 0)).
    split; [reflexivity|]. intros t [<-|[<-|[]]]; reflexivity.
  - intros g. destruct (g (NVar "length")) as [z|b] eqn:E.
    + destruct (Z.eqb_spec z 1) as [->|N].
      * eexists. split; [right; left; reflexivity|].
        change (rel_val OEq (Some (g (NVar "length"))) (Some (VInt 2)) <> Some (VBool true)). rewrite E. discriminate.
      * eexists. split; [left; reflexivity|].
        change (rel_val OEq (Some (g (NVar "length"))) (Some (VInt 1)) <> Some (VBool true)). rewrite E. cbn [rel_val].
        apply Z.eqb_neq in N. rewrite N. discriminate.
    + eexists. split; [left; reflexivity|].
      change (rel_val OEq (Some (g (NVar "length"))) (Some (VInt 1)) <> Some (VBool true)). rewrite E. discriminate.
Qed.

Print Assumptions C56_sorted.
Print Assumptions C56_typed.
Print Assumptions C56_meaning.
Print Assumptions C56_back.
Print Assumptions C56_unsat.
Print Assumptions C56_sat.
Print Assumptions C56_error.
Print Assumptions C56_solver.
Print Assumptions C56_solver_sound.
Print Assumptions C56_division_refuted.
Print Assumptions C56_modulo_refuted.
Print Assumptions C56_case_refuted.
