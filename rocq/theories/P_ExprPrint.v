(** Property C51: the text of an expression. *)
From Coq Require Import String Ascii List ZArith Bool Lia.
From Verif Require Import Base Ident Expr ExprEval ExprFacts ExprTotal ExprMore ExprPrint ExprRead ExprReadFacts ExprReadTree ExprPyEq ExprAda P_Expr.
Import ListNotations.
Local Open Scope string_scope.
Local Open Scope list_scope.
Local Open Scope Z_scope.

(** identifiers are identifiers of the language *)
Definition words (e : expr) : Prop := forall n, In n (names e) -> identifier (name_id n) = true.
(** one spelling for each identifier *)
Definition one_spelling (e : expr) : Prop :=
  forall n m, In n (names e) -> In m (names e) -> lower (name_id n) = lower (name_id m) -> name_id n = name_id m.
(** identifiers that differ in case only denote the same entity *)
Definition caseless (g : env) : Prop := forall x y, lower x = lower y -> g (NVar x) = g (NVar y).

Lemma names_ok_names f e : names_ok f e = true <-> forall n, In n (names e) -> f n = true.
Proof.
  induction e as [| |v|n s|x IH|o ts IH|o l r IHl IHr|o l r IHl IHr] using expr_ind'; cbn [names_ok names].
  1-3: split; [now intros _ n []|auto].
  - split; [intros H m [<-|[]]; exact H|intros H; apply H; now left].
  - exact IH.
  - rewrite forallb_forall. rewrite Forall_forall in IH. split.
    + intros H n Hn. apply in_flat_map in Hn as (x & Hx & Hn). apply (IH x Hx); auto.
    + intros H x Hx. apply (IH x Hx). intros n Hn. apply H, in_flat_map. eauto.
  - rewrite andb_true_iff, IHl, IHr. setoid_rewrite in_app_iff. firstorder.
  - rewrite andb_true_iff, IHl, IHr. setoid_rewrite in_app_iff. firstorder.
Qed.
Lemma words_lexical e : words e <-> names_ok lexical e = true.
Proof. unfold words. now rewrite names_ok_names. Qed.

(** *** reading *)

(** The text of an expression is an expression of the language, can be read in one way
    only, and has the value of the expression; with and without short-circuit evaluation.
    [sums]: the first term of a sum is not a relation, conjunction or disjunction; [full]:
    disjunctions are not empty. *)
Theorem C51_read : forall e, words e -> sums e = true -> full e = true ->
  exists t, (forall u, reads (str e) u <-> u = t) /\
    (forall g v, eval g e = Some v -> teval false g t = Some v) /\
    (forall g v, eval_sc g e = Some v -> teval true g t = Some v).
Proof.
  intros e W S F. exists (tree_of e). split; [|split].
  - intros u. apply reads_tree; [now apply words_lexical|exact S].
  - intros g v E. destruct (tree_value false false g e F ltac:(discriminate)) as [-> | [_ K]]; [exact E|]. cbn in K. congruence.
  - intros g v E. destruct (tree_value false true g e F ltac:(discriminate)) as [-> | [_ K]]; [exact E|]. cbn in K. congruence.
Qed.
Print Assumptions C51_read.

(** Without associative expressions that consist of a single term the text has a value
    only if the expression has one. *)
Theorem C51_read_exact : forall e t, words e -> sums e = true -> full e = true -> plural e = true -> reads (str e) t ->
  forall g, teval false g t = eval g e /\ teval true g t = eval_sc g e.
Proof.
  intros e t W S F P H g. apply (reads_tree e t (proj1 (words_lexical e) W) S) in H as ->. split.
  - destruct (tree_value true false g e F (fun _ => P)) as [E|[E _]]; [exact E|discriminate].
  - destruct (tree_value true true g e F (fun _ => P)) as [E|[E _]]; [exact E|discriminate].
Qed.
Print Assumptions C51_read_exact.

(** Length - 5 - Msg::Tag'Size * (Length + 1) = (-2) ** (3 - X) and (C or not (D and then True)) *)
Definition C51_e : expr :=
  EAss OAnd
    [ERel OEq (EAss OAdd [EVar "Length"; ENum (-5); EAss OMul [EName (NAttr ASize "Msg::Tag") true; EAss OAdd [EVar "Length"; ENum 1]]])
              (EBin OPow (ENum (-2)) (EBin OSub (ENum 3) (EVar "X")));
     EAss OOr [EVar "C"; ENot (EAss OAndThen [EVar "D"; ETrue])]].
Definition C51_env : env := fun n =>
  match n with
  | NVar "Length" => VInt 3 | NVar "X" => VInt 0 | NVar "C" => VBool false | NVar "D" => VBool false
  | NAttr ASize "Msg::Tag" => VInt 2 | NAttr ASize "Msg.Tag" => VInt 2
  | _ => VInt 0
  end.
Example C51_meets : words C51_e /\ sums C51_e = true /\ full C51_e = true /\ plural C51_e = true /\ one_spelling C51_e
  /\ wide C51_e = true /\ ok C51_e = true /\ solid C51_e = true.
Proof.
  repeat split; try reflexivity.
  - apply words_lexical. reflexivity.
  - intros n m Hn Hm E. vm_compute in Hn, Hm.
    repeat (destruct Hn as [<-|Hn]; [repeat (destruct Hm as [<-|Hm]; [try reflexivity; discriminate E|]); destruct Hm|]). destruct Hn.
Qed.
Example C51_case : str C51_e =
"Length - 5 + (-Msg::Tag'Size) * (Length + 1) = (-2)**(3 - X)
and (C
     or not (D
         and then True))"
  /\ eval C51_env C51_e = Some (VBool false)
  /\ eval C51_env (EAss OAdd [EVar "Length"; ENum (-5); EAss OMul [EName (NAttr ASize "Msg::Tag") true; EAss OAdd [EVar "Length"; ENum 1]]]) = Some (VInt (-10)).
Proof. repeat split. Qed.

(** *** equality *)

(** Expressions that are equal in Python have the same value. *)
Theorem C51_equal : forall a b g v w, words a -> words b -> sums a = true -> sums b = true -> full a = true -> full b = true ->
  caseless g -> py_eqb a b = true ->
  (eval g a = Some v -> eval g b = Some w -> v = w) /\ (eval_sc g a = Some v -> eval_sc g b = Some w -> v = w).
Proof.
  intros a b g v w Wa Wb Sa Sb Fa Fb C H. apply words_lexical in Wa, Wb.
  assert (X : str a = str b \/ forall sc, ev sc g a = ev sc g b).
  { destruct a as [| |z|[x|k x] s|x|o ts|o l r|o l r], b as [| |z'|[y|m y] t|y|p us|p l' r'|p l' r']; try discriminate H; auto; cbn [py_eqb] in H;
    try (left; now apply String.eqb_eq); try (apply andb_true_iff in H as [_ H]; left; now apply String.eqb_eq).
    - apply Z.eqb_eq in H as ->. now left.
    - apply andb_true_iff in H as [H1 H2]. apply eqb_prop in H1 as ->. apply String.eqb_eq in H2. right.
      intros sc. destruct sc; cbn; now rewrite (C x y H2).
    - destruct k, m; try discriminate H; left; now apply String.eqb_eq. }
  assert (Y : forall sc, ev sc g a = Some v -> ev sc g b = Some w -> v = w).
  { intros sc E1 E2. destruct X as [X|X]; [|specialize (X sc); congruence].
    destruct (same_text false sc a b g Wa Wb Sa Sb Fa Fb ltac:(discriminate) X) as (u & [K1|[_ K1]] & [K2|[_ K2]]); congruence. }
  split; [exact (Y false)|exact (Y true)].
Qed.
Print Assumptions C51_equal.

(** "and then" is a kind of "and"; a Variable is compared without case *)
Example C51_equal_case :
  py_eqb (EAss OAdd [EAss OAdd [EVar "X"; EVar "Y"]; ENum (-1)]) (EAss OAdd [EVar "X"; EVar "Y"; ENum (-1)]) = true /\
  py_eqb (EVar "X") (EVar "x") = true /\
  py_eqb (EAss OAnd [EVar "X"; EVar "Y"]) (EAss OAndThen [EVar "X"; EVar "Y"]) = false /\
  py_eqb (EAss OAnd [EVar "X"]) (EAss OAndThen [EVar "X"]) = true.
Proof. repeat split. Qed.

(** An empty disjunction is printed as True and therefore equal to one that is true. *)
Theorem C51_empty_or_refuted : exists a b g, py_eqb a b = true /\ words a /\ words b /\ sums a = true /\ sums b = true /\
  eval g a = Some (VBool false) /\ eval g b = Some (VBool true) /\ reads (str a) (TBool true).
Proof.
  exists (EAss OOr []), (EAss OOr [ETrue]), C51_env. repeat split; try (now intros n []).
  exists 10%nat. reflexivity.
Qed.
Print Assumptions C51_empty_or_refuted.

(** The first term of a sum is printed without parentheses, so that (A = B) + C and
    A = B + C have the same text. *)
Theorem C51_sum_refuted : exists a b g v, py_eqb a b = true /\ words a /\ words b /\ full a = true /\ full b = true /\ a <> b /\
  eval g b = Some v /\ eval g a <> Some v.
Proof.
  exists (ENot (EAss OAdd [ERel OEq (EVar "A") (EVar "B"); EVar "C1"])), (ENot (ERel OEq (EVar "A") (EAss OAdd [EVar "B"; EVar "C1"]))), C51_env.
  eexists. repeat split; try (apply words_lexical; reflexivity); discriminate.
Qed.
Print Assumptions C51_sum_refuted.

(** Equality is not a congruence: variables are compared without case, compound
    expressions by their text. *)
Theorem C51_congruence_refuted : exists a b, py_eqb a b = true /\ py_eqb (ENot a) (ENot b) = false.
Proof. exists (EVar "X"), (EVar "x"). split; reflexivity. Qed.
Print Assumptions C51_congruence_refuted.

(** *** simplification with Python's equality *)

Lemma spelling_of e : words e -> one_spelling e ->
  spelling (map name_id (names e)) /\ names_ok (spelled (map name_id (names e))) e = true.
Proof.
  intros W O. split.
  - intros x y Hx Hy E. apply in_map_iff in Hx as (n & <- & Hn). apply in_map_iff in Hy as (m & <- & Hm). now apply O.
  - apply names_ok_names. intros n Hn. unfold spelled, lexical. rewrite (W n Hn). apply existsb_exists. exists (name_id n).
    split; [now apply in_map|]. apply String.eqb_refl.
Qed.

(** C13 and C14 for the equality that is used: simplification with Python's equality
    preserves the value, and the text of the result has that value as well.  [wide]: the
    operands of sums, products, differences, quotients, powers and remainders are
    arithmetic; [ok]: see C13. *)
Theorem C51_simplify : forall g e v n, words e -> one_spelling e -> wide e = true -> ok e = true ->
  eval g e = Some v -> (weight e < n)%nat ->
  exists e' t, simplify py_eqb n e = Ok e' /\ eval g e' = Some v /\
    (forall u, reads (str e') u <-> u = t) /\ teval false g t = Some v.
Proof.
  intros g e v n W O Hw Hok E Hn. destruct (spelling_of e W O) as [HN Nm].
  set (N := map name_id (names e)) in *.
  destruct (simplify_same N n e Hw Nm) as [S I].
  pose proof (eqb2_sound N HN) as HE.
  destruct (simplify_total (eqb2 N) HE g n e v Hn Hok E) as [e' K].
  assert (E' : eval g e' = Some v).
  { destruct (simplify_good (eqb2 N) HE n _ _ K) as (R & _). now apply R. }
  destruct (I _ K) as [Ie _]. apply inv_parts in Ie as (I1 & I2 & I3 & I4).
  assert (W' : words e').
  { apply words_lexical. eapply names_ok_mono; [|exact I4]. intros m Hm. now apply andb_true_iff in Hm. }
  destruct (C51_read e' W' (wide_sums _ I1) I3) as (t & T1 & T2 & _).
  exists e', t. rewrite S. auto.
Qed.
Print Assumptions C51_simplify.

(** terms that cancel are found and variables compared without case; the operands of a
    conjunction are not *)
Example C51_simplify_case :
  simplify py_eqb 100 (EAss OAdd [EVar "X"; EVar "Y"; ENum 3; EAss OMul [EVar "Z"; ENum 2; ENum 1]; EName (NVar "X") true])
  = Ok (EAss OAdd [EVar "Y"; EAss OMul [EVar "Z"; ENum 2]; ENum 3]) /\
  simplify py_eqb 100 (EAss OAdd [EVar "x"; EName (NVar "X") true; EVar "Y"]) = Ok (EVar "Y") /\
  simplify py_eqb 100 (ERel OEq (EVar "Z") (EVar "z")) = Ok ETrue.
Proof. repeat split. Qed.

(** *** Ada *)

(** The Ada text of an expression is a name, literal or expression of Ada with the same
    value, if the names denote in Ada what they denote in the specification.  [solid]:
    sums, products and disjunctions are not empty. *)
Theorem C51_ada : forall e, words e -> sums e = true -> solid e = true ->
  exists s t, ada_str (ada_expr e) = Ok s /\ (forall u, reads s u <-> u = t) /\
    forall g h v, (forall n, In n (names e) -> h (ada_name n) = g n) ->
      (eval g e = Some v -> teval false h t = Some v) /\ (eval_sc g e = Some v -> teval true h t = Some v).
Proof.
  intros e W S F. exists (str (ren ada_name e)).
  destruct (C51_read (ren ada_name e)) as (t & T1 & T2 & T3).
  - apply words_lexical. apply words_lexical in W. eapply ren_ok; [|exact W]. apply lexical_ada.
  - now rewrite ren_sums.
  - rewrite ren_full. now apply solid_full.
  - exists t. split; [now apply ada_text|]. split; [exact T1|]. intros g h v H. split; intros E.
    + apply T2. rewrite <- E. exact (ren_ev false ada_name g h e H).
    + apply T3. rewrite <- E. exact (ren_ev true ada_name g h e H).
Qed.
Print Assumptions C51_ada.

Example C51_ada_case : ada_str (ada_expr C51_e) = Ok
"Length - 5 + (-Msg.Tag'Size) * (Length + 1) = (-2)**(3 - X)
and (C
     or not (D
         and then True))"
  /\ (forall n, In n (names C51_e) -> C51_env (ada_name n) = C51_env n).
Proof. split; [reflexivity|]. intros n Hn. vm_compute in Hn. repeat (destruct Hn as [<-|Hn]; [reflexivity|]). destruct Hn. Qed.

(** X - X is simplified to the empty sum, for which no Ada text can be produced. *)
Theorem C51_ada_sum_refuted : exists g e e' v, words e /\ wide e = true /\ ok e = true /\ eval g e = Some v /\
  simplify py_eqb 100 e = Ok e' /\ ada_str (ada_expr e') = Err "IndexError".
Proof.
  exists C51_env, (EAss OAdd [EVar "X"; EName (NVar "X") true]). do 2 eexists. repeat split. apply words_lexical. reflexivity.
Qed.
Print Assumptions C51_ada_sum_refuted.
(** the text of an empty product is no expression *)
Theorem C51_ada_product_refuted : exists e s, words e /\ sums e = true /\ full e = true /\ ada_str (ada_expr e) = Ok s /\ forall t, ~ reads s t.
Proof.
  exists (EAss OMul []), "". repeat split; [now intros n []|]. intros t [n H]. cbn [lex flush] in H.
  destruct n as [|[|[|[|n]]]]; discriminate.
Qed.
Print Assumptions C51_ada_product_refuted.
