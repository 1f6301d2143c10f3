(** Properties C13-C18 and C41: expressions. *)
From Coq Require Import String List ZArith Bool Lia.
From Verif Require Import Base Expr ExprEval ExprFacts ExprTotal ExprMore.
Import ListNotations.
Local Open Scope string_scope.
Local Open Scope list_scope.
Local Open Scope Z_scope.

(** An equality test that identifies only expressions with the same meaning.
    (Python's test compares classes and printed text.) *)
Definition sound_eq (eqb : expr -> expr -> bool) : Prop :=
  forall a b, eqb a b = true -> forall g, eval g a = eval g b.

(** names used in the examples *)
Definition X := EVar "x".
Definition Y := EVar "y".
Definition Zv := EVar "z".
Definition env0 (x y z : Z) : env := fun n =>
  match n with
  | NVar "x" => VInt x | NVar "y" => VInt y | NVar "z" => VInt z
  | _ => VInt 8
  end.

(** *** C13 *)

(** Simplification of an expression of the fragment [ok] that has an integer value
    terminates without raising and preserves that value.  [ok] excludes only:
    a sum or difference with an operand that contains a power or modulo with a
    non-literal operand. *)
Theorem C13_simplify_value : forall eqb g e z n,
  sound_eq eqb -> ok e = true -> eval g e = Some (VInt z) -> (weight e < n)%nat ->
  exists e', simplify eqb n e = Ok e' /\ eval g e' = Some (VInt z).
Proof.
  intros eqb g e z n He Hok Hv Hn.
  destruct (simplify_total eqb He g n e _ Hn Hok Hv) as [e' E]. exists e'. split; auto.
  destruct (simplify_good eqb He n _ _ E) as (H & _). now apply H.
Qed.
Print Assumptions C13_simplify_value.

(** x - (y + 2 * z) + 3 * 4 - x / 2 ** 3 *)
Example C13_ex_expr : expr :=
  EBin OSub (EAss OAdd [EBin OSub X (EAss OAdd [Y; EAss OMul [ENum 2; Zv]]); EAss OMul [ENum 3; ENum 4]])
            (EBin ODiv X (EBin OPow (ENum 2) (ENum 3))).
Example C13_ex_hyp : ok C13_ex_expr = true /\ eval (env0 40 3 5) C13_ex_expr = Some (VInt 34).
Proof. vm_compute. auto. Qed.
Example C13_ex : exists e', simplify expr_eqb 100 C13_ex_expr = Ok e' /\ e' <> C13_ex_expr.
Proof. eexists. split; [vm_compute; reflexivity|discriminate]. Qed.

(** With the tree equality there is no premise left on the equality test. *)
Corollary C13_simplify_value_tree : forall g e z n,
  ok e = true -> eval g e = Some (VInt z) -> (weight e < n)%nat ->
  exists e', simplify expr_eqb n e = Ok e' /\ eval g e' = Some (VInt z).
Proof. intros. eapply C13_simplify_value; eauto. exact expr_eqb_sound. Qed.
Print Assumptions C13_simplify_value_tree.

(** Outside of the fragment the value can change: 5 - x ** 2 becomes 5 + (-x) ** 2. *)
Theorem C13_sub_pow_refuted : exists e e' g v,
  eval g e = Some v /\ simplify expr_eqb 100 e = Ok e' /\ eval g e' <> Some v.
Proof.
  exists (EBin OSub (ENum 5) (EBin OPow X (ENum 2))). eexists. exists (env0 3 0 0). eexists.
  split; [vm_compute; reflexivity|]. split; [vm_compute; reflexivity|]. vm_compute. discriminate.
Qed.
Print Assumptions C13_sub_pow_refuted.

(** 5 - (x mod 8) becomes 5 + ((-x) mod 8) *)
Theorem C13_sub_mod_refuted : exists e e' g v,
  eval g e = Some v /\ simplify expr_eqb 100 e = Ok e' /\ eval g e' <> Some v.
Proof.
  exists (EBin OSub (ENum 5) (EBin OMod X (ENum 8))). eexists. exists (env0 3 0 0). eexists.
  split; [vm_compute; reflexivity|]. split; [vm_compute; reflexivity|]. vm_compute. discriminate.
Qed.
Print Assumptions C13_sub_mod_refuted.

(** x ** 2 + (-x) ** 2 cancels to the empty sum *)
Theorem C13_cancel_pow_refuted : exists e e' g v,
  eval g e = Some v /\ simplify expr_eqb 100 e = Ok e' /\ eval g e' <> Some v.
Proof.
  exists (EAss OAdd [EBin OPow X (ENum 2); EBin OPow (EName (NVar "x") true) (ENum 2)]).
  eexists. exists (env0 3 0 0). eexists.
  split; [vm_compute; reflexivity|]. split; [vm_compute; reflexivity|]. vm_compute. discriminate.
Qed.
Print Assumptions C13_cancel_pow_refuted.

(** *** C14 *)

Theorem C14_simplify_truth : forall eqb g e b n,
  sound_eq eqb -> ok e = true -> eval g e = Some (VBool b) -> (weight e < n)%nat ->
  exists e', simplify eqb n e = Ok e' /\ eval g e' = Some (VBool b) /\ eval_sc g e' = Some (VBool b).
Proof.
  intros eqb g e z n He Hok Hv Hn.
  destruct (simplify_total eqb He g n e _ Hn Hok Hv) as [e' E]. exists e'. split; auto.
  destruct (simplify_good eqb He n _ _ E) as (H & _). destruct (H Hok) as [_ R].
  split; auto. apply eval_strict_sc; auto.
Qed.
Print Assumptions C14_simplify_truth.

(** not (x < y + 1) and then (true and z = z) or (y - y > 0 or z * 2 <= 10) *)
Example C14_ex_expr : expr :=
  EAss OOr [EAss OAndThen [ENot (ERel OLt X (EAss OAdd [Y; ENum 1])); EAss OAnd [ETrue; ERel OEq Zv Zv]];
            EAss OOrElse [ERel OGt (EBin OSub Y Y) (ENum 0); ERel OLe (EAss OMul [Zv; ENum 2]) (ENum 10)]].
Example C14_ex_hyp : ok C14_ex_expr = true /\ eval (env0 1 2 6) C14_ex_expr = Some (VBool false) /\
  eval (env0 3 2 6) C14_ex_expr = Some (VBool true).
Proof. vm_compute. auto. Qed.

(** Undefined sub-expressions: simplification can raise where evaluation is lazy. *)
Theorem C14_lazy_refuted : exists e g v,
  eval_sc g e = Some v /\ forall n, (3 < n)%nat -> simplify expr_eqb n e = Err "ZeroDivisionError".
Proof.
  exists (EAss OAndThen [EFalse; ERel OEq (EBin ODiv (ENum 5) (ENum 0)) (ENum 1)]), (env0 0 0 0).
  eexists. split; [vm_compute; reflexivity|].
  intros n Hn. do 4 (destruct n as [|n]; [lia|]). reflexivity.
Qed.
Print Assumptions C14_lazy_refuted.

(** *** C15 *)

(** numbers, names, and sums, products and quotients of them *)
Inductive linear : expr -> Prop :=
| lin_num v : linear (ENum v)
| lin_name n s : linear (EName n s)
| lin_add ts : Forall linear ts -> linear (EAss OAdd ts)
| lin_mul ts : Forall linear ts -> linear (EAss OMul ts)
| lin_div l r : linear l -> linear r -> linear (EBin ODiv l r).

Lemma linear_nsafe : forall e, linear e -> nsafe e = true.
Proof.
  fix IH 2. intros e H. destruct H; cbn; auto.
  - induction H; cbn; auto. rewrite (IH _ H). auto.
  - induction H; cbn; auto. rewrite (IH _ H). auto.
  - rewrite (IH _ H), (IH _ H0). auto.
Qed.

Theorem C15_negation_value : forall eqb g e z n,
  sound_eq eqb -> linear e -> eval g e = Some (VInt z) -> (weight e + 1 < n)%nat ->
  exists e', neg (simplify eqb n) e = Ok e' /\ eval g e' = Some (VInt (- z)).
Proof.
  intros eqb g e z n He Hl Hv Hn. apply linear_nsafe in Hl.
  assert (HS : forall e e', simplify eqb n e = Ok e' -> safe e = true ->
            nsafe e' = true /\ refines e e').
  { intros x x' E Hx. destruct (simplify_good eqb He n _ _ E) as (H1 & H2 & _).
    split; [auto|]. apply H1. now apply safe_ok. }
  destruct (neg_total g (simplify eqb n) n) with (e := e) (z := z) as [e' E]; auto.
  { intros x v H1 H2 H3. eapply simplify_total; eauto. now apply safe_ok. }
  exists e'. split; auto. destruct (neg_sound _ HS _ _ E Hl) as [_ V]. auto.
Qed.
Print Assumptions C15_negation_value.

Example C15_ex : let e := EAss OAdd [X; EAss OMul [Y; ENum 3]; EBin ODiv Zv (ENum 2)] in
  linear e /\ eval (env0 1 2 (-7)) e = Some (VInt 4).
Proof.
  split; [|reflexivity]. repeat (constructor || unfold X, Y, Zv, EVar).
Qed.

(** negated relations: the complement *)
Theorem C15_negation_relation : forall simp g o l r b,
  eval g (ERel o l r) = Some (VBool b) ->
  exists e', neg simp (ERel o l r) = Ok e' /\ eval g e' = Some (VBool (negb b)).
Proof.
  intros simp g o l r b HV. eexists. split; [reflexivity|]. cbn [eval] in *. unfold rel_val in *.
  destruct (eval g l) as [[x|x]|], (eval g r) as [[y|y]|]; try discriminate.
  - injection HV as <-. destruct o; cbn [inverse]; rewrite ?negb_involutive; auto;
      do 2 f_equal; auto using Z.leb_antisym, Z.ltb_antisym.
  - destruct o; try discriminate; injection HV as <-; cbn; rewrite ?negb_involutive; auto.
Qed.
Print Assumptions C15_negation_relation.
Example C15_rel_ex : eval (env0 1 2 0) (ERel OLe X Y) = Some (VBool true).
Proof. reflexivity. Qed.

Theorem C15_negation_sub_refuted : exists g e e' z, eval g e = Some (VInt z) /\
  neg (simplify expr_eqb 100) e = Ok e' /\ eval g e' <> Some (VInt (- z)).
Proof.
  exists (env0 3 4 0), (EBin OSub X Y). do 2 eexists.
  split; [vm_compute; reflexivity|]. split; [vm_compute; reflexivity|]. vm_compute. discriminate.
Qed.
Theorem C15_negation_pow_refuted : exists g e e' z, eval g e = Some (VInt z) /\
  neg (simplify expr_eqb 100) e = Ok e' /\ eval g e' <> Some (VInt (- z)).
Proof.
  exists (env0 3 4 0), (EBin OPow X (ENum 2)). do 2 eexists.
  split; [vm_compute; reflexivity|]. split; [vm_compute; reflexivity|]. vm_compute. discriminate.
Qed.
Theorem C15_negation_mod_refuted : exists g e e' z, eval g e = Some (VInt z) /\
  neg (simplify expr_eqb 100) e = Ok e' /\ eval g e' <> Some (VInt (- z)).
Proof.
  exists (env0 3 4 0), (EBin OMod X (ENum 8)). do 2 eexists.
  split; [vm_compute; reflexivity|]. split; [vm_compute; reflexivity|]. vm_compute. discriminate.
Qed.
Print Assumptions C15_negation_sub_refuted.
Print Assumptions C15_negation_pow_refuted.
Print Assumptions C15_negation_mod_refuted.

(** *** C16 *)

(** [plain allow e]: no logical negation in e, and no negative name unless [allow].
    [g'] is [g] updated with the values of the substitutes. *)
Theorem C16_substitution_value : forall eqb n mapping g g' e e' v,
  sound_eq eqb -> plain true e = true ->
  (forall m x, mapping m = Some x -> eval g x = Some (g' m)) ->
  (forall m, mapping m = None -> g' m = g m) ->
  (plain false e = true \/ forall m x, mapping m = Some x -> linear x) ->
  substituted (neg (simplify eqb n)) mapping e = Ok e' ->
  eval g' e = Some v -> eval g e' = Some v.
Proof.
  intros eqb n mapping g g' e e' v He Hp Hm Hk Hl HS HV.
  assert (HSf : forall e e', simplify eqb n e = Ok e' -> safe e = true ->
            nsafe e' = true /\ refines e e').
  { intros x x' E Hx. destruct (simplify_good eqb He n _ _ E) as (H1 & H2 & _).
    split; [auto|]. apply H1. now apply safe_ok. }
  destruct Hl as [Hpf|Hl].
  - eapply substituted_sound with (allow := false); eauto.
    + intros m E. symmetry. auto.
    + discriminate.
  - eapply substituted_sound with (allow := true); eauto.
    + intros m E. symmetry. auto.
    + intros _ m x y z Em En. destruct (neg_sound _ HSf _ _ En) as [_ V]; auto.
      apply linear_nsafe. eauto.
Qed.
Print Assumptions C16_substitution_value.

Theorem C16_substitution_total : forall ng mapping e, plain false e = true ->
  exists e', substituted ng mapping e = Ok e'.
Proof. exact substituted_total. Qed.
Print Assumptions C16_substitution_total.

Theorem C16_empty_substitution : forall ng e e',
  substituted ng (fun _ => None) e = Ok e' -> e' = e.
Proof. exact substituted_untouched. Qed.
Print Assumptions C16_empty_substitution.

Example C16_map (n : name) : option expr :=
  match n with NVar "x" => Some (EAss OAdd [Y; ENum 1]) | NAttr ASize "z" => Some (ENum 16) | _ => None end.
Example C16_ex :
  let e := ERel OLt (EAss OMul [X; EName (NVar "x") true]) (EName (NAttr ASize "z") false) in
  let g := env0 100 2 7 in
  let g' := fun n => match n with NVar "x" => VInt 3 | NAttr ASize "z" => VInt 16 | _ => g n end in
  plain true e = true /\
  (exists e', substituted (neg (simplify expr_eqb 100)) C16_map e = Ok e' /\ e' <> e) /\
  eval g' e = Some (VBool true).
Proof.
  cbv zeta. split; [reflexivity|]. split; [|reflexivity].
  eexists. split; [vm_compute; reflexivity|discriminate].
Qed.

(** Below "not" nothing is substituted: Not inherits Expr.substituted. *)
Theorem C16_not_refuted : exists mapping g g' e e' v,
  (forall m x, mapping m = Some x -> eval g x = Some (g' m)) /\
  (forall m, mapping m = None -> g' m = g m) /\
  substituted (neg (simplify expr_eqb 100)) mapping e = Ok e' /\
  eval g' e = Some v /\ eval g e' <> Some v.
Proof.
  exists (fun n => match n with NVar "x" => Some (ENum 1) | _ => None end), (env0 0 0 0),
    (fun n => match n with NVar "x" => VInt 1 | _ => env0 0 0 0 n end),
    (ENot (ERel OEq X (ENum 0))). do 2 eexists.
  split.
  { intros m x. destruct m as [s|a s].
    - destruct (string_dec s "x") as [->|H].
      + intros E; injection E as <-. reflexivity.
      + intros E. exfalso. apply H. clear H.
        repeat (destruct s as [|[[] [] [] [] [] [] [] []] s]; try discriminate E; auto).
    - discriminate. }
  split.
  { intros m. destruct m as [s|a s]; auto.
    destruct (string_dec s "x") as [->|H]; [discriminate|].
    intros _. repeat (destruct s as [|[[] [] [] [] [] [] [] []] s]; try reflexivity; auto). congruence. }
  split; [reflexivity|]. split; [vm_compute; reflexivity|]. vm_compute. discriminate.
Qed.
Print Assumptions C16_not_refuted.

(** *** C17 *)

Theorem C17_value_depends_on_variables : forall g h e,
  (forall x s, In (x, s) (variables e) ->
     g (NVar x) = h (NVar x) /\ forall a, g (NAttr a x) = h (NAttr a x)) ->
  eval g e = eval h e /\ eval_sc g e = eval_sc h e.
Proof.
  intros g h e H. apply eval_agree_sc. intros x Hx. apply occurs_variables in Hx as [s Hs].
  exact (H _ _ Hs).
Qed.
Print Assumptions C17_value_depends_on_variables.

Theorem C17_variables_occur : forall x e,
  (exists s, In (x, s) (variables e)) <-> occurs x e.
Proof. intros. symmetry. apply occurs_variables. Qed.
Print Assumptions C17_variables_occur.

Theorem C17_no_duplicates : forall e, NoDup (variables e).
Proof.
  induction e as [ | |z|n b|a IH|o ts IH|o l r IHl IHr|o l r IHl IHr] using expr_ind';
    cbn [variables]; try constructor; auto; try apply (unique_NoDup _ sv_eqb_spec).
  destruct n; repeat constructor; auto.
Qed.
Print Assumptions C17_no_duplicates.

Example C17_ex : variables (ERel OLt (EAss OAdd [X; Y; X]) (EName (NAttr ASize "x") false))
  = [("x", false); ("y", false)].
Proof. reflexivity. Qed.

(** An identifier can be listed twice, once per sign. *)
Theorem C17_identifier_twice_refuted : exists e, ~ NoDup (map fst (variables e)).
Proof.
  exists (EAss OAdd [X; EName (NVar "x") true]). intros H. vm_compute in H.
  inversion H; subst. apply H2. now left.
Qed.
Print Assumptions C17_identifier_twice_refuted.

(** *** C18 *)

(** operands: relations between arithmetic terms, their negations, truth values, names *)
Theorem C18_guards_survive : forall g o n ts e' v,
  o = OAndThen \/ o = OOrElse ->
  forallb atom ts = true -> forallb ok ts = true ->
  simplify expr_eqb n (EAss o ts) = Ok e' ->
  eval_sc g (EAss o ts) = Some v -> eval_sc g e' = Some v.
Proof.
  intros. eapply guard_sound; eauto using expr_eqb_sound, expr_eqb_refl.
Qed.
Print Assumptions C18_guards_survive.

(** x /= 0 and then 3 > 2 and then 10 / x > 1 *)
Example C18_ex :
  let ts := [ERel ONe X (ENum 0); ERel OGt (ENum 3) (ENum 2); ERel OGt (EBin ODiv (ENum 10) X) (ENum 1)] in
  forallb atom ts = true /\ forallb ok ts = true /\
  eval (env0 0 0 0) (EAss OAndThen ts) = None /\
  eval_sc (env0 0 0 0) (EAss OAndThen ts) = Some (VBool false) /\
  exists e', simplify expr_eqb 100 (EAss OAndThen ts) = Ok e'.
Proof. vm_compute. intuition. eexists. reflexivity. Qed.

(** (x /= 0 and then y > 1) and then 10 / x > 1: the flattened operands are appended,
    so that the guard ends up behind the division. *)
Theorem C18_nested_refuted : exists g e e' v,
  simplify expr_eqb 100 e = Ok e' /\ eval_sc g e = Some v /\ eval_sc g e' = None.
Proof.
  exists (env0 0 0 0),
    (EAss OAndThen [EAss OAndThen [ERel ONe X (ENum 0); ERel OGt Y (ENum 1)];
                    ERel OGt (EBin ODiv (ENum 10) X) (ENum 1)]).
  do 2 eexists. split; [vm_compute; reflexivity|]. split; vm_compute; reflexivity.
Qed.
Print Assumptions C18_nested_refuted.

(** *** C41 *)

Theorem C41_unique : forall (A : Type) (eqb : A -> A -> bool),
  (forall a b, eqb a b = true <-> a = b) ->
  forall l, NoDup (unique eqb l) /\ (forall x, In x (unique eqb l) <-> In x l).
Proof. intros A eqb He l. split; [now apply unique_NoDup|intros; now apply unique_In]. Qed.
Print Assumptions C41_unique.

(** order of first occurrence: whatever comes later in the input comes later in the result *)
Theorem C41_unique_order : forall (A : Type) (eqb : A -> A -> bool),
  (forall a b, eqb a b = true <-> a = b) ->
  forall l1 l2, exists rest, unique eqb (l1 ++ l2) = unique eqb l1 ++ rest /\
    forall x, In x rest <-> In x l2 /\ ~ In x l1.
Proof.
  intros A eqb He l1 l2.
  assert (HG : forall l1 seen, exists rest, unique_aux eqb seen (l1 ++ l2) = unique_aux eqb seen l1 ++ rest /\
    forall x, In x rest <-> In x l2 /\ ~ In x l1 /\ ~ In x seen).
  { clear l1. induction l1 as [|y l1 IH]; intros seen; cbn [app unique_aux].
    - exists (unique_aux eqb seen l2). split; auto. intros x. rewrite unique_aux_In by auto. cbn. tauto.
    - destruct (existsb (eqb y) seen) eqn:E.
      + destruct (IH seen) as (rest & -> & H). exists rest. split; auto.
        apply (existsb_eqb _ He) in E. intros x. rewrite H. cbn. split; [|tauto].
        intros (H1 & H2 & H3). repeat split; auto. intros [->|H4]; tauto.
      + destruct (IH (y :: seen)) as (rest & -> & H). exists rest. split; auto.
        intros x. rewrite H. cbn. tauto. }
  destruct (HG l1 []) as (rest & E & H). exists rest. split; auto.
  intros x. rewrite H. cbn. tauto.
Qed.
Print Assumptions C41_unique_order.
Example C41_ex : unique Z.eqb [3; 1; 3; 2; 1] = [3; 1; 2] /\ (forall a b, (a =? b) = true <-> a = b).
Proof. split; [reflexivity|]. intros. apply Z.eqb_eq. Qed.
