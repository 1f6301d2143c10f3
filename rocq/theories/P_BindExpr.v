(** C59: simplification, substitution and variables () of the expressions of sessions:
    a binding simplifies to an expression of the same value, and variables () reports the
    names the value depends on. *)
From Coq Require Import String List ZArith Bool Lia.
From Verif Require Import Base Expr SessionType SessionEval BindExpr BindSpec BindFacts BindSound BindMain BindVars.
From Verif Require SessionCheck.
Import ListNotations.
Local Open Scope string_scope.
Local Open Scope list_scope.
Local Open Scope Z_scope.

(** equal expressions have equal values *)
Definition sound (w : world) (eqb : bx -> bx -> bool) : Prop := forall a b st, eqb a b = true -> ev w st a = ev w st b.

(** An expression that has a value simplifies to an expression with that value.  This
    includes bindings, whose names are replaced by their definitions. *)
Theorem C59_simplified w sums eqb n e e' st v : sound w eqb ->
  linear sums e = true -> bindings false e ->
  simplified eqb n e = Ok e' -> ev w st e = Val v -> ev w st e' = Val v.
Proof. intros S L B H. apply (r_val _ _ _ _ _ (simplified_ok w sums false eqb S n e e' H (conj L B))). Qed.

(** No name comes into sight: the simplified expression needs no other names. *)
Theorem C59_scope (w : world) sums eqb n e e' A : sound w eqb ->
  linear sums e = true -> bindings false e ->
  simplified eqb n e = Ok e' -> within false A e = true -> within false A e' = true.
Proof. intros S L B H. exact (r_sat _ _ _ _ _ (simplified_ok w sums false eqb S n e e' H (conj L B)) (Scope A)). Qed.

(** A simplified binding contains no binding, and it calls no other functions. *)
Theorem C59_bindless (w : world) sums eqb n x data e' : sound w eqb ->
  linear sums (BBind x data) = true -> bindings false (BBind x data) ->
  simplified eqb n (BBind x data) = Ok e' ->
  bindless e' = true /\ (forall f, In f (functions e') -> In f (functions (BBind x data))).
Proof.
  intros S L B H. pose proof (simplified_ok w sums false eqb S n _ _ H (conj L B)) as R. split.
  - clear R. destruct n as [|n]; [discriminate|]. cbn [simplified] in H. step H. step H.
    exact (proj2 (red_bind w sums false (simplified eqb n) (simplified_ok w sums false eqb S n) x data a a0 e' E E0 H (conj L B))).
  - assert (P : every (plain_in true (fun f => mem f (functions (BBind x data)))) (BBind x data) = true) by (apply functions_every; intros f; apply mem_In).
    apply (r_sat _ _ _ _ _ R (Each true _)) in P. cbn [sat] in P. intros f I. apply mem_In. revert f I. exact (every_functions _ e' P).
Qed.

(** The value of an expression depends on the reported variables only. *)
Theorem C59_variables w sums eqb n e vs (st st' : store) v v' : sound w eqb ->
  linear sums e = true -> bindings true e -> within true (fun _ => true) e = true ->
  variables eqb n e = Ok vs -> (forall x s, In (x, s) vs -> st x = st' x) ->
  ev w st e = Val v -> ev w st' e = Val v' -> v = v'.
Proof.
  intros S L B W V A E E'. destruct (vars_complete w sums eqb S n e vs V (conj L B) _ W) as (e' & H1 & H2 & _).
  apply H1 in E. apply H1 in E'. rewrite (ev_agree w false e' _ st st' H2) in E; [congruence|].
  intros x X. unfold both in X. apply andb_true_iff in X as [_ X]. apply seen_In in X as (s & I). now apply (A x s).
Qed.

(** A reported name is a free variable or a called function. *)
Theorem C59_variables_free (w : world) sums eqb n e vs A x s : sound w eqb ->
  linear sums e = true -> bindings false e -> within false A e = true ->
  variables eqb n e = Ok vs -> In (x, s) vs -> A x = true \/ In x (functions e).
Proof.
  intros S L B W V I.
  assert (P : every (plain_in true (fun f => mem f (functions e))) e = true) by (apply functions_every; intros f; apply mem_In).
  pose proof (vars_free w sums false eqb S n e vs V (conj L B) A _ W P) as N. unfold named in N. rewrite Forall_forall in N.
  specialize (N _ I). cbn [fst] in N. apply orb_true_iff in N as [N|N]; [now left|right; now apply mem_In].
Qed.

(** A variable that is not reported can be given any value. *)
Corollary C59_unused w sums eqb n e vs (st : store) x a b v v' : sound w eqb ->
  linear sums e = true -> bindings true e -> within true (fun _ => true) e = true ->
  variables eqb n e = Ok vs -> ~ In x (map fst vs) ->
  ev w (upd st x a) e = Val v -> ev w (upd st x b) e = Val v' -> v = v'.
Proof.
  intros S L B W V N. apply (C59_variables w sums eqb n e vs); auto. intros y s I. unfold upd.
  destruct (String.eqb y x) eqn:Q; [|reflexivity]. apply String.eqb_eq in Q as ->. destruct N. now apply (in_map fst) in I.
Qed.

(** ** the hypotheses can be met *)
Definition ex_eqb (a b : bx) : bool := bx_eqb a b.
Lemma ex_sound w : sound w ex_eqb.
Proof. intros a b st H. now apply bx_eqb_eq in H as ->. Qed.
Definition V x := BVar x false.
Definition ex_world : world := mkWorld
  (fun t => if String.eqb t "P::M" then ["f"] else []) (fun id => "P::M")
  (fun f vs => match vs with [VInt z] => Val (VInt (z + 1)) | _ => Stuck end)
  (fun _ _ => 8) (fun _ _ => 8) (fun _ => true) (fun _ => true) (fun _ => [1]) (fun _ _ => None) (fun _ => false).
(** (for all Y in List => Y - X > K or Next (Y) = 3) where X = M.F - A, K = 2 * 3 *)
Definition ex_body : bx :=
  BQuant true "y" (V "list") (BAss OOr [BRel OGt (BBin OSub (V "y") (V "x")) (V "k"); BRel OEq (BCall "next" [V "y"] false) (BNum 3)]).
Definition ex_data : list (string * bx) := [("x", BBin OSub (BSel (V "m") "f" false) (V "a")); ("k", BAss OMul [BNum 2; BNum 3])].
Definition ex_bind : bx := BBind ex_body ex_data.
(** for all Y in List => Y + (-M.F + A) > 6 or Next (Y) = 3 *)
Definition ex_simple : bx :=
  BQuant true "y" (V "list")
    (BAss OOr [BRel OGt (BAss OAdd [V "y"; BAss OAdd [BSel (V "m") "f" true; V "a"]]) (BNum 6); BRel OEq (BCall "next" [V "y"] false) (BNum 3)]).
Definition ex_store (f : Z) : store := fun x =>
  if String.eqb x "list" then Some (VSeq [VInt 2; VInt 9]) else if String.eqb x "a" then Some (VInt 5)
  else if String.eqb x "m" then Some (VMsg "P::M" [("f", VInt f)]) else None.
Example ex_linear : linear true ex_bind = true.
Proof. vm_compute. reflexivity. Qed.
Example ex_bindings g : bindings g ex_bind.
Proof.
  repeat split; try (vm_compute; reflexivity).
  - repeat constructor.
  - exists (fun x => mem x ["m"; "a"]). split; [destruct g; repeat constructor|]. repeat constructor. cbn. intuition discriminate.
Qed.
Example ex_within g : within g (fun x => mem x ["list"; "m"; "a"]) ex_bind = true.
Proof. destruct g; vm_compute; reflexivity. Qed.
Example ex_simplified : simplified ex_eqb 20 ex_bind = Ok ex_simple.
Proof. vm_compute. reflexivity. Qed.
Example ex_variables : variables ex_eqb 20 ex_bind = Ok [("list", false); ("m", false); ("a", false); ("next", false)].
Proof. vm_compute. reflexivity. Qed.
Example ex_value : ev ex_world (ex_store 7) ex_bind = Val (VBool true) /\ ev ex_world (ex_store 8) ex_bind = Val (VBool false).
Proof. vm_compute. auto. Qed.

Example ex_scoped : within true (fun _ => true) ex_bind = true.
Proof. vm_compute. reflexivity. Qed.
(** 7 / X mod 3 and then not (Flag) where X = B * 2: without sums *)
Definition ex_bind' : bx :=
  BBind (BAss OAndThen [BRel ONe (BBin OMod (BBin ODiv (BNum 7) (V "x")) (BNum 3)) (BNum 0); BNot (V "flag")]) [("x", BAss OMul [V "b"; BNum 2])].
Example ex_linear' : linear false ex_bind' = true /\ bindings true ex_bind' /\ bindings false ex_bind'.
Proof.
  split; [vm_compute; reflexivity|].
  split; (repeat split; try (vm_compute; reflexivity); [repeat constructor|exists (fun x => mem x ["b"]); split; repeat constructor]).
Qed.
Example ex_simplified' : simplified ex_eqb 20 ex_bind' =
  Ok (BAss OAndThen [BRel ONe (BBin OMod (BBin ODiv (BNum 7) (BAss OMul [V "b"; BNum 2])) (BNum 3)) (BNum 0); BNot (V "flag")]).
Proof. vm_compute. reflexivity. Qed.
Example ex_variables' : variables ex_eqb 20 ex_bind' = Ok [("b", false); ("flag", false)].
Proof. vm_compute. reflexivity. Qed.

(** ** without the conditions *)
(** Aggregates do not report their variables. *)
Theorem C59_aggregate_refuted : exists e x vs st a b,
  linear true e = true /\ bindless e = true /\ variables ex_eqb 20 e = Ok vs /\ ~ In x (map fst vs) /\
  (exists v v', ev ex_world (upd st x a) e = Val v /\ ev ex_world (upd st x b) e = Val v' /\ v <> v').
Proof.
  exists (BAgg [V "x"]), "x", [], (fun _ => None), (VInt 0), (VInt 1). repeat split; try (vm_compute; reflexivity); [intros []|].
  eexists. eexists. split; [vm_compute; reflexivity|]. split; [vm_compute; reflexivity|]. discriminate.
Qed.
(** So a declaration which is used is rejected as unused: the variable X of a session
    with the action List := [X]. *)
Theorem C59_unused_refuted : exists e vs,
  variables ex_eqb 20 e = Ok vs /\ within false nothing e = false /\ within false (fun x => String.eqb x "x") e = true /\
  let s := SessionCheck.mkSession "start" "final"
             [SessionCheck.mkState "start" [SessionCheck.mkTransition "final" []] None false ("list" :: map fst vs) [];
              SessionCheck.mkState "final" [] None false [] []]
             [SessionCheck.mkDecl "x" (SessionCheck.KTyped "p::byte") []; SessionCheck.mkDecl "list" (SessionCheck.KTyped "p::bytes") []] [] in
  SessionCheck.session_errors s = ["unused declaration"].
Proof. exists (BAgg [V "x"]), []. vm_compute. auto. Qed.
(** The name bound by a quantified expression is not reported, even if the iterable uses
    a variable of that name. *)
Theorem C59_iterable_refuted : exists e x vs st a b,
  linear true e = true /\ bindless e = true /\ variables ex_eqb 20 e = Ok vs /\ ~ In x (map fst vs) /\
  (exists v v', ev ex_world (upd st x a) e = Val v /\ ev ex_world (upd st x b) e = Val v' /\ v <> v').
Proof.
  exists (BQuant true "x" (V "x") (BRel OGt (V "x") (BNum 0))), "x", [], (fun _ => None), (VSeq []), (VSeq [VInt 0]).
  repeat split; try (vm_compute; reflexivity); [intros []|].
  eexists. eexists. split; [vm_compute; reflexivity|]. split; [vm_compute; reflexivity|]. discriminate.
Qed.
(** Nothing is substituted below a negation. *)
Definition two (x : string) (v : value) (y : string) (u : value) : store := upd (upd (fun _ => None) x v) y u.
Theorem C59_not_refuted : exists e e' st v v',
  linear true e = true /\ simplified ex_eqb 20 e = Ok e' /\ ev ex_world st e = Val v /\ ev ex_world st e' = Val v' /\ v <> v'.
Proof.
  exists (BBind (BNot (V "x")) [("x", V "y")]), (BNot (V "x")), (two "x" (VBool true) "y" (VBool false)), (VBool true), (VBool false).
  repeat split; try (vm_compute; reflexivity). discriminate.
Qed.
(** The name bound by the binding is reported instead of its definition. *)
Theorem C59_not_variables_refuted : exists x data vs,
  variables ex_eqb 20 (BBind x data) = Ok vs /\ within false (fun y => String.eqb y "y") (BBind x data) = true /\ vs = [("x", false)].
Proof. exists (BNot (V "x")), [("x", V "y")], [("x", false)]. vm_compute. auto. Qed.
(** A name of a definition is caught by a quantified expression. *)
Theorem C59_capture_refuted : exists e e' st v v',
  linear true e = true /\ simplified ex_eqb 20 e = Ok e' /\ ev ex_world st e = Val v /\ ev ex_world st e' = Val v' /\ v <> v'.
Proof.
  exists (BBind (BQuant true "y" (V "l") (BRel OEq (V "x") (V "y"))) [("x", V "y")]), (BQuant true "y" (V "l") (BBool true)),
    (two "l" (VSeq [VInt 1; VInt 2]) "y" (VInt 1)), (VBool false), (VBool true).
  repeat split; try (vm_compute; reflexivity). discriminate.
Qed.
(** The parameter of a quantified expression is replaced. *)
Theorem C59_shadow_refuted : exists e e' st v v',
  linear true e = true /\ simplified ex_eqb 20 e = Ok e' /\ ev ex_world st e = Val v /\ ev ex_world st e' = Val v' /\ v <> v'.
Proof.
  exists (BBind (BQuant true "x" (V "l") (BRel OGt (V "x") (BNum 0))) [("x", BNum 1)]), (BQuant true "x" (V "l") (BBool true)),
    (two "l" (VSeq [VInt 0]) "y" (VInt 1)), (VBool false), (VBool true).
  repeat split; try (vm_compute; reflexivity). discriminate.
Qed.
(** A selection loses its sign in nested bindings: (X where Y = 1) where X = A - M.F *)
Theorem C59_sign_refuted : exists e e' st v v',
  linear true e = true /\ simplified ex_eqb 20 e = Ok e' /\ ev ex_world st e = Val v /\ ev ex_world st e' = Val v' /\ v <> v'.
Proof.
  exists (BBind (BBind (V "x") [("y", BNum 1)]) [("x", BBin OSub (V "a") (BSel (V "m") "f" false))]), (BAss OAdd [V "a"; BSel (V "m") "f" false]),
    (two "a" (VInt 5) "m" (VMsg "P::M" [("f", VInt 2)])), (VInt 3), (VInt 7).
  repeat split; try (vm_compute; reflexivity). discriminate.
Qed.
(** Sums and divisions cannot be mixed: 1 - A / B becomes 1 + (-A) / B, which is rounded
    in the other direction. *)
Theorem C59_mixed_refuted : exists e e' st v v',
  bindings true e /\ simplified ex_eqb 20 e = Ok e' /\ ev ex_world st e = Val v /\ ev ex_world st e' = Val v' /\ v <> v'.
Proof.
  exists (BBind (BBin OSub (BNum 1) (V "x")) [("x", BBin ODiv (V "a") (V "b"))]), (BAss OAdd [BNum 1; BBin ODiv (BVar "a" true) (V "b")]),
    (two "a" (VInt 7) "b" (VInt 2)), (VInt (-2)), (VInt (-3)).
  split; [repeat split; try (vm_compute; reflexivity); [repeat constructor|exists (fun x => mem x ["a"; "b"]); split; repeat constructor]|].
  repeat split; try (vm_compute; reflexivity). discriminate.
Qed.
(** A name that is used is not reported by a binding if simplification drops it. *)
Theorem C59_dropped_refuted : exists e vs st x a,
  linear true e = true /\ variables ex_eqb 20 e = Ok vs /\ ~ In x (map fst vs) /\ ev ex_world st e = Stuck /\ (exists v, ev ex_world (upd st x a) e = Val v).
Proof.
  exists (BBind (BRel OEq (V "x") (V "x")) [("y", BNum 1)]), [], (fun _ => None), "x", (VInt 0).
  repeat split; try (vm_compute; reflexivity); [intros []|]. eexists. vm_compute. reflexivity.
Qed.

Print Assumptions C59_simplified.
Print Assumptions C59_scope.
Print Assumptions C59_bindless.
Print Assumptions C59_variables.
Print Assumptions C59_variables_free.
Print Assumptions C59_unused.
Print Assumptions C59_unused_refuted.
Print Assumptions C59_sign_refuted.
Print Assumptions C59_mixed_refuted.
