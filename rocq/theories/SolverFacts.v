(** Where the integers of z3 and those of the generated code agree. *)
From Coq Require Import String List ZArith Bool Lia.
From Verif Require Import Base Expr ExprEval ExprFacts Solver GenSpec GenFacts.
Import ListNotations.
Local Open Scope Z_scope.

(** No division and no modulo with a negative operand is computed under [g]: Ada
    truncates quotients, SMT-LIB rounds them so that the remainder is not negative. *)
Fixpoint tame (g : env) (e : expr) : Prop :=
  match e with
  | ETrue | EFalse | ENum _ | EName _ _ => True
  | ENot x => tame g x
  | EAss _ ts => fold_right and True (map (tame g) ts)
  | EBin o l r =>
    tame g l /\ tame g r /\
    match o with
    | ODiv => forall x y, eval_sc g l = Some (VInt x) -> eval_sc g r = Some (VInt y) -> 0 <= x /\ 0 <= y
    | OMod => forall y, eval_sc g r = Some (VInt y) -> 0 <= y
    | OSub | OPow => True
    end
  | ERel _ l r => tame g l /\ tame g r
  end.

(** every name stands for a number *)
Definition int_env (g : env) : Prop := forall n, exists z, g n = VInt z.
Definition num (g : env) (n : name) : Z := number (g n).

Definition interp_of (g : env) : interp := mkInterp (num g) (fun _ => 0) (fun _ => 0) (fun _ _ => 1).
Definition env_of_interp (i : interp) : env := fun n => VInt (z_name i n).

Lemma env_of_interp_int i : int_env (env_of_interp i).
Proof. intros n. eexists. reflexivity. Qed.

Lemma fold_and_Forall {A} (P : A -> Prop) l : fold_right and True (map P l) <-> Forall P l.
Proof.
  induction l as [|x l IH]; cbn; [split; [constructor|trivial]|]. rewrite IH. split.
  - intros [H K]. now constructor.
  - intros H. inversion H; subst. now split.
Qed.

Lemma int_env_num g n : int_env g -> g n = VInt (num g n).
Proof. intros I. destruct (I n) as [z E]. unfold num. now rewrite E. Qed.

Section Agree.
  Variable g : env.
  Hypothesis IE : int_env g.
  Let i := interp_of g.

  Lemma agree_bools ts bs :
    Forall (fun e => tame g e -> forall v, eval_sc g e = Some v -> zeval i e = v) ts ->
    Forall (tame g) ts -> bools (map (eval_sc g) ts) = Some bs -> map truth (map (zeval i) ts) = bs.
  Proof.
    intros F T. revert bs. induction F as [|e ts H F IH]; intros bs; cbn [map bools].
    - intros E. injection E as <-. reflexivity.
    - inversion T; subst. destruct (eval_sc g e) as [[z|b]|] eqn:E; try discriminate.
      destruct (bools (map (eval_sc g) ts)) as [bs'|] eqn:B; [|discriminate]. intros K. injection K as <-.
      rewrite (H ltac:(assumption) _ eq_refl). cbn [truth]. f_equal. auto.
  Qed.
  Lemma agree_ints ts zs :
    Forall (fun e => tame g e -> forall v, eval_sc g e = Some v -> zeval i e = v) ts ->
    Forall (tame g) ts -> ints (map (eval_sc g) ts) = Some zs -> map number (map (zeval i) ts) = zs.
  Proof.
    intros F T. revert zs. induction F as [|e ts H F IH]; intros zs; cbn [map ints].
    - intros E. injection E as <-. reflexivity.
    - inversion T; subst. destruct (eval_sc g e) as [[z|b]|] eqn:E; try discriminate.
      destruct (ints (map (eval_sc g) ts)) as [zs'|] eqn:B; [|discriminate]. intros K. injection K as <-.
      rewrite (H ltac:(assumption) _ eq_refl). cbn [number]. f_equal. auto.
  Qed.
  Lemma agree_sc stop ts v :
    Forall (fun e => tame g e -> forall v, eval_sc g e = Some v -> zeval i e = v) ts ->
    Forall (tame g) ts -> sc_val stop (map (eval_sc g) ts) = Some v ->
    v = VBool (if stop then existsb truth (map (zeval i) ts) else forallb truth (map (zeval i) ts)).
  Proof.
    intros F T. induction F as [|e ts H F IH]; cbn [map sc_val].
    - intros E. injection E as <-. now destruct stop.
    - inversion T; subst. destruct (eval_sc g e) as [[z|b]|] eqn:E; try discriminate.
      cbn [existsb forallb]. rewrite (H ltac:(assumption) _ eq_refl). cbn [truth].
      destruct b, stop; cbn [Bool.eqb andb orb]; intros K; (injection K as <-; reflexivity) || auto.
  Qed.

  Lemma forallb_truth vs : forallb truth vs = allb (map truth vs).
  Proof. unfold allb. induction vs as [|v vs IH]; cbn; congruence. Qed.
  Lemma existsb_truth vs : existsb truth vs = anyb (map truth vs).
  Proof. unfold anyb. induction vs as [|v vs IH]; cbn; congruence. Qed.

  Lemma agree e : tame g e -> forall v, eval_sc g e = Some v -> zeval i e = v.
  Proof.
    induction e as [| |v0|n0 s0|e IHe|o ts IHts|o e1 e2 IHe1 IHe2|o e1 e2 IHe1 IHe2] using expr_ind'; intros T v E; cbn [tame] in T; cbn [eval_sc zeval] in *.
    - congruence.
    - congruence.
    - congruence.
    - pose proof (int_env_num g n0 IE) as G. rewrite G in E. unfold name_val in E. cbn [z_name i interp_of].
      destruct s0; congruence.
    - destruct (eval_sc g e) as [[z|b]|] eqn:E1; cbn [not_val] in E; try discriminate. injection E as <-.
      rewrite (IHe T _ eq_refl). reflexivity.
    - apply fold_and_Forall in T. destruct o; cbn [ass_val] in E.
      + destruct (bools _) as [bs|] eqn:B; [|discriminate]. injection E as <-.
        now rewrite forallb_truth, (agree_bools ts bs).
      + apply agree_sc in E; auto.
      + destruct (bools _) as [bs|] eqn:B; [|discriminate]. injection E as <-.
        now rewrite existsb_truth, (agree_bools ts bs).
      + apply agree_sc in E; auto.
      + destruct (ints _) as [bs|] eqn:B; [|discriminate]. injection E as <-. now rewrite (agree_ints ts bs).
      + destruct (ints _) as [bs|] eqn:B; [|discriminate]. injection E as <-. now rewrite (agree_ints ts bs).
    - destruct T as (T1 & T2 & T3). unfold bin_val in E.
      destruct (eval_sc g e1) as [[x|b]|] eqn:E1; try discriminate.
      destruct (eval_sc g e2) as [[y|b]|] eqn:E2; try discriminate.
      rewrite (IHe1 T1 _ eq_refl), (IHe2 T2 _ eq_refl). cbn [number].
      destruct o.
      + congruence.
      + destruct (Z.eqb_spec y 0); [discriminate|]. injection E as <-. destruct (T3 x y eq_refl eq_refl).
        unfold smt_div. rewrite Z.sgn_pos, Z.abs_eq, Z.quot_div_nonneg by lia. f_equal. lia.
      + destruct (Z.ltb_spec y 0); [discriminate|]. injection E as <-. cbn [orb].
        destruct (Z.eqb_spec x 0); [|reflexivity]. destruct (Z.eqb_spec y 0); [|reflexivity].
        subst. reflexivity.
      + destruct (Z.eqb_spec y 0); [discriminate|]. injection E as <-. pose proof (T3 y eq_refl).
        unfold smt_mod. rewrite Z.abs_eq by lia. reflexivity.
    - destruct T as (T1 & T2). unfold rel_val in E.
      destruct (eval_sc g e1) as [[x|b]|] eqn:E1; try discriminate;
      destruct (eval_sc g e2) as [[y|c]|] eqn:E2; try discriminate;
      rewrite (IHe1 T1 _ eq_refl), (IHe2 T2 _ eq_refl); cbn [number].
      + congruence.
      + destruct o; try discriminate; injection E as <-; destruct b, c; reflexivity.
  Qed.
End Agree.

(** a change of names that do not occur *)
Lemma tame_ext g g' e : (forall n, In n (names e) -> g n = g' n) -> tame g e -> tame g' e.
Proof.
  induction e as [| |v0|n0 s0|e IHe|o ts IHts|o e1 e2 IHe1 IHe2|o e1 e2 IHe1 IHe2] using expr_ind'; intros A T; cbn [tame names] in *; auto.
  - rewrite fold_and_Forall in *. rewrite Forall_forall in *. intros e I. apply IHts; auto.
    intros n J. apply A. apply in_flat_map. eauto.
  - destruct T as (T1 & T2 & T3). split; [apply IHe1; auto; intros n J; apply A, in_or_app; auto|].
    split; [apply IHe2; auto; intros n J; apply A, in_or_app; auto|].
    rewrite <- (eval_sc_ext g g' e1), <- (eval_sc_ext g g' e2); [exact T3| |]; intros n J; apply A, in_or_app; auto.
  - destruct T as (T1 & T2). split; [apply IHe1|apply IHe2]; auto; intros n J; apply A, in_or_app; auto.
Qed.

(** ** From z3 back to the language: expressions whose value both agree on whatever
    the numbers are; the sort is that of z3 *)
Fixpoint plain (e : expr) : option zsort :=
  match e with
  | ETrue | EFalse => Some ZBool
  | ENum _ | EName _ _ => Some ZInt
  | ENot x => match plain x with Some ZBool => Some ZBool | _ => None end
  | EAss o ts =>
    let want := if boolean_op o then ZBool else ZInt in
    if forallb (fun t => match plain t with Some k => zsort_eqb want k | None => false end) ts then Some want else None
  | EBin o l r =>
    match plain l, plain r with
    | Some ZInt, Some ZInt =>
      match o with
      | OSub => Some ZInt
      | ODiv => None
      | OMod => match r with ENum y => if 0 <? y then Some ZInt else None | _ => None end
      | OPow => match r with ENum y => if 0 <? y then Some ZInt else None | _ => None end
      end
    | _, _ => None
    end
  | ERel _ l r => match plain l, plain r with Some ZInt, Some ZInt => Some ZBool | _, _ => None end
  end.

Definition of_sort (k : zsort) (v : val) : Prop :=
  match k, v with ZBool, VBool _ => True | ZInt, VInt _ => True | _, _ => False end.

Section Back.
  Variable i : interp.
  Let g := env_of_interp i.

  Lemma plain_list k ts :
    Forall (fun e => forall k, plain e = Some k -> eval_sc g e = Some (zeval i e) /\ of_sort k (zeval i e)) ts ->
    forallb (fun t => match plain t with Some k' => zsort_eqb k k' | None => false end) ts = true ->
    Forall (fun e => eval_sc g e = Some (zeval i e) /\ of_sort k (zeval i e)) ts.
  Proof.
    intros F B. rewrite Forall_forall in *. rewrite forallb_forall in B. intros e I. specialize (B e I).
    destruct (plain e) as [k'|] eqn:P; [|discriminate]. assert (k' = k) as -> by (destruct k, k'; auto; discriminate).
    now apply F.
  Qed.

  Lemma back_bools ts : Forall (fun e => eval_sc g e = Some (zeval i e) /\ of_sort ZBool (zeval i e)) ts ->
    bools (map (eval_sc g) ts) = Some (map truth (map (zeval i) ts)).
  Proof.
    induction 1 as [|e ts [H K] F IH]; [reflexivity|]. cbn [map bools]. rewrite H.
    destruct (zeval i e); [destruct K|]. now rewrite IH.
  Qed.
  Lemma back_ints ts : Forall (fun e => eval_sc g e = Some (zeval i e) /\ of_sort ZInt (zeval i e)) ts ->
    ints (map (eval_sc g) ts) = Some (map number (map (zeval i) ts)).
  Proof.
    induction 1 as [|e ts [H K] F IH]; [reflexivity|]. cbn [map ints]. rewrite H.
    destruct (zeval i e); [|destruct K]. now rewrite IH.
  Qed.
  Lemma back_sc stop ts : Forall (fun e => eval_sc g e = Some (zeval i e) /\ of_sort ZBool (zeval i e)) ts ->
    sc_val stop (map (eval_sc g) ts) =
    Some (VBool (if stop then existsb truth (map (zeval i) ts) else forallb truth (map (zeval i) ts))).
  Proof.
    induction 1 as [|e ts [H K] F IH]; [destruct stop; reflexivity|]. cbn [map sc_val]. rewrite H.
    destruct (zeval i e) as [z|b]; [destruct K|]. cbn [existsb forallb truth]. rewrite IH.
    destruct b, stop; reflexivity.
  Qed.

  Lemma back e : forall k, plain e = Some k -> eval_sc g e = Some (zeval i e) /\ of_sort k (zeval i e).
  Proof.
    induction e as [| |v0|n0 s0|e IHe|o ts IHts|o e1 e2 IHe1 IHe2|o e1 e2 IHe1 IHe2] using expr_ind';
      intros k P; cbn [plain eval_sc zeval] in *.
    - injection P as <-. now split.
    - injection P as <-. now split.
    - injection P as <-. now split.
    - injection P as <-. split; [|exact Logic.I]. unfold g, env_of_interp, name_val. now destruct s0.
    - destruct (plain e) as [[]|]; try discriminate. injection P as <-. destruct (IHe _ eq_refl) as [E K].
      rewrite E. destruct (zeval i e); [destruct K|]. now split.
    - destruct (forallb _ ts) eqn:B in P; [|discriminate]. injection P as <-. pose proof (plain_list _ _ IHts B) as F.
      destruct o; cbn [boolean_op ass_val] in *.
      + rewrite back_bools by exact F. rewrite forallb_truth. now split.
      + rewrite back_sc by exact F. now split.
      + rewrite back_bools by exact F. rewrite existsb_truth. now split.
      + rewrite back_sc by exact F. now split.
      + rewrite back_ints by exact F. now split.
      + rewrite back_ints by exact F. now split.
    - destruct (plain e1) as [[]|]; try discriminate. destruct (plain e2) as [[]|]; try discriminate.
      destruct (IHe1 _ eq_refl) as [E1 K1], (IHe2 _ eq_refl) as [E2 K2]. rewrite E1, E2.
      destruct (zeval i e1) as [x|]; [|destruct K1]. destruct (zeval i e2) as [y|] eqn:Z2; [|destruct K2].
      cbn [bin_val number]. destruct o; try discriminate.
      + injection P as <-. now split.
      + destruct e2; try discriminate. cbn [zeval] in Z2. injection Z2 as ->. destruct (Z.ltb_spec 0 y); [|discriminate].
        injection P as <-. destruct (Z.ltb_spec y 0); [lia|]. destruct (Z.eqb_spec y 0); [lia|].
        rewrite andb_false_r. now split.
      + destruct e2; try discriminate. cbn [zeval] in Z2. injection Z2 as ->. destruct (Z.ltb_spec 0 y); [|discriminate].
        injection P as <-. destruct (Z.eqb_spec y 0); [lia|]. unfold smt_mod. rewrite Z.abs_eq by lia. now split.
    - destruct (plain e1) as [[]|]; try discriminate. destruct (plain e2) as [[]|]; try discriminate.
      destruct (IHe1 _ eq_refl) as [E1 K1], (IHe2 _ eq_refl) as [E2 K2]. rewrite E1, E2.
      destruct (zeval i e1) as [x|]; [|destruct K1]. destruct (zeval i e2) as [y|] eqn:Z2; [|destruct K2].
      injection P as <-. now split.
  Qed.
End Back.
