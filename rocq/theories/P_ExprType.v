(** C47: what the type check of expressions guarantees *)
From Coq Require Import String List ZArith Bool Lia.
From Verif Require Import Base Expr ExprEval ExprFacts Solver GenSpec Typing ExprType P_Typing.
Import ListNotations.
Local Open Scope string_scope.
Local Open Scope list_scope.
Local Open Scope Z_scope.

Lemma flat_nil {A B} (f : A -> list B) l : flat_map f l = [] -> forall a, In a l -> f a = [].
Proof.
  induction l as [|b l IH]; cbn; intros H a I; [destruct I|]. apply app_eq_nil in H as [H1 H2]. destruct I as [<-|I]; auto.
Qed.
Lemma expect_nil a t : expect a t = [] -> a <> TUndefined /\ (t = TUndefined \/ is_compatible a t = true).
Proof.
  unfold expect, check_type. intros H. assert (X : a <> TUndefined) by (intros ->; discriminate). split; [exact X|].
  destruct (is_compatible a t) eqn:E; [now right|left]. cbn [forallb] in H. rewrite E in H. cbn in H.
  destruct a; try congruence; destruct t; auto; discriminate.
Qed.
Lemma instance_nil a c : check_type_instance a [c] = [] -> a <> TUndefined /\ (a = TAny \/ instance a c = true).
Proof.
  intros H. split; [intros ->; discriminate|]. destruct a; auto; right; cbn in H; cbn; destruct c; cbn in *; auto; try discriminate.
Qed.

(** every name in an expression without type error has a type; a name below a negation
    never has *)
Theorem C47_declared : forall e g, check_expr g e TAny = [] -> forall x, In x (names e) -> g (name_id x) <> TUndefined.
Proof.
  assert (G : forall e g, subexpr_errors g e = [] -> type_of g e <> TUndefined -> forall x, In x (names e) -> g (name_id x) <> TUndefined).
  { induction e as [| |v0|n0 s0|e IHe|o ts IHts|o e1 e2 IHe1 IHe2|o e1 e2 IHe1 IHe2] using expr_ind'; intros g H T x I; cbn [names] in I; try destruct I.
    - subst x. destruct n0 as [y|a y]; cbn in *; [exact T|]. apply instance_nil in H. apply H.
    - destruct H0.
    - cbn [subexpr_errors] in H. apply app_eq_nil in H as [H1 H2]. apply expect_nil in H2 as [H2 _].
      exfalso. apply (IHe untyped H1 H2 x I). reflexivity.
    - apply in_flat_map in I as (t & I & J). rewrite Forall_forall in IHts.
      assert (X : subexpr_errors g t = [] /\ type_of g t <> TUndefined).
      { cbn [subexpr_errors] in H. destruct o; pose proof (flat_nil _ _ H t I) as K; cbn beta in K; apply app_eq_nil in K as [K1 K2];
          (split; [exact K1|]); (apply expect_nil in K2 || apply instance_nil in K2); apply K2. }
      destruct X. eapply IHts; eauto.
    - cbn [subexpr_errors] in H. apply app_eq_nil in H as [H1 H]. apply app_eq_nil in H as [H2 H]. apply app_eq_nil in H as [H3 H4].
      apply instance_nil in H2, H4. apply in_app_or in I as [I|I]; [apply (IHe1 g H1 (proj1 H2) x I)|apply (IHe2 g H3 (proj1 H4) x I)].
    - assert (X : subexpr_errors g e1 = [] /\ type_of g e1 <> TUndefined /\ subexpr_errors g e2 = [] /\ type_of g e2 <> TUndefined).
      { cbn [subexpr_errors] in H. destruct o; apply app_eq_nil in H as [H1 H]; apply app_eq_nil in H as [H2 H]; apply app_eq_nil in H as [H3 H4];
          apply instance_nil in H2; (apply expect_nil in H4 || apply instance_nil in H4); tauto. }
      destruct X as (X1 & X2 & X3 & X4). apply in_app_or in I as [I|I]; eauto. }
  intros e g H. unfold check_expr in H. apply app_eq_nil in H as [H1 H2]. apply expect_nil in H2 as [H2 _]. eauto.
Qed.
Print Assumptions C47_declared.

(** ** Values *)
Definition fits (t : ty) (v : val) : Prop := match v with VBool _ => t = BOOLEAN | VInt _ => t <> BOOLEAN end.
(** n-ary operators have operands *)
Fixpoint no_empty (e : expr) : Prop :=
  match e with
  | ENot x => no_empty x
  | EAss _ ts => ts <> [] /\ fold_right and True (map no_empty ts)
  | EBin _ l r | ERel _ l r => no_empty l /\ no_empty r
  | _ => True
  end.
(** an operation that has no result: division by zero, a negative exponent, the negation
    of a Boolean variable as a number *)
Inductive blocked (h : env) : expr -> Prop :=
| bl_bin o l r x y : eval_sc h l = Some (VInt x) -> eval_sc h r = Some (VInt y) -> bin_val o (Some (VInt x)) (Some (VInt y)) = None ->
    blocked h (EBin o l r)
| bl_neg x b : h (NVar x) = VBool b -> blocked h (EName (NVar x) true)
| bl_not e : blocked h e -> blocked h (ENot e)
| bl_ass o ts t : In t ts -> blocked h t -> blocked h (EAss o ts)
| bl_bin1 o l r : blocked h l -> blocked h (EBin o l r)
| bl_bin2 o l r : blocked h r -> blocked h (EBin o l r)
| bl_rel1 o l r : blocked h l -> blocked h (ERel o l r)
| bl_rel2 o l r : blocked h r -> blocked h (ERel o l r).

Definition int_or_undefined (t : ty) : Prop := is_integer t = true \/ t = TUndefined.
Lemma common_int a b : is_integer a = true -> is_integer b = true -> is_integer (common_type_of a b) = true.
Proof.
  intros A B. destruct a; try discriminate; destruct b; try discriminate; cbn;
    repeat match goal with |- context [if ?c then _ else _] => destruct c end; reflexivity.
Qed.
Lemma common_iou a b : int_or_undefined a -> int_or_undefined b -> int_or_undefined (common_type_of a b).
Proof.
  intros [A| ->] [B| ->]; try (right; reflexivity).
  - left. now apply common_int.
  - right. destruct a; try discriminate; reflexivity.
Qed.
Lemma commons_iou ts : ts <> [] -> Forall int_or_undefined ts -> int_or_undefined (common_type ts).
Proof.
  intros N F. destruct ts as [|t ts]; [congruence|]. unfold common_type. cbn. inversion F as [|? ? T F']; subst. clear N F.
  revert t T. induction F' as [|u us U F IH]; intros t T; [exact T|]. cbn. apply IH. now apply common_iou.
Qed.
Lemma boolean_compatible t : is_compatible t BOOLEAN = true -> t = TAny \/ t = BOOLEAN.
Proof.
  destruct t; unfold is_compatible, BOOLEAN; cbn [compatible_with is_integer]; auto; try discriminate.
  intros H. apply String.eqb_eq in H. subst. now right.
Qed.
Lemma compatible_boolean t : is_compatible BOOLEAN t = true -> t = TAny \/ t = BOOLEAN.
Proof.
  unfold is_compatible, BOOLEAN. destruct t; cbn [compatible_with is_integer]; auto; try discriminate.
  intros H. apply String.eqb_eq in H. subst. now right.
Qed.
Lemma integer_boolean t : is_integer t = true -> t <> BOOLEAN.
Proof. intros H ->. discriminate. Qed.
Lemma integer_any t : is_integer t = true -> t <> TAny.
Proof. intros H ->. discriminate. Qed.

Definition typed (g : tenv) (e : expr) : Prop := subexpr_errors g e = [] /\ type_of g e <> TUndefined.

Lemma typed_ass_math g o ts : boolean_op o = false -> typed g (EAss o ts) ->
  forall t, In t ts -> typed g t /\ (type_of g t = TAny \/ is_integer (type_of g t) = true).
Proof.
  intros B [T _] t I. cbn [subexpr_errors] in T. destruct o; try discriminate B;
    pose proof (flat_nil _ _ T t I) as H; cbn beta in H; apply app_eq_nil in H as [H1 H2]; apply instance_nil in H2 as [H2 H3]; split; auto; split; auto.
Qed.
Lemma typed_ass_bool g o ts : boolean_op o = true -> typed g (EAss o ts) ->
  forall t, In t ts -> typed g t /\ (type_of g t = TAny \/ type_of g t = BOOLEAN).
Proof.
  intros B [T _] t I. cbn [subexpr_errors] in T. destruct o; try discriminate B;
    pose proof (flat_nil _ _ T t I) as H; cbn beta in H; apply app_eq_nil in H as [H1 H2]; apply expect_nil in H2 as [H2 H3]; split; try (split; assumption);
    destruct H3 as [H3|H3]; try discriminate; now apply boolean_compatible.
Qed.
Lemma typed_bin g o l r : typed g (EBin o l r) ->
  (typed g l /\ (type_of g l = TAny \/ is_integer (type_of g l) = true)) /\ (typed g r /\ (type_of g r = TAny \/ is_integer (type_of g r) = true)).
Proof.
  intros [T _]. cbn [subexpr_errors] in T. apply app_eq_nil in T as [H1 H]. apply app_eq_nil in H as [H2 H]. apply app_eq_nil in H as [H3 H4].
  apply instance_nil in H2 as [H2 H2'], H4 as [H4 H4']. repeat split; auto.
Qed.
Definition equality (o : relop) : bool := match o with OEq | ONe => true | _ => false end.
Lemma typed_rel g o l r : typed g (ERel o l r) -> typed g l /\ typed g r /\
  if equality o then is_compatible (type_of g r) (type_of g l) = true
  else (type_of g l = TAny \/ is_integer (type_of g l) = true) /\ (type_of g r = TAny \/ is_integer (type_of g r) = true).
Proof.
  intros [T _]. destruct o; cbn [subexpr_errors equality] in *; apply app_eq_nil in T as [H1 H]; apply app_eq_nil in H as [H2 H]; apply app_eq_nil in H as [H3 H4];
    apply instance_nil in H2 as [H2 H2']; (apply instance_nil in H4 as [H4 H4'] || apply expect_nil in H4 as [H4 H4']); repeat split; auto;
    destruct H4' as [H4'|H4']; congruence.
Qed.

Lemma types g e : (forall x, g x <> TAny) -> typed g e -> no_empty e ->
  type_of g e <> TAny /\ (is_integer (type_of g e) = true -> int_or_undefined (new_type g e)).
Proof.
  revert g. induction e as [| |v0|n0 s0|e IHe|o ts IHts|o e1 e2 IHe1 IHe2|o e1 e2 IHe1 IHe2] using expr_ind'; intros g NA T NE;
    try (split; [discriminate|intros H; try discriminate H; now left]).
  - destruct n0 as [x|a x]; cbn [type_of new_type]; [split; [apply NA|intros H; now left]|]. split; [discriminate|now right].
  - destruct NE as [NN NE]. rewrite Forall_forall in IHts. apply fold_and in NE. rewrite Forall_forall in NE.
    destruct (boolean_op o) eqn:B; [destruct o; try discriminate B; (split; [discriminate|discriminate])|].
    assert (X : int_or_undefined (common_type (map (new_type g) ts))).
    { apply commons_iou; [destruct ts; [congruence|discriminate]|]. rewrite Forall_forall. intros y J. apply in_map_iff in J as (t & <- & J).
      destruct (typed_ass_math g o ts B T t J) as [Tt K]. destruct (IHts t J g NA Tt (NE t J)) as [N1 N2].
      apply N2. destruct K; [contradiction|assumption]. }
    assert (Y : is_integer (type_of g (EAss o ts)) = true).
    { destruct o; try discriminate B; cbn [type_of new_type]; destruct X as [X|X]; try (rewrite X; reflexivity);
        destruct (common_type (map (new_type g) ts)); try discriminate X; reflexivity. }
    split; [now apply integer_any|]. intros _. left. exact Y.
  - destruct (typed_bin _ _ _ _ T) as [[T1 K1] [T2 K2]]. destruct NE as [NE1 NE2].
    destruct (IHe1 g NA T1 NE1) as [A1 B1], (IHe2 g NA T2 NE2) as [A2 B2].
    destruct K1 as [K1|K1]; [contradiction|]. destruct K2 as [K2|K2]; [contradiction|].
    split.
    + apply integer_any. cbn [type_of]. change (is_integer (common_type_of (type_of g e1) (type_of g e2)) = true). now apply common_int.
    + intros _. cbn [new_type]. apply commons_iou; [discriminate|]. apply Forall_cons; [auto|]. apply Forall_cons; [auto|]. apply Forall_nil.
Qed.

Lemma ints_all h ts : (forall t, In t ts -> exists z, eval_sc h t = Some (VInt z)) -> exists zs, ints (map (eval_sc h) ts) = Some zs.
Proof.
  induction ts as [|t ts IH]; intros H; [exists []; reflexivity|]. destruct (H t (or_introl eq_refl)) as (z & E).
  destruct IH as (zs & E'); [intros u I; apply H; now right|]. exists (z :: zs). cbn [map ints]. now rewrite E, E'.
Qed.
Lemma bools_all h ts : (forall t, In t ts -> exists b, eval_sc h t = Some (VBool b)) -> exists bs, bools (map (eval_sc h) ts) = Some bs.
Proof.
  induction ts as [|t ts IH]; intros H; [exists []; reflexivity|]. destruct (H t (or_introl eq_refl)) as (z & E).
  destruct IH as (zs & E'); [intros u I; apply H; now right|]. exists (z :: zs). cbn [map bools]. now rewrite E, E'.
Qed.
Lemma sc_all h stop ts : (forall t, In t ts -> exists b, eval_sc h t = Some (VBool b)) -> exists b, sc_val stop (map (eval_sc h) ts) = Some (VBool b).
Proof.
  induction ts as [|t ts IH]; intros H; [eexists; reflexivity|]. destruct (H t (or_introl eq_refl)) as (z & E).
  cbn [map sc_val]. rewrite E. destruct (Bool.eqb z stop); [eauto|]. apply IH. intros u I. apply H. now right.
Qed.
Lemma all_or_one {A} (P Q : A -> Prop) l : (forall a, In a l -> P a \/ Q a) -> (forall a, In a l -> P a) \/ exists a, In a l /\ Q a.
Proof.
  induction l as [|a l IH]; intros H; [left; intros b []|]. destruct (H a (or_introl eq_refl)) as [p|q]; [|right; exists a; split; [now left|exact q]].
  destruct IH as [K|(b & I & q)]; [intros b I; apply H; now right| |right; exists b; split; [now right|exact q]].
  left. intros b [<-|I]; auto.
Qed.

(** a well-typed expression has a value of its type unless an arithmetic operation
    fails; the values of the variables are of their types *)
Theorem C47_sound : forall e g h expected,
  check_expr g e expected = [] -> no_empty e -> (forall x, g x <> TAny) ->
  (forall x, g x <> TUndefined -> fits (g x) (h (NVar x))) -> (forall a x, exists z, h (NAttr a x) = VInt z) ->
  (exists v, eval_sc h e = Some v /\ fits (type_of g e) v) \/ blocked h e.
Proof.
  assert (G : forall e g h, typed g e -> no_empty e -> (forall x, g x <> TAny) ->
    (forall x, g x <> TUndefined -> fits (g x) (h (NVar x))) -> (forall a x, exists z, h (NAttr a x) = VInt z) ->
    (exists v, eval_sc h e = Some v /\ fits (type_of g e) v) \/ blocked h e).
  { induction e as [| |v0|n0 s0|e IHe|o ts IHts|o e1 e2 IHe1 IHe2|o e1 e2 IHe1 IHe2] using expr_ind'; intros g h T NE NA F AT.
    - left. exists (VBool true). split; reflexivity.
    - left. exists (VBool false). split; reflexivity.
    - left. exists (VInt v0). split; [reflexivity|discriminate].
    - destruct n0 as [x|a x]; cbn [eval_sc type_of new_type].
      + destruct T as [_ T]. cbn [type_of new_type] in T. specialize (F x T). destruct s0; cbn [name_val]; [|eauto].
        destruct (h (NVar x)) as [z|b] eqn:E; [left; exists (VInt (- z)); split; [reflexivity|exact F]|]. right. eapply bl_neg; eauto.
      + destruct (AT a x) as (z & E). rewrite E. left. destruct s0; cbn [name_val]; eexists; (split; [reflexivity|discriminate]).
    - destruct T as [T _]. cbn [subexpr_errors] in T. apply app_eq_nil in T as [T1 T2]. apply expect_nil in T2 as [T2 T3].
      destruct T3 as [T3|T3]; [discriminate|].
      destruct (IHe untyped h (conj T1 T2) NE) as [(v & E & FV)|B]; [discriminate|intros x X; destruct (X eq_refl)|exact AT| |right; now constructor].
      apply boolean_compatible in T3 as [T3|T3]; [destruct (types untyped e (fun x => ltac:(discriminate)) (conj T1 T2) NE); contradiction|].
      rewrite T3 in FV. left. cbn [eval_sc]. rewrite E. destruct v as [z|b]; [destruct (FV eq_refl)|]. exists (VBool (negb b)). split; reflexivity.
    - destruct NE as [NN NE]. rewrite Forall_forall in IHts. apply fold_and in NE. rewrite Forall_forall in NE.
      destruct (boolean_op o) eqn:B.
      + assert (X : (forall t, In t ts -> exists b, eval_sc h t = Some (VBool b)) \/ exists t, In t ts /\ blocked h t).
        { apply all_or_one. intros t I. destruct (typed_ass_bool g o ts B T t I) as [Tt K].
          destruct (types g t NA Tt (NE t I)) as [N1 _]. destruct K as [K|K]; [contradiction|].
          destruct (IHts t I g h Tt (NE t I) NA F AT) as [(v & E & FV)|BL]; [left|now right].
          rewrite K in FV. destruct v as [z|b]; [destruct (FV eq_refl)|eauto]. }
        destruct X as [X|(t & I & BL)]; [left|right; eapply bl_ass; eauto].
        assert (Y : exists b, eval_sc h (EAss o ts) = Some (VBool b)).
        { destruct (bools_all h ts X) as (bs & E). destruct o; try discriminate B; cbn [eval_sc ass_val]; try (rewrite E; eauto); now apply sc_all. }
        destruct Y as (b & E). exists (VBool b). split; [exact E|]. destruct o; try discriminate B; reflexivity.
      + assert (X : (forall t, In t ts -> exists z, eval_sc h t = Some (VInt z)) \/ exists t, In t ts /\ blocked h t).
        { apply all_or_one. intros t I. destruct (typed_ass_math g o ts B T t I) as [Tt K].
          destruct (types g t NA Tt (NE t I)) as [N1 _]. destruct K as [K|K]; [contradiction|].
          destruct (IHts t I g h Tt (NE t I) NA F AT) as [(v & E & FV)|BL]; [left|now right].
          destruct v as [z|b]; [eauto|]. cbn in FV. apply integer_boolean in K. contradiction. }
        destruct X as [X|(t & I & BL)]; [left|right; eapply bl_ass; eauto].
        destruct (ints_all h ts X) as (zs & E).
        assert (Y : exists z, eval_sc h (EAss o ts) = Some (VInt z)).
        { destruct o; try discriminate B; cbn [eval_sc ass_val]; rewrite E; eauto. }
        destruct Y as (z & EV). exists (VInt z). split; [exact EV|]. cbn [fits].
        intros EB.
        assert (IOU : int_or_undefined (common_type (map (new_type g) ts))).
        { apply commons_iou; [destruct ts; [congruence|discriminate]|]. rewrite Forall_forall. intros y J. apply in_map_iff in J as (t & <- & J).
          destruct (typed_ass_math g o ts B T t J) as [Tt K].
          destruct (types g t NA Tt (NE t J)) as [N1 N2]. apply N2. destruct K; [contradiction|assumption]. }
        destruct o; try discriminate B; cbn [type_of new_type] in EB; destruct IOU as [IOU|IOU]; try (rewrite IOU in EB; discriminate EB);
          destruct (common_type (map (new_type g) ts)); try discriminate IOU; discriminate EB.
    - destruct (typed_bin _ _ _ _ T) as [[T1 K1] [T2 K2]]. destruct NE as [NE1 NE2].
      destruct (types g e1 NA T1 NE1) as [A1 _], (types g e2 NA T2 NE2) as [A2 _].
      destruct K1 as [K1|K1]; [contradiction|]. destruct K2 as [K2|K2]; [contradiction|].
      destruct (IHe1 g h T1 NE1 NA F AT) as [(v1 & E1 & F1)|B]; [|right; now apply bl_bin1].
      destruct (IHe2 g h T2 NE2 NA F AT) as [(v2 & E2 & F2)|B]; [|right; now apply bl_bin2].
      destruct v1 as [x|b]; [|cbn in F1; apply integer_boolean in K1; contradiction].
      destruct v2 as [y|b]; [|cbn in F2; apply integer_boolean in K2; contradiction].
      destruct (bin_val o (Some (VInt x)) (Some (VInt y))) as [v|] eqn:EV; [left|right; eapply bl_bin; eauto].
      exists v. split; [cbn [eval_sc]; now rewrite E1, E2|].
      assert (IV : exists z, v = VInt z).
      { cbn [bin_val] in EV. destruct o; try destruct (y =? 0); try destruct (y <? 0); try discriminate EV; injection EV as <-; eauto. }
      destruct IV as (z & ->). cbn [fits]. apply integer_boolean. cbn [type_of].
      change (is_integer (common_type_of (type_of g e1) (type_of g e2)) = true). now apply common_int.
    - destruct (typed_rel _ _ _ _ T) as (T1 & T2 & K). destruct NE as [NE1 NE2].
      destruct (types g e1 NA T1 NE1) as [A1 _], (types g e2 NA T2 NE2) as [A2 _].
      destruct (IHe1 g h T1 NE1 NA F AT) as [(v1 & E1 & F1)|B]; [|right; now apply bl_rel1].
      destruct (IHe2 g h T2 NE2 NA F AT) as [(v2 & E2 & F2)|B]; [|right; now apply bl_rel2].
      left. cbn [eval_sc]. rewrite E1, E2.
      assert (X : exists b, rel_val o (Some v1) (Some v2) = Some (VBool b)).
      { destruct (equality o) eqn:EQ.
        - assert (S : type_of g e1 = BOOLEAN <-> type_of g e2 = BOOLEAN).
          { split; intros Y; rewrite Y in K; [apply boolean_compatible in K|apply compatible_boolean in K]; destruct K; congruence. }
          destruct v1 as [x|x], v2 as [y|y]; cbn [fits] in F1, F2; cbn [rel_val]; try tauto; try (eexists; reflexivity).
          destruct o; try discriminate EQ; eexists; reflexivity.
        - destruct K as [[K1|K1] [K2|K2]]; try contradiction. apply integer_boolean in K1, K2.
          destruct v1 as [x|x]; [|cbn in F1; contradiction]. destruct v2 as [y|y]; [|cbn in F2; contradiction].
          cbn [rel_val]. eexists. reflexivity. }
      destruct X as (b & X). rewrite X. exists (VBool b). split; reflexivity. }
  intros e g h expected C NE NA F AT. unfold check_expr in C. apply app_eq_nil in C as [C1 C2]. apply expect_nil in C2 as [C2 _].
  apply G; auto. split; auto.
Qed.
Print Assumptions C47_sound.

(** ** A declarative account of the accepted expressions *)
(** numbers of whatever integer type, or values of one type *)
Inductive kind := Number | Of (t : ty).
Definition kind_of (t : ty) : kind := if is_integer t then Number else Of t.
Definition comparable (k k' : kind) : Prop :=
  match k, k' with Number, Number => True | Of t, Of t' => is_compatible t' t = true | _, _ => False end.
Inductive wt (g : tenv) : expr -> kind -> Prop :=
| wt_true : wt g ETrue (Of BOOLEAN)
| wt_false : wt g EFalse (Of BOOLEAN)
| wt_number v : wt g (ENum v) Number
| wt_variable x neg : g x <> TUndefined -> wt g (EName (NVar x) neg) (kind_of (g x))
| wt_attribute a x neg : g x <> TUndefined -> wt g (EName (NAttr a x) neg) Number
| wt_not e : names e = [] -> wt g e (Of BOOLEAN) -> wt g (ENot e) (Of BOOLEAN)
| wt_logic o ts : boolean_op o = true -> Forall (fun t => wt g t (Of BOOLEAN)) ts -> wt g (EAss o ts) (Of BOOLEAN)
| wt_sum o ts : boolean_op o = false -> Forall (fun t => wt g t Number) ts -> wt g (EAss o ts) Number
| wt_binary o l r : wt g l Number -> wt g r Number -> wt g (EBin o l r) Number
| wt_order o l r : equality o = false -> wt g l Number -> wt g r Number -> wt g (ERel o l r) (Of BOOLEAN)
| wt_equal o l r k k' : equality o = true -> wt g l k -> wt g r k' -> comparable k k' -> wt g (ERel o l r) (Of BOOLEAN).

Lemma kind_int t : is_integer t = true -> kind_of t = Number.
Proof. unfold kind_of. now intros ->. Qed.
Lemma kind_number t : kind_of t = Number -> is_integer t = true.
Proof. unfold kind_of. destruct (is_integer t); [reflexivity|discriminate]. Qed.
Lemma kind_of_of t u : kind_of t = Of u -> t = u /\ is_integer u = false.
Proof. unfold kind_of. destruct (is_integer t) eqn:E; [discriminate|]. intros H. injection H as ->. auto. Qed.
Lemma kind_boolean : kind_of BOOLEAN = Of BOOLEAN.
Proof. reflexivity. Qed.

(** without variables the types of variables do not matter *)
Lemma closed_new g g' e : names e = [] -> new_type g e = new_type g' e.
Proof.
  induction e as [| |v0|n0 s0|e IHe|o ts IHts|o e1 e2 IHe1 IHe2|o e1 e2 IHe1 IHe2] using expr_ind'; intros N; try reflexivity.
  - destruct n0; discriminate.
  - assert (X : map (new_type g) ts = map (new_type g') ts).
    { apply map_ext_in. intros t I. rewrite Forall_forall in IHts. apply IHts; [exact I|].
      cbn [names] in N. eapply flat_nil in N; eauto. }
    destruct o; cbn [new_type]; try reflexivity; now rewrite X.
  - cbn [names] in N. apply app_eq_nil in N as [N1 N2]. cbn [new_type]. rewrite (IHe1 N1), (IHe2 N2). reflexivity.
Qed.
Lemma closed_type g g' e : names e = [] -> type_of g e = type_of g' e.
Proof.
  induction e as [| |v0|n0 s0|e IHe|o ts IHts|o e1 e2 IHe1 IHe2|o e1 e2 IHe1 IHe2] using expr_ind'; intros N; try reflexivity.
  - destruct n0; discriminate.
  - exact (closed_new g g' (EAss o ts) N).
  - cbn [names] in N. apply app_eq_nil in N as [N1 N2]. cbn [type_of]. rewrite (IHe1 N1), (IHe2 N2). reflexivity.
Qed.
Lemma flat_map_ext' {A B} (f h : A -> list B) l : (forall a, In a l -> f a = h a) -> flat_map f l = flat_map h l.
Proof.
  induction l as [|a l IH]; intros E; [reflexivity|]. cbn. rewrite (E a (or_introl eq_refl)), IH; [reflexivity|]. intros b I. apply E. now right.
Qed.
Lemma closed_errors g g' e : names e = [] -> subexpr_errors g e = subexpr_errors g' e.
Proof.
  induction e as [| |v0|n0 s0|e IHe|o ts IHts|o e1 e2 IHe1 IHe2|o e1 e2 IHe1 IHe2] using expr_ind'; intros N; try reflexivity.
  - destruct n0; discriminate.
  - assert (X : forall t, In t ts -> subexpr_errors g t = subexpr_errors g' t /\ type_of g t = type_of g' t).
    { intros t I. cbn [names] in N. pose proof (flat_nil _ _ N t I) as K. rewrite Forall_forall in IHts. split; [auto|now apply closed_type]. }
    cbn [subexpr_errors]. destruct o; apply flat_map_ext'; intros t I; destruct (X t I) as [-> ->]; reflexivity.
  - cbn [names] in N. apply app_eq_nil in N as [N1 N2]. cbn [subexpr_errors].
    rewrite (IHe1 N1), (IHe2 N2), (closed_type g g' e1 N1), (closed_type g g' e2 N2). reflexivity.
  - cbn [names] in N. apply app_eq_nil in N as [N1 N2]. cbn [subexpr_errors].
    rewrite (IHe1 N1), (IHe2 N2), (closed_type g g' e1 N1), (closed_type g g' e2 N2). reflexivity.
Qed.

Lemma instance_ok t c : t <> TUndefined -> instance t c = true -> check_type_instance t [c] = [].
Proof. intros N I. unfold check_type_instance. destruct t; try congruence; cbn [existsb]; now rewrite I. Qed.
Lemma instance_any t : t <> TUndefined -> check_type_instance t [CAny] = [].
Proof. destruct t; intros N; try congruence; reflexivity. Qed.
Lemma integer_defined t : is_integer t = true -> t <> TUndefined.
Proof. intros H ->. discriminate. Qed.
Lemma expect_ok a t : a <> TUndefined -> is_compatible a t = true -> expect a t = [].
Proof.
  intros N H. unfold expect, check_type. cbn [forallb]. rewrite H. destruct a; try congruence; destruct t; reflexivity.
Qed.
Lemma integers_compatible a b : is_integer a = true -> is_integer b = true -> is_compatible a b = true.
Proof. intros A B. destruct a; try discriminate; destruct b; try discriminate; reflexivity. Qed.

(** exactly the well-typed expressions are accepted *)
Theorem C47_exact : forall e g, no_empty e -> (forall x, g x <> TAny) -> (check_expr g e TAny = [] <-> exists k, wt g e k).
Proof.
  assert (BB : is_compatible BOOLEAN BOOLEAN = true) by (apply C19_reflexive; discriminate).
  assert (BN : BOOLEAN <> TUndefined) by discriminate.
  assert (S : forall e g, no_empty e -> (forall x, g x <> TAny) -> typed g e -> wt g e (kind_of (type_of g e))).
  { induction e as [| |v0|n0 s0|e IHe|o ts IHts|o e1 e2 IHe1 IHe2|o e1 e2 IHe1 IHe2] using expr_ind'; intros g NE NA T.
    - constructor.
    - constructor.
    - constructor.
    - destruct n0 as [x|a x]; destruct T as [T1 T2]; cbn [type_of new_type subexpr_errors] in *; [now constructor|].
      apply instance_nil in T1. constructor. apply T1.
    - destruct T as [T _]. assert (NN : names e = []).
      { destruct (names e) as [|x xs] eqn:NX; [reflexivity|]. cbn [subexpr_errors] in T. apply app_eq_nil in T as [T1 T2]. apply expect_nil in T2 as [T2 _].
        assert (C : check_expr untyped e TAny = []). { unfold check_expr. rewrite T1. cbn [app]. apply expect_ok; [exact T2|]. apply C19_any in T2. destruct (C19_any (type_of untyped e)) as [-> _]. exact T2. }
        destruct (C47_declared e untyped C x); [rewrite NX; now left|reflexivity]. }
      cbn [subexpr_errors] in T. apply app_eq_nil in T as [T1 T2]. apply expect_nil in T2 as [T2 T3].
      constructor; [exact NN|]. rewrite (closed_errors untyped g e NN) in T1. rewrite (closed_type untyped g e NN) in T2, T3.
      pose proof (IHe g NE NA (conj T1 T2)) as W. destruct T3 as [T3|T3]; [discriminate|].
      apply boolean_compatible in T3 as [T3|T3]; [destruct (types g e NA (conj T1 T2) NE); contradiction|]. rewrite T3 in W. exact W.
    - destruct (types g (EAss o ts) NA T NE) as [_ _]. destruct NE as [NN NE]. rewrite Forall_forall in IHts. apply fold_and in NE. rewrite Forall_forall in NE.
      destruct (boolean_op o) eqn:B.
      + assert (X : type_of g (EAss o ts) = BOOLEAN) by (destruct o; try discriminate B; reflexivity). rewrite X. apply wt_logic; [exact B|].
        rewrite Forall_forall. intros t I. destruct (typed_ass_bool g o ts B T t I) as [Tt K]. pose proof (IHts t I g (NE t I) NA Tt) as W.
        destruct (types g t NA Tt (NE t I)) as [N1 _]. destruct K as [K|K]; [contradiction|]. rewrite K in W. exact W.
      + assert (X : is_integer (type_of g (EAss o ts)) = true).
        { assert (IOU : int_or_undefined (common_type (map (new_type g) ts))).
          { apply commons_iou; [destruct ts; [congruence|discriminate]|]. rewrite Forall_forall. intros y J. apply in_map_iff in J as (t & <- & J).
            destruct (typed_ass_math g o ts B T t J) as [Tt K].
            destruct (types g t NA Tt (NE t J)) as [N1 N2]. apply N2. destruct K; [contradiction|assumption]. }
          destruct o; try discriminate B; cbn [type_of new_type]; destruct IOU as [IOU|IOU]; try (rewrite IOU; reflexivity);
            destruct (common_type (map (new_type g) ts)); try discriminate IOU; reflexivity. }
        rewrite (kind_int _ X). apply wt_sum; [exact B|].
        rewrite Forall_forall. intros t I. destruct (typed_ass_math g o ts B T t I) as [Tt K]. pose proof (IHts t I g (NE t I) NA Tt) as W.
        destruct (types g t NA Tt (NE t I)) as [N1 _]. destruct K as [K|K]; [contradiction|]. rewrite (kind_int _ K) in W. exact W.
    - destruct (typed_bin _ _ _ _ T) as [[T1 K1] [T2 K2]]. destruct NE as [NE1 NE2].
      destruct (types g e1 NA T1 NE1) as [A1 _], (types g e2 NA T2 NE2) as [A2 _].
      destruct K1 as [K1|K1]; [contradiction|]. destruct K2 as [K2|K2]; [contradiction|].
      pose proof (IHe1 g NE1 NA T1) as W1. pose proof (IHe2 g NE2 NA T2) as W2. rewrite (kind_int _ K1) in W1. rewrite (kind_int _ K2) in W2.
      assert (X : is_integer (type_of g (EBin o e1 e2)) = true).
      { cbn [type_of]. change (is_integer (common_type_of (type_of g e1) (type_of g e2)) = true). now apply common_int. }
      rewrite (kind_int _ X). now constructor.
    - destruct (typed_rel _ _ _ _ T) as (T1 & T2 & K). destruct NE as [NE1 NE2].
      destruct (types g e1 NA T1 NE1) as [A1 _], (types g e2 NA T2 NE2) as [A2 _].
      pose proof (IHe1 g NE1 NA T1) as W1. pose proof (IHe2 g NE2 NA T2) as W2. change (wt g (ERel o e1 e2) (Of BOOLEAN)).
      destruct (equality o) eqn:EQ.
      + eapply wt_equal; [exact EQ|exact W1|exact W2|]. unfold comparable, kind_of.
        destruct (is_integer (type_of g e1)) eqn:I1, (is_integer (type_of g e2)) eqn:I2; auto;
          destruct (type_of g e1); try discriminate I1; destruct (type_of g e2); try discriminate I2; try discriminate K; contradiction.
      + destruct K as [[K1|K1] [K2|K2]]; try contradiction. rewrite (kind_int _ K1) in W1. rewrite (kind_int _ K2) in W2. now apply wt_order. }
  assert (C : forall e g k, no_empty e -> wt g e k -> typed g e /\ kind_of (type_of g e) = k /\
    (k = Number -> int_or_undefined (new_type g e))).
  { induction e as [| |v0|n0 s0|e IHe|o ts IHts|o e1 e2 IHe1 IHe2|o e1 e2 IHe1 IHe2] using expr_ind'; intros g k NE W; inversion W; subst.
    - split; [split; [reflexivity|discriminate]|split; [reflexivity|discriminate]].
    - split; [split; [reflexivity|discriminate]|split; [reflexivity|discriminate]].
    - split; [split; [reflexivity|discriminate]|split; [reflexivity|now left]].
    - split; [split; [reflexivity|assumption]|split; [reflexivity|]]. intros E. left. now apply kind_number.
    - split; [split; [now apply instance_any|discriminate]|split; [reflexivity|now right]].
    - destruct (IHe g (Of BOOLEAN) NE ltac:(assumption)) as ([T1 T2] & K & _). apply kind_of_of in K as [K _].
      split; [|split; [reflexivity|discriminate]]. split; [|discriminate]. cbn [subexpr_errors].
      rewrite (closed_errors untyped g e), (closed_type untyped g e), T1, K by assumption. now apply expect_ok.
    - destruct NE as [NN NE]. apply fold_and in NE. rewrite Forall_forall in *.
      assert (X : forall t, In t ts -> subexpr_errors g t = [] /\ type_of g t = BOOLEAN).
      { intros t I. destruct (IHts t I g (Of BOOLEAN) (NE t I)) as ([T1 T2] & K & _); [auto|]. apply kind_of_of in K as [K _]. auto. }
      assert (TY : type_of g (EAss o ts) = BOOLEAN) by (destruct o; try discriminate; reflexivity).
      split; [|split; [rewrite TY; reflexivity|discriminate]]. split; [|rewrite TY; discriminate].
      assert (Y : flat_map (fun t => subexpr_errors g t ++ expect (type_of g t) BOOLEAN) ts = []).
      { rewrite (flat_map_ext' _ (fun _ => []) ts); [clear; induction ts; auto|]. intros t I. destruct (X t I) as [-> ->]. now apply expect_ok. }
      destruct o; try discriminate; exact Y.
    - destruct NE as [NN NE]. apply fold_and in NE. rewrite Forall_forall in *.
      assert (X : forall t, In t ts -> subexpr_errors g t = [] /\ is_integer (type_of g t) = true /\ int_or_undefined (new_type g t)).
      { intros t I. destruct (IHts t I g Number (NE t I)) as ([T1 T2] & K & N); [auto|]. apply kind_number in K. auto. }
      assert (IOU : int_or_undefined (common_type (map (new_type g) ts))).
      { apply commons_iou; [destruct ts; [congruence|discriminate]|]. rewrite Forall_forall. intros y J. apply in_map_iff in J as (t & <- & J). now apply X. }
      assert (TY : is_integer (type_of g (EAss o ts)) = true).
      { destruct o; try discriminate; cbn [type_of new_type]; destruct IOU as [IOU|IOU]; try (rewrite IOU; reflexivity);
          destruct (common_type (map (new_type g) ts)); try discriminate IOU; reflexivity. }
      split; [|split; [now apply kind_int|intros _; left; exact TY]]. split; [|now apply integer_defined].
      assert (Y : flat_map (fun t => subexpr_errors g t ++ check_type_instance (type_of g t) [CAnyInteger]) ts = []).
      { rewrite (flat_map_ext' _ (fun _ => []) ts); [clear; induction ts; auto|]. intros t I. destruct (X t I) as (-> & Y & _).
        apply instance_ok; [now apply integer_defined|exact Y]. }
      destruct o; try discriminate; exact Y.
    - destruct NE as [NE1 NE2].
      destruct (IHe1 g Number NE1 ltac:(assumption)) as ([T1 _] & K1 & N1). destruct (IHe2 g Number NE2 ltac:(assumption)) as ([T2 _] & K2 & N2).
      apply kind_number in K1, K2.
      assert (TY : is_integer (type_of g (EBin o e1 e2)) = true).
      { cbn [type_of]. change (is_integer (common_type_of (type_of g e1) (type_of g e2)) = true). now apply common_int. }
      split; [|split; [now apply kind_int|]].
      + split; [|now apply integer_defined]. cbn [subexpr_errors]. rewrite T1, T2.
        rewrite !instance_ok; auto using integer_defined.
      + intros _. cbn [new_type]. apply commons_iou; [discriminate|]. apply Forall_cons; [auto|]. apply Forall_cons; [auto|]. apply Forall_nil.
    - destruct NE as [NE1 NE2].
      destruct (IHe1 g Number NE1 ltac:(assumption)) as ([T1 _] & K1 & N1). destruct (IHe2 g Number NE2 ltac:(assumption)) as ([T2 _] & K2 & N2).
      apply kind_number in K1, K2. split; [|split; [reflexivity|discriminate]]. split; [|discriminate].
      cbn [subexpr_errors]. rewrite T1, T2. destruct o; try discriminate; rewrite !instance_ok; auto using integer_defined.
    - destruct NE as [NE1 NE2].
      destruct (IHe1 g k0 NE1 ltac:(assumption)) as ([T1 D1] & K1 & N1). destruct (IHe2 g k' NE2 ltac:(assumption)) as ([T2 D2] & K2 & N2).
      split; [|split; [reflexivity|discriminate]]. split; [|discriminate].
      assert (X : is_compatible (type_of g e2) (type_of g e1) = true).
      { destruct k0, k'; try contradiction.
        - apply kind_number in K1, K2. now apply integers_compatible.
        - apply kind_of_of in K1 as [-> _], K2 as [-> _]. assumption. }
      cbn [subexpr_errors]. rewrite T1, T2. destruct o; try discriminate; rewrite (instance_any _ D1), (expect_ok _ _ D2 X); reflexivity. }
  intros e g NE NA. unfold check_expr. split.
  - intros H. apply app_eq_nil in H as [H1 H2]. apply expect_nil in H2 as [H2 _]. eexists. apply S; auto. split; auto.
  - intros (k & W). destruct (C e g k NE W) as ([T1 T2] & _). rewrite T1. cbn [app]. apply expect_ok; [exact T2|].
    destruct (C19_any (type_of g e)) as [-> X]. now apply X.
Qed.
Print Assumptions C47_exact.

(** ** z3 *)
(** z3 accepts well-typed expressions without Boolean variables *)
Theorem C47_z3 : forall e g, check_expr g e TAny = [] -> no_empty e -> (forall x, g x <> TAny) -> (forall x, g x <> BOOLEAN) ->
  sort_of e = Ok (if ty_eqb (type_of g e) BOOLEAN then ZBool else ZInt).
Proof.
  assert (BT : ty_eqb BOOLEAN BOOLEAN = true) by reflexivity.
  assert (BF : forall t, t <> BOOLEAN -> ty_eqb t BOOLEAN = false).
  { intros t N. unfold BOOLEAN in *. destruct t; try reflexivity. cbn [ty_eqb]. apply String.eqb_neq. congruence. }
  assert (G : forall e g, typed g e -> no_empty e -> (forall x, g x <> TAny) -> (forall x, g x <> BOOLEAN) ->
    sort_of e = Ok (if ty_eqb (type_of g e) BOOLEAN then ZBool else ZInt)).
  { induction e as [| |v0|n0 s0|e IHe|o ts IHts|o e1 e2 IHe1 IHe2|o e1 e2 IHe1 IHe2] using expr_ind'; intros g T NE NA NB.
    - reflexivity.
    - reflexivity.
    - reflexivity.
    - destruct n0 as [x|a x]; cbn [type_of new_type sort_of]; [now rewrite BF|reflexivity].
    - destruct T as [T _]. cbn [subexpr_errors] in T. apply app_eq_nil in T as [T1 T2]. apply expect_nil in T2 as [T2 T3].
      destruct T3 as [T3|T3]; [discriminate|].
      apply boolean_compatible in T3 as [T3|T3]; [destruct (types untyped e (fun x => ltac:(discriminate)) (conj T1 T2) NE); contradiction|].
      cbn [sort_of]. rewrite (IHe untyped (conj T1 T2) NE ltac:(discriminate) ltac:(discriminate)), T3. reflexivity.
    - destruct (C47_exact (EAss o ts) g NE NA) as [X _]. destruct X as (k & W).
      { destruct T as [T1 T2]. unfold check_expr. rewrite T1. cbn [app]. apply expect_ok; [exact T2|]. destruct (C19_any (type_of g (EAss o ts))) as [-> X]. now apply X. }
      assert (TY : type_of g (EAss o ts) = BOOLEAN <-> boolean_op o = true).
      { split; intros H; [|destruct o; try discriminate H; reflexivity].
        destruct (boolean_op o) eqn:B; [reflexivity|]. exfalso.
        destruct (C47_exact (EAss o ts) g NE NA) as [_ Y]. 
        assert (IOU : int_or_undefined (common_type (map (new_type g) ts))).
        { destruct NE as [NN NE]. apply fold_and in NE. rewrite Forall_forall in NE.
          apply commons_iou; [destruct ts; [congruence|discriminate]|]. rewrite Forall_forall. intros y J. apply in_map_iff in J as (t & <- & J).
          destruct (typed_ass_math g o ts B T t J) as [Tt K].
          destruct (types g t NA Tt (NE t J)) as [N1 N2]. apply N2. destruct K; [contradiction|assumption]. }
        destruct o; try discriminate B; cbn [type_of new_type] in H; destruct IOU as [IOU|IOU]; try (rewrite IOU in H; discriminate H);
          destruct (common_type (map (new_type g) ts)); try discriminate IOU; discriminate H. }
      destruct NE as [NN NE]. apply fold_and in NE. rewrite Forall_forall in IHts, NE.
      set (want := if boolean_op o then ZBool else ZInt).
      assert (X : forall t, In t ts -> sort_of t = Ok want).
      { intros t I. destruct (boolean_op o) eqn:B.
        - destruct (typed_ass_bool g o ts B T t I) as [Tt K]. destruct (types g t NA Tt (NE t I)) as [N1 _]. destruct K as [K|K]; [contradiction|].
          rewrite (IHts t I g Tt (NE t I) NA NB), K. reflexivity.
        - destruct (typed_ass_math g o ts B T t I) as [Tt K]. destruct (types g t NA Tt (NE t I)) as [N1 _]. destruct K as [K|K]; [contradiction|].
          rewrite (IHts t I g Tt (NE t I) NA NB), BF by now apply integer_boolean. reflexivity. }
      assert (SQ : sequence (map sort_of ts) = Ok (map (fun _ => want) ts)).
      { clear -X. induction ts as [|t ts IH]; [reflexivity|]. cbn [map sequence]. rewrite (X t (or_introl eq_refl)). cbn [bind].
        rewrite IH; [reflexivity|]. intros u I. apply X. now right. }
      cbn [sort_of]. fold want. rewrite SQ. cbn [bind].
      assert (FA : forallb (zsort_eqb want) (map (fun _ => want) ts) = true).
      { apply forallb_forall. intros y J. apply in_map_iff in J as (t & <- & _). unfold want. destruct (boolean_op o); reflexivity. }
      rewrite FA. assert (LN : Nat.eqb (List.length ts) 0 = false) by (destruct ts; [congruence|reflexivity]). rewrite LN. cbn [negb bind].
      f_equal. unfold want. destruct (boolean_op o) eqn:B; [rewrite (proj2 TY eq_refl), BT; reflexivity|].
      rewrite BF; [reflexivity|]. intros H. apply TY in H. discriminate.
    - destruct (typed_bin _ _ _ _ T) as [[T1 K1] [T2 K2]]. destruct NE as [NE1 NE2].
      destruct (types g e1 NA T1 NE1) as [A1 _], (types g e2 NA T2 NE2) as [A2 _].
      destruct K1 as [K1|K1]; [contradiction|]. destruct K2 as [K2|K2]; [contradiction|].
      cbn [sort_of]. rewrite (IHe1 g T1 NE1 NA NB), (IHe2 g T2 NE2 NA NB), !BF; auto using integer_boolean.
      cbn [type_of]. apply integer_boolean. change (is_integer (common_type_of (type_of g e1) (type_of g e2)) = true). now apply common_int.
    - destruct (typed_rel _ _ _ _ T) as (T1 & T2 & K). destruct NE as [NE1 NE2].
      destruct (types g e1 NA T1 NE1) as [A1 _], (types g e2 NA T2 NE2) as [A2 _].
      assert (TY : type_of g (ERel o e1 e2) = BOOLEAN) by reflexivity. rewrite TY, BT.
      cbn [sort_of]. rewrite (IHe1 g T1 NE1 NA NB), (IHe2 g T2 NE2 NA NB). cbn [bind].
      destruct o; cbn [equality] in K; try reflexivity; destruct K as [[K1|K1] [K2|K2]]; try contradiction;
        rewrite (BF _ (integer_boolean _ K1)), (BF _ (integer_boolean _ K2)); reflexivity. }
  intros e g C NE NA NB. unfold check_expr in C. apply app_eq_nil in C as [C1 C2]. apply expect_nil in C2 as [C2 _]. apply G; auto. split; auto.
Qed.
Print Assumptions C47_z3.

(** ** Cases *)
Definition sample : tenv := fun x =>
  if String.eqb x "length" then TInteger "P::Length" (known 0 65535)
  else if String.eqb x "tag" then TEnumeration "P::Tag"
  else if String.eqb x "data" then TEnumeration "P::Tag"
  else if String.eqb x "flag" then BOOLEAN
  else TUndefined.
Definition sample_values : env := fun n =>
  match n with NVar "flag" => VBool true | NVar "length" => VInt 40 | _ => VInt 3 end.
Definition sample_expr : expr :=
  EAss OAndThen [ERel OEq (EVar "tag") (EVar "data"); EVar "flag";
                 ERel OLt (EBin ODiv (EName (NAttr ASize "length") false) (EVar "length")) (ENum 9)].
Example C47_case : check_expr sample sample_expr TAny = [] /\ no_empty sample_expr /\ (forall x, sample x <> TAny) /\
  (forall x, sample x <> TUndefined -> fits (sample x) (sample_values (NVar x))) /\
  eval_sc sample_values sample_expr = Some (VBool true) /\
  check_expr sample (ERel OEq (EVar "tag") (EVar "flag")) TAny <> [] /\
  check_expr sample (ERel OLt (EVar "tag") (ENum 1)) TAny <> [] /\
  check_expr sample (ERel OEq (EVar "unknown") (ENum 1)) TAny <> [].
Proof.
  split; [reflexivity|]. split; [repeat split; discriminate|].
  split; [intros x; unfold sample; repeat destruct (String.eqb _ _); discriminate|].
  split; [|split; [vm_compute; reflexivity|split; [|split]; vm_compute; discriminate]].
  intros x N. unfold sample in *. cbn [sample_values].
  destruct (String.eqb_spec x "length") as [E|]; [subst x; discriminate|]. destruct (String.eqb_spec x "tag") as [E|]; [subst x; discriminate|].
  destruct (String.eqb_spec x "data") as [E|]; [subst x; discriminate|]. destruct (String.eqb_spec x "flag") as [E|]; [subst x; reflexivity|congruence].
Qed.

(** no variable may occur below a negation *)
Theorem C47_not_refuted : exists g e, (forall h, (forall x, g x <> TUndefined -> fits (g x) (h (NVar x))) ->
    exists b, eval_sc h e = Some (VBool b)) /\ check_expr g e TAny <> [].
Proof.
  exists sample, (ENot (ERel OEq (EVar "length") (ENum 1))). split; [|vm_compute; discriminate].
  intros h F. specialize (F "length" ltac:(discriminate)). cbn [eval_sc EVar name_val].
  destruct (h (NVar "length")) as [z|b]; [eexists; reflexivity|]. discriminate F.
Qed.
(** a Boolean variable is accepted but not by z3, for which it is an integer *)
Theorem C47_z3_refuted : exists g e, check_expr g e TAny = [] /\ type_of g e = BOOLEAN /\ sort_of e = Err "Z3TypeError".
Proof.
  exists sample, (EAss OAnd [EVar "flag"; ERel OEq (EVar "length") (ENum 1)]).
  split; [reflexivity|]. split; reflexivity.
Qed.
(** a Boolean may be negated like a number *)
Theorem C47_negated_refuted : exists g h e, check_expr g e TAny = [] /\ no_empty e /\
    (forall x, g x <> TUndefined -> fits (g x) (h (NVar x))) /\ eval_sc h e = None /\ forall o l r, e <> EBin o l r.
Proof.
  exists sample, sample_values, (EName (NVar "flag") true). split; [reflexivity|]. split; [exact I|].
  split; [apply C47_case|]. split; [reflexivity|discriminate].
Qed.
