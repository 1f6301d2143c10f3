(** Values and types of sessions: lemmas for C52. *)
From Coq Require Import String List ZArith Bool Lia.
From Verif Require Import Base Expr Typing ExprType SessionType SessionEval.
Import ListNotations.
Local Open Scope string_scope.
Local Open Scope list_scope.

Definition prefix_of (P : sx -> Prop) (e : sx) : Prop := match e with SSel q _ => P q | _ => True end.
Section SxInd.
  Variable P : sx -> Prop.
  Hypothesis HBool : forall b, P (SBool b).
  Hypothesis HNum : forall v, P (SNum v).
  Hypothesis HVar : forall x, P (SVar x).
  Hypothesis HNot : forall e, P e -> P (SNot e).
  Hypothesis HAss : forall o ts, Forall P ts -> P (SAss o ts).
  Hypothesis HBin : forall o l r, P l -> P r -> P (SBin o l r).
  Hypothesis HRel : forall o l r, P l -> P r -> P (SRel o l r).
  Hypothesis HIn : forall p l r, P l -> P r -> P (SIn p l r).
  Hypothesis HAttr : forall a e, P e -> prefix_of P e -> P (SAttr a e).
  Hypothesis HSel : forall e f, P e -> P (SSel e f).
  Hypothesis HCall : forall f args, Forall P args -> P (SCall f args).
  Hypothesis HAgg : forall es, Forall P es -> P (SAgg es).
  Hypothesis HQuant : forall a x i p, P i -> P p -> P (SQuant a x i p).
  Hypothesis HConv : forall t e, P e -> P (SConv t e).
  Hypothesis HCompr : forall x a s c, P a -> P s -> P c -> P (SCompr x a s c).
  Hypothesis HMsg : forall t fs, Forall (fun p => P (snd p)) fs -> P (SMsg t fs).
  Hypothesis HBind : forall e data, P e -> Forall (fun p => P (snd p)) data -> P (SBind e data).
  Fixpoint sx_ind' (e : sx) : P e :=
    let list_ := fix list_ (l : list sx) : Forall P l := match l with [] => Forall_nil _ | x :: r => Forall_cons _ (sx_ind' x) (list_ r) end in
    let alist := fix alist (l : list (string * sx)) : Forall (fun p => P (snd p)) l :=
      match l with [] => Forall_nil _ | (k, x) :: r => Forall_cons (k, x) (sx_ind' x) (alist r) end in
    match e with
    | SBool b => HBool b
    | SNum v => HNum v
    | SVar x => HVar x
    | SNot e => HNot e (sx_ind' e)
    | SAss o ts => HAss o ts (list_ ts)
    | SBin o l r => HBin o l r (sx_ind' l) (sx_ind' r)
    | SRel o l r => HRel o l r (sx_ind' l) (sx_ind' r)
    | SIn p l r => HIn p l r (sx_ind' l) (sx_ind' r)
    | SAttr a e => HAttr a e (sx_ind' e) (match e as e0 return (prefix_of P e0) with SSel q _ => sx_ind' q | _ => Logic.I end)
    | SSel e f => HSel e f (sx_ind' e)
    | SCall f args => HCall f args (list_ args)
    | SAgg es => HAgg es (list_ es)
    | SQuant a x i p => HQuant a x i p (sx_ind' i) (sx_ind' p)
    | SConv t e => HConv t e (sx_ind' e)
    | SCompr x a s c => HCompr x a s c (sx_ind' a) (sx_ind' s) (sx_ind' c)
    | SMsg t fs => HMsg t fs (alist fs)
    | SBind e data => HBind e data (sx_ind' e) (alist data)
    end.
End SxInd.

(** the type of a declared entity: no part of it is unknown *)
Fixpoint solid (t : ty) : bool :=
  match t with
  | TEnumeration _ | TInteger _ _ | TMessage _ _ _ _ | TPrivate _ => true
  | TArray _ e => solid e
  | _ => false
  end.

(** the fields of the message types *)
Definition signature := string -> option (list (string * ty)).

Section Fits.
Variable sig : signature.

(** the values of a type: every integer type has all integers (the ranges of integer types
    are not a matter of the type check), [TAny] has no value, and [TUndefined] says
    nothing *)
Inductive fits : ty -> value -> Prop :=
| fits_undefined v : fits TUndefined v
| fits_enum n l : (n = boolean -> l = "True" \/ l = "False") -> fits (TEnumeration n) (VEnum n l)
| fits_int t z : is_integer t = true -> fits t (VInt z)
| fits_aggregate e vs : Forall (fits e) vs -> fits (TAggregate e) (VSeq vs)
| fits_array n e vs : Forall (fits e) vs -> fits (TArray n e) (VSeq vs)
| fits_message n c ts rs types fs : sig n = Some types ->
    Forall (fun p => exists t, assoc (fst p) types = Some t /\ fits t (snd p)) fs -> fits (TMessage n c ts rs) (VMsg n fs)
| fits_private n z : fits (TPrivate n) (VPrivate n z)
| fits_channel r w r' w' : (r = true -> r' = true) -> (w = true -> w' = true) -> fits (TChannel r w) (VChannel r' w').

Lemma fits_any v : ~ fits TAny v.
Proof. intros H. inversion H; discriminate. Qed.
Lemma fits_int_inv t z : fits t (VInt z) -> t = TUndefined \/ is_integer t = true.
Proof. intros H. inversion H; auto. Qed.
Lemma integer_fits t v : is_integer t = true -> fits t v -> exists z, v = VInt z.
Proof. intros I H. inversion H; subst; try discriminate; eauto. Qed.

(** messages are known by their signature *)
Fixpoint wf (t : ty) : Prop :=
  match t with
  | TArray _ e => solid e = true /\ wf e
  | TAggregate e => wf e
  | TMessage n _ ts _ => sig n = Some ts
  | _ => True
  end.

Lemma ty_eqb_fits : forall a b v, ty_eqb a b = true -> (fits a v <-> fits b v).
Proof.
  assert (F : forall P Q vs, (forall v, P v <-> Q v) -> Forall P vs <-> Forall Q (vs : list value)).
  { intros P Q vs H. rewrite !Forall_forall. split; intros K x Hx; apply H; auto. }
  fix IH 1. intros [| |n| | |b|n b|e|n e|n c ts rs|n|r w] [| |n'| | |b'|n' b'|e'|n' e'|n' c' ts' rs'|n'|r' w'] v H; cbn [ty_eqb] in H; try discriminate H.
  - reflexivity.
  - reflexivity.
  - apply String.eqb_eq in H as ->. reflexivity.
  - reflexivity.
  - reflexivity.
  - split; intros K; inversion K; subst; constructor; reflexivity.
  - split; intros K; inversion K; subst; constructor; reflexivity.
  - split; intros K; inversion K; subst; try discriminate; constructor; (eapply F; [|eassumption]); intros x; [symmetry|]; apply IH; exact H.
  - apply andb_true_iff in H as [_ H].
    split; intros K; inversion K; subst; try discriminate; constructor; (eapply F; [|eassumption]); intros x; [symmetry|]; apply IH; exact H.
  - assert (E : n = n') by (repeat (apply andb_true_iff in H as [H _]); now apply String.eqb_eq).
    split; intros K; inversion K; subst; try discriminate; econstructor; eassumption.
  - apply String.eqb_eq in H as ->. reflexivity.
  - apply andb_true_iff in H as [H1 H2]. apply eqb_prop in H1 as ->. apply eqb_prop in H2 as ->. reflexivity.
Qed.

Lemma compat_step strong : (forall a b v, strong a b = true -> solid b = true -> fits a v -> fits b v) ->
  forall a b v, compatible_with strong a b = true -> solid b = true -> fits a v -> fits b v.
Proof.
  intros HS a b v H S K. destruct a as [| |n| | |b1|n b1|e|n e|n c ts rs|n|r w]; cbn [compatible_with] in H.
  - discriminate.
  - now apply fits_any in K.
  - destruct b; try discriminate. apply String.eqb_eq in H as <-. exact K.
  - destruct b; try discriminate; inversion K; subst; now constructor.
  - destruct b; try discriminate; inversion K; subst; now constructor.
  - destruct b; try discriminate; inversion K; subst; now constructor.
  - destruct b; try discriminate; inversion K; subst; now constructor.
  - destruct b; try discriminate. cbn in S. inversion K; subst; [discriminate|]. constructor.
    eapply Forall_impl; [|eassumption]. intros x. now apply HS.
  - destruct b; try discriminate. apply andb_true_iff in H as [_ H]. inversion K; subst; [discriminate|]. constructor.
    eapply Forall_impl; [|eassumption]. intros x. apply (ty_eqb_fits _ _ x H).
  - destruct b; try discriminate. apply String.eqb_eq in H as <-. inversion K; subst; [discriminate|econstructor; eassumption].
  - destruct b; try discriminate. apply String.eqb_eq in H as <-. inversion K; subst; [discriminate|constructor].
  - destruct b; discriminate.
Qed.
Lemma strong_with_step compat : (forall a b v, compat a b = true -> solid b = true -> fits a v -> fits b v) ->
  forall a b v, strong_with compat a b = true -> solid b = true -> fits a v -> fits b v.
Proof.
  intros HC a b v H S K. destruct a; cbn [strong_with] in H; try (eapply HC; eassumption).
  - destruct b; try discriminate; inversion K; subst; now constructor.
  - apply orb_true_iff in H as [H|H].
    + rewrite <- (ty_eqb_fits _ _ v H). exact K.
    + destruct b; try discriminate.
Qed.
Lemma strong_fits : forall n a b v, strong n a b = true -> solid b = true -> fits a v -> fits b v.
Proof.
  induction n as [|n IH]; cbn [strong]; apply strong_with_step; apply compat_step; [discriminate|exact IH].
Qed.
Lemma compatible_strong_fits a b v : is_compatible_strong a b = true -> solid b = true -> fits a v -> fits b v.
Proof. apply strong_fits. Qed.
(** a value of a type is a value of every declared type it is compatible with *)
Lemma compatible_fits a b v : is_compatible a b = true -> solid b = true -> fits a v -> fits b v.
Proof. apply compat_step. apply compatible_strong_fits. Qed.
Lemma compatible_channel a r w v : is_compatible a (TChannel r w) = true -> fits a v -> fits (TChannel r w) v.
Proof.
  intros H K. destruct a; cbn in H; try discriminate; try (now apply fits_any in K).
  apply andb_true_iff in H as [H1 H2]. inversion K; subst; [discriminate|]. constructor.
  - intros ->. destruct readable; [auto|discriminate].
  - intros ->. destruct writable; [auto|discriminate].
Qed.

(** the other direction, for the elements of arrays *)
Lemma strong_back a b v : is_compatible_strong a b = true -> solid a = true -> wf a -> fits b v -> fits a v.
Proof.
  intros H S W K. destruct a as [| |n| | |b1|n b1|e|n e|n c ts rs|n|r w]; try discriminate S; unfold is_compatible_strong in H; cbn [depth strong strong_with compatible_with] in H.
  - destruct b; try discriminate; [now apply fits_any in K|]. apply String.eqb_eq in H as ->. exact K.
  - apply orb_true_iff in H as [H|H]; [now rewrite (ty_eqb_fits _ _ v H)|].
    destruct b; try discriminate. inversion K; subst; now constructor.
  - destruct b; try discriminate.
    + now apply fits_any in K.
    + destruct W as [W1 W2]. inversion K; subst; [discriminate|]. constructor. eapply Forall_impl; [|eassumption]. intros x. now apply strong_fits with (n := depth e).
    + apply andb_true_iff in H as [_ H]. inversion K; subst; [discriminate|]. constructor. eapply Forall_impl; [|eassumption]. intros x. apply (ty_eqb_fits _ _ x H).
  - destruct b; try discriminate; [now apply fits_any in K|]. apply String.eqb_eq in H as ->. inversion K; subst; [discriminate|econstructor; eassumption].
  - destruct b; try discriminate; [now apply fits_any in K|]. apply String.eqb_eq in H as ->. exact K.
Qed.

(** *** common types *)
Lemma common_fits : forall a b v, wf a -> wf b ->
  (fits a v -> fits (common_type_of a b) v) /\ (fits b v -> fits (common_type_of a b) v).
Proof.
  assert (U : forall v, fits TUndefined v) by (intros; constructor).
  assert (So : forall a b v, wf a -> wf b ->
    let c := match b with TAny => a | _ => if ty_eqb a b then a else TUndefined end in (fits a v -> fits c v) /\ (fits b v -> fits c v)).
  { intros a b v _ _. destruct b; cbn zeta; try (split; intros K; [exact K|now apply fits_any in K]);
      (match goal with |- context [ty_eqb a ?b] => destruct (ty_eqb a b) eqn:Q; [split; auto; intros K; now apply (ty_eqb_fits a b v Q)|split; intros; apply U] end). }
  assert (N : forall t u v, is_integer t = true -> is_integer u = true -> fits t v -> fits u v).
  { intros t u v I1 I2 K. destruct (integer_fits _ _ I1 K) as [z ->]. now constructor. }
  induction a as [| |n| | |b1|n b1|e IH|n e IH|n c ts rs|n|r w]; intros b v Wa Wb; cbn [common_type_of].
  - auto.
  - split; [intros K; now apply fits_any in K|auto].
  - exact (So _ _ v Wa Wb).
  - destruct b; cbn [is_integer]; auto; split; try (intros K; now apply fits_any in K); try (now apply N); auto.
  - destruct b; cbn [is_integer]; auto; split; try (intros K; now apply fits_any in K); try (now apply N); auto.
  - destruct b as [| |m| | |b2|m b2|e2|m e2|m c2 ts2 rs2|m|r2 w2]; auto; try (destruct (contains b2 b1)); try (destruct (bounds_eqb b1 b2));
      split; auto; try (intros K; now apply fits_any in K); try (now apply N).
  - destruct b as [| |m| | |b2|m b2|e2|m e2|m c2 ts2 rs2|m|r2 w2]; auto; try (destruct (contains b1 b2)); try (destruct (String.eqb n m && bounds_eqb b1 b2));
      split; auto; try (intros K; now apply fits_any in K); try (now apply N).
  - destruct b as [| |m| | |b2|m b2|e2|m e2|m c2 ts2 rs2|m|r2 w2]; try (exact (So _ _ v Wa Wb)).
    + destruct (ty_eqb e e2) eqn:Q.
      * split; auto. intros K. now apply (ty_eqb_fits (TAggregate e) (TAggregate e2) v).
      * cbn in Wa, Wb. split; intros K; inversion K; subst; try discriminate; constructor; (eapply Forall_impl; [|eassumption]); intros x; now apply IH.
    + destruct (is_compatible_strong e e2) eqn:Q; auto. cbn in Wa, Wb. split; auto. intros K. inversion K; subst; [discriminate|]. constructor.
      eapply Forall_impl; [|eassumption]. intros x. now apply compatible_strong_fits.
  - destruct b as [| |m| | |b2|m b2|e2|m e2|m c2 ts2 rs2|m|r2 w2]; try (exact (So _ _ v Wa Wb)).
    destruct (is_compatible_strong e e2) eqn:Q; auto. cbn in Wa, Wb. split; auto. intros K. inversion K; subst; [discriminate|]. constructor.
    eapply Forall_impl; [|eassumption]. intros x. apply strong_back; tauto.
  - exact (So _ _ v Wa Wb).
  - exact (So _ _ v Wa Wb).
  - exact (So _ _ v Wa Wb).
Qed.
Lemma common_wf : forall a b, wf a -> wf b -> wf (common_type_of a b).
Proof.
  assert (So : forall a b, wf a -> wf (match b with TAny => a | _ => if ty_eqb a b then a else TUndefined end)).
  { intros a b W. destruct b; try exact W; (destruct (ty_eqb a _); [exact W|exact Logic.I]). }
  induction a as [| |n| | |b1|n b1|e IH|n e IH|n c ts rs|n|r w]; intros b Wa Wb; cbn [common_type_of]; try exact Logic.I; try assumption.
  - exact (So _ b Wa).
  - destruct b; cbn [is_integer]; exact Logic.I.
  - destruct b; cbn [is_integer]; exact Logic.I.
  - destruct b as [| |m| | |b2|m b2|e2|m e2|m c2 ts2 rs2|m|r2 w2]; try (destruct (contains b2 b1)); try (destruct (bounds_eqb b1 b2)); exact Logic.I.
  - destruct b as [| |m| | |b2|m b2|e2|m e2|m c2 ts2 rs2|m|r2 w2]; try (destruct (contains b1 b2)); try (destruct (String.eqb n m && bounds_eqb b1 b2)); exact Logic.I.
  - destruct b as [| |m| | |b2|m b2|e2|m e2|m c2 ts2 rs2|m|r2 w2]; try exact Wa; try (match goal with |- context [ty_eqb ?x ?y] => exact (So x y Wa) end).
    + destruct (ty_eqb e e2); [exact Wa|]. now apply IH.
    + destruct (is_compatible_strong e e2); [exact Wb|exact Logic.I].
  - destruct b as [| |m| | |b2|m b2|e2|m e2|m c2 ts2 rs2|m|r2 w2]; try exact Wa; try (match goal with |- context [ty_eqb ?x ?y] => exact (So x y Wa) end).
    destruct (is_compatible_strong e e2); [exact Wa|exact Logic.I].
  - exact (So _ b Wa).
  - exact (So _ b Wa).
  - exact (So _ b Wa).
Qed.
Lemma fold_common : forall ts a, wf a -> Forall wf ts ->
  wf (fold_left common_type_of ts a) /\
  (forall v, fits a v -> fits (fold_left common_type_of ts a) v) /\
  (forall t v, In t ts -> fits t v -> fits (fold_left common_type_of ts a) v).
Proof.
  induction ts as [|t ts IH]; cbn [fold_left]; intros a Wa Wt.
  - repeat split; auto. intros t v [].
  - inversion Wt; subst. destruct (IH (common_type_of a t)) as (I1 & I2 & I3); [now apply common_wf|assumption|]. repeat split; auto.
    + intros v K. apply I2. now apply (proj1 (common_fits a t v Wa ltac:(assumption))).
    + intros u v [<-|Hu] K; [apply I2; now apply (proj2 (common_fits a t v Wa ltac:(assumption)))|eauto].
Qed.
Lemma common_type_wf ts : Forall wf ts -> wf (common_type ts).
Proof. intros H. now apply (fold_common ts TAny Logic.I). Qed.
Lemma common_type_fits ts t v : Forall wf ts -> In t ts -> fits t v -> fits (common_type ts) v.
Proof. intros H. now apply (fold_common ts TAny Logic.I). Qed.

(** integers *)
Definition numeric (t : ty) : bool := match t with TUndefined => true | _ => is_integer t end.
Lemma numeric_common a b : numeric a = true -> numeric b = true -> numeric (common_type_of a b) = true.
Proof.
  destruct a as [| |n| | |b1|n b1|e|n e|n c ts rs|n|r w]; try discriminate; intros _; destruct b as [| |m| | |b2|m b2|e2|m e2|m c2 ts2 rs2|m|r2 w2]; try discriminate; intros _; cbn [common_type_of]; try reflexivity.
  - destruct (bounds_eqb b1 b2); reflexivity.
  - destruct (contains b2 b1); reflexivity.
  - destruct (contains b1 b2); reflexivity.
  - destruct (String.eqb n m && bounds_eqb b1 b2); reflexivity.
Qed.
Lemma numeric_fold : forall ts a, numeric a = true -> forallb numeric ts = true -> numeric (fold_left common_type_of ts a) = true.
Proof.
  induction ts as [|t ts IH]; cbn [fold_left forallb]; intros a Ha H; [exact Ha|]. apply andb_true_iff in H as [H1 H2].
  apply IH; [now apply numeric_common|exact H2].
Qed.
Lemma numeric_common_type ts : ts <> [] -> forallb numeric ts = true -> numeric (common_type ts) = true.
Proof.
  destruct ts as [|t ts]; [congruence|]. intros _ H. cbn [forallb] in H. apply andb_true_iff in H as [H1 H2].
  unfold common_type. cbn [fold_left common_type_of]. now apply numeric_fold.
Qed.
Lemma numeric_fits t z : numeric t = true -> fits t (VInt z).
Proof. destruct t; try discriminate; intros _; constructor; reflexivity. Qed.
Lemma fits_numeric t z : fits t (VInt z) -> numeric t = true.
Proof. intros H. destruct (fits_int_inv _ _ H) as [->|I]; [reflexivity|]. destruct t; try discriminate; reflexivity. Qed.

(** *** checks *)
Lemma expect_ok a t : expect a t = [] -> a <> TUndefined /\ (t = TUndefined \/ is_compatible a t = true).
Proof.
  intros H. assert (A : a <> TUndefined) by (intros ->; discriminate H). split; [exact A|].
  assert (D : t = TUndefined \/ t <> TUndefined) by (destruct t; auto; right; discriminate). destruct D as [D|D]; [now left|right].
  unfold expect, check_type in H. cbn [forallb] in H.
  assert (E : negb (match t with TUndefined => true | _ => false end) = true) by (destruct t; congruence || reflexivity). rewrite E in H.
  destruct (is_compatible a t); [reflexivity|]. cbn in H. destruct a; congruence || discriminate.
Qed.
Lemma instance_ok a cs : check_type_instance a cs = [] -> a <> TUndefined /\ (a = TAny \/ existsb (instance a) cs = true).
Proof.
  intros H. assert (A : a <> TUndefined) by (intros ->; discriminate H). split; [exact A|].
  unfold check_type_instance in H. destruct (existsb (instance a) cs) eqn:E; [now right|].
  destruct a; try discriminate H; now left.
Qed.
Lemma comparable_fits a b v w : fits a v -> fits b w -> a <> TUndefined -> is_compatible b a = true -> comparable v w = true.
Proof.
  intros Ha Hb Na C. destruct b as [| |n| | |b1|n b1|e|n e|n c ts rs|n|r w']; cbn [is_compatible compatible_with] in C; try (now apply fits_any in Hb); try discriminate;
  destruct a as [| |m| | |b2|m b2|e2|m e2|m c2 ts2 rs2|m|r2 w2]; cbn [is_integer] in C; try discriminate; try (now apply fits_any in Ha); try congruence;
  inversion Ha; subst; try discriminate; inversion Hb; subst; try discriminate; try reflexivity; cbn; rewrite String.eqb_sym; exact C.
Qed.
Lemma composite_fits t v : existsb (instance t) [CComposite] = true -> fits t v -> exists vs, v = VSeq vs /\ Forall (fits (element t)) vs.
Proof.
  intros I K. destruct t; try discriminate; inversion K; subst; try discriminate; eauto.
Qed.
Lemma message_fits t v : existsb (instance t) [CMessage] = true -> fits t v -> exists n fs c ts rs, t = TMessage n c ts rs /\ v = VMsg n fs.
Proof. intros I K. destruct t; try discriminate. inversion K; subst; try discriminate. repeat eexists. Qed.
Lemma bool_fits v : fits BOOLEAN v -> exists b, to_bool v = Val b.
Proof.
  intros K. inversion K as [| n l H | | | | | |]; subst; [|discriminate].
  destruct (H eq_refl) as [-> | ->]; eexists; reflexivity.
Qed.
Lemma fits_bool b : fits BOOLEAN (VBool b).
Proof. constructor. destruct b; auto. Qed.
End Fits.
