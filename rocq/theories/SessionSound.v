(** C52 for expressions: what an accepted expression evaluates to. *)
From Coq Require Import String List ZArith Bool Arith Lia.
From Verif Require Import Base Expr Typing ExprType SessionType SessionEval SessionTypeFacts.
Import ListNotations.
Local Open Scope string_scope.
Local Open Scope list_scope.

(** an outcome that is not stuck and whose value, if any, satisfies [P] *)
Definition holds {A} (P : A -> Prop) (o : outcome A) : Prop :=
  match o with Val v => P v | Raise => True | Stuck => False end.
Lemma holds_impl {A} (P Q : A -> Prop) o : (forall v, P v -> Q v) -> holds P o -> holds Q o.
Proof. destruct o; cbn; auto. Qed.
Lemma holds_after {A B} (P : A -> Prop) (Q : B -> Prop) o k : holds P o -> (forall v, P v -> holds Q (k v)) -> holds Q (after o k).
Proof. destruct o; cbn; auto. Qed.
Lemma holds_each {A B} (R : A -> B -> Prop) (f : A -> outcome B) : forall l, Forall (fun x => holds (R x) (f x)) l -> holds (fun vs => Forall2 R l vs) (each f l).
Proof.
  induction l as [|x l IH]; intros H; [constructor|]. inversion H; subst. cbn [each].
  eapply holds_after; [eassumption|]. intros v Hv. cbv beta. eapply holds_after; [now apply IH|]. intros vs Hvs. now constructor.
Qed.

(** ** the expressions the theorem is about *)

(** the type of the prefix of a selection is known before the prefix is checked *)
Definition direct (e : sx) : bool := match e with SVar _ | SCall _ _ | SConv _ _ | SMsg _ _ => true | _ => false end.
Definition is_var (e : sx) : bool := match e with SVar _ => true | _ => false end.
Definition unused (g : tenv) (x : string) : bool := match g_var g x with TUndefined => true | _ => false end.
Definition without (names : string -> bool) (x : string) : string -> bool := fun y => if String.eqb y x then false else names y.
Definition without_all (names : string -> bool) (xs : list string) : string -> bool :=
  fun y => if existsb (String.eqb y) xs then false else names y.
(** [names]: typed names which have no value (of types and functions).  The expressions
    that are excluded: such a name as a value; a sum or product without operands; a
    selection whose prefix is not [direct]; a message aggregate with a field whose value
    is a message, but not a variable; a comprehension or binding of a name which is
    visible already. *)
Fixpoint sure (names : string -> bool) (g : tenv) (e : sx) : bool :=
  match e with
  | SBool _ | SNum _ => true
  | SVar x => negb (names x)
  | SNot x => sure names untyped x
  | SAss o ts => match o, ts with (OAdd | OMul), [] => false | _, _ => true end && forallb (sure names g) ts
  | SBin _ l r | SRel _ l r | SIn _ l r => sure names g l && sure names g r
  | SAttr a p =>
    match a, p with
    | SInt _, SVar _ => true
    | SPresent, SSel q _ => sure names g q
    | _, _ => sure names g p
    end
  | SSel p _ => direct p && sure names g p
  | SCall _ args => forallb (sure names g) args
  | SAgg es => forallb (sure names g) es
  | SQuant _ x i p => sure names g i && sure (without names x) (bound g x (element (type_of g i))) p
  | SConv _ a => sure names g a
  | SCompr x a s c =>
    unused g x && sure names g a
    && sure (without names x) (bound g x (element (type_of g a))) s && sure (without names x) (bound g x (element (type_of g a))) c
  | SMsg _ fs =>
    forallb (fun p => match p with (_, x) => match new_type g x with TMessage _ _ _ _ | TAny => is_var x | _ => true end && sure names g x end) fs
  | SBind e data =>
    forallb (fun p => match p with (x, d) => unused g x && sure names g d end) data
    && sure (without_all names (map fst data)) (bound_all g (map (fun p => match p with (k, d) => (k, type_of g d) end) data)) e
  end.

Section Sound.
Variable sig : signature.
Variable w : world.

(** the type of a declared entity or of an argument of a function ([TUndefined]: its type
    identifier denotes a refinement) *)
Definition param (t : ty) : bool := match t with TUndefined | TChannel _ _ => true | _ => solid t end.
(** the messages: fields have declared types which are no messages, and parsing gives values
    of these types *)
Record regular : Prop := mkRegular {
  r_fields : forall n types f t, sig n = Some types -> In (f, t) types -> solid t = true /\ wf sig t /\ (forall m c ts rs, t <> TMessage m c ts rs);
  r_names : forall n types, sig n = Some types -> w_fields w n = map fst types;
  r_parse : forall n types bs fs, sig n = Some types -> w_parse w n bs = Some fs ->
    Forall (fun p => exists t, assoc (fst p) types = Some t /\ fits sig t (snd p)) fs
}.
(** the types of the environment: functions return values of their type *)
Record typed (g : tenv) : Prop := mkTyped {
  t_var : forall x, wf sig (g_var g x);
  t_call : forall f t args, g_call g f = (t, args) -> t <> TUndefined ->
    wf sig t /\ Forall (fun a => param a = true) args /\
    forall vs, Forall2 (fits sig) args vs -> holds (fits sig t) (w_call w f vs);
  t_conv : forall i t ts, g_conv g i = (t, ts) -> t <> TUndefined ->
    wf sig t /\ (ts <> [] -> exists c types rs, t = TMessage (w_message w i) c types rs);
  t_msg : forall i, g_msg g i <> TUndefined ->
    wf sig (g_msg g i) /\ exists c types rs, g_msg g i = TMessage (w_message w i) c types rs /\ Forall (fun r => solid (snd r) = true /\ exists m c' ts' rs', snd r = TMessage m c' ts' rs') rs
}.
(** every name with a type, except [names], has a value of this type *)
Definition models (names : string -> bool) (g : tenv) (st : store) : Prop :=
  forall x, names x = false -> g_var g x <> TUndefined -> exists v, st x = Some v /\ fits sig (g_var g x) v.
(** an environment with fewer variables *)
Definition within (g0 g : tenv) : Prop :=
  (forall x, g_var g0 x = TUndefined \/ g_var g0 x = g_var g x) /\ g_call g0 = g_call g /\ g_conv g0 = g_conv g /\ g_msg g0 = g_msg g.

Lemma typed_untyped : typed untyped.
Proof. split; cbn; intros; try exact Logic.I; try congruence; inversion H; congruence. Qed.
Lemma models_untyped names st : models names untyped st.
Proof. intros x _ H. now elim H. Qed.
Lemma wf_element t : wf sig t -> wf sig (element t).
Proof. destruct t; cbn; tauto. Qed.
Lemma typed_bound g x t : typed g -> wf sig t -> typed (bound g x t).
Proof. intros [A B C D] W. split; auto. intros y. cbn. destruct (String.eqb y x); auto. Qed.
Lemma assoc_In {A} k (l : list (string * A)) v : assoc k l = Some v -> In (k, v) l.
Proof.
  unfold assoc. destruct (find _ l) as [[k' v']|] eqn:F; [|discriminate]. intros [= <-]. apply find_some in F as [F E]. cbn in E. apply String.eqb_eq in E as ->. exact F.
Qed.
Lemma typed_bound_all g l : typed g -> Forall (fun p => wf sig (snd p)) l -> typed (bound_all g l).
Proof.
  intros [A B C D] W. split; auto. intros y. cbn. destruct (assoc y l) as [t|] eqn:E; auto. apply assoc_In in E.
  rewrite Forall_forall in W. specialize (W _ E). cbn in W. destruct t; exact W || exact Logic.I.
Qed.
Lemma within_refl g : within g g.
Proof. repeat split; auto. Qed.
Lemma within_bound g0 g x t : within g0 g -> unused g x = true -> within g0 (bound g x t).
Proof.
  intros (A & B & C & D) U. repeat split; auto. intros y. cbn. destruct (String.eqb y x) eqn:E; auto. apply String.eqb_eq in E as ->.
  unfold unused in U. destruct (A x) as [->|H]; auto. rewrite H. destruct (g_var g x); try discriminate. now left.
Qed.
Lemma within_bound_all g0 g l : within g0 g -> Forall (fun p => unused g (fst p) = true) l -> within g0 (bound_all g l).
Proof.
  intros (A & B & C & D) U. repeat split; auto. intros y. cbn. destruct (assoc y l) as [t|] eqn:E; auto. apply assoc_In in E.
  rewrite Forall_forall in U. specialize (U _ E). cbn in U. unfold unused in U. left. destruct (A y) as [->|H]; auto. rewrite H. now destruct (g_var g y).
Qed.

Lemma models_bound names g st x t v : models names g st -> fits sig t v -> models (without names x) (bound g x t) (upd st x v).
Proof.
  intros M K y Hy U. unfold upd, without in *. cbn in *. destruct (String.eqb y x); [eauto|]. now apply M.
Qed.
Lemma assoc_cons {A} y k (v : A) l : assoc y ((k, v) :: l) = if String.eqb k y then Some v else assoc y l.
Proof. unfold assoc. cbn. now destruct (String.eqb k y). Qed.
Lemma models_bound_all names g st data (T : sx -> ty) vs : models names g st ->
  Forall2 (fun p q => fst p = fst q /\ fits sig (T (snd p)) (snd q) /\ T (snd p) <> TUndefined) data vs ->
  models (without_all names (map fst data)) (bound_all g (map (fun p => match p with (k, d) => (k, T d) end) data)) (upd_all st vs).
Proof.
  intros M F y Hy U.
  assert (G : match assoc y (map (fun p => match p with (k, d) => (k, T d) end) data) with
              | Some t => exists v, upd_all st vs y = Some v /\ fits sig t v /\ t <> TUndefined
              | None => upd_all st vs y = st y /\ existsb (String.eqb y) (map fst data) = false
              end).
  { clear -F. induction F as [|[k d] [k' v] l m (K1 & K2 & K3) _ IH]; [now split|]. cbn [fst snd] in *. subst k'.
    cbn [map]. rewrite assoc_cons. cbn [upd_all existsb fst]. unfold upd. rewrite (String.eqb_sym y k). destruct (String.eqb k y); [exists v; auto|cbn [orb]; exact IH]. }
  cbn in *. destruct (assoc y _) as [t|].
  - destruct G as (v & G1 & G2 & G3). exists v. split; [exact G1|]. destruct t; exact G2 || congruence.
  - destruct G as [-> G]. unfold without_all in Hy. rewrite G in Hy. now apply M.
Qed.
Lemma fields_check_ok errs types : forall fs i cs es cs', fields_check errs types i cs fs = (es, cs') -> es = [] ->
  Forall (fun p => exists t, assoc (fst p) types = Some t /\ errs (fst p) (snd p) t = []) fs.
Proof.
  induction fs as [|[f x] fs IH]; intros i cs es cs' H E; [constructor|]. cbn [fields_check] in H.
  destruct (assoc f types) as [t|] eqn:A.
  - destruct (filter _ cs) as [|c0 rest].
    + injection H as <- <-. destruct (errs f x t); discriminate E.
    + fold (fields_check errs types) in H. destruct (fields_check errs types (S i) (c0 :: rest) fs) as [es1 cs1] eqn:G. injection H as <- <-. apply app_eq_nil in E as [E1 E2].
      constructor; [exists t; auto|]. now apply (IH _ _ _ _ G).
  - fold (fields_check errs types) in H. destruct (fields_check errs types (S i) cs fs) as [es1 cs1]. injection H as <- <-. discriminate E.
Qed.
(** *** the types are well formed *)
Lemma new_type_wf g : typed g -> forall e, wf sig (new_type g e).
Proof.
  intros [A B C D]. induction e using sx_ind'; cbn [new_type]; try exact Logic.I.
  - apply A.
  - destruct o; try exact Logic.I;
      (assert (W : wf sig (common_type (map (new_type g) ts))) by (apply common_type_wf; rewrite Forall_map; assumption);
       destruct (common_type (map (new_type g) ts)); exact W || exact Logic.I).
  - apply common_type_wf. repeat constructor; assumption.
  - destruct (g_call g f) as [t a] eqn:E. cbn [fst]. assert (N : t = TUndefined \/ t <> TUndefined) by (destruct t; auto; right; discriminate).
    destruct N as [->|N]; [exact Logic.I|]. now apply (B f t a).
  - cbn. apply common_type_wf. now rewrite Forall_map.
  - destruct (g_conv g t) as [t' a] eqn:E. cbn [fst]. assert (N : t' = TUndefined \/ t' <> TUndefined) by (destruct t'; auto; right; discriminate).
    destruct N as [->|N]; [exact Logic.I|]. now apply (C t t' a).
  - exact IHe2.
  - assert (N : g_msg g t = TUndefined \/ g_msg g t <> TUndefined) by (destruct (g_msg g t); auto; right; discriminate).
    destruct N as [->|N]; [exact Logic.I|]. now apply D.
  - exact IHe.
Qed.
Lemma type_of_wf : regular -> forall e g, typed g -> wf sig (type_of g e).
Proof.
  intros R. induction e using sx_ind'; intros g T; try (exact (new_type_wf g T _)); cbn [type_of].
  - apply common_type_wf. repeat constructor; auto.
  - destruct a; try exact Logic.I; [now apply wf_element, IHe|]. cbn. split; [reflexivity|exact Logic.I].
  - pose proof (new_type_wf g T e) as W. destruct (new_type g e); try exact Logic.I. cbn in W. destruct (assoc f types) as [t|] eqn:E; [|exact Logic.I].
    apply assoc_In in E. now apply (r_fields R _ _ _ _ W E).
  - cbn. apply IHe2. apply typed_bound; [exact T|]. apply wf_element. now apply IHe1.
  - apply IHe. apply typed_bound_all; [exact T|]. rewrite Forall_map. eapply Forall_impl; [|eassumption]. intros [k d] Hd. cbn in *. now apply Hd.
Qed.

(** *** the value of an expression *)
Hypothesis R : regular.
Definition value_ok (g : tenv) (e : sx) (v : value) : Prop :=
  fits sig (type_of g e) v /\ forall g0, within g0 g -> fits sig (new_type g0 e) v.
(** values of a type that is checked before the value is built *)
Lemma ok_const g e v : (forall g, type_of g e = new_type g e) -> (forall g0, within g0 g -> fits sig (new_type g0 e) v) -> value_ok g e v.
Proof. intros E H. split; [rewrite E; apply H, within_refl|exact H]. Qed.
Lemma checked_int t v : check_type_instance t [CAnyInteger] = [] -> fits sig t v -> exists z, v = VInt z.
Proof.
  intros C K. destruct (instance_ok _ _ C) as [_ [->|I]]; [now apply fits_any in K|]. cbn in I. rewrite orb_false_r in I. now apply (integer_fits sig t).
Qed.
Lemma checked_bool t v : expect t BOOLEAN = [] -> fits sig t v -> exists b, to_bool v = Val b.
Proof.
  intros C K. destruct (expect_ok _ _ C) as [_ [H|I]]; [discriminate|]. apply (compatible_fits sig t BOOLEAN v I eq_refl) in K. now apply (bool_fits sig).
Qed.
Lemma checked_seq t v : check_type_instance t [CComposite] = [] -> fits sig t v -> exists vs, v = VSeq vs /\ Forall (fits sig (element t)) vs.
Proof.
  intros C K. destruct (instance_ok _ _ C) as [_ [->|I]]; [now apply fits_any in K|]. now apply composite_fits.
Qed.
Lemma checked_message t v : check_type_instance t [CMessage] = [] -> fits sig t v -> exists n fs c ts rs, t = TMessage n c ts rs /\ v = VMsg n fs.
Proof.
  intros C K. destruct (instance_ok _ _ C) as [_ [->|I]]; [now apply fits_any in K|]. now apply (message_fits sig).
Qed.
Lemma checked_defined t cs : check_type_instance t cs = [] -> t <> TUndefined.
Proof. intros C. now apply (instance_ok t cs). Qed.
Lemma expected_defined t u : expect t u = [] -> t <> TUndefined.
Proof. intros C. now apply (expect_ok t u). Qed.
Lemma expected_fits a t v : expect a t = [] -> param t = true -> fits sig a v -> fits sig t v.
Proof.
  intros C P K. destruct (expect_ok _ _ C) as [_ [->|C']]; [constructor|].
  destruct t; try discriminate P; try constructor; try (now apply (compatible_fits sig a _ v C')). now apply (compatible_channel sig a _ _ v C').
Qed.
Lemma fits_to_int v z : v = VInt z -> to_int v = Val z.
Proof. now intros ->. Qed.
Lemma opaque_bytes zs : fits sig OPAQUE (VSeq (map VInt zs)).
Proof. constructor. rewrite Forall_map. apply Forall_forall. intros z _. now constructor. Qed.
Lemma each_ints vs : Forall (fun v => exists z, v = VInt z) vs -> exists zs, each to_int vs = Val zs.
Proof.
  induction 1 as [|v vs [z ->] _ [zs IH]]; [now exists []|]. exists (z :: zs). cbn [each to_int after] in *. now rewrite IH.
Qed.
Lemma each_bools vs : Forall (fun v => exists b, to_bool v = Val b) vs -> exists bs, each to_bool vs = Val bs.
Proof.
  induction 1 as [|v vs [b E] _ [bs IH]]; [now exists []|]. exists (b :: bs). cbn [each after] in *. rewrite E. cbn [after]. now rewrite IH.
Qed.

Lemma app_nil_inv {A} (a b : list A) : a ++ b = [] -> a = [] /\ b = [].
Proof. apply app_eq_nil. Qed.
Lemma flat_map_nil {A B} (f : A -> list B) l : flat_map f l = [] -> Forall (fun x => f x = []) l.
Proof. induction l as [|x l IH]; cbn; [constructor|]. intros H. apply app_eq_nil in H as [H1 H2]. constructor; auto. Qed.

Definition sound (e : sx) : Prop := forall names g st, typed g -> models names g st -> sure names g e = true ->
  subexpr_errors g e = [] -> type_of g e <> TUndefined -> holds (value_ok g e) (eval w st e).

Lemma sound_list ts names g st (cs : sx -> list string) :
  Forall sound ts -> typed g -> models names g st -> forallb (sure names g) ts = true ->
  (forall t, cs t = [] -> type_of g t <> TUndefined) ->
  flat_map (fun t => subexpr_errors g t ++ cs t) ts = [] ->
  holds (fun vs => Forall2 (fun t v => value_ok g t v /\ cs t = []) ts vs) (each (eval w st) ts).
Proof.
  intros S T M Q D E. apply holds_each. apply flat_map_nil in E. rewrite forallb_forall in Q. rewrite Forall_forall in *.
  intros t Ht. specialize (E t Ht). apply app_nil_inv in E as [E1 E2]. eapply holds_impl; [|eapply (S t Ht); eauto]. auto.
Qed.

Lemma sound_num e : (forall g, numeric (new_type g e) = true) -> (forall g, type_of g e = new_type g e) -> forall g z, value_ok g e (VInt z).
Proof. intros N E g z. apply ok_const; [exact E|]. intros. now apply numeric_fits. Qed.
Lemma sound_bool e : (forall g, new_type g e = BOOLEAN) -> (forall g, type_of g e = new_type g e) -> forall g b, value_ok g e (VBool b).
Proof. intros N E g z. apply ok_const; [exact E|]. intros. rewrite N. apply fits_bool. Qed.

Lemma numeric_news g0 g ts vs : within g0 g -> Forall2 (fun t v => value_ok g t v /\ check_type_instance (type_of g t) [CAnyInteger] = []) ts vs ->
  forallb numeric (map (new_type g0) ts) = true.
Proof.
  intros W. induction 1 as [|t v ts vs [[K1 K2] C] _ IH]; [reflexivity|]. cbn [map forallb]. rewrite IH, andb_true_r.
  destruct (checked_int _ _ C K1) as [z ->]. now apply (fits_numeric sig _ z), K2.
Qed.
Lemma math_value o ts g vs z : o = OAdd \/ o = OMul -> ts <> [] ->
  Forall2 (fun t v => value_ok g t v /\ check_type_instance (type_of g t) [CAnyInteger] = []) ts vs -> value_ok g (SAss o ts) (VInt z).
Proof.
  intros O N F. apply ok_const.
  - intros g'. now destruct O as [-> | ->].
  - intros g0 W. apply (numeric_fits sig). cbn [new_type]. pose proof (numeric_common_type (map (new_type g0) ts)) as H.
    rewrite (numeric_news g0 g ts vs W F) in H. specialize (H ltac:(destruct ts; [congruence|discriminate]) eq_refl).
    destruct O as [-> | ->]; destruct (common_type (map (new_type g0) ts)); exact H || reflexivity.
Qed.

Lemma Forall2_right {A B} (P : B -> Prop) (Q : A -> B -> Prop) l m : Forall2 Q l m -> (forall a b, Q a b -> P b) -> Forall P m.
Proof. intros F H. induction F; constructor; eauto. Qed.

Lemma expression_sound : forall e, sound e.
Proof.
  induction e using sx_ind'; intros names g st T M S E U.
  - (* SBool *) cbn [eval holds]. now apply sound_bool.
  - (* SNum *) cbn [eval holds]. now apply sound_num.
  - (* SVar *) cbn [eval sure] in *. apply negb_true_iff in S. destruct (M x S U) as (v & Hv & K). rewrite Hv. cbn [holds]. split; [exact K|].
    intros g0 (A & _). cbn [new_type]. destruct (A x) as [-> | ->]; [constructor|exact K].
  - (* SNot *) cbn [eval sure subexpr_errors] in *. apply app_nil_inv in E as [E1 E2].
    eapply holds_after; [apply (IHe names untyped st typed_untyped (models_untyped names st) S E1 (expected_defined _ _ E2))|].
    intros v [K _]. destruct (checked_bool _ _ E2 K) as [b ->]. cbn [after holds]. now apply sound_bool.
  - (* SAss *) cbn [eval sure] in *. apply andb_true_iff in S as [S1 S2].
    assert (Num : o = OAdd \/ o = OMul -> holds (fun vs => Forall2 (fun t v => value_ok g t v /\ check_type_instance (type_of g t) [CAnyInteger] = []) ts vs) (each (eval w st) ts)).
    { intros O. apply (sound_list ts names g st (fun t => check_type_instance (type_of g t) [CAnyInteger])); auto.
      - intros t. apply checked_defined.
      - destruct O as [-> | ->]; exact E. }
    assert (Bo : o <> OAdd /\ o <> OMul -> holds (fun vs => Forall2 (fun t v => value_ok g t v /\ expect (type_of g t) BOOLEAN = []) ts vs) (each (eval w st) ts)).
    { intros O. apply (sound_list ts names g st (fun t => expect (type_of g t) BOOLEAN)); auto.
      - intros t. apply expected_defined.
      - destruct o; try exact E; destruct O; congruence. }
    assert (Ni : forall vs, Forall2 (fun t v => value_ok g t v /\ check_type_instance (type_of g t) [CAnyInteger] = []) ts vs -> exists zs, each to_int vs = Val zs).
    { intros vs F. apply each_ints. eapply Forall2_right; [exact F|]. intros t v [[K _] C]. now apply (checked_int _ _ C). }
    assert (Bi : forall vs, Forall2 (fun t v => value_ok g t v /\ expect (type_of g t) BOOLEAN = []) ts vs -> exists bs, each to_bool vs = Val bs).
    { intros vs F. apply each_bools. eapply Forall2_right; [exact F|]. intros t v [[K _] C]. now apply (checked_bool _ _ C). }
    destruct o.
    1-4: (eapply holds_after; [apply Bo; split; discriminate|]; intros vs F; destruct (Bi vs F) as [bs ->]; cbn [after holds]; now apply sound_bool).
    all: (eapply holds_after; [apply Num; auto|]; intros vs F; destruct (Ni vs F) as [zs ->]; cbn [after holds]; apply (math_value _ ts g vs); auto; intros ->; discriminate S1).
  - (* SBin *) cbn [eval sure subexpr_errors] in *. apply andb_true_iff in S as [S1 S2].
    apply app_nil_inv in E as [E1 E]. apply app_nil_inv in E as [E2 E]. apply app_nil_inv in E as [E3 E4].
    eapply holds_after; [apply (IHe1 names g st T M S1 E1 (checked_defined _ _ E2))|]. intros a [Ka Na].
    eapply holds_after; [apply (IHe2 names g st T M S2 E3 (checked_defined _ _ E4))|]. intros b [Kb Nb].
    destruct (checked_int _ _ E2 Ka) as [x ->]. destruct (checked_int _ _ E4 Kb) as [y ->]. cbn [to_int after].
    assert (Hv : forall z, value_ok g (SBin o e1 e2) (VInt z)).
    { intros z. split.
      - apply (numeric_fits sig). cbn [type_of]. apply numeric_common_type; [discriminate|]. cbn [forallb]. now rewrite (fits_numeric sig _ x Ka), (fits_numeric sig _ y Kb).
      - intros g0 W. apply (numeric_fits sig). cbn [new_type]. apply numeric_common_type; [discriminate|]. cbn [forallb].
        now rewrite (fits_numeric sig _ x (Na g0 W)), (fits_numeric sig _ y (Nb g0 W)). }
    eapply holds_after with (P := fun _ => True); [|intros z _; apply Hv].
    destruct o; cbn [arith]; try exact Logic.I; match goal with |- context [if ?b then _ else _] => destruct b end; exact Logic.I.
  - (* SRel *) cbn [eval sure] in *. apply andb_true_iff in S as [S1 S2].
    assert (Hb : forall b, value_ok g (SRel o e1 e2) (VBool b)) by (intros b; now apply sound_bool).
    assert (Num : o <> OEq /\ o <> ONe -> holds (value_ok g (SRel o e1 e2)) (do a <- eval w st e1 ;; do b <- eval w st e2 ;; do x <- to_int a ;; do y <- to_int b ;; Val (VBool (less o x y)))).
    { intros O. assert (E' : subexpr_errors g e1 ++ check_type_instance (type_of g e1) [CAnyInteger] ++ subexpr_errors g e2 ++ check_type_instance (type_of g e2) [CAnyInteger] = [])
        by (destruct o; try exact E; destruct O; congruence).
      apply app_nil_inv in E' as [E1 E']. apply app_nil_inv in E' as [E2 E']. apply app_nil_inv in E' as [E3 E4].
      eapply holds_after; [apply (IHe1 names g st T M S1 E1 (checked_defined _ _ E2))|]. intros a [Ka Na].
      eapply holds_after; [apply (IHe2 names g st T M S2 E3 (checked_defined _ _ E4))|]. intros b [Kb Nb].
      destruct (checked_int _ _ E2 Ka) as [x ->]. destruct (checked_int _ _ E4 Kb) as [y ->]. apply Hb. }
    assert (Cmp : o = OEq \/ o = ONe -> holds (fun _ => True) (do a <- eval w st e1 ;; do b <- eval w st e2 ;; if comparable a b then Val tt else Stuck)).
    { intros O. assert (E' : subexpr_errors g e1 ++ check_type_instance (type_of g e1) [CAny] ++ subexpr_errors g e2 ++ expect (type_of g e2) (type_of g e1) = [])
        by (destruct O as [-> | ->]; exact E).
      apply app_nil_inv in E' as [E1 E']. apply app_nil_inv in E' as [E2 E']. apply app_nil_inv in E' as [E3 E4].
      eapply holds_after; [apply (IHe1 names g st T M S1 E1 (checked_defined _ _ E2))|]. intros a [Ka Na].
      eapply holds_after; [apply (IHe2 names g st T M S2 E3 (expected_defined _ _ E4))|]. intros b [Kb Nb].
      destruct (expect_ok _ _ E4) as [_ [X|C]]; [now apply checked_defined in E2|].
      rewrite (comparable_fits sig _ _ a b Ka Kb (checked_defined _ _ E2) C). exact Logic.I. }
    destruct o; try (apply Num; split; discriminate);
      (specialize (Cmp ltac:(auto)); destruct (eval w st e1) as [a| |]; try exact Cmp; cbn [after] in *;
       destruct (eval w st e2) as [b| |]; try exact Cmp; cbn [after] in *; destruct (comparable a b); [apply Hb|exact Cmp]).
  - (* SIn *) cbn [eval sure subexpr_errors] in *. apply andb_true_iff in S as [S1 S2].
    apply app_nil_inv in E as [E1 E]. apply app_nil_inv in E as [E2 E]. apply app_nil_inv in E as [E3 E4].
    eapply holds_after; [apply (IHe1 names g st T M S1 E1 (checked_defined _ _ E2))|]. intros a [Ka Na].
    eapply holds_after; [apply (IHe2 names g st T M S2 E3 (expected_defined _ _ E4))|]. intros b [Kb Nb].
    destruct (expect_ok _ _ E4) as [_ [X|C]]; [discriminate|].
    assert (V : exists vs, b = VSeq vs).
    { destruct (type_of g e2); cbn in C; try discriminate; try (now apply fits_any in Kb); inversion Kb; subst; try discriminate; eauto. }
    destruct V as [vs ->]. cbn [to_seq after holds]. now apply sound_bool.
  - (* SAttr *)
    assert (Bo : forall b, (match a with SValidChecksum | SValid | SPresent => True | _ => False end) -> value_ok g (SAttr a e) (VBool b)).
    { intros b Ha. split; [|intros g0 _; constructor]. destruct a; try (now elim Ha); apply fits_bool. }
    destruct a.
    + (* 'Size *)
      assert (In_ : forall z, value_ok g (SAttr (SInt a) e) (VInt z)) by (intros z; split; [now constructor|intros; constructor]).
      cbn [subexpr_errors] in E. apply app_nil_inv in E as [E1 E2].
      assert (G : sure names g e = true -> holds (value_ok g (SAttr (SInt a) e)) (do v <- eval w st e ;; Val (VInt (w_attr w a v)))).
      { intros S'. eapply holds_after; [apply (IHe names g st T M S' E1 (checked_defined _ _ E2))|]. intros v _. apply In_. }
      destruct e; cbn [eval sure] in *; try (apply G; exact S). apply In_.
    + cbn [eval sure subexpr_errors] in *. apply app_nil_inv in E as [E1 E2].
      assert (S' : sure names g e = true) by (destruct e; exact S).
      eapply holds_after; [apply (IHe names g st T M S' E1 (checked_defined _ _ E2))|]. intros v _. now apply Bo.
    + cbn [eval sure subexpr_errors] in *. apply app_nil_inv in E as [E1 E2].
      assert (S' : sure names g e = true) by (destruct e; exact S).
      eapply holds_after; [apply (IHe names g st T M S' E1 (checked_defined _ _ E2))|]. intros v [K _].
      destruct (instance_ok _ _ E2) as [_ [X|I]]; [rewrite X in K; now apply fits_any in K|].
      destruct (type_of g e); try discriminate; inversion K; subst; try discriminate; now apply Bo.
    + (* 'Present *) destruct e; try discriminate E. cbn [eval sure subexpr_errors] in *. apply app_nil_inv in E as [E1 E2].
      assert (IHq : holds (value_ok g e) (eval w st e)).
      { match goal with H : prefix_of _ _ |- _ => apply (H names g st T M S E1 (checked_defined _ _ E2)) end. }
      eapply holds_after; [exact IHq|]. intros v [K _].
      destruct (checked_message _ _ E2 K) as (n & fs & c & ts & rs & Ht & ->). now apply Bo.
    + (* 'Head *) cbn [eval sure subexpr_errors] in *. apply app_nil_inv in E as [E1 E2].
      assert (S' : sure names g e = true) by (destruct e; exact S).
      eapply holds_after; [apply (IHe names g st T M S' E1 (checked_defined _ _ E2))|]. intros v [K _].
      destruct (checked_seq _ _ E2 K) as (vs & -> & F). cbn [to_seq after]. destruct vs as [|h vs]; [exact Logic.I|]. inversion F; subst.
      cbn [holds]. split; [assumption|intros; constructor].
    + (* 'Opaque *) cbn [eval sure subexpr_errors] in *. apply app_nil_inv in E as [E1 E2].
      assert (S' : sure names g e = true) by (destruct e; exact S).
      eapply holds_after; [apply (IHe names g st T M S' E1 (checked_defined _ _ E2))|]. intros v [K _].
      destruct (checked_message _ _ E2 K) as (n & fs & c & ts & rs & Ht & ->). cbn [holds]. split; [apply opaque_bytes|intros; constructor].
  - (* SSel *) cbn [eval sure subexpr_errors] in *. apply andb_true_iff in S as [S1 S2].
    apply app_nil_inv in E as [E0 E]. apply app_nil_inv in E as [E1 E2].
    eapply holds_after; [apply (IHe names g st T M S2 E1 (checked_defined _ _ E2))|]. intros v [K _].
    assert (Nt : type_of g e = new_type g e) by (destruct e; try discriminate S1; reflexivity).
    destruct (checked_message _ _ E2 K) as (n & fs & c & ts & rs & Ht & ->). rewrite Nt in Ht. rewrite Ht in E0. cbn [type_of] in U. 
    pose proof (new_type_wf g T e) as W. rewrite Ht in W. cbn in W. rewrite Nt, Ht in K. inversion K as [| | | | |? ? ? ? types ? Hs Hf| |]; subst; try discriminate. rewrite W in Hs. injection Hs as <-.
    destruct (assoc f ts) as [t|] eqn:A; [|discriminate E0].
    rewrite (r_names R n ts W).
    assert (X : existsb (String.eqb f) (map fst ts) = true).
    { apply existsb_exists. exists f. split; [apply in_map_iff; exists (f, t); split; [reflexivity|now apply assoc_In]|apply String.eqb_refl]. }
    rewrite X. destruct (assoc f fs) as [v|] eqn:B; [|exact Logic.I]. apply assoc_In in B. rewrite Forall_forall in Hf. destruct (Hf _ B) as (t' & A' & F). cbn in A', F.
    rewrite A in A'. injection A' as <-. cbn [holds]. split; [|intros; constructor]. cbn [type_of]. rewrite Ht, A. exact F.
  - (* SCall *) cbn [eval sure subexpr_errors] in *. apply app_nil_inv in E as [E1 E2].
    cbn [type_of new_type] in U. destruct (g_call g f) as [t types] eqn:G. cbn [fst snd] in *.
    destruct (t_call g T f t types G U) as (Wt & Pa & Ca).
    assert (L : List.length args = List.length types).
    { destruct t; [congruence|..]; (destruct (List.length args <? List.length types)%nat eqn:L1; [discriminate|]; destruct (List.length types <? List.length args)%nat eqn:L2; [discriminate|];
      apply Nat.ltb_ge in L1, L2; lia). }
    eapply holds_after with (P := Forall2 (fits sig) types).
    + clear U Ca Wt E2 G. revert types Pa L E1 H S. induction args as [|a args IHa]; intros [|ty types] Pa L E1 H S; try discriminate L; [constructor|].
      cbn [each hd tl forallb] in *. apply andb_true_iff in S as [S1 S2]. apply app_nil_inv in E1 as [E1 E2]. apply app_nil_inv in E2 as [E2 E3].
      inversion H; subst. inversion Pa; subst. 
      eapply holds_after; [match goal with H : sound a |- _ => apply (H names g st T M S1 E1 (expected_defined _ _ E2)) end|]. intros v [K _]. cbv beta.
      eapply holds_after; [apply (IHa types); auto|]. intros vs F. cbn [holds]. constructor; [|exact F].
      now apply (expected_fits _ _ v E2).
    + intros vs F. eapply holds_impl; [|apply (Ca vs F)]. intros v K. apply ok_const; [reflexivity|].
      intros g0 (_ & A & _). cbn [new_type]. rewrite A, G. exact K.
  - (* SAgg *) cbn [eval sure subexpr_errors] in *.
    eapply holds_after; [apply (sound_list es names g st (fun t => check_type_instance (type_of g t) [CAny])); auto; intros t; apply checked_defined|].
    intros vs F. cbn [holds]. apply ok_const; [reflexivity|]. intros g0 W. cbn [new_type]. constructor.
    assert (T0 : forall e, wf sig (new_type g0 e)).
    { apply new_type_wf. destruct W as (A & B & C & D). destruct T as [T1 T2 T3 T4]. split; try (rewrite ?B, ?C, ?D; assumption).
      intros x. destruct (A x) as [-> | ->]; [exact Logic.I|apply T1]. }
    assert (Wl : Forall (wf sig) (map (new_type g0) es)) by (rewrite Forall_map; apply Forall_forall; intros; apply T0).
    assert (Inn : Forall2 (fun t v => In t es /\ value_ok g t v) es vs).
    { clear -F. assert (G : forall es' , incl es' es -> Forall2 (fun t v => value_ok g t v /\ check_type_instance (type_of g t) [CAny] = []) es' vs -> Forall2 (fun t v => In t es /\ value_ok g t v) es' vs).
      { intros es' I F'. clear F. induction F' as [|t v l m [K _] _ IH]; constructor; [split; [apply I; now left|exact K]|]. apply IH. intros z Hz. apply I. now right. }
      apply G; [apply incl_refl|exact F]. }
    eapply Forall2_right; [exact Inn|]. intros t v [I [_ K]]. apply (common_type_fits sig _ (new_type g0 t)); [exact Wl|now apply in_map|now apply K].
  - (* SQuant *) cbn [eval sure subexpr_errors] in *. apply andb_true_iff in S as [S1 S2].
    apply app_nil_inv in E as [E1 E]. apply app_nil_inv in E as [E2 E]. apply app_nil_inv in E as [E3 E4].
    eapply holds_after; [apply (IHe1 names g st T M S1 E1 (checked_defined _ _ E2))|]. intros v [K _].
    destruct (checked_seq _ _ E2 K) as (vs & -> & F). cbn [to_seq after].
    eapply holds_after with (P := fun _ => True); [|intros bs _; now apply sound_bool].
    eapply holds_impl; [|apply (holds_each (fun _ _ => True))]; [auto|]. eapply Forall_impl; [|exact F]. intros y Ky. cbv beta.
    eapply holds_after; [apply (IHe2 _ _ (upd st x y) (typed_bound g x _ T (wf_element _ (type_of_wf R e1 g T))) (models_bound names g st x _ y M Ky) S2 E3 (expected_defined _ _ E4))|].
    intros b [Kb _]. destruct (checked_bool _ _ E4 Kb) as [b' ->]. exact Logic.I.
  - (* SConv *) cbn [eval sure subexpr_errors] in *. apply app_nil_inv in E as [E1 E]. apply app_nil_inv in E as [E2 E3].
    eapply holds_after; [apply (IHe names g st T M S E1 (expected_defined _ _ E2))|]. intros v [K _].
    destruct (expect_ok _ _ E2) as [_ [X|C]]; [discriminate|]. apply (compatible_fits sig _ OPAQUE v C eq_refl) in K. inversion K; subst; [discriminate|]. cbn [to_seq after].
    cbn [type_of new_type] in U. destruct (g_conv g t) as [t' ts] eqn:G. cbn [fst snd] in *.
    assert (N : ts <> []) by (intros ->; destruct e; discriminate E3). destruct (t_conv g T t t' ts G U) as (W & Hm). destruct (Hm N) as (c & types & rs & ->). cbn in W.
    destruct (w_parse w (w_message w t) vs) as [fs|] eqn:P; [|exact Logic.I]. cbn [holds].
    apply ok_const; [reflexivity|]. intros g0 (_ & _ & A & _). cbn [new_type]. rewrite A, G. cbn [fst]. econstructor; [exact W|]. now apply (r_parse R _ _ _ _ W P).
  - (* SCompr *) cbn [eval sure subexpr_errors] in *. apply andb_true_iff in S as [S S4]. apply andb_true_iff in S as [S S3]. apply andb_true_iff in S as [S1 S2].
    apply app_nil_inv in E as [E1 E]. apply app_nil_inv in E as [E2 E]. apply app_nil_inv in E as [E3 E]. apply app_nil_inv in E as [E4 E]. apply app_nil_inv in E as [E5 E6].
    eapply holds_after; [apply (IHe1 names g st T M S2 E1 (checked_defined _ _ E2))|]. intros v [K _].
    destruct (checked_seq _ _ E2 K) as (vs & -> & F). cbn [to_seq after].
    pose proof (typed_bound g x _ T (wf_element _ (type_of_wf R e1 g T))) as Tb.
    eapply holds_after with (P := fun r => Forall (value_ok (bound g x (element (type_of g e1))) e2) (List.concat r)).
    + eapply holds_impl; [|apply (holds_each (fun _ r => Forall (value_ok (bound g x (element (type_of g e1))) e2) r))].
      * intros r Hr. clear -Hr. induction Hr; cbn [List.concat]; [constructor|]. apply Forall_app. now split.
      * eapply Forall_impl; [|exact F]. intros y Ky. cbv beta.
        eapply holds_after; [apply (IHe3 _ _ (upd st x y) Tb (models_bound names g st x _ y M Ky) S4 E5 (expected_defined _ _ E6))|].
        intros b [Kb _]. destruct (checked_bool _ _ E6 Kb) as [b' ->]. cbn [after]. destruct b'; [|constructor].
        eapply holds_after; [apply (IHe2 _ _ (upd st x y) Tb (models_bound names g st x _ y M Ky) S3 E3 (checked_defined _ _ E4))|].
        intros z Kz. cbn [holds]. repeat constructor; apply Kz.
    + intros r Hr. destruct (w_full w (List.concat r)); [exact Logic.I|]. cbn [holds]. split.
      * cbn [type_of]. constructor. eapply Forall_impl; [|exact Hr]. now intros z [Kz _].
      * intros g0 W. cbn [new_type]. constructor. eapply Forall_impl; [|exact Hr]. intros z [_ Kz]. apply Kz. now apply within_bound.
  - (* SMsg *) cbn [eval sure subexpr_errors] in *. cbn [type_of new_type] in U.
    destruct (t_msg g T t U) as (W & c & types & rs & G & Rs). rewrite G in *. cbn in W.
    match type of E with (let '(es, cs) := ?z in _) = _ => destruct z as [es cs] eqn:Fc end. apply app_nil_inv in E as [E _].
    apply fields_check_ok in Fc; [|exact E]. rewrite forallb_forall in S.
    eapply holds_after with (P := Forall (fun p => exists t, assoc (fst p) types = Some t /\ fits sig t (snd p))).
    + eapply holds_impl; [|apply (holds_each (fun _ p => exists t, assoc (fst p) types = Some t /\ fits sig t (snd p)))].
      * intros vs F. eapply Forall2_right; [exact F|]. auto.
      * rewrite Forall_forall in *. intros [f x] Hf. specialize (Fc _ Hf). specialize (H _ Hf). specialize (S _ Hf). cbn [fst snd] in *.
        destruct Fc as (tf & A & Er). apply andb_true_iff in S as [S1 S2].
        destruct (r_fields R _ _ _ _ W (assoc_In _ _ _ A)) as (Sf & Wf & Nm).
        destruct (ty_eqb tf OPAQUE && existsb _ rs) eqn:Q.
        -- apply andb_true_iff in Q as [Q1 Q2]. apply existsb_exists in Q2 as ([f' tr] & Hr & Q2). apply andb_true_iff in Q2 as [_ Q2]. cbn in Q2.
           destruct (Rs _ Hr) as (Sr & m & c' & ts' & rs' & X). cbn in X, Sr. subst tr.
           assert (V : exists y, x = SVar y).
           { destruct (new_type g x); cbn in Q2; try discriminate; destruct x; try discriminate; eauto. }
           destruct V as [y ->]. cbn [new_type] in Q2. cbn [sure] in S2. apply negb_true_iff in S2.
           assert (Uy : g_var g y <> TUndefined) by (intros Z; rewrite Z in Q2; discriminate).
           destruct (M y S2 Uy) as (v & Hv & K). apply (compatible_fits sig _ _ v Q2 Sr) in K. inversion K; subst; try discriminate.
           cbn [eval]. rewrite Hv. cbn [after holds fst snd]. exists tf. split; [exact A|]. apply (ty_eqb_fits sig tf OPAQUE _ Q1). apply opaque_bytes.
        -- apply app_nil_inv in Er as [Er1 Er2].
           eapply holds_after; [apply (H names g st T M S2 Er1 (expected_defined _ _ Er2))|]. intros v [K _]. cbn [holds fst snd]. exists tf. split; [exact A|].
           destruct (expect_ok _ _ Er2) as [_ [X|C]]; [subst tf; discriminate Sf|]. apply (compatible_fits sig _ _ v C Sf) in K.
           destruct v; try exact K. inversion K; subst; try discriminate. now elim (Nm t0 c0 ts rs0).
    + intros vs F. destruct (w_full w (map snd vs)); [exact Logic.I|]. cbn [holds]. apply ok_const; [reflexivity|].
      intros g0 (_ & _ & _ & A). cbn [new_type]. rewrite A, G. econstructor; [exact W|exact F].
  - (* SBind *) cbn [eval sure subexpr_errors] in *. apply andb_true_iff in S as [S1 S2].
    apply app_nil_inv in E as [E1 E]. apply app_nil_inv in E as [E2 E3].
    eapply holds_after with (P := fun vs => Forall2 (fun p q => fst p = fst q /\ fits sig (type_of g (snd p)) (snd q) /\ type_of g (snd p) <> TUndefined) data vs).
    + apply holds_each. apply flat_map_nil in E1. rewrite forallb_forall in S1. rewrite Forall_forall in *. intros [k d] Hd.
      specialize (H _ Hd). specialize (E1 _ Hd). specialize (S1 _ Hd). cbn in *. apply app_nil_inv in E1 as [E4 E5]. apply andb_true_iff in S1 as [_ S1].
      eapply holds_after; [apply (H names g st T M S1 E4 (checked_defined _ _ E5))|]. intros v [K _]. cbn. split; [reflexivity|]. split; [exact K|exact (checked_defined _ _ E5)].
    + intros vs F. cbv zeta in E2, E3.
      assert (Tb : typed (bound_all g (map (fun p => match p with (k, d) => (k, type_of g d) end) data))).
      { apply typed_bound_all; [exact T|]. rewrite Forall_map. apply Forall_forall. intros [k d] _. cbn. now apply type_of_wf. }
      eapply holds_impl; [|apply (IHe _ _ _ Tb (models_bound_all names g st data (type_of g) vs M F) S2 E2 (checked_defined _ _ E3))].
      intros v [K1 K2]. split; [exact K1|]. intros g0 W. cbn [new_type]. apply K2. apply within_bound_all; [exact W|].
      rewrite Forall_map. rewrite forallb_forall in S1. apply Forall_forall. intros [k d] Hd. specialize (S1 _ Hd). cbn in *. now apply andb_true_iff in S1 as [S1 _].
Qed.
End Sound.
