(** C52 for statements, declarations and whole sessions. *)
From Coq Require Import String List ZArith Bool Arith Lia.
From Verif Require Import Base Expr Typing ExprType SessionType SessionEval SessionTypeFacts SessionSound.
Import ListNotations.
Local Open Scope string_scope.
Local Open Scope list_scope.

(** ** the sessions the theorem is about *)

Definition sure_stmt (names : string -> bool) (g : tenv) (a : stmt) : bool :=
  negb (names (stmt_id a))
  && match a with
     | Reset _ => true
     | Assignment _ e | Append _ e | Extend _ e | Read _ e | Write _ e => sure names g e
     end.
Definition sure_decl (names : string -> bool) (g : tenv) (d : sdecl) : bool :=
  match d with
  | DVar _ _ (Some e) => sure names g e
  | DRenaming _ _ p _ => direct p && sure names g p
  | _ => true
  end.
(** the name of a declaration is no literal and no name of a type *)
Fixpoint sure_decls (names : string -> bool) (package : string) (lits : list (string * ty)) (types : list mtype) (vis : visible) (ds : list sdecl) : bool :=
  match ds with
  | [] => true
  | d :: r =>
    negb (has (d_id d) lits) && sure_decl names (typify types lits vis) d
    && (let '(_, types', i) := declare package lits types vis d in sure_decls names package lits types' ((d_id d, i) :: vis) r)
  end.
(** names which have a type, but no value: types and functions *)
Definition is_function (x : string) (d : sdecl) : bool := match d with DFunction f _ _ => String.eqb f x | _ => false end.
Definition no_value (s : session) (x : string) : bool :=
  negb (has x (rev (enum_literals (se_types s) (se_package s)))) && (has x (rev (type_literals (se_types s))) || existsb (is_function x) (globals s)).
(** what a state declares: variables and renamings (specification/parser.py:662-668) *)
Definition is_local (d : sdecl) : bool := match d with DVar _ _ _ | DRenaming _ _ _ _ => true | _ => false end.
Definition sure_state (s : session) (lits : list (string * ty)) (types : list mtype) (vis : visible) (q : sstate) : bool :=
  let names := no_value s in
  let '(_, types', vis') := declarations (se_package s) lits types vis (dict [] (st_declarations q)) in
  forallb is_local (dict [] (st_declarations q))
  && sure_decls names (se_package s) lits types vis (dict [] (st_declarations q))
  && forallb (sure_stmt names (typify types' lits vis')) (st_actions q)
  && forallb (fun t => sure names (typify types' lits vis') (snd t)) (st_transitions q)
  && match st_exception q with Some t => existsb (String.eqb t) (map st_id (se_states s)) | None => true end.
Definition sure_session (s : session) : bool :=
  let lits := literals (se_types s) (se_package s) in
  let '(_, types, vis) := declarations (se_package s) lits (se_types s) [] (globals s) in
  sure_decls (no_value s) (se_package s) lits (se_types s) [] (globals s)
  && forallb (sure_state s lits types vis) (se_states s).

Section Run.
Variable sig : signature.
Variable w : world.
Variable start : string -> value.

Lemma expression_value names g st e t : regular sig w -> typed sig w g -> models sig names g st -> sure names g e = true ->
  check_expr g e t = [] -> param t = true -> holds (fits sig t) (eval w st e).
Proof.
  intros R T M S C P. unfold check_expr in C. apply app_eq_nil in C as [C1 C2].
  eapply holds_impl; [|apply (expression_sound sig w R e names g st T M S C1 (expected_defined _ _ C2))].
  intros v [K _]. now apply (expected_fits sig _ t v C2 P).
Qed.

Definition fine (received : string -> option (list (string * value))) : Prop :=
  forall n types fs, sig n = Some types -> received n = Some fs -> Forall (fun p => exists t, assoc (fst p) types = Some t /\ fits sig t (snd p)) fs.

(** *** statements *)
Lemma models_upd names g st x v : models sig names g st -> fits sig (g_var g x) v -> models sig names g (upd st x v).
Proof.
  intros M K y Hy U. unfold upd. destruct (String.eqb y x) eqn:E; [apply String.eqb_eq in E as ->; eauto|now apply M].
Qed.
Lemma statement_sound names g st received a t :
  regular sig w -> typed sig w g -> models sig names g st -> fine received -> sure_stmt names g a = true ->
  g_var g (stmt_id a) = t -> param t = true -> stmt_errors t g a = [] -> holds (models sig names g) (exec w received st a).
Proof.
  intros R T M F S G P E. unfold sure_stmt in S. apply andb_true_iff in S as [Sx S]. apply negb_true_iff in Sx.
  assert (Look : t <> TUndefined -> exists v, st (stmt_id a) = Some v /\ fits sig t v) by (intros U; rewrite <- G in *; now apply M).
  assert (Arr : check_type_instance t [CArray] = [] -> exists n e, t = TArray n e).
  { intros C. destruct (instance_ok _ _ C) as [_ [->|I]]; [discriminate P|]. destruct t; try discriminate I; eauto. }
  assert (Chan : forall r wr, expect t (TChannel r wr) = [] -> t <> TUndefined -> exists r' wr', st (stmt_id a) = Some (VChannel r' wr') /\ (r = true -> r' = true) /\ (wr = true -> wr' = true)).
  { intros r wr C U. destruct (Look U) as (v & Hv & K). apply (expected_fits sig _ (TChannel r wr) v C eq_refl) in K. inversion K; subst; [discriminate|]. rewrite Hv. repeat eexists; auto. }
  pose proof (t_var sig w g T (stmt_id a)) as W. rewrite G in W.
  destruct a as [x e|x e|x e|x|x e|x e]; cbn [exec stmt_id stmt_errors] in *.
  - apply app_eq_nil in E as [E1 E2]. eapply holds_after; [apply (expression_value names g st e t); assumption|]. intros v K.
    destruct (Look (checked_defined _ _ E1)) as (u & -> & _). cbn [holds]. apply models_upd; [exact M|now rewrite G].
  - apply app_eq_nil in E as [E1 E2]. destruct (Arr E1) as (n & el & ->). apply app_eq_nil in E2 as [E2 _].
    destruct (Look ltac:(discriminate)) as (u & Hu & Ku). inversion Ku; subst; [discriminate|]. rewrite Hu. cbn in W.
    assert (Pe : param el = true) by (destruct W as [W _]; destruct el; try discriminate W; exact W).
    eapply holds_after; [apply (expression_value names g st e el); assumption|]. intros v K. destruct (w_full w _); [exact Logic.I|]. cbn [holds].
    apply models_upd; [exact M|]. rewrite G. constructor. apply Forall_app. split; [assumption|now repeat constructor].
  - apply app_eq_nil in E as [E1 E2]. destruct (Arr E1) as (n & el & ->).
    destruct (Look ltac:(discriminate)) as (u & Hu & Ku). inversion Ku; subst; [discriminate|]. rewrite Hu.
    eapply holds_after; [apply (expression_value names g st e (TArray n el)); assumption|]. intros v K. inversion K; subst; [discriminate|]. cbn [to_seq after].
    destruct (w_full w _); [exact Logic.I|]. cbn [holds]. apply models_upd; [exact M|]. rewrite G. constructor. apply Forall_app. now split.
  - destruct (Look (checked_defined _ _ E)) as (u & -> & K). destruct (instance_ok _ _ E) as [_ [->|I]]; [discriminate P|].
    destruct t; try discriminate I; inversion K; subst; try discriminate; cbn [holds]; (apply models_upd; [exact M|]); rewrite <- G in *.
    + rewrite G. repeat constructor.
    + rewrite G. econstructor; [eassumption|constructor].
  - apply app_eq_nil in E as [E1 E2]. unfold check_instance in E2. apply app_eq_nil in E2 as [E2 E3].
    destruct (Chan _ _ E1 (expected_defined _ _ E1)) as (r' & w' & -> & Hr & _). rewrite (Hr eq_refl).
    eapply holds_after; [apply (expression_sound sig w R e names g st T M S E2 (checked_defined _ _ E3))|]. intros v [K _].
    destruct (checked_message sig _ _ E3 K) as (n & fs & c & ts & rs & Ht & ->). rewrite Ht in K. inversion K; subst.
    destruct (received n) as [fs'|] eqn:Rc; [|exact M]. destruct e; try exact M. cbn [holds]. apply models_upd; [exact M|]. cbn [type_of new_type] in Ht. rewrite Ht.
    econstructor; [eassumption|]. eapply F; eassumption.
  - apply app_eq_nil in E as [E1 E2]. unfold check_instance in E2. apply app_eq_nil in E2 as [E2 E3].
    destruct (Chan _ _ E1 (expected_defined _ _ E1)) as (r' & w' & -> & _ & Hw). rewrite (Hw eq_refl). destruct r';
    (eapply holds_after; [apply (expression_sound sig w R e names g st T M S E2 (checked_defined _ _ E3))|]; intros v [K _];
     destruct (checked_message sig _ _ E3 K) as (n & fs & c & ts & rs & Ht & ->); exact M).
Qed.

(** *** declarations *)
Variable s : session.
Notation pkg := (se_package s).
Notation lits := (literals (se_types s) (se_package s)).

(** the types of a session: a type identifier of a message denotes the message, types of
    fields and elements are declared types, refinements are between messages *)
Definition type_ok (m : mtype) : Prop :=
  match mt_kind m with
  | KEnum _ _ => True
  | KMessage n _ ts => sig n = Some ts /\ w_message w (mt_id m) = n
  | KRefinement _ _ sdu _ t =>
    (exists n c ts rs, t = TMessage n c ts rs) /\ exists m' n c ts, find_type (se_types s) sdu = Some m' /\ mt_kind m' = KMessage n c ts
  | KOther t => solid t = true /\ wf sig t /\ (forall n c ts rs, t <> TMessage n c ts rs)
  end.
(** the type an identifier denotes after all global declarations *)
Definition final_types : list mtype := snd (fst (declarations pkg lits (se_types s) [] (globals s))).
Definition type_named (id : string) : ty := match find_type final_types (qualified pkg id) with Some m => mt_type m | None => TAny end.
Record consistent (st : store) : Prop := mkConsistent {
  k_regular : regular sig w;
  k_types : Forall type_ok (se_types s);
  k_available : forall wr, holds (fits sig BOOLEAN) (w_call w "data_available" [VChannel true wr]);
  k_functions : forall f args ret vs, In (DFunction f args ret) (globals s) ->
    Forall2 (fits sig) (map type_named args) vs -> holds (fits sig (type_named ret)) (w_call w f vs);
  k_start : forall id m, find_type final_types (qualified pkg id) = Some m -> fits sig (mt_type m) (start id);
  k_literals : forall x t, assoc x (rev (enum_literals (se_types s) pkg)) = Some t -> exists v, st x = Some v /\ fits sig t v
}.

Definition refs_ok (t : ty) : Prop :=
  match t with TMessage _ _ _ rs => Forall (fun r => exists n c ts rs', snd r = TMessage n c ts rs') rs | _ => True end.
Definition types_ok (types : list mtype) : Prop := Forall type_ok types /\ exists l, types = se_types s ++ l.
Definition info_ok (x : string) (i : info) : Prop :=
  has x lits = false
  /\ (forall t, i_type i = Some t -> param t = true /\ wf sig t /\ refs_ok t)
  /\ (forall t args, i = mkInfo (Some t) (Some args) ->
        Forall (fun a => param a = true) args /\ forall vs, Forall2 (fits sig) args vs -> holds (fits sig t) (w_call w x vs)).
Definition vis_ok (vis : visible) : Prop := forall x i, assoc x vis = Some i -> info_ok x i.

Lemma find_type_In types id m : find_type types id = Some m -> In m types /\ mt_id m = id.
Proof. intros H. apply find_some in H as [H1 H2]. split; [exact H1|now apply String.eqb_eq]. Qed.
Lemma find_type_app types l id m : find_type types id = Some m -> find_type (types ++ l) id = Some m.
Proof. unfold find_type. induction types as [|a types IH]; [discriminate|]. cbn. destruct (String.eqb (mt_id a) id); auto. Qed.
Lemma type_ok_type m : type_ok m -> param (mt_type m) = true /\ wf sig (mt_type m) /\ refs_ok (mt_type m).
Proof.
  unfold type_ok, mt_type. destruct (mt_kind m) as [n l|n c ts|p f u pt t|t]; cbn.
  - auto.
  - intros [H _]. repeat split; auto.
  - auto.
  - intros (H1 & H2 & H3). repeat split; auto; destruct t; try discriminate H1; try reflexivity; try exact Logic.I; try exact H1. now elim (H3 name combinations types refinements).
Qed.
Lemma refinements_ok types id : Forall type_ok types -> Forall (fun r => exists n c ts rs', snd r = TMessage n c ts rs') (refinements types id).
Proof.
  intros F. apply Forall_forall. intros [f t] H. unfold refinements in H. apply in_flat_map in H as (m & Hm & H).
  rewrite Forall_forall in F. specialize (F m Hm). unfold type_ok in F. destruct (mt_kind m); try now elim H. destruct (String.eqb pdu id); [|now elim H].
  destruct H as [[= <- <-]|[]]. apply F.
Qed.
Lemma refined_ok types id m : Forall type_ok types -> type_ok m ->
  param (refined_type types m id) = true /\ wf sig (refined_type types m id) /\ refs_ok (refined_type types m id)
  /\ (forall v, fits sig (refined_type types m id) v <-> fits sig (mt_type m) v).
Proof.
  intros F H. pose proof (type_ok_type m H) as (A & B & C). unfold refined_type. destruct (mt_kind m) as [n l|n c ts|p f u pt t|t] eqn:K; try (repeat split; tauto).
  unfold mt_type in *. rewrite K in *. cbn in *. repeat split; auto.
  - now apply refinements_ok.
  - intros V; inversion V; subst; try discriminate. econstructor; eassumption.
  - intros V; inversion V; subst; try discriminate. econstructor; eassumption.
Qed.
Lemma literal_ok types x t : Forall type_ok types -> assoc x (literals types pkg) = Some t -> wf sig t /\ refs_ok t.
Proof.
  intros F H. apply assoc_In in H. unfold literals in H. rewrite Forall_forall in F. apply in_app_iff in H as [H|H]; apply in_rev in H.
  - unfold enum_literals in H. apply in_flat_map in H as (m & Hm & H). destruct (mt_kind m) eqn:K; try now elim H.
    apply in_flat_map in H as (l & _ & H). pose proof (type_ok_type m (F m Hm)) as (_ & A & B).
    apply in_app_iff in H as [H|H].
    + destruct (_ || _); [|now elim H]. destruct H as [[= _ <-]|[]]. now split.
    + destruct (String.eqb _ _); [now elim H|]. destruct H as [[= _ <-]|[]]. now split.
  - unfold type_literals in H. apply in_map_iff in H as (m & [= _ <-] & Hm). now apply type_ok_type, F.
Qed.

Lemma typed_session st types vis : consistent st -> types_ok types -> vis_ok vis -> typed sig w (typify types lits vis).
Proof.
  intros K [F [l ->]] V. split.
  - intros x. cbn. destruct (assoc x lits) as [t|] eqn:E; [now apply (literal_ok _ _ _ (k_types _ K) E)|].
    destruct (assoc x vis) as [[[t|] a]|] eqn:G; try exact Logic.I. now apply (V x _ G).
  - intros f t args G U. cbn in G. destruct (String.eqb f "data_available") eqn:D.
    + injection G as <- <-. split; [exact Logic.I|]. split; [repeat constructor|]. apply String.eqb_eq in D as ->. intros vs H.
      inversion H; subst. inversion H4; subst. inversion H2; subst; [discriminate|]. rewrite (H3 eq_refl). apply (k_available _ K).
    + destruct (assoc f vis) as [[[t'|] [a|]]|] eqn:A; try (injection G as <- <-; congruence). injection G as <- <-.
      destruct (V f _ A) as (_ & V1 & V2). destruct (V1 t' eq_refl) as (_ & W & _). destruct (V2 t' a eq_refl) as [P C]. auto.
  - intros i t ts G U. cbn in G. destruct (find_type (se_types s ++ l) i) as [m|] eqn:Q; [|injection G as <- <-; congruence]. injection G as <- <-.
    destruct (find_type_In _ _ _ Q) as [Hm Hid]. rewrite Forall_forall in F. pose proof (F m Hm) as Tm. pose proof (type_ok_type m Tm) as (_ & W & _). split; [exact W|].
    intros N. destruct (flat_map _ _) as [|p ps] eqn:Fm; [congruence|]. assert (Hp : In p (p :: ps)) by now left. rewrite <- Fm in Hp.
    apply in_flat_map in Hp as (r & Hr & Hp). specialize (F r Hr). unfold type_ok in F. destruct (mt_kind r) as [| |p0 f u pt t0|]; try now elim Hp.
    destruct (String.eqb u i) eqn:Ei; [|now elim Hp]. apply String.eqb_eq in Ei as ->. destruct F as (_ & m' & n & c & ts & Q' & Km).
    rewrite (find_type_app _ l _ _ Q') in Q. injection Q as ->. unfold mt_type, type_ok in *. rewrite Km in *. destruct Tm as [_ Tm]. rewrite Hid in Tm. rewrite Tm. eauto.
  - intros i U. cbn in *. destruct (find_type (se_types s ++ l) i) as [m|] eqn:Q; [|congruence].
    destruct (find_type_In _ _ _ Q) as [Hm Hid]. assert (F' := F). rewrite Forall_forall in F. pose proof (F m Hm) as Tm.
    destruct (mt_kind m) eqn:Km; try congruence. pose proof (refined_ok (se_types s ++ l) i m F' Tm) as (_ & W & Rf & _). split; [exact W|].
    unfold refined_type in *. rewrite Km in *. unfold type_ok in Tm. rewrite Km in Tm. destruct Tm as [_ Tm]. rewrite Hid in Tm. rewrite Tm.
    exists combinations, types, (refinements (se_types s ++ l) i). split; [reflexivity|]. eapply Forall_impl; [|exact Rf].
    intros r (n & c & ts & rs & ->). split; [reflexivity|]. eauto.
Qed.

Lemma direct_refs types vis p n c ts rs : Forall type_ok (se_types s) -> types_ok types -> vis_ok vis -> direct p = true ->
  new_type (typify types lits vis) p = TMessage n c ts rs -> Forall (fun r => exists n c ts rs', snd r = TMessage n c ts rs') rs.
Proof.
  intros F0 [F _] V D H. destruct p; try discriminate D; cbn in H.
  - assert (Q : refs_ok (TMessage n c ts rs)); [|exact Q]. rewrite <- H. destruct (assoc x lits) as [t|] eqn:E; [now apply (literal_ok _ _ _ F0 E)|].
    destruct (assoc x vis) as [[[t|] a]|] eqn:G; try exact Logic.I. now apply (V x _ G).
  - destruct (String.eqb f "data_available"); [discriminate|]. destruct (assoc f vis) as [[[t'|] [a|]]|] eqn:A; try discriminate. cbn in H. subst t'.
    destruct (V f _ A) as (_ & V1 & _). now apply (V1 _ eq_refl).
  - destruct (find_type types t) as [m|] eqn:Q; [|discriminate]. cbn in H. destruct (find_type_In _ _ _ Q) as [Hm _]. rewrite Forall_forall in F.
    pose proof (type_ok_type m (F m Hm)) as (_ & _ & R). now rewrite H in R.
  - destruct (find_type types t) as [m|] eqn:Q; [|discriminate]. destruct (find_type_In _ _ _ Q) as [Hm _]. assert (F' := F). rewrite Forall_forall in F.
    destruct (mt_kind m) eqn:Km; try discriminate. pose proof (refined_ok types t m F' (F m Hm)) as (_ & _ & R & _). now rewrite H in R.
Qed.

Lemma models_declared names types types' vis st x i v : has x lits = false -> models sig names (typify types lits vis) st ->
  (forall t, i_type i = Some t -> fits sig t v) -> models sig names (typify types' lits ((x, i) :: vis)) (upd st x v).
Proof.
  intros L M K y Hy U. cbn in *. rewrite assoc_cons in *. unfold upd. destruct (assoc y lits) as [t|] eqn:E.
  - destruct (String.eqb y x) eqn:Q; [apply String.eqb_eq in Q as ->; unfold has in L; rewrite E in L; discriminate|]. 
    specialize (M y Hy). cbn in M. rewrite E in M. now apply M.
  - rewrite (String.eqb_sym y x). destruct (String.eqb x y) eqn:Q.
    + destruct i as [[t|] a]; [|congruence]. exists v. split; [reflexivity|now apply K].
    + specialize (M y Hy). cbn in M. rewrite E in M. now apply M.
Qed.
Lemma models_declared_nothing names types types' vis st x i : has x lits = false -> models sig names (typify types lits vis) st ->
  (names x = true \/ i_type i = None) -> models sig names (typify types' lits ((x, i) :: vis)) st.
Proof.
  intros L M K y Hy U. cbn in *. rewrite assoc_cons in *. destruct (assoc y lits) as [t|] eqn:E.
  - specialize (M y Hy). cbn in M. rewrite E in M. now apply M.
  - destruct (String.eqb x y) eqn:Q.
    + apply String.eqb_eq in Q as ->. destruct K as [K|K]; [congruence|]. destruct i as [[t|] a]; [discriminate K|congruence].
    + specialize (M y Hy). cbn in M. rewrite E in M. now apply M.
Qed.

Lemma find_app {A} (f : A -> bool) a b : find f (a ++ b) = match find f a with Some x => Some x | None => find f b end.
Proof. induction a as [|x a IH]; [reflexivity|]. cbn. now destruct (f x). Qed.
Lemma has_app {A} x (a b : list (string * A)) : has x (a ++ b) = has x a || has x b.
Proof.
  unfold has, assoc. induction a as [|[k v] a IH]; [reflexivity|]. cbn. destruct (String.eqb k x); [reflexivity|exact IH].
Qed.
Lemma function_no_value f args ret : In (DFunction f args ret) (globals s) -> has f lits = false -> no_value s f = true.
Proof.
  intros I L. unfold no_value. unfold literals in L. rewrite has_app in L. apply orb_false_iff in L as [-> _]. cbn [negb andb].
  apply orb_true_iff. right. apply existsb_exists. eexists. split; [exact I|]. apply String.eqb_refl.
Qed.
Lemma named_type types l id m : final_types = types ++ l -> find_type types (qualified pkg id) = Some m -> type_named id = mt_type m.
Proof. intros E H. unfold type_named. now rewrite E, (find_type_app _ l _ _ H). Qed.

Lemma declare_sound st0 types vis st d types' i l :
  consistent st0 -> types_ok types -> vis_ok vis -> models sig (no_value s) (typify types lits vis) st ->
  has (d_id d) lits = false -> sure_decl (no_value s) (typify types lits vis) d = true ->
  (is_local d = true \/ In d (globals s)) -> final_types = types ++ l -> declare pkg lits types vis d = ([], types', i) ->
  types_ok types' /\ info_ok (d_id d) i /\ holds (models sig (no_value s) (typify types' lits ((d_id d, i) :: vis))) (enter w pkg start st d).
Proof.
  intros K Ty V M L S G Fin D. pose proof (typed_session st0 types vis K Ty V) as Tg. pose proof (k_regular _ K) as R.
  assert (Found : forall id e t, (match find_type types (qualified pkg id) with
      | Some m => (decl_errors types lits vis (refined_type types m id) d, refined_type types m id) | None => (["undefined type"], TAny) end) = ([] ++ e, t) -> e = [] ->
      exists m, find_type types (qualified pkg id) = Some m /\ type_ok m /\ t = refined_type types m id /\ decl_errors types lits vis t d = []).
  { intros id e t Q ->. destruct (find_type types (qualified pkg id)) as [m|] eqn:Fm; [|discriminate Q]. injection Q as Q1 Q2. exists m. subst t.
    destruct (find_type_In _ _ _ Fm) as [Hm _]. destruct Ty as [Ft _]. rewrite Forall_forall in Ft. auto. }
  assert (Inf : forall m id, type_ok m -> info_ok (d_id d) (mkInfo (Some (refined_type types m id)) None)).
  { intros m id Tm. destruct Ty as [Ft _]. destruct (refined_ok types id m Ft Tm) as (A & B & C & _). split; [exact L|]. split.
    - cbn. intros t [= <-]. auto.
    - intros t args [=]. }
  destruct d as [x id init|x id p f|f args ret|x r wr|x p]; cbn [declare d_id enter] in *.
  - destruct (match find_type types (qualified pkg id) with Some m => _ | None => _ end) as [es t] eqn:Q. injection D as De Dt Di. subst es types' i.
    destruct (Found id [] t Q eq_refl) as (m & Fm & Tm & Ht & Er). subst t. split; [exact Ty|]. split; [now apply Inf|].
    destruct Ty as [Ft _]. destruct (refined_ok types id m Ft Tm) as (Pt & Wt & _ & Eq).
    destruct init as [e|].
    + cbn [decl_errors] in Er. apply app_eq_nil in Er as [_ Er].
      eapply holds_after; [apply (expression_value (no_value s) _ st e _ R Tg M S Er Pt)|]. intros v Kv. cbn [holds]. apply models_declared with (types := types); auto.
      cbn. intros t [= <-]. exact Kv.
    + cbn [holds]. apply models_declared with (types := types); auto. cbn. intros t [= <-]. apply Eq. apply (k_start _ K). rewrite Fin. now apply find_type_app.
  - destruct (match find_type types (qualified pkg id) with Some m => _ | None => _ end) as [es t] eqn:Q. injection D as De Dt Di. subst es types' i.
    destruct (Found id [] t Q eq_refl) as (m & Fm & Tm & Ht & Er). split; [exact Ty|]. split; [subst t; now apply Inf|].
    cbn [sure_decl] in S. apply andb_true_iff in S as [S1 S2].
    cbn [decl_errors] in Er. apply app_eq_nil in Er as [_ Er].
    destruct (check_instance (typify types lits vis) p [CMessage]) as [|e0 es0] eqn:C; [|discriminate Er]. unfold check_instance in C. apply app_eq_nil in C as [C1 C2].
    eapply holds_after; [apply (expression_sound sig w R p (no_value s) _ st Tg M S2 C1 (checked_defined _ _ C2))|]. intros v [Kv _].
    destruct (checked_message sig _ _ C2 Kv) as (n & fs & c & ts & rs & Hp & ->). rewrite Hp in Er, Kv. apply app_eq_nil in Er as [Er1 Er2].
    assert (Np : type_of (typify types lits vis) p = new_type (typify types lits vis) p) by (destruct p; try discriminate S1; reflexivity). rewrite Np in Hp.
    pose proof (new_type_wf sig w _ Tg p) as Wp. rewrite Hp in Wp. cbn in Wp.
    destruct (assoc f ts) as [ft|] eqn:Af; [|discriminate Er2].
    rewrite (r_names sig w R n ts Wp).
    assert (X : existsb (String.eqb f) (map fst ts) = true).
    { apply existsb_exists. exists f. split; [apply in_map_iff; exists (f, ft); split; [reflexivity|now apply assoc_In]|apply String.eqb_refl]. }
    rewrite X. destruct (assoc f fs) as [b|] eqn:Bf; [|exact Logic.I].
    inversion Kv as [| | | | |? ? ? ? types0 ? Hs Hf| |]; subst n0 c0 ts0 rs0 fs0; try discriminate. rewrite Wp in Hs. injection Hs as <-.
    apply assoc_In in Bf. rewrite Forall_forall in Hf. destruct (Hf _ Bf) as (t' & A' & Kb). cbn in A', Kb. rewrite Af in A'. injection A' as <-.
    apply (expected_fits sig _ OPAQUE b Er2 eq_refl) in Kb. inversion Kb; subst b; [discriminate|]. cbn [to_seq after].
    destruct (existsb _ rs) eqn:Ex; [|discriminate Er1]. apply existsb_exists in Ex as ([rf rt] & Hr & Ex). apply andb_true_iff in Ex as [_ Ex]. cbn [snd] in Ex.
    pose proof (direct_refs types vis p n c ts rs (k_types _ K) Ty V S1 Hp) as Rr. rewrite Forall_forall in Rr. destruct (Rr _ Hr) as (n' & c' & ts' & rs' & Et). cbn in Et. subst rt.
    destruct Ty as [Ft Fl]. destruct (refined_ok types id m Ft Tm) as (Pt & Wt & _ & Eq). rewrite <- Ht in Pt, Wt.
    assert (Hm : exists c ts rs, t = TMessage (w_message w (qualified pkg id)) c ts rs).
    { destruct (find_type_In _ _ _ Fm) as [_ Hid]. rewrite <- Hid. unfold refined_type, mt_type, type_ok in *. destruct (mt_kind m) as [| | |o]; subst t; try discriminate Ex.
      - destruct Tm as [_ ->]. eauto.
      - destruct Tm as (A & _ & B). destruct o as [| | | | | | | | |on oc ot ors| |]; try discriminate. now elim (B on oc ot ors). }
    destruct Hm as (c2 & ts2 & rs2 & Em).
    destruct (w_parse w _ vs) as [fs'|] eqn:Pa; [|exact Logic.I]. cbn [holds]. apply models_declared with (types := types); auto.
    cbn [i_type]. intros t' [= <-]. rewrite Em in *. cbn in Wt. econstructor; [exact Wt|]. now apply (r_parse sig w R _ _ _ _ Wt Pa).
  - destruct (match find_type types (qualified pkg ret) with Some m => _ | None => _ end) as [es t] eqn:Q. injection D as De Dt Di. apply app_eq_nil in De as [De1 De2]. subst es types' i.
    destruct (Found ret [] t Q eq_refl) as (m & Fm & Tm & Ht & Er). destruct G as [G|G]; [discriminate G|].
    assert (Ar : map (fun a => match find_type types (qualified pkg a) with Some m => mt_type m | None => TAny end) args = map type_named args
                 /\ Forall (fun a => param a = true) (map type_named args)).
    { apply flat_map_nil in De2. clear -De2 Fin Ty. induction De2 as [|a args Ha _ [IH1 IH2]]; [split; [reflexivity|constructor]|]. cbn [map].
      destruct (find_type types (qualified pkg a)) as [m|] eqn:Fa; [|discriminate Ha]. rewrite (named_type _ _ _ _ Fin Fa). split; [now f_equal|]. constructor; [|exact IH2].
      destruct (find_type_In _ _ _ Fa) as [Hm _]. destruct Ty as [Ft _]. rewrite Forall_forall in Ft. now apply type_ok_type, Ft. }
    destruct Ar as [Ar Pa]. destruct Ty as [Ft Fl]. destruct (refined_ok types ret m Ft Tm) as (Pt & Wt & Rt & Eq). subst t. split; [now split|]. split.
    + split; [exact L|]. split.
      * cbn. intros t [= <-]. auto.
      * intros t a [= <- <-]. rewrite Ar. split; [exact Pa|]. intros vs F2. pose proof (k_functions _ K f args ret vs G F2) as H.
        rewrite (named_type _ _ _ _ Fin Fm) in H. eapply holds_impl; [|exact H]. intros v. apply Eq.
    + cbn [holds]. apply models_declared_nothing with (types := types); auto. left. now apply (function_no_value f args ret).
  - injection D as Dt Di. subst types' i. split; [exact Ty|]. split.
    + split; [exact L|]. split; [cbn; intros t [= <-]; repeat split|intros t a [=]].
    + cbn [holds]. apply models_declared with (types := types); auto. cbn. intros t [= <-]. now constructor.
  - destruct (find_type types (qualified pkg x)); [discriminate D|]. injection D as Dt Di. subst types' i. split; [|split].
    + destruct Ty as [Ft [l' ->]]. split; [|exists (l' ++ [mkType pkg x (KOther (TPrivate p))]); now rewrite app_assoc].
      apply Forall_app. split; [exact Ft|]. repeat constructor. discriminate.
    + split; [exact L|]. split; [intros t [=]|intros t a [=]].
    + cbn [holds]. apply models_declared_nothing with (types := types); auto.
Qed.

Lemma declare_types d types vis es types' i : declare pkg lits types vis d = (es, types', i) -> exists l, types' = types ++ l.
Proof.
  intros H. destruct d; cbn [declare] in H; try (destruct (match find_type types _ with Some _ => _ | None => _ end) as [e t]; injection H as _ <- _; exists []; now rewrite app_nil_r).
  - injection H as _ <- _. exists []. now rewrite app_nil_r.
  - injection H as _ <- _. eauto.
Qed.
Lemma declarations_types ds : forall types vis es types' vis', declarations pkg lits types vis ds = (es, types', vis') -> exists l, types' = types ++ l.
Proof.
  induction ds as [|d ds IH]; intros types vis es types' vis' H; cbn [declarations] in H.
  - injection H as _ <- _. exists []. now rewrite app_nil_r.
  - destruct (declare pkg lits types vis d) as [[e1 t1] i] eqn:D. destruct (declarations pkg lits t1 ((d_id d, i) :: vis) ds) as [[e2 t2] v2] eqn:E. injection H as _ <- _.
    destruct (declare_types _ _ _ _ _ _ D) as [l1 ->]. destruct (IH _ _ _ _ _ E) as [l2 ->]. exists (l1 ++ l2). now rewrite app_assoc.
Qed.
Lemma local_types ds : forall types vis es types' vis', forallb is_local ds = true -> declarations pkg lits types vis ds = (es, types', vis') -> types' = types.
Proof.
  induction ds as [|d ds IH]; intros types vis es types' vis' Hl H; cbn [declarations] in H.
  - now injection H as _ <- _.
  - cbn [forallb] in Hl. apply andb_true_iff in Hl as [L1 L2]. destruct (declare pkg lits types vis d) as [[e1 t1] i] eqn:D. destruct (declarations pkg lits t1 ((d_id d, i) :: vis) ds) as [[e2 t2] v2] eqn:E. injection H as _ <- _.
    apply IH in E; [|exact L2]. subst t2. destruct d; try discriminate L1; cbn [declare] in D; destruct (match find_type types _ with Some _ => _ | None => _ end); now injection D as _ <- _.
Qed.

(** *** runs *)
Definition final_visible : visible := snd (declarations pkg lits (se_types s) [] (globals s)).
Notation names := (no_value s).
Notation T := final_types.
Notation V := final_visible.

Definition good_actions (vis : visible) (ss : list stmt) : Prop :=
  flat_map (action_errors T lits vis) ss = [] /\ forallb (sure_stmt names (typify T lits vis)) ss = true.
Definition good_transitions (vis : visible) (ts : list (string * sx)) : Prop :=
  Forall (fun t => check_expr (typify T lits vis) (snd t) BOOLEAN = [] /\ sure names (typify T lits vis) (snd t) = true
                   /\ In (fst t) (map st_id (se_states s))) ts.
Definition extends (vis vis' : visible) : Prop := forall y i, assoc y vis' = Some i -> assoc y vis = Some i.
Definition inv (c : config) : Prop :=
  match c_state c with
  | None => exists ds types vis, c_phase c = Entering ds /\ types_ok types /\ vis_ok vis /\ models sig names (typify types lits vis) (c_store c)
      /\ sure_decls names pkg lits types vis ds = true /\ declarations pkg lits types vis ds = ([], T, V) /\ incl ds (globals s)
  | Some q => In q (se_states s) /\ types_ok T /\ vis_ok V /\
      exists vis, vis_ok vis /\ extends vis V /\ models sig names (typify T lits vis) (c_store c) /\
      match c_phase c with
      | Entering ds => forallb is_local ds = true /\ sure_decls names pkg lits T vis ds = true
          /\ exists vis', declarations pkg lits T vis ds = ([], T, vis') /\ good_actions vis' (st_actions q) /\ good_transitions vis' (st_transitions q)
      | Acting ss => good_actions vis ss /\ good_transitions vis (st_transitions q)
      | Deciding ts => good_transitions vis ts
      end
  end.

Hypothesis Acc : session_errors s = [].
Hypothesis Sure : sure_session s = true.

Lemma accepted_globals : declarations pkg lits (se_types s) [] (globals s) = ([], T, V).
Proof.
  unfold final_types, final_visible. unfold session_errors in Acc. destruct (declarations pkg lits (se_types s) [] (globals s)) as [[es t] v].
  apply app_eq_nil in Acc as [_ A]. apply app_eq_nil in A as [-> _]. reflexivity.
Qed.
Lemma accepted_state q : In q (se_states s) -> state_errors pkg lits T V q = [] /\ sure_state s lits T V q = true.
Proof.
  intros Hq. pose proof accepted_globals as G. unfold session_errors in Acc. unfold sure_session in Sure. rewrite G in Acc, Sure.
  apply app_eq_nil in Acc as [_ A]. apply app_eq_nil in A as [_ A]. apply flat_map_nil in A. rewrite Forall_forall in A.
  apply andb_true_iff in Sure as [_ S]. rewrite forallb_forall in S. auto.
Qed.
Lemma in_states x : existsb (String.eqb x) (map st_id (se_states s)) = true <-> In x (map st_id (se_states s)).
Proof.
  rewrite existsb_exists. split; [intros (y & Hy & E); apply String.eqb_eq in E as ->; exact Hy|].
  intros H. exists x. split; [exact H|apply String.eqb_refl].
Qed.
Lemma accepted_existence : In (se_initial s) (map st_id (se_states s)) /\
  forall q t, In q (se_states s) -> In t (st_transitions q) -> In (fst t) (map st_id (se_states s)).
Proof.
  pose proof accepted_globals as G. unfold session_errors in Acc. rewrite G in Acc.
  apply app_eq_nil in Acc as [A _]. unfold existence_errors in A. apply app_eq_nil in A as [A1 A]. apply app_eq_nil in A as [_ A3]. split.
  - destruct (existsb (String.eqb (se_initial s)) (map st_id (se_states s))) eqn:E; [now apply in_states|discriminate].
  - intros q t Hq Ht. apply flat_map_nil in A3. rewrite Forall_forall in A3. specialize (A3 q Hq). apply flat_map_nil in A3. rewrite Forall_forall in A3. specialize (A3 t Ht).
    destruct (existsb (String.eqb (fst t)) (map st_id (se_states s))) eqn:E; [now apply in_states|discriminate].
Qed.

Lemma models_less types vis vis' st : extends vis vis' -> models sig names (typify types lits vis) st -> models sig names (typify types lits vis') st.
Proof.
  intros X M y Hy U. cbn in *. specialize (M y Hy). cbn in M. destruct (assoc y lits); [now apply M|].
  destruct (assoc y vis') as [i|] eqn:E; [|congruence]. rewrite (X _ _ E) in M. now apply M.
Qed.
Lemma goto_sound x st vis : types_ok T -> vis_ok V -> extends vis V -> models sig names (typify T lits vis) st -> In x (map st_id (se_states s)) ->
  exists c, goto s x st = Next c /\ inv c.
Proof.
  intros Ty Vo X M I. unfold goto. destruct (find (fun q => String.eqb (st_id q) x) (se_states s)) as [q|] eqn:F.
  - apply find_some in F as [Hq _]. eexists. split; [reflexivity|]. unfold inv. cbn [c_state c_phase c_store]. split; [exact Hq|]. split; [exact Ty|]. split; [exact Vo|].
    exists V. split; [exact Vo|]. split; [intros y i H; exact H|]. split; [now apply models_less with (vis := vis)|].
    destruct (accepted_state q Hq) as [E S]. unfold state_errors in E. unfold sure_state in S.
    destruct (declarations pkg lits T V (dict [] (st_declarations q))) as [[es T'] V'] eqn:D.
    apply andb_true_iff in S as [S S5]. apply andb_true_iff in S as [S S4]. apply andb_true_iff in S as [S S3]. apply andb_true_iff in S as [S1 S2].
    apply app_eq_nil in E as [E1 E]. apply app_eq_nil in E as [E2 E3]. subst es. pose proof (local_types _ _ _ _ _ _ S1 D) as ->.
    split; [exact S1|]. split; [exact S2|]. exists V'. split; [reflexivity|]. split; [now split|].
    unfold transition_errors in E3. apply app_eq_nil in E3 as [E3 _]. apply flat_map_nil in E3. rewrite forallb_forall in S4. unfold good_transitions. rewrite Forall_forall in *.
    intros t Ht. specialize (E3 t Ht). apply app_eq_nil in E3 as [_ E3]. split; [exact E3|]. split; [now apply S4|]. now apply (proj2 accepted_existence q t).
  - exfalso. apply in_map_iff in I as (q & Hq & I). apply find_none with (x := q) in F; [|exact I]. rewrite Hq, String.eqb_refl in F. discriminate.
Qed.
Lemma exception_sound q ph st vis : In q (se_states s) -> types_ok T -> vis_ok V -> extends vis V -> models sig names (typify T lits vis) st ->
  match exception s (mkConfig (Some q) ph st) with Next c => inv c | Fault => False | _ => True end.
Proof.
  intros Hq Ty Vo X M. unfold exception. cbn [c_state c_store]. destruct (st_exception q) as [t|] eqn:E; [|exact Logic.I].
  destruct (accepted_state q Hq) as [_ S]. unfold sure_state in S. destruct (declarations pkg lits T V (dict [] (st_declarations q))) as [[es T'] V'].
  apply andb_true_iff in S as [_ S]. rewrite E in S. apply in_states in S.
  destruct (goto_sound t st vis Ty Vo X M S) as (c & -> & I). exact I.
Qed.

Lemma step_sound st0 received c : consistent st0 -> fine received -> inv c ->
  match step w start s received c with Next c' => inv c' | Fault => False | _ => True end.
Proof.
  intros K Fi I. pose proof (k_regular _ K) as R. destruct c as [[q|] ph st]; unfold inv in I; cbn [c_state c_phase c_store] in I.
  - destruct I as (Hq & Ty & Vo & vis & Vi & X & M & I). pose proof (typed_session st0 T vis K Ty Vi) as Tg.
    unfold step. cbn [c_state c_phase c_store]. destruct ph as [[|d ds]|[|a ss]|[|[t e] ts]].
    + destruct I as (_ & _ & vis' & D & A & Tr). cbn in D. injection D as <-. unfold inv. cbn [c_state c_phase c_store]. repeat (split; [assumption|]). exists vis. tauto.
    + destruct I as (Lo & Su & vis' & D & A & Tr). cbn [forallb] in Lo. apply andb_true_iff in Lo as [L1 L2]. cbn [sure_decls] in Su. cbn [declarations] in D.
      destruct (declare pkg lits T vis d) as [[e1 t1] i] eqn:De. destruct (declarations pkg lits t1 ((d_id d, i) :: vis) ds) as [[e2 t2] v2] eqn:Ds.
      apply andb_true_iff in Su as [Su S3]. apply andb_true_iff in Su as [S1 S2]. apply negb_true_iff in S1. injection D as D1 D2 D3. subst t2 v2.
      apply app_eq_nil in D1 as [D0 D1]. apply app_eq_nil in D0 as [_ D0]. apply app_eq_nil in D1 as [-> ->].
      assert (t1 = T) as -> by (destruct d; try discriminate L1; cbn [declare] in De; destruct (match find_type T _ with Some _ => _ | None => _ end); now injection De as _ <- _).
      destruct (declare_sound st0 T vis st d T i [] K Ty Vi M S1 S2 (or_introl L1) (eq_sym (app_nil_r _)) De) as (_ & Io & H).
      destruct (enter w pkg start st d) as [st'| |]; cbn [holds] in H; [|now apply exception_sound with (vis := vis)|exact H].
      unfold inv. cbn [c_state c_phase c_store]. repeat (split; [assumption|]). exists ((d_id d, i) :: vis). split; [|split; [|split; [exact H|]]].
      * intros y j. rewrite assoc_cons. destruct (String.eqb (d_id d) y) eqn:E; [|now apply Vi]. apply String.eqb_eq in E as <-. now intros [= <-].
      * intros y j Hy. rewrite assoc_cons. destruct (String.eqb (d_id d) y) eqn:E; [|now apply X]. apply String.eqb_eq in E as <-. apply X in Hy. unfold has in D0. rewrite Hy in D0. discriminate.
      * split; [exact L2|]. split; [exact S3|]. exists vis'. auto.
    + destruct I as [_ Tr]. unfold inv. cbn [c_state c_phase c_store]. repeat (split; [assumption|]). exists vis. tauto.
    + destruct I as [[A1 A2] Tr]. cbn [flat_map] in A1. cbn [forallb] in A2. apply app_eq_nil in A1 as [A1 A3]. apply andb_true_iff in A2 as [A2 A4].
      assert (H : holds (models sig names (typify T lits vis)) (exec w received st a)).
      { unfold action_errors in A1. destruct (assoc (stmt_id a) vis) as [i|] eqn:E.
        - destruct (Vi _ _ E) as (Hl & Ht & _). destruct i as [[t|] ar]; cbn [i_type] in *; [|discriminate A1]. destruct (Ht t eq_refl) as (Pt & _ & _).
          apply app_eq_nil in A1 as [_ A1]. apply (statement_sound names (typify T lits vis) st received a t); auto.
          cbn. unfold has in Hl. destruct (assoc (stmt_id a) lits); [discriminate Hl|]. now rewrite E.
        - apply app_eq_nil in A1 as [_ A1]. exfalso. destruct a; cbn [stmt_errors check_type_instance expect check_type] in A1; discriminate A1. }
      destruct (exec w received st a) as [st'| |]; cbn [holds] in H; [|now apply exception_sound with (vis := vis)|exact H].
      unfold inv. cbn [c_state c_phase c_store]. repeat (split; [assumption|]). exists vis. repeat (split; [assumption|]). split; [now split|exact Tr].
    + exact Logic.I.
    + inversion I as [|? ? [C [S It]] Ir]; subst. cbn [fst snd] in *.
      assert (H : holds (fun _ => True) (do v <- eval w st e ;; to_bool v)).
      { eapply holds_after; [apply (expression_value names _ st e BOOLEAN R Tg M S C eq_refl)|]. intros v Kv. destruct (bool_fits sig v Kv) as [b ->]. exact Logic.I. }
      destruct (do v <- eval w st e ;; to_bool v) as [[|]| |].
      * destruct (goto_sound t st vis Ty Vo X M It) as (c & -> & Ic). exact Ic.
      * unfold inv. cbn [c_state c_phase c_store]. repeat (split; [assumption|]). exists vis. auto.
      * now apply exception_sound with (vis := vis).
      * exact H.
  - destruct I as (ds & types & vis & -> & Ty & Vi & M & Su & D & In_). unfold step. cbn [c_state c_phase c_store]. destruct ds as [|d ds].
    + cbn in D. injection D as -> ->. destruct (goto_sound (se_initial s) st V Ty Vi (fun y i H => H) M (proj1 accepted_existence)) as (c & -> & Ic). exact Ic.
    + cbn [sure_decls] in Su. cbn [declarations] in D.
      destruct (declare pkg lits types vis d) as [[e1 t1] i] eqn:De. destruct (declarations pkg lits t1 ((d_id d, i) :: vis) ds) as [[e2 t2] v2] eqn:Ds.
      apply andb_true_iff in Su as [Su S3]. apply andb_true_iff in Su as [S1 S2]. apply negb_true_iff in S1. injection D as D1 D2 D3. subst t2 v2.
      apply app_eq_nil in D1 as [D0 D1]. apply app_eq_nil in D1 as [-> ->].
      destruct (declare_types _ _ _ _ _ _ De) as [l1 E1]. destruct (declarations_types _ _ _ _ _ _ Ds) as [l2 E2].
      assert (Fin : T = types ++ (l1 ++ l2)) by (rewrite E2, E1; now rewrite app_assoc).
      destruct (declare_sound st0 types vis st d t1 i _ K Ty Vi M S1 S2 (or_intror (In_ d (or_introl eq_refl))) Fin De) as (Ty' & Io & H).
      destruct (enter w pkg start st d) as [st'| |]; cbn [holds] in H; [|exact Logic.I|exact H].
      unfold inv. cbn [c_state c_phase c_store]. exists ds, t1, ((d_id d, i) :: vis). split; [reflexivity|]. split; [exact Ty'|]. split.
      * intros y j. rewrite assoc_cons. destruct (String.eqb (d_id d) y) eqn:E; [|now apply Vi]. apply String.eqb_eq in E as <-. now intros [= <-].
      * split; [exact H|]. split; [exact S3|]. split; [exact Ds|]. intros y Hy. apply In_. now right.
Qed.

Definition initial (st : store) : config := mkConfig None (Entering (globals s)) st.
Lemma initial_inv st : consistent st -> inv (initial st).
Proof.
  intros K. unfold inv, initial. cbn [c_state c_phase c_store]. exists (globals s), (se_types s), []. split; [reflexivity|]. split; [|split; [|split; [|split; [|split]]]].
  - split; [apply (k_types _ K)|]. exists []. now rewrite app_nil_r.
  - intros x i [=].
  - intros x Hx U. cbn in *. destruct (assoc x lits) as [t|] eqn:E; [|congruence].
    unfold no_value in Hx. apply andb_false_iff in Hx.
    unfold literals, assoc in E.
    destruct (find (fun p => String.eqb (fst p) x) (rev (enum_literals (se_types s) pkg) ++ rev (type_literals (se_types s)))) as [[k u]|] eqn:F; [|discriminate].
    injection E as ->. rewrite find_app in F.
    destruct (find (fun p => String.eqb (fst p) x) (rev (enum_literals (se_types s) pkg))) as [[k' u']|] eqn:G.
    + injection F as -> ->. apply (k_literals _ K). unfold assoc. now rewrite G.
    + exfalso. destruct Hx as [Hx|Hx].
      * apply negb_false_iff in Hx. unfold has, assoc in Hx. rewrite G in Hx. discriminate.
      * apply orb_false_iff in Hx as [Hx _]. unfold has, assoc in Hx. rewrite F in Hx. discriminate.
  - unfold sure_session in Sure. rewrite accepted_globals in Sure. now apply andb_true_iff in Sure as [S _].
  - apply accepted_globals.
  - apply incl_refl.
Qed.
End Run.
