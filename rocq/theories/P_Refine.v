(** C49: refinements and the generated functions Contains and Switch_To. *)
From Coq Require Import String Ascii List ZArith Bool Lia.
From Verif Require Import Base Expr ExprEval ExprFacts ExprTotal ExprMono ExprMore MsgGraph MsgGraphFacts AdaTypes AdaBuffer AdaBufferFacts
  GenCode GenSpec GenFacts GenRun GenInv GenVerify GenMessage GenSet GenPred P_Gen Refine RefineFacts.
Import ListNotations.
Local Open Scope string_scope.
Local Open Scope list_scope.
Local Open Scope Z_scope.
Local Open Scope res_scope.

(** ** Statements *)

(** a literal of an enumeration among the types of the message, as it may be written in the
    package of the refinement *)
Definition literal (p : pdu) (package id : string) (z : Z) : Prop :=
  exists f pk ls size a l, In (f, REnum pk ls size a) (p_types p) /\ In (l, z) ls /\
    ((id = l /\ (pk = BUILTINS \/ pk = package)) \/ (id = (pk ++ "." ++ l)%string /\ pk <> BUILTINS)).

(** every field has one type, and no field is called like a call *)
Definition identifier (s : string) : Prop := String.get 0 s <> Some ":"%char.
Record message_of (p : pdu) : Prop := {
  mo_dict : NoDup (map fst (p_types p));
  mo_fields : forall f, In f (p_fields p) <-> In f (map fst (p_types p));
  mo_names : forall f, In f (p_fields p) -> identifier f
}.

(** conditions that compare fields, literals and numbers, combined by and, or *)
Definition operand (e : expr) : bool := match e with EName (NVar _) false | ENum _ => true | _ => false end.
Fixpoint flat (e : expr) : bool :=
  match e with
  | ETrue | EFalse => true
  | EAss (OAnd | OAndThen | OOr | OOrElse) ts => forallb flat ts
  | ERel _ l r => operand l && operand r
  | _ => false
  end.
Record condition_ok (p : pdu) (condition : expr) : Prop := {
  co_flat : flat condition = true;
  co_names : forall id, In (NVar id) (names condition) -> identifier id;
  co_scalar : forall id, In (NVar id) (names condition) -> In id (p_fields p) -> gen_types p id <> FComposite
}.

(** an environment in which the fields found have their values and the literals theirs *)
Definition values (p : pdu) (package : string) (es : list entry) (g : env) : Prop :=
  (forall e, In e es -> g (NVar (e_fld e)) = VInt (e_val e)) /\
  (forall id z, ~ In id (p_fields p) -> literal p package id z -> g (NVar id) = VInt z).

(** the refined field is there, or there and empty if the inner message has no fields *)
Definition refined_field (es : list entry) (f : field) (null_sdu : bool) : Prop :=
  exists e, In e es /\ e_fld e = f /\ if null_sdu then e_last e < e_first e else e_first e <= e_last e.
(** a field of the condition is there; the value of an always valid enumeration is a literal *)
Definition usable (p : pdu) (es : list entry) (id : field) : Prop :=
  exists e, In e es /\ e_fld e = id /\
    forall pk ls size, In (id, REnum pk ls size true) (p_types p) -> In (e_val e) (map snd ls).
Definition refines_to (p : pdu) (es : list entry) (g : env) (f : field) (null_sdu : bool) (condition : expr) : Prop :=
  refined_field es f null_sdu /\
  (forall id, In (NVar id) (names condition) -> In id (p_fields p) -> usable p es id) /\
  eval g condition = Some (VBool true).

(** ** Proofs *)

Lemma identifier_decode s : identifier s -> decode s = None.
Proof.
  unfold identifier. destruct s as [|c s]; [reflexivity|]. cbn [String.get]. intros N. unfold decode. cbn [String.prefix].
  destruct (ascii_dec ":" c) as [E|]; [|reflexivity]. subst c. now destruct N.
Qed.
Lemma call_colon c : String.get 0 (call_name c) = Some ":"%char.
Proof. destruct c; reflexivity. Qed.
Lemma identifier_call s c : identifier s -> s <> call_name c.
Proof. intros I ->. apply I, call_colon. Qed.

Lemma dict_get_in {A} (d : list (string * A)) k v : dict_get d k = Some v -> In (k, v) d.
Proof.
  unfold dict_get. destruct (find _ _) as [[k' v']|] eqn:E; [|discriminate]. intros X. injection X as <-.
  apply find_some in E as [I E]. cbn in E. apply String.eqb_eq in E. subst. now apply in_rev.
Qed.
Lemma dict_get_none {A} (d : list (string * A)) k : dict_get d k = None -> ~ In k (map fst d).
Proof.
  unfold dict_get. destruct (find _ _) as [[k' v']|] eqn:E; [discriminate|]. intros _ I. apply in_map_iff in I as ((k' & v) & <- & I).
  apply in_rev in I. pose proof (find_none _ _ E _ I) as X. cbn in X. rewrite String.eqb_refl in X. discriminate.
Qed.
Lemma dict_get_nodup {A} (d : list (string * A)) k v : NoDup (map fst d) -> In (k, v) d -> dict_get d k = Some v.
Proof.
  intros ND I. destruct (dict_get d k) as [w|] eqn:E.
  - apply dict_get_in in E. f_equal. clear -ND I E. induction d as [|[k' u] d IH]; [destruct I|]. cbn in ND. inversion ND as [|? ? N1 N2]; subst.
    destruct I as [I|I], E as [E|E].
    + congruence.
    + injection I as -> ->. destruct N1. apply in_map_iff. exists (k, w). auto.
    + injection E as -> ->. destruct N1. apply in_map_iff. exists (k, v). auto.
    + auto.
  - exfalso. apply (dict_get_none _ _ E). apply in_map_iff. exists (k, v). auto.
Qed.

Lemma literals_spec p package id z : In (id, z) (qualified_enum_literals (map snd (p_types p)) package) <-> literal p package id z.
Proof.
  unfold qualified_enum_literals, literal. rewrite in_flat_map. split.
  - intros (t & I & J). apply in_map_iff in I as ((f & t') & <- & I). cbn [snd] in J. destruct t' as [|pk ls size a| |]; try contradiction.
    apply in_flat_map in J as ((l & v) & J & K). exists f, pk, ls, size, a. exists l. cbn [fst snd] in K. apply in_app_or in K as [K|K].
    + destruct (String.eqb_spec pk BUILTINS) as [B|B]; cbn [orb] in K.
      * destruct K as [K|[]]. injection K as <- <-. auto 6.
      * destruct (String.eqb_spec pk package) as [B'|B']; [|destruct K]. destruct K as [K|[]]. injection K as <- <-. auto 6.
    + destruct (String.eqb_spec pk BUILTINS) as [B|B]; [destruct K|]. destruct K as [K|[]]. injection K as <- <-. auto 6.
  - intros (f & pk & ls & size & a & l & I & J & K). exists (REnum pk ls size a). split; [apply in_map_iff; exists (f, REnum pk ls size a); auto|].
    apply in_flat_map. exists (l, z). split; [exact J|]. cbn [fst snd]. apply in_or_app. destruct K as [[-> K]|[-> K]].
    + left. assert (X : String.eqb pk BUILTINS || String.eqb pk package = true).
      { apply orb_true_iff. destruct K as [->| ->]; rewrite String.eqb_refl; auto. }
      rewrite X. now left.
    + right. destruct (String.eqb_spec pk BUILTINS); [contradiction|]. now left.
Qed.

Lemma first_false {A} (b : A -> bool) l : forallb b l = true \/
  exists l1 a l2, l = l1 ++ a :: l2 /\ forallb b l1 = true /\ b a = false.
Proof.
  induction l as [|x l IH]; [now left|]. cbn [forallb]. destruct (b x) eqn:E.
  - destruct IH as [->|(l1 & a & l2 & -> & B & F)]; [now left|]. right. exists (x :: l1), a, l2. cbn. rewrite E. auto.
  - right. exists [], x, l. auto.
Qed.

(** *** The condition *)
Lemma operand_in id e : operand e = true -> (expr_eqb (EVar id) e = true <-> In (NVar id) (names e)).
Proof.
  destruct e as [ | |z|n s|x|o ts|o l r|o l r]; try discriminate; cbn [operand names].
  - intros _. cbn. split; [discriminate|tauto].
  - destruct n as [i|]; [|discriminate]. destruct s; [discriminate|]. intros _. cbn. rewrite andb_true_r, String.eqb_eq. split.
    + intros ->. now left.
    + intros [E|[]]. now injection E.
Qed.
Lemma flat_in id e : flat e = true -> (expr_in (EVar id) e = true <-> In (NVar id) (names e)).
Proof.
  induction e as [ | |z|n s|x IH|o ts IH|o l r IHl IHr|o l r IHl IHr] using expr_ind'; cbn [flat]; try discriminate; intros F.
  - cbn. split; [discriminate|tauto].
  - cbn. split; [discriminate|tauto].
  - assert (F' : forallb flat ts = true) by (destruct o; auto; discriminate). clear F.
    cbn [expr_in names expr_eqb EVar orb]. rewrite existsb_exists, in_flat_map. rewrite Forall_forall in IH. rewrite forallb_forall in F'.
    split; intros (t & I & J); exists t; (split; [exact I|]); apply (IH t I (F' t I)); exact J.
  - apply andb_true_iff in F as [F1 F2]. cbn [expr_in expr_eqb EVar orb names]. rewrite orb_true_iff, in_app_iff. 
    pose proof (operand_in id l F1). pose proof (operand_in id r F2). unfold EVar in *. tauto.
Qed.
Lemma condition_fields_in p c f t : flat c = true -> (In (f, t) (condition_fields p c) <-> In (f, t) (p_types p) /\ In (NVar f) (names c)).
Proof. intros F. unfold condition_fields. rewrite filter_In. cbn [fst]. now rewrite flat_in. Qed.

Lemma flat_names c n : flat c = true -> In n (names c) -> exists id, n = NVar id.
Proof.
  assert (O : forall e, operand e = true -> In n (names e) -> exists id, n = NVar id).
  { intros e. destruct e as [ | |z|[id|] [|]|x|o ts|o l r|o l r]; try discriminate; cbn; [tauto|]. intros _ [<-|[]]. eauto. }
  induction c as [ | |z|m s|x IH|o ts IH|o l r IHl IHr|o l r IHl IHr] using expr_ind'; cbn [flat names]; try discriminate; intros F; try (now intros []).
  - assert (F' : forallb flat ts = true) by (destruct o; auto; discriminate). rewrite forallb_forall in F'. rewrite Forall_forall in IH.
    intros I. apply in_flat_map in I as (t & I & J). eapply IH; eauto.
  - apply andb_true_iff in F as [F1 F2]. intros I. apply in_app_or in I as [I|I]; eauto.
Qed.

Lemma flat_defined g c : flat c = true -> (forall id, In (NVar id) (names c) -> exists z, g (NVar id) = VInt z) ->
  exists b, eval g c = Some (VBool b).
Proof.
  assert (O : forall e, operand e = true -> (forall id, In (NVar id) (names e) -> exists z, g (NVar id) = VInt z) -> exists z, eval g e = Some (VInt z)).
  { intros e. destruct e as [ | |z|[id|] [|]|x|o ts|o l r|o l r]; try discriminate; cbn; eauto. intros _ H. destruct (H id (or_introl eq_refl)) as (z & ->). eauto. }
  induction c as [ | |z|m s|x IH|o ts IH|o l r IHl IHr|o l r IHl IHr] using expr_ind'; cbn [flat names eval]; try discriminate; intros F H; eauto.
  - assert (F' : forallb flat ts = true) by (destruct o; auto; discriminate).
    assert (B : exists bs, bools (map (eval g) ts) = Some bs).
    { clear F. induction IH as [|t ts Ht HF IHts]; cbn [map bools]; [eauto|]. cbn [forallb flat_map] in F', H. apply andb_true_iff in F' as [F1 F2].
      destruct (Ht F1) as (b & ->); [intros; apply H, in_or_app; auto|]. destruct IHts as (bs & ->); auto; [intros; apply H, in_or_app; auto|]. eauto. }
    destruct B as (bs & B). destruct o; try discriminate; cbn [ass_val]; rewrite B; eauto.
  - apply andb_true_iff in F as [F1 F2]. destruct (O l F1) as (x & ->); [intros; apply H, in_or_app; auto|].
    destruct (O r F2) as (y & ->); [intros; apply H, in_or_app; auto|]. cbn. eauto.
Qed.

Lemma names_occurs id e : In (NVar id) (names e) -> occurs id e.
Proof.
  induction e as [ | |z|m s|y IH|o ts IH|o l r IHl IHr|o l r IHl IHr] using expr_ind'; cbn [names]; intros I; try now destruct I.
  - destruct I as [->|[]]. constructor.
  - constructor. auto.
  - apply in_flat_map in I as (t & I & J). rewrite Forall_forall in IH. econstructor; eauto.
  - apply in_app_or in I as [I|I]; [apply occ_bin_l|apply occ_bin_r]; auto.
  - apply in_app_or in I as [I|I]; [apply occ_rel_l|apply occ_rel_r]; auto.
Qed.

(** substitution of calls *)
Section Subst.
  Variable ng : expr -> res expr.
  Variable M : name -> option expr.
  Hypothesis MC : forall n e, M n = Some e -> exists c, e = ECall c.
  Variables G g : env.

  Definition image (n : name) : name := match M n with Some (EName m _) => m | _ => n end.

  Lemma flat_subst c : flat c = true -> (forall n, In n (names c) -> G (image n) = g n) ->
    exists c', substituted ng M c = Ok c' /\ eval G c' = eval g c /\ noarith c' = true /\
      forall m, In m (names c') -> exists n, In n (names c) /\ m = image n.
  Proof.
    assert (O : forall e, operand e = true -> (forall n, In n (names e) -> G (image n) = g n) ->
      exists e', substituted ng M e = Ok e' /\ eval G e' = eval g e /\ noarith e' = true /\
        forall m, In m (names e') -> exists n, In n (names e) /\ m = image n).
    { intros e F H. destruct e as [ | |z|[id|] [|]|x|o ts|o l r|o l r]; try discriminate.
      - exists (ENum z). cbn. repeat split; auto. intros m [].
      - cbn [substituted names] in *. specialize (H (NVar id) (or_introl eq_refl)). unfold image in *. destruct (M (NVar id)) as [e|] eqn:E.
        + destruct (MC _ _ E) as (k & ->). exists (ECall k). cbn. cbn in H. rewrite H. repeat split; auto.
          intros m [<-|[]]. exists (NVar id). rewrite E. cbn. auto.
        + exists (EName (NVar id) false). cbn. cbn in H. rewrite H. repeat split; auto. intros m [<-|[]]. exists (NVar id). rewrite E. auto. }
    induction c as [ | |z|m s|x IH|o ts IH|o l r IHl IHr|o l r IHl IHr] using expr_ind'; cbn [flat]; try discriminate; intros F H.
    - exists ETrue. repeat split; auto. intros m [].
    - exists EFalse. repeat split; auto. intros m [].
    - assert (F' : forallb flat ts = true) by (destruct o; auto; discriminate). cbn [names] in H.
      assert (X : exists ts', (fix go (l : list expr) : res (list expr) :=
                     match l with
                     | [] => Ok []
                     | x :: t => let* y := substituted ng M x in let* ys := go t in Ok (y :: ys)
                     end) ts = Ok ts' /\ map (eval G) ts' = map (eval g) ts /\ forallb noarith ts' = true /\
                     forall m, In m (flat_map names ts') -> exists n, In n (flat_map names ts) /\ m = image n).
      { clear F. induction IH as [|t ts Ht HF IHts].
        - exists []. repeat split; auto. intros m [].
        - cbn [forallb flat_map] in F', H. apply andb_true_iff in F' as [F1 F2].
          destruct (Ht F1) as (t' & E1 & E2 & E3 & E4); [intros; apply H, in_or_app; auto|].
          destruct IHts as (ts' & D1 & D2 & D3 & D4); [intros; apply H, in_or_app; auto|exact F2|].
          exists (t' :: ts'). rewrite E1. cbn [bind]. rewrite D1. cbn [bind map forallb flat_map]. rewrite E2, D2, E3, D3. repeat split; auto.
          intros m I. apply in_app_or in I as [I|I].
          + destruct (E4 m I) as (n & I' & ->). exists n. split; [apply in_or_app; auto|reflexivity].
          + destruct (D4 m I) as (n & I' & ->). exists n. split; [apply in_or_app; auto|reflexivity]. }
      destruct X as (ts' & D1 & D2 & D3 & D4). exists (EAss o ts'). cbn [substituted]. rewrite D1. cbn [bind eval names noarith]. rewrite D2.
      split; [reflexivity|]. split; [reflexivity|]. split; [destruct o; auto; discriminate|]. exact D4.
    - apply andb_true_iff in F as [F1 F2]. cbn [names] in H.
      destruct (O l F1) as (l' & L1 & L2 & L3 & L4); [intros; apply H, in_or_app; auto|].
      destruct (O r F2) as (r' & R1 & R2 & R3 & R4); [intros; apply H, in_or_app; auto|].
      exists (ERel o l' r'). cbn [substituted]. rewrite L1. cbn [bind]. rewrite R1. cbn [bind eval noarith names]. rewrite L2, R2, L3, R3.
      repeat split; auto. intros m I. apply in_app_or in I as [I|I].
      + destruct (L4 m I) as (n & I' & ->). exists n. split; [apply in_or_app; auto|reflexivity].
      + destruct (R4 m I) as (n & I' & ->). exists n. split; [apply in_or_app; auto|reflexivity].
  Qed.
End Subst.

Lemma flat_subst_any ng ng' M c : flat c = true -> substituted ng M c = substituted ng' M c.
Proof.
  assert (O : forall e, operand e = true -> substituted ng M e = substituted ng' M e).
  { intros e. destruct e as [ | |z|[id|] [|]|y|o ts|o l r|o l r]; try discriminate; reflexivity. }
  induction c as [ | |z|nm sg|y IH|o ts IH|o l r IHl IHr|o l r IHl IHr] using expr_ind'; cbn [flat]; try discriminate; intros F; try reflexivity.
  - assert (F' : forallb flat ts = true) by (destruct o; auto; discriminate). cbn [substituted].
    enough (X : (fix go (l : list expr) : res (list expr) := match l with [] => Ok [] | x :: t => let* y := substituted ng M x in let* ys := go t in Ok (y :: ys) end) ts =
                (fix go (l : list expr) : res (list expr) := match l with [] => Ok [] | x :: t => let* y := substituted ng' M x in let* ys := go t in Ok (y :: ys) end) ts) by (now rewrite X).
    clear F. induction IH as [|t ts Ht HF IHts]; [reflexivity|]. cbn [forallb] in F'. apply andb_true_iff in F' as [F1 F2]. rewrite (Ht F1), (IHts F2). reflexivity.
  - apply andb_true_iff in F as [F1 F2]. cbn [substituted]. now rewrite (O l F1), (O r F2).
Qed.

(** *** The guards of always valid enumerations *)
Definition knowns (cfs : list (field * rtype)) : list expr :=
  map (fun ft => ECall (CKnown (fst ft))) (filter (fun ft => always_valid (snd ft)) cfs).
Lemma known_guards_snoc cfs ft c : known_guards (cfs ++ [ft]) c =
  if always_valid (snd ft) then EAss OAndThen [ECall (CKnown (fst ft)); known_guards cfs c] else known_guards cfs c.
Proof. unfold known_guards. now rewrite fold_left_app. Qed.
Lemma known_guards_starts cfs c : Starts (rev (knowns cfs)) (known_guards cfs c).
Proof.
  induction cfs as [|ft cfs IH] using rev_ind; [constructor|]. rewrite known_guards_snoc. unfold knowns. rewrite filter_app, map_app, rev_app_distr.
  cbn [filter]. destruct (always_valid (snd ft)); cbn [map rev List.app]; [|exact IH].
  apply (St_nest [ECall (CKnown (fst ft))] (rev (knowns cfs)) _ IH).
Qed.
Lemma known_guards_subst ng M cfs c : (forall f, M (NVar (call_name (CKnown f))) = None) ->
  substituted ng M (known_guards cfs c) = let* c' := substituted ng M c in Ok (known_guards cfs c').
Proof.
  intros MN. induction cfs as [|ft cfs IH] using rev_ind.
  - cbn [known_guards fold_left]. destruct (substituted ng M c); reflexivity.
  - rewrite known_guards_snoc. destruct (always_valid (snd ft)) eqn:A.
    + cbn [substituted ECall EVar]. rewrite MN. cbn [bind]. rewrite IH. destruct (substituted ng M c) as [c'|]; cbn [bind]; [|reflexivity].
      rewrite known_guards_snoc, A. reflexivity.
    + rewrite IH. destruct (substituted ng M c) as [c'|]; cbn [bind]; [|reflexivity]. now rewrite known_guards_snoc, A.
Qed.
Lemma known_guards_eval G cfs c b : (forall h, In h (knowns cfs) -> eval G h = Some (VBool true)) ->
  eval G c = Some (VBool b) -> eval G (known_guards cfs c) = Some (VBool b).
Proof.
  intros H E. induction cfs as [|ft cfs IH] using rev_ind; [exact E|]. rewrite known_guards_snoc. unfold knowns in H. rewrite filter_app, map_app in H.
  assert (H' : forall h, In h (knowns cfs) -> eval G h = Some (VBool true)) by (intros h I; apply H, in_or_app; now left).
  specialize (IH H'). cbn [filter] in H. destruct (always_valid (snd ft)); [|exact IH].
  cbn [map] in H. change (eval G (EAss OAndThen [ECall (CKnown (fst ft)); known_guards cfs c])) with (ass_val OAndThen [eval G (ECall (CKnown (fst ft))); eval G (known_guards cfs c)]).
  rewrite IH.  assert (HH : eval G (ECall (CKnown (fst ft))) = Some (VBool true)) by (apply H, in_or_app; right; now left). rewrite HH. cbn. now rewrite andb_true_r.
Qed.
Lemma known_guards_keeps P cfs c : keeps P c -> (forall f t, In (f, t) cfs -> always_valid t = true -> P (NVar (call_name (CKnown f)))) -> keeps P (known_guards cfs c).
Proof.
  intros K H. induction cfs as [|[f t] cfs IH] using rev_ind; [exact K|]. rewrite known_guards_snoc. cbn [fst snd].
  assert (K' : keeps P (known_guards cfs c)) by (apply IH; intros; eapply H; eauto; apply in_or_app; now left).
  destruct (always_valid t) eqn:A; [|exact K']. apply keeps_ass; [reflexivity|]. constructor; [|constructor; [exact K'|constructor]].
  split; [reflexivity|]. intros n [<-|[]]. apply (H f t); auto. apply in_or_app. right. now left.
Qed.

(** *** Contains *)
Section Contains.
  Context (package : string) (p : pdu) (x : context) (f : field) (null_sdu : bool) (condition : expr).
  Context (MO : message_of p) (CO : condition_ok p condition).
  Local Notation cfs := (condition_fields p condition).
  Local Notation lk := (contains_look package p x).
  Local Notation ev := (aeval in_U64 lk).

  Lemma look_call c : lk (NVar (call_name c)) = call_result p x c.
  Proof. unfold contains_look. now rewrite decode_call. Qed.
  Lemma ev_call c : ev (ECall c) = call_result p x c.
  Proof.
    unfold ECall, EVar. cbn [aeval]. rewrite look_call. destruct (call_result p x c); reflexivity.
  Qed.

  Definition guards : list expr := refinement_conditions f cfs null_sdu.
  Lemma guards_guard : forallb guard guards = true.
  Proof.
    unfold guards, refinement_conditions. rewrite !forallb_app. apply andb_true_iff. split; [reflexivity|]. apply andb_true_iff. split; [now destruct null_sdu|].
    apply forallb_forall. intros e I. apply in_map_iff in I as (ft & <- & _). reflexivity.
  Qed.
  Lemma knowns_guard l : forallb guard (rev (knowns l)) = true.
  Proof. apply forallb_forall. intros e I. apply in_rev, in_map_iff in I as (ft & <- & _). reflexivity. Qed.

  (** the result of a guard *)
  Definition truth (e : expr) : bool := match ev e with Ok (VBool true) => true | _ => false end.
  Lemma truth_true e : truth e = true -> ev e = Ok (VBool true).
  Proof. unfold truth. destruct (ev e) as [[z|[]]|]; try discriminate. reflexivity. Qed.
  Lemma guards_defined e : In e guards -> exists b, ev e = Ok (VBool b).
  Proof.
    unfold guards, refinement_conditions. intros I. apply in_app_or in I as [[<-|[]]|I]; [rewrite ev_call; cbn; eauto|].
    apply in_app_or in I as [I|I].
    - destruct null_sdu; cbn [In] in I.
      + destruct I as [<-|[<-|[]]]; [rewrite ev_call; cbn; eauto|]. change (aeval in_U64 lk (ENot (ECall (CPresent f)))) with
          (let* v := ev (ECall (CPresent f)) in let* b := as_bool v in Ok (VBool (negb b))). rewrite ev_call. cbn. eauto.
      + destruct I as [<-|[]]. rewrite ev_call; cbn; eauto.
    - apply in_map_iff in I as (ft & <- & _). rewrite ev_call. cbn. eauto.
  Qed.

  (** what follows if all guards hold *)
  Definition all_hold : Prop := (forall e, In e guards -> ev e = Ok (VBool true)) /\ (forall e, In e (knowns cfs) -> ev e = Ok (VBool true)).

  Lemma field_type id t : In (id, t) (p_types p) -> dict_get (p_types p) id = Some t.
  Proof. apply dict_get_nodup, MO. Qed.
  Lemma type_field id : In id (p_fields p) -> exists t, In (id, t) (p_types p).
  Proof. intros I. apply (mo_fields _ MO) in I. apply in_map_iff in I as ((i & t) & <- & I). eauto. Qed.
  Lemma cond_field id : In (NVar id) (names condition) -> In id (p_fields p) -> exists t, In (id, t) cfs /\ In (id, t) (p_types p).
  Proof. intros I J. destruct (type_field id J) as (t & T). exists t. split; [|exact T]. apply condition_fields_in; [apply CO|auto]. Qed.
  Lemma cfs_dict id t : In (id, t) cfs -> dict_get cfs id = Some t.
  Proof.
    apply dict_get_nodup. unfold condition_fields. pose proof (mo_dict _ MO) as N. clear -N. induction (p_types p) as [|ft l IH]; cbn [filter map]; [constructor|].
    cbn [map] in N. inversion N as [|? ? N1 N2]; subst. destruct (expr_in _ _); [|auto]. cbn [map]. constructor; [|auto].
    intros I. apply N1. apply in_map_iff in I as (y & E & I). apply filter_In in I as [I _]. apply in_map_iff. eauto.
  Qed.

  (** the expression: what it says, in whatever environment agrees with the calls *)
  Lemma contains_true n e : contains_function n p f null_sdu condition = Ok e -> all_hold ->
    refinement_errors [package] p f condition = [] ->
    forall g, (forall id t, In (id, t) cfs -> exists v, get_checked x id = Ok v /\ g (NVar id) = VInt v) ->
      (forall id z, ~ In id (p_fields p) -> literal p package id z -> g (NVar id) = VInt z) ->
    exists b, eval g condition = Some (VBool b) /\ ev e = Ok (VBool b).
  Proof.
    intros C [AG AK] RE g GF GL.
    set (G := fun nm => match lk nm with Ok v => v | Err _ => VInt 0 end).
    set (M := contains_mapping cfs).
    assert (LC : forall id, In (NVar id) (names condition) -> lk (image M (NVar id)) = Ok (g (NVar id))).
    { intros id I. unfold image, M, contains_mapping. destruct (in_dec String.string_dec id (p_fields p)) as [J|J].
      - destruct (cond_field id I J) as (t & T & TT). rewrite (cfs_dict _ _ T). cbn [ECall EVar]. rewrite look_call. destruct (GF id t T) as (v & V & ->).
        destruct (always_valid t) eqn:A.
        + cbn [call_result]. rewrite V. cbn [bind]. 
          assert (K : ev (ECall (CKnown id)) = Ok (VBool true)).
          { apply AK. apply in_map_iff. exists (id, t). split; [reflexivity|]. apply filter_In. auto. }
          rewrite ev_call in K. cbn [call_result] in K. rewrite V in K. cbn [bind] in K. apply Ok_inj in K. injection K as K. now rewrite K.
        + cbn [call_result]. pose proof (co_scalar _ _ CO id I J) as SC. destruct (gen_types p id); [|contradiction]. rewrite V. reflexivity.
      - destruct (dict_get cfs id) as [t|] eqn:D.
        { exfalso. apply dict_get_in in D. apply condition_fields_in in D; [|apply CO]. apply J, (mo_fields _ MO). apply in_map_iff. exists (id, t). tauto. }
        cbn [contains_look]. rewrite (identifier_decode id (co_names _ _ CO id I)).
        assert (L : In id (map fst (qualified_enum_literals (map snd (p_types p)) package))).
        { unfold refinement_errors in RE. apply app_eq_nil in RE as [_ RE]. apply app_eq_nil in RE as [_ RE].
          assert (V : exists s, In (id, s) (variables condition)).
          { apply occurs_variables. now apply names_occurs. }
          destruct V as (s & V). destruct (memf id (map fst (qualified_enum_literals (map snd (p_types p)) package))) eqn:E; [now apply memf_iff|].
          exfalso. assert (X : In (EUnknown id) []); [|destruct X]. rewrite <- RE. apply in_flat_map. exists (id, s). split; [exact V|].
          cbn [fst]. unfold dotted. cbn [String.concat]. rewrite E. destruct (memf id (p_fields p)) eqn:E'; [apply memf_iff in E'; contradiction|]. now left. }
        destruct (dict_get (qualified_enum_literals (map snd (p_types p)) package) id) as [z|] eqn:DL; [|now apply dict_get_none in DL].
        apply dict_get_in, literals_spec in DL. now rewrite (GL id z J DL). }
    assert (GG : forall nm, In nm (names condition) -> G (image M nm) = g nm).
    { intros nm I. destruct (flat_names _ _ (co_flat _ _ CO) I) as (id & ->). unfold G. now rewrite (LC id I). }
    assert (MC : forall nm e, M nm = Some e -> exists c, e = ECall c).
    { intros [id|a id] e0; cbn; [|discriminate]. destruct (dict_get cfs id); [|discriminate]. intros E. injection E as <-. eauto. }
    destruct (flat_subst (neg (simplify expr_eqb n)) M MC G g condition (co_flat _ _ CO) GG) as (c' & S & EV & NA & NM).
    unfold contains_function, contains_condition in C. fold M in C. rewrite known_guards_subst, S in C; cbn [bind] in C.
    2:{ intros k. unfold M, contains_mapping. destruct (dict_get cfs (call_name (CKnown k))) as [t|] eqn:D; [|reflexivity]. exfalso.
        apply dict_get_in in D. apply condition_fields_in in D as [D _]; [|apply CO]. eapply (identifier_call _ (CKnown k)); [|reflexivity].
        apply (mo_names _ MO). apply (mo_fields _ MO). apply in_map_iff. eexists. split; [|exact D]. reflexivity. }
    destruct (simplify expr_eqb n (known_guards cfs c')) as [c1|] eqn:S1; cbn [bind] in C; [|discriminate].
    assert (ID : forall id, In (NVar id) (names condition) -> exists z, g (NVar id) = VInt z).
    { intros id I. specialize (LC id I). destruct (in_dec String.string_dec id (p_fields p)) as [J|J].
      - destruct (cond_field id I J) as (t & T & _). destruct (GF id t T) as (v & _ & ->). eauto.
      - unfold image, M, contains_mapping in LC. destruct (dict_get cfs id) as [t|] eqn:D.
        { exfalso. apply dict_get_in in D. apply condition_fields_in in D; [|apply CO]. apply J, (mo_fields _ MO). apply in_map_iff. exists (id, t). tauto. }
        cbn [contains_look] in LC. rewrite (identifier_decode id (co_names _ _ CO id I)) in LC.
        destruct (dict_get (qualified_enum_literals (map snd (p_types p)) package) id) as [z|]; [|discriminate LC]. apply Ok_inj in LC. eauto. }
    destruct (flat_defined g condition (co_flat _ _ CO) ID) as (b & B). exists b. split; [exact B|]. rewrite B in EV.
    set (P := fun nm => lk nm = Ok (G nm)).
    assert (PG : forall h, ev h = Ok (VBool true) -> forall c, h = ECall c -> P (NVar (call_name c)) /\ eval G h = Some (VBool true)).
    { intros h E c ->. rewrite ev_call, <- look_call in E. unfold P, G. cbn [eval ECall EVar]. unfold G. rewrite E. auto. }
    assert (KC : keeps P c').
    { split; [exact NA|]. intros m I. destruct (NM m I) as (nm & J & ->). destruct (flat_names _ _ (co_flat _ _ CO) J) as (id & ->).
      unfold P. rewrite (GG _ J). now apply LC. }
    assert (KK : forall k t, In (k, t) cfs -> always_valid t = true -> ev (ECall (CKnown k)) = Ok (VBool true)).
    { intros k t I A. apply AK. apply in_map_iff. exists (k, t). split; [reflexivity|]. apply filter_In. auto. }
    assert (K1 : keeps P (known_guards cfs c')).
    { apply known_guards_keeps; [exact KC|]. intros k t I A. now apply (PG _ (KK k t I A)). }
    assert (E1 : eval G (known_guards cfs c') = Some (VBool b)).
    { apply known_guards_eval; [|exact EV]. intros h I. pose proof (AK h I) as A. apply in_map_iff in I as (ft & <- & _). now apply (PG _ A _ eq_refl). }
    pose proof (simplify_keeps P _ _ _ S1 K1) as K2.
    assert (E2 : eval G c1 = Some (VBool b)).
    { destruct (simplify_good expr_eqb expr_eqb_sound n _ _ S1) as (H & _). destruct (H (noarith_ok _ (proj1 K1))) as [_ R]. now apply R. }
    assert (PT : forall h, In h guards -> keeps P h /\ eval G h = Some (VBool true)).
    { intros h I. pose proof (AG h I) as A. unfold guards, refinement_conditions in I.
      assert (X : forall c, h = ECall c -> keeps P h /\ eval G h = Some (VBool true)).
      { intros c ->. destruct (PG _ A c eq_refl) as [P1 P2]. split; [|exact P2]. split; [reflexivity|]. intros nm [<-|[]]. exact P1. }
      apply in_app_or in I as [[<-|[]]|I]; [eapply X; eauto|]. apply in_app_or in I as [I|I].
      - destruct null_sdu; cbn [In] in I.
        + destruct I as [<-|[<-|[]]]; [eapply X; eauto|].
          change (aeval in_U64 lk (ENot (ECall (CPresent f)))) with
            (let* v := ev (ECall (CPresent f)) in let* b := as_bool v in Ok (VBool (negb b))) in A. rewrite ev_call in A.
          assert (Q : lk (NVar (call_name (CPresent f))) = Ok (VBool (present x f))) by (now rewrite look_call).
          split; [split; [reflexivity|]|].
          * intros nm [<-|[]]. unfold P, G. now rewrite Q.
          * cbn [eval ECall EVar not_val name_val]. unfold G. rewrite Q. cbn in A. apply Ok_inj in A. injection A as A. cbn. now rewrite A.
        + destruct I as [<-|[]]. eapply X; eauto.
      - apply in_map_iff in I as (ft & <- & _). eapply X; eauto. }
    assert (K3 : keeps P (EAss OAndThen (guards ++ [c1]))).
    { apply keeps_ass; [reflexivity|]. apply Forall_app. split; [|now constructor]. apply Forall_forall. intros h I. now apply PT. }
    assert (E3 : eval G (EAss OAndThen (guards ++ [c1])) = Some (VBool b)).
    { assert (B3 : bools (map (eval G) (guards ++ [c1])) = Some (map (fun _ => true) guards ++ [b])).
      { clear -PT E2. induction guards as [|h l IH]; cbn [map List.app bools].
        - now rewrite E2.
        - rewrite (proj2 (PT h (or_introl eq_refl))), IH; [reflexivity|]. intros k I. apply PT. now right. }
      cbn [eval ass_val]. rewrite B3. f_equal. f_equal. unfold allb. rewrite forallb_app. cbn [forallb]. rewrite andb_true_r.
      assert (T : forallb (fun b0 : bool => b0) (map (fun _ => true) guards) = true) by (clear; induction guards; auto). now rewrite T. }
    assert (E4 : eval G e = Some (VBool b)).
    { destruct (simplify_good expr_eqb expr_eqb_sound n _ _ C) as (H & _). destruct (H (noarith_ok _ (proj1 K3))) as [_ R]. now apply R. }
    destruct (simplify_keeps P _ _ _ C K3) as [N4 P4]. apply (aeval_defined in_U64 lk G); auto.
  Qed.

  (** the first guard that does not hold makes the result false *)
  Lemma contains_form n e : contains_function n p f null_sdu condition = Ok e -> Normal (guards ++ rev (knowns cfs)) e.
  Proof.
    unfold contains_function, contains_condition. intros C.
    destruct (substituted _ _ _) as [c0|] eqn:S; cbn [bind] in C; [|discriminate].
    destruct (simplify expr_eqb n c0) as [c1|] eqn:S1; cbn [bind] in C; [|discriminate].
    assert (ST : Starts (rev (knowns cfs)) c0).
    { rewrite known_guards_subst in S.
      - destruct (substituted _ _ condition) as [c'|]; cbn [bind] in S; [|discriminate]. apply Ok_inj in S. subst c0. apply known_guards_starts.
      - intros k. unfold contains_mapping. destruct (dict_get cfs (call_name (CKnown k))) as [t|] eqn:D; [|reflexivity]. exfalso.
        apply dict_get_in in D. apply condition_fields_in in D as [D _]; [|apply CO]. eapply (identifier_call _ (CKnown k)); [|reflexivity].
        apply (mo_names _ MO). apply (mo_fields _ MO). apply in_map_iff. eexists. split; [|exact D]. reflexivity. }
    pose proof (normal_starts _ _ (starts_simplify _ _ ST (knowns_guard cfs) _ _ S1)) as ST1.
    eapply (starts_simplify _ _ (St_nest guards _ _ ST1)); [|exact C]. now rewrite forallb_app, guards_guard, knowns_guard.
  Qed.

  Lemma contains_cases n e : contains_function n p f null_sdu condition = Ok e ->
    (forall id t, In (id, t) cfs -> valid_field x id = true -> exists v, get_field x id = Ok v) ->
    all_hold \/
    (ev e = Ok (VBool false) /\ exists h, ev h = Ok (VBool false) /\
       (In h guards \/ (forall k, In k guards -> ev k = Ok (VBool true)) /\ In h (knowns cfs))).
  Proof.
    intros C VF. pose proof (contains_form n e C) as N.
    destruct (first_false truth guards) as [T|(l1 & a & l2 & E & T & F)].
    - rewrite forallb_forall in T.
      assert (TG : forall h, In h guards -> ev h = Ok (VBool true)) by (intros h I; apply truth_true; auto).
      assert (DK : forall h, In h (knowns cfs) -> exists b, ev h = Ok (VBool b)).
      { intros h I. apply in_map_iff in I as ((id & t) & <- & I). apply filter_In in I as [I A]. rewrite ev_call. cbn [call_result fst].
        assert (V : valid_field x id = true).
        { assert (X : ev (ECall (CValid id)) = Ok (VBool true)).
          { apply TG. unfold guards, refinement_conditions. apply in_or_app. right. apply in_or_app. right. apply in_map_iff. exists (id, t). auto. }
          rewrite ev_call in X. cbn in X. apply Ok_inj in X. now injection X. }
        unfold get_checked. rewrite V. destruct (VF id t I V) as (v & ->). cbn. eauto. }
      destruct (first_false truth (rev (knowns cfs))) as [TK|(l1 & a & l2 & E & TK & F)].
      + left. split; [exact TG|]. rewrite forallb_forall in TK. intros h I. apply truth_true, TK. now apply in_rev in I.
      + right. assert (IA : In a (knowns cfs)) by (apply in_rev; rewrite E; apply in_or_app; right; now left).
        assert (FA : ev a = Ok (VBool false)).
        { destruct (DK a IA) as (b & B). unfold truth in F. rewrite B in *. destruct b; [discriminate|reflexivity]. }
        split; [|exists a; auto].
        eapply (normal_stop in_U64 lk _ _ (guards ++ l1) a l2); [exact N|now rewrite E, app_assoc| |exact FA].
        intros h I. apply in_app_or in I as [I|I]; [auto|]. rewrite forallb_forall in TK. now apply truth_true, TK.
    - right. assert (IA : In a guards) by (rewrite E; apply in_or_app; right; now left).
      assert (FA : ev a = Ok (VBool false)).
      { destruct (guards_defined a IA) as (b & B). unfold truth in F. rewrite B in *. destruct b; [discriminate|reflexivity]. }
      split; [|exists a; auto].
      eapply (normal_stop in_U64 lk _ _ l1 a (l2 ++ rev (knowns cfs))); [exact N|rewrite E, <- app_assoc; reflexivity| |exact FA].
      intros h I. rewrite forallb_forall in T. now apply truth_true, T.
  Qed.
End Contains.

(** *** Contexts *)
Section Contexts.
  Context (n : nat) (m : message) (p : pdu) (constants : name -> option Z).
  Local Notation s := (structure m).
  Local Notation types := (gen_types p).
  Context (A : accepted n m (p_fields p) types constants) (MO : message_of p).
  Local Notation Inv := (Inv s (p_fields p) types constants).
  Context (x : context) (b : buffer) (es : list entry) (I : Inv x b es).

  Lemma entry_cursor e : In e es -> structural_valid (x_cursors x (e_fld e)) = true /\
    (types (e_fld e) <> FComposite -> valid (x_cursors x (e_fld e)) = true) /\
    c_first (x_cursors x (e_fld e)) = e_first e /\ c_last (x_cursors x (e_fld e)) = e_last e /\ get_field x (e_fld e) = Ok (e_val e).
  Proof.
    intros J. apply in_split in J as (pre & post & E). destruct (i_cur _ _ _ _ _ _ _ I pre e post E) as (V & VV & _ & C1 & C2 & C3 & C4).
    split; [exact V|]. split.
    - intros T. apply VV. unfold composite. destruct (types (e_fld e)); [reflexivity|contradiction].
    - split; [exact C1|]. split; [exact C2|]. unfold get_field. now rewrite V, C3, String.eqb_refl, C4.
  Qed.
  Lemma cursor_entry f : In f (p_fields p) -> structural_valid (x_cursors x f) = true -> exists e, In e es /\ e_fld e = f.
  Proof.
    intros IF V. destruct (in_dec String.string_dec f (map e_fld es)) as [J|J].
    - apply in_map_iff in J as (e & E & J). eauto.
    - destruct (i_rest _ _ _ _ _ _ _ I f IF J). congruence.
  Qed.
  Lemma present_iff f : In f (p_fields p) -> (present x f = true <-> refined_field es f false).
  Proof.
    intros IF. unfold present, refined_field. rewrite andb_true_iff, Z.ltb_lt. split.
    - intros [V L]. destruct (cursor_entry f IF V) as (e & J & <-). destruct (entry_cursor e J) as (_ & _ & C1 & C2 & _). exists e.
      split; [exact J|]. split; [reflexivity|]. lia.
    - intros (e & J & <- & L). destruct (entry_cursor e J) as (V & _ & C1 & C2 & _). split; [exact V|]. lia.
  Qed.
  Lemma entry_unique e e' : In e es -> In e' es -> e_fld e = e_fld e' -> e = e'.
  Proof.
    intros J J' E. pose proof (run_find s _ types constants (acc_wf _ _ _ _ _ A) _ _ b es e (i_run _ _ _ _ _ _ _ I) J) as F.
    pose proof (run_find s _ types constants (acc_wf _ _ _ _ _ A) _ _ b es e' (i_run _ _ _ _ _ _ _ I) J') as F'. rewrite E in F. congruence.
  Qed.
  Lemma null_iff f : In f (p_fields p) -> (structural_valid (x_cursors x f) && negb (present x f) = true <-> refined_field es f true).
  Proof.
    intros IF. unfold refined_field. rewrite andb_true_iff, negb_true_iff. split.
    - intros [V P]. destruct (cursor_entry f IF V) as (e & J & <-). exists e. split; [exact J|]. split; [reflexivity|].
      destruct (entry_cursor e J) as (_ & _ & C1 & C2 & _). unfold present in P. rewrite V, C1, C2 in P. cbn [andb] in P. apply Z.ltb_ge in P. lia.
    - intros (e & J & <- & L). destruct (entry_cursor e J) as (V & _ & C1 & C2 & _). split; [exact V|]. unfold present. rewrite V, C1, C2. cbn [andb].
      apply Z.ltb_ge. lia.
  Qed.
  Lemma valid_iff f : In f (p_fields p) -> types f <> FComposite -> (valid_field x f = true <-> exists e, In e es /\ e_fld e = f).
  Proof.
    intros IF T. unfold valid_field. rewrite andb_true_iff, Z.ltb_lt. split.
    - intros [V L]. apply cursor_entry; [exact IF|]. unfold valid, structural_valid in *. destruct (c_state _); auto; discriminate.
    - intros (e & J & <-). destruct (entry_cursor e J) as (_ & V & C1 & C2 & _). split; [auto|]. rewrite C1, C2.
      destruct (types (e_fld e)) as [size vd|] eqn:TY; [|contradiction].
      pose proof (run_scalar_size s types constants (acc_types _ _ _ _ _ A) _ _ b es e size vd (i_run _ _ _ _ _ _ _ I) J TY). lia.
  Qed.
  Lemma has_buffer_true : has_buffer x = true.
  Proof. unfold has_buffer. destruct (i_bounds _ _ _ _ _ _ _ I) as [-> _]. reflexivity. Qed.

  Context (package : string) (f : field) (null_sdu : bool) (condition : expr) (CO : condition_ok p condition).
  Context (RE : refinement_errors [package] p f condition = []).
  Local Notation cfs := (condition_fields p condition).
  Local Notation ev := (aeval in_U64 (contains_look package p x)).

  Lemma refined_in : In f (p_fields p).
  Proof.
    unfold refinement_errors in RE. apply app_eq_nil in RE as [_ R]. apply app_eq_nil in R as [R _].
    destruct (find _ _) as [[k t]|] eqn:E; [|discriminate]. apply find_some in E as [E1 E2]. cbn in E2. apply String.eqb_eq in E2. subst k.
    apply (mo_fields _ MO). apply in_map_iff. exists (f, t). auto.
  Qed.
  Lemma cfs_field id t : In (id, t) cfs -> In (NVar id) (names condition) /\ In id (p_fields p) /\ In (id, t) (p_types p) /\ types id <> FComposite.
  Proof.
    intros J. apply condition_fields_in in J as [J1 J2]; [|apply CO].
    assert (J3 : In id (p_fields p)) by (apply (mo_fields _ MO); apply in_map_iff; exists (id, t); auto).
    split; [exact J2|]. split; [exact J3|]. split; [exact J1|]. now apply CO.
  Qed.
  Lemma known_iff id t e : In (id, t) (p_types p) -> always_valid t = true -> In e es -> e_fld e = id -> types id <> FComposite ->
    ev (ECall (CKnown id)) = Ok (VBool (known p id (e_val e))) /\ (known p id (e_val e) = true <-> usable p es id).
  Proof.
    intros T AV J E TC. destruct (entry_cursor e J) as (_ & _ & _ & _ & GF). rewrite E in GF.
    assert (V : valid_field x id = true) by (apply valid_iff; eauto; apply (mo_fields _ MO); apply in_map_iff; exists (id, t); auto).
    split.
    - rewrite ev_call. cbn [call_result]. unfold get_checked. rewrite V, GF. reflexivity.
    - unfold known. rewrite (dict_get_nodup _ _ _ (mo_dict _ MO) T). destruct t as [|pk ls size [|]| |]; try discriminate.
      rewrite existsb_exists. split.
      + intros (kv & K & Q). apply Z.eqb_eq in Q. exists e. split; [exact J|]. split; [exact E|]. intros pk' ls' size' T'.
        assert (X : Some (REnum pk' ls' size' true) = Some (REnum pk ls size true)).
        { rewrite <- (dict_get_nodup _ _ _ (mo_dict _ MO) T), <- (dict_get_nodup _ _ _ (mo_dict _ MO) T'). reflexivity. }
        injection X as -> -> ->. rewrite <- Q. now apply in_map.
      + intros (e' & J' & E' & U). assert (e' = e) by (apply entry_unique; congruence). subst e'. specialize (U _ _ _ T).
        apply in_map_iff in U as (kv & Q & K). exists kv. split; [exact K|]. now apply Z.eqb_eq.
  Qed.

  Theorem contains_inv k e g : contains_function k p f null_sdu condition = Ok e -> values p package es g ->
    exists bv, contains package p e x = Ok bv /\ (bv = true <-> refines_to p es g f null_sdu condition).
  Proof.
    intros C [VG VL]. pose proof refined_in as RF.
    assert (VF : forall id t, In (id, t) cfs -> valid_field x id = true -> exists v, get_field x id = Ok v).
    { intros id t J V. destruct (cfs_field id t J) as (_ & J2 & _ & J4). apply valid_iff in V as (e' & K & <-); auto.
      exists (e_val e'). now apply entry_cursor. }
    assert (FG : (forall h, In h (guards p f null_sdu condition) -> ev h = Ok (VBool true)) <->
      refined_field es f null_sdu /\ forall id t, In (id, t) cfs -> valid_field x id = true).
    { unfold guards, refinement_conditions. split.
      - intros H. split.
        + assert (H1 : forall h, In h (if null_sdu then [ECall (CStructural_Valid f); ENot (ECall (CPresent f))] else [ECall (CPresent f)]) -> ev h = Ok (VBool true)).
          { intros h J. apply H. apply in_or_app. right. apply in_or_app. now left. }
          destruct null_sdu.
          * apply null_iff; [exact RF|]. apply andb_true_iff. split.
            -- specialize (H1 _ (or_introl eq_refl)). rewrite ev_call in H1. apply Ok_inj in H1. now injection H1.
            -- specialize (H1 _ (or_intror (or_introl eq_refl))). 
               change (aeval in_U64 (contains_look package p x) (ENot (ECall (CPresent f)))) with
                 (let* v := ev (ECall (CPresent f)) in let* c := as_bool v in Ok (VBool (negb c))) in H1.
               rewrite ev_call in H1. cbn [call_result bind as_bool] in H1. apply Ok_inj in H1. now injection H1.
          * apply present_iff; [exact RF|]. specialize (H1 _ (or_introl eq_refl)). rewrite ev_call in H1. apply Ok_inj in H1. now injection H1.
        + intros id t J. assert (H1 : ev (ECall (CValid id)) = Ok (VBool true)).
          { apply H. apply in_or_app. right. apply in_or_app. right. apply in_map_iff. exists (id, t). auto. }
          rewrite ev_call in H1. apply Ok_inj in H1. now injection H1.
      - intros [R V] h J. apply in_app_or in J as [[<-|[]]|J]; [rewrite ev_call; cbn [call_result]; now rewrite has_buffer_true|].
        apply in_app_or in J as [J|J].
        + destruct null_sdu.
          * apply null_iff in R; [|exact RF]. apply andb_true_iff in R as [R1 R2]. destruct J as [<-|[<-|[]]].
            -- rewrite ev_call. cbn [call_result]. now rewrite R1.
            -- change (aeval in_U64 (contains_look package p x) (ENot (ECall (CPresent f)))) with
                 (let* v := ev (ECall (CPresent f)) in let* c := as_bool v in Ok (VBool (negb c))).
               rewrite ev_call. cbn [call_result bind as_bool]. now rewrite R2.
          * apply present_iff in R; [|exact RF]. destruct J as [<-|[]]. rewrite ev_call. cbn [call_result]. now rewrite R.
        + apply in_map_iff in J as ((id & t) & <- & J). rewrite ev_call. cbn [call_result fst]. now rewrite (V id t J). }
    assert (UV : refines_to p es g f null_sdu condition -> (forall h, In h (guards p f null_sdu condition) -> ev h = Ok (VBool true)) /\
      forall h, In h (knowns cfs) -> ev h = Ok (VBool true)).
    { intros (R1 & R2 & R3). split.
      - apply FG. split; [exact R1|]. intros id t J. destruct (cfs_field id t J) as (J1 & J2 & _ & J4). apply valid_iff; auto.
        destruct (R2 id J1 J2) as (e' & K & E & _). eauto.
      - intros h J. apply in_map_iff in J as ((id & t) & <- & J). apply filter_In in J as [J AV]. cbn [fst snd] in *.
        destruct (cfs_field id t J) as (J1 & J2 & J3 & J4). pose proof (R2 id J1 J2) as U. destruct U as (e' & K & E & U').
        destruct (known_iff id t e' J3 AV K E J4) as [-> KI]. f_equal. f_equal. apply KI. exists e'. auto. }
    destruct (contains_cases package p x f null_sdu condition MO CO k e C VF) as [AH|(EF & h & HF & HW)].
    - pose proof (proj1 (proj1 FG (proj1 AH))) as RFI. pose proof (proj2 (proj1 FG (proj1 AH))) as VAL.
      assert (GF : forall id t, In (id, t) cfs -> exists e', In e' es /\ e_fld e' = id).
      { intros id t J. destruct (cfs_field id t J) as (_ & J2 & _ & J4). apply valid_iff; eauto. }
      destruct (contains_true package p x f null_sdu condition MO CO k e C AH RE g) as (bv & E1 & E2).
      + intros id t J. destruct (GF id t J) as (e' & K & <-). exists (e_val e'). split; [|now apply VG].
        unfold get_checked. rewrite (VAL _ t J). now apply entry_cursor.
      + exact VL.
      + exists bv. split; [unfold contains; rewrite E2; reflexivity|].
        unfold refines_to. rewrite E1. split.
        * intros ->. split; [exact RFI|]. split; [|reflexivity]. intros id J1 J2. destruct (cond_field p condition MO CO id J1 J2) as (t & J & T).
          destruct (GF id t J) as (e' & K & E). destruct (always_valid t) eqn:AV.
          -- destruct (known_iff id t e' T AV K E ltac:(now apply CO)) as [KE KI]. apply KI.
             assert (X : ev (ECall (CKnown id)) = Ok (VBool true)).
             { apply AH. apply in_map_iff. exists (id, t). split; [reflexivity|]. apply filter_In. auto. }
             rewrite KE in X. apply Ok_inj in X. now injection X.
          -- exists e'. split; [exact K|]. split; [exact E|]. intros pk ls size T'. exfalso.
             assert (X : Some t = Some (REnum pk ls size true)).
             { rewrite <- (dict_get_nodup _ _ _ (mo_dict _ MO) T), <- (dict_get_nodup _ _ _ (mo_dict _ MO) T'). reflexivity. }
             injection X as ->. discriminate AV.
        * intros (_ & _ & X). now injection X.
    - exists false. split; [unfold contains; rewrite EF; reflexivity|]. split; [discriminate|]. intros R. exfalso. apply UV in R as [R1 R2].
      destruct HW as [HW|[_ HW]]; [rewrite (R1 h HW) in HF|rewrite (R2 h HW) in HF]; discriminate HF.
  Qed.

  Lemma contains_no_buffer k e x0 : contains_function k p f null_sdu condition = Ok e -> x_buffer x0 = None -> contains package p e x0 = Ok false.
  Proof.
    intros C NB. pose proof (contains_form p f null_sdu condition MO CO k e C) as N.
    unfold contains. erewrite (normal_stop in_U64 (contains_look package p x0) _ _ []); [reflexivity|exact N|reflexivity|intros h []|].
    rewrite ev_call. cbn [call_result]. unfold has_buffer. now rewrite NB.
  Qed.
End Contexts.

(** the inner context *)
Section SwitchProof.
  Context (n : nat) (m : message) (fields : list field) (types : field -> ftype) (constants : name -> option Z).
  Local Notation s := (structure m).
  Context (A : accepted n m fields types constants) (SC : scoped s fields).
  Context (x : context) (b : buffer) (es : list entry) (I : Inv s fields types constants x b es).

  Lemma switch_place e a l : In e es -> field_first s fields types constants x (e_fld e) = Ok a ->
    field_last s fields types constants x (e_fld e) = Ok l -> a = e_first e /\ l = e_last e /\ x_first x <= e_first e /\ e_last e <= x_last x.
  Proof.
    intros J FF FL. pose proof (acc_wf _ _ _ _ _ A) as W. pose proof (acc_det _ _ _ _ _ A) as DET. pose proof (acc_types _ _ _ _ _ A) as TS.
    apply in_split in J as (pre & post & ES). pose proof (i_run _ _ _ _ _ _ _ I) as R. rewrite ES in R.
    pose proof (run_step _ _ _ _ _ _ _ _ _ R) as (PL & _). pose proof PL as (lk' & k & IL & S & T & N & H & _).
    pose proof (i_cur _ _ _ _ _ _ _ I pre e post ES) as (V & _ & CP & _).
    assert (IFD : In (e_fld e) fields) by (eapply run_in_fields; eauto; apply in_or_app; right; now left).
    assert (SE : forall l0, In l0 s -> source l0 = last_fld pre -> sees fields types constants x pre l0).
    { intros l0 IL0 S0. eapply sees_scoped; eauto. }
    assert (LA : pre <> [] -> structural_valid (x_cursors x (last_fld pre)) = true -> c_last (x_cursors x (last_fld pre)) = end_bit (x_first x) pre).
    { intros NE _. destruct (exists_last NE) as (q & e0 & EP). subst pre. rewrite last_fld_snoc, end_bit_snoc.
      assert (ES' : es = q ++ e0 :: e :: post) by (rewrite ES, <- app_assoc; reflexivity).
      now pose proof (i_cur _ _ _ _ _ _ _ I q e0 (e :: post) ES') as (_ & _ & _ & _ & C & _). }
    unfold field_last in FL. rewrite FF in FL. cbn [bind] in FL. dbind FL z FS.
    assert (EL : a + z - 1 = l).
    { unfold bit_index in FL. destruct (_ && _) in FL; [|discriminate]. now apply Ok_inj in FL. }
    destruct (place_is s fields types constants W DET x b pre (e_fld e) (run_prefix _ _ _ _ _ _ _ _ R) CP SE LA IFD lk' IL S T H
                (e_fld e) a z (e_first e) (e_last e) FF FS PL) as (_ & Q1 & Q2 & Q3 & Q4 & Q5). lia.
  Qed.

  Lemma switch_inv sdu_fields e a l : In e es -> e_first e <= e_last e -> field_first s fields types constants x (e_fld e) = Ok a ->
    field_last s fields types constants x (e_fld e) = Ok l ->
    switch s fields types constants sdu_fields x (e_fld e) = Ok (set_buffer x None, initialize sdu_fields b (e_first e) (e_last e)) /\
    input b (e_first e) (e_last e).
  Proof.
    intros J PR FF FL. destruct (switch_place e a l J FF FL) as (-> & -> & L1 & L2).
    pose proof (i_bounds _ _ _ _ _ _ _ I) as (B1 & B2 & B3 & B4 & B5 & B6 & B7 & B8 & B9).
    assert (BI : forall u v, u <= v -> Byte_Index u <= Byte_Index v).
    { intros u v H. unfold Byte_Index. pose proof (Z.div_le_mono (u - 1) (v - 1) 8). lia. }
    assert (IP : initialize_pre b (e_first e) (e_last e) = true).
    { unfold initialize_pre. rewrite !andb_true_iff, !Z.ltb_lt, !Z.leb_le.
      pose proof (BI (x_first x) (e_first e) L1). pose proof (BI (e_last e) (x_last x) L2). pose proof (BI (e_first e) (e_last e) PR).
      assert (b_first b <= b_last b) by lia. unfold b_last in *. lia. }
    split; [|split; [exact B2|split; [lia|exact IP]]].
    unfold switch. rewrite FF, FL. cbn [bind]. unfold take_buffer. rewrite B1. cbn [bind]. now rewrite IP.
  Qed.
End SwitchProof.

(** ** C49 *)

(** A refinement is accepted iff the package is a single name, the refined field exists and is
    opaque, and every name of the condition is a field or a literal of an enumeration. *)
Theorem C49_accepted : forall package p f condition, NoDup (map fst (p_types p)) ->
  (refinement_errors package p f condition = [] <->
   List.length package = 1%nat /\ In (f, ROpaque) (p_types p) /\
   forall id, occurs id condition -> In id (p_fields p) \/ exists z, literal p (dotted package) id z).
Proof.
  intros package p f condition ND. unfold refinement_errors.
  assert (X : forall {T} (a b c : list T), a ++ b ++ c = [] <-> a = [] /\ b = [] /\ c = []).
  { intros T a b c. split; [|intros (-> & -> & ->); reflexivity]. intros E. apply app_eq_nil in E as [E1 E]. apply app_eq_nil in E as [E2 E]. auto. }
  rewrite X. clear X. assert (P1 : (if Nat.eqb (List.length package) 1 then [] else [EPackage]) = [] <-> List.length package = 1%nat).
  { destruct (Nat.eqb_spec (List.length package) 1); split; auto; try discriminate. contradiction. }
  assert (P2 : (match find (fun ft => String.eqb (fst ft) f) (p_types p) with
                | Some (_, ROpaque) => [] | Some _ => [EFieldType f] | None => [EField f] end) = [] <-> In (f, ROpaque) (p_types p)).
  { split.
    - destruct (find _ _) as [[k t]|] eqn:E; [|discriminate]. apply find_some in E as [E1 E2]. cbn in E2. apply String.eqb_eq in E2. subst k.
      destruct t; try discriminate. auto.
    - intros J. destruct (find _ _) as [[k t]|] eqn:E.
      + apply find_some in E as [E1 E2]. cbn in E2. apply String.eqb_eq in E2. subst k.
        assert (Q : Some t = Some ROpaque) by (rewrite <- (dict_get_nodup _ _ _ ND E1); now apply dict_get_nodup). injection Q as ->. reflexivity.
      + apply find_none with (x := (f, ROpaque)) in E; [|exact J]. cbn in E. rewrite String.eqb_refl in E. discriminate. }
  rewrite P1, P2. clear P1 P2.
  assert (P3 : flat_map (fun v : string * bool =>
      let literals := qualified_enum_literals (map snd (p_types p)) (dotted package) in
      if negb (memf (fst v) (p_fields p)) && negb (memf (fst v) (map fst literals)) then [EUnknown (fst v)] else []) (variables condition) = [] <->
    forall id, occurs id condition -> In id (p_fields p) \/ exists z, literal p (dotted package) id z).
  { cbv zeta. assert (LI : forall id, memf id (map fst (qualified_enum_literals (map snd (p_types p)) (dotted package))) = true <-> exists z, literal p (dotted package) id z).
    { intros id. rewrite memf_iff. split.
      - intros J. apply in_map_iff in J as ((k & z) & <- & J). exists z. now apply literals_spec.
      - intros (z & J). apply literals_spec in J. apply in_map_iff. exists (id, z). auto. }
    split.
    - intros E id O. destruct (memf id (p_fields p)) eqn:M1; [left; now apply memf_iff|].
      right. apply LI. destruct (memf id (map fst (qualified_enum_literals (map snd (p_types p)) (dotted package)))) eqn:M2; [reflexivity|]. exfalso.
      apply occurs_variables in O as (sg & O). assert (X : In (EUnknown id) []); [|destruct X]. rewrite <- E. apply in_flat_map.
      exists (id, sg). split; [exact O|]. cbn [fst]. rewrite M1, M2. now left.
    - intros H. assert (Q : forall v, In v (variables condition) -> memf (fst v) (p_fields p) = true \/
          memf (fst v) (map fst (qualified_enum_literals (map snd (p_types p)) (dotted package))) = true).
      { intros [id sg] J. destruct (H id) as [J'|J']; [apply occurs_variables; eauto|left; now apply memf_iff|right; now apply LI]. }
      induction (variables condition) as [|v l IH]; [reflexivity|]. cbn [flat_map]. rewrite IH by (intros; apply Q; now right).
      destruct (Q v (or_introl eq_refl)) as [-> | ->]; [reflexivity|]. now rewrite andb_false_r. }
  rewrite P3. tauto.
Qed.

(** The generator produces an expression for Contains. *)
Theorem C49_generated : forall p f null_sdu condition, message_of p -> condition_ok p condition ->
  exists n0, forall n, (n0 <= n)%nat -> exists e, contains_function n p f null_sdu condition = Ok e.
Proof.
  intros p f null_sdu condition MO CO. set (cfs := condition_fields p condition). set (M := contains_mapping cfs).
  set (G := fun nm => match nm with
    | NVar id => match decode id with Some (CGet _ | CEnum _) | None => VInt 0 | Some _ => VBool true end
    | NAttr _ _ => VInt 0 end : val).
  set (g := fun _ : name => VInt 0).
  assert (MC : forall nm e, M nm = Some e -> exists c, e = ECall c).
  { intros [id|a id] e0; cbn; [|discriminate]. destruct (dict_get cfs id); [|discriminate]. intros E. injection E as <-. eauto. }
  assert (GG : forall nm, In nm (names condition) -> G (image M nm) = g nm).
  { intros nm J. destruct (flat_names _ _ (co_flat _ _ CO) J) as (id & ->). unfold image, M, contains_mapping, G, g.
    destruct (dict_get cfs id) as [t|]; cbn [ECall EVar].
    - rewrite decode_call. now destruct (always_valid t).
    - now rewrite (identifier_decode id (co_names _ _ CO id J)). }
  assert (EC : forall c, match c with CGet _ | CEnum _ => False | _ => True end -> eval G (ECall c) = Some (VBool true)).
  { intros c K. unfold ECall, EVar. cbn [eval name_val]. unfold G. rewrite decode_call. destruct c; try contradiction; reflexivity. }
  assert (SU : exists c', (forall n, substituted (neg (simplify expr_eqb n)) M (known_guards cfs condition) = Ok (known_guards cfs c')) /\
    noarith c' = true /\ exists b, eval G c' = Some (VBool b)).
  { destruct (flat_defined g condition (co_flat _ _ CO)) as (b & B); [intros; exists 0; reflexivity|].
    destruct (flat_subst (fun _ => Err "x") M MC G g condition (co_flat _ _ CO) GG) as (c' & S & EV & NA & _). exists c'. split; [|rewrite EV; eauto].
    intros n. rewrite known_guards_subst.
    - assert (Q : substituted (neg (simplify expr_eqb n)) M condition = substituted (fun _ => Err "x") M condition).
      { apply flat_subst_any, CO. }
      rewrite Q, S. reflexivity.
    - intros k. unfold M, contains_mapping. destruct (dict_get cfs (call_name (CKnown k))) as [t|] eqn:D; [|reflexivity]. exfalso.
      apply dict_get_in in D. apply condition_fields_in in D as [D _]; [|apply CO]. eapply (identifier_call _ (CKnown k)); [|reflexivity].
      apply (mo_names _ MO). apply (mo_fields _ MO). apply in_map_iff. eexists. split; [|exact D]. reflexivity. }
  destruct SU as (c' & SU & NA & b & EV).
  assert (K0 : keeps (fun _ => True) (known_guards cfs c')) by (apply known_guards_keeps; [split; auto|auto]).
  assert (E0 : eval G (known_guards cfs c') = Some (VBool b)).
  { apply known_guards_eval; [|exact EV]. intros h J. apply in_map_iff in J as (ft & <- & _). now apply EC. }
  destruct (simplify_total expr_eqb expr_eqb_sound G (S (weight (known_guards cfs c'))) (known_guards cfs c') _ (Nat.lt_succ_diag_r _) (noarith_ok _ (proj1 K0)) E0) as (c1 & S1).
  pose proof (simplify_keeps _ _ _ _ S1 K0) as K1.
  assert (E1 : eval G c1 = Some (VBool b)).
  { destruct (simplify_good expr_eqb expr_eqb_sound _ _ _ S1) as (H & _). destruct (H (noarith_ok _ (proj1 K0))) as [_ R]. now apply R. }
  set (gs := refinement_conditions f cfs null_sdu). set (top := EAss OAndThen (gs ++ [c1])).
  assert (GS : forall h, In h gs -> noarith h = true /\ exists q, eval G h = Some (VBool q)).
  { intros h J. unfold gs, refinement_conditions in J. apply in_app_or in J as [[<-|[]]|J]; [split; [reflexivity|rewrite EC by exact Logic.I; eauto]|].
    apply in_app_or in J as [J|J].
    - destruct null_sdu; cbn [In] in J.
      + destruct J as [<-|[<-|[]]]; split; try reflexivity; [rewrite EC by exact Logic.I; eauto|].
        change (eval G (ENot (ECall (CPresent f)))) with (match eval G (ECall (CPresent f)) with Some v => not_val (Some v) | None => not_val None end).
        rewrite EC by exact Logic.I. cbn. eauto.
      + destruct J as [<-|[]]. split; [reflexivity|]. rewrite EC by exact Logic.I. eauto.
    - apply in_map_iff in J as (ft & <- & _). split; [reflexivity|]. rewrite EC by exact Logic.I. eauto. }
  assert (KT : keeps (fun _ => True) top).
  { apply keeps_ass; [reflexivity|]. apply Forall_app. split; [|now constructor]. apply Forall_forall. intros h J. split; [now apply GS|auto]. }
  assert (ET : exists v, eval G top = Some v).
  { unfold top. cbn [eval ass_val].
    assert (B3 : exists bs, bools (map (eval G) (gs ++ [c1])) = Some bs).
    { clear -GS E1. induction gs as [|h l IH]; cbn [map List.app bools].
      - rewrite E1. eauto.
      - destruct (GS h (or_introl eq_refl)) as (_ & q & ->). destruct IH as (bs & ->); [intros; apply GS; now right|]. eauto. }
    destruct B3 as (bs & ->). eauto. }
  destruct ET as (v & ET).
  destruct (simplify_total expr_eqb expr_eqb_sound G (S (weight top)) top v (Nat.lt_succ_diag_r _) (noarith_ok _ (proj1 KT)) ET) as (e & S2).
  exists (S (weight (known_guards cfs c')) + S (weight top))%nat. intros n L. exists e.
  assert (L1 : (S (weight (known_guards cfs c')) <= n)%nat) by lia. assert (L2 : (S (weight top) <= n)%nat) by lia.
  unfold contains_function, contains_condition. fold cfs M. rewrite SU. cbn [bind].
  rewrite (simplify_mono expr_eqb _ n L1 _ _ S1). cbn [bind]. exact (simplify_mono expr_eqb _ n L2 _ _ S2).
Qed.

(** In every context that results from verifying fields Contains is defined and true iff
    the refined field is there, the fields of the condition are there and the condition holds
    of their values. *)
Theorem C49_contains : forall n m p constants b first last fs x package f null_sdu condition k e,
  accepted n m (p_fields p) (gen_types p) constants -> message_of p -> condition_ok p condition ->
  refinement_errors [package] p f condition = [] -> contains_function k p f null_sdu condition = Ok e ->
  input b first last -> (forall f, In f fs -> In f (p_fields p)) ->
  verify_all (structure m) (p_fields p) (gen_types p) constants (initialize (p_fields p) b first last) fs = Ok x ->
  exists es, run (structure m) (gen_types p) constants first last b es /\ shows (p_fields p) x es /\
    forall g, values p package es g ->
      exists c, contains package p e x = Ok c /\ (c = true <-> refines_to p es g f null_sdu condition).
Proof.
  intros n m p constants b first last fs x package f null_sdu condition k e A MO CO RE C IN FS V.
  destruct (verified_inv n m _ _ constants A b first last fs x IN FS V) as (es & I & F & L & _). exists es.
  split; [rewrite <- F, <- L; apply I|]. split; [eapply inv_shows; eauto|]. intros g VG. eapply contains_inv; eauto.
Qed.
Theorem C49_contains_history : forall n m p constants b first last os x package f null_sdu condition k e,
  accepted n m (p_fields p) (gen_types p) constants -> scoped (structure m) (p_fields p) -> no_overlay (structure m) ->
  no_own_size (structure m) (gen_types p) -> message_of p -> condition_ok p condition ->
  refinement_errors [package] p f condition = [] -> contains_function k p f null_sdu condition = Ok e ->
  input b first last -> (forall o, In o os -> typed (p_fields p) (gen_types p) o) ->
  exec_all (structure m) (p_fields p) (gen_types p) constants (initialize (p_fields p) b first last) os = Ok x ->
  exists b' es, x_buffer x = Some b' /\ run (structure m) (gen_types p) constants first last b' es /\ shows (p_fields p) x es /\
    forall g, values p package es g ->
      exists c, contains package p e x = Ok c /\ (c = true <-> refines_to p es g f null_sdu condition).
Proof.
  intros n m p constants b first last os x package f null_sdu condition k e A SC NO NS MO CO RE C IN TY E.
  destruct (history_inv n m _ _ constants A b first last os x SC NO NS IN TY E) as (b' & es & I & F & L & _). exists b', es.
  split; [apply (i_bounds _ _ _ _ _ _ _ I)|]. split; [rewrite <- F, <- L; apply I|]. split; [eapply inv_shows; eauto|].
  intros g VG. eapply contains_inv; eauto.
Qed.
(** Without a buffer Contains is false. *)
Theorem C49_no_buffer : forall p package f null_sdu condition k e x,
  message_of p -> condition_ok p condition -> contains_function k p f null_sdu condition = Ok e ->
  has_buffer x = false -> contains package p e x = Ok false.
Proof.
  intros p package f null_sdu condition k e x MO CO C NB. eapply contains_no_buffer; eauto.
  unfold has_buffer in NB. destruct (x_buffer x); [discriminate|reflexivity].
Qed.

(** Switch_To moves the buffer into a context of the inner message whose bounds are exactly
    those of the refined field; nothing else of the outer context changes, and Contains is
    false of it afterwards. *)
Theorem C49_switch : forall n m p constants b first last fs x package f condition k e sdu_fields a l,
  accepted n m (p_fields p) (gen_types p) constants -> scoped (structure m) (p_fields p) ->
  message_of p -> condition_ok p condition ->
  refinement_errors [package] p f condition = [] -> contains_function k p f false condition = Ok e ->
  input b first last -> (forall f, In f fs -> In f (p_fields p)) ->
  verify_all (structure m) (p_fields p) (gen_types p) constants (initialize (p_fields p) b first last) fs = Ok x ->
  contains package p e x = Ok true ->
  field_first (structure m) (p_fields p) (gen_types p) constants x f = Ok a ->
  field_last (structure m) (p_fields p) (gen_types p) constants x f = Ok l ->
  exists x', switch (structure m) (p_fields p) (gen_types p) constants sdu_fields x f = Ok (x', initialize sdu_fields b a l) /\
    a = c_first (x_cursors x f) /\ l = c_last (x_cursors x f) /\ first <= a /\ l <= last /\ input b a l /\
    x_cursors x' = x_cursors x /\ has_buffer x' = false /\ contains package p e x' = Ok false.
Proof.
  intros n m p constants b first last fs x package f condition k e sdu_fields a l A SC MO CO RE C IN FS V CT FF FL.
  destruct (verified_inv n m _ _ constants A b first last fs x IN FS V) as (es & I & F & L & _).
  set (lits := qualified_enum_literals (map snd (p_types p)) package).
  assert (PR : refined_field es f false).
  { destruct (contains_cases package p x f false condition MO CO k e C) as [[AG _]|(EF & _)].
    - intros id t J VF. destruct (cfs_field p MO condition CO id t J) as (_ & J2 & _ & J4).
      apply (valid_iff n m p constants A x b es I id J2 J4) in VF as (e' & K & <-). exists (e_val e'). eapply entry_cursor; eauto.
    - apply (present_iff m p constants x b es I); [eapply refined_in; eauto|].
      assert (H : aeval in_U64 (contains_look package p x) (ECall (CPresent f)) = Ok (VBool true)).
      { apply AG. unfold guards, refinement_conditions. apply in_or_app. right. now left. }
      rewrite ev_call in H. apply Ok_inj in H. now injection H.
    - unfold contains in CT. rewrite EF in CT. discriminate CT. }
  destruct PR as (en & J & <- & LE).
  destruct (switch_place n m _ _ constants A SC x b es I en a l J FF FL) as (-> & -> & L1 & L2).
  destruct (switch_inv n m _ _ constants A SC x b es I sdu_fields en _ _ J LE FF FL) as [SW IN'].
  destruct (entry_cursor m p constants x b es I en J) as (_ & _ & C1 & C2 & _).
  exists (set_buffer x None). split; [exact SW|]. split; [now rewrite C1|]. split; [now rewrite C2|]. split; [lia|]. split; [lia|]. split; [exact IN'|].
  split; [reflexivity|]. split; [reflexivity|]. eapply contains_no_buffer; eauto.
Qed.

(** ** Cases *)

(** the message of P_Gen; the tag is an enumeration with literals "data" and "error" of
    package "p", the second message has an always valid one *)
Definition tag_pdu (a : bool) : pdu := mkPdu tlv_fields
  [("tag", REnum "p" [("data", 1); ("error", 3)] 8 a); ("length", RNumber 16 (fun _ => true)); ("value", ROpaque)].
Definition v_is (f l : string) : expr := ERel OEq (EName (NVar f) false) (EName (NVar l) false).
(** "if Tag = Data and Length = 2", in package "p" *)
Definition data_of_two : expr := EAss OAnd [v_is "tag" "data"; var_is "length" 2].
Definition tag_verify (p : pdu) (data : list Z) (last : Z) : res context :=
  verify_message (structure tlv) tlv_fields (gen_types p) no_constants (initialize tlv_fields (mkBuffer 1 data) 1 last).
Definition tag_contains (p : pdu) (null : bool) (condition : expr) (data : list Z) (last : Z) : res bool :=
  let* e := contains_function 30 p "value" null condition in
  let* x := tag_verify p data last in
  contains "p" p e x.

Example C49_meets : forall a, let p := tag_pdu a in
  accepted 20 tlv (p_fields p) (gen_types p) no_constants /\ scoped (structure tlv) (p_fields p) /\ no_overlay (structure tlv) /\
  no_own_size (structure tlv) (gen_types p) /\ message_of p /\ condition_ok p data_of_two /\
  refinement_errors ["p"] p "value" data_of_two = [] /\
  exists e x, contains_function 30 p "value" false data_of_two = Ok e /\ tag_verify p [1; 0; 2; 7; 8] 40 = Ok x /\
    contains "p" p e x = Ok true /\ input (mkBuffer 1 [1; 0; 2; 7; 8]) 1 40 /\
    field_first (structure tlv) (p_fields p) (gen_types p) no_constants x "value" = Ok 25 /\
    field_last (structure tlv) (p_fields p) (gen_types p) no_constants x "value" = Ok 40.
Proof.
  intros a p. destruct C37_meets as (A & SC & NO & NS & _).
  split; [constructor; try apply A|].
  - intros f size vd. unfold gen_types, p, tag_pdu, dict_get. cbn [p_types rev List.app find fst snd].
    destruct (String.eqb "value" f); [discriminate|]. destruct (String.eqb "length" f); [intros E; injection E as <- <-; lia|].
    destruct (String.eqb "tag" f); [intros E; injection E as <- <-; lia|discriminate].
  - intros first last b es l1 l2 _ I1 I2 S1 S2 H1 H2. rewrite <- S2 in S1.
    destruct I1 as [<-|[<-|[<-|[<-|[<-|[]]]]]]; destruct I2 as [<-|[<-|[<-|[<-|[<-|[]]]]]]; try discriminate S1; try reflexivity.
    + apply (var_is_holds _ _ _ _ "tag" 1) in H1; [|reflexivity]. apply (var_is_holds _ _ _ _ "tag" 3) in H2; [|reflexivity]. congruence.
    + apply (var_is_holds _ _ _ _ "tag" 3) in H1; [|reflexivity]. apply (var_is_holds _ _ _ _ "tag" 1) in H2; [|reflexivity]. congruence.
  - split; [exact SC|]. split; [exact NO|]. split.
    { intros l J _ K. repeat (destruct J as [<-|J]; [cbn in K; decompose [or] K; try discriminate; try contradiction|]). destruct J. }
    split; [constructor|].
    + repeat constructor; cbn; intuition discriminate.
    + intros f. cbn. tauto.
    + intros f J. cbn in J. decompose [or] J; subst; try contradiction; discriminate.
    + split; [constructor|].
      * reflexivity.
      * intros id J. cbn in J. decompose [or] J; try contradiction; match goal with H : _ = NVar id |- _ => injection H as <- end; discriminate.
      * intros id J K. cbn in J. decompose [or] J; try contradiction; match goal with H : _ = NVar id |- _ => injection H as <- end; try discriminate.
        exfalso. cbn in K. decompose [or] K; try contradiction; discriminate.
      * split; [reflexivity|].
        destruct (contains_function 30 p "value" false data_of_two) as [e|] eqn:E; [|destruct a; vm_compute in E; discriminate].
        destruct (tag_verify p [1; 0; 2; 7; 8] 40) as [x|] eqn:V; [|destruct a; vm_compute in V; discriminate].
        exists e, x. split; [reflexivity|]. split; [reflexivity|]. split.
        { enough (Q : tag_contains p false data_of_two [1; 0; 2; 7; 8] 40 = Ok true) by (unfold tag_contains in Q; now rewrite E, V in Q).
          destruct a; vm_compute; reflexivity. }
        split; [exact tlv_input|]. 
        assert (Q : (let* x := tag_verify p [1; 0; 2; 7; 8] 40 in
                     let* u := field_first (structure tlv) (p_fields p) (gen_types p) no_constants x "value" in
                     let* w := field_last (structure tlv) (p_fields p) (gen_types p) no_constants x "value" in Ok (u, w)) = Ok (25, 40))
          by (destruct a; vm_compute; reflexivity).
        rewrite V in Q. cbn [bind] in Q. destruct (field_first _ _ _ _ x "value") as [u|]; [|discriminate Q]. cbn [bind] in Q.
        destruct (field_last _ _ _ _ x "value") as [w|]; [|discriminate Q]. apply Ok_inj in Q. injection Q as -> ->. auto.
Qed.
(** an environment with the values: hypothesis of the theorems on Contains *)
Example C49_values : forall a, values (tag_pdu a) "p"
  [mkEntry "tag" 1 8 1; mkEntry "length" 9 24 2; mkEntry "value" 25 40 0]
  (fun n => match n with
            | NVar "tag" => VInt 1 | NVar "length" => VInt 2
            | NVar "data" | NVar "p.data" => VInt 1 | NVar "error" | NVar "p.error" => VInt 3
            | _ => VInt 0 end).
Proof.
  intros a. split.
  - intros e J. cbn in J. decompose [or] J; subst; try contradiction; reflexivity.
  - intros id z _ J. apply literals_spec in J. cbn in J. decompose [or] J; try contradiction;
      match goal with H : _ = (id, z) |- _ => injection H as <- <- end; reflexivity.
Qed.
(** true; wrong length; wrong tag; a tag that is no literal (second message); no bytes *)
Example C49_case : 
  tag_contains (tag_pdu false) false data_of_two [1; 0; 2; 7; 8] 40 = Ok true /\
  tag_contains (tag_pdu false) false data_of_two [1; 0; 1; 7; 8] 40 = Ok false /\
  tag_contains (tag_pdu false) false data_of_two [3; 0; 2; 7; 8] 40 = Ok false /\
  tag_contains (tag_pdu true) false data_of_two [1; 0; 2; 7; 8] 40 = Ok true /\
  tag_contains (tag_pdu true) false data_of_two [2; 0; 2; 7; 8] 40 = Ok false /\
  tag_contains (tag_pdu true) true (v_is "tag" "p.data") [1; 0; 0] 24 = Ok true /\
  tag_contains (tag_pdu true) true (v_is "tag" "p.data") [1; 0; 1; 0] 32 = Ok false.
Proof. repeat split; vm_compute; reflexivity. Qed.
Example C49_expression : contains_function 30 (tag_pdu true) "value" false data_of_two =
  Ok (EAss OAndThen [ECall CHas_Buffer; ECall (CPresent "value"); ECall (CValid "tag"); ECall (CValid "length");
                     ECall (CKnown "tag");
                     EAss OAnd [ERel OEq (ECall (CEnum "tag")) (EVar "data"); ERel OEq (ECall (CGet "length")) (ENum 2)]]).
Proof. vm_compute. reflexivity. Qed.
Example C49_rejected :
  refinement_errors ["p"; "q"] (tag_pdu false) "length" (v_is "tag" "other") = [EPackage; EFieldType "length"; EUnknown "other"] /\
  refinement_errors ["q"] (tag_pdu false) "payload" (v_is "tag" "data") = [EField "payload"; EUnknown "data"] /\
  refinement_errors ["q"] (tag_pdu false) "value" (v_is "tag" "p.data") = [].
Proof. repeat split; vm_compute; reflexivity. Qed.

(** Not every accepted condition gives a function that compiles: the names below a negation or
    an arithmetic operator are not replaced. *)
Theorem C49_condition_refuted : exists p f b x,
  message_of p /\ input b 1 40 /\
  verify_message (structure tlv) (p_fields p) (gen_types p) no_constants (initialize (p_fields p) b 1 40) = Ok x /\
  structural_valid_message (structure tlv) (p_fields p) (gen_types p) no_constants 10 x = Ok true /\
  forall c, In c [ENot (v_is "tag" "error"); ERel OEq (EAss OAdd [EVar "length"; ENum 1]) (ENum 3);
                  ERel OEq (EBin OSub (EVar "length") (ENum 1)) (ENum 1)] ->
    refinement_errors ["p"] p f c = [] /\ exists e, contains_function 30 p f false c = Ok e /\ contains "p" p e x = Err "undefined".
Proof.
  exists (tag_pdu false), "value", (mkBuffer 1 [1; 0; 2; 7; 8]).
  destruct (tag_verify (tag_pdu false) [1; 0; 2; 7; 8] 40) as [x|] eqn:V; [|vm_compute in V; discriminate]. exists x.
  split; [apply (C49_meets false)|]. split; [exact tlv_input|]. split; [exact V|]. split.
  - assert (Q : (let* x := tag_verify (tag_pdu false) [1; 0; 2; 7; 8] 40 in
      structural_valid_message (structure tlv) tlv_fields (gen_types (tag_pdu false)) no_constants 10 x) = Ok true) by (vm_compute; reflexivity).
    now rewrite V in Q.
  - intros c J. assert (Q : tag_contains (tag_pdu false) false c [1; 0; 2; 7; 8] 40 = Err "undefined").
    { destruct J as [<-|[<-|[<-|[]]]]; vm_compute; reflexivity. }
    split; [destruct J as [<-|[<-|[<-|[]]]]; vm_compute; reflexivity|]. unfold tag_contains in Q.
    destruct (contains_function 30 (tag_pdu false) "value" false c) as [e|] eqn:E.
    + exists e. split; [reflexivity|]. now rewrite V in Q.
    + exfalso. destruct J as [<-|[<-|[<-|[]]]]; vm_compute in E; discriminate.
Qed.

Print Assumptions C49_accepted.
Print Assumptions C49_generated.
Print Assumptions C49_contains.
Print Assumptions C49_contains_history.
Print Assumptions C49_no_buffer.
Print Assumptions C49_switch.
Print Assumptions C49_condition_refuted.
