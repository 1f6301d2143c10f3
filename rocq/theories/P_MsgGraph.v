(** Properties C22 (order of fields), C23 (paths), C24 (definite predecessors) and
    C25 (field conditions) of the message graph. *)
From Coq Require Import String List ZArith Bool Arith Lia.
From Verif Require Import Base Expr ExprEval ExprFacts ExprTotal ExprMore P_Expr MsgGraph MsgGraphFacts.
Import ListNotations.
Local Open Scope string_scope.
Local Open Scope list_scope.
Local Open Scope nat_scope.
Local Notation length := List.length.

(** a connected sequence of links of [s] that leads from [a] to [b] *)
Fixpoint leads (s : list link) (a : field) (p : list link) (b : field) : Prop :=
  match p with
  | [] => a = b
  | l :: p' => In l s /\ source l = a /\ leads s (target l) p' b
  end.
Definition acyclic (s : list link) : Prop := forall f p, p <> [] -> ~ leads s f p f.

Lemma leads_chain s p : forall a b, leads s a p b <-> chain s a p b.
Proof. induction p as [|l p IH]; intros a b; cbn; [tauto|]. now rewrite IH. Qed.

Lemma err_if_nil b m : err_if b m = [] <-> b = false.
Proof. destruct b; cbn; split; congruence. Qed.

Lemma no_duplicates s : has_duplicates s = false -> NoDup s.
Proof.
  induction s as [|l s IH]; intros H; [constructor|]. cbn [has_duplicates] in H.
  apply orb_false_iff in H as [H1 H2]. constructor; [|auto]. intros I.
  assert (X : existsb (link_key_eqb l) s = true); [|congruence].
  apply existsb_exists. exists l. split; [exact I|]. unfold link_key_eqb.
  rewrite !String.eqb_refl, (proj2 (expr_eqb_iff _ _) eq_refl). reflexivity.
Qed.

(** what acceptance of a non-empty structure means *)
Lemma accepted n m fields : structure m <> [] -> construct n m = Ok ([], fields) ->
  exists r v, inv (structure m) [] r v /\ (forall l, In l (structure m) -> In l v) /\
    uniq (structure m) [] r v /\ NoDup (structure m) /\
    fields = filter (fun f => negb (memf f [INITIAL; FINAL])) r /\
    unreachable m = false /\ validate_first m = Ok [] /\ validate_second m = [].
Proof.
  intros Ne H. unfold construct in H.
  assert (H' : bind (validate_first m) (fun e1 => match e1 with
    | _ :: _ => Ok (e1, [])
    | [] => bind (topological_sorting (structure m) n (unreachable m)) (fun t =>
        match t with None => Ok (validate_second m ++ ["structure contains cycle"], [])
        | Some fields => Ok (validate_second m, fields) end) end) = Ok ([], fields)).
  { destruct (structure m); [congruence|exact H]. }
  clear H. rename H' into H.
  destruct (validate_first m) as [e1|] eqn:V1; cbn [bind] in H; [|discriminate].
  destruct e1; [|apply Ok_inj in H; discriminate].
  destruct (topological_sorting (structure m) n (unreachable m)) as [t|] eqn:T; cbn [bind] in H; [|discriminate].
  destruct t as [fs|]; apply Ok_inj in H; injection H as V2 E; [|destruct (validate_second m); discriminate]. subst fs.
  pose proof V2 as V2'. unfold validate_second in V2.
  apply app_eq_nil in V2 as [A V2]. apply app_eq_nil in V2 as [B C].
  apply err_if_nil in A, B. apply no_duplicates in B.
  unfold topological_sorting in T. destruct (kahn (structure m) n [INITIAL] [] []) as [[r v]|] eqn:K; cbn [bind] in T; [|discriminate].
  rewrite A in T. cbn [negb andb] in T.
  destruct (forallb (fun l => meml l v) (structure m)) eqn:F; cbn [negb] in T; [|apply Ok_inj in T; discriminate].
  apply Ok_inj in T. injection T as <-. exists r, v.
  pose proof (kahn_inv _ _ _ _ _ _ _ (inv_start _) K) as I.
  assert (ALL : forall l, In l (structure m) -> In l v).
  { intros l Il. rewrite forallb_forall in F. apply meml_iff, F, Il. }
  split; [exact I|]. split; [exact ALL|]. split; [|auto].
  refine (kahn_uniq _ B n _ _ _ _ _ _ (inv_start _) (uniq_start _) K).
  intros l Il. eapply f_no_initial; eauto.
Qed.

Lemma empty_or n m fields : construct n m = Ok ([], fields) ->
  structure m <> [] \/ (structure m = [] /\ type_fields m = [] /\ fields = []).
Proof.
  intros H. destruct (structure m) as [|l s] eqn:E; [right|left; discriminate].
  unfold construct in H. rewrite E in H. destruct (type_fields m) as [|f t] eqn:T.
  - apply Ok_inj in H. injection H as <-. auto.
  - unfold validate_first in H. rewrite E in H. discriminate H.
Qed.

(** ** C22 *)

(** an accepted structure has exactly one initial link, a type for every field and
    no other types; the sorted fields are the fields of the structure, each once *)
Theorem C22_fields : forall n m fields, construct n m = Ok ([], fields) ->
  NoDup fields /\
  (forall f, In f fields <-> f <> INITIAL /\ f <> FINAL /\
     exists l, In l (structure m) /\ (source l = f \/ target l = f)) /\
  (forall f, f <> INITIAL -> f <> FINAL -> (In f fields <-> In f (type_fields m))) /\
  (forall f, In f fields -> exists p, leads (structure m) INITIAL p f).
Proof.
  intros n m fields H. destruct (empty_or _ _ _ H) as [Ne|(E & T & ->)].
  2:{ rewrite E, T. cbn. split; [constructor|]. split; [|split; [tauto|intros f []]].
      intros f. split; [intros []|intros (_ & _ & l & [] & _)]. }
  destruct (accepted _ _ _ Ne H) as (r & v & I & ALL & U & ND & EF & UR & V1 & _).
  assert (FR : forall f, In f fields <-> In f r /\ f <> INITIAL /\ f <> FINAL).
  { intros f. rewrite EF, filter_In, negb_true_iff, <- not_true_iff_false, memf_iff. cbn. intuition congruence. }
  assert (RF : forall f, In f r <-> f = INITIAL \/ exists l, In l (structure m) /\ (source l = f \/ target l = f)).
  { intros f. split.
    - intros J. destruct (i_origin _ _ _ _ I f) as [->|(_ & l & K & T & _)]; [now rewrite app_nil_r| |]; eauto.
    - intros [->|(l & K & [<-|<-])]; [eapply f_initial|eapply f_source|eapply f_target]; eauto. }
  assert (X : forall f, In f fields <-> f <> INITIAL /\ f <> FINAL /\
     exists l, In l (structure m) /\ (source l = f \/ target l = f)).
  { intros f. rewrite FR, RF. intuition congruence. }
  split; [rewrite EF; apply NoDup_filter; eapply r_nodup; eauto|]. split; [exact X|]. split.
  - intros f N1 N2. rewrite X. unfold validate_first in V1.
    destruct (outgoing (structure m) INITIAL) as [|l0 t0]; [discriminate|].
    apply Ok_inj in V1. apply app_eq_nil in V1 as [E1 V1]. apply app_eq_nil in V1 as [E2 _].
    apply err_if_nil in E1, E2.
    assert (SF : forall f, In f (map source (structure m) ++ map target (structure m)) <->
      exists l, In l (structure m) /\ (source l = f \/ target l = f)).
    { intros x. rewrite in_app_iff, !in_map_iff. split; [intros [(l & A & B)|(l & A & B)]; eauto|].
      intros (l & A & [B|B]); [left|right]; eauto. }
    split.
    + intros (_ & _ & L). apply SF in L. apply not_true_iff_false in E1. rewrite existsb_exists in E1.
      destruct (in_dec String.string_dec f (type_fields m)) as [J|J]; [exact J|]. exfalso. apply E1.
      exists f. split; [exact L|]. apply negb_true_iff, not_true_iff_false. rewrite memf_iff, in_app_iff. cbn. intuition congruence.
    + intros J. split; [exact N1|]. split; [exact N2|]. apply SF.
      apply not_true_iff_false in E2. rewrite existsb_exists in E2.
      destruct (in_dec String.string_dec f (map source (structure m) ++ map target (structure m))) as [K|K]; [exact K|].
      exfalso. apply E2. exists f. split; [apply in_or_app; now left|].
      apply andb_true_iff. rewrite !negb_true_iff, <- !not_true_iff_false, memf_iff, String.eqb_eq. auto.
  - intros f J. apply FR in J as [J _]. destruct (f_reach _ _ _ I _ J) as (p & C).
    exists p. now apply leads_chain.
Qed.
(** every field comes after all sources of links leading to it *)
Theorem C22_order : forall n m fields l, construct n m = Ok ([], fields) -> In l (structure m) ->
  source l <> INITIAL -> source l <> FINAL -> target l <> FINAL ->
  exists a b c, fields = a ++ source l :: b ++ target l :: c.
Proof.
  intros n m fields l H Il N1 N2 N3.
  assert (Ne : structure m <> []) by (intros E; rewrite E in Il; destruct Il).
  destruct (accepted _ _ _ Ne H) as (r & v & I & ALL & U & ND & EF & _).
  pose proof (f_no_initial _ _ _ I ALL l Il) as N4.
  destruct (in_split _ _ (f_source _ _ _ I ALL _ Il)) as (a & b & E).
  pose proof (f_later _ _ _ I ALL _ _ _ _ E Il eq_refl) as J. apply in_split in J as (b1 & c & ->).
  set (k := fun f => negb (memf f [INITIAL; FINAL])) in *.
  exists (filter k a), (filter k b1), (filter k c).
  rewrite EF, E, filter_app. cbn [filter].
  assert (K : forall f, f <> INITIAL -> f <> FINAL -> k f = true).
  { intros f A B. unfold k. apply negb_true_iff, not_true_iff_false. rewrite memf_iff. cbn. intuition congruence. }
  rewrite K by assumption. f_equal. f_equal. rewrite filter_app. cbn [filter]. now rewrite K.
Qed.
(** an accepted structure has no cycle, not even through the initial or final node *)
Theorem C22_no_cycle : forall n m fields, construct n m = Ok ([], fields) -> acyclic (structure m).
Proof.
  intros n m fields H f p Np C.
  assert (Ne : structure m <> []) by (intros E; destruct p; [congruence|destruct C as [C _]; rewrite E in C; destruct C]).
  destruct (accepted _ _ _ Ne H) as (r & v & I & ALL & U & ND & EF & _).
  apply leads_chain in C. refine (f_acyclic _ _ _ I ALL f p _ Np C).
  destruct p as [|l p]; [congruence|]. destruct C as (Il & <- & _). eapply f_source; eauto.
Qed.
Theorem C22_first : forall n m fields, construct n m = Ok ([], fields) -> structure m <> [] ->
  exists l, (forall l', In l' (structure m) /\ source l' = INITIAL <-> l' = l) /\ lfirst l = None.
Proof.
  intros n m fields H Ne. destruct (accepted _ _ _ Ne H) as (r & v & _ & _ & _ & _ & _ & _ & V1 & _).
  unfold validate_first in V1. destruct (outgoing (structure m) INITIAL) as [|l t] eqn:O; [discriminate|].
  apply Ok_inj in V1. apply app_eq_nil in V1 as [_ V1]. apply app_eq_nil in V1 as [_ V1].
  apply app_eq_nil in V1 as [E3 V1]. apply app_eq_nil in V1 as [E4 _]. apply err_if_nil in E3, E4.
  destruct t as [|x t]; [|discriminate E3]. exists l. split.
  - intros l'. rewrite <- in_outgoing, O. cbn. intuition congruence.
  - destruct (lfirst l); [discriminate|reflexivity].
Qed.

(** conversely the sorting always ends without finding a cycle if there is none *)
Section Complete.
  Variable s : list link.
  Hypothesis NDs : NoDup s.
  Hypothesis AC : acyclic s.
  Hypothesis RE : forall l, In l s -> source l = INITIAL \/ exists l', In l' s /\ target l' = source l.

  Lemma leads_nodup p : forall a b, leads s a p b -> NoDup p.
  Proof.
    induction p as [|l p IH]; intros a b C; [constructor|]. cbn in C. destruct C as (Il & Sl & C).
    constructor; [|eauto]. intros J. apply in_split in J as (y & z & ->).
    apply leads_chain in C.
    assert (X : chain s (target l) y (source l)).
    { clear -C. revert C. generalize (target l). induction y as [|x y IH]; intros a C; cbn in *; [|intuition auto].
      destruct C as (_ & <- & _). reflexivity. }
    apply (AC (source l) (l :: y)); [discriminate|]. cbn. split; [exact Il|]. split; [reflexivity|].
    now apply leads_chain.
  Qed.
  Lemma leads_incl p : forall a b, leads s a p b -> incl p s.
  Proof.
    induction p as [|l p IH]; intros a b C x; [intros []|]. cbn in C. destruct C as (Il & _ & C).
    intros [<-|J]; [exact Il|]. eapply IH; eauto.
  Qed.
  Lemma origin l : In l s -> exists p, leads s INITIAL p (source l).
  Proof.
    intros I.
    assert (X : forall k, (exists p, leads s INITIAL p (source l)) \/
      exists p a, leads s a p (source l) /\ length p = k /\ exists l0, In l0 s /\ source l0 = a).
    { induction k as [|k IH]; [right; exists [], (source l); repeat split; eauto|].
      destruct IH as [IH|(p & a & C & L & l0 & I0 & S0)]; [now left|].
      destruct (RE _ I0) as [E|(l1 & I1 & T1)].
      + left. exists p. rewrite <- E, S0. exact C.
      + right. exists (l1 :: p), (source l1). split; [|split; [cbn; congruence|eauto]].
        cbn. split; [exact I1|]. split; [reflexivity|]. now rewrite T1, S0. }
    destruct (X (S (length s))) as [H|(p & a & C & L & _)]; [exact H|]. exfalso.
    pose proof (NoDup_incl_length (leads_nodup _ _ _ C) (leads_incl _ _ _ C)). lia.
  Qed.
  Lemma no_link_to_initial l : In l s -> target l <> INITIAL.
  Proof.
    intros I T. destruct (origin l I) as (p & C). apply (AC INITIAL (p ++ [l])); [destruct p; discriminate|].
    apply leads_chain, chain_snoc. rewrite <- leads_chain. auto.
  Qed.
  Lemma all_visited r v : inv s [] r v -> forall l, In l s -> In l v.
  Proof.
    intros [IV IO IL IC II IR] l Il. destruct (in_dec link_eq_dec l v) as [J|J]; [exact J|]. exfalso.
    assert (X : forall k, exists p a, leads s a p (source l) /\ length p = k /\
      exists l0, In l0 s /\ ~ In l0 v /\ source l0 = a).
    { induction k as [|k (p & a & C & L & l0 & I0 & V0 & S0)]; [exists [], (source l); repeat split; eauto|].
      assert (NR : ~ In (source l0) r) by (intros K; apply V0, IV; auto).
      destruct (RE _ I0) as [E|(l1 & I1 & T1)].
      - exfalso. apply NR. rewrite E. destruct II as (t & Et). rewrite app_nil_r in Et. rewrite Et. now left.
      - destruct (done_dec s v (source l0)) as [D|(l2 & I2 & T2 & V2)].
        + exfalso. apply NR. rewrite <- T1. rewrite <- (app_nil_r r). apply IC.
          * now apply D.
          * now rewrite T1.
        + exists (l2 :: p), (source l2). split; [|split; [cbn; congruence|eauto]].
          cbn. split; [exact I2|]. split; [reflexivity|]. now rewrite T2, S0. }
    destruct (X (S (length s))) as (p & a & C & L & _).
    pose proof (NoDup_incl_length (leads_nodup _ _ _ C) (leads_incl _ _ _ C)). lia.
  Qed.
End Complete.

Theorem C22_complete : forall n m, validate_first m = Ok [] -> validate_second m = [] ->
  acyclic (structure m) -> length (structure m) + 1 < n ->
  exists fields, construct n m = Ok ([], fields).
Proof.
  intros n m V1 V2 AC L.
  pose proof V2 as V. unfold validate_second in V. apply app_eq_nil in V as [A V]. apply app_eq_nil in V as [B _].
  apply err_if_nil in A, B. apply no_duplicates in B.
  assert (RE : forall l, In l (structure m) -> source l = INITIAL \/ exists l', In l' (structure m) /\ target l' = source l).
  { intros l Il. destruct (String.eqb_spec (source l) INITIAL) as [E|N]; [now left|right].
    unfold unreachable in A. apply not_true_iff_false in A. rewrite existsb_exists in A.
    destruct (in_dec String.string_dec (source l) (map target (structure m))) as [J|J].
    - apply in_map_iff in J as (l' & E & J). eauto.
    - exfalso. apply A. exists (source l). split; [apply in_or_app; left; now apply in_map|].
      apply andb_true_iff. rewrite !negb_true_iff, <- !not_true_iff_false, String.eqb_eq, memf_iff. auto. }
  assert (Ne : structure m <> []).
  { intros E. unfold validate_first in V1. rewrite E in V1. discriminate V1. }
  destruct (kahn_total (structure m) B n (no_link_to_initial _ AC RE) [INITIAL] [] []
              (inv_start _) (uniq_start _)) as ((r & v) & K); [cbn; lia|].
  pose proof (all_visited _ AC RE r v (kahn_inv _ _ _ _ _ _ _ (inv_start _) K)) as ALL.
  assert (F : forallb (fun l => meml l v) (structure m) = true)
    by (apply forallb_forall; intros l Il; apply meml_iff; auto).
  exists (filter (fun f => negb (memf f [INITIAL; FINAL])) r).
  unfold construct. destruct (structure m) as [|l0 s0] eqn:E; [congruence|].
  rewrite V1. cbn [bind]. unfold topological_sorting. rewrite <- E in *. rewrite K. cbn [bind].
  rewrite F, andb_false_r. cbn [bind]. now rewrite V2.
Qed.

Definition lk a b c := mkLink a b c None None.
(** a diamond: a first field, two alternatives, a common last field *)
Definition diamond : message := mkMessage
  [lk INITIAL "a" ETrue;
   lk "a" "b" (ERel OGt (EVar "a") (ENum 5)); lk "a" "c" (ERel OLe (EVar "a") (ENum 5));
   lk "b" "d" ETrue; lk "c" "d" ETrue; lk "d" FINAL ETrue]
  ["d"; "b"; "a"; "c"] [].
Example C22_case : construct 20 diamond = Ok ([], ["a"; "b"; "c"; "d"]).
Proof. reflexivity. Qed.
Example C22_cycle_case : construct 20 (mkMessage
  [lk INITIAL "a" ETrue; lk "a" "b" ETrue; lk "b" "c" ETrue; lk "c" "b" EFalse; lk "c" FINAL ETrue]
  ["a"; "b"; "c"] []) = Ok (["structure contains cycle"], []).
Proof. reflexivity. Qed.

(** with a link back to the initial node the sorting never ends *)
Theorem C22_initial_loop_refuted : exists m, validate_first m = Ok [] /\ validate_second m = [] /\
  forall n, construct n m = Err out_of_fuel.
Proof.
  exists (mkMessage [lk INITIAL "a" ETrue; lk "a" INITIAL ETrue] ["a"] []).
  split; [reflexivity|]. split; [reflexivity|]. intros n.
  set (s := [lk INITIAL "a" ETrue; lk "a" INITIAL ETrue]).
  assert (X : forall n f r v, (f = INITIAL \/ f = "a" /\ In (lk INITIAL "a" ETrue) v) ->
              kahn s n [f] r v = Err out_of_fuel).
  { clear n. induction n as [|n IH]; intros f r v H; [reflexivity|]. cbn [kahn].
    destruct H as [->|[-> H]].
    - cbn [outgoing filter source String.eqb s lk relax incoming target]. cbn.
      apply IH. right. split; [reflexivity|now left].
    - cbn. apply IH. now left. }
  unfold construct. cbn [structure type_fields]. change (validate_first _) with (@Ok (list string) []).
  cbn [bind]. unfold topological_sorting. fold s. now rewrite X by now left.
Qed.
(** a link may start at the final node; its target is accepted as a field *)
Theorem C22_final_refuted : exists m fields l, construct 20 m = Ok ([], fields) /\
  In l (structure m) /\ source l = FINAL /\ In (target l) fields.
Proof.
  exists (mkMessage [lk INITIAL "a" ETrue; lk "a" FINAL ETrue; lk FINAL "b" ETrue] ["a"; "b"] []).
  exists ["a"; "b"], (lk FINAL "b" ETrue). repeat split; cbn; auto.
Qed.

Print Assumptions C22_fields.
Print Assumptions C22_order.
Print Assumptions C22_no_cycle.
Print Assumptions C22_first.
Print Assumptions C22_complete.
Print Assumptions C22_initial_loop_refuted.
Print Assumptions C22_final_refuted.

(** predecessors and successors split the fields *)
Theorem C22_predecessors : forall n m fields f, construct n m = Ok ([], fields) -> In f fields ->
  exists a b, predecessors fields f = Ok a /\ successors fields f = Ok b /\ fields = a ++ f :: b.
Proof.
  intros n m fields f H I. destruct (C22_fields _ _ _ H) as (_ & X & _). apply X in I as J.
  destruct J as (N1 & N2 & _). unfold predecessors, successors.
  destruct (String.eqb_spec f INITIAL); [contradiction|]. destruct (String.eqb_spec f FINAL); [contradiction|].
  rewrite (proj2 (memf_iff _ _) I). exists (before f fields), (after f fields). repeat split.
  clear -I. induction fields as [|x l IH]; [destruct I|]. cbn [before after].
  destruct (String.eqb_spec x f) as [->|N]; [reflexivity|]. destruct I as [|I]; [congruence|].
  cbn. f_equal. auto.
Qed.
Print Assumptions C22_predecessors.

(** ** C23 *)

Theorem C23_paths : forall n m fields k f, construct n m = Ok ([], fields) -> length (structure m) < k ->
  exists ps, paths (structure m) k f = Ok ps /\ NoDup ps /\
    forall p, In p ps <-> p <> [] /\ leads (structure m) INITIAL p f.
Proof.
  intros n m fields k f H L. destruct (empty_or _ _ _ H) as [Ne|(E & _)].
  - destruct (accepted _ _ _ Ne H) as (r & v & I & ALL & U & ND & _).
    destruct (paths_all _ ND _ _ I ALL U k f L) as (ps & P & N & S).
    exists ps. split; [exact P|]. split; [exact N|]. intros p. now rewrite S, leads_chain.
  - rewrite E in *. destruct k as [|k]; [lia|]. exists []. cbn [paths].
    split; [destruct (String.eqb f INITIAL); reflexivity|]. split; [constructor|].
    intros p. split; [intros []|]. intros [Np C]. destruct p as [|l p]; [congruence|]. destruct C as [[] _].
Qed.
Example C23_case : exists p q, paths (structure diamond) 10 "d" = Ok [p; q] /\ 
  map target p = ["a"; "b"; "d"] /\ map target q = ["a"; "c"; "d"].
Proof. do 2 eexists. repeat split. Qed.
Print Assumptions C23_paths.

(** ** C24 *)

Theorem C24_definite : forall n m fields k f, construct n m = Ok ([], fields) -> length (structure m) < k ->
  exists ds, definite_predecessors (structure m) k fields f = Ok ds /\
    forall x, In x ds <-> In x fields /\
      forall p, p <> [] -> leads (structure m) INITIAL p f -> In x (map source p).
Proof.
  intros n m fields k f H L. destruct (C23_paths n m fields k f H L) as (ps & P & N & S).
  unfold definite_predecessors. rewrite P. cbn [bind]. eexists. split; [reflexivity|].
  intros x. rewrite filter_In, forallb_forall. split; intros [I K]; (split; [exact I|]).
  - intros p Np C. specialize (K p (proj2 (S p) (conj Np C))). apply existsb_exists in K as (l & Il & E).
    apply String.eqb_eq in E. subst x. now apply in_map.
  - intros p Ip. apply S in Ip as [Np C]. specialize (K p Np C). apply in_map_iff in K as (l & <- & Il).
    apply existsb_exists. exists l. split; [exact Il|apply String.eqb_refl].
Qed.
(** the definite predecessors of a field lie before it in the order of fields *)
Theorem C24_before : forall n m fields k f ds x, construct n m = Ok ([], fields) -> length (structure m) < k ->
  In f fields -> definite_predecessors (structure m) k fields f = Ok ds -> In x ds ->
  exists a b c, fields = a ++ x :: b ++ f :: c.
Proof.
  intros n m fields k f ds x H L If D Ix. destruct (C24_definite n m fields k f H L) as (ds' & D' & S).
  rewrite D in D'. apply Ok_inj in D'. subst ds'. apply S in Ix as [Ix K].
  destruct (C22_fields _ _ _ H) as (ND & X & _ & R). destruct (R f If) as (p & C).
  assert (Np : p <> []). { intros ->. cbn in C. subst f. apply X in If. tauto. }
  assert (Ne : structure m <> []) by (intros E; destruct p; [congruence|destruct C as [C _]; rewrite E in C; destruct C]).
  specialize (K p Np C). apply in_map_iff in K as (l & Sl & Il). apply in_split in Il as (p1 & p2 & ->).
  apply leads_chain in C.
  assert (C2 : chain (structure m) x (l :: p2) f).
  { revert C. generalize INITIAL. clear -Sl. induction p1 as [|y p1 IH]; intros a C.
    - cbn [app] in C. destruct C as (A & B & C). cbn. auto.
    - cbn in C. destruct C as (_ & _ & C). eauto. }
  destruct (accepted _ _ _ Ne H) as (r & v & I & ALL & U & _ & EF & _).
  assert (Hx : In x r). { destruct C2 as (A & <- & _). eapply f_source; eauto. }
  apply in_split in Hx as (a & b & E).
  pose proof (f_chain _ _ _ I ALL (l :: p2) a x b f E ltac:(discriminate) C2) as J.
  apply in_split in J as (b1 & c & ->).
  set (kp := fun f => negb (memf f [INITIAL; FINAL])) in *.
  exists (filter kp a), (filter kp b1), (filter kp c).
  assert (Kx : kp x = true) by (rewrite EF, filter_In in Ix; tauto).
  assert (Kf : kp f = true) by (rewrite EF, filter_In in If; tauto).
  rewrite EF, E, filter_app. cbn [filter]. rewrite Kx. f_equal. f_equal. rewrite filter_app. cbn [filter]. now rewrite Kf.
Qed.
Example C24_case : definite_predecessors (structure diamond) 10 ["a"; "b"; "c"; "d"] "d" = Ok ["a"] /\
  definite_predecessors (structure diamond) 10 ["a"; "b"; "c"; "d"] FINAL = Ok ["a"; "d"].
Proof. split; reflexivity. Qed.
(** no field precedes the initial node, yet all fields are reported *)
Theorem C24_initial_refuted : exists m fields, construct 20 m = Ok ([], fields) /\ fields <> [] /\
  definite_predecessors (structure m) 10 fields INITIAL = Ok fields.
Proof. exists diamond, ["a"; "b"; "c"; "d"]. repeat split. discriminate. Qed.
Print Assumptions C24_definite.
Print Assumptions C24_before.
Print Assumptions C24_initial_refuted.

(** ** C25 *)

(** [g] gives a truth value to every condition; [k] and [j] bound recursion depth
    and simplification *)
Theorem C25_condition : forall n m fields k f g, construct n m = Ok ([], fields) ->
  length (structure m) < k -> f = INITIAL \/ f = FINAL /\ (exists l, In l (structure m) /\ target l = FINAL) \/ In f fields ->
  (forall l, In l (structure m) -> ok (condition l) = true /\ exists b, eval g (condition l) = Some (VBool b)) ->
  exists j0, forall j, j0 <= j -> exists e b, field_condition (structure m) k j f = Ok e /\ eval g e = Some (VBool b) /\
    (b = true <-> exists p, leads (structure m) INITIAL p f /\
       forall l, In l p -> eval g (condition l) = Some (VBool true)).
Proof.
  intros n m fields k f g H L Hf G.
  assert (Y : exists e c, compute_field_condition (structure m) k f = Ok e /\ eval g e = Some (VBool c) /\
        (c = true <-> exists p, chain (structure m) INITIAL p f /\ Forall (fun l => eval g (condition l) = Some (VBool true)) p) /\
        ok e = true).
  { destruct (empty_or _ _ _ H) as [Ne|(E & _ & ->)].
    - destruct (accepted _ _ _ Ne H) as (r & v & I & ALL & U & ND & EF & _).
      assert (Hr : In f r).
      { destruct Hf as [->|[[-> (l & Il & <-)]|Hf]].
        - eapply f_initial; eauto.
        - eapply f_target; eauto.
        - rewrite EF, filter_In in Hf. tauto. }
      destruct (r_split _ _ _ I U f Hr) as (a & b & E & La).
      destruct (condition_spec _ _ _ I ALL U g k (fun l Il => proj2 (G l Il)) a f b E ltac:(lia)) as (e & c & A & B & C & D).
      exists e, c. split; [exact A|]. split; [exact B|]. split; [exact C|]. apply D. intros l Il. now apply G.
    - rewrite E in *. destruct Hf as [->|[[_ (l & [] & _)]|[]]].
      exists ETrue, true. destruct k; cbn; repeat split; try (intros _; exists []; split; [reflexivity|constructor]). }
  destruct Y as (e & c & A & B & C & D). exists (S (weight e)). intros j J.
  destruct (C14_simplify_truth expr_eqb g e c j expr_eqb_sound D B J) as (e' & S' & E' & _).
  exists e', c. unfold field_condition. rewrite A. cbn [bind]. split; [exact S'|]. split; [exact E'|].
  rewrite C. split; intros (p & P1 & P2); exists p; (split; [now apply leads_chain|]); now apply Forall_forall.
Qed.
Example C25_case : exists e, field_condition (structure diamond) 10 50 "b" = Ok e /\
  eval (fun _ => VInt 6) e = Some (VBool true) /\ eval (fun _ => VInt 5) e = Some (VBool false) /\
  field_condition (structure diamond) 10 50 INITIAL = Ok ETrue.
Proof. eexists. repeat split; vm_compute; reflexivity. Qed.
(** the final node of a structure without a link to it has the condition "false",
    which is right, and so has every unknown field *)
Example C25_unknown_case : field_condition (structure diamond) 10 50 "nope" = Ok EFalse.
Proof. reflexivity. Qed.
Print Assumptions C25_condition.
