(** C26, C27, C28: what the verification of a message guarantees.  Cases that meet the
    hypotheses, and the limits of what is guaranteed, are in P_VerifyCases.v. *)
From Coq Require Import String List ZArith Bool Lia.
From Verif Require Import Base Expr ExprEval ExprFacts ExprTotal Ident TypeSpec MsgGraph MsgGraphFacts P_MsgGraph Solver SolverFacts Verify VerifySpec VerifyFacts GenSpec GenFacts.
Import ListNotations.
Local Open Scope string_scope.
Local Open Scope list_scope.
Local Open Scope Z_scope.
Local Open Scope res_scope.
Local Notation length := List.length.

(** ** Acceptance *)

Lemma message_accepted solve n m : Message solve n m = Ok [] ->
  exists fields, construct n (graph m) = Ok ([], fields) /\ (v_structure m = [] \/ verify solve n m fields = Ok []).
Proof.
  unfold Message. intros H. dok H r E. destruct r as [errors fields]. destruct errors as [|w errors]; [|discriminate H].
  exists fields. split; [reflexivity|]. destruct (v_structure m) as [|l ls]; [now left|right].
  exact H.
Qed.
Lemma verify_accepted solve n m fields : verify solve n m fields = Ok [] ->
  verify_expressions m fields = [] /\
  prove_conflicting_conditions solve n m fields = Ok [] /\ prove_reachability solve n m fields = Ok [] /\
  prove_contradictions solve n m fields = Ok [] /\ prove_coverage solve n m fields = Ok [] /\
  prove_overlays solve n m fields = Ok [] /\ prove_field_positions solve n m fields = Ok [] /\
  prove_message_size solve n m fields = Ok [].
Proof.
  unfold verify. intros H. dok H ts E. destruct (ts ++ verify_expressions m fields) eqn:VE; [|discriminate H].
  apply app_eq_nil in VE as [_ VE]. rewrite VE.
  pose proof (all_errors_nil _ H) as A. cbn [In] in A. split; [reflexivity|].
  split; [apply A; tauto|]. split; [apply A; tauto|]. split; [apply A; tauto|]. split; [apply A; tauto|].
  split; [apply A; tauto|]. split; apply A; tauto.
Qed.
Lemma verify_types solve n m fields : verify solve n m fields = Ok [] -> verify_expression_types solve n m = Ok [].
Proof.
  unfold verify. intros H. dok H ts E. destruct (ts ++ verify_expressions m fields) eqn:VE; [|discriminate H].
  apply app_eq_nil in VE as [-> _]. reflexivity.
Qed.
Lemma source_field n m fields l : construct n (graph m) = Ok ([], fields) -> In l (v_structure m) -> source l <> FINAL ->
  In (source l) (INITIAL :: fields).
Proof.
  intros C I N. destruct (C22_fields _ _ _ C) as (_ & X & _).
  destruct (String.string_dec (source l) INITIAL) as [E|E]; [left; congruence|right].
  apply X. split; [exact E|]. split; [exact N|]. exists l. split; [exact I|now left].
Qed.

(** the solver answers the questions for which "unknown" counts as consent *)
Record answered (solve : list expr -> answer) (n : nat) (m : vmessage) (fields : list field) : Prop := {
  an_conflict : forall c tc, In c (conflicts m fields) -> type_constraints n m = Ok tc -> solve (c :: tc) <> UNKNOWN;
  an_coverage : forall ps p facts, paths (v_structure m) n FINAL = Ok ps -> In p ps ->
    coverage_facts m fields (removelast p) = Ok facts -> solve (ETrue :: facts) <> UNKNOWN;
  an_position : forall f ps p rf tc, In f fields -> paths (v_structure m) n f = Ok ps -> In p ps ->
    reached_facts m fields f p = Ok rf -> type_constraints n m = Ok tc -> solve (ETrue :: rf ++ tc ++ tc) <> UNKNOWN;
  an_size : forall ps p facts, paths (v_structure m) n FINAL = Ok ps -> In p ps ->
    size_facts n m fields (removelast p) = Ok facts -> solve (size_goal (removelast p) :: facts) <> UNKNOWN
}.

(** ** C26 *)

Theorem C26_deterministic : forall solve n m fields g l1 l2,
  sound_unsat solve -> Message solve n m = Ok [] ->
  construct n (graph m) = Ok ([], fields) -> answered solve n m fields ->
  no_always_valid m -> modulus_known m -> legal m g ->
  In l1 (v_structure m) -> In l2 (v_structure m) -> source l1 = source l2 -> source l1 <> FINAL ->
  taken g l1 -> taken g l2 -> l1 = l2.
Proof.
  intros solve n m fields g l1 l2 SU A C AN NA MK LG I1 I2 S NF T1 T2.
  destruct (message_accepted _ _ _ A) as (fields' & C' & V). rewrite C in C'. apply Ok_inj in C'. injection C' as <-.
  destruct V as [E|V]; [rewrite E in I1; destruct I1|].
  destruct (verify_accepted _ _ _ _ V) as (_ & P & _).
  destruct (link_eq_dec l1 l2) as [|N]; [assumption|exfalso].
  unfold prove_conflicting_conditions in P. dok P tc TC. pose proof (all_errors_nil _ P) as Q. clear P.
  assert (SF := source_field _ _ _ _ C I1 NF).
  pose proof (constraints_models m n g (lg_int _ _ LG) tc LG NA MK TC) as M.
  assert (X : forall a b, In (a, b) (pairs (outgoing (v_structure m) (source l1))) ->
    In a (v_structure m) -> In b (v_structure m) -> taken g a -> taken g b -> False).
  { intros a b IP Ia Ib Ta Tb.
    assert (IC : In (EAss OAnd [condition a; condition b]) (conflicts m fields)).
    { apply in_flat_map. exists (source l1). split; [exact SF|].
      apply (in_map (fun c => EAss OAnd [condition (fst c); condition (snd c)]) _ _ IP). }
    specialize (Q _ (in_map _ _ _ IC)). cbn beta in Q. dok Q an E. apply check_answer in E.
    destruct an; [discriminate Q| |].
    - symmetry in E. apply (SU _ (interp_of g)) in E. apply E. rewrite models_cons. split; [|exact M].
      cbn [zeval map forallb]. rewrite (taken_zeval g (lg_int _ _ LG) a Ta), (taken_zeval g (lg_int _ _ LG) b Tb). reflexivity.
    - symmetry in E. exact (an_conflict _ _ _ _ AN _ tc IC TC E). }
  assert (O1 : In l1 (outgoing (v_structure m) (source l1))) by (apply filter_In; split; [exact I1|apply String.eqb_refl]).
  assert (O2 : In l2 (outgoing (v_structure m) (source l1))) by (apply filter_In; split; [exact I2|rewrite S; apply String.eqb_refl]).
  destruct (pairs_two _ _ _ O1 O2 N) as [IP|IP]; eapply X; eauto.
Qed.

(** ** C28: sizes and positions *)

Section Positions.
  Context (solve : list expr -> answer) (n : nat) (m : vmessage) (fields : list field).
  Context (SU : sound_unsat solve) (A : Message solve n m = Ok []) (C : construct n (graph m) = Ok ([], fields)).
  Context (FU : (length (v_structure m) < n)%nat) (AN : answered solve n m fields).
  Context (NA : no_always_valid m) (MK : modulus_known m).
  Local Notation s := (v_structure m).

  Lemma verified : v_structure m <> [] -> verify solve n m fields = Ok [].
  Proof.
    intros N. destruct (message_accepted _ _ _ A) as (fields' & C' & V). rewrite C in C'. apply Ok_inj in C'. injection C' as <-.
    destruct V; [contradiction|assumption].
  Qed.
  Lemma path_list f : exists ps, paths s n f = Ok ps /\ forall p, In p ps <-> p <> [] /\ leads s INITIAL p f.
  Proof. destruct (C23_paths _ _ _ n f C FU) as (ps & P & _ & S). exists ps. auto. Qed.

  Lemma leads_last p f l q : leads s INITIAL p f -> rev p = l :: q -> In l s /\ target l = f.
  Proof.
    intros L R. assert (E : p = rev q ++ [l]) by (rewrite <- (rev_involutive p), R; reflexivity). subst p.
    clear R. revert L. generalize INITIAL. induction (rev q) as [|x xs IH]; intros a L; cbn in L.
    - destruct L as (I & _ & T). auto.
    - destruct L as (_ & _ & L). eauto.
  Qed.

  Lemma positions g f p c : In f fields -> leads s INITIAL p f -> (forall l, In l p -> laid m g l) -> bounds g -> legal m g ->
    In c s -> source c = f -> taken g c ->
    0 <= num g (NAttr ASize f) /\
    (lookup (v_types m) f = Some MOpaque -> num g (NAttr AFirst f) mod 8 = 1 /\ num g (NAttr ASize f) mod 8 = 0).
  Proof.
    intros IF L LA B LG IC SC TC.
    assert (V : verify solve n m fields = Ok []).
    { apply verified. intros E. rewrite E in IC. destruct IC. }
    destruct (verify_accepted _ _ _ _ V) as (_ & _ & _ & _ & _ & _ & P & _). unfold prove_field_positions in P.
    pose proof (first_error_nil _ P) as Q. clear P. specialize (Q _ (in_map _ _ _ (in_or_app _ _ _ (or_introl IF)))). cbn beta in Q.
    destruct (path_list f) as (ps & PS & PI). rewrite PS in Q. cbn [bind] in Q.
    assert (NI : f <> INITIAL) by (destruct (C22_fields _ _ _ C) as (_ & X & _); apply X in IF; tauto).
    assert (IP : In p ps).
    { apply PI. split; [|exact L]. intros ->. cbn in L. congruence. }
    pose proof (first_error_nil _ Q) as R. clear Q. specialize (R _ (in_map _ _ _ IP)).
    assert (IE := lg_int _ _ LG).
    unfold field_position in R. destruct (rev p) as [|l q] eqn:RP; [discriminate|].
    destruct (leads_last p f l q L RP) as (Il & Tl).
    assert (Jl : In l p) by (apply in_rev; rewrite RP; now left).
    pose proof (LA l Jl) as (_ & ST & SZ & _). rewrite Tl in ST, SZ.
    dok R o E. destruct (sized_zeval m fields g IE l _ o SZ E) as (e & -> & Ze). cbn [needed bind] in R.
    pose proof (starts_zeval g IE l _ ST) as Zf.
    dok R rf RF. dok R tc TCs. 
    pose proof (reached_models m fields g IE f p rf c LA B (or_intror (conj IC (conj SC TC))) RF) as M1.
    pose proof (constraints_models m n g IE tc LG NA MK TCs) as M2.
    assert (M : models (interp_of g) (rf ++ tc ++ tc)) by (rewrite !models_app; auto).
    dok R a0 E0. apply check_answer in E0.
    assert (a0 = SAT) as ->.
    { destruct a0; [reflexivity| |].
      - exfalso. symmetry in E0. apply (SU _ (interp_of g)) in E0. apply E0. rewrite models_cons. auto.
      - exfalso. symmetry in E0. exact (an_position _ _ _ _ AN f ps p rf tc IF PS IP RF TCs E0). }
    dok R a1 E1. apply check_answer in E1. destruct a1; try discriminate R.
    symmetry in E1. apply (SU _ (interp_of g)) in E1.
    assert (SZ0 : 0 <= num g (NAttr ASize f)).
    { destruct (Z.leb_spec 0 (num g (NAttr ASize f))) as [|LT]; [assumption|]. exfalso. apply E1.
      rewrite models_cons. split; [|exact M]. cbn [zeval]. rewrite Ze. cbn [number]. f_equal. now apply Z.ltb_lt. }
    split; [exact SZ0|]. intros OP. rewrite OP in R.
    dok R a2 E2. destruct a2; try discriminate R.
    assert (M' : models (interp_of g) ((rf ++ tc ++ tc) ++ tc)) by (rewrite models_app; auto).
    dok R a3 E3. apply check_answer in E3. destruct a3; try discriminate R.
    dok R a4 E4. apply check_answer in E4. destruct a4; try discriminate R.
    symmetry in E3, E4. apply (SU _ (interp_of g)) in E3, E4. split.
    - destruct (Z.eq_dec (num g (NAttr AFirst f) mod 8) 1) as [|N]; [assumption|]. exfalso. apply E3.
      rewrite models_cons. split; [|exact M']. cbn [zeval]. rewrite Zf. cbn [number truth].
      change (8 =? 0) with false. cbv iota. unfold smt_mod. change (Z.abs 8) with 8. f_equal. apply negb_true_iff, Z.eqb_neq, N.
    - destruct (Z.eq_dec (num g (NAttr ASize f) mod 8) 0) as [|N]; [assumption|]. exfalso. apply E4.
      rewrite models_cons. split; [|exact M']. cbn [zeval]. rewrite Ze. cbn [number truth].
      change (8 =? 0) with false. cbv iota. unfold smt_mod. change (Z.abs 8) with 8. f_equal. apply negb_true_iff, Z.eqb_neq, N.
  Qed.
End Positions.

(** every link of the path to the end is taken, and all fields are laid out *)
Definition along (m : vmessage) (g : env) (p : list link) : Prop :=
  (forall l, In l (removelast p) -> laid m g l) /\ (forall l, In l p -> taken g l).

Lemma leads_app s p : forall q a b c, leads s a p b -> leads s b q c -> leads s a (p ++ q) c.
Proof. induction p as [|l p IH]; cbn; intros q a b c H K; [now subst|]. destruct H as (I & S & L). eauto. Qed.
Lemma leads_split s p : forall q a c, leads s a (p ++ q) c -> exists b, leads s a p b /\ leads s b q c.
Proof.
  induction p as [|l p IH]; cbn; intros q a c H; [eauto|]. destruct H as (I & S & L).
  destruct (IH _ _ _ L) as (b & L1 & L2). eauto.
Qed.
Lemma leads_in s p : forall a b, leads s a p b -> forall l, In l p -> In l s.
Proof. induction p as [|x p IH]; cbn; intros a b H l I; [destruct I|]. destruct H as (J & S & L), I as [<-|I]; eauto. Qed.

Lemma removelast_nil {A} (p : list A) : removelast p <> [] -> exists q c, p = q ++ [c] /\ removelast p = q /\ q <> [].
Proof.
  intros N. destruct p as [|x p] using rev_ind; [contradiction|]. exists p, x. rewrite removelast_last in *. auto.
Qed.
Lemma in_removelast {A} (p : list A) l : In l (removelast p) -> exists a c b, p = a ++ l :: c :: b /\ removelast p = a ++ l :: removelast (c :: b).
Proof.
  intros I. destruct (removelast_nil p) as (q & z & -> & E & _); [intros E; rewrite E in I; destruct I|].
  rewrite E in I. clear E. apply in_split in I as (a & b & ->). destruct b as [|c b].
  - exists a, z, []. split; [now rewrite <- app_assoc|]. now rewrite removelast_last.
  - exists a, c, (b ++ [z]). split; [now rewrite <- app_assoc|].
    rewrite removelast_last. change (c :: b ++ [z]) with ((c :: b) ++ [z]). now rewrite removelast_last.
Qed.

Section Sizes.
  Context (solve : list expr -> answer) (n : nat) (m : vmessage) (fields : list field).
  Context (SU : sound_unsat solve) (A : Message solve n m = Ok []) (C : construct n (graph m) = Ok ([], fields)).
  Context (FU : (length (v_structure m) < n)%nat) (AN : answered solve n m fields).
  Context (NA : no_always_valid m) (MK : modulus_known m).
  Local Notation s := (v_structure m).

  Lemma on_path g p l : leads s INITIAL p FINAL -> along m g p -> bounds g -> legal m g ->
    In l (removelast p) -> target l <> FINAL ->
    0 <= num g (NAttr ASize (target l)) /\
    (lookup (v_types m) (target l) = Some MOpaque ->
       num g (NAttr AFirst (target l)) mod 8 = 1 /\ num g (NAttr ASize (target l)) mod 8 = 0).
  Proof.
    intros L [LA TA] B LG I NF. destruct (in_removelast _ _ I) as (a & c & b & E & R).
    rewrite R in LA. rewrite E in L, TA.
    change (l :: c :: b) with ([l] ++ c :: b) in L. rewrite app_assoc in L.
    destruct (leads_split _ _ _ _ _ L) as (f & L1 & L2).
    destruct (leads_last m (a ++ [l]) f l (rev a) L1) as [Il T]; [now rewrite rev_app_distr|].
    cbn [leads] in L2. destruct L2 as (Ic & Sc & _).
    assert (NI : f <> INITIAL).
    { intros ->. destruct (C22_no_cycle _ _ _ C INITIAL (a ++ [l])); [destruct a; discriminate|exact L1]. }
    assert (IF : In f fields).
    { destruct (C22_fields _ _ _ C) as (_ & X & _). apply X. split; [exact NI|]. split; [congruence|]. exists l. auto. }
    rewrite T. apply (positions solve n m fields SU A C FU AN NA MK g f (a ++ [l]) c IF L1); auto.
    - intros x J. apply LA. apply in_app_or in J as [J|[<-|[]]]; apply in_or_app; cbn; auto.
    - apply TA. apply in_or_app. cbn. auto.
  Qed.
End Sizes.

Theorem C28_field : forall solve n m fields g p l,
  sound_unsat solve -> Message solve n m = Ok [] -> construct n (graph m) = Ok ([], fields) ->
  (length (v_structure m) < n)%nat -> answered solve n m fields -> no_always_valid m -> modulus_known m ->
  leads (v_structure m) INITIAL p FINAL -> along m g p -> bounds g -> legal m g ->
  In l (removelast p) -> target l <> FINAL ->
  0 <= num g (NAttr ASize (target l)) /\
  (lookup (v_types m) (target l) = Some MOpaque ->
     num g (NAttr AFirst (target l)) mod 8 = 1 /\ num g (NAttr ASize (target l)) mod 8 = 0).
Proof. intros. eapply on_path; eauto. Qed.

(** the sizes of the fields of a path that do not overlay another field *)
Definition own_sizes (g : env) (p : list link) : list Z :=
  map (fun l => num g (NAttr ASize (target l)))
      (filter (fun l => match lfirst l with None => true | Some _ => false end)
              (filter (fun l => negb (String.eqb (target l) FINAL)) p)).

Lemma lookup_in d f t : lookup d f = Some t -> In (f, t) d.
Proof.
  unfold lookup. destruct (find (fun kv => String.eqb (fst kv) f) d) as [[k t']|] eqn:E; [|discriminate]. intros H. injection H as ->.
  apply find_some in E as [I E]. cbn in E. apply String.eqb_eq in E. now subst.
Qed.
Lemma in_lookup d f t : NoDup (map fst d) -> In (f, t) d -> lookup d f = Some t.
Proof.
  unfold lookup. induction d as [|[k t'] d IH]; intros ND I; [destruct I|]. cbn [map fst find] in *.
  inversion ND as [|? ? NI ND']; subst. destruct I as [E|I].
  - injection E as -> ->. now rewrite String.eqb_refl.
  - destruct (String.eqb_spec k f) as [->|]; [|auto]. exfalso. apply NI. change f with (fst (f, t)). now apply in_map.
Qed.

Theorem C28_message_size : forall solve n m fields g p,
  sound_unsat solve -> Message solve n m = Ok [] -> construct n (graph m) = Ok ([], fields) ->
  (length (v_structure m) < n)%nat -> answered solve n m fields -> no_always_valid m -> modulus_known m ->
  NoDup (map fst (v_types m)) ->
  leads (v_structure m) INITIAL p FINAL -> p <> [] -> along m g p -> bounds g -> legal m g ->
  (forall f t, In (f, t) (v_types m) -> (forall k, t <> MScalar k) ->
     t = MOpaque /\ f <> FINAL /\ (exists l, In l (removelast p) /\ target l = f) \/ num g (NAttr ASize f) mod 8 = 0) ->
  sumZ (own_sizes g (removelast p)) mod 8 = 0.
Proof.
  intros solve n m fields g p SU A C FU AN NA MK ND L NP AL B LG BY.
  assert (IE := lg_int _ _ LG).
  assert (V : verify solve n m fields = Ok []).
  { apply (verified solve n m fields A C). intros E. destruct p as [|l p]; [contradiction|]. destruct L as [I _].
    rewrite E in I. destruct I. }
  destruct (verify_accepted _ _ _ _ V) as (_ & _ & _ & _ & _ & _ & _ & P). unfold prove_message_size in P.
  destruct (path_list n m fields C FU FINAL) as (ps & PS & PI). rewrite PS in P. cbn [bind] in P.
  pose proof (first_error_nil _ P) as Q. clear P. specialize (Q _ (in_map _ _ _ (proj2 (PI p) (conj NP L)))). cbn beta in Q.
  dok Q facts F. dok Q a E. apply check_answer in E.
  destruct (Z.eq_dec (sumZ (own_sizes g (removelast p)) mod 8) 0) as [|NZ]; [assumption|exfalso].
  assert (M : models (interp_of g) (size_goal (removelast p) :: facts)).
  { rewrite models_cons. split.
    - assert (EQ : zeval (interp_of g) (message_size (removelast p)) = VInt (sumZ (own_sizes g (removelast p)))).
      { unfold message_size. cbn [zeval]. f_equal. f_equal. unfold own_sizes. clear.
        induction (removelast p) as [|l q IH]; [reflexivity|]. cbn [flat_map filter].
        rewrite !map_app, IH. destruct (String.eqb (target l) FINAL); cbn [negb andb filter map app]; [reflexivity|].
        destruct (lfirst l); cbn [defined negb map app]; reflexivity. }
      unfold size_goal. cbn [zeval]. rewrite EQ. cbn [number zeval]. change (8 =? 0) with false. cbv iota.
      unfold smt_mod. change (Z.abs 8) with 8. f_equal. apply negb_true_iff, Z.eqb_neq, NZ.
    - unfold size_facts in F. dok F pf PF. dok F tc TC. apply Ok_inj in F. subst facts. rewrite !models_app.
      split; [exact (path_models m fields g IE (removelast p) pf (proj1 AL) B PF)|].
      split; [exact (constraints_models m n g IE tc LG NA MK TC)|].
      intros e I. unfold field_size_constraints in I. apply in_flat_map in I as ([f t] & J & I). cbn [fst snd] in I.
      assert (Z8 : (forall k, t <> MScalar k) -> num g (NAttr ASize f) mod 8 = 0).
      { intros NS. destruct (BY f t J NS) as [(-> & NF & l & Il & T)|Z8]; [|exact Z8].
        subst f. apply (C28_field solve n m fields g p l SU A C FU AN NA MK L AL B LG Il NF).
        apply in_lookup; assumption. }
      assert (Y : (forall k, t <> MScalar k) -> [ERel OEq (EBin OMod (ESize f) (ENum 8)) (ENum 0)] = [e] ->
                  zeval (interp_of g) e = VBool true).
      { intros NS K. injection K as <-. cbn [zeval ESize number z_name interp_of]. change (8 =? 0) with false. cbv iota.
        unfold smt_mod. change (Z.abs 8) with 8. f_equal. apply Z.eqb_eq. auto. }
      destruct t as [k| |id]; [destruct I| |]; destruct I as [<-|[]]; apply Y; congruence. }
  destruct a; [discriminate Q| |]; symmetry in E.
  - exact (SU _ _ E M).
  - exact (an_size _ _ _ _ AN ps p facts PS (proj2 (PI p) (conj NP L)) F E).
Qed.

(** ** C27: no bit is left out *)

(** the expressions of a link *)
Definition link_exprs (l : link) : list expr := condition l :: opt_expr (lsize l) ++ opt_expr (lfirst l).

(** [g] with a bit position as value of the variable that stands for it *)
Definition at_bit (g : env) (b : Z) : env := fun x => if name_eqb x (NVar BIT) then VInt b else g x.
Lemma at_bit_other g b x : x <> NVar BIT -> at_bit g b x = g x.
Proof. intros N. unfold at_bit. destruct (name_eqb x (NVar BIT)) eqn:E; [|reflexivity]. apply name_eqb_eq in E. contradiction. Qed.
Lemma at_bit_attr g b a x : num (at_bit g b) (NAttr a x) = num g (NAttr a x).
Proof. unfold num. rewrite at_bit_other; [reflexivity|discriminate]. Qed.
Lemma at_bit_bit g b : num (at_bit g b) (NVar BIT) = b.
Proof. reflexivity. Qed.
Lemma at_bit_int g b : int_env g -> int_env (at_bit g b).
Proof. intros I x. unfold at_bit. destruct (name_eqb x (NVar BIT)); [eexists; reflexivity|apply I]. Qed.
Lemma at_bit_expr g b e v : ~ In (NVar BIT) (names e) -> tame g e /\ eval_sc g e = Some v ->
  tame (at_bit g b) e /\ eval_sc (at_bit g b) e = Some v.
Proof.
  intros N [T E]. assert (X : forall x, In x (names e) -> g x = at_bit g b x).
  { intros x I. symmetry. apply at_bit_other. congruence. }
  split; [exact (tame_ext g _ e X T)|]. now rewrite <- (eval_sc_ext g _ e X).
Qed.
Lemma at_bit_starts g b l z : (forall e, In e (link_exprs l) -> ~ In (NVar BIT) (names e)) -> starts g l z -> starts (at_bit g b) l z.
Proof.
  intros N. unfold starts. destruct (String.eqb (source l) INITIAL); [now rewrite at_bit_attr|].
  destruct (lfirst l) as [e|] eqn:E; [|now rewrite at_bit_attr]. apply at_bit_expr, N.
  unfold link_exprs. rewrite E. right. apply in_or_app. right. now left.
Qed.
Lemma at_bit_sized m g b l z : (forall e, In e (link_exprs l) -> ~ In (NVar BIT) (names e)) -> sized m g l z -> sized m (at_bit g b) l z.
Proof.
  intros N. unfold sized. destruct (lsize l) as [e|] eqn:E; [|auto]. apply at_bit_expr, N.
  unfold link_exprs. rewrite E. right. apply in_or_app. left. now left.
Qed.
Lemma at_bit_laid m g b l : (forall e, In e (link_exprs l) -> ~ In (NVar BIT) (names e)) -> laid m g l -> laid m (at_bit g b) l.
Proof.
  intros N (T & S & Z & L & R). unfold laid. rewrite !at_bit_attr. split; [|split; [|split; [|split]]]; auto.
  - apply at_bit_expr; [apply N; now left|exact T].
  - now apply at_bit_starts.
  - now apply at_bit_sized.
Qed.

Theorem C27_covered : forall solve n m fields g p q l b,
  sound_unsat solve -> Message solve n m = Ok [] -> construct n (graph m) = Ok ([], fields) ->
  (length (v_structure m) < n)%nat -> answered solve n m fields ->
  leads (v_structure m) INITIAL p FINAL -> removelast p = q ++ [l] -> along m g p -> bounds g -> int_env g ->
  (forall x e, In x p -> In e (link_exprs x) -> ~ In (NVar BIT) (names e)) ->
  num g (NAttr ALast (target l)) = num g (NAttr ALast MESSAGE) ->
  num g (NAttr AFirst MESSAGE) <= b <= num g (NAttr ALast MESSAGE) ->
  exists x, In x (removelast p) /\ num g (NAttr AFirst (target x)) <= b <= num g (NAttr ALast (target x)).
Proof.
  intros solve n m fields g p q l b SU A C FU AN L R [LA TA] B IE NB END BB.
  assert (NP : p <> []) by (intros ->; destruct q; discriminate R).
  assert (V : verify solve n m fields = Ok []).
  { apply (verified solve n m fields A C). intros E. destruct p as [|x p]; [contradiction|]. destruct L as [I _].
    rewrite E in I. destruct I. }
  destruct (verify_accepted _ _ _ _ V) as (_ & _ & _ & _ & P & _ & _ & _). unfold prove_coverage in P.
  destruct (path_list n m fields C FU FINAL) as (ps & PS & PI). rewrite PS in P. cbn [bind] in P.
  pose proof (first_error_nil _ P) as Q. clear P. specialize (Q _ (in_map _ _ _ (proj2 (PI p) (conj NP L)))). cbn beta in Q.
  dok Q facts F. dok Q a E. apply check_answer in E.
  assert (U : solve (ETrue :: facts) = UNSAT).
  { destruct a; [discriminate Q|now symmetry|]. exfalso. symmetry in E. exact (an_coverage _ _ _ _ AN ps p facts PS (proj2 (PI p) (conj NP L)) F E). }
  clear Q E a.
  set (cov := fun x => (num g (NAttr AFirst (target x)) <=? b) && (b <=? num g (NAttr ALast (target x)))).
  destruct (existsb cov (removelast p)) eqn:EX.
  { apply existsb_exists in EX as (x & I & K). exists x. split; [exact I|]. unfold cov in K.
    apply andb_true_iff in K as [K1 K2]. apply Z.leb_le in K1, K2. lia. }
  exfalso. apply (SU _ (interp_of (at_bit g b)) U).
  pose proof (at_bit_int g b IE) as IE'.
  assert (SUB : forall x, In x (removelast p) -> In x p).
  { intros x I. destruct (in_removelast _ _ I) as (u & c & w & -> & _). apply in_or_app. cbn. auto. }
  assert (LA' : forall x, In x (removelast p) -> laid m (at_bit g b) x).
  { intros x I. apply at_bit_laid; [intros e J; exact (NB x e (SUB x I) J)|auto]. }
  assert (B' : bounds (at_bit g b)) by (unfold bounds; rewrite !at_bit_attr; exact B).
  rewrite models_cons. split; [reflexivity|]. unfold coverage_facts in F. dok F nots NT. dok F pf PF.
  rewrite R, rev_app_distr in F. cbn [rev app] in F. dok F la TL. apply Ok_inj in F. subst facts.
  rewrite !(models_cons _ _ _), !models_app, models_cons.
  assert (ZL : forall x e, In x (removelast p) -> target_last m fields x = Ok e ->
            zeval (interp_of (at_bit g b)) e = VInt (num g (NAttr ALast (target x)))).
  { intros x e I T. destruct (LA' x I) as (_ & S & Z & EL & _). rewrite !at_bit_attr in *.
    rewrite (target_last_zeval m fields (at_bit g b) IE' x _ _ e S Z T), EL. reflexivity. }
  split; [|split; [|split; [|split]]].
  - cbn [zeval EVar EFirst number z_name interp_of]. rewrite at_bit_bit, at_bit_attr. f_equal. apply Z.leb_le. lia.
  - cbn [zeval EVar ELast number z_name interp_of]. rewrite at_bit_bit, at_bit_attr. f_equal. apply Z.leb_le. lia.
  - intros e I. apply (mapr_In _ _ _ NT) in I as (x & I & K). dok K lx LE. apply Ok_inj in K. subst e.
    destruct (LA' x I) as (_ & S & _). rewrite at_bit_attr in S.
    cbn [zeval map forallb]. rewrite (ZL x lx I LE), (starts_zeval (at_bit g b) IE' x _ S).
    cbn [EVar zeval number z_name interp_of truth]. rewrite at_bit_bit. f_equal.
    assert (K : cov x = false).
    { destruct (cov x) eqn:K; [|reflexivity]. rewrite <- EX. symmetry. apply existsb_exists. eauto. }
    unfold cov in K. rewrite andb_true_r, K. reflexivity.
  - cbn [zeval ELast number z_name interp_of].
    rewrite (ZL l la); [|rewrite R; apply in_or_app; right; now left|exact TL]. rewrite at_bit_attr. cbn [number].
    f_equal. apply Z.eqb_eq, END.
  - exact (path_models m fields _ IE' _ pf LA' B' PF).
Qed.

(** If First aspects only refer to the start of the message or of an earlier field of
    the path, no bit between them is left out, whatever the fields are called. *)
Theorem C27_contiguous : forall solve n m fields g p q l b,
  sound_unsat solve -> Message solve n m = Ok [] -> construct n (graph m) = Ok ([], fields) ->
  (length (v_structure m) < n)%nat -> answered solve n m fields -> no_always_valid m -> modulus_known m ->
  leads (v_structure m) INITIAL p FINAL -> removelast p = q ++ [l] -> along m g p -> bounds g -> legal m g ->
  (forall x, In x (removelast p) -> target x <> FINAL) ->
  (forall u x w e, removelast p = u ++ x :: w -> lfirst x = Some e ->
     exists y, e = EFirst y /\ In y (MESSAGE :: map target u)) ->
  num g (NAttr ALast (target l)) = num g (NAttr ALast MESSAGE) ->
  num g (NAttr AFirst MESSAGE) <= b <= num g (NAttr ALast MESSAGE) ->
  exists x, In x (removelast p) /\ num g (NAttr AFirst (target x)) <= b <= num g (NAttr ALast (target x)).
Proof.
  intros solve n m fields g p q l b SU A C FU AN NA MK L R AL B LG NF FI END BB.
  set (MF := num g (NAttr AFirst MESSAGE)) in *.
  assert (INV : forall u w, removelast p = u ++ w -> forall x, In x u ->
    MF <= num g (NAttr AFirst (target x)) /\
    forall b, MF <= b <= num g (NAttr ALast (target x)) ->
      exists y, In y u /\ num g (NAttr AFirst (target y)) <= b <= num g (NAttr ALast (target y))).
  { induction u as [|z u IH] using rev_ind; intros w E x I; [destruct I|].
    rewrite <- app_assoc in E. cbn [app] in E. specialize (IH _ E).
    assert (IP : In z (removelast p)) by (rewrite E; apply in_or_app; right; now left).
    destruct (C28_field solve n m fields g p z SU A C FU AN NA MK L AL B LG IP (NF z IP)) as (SZ & _).
    destruct (proj1 AL z IP) as (_ & ST & _ & LZ & _).
    assert (CL : forall e, (exists y, In y u /\ num g (NAttr AFirst (target y)) <= e <= num g (NAttr ALast (target y))) ->
      exists y, In y (u ++ [z]) /\ num g (NAttr AFirst (target y)) <= e <= num g (NAttr ALast (target y))).
    { intros e (y & J & K). exists y. split; [apply in_or_app; auto|exact K]. }
    apply in_app_or in I as [I|[<-|[]]].
    { destruct (IH x I) as [I1 I2]. split; [exact I1|]. auto. }
    assert (ZZ : forall e, num g (NAttr AFirst (target z)) <= e <= num g (NAttr ALast (target z)) ->
      exists y, In y (u ++ [z]) /\ num g (NAttr AFirst (target y)) <= e <= num g (NAttr ALast (target y))).
    { intros e K. exists z. split; [apply in_or_app; right; now left|exact K]. }
    unfold starts in ST. destruct (String.eqb_spec (source z) INITIAL) as [EI|NI].
    { fold MF in ST. rewrite ST in *. split; [lia|exact ZZ]. }
    destruct (lfirst z) as [e|] eqn:LF.
    - destruct (FI u z w e E LF) as (y & -> & J). destruct ST as [_ ST]. cbn [EFirst eval_sc] in ST.
      rewrite (int_env_num g _ (lg_int _ _ LG)) in ST. cbn [name_val] in ST. injection ST as ST.
      destruct J as [<-|J].
      + fold MF in ST. rewrite <- ST in *. split; [lia|exact ZZ].
      + apply in_map_iff in J as (x & T & J). destruct (IH x J) as [I1 I2]. rewrite T, ST in *. split; [exact I1|].
        intros e K. destruct (Z.leb_spec (num g (NAttr AFirst (target z))) e) as [LE|GT]; [apply ZZ; lia|].
        assert (IPx : In x (removelast p)) by (rewrite E; apply in_or_app; auto).
        destruct (C28_field solve n m fields g p x SU A C FU AN NA MK L AL B LG IPx (NF x IPx)) as (SZx & _).
        destruct (proj1 AL x IPx) as (_ & _ & _ & LX & _). rewrite T in *.
        apply CL, I2. lia.
    - destruct u as [|x u _] using rev_ind.
      + exfalso. destruct (removelast_nil p) as (q' & c & EP & ER & _); [rewrite E; discriminate|].
        rewrite EP in L. destruct (leads_split _ _ _ _ _ L) as (f & L1 & _). rewrite <- ER, E in L1. cbn in L1. tauto.
      + assert (IX : In x (u ++ [x])) by (apply in_or_app; right; now left).
        destruct (IH x IX) as [I1 I2].
        assert (IPx : In x (removelast p)) by (rewrite E; apply in_or_app; auto).
        destruct (C28_field solve n m fields g p x SU A C FU AN NA MK L AL B LG IPx (NF x IPx)) as (SZx & _).
        destruct (proj1 AL x IPx) as (_ & _ & _ & LX & _).
        assert (T : source z = target x).
        { destruct (removelast_nil p) as (q' & c & EP & ER & _); [rewrite E; destruct u; discriminate|].
          rewrite EP in L. destruct (leads_split _ _ _ _ _ L) as (f & L1 & _). rewrite <- ER, E in L1.
          destruct (leads_split _ _ _ _ _ L1) as (f' & L2 & L3). cbn [leads] in L3. destruct L3 as (_ & S3 & _).
          destruct (leads_last m (u ++ [x]) f' x (rev u) L2) as [_ T]; [now rewrite rev_app_distr|]. congruence. }
        rewrite T in ST. split; [lia|].
        intros e K. destruct (Z.leb_spec (num g (NAttr AFirst (target z))) e) as [LE|GT]; [apply ZZ; lia|].
        apply CL, I2. lia. }
  apply (INV (removelast p) [] (eq_sym (app_nil_r _)) l); [rewrite R; apply in_or_app; right; now left|]. lia.
Qed.
Print Assumptions C26_deterministic.
Print Assumptions C27_covered.
Print Assumptions C27_contiguous.
Print Assumptions C28_field.
Print Assumptions C28_message_size.
