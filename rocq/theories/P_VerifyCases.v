(** Cases for C26, C27, C28 and C45: a message that is accepted with a sound solver,
    and messages that are accepted although what one would expect does not hold. *)
From Coq Require Import String List ZArith Bool Lia.
From Verif Require Import Base Expr ExprEval ExprFacts ExprTotal Ident TypeSpec MsgGraph MsgGraphFacts P_MsgGraph Solver SolverFacts Verify VerifySpec VerifyFacts GenSpec GenFacts P_Verify P_Occur.
Import ListNotations.
Local Open Scope string_scope.
Local Open Scope list_scope.
Local Open Scope Z_scope.
Local Open Scope res_scope.
Local Notation length := List.length.

(** ** A small sound solver: it finds the given models and knows the given refutations *)

Definition holds (i : interp) (fs : list expr) : bool :=
  forallb (fun e => match zeval i e with VBool b => b | VInt _ => false end) fs.
Fixpoint exprs_eqb (a b : list expr) : bool :=
  match a, b with
  | [], [] => true
  | x :: a', y :: b' => expr_eqb x y && exprs_eqb a' b'
  | _, _ => false
  end.
Definition try (found : list interp) (refuted : list (list expr)) (fs : list expr) : answer :=
  if existsb (fun i => holds i fs) found then SAT
  else if existsb (exprs_eqb fs) refuted then UNSAT else UNKNOWN.

Lemma holds_models i fs : holds i fs = true <-> models i fs.
Proof.
  unfold holds, models. rewrite forallb_forall. split; intros H e I; specialize (H e I).
  - destruct (zeval i e); congruence.
  - now rewrite H.
Qed.
Lemma exprs_eqb_eq a : forall b, exprs_eqb a b = true -> a = b.
Proof.
  induction a as [|x a IH]; intros [|y b] H; cbn in H; try discriminate; [reflexivity|].
  apply andb_true_iff in H as [H1 H2]. apply expr_eqb_iff in H1. f_equal; auto.
Qed.
Lemma try_sat found refuted : sound_sat (try found refuted).
Proof.
  intros fs H. unfold try in H. destruct (existsb (fun i => holds i fs) found) eqn:E.
  - apply existsb_exists in E as (i & _ & K). exists i. now apply holds_models.
  - destruct (existsb (exprs_eqb fs) refuted); discriminate.
Qed.
Lemma try_unsat found refuted : Forall (fun fs => forall i, ~ models i fs) refuted -> sound_unsat (try found refuted).
Proof.
  intros R fs i H. unfold try in H. destruct (existsb (fun i => holds i fs) found); [discriminate|].
  destruct (existsb (exprs_eqb fs) refuted) eqn:E; [|discriminate].
  apply existsb_exists in E as (gs & I & K). apply exprs_eqb_eq in K. subst gs.
  rewrite Forall_forall in R. exact (R fs I i).
Qed.

(** the questions that are asked about a message *)
Definition oks {A} (l : list (res (list A))) : list A := flat_map (fun r => match r with Ok x => x | Err _ => [] end) l.
Definition questions (n : nat) (m : vmessage) (fields : list field) : list (list expr) :=
  oks [let* tc := type_constraints n m in Ok (map (fun c => c :: tc) (conflicts m fields))] ++
  oks (map (fun f => let* ps := paths (v_structure m) n f in
         Ok (oks (map (fun p => let* rf := reached_facts m fields f p in Ok [ETrue :: rf]) ps))) (fields ++ [FINAL])) ++
  oks (map (fun f => let* ps := paths (v_structure m) n f in
         Ok (oks (flat_map (fun p => map (fun c => let* pf := path_facts m fields p in let* tc := type_constraints n m in
                                Ok [condition c :: tc ++ pf]) (outgoing (v_structure m) f)) ps))) (INITIAL :: fields)) ++
  oks [let* ps := paths (v_structure m) n FINAL in
       Ok (oks (map (fun p => let* cf := coverage_facts m fields (removelast p) in Ok [ETrue :: cf]) ps))] ++
  oks (map (fun f => let* ps := paths (v_structure m) n f in
         Ok (oks (map (fun p => match rev p with
           | [] => Ok []
           | l :: _ =>
             let* o := target_size m fields l in let* size := needed o in
             let* rf := reached_facts m fields f p in let* tc := type_constraints n m in
             let facts := rf ++ tc ++ tc in
             Ok ([ETrue :: facts; ERel OLt size (ENum 0) :: facts; ERel OGe (target_first l) (EFirst MESSAGE) :: facts] ++
                 match lookup (v_types m) f with
                 | Some MOpaque => [ENot (ERel OEq (EBin OMod (target_first l) (ENum 8)) (ENum 1)) :: facts ++ tc;
                                    ENot (ERel OEq (EBin OMod size (ENum 8)) (ENum 0)) :: facts ++ tc]
                 | _ => []
                 end)
           end) ps))) (fields ++ [FINAL])) ++
  oks [let* ps := paths (v_structure m) n FINAL in
       Ok (oks (map (fun p => let* sf := size_facts n m fields (removelast p) in
                Ok [size_goal (removelast p) :: sf]) ps))].
Definition unmet (found : list interp) (qs : list (list expr)) : list (list expr) :=
  filter (fun q => negb (existsb (fun i => holds i q) found)) qs.

(** [answered], computed *)
Definition known (a : answer) : bool := match a with UNKNOWN => false | _ => true end.
Definition answered_b (solve : list expr -> answer) (n : nat) (m : vmessage) (fields : list field) : bool :=
  match type_constraints n m with
  | Ok tc => forallb (fun c => known (solve (c :: tc))) (conflicts m fields) &&
    forallb (fun f => match paths (v_structure m) n f with
      | Ok ps => forallb (fun p => match reached_facts m fields f p with
          | Ok rf => known (solve (ETrue :: rf ++ tc ++ tc)) | Err _ => true end) ps
      | Err _ => true end) fields
  | Err _ => true
  end &&
  match paths (v_structure m) n FINAL with
  | Ok ps => forallb (fun p => match coverage_facts m fields (removelast p) with
      | Ok facts => known (solve (ETrue :: facts)) | Err _ => true end) ps &&
    forallb (fun p => match size_facts n m fields (removelast p) with
      | Ok facts => known (solve (size_goal (removelast p) :: facts)) | Err _ => true end) ps
  | Err _ => true
  end.
Lemma answered_computed solve n m fields : answered_b solve n m fields = true -> answered solve n m fields.
Proof.
  unfold answered_b. intros H. apply andb_true_iff in H as [H1 H2].
  constructor.
  - intros c tc I T E. rewrite T in H1. apply andb_true_iff in H1 as [H1 _]. rewrite forallb_forall in H1.
    specialize (H1 c I). rewrite E in H1. discriminate.
  - intros ps p facts P I F E. rewrite P in H2. apply andb_true_iff in H2 as [H2 _]. rewrite forallb_forall in H2.
    specialize (H2 p I). rewrite F, E in H2. discriminate.
  - intros f ps p rf tc IF P I R T E. rewrite T in H1. apply andb_true_iff in H1 as [_ H1]. rewrite forallb_forall in H1.
    specialize (H1 f IF). rewrite P in H1. rewrite forallb_forall in H1. specialize (H1 p I). rewrite R, E in H1. discriminate.
  - intros ps p facts P I F E. rewrite P in H2. apply andb_true_iff in H2 as [_ H2]. rewrite forallb_forall in H2.
    specialize (H2 p I). rewrite F, E in H2. discriminate.
Qed.

(** an interpretation from the values of names *)
Fixpoint assoc (l : list (name * Z)) (x : name) : Z :=
  match l with [] => 0 | (y, z) :: t => if name_eqb x y then z else assoc t x end.
Definition values (l : list (name * Z)) : interp := interp_of (fun x => VInt (assoc l x)).

(** refute a list of formulas by arithmetic *)
Fixpoint all_true (i : interp) (fs : list expr) : Prop :=
  match fs with [] => True | e :: t => zeval i e = VBool true /\ all_true i t end.
Lemma refuted_by fs : (forall i, all_true i (unique expr_eqb fs) -> False) -> forall i, ~ models i fs.
Proof.
  intros R i M. apply (R i). assert (X : forall gs, (forall e, In e gs -> In e fs) -> all_true i gs).
  { induction gs as [|e gs IH]; intros H; cbn; [trivial|]. split; [apply M, H; now left|]. apply IH. intros x J. apply H. now right. }
  apply X. intros e I. eapply in_unique_aux. exact I.
Qed.
Ltac clean :=
  repeat match goal with
  | H : VBool _ = VBool true |- _ => apply (f_equal truth) in H; cbn [truth] in H
  | H : (_ =? _) = true |- _ => apply Z.eqb_eq in H
  | H : (_ <=? _) = true |- _ => apply Z.leb_le in H
  | H : (_ <? _) = true |- _ => apply Z.ltb_lt in H
  | H : (_ =? _) = false |- _ => apply Z.eqb_neq in H
  | H : (_ <=? _) = false |- _ => apply Z.leb_gt in H
  | H : (_ <? _) = false |- _ => apply Z.ltb_ge in H
  | H : negb _ = true |- _ => apply negb_true_iff in H
  | H : negb _ = false |- _ => apply negb_false_iff in H
  | H : _ && _ = true |- _ => apply andb_true_iff in H as [? ?]
  | H : _ || _ = false |- _ => apply orb_false_iff in H as [? ?]
  | H : _ && _ = false |- _ => apply andb_false_iff in H as [H|H]
  | H : _ || _ = true |- _ => apply orb_true_iff in H as [H|H]
  | H : true = true |- _ => clear H
  | H : true = false |- _ => discriminate H
  | H : false = true |- _ => discriminate H
  end.
Local Arguments Z.mul : simpl never.
Local Arguments Z.add : simpl never.
Local Arguments Z.sub : simpl never.
Local Arguments Z.opp : simpl never.
Local Arguments Z.div : simpl never.
Local Arguments Z.modulo : simpl never.
Ltac split_all :=
  repeat match goal with H : _ /\ _ |- _ => destruct H end.
Ltac refute :=
  apply refuted_by;
  match goal with |- forall i, all_true i ?l -> False => let l' := eval vm_compute in l in change (forall i, all_true i l' -> False) end;
  let i := fresh "i" in let M := fresh "M" in
  intros i M; cbn [all_true] in M; split_all; cbn in *; unfold smt_mod, smt_div in *; cbn [Z.abs Z.sgn] in *;
  clean; subst; Z.to_euclidean_division_equations; lia.

(** ** The message of the TLV example *)

Local Notation tag_t := (Enum ["TLV"; "Tag"] [(["Msg_Data"], 1); (["Msg_Error"], 3)] 8 false).
Local Notation length_t := (Modular ["TLV"; "Length"] (EBin OPow (ENum 2) (ENum 16)) 65536 16).
Definition tlv : vmessage := mkVMessage
  [mkLink INITIAL "tag" ETrue None None;
   mkLink "length" "value" ETrue (Some (EAss OMul [EVar "length"; ENum 8])) None;
   mkLink "tag" FINAL (ERel OEq (EVar "tag") (EVar "msg_error")) None None;
   mkLink "tag" "length" (ERel OEq (EVar "tag") (EVar "msg_data")) None None;
   mkLink "value" FINAL ETrue None None]
  [("tag", MScalar tag_t); ("length", MScalar length_t); ("value", MOpaque)] ["TLV"].
Definition tlv_fields := ["tag"; "length"; "value"].
Example tlv_constructed : construct 10 (graph tlv) = Ok ([], tlv_fields).
Proof. reflexivity. Qed.

(** a message with two bytes of data and one with an error *)
Definition common (tag last : Z) : list (name * Z) :=
  [(NVar "tag", tag); (NVar "msg_data", 1); (NVar "msg_error", 3); (NVar "tlv::msg_data", 1); (NVar "tlv::msg_error", 3);
   (NAttr ASize "tlv::tag", 8); (NAttr ASize "tlv::length", 16); (NAttr ASize "tag", 8); (NAttr ASize "length", 16);
   (NAttr AFirst "message", 1); (NAttr ALast "message", last); (NAttr ASize "message", last);
   (NAttr AFirst "tag", 1); (NAttr ALast "tag", 8)].
Definition data_values := common 1 40 ++
  [(NVar "length", 2); (NAttr AFirst "length", 9); (NAttr ALast "length", 24);
   (NAttr AFirst "value", 25); (NAttr ALast "value", 40); (NAttr ASize "value", 16);
   (NAttr AFirst "final", 41); (NAttr ALast "final", 40); (NAttr ASize "final", 0)].
Definition error_values := common 3 8 ++
  [(NAttr AFirst "final", 9); (NAttr ALast "final", 8); (NAttr ASize "final", 0)].
Definition tlv_found := [values data_values; values error_values].
Definition tlv_refuted := Eval vm_compute in unmet tlv_found (questions 10 tlv tlv_fields).
Definition tlv_solver := try tlv_found tlv_refuted.
Lemma tlv_unsat : sound_unsat tlv_solver.
Proof. apply try_unsat. unfold tlv_refuted. repeat constructor. all: refute. Qed.
Definition env_of (l : list (name * Z)) : env := fun x => VInt (assoc l x).
Lemma env_of_int l : int_env (env_of l).
Proof. intros x. eexists. reflexivity. Qed.
Example tlv_accepted : Message tlv_solver 10 tlv = Ok [].
Proof. vm_compute. reflexivity. Qed.
Example tlv_answered : answered tlv_solver 10 tlv tlv_fields.
Proof. apply answered_computed. vm_compute. reflexivity. Qed.

Ltac members :=
  repeat match goal with
  | H : _ \/ _ |- _ => destruct H as [H|H]
  | H : False |- _ => destruct H
  | H : _ = ?x |- _ => is_var x; subst x
  | H : (_, _) = (_, _) |- _ => inversion H; clear H; subst
  end.
Lemma tlv_no_always_valid : no_always_valid tlv.
Proof. intros f id lits size I. cbn in I. members. Qed.
Lemma tlv_modulus : modulus_known tlv.
Proof. intros f id e v size I g. cbn in I. members. split; [reflexivity|cbn; auto]. Qed.
Lemma tlv_data : legal tlv (env_of data_values) /\ bounds (env_of data_values).
Proof.
  split.
  - constructor.
    + apply env_of_int.
    + intros f t I. cbn in I. members; cbn; auto; vm_compute; intuition congruence.
    + intros f t I. cbn in I. members; reflexivity.
    + intros f id lits size av k z I K. cbn in I. members. vm_compute in K. members; reflexivity.
    + intros f t I. cbn in I. members; reflexivity.
    + reflexivity.
    + reflexivity.
  - vm_compute. intuition congruence.
Qed.

Definition data_path := Eval cbv in filter (fun l => negb (String.eqb (source l) "tag" && String.eqb (target l) FINAL))
  [mkLink INITIAL "tag" ETrue None None;
   mkLink "tag" "length" (ERel OEq (EVar "tag") (EVar "msg_data")) None None;
   mkLink "length" "value" ETrue (Some (EAss OMul [EVar "length"; ENum 8])) None;
   mkLink "value" FINAL ETrue None None].
Example tlv_path : leads (v_structure tlv) INITIAL data_path FINAL.
Proof. cbn. intuition. Qed.
Ltac concrete := repeat split; cbn; auto; try (vm_compute; congruence); try (eexists; split; reflexivity).
Example tlv_along : along tlv (env_of data_values) data_path.
Proof. split; intros l I; cbn in I; members; concrete. Qed.

(** C26: the error link cannot be taken as well *)
Example C26_tlv : forall l, In l (v_structure tlv) -> source l = "tag" -> taken (env_of data_values) l -> target l = "length".
Proof.
  intros l I S T.
  rewrite (C26_deterministic tlv_solver 10 tlv tlv_fields (env_of data_values) l
    (mkLink "tag" "length" (ERel OEq (EVar "tag") (EVar "msg_data")) None None) tlv_unsat tlv_accepted tlv_constructed
    tlv_answered tlv_no_always_valid tlv_modulus (proj1 tlv_data) I); [reflexivity|cbn; auto| | |exact T|].
  - rewrite S. reflexivity.
  - rewrite S. discriminate.
  - concrete.
Qed.
Example C27_tlv : forall b, 1 <= b <= 40 ->
  exists x, In x (removelast data_path) /\
    num (env_of data_values) (NAttr AFirst (target x)) <= b <= num (env_of data_values) (NAttr ALast (target x)).
Proof.
  intros b B. refine (C27_covered tlv_solver 10 tlv tlv_fields (env_of data_values) data_path
    _ _ b tlv_unsat tlv_accepted tlv_constructed _ tlv_answered tlv_path
    (eq_refl : removelast data_path = [_; _] ++ [_]) tlv_along (proj2 tlv_data) (env_of_int _) _ eq_refl B).
  - cbn. lia.
  - intros x e I J. cbn in I. members; cbn in J; members; cbn; intuition discriminate.
Qed.
Example C27_tlv_contiguous : forall b, 1 <= b <= 40 ->
  exists x, In x (removelast data_path) /\
    num (env_of data_values) (NAttr AFirst (target x)) <= b <= num (env_of data_values) (NAttr ALast (target x)).
Proof.
  intros b B. refine (C27_contiguous tlv_solver 10 tlv tlv_fields (env_of data_values) data_path
    _ _ b tlv_unsat tlv_accepted tlv_constructed _ tlv_answered tlv_no_always_valid tlv_modulus tlv_path
    (eq_refl : removelast data_path = [_; _] ++ [_]) tlv_along (proj2 tlv_data) (proj1 tlv_data) _ _ eq_refl B).
  - cbn. lia.
  - intros x I. cbn in I. members; discriminate.
  - intros u x w e E LF.
    assert (I : In x (removelast data_path)) by (rewrite E; apply in_or_app; right; now left). clear E.
    cbn in I. members; discriminate.
Qed.
Example C28_tlv : num (env_of data_values) (NAttr AFirst "value") mod 8 = 1.
Proof.
  refine (proj1 (proj2 (C28_field tlv_solver 10 tlv tlv_fields (env_of data_values) data_path
    (mkLink "length" "value" ETrue (Some (EAss OMul [EVar "length"; ENum 8])) None) tlv_unsat tlv_accepted tlv_constructed
    _ tlv_answered tlv_no_always_valid tlv_modulus tlv_path tlv_along (proj2 tlv_data) (proj1 tlv_data) _ _) _)).
  - cbn. lia.
  - cbn. auto.
  - discriminate.
  - reflexivity.
Qed.
Example C28_tlv_size : sumZ (own_sizes (env_of data_values) (removelast data_path)) mod 8 = 0.
Proof.
  refine (C28_message_size tlv_solver 10 tlv tlv_fields (env_of data_values) data_path tlv_unsat tlv_accepted tlv_constructed
    _ tlv_answered tlv_no_always_valid tlv_modulus _ tlv_path _ tlv_along (proj2 tlv_data) (proj1 tlv_data) _).
  - cbn. lia.
  - repeat constructor; cbn; intuition discriminate.
  - discriminate.
  - intros f t I NS. cbn in I. members; [destruct (NS tag_t); reflexivity|destruct (NS length_t); reflexivity|].
    left. split; [reflexivity|]. split; [discriminate|].
    exists (mkLink "length" "value" ETrue (Some (EAss OMul [EVar "length"; ENum 8])) None). cbn. auto.
Qed.
Lemma tlv_plain : plain_message tlv.
Proof.
  constructor.
  - intros l I. cbn in I. members; reflexivity.
  - intros l e I E. cbn in I. members; inversion E; reflexivity.
  - intros l e I E. cbn in I. members; inversion E; reflexivity.
  - intros f id e v size I. cbn in I. members. reflexivity.
Qed.
Lemma tlv_sane : sane tlv.
Proof.
  constructor.
  - intros f1 t1 f2 t2 I J E. cbn in I, J. members; try reflexivity; vm_compute in E; discriminate.
  - intros f id lits size I. cbn in I. members.
  - intros f t I. cbn in I. members; split; discriminate.
  - intros l I. cbn in I. members; discriminate.
Qed.
Example C45_tlv : exists g p, leads (v_structure tlv) INITIAL p FINAL /\ p <> [] /\ along tlv g p /\ bounds g /\ legal tlv g.
Proof.
  apply (C45_complete tlv_solver 10 tlv tlv_fields (try_sat _ _) tlv_accepted tlv_constructed); 
    [cbn; lia|apply tlv_plain|apply tlv_modulus|apply tlv_sane|discriminate].
Qed.

(** ** Accepted although... *)

Local Notation byte_t := (Modular ["P"; "Byte"] (ENum 256) 256 8).
Local Notation nibble_t := (Modular ["P"; "Nibble"] (ENum 16) 16 4).
Definition place (x : string) (first last : Z) : list (name * Z) :=
  [(NAttr AFirst x, first); (NAttr ALast x, last); (NAttr ASize x, last - first + 1)].
Definition type_sizes : list (name * Z) := [(NAttr ASize "p::byte", 8); (NAttr ASize "p::nibble", 4); (NAttr ASize "p::e", 8)].
Definition lk (a b : field) (c : expr) : link := mkLink a b c None None.

Ltac legal_case :=
  constructor; [apply env_of_int| | | | |reflexivity|reflexivity]; intros;
  repeat match goal with H : In _ _ |- _ => progress vm_compute in H end; members; try reflexivity; cbn; auto; vm_compute; intuition congruence.

(** ... the solver does not know whether two conditions exclude each other *)
Definition unknown_m : vmessage := mkVMessage
  [lk INITIAL "a" ETrue; lk "a" "b" (ERel OGt (EVar "a") (ENum 0)); lk "a" FINAL (ERel OLt (EVar "a") (ENum 10)); lk "b" FINAL ETrue]
  [("a", MScalar byte_t); ("b", MScalar byte_t)] ["P"].
Definition unknown_values (a : Z) := (NVar "a", a) :: type_sizes ++ place "message" 1 16 ++ place "a" 1 8 ++ place "b" 9 16.
Definition unknown_found := [values (unknown_values 20 ++ place "final" 17 16); values (unknown_values 0 ++ place "final" 9 8)].
Definition unknown_refuted := Eval vm_compute in tl (unmet unknown_found (questions 10 unknown_m ["a"; "b"])).
Theorem C26_unknown_refuted : exists solve m g l1 l2, sound_unsat solve /\ sound_sat solve /\ Message solve 10 m = Ok [] /\
  legal m g /\ In l1 (v_structure m) /\ In l2 (v_structure m) /\ source l1 = source l2 /\ taken g l1 /\ taken g l2 /\ l1 <> l2.
Proof.
  exists (try unknown_found unknown_refuted), unknown_m, (env_of (unknown_values 5)).
  exists (lk "a" "b" (ERel OGt (EVar "a") (ENum 0))), (lk "a" FINAL (ERel OLt (EVar "a") (ENum 10))).
  split; [apply try_unsat; unfold unknown_refuted; repeat constructor; refute|]. split; [apply try_sat|].
  split; [vm_compute; reflexivity|]. split; [legal_case|]. split; [cbn; auto|]. split; [cbn; auto|]. split; [reflexivity|].
  split; [concrete|]. split; [concrete|discriminate].
Qed.
Print Assumptions C26_unknown_refuted.

(** ... the values of an always valid enumeration that have no name are overlooked *)
Local Notation open_t := (Enum ["P"; "E"] [(["One"], 1); (["Two"], 2)] 8 true).
Definition open_m : vmessage := mkVMessage
  [lk INITIAL "tag" ETrue; lk "b" FINAL ETrue; lk "tag" "b" (ERel ONe (EVar "tag") (EVar "one")); lk "tag" FINAL (ERel ONe (EVar "tag") (EVar "two"))]
  [("tag", MScalar open_t); ("b", MScalar byte_t)] ["P"].
Definition open_values (tag : Z) := (NVar "tag", tag) :: [(NVar "one", 1); (NVar "two", 2); (NVar "p::one", 1); (NVar "p::two", 2)] ++
  type_sizes ++ place "message" 1 16 ++ place "tag" 1 8 ++ place "b" 9 16.
Definition open_found := [values (open_values 2 ++ place "final" 17 16); values (open_values 1 ++ place "final" 9 8)].
Definition open_refuted := Eval vm_compute in unmet open_found (questions 10 open_m ["tag"; "b"]).
Definition open_solver := try open_found open_refuted.
Theorem C26_always_valid_refuted : exists solve m fields g l1 l2, sound_unsat solve /\ sound_sat solve /\ Message solve 10 m = Ok [] /\
  construct 10 (graph m) = Ok ([], fields) /\ answered solve 10 m fields /\ modulus_known m /\
  legal m g /\ In l1 (v_structure m) /\ In l2 (v_structure m) /\ source l1 = source l2 /\ taken g l1 /\ taken g l2 /\ l1 <> l2.
Proof.
  exists open_solver, open_m, ["tag"; "b"], (env_of (open_values 7)).
  exists (lk "tag" "b" (ERel ONe (EVar "tag") (EVar "one"))), (lk "tag" FINAL (ERel ONe (EVar "tag") (EVar "two"))).
  split; [apply try_unsat; unfold open_refuted; repeat constructor; refute|]. split; [apply try_sat|].
  split; [vm_compute; reflexivity|]. split; [reflexivity|]. split; [apply answered_computed; vm_compute; reflexivity|].
  split; [intros f id e v size I g; cbn in I; members; split; [reflexivity|exact Logic.I]|].
  split; [legal_case|]. split; [cbn; auto|]. split; [cbn; auto|]. split; [reflexivity|].
  split; [concrete|]. split; [concrete|discriminate].
Qed.
Print Assumptions C26_always_valid_refuted.

(** ... z3 and Ada divide negative numbers differently *)
Definition div_c := ERel OEq (EBin ODiv (EBin OSub (EVar "a") (EVar "b")) (ENum 2)) (ENum 0).
Definition lt_c := ERel OLt (EVar "a") (EVar "b").
Definition div_m : vmessage := mkVMessage
  [lk INITIAL "a" ETrue; lk "a" "b" ETrue; lk "b" "c" div_c; lk "b" FINAL lt_c; lk "c" FINAL ETrue]
  [("a", MScalar byte_t); ("b", MScalar byte_t); ("c", MScalar byte_t)] ["P"].
Definition div_values (a b : Z) := [(NVar "a", a); (NVar "b", b)] ++ type_sizes ++ place "message" 1 24 ++
  place "a" 1 8 ++ place "b" 9 16 ++ place "c" 17 24.
Definition div_found := [values (div_values 2 2 ++ place "final" 25 24); values (div_values 2 9 ++ place "final" 17 16)].
Definition div_refuted := Eval vm_compute in unmet div_found (questions 10 div_m ["a"; "b"; "c"]).
Definition div_solver := try div_found div_refuted.
Theorem C26_division_refuted : exists solve m fields g l1 l2, sound_unsat solve /\ sound_sat solve /\ Message solve 10 m = Ok [] /\
  construct 10 (graph m) = Ok ([], fields) /\ answered solve 10 m fields /\ no_always_valid m /\ modulus_known m /\
  legal m g /\ In l1 (v_structure m) /\ In l2 (v_structure m) /\ source l1 = source l2 /\
  eval_sc g (condition l1) = Some (VBool true) /\ eval_sc g (condition l2) = Some (VBool true) /\ l1 <> l2.
Proof.
  exists div_solver, div_m, ["a"; "b"; "c"], (env_of (div_values 4 5)), (lk "b" "c" div_c), (lk "b" FINAL lt_c).
  split; [apply try_unsat; unfold div_refuted; repeat constructor; refute|]. split; [apply try_sat|].
  split; [vm_compute; reflexivity|]. split; [reflexivity|]. split; [apply answered_computed; vm_compute; reflexivity|].
  split; [intros f id lits size I; cbn in I; members|].
  split; [intros f id e v size I g; cbn in I; members; split; (reflexivity || exact Logic.I)|].
  split; [legal_case|]. split; [cbn; auto|]. split; [cbn; auto|]. split; [reflexivity|].
  split; [reflexivity|]. split; [reflexivity|discriminate].
Qed.
Print Assumptions C26_division_refuted.

(** ... an array does not start at a byte boundary *)
Definition sized_to (b : field) (a : field) (z : Z) : link := mkLink a b ETrue (Some (ENum z)) None.
Definition array_m : vmessage := mkVMessage
  [lk INITIAL "a" ETrue; sized_to "b" "a" 16; lk "b" "c" ETrue; lk "c" FINAL ETrue]
  [("a", MScalar nibble_t); ("b", MArray ["P"; "Bytes"]); ("c", MScalar nibble_t)] ["P"].
Definition array_values := [(NVar "a", 3)] ++ type_sizes ++ place "message" 1 24 ++
  place "a" 1 4 ++ place "b" 5 20 ++ place "c" 21 24 ++ place "final" 25 24.
Definition array_found := [values array_values].
Definition array_refuted := Eval vm_compute in unmet array_found (questions 10 array_m ["a"; "b"; "c"]).
Definition array_solver := try array_found array_refuted.
Theorem C28_array_refuted : exists solve m fields g p l id, sound_unsat solve /\ sound_sat solve /\ Message solve 10 m = Ok [] /\
  construct 10 (graph m) = Ok ([], fields) /\ answered solve 10 m fields /\ no_always_valid m /\ modulus_known m /\
  leads (v_structure m) INITIAL p FINAL /\ along m g p /\ bounds g /\ legal m g /\
  In l (removelast p) /\ lookup (v_types m) (target l) = Some (MArray id) /\ num g (NAttr AFirst (target l)) mod 8 = 5.
Proof.
  exists array_solver, array_m, ["a"; "b"; "c"], (env_of array_values), (v_structure array_m), (sized_to "b" "a" 16), ["P"; "Bytes"].
  split; [apply try_unsat; unfold array_refuted; repeat constructor; refute|]. split; [apply try_sat|].
  split; [vm_compute; reflexivity|]. split; [reflexivity|]. split; [apply answered_computed; vm_compute; reflexivity|].
  split; [intros f id lits size I; cbn in I; members|].
  split; [intros f id e v size I g; cbn in I; members; split; (reflexivity || exact Logic.I)|].
  split; [cbn; intuition|]. split; [split; intros l I; cbn in I; members; concrete|].
  split; [vm_compute; intuition congruence|]. split; [legal_case|]. split; [cbn; auto|]. split; reflexivity.
Qed.
Print Assumptions C28_array_refuted.

(** ... the size of an array, and with it that of the message, is not a number of bytes:
    the proof assumes that sizes of arrays are *)
Definition odd_m : vmessage := mkVMessage [sized_to "b" INITIAL 12; lk "b" FINAL ETrue] [("b", MArray ["P"; "Bytes"])] ["P"].
Definition odd_values := place "message" 1 16 ++ place "b" 1 12 ++ place "final" 13 12.
Definition odd_found := [values odd_values].
Definition odd_refuted := Eval vm_compute in unmet odd_found (questions 10 odd_m ["b"]).
Definition odd_solver := try odd_found odd_refuted.
Theorem C28_array_size_refuted : exists solve m fields g p, sound_unsat solve /\ sound_sat solve /\ Message solve 10 m = Ok [] /\
  construct 10 (graph m) = Ok ([], fields) /\ answered solve 10 m fields /\ no_always_valid m /\ modulus_known m /\
  leads (v_structure m) INITIAL p FINAL /\ along m g p /\ bounds g /\ legal m g /\
  sumZ (own_sizes g (removelast p)) mod 8 = 4.
Proof.
  exists odd_solver, odd_m, ["b"], (env_of odd_values), (v_structure odd_m).
  split; [apply try_unsat; unfold odd_refuted; repeat constructor; refute|]. split; [apply try_sat|].
  split; [vm_compute; reflexivity|]. split; [reflexivity|]. split; [apply answered_computed; vm_compute; reflexivity|].
  split; [intros f id lits size I; cbn in I; members|].
  split; [intros f id e v size I g; cbn in I; members; split; (reflexivity || exact Logic.I)|].
  split; [cbn; intuition|]. split; [split; intros l I; cbn in I; members; concrete|].
  split; [vm_compute; intuition congruence|]. split; [legal_case|]. reflexivity.
Qed.
Print Assumptions C28_array_size_refuted.

(** ... a field does not end where the field it overlays ends *)
Local Notation word_t := (Modular ["P"; "Word"] (ENum 65536) 65536 16).
Definition over_l := mkLink "b" "c" ETrue None (Some (EFirst "b")).
Definition over_m : vmessage := mkVMessage
  [lk INITIAL "a" ETrue; mkLink "a" "b" ETrue (Some (EAss OMul [EVar "a"; ENum 8])) None; over_l; lk "c" FINAL ETrue]
  [("a", MScalar byte_t); ("b", MOpaque); ("c", MScalar word_t)] ["P"].
Definition over_values (a : Z) := [(NVar "a", a)] ++ (NAttr ASize "p::word", 16) :: type_sizes ++ place "message" 1 (8 + a * 8) ++
  place "a" 1 8 ++ place "b" 9 (8 + a * 8) ++ place "c" 9 24 ++ place "final" 25 24.
Definition over_found := [values (over_values 2); values (over_values 3)].
Definition over_questions := questions 10 over_m ["a"; "b"; "c"].
Definition over_refuted := Eval vm_compute in unmet over_found over_questions.
Definition over_solver := try over_found over_refuted.
Example over_unsat : sound_unsat over_solver.
Proof. apply try_unsat. unfold over_refuted. repeat constructor; refute. Qed.
Example over_accepted : Message over_solver 10 over_m = Ok [].
Proof. vm_compute. reflexivity. Qed.
Theorem C46_always_refuted : exists solve m fields g p l x, sound_unsat solve /\ sound_sat solve /\ Message solve 10 m = Ok [] /\
  construct 10 (graph m) = Ok ([], fields) /\ answered solve 10 m fields /\ no_always_valid m /\ modulus_known m /\
  leads (v_structure m) INITIAL p FINAL /\ along m g p /\ bounds g /\ legal m g /\
  In l (removelast p) /\ lfirst l = Some (EFirst x) /\ num g (NAttr ALast (target l)) <> num g (NAttr ALast x).
Proof.
  exists over_solver, over_m, ["a"; "b"; "c"], (env_of (over_values 3)), (v_structure over_m), over_l, "b".
  split; [apply over_unsat|]. split; [apply try_sat|].
  split; [apply over_accepted|]. split; [reflexivity|]. split; [apply answered_computed; vm_compute; reflexivity|].
  split; [intros f id lits size I; cbn in I; members|].
  split; [intros f id e v size I g; cbn in I; members; split; (reflexivity || exact Logic.I)|].
  split; [cbn; intuition|]. split; [split; intros l I; cbn in I; members; concrete|].
  split; [vm_compute; intuition congruence|]. split; [legal_case|]. split; [cbn; auto|]. split; [reflexivity|discriminate].
Qed.
Print Assumptions C46_always_refuted.
Example C46_over : exists g, int_env g /\ (forall k, In k (firstn 3 (v_structure over_m)) -> laid over_m g k) /\ bounds g /\
  num g (NAttr ALast "c") = num g (NAttr ALast "b").
Proof.
  refine (C46_congruent over_solver 10 over_m ["a"; "b"; "c"] "c" (firstn 2 (v_structure over_m)) over_l "b" false (try_sat _ _)
    over_accepted eq_refl _ _ _ _ _ eq_refl).
  - cbn. lia.
  - constructor.
    + intros l I. cbn in I. members; reflexivity.
    + intros l e I E. cbn in I. members; inversion E; reflexivity.
    + intros l e I E. cbn in I. members; inversion E; reflexivity.
    + intros f id e v size I. cbn in I. members; reflexivity.
  - constructor.
    + intros f1 t1 f2 t2 I J E. cbn in I, J. members; try reflexivity; vm_compute in E; discriminate.
    + intros f id lits size I. cbn in I. members.
    + intros f t I. cbn in I. members; split; discriminate.
    + intros l I. cbn in I. members; discriminate.
  - cbn. auto.
  - cbn. intuition.
Qed.
