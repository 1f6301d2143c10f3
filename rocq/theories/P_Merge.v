(** C29: merging of message fields. *)
From Coq Require Import String Ascii List ZArith Bool Lia Permutation.
From Verif Require Import Base Expr ExprEval ExprFacts ExprTotal Ident TypeSpec MsgGraph Solver SolverFacts
  Verify VerifySpec GenSpec MsgGraphFacts Merge MergeSpec MergeFacts MergeSplice MergeLoop.
Import ListNotations.
Local Open Scope string_scope.
Local Open Scope list_scope.
Local Open Scope Z_scope.

(** If merging ends without errors, no message field is left, and in every world the
    message before and the message after merging may go through the same fields, with
    the same types, sizes and positions.  This holds for every order of the links, for
    everything the verification of inner messages may say, and for every solver that says
    "unsatisfiable" only if that is so. *)
Theorem C29_merged : forall solve order verified n k m m',
  sound_unsat solve -> (forall s, Permutation (order s) s) -> mergeable_outer order n m ->
  merged solve order verified n k m = Ok ([], m') ->
  (forall x i, ~ In (x, FMsg i) (mm_types m')) /\
  forall g, world m g -> forall ss, run g m same INITIAL ss <-> run g m' same INITIAL ss.
Proof.
  intros solve order verified n k m m' SO OP MO H. split.
  - exact (merged_flat _ _ _ _ _ _ _ _ _ H).
  - intros g W ss. exact (merged_runs solve order verified n k g SO OP m m' MO W H ss).
Qed.

(** Every iteration of the outer loop removes a message field, so that the loop ends
    after at most as many iterations as there are message fields below the message:
    the loop with that bound does what the loop without bound does.  This holds for all
    messages whose types are dictionaries, also if there are errors. *)
Theorem C29_termination : forall solve order verified n k errors m,
  NoDup (map fst (mm_types m)) -> (forall p i, occurs m same p i -> NoDup (map fst (mm_types i))) ->
  (nested m <= k)%nat ->
  loops (fun a => match find (fun kt => is_msg (snd kt)) (mm_types (snd a)) with Some (f, FMsg i) => Some (f, i) | _ => None end)
        (fun a b => merge_field solve order verified n (fst a) (snd a) (fst b) (snd b))
        (errors, m) (merged_loop solve order verified n k errors m).
Proof. intros. apply loop_terminates; [split; assumption|assumption]. Qed.

(** The inner loop ends as well; what is left has no dangling field. *)
Lemma pruned_aux k : forall s d s' d', prune k s d = Ok (s', d') -> (forall l, In l s -> ~ In (target l) d) ->
  incl s' s /\ forall l, In l s' -> target l = FINAL \/ exists l', In l' s' /\ source l' = target l.
Proof.
  induction k as [|k IH]; intros s d s' d' P N; cbn [prune] in P; [discriminate|].
  destruct (dangling_in s) as [|x t] eqn:D.
  - apply Ok_inj in P. injection P as <- <-. rewrite app_nil_r.
    assert (E : filter (fun l => negb (memf (target l) d)) s = s).
    { clear D IH. induction s as [|l s IH]; [reflexivity|]. cbn [filter].
      assert (M : memf (target l) d = false) by (apply not_true_iff_false; rewrite memf_iff; apply N; now left).
      rewrite M. cbn [negb]. f_equal. apply IH. intros l' I. apply N. now right. }
    rewrite E. split; [apply incl_refl|]. intros l I. destruct (String.eqb_spec (target l) FINAL) as [X|X]; [now left|right].
    destruct (existsb (fun l' => String.eqb (source l') (target l)) s) eqn:Q.
    + apply existsb_exists in Q as (l' & J & Q). exists l'. split; [exact J|now apply String.eqb_eq].
    + exfalso. assert (Y : In (target l) (dangling_in s)); [|rewrite D in Y; destruct Y].
      apply in_dangling. split; [exists l; auto|]. split; [exact X|]. intros l' J E'.
      apply not_true_iff_false in Q. apply Q. apply existsb_exists. exists l'. split; [exact J|now apply String.eqb_eq].
  - destruct (IH _ _ _ _ P) as [I1 I2].
    + intros l I. apply filter_In in I as [_ I]. apply negb_true_iff, not_true_iff_false in I. now rewrite memf_iff in I.
    + split; [|exact I2]. intros l I. apply I1 in I. now apply filter_In in I.
Qed.
Theorem C29_pruned : forall s ts, exists s' ts', prune_dangling_fields s ts = Ok (s', ts') /\
  incl s' s /\ incl ts' ts /\
  forall l, In l s' -> target l = FINAL \/ exists l', In l' s' /\ source l' = target l.
Proof.
  intros s ts. unfold prune_dangling_fields.
  destruct (prune_total (S (List.length s)) s [] ltac:(lia)) as (s' & d & P). rewrite P. cbn [bind].
  exists s', (filter (fun kt => negb (memf (fst kt) d)) ts). split; [reflexivity|].
  destruct (pruned_aux _ _ _ _ _ P) as [X Y]; [intros l _ []|].
  split; [exact X|]. split; [intros y I; now apply filter_In in I|exact Y].
Qed.

(** ** A case *)

(** the order in which links are given *)
Definition given (s : list link) : list link := s.
(** inner messages are verified already *)
Definition fine (m : mmessage) : res (list string) := Ok [].
Definition byte_type : mtype := MScalar (Range ["p"; "byte"] 0 255 8).
Definition v (x : string) : expr := EName (NVar x) false.
Definition goes (a b : field) : link := mkLink a b ETrue None None.
Definition goes_if (a b : field) (c : expr) : link := mkLink a b c None None.

(** package Q is type Kind is (Req => 1, Rsp => 2);
    type Inner is message Kind; Len : Byte then Data with Size => Len * 8 if Len <= 10
    and Kind = Req, then null if Len > 10; Data : Opaque; end message; *)
Definition kind_type : mtype := MScalar (Enum ["q"; "kind"] [(["req"], 1); (["rsp"], 2)] 8 false).
Definition inner_links : list link :=
  [goes INITIAL "kind"; goes "kind" "len";
   mkLink "len" "data" (EAss OAnd [ERel OLe (v "len") (ENum 10); ERel OEq (v "kind") (v "req")]) (Some (EAss OMul [v "len"; ENum 8])) None;
   goes_if "len" FINAL (ERel OGt (v "len") (ENum 10)); goes "data" FINAL].
Definition inner_types : list (field * ftype) := [("kind", FType kind_type); ("len", FType byte_type); ("data", FType MOpaque)].
Definition inner : mmessage := MM true ["q"] inner_links inner_types ["kind"; "len"; "data"].

(** package P is type Outer is message Tag : Byte then Body if Tag > 0, then null if Tag =
    0; Body : Q::Inner then Tail if Body_Len <= 10, then null if Body_Len > 10;
    Tail : Byte; end message; *)
Definition outer_links : list link :=
  [goes INITIAL "tag"; goes_if "tag" "body" (ERel OGt (v "tag") (ENum 0)); goes_if "tag" FINAL (ERel OEq (v "tag") (ENum 0));
   goes_if "body" "tail" (ERel OLe (v "body_len") (ENum 10)); goes_if "body" FINAL (ERel OGt (v "body_len") (ENum 10)); goes "tail" FINAL].
Definition outer_types : list (field * ftype) := [("tag", FType byte_type); ("body", FMsg inner); ("tail", FType byte_type)].
Definition outer : mmessage := MM false ["p"] outer_links outer_types ["tag"; "body"; "tail"].

(** a solver that knows that a number is not at most and greater than another *)
Definition both (e : expr) : bool :=
  match e with
  | EAss OAnd [ERel OLe a b; ERel OGt c d] | EAss OAnd [ERel OGt a b; ERel OLe c d] => expr_eqb a c && expr_eqb b d
  | _ => false
  end.
Definition comparing (fs : list expr) : answer := if existsb both fs then UNSAT else UNKNOWN.
Lemma comparing_sound : sound_unsat comparing.
Proof.
  intros fs i H M. unfold comparing in H. destruct (existsb both fs) eqn:E; [|discriminate].
  apply existsb_exists in E as (e & I & B). specialize (M e I). unfold both in B.
  destruct e as [| |?|? ?|?|o ts|? ? ?|? ? ?]; try discriminate. destruct o; try discriminate.
  destruct ts as [|t1 [|t2 [|t3 ts]]]; try discriminate; destruct t1 as [| |?|? ?|?|? ?|? ? ?|o1 a b]; try discriminate;
    destruct o1; try discriminate; destruct t2 as [| |?|? ?|?|? ?|? ? ?|o2 c d]; try discriminate; destruct o2; try discriminate.
  all: apply andb_prop in B as [B1 B2]; apply expr_eqb_eq in B1, B2; subst c d; cbn [zeval map forallb truth] in M; injection M as M;
    rewrite andb_true_r in M; apply andb_prop in M as [M1 M2]; apply Z.leb_le in M1 || apply Z.ltb_lt in M1; apply Z.leb_le in M2 || apply Z.ltb_lt in M2; lia.
Qed.

(** the message after merging *)
Definition flat_links : list link :=
  [goes INITIAL "tag"; goes_if "tag" "body_kind" (ERel OGt (v "tag") (ENum 0)); goes_if "tag" FINAL (ERel OEq (v "tag") (ENum 0));
   goes_if "body_data" "tail" (ERel OLe (v "body_len") (ENum 10));
   goes_if "body_len" FINAL (EAss OAnd [ERel OGt (v "body_len") (ENum 10); ERel OGt (v "body_len") (ENum 10)]);
   goes_if "body_data" FINAL (ERel OGt (v "body_len") (ENum 10)); goes "tail" FINAL; goes "body_kind" "body_len";
   mkLink "body_len" "body_data" (EAss OAnd [ERel OLe (v "body_len") (ENum 10); ERel OEq (v "body_kind") (v "q::req")])
     (Some (EAss OMul [v "body_len"; ENum 8])) None].
Definition flat_types : list (field * ftype) :=
  [("tag", FType byte_type); ("body_kind", FType kind_type); ("body_len", FType byte_type); ("body_data", FType MOpaque); ("tail", FType byte_type)].
Definition flat : mmessage := MM false ["p"] flat_links flat_types ["tag"; "body_kind"; "body_len"; "body_data"; "tail"].

(** numbers for names *)
Definition numbers (vs sizes : list (string * Z)) : env := fun n =>
  let get (l : list (string * Z)) x := match find (fun kv => String.eqb (fst kv) x) l with Some (_, z) => z | None => 0 end in
  VInt (match n with
        | NVar x => get vs x
        | NAttr ASize x => get sizes x
        | NAttr AFirst x => if String.eqb x MESSAGE then 1 else 0
        | NAttr _ _ => 0
        end).
Definition some_world : env :=
  numbers [("tag", 7); ("body_kind", 1); ("body_len", 3); ("q::req", 1); ("q::rsp", 2); ("req", 1); ("rsp", 2)]
          [("body_kind", 8); ("body_len", 8); ("q::kind", 8); ("p::byte", 8); (MESSAGE, 48)].
Definition steps : list step :=
  [mkStep "tag" byte_type None None; mkStep "body_kind" kind_type None None; mkStep "body_len" byte_type None None;
   mkStep "body_data" MOpaque (Some 24) None; mkStep "tail" byte_type None None].

Ltac members :=
  repeat match goal with
  | H : In _ (_ :: _) |- _ => destruct H as [H|H]
  | H : In _ [] |- _ => destruct H
  | H : _ = _ \/ _ |- _ => destruct H as [H|H]
  | H : False |- _ => destruct H
  end.
(** only one message occurs below a message *)
Lemma only m x i : (forall y j, In (y, FMsg j) (mm_types m) -> y = x /\ j = i) -> (forall y j, ~ In (y, FMsg j) (mm_types i)) ->
  forall p j, occurs m same p j -> p = x /\ j = i.
Proof.
  intros H N p j O. inversion O as [q r y j' I|q r y j' p' j'' I O']; subst; [exact (H _ _ I)|].
  destruct (H _ _ I) as [-> ->]. exfalso. inversion O' as [q r y j' I'|q r y j' p' j'' I' _]; subst; exact (N _ _ I').
Qed.
Lemma some_numbers a b : int_env (numbers a b).
Proof. intros n. eexists. reflexivity. Qed.

(** the steps along the links with the given numbers *)
Definition number_of (g : env) (o : option expr) : option (option Z) :=
  match o with None => Some None | Some e => match eval g e with Some (VInt z) => Some (Some z) | _ => None end end.
Fixpoint walk (g : env) (m : mmessage) (a : field) (ks : list nat) : option (list step) :=
  match ks with
  | [] => None
  | k :: ks' =>
    match nth_error (mm_structure m) k with
    | None => None
    | Some l =>
      match eval (under same g) (condition l) with
      | Some (VBool true) =>
        if negb (String.eqb (source l) a) then None
        else if String.eqb (target l) FINAL then match ks' with [] => Some [] | _ => None end
        else match ftype_of (mm_types m) (target l), number_of (under same g) (lsize l), number_of (under same g) (lfirst l), walk g m (target l) ks' with
             | Some (FType t), Some z, Some w, Some ss => Some (mkStep (target l) t z w :: ss)
             | _, _, _, _ => None
             end
      | _ => None
      end
    end
  end.
Lemma number_value g o z : number_of g o = Some z -> value g o z.
Proof.
  unfold number_of, value. destruct o as [e|]; [|intros H; injection H as <-; exact I].
  destruct (eval g e) as [[w|]|]; try discriminate. intros H. injection H as <-. reflexivity.
Qed.
Lemma walk_run g m ks : forall a ss, walk g m a ks = Some ss -> run g m same a ss.
Proof.
  induction ks as [|k ks IH]; intros a ss H; cbn [walk] in H; [discriminate|].
  destruct (nth_error (mm_structure m) k) as [l|] eqn:N; [|discriminate]. apply nth_error_In in N.
  destruct (eval (under same g) (condition l)) as [[|[|]]|] eqn:C; try discriminate.
  destruct (String.eqb_spec (source l) a) as [E|]; [|discriminate]. cbn [negb] in H.
  destruct (String.eqb_spec (target l) FINAL) as [F|F].
  - destruct ks; [|discriminate]. injection H as <-. eapply run_end; eauto.
  - destruct (ftype_of (mm_types m) (target l)) as [[t|]|] eqn:T; try discriminate.
    destruct (number_of _ (lsize l)) as [z|] eqn:Z; [|discriminate]. destruct (number_of _ (lfirst l)) as [w|] eqn:W; [|discriminate].
    destruct (walk g m (target l) ks) as [ss'|] eqn:K; [|discriminate]. injection H as <-.
    change (target l) with (same (target l)) at 1. eapply run_field; eauto using number_value.
Qed.

Lemma outer_only p i : occurs outer same p i -> p = "body" /\ i = inner.
Proof.
  apply only.
  - intros y j I. cbv [mm_types outer outer_types] in I. members; try discriminate. injection I as <- <-. auto.
  - intros y j I. cbv [mm_types inner inner_types] in I. members; discriminate.
Qed.
Lemma inner_mergeable : mergeable given 200 inner.
Proof.
  split.
  - split.
    + exists inner_links, inner_types. split; [vm_compute; reflexivity|]. split; [|split].
      * repeat constructor; cbn; intuition discriminate.
      * cbn. intuition discriminate.
      * cbn. intuition discriminate.
    + intros l I. cbv [mm_structure inner inner_links] in I. members; subst l; discriminate.
  - intros l I. cbv [mm_structure inner inner_links] in I. members; subst l; split; reflexivity.
  - intros l e I J. cbv [mm_structure inner inner_links] in I. members; subst l; cbn in J; members; subst e; (split; [reflexivity|]); cbn; intros x X; intuition discriminate.
  - intros l e I J. cbv [mm_structure inner inner_links] in I. members; subst l; cbn in J; members; subst e; reflexivity.
  - intros l I E. cbv [mm_structure inner inner_links] in I. members; subst l; try discriminate. split; [reflexivity|discriminate].
  - intros f id lits size I. cbn in I. members; discriminate.
  - intros f id e w size I. cbn in I. members; discriminate.
Qed.
Example C29_case :
  mergeable_outer given 200 outer /\ world outer some_world /\ merged comparing given fine 200 (nested outer) outer = Ok ([], flat) /\
  run some_world outer same INITIAL steps /\ run some_world flat same INITIAL steps.
Proof.
  assert (MO : mergeable_outer given 200 outer).
  { split.
    - split.
      + exists outer_links, outer_types. split; [vm_compute; reflexivity|]. split; [|split].
        * repeat constructor; cbn; intuition discriminate.
        * cbn. intuition discriminate.
        * cbn. intuition discriminate.
      + intros l I. cbv [mm_structure outer outer_links] in I. members; subst l; discriminate.
    - intros l I. cbv [mm_structure outer outer_links] in I. members; subst l; split; reflexivity.
    - intros p i O. apply outer_only in O as [-> ->]. exact inner_mergeable. }
  assert (W : world outer some_world).
  { split; [apply some_numbers|]. intros p i O. apply outer_only in O as [-> ->]. split.
    - split.
      + apply some_numbers.
      + intros f t I. cbn in I. members; try discriminate; injection I as <- <-; vm_compute; intuition discriminate.
      + intros f t I. cbn in I. members; try discriminate; injection I as <- <-; reflexivity.
      + intros f id lits size av k z I J. cbn in I. members; try discriminate; injection I as <- <- <- <- <-. vm_compute in J. members; apply pair_equal_spec in J as [<- <-]; reflexivity.
      + intros f t I. cbn in I. members; try discriminate; injection I as <- <-; reflexivity.
      + reflexivity.
      + reflexivity.
    - intros l e I J. cbv [mm_structure inner inner_links] in I. members; subst l; cbn in J; members; subst e. eexists. vm_compute. reflexivity. }
  assert (M : merged comparing given fine 200 (nested outer) outer = Ok ([], flat)) by (vm_compute; reflexivity).
  assert (R : run some_world flat same INITIAL steps).
  { apply (walk_run _ _ [0; 1; 7; 8; 3; 6]%nat). vm_compute. reflexivity. }
  split; [exact MO|]. split; [exact W|]. split; [exact M|]. split; [|exact R].
  apply (proj2 (C29_merged comparing given fine 200 _ outer flat comparing_sound (fun s => Permutation_refl s) MO M)); [exact W|exact R].
Qed.
Example C29_termination_case : nested outer = 1%nat /\
  loops (fun a => match find (fun kt => is_msg (snd kt)) (mm_types (snd a)) with Some (f, FMsg i) => Some (f, i) | _ => None end)
        (fun a b => merge_field comparing given fine 200 (fst a) (snd a) (fst b) (snd b)) ([], outer) (Ok ([], flat)).
Proof.
  split; [reflexivity|].
  assert (M : merged_loop comparing given fine 200 1 [] outer = Ok ([], flat)) by (vm_compute; reflexivity).
  rewrite <- M. apply C29_termination.
  - repeat constructor; cbn; intuition discriminate.
  - intros p i O. apply outer_only in O as [-> ->]. repeat constructor; cbn; intuition discriminate.
  - repeat constructor.
Qed.
(** two rounds are needed to find "b" and "a" dangling *)
Example C29_pruned_case :
  prune_dangling_fields [goes INITIAL "a"; goes "a" "b"; goes INITIAL "c"; goes "c" FINAL] [("a", FType byte_type); ("b", FType byte_type); ("c", FType byte_type)]
  = Ok ([goes INITIAL "c"; goes "c" FINAL], [("c", FType byte_type)]).
Proof. reflexivity. Qed.

Print Assumptions C29_merged.
Print Assumptions C29_termination.
Print Assumptions C29_pruned.

(** ** What gets lost *)

(** a message with the fields of [i] followed by another one *)
Definition around (i : mmessage) : mmessage :=
  MM false ["p"] [goes INITIAL "f"; goes "f" "t"; goes "t" FINAL] [("f", FMsg i); ("t", FType byte_type)] ["f"; "t"].
Definition undecided (fs : list expr) : answer := UNKNOWN.
Lemma undecided_sound : sound_unsat undecided.
Proof. discriminate. Qed.
Lemma around_only i : (forall y j, ~ In (y, FMsg j) (mm_types i)) -> forall p j, occurs (around i) same p j -> p = "f" /\ j = i.
Proof.
  intros N. apply only; [|exact N]. intros y j I. cbv [mm_types around] in I. members; try discriminate. injection I as <- <-. auto.
Qed.
(** The condition of the first link of an inner message gets lost. *)
Definition big_inner : mmessage :=
  MM true ["q"] [goes_if INITIAL "x" (ERel OEq (ESize MESSAGE) (ENum 16)); goes "x" FINAL] [("x", FType byte_type)] ["x"].
Definition big_flat : mmessage :=
  MM false ["p"] [goes INITIAL "f_x"; goes "f_x" "t"; goes "t" FINAL] [("f_x", FType byte_type); ("t", FType byte_type)] ["f_x"; "t"].
Theorem C29_first_condition_refuted : exists m m' g ss, merged undecided given fine 200 1 m = Ok ([], m') /\ world m g /\
  run g m' same INITIAL ss /\ ~ run g m same INITIAL ss.
Proof.
  exists (around big_inner), big_flat, (numbers [] [("f_x", 8); ("p::byte", 8); (MESSAGE, 8)]), [mkStep "f_x" byte_type None None; mkStep "t" byte_type None None].
  split; [vm_compute; reflexivity|]. split; [|split].
  - split; [apply some_numbers|]. intros p i O. apply around_only in O as [-> ->];
      [|intros y j I; cbv [mm_types big_inner] in I; members; discriminate]. split.
    + split.
      * apply some_numbers.
      * intros f t I. cbn in I. members; injection I as <- <-. vm_compute. intuition discriminate.
      * intros f t I. cbn in I. members; injection I as <- <-. reflexivity.
      * intros f id lits size av k z I. cbn in I. members; discriminate.
      * intros f t I. cbn in I. members; injection I as <- <-. reflexivity.
      * reflexivity.
      * reflexivity.
    + intros l e I J. cbv [mm_structure big_inner] in I. members; subst l; destruct J.
  - apply (walk_run _ _ [0; 1; 2]%nat). vm_compute. reflexivity.
  - intros R. apply run_inv in R as (l & I & E & _ & K). cbv [mm_structure around] in I. members; subst l; try discriminate.
    destruct K as [(K & _)|[(_ & t & z & w & ss' & F & _)|(_ & j & w & ss1 & ss2 & F & R & _)]]; try discriminate.
    cbn in F. injection F as <-. apply run_inv in R as (l & I & E' & H & _). cbv [mm_structure big_inner] in I. members; subst l; try discriminate.
Qed.

(** Names below a logical negation are not replaced. *)
Definition not_inner : mmessage :=
  MM true ["q"] [goes INITIAL "x"; goes_if "x" "y" (ENot (ERel OEq (v "x") (ENum 1))); goes_if "x" FINAL (ERel OEq (v "x") (ENum 1)); goes "y" FINAL]
     [("x", FType byte_type); ("y", FType byte_type)] ["x"; "y"].
Definition not_flat : mmessage :=
  MM false ["p"]
     [goes INITIAL "f_x"; goes_if "f_x" "t" (ERel OEq (v "f_x") (ENum 1)); goes "f_y" "t"; goes "t" FINAL; goes_if "f_x" "f_y" (ERel ONe (v "x") (ENum 1))]
     [("f_x", FType byte_type); ("f_y", FType byte_type); ("t", FType byte_type)] ["f_x"; "f_y"; "t"].
Theorem C29_not_refuted : exists m m' g ss, merged undecided given fine 200 1 m = Ok ([], m') /\ world m g /\
  run g m' same INITIAL ss /\ ~ run g m same INITIAL ss.
Proof.
  exists (around not_inner), not_flat, (numbers [("f_x", 1)] [("f_x", 8); ("f_y", 8); ("p::byte", 8); (MESSAGE, 8)]),
    [mkStep "f_x" byte_type None None; mkStep "f_y" byte_type None None; mkStep "t" byte_type None None].
  split; [vm_compute; reflexivity|]. split; [|split].
  - split; [apply some_numbers|]. intros p i O. apply around_only in O as [-> ->];
      [|intros y j I; cbv [mm_types not_inner] in I; members; discriminate]. split.
    + split.
      * apply some_numbers.
      * intros f t I. cbn in I. members; injection I as <- <-; vm_compute; intuition discriminate.
      * intros f t I. cbn in I. members; injection I as <- <-; reflexivity.
      * intros f id lits size av k z I. cbn in I. members; discriminate.
      * intros f t I. cbn in I. members; injection I as <- <-; reflexivity.
      * reflexivity.
      * reflexivity.
    + intros l e I J. cbv [mm_structure not_inner] in I. members; subst l; destruct J.
  - apply (walk_run _ _ [0; 4; 2; 3]%nat). vm_compute. reflexivity.
  - intros R. apply run_inv in R as (l & I & E & _ & K). cbv [mm_structure around] in I. members; subst l; try discriminate.
    destruct K as [(K & _)|[(_ & t & z & w & ss' & F & _)|(_ & j & w & ss1 & ss2 & F & R & W & R2 & SS)]]; try discriminate.
    cbn in F. injection F as <-. cbn in W. destruct w; [destruct W|]. cbn [placed] in SS.
    apply run_inv in R as (l & I & E' & _ & K). cbv [mm_structure not_inner] in I. members; subst l; try discriminate.
    destruct K as [(K & _)|[(_ & t & z & w & ss' & F & _ & _ & R & ->)|(_ & j & w & sa & sb & F & R & _)]]; try discriminate.
    apply run_inv in R as (l & I & E2 & H & K). cbv [mm_structure not_inner] in I. members; subst l; try discriminate.
    destruct K as [(_ & ->)|[(K & _)|(K & _)]]; try (now destruct K). cbn in SS. injection SS as _ SS.
    apply run_inv in R2 as (l & I & E3 & _ & K). cbv [mm_structure around] in I. members; subst l; try discriminate.
    destruct K as [(K & _)|[(_ & t' & z' & w2 & ss2' & F' & _ & _ & _ & ->)|(_ & j & w2 & sa & sb & F' & R & _)]]; try discriminate.
Qed.

(** Sizes simplified while merging an inner message contain variables with a sign, which
    are not replaced when the inner message is merged into another message. *)
Definition sub_inner : mmessage :=
  MM true ["q"] [goes INITIAL "a"; goes "a" "b"; mkLink "b" "d" ETrue (Some (EBin OSub (v "b") (v "a"))) None; goes "d" FINAL]
     [("a", FType byte_type); ("b", FType byte_type); ("d", FType MOpaque)] ["a"; "b"; "d"].
Definition sub_flat : mmessage :=
  MM false ["p"] [goes INITIAL "f_a"; goes "f_d" "t"; goes "t" FINAL; goes "f_a" "f_b";
                  mkLink "f_b" "f_d" ETrue (Some (EAss OAdd [v "f_b"; EName (NVar "f_a") true])) None]
     [("f_a", FType byte_type); ("f_b", FType byte_type); ("f_d", FType MOpaque); ("t", FType byte_type)] ["f_a"; "f_b"; "f_d"; "t"].
Definition sub_flat2 : mmessage :=
  MM false ["p"] [goes INITIAL "f_f_a"; goes "f_t" "t"; goes "t" FINAL; goes "f_f_d" "f_t"; goes "f_f_a" "f_f_b";
                  mkLink "f_f_b" "f_f_d" ETrue (Some (EAss OAdd [v "f_f_b"; EName (NVar "f_a") true])) None]
     [("f_f_a", FType byte_type); ("f_f_b", FType byte_type); ("f_f_d", FType MOpaque); ("f_t", FType byte_type); ("t", FType byte_type)]
     ["f_f_a"; "f_f_b"; "f_f_d"; "f_t"; "t"].
Theorem C29_sign_refuted : exists i i' m' g ss,
  merged undecided given fine 200 1 (around i) = Ok ([], i') /\ merged undecided given fine 200 1 (around i') = Ok ([], m') /\
  world (around i') g /\ run g m' same INITIAL ss /\ ~ run g (around i') same INITIAL ss.
Proof.
  exists sub_inner, sub_flat, sub_flat2,
    (numbers [("f_f_a", 8); ("f_f_b", 32)] [("f_f_a", 8); ("f_f_b", 8); ("f_t", 8); ("p::byte", 8); (MESSAGE, 8)]),
    [mkStep "f_f_a" byte_type None None; mkStep "f_f_b" byte_type None None; mkStep "f_f_d" MOpaque (Some 32) None;
     mkStep "f_t" byte_type None None; mkStep "t" byte_type None None].
  split; [vm_compute; reflexivity|]. split; [vm_compute; reflexivity|]. split; [|split].
  - split; [apply some_numbers|]. intros p i O. apply around_only in O as [-> ->];
      [|intros y j I; cbv [mm_types sub_flat] in I; members; discriminate]. split.
    + split.
      * apply some_numbers.
      * intros f t I. cbn in I. members; try discriminate; injection I as <- <-; vm_compute; intuition discriminate.
      * intros f t I. cbn in I. members; try discriminate; injection I as <- <-; reflexivity.
      * intros f id lits size av k z I. cbn in I. members; discriminate.
      * intros f t I. cbn in I. members; try discriminate; injection I as <- <-; reflexivity.
      * reflexivity.
      * reflexivity.
    + intros l e I J. cbv [mm_structure sub_flat] in I. members; subst l; cbn in J; members; subst e. eexists. vm_compute. reflexivity.
  - apply (walk_run _ _ [0; 4; 5; 3; 1; 2]%nat). vm_compute. reflexivity.
  - intros R. apply run_inv in R as (l & I & E & _ & K). cbv [mm_structure around] in I. members; subst l; try discriminate.
    destruct K as [(K & _)|[(_ & t & z & w & ss' & F & _)|(_ & j & w & ss1 & ss2 & F & R & W & R2 & SS)]]; try discriminate.
    cbn in F. injection F as <-. cbn in W. destruct w; [destruct W|]. cbn [placed] in SS.
    apply run_inv in R as (l & I & E' & _ & K). cbv [mm_structure sub_flat] in I. members; subst l; try discriminate.
    destruct K as [(K & _)|[(_ & t & z & w & ss' & F & _ & _ & R & ->)|(_ & j & w & sa & sb & F & R & _)]]; try discriminate.
    cbn in SS. injection SS as _ _ _ SS.
    apply run_inv in R as (l & I & E2 & _ & K). cbv [mm_structure sub_flat] in I. members; subst l; try discriminate.
    destruct K as [(K & _)|[(_ & t2 & z2 & w2 & ss2' & F2 & _ & _ & R & ->)|(_ & j & w2 & sa & sb & F2 & R & _)]]; try discriminate.
    cbn in SS. injection SS as _ _ _ SS.
    apply run_inv in R as (l & I & E3 & _ & K). cbv [mm_structure sub_flat] in I. members; subst l; try discriminate.
    destruct K as [(K & _)|[(_ & t3 & z3 & w3 & ss3 & F3 & Z & _ & R & ->)|(_ & j & w3 & sa & sb & F3 & R & _)]]; try discriminate.
    cbn in SS. injection SS as _ <- _ SS. vm_compute in Z. discriminate.
Qed.

(** The size of a message field gets lost. *)
Theorem C29_size_refuted : exists s1 s2 ts fs m', map lsize s1 <> map lsize s2 /\
  build given 200 [] false ["p"] s1 ts = Ok ([], MM false ["p"] s1 ts fs) /\
  build given 200 [] false ["p"] s2 ts = Ok ([], MM false ["p"] s2 ts fs) /\
  merged undecided given fine 200 1 (MM false ["p"] s1 ts fs) = Ok ([], m') /\
  merged undecided given fine 200 1 (MM false ["p"] s2 ts fs) = Ok ([], m').
Proof.
  exists [goes INITIAL "t"; mkLink "t" "f" ETrue (Some (EAss OMul [v "t"; ENum 8])) None; goes "f" FINAL],
         [goes INITIAL "t"; mkLink "t" "f" ETrue None None; goes "f" FINAL], [("t", FType byte_type); ("f", FMsg inner)], ["t"; "f"].
  eexists. split; [discriminate|]. repeat split; vm_compute; reflexivity.
Qed.

(** A message without fields as the type of a field is accepted by the constructor, but
    merging raises an IndexError. *)
Theorem C29_empty_refuted : exists i m, build given 200 [] true ["q"] [] [] = Ok ([], i) /\
  build given 200 [] false ["p"] (mm_structure m) (mm_types m) = Ok ([], m) /\ In ("f", FMsg i) (mm_types m) /\
  forall solve, merged solve given fine 200 1 m = Err "IndexError".
Proof.
  exists (MM true ["q"] [] [] []), (around (MM true ["q"] [] [] [])). split; [reflexivity|]. split; [vm_compute; reflexivity|].
  split; [now left|]. intros solve. vm_compute. reflexivity.
Qed.

(** Literals of the package of the inner message take the place of literals of the outer
    package with the same names: a link gets lost although its condition may be true. *)
Definition lit_inner : mmessage :=
  MM true ["q"] [goes INITIAL "u"; goes "u" "w"; goes "w" FINAL]
     [("u", FType (MScalar (Enum ["q"; "u"] [(["a"], 0); (["c"], 1)] 8 false))); ("w", FType (MScalar (Enum ["q"; "w"] [(["b"], 0); (["d"], 1)] 8 false)))]
     ["u"; "w"].
Definition lit_type : mtype := MScalar (Enum ["p"; "ab"] [(["a"], 1); (["b"], 2)] 8 false).
Definition lit_condition : expr := EAss OAnd [ERel ONe (v "h") (v "a"); ERel OEq (v "h") (v "b")].
Definition lit_outer : mmessage :=
  MM false ["p"] [goes INITIAL "h"; goes_if "h" "f" (ERel OEq (v "h") (v "b")); goes_if "h" "t" (ERel OEq (v "h") (v "a")); goes_if "f" "t" lit_condition; goes_if "f" FINAL (ERel OEq (v "h") (v "a")); goes "t" FINAL]
     [("h", FType lit_type); ("f", FMsg lit_inner); ("t", FType byte_type)] ["h"; "f"; "t"].
Definition literal_solver (fs : list expr) : answer :=
  if forallb (fun e => existsb (expr_eqb e) fs) [EAss OAnd [lit_condition; ETrue]; ERel OEq (v "a") (ENum 0); ERel OEq (v "b") (ENum 0)]
  then UNSAT else UNKNOWN.
Lemma literal_solver_sound : sound_unsat literal_solver.
Proof.
  intros fs i H M. unfold literal_solver in H. destruct (forallb _ _) eqn:E; [|discriminate]. rewrite forallb_forall in E.
  assert (X : forall e, In e [EAss OAnd [lit_condition; ETrue]; ERel OEq (v "a") (ENum 0); ERel OEq (v "b") (ENum 0)] -> zeval i e = VBool true).
  { intros e I. apply E in I. apply existsb_exists in I as (e' & J & Q). apply expr_eqb_eq in Q. subst e'. exact (M e J). }
  pose proof (X _ (or_introl eq_refl)) as X1. pose proof (X _ (or_intror (or_introl eq_refl))) as X2.
  pose proof (X _ (or_intror (or_intror (or_introl eq_refl)))) as X3. cbn in X1, X2, X3. injection X1 as X1. injection X2 as X2. injection X3 as X3.
  apply Z.eqb_eq in X2, X3. rewrite X2, X3 in X1. destruct (z_name i (NVar "h") =? 0); discriminate.
Qed.
Definition lit_flat : mmessage :=
  MM false ["p"] [goes INITIAL "h"; goes_if "h" "f_u" (ERel OEq (v "h") (v "b")); goes_if "h" "t" (ERel OEq (v "h") (v "a"));
                  goes_if "f_w" FINAL (ERel OEq (v "h") (v "a")); goes "t" FINAL; goes "f_u" "f_w"]
     [("h", FType lit_type); ("f_u", FType (MScalar (Enum ["q"; "u"] [(["a"], 0); (["c"], 1)] 8 false)));
      ("t", FType byte_type); ("f_w", FType (MScalar (Enum ["q"; "w"] [(["b"], 0); (["d"], 1)] 8 false)))] ["h"; "f_u"; "t"; "f_w"].
Ltac simple_goals :=
  try discriminate;
  try match goal with
  | |- holds _ _ => vm_compute; reflexivity
  | |- In _ _ => cbn; auto 10; fail
  | |- value _ _ _ => exact I
  | |- _ = _ => reflexivity
  end.
Theorem C29_literal_refuted : exists solve m m' g ss, sound_unsat solve /\ merged solve given fine 200 1 m = Ok ([], m') /\
  int_env g /\
  (forall x id lits size av k z, In (x, FType (MScalar (Enum id lits size av))) (mm_types m) -> In (k, z) lits -> num g (NVar (var k)) = z) /\
  run g m same INITIAL ss /\ ~ run g m' same INITIAL ss.
Proof.
  exists literal_solver, lit_outer, lit_flat, (numbers [("h", 2); ("a", 1); ("b", 2)] []).
  exists [mkStep "h" lit_type None None; mkStep "f_u" (MScalar (Enum ["q"; "u"] [(["a"], 0); (["c"], 1)] 8 false)) None None;
          mkStep "f_w" (MScalar (Enum ["q"; "w"] [(["b"], 0); (["d"], 1)] 8 false)) None None; mkStep "t" byte_type None None].
  split; [exact literal_solver_sound|]. split; [vm_compute; reflexivity|]. split; [apply some_numbers|]. split; [|split].
  - intros x id lits size av k z I J. cbn in I. members; try discriminate. injection I as <- <- <- <- <-. members; injection J as <- <-; reflexivity.
  - match goal with |- run ?g _ _ _ (?a :: ?b :: ?c :: ?d) =>
      apply run_field with (l := goes INITIAL "h") (ss := b :: c :: d); simple_goals;
      change (b :: c :: d) with (placed None [b; c] ++ d);
      apply run_message with (l := goes_if "h" "f" (ERel OEq (v "h") (v "b"))) (i := lit_inner); simple_goals;
      [apply run_field with (l := goes INITIAL "u") (ss := [c]); simple_goals;
       apply run_field with (l := goes "u" "w") (ss := []); simple_goals;
       apply run_end with (l := goes "w" FINAL); cbn; auto; reflexivity
      |apply run_field with (l := goes_if "f" "t" lit_condition) (ss := []); simple_goals;
       apply run_end with (l := goes "t" FINAL); cbn; auto 10; reflexivity]
    end.
  - intros R. apply run_inv in R as (l & I & E & _ & K). cbv [mm_structure lit_flat] in I. members; subst l; try discriminate.
    destruct K as [(K & _)|[(_ & t & z & w & ss' & F & _ & _ & R & SS)|(_ & j & w & sa & sb & F & _)]]; try discriminate.
    injection SS as _ _ _ SS. rewrite <- SS in R. clear SS.
    apply run_inv in R as (l & I & E2 & H2 & K). cbv [mm_structure lit_flat] in I. members; subst l; try discriminate; try (vm_compute in H2; discriminate).
    destruct K as [(K & _)|[(_ & t2 & z2 & w2 & ss2 & F2 & _ & _ & R & SS)|(_ & j & w2 & sa & sb & F2 & _)]]; try discriminate.
    injection SS as _ _ _ SS. rewrite <- SS in R. clear SS.
    apply run_inv in R as (l & I & E3 & _ & K). cbv [mm_structure lit_flat] in I. members; subst l; try discriminate.
    destruct K as [(K & _)|[(_ & t3 & z3 & w3 & ss3 & F3 & _ & _ & R & SS)|(_ & j & w3 & sa & sb & F3 & _)]]; try discriminate.
    injection SS as _ _ _ SS. rewrite <- SS in R. clear SS.
    apply run_inv in R as (l & I & E4 & H & K). cbv [mm_structure lit_flat] in I. members; subst l; try discriminate; try (vm_compute in H; discriminate).
Qed.
