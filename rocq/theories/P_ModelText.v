(** Property C62: the text of a model declares the types of the model. *)
From Coq Require Import String Ascii List ZArith Bool Lia.
From Verif Require Import Base Ident Expr ExprEval ExprFacts ExprPrint ExprRead ExprReadFacts ExprReadTree.
From Verif Require Import MsgGraph MsgStruct ModelText SpecExpr.
From Verif Require Import ModelRead ModelTextFacts ModelReadFacts.
From Verif Require P_ExprPrint P_MsgGraph MsgGraphFacts P_IdentErrors.
Import ListNotations.
Local Open Scope string_scope.
Local Open Scope list_scope.
Local Open Scope nat_scope.

(** ** Specification *)

(** a syntax tree has the value of an expression, with and without short-circuit evaluation *)
Definition value (e : expr) (t : tree) : Prop :=
  (forall g v, eval g e = Some v -> teval false g t = Some v)
  /\ (forall g v, eval_sc g e = Some v -> teval true g t = Some v).
(** [e'] has the values of [e] *)
Definition same_expr (e e' : expr) : Prop :=
  (forall g v, eval g e = Some v -> eval g e' = Some v) /\ (forall g v, eval_sc g e = Some v -> eval_sc g e' = Some v).
Definition same_option {A B} (P : A -> B -> Prop) (a : option A) (b : option B) : Prop :=
  match a, b with Some x, Some y => P x y | None, None => True | _, _ => False end.
(** the link that is created has the source, target, condition, size and first bit of the link
    of the model; the fields of created links are in lower case *)
Definition same_link (l l' : link) : Prop :=
  lower (source l) = source l' /\ lower (target l) = target l' /\ same_expr (condition l) (condition l')
  /\ same_option same_expr (lsize l) (lsize l') /\ same_option same_expr (lfirst l) (lfirst l').
(** each field has the same successors in the same order, and there are no other links *)
Definition same_links (fields : list string) (structure structure' : list link) : Prop :=
  (forall f, f = "Initial" \/ In f fields ->
     Forall2 same_link (filter (fun l => String.eqb (lower (source l)) (lower f)) structure)
                       (filter (fun l => String.eqb (source l) (lower f)) structure'))
  /\ (forall l, In l structure' -> source l = lower "Initial" \/ In (source l) (map lower fields)).

(** the declaration declares the type *)
Inductive denotes : decl -> declaration -> Prop :=
| N_modular i e t : value e t -> denotes (Modular i e) (DModular (last i "") t)
| N_range i f l s f' l' s' : value f f' -> value l l' -> value s s' ->
    denotes (Range i f l s) (DRange (last i "") f' l' s')
| N_enumeration i ls s (always : bool) ls' s' :
    Forall2 (fun a b => fst a = fst b /\ value (snd a) (snd b)) ls ls' -> value s s' ->
    denotes (Enumeration i ls s always)
      (DEnumeration (last i "") ls' (("Size", s') :: if always then [("Always_Valid", TBool true)] else []))
| N_array i e : denotes (Array i e) (DArray (last i "") (last e ""))
| N_null i types structure cs : structure = [] \/ types = [] -> denotes (Message i types structure cs) (DNull (last i ""))
| N_message i types structure null comps structure' cs :
    map comp_name comps = map fst types ->
    map comp_type comps = map (fun p => last (snd p) "") types ->
    links_of null comps = Ok ([], structure') ->
    same_links (map fst types) structure structure' ->
    denotes (Message i types structure cs) (DMessage (last i "") null comps)
| N_refinement p pdu f sdu c c' :
    match c' with Some t => value c t | None => c = ETrue end ->
    denotes (Refinement p pdu f sdu c) (DRefinement (last pdu "") f (last sdu "") c').

(** the types that are written: not Boolean and Opaque *)
Definition listed (d : decl) : bool :=
  let n := lower (last (identifier_of d) "") in negb (String.eqb n "boolean") && negb (String.eqb n "opaque").

(** *** hypotheses *)

(** identifiers of the language, sums that do not start with a relation, and disjunctions that
    are not empty (see C51) *)
Definition sound_expr (e : expr) : Prop := P_ExprPrint.words e /\ sums e = true /\ full e = true.
Definition sound_link (l : link) : Prop :=
  sound_expr (condition l) /\ (forall e, lsize l = Some e -> sound_expr e) /\ (forall e, lfirst l = Some e -> sound_expr e).
(** what the validation of messages demands: one link from the initial node, links between
    fields and to the end, in the order of the fields (MsgGraph.v, C01 to C05); links use the
    spelling of the fields *)
Record sound_message (types : list (string * ident)) (structure : list link) : Prop := {
  s_names : forall f t, In (f, t) types -> simple_name f = true /\ lower f <> "message" /\ simple_name (last t "") = true;
  s_distinct : NoDup (map (fun p => lower (fst p)) types);
  s_links : forall l, In l structure -> sound_link l /\ (lower (target l) = "final" \/ In (target l) (map fst types));
  s_initial : exists l, filter (fun l => String.eqb (lower (source l)) "initial") structure = [l];
  s_leaves : forall f, In f (map fst types) -> exists l, In l structure /\ lower (source l) = lower f;
  s_ends : forall l pre p, types = pre ++ [p] -> In l structure -> lower (source l) = lower (fst p) -> lower (target l) = "final"
}.
Definition sound (d : decl) : Prop :=
  match d with
  | Modular i e => simple_name (last i "") = true /\ sound_expr e
  | Range i f l s => simple_name (last i "") = true /\ sound_expr f /\ sound_expr l /\ sound_expr s
  | Enumeration i ls s _ => simple_name (last i "") = true /\ ls <> [] /\ sound_expr s
      /\ forall n e, In (n, e) ls -> simple_name n = true /\ sound_expr e
  | Array i e => simple_name (last i "") = true /\ simple_name (last e "") = true
  | Opaque => False
  | Message i types structure _ => simple_name (last i "") = true
      /\ (types = [] /\ structure = [] \/ types <> [] /\ sound_message types structure)
  | Refinement _ pdu f sdu c => simple_name (last pdu "") = true /\ simple_name f = true /\ simple_name (last sdu "") = true
      /\ sound_expr c
  end.

(** ** Expressions *)

Lemma readable_sound e : sound_expr e -> readable e = true.
Proof. intros (W & S & _). unfold readable. apply P_ExprPrint.words_lexical in W. now rewrite W, S. Qed.
Lemma value_tree e : sound_expr e -> value e (tree_of e).
Proof.
  intros (_ & _ & F). split; intros g v E.
  - destruct (tree_value false false g e F ltac:(discriminate)) as [-> | [_ K]]; [exact E|]. cbn in K. congruence.
  - destruct (tree_value false true g e F ltac:(discriminate)) as [-> | [_ K]]; [exact E|]. cbn in K. congruence.
Qed.
Lemma texpr_value sc g t : forall v, teval sc g t = Some v -> ExprReadTree.ev sc g (texpr t) = Some v.
Proof.
  assert (B : forall o x y, ExprReadTree.ev sc g (EAss o [x; y]) = vop sc o (ExprReadTree.ev sc g x) (ExprReadTree.ev sc g y)).
  { intros o x y. rewrite ev_EAss. cbn [map]. now rewrite ass_fold by discriminate. }
  induction t as [b|z|n|u IH|u IH|o l IHl r IHr|o l IHl r IHr|o l IHl r IHr]; intros v E; cbn [teval texpr] in *.
  - destruct b, sc; exact E.
  - destruct sc; exact E.
  - destruct sc; cbn; destruct (g n); exact E.
  - destruct (teval sc g u) as [[z|]|]; try discriminate. specialize (IH _ eq_refl).
    assert (X : ExprReadTree.ev sc g (EBin OSub (ENum 0) (texpr u)) = Some v).
    { destruct sc; cbn [ExprReadTree.ev eval eval_sc] in *; rewrite IH; rewrite <- E; reflexivity. }
    destruct (texpr u); exact X.
  - destruct (teval sc g u) as [[z|b]|]; try discriminate. specialize (IH _ eq_refl).
    destruct sc; cbn [ExprReadTree.ev eval eval_sc] in *; rewrite IH; exact E.
  - destruct (teval sc g l) as [x|]; [|discriminate]. destruct (teval sc g r) as [y|]; [|destruct x; discriminate].
    specialize (IHl _ eq_refl). specialize (IHr _ eq_refl).
    destruct o.
    + rewrite B, IHl, IHr. exact E.
    + destruct sc; cbn [ExprReadTree.ev eval eval_sc] in *; rewrite IHl, IHr; exact E.
    + rewrite B, IHl, IHr. exact E.
    + destruct sc; cbn [ExprReadTree.ev eval eval_sc] in *; rewrite IHl, IHr; exact E.
    + destruct sc; cbn [ExprReadTree.ev eval eval_sc] in *; rewrite IHl, IHr; exact E.
    + destruct sc; cbn [ExprReadTree.ev eval eval_sc] in *; rewrite IHl, IHr; exact E.
  - destruct (teval sc g l) as [x|]; [|discriminate]. destruct (teval sc g r) as [y|]; [|destruct x; discriminate].
    specialize (IHl _ eq_refl). specialize (IHr _ eq_refl).
    destruct sc; cbn [ExprReadTree.ev eval eval_sc] in *; rewrite IHl, IHr; exact E.
  - rewrite B.
    destruct (teval sc g l) as [x|]; [|discriminate]. rewrite (IHl _ eq_refl).
    destruct (teval sc g r) as [y|].
    + rewrite (IHr _ eq_refl). destruct o; exact E.
    + destruct o, x as [|[]], sc; try discriminate E; cbn; exact E.
Qed.
Lemma same_texpr e : sound_expr e -> same_expr e (texpr (tree_of e)).
Proof.
  intros H. destruct (value_tree e H) as [A B]. split; intros g v E.
  - apply (texpr_value false). now apply A.
  - apply (texpr_value true). now apply B.
Qed.
Lemma same_refl e : same_expr e e.
Proof. split; auto. Qed.

(** ** Links *)

(** the link created of a then clause of field [src] *)
Definition made (src : string) (l : link) : link :=
  mkLink (lower src) (if same_field (target l) FINAL then FINAL else lower (target l))
    (if is_true (condition l) then ETrue else texpr (tree_of (condition l)))
    (option_map (fun e => texpr (tree_of e)) (lsize l)) (option_map (fun e => texpr (tree_of e)) (lfirst l)).
Lemma is_true_eq e : is_true e = true -> e = ETrue.
Proof. now destruct e. Qed.
Lemma same_made src l : lower (source l) = lower src -> sound_link l -> same_link l (made src l).
Proof.
  intros S (C & Z & F). unfold made. repeat split; cbn [source target condition lsize lfirst].
  - exact S.
  - unfold same_field. destruct (String.eqb_spec (lower (target l)) (lower FINAL)) as [E|]; [exact E|reflexivity].
  - destruct (is_true (condition l)) eqn:E; [apply is_true_eq in E; rewrite E; auto|now apply same_texpr].
  - destruct (is_true (condition l)) eqn:E; [apply is_true_eq in E; rewrite E; auto|now apply same_texpr].
  - destruct (lsize l); cbn; [|exact Logic.I]. apply same_texpr. now apply Z.
  - destruct (lfirst l); cbn; [|exact Logic.I]. apply same_texpr. now apply F.
Qed.
Lemma extract_made src l : extract_then (lower src) (node_then (clause_of l)) = ([], made src l).
Proof.
  unfold extract_then, made, clause_of, node_then, extract_aspect, aspect_items, cond_tree. cbn [MsgStruct.t_aspects MsgStruct.t_target MsgStruct.t_condition to clause_aspects clause_condition].
  destruct (lsize l), (lfirst l); cbn [opt app map tree_item node_aspects fst snd extract_aspect_loop String.eqb Ascii.eqb Bool.eqb option_map];
    destruct (same_field (target l) FINAL), (is_true (condition l)); reflexivity.
Qed.
Lemma add_thens_made names src : forall ls errs S,
  (forall l, In l ls -> same_field (target l) FINAL = true \/ In (target l) names) ->
  add_thens names (lower src) (map node_then (map clause_of ls)) errs S = (errs, S ++ map (made src) ls).
Proof.
  induction ls as [|l ls IH]; intros errs S H; [cbn; now rewrite app_nil_r|].
  cbn [map add_thens]. rewrite extract_made.
  assert (X : match MsgStruct.t_target (node_then (clause_of l)) with Some n => negb (existsb (String.eqb n) names) | None => false end = false).
  { cbn [node_then clause_of MsgStruct.t_target to]. destruct (H l (or_introl eq_refl)) as [-> | K]; [reflexivity|].
    destruct (same_field (target l) FINAL); [reflexivity|]. apply negb_false_iff, existsb_exists. exists (target l). split; [exact K|apply String.eqb_refl]. }
  rewrite X, IH by (intros k K; apply H; now right). now rewrite app_nil_r, <- app_assoc.
Qed.

(** the links created of the components *)
Definition block (structure : list link) (f : string) (next : option string) : list link :=
  let out := outgoing_of structure f in
  if plain out next then [mkLink (lower f) (match next with Some n => lower n | None => FINAL end) ETrue None None]
  else map (made f) out.
Fixpoint blocks (structure : list link) (l : list (string * ident)) : list link :=
  match l with [] => [] | (f, _) :: rest => block structure f (next_of rest) ++ blocks structure rest end.

Lemma head_comps structure rest :
  match map node_component (comps_of structure rest) with n :: _ => lower (c_name n) | [] => FINAL end
  = match next_of rest with Some n => lower n | None => FINAL end.
Proof. destruct rest as [|[f t] rest]; reflexivity. Qed.
Lemma add_components_blocks structure names :
  (forall l, In l structure -> same_field (target l) FINAL = true \/ In (target l) names) ->
  forall l errs S, (forall f, In f (map fst l) -> lower f <> "message" /\ outgoing_of structure f <> []) ->
  add_components names (map node_component (comps_of structure l)) errs S = (errs, S ++ blocks structure l).
Proof.
  intros T. induction l as [|[f t] rest IH]; intros errs S H; [cbn; now rewrite app_nil_r|].
  destruct (H f (or_introl eq_refl)) as [M O]. cbn [comps_of map add_components blocks].
  cbn [node_component c_name comp_name c_thens comp_thens c_condition comp_condition c_aspects comp_aspects node_aspects map option_map].
  apply String.eqb_neq in M. rewrite M. rewrite head_comps. cbn [extract_aspect extract_aspect_loop cond_of expr_eqb negb].
  unfold block. destruct (plain (outgoing_of structure f) (next_of rest)).
  - cbn [map add_thens]. unfold extract_aspect. cbn [extract_aspect_loop]. cbn [expr_eqb negb].
    rewrite IH by (intros g G; apply H; now right). now rewrite app_nil_r, <- app_assoc.
  - unfold extract_aspect. cbn [extract_aspect_loop]. cbn [expr_eqb negb].
    rewrite (add_thens_made names f).
    2: { intros l I. apply T. now apply filter_In in I. }
    rewrite IH by (intros g G; apply H; now right).
    destruct (outgoing_of structure f) as [|l0 ls]; [now destruct O|]. cbn [map]. now rewrite app_nil_r, <- app_assoc.
Qed.

Lemma filter_none {A} (p : A -> bool) l : (forall x, In x l -> p x = false) -> filter p l = [].
Proof. induction l as [|a l IH]; intros H; [reflexivity|]. cbn. rewrite (H a) by now left. apply IH. intros x I. apply H. now right. Qed.
Lemma filter_all {A} (p : A -> bool) l : (forall x, In x l -> p x = true) -> filter p l = l.
Proof. induction l as [|a l IH]; intros H; [reflexivity|]. cbn. rewrite (H a) by now left. f_equal. apply IH. intros x I. apply H. now right. Qed.
Lemma block_source structure f next l : In l (block structure f next) -> source l = lower f.
Proof.
  unfold block. destruct (plain _ _).
  - intros [<-|[]]. reflexivity.
  - intros I. apply in_map_iff in I as (k & <- & _). reflexivity.
Qed.
Lemma blocks_source structure l k : In k (blocks structure l) -> exists f, In f (map fst l) /\ source k = lower f.
Proof.
  induction l as [|[f t] rest IH]; [intros []|]. cbn [blocks]. intros I. apply in_app_iff in I as [I|I].
  - exists f. split; [now left|]. eapply block_source. exact I.
  - destruct (IH I) as (g & G & E). exists g. split; [now right|exact E].
Qed.
(** the links of a field are those of its component *)
Lemma blocks_filter structure f t : forall before rest, NoDup (map (fun p => lower (fst p)) (before ++ (f, t) :: rest)) ->
  filter (fun l => String.eqb (source l) (lower f)) (blocks structure (before ++ (f, t) :: rest)) = block structure f (next_of rest).
Proof.
  induction before as [|[g u] before IH]; intros rest N; cbn [app map fst blocks] in *; inversion N as [|? ? N1 N2]; subst.
  - rewrite filter_app, filter_all, filter_none, app_nil_r; [reflexivity| |].
    + intros k I. apply blocks_source in I as (h & Hh & E). apply String.eqb_neq. intros E'. apply N1.
      apply in_map_iff in Hh as (p & <- & Hp). apply in_map_iff. exists p. split; [congruence|exact Hp].
    + intros k I. apply block_source in I. rewrite I. apply String.eqb_refl.
  - rewrite filter_app, (filter_none _ (block _ _ _)); [now apply IH|].
    intros k I. apply block_source in I. rewrite I. apply String.eqb_neq. intros E. apply N1. rewrite E.
    apply in_map_iff. exists (f, t). split; [reflexivity|]. apply in_app_iff. right. now left.
Qed.

(** ** Messages *)

Lemma plain_inv out next : plain out next = true -> exists l, out = [l] /\ condition l = ETrue /\ lsize l = None /\ lfirst l = None
  /\ match next with None => True | Some n => lower n = lower (target l) end.
Proof.
  unfold plain. destruct out as [|l [|]]; try discriminate. rewrite !andb_true_iff. intros (((A & B) & C) & D).
  exists l. apply is_true_eq in A. destruct (lsize l); [discriminate|]. destruct (lfirst l); [discriminate|].
  repeat split; auto. destruct next; [|exact Logic.I]. now apply String.eqb_eq in D.
Qed.
Lemma Forall2_made structure f : (forall l, In l structure -> sound_link l) ->
  Forall2 same_link (outgoing_of structure f) (map (made f) (outgoing_of structure f)).
Proof.
  intros H. assert (X : forall l, In l (outgoing_of structure f) -> lower (source l) = lower f /\ sound_link l).
  { intros l I. apply filter_In in I as [I E]. split; [now apply String.eqb_eq|now apply H]. }
  induction (outgoing_of structure f) as [|l ls IH]; constructor.
  - destruct (X l (or_introl eq_refl)). now apply same_made.
  - apply IH. intros k K. apply X. now right.
Qed.
Lemma block_same structure f next : (forall l, In l structure -> sound_link l) ->
  (next = None -> forall l, In l structure -> lower (source l) = lower f -> lower (target l) = "final") ->
  Forall2 same_link (outgoing_of structure f) (block structure f next).
Proof.
  intros H E. unfold block. destruct (plain (outgoing_of structure f) next) eqn:P; [|now apply Forall2_made].
  apply plain_inv in P as (l & O & C & Z & F & T). rewrite O.
  assert (I : In l (outgoing_of structure f)) by (rewrite O; now left). apply filter_In in I as [I S]. apply String.eqb_eq in S.
  constructor; [|constructor]. unfold same_link. cbn [source target condition lsize lfirst]. rewrite C, Z, F.
  repeat split; auto. destruct next as [n|]; [now symmetry|]. now apply E.
Qed.
Lemma outgoing_spelled structure f : outgoing_of structure f = filter (fun l => String.eqb (lower (source l)) (lower f)) structure.
Proof. reflexivity. Qed.

Lemma comps_names structure l : map comp_name (comps_of structure l) = map fst l.
Proof. induction l as [|[f t] l IH]; [reflexivity|]. cbn. now rewrite IH. Qed.
Lemma comps_types structure l : map comp_type (comps_of structure l) = map (fun p => last (snd p) "") l.
Proof. induction l as [|[f t] l IH]; [reflexivity|]. cbn. now rewrite IH. Qed.

Lemma message_links types structure : types <> [] -> sound_message types structure ->
  exists structure', links_of (init_of structure (next_of types)) (comps_of structure types) = Ok ([], structure')
    /\ same_links (map fst types) structure structure'.
Proof.
  intros NE M.
  assert (HL : forall l, In l structure -> sound_link l) by (intros l I; apply (s_links _ _ M l I)).
  assert (HT : forall l, In l structure -> same_field (target l) FINAL = true \/ In (target l) (map fst types)).
  { intros l I. destruct (s_links _ _ M l I) as [_ [T|T]]; [left; unfold same_field; rewrite T; reflexivity|now right]. }
  assert (HF : forall f, In f (map fst types) -> lower f <> "message" /\ outgoing_of structure f <> []).
  { intros f I. split.
    - apply in_map_iff in I as ([g t] & <- & I). apply (s_names _ _ M g t I).
    - destruct (s_leaves _ _ M f I) as (l & Il & E). intros O.
      assert (In l (outgoing_of structure f)) by (apply filter_In; split; [exact Il|now apply String.eqb_eq]).
      rewrite O in *. auto. }
  destruct (s_initial _ _ M) as (l0 & Hl0). change (outgoing_of structure "Initial" = [l0]) in Hl0.
  set (first := if plain [l0] (next_of types) then mkLink INITIAL (match next_of types with Some n => lower n | None => FINAL end) ETrue None None
                else made "Initial" l0).
  assert (E : links_of (init_of structure (next_of types)) (comps_of structure types) = Ok ([], first :: blocks structure types)).
  { unfold links_of, create_structure, init_of. rewrite Hl0.
    assert (N : map c_name (map node_component (comps_of structure types)) = map fst types).
    { rewrite map_map, <- (comps_names structure types). reflexivity. }
    assert (A := add_components_blocks structure (map fst types) HT types). unfold first.
    destruct (plain [l0] (next_of types)); cbn [option_map].
    - destruct types as [|[f t] types0] eqn:Et; [tauto|]. rewrite <- Et in *.
      replace (map node_component (comps_of structure types)) with
        (node_component (mkComp f (name t) [] None (if plain (outgoing_of structure f) (next_of types0) then [] else map clause_of (outgoing_of structure f)))
         :: map node_component (comps_of structure types0)) at 1 by (rewrite Et; reflexivity).
      rewrite N. cbn [fst snd]. rewrite A by exact HF. rewrite Et. reflexivity.
    - rewrite N. change INITIAL with (lower "Initial"). rewrite extract_made. cbn [fst snd]. rewrite A by exact HF. reflexivity. }
  exists (first :: blocks structure types). split; [exact E|].
  assert (F1 : source first = lower "Initial") by (unfold first; destruct (plain _ _); reflexivity).
  split.
  - intros f I. rewrite <- outgoing_spelled. cbn [filter]. rewrite F1.
    assert (D : forall g, In g (map fst types) -> lower g <> lower "Initial").
    { intros g G K. apply in_map_iff in G as ([h t] & <- & G). destruct (s_names _ _ M h t G) as (S & _ & _).
      apply simple_not_initial in S as [S _]. unfold same_field in S. apply String.eqb_neq in S. apply S. exact K. }
    destruct I as [-> | I].
    + rewrite String.eqb_refl, (filter_none _ (blocks structure types)).
      2: { intros k K. apply blocks_source in K as (g & G & Eg). rewrite Eg. apply String.eqb_neq. now apply D. }
      assert (B := block_same structure "Initial" (next_of types) HL). unfold block in B. rewrite Hl0 in *. unfold first.
      destruct (plain [l0] (next_of types)); apply B; intros K; destruct types as [|[f t] types1]; try discriminate K; tauto.
    + assert (X : String.eqb (lower "Initial") (lower f) = false) by (apply String.eqb_neq; intros K; apply (D f I); now symmetry).
      rewrite X. apply in_map_iff in I as ([g t] & <- & I). cbn [fst].
      apply in_split in I as (before & rest & Et). rewrite Et. rewrite blocks_filter by (rewrite <- Et; apply (s_distinct _ _ M)).
      apply block_same; [exact HL|]. intros K l Il El.
      destruct rest as [|[h u] rest]; [|discriminate K]. eapply (s_ends _ _ M); eauto.
  - intros l [<-|I]; [now left|]. right. apply blocks_source in I as (f & F & ->). apply in_map_iff. exists f. auto.
Qed.

(** ** Declarations *)

Lemma cond_value c : sound_expr c -> match cond_tree c with Some t => value c t | None => c = ETrue end.
Proof. intros H. unfold cond_tree. destruct (is_true c) eqn:E; [now apply is_true_eq|now apply value_tree]. Qed.
Lemma link_sound_ok l : sound_link l -> same_field (target l) FINAL = true \/ simple_name (target l) = true -> link_ok l = true.
Proof.
  intros (C & Z & F) T. unfold link_ok. rewrite !andb_true_iff, orb_true_iff. repeat split; [now apply readable_sound| | |exact T].
  - destruct (lsize l); [|reflexivity]. apply readable_sound. now apply Z.
  - destruct (lfirst l); [|reflexivity]. apply readable_sound. now apply F.
Qed.
Lemma message_ok types structure : sound_message types structure ->
  fields_ok types /\ Forall (fun l => link_ok l = true) structure /\ List.length (outgoing_of structure "Initial") = 1.
Proof.
  intros M. split; [|split].
  - apply Forall_forall. intros [f t] I. destruct (s_names _ _ M f t I) as (A & _ & B). split; [exact A|exact B].
  - apply Forall_forall. intros l I. destruct (s_links _ _ M l I) as [S T]. apply link_sound_ok; [exact S|].
    destruct T as [T|T]; [left; unfold same_field; now rewrite T|right].
    apply in_map_iff in T as ([f t] & E & T). rewrite <- E. apply (s_names _ _ M f t T).
  - destruct (s_initial _ _ M) as (l & E). change (outgoing_of structure "Initial" = [l]) in E. now rewrite E.
Qed.

Lemma sound_readable d : sound d -> decl_readable d.
Proof.
  destruct d as [i e|i f l s|i ls s a|i e| |i ts s cs|p pdu f sdu c]; cbn [sound]; unfold decl_readable; cbn [decl_lexical].
  - intros [N E]. repeat split; [exact N|now apply readable_sound].
  - intros (N & F & L & S). repeat split; auto using readable_sound.
  - intros (N & NE & S & L). repeat split; auto using readable_sound. apply Forall_forall. intros [n e] I.
    destruct (L n e I). split; [assumption|now apply readable_sound].
  - intros [N E]. now repeat split.
  - intros [].
  - intros (N & [[-> ->]|[NE M]]).
    + repeat split; [exact N|constructor|constructor|now left].
    + destruct (message_ok _ _ M) as (A & B & C). repeat split; auto.
  - intros (P & F & S & C). repeat split; auto using readable_sound.
Qed.
Lemma sound_denotes d : sound d -> denotes d (declaration_of d).
Proof.
  destruct d as [i e|i f l s|i ls s a|i e| |i ts s cs|p pdu f sdu c]; cbn [sound declaration_of].
  - intros [N E]. apply N_modular. now apply value_tree.
  - intros (N & F & L & S). apply N_range; now apply value_tree.
  - intros (N & NE & S & L). apply N_enumeration; [|now apply value_tree].
    clear - L. induction ls as [|[n e] ls IH]; constructor.
    + split; [reflexivity|]. apply value_tree. apply (L n e). now left.
    + apply IH. intros m d I. apply (L m d). now right.
  - intros _. apply N_array.
  - intros [].
  - intros (N & [[-> ->]|[NE M]]); [apply N_null; now left|].
    destruct (message_links ts s NE M) as (S' & E & R).
    destruct (s_initial _ _ M) as (l0 & H0).
    destruct s as [|l1 ls] eqn:Es; [discriminate|]. rewrite <- Es in *.
    destruct ts as [|p0 ps] eqn:Et; [tauto|]. rewrite <- Et in *.
    eapply N_message; [apply comps_names|apply comps_types|exact E|exact R].
  - intros (P & F & S & C). apply N_refinement. now apply cond_value.
Qed.

Lemma shown_listed d : shown d = listed d.
Proof.
  unfold shown, listed, is_builtin_type, is_internal_type, name, id_eq. cbn. now rewrite !andb_true_r.
Qed.
(** C62: the text of a model is read in one way, as a declaration of each of its types *)
Theorem C62_model : forall ds, (forall d, In d ds -> listed d = true -> sound d) ->
  exists l, (forall u, declares (model_str ds) u <-> u = l) /\ Forall2 denotes (filter listed ds) l.
Proof.
  intros ds H. setoid_rewrite <- shown_listed in H. rewrite <- (filter_ext _ _ shown_listed). exists (map declaration_of (filter shown ds)).
  assert (X : forall d, In d (filter shown ds) -> sound d) by (intros d I; apply filter_In in I as [I S]; auto).
  split.
  - intros u. apply declares_model. apply Forall_forall. intros d I. apply sound_readable. auto.
  - induction (filter shown ds) as [|d l IH]; constructor; [apply sound_denotes, X; now left|]. apply IH. intros e I. apply X. now right.
Qed.
Print Assumptions C62_model.

(** *** accepted messages *)

(** the link with the fields in lower case, as in MsgGraph.v *)
Definition low_link (l : link) : link := mkLink (lower (source l)) (lower (target l)) (condition l) (lsize l) (lfirst l).

(** C62: messages that are accepted when they are constructed meet the hypotheses on the
    structure, unless a field has no outgoing link *)
Theorem C62_accepted : forall n enums types structure,
  construct n (mkMessage (map low_link structure) (map (fun p => lower (fst p)) types) enums)
    = Ok ([], map (fun p => lower (fst p)) types) ->
  types <> [] ->
  (forall f t, In (f, t) types -> simple_name f = true /\ lower f <> "message" /\ simple_name (last t "") = true) ->
  (forall l, In l structure -> sound_link l) ->
  (forall l f, In l structure -> In f (map fst types) -> lower (target l) = lower f -> target l = f) ->
  (forall f, In f (map fst types) -> exists l, In l structure /\ lower (source l) = lower f) ->
  sound_message types structure.
Proof.
  intros n enums types structure H NE Nm Ls Sp Lv.
  set (m := mkMessage (map low_link structure) (map (fun p => lower (fst p)) types) enums) in *.
  assert (Ns : MsgGraph.structure m <> []).
  { intros E. cbn in E. destruct types as [|[f t] ts]; [tauto|]. destruct (Lv f (or_introl eq_refl)) as (l & I & _).
    destruct structure; [destruct I|discriminate]. }
  destruct (P_MsgGraph.C22_fields n m _ H) as (ND & FS & _ & _).
  assert (In_low : forall l, In l structure -> In (low_link l) (MsgGraph.structure m)) by (intros l I; now apply in_map).
  constructor; auto.
  - intros l I. split; [now apply Ls|].
    destruct (String.eqb_spec (lower (target l)) "final") as [E|N1]; [now left|right].
    assert (N2 : lower (target l) <> "initial").
    { destruct (P_MsgGraph.accepted _ _ _ Ns H) as (r & v & J & ALL & _).
      exact (MsgGraphFacts.f_no_initial _ _ _ J ALL (low_link l) (In_low l I)). }
    assert (K : In (lower (target l)) (map (fun p => lower (fst p)) types)).
    { apply FS. split; [exact N2|]. split; [exact N1|]. exists (low_link l). split; [now apply In_low|now right]. }
    apply in_map_iff in K as ([f t] & E & K). cbn [fst] in E.
    assert (Kf : In f (map fst types)) by (apply in_map_iff; now exists (f, t)).
    rewrite (Sp l f I Kf) by now symmetry. exact Kf.
  - destruct (P_MsgGraph.C22_first n m _ H Ns) as (l0 & U & _).
    assert (O : List.length (outgoing (MsgGraph.structure m) INITIAL) = 1).
    { destruct (P_MsgGraph.accepted _ _ _ Ns H) as (r & v & _ & _ & _ & _ & _ & _ & V1 & _).
      unfold validate_first in V1. destruct (outgoing (MsgGraph.structure m) INITIAL) as [|l t] eqn:O; [discriminate|].
      apply Ok_inj in V1. apply app_eq_nil in V1 as [_ V1]. apply app_eq_nil in V1 as [_ V1]. apply app_eq_nil in V1 as [E3 _].
      destruct t; [reflexivity|discriminate E3]. }
    assert (X : outgoing (MsgGraph.structure m) INITIAL = map low_link (filter (fun l => String.eqb (lower (source l)) "initial") structure)).
    { clear. unfold outgoing. cbn [m MsgGraph.structure]. induction structure as [|l s IH]; [reflexivity|]. cbn [map filter].
      change (source (low_link l)) with (lower (source l)). unfold INITIAL. destruct (String.eqb (lower (source l)) "initial"); [|exact IH].
      cbn [map]. f_equal. exact IH. }
    rewrite X, map_length in O. destruct (filter _ structure) as [|l [|]]; try discriminate O. now exists l.
  - intros l before p E I S.
    destruct (String.eqb_spec (lower (target l)) "final") as [T|T]; [exact T|]. exfalso.
    assert (In p types) by (rewrite E; apply in_app_iff; right; now left). destruct p as [f t]. cbn [fst] in S.
    destruct (Nm f t H0) as (Sf & _ & _). apply simple_not_initial in Sf as [S1 S2]. unfold same_field in S1, S2. apply String.eqb_neq in S1, S2.
    destruct (P_MsgGraph.C22_order n m _ (low_link l) H (In_low l I)) as (a & b & c & F).
    + cbn. rewrite S. exact S1.
    + cbn. rewrite S. exact S2.
    + exact T.
    + cbn [low_link source target] in F. rewrite S, E, map_app in F. cbn [map fst] in F.
      rewrite E, map_app in ND. cbn [map fst] in ND. clear - F ND.
      assert (N : ~ In (lower f) (map (fun p : string * ident => lower (fst p)) before)).
      { apply NoDup_remove_2 in ND. now rewrite app_nil_r in ND. }
      change (map (fun p : string * list string => lower (fst p)) before) with (map (fun p : string * ident => lower (fst p)) before) in F.
      clear ND. generalize (lower f) as g, (lower (target l)) as h, (map (fun p : string * ident => lower (fst p)) before) as xs, N, F.
      clear. intros g h xs. revert a. induction xs as [|x xs IH]; intros [|y a] N F; cbn [app] in F.
      * apply (f_equal (@List.length string)) in F. cbn in F. rewrite app_length in F. cbn in F. lia.
      * apply (f_equal (@List.length string)) in F. cbn in F. rewrite app_length in F. cbn in F. lia.
      * injection F as E _. apply N. now left.
      * injection F as _ F. apply (IH a); [|exact F]. intros K. apply N. now right.
Qed.
Print Assumptions C62_accepted.

(** *** types *)

Lemma id_eq_low a b : id_eq a b = true <-> map lower a = map lower b.
Proof. apply P_IdentErrors.id_eq_hash. Qed.
Lemma id_eq_snoc a b n : id_eq (a ++ [n]) (b ++ [n]) = true <-> id_eq a b = true.
Proof.
  rewrite !id_eq_low, !map_app. split; [|now intros ->]. intros H. apply app_inj_tail in H. tauto.
Qed.
(** C62: the name of a type, read in a package, denotes the type if and only if the type is
    one of the package or a predefined type *)
Theorem C62_types : forall package q n, package <> [] ->
  (id_eq (qualified_type_identifier [name (q ++ [n])] package) (q ++ [n]) = true <->
   (lower n = "boolean" /\ id_eq q ["__BUILTINS__"] = true) \/ (lower n = "opaque" /\ id_eq q ["__INTERNAL__"] = true)
   \/ (lower n <> "boolean" /\ lower n <> "opaque" /\ id_eq package q = true)).
Proof.
  intros package q n NE. unfold name. rewrite last_last. unfold qualified_type_identifier.
  assert (B : is_builtin_type [n] = String.eqb (lower n) "boolean").
  { unfold is_builtin_type. cbn. now rewrite andb_true_r. }
  assert (I : is_internal_type [n] = String.eqb (lower n) "opaque").
  { unfold is_internal_type. cbn. now rewrite andb_true_r. }
  rewrite B, I. unfold name. cbn [last List.length Nat.eqb andb].
  destruct (String.eqb_spec (lower n) "boolean") as [E|N1].
  - rewrite E. rewrite id_eq_snoc. split.
    + intros H. left. split; [reflexivity|]. apply id_eq_low. apply id_eq_low in H. now symmetry.
    + intros [(_ & H)|[(H & _)|(H & _)]]; [|discriminate|tauto]. apply id_eq_low. apply id_eq_low in H. now symmetry.
  - destruct (String.eqb_spec (lower n) "opaque") as [E|N2].
    + rewrite E. rewrite id_eq_snoc. split.
      * intros H. right. left. split; [reflexivity|]. apply id_eq_low. apply id_eq_low in H. now symmetry.
      * intros [(H & _)|[(_ & H)|(_ & H & _)]]; [discriminate| |tauto]. apply id_eq_low. apply id_eq_low in H. now symmetry.
    + destruct package as [|p ps]; [tauto|]. cbn [negb]. rewrite id_eq_snoc. split; [intros H; right; right; auto|].
      intros [(H & _)|[(H & _)|(_ & _ & H)]]; [tauto|tauto|exact H].
Qed.
Print Assumptions C62_types.

(** *** a case *)

Definition C62_kind := mkLink "Kind" "Length" (ERel ONe (EVar "Kind") (EVar "Control")) None None.
Definition C62_structure : list link :=
  [mkLink "Initial" "Kind" ETrue (Some (ENum 8)) None;
   C62_kind;
   mkLink "Kind" "Final" (EAss OAnd [ERel OEq (EVar "Kind") (EVar "Control"); ENot (ERel OGt (EName (NAttr ASize "Kind") false) (ENum 8))]) None None;
   mkLink "Length" "Payload" ETrue (Some (EAss OMul [EVar "Length"; ENum 8])) (Some (EName (NAttr AFirst "Length") false));
   mkLink "Payload" "Final" ETrue None None].
Definition C62_types_of : list (string * ident) :=
  [("Kind", ["P"; "Kind_T"]); ("Length", ["P"; "Length_T"]); ("Payload", ["__INTERNAL__"; "Opaque"])].
Definition C62_ds : list decl :=
  [Enumeration ["__BUILTINS__"; "Boolean"] [("False", ENum 0); ("True", ENum 1)] (ENum 1) false;
   Opaque;
   Modular ["P"; "Length_T"] (EBin OPow (ENum 2) (ENum 8));
   Range ["P"; "Day"] (ENum 1) (EBin OSub (EBin OPow (ENum 2) (ENum 5)) (ENum 1)) (ENum 8);
   Enumeration ["P"; "Kind_T"] [("Data", ENum 1); ("Control", ENum 2)] (ENum 8) true;
   Array ["P"; "Days"] ["P"; "Day"];
   Message ["P"; "Frame"] C62_types_of C62_structure [];
   Message ["P"; "Empty"] [] [] [];
   Refinement ["P"] ["P"; "Frame"] "Payload" ["P"; "Empty"] (ERel OEq (EVar "Kind") (EVar "Data"))].
Example C62_text : model_str C62_ds =
"type Length_T is mod 2**8;

type Day is range 1 .. 2**5 - 1 with Size => 8;

type Kind_T is (Data => 1, Control => 2) with Size => 8, Always_Valid => True;

type Days is array of Day;

type Frame is
   message
      null
         then Kind
            with Size => 8;
      Kind : Kind_T
         then Length
            if Kind /= Control
         then null
            if Kind = Control
               and not (Kind'Size > 8);
      Length : Length_T
         then Payload
            with Size => Length * 8, First => Length'First;
      Payload : Opaque;
   end message;

type Empty is null message;

for Frame use (Payload => Empty)
   if Kind = Data;".
Proof. vm_compute. reflexivity. Qed.

Lemma sound_expr_dec e : names_ok lexical e = true -> sums e = true -> full e = true -> sound_expr e.
Proof. intros L S F. split; [|split]; auto. now apply P_ExprPrint.words_lexical. Qed.
Example C62_frame : sound_message C62_types_of C62_structure.
Proof.
  apply (C62_accepted 30 ["Control"; "Data"]).
  - vm_compute. reflexivity.
  - discriminate.
  - intros f t [E|[E|[E|[]]]]; injection E as <- <-; repeat split; discriminate.
  - intros l I. repeat (destruct I as [<-|I]; [split; [|split]; cbn;
      [|intros e E; try discriminate E; injection E as <-|intros e E; try discriminate E; injection E as <-]; now apply sound_expr_dec|]). destruct I.
  - intros l f I F E. vm_compute in F.
    repeat (destruct I as [<-|I]; [repeat (destruct F as [<-|F]; [try reflexivity; discriminate E|]); destruct F|]). destruct I.
  - intros f [<-|[<-|[<-|[]]]].
    + exists C62_kind. split; [right; now left|reflexivity].
    + eexists. split; [right; right; right; left; reflexivity|reflexivity].
    + eexists. split; [right; right; right; right; left; reflexivity|reflexivity].
Qed.
Example C62_model_case : forall d, In d C62_ds -> listed d = true -> sound d.
Proof.
  setoid_rewrite <- shown_listed.
  assert (X : forall d, shown d = true -> forall l, In d l -> In d (filter shown l)) by (intros; now apply filter_In).
  intros d I H. apply (X d H) in I. clear X H. cbn -[sound] in I.
  repeat (destruct I as [<-|I]; [|]); try destruct I; cbn -[simple_name sound_expr].
  - split; [reflexivity|now apply sound_expr_dec].
  - repeat split; try reflexivity; try now apply sound_expr_dec.
  - split; [reflexivity|]. split; [discriminate|]. split; [now apply sound_expr_dec|].
    intros n e [E|[E|[]]]; injection E as <- <-; (split; [reflexivity|now apply sound_expr_dec]).
  - split; reflexivity.
  - split; [reflexivity|]. right. split; [discriminate|exact C62_frame].
  - split; [reflexivity|now left].
  - repeat (split; [reflexivity|]). now apply sound_expr_dec.
Qed.
Example C62_types_case : qualified_type_identifier [name ["P"; "Kind_T"]] ["P"] = ["P"; "Kind_T"]
  /\ qualified_type_identifier [name ["__INTERNAL__"; "Opaque"]] ["P"] = ["__INTERNAL__"; "Opaque"]
  /\ qualified_type_identifier [name ["Q"; "Kind_T"]] ["P"] = ["P"; "Kind_T"].
Proof. repeat split. Qed.

(** *** where it fails *)

(** C62: models that differ in the package of the type of a field have the same text *)
Theorem C62_imported_refuted : exists d d', sound d /\ sound d' /\ shown d = true /\ shown d' = true /\ model_str [d] = model_str [d'] /\
  exists i types types' structure cs, d = Message i types structure cs /\ d' = Message i types' structure cs /\
    Exists (fun p => id_eq (snd (fst p)) (snd (snd p)) = false) (combine types types').
Proof.
  set (s := [mkLink "Initial" "A" ETrue None None; mkLink "A" "Final" ETrue None None]).
  assert (M : forall q, sound (Message ["P"; "M"] [("A", [q; "T"])] s [])).
  { intros q. split; [reflexivity|]. right. split; [discriminate|]. apply (C62_accepted 20 []).
    - vm_compute. reflexivity.
    - discriminate.
    - intros f t [E|[]]. injection E as <- <-. repeat split; discriminate.
    - intros l I. repeat (destruct I as [<-|I]; [split; [now apply sound_expr_dec|split; discriminate]|]). destruct I.
    - intros l f I [<-|[]] E. repeat (destruct I as [<-|I]; [try reflexivity; discriminate E|]). destruct I.
    - intros f [<-|[]]. eexists. split; [right; left; reflexivity|reflexivity]. }
  exists (Message ["P"; "M"] [("A", ["P"; "T"])] s []), (Message ["P"; "M"] [("A", ["Q"; "T"])] s []).
  repeat (split; [solve [apply M|vm_compute; reflexivity]|]).
  do 5 eexists. split; [reflexivity|]. split; [reflexivity|]. constructor. reflexivity.
Qed.
Print Assumptions C62_imported_refuted.

(** C62: the checksums of a message are missing in the text *)
Theorem C62_checksum_refuted : exists i types structure cs cs', sound (Message i types structure cs) /\
  Forall (fun c => In (fst c) (map fst types)) (cs ++ cs') /\ cs <> cs' /\
  model_str [Message i types structure cs] = model_str [Message i types structure cs'].
Proof.
  exists ["P"; "Frame"], C62_types_of, C62_structure, [("Length", [EVar "Kind"])], [].
  split; [|split; [|split; [discriminate|reflexivity]]].
  - split; [reflexivity|]. right. split; [discriminate|exact C62_frame].
  - constructor; [right; now left|constructor].
Qed.
Print Assumptions C62_checksum_refuted.

(** C62: a type is missing in the text if it has the name of a predefined type *)
Theorem C62_redefined_refuted : exists d, sound d /\ identifier_of d = ["P"; "Boolean"] /\ model_str [d] = "".
Proof. exists (Modular ["P"; "Boolean"] (ENum 256)). repeat split. now intros n []. Qed.
Print Assumptions C62_redefined_refuted.

(** C62: the text of a message that is not verified and has a field without outgoing link
    declares such a link *)
Theorem C62_dead_end_refuted : exists n i types structure, 
  construct n (mkMessage (map low_link structure) (map (fun p => lower (fst p)) types) []) = Ok ([], map (fun p => lower (fst p)) types) /\
  (forall l, In l structure -> lower (source l) <> "b") /\
  exists null comps structure' l, declares (model_str [Message i types structure []]) [DMessage (last i "") null comps] /\
    links_of null comps = Ok ([], structure') /\ In l structure' /\ source l = "b" /\ target l = "final".
Proof.
  exists 20, ["P"; "M"], [("A", ["P"; "T"]); ("B", ["P"; "T"])],
    [mkLink "Initial" "A" ETrue None None; mkLink "A" "B" (ERel OGt (EVar "A") (ENum 1)) None None;
     mkLink "A" "Final" (ERel OLe (EVar "A") (ENum 1)) None None].
  split; [vm_compute; reflexivity|]. split.
  - intros l I. repeat (destruct I as [<-|I]; [discriminate|]). destruct I.
  - do 4 eexists. split; [exists 30; vm_compute; reflexivity|]. split; [vm_compute; reflexivity|].
    split; [right; right; right; left; reflexivity|]. split; reflexivity.
Qed.
Print Assumptions C62_dead_end_refuted.
