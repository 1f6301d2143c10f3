(** Property C63: the generated units are complete, can be compiled in some order, are written
    to different files, and their instantiations fit the generic packages. *)
From Coq Require Import String Ascii List Bool Arith Lia.
From Verif Require Import Base Ident GenUnits.
From Verif Require P_IdentErrors.
Import ListNotations.
Local Open Scope string_scope.
Local Open Scope list_scope.
Local Open Scope nat_scope.

(** ** Specification *)

Definition low (i : ident) : list string := map lower i.
(** no hyphen *)
Definition plain (s : string) : Prop := has_char "-" s = false.
(** the identifiers of types other than refinements *)
Definition type_ids (ts : list gtype) : list ident :=
  flat_map (fun t => match t with GScalar i | GArray i _ _ => [i] | GMessage m => [m_id m] | _ => [] end) ts.
(** the predefined packages, for which no code is generated *)
Definition predefined (p : ident) : Prop := low p = low BUILTINS \/ low p = low INTERNAL.
(** messages for which there is a generic unit *)
Definition generic (m : message) : Prop := m_base m = None /\ m_types m <> [].

(** [t] refers to types of [before] *)
Definition refers (before : list gtype) (t : gtype) : Prop :=
  match t with
  | GScalar _ | GOpaque => True
  | GArray _ true e => exists m, In (GMessage m) before /\ m_id m = e /\ m_types m <> []
  | GArray _ false e => In (GScalar e) before /\ ~ predefined (parent e)
  | GMessage m =>
    (forall b, m_base m = Some b -> exists m', In (GMessage m') before /\ generic m' /\ m_id m' = b /\ m_types m' = m_types m)
    /\ (forall f, In f (m_types m) ->
        match f with
        | FScalar i => low (parent i) = low BUILTINS \/ In (GScalar i) before /\ ~ predefined (parent i)
        | FArray i x => exists e, In (GArray i x e) before
        | FOpaque i => low (parent i) = low INTERNAL
        end)
  | GRefinement p pdu sdu vs => In (GMessage pdu) before /\ In (GMessage sdu) before /\ m_types pdu <> []
    /\ forall v, In v vs -> List.length v = 2 -> low (parent v) <> low p ->
       exists t', In t' before /\ low (package_of t') = low (parent v) /\ ~ predefined (package_of t')
  end.
Definition library_packages : list string :=
  ["rflx_arithmetic"; "rflx_builtin_types"; "rflx_generic_types"; "rflx_message_sequence"; "rflx_scalar_sequence"; "rflx_types"].

(** what a model has to meet *)
Record sound (prefix : ident) (ts : list gtype) : Prop := {
  g_prefix : forall s, In s prefix -> plain s;
  (* identifiers of types have two parts (type_.py:21-27) *)
  g_parts : forall i, In i (type_ids ts) -> exists p n, i = [p; n] /\ plain p /\ plain n;
  g_refinements : forall p pdu sdu vs, In (GRefinement p pdu sdu vs) ts -> exists s, p = [s] /\ plain s;
  (* arrays, messages and refinements are not predefined *)
  g_own : forall t, In t ts -> match t with GScalar _ | GOpaque => True | _ => ~ predefined (package_of t) end;
  (* there are no duplicates (C34) *)
  g_distinct : NoDup (map low (type_ids ts));
  (* types follow the types that they use *)
  g_order : forall before t after, ts = before ++ t :: after -> refers before t;
  (* packages are not named as those of the library *)
  g_library : forall t s, In t ts -> low (package_of t) = [s] -> ~ In s library_packages;
  (* no message or array is named Generic_M beside a message M *)
  g_generic : forall m t i, In (GMessage m) ts -> generic m -> In t ts ->
    match t with GMessage m' => i = m_id m' | GArray j _ _ => i = j | _ => False end ->
    low i <> low (generic_name (m_id m));
  (* no message or array is named Contains or Generic_Contains in a package with refinements *)
  g_contains : forall p pdu sdu vs t i, In (GRefinement p pdu sdu vs) ts -> In t ts ->
    match t with GMessage m' => i = m_id m' | GArray j _ _ => i = j | _ => False end ->
    low i <> low p ++ ["contains"] /\ low i <> low p ++ ["generic_contains"];
  (* the arrays of a message have different names *)
  g_arrays : forall m i x j y, In (GMessage m) ts -> In (FArray i x) (m_types m) -> In (FArray j y) (m_types m) ->
    lower (name_of i) = lower (name_of j) -> low i = low j;
  (* messages with the same flat name are the same *)
  g_flat : forall m m', In (GMessage m) ts -> In (GMessage m') ts ->
    lower (flat_name (m_id m)) = lower (flat_name (m_id m')) -> low (m_id m) = low (m_id m')
}.

(** the name of a unit; names are compared without regard to case *)
Definition uid (u : unit) : list string := low (unit_id u).
(** the package of the prefix (generator.py:177-181); it is written for the default prefix and
    has to be provided by the user otherwise *)
Definition top (prefix : ident) : list unit := match prefix with [] => [] | _ => [Package prefix [] None] end.
(** all units: the generated units, the library and the package of the prefix *)
Definition program (prefix : ident) (d : units) : list unit := map snd d ++ library prefix ++ top prefix.
(** the units that must be compiled before [u]: those in the context clause, and the parent
    unless [u] is the package of the prefix *)
Definition requires (prefix : ident) (u : unit) (w : ident) : Prop :=
  In w (unit_withs u) \/ w = parent (unit_id u) /\ w <> [] /\ uid u <> low prefix.
Definition needs (prefix : ident) (d : units) (v u : unit) : Prop :=
  In v (program prefix d) /\ exists w, requires prefix u w /\ uid v = low w.
(** [a] is an instance of the generic package of the formal package [f]; when [f] is written
    with the actual parameter Types, then [a] has been instantiated with RFLX_Types *)
Definition suits (prefix : ident) (d : units) (f : formal) (a : ident) : Prop :=
  exists j w g l, In (Instance j w g l) (program prefix d) /\ low j = low a /\ low g = low (f_generic f)
    /\ (f_associations f <> [] -> exists r, l = (prefix ++ TYPES) :: r).
(** the names, without the prefix, of the units for a type *)
Definition names (t : gtype) : list ident :=
  package_of t :: match t with
                  | GScalar _ | GOpaque => []
                  | GArray i _ _ => [i]
                  | GMessage m => match m_base m, m_types m with
                                  | Some _, _ => [m_id m]
                                  | None, [] => []
                                  | None, _ => [m_id m; generic_name (m_id m)]
                                  end
                  | GRefinement p _ _ _ => [p ++ ["Contains"]; p ++ ["Generic_Contains"]]
                  end.

(** ** Dictionaries and duplicates *)

Lemma id_low a b : id_eq a b = true <-> low a = low b.
Proof. apply P_IdentErrors.id_eq_hash. Qed.
Lemma id_low_false a b : id_eq a b = false <-> low a <> low b.
Proof. rewrite <- id_low. destruct (id_eq a b); split; intros H; try discriminate; try reflexivity. now destruct H. Qed.
Lemma id_refl a : id_eq a a = true.
Proof. now apply id_low. Qed.
Lemma low_app a b : low (a ++ b) = low a ++ low b.
Proof. apply map_app. Qed.
Lemma low_length a : List.length (low a) = List.length a.
Proof. apply map_length. Qed.

Definition keys (d : units) : list (list string) := map (fun e => low (fst e)) d.

Lemma lookup_none k d : lookup k d = None <-> ~ In (low k) (keys d).
Proof.
  induction d as [|[k' u] d IH]; cbn; [tauto|]. destruct (id_eq k k') eqn:E.
  - apply id_low in E. split; [discriminate|]. intros H. exfalso. apply H. left. now symmetry.
  - apply id_low_false in E. rewrite IH. split; [|tauto]. intros H [K|K]; [apply E; now symmetry|tauto].
Qed.
Lemma lookup_some k d u : lookup k d = Some u -> exists k', In (k', u) d /\ low k' = low k.
Proof.
  induction d as [|[k' u'] d IH]; cbn; [discriminate|]. destruct (id_eq k k') eqn:E.
  - intros H. injection H as ->. apply id_low in E. exists k'. split; [now left|now symmetry].
  - intros H. destruct (IH H) as (q & I & Q). exists q. split; [now right|exact Q].
Qed.
Lemma key_in k u d : In (k, u) d -> In (low k) (keys d).
Proof. intros H. apply in_map_iff. now exists (k, u). Qed.
Lemma lookup_in k k' d u : NoDup (keys d) -> In (k', u) d -> low k' = low k -> lookup k d = Some u.
Proof.
  induction d as [|[q v] d IH]; cbn; [tauto|]. intros N [E|I] L; apply NoDup_cons_iff in N as [N1 N2].
  - injection E as -> ->. now rewrite (proj2 (id_low k k')) by now symmetry.
  - destruct (id_eq k q) eqn:E; [|now apply IH]. exfalso. apply N1. apply id_low in E. change (In (low q) (keys d)). rewrite <- E, <- L. now apply (key_in k' u).
Qed.
Lemma put_fresh k u d : lookup k d = None -> put k u d = d ++ [(k, u)].
Proof. induction d as [|[q v] d IH]; cbn; [reflexivity|]. destruct (id_eq k q); [discriminate|]. intros H. now rewrite IH. Qed.
Lemma put_keys k u d : lookup k d <> None -> keys (put k u d) = keys d.
Proof. induction d as [|[q v] d IH]; cbn; [tauto|]. destruct (id_eq k q); [reflexivity|]. intros H. change (low q :: keys (put k u d) = low q :: keys d). now rewrite IH. Qed.
Lemma put_nodup k u d : NoDup (keys d) -> NoDup (keys (put k u d)).
Proof.
  intros N. destruct (lookup k d) eqn:E.
  - rewrite put_keys; [exact N|congruence].
  - rewrite put_fresh by exact E. unfold keys. rewrite map_app. cbn.
    apply lookup_none in E. apply NoDup_rev in N. rewrite <- rev_involutive. apply NoDup_rev. rewrite rev_app_distr. cbn.
    constructor; [|exact N]. now rewrite <- in_rev.
Qed.
Lemma in_put_fresh k u d e : lookup k d = None -> (In e (put k u d) <-> In e d \/ e = (k, u)).
Proof. intros H. rewrite put_fresh by exact H. rewrite in_app_iff. cbn. intuition. Qed.
Lemma in_put_old k k' u d e old : NoDup (keys d) -> In (k', old) d -> low k' = low k ->
  (In e (put k u d) <-> In e d /\ low (fst e) <> low k \/ e = (k', u)).
Proof.
  induction d as [|[q v] d IH]; cbn [put]; [intros _ []|]. intros N I L. cbn in N. apply NoDup_cons_iff in N as [N1 N2].
  destruct (id_eq k q) eqn:E.
  - apply id_low in E. assert (Q : q = k').
    { destruct I as [I|I]; [now injection I|]. exfalso. apply N1. change (In (low q) (keys d)). rewrite <- E, <- L. now apply (key_in k' old). }
    subst q. cbn [In]. split.
    + intros [<-|H]; [now right|]. left. split; [now right|]. intros K. apply N1. change (In (low k') (keys d)). rewrite L, <- K. destruct e. now apply (key_in i u0).
    + intros [[[<-|H] K]|H]; [exfalso; apply K; exact L|now right|now left].
  - apply id_low_false in E. destruct I as [I|I]; [injection I as -> ->; congruence|]. cbn [In]. rewrite (IH N2 I L).
    split; [|tauto]. intros [<-|[H|H]]; [left; split; [now left|intros Z; apply E; now symmetry]|tauto|tauto].
Qed.

Section Dedup.
  Context {A : Type} (eq : A -> A -> bool).
  Hypothesis refl : forall x, eq x x = true.
  Hypothesis sym : forall x y, eq x y = eq y x.
  Hypothesis trans : forall x y z, eq x y = true -> eq y z = true -> eq x z = true.
  Lemma dedup_in l : forall seen x, In x (dedup eq seen l) -> In x l.
  Proof.
    induction l as [|y l IH]; intros seen x; cbn; [tauto|]. destruct (existsb (eq y) seen); [intros H; right; eauto|].
    intros [<-|H]; [now left|right; eauto].
  Qed.
  Lemma dedup_rep l : forall seen x, In x l -> (exists y, In y seen /\ eq x y = true) \/ exists y, In y (dedup eq seen l) /\ eq x y = true.
  Proof.
    induction l as [|y l IH]; intros seen x; cbn; [tauto|]. intros [<-|H].
    - destruct (existsb (eq y) seen) eqn:E.
      + apply existsb_exists in E. now left.
      + right. exists y. split; [now left|apply refl].
    - destruct (existsb (eq y) seen) eqn:E; [now apply IH|].
      destruct (IH (seen ++ [y]) x H) as [(z & I & Z)|(z & I & Z)].
      + apply in_app_iff in I as [I|[<-|[]]]; [left; eauto|right; exists y; split; [now left|exact Z]].
      + right. exists z. split; [now right|exact Z].
  Qed.
  Lemma existsb_dedup x l : forall seen, existsb (eq x) (seen ++ dedup eq seen l) = existsb (eq x) (seen ++ l).
  Proof.
    induction l as [|y l IH]; intros seen; cbn; [reflexivity|]. destruct (existsb (eq y) seen) eqn:E.
    - rewrite IH. rewrite !existsb_app. cbn. destruct (eq x y) eqn:X; [|reflexivity].
      assert (existsb (eq x) seen = true) as ->; [|reflexivity].
      apply existsb_exists in E as (z & I & Z). apply existsb_exists. exists z. split; [exact I|]. now apply (trans x y z).
    - specialize (IH (seen ++ [y])). rewrite <- !app_assoc in IH. exact IH.
  Qed.
  Lemma dedup_app l : forall seen r, dedup eq seen (l ++ r) = dedup eq seen l ++ dedup eq (seen ++ dedup eq seen l) r.
  Proof.
    induction l as [|y l IH]; intros seen r; cbn; [now rewrite app_nil_r|]. destruct (existsb (eq y) seen); [apply IH|].
    cbn. f_equal. rewrite IH. now rewrite <- app_assoc.
  Qed.
  Lemma dedup_snoc l x : dedup eq [] (l ++ [x]) = dedup eq [] l ++ (if existsb (eq x) l then [] else [x]).
  Proof.
    rewrite dedup_app. cbn [app dedup]. f_equal. pose proof (existsb_dedup x l []) as H. cbn [app] in H. now rewrite H.
  Qed.
  (** two duplicate removals in parallel *)
  Lemma dedup_map {B C} (eq' : C -> C -> bool) (f : B -> A) (g : B -> C) (l : list B) :
    forall seen, (forall x y, In x (seen ++ l) -> In y (seen ++ l) -> eq (f x) (f y) = eq' (g x) (g y)) ->
    exists l', dedup eq (map f seen) (map f l) = map f l' /\ dedup eq' (map g seen) (map g l) = map g l' /\ incl l' l.
  Proof.
    induction l as [|y l IH]; intros seen H.
    - exists []. cbn. repeat split. intros z [].
    - cbn [map dedup].
      assert (E : existsb (eq (f y)) (map f seen) = existsb (eq' (g y)) (map g seen)).
      { assert (Hs : forall x, In x seen -> eq (f y) (f x) = eq' (g y) (g x)).
        { intros x I. apply H; apply in_app_iff; [right; now left|now left]. }
        clear H. induction seen as [|z s IHs]; [reflexivity|]. cbn. rewrite Hs by now left. rewrite IHs; [reflexivity|].
        intros x I. apply Hs. now right. }
      rewrite E. destruct (existsb (eq' (g y)) (map g seen)).
      + destruct (IH seen) as (l' & A1 & A2 & A3).
        { intros x z I J. apply H; apply in_app_iff; apply in_app_iff in I, J; cbn; tauto. }
        exists l'. split; [exact A1|]. split; [exact A2|]. now apply incl_tl.
      + destruct (IH (seen ++ [y])) as (l' & A1 & A2 & A3).
        { intros x z I J. rewrite <- app_assoc in I, J. cbn in I, J. apply H; assumption. }
        exists (y :: l'). rewrite !map_app in *. cbn [map] in *. rewrite A1, A2. split; [reflexivity|]. split; [reflexivity|].
        intros z [<-|I]; [now left|right; now apply A3].
  Qed.
  Lemma dedup_distinct l : forall seen, (forall x y, In x seen -> In y seen -> True) ->
    NoDup (dedup eq seen l) /\ (forall x, In x (dedup eq seen l) -> existsb (eq x) seen = false).
  Proof.
    induction l as [|y l IH]; intros seen _; cbn; [split; [constructor|tauto]|].
    destruct (existsb (eq y) seen) eqn:E; [now apply IH|].
    destruct (IH (seen ++ [y]) ltac:(auto)) as [N F]. split.
    - constructor; [|exact N]. intros I. apply F in I. rewrite existsb_app in I. cbn in I. rewrite refl in I. now rewrite orb_true_r in I.
    - intros x [<-|I]; [exact E|]. apply F in I. rewrite existsb_app in I. now apply orb_false_iff in I as [I _].
  Qed.
  (** no two elements are equal *)
  Lemma dedup_pairwise l : forall seen a x b y c, dedup eq seen l = a ++ x :: b ++ y :: c -> eq x y = false.
  Proof.
    induction l as [|z l IH]; intros seen a x b y c; cbn; [destruct a; discriminate|].
    destruct (existsb (eq z) seen) eqn:E; [apply IH|]. destruct a as [|w a]; cbn; intros H.
    - injection H as -> H. assert (I : In y (dedup eq (seen ++ [x]) l)) by (rewrite H; apply in_app_iff; right; now left).
      apply (proj2 (dedup_distinct l (seen ++ [x]) ltac:(auto))) in I. rewrite existsb_app in I. apply orb_false_iff in I as [_ I].
      cbn in I. rewrite orb_false_r in I. now rewrite sym.
    - injection H as _ H. now apply (IH _ _ _ _ _ _ H).
  Qed.
End Dedup.
Lemma id_sym a b : id_eq a b = id_eq b a.
Proof. destruct (id_eq b a) eqn:E; [apply id_low; apply id_low in E; now symmetry|]. apply id_low_false. apply id_low_false in E. congruence. Qed.
Lemma id_trans a b c : id_eq a b = true -> id_eq b c = true -> id_eq a c = true.
Proof. rewrite !id_low. congruence. Qed.

(** ** The units of a model *)

Definition counted (t : gtype) : bool := negb (id_eq (package_of t) BUILTINS || id_eq (package_of t) INTERNAL).
Lemma counted_true t : counted t = true <-> ~ predefined (package_of t).
Proof.
  unfold counted, predefined. rewrite negb_true_iff, orb_false_iff, !id_low_false. tauto.
Qed.
Record refinement := mkRef { r_package : ident; r_pdu : message; r_sdu : message; r_variables : list ident }.
Definition refs (a : list gtype) : list refinement :=
  flat_map (fun t => match t with GRefinement p pdu sdu vs => [mkRef p pdu sdu vs] | _ => [] end) a.
Definition refs_of (a : list gtype) (p : ident) : list refinement := filter (fun r => id_eq (r_package r) p) (refs a).
Definition packages (a : list gtype) : list ident := dedup id_eq [] (map package_of (filter counted a)).
Definition refined (a : list gtype) : list ident := dedup id_eq [] (map r_package (refs a)).

Section Units.
  Context (prefix : ident).
  Notation pre := (pre prefix).

  Definition package_unit (p : ident) : ident * unit := (p, Package (pre p) [] None).
  Definition generic_unit (m : message) : ident * unit :=
    (generic_name (m_id m), Package (pre (generic_name (m_id m)))
       ((if existsb (fun t => id_eq (parent (f_id t)) BUILTINS) (m_types m)
         then [pre BUILTIN_TYPES; pre BUILTIN_TYPES_CONVERSIONS] else [])
        ++ [pre GENERIC_TYPES] ++ flat_map (field_withs prefix m) (m_types m))
       (Some (types_formal prefix :: flat_map (field_formals prefix) (m_types m)))).
  Definition message_unit (m : message) : ident * unit :=
    (m_id m, Instance (pre (m_id m)) ([generic_of prefix m; pre TYPES] ++ array_ids prefix m) (generic_of prefix m)
               ([pre TYPES] ++ array_ids prefix m)).
  Definition own (t : gtype) : units :=
    match t with
    | GMessage m =>
      match m_base m, m_types m with
      | Some _, _ => [message_unit m]
      | None, [] => []
      | None, _ => [generic_unit m; message_unit m]
      end
    | GArray i x e => [(pre i, array_unit prefix i x e)]
    | _ => []
    end.
  Definition gcontains_unit (p : ident) (rs : list refinement) : ident * unit :=
    (generic_name (p ++ [REFINEMENT_PACKAGE]),
     Package (pre (generic_name (p ++ [REFINEMENT_PACKAGE])))
       ([pre GENERIC_TYPES] ++ flat_map (fun r => refinement_withs prefix (r_package r) (r_pdu r) (r_sdu r) (r_variables r)) rs)
       (Some ([types_formal prefix] ++ map (message_formal prefix) (flat_map (fun r => parameters (r_pdu r) (r_sdu r)) rs)))).
  Definition contains_ids (rs : list refinement) : list ident :=
    dedup id_eq [pre TYPES] (map (fun m => pre (m_id m)) (flat_map (fun r => parameters (r_pdu r) (r_sdu r)) rs)).
  Definition contains_unit (p : ident) (rs : list refinement) : ident * unit :=
    (p ++ [REFINEMENT_PACKAGE],
     Instance (pre (p ++ [REFINEMENT_PACKAGE]))
       ([pre TYPES; generic_name (pre (p ++ [REFINEMENT_PACKAGE]))] ++ contains_ids rs)
       (generic_name (pre (p ++ [REFINEMENT_PACKAGE])))
       ([pre TYPES] ++ contains_ids rs)).
  Definition contains_units (a : list gtype) : units :=
    flat_map (fun p => [gcontains_unit p (refs_of a p); contains_unit p (refs_of a p)]) (refined a).
  Definition all_units (a : list gtype) : units :=
    map package_unit (packages a) ++ flat_map own a ++ contains_units a.

  Lemma generic_pre i : i <> [] -> generic_name (pre i) = pre (generic_name i).
  Proof.
    intros N. unfold generic_name, GenUnits.pre. rewrite removelast_app by exact N.
    rewrite <- app_assoc. f_equal. f_equal. f_equal. f_equal. clear - N. induction prefix as [|x l IH]; [reflexivity|].
    cbn [app last]. destruct (l ++ i) eqn:E; [destruct l; [cbn in E; congruence|discriminate]|]. exact IH.
  Qed.

  Lemma add_new_dedup l : forall a, add_new a l = a ++ dedup id_eq a l.
  Proof.
    unfold add_new. induction l as [|x l IH]; intros a; cbn; [now rewrite app_nil_r|]. destruct (existsb (id_eq x) a); [apply IH|].
    rewrite IH. now rewrite <- app_assoc.
  Qed.

  Context (ts : list gtype) (Sd : sound prefix ts).

  (** *** names *)
  Definition is_lower_type (t : gtype) : option ident :=
    match t with GScalar i | GArray i _ _ => Some i | GMessage m => Some (m_id m) | _ => None end.
  Lemma type_id_in t i : In t ts -> is_lower_type t = Some i -> In i (type_ids ts).
  Proof. intros I E. apply in_flat_map. exists t. split; [exact I|]. destruct t; try discriminate; injection E as <-; now left. Qed.
  Lemma type_parts t i : In t ts -> is_lower_type t = Some i -> exists p n, i = [p; n] /\ plain p /\ plain n.
  Proof. intros I E. apply (g_parts _ _ Sd). now apply (type_id_in t). Qed.
  Lemma distinct_before a t b t' i i' : ts = a ++ t :: b -> In t' a -> is_lower_type t = Some i -> is_lower_type t' = Some i' -> low i <> low i'.
  Proof.
    intros E I Ht Ht' L. pose proof (g_distinct _ _ Sd) as N. rewrite E in N. unfold type_ids in N. rewrite flat_map_app in N. cbn [flat_map] in N.
    rewrite !map_app in N.
    assert (X : In (low i') (map low (type_ids a))).
    { apply in_map. apply in_flat_map. exists t'. split; [exact I|]. destruct t'; try discriminate; injection Ht' as <-; now left. }
    apply in_split in X as (u & v & X). unfold type_ids in X. rewrite X, <- app_assoc in N. cbn [app] in N.
    apply NoDup_remove_2 in N. apply N. apply in_app_iff. right. apply in_app_iff. right. apply in_app_iff. left.
    rewrite <- L. apply in_map. destruct t; try discriminate; injection Ht as <-; now left.
  Qed.
  Lemma same_type t t' i i' : In t ts -> In t' ts -> is_lower_type t = Some i -> is_lower_type t' = Some i' -> low i = low i' -> t = t'.
  Proof.
    intros I I' Ht Ht' L. apply in_split in I as (a & b & E). rewrite E in I'. apply in_app_iff in I' as [I'|[I'|I']].
    - exfalso. exact (distinct_before a t b t' i i' E I' Ht Ht' L).
    - exact I'.
    - exfalso. apply in_split in I' as (u & v & I'). rewrite I' in E. rewrite app_comm_cons, app_assoc in E.
      refine (distinct_before (a ++ t :: u) t' v t i' i E _ Ht' Ht (eq_sym L)). apply in_app_iff. right. now left.
  Qed.

  Lemma lower_append x y : lower (x ++ y)%string = (lower x ++ lower y)%string.
  Proof. induction x as [|c x IH]; cbn; [reflexivity|]. now rewrite IH. Qed.
  Lemma low_generic p n : low (generic_name [p; n]) = [lower p; ("generic_" ++ lower n)%string].
  Proof. unfold generic_name, low. cbn [removelast last app map]. now rewrite lower_append. Qed.
  Lemma append_cancel x y z : (x ++ y)%string = (x ++ z)%string -> y = z.
  Proof. induction x as [|c x IH]; cbn; [auto|]. intros H. injection H as H. auto. Qed.

  (** the identifiers of the units of a type, without the prefix *)
  Definition own_ids (t : gtype) : list ident :=
    match t with
    | GMessage m =>
      match m_base m, m_types m with
      | Some _, _ => [m_id m]
      | None, [] => []
      | None, _ => [generic_name (m_id m); m_id m]
      end
    | GArray i _ _ => [i]
    | _ => []
    end.
  Lemma own_id_cases t i : In i (own_ids t) ->
    (is_lower_type t = Some i /\ match t with GMessage m' => i = m_id m' | GArray j _ _ => i = j | _ => False end)
    \/ exists m, t = GMessage m /\ generic m /\ i = generic_name (m_id m).
  Proof.
    destruct t as [j|j x e| |m|p pdu sdu vs]; cbn; try tauto.
    - intros [<-|[]]. now left.
    - destruct m as [j [b|] [|f fs]]; cbn; try tauto.
      + intros [<-|[]]. now left.
      + intros [<-|[]]. now left.
      + intros [<-|[<-|[]]]; [right|now left]. eexists. repeat split. discriminate.
  Qed.
  Lemma own_parts t i : In t ts -> In i (own_ids t) -> exists p n, i = [p; n] /\ plain p /\ plain n /\ package_of t = [p].
  Proof.
    intros I J. destruct (own_id_cases t i J) as [[E C]|(m & -> & G & ->)].
    - destruct (type_parts t i I E) as (p & n & -> & P & N). exists p, n. repeat split; auto.
      destruct t; try discriminate; injection E as E; cbn; subst; try rewrite E; reflexivity.
    - destruct (type_parts (GMessage m) (m_id m) I eq_refl) as (p & n & E & P & N). exists p, ("Generic_" ++ n)%string.
      rewrite E. cbn. rewrite E. repeat split; auto.
  Qed.
  Lemma own_distinct a t b t' i i' : ts = a ++ t :: b -> In t' a -> In i (own_ids t) -> In i' (own_ids t') -> low i <> low i'.
  Proof.
    intros E It J J'. assert (I : In t ts) by (rewrite E; apply in_app_iff; right; now left).
    assert (I' : In t' ts) by (rewrite E; apply in_app_iff; now left).
    destruct (own_id_cases t i J) as [[X C]|(m & -> & G & ->)]; destruct (own_id_cases t' i' J') as [[X' C']|(m' & -> & G' & ->)].
    - exact (distinct_before a t b t' i i' E It X X').
    - exact (g_generic _ _ Sd m' t i I' G' I C).
    - intros L. exact (g_generic _ _ Sd m t' i' I G I' C' (eq_sym L)).
    - intros L. destruct (type_parts (GMessage m) (m_id m) I eq_refl) as (p & n & Q & _). destruct (type_parts (GMessage m') (m_id m') I' eq_refl) as (p' & n' & Q' & _).
      refine (distinct_before a _ b _ (m_id m) (m_id m') E It eq_refl eq_refl _). rewrite Q, Q' in *. rewrite !low_generic in L. injection L as L1 L2.
      cbn. now rewrite L1, L2.
  Qed.
  Lemma own_two m : In (GMessage m) ts -> generic m -> low (generic_name (m_id m)) <> low (m_id m).
  Proof. intros I G L. exact (g_generic _ _ Sd m (GMessage m) (m_id m) I G I eq_refl (eq_sym L)). Qed.

  Lemma refs_in a r : In r (refs a) <-> In (GRefinement (r_package r) (r_pdu r) (r_sdu r) (r_variables r)) a.
  Proof.
    unfold refs. rewrite in_flat_map. split.
    - intros (t & I & J). destruct t; try destruct J as []. + subst r. exact I.
      + contradiction.
    - intros I. eexists. split; [exact I|]. left. now destruct r.
  Qed.
  Lemma ref_part r : In r (refs ts) -> exists s, r_package r = [s] /\ plain s.
  Proof. intros I. apply refs_in in I. exact (g_refinements _ _ Sd _ _ _ _ I). Qed.
  Lemma own_contains t i r : In t ts -> In i (own_ids t) -> In r (refs ts) ->
    low i <> low (r_package r ++ [REFINEMENT_PACKAGE]) /\ low i <> low (generic_name (r_package r ++ [REFINEMENT_PACKAGE])).
  Proof.
    intros I J Ir. destruct (ref_part r Ir) as (s & Q & _). pose proof (proj1 (refs_in _ _) Ir) as Irr. rewrite Q in *. cbn [app]. rewrite low_generic.
    destruct (own_id_cases t i J) as [[X C]|(m & -> & G & ->)].
    - exact (g_contains _ _ Sd _ _ _ _ t i Irr I C).
    - destruct (type_parts (GMessage m) (m_id m) I eq_refl) as (p & n & E & _). rewrite E, low_generic. split; [intros H; discriminate H|].
      intros H. injection H as H1 H2.
      destruct (g_contains _ _ Sd _ _ _ _ (GMessage m) (m_id m) Irr I eq_refl) as [K _]. apply K. rewrite E. cbn. now rewrite H1, H2.
  Qed.

  (** *** keys *)
  Definition key_of (t : gtype) (i : ident) : ident := match t with GArray _ _ _ => pre i | _ => i end.
  Lemma own_entry t e : In e (own t) -> exists i, In i (own_ids t) /\ fst e = key_of t i /\ unit_id (snd e) = pre i.
  Proof.
    destruct t as [j|j x el| |m|p pdu sdu vs]; cbn; try tauto.
    - intros [<-|[]]. exists j. repeat split; [now left|]. now destruct x.
    - destruct m as [j [b|] [|f fs]]; cbn; try tauto.
      + intros [<-|[]]. exists j. repeat split. now left.
      + intros [<-|[]]. exists j. repeat split. now left.
      + intros [<-|[<-|[]]]; eexists; (split; [|split; [reflexivity|reflexivity]]); [now left|right; now left].
  Qed.
  Lemma id_entry t i : In i (own_ids t) -> exists e, In e (own t) /\ fst e = key_of t i /\ unit_id (snd e) = pre i.
  Proof.
    destruct t as [j|j x el| |m|p pdu sdu vs]; cbn; try tauto.
    - intros [<-|[]]. eexists. split; [now left|]. split; [reflexivity|]. now destruct x.
    - destruct m as [j [b|] [|f fs]]; cbn; try tauto.
      + intros [<-|[]]. eexists. split; [now left|]. now split.
      + intros [<-|[]]. eexists. split; [now left|]. now split.
      + intros [<-|[<-|[]]]; [eexists; split; [now left|]; now split|eexists; split; [right; now left|]; now split].
  Qed.
  Lemma low_pre i : low (pre i) = low prefix ++ low i.
  Proof. apply low_app. Qed.
  Lemma pre_inj i j : low (pre i) = low (pre j) -> low i = low j.
  Proof. rewrite !low_pre. apply app_inv_head. Qed.
  Lemma mixed i j : List.length i = 2 -> List.length j = 2 -> low (pre i) = low j -> low i = low j.
  Proof.
    intros L1 L2 H. pose proof (f_equal (@List.length string) H) as K. rewrite low_pre, app_length, !low_length in K.
    rewrite low_pre in H. destruct prefix; [exact H|]. cbn in K. lia.
  Qed.
  Lemma key_low t i j : In t ts -> In i (own_ids t) -> List.length j = 2 -> low (key_of t i) = low j -> low i = low j.
  Proof.
    intros I J L H. destruct (own_parts t i I J) as (p & n & -> & _). unfold key_of in H. destruct t; auto. now apply mixed.
  Qed.
  Lemma key_neq t t' i i' : In t ts -> In t' ts -> In i (own_ids t) -> In i' (own_ids t') ->
    low i <> low i' -> low (key_of t i) <> low (key_of t' i').
  Proof.
    intros I I' J J' N H. apply N. destruct (own_parts t i I J) as (p & n & -> & _). destruct (own_parts t' i' I' J') as (p' & n' & -> & _).
    destruct t, t'; cbn [key_of] in H; first [exact H | now apply pre_inj | now apply mixed | symmetry in H; symmetry; now apply mixed].
  Qed.
  Lemma key_length t i : In t ts -> In i (own_ids t) -> 2 <= List.length (key_of t i).
  Proof.
    intros I J. destruct (own_parts t i I J) as (p & n & -> & _). destruct t; cbn; try lia. unfold GenUnits.pre. rewrite app_length. cbn. lia.
  Qed.
  Lemma package_one t : In t ts -> counted t = true -> exists s, package_of t = [s] /\ plain s.
  Proof.
    intros I C. destruct t as [j|j x el| |m|p pdu sdu vs].
    - destruct (type_parts _ j I eq_refl) as (p & n & -> & P & N). exists p. auto.
    - destruct (type_parts _ j I eq_refl) as (p & n & -> & P & N). exists p. auto.
    - discriminate C.
    - destruct (type_parts _ (m_id m) I eq_refl) as (p & n & E & P & N). exists p. cbn. rewrite E. auto.
    - exact (g_refinements _ _ Sd _ _ _ _ I).
  Qed.
  Lemma packages_in a p : incl a ts -> In p (packages a) -> exists t, In t a /\ counted t = true /\ package_of t = p.
  Proof.
    intros _ H. apply dedup_in in H. apply in_map_iff in H as (t & E & I). apply filter_In in I as [I C]. now exists t.
  Qed.
  Lemma packages_rep a t : In t a -> counted t = true -> exists p, In p (packages a) /\ low (package_of t) = low p.
  Proof.
    intros I C. destruct (dedup_rep id_eq id_refl (map package_of (filter counted a)) [] (package_of t)) as [(y & [] & _)|(y & J & E)].
    - apply in_map. apply filter_In. auto.
    - exists y. split; [exact J|]. now apply id_low.
  Qed.
  Lemma refined_in a q : In q (refined a) -> exists r, In r (refs a) /\ r_package r = q.
  Proof. intros H. apply dedup_in in H. apply in_map_iff in H as (r & E & I). now exists r. Qed.
  Lemma refined_unique a q q' : In q (refined a) -> In q' (refined a) -> low q = low q' -> q = q'.
  Proof.
    intros I J L. apply in_split in I as (u & v & E). unfold refined in E. rewrite (E : refined a = _) in J.
    apply in_app_iff in J as [J|[J|J]]; [|exact J|].
    - apply in_split in J as (y & z & J). rewrite J in E. rewrite <- app_assoc in E. cbn [app] in E.
      apply (dedup_pairwise id_eq id_refl id_sym) in E. apply id_low_false in E. congruence.
    - apply in_split in J as (y & z & J). rewrite J in E. apply (dedup_pairwise id_eq id_refl id_sym) in E. apply id_low_false in E. congruence.
  Qed.
  Lemma refs_incl a : incl a ts -> incl (refs a) (refs ts).
  Proof. intros H r I. apply refs_in. apply H. now apply refs_in. Qed.
  Lemma contains_in a e : In e (contains_units a) <-> exists q, In q (refined a) /\ (e = gcontains_unit q (refs_of a q) \/ e = contains_unit q (refs_of a q)).
  Proof. unfold contains_units. rewrite in_flat_map. split; intros (q & I & H); exists q; (split; [exact I|]); cbn in *; intuition. Qed.
  Lemma contains_low a q : incl a ts -> In q (refined a) -> exists s, q = [s] /\
    low (generic_name (q ++ [REFINEMENT_PACKAGE])) = [lower s; "generic_contains"] /\ low (q ++ [REFINEMENT_PACKAGE]) = [lower s; "contains"].
  Proof.
    intros H I. apply refined_in in I as (r & I & E). destruct (ref_part r (refs_incl a H r I)) as (s & Q & _). exists s. subst q. rewrite Q.
    split; [reflexivity|]. split; [|reflexivity]. cbn [app]. now rewrite low_generic.
  Qed.

  Definition inv (a : list gtype) (d : units) : Prop := NoDup (keys d) /\ forall e, In e d <-> In e (all_units a).
  Definition rest_units (a : list gtype) : units := flat_map own a ++ contains_units a.

  Lemma rest_length a e : incl a ts -> In e (rest_units a) -> 2 <= List.length (fst e).
  Proof.
    intros H I. apply in_app_iff in I as [I|I].
    - apply in_flat_map in I as (t & It & I). destruct (own_entry t e I) as (i & J & -> & _). apply key_length; auto.
    - apply contains_in in I as (q & I & [-> | ->]); destruct (contains_low a q H I) as (s & -> & _); cbn; lia.
  Qed.

  (** the unit of the package *)
  Lemma package_step a t b d : ts = a ++ t :: b -> inv a d -> counted t = true ->
    let d1 := match lookup (package_of t) d with Some _ => d | None => create_unit prefix (package_of t) [] None d end in
    exists p, lookup (package_of t) d1 = Some (Package (pre p) [] None)
       /\ NoDup (keys d1) /\ (forall e, In e d1 <-> In e (map package_unit (packages (a ++ [t])) ++ rest_units a)).
  Proof.
    intros E [N H] C d1. assert (It : In t ts) by (rewrite E; apply in_app_iff; right; now left).
    assert (Ia : incl a ts) by (rewrite E; intros z Z; apply in_app_iff; now left).
    assert (P : packages (a ++ [t]) = packages a ++ if existsb (id_eq (package_of t)) (map package_of (filter counted a)) then [] else [package_of t]).
    { unfold packages. rewrite filter_app, map_app. cbn [filter]. rewrite C. cbn [map]. apply dedup_snoc. apply id_trans. }
    destruct (package_one t It C) as (s & Q & _).
    destruct (existsb (id_eq (package_of t)) (map package_of (filter counted a))) eqn:X.
    - apply existsb_exists in X as (p & I & L). apply in_map_iff in I as (t' & T & I). apply filter_In in I as [I C'].
      destruct (packages_rep a t' I C') as (p' & I' & L'). apply id_low in L.
      assert (J : In (package_unit p') d) by (apply H; apply in_app_iff; left; now apply in_map).
      assert (K : lookup (package_of t) d = Some (Package (pre p') [] None)).
      { apply (lookup_in _ p'); auto. rewrite L, <- T. now symmetry. }
      exists p'. unfold d1. rewrite K, P, app_nil_r. repeat split; auto; apply H.
    - assert (K : lookup (package_of t) d = None).
      { apply lookup_none. intros I. apply in_map_iff in I as ([k u] & L & I). cbn [fst] in L. apply H in I. apply in_app_iff in I as [I|I].
        - apply in_map_iff in I as (p & Ep & I). injection Ep as -> _. apply (packages_in a _ Ia) in I as (t' & I & C' & T).
          assert (existsb (id_eq (package_of t)) (map package_of (filter counted a)) = true); [|congruence].
          apply existsb_exists. exists k. split; [|apply id_low; now symmetry]. rewrite <- T. apply in_map. apply filter_In. auto.
        - apply (rest_length a _ Ia) in I. cbn [fst] in I. apply (f_equal (@List.length string)) in L. rewrite !low_length, Q in L. cbn in L. lia. }
      unfold d1. rewrite K. unfold create_unit. exists (package_of t). split; [|split].
      + rewrite put_fresh by exact K. assert (G : forall l, lookup (package_of t) l = None -> lookup (package_of t) (l ++ [(package_of t, Package (pre (package_of t)) [] None)]) = Some (Package (pre (package_of t)) [] None)).
        { induction l as [|[k u] l IH]; cbn; [now rewrite id_refl|]. destruct (id_eq (package_of t) k); [discriminate|exact IH]. }
        now apply G.
      + now apply put_nodup.
      + intros e. rewrite in_put_fresh by exact K. rewrite H, P. unfold all_units. fold (rest_units a). rewrite map_app. cbn [map]. rewrite !in_app_iff. cbn [In].
        unfold package_unit at 3. intuition.
  Qed.

  Lemma refs_snoc a t : refs (a ++ [t]) = refs a ++ refs [t].
  Proof. unfold refs. now rewrite flat_map_app. Qed.
  Lemma snoc_plain a t : refs [t] = [] -> contains_units (a ++ [t]) = contains_units a.
  Proof.
    intros H. unfold contains_units, refined, refs_of. now rewrite refs_snoc, H, app_nil_r.
  Qed.
  Lemma all_snoc a t : refs [t] = [] -> forall e, In e (all_units (a ++ [t])) <->
    In e (map package_unit (packages (a ++ [t])) ++ rest_units a) \/ In e (own t).
  Proof.
    intros H e. unfold all_units, rest_units. rewrite flat_map_app, (snoc_plain a t H). cbn [flat_map]. rewrite app_nil_r, !in_app_iff. tauto.
  Qed.
  Lemma uncounted a t : In t ts -> counted t = false -> refs [t] = [] /\ own t = [] /\ packages (a ++ [t]) = packages a.
  Proof.
    intros I C. pose proof (g_own _ _ Sd t I) as O.
    assert (K : match t with GScalar _ | GOpaque => True | _ => False end).
    { destruct t; auto; apply counted_true in O; congruence. }
    split; [|split].
    - destruct t; try reflexivity; destruct K.
    - destruct t; try reflexivity; destruct K.
    - unfold packages. rewrite filter_app. cbn [filter]. now rewrite C, app_nil_r.
  Qed.
  (** a new unit of a message or an array *)
  Lemma fresh_own a t b d i : ts = a ++ t :: b -> In i (own_ids t) ->
    (forall e, In e d -> In e (map package_unit (packages (a ++ [t])) ++ rest_units a)) -> lookup (key_of t i) d = None.
  Proof.
    intros E J H. assert (It : In t ts) by (rewrite E; apply in_app_iff; right; now left).
    assert (Ia : incl a ts) by (rewrite E; intros z Z; apply in_app_iff; now left).
    apply lookup_none. intros I. apply in_map_iff in I as (e & L & I). apply H in I. apply in_app_iff in I as [I|I].
    - apply in_map_iff in I as (p & <- & I). assert (At : incl (a ++ [t]) ts).
      { rewrite E. intros z Z. apply in_app_iff in Z. apply in_app_iff. destruct Z as [Z|[<-|[]]]; [now left|right; now left]. }
      apply (packages_in _ _ At) in I as (t' & I & C & T). destruct (package_one t' (At _ I) C) as (s & Q & _).
      apply (f_equal (@List.length string)) in L. rewrite !low_length in L. cbn [package_unit fst] in L. rewrite <- T, Q in L. cbn in L.
      pose proof (key_length t i It J). lia.
    - apply in_app_iff in I as [I|I].
      + apply in_flat_map in I as (t' & I' & I). destruct (own_entry t' e I) as (i' & J' & F & _). rewrite F in L.
        apply (key_neq t t' i i' It (Ia _ I') J J'); [|now symmetry]. exact (own_distinct a t b t' i i' E I' J J').
      + apply contains_in in I as (q & I & K). destruct (contains_low a q Ia I) as (s & Q & G & F). apply refined_in in I as (r & I & R).
        destruct (own_contains t i r It J (refs_incl a Ia r I)) as [N1 N2]. rewrite R in N1, N2. destruct K as [-> | ->]; cbn [gcontains_unit contains_unit fst] in L.
        * apply N2. apply (key_low t); auto. rewrite Q. reflexivity.
        * apply N1. apply (key_low t); auto. rewrite Q. reflexivity.
  Qed.

  Lemma refs_of_snoc a p pdu sdu vs q : refs_of (a ++ [GRefinement p pdu sdu vs]) q = refs_of a q ++ if id_eq p q then [mkRef p pdu sdu vs] else [].
  Proof. unfold refs_of. rewrite refs_snoc, filter_app. reflexivity. Qed.
  Lemma refined_snoc a p pdu sdu vs : refined (a ++ [GRefinement p pdu sdu vs]) = refined a ++ if existsb (id_eq p) (map r_package (refs a)) then [] else [p].
  Proof. unfold refined. rewrite refs_snoc, map_app. cbn [refs flat_map map app r_package]. apply dedup_snoc. apply id_trans. Qed.

  Lemma contains_ids_snoc rs r : [pre TYPES] ++ contains_ids (rs ++ [r]) =
    add_new ([pre TYPES] ++ contains_ids rs) (map (fun m => pre (m_id m)) (parameters (r_pdu r) (r_sdu r))).
  Proof.
    rewrite add_new_dedup. unfold contains_ids. rewrite flat_map_app, map_app. cbn [flat_map]. rewrite app_nil_r.
    rewrite dedup_app. now rewrite app_assoc.
  Qed.
  Lemma gcontains_snoc q rs r : gcontains_unit q (rs ++ [r]) =
    match gcontains_unit q rs with
    | (k, Package i w (Some f)) => (k, Package i (w ++ refinement_withs prefix (r_package r) (r_pdu r) (r_sdu r) (r_variables r))
                                          (Some (f ++ map (message_formal prefix) (parameters (r_pdu r) (r_sdu r)))))
    | x => x
    end.
  Proof.
    unfold gcontains_unit. rewrite !flat_map_app, map_app. cbn [flat_map]. rewrite !app_nil_r. now rewrite !app_assoc.
  Qed.
  Lemma contains_snoc q rs r : contains_unit q (rs ++ [r]) =
    match contains_unit q rs with
    | (k, Instance i w g l) => (k, Instance i (w ++ skipn (List.length l) (add_new l (map (fun m => pre (m_id m)) (parameters (r_pdu r) (r_sdu r)))))
                                     g (add_new l (map (fun m => pre (m_id m)) (parameters (r_pdu r) (r_sdu r)))))
    | x => x
    end.
  Proof.
    unfold contains_unit. rewrite <- contains_ids_snoc. f_equal. f_equal. rewrite <- !app_assoc. cbn [app List.length skipn]. f_equal. f_equal.
    assert (X : exists l, contains_ids (rs ++ [r]) = contains_ids rs ++ l).
    { unfold contains_ids. rewrite flat_map_app, map_app. rewrite dedup_app. eexists. reflexivity. }
    destruct X as (l & X). rewrite X. f_equal. rewrite skipn_app, skipn_all. cbn. now rewrite Nat.sub_diag.
  Qed.

  Lemma put_lookup k u d : NoDup (keys d) -> lookup k (put k u d) = Some u.
  Proof.
    intros _. induction d as [|[q v] d IH]; cbn; [now rewrite id_refl|]. destruct (id_eq k q) eqn:E; cbn; rewrite E; [reflexivity|exact IH].
  Qed.
  (** the units of the refinements of a package: [k] is the name of one of the two units *)
  Lemma contains_step a t b p pdu sdu vs d k (f : ident -> list refinement -> ident * unit) (M : ident * unit -> Prop) new :
    ts = a ++ t :: b -> t = GRefinement p pdu sdu vs -> NoDup (keys d) ->
    (forall q rs, fst (f q rs) = k q) ->
    (forall q q', low q = low q' -> List.length q = 1 -> low (k q) = low (k q')) ->
    (forall q q', List.length q = 1 -> List.length q' = 1 -> low (k q) = low (k q') -> low q = low q') ->
    (forall e, In e d <-> M e \/ exists q, In q (refined a) /\ e = f q (refs_of a q)) ->
    (forall e, M e -> low (fst e) <> low (k p)) ->
    (forall q, In q (refined a) -> low q = low p -> new = snd (f q (refs_of a q ++ [mkRef p pdu sdu vs]))) ->
    ((forall q, In q (refined a) -> low q <> low p) -> new = snd (f p [mkRef p pdu sdu vs])) ->
    NoDup (keys (put (k p) new d)) /\
    (forall e, In e (put (k p) new d) <-> M e \/ exists q, In q (refined (a ++ [t])) /\ e = f q (refs_of (a ++ [t]) q)).
  Proof.
    intros E T N Fk K1 K2 H HM N1 N2. split; [now apply put_nodup|]. assert (It : In t ts) by (rewrite E; apply in_app_iff; right; now left).
    assert (Ia : incl a ts) by (rewrite E; intros z Z; apply in_app_iff; now left).
    assert (Lp : List.length p = 1).
    { rewrite T in It. destruct (g_refinements _ _ Sd _ _ _ _ It) as (s & -> & _). reflexivity. }
    assert (Lq : forall q, In q (refined a) -> List.length q = 1).
    { intros q I. apply refined_in in I as (r & I & <-). destruct (ref_part r (refs_incl a Ia r I)) as (s & -> & _). reflexivity. }
    rewrite T. rewrite refined_snoc. destruct (existsb (id_eq p) (map r_package (refs a))) eqn:X.
    - rewrite app_nil_r.
      assert (Q : exists q, In q (refined a) /\ low q = low p).
      { apply existsb_exists in X as (p' & I & L). destruct (dedup_rep id_eq id_refl (map r_package (refs a)) [] p' I) as [(y & [] & _)|(y & J & Y)].
        exists y. split; [exact J|]. apply id_low in L, Y. congruence. }
      destruct Q as (q & Iq & Lowq).
      assert (Old : In (f q (refs_of a q)) d) by (apply H; right; now exists q).
      assert (Kq : low (k q) = low (k p)) by (apply K1; auto).
      destruct (f q (refs_of a q)) as [k' old] eqn:Fq. assert (Ek : k' = k q) by (rewrite <- (Fk q (refs_of a q)), Fq; reflexivity). subst k'.
      intros e. rewrite (in_put_old (k p) (k q) new d e old N Old Kq). rewrite H. split.
      + intros [[[I|(q' & I & ->)] L]| ->].
        * now left.
        * right. exists q'. split; [exact I|]. rewrite refs_of_snoc. rewrite Fk in L.
          rewrite (proj2 (id_low_false p q')); [now rewrite app_nil_r|]. intros Z. apply L. apply K1; [now symmetry|auto].
        * right. exists q. split; [exact Iq|]. rewrite refs_of_snoc. rewrite (proj2 (id_low p q)) by now symmetry.
          rewrite (N1 q Iq Lowq). rewrite <- (Fk q (refs_of a q ++ [mkRef p pdu sdu vs])). symmetry. apply surjective_pairing.
      + intros [I|(q' & I & ->)].
        * left. split; [now left|now apply HM].
        * rewrite refs_of_snoc. destruct (id_eq p q') eqn:Z.
          -- right. apply id_low in Z. assert (q' = q) by (apply (refined_unique a); auto; congruence). subst q'.
             rewrite (N1 q Iq Lowq). rewrite <- (Fk q (refs_of a q ++ [mkRef p pdu sdu vs])). apply surjective_pairing.
          -- left. apply id_low_false in Z. rewrite app_nil_r. split; [right; now exists q'|]. rewrite Fk. intros Y. apply Z. symmetry. apply K2; auto.
    - assert (Q : forall q, In q (refined a) -> low q <> low p).
      { intros q I L. apply refined_in in I as (r & I & R). assert (existsb (id_eq p) (map r_package (refs a)) = true); [|congruence].
        apply existsb_exists. exists q. split; [rewrite <- R; now apply in_map|]. apply id_low. now symmetry. }
      assert (R0 : refs_of a p = []).
      { unfold refs_of. destruct (filter _ _) as [|r l] eqn:F; [reflexivity|]. exfalso.
        assert (I : In r (filter (fun r => id_eq (r_package r) p) (refs a))) by (rewrite F; now left). apply filter_In in I as [I L].
        assert (existsb (id_eq p) (map r_package (refs a)) = true); [|congruence]. apply existsb_exists. exists (r_package r).
        split; [now apply in_map|]. now rewrite id_sym. }
      assert (Fr : lookup (k p) d = None).
      { apply lookup_none. intros I. apply in_map_iff in I as (e & L & I). apply H in I as [I|(q & I & ->)]; [exact (HM e I L)|].
        rewrite Fk in L. apply (Q q I). apply K2; auto. }
      intros e. rewrite in_put_fresh by exact Fr. rewrite H.
      assert (Sp : f p [mkRef p pdu sdu vs] = (k p, new)).
      { rewrite (N2 Q). rewrite <- (Fk p [mkRef p pdu sdu vs]). apply surjective_pairing. }
      split.
      + intros [[I|(q & I & ->)]| ->].
        * now left.
        * right. exists q. split; [apply in_app_iff; now left|]. rewrite refs_of_snoc. rewrite (proj2 (id_low_false p q)); [now rewrite app_nil_r|].
          intros Z. apply (Q q I). now symmetry.
        * right. exists p. split; [apply in_app_iff; right; now left|]. rewrite refs_of_snoc, R0, id_refl. cbn [app]. now symmetry.
      + intros [I|(q & I & ->)]; [left; now left|]. rewrite refs_of_snoc. apply in_app_iff in I as [I|[<-|[]]].
        * left. right. exists q. split; [exact I|]. rewrite (proj2 (id_low_false p q)); [now rewrite app_nil_r|]. intros Z. apply (Q q I). now symmetry.
        * right. rewrite R0, id_refl. exact Sp.
  Qed.

  Lemma put_put k u v d : put k u (put k v d) = put k u d.
  Proof. induction d as [|[q w] d IH]; cbn; [now rewrite id_refl|]. destruct (id_eq k q) eqn:E; cbn; rewrite E; [reflexivity|now rewrite IH]. Qed.
  Lemma generic_step a p pdu sdu vs b d (M : ident * unit -> Prop) : ts = a ++ GRefinement p pdu sdu vs :: b -> NoDup (keys d) ->
    (forall e, In e d <-> M e \/ exists q, In q (refined a) /\ e = gcontains_unit q (refs_of a q)) ->
    (forall e, M e -> low (fst e) <> low (generic_name (p ++ [REFINEMENT_PACKAGE]))) ->
    exists d', create_generic_refinement_unit prefix p pdu sdu vs d = Ok d' /\ NoDup (keys d') /\
    (forall e, In e d' <-> M e \/ exists q, In q (refined (a ++ [GRefinement p pdu sdu vs])) /\ e = gcontains_unit q (refs_of (a ++ [GRefinement p pdu sdu vs]) q)).
  Proof.
    intros E N H HM. set (t := GRefinement p pdu sdu vs) in *.
    assert (It : In t ts) by (rewrite E; apply in_app_iff; right; now left).
    assert (Ia : incl a ts) by (rewrite E; intros z Z; apply in_app_iff; now left).
    assert (Lp : exists s, p = [s]) by (destruct (g_refinements _ _ Sd _ _ _ _ It) as (s & -> & _); eauto).
    assert (Lq : forall q, In q (refined a) -> exists s, q = [s]).
    { intros q I. destruct (contains_low a q Ia I) as (s & -> & _). eauto. }
    assert (K1 : forall q q', low q = low q' -> List.length q = 1 -> low (generic_name (q ++ [REFINEMENT_PACKAGE])) = low (generic_name (q' ++ [REFINEMENT_PACKAGE]))).
    { intros q q' L L1. pose proof (f_equal (@List.length string) L) as L2. rewrite !low_length in L2. destruct q as [|x [|]], q' as [|y [|]]; try discriminate.
      cbn [app]. rewrite !low_generic. cbn in L. injection L as ->. reflexivity. }
    assert (K2 : forall q q', List.length q = 1 -> List.length q' = 1 -> low (generic_name (q ++ [REFINEMENT_PACKAGE])) = low (generic_name (q' ++ [REFINEMENT_PACKAGE])) -> low q = low q').
    { intros q q' L1 L2 L. destruct q as [|x [|]], q' as [|y [|]]; try discriminate. cbn [app] in L. rewrite !low_generic in L. injection L as L. cbn. now rewrite L. }
    set (uk := generic_name (p ++ [REFINEMENT_PACKAGE])) in *.
    assert (X : exists new, create_generic_refinement_unit prefix p pdu sdu vs d = Ok (put uk new d) /\
      (forall q, In q (refined a) -> low q = low p -> new = snd (gcontains_unit q (refs_of a q ++ [mkRef p pdu sdu vs]))) /\
      ((forall q, In q (refined a) -> low q <> low p) -> new = snd (gcontains_unit p [mkRef p pdu sdu vs]))).
    { unfold create_generic_refinement_unit. fold uk. destruct (lookup uk d) as [u|] eqn:Lk.
      - destruct (lookup_some uk d u Lk) as (k' & I & L). pose proof (proj1 (H _) I) as [I'|(q & Iq & Q)]; [exfalso; exact (HM _ I' L)|].
        rewrite Lk. injection Q as Qk ->. assert (Lowq : low q = low p).
        { destruct (Lq q Iq) as (s1 & ->). destruct Lp as (s2 & ->). apply K2; auto. now rewrite <- Qk. }
        eexists. split; [reflexivity|]. split.
        + intros q' Iq' L'. assert (q' = q) by (apply (refined_unique a); auto; congruence). subst q'. rewrite gcontains_snoc. reflexivity.
        + intros K. exfalso. exact (K q Iq Lowq).
      - unfold create_unit. rewrite put_lookup by exact N. rewrite put_put. eexists. split; [reflexivity|]. split.
        + intros q Iq L. exfalso. apply lookup_none in Lk. apply Lk. assert (J : In (gcontains_unit q (refs_of a q)) d) by (apply H; right; now exists q).
          apply (in_map (fun e => low (fst e))) in J. replace (low uk) with (low (fst (gcontains_unit q (refs_of a q)))); [exact J|].
          destruct (Lq q Iq) as (s1 & ->). apply K1; auto.
        + intros _. unfold gcontains_unit. cbn [flat_map snd r_package r_pdu r_sdu r_variables]. rewrite !app_nil_r. reflexivity. }
    destruct X as (new & R & N1 & N2). exists (put uk new d). split; [exact R|].
    exact (contains_step a t b p pdu sdu vs d (fun q => generic_name (q ++ [REFINEMENT_PACKAGE])) gcontains_unit M new E eq_refl N
             (fun q rs => eq_refl) K1 K2 H HM N1 N2).
  Qed.
  Lemma instance_step a p pdu sdu vs b d (M : ident * unit -> Prop) : ts = a ++ GRefinement p pdu sdu vs :: b -> NoDup (keys d) ->
    (forall e, In e d <-> M e \/ exists q, In q (refined a) /\ e = contains_unit q (refs_of a q)) ->
    (forall e, M e -> low (fst e) <> low (p ++ [REFINEMENT_PACKAGE])) ->
    exists d', create_refinement_unit prefix p pdu sdu d = Ok d' /\ NoDup (keys d') /\
    (forall e, In e d' <-> M e \/ exists q, In q (refined (a ++ [GRefinement p pdu sdu vs])) /\ e = contains_unit q (refs_of (a ++ [GRefinement p pdu sdu vs]) q)).
  Proof.
    intros E N H HM. set (t := GRefinement p pdu sdu vs) in *.
    assert (K1 : forall q q' : ident, low q = low q' -> List.length q = 1 -> low (q ++ [REFINEMENT_PACKAGE]) = low (q' ++ [REFINEMENT_PACKAGE])).
    { intros q q' L _. now rewrite !low_app, L. }
    assert (K2 : forall q q' : ident, List.length q = 1 -> List.length q' = 1 -> low (q ++ [REFINEMENT_PACKAGE]) = low (q' ++ [REFINEMENT_PACKAGE]) -> low q = low q').
    { intros q q' _ _ L. rewrite !low_app in L. now apply app_inv_tail in L. }
    set (uk := p ++ [REFINEMENT_PACKAGE]) in *.
    assert (X : exists new, create_refinement_unit prefix p pdu sdu d = Ok (put uk new d) /\
      (forall q, In q (refined a) -> low q = low p -> new = snd (contains_unit q (refs_of a q ++ [mkRef p pdu sdu vs]))) /\
      ((forall q, In q (refined a) -> low q <> low p) -> new = snd (contains_unit p [mkRef p pdu sdu vs]))).
    { unfold create_refinement_unit. fold uk. destruct (lookup uk d) as [u|] eqn:Lk.
      - destruct (lookup_some uk d u Lk) as (k' & I & L). pose proof (proj1 (H _) I) as [I'|(q & Iq & Q)]; [exfalso; exact (HM _ I' L)|].
        rewrite Lk. injection Q as Qk ->. assert (Lowq : low q = low p).
        { rewrite Qk in L. unfold uk in L. rewrite !low_app in L. now apply app_inv_tail in L. }
        eexists. split; [reflexivity|]. split.
        + intros q' Iq' L'. assert (q' = q) by (apply (refined_unique a); auto; congruence). subst q'. rewrite contains_snoc. reflexivity.
        + intros K. exfalso. exact (K q Iq Lowq).
      - rewrite put_lookup by exact N. rewrite put_put. eexists. split; [reflexivity|]. split.
        + intros q Iq L. exfalso. apply lookup_none in Lk. apply Lk. assert (J : In (contains_unit q (refs_of a q)) d) by (apply H; right; now exists q).
          apply (in_map (fun e => low (fst e))) in J. replace (low uk) with (low (fst (contains_unit q (refs_of a q)))); [exact J|].
          unfold uk. cbn [contains_unit fst]. now rewrite !low_app, L.
        + intros _. change [mkRef p pdu sdu vs] with ([] ++ [mkRef p pdu sdu vs]). rewrite contains_snoc. reflexivity. }
    destruct X as (new & R & N1 & N2). exists (put uk new d). split; [exact R|].
    exact (contains_step a t b p pdu sdu vs d (fun q => q ++ [REFINEMENT_PACKAGE]) contains_unit M new E eq_refl N
             (fun q rs => eq_refl) K1 K2 H HM N1 N2).
  Qed.

  Theorem step a t b d : ts = a ++ t :: b -> inv a d -> exists d', generate_type prefix t d = Ok d' /\ inv (a ++ [t]) d'.
  Proof.
    intros E Hinv. assert (It : In t ts) by (rewrite E; apply in_app_iff; right; now left).
    assert (Ia : incl a ts) by (rewrite E; intros z Z; apply in_app_iff; now left).
    unfold generate_type.
    destruct (counted t) eqn:C; unfold counted in C; [apply negb_true_iff in C|apply negb_false_iff in C]; rewrite C.
    2: { exists d. split; [reflexivity|]. destruct (uncounted a t It) as (U1 & U2 & U3); [unfold counted; now rewrite C|].
         destruct Hinv as [N H]. split; [exact N|]. intros e. rewrite H, (all_snoc a t U1), U2, U3. unfold all_units. fold (rest_units a). cbn. tauto. }
    destruct (package_step a t b d E Hinv) as (pk & Lk & N & H); [unfold counted; now rewrite C|].
    set (d1 := match lookup (package_of t) d with Some _ => d | None => create_unit prefix (package_of t) [] None d end) in *.
    destruct t as [j|j x el| |m|p pdu sdu vs].
    - rewrite Lk. exists d1. split; [reflexivity|]. split; [exact N|]. intros e. rewrite all_snoc by reflexivity. rewrite H. cbn. tauto.
    - eexists. split; [reflexivity|]. split; [now apply put_nodup|]. intros e. rewrite all_snoc by reflexivity.
      rewrite in_put_fresh; [|exact (fresh_own a _ b d1 j E ltac:(now left) ltac:(intros z; apply H))]. rewrite H. cbn. intuition.
    - discriminate C.
    - unfold create_message. destruct m as [j [ba|] [|f fs]]; cbn [m_base m_types].
      + eexists. split; [reflexivity|]. split; [now apply put_nodup|]. intros e. rewrite all_snoc by reflexivity.
        unfold create_message_unit. rewrite in_put_fresh; [|exact (fresh_own a _ b d1 j E ltac:(now left) ltac:(intros z; apply H))]. rewrite H. cbn [own m_base m_types In]. intuition.
      + eexists. split; [reflexivity|]. split; [now apply put_nodup|]. intros e. rewrite all_snoc by reflexivity.
        unfold create_message_unit. rewrite in_put_fresh; [|exact (fresh_own a _ b d1 j E ltac:(now left) ltac:(intros z; apply H))]. rewrite H. cbn [own m_base m_types In]. intuition.
      + exists d1. split; [reflexivity|]. split; [exact N|]. intros e. rewrite all_snoc by reflexivity. rewrite H. cbn. tauto.
      + set (m := mkMsg j None (f :: fs)) in *. eexists. split; [reflexivity|]. unfold create_generic_message_unit, create_message_unit, create_unit.
        split; [now apply put_nodup, put_nodup|]. intros e. rewrite all_snoc by reflexivity.
        assert (F1 : lookup (generic_name (m_id m)) d1 = None) by exact (fresh_own a _ b d1 (generic_name (m_id m)) E ltac:(now left) ltac:(intros z; apply H)).
        assert (F2 : lookup (m_id m) d1 = None) by exact (fresh_own a _ b d1 (m_id m) E ltac:(right; now left) ltac:(intros z; apply H)).
        rewrite in_put_fresh.
        * rewrite in_put_fresh by exact F1. rewrite H. cbn [own m_base m_types In m]. unfold generic_unit, message_unit. intuition.
        * apply lookup_none. rewrite put_fresh by exact F1. unfold keys. rewrite map_app, in_app_iff. intros [I|[I|[]]].
          -- apply lookup_none in F2. exact (F2 I).
          -- cbn [fst] in I. refine (own_two m It _ I). split; [reflexivity|discriminate].
    - assert (Rest : forall e, In e (map package_unit (packages (a ++ [GRefinement p pdu sdu vs])) ++ flat_map own a) ->
        low (fst e) <> low (p ++ [REFINEMENT_PACKAGE]) /\ low (fst e) <> low (generic_name (p ++ [REFINEMENT_PACKAGE]))).
      { assert (Ip : exists s, p = [s]) by (destruct (g_refinements _ _ Sd _ _ _ _ It) as (s & -> & _); eauto).
        intros e I. apply in_app_iff in I as [I|I].
        - apply in_map_iff in I as (q & <- & I). apply dedup_in in I. apply in_map_iff in I as (t' & <- & I). apply filter_In in I as [I C'].
          assert (I' : In t' ts). { rewrite E. apply in_app_iff in I as [I|[<-|[]]]; apply in_app_iff; [now left|right; now left]. }
          destruct (package_one t' I' C') as (s & Q & _). cbn [package_unit fst]. rewrite Q. destruct Ip as (s' & ->). split; intros Z; discriminate (f_equal (@List.length string) Z).
        - apply in_flat_map in I as (t' & I' & I). destruct (own_entry t' e I) as (i & J & -> & _).
          assert (Ir : In (mkRef p pdu sdu vs) (refs ts)) by (apply refs_in; exact It).
          destruct (own_contains t' i _ (Ia _ I') J Ir) as [N1 N2]. cbn [r_package] in N1, N2. destruct Ip as (s' & ->).
          split; intros Z; [apply N1|apply N2]; apply (key_low t'); auto. }
      assert (Two : forall q : ident, (exists s, q = [s]) -> low (generic_name (q ++ [REFINEMENT_PACKAGE])) <> low (p ++ [REFINEMENT_PACKAGE]) /\ low (q ++ [REFINEMENT_PACKAGE]) <> low (generic_name (p ++ [REFINEMENT_PACKAGE]))).
      { intros q (s & ->). assert (Ip : exists s, p = [s]) by (destruct (g_refinements _ _ Sd _ _ _ _ It) as (s' & -> & _); eauto). destruct Ip as (s' & ->).
        cbn [app]. rewrite !low_generic. split; intros Z; discriminate Z. }
      assert (At : incl (a ++ [GRefinement p pdu sdu vs]) ts).
      { rewrite E. intros z Z. apply in_app_iff in Z. apply in_app_iff. destruct Z as [Z|[<-|[]]]; [now left|right; now left]. }
      destruct (generic_step a p pdu sdu vs b d1 (fun e => In e (map package_unit (packages (a ++ [GRefinement p pdu sdu vs])) ++ flat_map own a)
          \/ exists q, In q (refined a) /\ e = contains_unit q (refs_of a q)) E N) as (d2 & R2 & N2 & H2).
      { intros e. rewrite H. unfold rest_units. rewrite !in_app_iff, contains_in. split.
        - intros [K|[K|(q & I & [K|K])]]; eauto 6. 
        - intros [[[K|K]|(q & I & K)]|(q & I & K)]; eauto 6. }
      { intros e [I|(q & I & ->)]; [now apply Rest|]. destruct (contains_low a q Ia I) as (s & Q & _). apply (Two q). eauto. }
      rewrite R2. cbn [bind].
      destruct (instance_step a p pdu sdu vs b d2 (fun e => In e (map package_unit (packages (a ++ [GRefinement p pdu sdu vs])) ++ flat_map own a)
          \/ exists q, In q (refined (a ++ [GRefinement p pdu sdu vs])) /\ e = gcontains_unit q (refs_of (a ++ [GRefinement p pdu sdu vs]) q)) E N2) as (d3 & R3 & N3 & H3).
      { intros e. rewrite H2. tauto. }
      { intros e [I|(q & I & ->)]; [now apply Rest|]. destruct (contains_low _ q At I) as (s & Q & _). apply (Two q). eauto. }
      exists d3. split; [exact R3|]. split; [exact N3|]. intros e. rewrite H3. unfold all_units. rewrite flat_map_app. cbn [flat_map own]. rewrite !app_nil_r.
      rewrite !in_app_iff, contains_in. split.
      + intros [[[K|K]|(q & I & K)]|(q & I & K)]; eauto 6.
      + intros [K|[K|(q & I & [K|K])]]; eauto 6.
  Qed.
  Theorem generate_inv a : forall b d, ts = a ++ b -> inv a d -> exists d', generate prefix b d = Ok d' /\ inv ts d'.
  Proof.
    intros b. revert a. induction b as [|t b IH]; intros a d E H.
    - rewrite app_nil_r in E. subst a. exists d. now split.
    - destruct (step a t b d E H) as (d1 & R & H1). cbn [generate]. rewrite R. cbn [bind]. apply (IH (a ++ [t])); [now rewrite <- app_assoc|exact H1].
  Qed.

  (** *** the units of a program *)
  Notation top := (top prefix).
  Definition lib_names : list ident := [ARITHMETIC; BUILTIN_TYPES_CONVERSIONS; BUILTIN_TYPES; GENERIC_TYPES; MESSAGE_SEQUENCE; SCALAR_SEQUENCE; TYPES].
  Lemma library_ids : map unit_id (library prefix) = map pre lib_names.
  Proof. reflexivity. Qed.

  (** the identifiers of generated units without the prefix *)
  Lemma entry_cases e : In e (all_units ts) ->
    (exists p s, e = package_unit p /\ p = [s] /\ plain s /\ exists t, In t ts /\ counted t = true /\ package_of t = p)
    \/ (exists t i, In t ts /\ In e (own t) /\ In i (own_ids t) /\ fst e = key_of t i /\ unit_id (snd e) = pre i)
    \/ (exists q s, In q (refined ts) /\ q = [s] /\ plain s /\
        (e = gcontains_unit q (refs_of ts q) \/ e = contains_unit q (refs_of ts q))).
  Proof.
    unfold all_units. rewrite !in_app_iff. intros [I|[I|I]].
    - left. apply in_map_iff in I as (p & <- & I). destruct (packages_in ts p (fun x Hx => Hx) I) as (t & It & C & <-).
      destruct (package_one t It C) as (s & Q & P). exists (package_of t), s. eauto 8.
    - right; left. apply in_flat_map in I as (t & It & I). destruct (own_entry t e I) as (i & J & K & U). exists t, i. auto.
    - right; right. apply contains_in in I as (q & I & H). destruct (refined_in ts q I) as (r & Ir & Q). destruct (ref_part r Ir) as (s & Qs & P).
      exists q, s. repeat split; auto. congruence.
  Qed.
  (** what is known of the identifier *)
  Lemma entry_id e : In e (all_units ts) -> exists j, unit_id (snd e) = pre j /\ (forall s, In s j -> plain s) /\
    ((exists s, j = [s] /\ ~ In (lower s) library_packages) \/ exists s n, j = [s; n] /\ ~ In (lower s) library_packages /\
       exists t, In t ts /\ counted t = true /\ package_of t = [s]).
  Proof.
    intros I. destruct (entry_cases e I) as [(p & s & -> & -> & P & t & It & C & Q)|[(t & i & It & _ & J & _ & U)|(q & s & Iq & -> & P & H)]].
    - exists [s]. split; [reflexivity|]. split; [intros x [<-|[]]; exact P|]. left. exists s. split; [reflexivity|]. apply (g_library _ _ Sd t); [exact It|]. now rewrite Q.
    - exists i. split; [exact U|]. destruct (own_parts t i It J) as (p & n & -> & P & N & Q). split; [intros x [<-|[<-|[]]]; assumption|].
      right. exists p, n. split; [reflexivity|]. split; [apply (g_library _ _ Sd t); [exact It|now rewrite Q]|]. exists t. split; [exact It|]. split; [|exact Q].
      pose proof (g_own _ _ Sd t It) as O. destruct t; try contradiction; now apply counted_true.
    - assert (Z : ~ In (lower s) library_packages /\ exists t, In t ts /\ counted t = true /\ package_of t = [s]).
      { destruct (refined_in ts _ Iq) as (r & Ir & Q). pose proof (proj1 (refs_in _ _) Ir) as Irr. split; [apply (g_library _ _ Sd _ _ Irr); cbn; now rewrite Q|].
        eexists. split; [exact Irr|]. split; [|exact Q]. apply counted_true. exact (g_own _ _ Sd _ Irr). }
      destruct Z as [Z1 Z2]. destruct H as [-> | ->]; eexists; (split; [reflexivity|]);
        (split; [intros x [<-|[<-|[]]]; [exact P|reflexivity]|right; eexists s, _; repeat split; auto]).
  Qed.
  Lemma entry_key e e' : In e (all_units ts) -> In e' (all_units ts) -> uid (snd e) = uid (snd e') -> low (fst e) = low (fst e').
  Proof.
    assert (Own : forall t i q, In t ts -> In i (own_ids t) -> In q (refined ts) -> low i <> low (q ++ [REFINEMENT_PACKAGE]) /\ low i <> low (generic_name (q ++ [REFINEMENT_PACKAGE]))).
    { intros t i q It J Iq. destruct (refined_in ts q Iq) as (r & Ir & <-). now apply (own_contains t). }
    intros I I'.
    destruct (entry_cases e I) as [(p & s & -> & -> & _)|[(t & i & It & _ & J & K & U)|(q & s & Iq & -> & _ & H)]];
    destruct (entry_cases e' I') as [(p' & s' & -> & -> & _)|[(t' & i' & It' & _ & J' & K' & U')|(q' & s' & Iq' & -> & _ & H')]]; unfold uid.
    - apply pre_inj.
    - rewrite U'. intros L. apply pre_inj in L. destruct (own_parts t' i' It' J') as (x & y & -> & _). discriminate (f_equal (@List.length string) L).
    - destruct H' as [-> | ->]; intros L; apply pre_inj in L; discriminate (f_equal (@List.length string) L).
    - rewrite U. intros L. apply pre_inj in L. destruct (own_parts t i It J) as (x & y & -> & _). discriminate (f_equal (@List.length string) L).
    - rewrite U, U'. intros L. apply pre_inj in L. rewrite K, K'.
      assert (T : t = t').
      { apply in_split in It as (a & b & E). rewrite E in It'. apply in_app_iff in It' as [It'|[It'|It']]; [|exact It'|].
        - exfalso. exact (own_distinct a t b t' i i' E It' J J' L).
        - exfalso. apply in_split in It' as (u & v & It'). rewrite It' in E. rewrite app_comm_cons, app_assoc in E.
          refine (own_distinct (a ++ t :: u) t' v t i' i E _ J' J (eq_sym L)). apply in_app_iff. right. now left. }
      subst t'. destruct t; cbn [key_of]; auto. now rewrite !low_pre, L.
    - rewrite U. destruct (Own t i _ It J Iq') as [N1 N2]. destruct H' as [-> | ->]; intros L; apply pre_inj in L; contradiction.
    - destruct H as [-> | ->]; intros L; apply pre_inj in L; discriminate (f_equal (@List.length string) L).
    - rewrite U'. destruct (Own t' i' _ It' J' Iq) as [N1 N2]. destruct H as [-> | ->]; intros L; apply pre_inj in L; symmetry in L; contradiction.
    - destruct H as [-> | ->], H' as [-> | ->]; intros L; apply pre_inj in L; exact L.
  Qed.

  Context (d : units) (Hd : generate prefix ts [] = Ok d).
  Lemma inv_nil : inv [] [].
  Proof. split; [constructor|]. intros e. reflexivity. Qed.
  Lemma units_of : inv ts d.
  Proof. destruct (generate_inv [] ts [] eq_refl inv_nil) as (d' & R & H). rewrite Hd in R. injection R as ->. exact H. Qed.
  Notation program := (program prefix d).

  Lemma NoDup_inj {A B} (f : A -> B) l : NoDup l -> (forall x y, In x l -> In y l -> f x = f y -> x = y) -> NoDup (map f l).
  Proof.
    induction 1 as [|x l N1 N2 IH]; intros H; cbn; constructor.
    - intros I. apply in_map_iff in I as (y & E & I). apply N1. replace x with y; [exact I|]. apply H; [now right|now left|exact E].
    - apply IH. intros u v I J. apply H; now right.
  Qed.
  Lemma NoDup_app_intro {A} (l l' : list A) : NoDup l -> NoDup l' -> (forall x, In x l -> In x l' -> False) -> NoDup (l ++ l').
  Proof.
    induction 1 as [|x l N1 N2 IH]; intros H D; cbn; [exact H|]. constructor.
    - rewrite in_app_iff. intros [I|I]; [contradiction|]. apply (D x); [now left|exact I].
    - apply IH; [exact H|]. intros y I J. apply (D y); [now right|exact J].
  Qed.
  Lemma NoDup_keys_same {A} (k : A -> list string) l x y : NoDup (map k l) -> In x l -> In y l -> k x = k y -> x = y.
  Proof.
    induction l as [|z l IH]; cbn; [tauto|]. intros N I J E. apply NoDup_cons_iff in N as [N1 N2].
    destruct I as [->|I], J as [->|J]; auto; exfalso; apply N1; [rewrite E|rewrite <- E]; now apply in_map.
  Qed.
  Lemma program_ids : NoDup (map uid program).
  Proof.
    destruct units_of as [N H]. unfold P_GenUnits.program. rewrite !map_app, map_map. apply NoDup_app_intro.
    - apply NoDup_inj.
      + apply NoDup_map_inv in N. exact N.
      + intros x y I J E. apply (NoDup_keys_same (fun e => low (fst e)) d); auto. apply entry_key; auto; now apply H.
    - apply NoDup_app_intro.
      + change (map uid (library prefix)) with (map low (map unit_id (library prefix))). rewrite library_ids, map_map.
        apply (NoDup_inj (fun x => low (pre x))).
        * repeat constructor; cbn; intuition discriminate.
        * intros x y I J E. apply pre_inj in E. cbn in I, J. repeat (destruct I as [<-|I]); try contradiction; repeat (destruct J as [<-|J]); try contradiction; first [reflexivity|discriminate E].
      + unfold P_GenUnits.top. destruct prefix; repeat constructor. intros [].
      + intros x I J. change (map uid (library prefix)) with (map low (map unit_id (library prefix))) in I. rewrite library_ids, map_map in I.
        apply in_map_iff in I as (i & <- & I). assert (L : List.length (low (pre i)) = List.length prefix).
        { unfold P_GenUnits.top in J. destruct prefix as [|c l]; [destruct J|]. destruct J as [J|[]]. rewrite <- J. unfold uid. now rewrite low_length. }
        rewrite low_pre, app_length, !low_length in L. cbn in I. repeat (destruct I as [<-|I]); try contradiction; cbn in L; lia.
    - intros x I J. apply in_map_iff in I as (e & <- & I). apply H in I. destruct (entry_id e I) as (j & U & _ & C). assert (Ue : uid (snd e) = low (pre j)) by (unfold uid; now rewrite U). rewrite Ue in J.
      apply in_app_iff in J as [J|J].
      + change (map uid (library prefix)) with (map low (map unit_id (library prefix))) in J. rewrite library_ids, map_map in J.
        apply in_map_iff in J as (i & E & J). apply pre_inj in E. destruct C as [(s & -> & C)|(s & n & -> & C & _)];
        cbn in J; repeat (destruct J as [<-|J]); try contradiction; cbn in E; try discriminate E; injection E as E; apply C; rewrite <- E; cbn; tauto.
      + unfold P_GenUnits.top in J. assert (L : List.length (low (pre j)) = List.length prefix).
        { destruct prefix as [|c l]; [destruct J|]. destruct J as [J|[]]. rewrite <- J. unfold uid. now rewrite low_length. }
        rewrite low_pre, app_length, !low_length in L. destruct C as [(s & -> & C)|(s & n & -> & C & _)]; cbn in L; lia.
  Qed.
  Lemma program_same u v : In u program -> In v program -> uid u = uid v -> u = v.
  Proof. apply NoDup_keys_same, program_ids. Qed.
  Lemma in_program e : In e (all_units ts) -> In (snd e) program.
  Proof. intros I. apply in_app_iff. left. apply in_map. now apply units_of. Qed.

  (** *** the order of units *)
  Definition base : list unit :=
    top ++ [Package (pre ARITHMETIC) [] None;
     Package (pre BUILTIN_TYPES) [] None;
     Package (pre BUILTIN_TYPES_CONVERSIONS) [] None;
     Package (pre GENERIC_TYPES) [pre ARITHMETIC] (Some []);
     Package (pre MESSAGE_SEQUENCE) [pre GENERIC_TYPES] (Some [types_formal prefix]);
     Package (pre SCALAR_SEQUENCE) [pre GENERIC_TYPES] (Some [types_formal prefix]);
     Instance (pre TYPES) [pre GENERIC_TYPES; pre BUILTIN_TYPES] (pre GENERIC_TYPES)
       (map (fun s => BUILTIN_TYPES ++ [s]) ["Index"; "Byte"; "Bytes"; "Bytes_Ptr"; "Length"; "Bit_Length"])].
  Definition kind (u : unit) : nat := match u with Package _ _ _ => 0 | Instance _ _ _ _ => 1 end.
  Inductive ranked : unit -> nat -> Prop :=
  | R_base n u : nth_error base n = Some u -> ranked u n
  | R_package p : In p (packages ts) -> ranked (snd (package_unit p)) 8
  | R_own a t b e : ts = a ++ t :: b -> In e (own t) -> ranked (snd e) (9 + 2 * List.length a + kind (snd e))
  | R_generic q : In q (refined ts) -> ranked (snd (gcontains_unit q (refs_of ts q))) (9 + 2 * List.length ts)
  | R_contains q : In q (refined ts) -> ranked (snd (contains_unit q (refs_of ts q))) (10 + 2 * List.length ts).
  Definition avail (n : nat) (w : ident) : Prop := exists v k, ranked v k /\ k < n /\ uid v = low w.

  Lemma base_length : List.length base <= 8.
  Proof. unfold base, P_GenUnits.top. destruct prefix; cbn; lia. Qed.
  Lemma base_in u : In u base <-> In u (library prefix ++ top).
  Proof. unfold base, library. rewrite !in_app_iff. cbn. tauto. Qed.
  Lemma ranked_in u n : ranked u n -> In u program.
  Proof.
    destruct 1 as [n u H|p H|a t b e E H|q H|q H].
    - apply nth_error_In in H. apply in_app_iff. right. now apply base_in.
    - apply in_program. unfold all_units. apply in_app_iff. left. now apply in_map.
    - apply in_program. unfold all_units. apply in_app_iff. right. apply in_app_iff. left. apply in_flat_map. exists t. split; [|exact H].
      rewrite E. apply in_app_iff. right. now left.
    - apply in_program. unfold all_units. apply in_app_iff. right. apply in_app_iff. right. apply contains_in. exists q. auto.
    - apply in_program. unfold all_units. apply in_app_iff. right. apply in_app_iff. right. apply contains_in. exists q. auto.
  Qed.
  Lemma in_ranked u : In u program -> exists n, ranked u n.
  Proof.
    unfold P_GenUnits.program. rewrite in_app_iff. intros [I|I].
    - apply in_map_iff in I as (e & <- & I). apply units_of in I. unfold all_units in I. rewrite !in_app_iff in I. destruct I as [I|[I|I]].
      + apply in_map_iff in I as (p & <- & I). exists 8. now constructor.
      + apply in_flat_map in I as (t & It & I). apply in_split in It as (a & b & E). eexists. exact (R_own a t b e E I).
      + apply contains_in in I as (q & I & [-> | ->]); eexists; [exact (R_generic q I)|exact (R_contains q I)].
    - apply base_in in I. apply In_nth_error in I as (n & I). exists n. now constructor.
  Qed.
  Lemma avail_le n m w : n <= m -> avail n w -> avail m w.
  Proof. intros L (v & k & R & K & U). exists v, k. split; [exact R|]. split; [lia|exact U]. Qed.
  Lemma avail_base n i : 8 <= n -> In i lib_names -> avail n (pre i).
  Proof.
    intros L I. apply (avail_le (List.length base)); [pose proof base_length; lia|].
    assert (B : exists u, In u base /\ unit_id u = pre i).
    { assert (J : In (pre i) (map unit_id base)).
      { unfold base. rewrite map_app. apply in_app_iff. right. cbn in I |- *. repeat (destruct I as [<-|I]); tauto. }
      apply in_map_iff in J as (u & J & K). now exists u. }
    destruct B as (u & B & U). apply In_nth_error in B as (k & B). exists u, k. split; [now constructor|]. split; [|unfold uid; now rewrite U].
    apply nth_error_Some. congruence.
  Qed.
  Lemma avail_package n t i : 9 <= n -> In t ts -> counted t = true -> low i = low (package_of t) -> avail n (pre i).
  Proof.
    intros L I C E. destruct (packages_rep ts t I C) as (p & J & P). exists (snd (package_unit p)), 8. split; [now constructor|]. split; [lia|].
    unfold uid. cbn [package_unit snd unit_id]. rewrite !low_pre. congruence.
  Qed.
  Lemma before_position a t b t' : ts = a ++ t :: b -> In t' a -> exists a' b', ts = a' ++ t' :: b' /\ List.length a' < List.length a.
  Proof.
    intros E I. apply in_split in I as (u & v & I). exists u, (v ++ t :: b). split; [rewrite E, I, <- app_assoc; reflexivity|].
    rewrite I, app_length. cbn. lia.
  Qed.
  Lemma position t : In t ts -> exists a b, ts = a ++ t :: b /\ List.length a < List.length ts.
  Proof.
    intros I. apply in_split in I as (u & v & I). exists u, v. split; [exact I|]. rewrite I, app_length. cbn. lia.
  Qed.
  (** a message with an instance *)
  Definition instantiated (m : message) : Prop := m_base m <> None \/ m_types m <> [].
  Lemma instance_own m : instantiated m -> In (message_unit m) (own (GMessage m)).
  Proof. intros [H|H]; cbn; destruct (m_base m); [now left|congruence|now left|]. destruct (m_types m); [congruence|right; now left]. Qed.
  Lemma generic_own m : generic m -> In (generic_unit m) (own (GMessage m)).
  Proof. intros [B T]. cbn. rewrite B. destruct (m_types m); [congruence|now left]. Qed.
  Lemma avail_message a m b n : ts = a ++ GMessage m :: b -> instantiated m -> 10 + 2 * List.length a < n -> avail n (pre (m_id m)).
  Proof.
    intros E H L. eexists _, _. split; [exact (R_own _ _ _ _ E (instance_own m H))|]. split; [cbn [message_unit snd kind]; lia|reflexivity].
  Qed.
  Lemma avail_generic a m b n : ts = a ++ GMessage m :: b -> generic m -> 9 + 2 * List.length a < n -> avail n (generic_name (pre (m_id m))).
  Proof.
    intros E G L. eexists _, _. split; [exact (R_own _ _ _ _ E (generic_own m G))|]. split; [cbn [generic_unit snd kind]; lia|].
    unfold uid. cbn [generic_unit snd unit_id]. rewrite generic_pre; [reflexivity|].
    destruct (type_parts (GMessage m) (m_id m)) as (p & q & -> & _); [rewrite E; apply in_app_iff; right; now left|reflexivity|discriminate].
  Qed.
  Lemma avail_array a i x e b n : ts = a ++ GArray i x e :: b -> 10 + 2 * List.length a < n -> avail n (pre i).
  Proof.
    intros E L. exists (array_unit prefix i x e), (10 + 2 * List.length a). split.
    - replace (10 + 2 * List.length a) with (9 + 2 * List.length a + kind (array_unit prefix i x e)) by (destruct x; cbn [array_unit kind]; lia).
      change (array_unit prefix i x e) with (snd (pre i, array_unit prefix i x e)). apply (R_own _ _ _ _ E). now left.
    - split; [lia|]. now destruct x.
  Qed.
  (** the generic package of a message *)
  Lemma avail_generic_of a m b n : ts = a ++ GMessage m :: b -> instantiated m -> 9 + 2 * List.length a < n -> avail n (generic_of prefix m).
  Proof.
    intros E H L. unfold generic_of. pose proof (g_order _ _ Sd a _ b E) as O. cbn [refers] in O. destruct O as [O _]. destruct (m_base m) as [ba|] eqn:B.
    - destruct (O ba eq_refl) as (m' & I & G & <- & _). destruct (before_position _ _ _ _ E I) as (a' & b' & E' & L'). apply (avail_generic a' m' b'); auto. lia.
    - apply (avail_generic a m b); auto. split; [exact B|]. destruct H; congruence.
  Qed.
  Lemma parent_two p n : parent (pre [p; n]) = pre [p].
  Proof. unfold parent, GenUnits.pre. change [p; n] with ([p] ++ [n]). rewrite app_assoc. apply removelast_last. Qed.
  Lemma parent_one p : parent (pre [p]) = prefix.
  Proof. unfold parent, GenUnits.pre. apply removelast_last. Qed.
  Lemma avail_prefix n : 8 <= n -> prefix <> [] -> avail n prefix.
  Proof.
    intros L H. exists (Package prefix [] None), 0. split; [|split; [lia|reflexivity]]. constructor. unfold base, P_GenUnits.top. now destruct prefix.
  Qed.
  Lemma avail_two n p m t : 9 <= n -> In t ts -> counted t = true -> package_of t = [p] -> avail n (parent (pre [p; m])).
  Proof. intros L I C Q. rewrite parent_two. apply (avail_package n t); auto. now rewrite Q. Qed.

  Lemma ranked_requires u n w : ranked u n -> requires prefix u w -> avail n w.
  Proof.
    intros R. destruct R as [n u H|p H|a t b e E H|q H|q H].
    - assert (S : exists o, n = o + List.length top /\ (o = n \/ prefix <> [] /\ 1 <= n) \/ n = 0 /\ prefix <> [] /\ u = Package prefix [] None).
      { unfold P_GenUnits.top. destruct prefix as [|c l] eqn:P; [exists n; left; cbn; lia|]. destruct n as [|n].
        - exists 0. right. unfold base, P_GenUnits.top in H. rewrite P in H. injection H as <-. repeat split; discriminate.
        - exists n. left. cbn. split; [lia|]. right. split; [discriminate|lia]. }
      destruct S as [o [[S S']|(-> & P & ->)]].
      2: { unfold requires. cbn. intros [[]|(_ & _ & N)]. exfalso. now apply N. }
      unfold base in H. rewrite nth_error_app2 in H by lia. replace (n - List.length top) with o in H by lia.
      assert (Pr : w = prefix -> w <> [] -> avail n w).
      { intros -> W. exists (Package prefix [] None), 0. split; [|split; [|reflexivity]].
        - constructor. unfold base, P_GenUnits.top. now destruct prefix.
        - destruct S' as [<-|S']; [|lia]. exfalso. assert (Z : List.length top = 0) by lia. unfold P_GenUnits.top in Z. destruct prefix; [now apply W|discriminate]. }
      assert (Lib : forall k v, k < o -> nth_error base (k + List.length top) = Some v -> unit_id v = w -> avail n w).
      { intros k v K B U. exists v, (k + List.length top). split; [now constructor|]. split; [lia|]. unfold uid. now rewrite U. }
      assert (Lib' : forall k v, k < o -> nth_error (skipn (List.length top) base) k = Some v -> unit_id v = w -> avail n w).
      { intros k v K B U. apply (Lib k v K); [|exact U]. rewrite <- B. rewrite Nat.add_comm. clear. generalize base. generalize (List.length top). 
        induction n as [|n IH]; intros l; [reflexivity|]. destruct l; [now destruct k|]. apply IH. }
      unfold base in Lib'. rewrite skipn_app, skipn_all, Nat.sub_diag in Lib'. cbn [app skipn] in Lib'. clear Lib.
      unfold requires, ARITHMETIC, BUILTIN_TYPES, BUILTIN_TYPES_CONVERSIONS, GENERIC_TYPES, MESSAGE_SEQUENCE, SCALAR_SEQUENCE, TYPES in *.
      do 7 (destruct o as [|o]; [injection H as <-; cbn [unit_withs unit_id]; rewrite ?parent_one, ?parent_two; intros [I|(Q & W & _)];
        [cbn [In] in I; repeat (destruct I as [<-|I]); try contradiction;
          first [apply (Lib' 0 _ ltac:(lia) eq_refl eq_refl)|apply (Lib' 1 _ ltac:(lia) eq_refl eq_refl)|apply (Lib' 3 _ ltac:(lia) eq_refl eq_refl)]
        |first [now apply Pr|subst w; apply (Lib' 1 _ ltac:(lia) eq_refl eq_refl)]]|cbn [nth_error] in H]).
      destruct o; discriminate H.
    - destruct (packages_in ts p (fun x Hx => Hx) H) as (t & It & C & <-). destruct (package_one t It C) as (s & Q & P). cbn [package_unit snd]. rewrite Q.
      intros [[]|(W & N & _)]. cbn [unit_id] in W. rewrite parent_one in W. subst w. apply avail_prefix; [lia|exact N].
    - assert (It : In t ts) by (rewrite E; apply in_app_iff; right; now left).
      assert (C : counted t = true).
      { apply counted_true. pose proof (g_own _ _ Sd t It) as O. destruct t; try contradiction; auto. }
      assert (Pa : forall v, v = parent (unit_id (snd e)) -> avail (9 + 2 * List.length a + kind (snd e)) v).
      { intros v ->. destruct (own_entry t e H) as (i & J & _ & U). destruct (own_parts t i It J) as (p & n & -> & _ & _ & Q). rewrite U. apply (avail_two _ p n t); auto. lia. }
      intros [I|(W & _ & _)]; [|now apply Pa].
      pose proof (g_order _ _ Sd a t b E) as O. destruct t as [j|j x el| |m|p pdu sdu vs]; cbn [own] in H; try contradiction.
      + destruct H as [<-|[]]. cbn [snd] in *. destruct x; cbn [array_unit unit_withs kind refers] in *.
        * destruct O as (m & Im & <- & T). destruct (before_position _ _ _ _ E Im) as (a' & b' & E' & L').
          destruct I as [<-|[<-|[<-|[]]]]; [apply avail_base; [lia|cbn; tauto]| |apply avail_base; [lia|cbn; tauto]].
          apply (avail_message a' m b'); [exact E'|now right|lia].
        * destruct O as (Is & Np). destruct I as [<-|[<-|[<-|[]]]]; [apply avail_base; [lia|cbn; tauto]| |apply avail_base; [lia|cbn; tauto]].
          apply (avail_package _ (GScalar el)); [lia| |now apply counted_true|reflexivity]. rewrite E. apply in_app_iff. now left.
      + cbn [refers] in O. destruct O as [O1 O2].
        assert (Inst : instantiated m -> In w (unit_withs (snd (message_unit m))) -> avail (9 + 2 * List.length a + kind (snd (message_unit m))) w).
        { intros Hi J. cbn [message_unit snd unit_withs kind app] in *. destruct J as [<-|[<-|J]].
          - apply (avail_generic_of a m b); auto. lia.
          - apply avail_base; [lia|cbn; tauto].
          - unfold array_ids in J. apply dedup_in in J. apply in_flat_map in J as (f & If & J). destruct f as [|i x|]; try contradiction. destruct J as [<-|[]].
            destruct (O2 _ If) as (el & Ia). destruct (before_position _ _ _ _ E Ia) as (a' & b' & E' & L'). apply (avail_array a' i x el b'); [exact E'|lia]. }
        assert (Gen : generic m -> In w (unit_withs (snd (generic_unit m))) -> avail (9 + 2 * List.length a + kind (snd (generic_unit m))) w).
        { intros G J. cbn [generic_unit snd unit_withs kind] in *. rewrite !in_app_iff in J. destruct J as [J|[J|J]].
          - destruct (existsb _ _) in J; [|contradiction]. destruct J as [<-|[<-|[]]]; apply avail_base; try lia; cbn; tauto.
          - destruct J as [<-|[]]. apply avail_base; [lia|cbn; tauto].
          - apply in_flat_map in J as (f & If & J). unfold field_withs in J.
            destruct (id_eq (parent (f_id f)) BUILTINS || id_eq (parent (f_id f)) INTERNAL) eqn:Pd; [contradiction|]. apply orb_false_iff in Pd as [Pd1 Pd2]. apply id_low_false in Pd1, Pd2.
            specialize (O2 f If). destruct f as [i|i x|i]; cbn [f_id] in *.
            + destruct (id_eq (parent i) (parent (m_id m))); [contradiction|]. destruct J as [<-|[]]. destruct O2 as [O2|[O2 O3]]; [contradiction|].
              apply (avail_package _ (GScalar i)); [lia| |now apply counted_true|reflexivity]. rewrite E. apply in_app_iff. now left.
            + destruct J as [<-|[]]. apply avail_base; [lia|destruct x; cbn; tauto].
            + contradiction. }
        destruct (m_base m) as [ba|] eqn:B; [|destruct (m_types m) as [|f fs] eqn:T]; try contradiction.
        * destruct H as [<-|[]]. apply Inst; [left; congruence|exact I].
        * destruct H as [<-|[<-|[]]]; [apply Gen; [split; congruence|exact I]|apply Inst; [right; congruence|exact I]].
    - destruct (refined_in ts q H) as (r0 & Ir0 & Q0). pose proof (proj1 (refs_in _ _) Ir0) as Irr0. destruct (ref_part r0 Ir0) as (s & Qs & _).
      assert (C0 : counted (GRefinement (r_package r0) (r_pdu r0) (r_sdu r0) (r_variables r0)) = true) by (apply counted_true; exact (g_own _ _ Sd _ Irr0)).
      intros [I|(W & _ & _)].
      2: { cbn [gcontains_unit snd unit_id] in W. rewrite <- Q0, Qs in W. subst w. cbn [app]. unfold generic_name. cbn [removelast last app].
           eapply avail_two; [|exact Irr0|exact C0|exact Qs]; lia. }
      cbn [gcontains_unit snd unit_withs] in I. rewrite in_app_iff in I. destruct I as [[<-|[]]|I]; [apply avail_base; [lia|cbn; tauto]|].
      apply in_flat_map in I as (r & Ir & I). apply filter_In in Ir as [Ir Er]. pose proof (proj1 (refs_in _ _) Ir) as Irr.
      destruct (in_split _ _ Irr) as (a & b & E). pose proof (g_order _ _ Sd a _ b E) as O. cbn [refers] in O. destruct O as (O1 & O2 & O3 & O4).
      assert (La : List.length a < List.length ts) by (rewrite E, app_length; cbn; lia).
      assert (Ia : incl a ts) by (rewrite E; intros z Z; apply in_app_iff; now left).
      assert (Gen : forall m, In (GMessage m) a -> m_types m <> [] -> avail (9 + 2 * List.length ts) (generic_of prefix m)).
      { intros m Im T. destruct (before_position _ _ _ _ E Im) as (a' & b' & E' & L'). apply (avail_generic_of a' m b'); [exact E'|now right|lia]. }
      unfold refinement_withs in I. rewrite !in_app_iff in I. destruct I as [I|[I|[I|I]]].
      + apply in_flat_map in I as (v & Iv & I). destruct ((List.length v =? 2) && negb (id_eq (parent v) (r_package r))) eqn:V; [|contradiction].
        apply andb_true_iff in V as [V1 V2]. apply Nat.eqb_eq in V1. apply negb_true_iff, id_low_false in V2. destruct I as [<-|[]].
        destruct (O4 v Iv V1 V2) as (t' & It' & Lt & Nt). apply (avail_package _ t'); [lia|now apply Ia|now apply counted_true|now symmetry].
      + destruct (id_eq (parent (m_id (r_pdu r))) (r_package r)); [contradiction|]. destruct I as [<-|[]].
        destruct (before_position _ _ _ _ E O1) as (a' & b' & E' & L'). pose proof (g_order _ _ Sd a' _ b' E') as O. cbn [refers] in O. destruct O as [O _].
        destruct (m_base (r_pdu r)) as [ba|].
        * destruct (O ba eq_refl) as (m' & Im & _ & <- & _). assert (Im' : In (GMessage m') ts) by (rewrite E'; apply in_app_iff; now left).
          apply (avail_package _ (GMessage m')); [lia|exact Im'|apply counted_true; exact (g_own _ _ Sd _ Im')|reflexivity].
        * apply (avail_package _ (GMessage (r_pdu r))); [lia|now apply Ia|apply counted_true; exact (g_own _ _ Sd _ (Ia _ O1))|reflexivity].
      + destruct I as [<-|[]]. now apply Gen.
      + destruct (m_types (r_sdu r)) eqn:T; [contradiction|]. destruct I as [<-|[]]. apply Gen; [exact O2|congruence].
    - destruct (refined_in ts q H) as (r0 & Ir0 & Q0). pose proof (proj1 (refs_in _ _) Ir0) as Irr0. destruct (ref_part r0 Ir0) as (s & Qs & _).
      assert (C0 : counted (GRefinement (r_package r0) (r_pdu r0) (r_sdu r0) (r_variables r0)) = true) by (apply counted_true; exact (g_own _ _ Sd _ Irr0)).
      intros [I|(W & _ & _)].
      2: { cbn [contains_unit snd unit_id] in W. rewrite <- Q0, Qs in W. subst w. cbn [app].
           eapply avail_two; [|exact Irr0|exact C0|exact Qs]; lia. }
      cbn [contains_unit snd unit_withs app] in I. destruct I as [<-|[<-|I]]; [apply avail_base; [lia|cbn; tauto]| |].
      + eexists _, _. split; [exact (R_generic q H)|]. split; [lia|]. unfold uid. cbn [gcontains_unit snd unit_id]. rewrite generic_pre; [reflexivity|]. rewrite <- Q0, Qs. discriminate.
      + unfold contains_ids in I. apply dedup_in in I. apply in_map_iff in I as (m & <- & I). apply in_flat_map in I as (r & Ir & I).
        apply filter_In in Ir as [Ir Er]. pose proof (proj1 (refs_in _ _) Ir) as Irr.
        destruct (in_split _ _ Irr) as (a & b & E). pose proof (g_order _ _ Sd a _ b E) as O. cbn [refers] in O. destruct O as (O1 & O2 & O3 & O4).
        assert (La : List.length a < List.length ts) by (rewrite E, app_length; cbn; lia).
        assert (M : In (GMessage m) a /\ m_types m <> []).
        { unfold parameters in I. destruct I as [<-|I]; [now split|]. destruct (m_types (r_sdu r)) eqn:T; [contradiction|]. destruct I as [<-|[]]. split; [exact O2|congruence]. }
        destruct M as [M1 M2]. destruct (before_position _ _ _ _ E M1) as (a' & b' & E' & L'). apply (avail_message a' m b'); [exact E'|now right|lia].
  Qed.

  Lemma acyclic u : In u program -> Acc (needs prefix d) u.
  Proof.
    intros I. destruct (in_ranked u I) as (n & R). clear I. revert u R. induction n as [n IH] using lt_wf_ind. intros u R.
    constructor. intros v (Iv & w & Q & L). destruct (ranked_requires u n w R Q) as (v' & k & R' & K & U).
    assert (v' = v) by (apply program_same; [exact (ranked_in _ _ R')|exact Iv|congruence]). subst v'. exact (IH k K v R').
  Qed.
  Lemma closed u w : In u program -> requires prefix u w -> exists v, In v program /\ uid v = low w.
  Proof.
    intros I Q. destruct (in_ranked u I) as (n & R). destruct (ranked_requires u n w R Q) as (v & k & R' & _ & U). exists v. split; [exact (ranked_in _ _ R')|exact U].
  Qed.
  Lemma unit_names n : In n (map uid (map snd d)) <-> exists t j, In t ts /\ ~ predefined (package_of t) /\ In j (names t) /\ n = low (prefix ++ j).
  Proof.
    destruct units_of as [_ H]. rewrite map_map, in_map_iff. split.
    - intros (e & <- & I). apply H in I. destruct (entry_cases e I) as [(p & s & -> & -> & P & t & It & C & Q)|[(t & i & It & _ & J & _ & U)|(q & s & Iq & -> & P & K)]].
      + exists t, [s]. split; [exact It|]. split; [now apply counted_true|]. split; [left; exact Q|reflexivity].
      + exists t, i. split; [exact It|]. split; [pose proof (g_own _ _ Sd t It) as O; destruct t; try contradiction; exact O|].
        split; [|unfold uid; now rewrite U]. unfold names. right. destruct t as [j|j x el| |m|p pdu sdu vs]; try contradiction; [exact J|].
        unfold own_ids in J. destruct (m_base m); [exact J|]. destruct (m_types m); [contradiction|]. cbn in J |- *. tauto.
      + destruct (refined_in ts _ Iq) as (r & Ir & Q). pose proof (proj1 (refs_in _ _) Ir) as Irr.
        destruct K as [-> | ->]; eexists _, _; (split; [exact Irr|]; split; [exact (g_own _ _ Sd _ Irr)|]; split; [right; cbn [names]|]).
        * right. left. reflexivity.
        * rewrite Q. reflexivity.
        * left. reflexivity.
        * rewrite Q. reflexivity.
    - intros (t & j & It & C & J & ->). apply counted_true in C. unfold names in J. destruct J as [<-|J].
      + destruct (packages_rep ts t It C) as (p & I & L). exists (package_unit p). split.
        * unfold uid. cbn [package_unit snd unit_id]. change (low (pre p) = low (pre (package_of t))). rewrite !low_pre. congruence.
        * apply H. apply in_app_iff. left. now apply in_map.
      + assert (O : In j (own_ids t) \/ exists p pdu sdu vs, t = GRefinement p pdu sdu vs /\ In j [p ++ ["Contains"]; p ++ ["Generic_Contains"]]).
        { destruct t as [k|k x el| |m|p pdu sdu vs]; try contradiction; [left; exact J| |right; eauto 8].
          left. unfold own_ids. destruct (m_base m); [exact J|]. destruct (m_types m); [contradiction|]. cbn in J |- *. tauto. }
        destruct O as [O|(p & pdu & sdu & vs & -> & O)].
        * destruct (id_entry t j O) as (e & Ie & _ & U). exists e. split; [unfold uid; now rewrite U|]. apply H. apply in_app_iff. right. apply in_app_iff. left.
          apply in_flat_map. now exists t.
        * assert (Ir : In (mkRef p pdu sdu vs) (refs ts)) by now apply refs_in.
          destruct (g_refinements _ _ Sd _ _ _ _ It) as (s & -> & _).
          destruct (dedup_rep id_eq id_refl (map r_package (refs ts)) [] [s]) as [(y & [] & _)|(q & Iq & Lq)]; [apply in_map_iff; now exists (mkRef [s] pdu sdu vs)|].
          destruct (contains_low ts q (fun x Hx => Hx) Iq) as (s' & -> & L1 & L2). apply id_low in Lq. cbn in Lq. injection Lq as Lq.
          destruct O as [<-|[<-|[]]]; [exists (contains_unit [s'] (refs_of ts [s']))|exists (gcontains_unit [s'] (refs_of ts [s']))].
          -- split; [|apply H; apply in_app_iff; right; apply in_app_iff; right; apply contains_in; eauto].
             unfold uid. cbn [contains_unit snd unit_id]. rewrite low_pre, L2, low_app. cbn. now rewrite Lq.
          -- split; [|apply H; apply in_app_iff; right; apply in_app_iff; right; apply contains_in; eauto].
             unfold uid. cbn [gcontains_unit snd unit_id]. rewrite low_pre, L1, low_app. cbn. now rewrite Lq.
  Qed.
End Units.

(** ** Files *)

Lemma lower_plain s : plain s -> plain (lower s).
Proof.
  unfold plain. induction s as [|c s IH]; [reflexivity|]. cbn [lower has_char]. rewrite !orb_false_iff. intros [H1 H2]. split; [|auto].
  clear - H1. destruct c as [[] [] [] [] [] [] [] []]; first [reflexivity|discriminate H1|exact H1].
Qed.
Lemma split_hyphen x y r r' : plain x -> plain y -> (x ++ String "-" r)%string = (y ++ String "-" r')%string -> x = y /\ r = r'.
Proof.
  unfold plain. revert y. induction x as [|c x IH]; intros [|c' y]; cbn [append has_char]; intros P Q H.
  - injection H as H. now split.
  - injection H as H1 H2. subst c'. discriminate Q.
  - injection H as H1 H2. subst c. discriminate P.
  - injection H as H1 H2. apply orb_false_iff in P as [_ P], Q as [_ Q]. destruct (IH y P Q H2) as [-> ->]. now subst.
Qed.
Lemma has_char_append c x y : has_char c (x ++ y) = has_char c x || has_char c y.
Proof. induction x as [|a x IH]; cbn [append has_char]; [reflexivity|]. now rewrite IH, orb_assoc. Qed.
Lemma concat_inj l : forall l', l <> [] -> l' <> [] -> (forall s, In s l -> plain s) -> (forall s, In s l' -> plain s) ->
  String.concat "-" l = String.concat "-" l' -> l = l'.
Proof.
  induction l as [|x l IH]; intros [|x' l'] N N' P P'; try congruence. clear N N'.
  assert (C : forall y z m, String.concat "-" (y :: z :: m) = (y ++ String "-" (String.concat "-" (z :: m)))%string) by reflexivity.
  destruct l as [|z l], l' as [|z' l']; rewrite ?C.
  - cbn. now intros ->.
  - cbn [String.concat]. intros E. exfalso. assert (H : plain x) by (apply P; now left). unfold plain in H. rewrite E, has_char_append in H. cbn in H. now rewrite orb_true_r in H.
  - cbn [String.concat]. intros E. exfalso. assert (H : plain x') by (apply P'; now left). unfold plain in H. rewrite <- E, has_char_append in H. cbn in H. now rewrite orb_true_r in H.
  - intros E. apply split_hyphen in E as [-> E]; [|apply P; now left|apply P'; now left]. f_equal.
    apply IH; try discriminate; [intros s I; apply P; now right|intros s I; apply P'; now right|exact E].
Qed.
Lemma file_name_inj i j : i <> [] -> j <> [] -> (forall s, In s i -> plain s) -> (forall s, In s j -> plain s) -> file_name i = file_name j -> low i = low j.
Proof.
  intros N N' P P' E. unfold file_name in E. apply concat_inj in E; auto.
  - now destruct i.
  - now destruct j.
  - intros s I. apply in_map_iff in I as (x & <- & I). apply lower_plain. auto.
  - intros s I. apply in_map_iff in I as (x & <- & I). apply lower_plain. auto.
Qed.
Lemma length_append x y : String.length (x ++ y) = String.length x + String.length y.
Proof. induction x as [|c x IH]; cbn; [reflexivity|now rewrite IH]. Qed.
Lemma extension x y e e' : In e [".ads"; ".adb"] -> In e' [".ads"; ".adb"] -> (x ++ e)%string = (y ++ e')%string -> x = y /\ e = e'.
Proof.
  intros I I' H.
  assert (Hl : String.length x = String.length y).
  { pose proof (f_equal String.length H) as L. rewrite !length_append in L. assert (String.length e = 4 /\ String.length e' = 4) as [E1 E2]; [|lia].
    split; [destruct I as [<-|[<-|[]]]|destruct I' as [<-|[<-|[]]]]; reflexivity. }
  revert y Hl H. induction x as [|c x IH]; intros [|c' y] Hl H; cbn in *; try discriminate; [now split|].
  injection H as -> H. injection Hl as Hl. destruct (IH y Hl H) as [-> ->]. now split.
Qed.

(** the names and extensions of files *)
Definition extensions (u : unit) : list string := match u with Package _ _ _ => [".ads"; ".adb"] | Instance _ _ _ _ => [".ads"] end.
Definition file_of (x : ident * string) : string := (file_name (fst x) ++ snd x)%string.
Definition lib_pairs : list (ident * string) :=
  map (fun i => (i, ".ads")) lib_names ++ map (fun i => (i, ".adb")) [ARITHMETIC; GENERIC_TYPES; MESSAGE_SEQUENCE; SCALAR_SEQUENCE].
Definition file_pairs (prefix : ident) (d : units) : list (ident * string) :=
  flat_map (fun u => map (pair (unit_id u)) (extensions u)) (map snd d)
  ++ map (fun x => (pre prefix (fst x), snd x))
       lib_pairs
  ++ map (fun u => (unit_id u, ".ads")) (top prefix).
Lemma written_pairs prefix d : exists l, map file_of (file_pairs prefix d) = written prefix d ++ l
  /\ (prefix = [] \/ default_prefix prefix = true -> l = []).
Proof.
  exists (if default_prefix prefix then [] else top_level_files prefix). split.
  2: { intros [-> | ->]; reflexivity. }
  unfold written, file_pairs. rewrite !map_app, <- !app_assoc. f_equal; [|f_equal].
  - induction d as [|[k u] d IH]; cbn [map flat_map snd]; [reflexivity|]. rewrite map_app, IH. f_equal. now destruct u.
  - destruct (default_prefix prefix); unfold top_level_files, top; now destruct prefix.
Qed.
Lemma flat_ext (l : list unit) : NoDup (map uid l) -> NoDup (map (fun x => (low (fst x), snd x)) (flat_map (fun u => map (pair (unit_id u)) (extensions u)) l)).
Proof.
  induction l as [|u l IH]; cbn [map flat_map]; intros N; [constructor|]. apply NoDup_cons_iff in N as [N1 N2]. rewrite map_app. apply NoDup_app_intro.
  - destruct u; cbn; repeat constructor; cbn; intuition discriminate.
  - now apply IH.
  - intros x I J. apply N1. apply in_map_iff in I as (y & <- & I). apply in_map_iff in I as (e & <- & I).
    apply in_map_iff in J as (z & E & J). apply in_flat_map in J as (v & Iv & J). apply in_map_iff in J as (e' & <- & J). cbn in E. injection E as E _.
    apply in_map_iff. exists v. split; [exact E|exact Iv].
Qed.
Lemma pairs_distinct prefix ts d : sound prefix ts -> generate prefix ts [] = Ok d -> NoDup (map (fun x => (low (fst x), snd x)) (file_pairs prefix d)).
Proof.
  intros Sd Hd. pose proof (program_ids prefix ts Sd d Hd) as N. unfold program in N. rewrite !map_app in N. unfold file_pairs. rewrite !map_app.
  assert (Nd : forall (A : Type) (l l' : list A), NoDup (l ++ l') -> NoDup l /\ NoDup l' /\ forall x, In x l -> In x l' -> False).
  { intros A l l'. induction l as [|x l IH]; cbn; [intros H; repeat split; [constructor|exact H|intros x []]|]. intros H. apply NoDup_cons_iff in H as [H1 H2].
    destruct (IH H2) as (I1 & I2 & I3). rewrite in_app_iff in H1. repeat split; [constructor; tauto|exact I2|]. intros y [<-|I] J; [tauto|eauto]. }
  apply Nd in N as (N1 & N2 & N3). apply Nd in N2 as (N2 & N4 & N5).
  assert (L : forall x, In x (map (fun x => (low (fst x), snd x)) (map (fun x => (pre prefix (fst x), snd x))
       lib_pairs)) ->
    In (fst x) (map uid (library prefix))).
  { intros x I. change (map uid (library prefix)) with (map low (map unit_id (library prefix))). rewrite library_ids. rewrite !map_map in I |- *.
    apply in_map_iff in I as (y & <- & I). cbn [fst]. apply in_map_iff. exists (fst y). split; [reflexivity|].
    cbn in I |- *. repeat (destruct I as [<-|I]); try contradiction; cbn; tauto. }
  apply NoDup_app_intro; [|apply NoDup_app_intro|].
  - now apply flat_ext.
  - rewrite map_map. apply (NoDup_inj (fun x => (low (fst (pre prefix (fst x), snd x)), snd (pre prefix (fst x), snd x)))).
    + repeat constructor; cbn; intuition discriminate.
    + intros x y I J E. cbn [fst snd] in E. injection E as E1 E2. apply pre_inj in E1. destruct x as [i e], y as [j e']. cbn [fst snd] in *. subst e'. f_equal.
      assert (K : In i lib_names /\ In j lib_names).
      { split; [clear J|clear I]; [rename I into J|]; cbn in J |- *; repeat (destruct J as [J|J]; [injection J as <- _; tauto|]); contradiction. }
      destruct K as [K1 K2]. cbn in K1, K2. repeat (destruct K1 as [<-|K1]); try contradiction; repeat (destruct K2 as [<-|K2]); try contradiction; first [reflexivity|discriminate E1].
  - unfold top. destruct prefix; repeat constructor. intros [].
  - intros x I J. apply (N5 (fst x)); [now apply L|]. apply in_map_iff in J as (y & <- & J). apply in_map_iff in J as (u & <- & J). cbn [fst]. now apply (in_map uid).
  - intros x I J. apply in_map_iff in I as (y & <- & I). apply in_flat_map in I as (u & Iu & I). apply in_map_iff in I as (e & <- & I). cbn [fst snd] in J.
    apply (N3 (low (unit_id u))); [now apply (in_map uid)|]. apply in_app_iff. apply in_app_iff in J as [J|J]; [left; now apply L in J|right].
    apply in_map_iff in J as (y & E & J). apply in_map_iff in J as (v & <- & J). cbn in E. injection E as E _. apply in_map_iff. exists v. split; [exact E|exact J].
Qed.
Lemma pairs_plain prefix ts d x : sound prefix ts -> generate prefix ts [] = Ok d -> In x (file_pairs prefix d) ->
  fst x <> [] /\ (forall s, In s (fst x) -> plain s) /\ In (snd x) [".ads"; ".adb"].
Proof.
  intros Sd Hd I. unfold file_pairs in I. rewrite !in_app_iff in I. destruct I as [I|[I|I]].
  - apply in_flat_map in I as (u & Iu & I). apply in_map_iff in I as (e & <- & I). apply in_map_iff in Iu as (en & <- & Iu).
    apply (units_of prefix ts Sd d Hd) in Iu. destruct (entry_id prefix ts Sd en Iu) as (j & U & P & C). cbn [fst snd]. rewrite U. unfold pre. split; [|split].
    + intros Z. apply app_eq_nil in Z as [_ ->]. destruct C as [(s & C & _)|(s & n & C & _)]; discriminate C.
    + intros s J. apply in_app_iff in J as [J|J]; [exact (g_prefix _ _ Sd s J)|auto].
    + destruct (snd en); cbn in I |- *; tauto.
  - apply in_map_iff in I as (y & <- & I). cbn [fst snd]. assert (K : fst y <> [] /\ (forall s, In s (fst y) -> plain s) /\ In (snd y) [".ads"; ".adb"]).
    { cbn in I. repeat (destruct I as [<-|I]; [cbn; split; [discriminate|split; [intros s J; repeat (destruct J as [<-|J]; [reflexivity|]); contradiction|tauto]]|]). contradiction. }
    destruct K as (K1 & K2 & K3). unfold pre. split; [|split; [|exact K3]].
    + intros Z. apply app_eq_nil in Z as [_ Z]. contradiction.
    + intros s J. apply in_app_iff in J as [J|J]; [exact (g_prefix _ _ Sd s J)|auto].
  - apply in_map_iff in I as (u & <- & I). unfold top in I. pose proof (g_prefix _ _ Sd) as P. destruct prefix as [|c l]; [destruct I|]. destruct I as [<-|[]]. cbn [fst snd unit_id].
    split; [discriminate|]. split; [exact P|now left].
Qed.
Lemma NoDup_front {A} (l r : list A) : NoDup (l ++ r) -> NoDup l.
Proof. induction l as [|x l IH]; cbn; intros N; constructor; apply NoDup_cons_iff in N as [N1 N2]; [rewrite in_app_iff in N1; tauto|auto]. Qed.
(** each unit of the program has a specification file, and each generated package a body *)
Lemma files_complete prefix d u : In u (program prefix d) -> In u (top prefix) /\ default_prefix prefix = false
  \/ In (file_name (unit_id u) ++ ".ads")%string (written prefix d).
Proof.
  unfold program. rewrite !in_app_iff. intros [I|[I|I]].
  - right. unfold written. apply in_app_iff. left. apply in_map_iff in I as (e & <- & I). apply in_flat_map. exists e. split; [exact I|]. destruct (snd e); now left.
  - right. unfold written. rewrite !in_app_iff. right; left. unfold library_files. apply in_app_iff. left.
    apply (in_map unit_id) in I. rewrite library_ids in I. apply in_map_iff in I as (i & <- & I). now apply (in_map (fun i => (file_name (pre prefix i) ++ ".ads")%string)) in I.
  - destruct (default_prefix prefix) eqn:Q; [right|now left]. unfold written. rewrite Q, !in_app_iff. right; right. unfold top in I. unfold top_level_files.
    destruct prefix as [|c l]; [destruct I|]. destruct I as [<-|[]]. now left.
Qed.
Lemma files_distinct prefix ts d : sound prefix ts -> generate prefix ts [] = Ok d -> NoDup (written prefix d).
Proof.
  intros Sd Hd. destruct (written_pairs prefix d) as (r & W & _). apply (NoDup_front _ r). rewrite <- W. clear r W.
  pose proof (pairs_distinct prefix ts d Sd Hd) as N. pose proof (NoDup_map_inv _ _ N) as N'.
  apply NoDup_inj; [exact N'|]. intros x y I J E. destruct (pairs_plain _ _ _ _ Sd Hd I) as (X1 & X2 & X3). destruct (pairs_plain _ _ _ _ Sd Hd J) as (Y1 & Y2 & Y3).
  unfold file_of in E. apply extension in E as [E1 E2]; auto. apply file_name_inj in E1; auto.
  clear - N I J E1 E2. induction (file_pairs prefix d) as [|z l IH]; [destruct I|]. cbn in N. apply NoDup_cons_iff in N as [N1 N2].
  destruct I as [->|I], J as [->|J]; auto; exfalso; apply N1; apply in_map_iff; [exists y|exists x]; (split; [now rewrite E1, E2|assumption]).
Qed.

(** ** Instantiations *)

Lemma dedup_skip {A} (eq : A -> A -> bool) s l : forall seen, (forall x, In x l -> eq x s = false) -> dedup eq (s :: seen) l = dedup eq seen l.
Proof.
  induction l as [|y l IH]; intros seen H; [reflexivity|]. cbn [dedup existsb]. rewrite H by now left. cbn [orb].
  assert (K : forall x, In x l -> eq x s = false) by (intros x I; apply H; now right).
  destruct (existsb (eq y) seen); [now apply IH|]. f_equal. exact (IH (seen ++ [y]) K).
Qed.
Lemma dedup_nodup {A B} (eq : A -> A -> bool) (k : A -> B) l : (forall x, eq x x = true) -> (forall x y, eq x y = eq y x) ->
  forall seen, (forall x y, In x l -> In y l -> k x = k y -> eq x y = true) -> NoDup (map k (dedup eq seen l)).
Proof.
  intros refl sym. induction l as [|y l IH]; intros seen H; [constructor|]. cbn [dedup].
  assert (K : forall u v, In u l -> In v l -> k u = k v -> eq u v = true) by (intros u v I J; apply H; now right).
  destruct (existsb (eq y) seen); [now apply IH|]. cbn [map]. constructor; [|now apply IH].
  intros I. apply in_map_iff in I as (z & E & I). pose proof (dedup_in _ _ _ _ I) as I'.
  apply (proj2 (dedup_distinct eq refl l (seen ++ [y]) ltac:(auto))) in I. rewrite existsb_app in I. apply orb_false_iff in I as [_ I]. cbn in I.
  rewrite orb_false_r in I. rewrite H in I; [discriminate|now right|now left|exact E].
Qed.
Lemma formal_refl f : formal_eq f f = true.
Proof. unfold formal_eq. rewrite String.eqb_refl, id_refl. cbn. now destruct (list_eq_dec string_dec _ _). Qed.
Lemma formal_sym f g : formal_eq f g = formal_eq g f.
Proof.
  unfold formal_eq. rewrite String.eqb_sym, id_sym. f_equal. destruct (list_eq_dec string_dec (f_associations f) (f_associations g)) as [E|N];
  destruct (list_eq_dec string_dec (f_associations g) (f_associations f)) as [E'|N']; congruence.
Qed.
Lemma underscore s : has_char "_" s = true -> has_char "_" (lower s) = true.
Proof.
  induction s as [|c s IH]; [discriminate|]. cbn [lower has_char]. rewrite !orb_true_iff. intros [H|H]; [left|right; auto].
  apply Ascii.eqb_eq in H. subst c. reflexivity.
Qed.
Lemma append_cancel_r x y z : (x ++ z)%string = (y ++ z)%string -> x = y.
Proof.
  revert y. induction x as [|c x IH]; intros [|c' y] H; cbn in H; auto.
  - pose proof (f_equal String.length H) as L. cbn in L. rewrite length_append in L. lia.
  - pose proof (f_equal String.length H) as L. cbn in L. rewrite length_append in L. lia.
  - injection H as -> H. f_equal. auto.
Qed.

Section Fit.
  Context (prefix : ident) (ts : list gtype) (Sd : sound prefix ts) (d : units) (Hd : generate prefix ts [] = Ok d).
  Notation pre := (pre prefix).
  Notation program := (program prefix d).

  Definition array_formal (x : ident * bool) : formal :=
    mkFormal (name_of (fst x) ++ "_Sequence") (pre (if snd x then MESSAGE_SEQUENCE else SCALAR_SEQUENCE)) ["Types"; "others => <>"].
  Definition arrays (l : list ftype) : list (ident * bool) := flat_map (fun t => match t with FArray i x => [(i, x)] | _ => [] end) l.
  Lemma arrays_in l i x : In (i, x) (arrays l) <-> In (FArray i x) l.
  Proof.
    unfold arrays. rewrite in_flat_map. split; [|intros I; exists (FArray i x); split; [exact I|now left]].
    intros (t & I & J). destruct t; try contradiction. destruct J as [J|[]]. injection J as -> ->. exact I.
  Qed.
  Lemma field_array m i x : In (GMessage m) ts -> In (FArray i x) (m_types m) -> exists e, In (GArray i x e) ts.
  Proof.
    intros I J. apply in_split in I as (a & b & E). pose proof (g_order _ _ Sd a _ b E) as O. cbn [refers] in O. destruct O as [_ O].
    destruct (O _ J) as (e & K). exists e. rewrite E. apply in_app_iff. now left.
  Qed.
  Lemma formals_arrays m : In (GMessage m) ts -> flat_map (field_formals prefix) (m_types m) = map array_formal (arrays (m_types m)).
  Proof.
    intros I. assert (H : forall i x, In (FArray i x) (m_types m) -> ~ predefined (parent i)).
    { intros i x J. destruct (field_array m i x I J) as (e & K). exact (g_own _ _ Sd _ K). }
    induction (m_types m) as [|t l IH]; [reflexivity|]. cbn [flat_map arrays]. rewrite map_app. rewrite IH by (intros; eapply H; right; eassumption). f_equal.
    unfold field_formals. destruct t as [i|i x|i]; cbn [f_id]; try (now destruct (id_eq (parent i) BUILTINS || id_eq (parent i) INTERNAL)).
    assert (N : ~ predefined (parent i)) by (apply (H i x); now left).
    assert (id_eq (parent i) BUILTINS || id_eq (parent i) INTERNAL = false) as ->; [|reflexivity].
    apply orb_false_iff. rewrite !id_low_false. unfold predefined in N. tauto.
  Qed.
  Lemma ids_arrays m : array_ids prefix m = dedup id_eq [] (map (fun x => pre (fst x)) (arrays (m_types m))).
  Proof.
    unfold array_ids. f_equal. induction (m_types m) as [|t l IH]; [reflexivity|]. cbn [flat_map].
    change (arrays (t :: l)) with (match t with FArray i x => [(i, x)] | _ => [] end ++ arrays l). rewrite map_app, <- IH. now destruct t.
  Qed.
  Lemma types_not_array x : formal_eq (array_formal x) (types_formal prefix) = false.
  Proof.
    unfold formal_eq. destruct (String.eqb_spec (lower (f_identifier (array_formal x))) (lower (f_identifier (types_formal prefix)))) as [E|]; [|reflexivity].
    exfalso. apply (f_equal (has_char "_")) in E. cbn [array_formal f_identifier types_formal] in E. rewrite underscore in E; [discriminate E|].
    rewrite has_char_append. cbn. now rewrite orb_true_r.
  Qed.
  Lemma array_same m i x j y : In (GMessage m) ts -> In (FArray i x) (m_types m) -> In (FArray j y) (m_types m) -> low i = low j -> (i, x) = (j, y).
  Proof.
    intros I A B L. destruct (field_array m i x I A) as (e & K). destruct (field_array m j y I B) as (e' & K').
    assert (T : GArray i x e = GArray j y e') by (apply (same_type prefix ts Sd _ _ i j); auto). injection T as -> -> _. reflexivity.
  Qed.
  Lemma array_names m x y : In (GMessage m) ts -> In x (arrays (m_types m)) -> In y (arrays (m_types m)) ->
    lower (f_identifier (array_formal x)) = lower (f_identifier (array_formal y)) -> x = y.
  Proof.
    destruct x as [i x], y as [j y]. rewrite !arrays_in. intros I A B E. apply (array_same m); auto. apply (g_arrays _ _ Sd m i x j y); auto.
    cbn [array_formal f_identifier fst] in E. rewrite !lower_append in E. now apply append_cancel_r in E.
  Qed.
  Lemma array_eq m x y : In (GMessage m) ts -> In x (arrays (m_types m)) -> In y (arrays (m_types m)) ->
    formal_eq (array_formal x) (array_formal y) = id_eq (pre (fst x)) (pre (fst y)).
  Proof.
    intros I A B. destruct (id_eq (pre (fst x)) (pre (fst y))) eqn:E.
    - apply id_low, pre_inj in E. assert (x = y) as ->; [|apply formal_refl]. destruct x as [i x], y as [j y]. rewrite !arrays_in in *. now apply (array_same m).
    - destruct (formal_eq (array_formal x) (array_formal y)) eqn:F; [|reflexivity]. exfalso. unfold formal_eq in F. rewrite !andb_true_iff in F. destruct F as [[F _] _].
      apply String.eqb_eq in F. apply (array_names m) in F; auto. subst y. now rewrite id_refl in E.
  Qed.
  Lemma message_parts m : In (GMessage m) ts -> exists l, formal_part (types_formal prefix :: flat_map (field_formals prefix) (m_types m)) = types_formal prefix :: map array_formal l
    /\ array_ids prefix m = map (fun x => pre (fst x)) l /\ incl l (arrays (m_types m)).
  Proof.
    intros I. rewrite formals_arrays by exact I. rewrite ids_arrays. unfold formal_part. cbn [dedup existsb app].
    rewrite dedup_skip; [|intros x J; apply in_map_iff in J as (y & <- & _); apply types_not_array].
    destruct (dedup_map formal_eq id_eq array_formal (fun x => pre (fst x)) (arrays (m_types m)) []) as (l & A & B & C).
    - intros x y J K. now apply (array_eq m).
    - exists l. cbn [map] in A, B. rewrite A, B. auto.
  Qed.

  (** messages of refinements *)
  Lemma types_not_message m : In (GMessage m) ts -> formal_eq (message_formal prefix m) (types_formal prefix) = false.
  Proof.
    intros I. unfold formal_eq. destruct (String.eqb_spec (lower (f_identifier (message_formal prefix m))) (lower (f_identifier (types_formal prefix)))) as [E|]; [|reflexivity].
    exfalso. apply (f_equal (has_char "_")) in E. cbn [message_formal f_identifier types_formal] in E. rewrite underscore in E; [discriminate E|].
    destruct (type_parts prefix ts Sd (GMessage m) (m_id m) I eq_refl) as (p & n & -> & _). unfold flat_name. cbn [String.concat].
    rewrite !has_char_append. cbn. now rewrite !orb_true_r.
  Qed.
  Lemma message_names m m' : In (GMessage m) ts -> In (GMessage m') ts ->
    lower (f_identifier (message_formal prefix m)) = lower (f_identifier (message_formal prefix m')) -> m = m'.
  Proof.
    intros I J E. cbn [message_formal f_identifier] in E. apply (g_flat _ _ Sd m m' I J) in E.
    assert (T : GMessage m = GMessage m') by (apply (same_type prefix ts Sd _ _ (m_id m) (m_id m')); auto). now injection T.
  Qed.
  Lemma message_eq m m' : In (GMessage m) ts -> In (GMessage m') ts ->
    formal_eq (message_formal prefix m) (message_formal prefix m') = id_eq (pre (m_id m)) (pre (m_id m')).
  Proof.
    intros I J. destruct (id_eq (pre (m_id m)) (pre (m_id m'))) eqn:E.
    - apply id_low, pre_inj in E. assert (T : GMessage m = GMessage m') by (apply (same_type prefix ts Sd _ _ (m_id m) (m_id m')); auto). injection T as ->. apply formal_refl.
    - destruct (formal_eq (message_formal prefix m) (message_formal prefix m')) eqn:F; [|reflexivity]. exfalso. unfold formal_eq in F. rewrite !andb_true_iff in F. destruct F as [[F _] _].
      apply String.eqb_eq in F. apply message_names in F; auto. subst m'. now rewrite id_refl in E.
  Qed.
  Definition involved (q : ident) : list message := flat_map (fun r => parameters (r_pdu r) (r_sdu r)) (refs_of ts q).
  Lemma involved_in q m : In m (involved q) -> In (GMessage m) ts /\ m_types m <> [].
  Proof.
    intros I. apply in_flat_map in I as (r & Ir & I). apply filter_In in Ir as [Ir _]. apply refs_in in Ir. apply in_split in Ir as (a & b & E).
    pose proof (g_order _ _ Sd a _ b E) as O. cbn [refers] in O. destruct O as (O1 & O2 & O3 & _).
    assert (Ia : incl a ts) by (rewrite E; intros z Z; apply in_app_iff; now left). unfold parameters in I. destruct I as [<-|I]; [auto|].
    destruct (m_types (r_sdu r)) eqn:T; [contradiction|]. destruct I as [<-|[]]. split; [auto|congruence].
  Qed.
  Lemma contains_parts q : exists l, formal_part ([types_formal prefix] ++ map (message_formal prefix) (involved q)) = types_formal prefix :: map (message_formal prefix) l
    /\ contains_ids prefix (refs_of ts q) = map (fun m => pre (m_id m)) l /\ incl l (involved q).
  Proof.
    unfold contains_ids, formal_part. fold (involved q). cbn [dedup existsb app].
    rewrite dedup_skip; [|intros x J; apply in_map_iff in J as (y & <- & J); apply types_not_message; now apply (involved_in q)].
    rewrite dedup_skip.
    2: { intros x J. apply in_map_iff in J as (m & <- & J). apply id_low_false. intros L. apply pre_inj in L. apply involved_in in J as [J _].
         destruct (type_parts prefix ts Sd (GMessage m) (m_id m) J eq_refl) as (p & n & Q & _). rewrite Q in L. discriminate (f_equal (@List.length string) L). }
    destruct (dedup_map formal_eq id_eq (message_formal prefix) (fun m => pre (m_id m)) (involved q) []) as (l & A & B & C).
    - intros x y J K. cbn [app] in J, K. apply message_eq; now apply (involved_in q).
    - exists l. cbn [map] in A, B. rewrite A, B. auto.
  Qed.

  Lemma in_own t e : In t ts -> In e (own prefix t) -> In (snd e) (map snd d).
  Proof.
    intros I J. apply in_map. apply (units_of prefix ts Sd d Hd). unfold all_units. apply in_app_iff. right. apply in_app_iff. left. apply in_flat_map. now exists t.
  Qed.
  Lemma in_gen u : In u (map snd d) -> In u program.
  Proof. intros I. apply in_app_iff. now left. Qed.
  Lemma in_lib u : In u (library prefix) -> In u program.
  Proof. intros I. apply in_app_iff. right. apply in_app_iff. now left. Qed.
  Lemma suits_types f : f_generic f = pre GENERIC_TYPES -> f_associations f = [] -> suits prefix d f (pre TYPES).
  Proof.
    intros G A. eexists _, _, _, _. split; [apply in_lib; cbn; do 6 right; left; reflexivity|]. split; [reflexivity|]. rewrite G. split; [reflexivity|]. now rewrite A.
  Qed.
  Lemma suits_array i x e : In (GArray i x e) ts -> suits prefix d (array_formal (i, x)) (pre i).
  Proof.
    intros I. pose proof (in_own _ (pre i, array_unit prefix i x e) I ltac:(now left)) as J. apply in_gen in J. cbn [snd] in J.
    destruct x; (eexists _, _, _, _; split; [exact J|]; split; [reflexivity|]; split; [reflexivity|]; intros _; eexists; reflexivity).
  Qed.
  Lemma suits_message m : In (GMessage m) ts -> m_types m <> [] -> suits prefix d (message_formal prefix m) (pre (m_id m)).
  Proof.
    intros I T. pose proof (in_own _ _ I (instance_own prefix m (or_intror T))) as J. apply in_gen in J.
    eexists _, _, _, _. split; [exact J|]. split; [reflexivity|]. split; [reflexivity|]. intros _. eexists. reflexivity.
  Qed.
  (** the message that has the generic package of a message *)
  Lemma generic_source m : In (GMessage m) ts -> instantiated m -> exists m', In (GMessage m') ts /\ generic m' /\ low (pre (generic_name (m_id m'))) = low (generic_of prefix m) /\ m_types m' = m_types m.
  Proof.
    intros I H. pose proof I as I0. apply in_split in I as (a & b & E). pose proof (g_order _ _ Sd a _ b E) as O. cbn [refers] in O. destruct O as [O _].
    assert (Ia : incl a ts) by (rewrite E; intros z Z; apply in_app_iff; now left). unfold generic_of.
    assert (P : forall k, In (GMessage k) ts -> m_id k <> []).
    { intros k K. destruct (type_parts prefix ts Sd (GMessage k) (m_id k) K eq_refl) as (p & n & -> & _). discriminate. }
    destruct (m_base m) as [ba|] eqn:B.
    - destruct (O ba eq_refl) as (m' & I' & G & <- & T). exists m'. split; [auto|]. split; [exact G|]. split; [|exact T]. rewrite generic_pre; [reflexivity|apply P; auto].
    - exists m. split; [exact I0|]. split; [split; [exact B|destruct H; congruence]|]. split; [|reflexivity]. rewrite generic_pre; [reflexivity|now apply P].
  Qed.
  Lemma fits_list fs l w (X : Type) (f : X -> formal) (g : X -> ident) xs : fs = types_formal prefix :: map f xs -> l = pre TYPES :: map g xs ->
    In (pre TYPES) w -> incl (map g xs) w -> (forall x, In x xs -> suits prefix d (f x) (g x)) ->
    (forall n h, nth_error fs n = Some h -> exists a, nth_error l n = Some a /\ suits prefix d h a /\ In a w) /\ List.length l = List.length fs.
  Proof.
    intros -> -> W1 W2 S. split; [|cbn; now rewrite !map_length]. intros [|n] h H; cbn in H |- *.
    - injection H as <-. exists (pre TYPES). split; [reflexivity|]. split; [now apply suits_types|exact W1].
    - rewrite nth_error_map in H. rewrite nth_error_map. destruct (nth_error xs n) as [x|] eqn:E; [|discriminate]. cbn in H |- *. injection H as <-.
      apply nth_error_In in E. exists (g x). split; [reflexivity|]. split; [now apply S|]. apply W2. now apply in_map.
  Qed.
  Definition fitting (w : list ident) (l : list ident) (fs : list formal) : Prop :=
    forall n f, nth_error (formal_part fs) n = Some f -> exists a, nth_error l n = Some a /\ suits prefix d f a /\ In a w.
  Lemma instances_fit j w g l : In (Instance j w g l) (map snd d) ->
    In g w /\ exists g' w' fs, In (Package g' w' (Some fs)) program /\ low g' = low g /\ fitting w l fs
      /\ (In (Package g' w' (Some fs)) (map snd d) -> List.length l = List.length (formal_part fs)).
  Proof.
    intros I. apply in_map_iff in I as (e & U & I). apply (units_of prefix ts Sd d Hd) in I.
    destruct (entry_cases prefix ts Sd e I) as [(p & s & -> & -> & _)|[(t & i & It & H & J & K & Ui)|(q & s & Iq & -> & P & H)]].
    - discriminate U.
    - destruct t as [k|k x el| |m|p pdu sdu vs]; cbn [own] in H; try contradiction.
      + destruct H as [<-|[]]. cbn [snd] in U.
        assert (N : forall fs0 r, formal_part [types_formal prefix] = fs0 -> In (pre TYPES) w -> l = pre TYPES :: r -> fitting w l [types_formal prefix]).
        { intros fs0 r _ W ->. intros [|[|n]] f F; cbn in F; try discriminate. injection F as <-. exists (pre TYPES). split; [reflexivity|]. split; [now apply suits_types|exact W]. }
        assert (Out : forall v x0, In (Package (pre [v]) x0 (Some [types_formal prefix])) (map snd d) -> In v ["RFLX_Message_Sequence"; "RFLX_Scalar_Sequence"] -> False).
        { intros v x0 A B. apply in_map_iff in A as (e' & U' & A). apply (units_of prefix ts Sd d Hd) in A. destruct (entry_id prefix ts Sd e' A) as (j' & V & _ & C).
          rewrite U' in V. cbn [unit_id] in V. assert (V' : low (pre [v]) = low (pre j')) by now rewrite V. apply pre_inj in V'.
          destruct C as [(s & -> & C)|(s & n & -> & C & _)]; cbn in V'; [injection V' as V'; apply C; rewrite <- V'|discriminate V'].
          destruct B as [<-|[<-|[]]]; cbn; tauto. }
        destruct x; injection U as <- <- <- <-.
        * split; [now left|]. eexists _, _, _. split; [apply in_lib; cbn; do 4 right; left; reflexivity|]. split; [reflexivity|]. split.
          -- eapply N; [reflexivity|right; right; now left|reflexivity].
          -- intros Z. exfalso. apply (Out _ _ Z). now left.
        * split; [now left|]. eexists _, _, _. split; [apply in_lib; cbn; do 5 right; left; reflexivity|]. split; [reflexivity|]. split.
          -- eapply N; [reflexivity|right; right; now left|reflexivity].
          -- intros Z. exfalso. apply (Out _ _ Z). right. now left.
      + assert (Hm : e = message_unit prefix m /\ instantiated m).
        { unfold instantiated. destruct (m_base m); [|destruct (m_types m)]; try contradiction; cbn in H.
          - destruct H as [<-|[]]. split; [reflexivity|left; discriminate].
          - destruct H as [<-|[<-|[]]]; [discriminate U|]. split; [reflexivity|right; discriminate]. }
        destruct Hm as [-> Hm]. clear H. cbn [message_unit snd] in U. injection U as <- <- <- <-. split; [now left|].
        destruct (generic_source m It Hm) as (m' & Im' & G & Lg & T). destruct (message_parts m' Im') as (xs & A & B & C).
        pose proof (in_own _ _ Im' (generic_own prefix m' G)) as Ig. eexists _, _, _. split; [apply in_gen; exact Ig|]. split; [exact Lg|].
        assert (B' : array_ids prefix m = map (fun x => pre (fst x)) xs) by (rewrite <- B; rewrite !ids_arrays; now rewrite T).
        destruct (fits_list _ ([pre TYPES] ++ array_ids prefix m) ([generic_of prefix m; pre TYPES] ++ array_ids prefix m) _ array_formal (fun x => pre (fst x)) xs A) as [F1 F2].
        * now rewrite B'.
        * right. now left.
        * rewrite <- B'. intros z Z. right. now right.
        * intros [i' x] Ix. apply C, arrays_in in Ix. rewrite T in Ix. destruct (field_array m i' x It Ix) as (el & Ia). now apply (suits_array i' x el).
        * split; [exact F1|intros _; exact F2].
    - destruct H as [-> | ->]; [discriminate U|]. cbn [contains_unit snd] in U. injection U as <- <- <- <-. split; [right; now left|].
      destruct (contains_parts [s]) as (xs & A & B & C).
      assert (Ig : In (snd (gcontains_unit prefix [s] (refs_of ts [s]))) (map snd d)).
      { apply in_map. apply (units_of prefix ts Sd d Hd). apply in_app_iff. right. apply in_app_iff. right. apply contains_in. exists [s]. auto. }
      eexists _, _, _. split; [apply in_gen; exact Ig|]. split; [rewrite (generic_pre prefix [s; REFINEMENT_PACKAGE]) by discriminate; reflexivity|].
      destruct (fits_list _ ([pre TYPES] ++ contains_ids prefix (refs_of ts [s]))
        ([pre TYPES; generic_name (pre ([s] ++ [REFINEMENT_PACKAGE]))] ++ contains_ids prefix (refs_of ts [s])) _ (message_formal prefix) (fun m => pre (m_id m)) xs A) as [F1 F2].
      + now rewrite B.
      + now left.
      + rewrite <- B. intros z Z. right. now right.
      + intros m Im. apply C, involved_in in Im as [Im T]. now apply suits_message.
      + split; [exact F1|intros _; exact F2].
  Qed.
  Lemma formals_named i w fs : In (Package i w (Some fs)) program ->
    NoDup (map (fun f => lower (f_identifier f)) (formal_part fs)) /\
    forall f, In f fs -> In (f_generic f) w /\ exists g' w' fs', In (Package g' w' (Some fs')) program /\ low g' = low (f_generic f).
  Proof.
    assert (Ty : forall f, f = types_formal prefix -> exists g' w' fs', In (Package g' w' (Some fs')) program /\ low g' = low (f_generic f)).
    { intros f ->. eexists _, _, _. split; [apply in_lib; cbn; do 3 right; left; reflexivity|reflexivity]. }
    assert (One : NoDup (map (fun f => lower (f_identifier f)) (formal_part [types_formal prefix]))) by (repeat constructor; intros []).
    intros I. unfold P_GenUnits.program in I. rewrite !in_app_iff in I. destruct I as [I|[I|I]].
    - apply in_map_iff in I as (e & U & I). apply (units_of prefix ts Sd d Hd) in I.
      destruct (entry_cases prefix ts Sd e I) as [(p & s & -> & -> & _)|[(t & k & It & H & J & K & Ui)|(q & s & Iq & -> & P & H)]].
      + discriminate U.
      + destruct t as [k'|k' x el| |m|p pdu sdu vs]; cbn [own] in H; try contradiction.
        * destruct H as [<-|[]]. destruct x; discriminate U.
        * assert (Hm : e = generic_unit prefix m /\ generic m).
          { unfold generic. destruct (m_base m); [|destruct (m_types m)]; try contradiction; cbn in H.
            - destruct H as [<-|[]]. discriminate U.
            - destruct H as [<-|[<-|[]]]; [|discriminate U]. split; [reflexivity|]. split; [reflexivity|discriminate]. }
          destruct Hm as [-> G]. cbn [generic_unit snd] in U. injection U as <- <- <-. split.
          -- apply dedup_nodup; [exact formal_refl|exact formal_sym|]. rewrite formals_arrays by exact It. intros x y [<-|X] [<-|Y] E.
             ++ apply formal_refl.
             ++ exfalso. apply in_map_iff in Y as (v & <- & _). symmetry in E.
                apply (f_equal (has_char "_")) in E. cbn [array_formal f_identifier types_formal] in E. rewrite underscore in E; [discriminate E|]. rewrite has_char_append. cbn. now rewrite orb_true_r.
             ++ exfalso. apply in_map_iff in X as (v & <- & _).
                apply (f_equal (has_char "_")) in E. cbn [array_formal f_identifier types_formal] in E. rewrite underscore in E; [discriminate E|]. rewrite has_char_append. cbn. now rewrite orb_true_r.
             ++ apply in_map_iff in X as (u & <- & X). apply in_map_iff in Y as (v & <- & Y). rewrite (array_names m u v It X Y E). apply formal_refl.
          -- intros f [<-|F]; [split; [apply in_app_iff; right; now left|now apply Ty]|]. pose proof F as F0. rewrite formals_arrays in F by exact It.
             apply in_map_iff in F as ([i' x] & <- & F). apply arrays_in in F. split.
             ++ apply in_app_iff. right. right. apply in_flat_map. exists (FArray i' x). split; [exact F|]. unfold field_withs. cbn [f_id].
                destruct (field_array m i' x It F) as (el & Ia). pose proof (g_own _ _ Sd _ Ia) as N. cbn in N.
                assert (id_eq (parent i') BUILTINS || id_eq (parent i') INTERNAL = false) as ->; [|now left].
                apply orb_false_iff. rewrite !id_low_false. unfold predefined in N. tauto.
             ++ cbn [array_formal f_generic snd]. destruct x; eexists _, _, _; (split; [apply in_lib|reflexivity]); cbn; [do 4 right|do 5 right]; left; reflexivity.
      + destruct H as [-> | ->]; [|discriminate U]. cbn [gcontains_unit snd] in U. injection U as <- <- <-. fold (involved [s]). split.
        * apply dedup_nodup; [exact formal_refl|exact formal_sym|].
          assert (Un : forall m, In m (involved [s]) -> has_char "_" (lower (flat_name (m_id m))) = true).
          { intros m Im. apply underscore. apply involved_in in Im as [Im _]. destruct (type_parts prefix ts Sd (GMessage m) (m_id m) Im eq_refl) as (p & n & -> & _).
            unfold flat_name. cbn [String.concat]. rewrite !has_char_append. cbn. now rewrite !orb_true_r. }
          intros x y [<-|X] [<-|Y] E.
          -- apply formal_refl.
          -- exfalso. apply in_map_iff in Y as (v & <- & Y). apply (f_equal (has_char "_")) in E. cbn [message_formal f_identifier types_formal] in E. rewrite Un in E by exact Y. discriminate E.
          -- exfalso. apply in_map_iff in X as (v & <- & X). apply (f_equal (has_char "_")) in E. cbn [message_formal f_identifier types_formal] in E. rewrite Un in E by exact X. discriminate E.
          -- apply in_map_iff in X as (u & <- & X). apply in_map_iff in Y as (v & <- & Y). rewrite (message_names u v); [apply formal_refl| | |exact E]; now apply (involved_in [s]).
        * intros f [<-|F]; [split; [now left|now apply Ty]|]. apply in_map_iff in F as (m & <- & F). pose proof (involved_in _ _ F) as [Im T]. split.
          -- right. apply in_flat_map in F as (r & Ir & F). apply in_flat_map. exists r. split; [exact Ir|]. unfold refinement_withs. cbn [message_formal f_generic].
             apply in_app_iff. right. apply in_app_iff. right. apply in_app_iff. unfold parameters in F. destruct F as [<-|F]; [left; now left|right].
             destruct (m_types (r_sdu r)); [contradiction|]. destruct F as [<-|[]]. now left.
          -- destruct (generic_source m Im (or_intror T)) as (m' & Im' & G & Lg & _). eexists _, _, _. split; [apply in_gen; exact (in_own _ _ Im' (generic_own prefix m' G))|exact Lg].
    - cbn in I. destruct I as [I|[I|[I|[I|[I|[I|[I|[]]]]]]]]; try discriminate I; injection I as <- <- <-.
      + split; [constructor|intros f []].
      + split; [exact One|]. intros f [<-|[]]. split; [now left|now apply Ty].
      + split; [exact One|]. intros f [<-|[]]. split; [now left|now apply Ty].
    - unfold top in I. destruct prefix; [destruct I|]. destruct I as [I|[]]. discriminate I.
  Qed.
End Fit.

(** ** Theorems *)

(** Generation succeeds.  The names of the generated units are exactly those of the packages of
    the types, of the messages and their generic packages, of the arrays and of the refinements
    of each package.  No two units have the same name. *)
Theorem C63_units prefix ts : sound prefix ts -> exists d, generate prefix ts [] = Ok d
  /\ NoDup (map uid (program prefix d))
  /\ forall n, In n (map uid (map snd d)) <-> exists t j, In t ts /\ ~ predefined (package_of t) /\ In j (names t) /\ n = low (prefix ++ j).
Proof.
  intros Sd. destruct (generate_inv prefix ts Sd [] ts [] eq_refl (inv_nil prefix)) as (d & Hd & _). exists d. split; [exact Hd|].
  split; [exact (program_ids prefix ts Sd d Hd)|exact (unit_names prefix ts Sd d Hd)].
Qed.
(** Each unit in a context clause and each parent is a unit of the program, and there is no
    circular dependency. *)
Theorem C63_order prefix ts d u : sound prefix ts -> generate prefix ts [] = Ok d -> In u (program prefix d) ->
  (forall w, requires prefix u w -> exists v, In v (program prefix d) /\ uid v = low w) /\ Acc (needs prefix d) u.
Proof. intros Sd Hd I. split; [intros w; now apply (closed prefix ts Sd d Hd)|exact (acyclic prefix ts Sd d Hd u I)]. Qed.
(** The files that are written have different names.  Each unit of the program has a
    specification file, except for the package of a prefix other than the default one. *)
Theorem C63_files prefix ts d : sound prefix ts -> generate prefix ts [] = Ok d ->
  NoDup (written prefix d)
  /\ (forall u, In u (program prefix d) -> uid u <> low prefix \/ prefix = ["RFLX"] -> In (file_name (unit_id u) ++ ".ads")%string (written prefix d)).
Proof.
  intros Sd Hd. split; [exact (files_distinct prefix ts d Sd Hd)|].
  intros u I N. destruct (files_complete prefix d u I) as [[J Q]|J]; [exfalso|exact J]. destruct N as [N| ->]; [|discriminate Q].
    apply N. unfold top in J. destruct prefix as [|c l]; [destruct J|]. destruct J as [<-|[]]. reflexivity.
Qed.
(** Each instantiation names a generic package that is in its context clause.  For each formal
    package there is an actual package at the same place, which is an instance of the right
    generic package and in the context clause; for generated generic packages there are no
    other actual parameters. *)
Theorem C63_instances prefix ts d j w g l : sound prefix ts -> generate prefix ts [] = Ok d -> In (Instance j w g l) (map snd d) ->
  In g w /\ exists g' w' fs, In (Package g' w' (Some fs)) (program prefix d) /\ low g' = low g
    /\ (forall n f, nth_error (formal_part fs) n = Some f -> exists a, nth_error l n = Some a /\ suits prefix d f a /\ In a w)
    /\ (In (Package g' w' (Some fs)) (map snd d) -> List.length l = List.length (formal_part fs)).
Proof. intros Sd Hd. exact (instances_fit prefix ts Sd d Hd j w g l). Qed.
(** The formal packages of a generic package have different names.  Each is an instance of a
    generic package that is in the context clause. *)
Theorem C63_formals prefix ts d i w fs : sound prefix ts -> generate prefix ts [] = Ok d -> In (Package i w (Some fs)) (program prefix d) ->
  NoDup (map (fun f => lower (f_identifier f)) (formal_part fs)) /\
  forall f, In f fs -> In (f_generic f) w /\ exists g' w' fs', In (Package g' w' (Some fs')) (program prefix d) /\ low g' = low (f_generic f).
Proof. intros Sd Hd. exact (formals_named prefix ts Sd d Hd i w fs). Qed.

(** ** A model *)
Definition case_op : ftype := FOpaque ["__INTERNAL__"; "Opaque"].
Definition case_m : message := mkMsg ["P"; "M"] None [FScalar ["P"; "S"]; FArray ["P"; "Nums"] false; case_op].
Definition case_dm : message := mkMsg ["Q"; "D"] (Some ["P"; "M"]) [FScalar ["P"; "S"]; FArray ["P"; "Nums"] false; case_op].
Definition case_nm : message := mkMsg ["Q"; "N"] None [].
Definition case_bm : message := mkMsg ["Q"; "B"] None [FScalar ["P"; "S"]; FArray ["Q"; "Ms"] true; FScalar ["__BUILTINS__"; "Boolean"]; FArray ["P"; "Nums"] false; FArray ["Q"; "Ms"] true].
Definition case_types : list gtype :=
  [GScalar ["__BUILTINS__"; "Boolean"]; GOpaque; GScalar ["P"; "S"]; GArray ["P"; "Nums"] false ["P"; "S"]; GMessage case_m;
   GArray ["Q"; "Ms"] true ["P"; "M"]; GMessage case_dm; GMessage case_nm; GMessage case_bm;
   GRefinement ["Q"] case_m case_nm []; GRefinement ["Q"] case_bm case_dm [["P"; "S"]; ["Y"]]; GRefinement ["P"] case_m case_m []].
Local Ltac each H := repeat (destruct H as [<-|H]); try contradiction.
Local Ltac walk b E := destruct b as [|? b]; [first [discriminate E|injection E as <- _]|first [discriminate E|injection E as <- E; walk b E]].
Example C63_case : sound ["RFLX"] case_types.
Proof.
  constructor.
  - intros s [<-|[]]. reflexivity.
  - intros i H. cbn in H. each H; (eexists _, _; split; [reflexivity|]; split; reflexivity).
  - intros p pdu sdu vs H. cbn in H. repeat (destruct H as [H|H]; [try discriminate H; injection H as <- <- <- <-; eexists; split; reflexivity|]). contradiction.
  - intros t H. cbn in H. each H; try exact I; unfold predefined; intros [Z|Z]; vm_compute in Z; discriminate Z.
  - vm_compute. repeat constructor; cbn; intuition discriminate.
  - intros before t after E.
    walk before E.
    all: cbn [refers]; try exact I.
    all: try (split; [cbn; tauto|intros [Z|Z]; vm_compute in Z; discriminate Z]).
    + split; [intros b Z; discriminate Z|]. intros f [<-|[<-|[<-|[]]]].
      * right. split; [cbn; tauto|intros [Z|Z]; vm_compute in Z; discriminate Z].
      * eexists. cbn. do 3 right. left. reflexivity.
      * reflexivity.
    + exists case_m. split; [cbn; tauto|]. split; [reflexivity|discriminate].
    + split.
      * intros b Z. injection Z as <-. exists case_m. split; [cbn; tauto|]. split; [split; [reflexivity|discriminate]|]. split; reflexivity.
      * intros f [<-|[<-|[<-|[]]]].
        -- right. split; [cbn; tauto|intros [Z|Z]; vm_compute in Z; discriminate Z].
        -- eexists. cbn. do 3 right. left. reflexivity.
        -- reflexivity.
    + split; [intros b Z; discriminate Z|]. intros f [].
    + split; [intros b Z; discriminate Z|]. intros f [<-|[<-|[<-|[<-|[<-|[]]]]]].
      * right. split; [cbn; tauto|intros [Z|Z]; vm_compute in Z; discriminate Z].
      * eexists. cbn. do 5 right. left. reflexivity.
      * left. reflexivity.
      * eexists. cbn. do 3 right. left. reflexivity.
      * eexists. cbn. do 5 right. left. reflexivity.
    + split; [cbn; tauto|]. split; [cbn; tauto|]. split; [discriminate|]. intros v [].
    + split; [cbn; tauto|]. split; [cbn; tauto|]. split; [discriminate|]. intros v [<-|[<-|[]]] L N; [|discriminate L].
      exists (GScalar ["P"; "S"]). split; [cbn; tauto|]. split; [reflexivity|intros [Z|Z]; vm_compute in Z; discriminate Z].
    + split; [cbn; tauto|]. split; [cbn; tauto|]. split; [discriminate|]. intros v [].
  - intros t s H E. cbn in H. each H; vm_compute in E; injection E as <-; cbn; intuition discriminate.
  - intros x t i H G J K L. cbn in H. repeat (destruct H as [H|H]; [try discriminate H; injection H as <-|]); try contradiction;
    cbn in J; each J; try contradiction; subst i; vm_compute in L; discriminate L.
  - intros p pdu sdu vs t i H J K. cbn in H. repeat (destruct H as [H|H]; [try discriminate H; injection H as <- <- <- <-|]); try contradiction;
    cbn in J; each J; try contradiction; subst i; split; intros L; vm_compute in L; discriminate L.
  - intros x i a j b H J K L. cbn in H. repeat (destruct H as [H|H]; [try discriminate H; injection H as <-|]); try contradiction;
    cbn in J, K; repeat (destruct J as [J|J]; [try discriminate J; injection J as <- <-|]); try contradiction;
    repeat (destruct K as [K|K]; [try discriminate K; injection K as <- <-|]); try contradiction; first [reflexivity|vm_compute in L; discriminate L].
  - intros x y H J L. cbn in H, J. repeat (destruct H as [H|H]; [try discriminate H; injection H as <-|]); try contradiction;
    repeat (destruct J as [J|J]; [try discriminate J; injection J as <-|]); try contradiction; first [reflexivity|vm_compute in L; discriminate L].
Qed.

Definition case_units : units := match generate ["RFLX"] case_types [] with Ok d => d | Err _ => [] end.
Lemma case_generate : generate ["RFLX"] case_types [] = Ok case_units.
Proof. vm_compute. reflexivity. Qed.
(** the instance for the refinements of package Q and its generic package *)
Example C63_case_units :
  map (fun u => flat_name (unit_id u)) (map snd case_units)
  = ["RFLX_P"; "RFLX_P_Nums"; "RFLX_P_Generic_M"; "RFLX_P_M"; "RFLX_Q"; "RFLX_Q_Ms"; "RFLX_Q_D"; "RFLX_Q_Generic_B"; "RFLX_Q_B";
     "RFLX_Q_Generic_Contains"; "RFLX_Q_Contains"; "RFLX_P_Generic_Contains"; "RFLX_P_Contains"]
  /\ lookup ["Q"; "Contains"] case_units
     = Some (Instance ["RFLX"; "Q"; "Contains"]
               [["RFLX"; "RFLX_Types"]; ["RFLX"; "Q"; "Generic_Contains"]; ["RFLX"; "P"; "M"]; ["RFLX"; "Q"; "B"]; ["RFLX"; "Q"; "D"]]
               ["RFLX"; "Q"; "Generic_Contains"]
               [["RFLX"; "RFLX_Types"]; ["RFLX"; "P"; "M"]; ["RFLX"; "Q"; "B"]; ["RFLX"; "Q"; "D"]])
  /\ match lookup ["Q"; "Generic_Contains"] case_units with
     | Some (Package _ _ (Some fs)) => map f_identifier (formal_part fs) = ["Types"; "P_M"; "Q_B"; "Q_D"]
     | _ => False
     end
  /\ match lookup ["Q"; "Generic_B"] case_units with
     | Some (Package _ w (Some fs)) => map f_identifier (formal_part fs) = ["Types"; "Ms_Sequence"; "Nums_Sequence"] /\ In ["RFLX"; "P"] w
     | _ => False
     end.
Proof. vm_compute. repeat split. do 3 right. now left. Qed.
Example C63_case_files : written ["RFLX"] case_units =
  ["rflx-p.ads"; "rflx-p.adb"; "rflx-p-nums.ads"; "rflx-p-generic_m.ads"; "rflx-p-generic_m.adb"; "rflx-p-m.ads"; "rflx-q.ads"; "rflx-q.adb";
   "rflx-q-ms.ads"; "rflx-q-d.ads"; "rflx-q-generic_b.ads"; "rflx-q-generic_b.adb"; "rflx-q-b.ads"; "rflx-q-generic_contains.ads";
   "rflx-q-generic_contains.adb"; "rflx-q-contains.ads"; "rflx-p-generic_contains.ads"; "rflx-p-generic_contains.adb"; "rflx-p-contains.ads";
   "rflx-rflx_arithmetic.ads"; "rflx-rflx_builtin_types-conversions.ads"; "rflx-rflx_builtin_types.ads"; "rflx-rflx_generic_types.ads";
   "rflx-rflx_message_sequence.ads"; "rflx-rflx_scalar_sequence.ads"; "rflx-rflx_types.ads"; "rflx-rflx_arithmetic.adb";
   "rflx-rflx_generic_types.adb"; "rflx-rflx_message_sequence.adb"; "rflx-rflx_scalar_sequence.adb"; "rflx.ads"].
Proof. vm_compute. reflexivity. Qed.
(** the theorems apply *)
Example C63_case_instance : In ["RFLX"; "P"; "Generic_M"] [["RFLX"; "P"; "Generic_M"]; ["RFLX"; "RFLX_Types"]; ["RFLX"; "P"; "Nums"]]
  /\ exists g' w' fs, In (Package g' w' (Some fs)) (program ["RFLX"] case_units) /\ low g' = low ["RFLX"; "P"; "Generic_M"]
    /\ (forall n f, nth_error (formal_part fs) n = Some f -> exists a, nth_error [["RFLX"; "RFLX_Types"]; ["RFLX"; "P"; "Nums"]] n = Some a
          /\ suits ["RFLX"] case_units f a /\ In a [["RFLX"; "P"; "Generic_M"]; ["RFLX"; "RFLX_Types"]; ["RFLX"; "P"; "Nums"]])
    /\ (In (Package g' w' (Some fs)) (map snd case_units) -> List.length [["RFLX"; "RFLX_Types"]; ["RFLX"; "P"; "Nums"]] = List.length (formal_part fs)).
Proof.
  apply (C63_instances ["RFLX"] case_types case_units ["RFLX"; "Q"; "D"]); [exact C63_case|exact case_generate|].
  vm_compute. do 6 right. now left.
Qed.

(** ** Models that are not sound *)

Definition scalar : ftype := FScalar ["P"; "S"].

(** The generic package of the message M is lost when there is a message Generic_M: the
    instantiation for M names the package of Generic_M, which is no generic package.  When
    Generic_M is an array, then the same file is written twice. *)
Theorem C63_generic_name_refuted : exists ts d j w g l, generate [] ts [] = Ok d /\ In (Instance j w g l) (map snd d)
  /\ ~ exists g' w' fs, In (Package g' w' (Some fs)) (program [] d) /\ low g' = low g.
Proof.
  exists [GScalar ["P"; "S"]; GMessage (mkMsg ["P"; "M"] None [scalar]); GMessage (mkMsg ["P"; "Generic_M"] None [scalar])].
  eexists _, _, _, _, _. split; [vm_compute; reflexivity|]. split; [right; right; left; reflexivity|].
  intros (g' & w' & fs & I & L). cbn in I. repeat (destruct I as [I|I]; [try discriminate I; injection I as <- <- <-; vm_compute in L; discriminate L|]). contradiction.
Qed.
Theorem C63_array_generic_refuted : exists ts d, generate ["RFLX"] ts [] = Ok d /\ ~ NoDup (written ["RFLX"] d).
Proof.
  exists [GScalar ["P"; "S"]; GArray ["P"; "Generic_M"] false ["P"; "S"]; GMessage (mkMsg ["P"; "M"] None [scalar])].
  eexists. split; [vm_compute; reflexivity|]. intros N. vm_compute in N. do 2 apply NoDup_cons_iff in N as [_ N]. apply NoDup_cons_iff in N as [N _]. apply N. cbn. tauto.
Qed.
(** A message derived from a null message names a generic package that is not generated. *)
Theorem C63_null_derived_refuted : exists ts d u w, generate [] ts [] = Ok d /\ In u (map snd d) /\ In w (unit_withs u)
  /\ ~ exists v, In v (program [] d) /\ uid v = low w.
Proof.
  exists [GMessage (mkMsg ["P"; "N"] None []); GMessage (mkMsg ["Q"; "D"] (Some ["P"; "N"]) [])].
  eexists _, _, _. split; [vm_compute; reflexivity|]. split; [right; right; left; reflexivity|]. split; [left; reflexivity|].
  intros (v & I & L). cbn in I. repeat (destruct I as [<-|I]; [vm_compute in L; discriminate L|]). contradiction.
Qed.
(** Two arrays with the same name in different packages lead to one formal package and two
    actual packages. *)
Theorem C63_array_name_refuted : exists ts d i w fs j w' g l, generate [] ts [] = Ok d
  /\ In (Package i w (Some fs)) (map snd d) /\ In (Instance j w' g l) (map snd d) /\ g = i /\ List.length (formal_part fs) < List.length l.
Proof.
  exists [GScalar ["P"; "S"]; GArray ["P"; "A"] false ["P"; "S"]; GArray ["Q"; "A"] false ["P"; "S"];
          GMessage (mkMsg ["P"; "M"] None [FArray ["P"; "A"] false; FArray ["Q"; "A"] false])].
  eexists _, _, _, _, _, _, _, _. split; [vm_compute; reflexivity|]. split; [do 4 right; left; reflexivity|]. split; [do 5 right; left; reflexivity|].
  split; [reflexivity|]. apply Nat.ltb_lt. vm_compute. reflexivity.
Qed.
(** With a message Generic_Contains in a package with refinements generation fails. *)
Theorem C63_contains_refuted : exists ts, generate [] ts [] = Err "AssertionError: unexpected unit type"
  /\ forall before t after, ts = before ++ t :: after -> refers before t.
Proof.
  exists [GScalar ["P"; "S"]; GMessage (mkMsg ["P"; "Generic_Contains"] None [scalar]); GMessage (mkMsg ["P"; "M"] None [scalar]);
          GRefinement ["P"] (mkMsg ["P"; "M"] None [scalar]) (mkMsg ["P"; "M"] None [scalar]) []].
  split; [vm_compute; reflexivity|]. intros before t after E. walk before E; cbn [refers]; auto.
  - split; [intros b Z; discriminate Z|]. intros f [<-|[]]. right. split; [cbn; tauto|intros [Z|Z]; vm_compute in Z; discriminate Z].
  - split; [intros b Z; discriminate Z|]. intros f [<-|[]]. right. split; [cbn; tauto|intros [Z|Z]; vm_compute in Z; discriminate Z].
  - split; [cbn; tauto|]. split; [cbn; tauto|]. split; [discriminate|]. intros v [].
Qed.
(** The messages A_B::C and A::B_C, derived from the same message, share a formal package. *)
Theorem C63_flat_refuted : exists ts d i w fs j w' g l, generate [] ts [] = Ok d
  /\ In (Package i w (Some fs)) (map snd d) /\ In (Instance j w' g l) (map snd d) /\ g = i /\ List.length (formal_part fs) < List.length l.
Proof.
  exists [GScalar ["P"; "S"]; GMessage (mkMsg ["P"; "M"] None [scalar]); GMessage (mkMsg ["A_B"; "C"] (Some ["P"; "M"]) [scalar]);
          GMessage (mkMsg ["A"; "B_C"] (Some ["P"; "M"]) [scalar]);
          GRefinement ["P"] (mkMsg ["A_B"; "C"] (Some ["P"; "M"]) [scalar]) (mkMsg ["A"; "B_C"] (Some ["P"; "M"]) [scalar]) []].
  eexists _, _, _, _, _, _, _, _. split; [vm_compute; reflexivity|]. split; [do 7 right; left; reflexivity|]. split; [do 8 right; left; reflexivity|].
  split; [reflexivity|]. apply Nat.ltb_lt. vm_compute. reflexivity.
Qed.
(** The file of a package Rflx_Types has the name of a file of the library.  Only names that
    start with RFLX in upper case are refused (parser.py:1145-1153). *)
Theorem C63_library_refuted : exists ts d, generate ["RFLX"] ts [] = Ok d /\ ~ NoDup (written ["RFLX"] d).
Proof.
  exists [GScalar ["Rflx_Types"; "S"]]. eexists. split; [vm_compute; reflexivity|]. intros N. vm_compute in N. apply NoDup_cons_iff in N as [N _]. apply N. cbn. tauto.
Qed.
(** For another prefix than the default one the parent of all units is not written. *)
Theorem C63_prefix_refuted : exists ts d u, sound ["My"] ts /\ generate ["My"] ts [] = Ok d /\ In u (map snd d)
  /\ requires ["My"] u ["My"] /\ ~ In (file_name ["My"] ++ ".ads")%string (written ["My"] d).
Proof.
  exists [GScalar ["P"; "S"]]. eexists. exists (Package ["My"; "P"] [] None). split; [|split; [vm_compute; reflexivity|split; [now left|split]]].
  - constructor.
    + intros s [<-|[]]. reflexivity.
    + intros i [<-|[]]. eexists _, _. split; [reflexivity|]. split; reflexivity.
    + intros p pdu sdu vs [H|[]]. discriminate H.
    + intros t [<-|[]]. exact I.
    + repeat constructor. intros [].
    + intros [|x [|y l]] t after E; try discriminate E. injection E as <- _. exact I.
    + intros t s [<-|[]] E. vm_compute in E. injection E as <-. cbn. intuition discriminate.
    + intros m t i [H|[]]. discriminate H.
    + intros p pdu sdu vs t i [H|[]]. discriminate H.
    + intros m i x j y [H|[]]. discriminate H.
    + intros m m' [H|[]]. discriminate H.
  - right. split; [reflexivity|]. split; discriminate.
  - vm_compute. intuition discriminate.
Qed.

Print Assumptions C63_units.
Print Assumptions C63_order.
Print Assumptions C63_files.
Print Assumptions C63_instances.
Print Assumptions C63_formals.
Print Assumptions C63_generic_name_refuted.
Print Assumptions C63_array_generic_refuted.
Print Assumptions C63_null_derived_refuted.
Print Assumptions C63_array_name_refuted.
Print Assumptions C63_contains_refuted.
Print Assumptions C63_flat_refuted.
Print Assumptions C63_library_refuted.
Print Assumptions C63_prefix_refuted.
