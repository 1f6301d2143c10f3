(** Property C57: the declarations of the specifications become the types of the
    model. *)
From Coq Require Import String Ascii List ZArith Bool Lia.
From Verif Require Import Base Expr Ident TypeSpec SpecModel.
From Verif Require ModelCheck SpecSort P_IdentErrors P_Types P_Model.
Import ListNotations.
Local Open Scope string_scope.
Local Open Scope list_scope.
Local Open Scope Z_scope.

(** ** What references mean *)

(** identifiers that differ in case only *)
Definition same (a b : ident) : Prop := map lower a = map lower b.
Definition is_boolean (i : ident) : Prop := same i ["Boolean"] \/ same i ["__BUILTINS__"; "Boolean"].
Definition is_opaque (i : ident) : Prop := same i ["Opaque"] \/ same i ["__INTERNAL__"; "Opaque"].
Definition plain (i : ident) : Prop := ~ is_boolean i /\ ~ is_opaque i.

(** the reference [r] in the package [pkg] stands for the identifier [i] *)
Inductive stands_for (pkg : string) : ident -> ident -> Prop :=
| for_boolean r i : is_boolean r -> same i ["__BUILTINS__"; "Boolean"] -> stands_for pkg r i
| for_opaque r i : is_opaque r -> same i ["__INTERNAL__"; "Opaque"] -> stands_for pkg r i
| for_own x i : plain [x] -> same i [pkg; x] -> stands_for pkg [x] i
| for_other r i : plain r -> List.length r <> 1%nat -> same i r -> stands_for pkg r i.

Lemma id_eq_same a b : id_eq a b = true <-> same a b.
Proof. apply P_IdentErrors.id_eq_hash. Qed.
Lemma same_sym a b : same a b -> same b a.
Proof. unfold same. congruence. Qed.
Lemma is_builtin_iff i : is_builtin_type i = true <-> is_boolean i.
Proof. unfold is_builtin_type, is_boolean. rewrite orb_true_iff, !id_eq_same. cbn. tauto. Qed.
Lemma is_internal_iff i : is_internal_type i = true <-> is_opaque i.
Proof. unfold is_internal_type, is_opaque. rewrite orb_true_iff, !id_eq_same. cbn. tauto. Qed.
Lemma not_both i : is_boolean i -> is_opaque i -> False.
Proof.
  unfold is_boolean, is_opaque, same. intros [A|A] [B|B]; rewrite A in B; vm_compute in B; discriminate.
Qed.
Lemma same_last i a : is_boolean i \/ is_opaque i -> a = ["__BUILTINS__"; "Boolean"] \/ a = ["__INTERNAL__"; "Opaque"] ->
  (is_boolean i -> a = ["__BUILTINS__"; "Boolean"]) -> (is_opaque i -> a = ["__INTERNAL__"; "Opaque"]) ->
  same (removelast a ++ [last i ""]) a.
Proof.
  intros H _ HB HO. unfold same.
  assert (L : forall j y, map lower j = [y] -> lower (last j "") = y).
  { intros [|x [|? ?]] y; cbn; congruence. }
  assert (L2 : forall j y z, map lower j = [y; z] -> lower (last j "") = z).
  { intros [|x [|x' [|? ?]]] y z; cbn; congruence. }
  destruct H as [H|H]; [rewrite (HB H)|rewrite (HO H)]; cbn [removelast app map];
    destruct H as [H|H]; unfold same in H; cbn [map] in H;
    [rewrite (L _ _ H)|rewrite (L2 _ _ _ H)|rewrite (L _ _ H)|rewrite (L2 _ _ _ H)]; reflexivity.
Qed.

Lemma stands_for_iff pkg r i : stands_for pkg r i <-> id_eq (qualified_type_identifier r [pkg]) i = true.
Proof.
  rewrite id_eq_same. unfold qualified_type_identifier.
  destruct (is_builtin_type r) eqn:EB.
  - apply is_builtin_iff in EB.
    assert (Q : same (builtins ++ [last r ""]) ["__BUILTINS__"; "Boolean"]).
    { apply (same_last r ["__BUILTINS__"; "Boolean"]); auto. intros O. destruct (not_both _ EB O). }
    unfold same in *. split.
    + intros H. destruct H as [? ? ? ?|? ? O ?|? ? [P _] ?|? ? [P _] ? ?]; try contradiction; [congruence|destruct (not_both _ EB O)].
    + intros H. apply for_boolean; [exact EB|]. unfold same. congruence.
  - destruct (is_internal_type r) eqn:EI.
    + apply is_internal_iff in EI.
      assert (Q : same (internal ++ [last r ""]) ["__INTERNAL__"; "Opaque"]).
      { apply (same_last r ["__INTERNAL__"; "Opaque"]); auto. intros O. destruct (not_both _ O EI). }
      unfold same in *. split.
      * intros H. destruct H as [? ? O ?|? ? O ?|? ? [_ P] ?|? ? [_ P] ? ?]; try contradiction; [destruct (not_both _ O EI)|congruence].
      * intros H. apply for_opaque; [exact EI|]. unfold same. congruence.
    + assert (P : plain r).
      { split; intros H; [apply is_builtin_iff in H|apply is_internal_iff in H]; congruence. }
      destruct P as [PB PO].
      destruct (Nat.eqb_spec (List.length r) 1) as [E|E].
      * destruct r as [|x [|? ?]]; try discriminate E. cbn [app]. split.
        -- intros H. inversion H; subst; try contradiction; unfold same in *; cbn in *; congruence.
        -- intros H. apply for_own; [split; assumption|]. now apply same_sym.
      * split.
        -- intros H. inversion H; subst; try contradiction; unfold same in *; cbn in *; congruence.
        -- intros H. apply for_other; [split; assumption|exact E|]. now apply same_sym.
Qed.
Lemma qualified_plain name pkg : plain [name] -> qualified_type_identifier [name] [pkg] = [pkg; name].
Proof.
  intros [PB PO]. unfold qualified_type_identifier.
  destruct (is_builtin_type [name]) eqn:EB; [apply is_builtin_iff in EB; contradiction|].
  destruct (is_internal_type [name]) eqn:EI; [apply is_internal_iff in EI; contradiction|]. reflexivity.
Qed.

(** the first and the last element with a property *)
Definition first_with {A} (P : A -> Prop) (l : list A) (t : A) : Prop :=
  exists pre post, l = pre ++ t :: post /\ P t /\ forall u, In u pre -> ~ P u.
Definition last_with {A} (P : A -> Prop) (l : list A) (t : A) : Prop :=
  exists pre post, l = pre ++ t :: post /\ P t /\ forall u, In u post -> ~ P u.

(** the type [t] is what the reference [r] in the package [pkg] refers to *)
Definition refers (pkg : string) (ts : list ty) (r : ident) (t : ty) : Prop :=
  first_with (fun u => stands_for pkg r (ty_id u)) ts t.

Lemma find_first {A} (f : A -> bool) (P : A -> Prop) l t : (forall u, f u = true <-> P u) ->
  find f l = Some t <-> first_with P l t.
Proof.
  intros FP. induction l as [|a l IH]; cbn [find].
  - split; [discriminate|]. intros ([|? ?] & post & E & _); discriminate.
  - destruct (f a) eqn:E.
    + split.
      * intros H. injection H as <-. exists [], l. repeat split; [now apply FP|]. intros u [].
      * intros ([|b pre] & post & L & Pt & N); cbn in L; injection L as <- L; [reflexivity|].
        destruct (N a (or_introl eq_refl)). now apply FP.
    + rewrite IH. split.
      * intros (pre & post & L & Pt & N). exists (a :: pre), post. rewrite L. repeat split; [exact Pt|].
        intros u [<-|I]; [|auto]. rewrite <- FP. congruence.
      * intros ([|b pre] & post & L & Pt & N); cbn in L; injection L as <- L.
        -- apply FP in Pt. congruence.
        -- exists pre, post. repeat split; [exact L|exact Pt|]. intros u I. apply N. now right.
Qed.
Lemma find_first_none {A} (f : A -> bool) (P : A -> Prop) l : (forall u, f u = true <-> P u) ->
  find f l = None <-> forall t, ~ first_with P l t.
Proof.
  intros FP. split.
  - intros H t Q. rewrite <- (find_first f P l t FP) in Q. congruence.
  - intros H. destruct (find f l) as [t|] eqn:E; [|reflexivity]. apply (find_first f P l t FP) in E. destruct (H t E).
Qed.
Lemma find_last {A} (f : A -> bool) (P : A -> Prop) l t : (forall u, f u = true <-> P u) ->
  find f (rev l) = Some t <-> last_with P l t.
Proof.
  intros FP. rewrite (find_first f P _ t FP). unfold first_with, last_with. split; intros (pre & post & L & Pt & N).
  - exists (rev post), (rev pre). split; [|split; [exact Pt|]].
    + rewrite <- (rev_involutive l), L, rev_app_distr. cbn. now rewrite <- app_assoc.
    + intros u I. apply N. now apply in_rev.
  - exists (rev post), (rev pre). split; [|split; [exact Pt|]].
    + rewrite L, rev_app_distr. cbn. now rewrite <- app_assoc.
    + intros u I. apply N. now apply in_rev.
Qed.

Lemma find_type_iff pkg ts r t :
  find_type ts (qualified_type_identifier r [pkg]) = Some t <-> refers pkg ts r t.
Proof. apply find_first. intros u. symmetry. apply stands_for_iff. Qed.
Lemma find_type_none pkg ts r :
  find_type ts (qualified_type_identifier r [pkg]) = None <-> forall t, ~ refers pkg ts r t.
Proof. apply find_first_none. intros u. symmetry. apply stands_for_iff. Qed.
Lemma find_message_iff pkg ts r t :
  find_message ts (qualified_type_identifier r [pkg]) = Some t <->
  last_with (fun u => is_message u = true /\ stands_for pkg r (ty_id u)) ts t.
Proof. apply find_last. intros u. rewrite andb_true_iff, stands_for_iff. reflexivity. Qed.

(** ** What declarations mean *)

(** the aspects of an enumeration, parser.py:1039-1070: the last size counts, and the
    last statement about always being valid *)
Definition sized (aspects : list (string * option expr)) (e : expr) : Prop :=
  (forall v, In ("Size", v) aspects -> v <> None) /\
  last_with (fun a => fst a = "Size") aspects ("Size", Some e).
Definition says_valid (v : option expr) (b : bool) : Prop :=
  match b with
  | true => v = None \/ v = Some (EVar "true")
  | false => v = Some (EVar "false")
  end.
Definition always (aspects : list (string * option expr)) (b : bool) : Prop :=
  (forall v, In ("Always_Valid", v) aspects -> exists b', says_valid v b') /\
  ((exists v, last_with (fun a => fst a = "Always_Valid") aspects ("Always_Valid", v) /\ says_valid v b)
   \/ (b = false /\ forall v, ~ In ("Always_Valid", v) aspects)).

(** the fields that have a type, in the order of their first occurrence *)
Inductive typed (pkg : string) (ts : list ty) : list (ident * ident) -> list (ident * ty) -> Prop :=
| typed_nil : typed pkg ts [] []
| typed_new l d f r t : typed pkg ts l d -> refers pkg ts r t -> (forall g u, In (g, u) d -> ~ same f g) ->
    typed pkg ts (l ++ [(f, r)]) (d ++ [(f, t)])
| typed_again l d1 g u d2 f r t : typed pkg ts l (d1 ++ (g, u) :: d2) -> refers pkg ts r t -> same f g ->
    (forall h v, In (h, v) d1 -> ~ same f h) ->
    typed pkg ts (l ++ [(f, r)]) (d1 ++ (g, t) :: d2)
| typed_unknown l d f r : typed pkg ts l d -> (forall t, ~ refers pkg ts r t) ->
    typed pkg ts (l ++ [(f, r)]) d.

Section Meaning.
  Context {B S : Type}.
  Variable n : nat.
  Variable build : ident -> B -> list (ident * ty) -> outcome (list string * (bool * list (ident * ty))).
  Variable derive : ident -> bool * list (ident * ty) -> outcome (list string * (bool * list (ident * ty))).
  Variable create_session : S -> ident -> list ty -> outcome (list string * ident).

  (** the value of a static expression *)
  Definition value (e : expr) (v : Z) : Prop := simplify expr_eqb n e = Ok (ENum v).

  (** the declaration of a type [name] of the package [pkg] after the types [ts] *)
  Inductive makes (pkg : string) (ts : list ty) (name : string) : definition B -> ty -> Prop :=
  | makes_modular e k : value e (2 ^ k) -> 0 <= k <= 64 ->
      makes pkg ts name (DModular e) (TScalar (Modular [pkg; name] e (2 ^ k) k))
  | makes_range fe le se f l s : value fe f -> value le l -> value se s ->
      0 <= f <= l -> l < 2 ^ 63 -> l < 2 ^ s -> s <= 64 ->
      makes pkg ts name (DRange fe le "Size" se) (TScalar (Range [pkg; name] f l s))
  | makes_enumeration lits aspects e s av : sized aspects e -> always aspects av -> value e s -> s <= 64 ->
      NoDup (map (fun kv => map lower (fst kv)) lits) -> NoDup (map snd lits) ->
      Forall (fun kv => has_char " " (id_str (fst kv)) = false /\ has_char "." (id_str (fst kv)) = false) lits ->
      Forall (fun kv => 0 <= snd kv < 2 ^ s /\ snd kv < 2 ^ 63) lits ->
      ~ (av = true /\ 0 <= s /\ Z.of_nat (List.length lits) = 2 ^ s) ->
      makes pkg ts name (DEnumeration lits aspects) (TScalar (Enum [pkg; name] lits s av))
  | makes_scalar_array r s : refers pkg ts r (TScalar s) -> (8 | type_size s) ->
      makes pkg ts name (DArray r) (TArray [pkg; name] (TScalar s))
  | makes_message_array r i fs : refers pkg ts r (TMessage i true fs) ->
      makes pkg ts name (DArray r) (TArray [pkg; name] (TMessage i true fs))
  | makes_message fields body d structure fs : typed pkg ts fields d ->
      build [pkg; name] body d = Done ([], (structure, fs)) ->
      makes pkg ts name (DMessage fields body) (TMessage [pkg; name] structure fs)
  | makes_null : makes pkg ts name DNull (TMessage [pkg; name] false [])
  | makes_derived r i b fs structure fs' :
      first_with (fun u => is_message u = true /\ stands_for pkg r (ty_id u)) ts (TMessage i b fs) ->
      derive [pkg; name] (b, fs) = Done ([], (structure, fs')) ->
      makes pkg ts name (DDerived r) (TMessage [pkg; name] structure fs').

  (** a name in a condition: a field of the message or a literal of the type of a
      field; literals of the package itself and built-in ones are known without a
      prefix *)
  Definition known_name (pkg : string) (fs : list (ident * ty)) (x : string) : Prop :=
    (exists g u, In (g, u) fs /\ x = lower (id_str g)) \/
    (exists g u lits l z, In (g, u) fs /\ ty_literals u = Some lits /\ In (l, z) lits /\
       ((same (package (ty_id u)) ["__BUILTINS__"] \/ same (package (ty_id u)) [pkg]) /\ x = lower (id_str l)
        \/ ~ same (package (ty_id u)) ["__BUILTINS__"] /\ x = lower (id_str (package (ty_id u) ++ l)))).

  (** a refinement of the package [pkg] after the types [ts] *)
  Definition refines (pkg : string) (ts : list ty) (pdu field sdu : ident) (c : option expr) (t : ty) : Prop :=
    exists p s i b fs g,
      last_with (fun u => is_message u = true /\ stands_for pkg pdu (ty_id u)) ts p /\
      last_with (fun u => is_message u = true /\ stands_for pkg sdu (ty_id u)) ts s /\
      p = TMessage i b fs /\
      first_with (fun ft => same (fst ft) field) fs (g, TOpaque) /\
      (forall e x sg, c = Some e -> In (x, sg) (variables e) -> known_name pkg fs x) /\
      t = TRefinement [pkg; ("__REFINEMENT__" ++ String.concat "_" (ty_id s) ++ "__" ++ String.concat "_" i
                             ++ "__" ++ id_str field ++ "__")%string]
                      p field s (match c with Some e => e | None => ETrue end).

  (** the declarations of a package, one after the other *)
  Inductive runs (pkg : string) : list (decl B S) -> state -> state -> Prop :=
  | runs_nil st : runs pkg [] st st
  | runs_type name d ds st st' t : plain [name] -> makes pkg (types st) name d t ->
      runs pkg ds (mkState (types st ++ [t]) (sessions st)) st' ->
      runs pkg (DType name d :: ds) st st'
  | runs_refinement pdu field sdu c ds st st' t : refines pkg (types st) pdu field sdu c t ->
      runs pkg ds (mkState (types st ++ [t]) (sessions st)) st' ->
      runs pkg (DRefinement pdu field sdu c :: ds) st st'
  | runs_session s ds st st' i : create_session s [pkg] (types st) = Done ([], i) ->
      runs pkg ds (mkState (types st) (sessions st ++ [i])) st' ->
      runs pkg (DSession s :: ds) st st'.
  Inductive runs_all : list (spec B S) -> state -> state -> Prop :=
  | runs_all_nil st : runs_all [] st st
  | runs_all_cons pkg ds l st st' st'' : runs pkg ds st st' -> runs_all l st' st'' ->
      runs_all ((pkg, ds) :: l) st st''.

  (** *** The functions follow the meaning *)

  Notation create_type := (create_type n build derive).
  Notation evaluate_loop := (evaluate_loop n build derive create_session).
  Notation evaluate_all := (evaluate_all n build derive create_session).
  Notation create_model := (create_model n build derive create_session).

  Definition whole (t : ty) : Prop := match t with TPartial _ _ _ => False | _ => True end.

  Lemma and_then_done {A C} (o : outcome A) (k : A -> outcome C) c :
    and_then o k = Done c <-> exists a, o = Done a /\ k a = Done c.
  Proof.
    destruct o; cbn; split; try discriminate; try (intros (a' & E & _); discriminate).
    - intros H. eauto.
    - intros (a' & E & H). injection E as ->. exact H.
  Qed.

  Lemma eq_var e x : expr_eqb e (EVar x) = true <-> e = EVar x.
  Proof.
    split.
    - destruct e as [| | |nm sg| | | |]; try discriminate. destruct nm as [y|a y]; try discriminate; cbn;
        destruct sg; rewrite ?andb_false_r, ?andb_true_r; try discriminate.
      intros H. apply String.eqb_eq in H. now subst.
    - intros ->. cbn. now rewrite String.eqb_refl.
  Qed.

  Lemma last_with_skip {A} (P : A -> Prop) a l t : ~ P a -> last_with P (a :: l) t <-> last_with P l t.
  Proof.
    intros NP. split; intros (pre & post & L & Pt & N).
    - destruct pre as [|b pre]; injection L as <- L; [contradiction|]. exists pre, post. auto.
    - exists (a :: pre), post. rewrite L. auto.
  Qed.
  Lemma last_with_cons {A} (P : A -> Prop) a l t : P a ->
    last_with P (a :: l) t <-> last_with P l t \/ (t = a /\ forall u, In u l -> ~ P u).
  Proof.
    intros Pa. split.
    - intros (pre & post & L & Pt & N). destruct pre as [|b pre]; injection L as -> ->; [right; auto|]. left.
      exists pre, post. auto.
    - intros [(pre & post & -> & Pt & N)|[-> N]]; [exists (a :: pre), post; auto|]. exists [], l. auto.
  Qed.

  Definition no_aspect (a : string) (l : list (string * option expr)) : Prop := forall v, ~ In (a, v) l.
  Lemma none_of a l : no_aspect a l <-> forall u : string * option expr, In u l -> fst u <> a.
  Proof.
    split.
    - intros H [x v] I E. cbn in E. subst. exact (H v I).
    - intros H v I. exact (H _ I eq_refl).
  Qed.

  Lemma create_aspects_iff l : forall es size av size' av',
    create_aspects l es size av = Done ([], size', av') <->
    es = [] /\ (forall v, In ("Size", v) l -> v <> None) /\
    (forall v, In ("Always_Valid", v) l -> exists b, says_valid v b) /\
    ((exists e, last_with (fun a => fst a = "Size") l ("Size", Some e) /\ size' = Some e) \/
     (no_aspect "Size" l /\ size' = size)) /\
    ((exists v, last_with (fun a => fst a = "Always_Valid") l ("Always_Valid", v) /\ says_valid v av') \/
     (no_aspect "Always_Valid" l /\ av' = av)).
  Proof.
    induction l as [|[a v] l IH]; intros es size av size' av'; cbn [create_aspects].
    - split.
      + intros H. injection H as -> -> ->. repeat split; try (intros ? []); right; split; try reflexivity; intros ? [].
      + intros (-> & _ & _ & HS & HA).
        destruct HS as [(e & ([|? ?] & post & X & _) & _)|[_ ->]]; try discriminate X.
        destruct HA as [(w & ([|? ?] & post & X & _) & _)|[_ ->]]; try discriminate X. reflexivity.
    - assert (NS : forall x (w w' : option expr), x <> a -> In (x, w') ((a, w) :: l) <-> In (x, w') l).
      { intros x w w' N. cbn. split; [|auto]. intros [E|I]; [congruence|exact I]. }
      destruct (String.eqb_spec a "Size") as [->|N1].
      + assert (AV : forall b, (exists w, last_with (fun a => fst a = "Always_Valid") (("Size", v) :: l) ("Always_Valid", w) /\ says_valid w b)
                   <-> (exists w, last_with (fun a => fst a = "Always_Valid") l ("Always_Valid", w) /\ says_valid w b)).
        { intros b. setoid_rewrite last_with_skip; [reflexivity|discriminate]. }
        assert (NA : no_aspect "Always_Valid" (("Size", v) :: l) <-> no_aspect "Always_Valid" l).
        { unfold no_aspect. setoid_rewrite NS; [reflexivity|discriminate]. }
        assert (FA : (forall w, In ("Always_Valid", w) (("Size", v) :: l) -> exists b, says_valid w b) <->
                     (forall w, In ("Always_Valid", w) l -> exists b, says_valid w b)).
        { setoid_rewrite NS; [reflexivity|discriminate]. }
        rewrite AV, NA, FA. destruct v as [e|].
        * rewrite IH.
          assert (FS : (forall w, In ("Size", w) (("Size", Some e) :: l) -> w <> None) <-> (forall w, In ("Size", w) l -> w <> None)).
          { cbn. split; [auto|]. intros H w [E|I]; [congruence|auto]. }
          rewrite FS.
          assert (LS : ((exists e0, last_with (fun a => fst a = "Size") l ("Size", Some e0) /\ size' = Some e0) \/ no_aspect "Size" l /\ size' = Some e)
                  <-> ((exists e0, last_with (fun a => fst a = "Size") (("Size", Some e) :: l) ("Size", Some e0) /\ size' = Some e0)
                       \/ no_aspect "Size" (("Size", Some e) :: l) /\ size' = size)).
          { split.
            - intros [(e0 & L & ->)|[L ->]]; left.
              + exists e0. split; [|reflexivity]. apply last_with_cons; auto.
              + exists e. split; [|reflexivity]. apply last_with_cons; [reflexivity|]. right. split; [reflexivity|].
                now apply none_of.
            - intros [(e0 & L & ->)|[L _]].
              + apply last_with_cons in L as [L|[E L]]; [left; eauto| |reflexivity]. right. injection E as ->. split; [|reflexivity].
                now apply none_of.
              + destruct (L (Some e)). now left. }
          rewrite LS. reflexivity.
        * split; [discriminate|]. intros (_ & H & _). destruct (H None); [now left|reflexivity].
      + assert (LS : forall e, last_with (fun a => fst a = "Size") ((a, v) :: l) ("Size", Some e) <-> last_with (fun a => fst a = "Size") l ("Size", Some e)).
        { intros e. apply last_with_skip. exact N1. }
        assert (NZ : no_aspect "Size" ((a, v) :: l) <-> no_aspect "Size" l).
        { unfold no_aspect. setoid_rewrite NS; [reflexivity|congruence]. }
        assert (FS : (forall w, In ("Size", w) ((a, v) :: l) -> w <> None) <-> (forall w, In ("Size", w) l -> w <> None)).
        { setoid_rewrite NS; [reflexivity|congruence]. }
        setoid_rewrite LS. rewrite NZ, FS. destruct (String.eqb_spec a "Always_Valid") as [->|N2].
        * assert (GO : forall b, says_valid v b ->
            create_aspects l es size b = Done ([], size', av') <->
            es = [] /\ (forall v, In ("Size", v) l -> v <> None) /\
            (forall w, In ("Always_Valid", w) (("Always_Valid", v) :: l) -> exists b, says_valid w b) /\
            ((exists e, last_with (fun a => fst a = "Size") l ("Size", Some e) /\ size' = Some e) \/
             (no_aspect "Size" l /\ size' = size)) /\
            ((exists w, last_with (fun a => fst a = "Always_Valid") (("Always_Valid", v) :: l) ("Always_Valid", w) /\ says_valid w av') \/
             (no_aspect "Always_Valid" (("Always_Valid", v) :: l) /\ av' = av))).
          { intros b SV. rewrite IH.
            assert (FA : (forall w, In ("Always_Valid", w) (("Always_Valid", v) :: l) -> exists b, says_valid w b) <->
                         (forall w, In ("Always_Valid", w) l -> exists b, says_valid w b)).
            { cbn. split; [auto|]. intros H w [E|I]; [injection E as <-; eauto|auto]. }
            rewrite FA.
            assert (LA : ((exists w, last_with (fun a => fst a = "Always_Valid") l ("Always_Valid", w) /\ says_valid w av') \/ no_aspect "Always_Valid" l /\ av' = b)
                    <-> ((exists w, last_with (fun a => fst a = "Always_Valid") (("Always_Valid", v) :: l) ("Always_Valid", w) /\ says_valid w av')
                         \/ no_aspect "Always_Valid" (("Always_Valid", v) :: l) /\ av' = av)).
            { split.
              - intros [(w & L & W)|[L ->]]; left.
                + exists w. split; [|exact W]. apply last_with_cons; auto.
                + exists v. split; [|exact SV]. apply last_with_cons; [reflexivity|]. right. split; [reflexivity|]. now apply none_of.
              - intros [(w & L & W)|[L _]].
                + apply last_with_cons in L as [L|[E L]]; [left; eauto| |reflexivity]. right. injection E as ->. split; [now apply none_of|].
                  destruct b, av'; cbn in SV, W; try reflexivity; exfalso; try destruct SV as [SV|SV]; try destruct W as [W|W]; rewrite SV in W; discriminate W.
                + destruct (L v). now left. }
            rewrite LA. reflexivity. }
          destruct v as [e|]; [|apply GO; cbn; auto].
          destruct (expr_eqb e (EVar "true")) eqn:E1; [apply eq_var in E1 as ->; apply GO; cbn; auto|].
          destruct (expr_eqb e (EVar "false")) eqn:E2; [apply eq_var in E2 as ->; apply GO; reflexivity|].
          split.
          -- intros H. apply IH in H as (H & _). destruct es; discriminate H.
          -- intros (_ & _ & H & _). destruct (H (Some e) (or_introl eq_refl)) as [[|] SV]; cbn in SV.
             ++ destruct SV as [SV|SV]; [discriminate|]. injection SV as ->. rewrite (proj2 (eq_var _ _) eq_refl) in E1. discriminate.
             ++ injection SV as ->. rewrite (proj2 (eq_var _ _) eq_refl) in E2. discriminate.
        * assert (LA : forall w, last_with (fun a => fst a = "Always_Valid") ((a, v) :: l) ("Always_Valid", w) <-> last_with (fun a => fst a = "Always_Valid") l ("Always_Valid", w)).
          { intros w. apply last_with_skip. exact N2. }
          assert (NA : no_aspect "Always_Valid" ((a, v) :: l) <-> no_aspect "Always_Valid" l).
          { unfold no_aspect. setoid_rewrite NS; [reflexivity|congruence]. }
          assert (FA : (forall w, In ("Always_Valid", w) ((a, v) :: l) -> exists b, says_valid w b) <->
                       (forall w, In ("Always_Valid", w) l -> exists b, says_valid w b)).
          { setoid_rewrite NS; [reflexivity|congruence]. }
          setoid_rewrite LA. rewrite NA, FA. apply IH.
  Qed.

  Lemma field_set_new d f t : (forall g u, In (g, u) d -> ~ same f g) -> field_set d f t = d ++ [(f, t)].
  Proof.
    induction d as [|[g u] d IH]; intros H; cbn; [reflexivity|].
    destruct (id_eq f g) eqn:E; [apply id_eq_same in E; destruct (H g u (or_introl eq_refl) E)|].
    rewrite IH; [reflexivity|]. intros h v I. apply (H h v). now right.
  Qed.
  Lemma field_set_again d1 : forall g u d2 f t, same f g -> (forall h v, In (h, v) d1 -> ~ same f h) ->
    field_set (d1 ++ (g, u) :: d2) f t = d1 ++ (g, t) :: d2.
  Proof.
    induction d1 as [|[h v] d1 IH]; intros g u d2 f t E H; cbn.
    - apply id_eq_same in E. now rewrite E.
    - destruct (id_eq f h) eqn:X; [apply id_eq_same in X; destruct (H h v (or_introl eq_refl) X)|].
      rewrite (IH _ _ _ _ _ E); [reflexivity|]. intros k w I. apply (H k w). now right.
  Qed.
  Lemma keys_cases (d : list (ident * ty)) f :
    (forall g u, In (g, u) d -> ~ same f g) \/
    (exists d1 g u d2, d = d1 ++ (g, u) :: d2 /\ same f g /\ forall h v, In (h, v) d1 -> ~ same f h).
  Proof.
    induction d as [|[g u] d IH]; [left; intros ? ? []|].
    destruct (id_eq f g) eqn:E; [right|].
    - exists [], g, u, d. split; [reflexivity|]. split; [now apply id_eq_same|]. intros ? ? [].
    - assert (NE : ~ same f g) by (rewrite <- id_eq_same; congruence). destruct IH as [IH|(d1 & h & v & d2 & -> & Q & N)].
      + left. intros h v [X|I]; [injection X as <- <-; exact NE|eauto].
      + right. exists ((g, u) :: d1), h, v, d2. split; [reflexivity|]. split; [exact Q|].
        intros k w [X|I]; [injection X as <- <-; exact NE|eauto].
  Qed.
  Lemma typed_iff pkg id ts fields d : package id = [pkg] ->
    typed pkg ts fields d <-> create_message_types id fields ts = d.
  Proof.
    intros P. unfold create_message_types. rewrite P. split.
    - induction 1 as [|l d f r t H IH R N|l d1 g u d2 f r t H IH R E N|l d f r H IH N]; [reflexivity| | |];
        rewrite fold_left_app; cbn [fold_left snd fst]; rewrite IH.
      + apply find_type_iff in R. rewrite R. now apply field_set_new.
      + apply find_type_iff in R. rewrite R. now apply field_set_again.
      + rewrite (proj2 (find_type_none _ _ _) N). reflexivity.
    - intros <-. clear P. induction fields as [|[f r] l IH] using rev_ind; [constructor|].
      rewrite fold_left_app. cbn [fold_left snd fst]. set (d := fold_left _ l []) in *. clearbody d.
      destruct (find_type ts _) as [t|] eqn:F.
      + apply find_type_iff in F. destruct (keys_cases d f) as [N|(d1 & g & u & d2 & -> & E & N)].
        * rewrite field_set_new by exact N. now constructor.
        * rewrite field_set_again by assumption. econstructor; eauto.
      + pose proof (proj1 (find_type_none _ _ _) F). now constructor.
  Qed.

  Lemma filter_first_message pkg r ts :
    match filter is_message (filter (fun t => id_eq (ty_id t) (qualified_type_identifier r [pkg])) ts) with
    | t :: _ => first_with (fun u => is_message u = true /\ stands_for pkg r (ty_id u)) ts t
    | [] => forall t, ~ first_with (fun u => is_message u = true /\ stands_for pkg r (ty_id u)) ts t
    end.
  Proof.
    assert (Q : forall u, id_eq (ty_id u) (qualified_type_identifier r [pkg]) = true <-> stands_for pkg r (ty_id u)).
    { intros u. rewrite stands_for_iff, !id_eq_same. unfold same. split; congruence. }
    induction ts as [|a ts IH]; [intros t ([|? ?] & post & X & _); discriminate|]. cbn [filter].
    assert (SK : ~ (is_message a = true /\ stands_for pkg r (ty_id a)) -> forall t,
      first_with (fun u => is_message u = true /\ stands_for pkg r (ty_id u)) (a :: ts) t <->
      first_with (fun u => is_message u = true /\ stands_for pkg r (ty_id u)) ts t).
    { intros NP t. split; intros (pre & post & L & Pt & N).
      - destruct pre as [|b pre]; injection L as <- L; [contradiction|]. exists pre, post. split; [exact L|]. split; [exact Pt|].
        intros u I. apply N. now right.
      - exists (a :: pre), post. rewrite L. split; [reflexivity|]. split; [exact Pt|]. intros u [<-|I]; auto. }
    destruct (id_eq (ty_id a) _) eqn:E.
    - apply Q in E. cbn [filter]. destruct (is_message a) eqn:M.
      + exists [], ts. split; [reflexivity|]. split; [auto|]. intros u [].
      + destruct (filter is_message _) as [|t l]; [intros t X; apply SK in X; [exact (IH t X)|intros [Y _]; discriminate]|].
        apply SK; [intros [Y _]; discriminate|exact IH].
    - assert (NP : ~ (is_message a = true /\ stands_for pkg r (ty_id a))) by (intros [_ Y]; apply Q in Y; congruence).
      destruct (filter is_message _) as [|t l]; [intros t X; apply SK in X; [exact (IH t X)|exact NP]|].
      apply SK; [exact NP|exact IH].
  Qed.

  Lemma first_with_unique {A} (P : A -> Prop) l t u : first_with P l t -> first_with P l u -> t = u.
  Proof.
    intros (p1 & q1 & -> & P1 & N1) (p2 & q2 & E & P2 & N2).
    revert p2 E N2. induction p1 as [|a p1 IH]; intros [|b p2] E N2; cbn in E; injection E as E1 E2.
    - exact E1.
    - destruct (N2 t); [left; now symmetry|exact P1].
    - destruct (N1 u); [left; exact E1|exact P2].
    - apply (IH (fun v I => N1 v (or_intror I)) p2 E2). intros v I. apply N2. now right.
  Qed.
  Lemma last_with_unique {A} (P : A -> Prop) l t u : last_with P l t -> last_with P l u -> t = u.
  Proof.
    intros (p1 & q1 & E1 & P1 & N1) (p2 & q2 & E2 & P2 & N2).
    apply (first_with_unique P (rev l)).
    - exists (rev q1), (rev p1). rewrite E1, rev_app_distr. cbn. rewrite <- app_assoc. split; [reflexivity|]. split; [exact P1|].
      intros v I. apply N1. now apply in_rev.
    - exists (rev q2), (rev p2). rewrite E2, rev_app_distr. cbn. rewrite <- app_assoc. split; [reflexivity|]. split; [exact P2|].
      intros v I. apply N2. now apply in_rev.
  Qed.

  Lemma scalar_done r p t : scalar_type r p = Done ([], t) <->
    (exists s, r = Ok ([], Some s) /\ t = TScalar s) \/ (r = Ok ([], None) /\ t = p).
  Proof.
    unfold scalar_type. destruct r as [[es [s|]]|w].
    - split; [intros H; injection H as -> <-; left; eauto|].
      intros [(s' & E & ->)|[E _]]; [now injection E as -> ->|discriminate].
    - split; [intros H; injection H as -> <-; auto|].
      intros [(s' & E & _)|[E ->]]; [discriminate|now injection E as ->].
    - split; [discriminate|]. intros [(s' & E & _)|[E _]]; discriminate.
  Qed.
  Lemma modular_none id e : ModularInteger n id e <> Ok ([], None).
  Proof.
    unfold ModularInteger. destruct (simp n e) as [[]|]; cbn; try discriminate;
      intros H; apply Ok_inj in H; injection H as H; apply app_eq_nil in H as [_ H]; discriminate H.
  Qed.
  Lemma range_none id f l s : RangeInteger n id f l s <> Ok ([], None).
  Proof.
    unfold RangeInteger. destruct (simp n f) as [f'|]; cbn [bind]; [|discriminate].
    destruct (simp n l) as [l'|]; cbn [bind]; [|discriminate].
    destruct (simp n s) as [s'|]; cbn [bind]; [|discriminate].
    destruct l'; try (intros H; apply Ok_inj in H; injection H as H; apply app_eq_nil in H as [_ H]; discriminate H).
    cbn [is_num]. match goal with |- context [match ?l with [] => _ | _ :: _ => _ end] => destruct l end;
      [|discriminate].
    destruct f'; try discriminate. destruct s'; discriminate.
  Qed.
  Lemma enumeration_none id lits e av : Enumeration n id lits e av <> Ok ([], None).
  Proof.
    unfold Enumeration. destruct (simp n e) as [[]|]; cbn [bind]; try discriminate;
      intros H; apply Ok_inj in H; injection H as H; apply app_eq_nil in H as [_ H]; discriminate H.
  Qed.

  Lemma sized_always aspects e av :
    create_aspects aspects [] None false = Done ([], Some e, av) <-> sized aspects e /\ always aspects av.
  Proof.
    rewrite create_aspects_iff. unfold sized, always, no_aspect. split.
    - intros (_ & F1 & F2 & [(e' & L & E)|[_ E]] & HA); [|discriminate]. injection E as <-. repeat split; auto.
      destruct HA as [H|[H ->]]; auto.
    - intros ((F1 & L) & F2 & HA). repeat split; auto; [left; eauto|]. destruct HA as [H|[-> H]]; auto.
  Qed.

  Lemma create_type_makes pkg ts name d t : Forall whole ts ->
    create_type [pkg; name] d ts = Done ([], t) <-> makes pkg ts name d t.
  Proof.
    intros W. destruct d as [e|fe le a se|lits aspects|r|fields body| |r]; cbn [SpecModel.create_type].
    - unfold create_modular. rewrite scalar_done. split.
      + intros [(s & H & ->)|[H _]]; [|destruct (modular_none _ _ H)].
        apply P_Types.C20_modular in H as (_ & k & K & E & ->). now constructor.
      + intros H. inversion H; subst. left. eexists. split; [|reflexivity]. apply P_Types.C20_modular. cbn. eauto 10.
    - unfold create_range. destruct (String.eqb_spec a "Size") as [->|NE]; cbn [negb].
      + rewrite scalar_done. split.
        * intros [(s & H & ->)|[H _]]; [|destruct (range_none _ _ _ _ H)].
          apply P_Types.C20_range in H as (_ & f & l & z & E1 & E2 & E3 & -> & H). constructor; auto; lia.
        * intros H. inversion H; subst. left. eexists. split; [|reflexivity]. apply P_Types.C20_range. split; [reflexivity|].
          do 3 eexists. repeat (split; [eassumption || reflexivity|]). lia.
      + split; [discriminate|]. intros H. inversion H; subst. congruence.
    - unfold create_enumeration. rewrite and_then_done. split.
      + intros ([[es size] av] & A & H). destruct es as [|x es]; [|destruct size; discriminate].
        destruct size as [e|]; [|discriminate]. apply scalar_done in H as [(s & H & ->)|[H _]]; [|destruct (enumeration_none _ _ _ _ H)].
        apply P_Types.C20_enumeration in H as (_ & D1 & D2 & F & z & E & -> & L & R & NA).
        apply sized_always in A as [A1 A2]. econstructor; eauto.
      + intros H. inversion H; subst. exists ([], Some e, av). split; [apply sized_always; auto|].
        apply scalar_done. left. eexists. split; [|reflexivity]. apply P_Types.C20_enumeration.
        repeat (split; [assumption || reflexivity|]). eauto 10.
    - unfold create_array. change (package [pkg; name]) with [pkg]. destruct (find_type ts _) as [u|] eqn:F.
      + assert (Wu : whole u).
        { apply find_some in F as [I _]. rewrite Forall_forall in W. auto. }
        apply find_type_iff in F. unfold Array.
        destruct u as [s|i sz ls|i el| |i b fs|i p f s c]; cbn [scalar_size and_then type_errors List.length Nat.eqb app]; try contradiction.
        * split.
          -- intros H. injection H as H <-. apply makes_scalar_array with (r := r); [exact F|].
             destruct (Z.eqb_spec (type_size s mod 8) 0) as [M|M]; [|discriminate]. apply Z.mod_divide; [lia|exact M].
          -- intros H. inversion H; subst; (pose proof (first_with_unique _ _ _ _ F ltac:(eassumption)) as X); [|discriminate].
             injection X as <-. match goal with D : (8 | _) |- _ => apply Z.mod_divide in D; [|lia]; rewrite D end. reflexivity.
        * split; [discriminate|]. intros H. inversion H; subst; (pose proof (first_with_unique _ _ _ _ F ltac:(eassumption)) as X); discriminate.
        * split; [discriminate|]. intros H. inversion H; subst; (pose proof (first_with_unique _ _ _ _ F ltac:(eassumption)) as X); discriminate.
        * destruct b; split; try discriminate.
          -- intros H. injection H as <-. now apply makes_message_array with (r := r).
          -- intros H. inversion H; subst; (pose proof (first_with_unique _ _ _ _ F ltac:(eassumption)) as X); [discriminate|].
             injection X as <- <-. reflexivity.
          -- intros H. inversion H; subst; (pose proof (first_with_unique _ _ _ _ F ltac:(eassumption)) as X); discriminate.
        * split; [discriminate|]. intros H. inversion H; subst; (pose proof (first_with_unique _ _ _ _ F ltac:(eassumption)) as X); discriminate.
      + split; [discriminate|]. intros H. inversion H; subst; match goal with R : refers _ _ _ _ |- _ => exfalso; apply find_type_iff in R; congruence end.
    - unfold create_message, message_type. rewrite and_then_done. split.
      + intros ([es [b fs]] & H & E). injection E as -> <-. econstructor; [now apply typed_iff with (id := [pkg; name])|exact H].
      + intros H. inversion H; subst. match goal with T : typed _ _ _ _ |- _ => apply typed_iff with (id := [pkg; name]) in T; [|reflexivity]; rewrite T end.
        eexists. split; [eassumption|reflexivity].
    - split; [intros H; injection H as <-; constructor|]. intros H. inversion H. reflexivity.
    - unfold create_derived_message. change (package [pkg; name]) with [pkg]. pose proof (filter_first_message pkg r ts) as Q.
      destruct (filter (fun t0 => id_eq (ty_id t0) _) ts) as [|x l] eqn:F.
      + split; [discriminate|]. intros H. inversion H; subst. destruct (Q _ ltac:(eassumption)).
      + destruct (filter is_message (x :: l)) as [|y l'] eqn:G.
        * split; [discriminate|]. intros H. inversion H; subst. destruct (Q _ ltac:(eassumption)).
        * assert (M : is_message y = true).
          { assert (I : In y (filter is_message (x :: l))) by (rewrite G; now left). now apply filter_In in I as [_ I]. }
          destruct y as [| | | |i b fs|]; try discriminate M. unfold message_type. rewrite and_then_done. split.
          -- intros ([es [b' fs']] & H & E). injection E as -> <-. econstructor; eassumption.
          -- intros H. inversion H; subst. pose proof (first_with_unique _ _ _ _ Q ltac:(eassumption)) as X. injection X as <- <- <-.
             eexists. split; [eassumption|reflexivity].
  Qed.

  Lemma create_type_id id d ts es t : create_type id d ts = Done (es, t) -> ty_id t = id.
  Proof.
    assert (SC : forall r p, ty_id p = id -> (forall es' s, r = Ok (es', Some s) -> type_id s = id) ->
              scalar_type r p = Done (es, t) -> ty_id t = id).
    { intros r p P R. unfold scalar_type. destruct r as [[es' [s|]]|]; try discriminate; intros H; injection H as _ <-;
        [cbn; eauto|exact P]. }
    assert (MS : forall o, message_type id o = Done (es, t) -> ty_id t = id).
    { intros o H. apply and_then_done in H as ([es' [b fs]] & _ & H). injection H as _ <-. reflexivity. }
    destruct d as [e|fe le a se|lits aspects|r|fields body| |r]; cbn [SpecModel.create_type].
    - apply SC; [reflexivity|]. intros es' s. unfold ModularInteger. destruct (simp n e) as [[]|]; cbn; try discriminate.
      intros H. apply Ok_inj in H. injection H as _ <-. reflexivity.
    - unfold create_range. destruct (negb _); [discriminate|]. apply SC; [reflexivity|]. intros es' s. unfold RangeInteger.
      destruct (simp n fe) as [fe'|]; cbn [bind]; [|discriminate].
      destruct (simp n le) as [le'|]; cbn [bind]; [|discriminate].
      destruct (simp n se) as [se'|]; cbn [bind]; [|discriminate].
      destruct le'; try discriminate. cbn [is_num].
      match goal with |- context [match ?l with [] => _ | _ :: _ => _ end] => destruct l end; [|discriminate].
      destruct fe'; try discriminate. destruct se'; try discriminate. intros H. apply Ok_inj in H. injection H as _ <-. reflexivity.
    - intros H. apply and_then_done in H as ([[es' [e|]] av] & _ & H); destruct es'; try discriminate H. revert H.
      apply SC; [reflexivity|]. intros es' s. unfold Enumeration. destruct (simp n e) as [[]|]; cbn [bind]; try discriminate.
      intros H. apply Ok_inj in H. injection H as _ <-. reflexivity.
    - unfold create_array. destruct (find_type _ _) as [u|]; [|discriminate]. unfold Array.
      destruct (scalar_size n u) as [o|]; [|intros H; injection H as _ <-; reflexivity].
      intros H. apply and_then_done in H as (v & _ & H). injection H as _ <-. reflexivity.
    - apply MS.
    - intros H. injection H as _ <-. reflexivity.
    - unfold create_derived_message. destruct (filter _ ts) as [|x l]; [discriminate|].
      destruct (filter is_message (x :: l)) as [|[] ?]; try discriminate. apply MS.
  Qed.
  Lemma makes_whole pkg ts name d t : makes pkg ts name d t -> whole t.
  Proof. destruct 1; exact Logic.I. Qed.

  Lemma known_iff pkg fs x :
    existsb (String.eqb x) (map (fun ft => var (fst ft)) fs ++ map var (qualified_enum_literals (map snd fs) [pkg])) = true
    <-> known_name pkg fs x.
  Proof.
    rewrite existsb_exists. unfold known_name. split.
    - intros (y & I & E). apply String.eqb_eq in E. subst y. apply in_app_or in I as [I|I].
      + left. apply in_map_iff in I as ([g u] & <- & I). exists g, u. auto.
      + right. apply in_map_iff in I as (l & <- & I). unfold qualified_enum_literals in I. apply in_flat_map in I as (u & I & J).
        apply in_map_iff in I as ([g u'] & E & I). cbn in E. subst u'.
        destruct (ty_literals u) as [lits|] eqn:L; [|destruct J]. apply in_flat_map in J as ([k z] & K & J). cbn [fst] in J.
        exists g, u, lits, k, z. repeat (split; [assumption|]). apply in_app_or in J as [J|J].
        * destruct (id_eq (package (ty_id u)) builtins || id_eq (package (ty_id u)) [pkg]) eqn:Q; [|destruct J].
          destruct J as [<-|[]]. rewrite orb_true_iff, !id_eq_same in Q. left. split; [exact Q|reflexivity].
        * destruct (id_eq (package (ty_id u)) builtins) eqn:Q; [destruct J|]. destruct J as [<-|[]]. right. split; [|reflexivity].
          intros Y. apply id_eq_same in Y. unfold builtins in Q. congruence.
    - intros [(g & u & I & ->)|(g & u & lits & l & z & I & L & J & H)].
      + exists (lower (id_str g)). split; [|apply String.eqb_refl]. apply in_or_app. left. apply in_map_iff. exists (g, u). auto.
      + assert (X : forall k, In k (qualified_enum_literals (map snd fs) [pkg]) -> x = lower (id_str k) ->
                  exists y, In y (map (fun ft => var (fst ft)) fs ++ map var (qualified_enum_literals (map snd fs) [pkg])) /\ String.eqb x y = true).
        { intros k K ->. exists (lower (id_str k)). split; [|apply String.eqb_refl]. apply in_or_app. right. apply in_map_iff. exists k. split; [reflexivity|exact K]. }
        assert (Y : forall k, In k ((if id_eq (package (ty_id u)) builtins || id_eq (package (ty_id u)) [pkg] then [l] else [])
                     ++ (if id_eq (package (ty_id u)) builtins then [] else [package (ty_id u) ++ l])) ->
                  In k (qualified_enum_literals (map snd fs) [pkg])).
        { intros k K. unfold qualified_enum_literals. apply in_flat_map. exists u. split; [apply in_map_iff; exists (g, u); auto|].
          rewrite L. apply in_flat_map. exists (l, z). auto. }
        destruct H as [[P ->]|[P ->]].
        * apply (X l); [|reflexivity]. apply Y. apply in_or_app. left.
          replace (_ || _) with true; [now left|]. symmetry. rewrite orb_true_iff, !id_eq_same. exact P.
        * apply (X (package (ty_id u) ++ l)); [|reflexivity]. apply Y. apply in_or_app. right.
          destruct (id_eq (package (ty_id u)) builtins) eqn:Q; [apply id_eq_same in Q; contradiction|]. now left.
  Qed.

  Lemma create_refinement_refines pkg ts pdu field sdu c t :
    create_refinement [pkg] pdu field sdu c ts = Done ([], t) <-> refines pkg ts pdu field sdu c t.
  Proof.
    unfold create_refinement, refines. split.
    - destruct (find_message ts (qualified_type_identifier pdu [pkg])) as [p|] eqn:FP; [|discriminate].
      destruct (find_message ts (qualified_type_identifier sdu [pkg])) as [s|] eqn:FS; [|discriminate].
      intros H. unfold Refinement in H. injection H as HE HT.
      apply app_eq_nil in HE as [HF HC].
      apply find_message_iff in FP, FS. pose proof FP as (_ & _ & _ & [M _] & _).
      destruct p as [| | | |i b fs|]; try discriminate M.
      cbn [message_types] in *.
      destruct (find _ fs) as [[g u]|] eqn:FF; [|discriminate]. destruct u; try discriminate.
      exists (TMessage i b fs), s, i, b, fs, g. repeat (split; [assumption || reflexivity|]). split; [|split].
      + apply find_first with (f := fun ft => id_eq (fst ft) field); [|exact FF]. intros u. apply id_eq_same.
      + intros e x sg -> I. apply known_iff.
        apply P_Model.flat_map_nil with (x := (x, sg)) in HC; [|exact I]. cbn [fst] in HC.
        destruct (existsb _ _); [reflexivity|discriminate].
      + rewrite <- HT. reflexivity.
    - intros (p & s & i & b & fs & g & FP & FS & -> & FF & K & ->).
      apply find_message_iff in FP, FS. rewrite FP, FS. unfold Refinement. cbn [message_types].
      apply find_first with (f := fun ft => id_eq (fst ft) field) in FF; [|intros u; apply id_eq_same]. rewrite FF.
      cbn [List.length Nat.eqb negb when app]. f_equal. f_equal.
      apply P_Model.flat_map_nil. intros [x sg] I. cbn [fst].
      destruct c as [e|]; [|destruct I]. rewrite (proj2 (known_iff pkg fs x) (K e x sg eq_refl I)). reflexivity.
  Qed.

  Lemma loop_done pkg ds : forall st es st', evaluate_loop [pkg] ds st es = (st', Done tt) -> es = [].
  Proof.
    induction ds as [|d ds IH]; intros st es st'; cbn [SpecModel.evaluate_loop].
    - destruct es; [reflexivity|discriminate].
    - assert (X : forall es' st1, evaluate_loop [pkg] ds st1 (es ++ es') = (st', Done tt) -> es = []).
      { intros es' st1 H. apply IH in H. now apply app_eq_nil in H. }
      destruct d as [name d|pdu f sdu c|s].
      + destruct (create_type _ d _) as [[es' t]|es'|]; [apply X|apply X|discriminate].
      + destruct (create_refinement _ _ _ _ _ _) as [[es' t]|es'|]; [apply X|apply X|discriminate].
      + destruct (create_session _ _ _) as [[es' t]|es'|]; [apply X|discriminate|discriminate].
  Qed.
  Lemma all_done l : forall st es st' , evaluate_all l st es = Done (st', []) -> es = [].
  Proof.
    induction l as [|sp l IH]; intros st es st'; cbn [SpecModel.evaluate_all]; [congruence|].
    destruct (evaluate_specification _ _ _ _ sp st) as [st1 [u|es'|w]]; [apply IH| |discriminate].
    intros H. apply IH in H. now apply app_eq_nil in H.
  Qed.
  (** an exception carries at least one error *)
  Lemma type_raised id d ts : (forall i b l, build i b l <> Raised []) -> (forall i m, derive i m <> Raised []) ->
    create_type id d ts <> Raised [].
  Proof.
    intros HB HD.
    assert (SC : forall r p, scalar_type r p <> Raised []) by (intros [[? [?|]]|] p; discriminate).
    assert (MS : forall o, o <> Raised [] -> message_type id o <> Raised []).
    { intros [[? [? ?]]|es|] H; cbn; congruence. }
    destruct d as [e|fe le a se|lits aspects|r|fields body| |r]; cbn [SpecModel.create_type]; try apply SC.
    - unfold create_range. destruct (negb _); [discriminate|apply SC].
    - unfold create_enumeration. assert (CA : forall l es s a, create_aspects l es s a <> Raised []).
      { induction l as [|[x v] l IH]; intros es s a; cbn; [discriminate|].
        destruct (String.eqb x "Size"); [destruct v; [apply IH|discriminate]|]. destruct (String.eqb x "Always_Valid"); [|apply IH].
        destruct v; [|apply IH]. destruct (expr_eqb _ _); [apply IH|]. destruct (expr_eqb _ _); apply IH. }
      pose proof (CA aspects [] None false) as Q. destruct (create_aspects aspects [] None false) as [[[es [e|]] av]|es|]; cbn; try congruence.
      + destruct es; [apply SC|discriminate].
      + destruct es; discriminate.
    - unfold create_array. destruct (find_type _ _) as [u|]; [|discriminate]. unfold Array.
      destruct (scalar_size n u) as [o|] eqn:Z; [|discriminate]. destruct o; try discriminate.
      destruct u; try discriminate Z; cbn in Z; try (injection Z as Z; discriminate Z).
      injection Z as Z. destruct size; [|discriminate]. destruct (simp n e) as [[]|]; discriminate.
    - apply MS, HB.
    - discriminate.
    - unfold create_derived_message. destruct (filter _ ts) as [|x l]; [discriminate|].
      destruct (filter is_message (x :: l)) as [|[] ?]; try discriminate. apply MS, HD.
  Qed.

  Definition id2 (t : ty) : ModelCheck.ident2 := ident2_of (ty_id t).
  Lemma same_id2 a b : same a b -> ident2_of a = ident2_of b.
  Proof.
    unfold same, ident2_of. intros H.
    assert (L : forall i : ident, lower (id_str i) = String.concat "::" (map lower i)).
    { intros i. unfold id_str. induction i as [|x [|y i] IH]; [reflexivity|reflexivity|].
      change (String.concat "::" (x :: y :: i)) with (x ++ "::" ++ String.concat "::" (y :: i))%string.
      change (String.concat "::" (map lower (x :: y :: i))) with (lower x ++ "::" ++ String.concat "::" (map lower (y :: i)))%string.
      assert (LA : forall u v, lower (u ++ v)%string = (lower u ++ lower v)%string).
      { induction u as [|c u IHu]; intros v; [reflexivity|]. cbn. now rewrite IHu. }
      rewrite !LA, IH. reflexivity. }
    assert (R : forall i : ident, map lower (removelast i) = removelast (map lower i)).
    { induction i as [|x [|y i] IH]; [reflexivity|reflexivity|].
      change (removelast (x :: y :: i)) with (x :: removelast (y :: i)).
      change (removelast (map lower (x :: y :: i))) with (lower x :: removelast (map lower (y :: i))).
      cbn [map]. now rewrite IH. }
    assert (T : forall i : ident, lower (last i "") = last (map lower i) "").
    { induction i as [|x [|y i] IH]; [reflexivity|reflexivity|].
      change (last (x :: y :: i) "") with (last (y :: i) "").
      change (last (map lower (x :: y :: i)) "") with (last (map lower (y :: i)) ""). exact IH. }
    rewrite !L, !R, !T, H. reflexivity.
  Qed.
  Lemma NoDup_app_l {A} (a b : list A) : NoDup (a ++ b) -> NoDup a.
  Proof.
    induction a as [|x a IH]; cbn; intros H; [constructor|]. inversion H as [|? ? N D]; subst. constructor; [|auto].
    intros I. apply N. apply in_or_app. auto.
  Qed.
  Lemma model_distinct st : ModelCheck.model_errors (checked_model st) = [] ->
    NoDup (map id2 (types st)).
  Proof.
    intros H. apply P_Model.C34_unique in H. destruct H as [U _ _].
    unfold checked_model in U. cbn [ModelCheck.m_types ModelCheck.m_sessions] in U. rewrite map_map in U. cbn in U.
    apply NoDup_app_l in U. exact U.
  Qed.
  Lemma not_plain_same pkg name : ~ plain [name] ->
    same (qualified_type_identifier [name] [pkg]) ["__BUILTINS__"; "Boolean"] \/
    same (qualified_type_identifier [name] [pkg]) ["__INTERNAL__"; "Opaque"].
  Proof.
    intros NP. destruct (is_builtin_type [name]) eqn:EB.
    - left. apply id_eq_same, stands_for_iff. apply for_boolean; [now apply is_builtin_iff|reflexivity].
    - destruct (is_internal_type [name]) eqn:EI.
      + right. apply id_eq_same, stands_for_iff. apply for_opaque; [now apply is_internal_iff|reflexivity].
      + destruct NP. split; intros X; [apply is_builtin_iff in X|apply is_internal_iff in X]; congruence.
  Qed.
  Lemma plain_dec name : plain [name] \/ ~ plain [name].
  Proof.
    unfold plain. rewrite <- is_builtin_iff, <- is_internal_iff.
    destruct (is_builtin_type [name]), (is_internal_type [name]); intuition congruence.
  Qed.

  Definition based (st : state) : Prop := incl initial_types (types st) /\ Forall whole (types st).
  Lemma based_app st t ss : based st -> whole t -> based (mkState (types st ++ [t]) ss).
  Proof.
    intros [I W] Ht. split; cbn.
    - intros x Hx. apply in_or_app. auto.
    - apply Forall_app. auto.
  Qed.

  Lemma runs_grow pkg ds st st' : runs pkg ds st st' -> exists more, types st' = types st ++ more.
  Proof.
    induction 1 as [st|name d ds st st' t P M R [more E]|pdu f sdu c ds st st' t M R [more E]|s ds st st' i M R [more E]].
    - exists []. now rewrite app_nil_r.
    - exists (t :: more). rewrite E. cbn. now rewrite <- app_assoc.
    - exists (t :: more). rewrite E. cbn. now rewrite <- app_assoc.
    - exists more. exact E.
  Qed.
  Lemma loop_grow pkg ds : forall st es st' o, evaluate_loop pkg ds st es = (st', o) -> exists more, types st' = types st ++ more.
  Proof.
    induction ds as [|d ds IH]; intros st es st' o; cbn [SpecModel.evaluate_loop].
    - intros H. injection H as <- _. exists []. now rewrite app_nil_r.
    - assert (X : forall t ss es', evaluate_loop pkg ds (mkState (types st ++ [t]) ss) es' = (st', o) -> exists more, types st' = types st ++ more).
      { intros t ss es' H. apply IH in H as [more E]. cbn in E. exists (t :: more). rewrite E, <- app_assoc. reflexivity. }
      assert (Y : forall s, (s, o) = (st', o) -> s = st -> exists more, types st' = types st ++ more).
      { intros s E ->. injection E as <-. exists []. now rewrite app_nil_r. }
      destruct d as [name d|pdu f sdu c|s].
      + destruct (create_type _ d _) as [[es' t]|es'|w]; [apply X|apply IH|]. intros H. injection H as <- _. exists []. now rewrite app_nil_r.
      + destruct (create_refinement _ _ _ _ _ _) as [[es' t]|es'|w]; [apply X|apply IH|]. intros H. injection H as <- _. exists []. now rewrite app_nil_r.
      + destruct (create_session _ _ _) as [[es' t]|es'|w]; [|intros H; injection H as <- _; exists []; now rewrite app_nil_r..].
        intros H. apply IH in H as [more E]. exists more. exact E.
  Qed.
  Lemma all_grow l : forall st es st' es', evaluate_all l st es = Done (st', es') -> exists more, types st' = types st ++ more.
  Proof.
    induction l as [|sp l IH]; intros st es st' es'; cbn [SpecModel.evaluate_all].
    - intros H. injection H as <- _. exists []. now rewrite app_nil_r.
    - destruct (evaluate_specification _ _ _ _ sp st) as [st1 o] eqn:E. unfold evaluate_specification in E. apply loop_grow in E as [m1 E].
      destruct o as [u|es1|w]; try discriminate; intros H; apply IH in H as [m2 H]; exists (m1 ++ m2); rewrite H, E, app_assoc; reflexivity.
  Qed.

  (** errors are raised with at least one message: error.py, RecordFluxError.propagate
      and fail *)
  Definition signals : Prop :=
    (forall i b l, build i b l <> Raised []) /\ (forall i m, derive i m <> Raised []) /\
    (forall s p ts, create_session s p ts <> Raised []).

  Lemma evaluate_runs pkg ds : signals -> forall st st', based st ->
    runs pkg ds st st' \/ NoDup (map id2 (types st')) ->
    evaluate_loop [pkg] ds st [] = (st', Done tt) <-> runs pkg ds st st'.
  Proof.
    intros (SB & SD & SS). induction ds as [|d ds IH]; intros st st' [I W] U; cbn [SpecModel.evaluate_loop].
    - split; [intros H; injection H as <-; constructor|]. intros H. inversion H. reflexivity.
    - destruct d as [name d|pdu f sdu c|s].
      + split.
        * destruct (create_type _ d _) as [[es' t]|es'|] eqn:C; intros H; try discriminate.
          -- pose proof (loop_done _ _ _ _ _ H) as Z. cbn in Z. subst es'. cbn [app] in H.
             destruct (plain_dec name) as [P|NP].
             ++ rewrite qualified_plain in C by exact P. apply create_type_makes in C; [|exact W].
                apply runs_type with (t := t); auto. apply IH; [apply based_app; [split; assumption|eapply makes_whole; eassumption]| |exact H].
                destruct U as [U|U]; [|now right]. inversion U; subst.
                match goal with M : makes _ _ _ _ ?t0 |- _ => assert (X : t0 = t) end.
                { apply (create_type_makes pkg (types st) name d) in C; [|exact W]. 
                  match goal with M : makes _ _ _ _ ?t0 |- _ = _ => apply (create_type_makes pkg (types st) name d) in M; [|exact W]; rewrite C in M; injection M as <- end. reflexivity. }
                subst. now left.
             ++ exfalso. destruct U as [U|U]; [inversion U; subst; contradiction|].
                pose proof (create_type_id _ _ _ _ _ C) as TI. apply loop_grow in H as [more E]. cbn in E.
                rewrite E, <- app_assoc in U. rewrite map_app in U. cbn in U. apply NoDup_remove_2 in U. apply U.
                apply in_or_app. left. unfold id2 at 1. rewrite TI.
                destruct (not_plain_same pkg name NP) as [Q|Q]; apply same_id2 in Q; rewrite Q.
                ** apply in_map_iff. exists boolean. split; [reflexivity|]. apply I. now left.
                ** apply in_map_iff. exists TOpaque. split; [reflexivity|]. apply I. right. now left.
          -- exfalso. apply (type_raised (qualified_type_identifier [name] [pkg]) d (types st) SB SD).
             apply loop_done in H. cbn in H. subst. exact C.
        * intros H. inversion H; subst. rewrite qualified_plain by assumption.
          match goal with M : makes _ _ _ _ _ |- _ => pose proof M as M'; apply create_type_makes in M; [|exact W]; rewrite M end. cbn [app].
          apply IH; [apply based_app; [split; assumption|eapply makes_whole; eassumption]|now left|assumption].
      + split.
        * destruct (create_refinement _ _ _ _ _ _) as [[es' t]|es'|] eqn:C; intros H; try discriminate.
          -- pose proof (loop_done _ _ _ _ _ H) as Z. cbn in Z. subst es'. cbn [app] in H. pose proof C as C'.
             apply create_refinement_refines in C. apply runs_refinement with (t := t); auto.
             apply IH; [apply based_app; [split; assumption|]| |exact H].
             { destruct C as (? & ? & ? & ? & ? & ? & _ & _ & _ & _ & _ & ->). exact Logic.I. }
             destruct U as [U|U]; [|now right]. inversion U; subst.
             match goal with M : refines _ _ _ _ _ _ ?t0 |- _ => apply create_refinement_refines in M; rewrite C' in M; injection M as <- end. now left.
          -- exfalso. apply loop_done in H. cbn in H. subst. revert C. unfold create_refinement, Refinement.
             destruct (find_message _ _); [|discriminate]. destruct (find_message _ _); discriminate.
        * intros H. inversion H; subst.
          match goal with M : refines _ _ _ _ _ _ _ |- _ => pose proof M as M'; apply create_refinement_refines in M; rewrite M end. cbn [app].
          apply IH; [apply based_app; [split; assumption|]|now left|assumption].
          destruct M' as (? & ? & ? & ? & ? & ? & _ & _ & _ & _ & _ & ->). exact Logic.I.
      + split.
        * destruct (create_session _ _ _) as [[es' t]|es'|] eqn:C; intros H; try discriminate.
          pose proof (loop_done _ _ _ _ _ H) as Z. cbn in Z. subst es'. cbn [app] in H.
          apply runs_session with (i := t); auto. apply IH; [split; assumption| |exact H].
          destruct U as [U|U]; [|now right]. inversion U; subst.
          match goal with M : create_session _ _ _ = Done ([], ?t0) |- _ => rewrite C in M; injection M as <- end. now left.
        * intros H. inversion H; subst.
          match goal with M : create_session _ _ _ = _ |- _ => rewrite M end. cbn [app].
          apply IH; [split; assumption|now left|assumption].
  Qed.
  Lemma runs_based pkg ds st st' : runs pkg ds st st' -> based st -> based st'.
  Proof.
    induction 1 as [st|name d ds st st' t P M R IH|pdu f sdu c ds st st' t M R IH|s ds st st' i M R IH]; intros H; auto.
    - apply IH, based_app; [exact H|eapply makes_whole; eassumption].
    - apply IH, based_app; [exact H|]. destruct M as (? & ? & ? & ? & ? & ? & _ & _ & _ & _ & _ & ->). exact Logic.I.
  Qed.
  Lemma NoDup_front {A C} (f : A -> C) a b : NoDup (map f (a ++ b)) -> NoDup (map f a).
  Proof. rewrite map_app. apply NoDup_app_l. Qed.

  Lemma evaluate_all_runs l : signals -> forall st st', based st -> runs_all l st st' \/ NoDup (map id2 (types st')) ->
    evaluate_all l st [] = Done (st', []) <-> runs_all l st st'.
  Proof.
    intros SG. induction l as [|[pkg ds] l IH]; intros st st' HB U; cbn [SpecModel.evaluate_all].
    - split; [intros H; injection H as <-; constructor|]. intros H. inversion H. reflexivity.
    - split.
      + destruct (evaluate_specification _ _ _ _ (pkg, ds) st) as [st1 o] eqn:E. unfold evaluate_specification in E. cbn [fst snd] in E.
        intros H. destruct o as [[]|es|w]; [| |discriminate].
        * assert (R : runs pkg ds st st1).
          { apply (evaluate_runs pkg ds SG st st1 HB); [|exact E].
            destruct U as [U|U].
            - left. inversion U; subst. match goal with R : runs _ _ _ ?s |- _ => assert (X : s = st1) end.
              { match goal with R : runs _ _ _ _ |- _ => apply (evaluate_runs pkg ds SG st _ HB) in R; [|now left]; rewrite E in R; now injection R as <- end. }
              now subst.
            - right. apply all_grow in H as [more X]. rewrite X in U. eapply NoDup_front; eassumption. }
          econstructor; [exact R|]. apply IH; [eapply runs_based; eassumption| |exact H].
          destruct U as [U|U]; [|now right]. left. inversion U; subst.
          match goal with R0 : runs _ _ _ ?s |- _ => assert (X : s = st1) end.
          { match goal with R0 : runs _ _ _ ?s, R1 : runs_all l ?s _ |- _ => apply (evaluate_runs pkg ds SG st _ HB) in R0; [|now left]; rewrite E in R0; now injection R0 as <- end. }
          now subst.
        * exfalso. apply all_done in H. cbn in H. subst es. 
          assert (NR : forall ds st es st', evaluate_loop [pkg] ds st es = (st', Raised []) -> False).
          { clear -SG. destruct SG as (SB & SD & SS). induction ds as [|d ds IH]; intros st es st'; cbn [SpecModel.evaluate_loop].
            - destruct es; discriminate.
            - destruct d as [name d|pdu f sdu c|s].
              + destruct (create_type _ d _) as [[? ?]|?|]; [apply IH|apply IH|discriminate].
              + destruct (create_refinement _ _ _ _ _ _) as [[? ?]|?|]; [apply IH|apply IH|discriminate].
              + pose proof (SS s [pkg] (types st)) as Q. destruct (create_session _ _ _) as [[? ?]|?|]; [apply IH| |discriminate].
                intros H. injection H as _ ->. congruence. }
          exact (NR _ _ _ _ E).
      + intros H. inversion H; subst. unfold evaluate_specification. cbn [fst snd].
        match goal with R : runs _ _ _ _ |- _ => pose proof R as R'; apply (evaluate_runs pkg ds SG st _ HB) in R; [|now left]; rewrite R end.
        apply IH; [eapply runs_based; eassumption|now left|assumption].
  Qed.

  (** *** Every accepted model is what the declarations say, and conversely *)

  (** create_model of a new parser succeeds exactly if every declaration is in order
      after the ones before it and the names of the result are distinct; the result
      are the built-in types followed by one type per declaration *)
  Theorem C57_model l st : signals ->
    create_model l initial_state = Done st <->
    runs_all l initial_state st /\ P_Model.unique_names (checked_model st).
  Proof.
    intros SG. assert (HB : based initial_state).
    { split; [apply incl_refl|]. repeat constructor. }
    rewrite <- P_Model.C34_unique. unfold SpecModel.create_model. rewrite and_then_done. split.
    - intros ([st' es] & E & H). destruct (es ++ _) as [|x r] eqn:Z; [|discriminate]. injection H as ->.
      apply app_eq_nil in Z as [-> Z]. split; [|exact Z].
      apply (evaluate_all_runs l SG initial_state st HB); [|exact E]. right. now apply model_distinct.
    - intros [R U]. exists (st, []). split; [apply evaluate_all_runs; auto|]. cbn [app]. now rewrite U.
  Qed.

  (** *** The types in order, and what they refer to *)

  (** the declarations that give types, with their packages *)
  Definition type_decls (l : list (spec B S)) : list (string * decl B S) :=
    flat_map (fun sp => map (pair (fst sp)) (filter (fun d => match d with DSession _ => false | _ => true end) (snd sp))) l.
  (** the identifier and the kind of the type of a declaration *)
  Definition gives (pd : string * decl B S) (t : ty) : Prop :=
    match snd pd with
    | DType name d =>
      ty_id t = [fst pd; name] /\
      match d, t with
      | DModular _, TScalar (Modular _ _ _ _) | DRange _ _ _ _, TScalar (Range _ _ _ _)
      | DEnumeration _ _, TScalar (Enum _ _ _ _) | DArray _, TArray _ _
      | DMessage _ _, TMessage _ _ _ | DNull, TMessage _ _ _ | DDerived _, TMessage _ _ _ => True
      | _, _ => False
      end
    | DRefinement pdu field sdu c =>
      match t with
      | TRefinement _ p f s _ =>
        stands_for (fst pd) pdu (ty_id p) /\ stands_for (fst pd) sdu (ty_id s) /\ f = field /\
        is_message p = true /\ is_message s = true
      | _ => False
      end
    | DSession _ => False
    end.

  Lemma runs_gives pkg ds st st' : runs pkg ds st st' ->
    exists ts, types st' = types st ++ ts /\ Forall2 gives (type_decls [(pkg, ds)]) ts.
  Proof.
    unfold type_decls. cbn [flat_map fst snd].
    induction 1 as [st|name d ds st st' t P M R (ts & E & F)|pdu f sdu c ds st st' t M R (ts & E & F)|s ds st st' i M R (ts & E & F)].
    - exists []. split; [now rewrite app_nil_r|constructor].
    - exists (t :: ts). rewrite E. cbn. rewrite <- app_assoc. split; [reflexivity|]. constructor; [|exact F].
      split; destruct M; cbn; auto.
    - exists (t :: ts). rewrite E. cbn. rewrite <- app_assoc. split; [reflexivity|]. constructor; [|exact F].
      destruct M as (p & s & i & b & fs & g & (? & ? & _ & [M1 P1] & _) & (? & ? & _ & [M2 P2] & _) & -> & _ & _ & ->). cbn. auto.
    - exists ts. auto.
  Qed.
  Lemma runs_all_gives l st st' : runs_all l st st' ->
    exists ts, types st' = types st ++ ts /\ Forall2 gives (type_decls l) ts.
  Proof.
    induction 1 as [st|pkg ds l st st1 st2 R _ (ts & E & F)].
    - exists []. split; [now rewrite app_nil_r|constructor].
    - apply runs_gives in R as (ts1 & E1 & F1). exists (ts1 ++ ts). split; [rewrite E, E1, app_assoc; reflexivity|].
      change (type_decls ((pkg, ds) :: l)) with (type_decls ([(pkg, ds)] ++ l)). unfold type_decls. rewrite flat_map_app.
      apply Forall2_app; assumption.
  Qed.

  (** the model has the built-in types and then one type per declaration *)
  Theorem C57_order l st : signals -> create_model l initial_state = Done st ->
    exists ts, types st = initial_types ++ ts /\ Forall2 gives (type_decls l) ts.
  Proof. intros SG H. apply C57_model in H as [R _]; [|exact SG]. exact (runs_all_gives _ _ _ R). Qed.

  (** [t] is made of [u] *)
  Definition made_of (t u : ty) : Prop :=
    match t with
    | TArray _ e => u = e
    | TRefinement _ p _ s _ => u = p \/ u = s
    | _ => False
    end.
  Definition closed (ts : list ty) : Prop := forall pre t post u, ts = pre ++ t :: post -> made_of t u -> In u pre.
  Lemma closed_snoc ts t : closed ts -> (forall u, made_of t u -> In u ts) -> closed (ts ++ [t]).
  Proof.
    intros C H pre x post u E M. destruct post as [|y post] using rev_ind.
    - apply app_inj_tail in E as [<- <-]. auto.
    - clear IHpost. rewrite app_comm_cons, app_assoc in E. apply app_inj_tail in E as [-> _]. eapply C; [reflexivity|exact M].
  Qed.
  Lemma first_with_In {A} (P : A -> Prop) l t : first_with P l t -> In t l.
  Proof. intros (pre & post & -> & _). apply in_or_app. right. now left. Qed.
  Lemma last_with_In {A} (P : A -> Prop) l t : last_with P l t -> In t l.
  Proof. intros (pre & post & -> & _). apply in_or_app. right. now left. Qed.
  Lemma runs_closed pkg ds st st' : runs pkg ds st st' -> closed (types st) -> closed (types st').
  Proof.
    induction 1 as [st|name d ds st st' t P M R IH|pdu f sdu c ds st st' t M R IH|s ds st st' i M R IH]; intros H; auto.
    - apply IH, closed_snoc; [exact H|]. intros u MO. destruct M; cbn in MO; try contradiction; subst; eapply first_with_In; eassumption.
    - apply IH, closed_snoc; [exact H|]. intros u MO. destruct M as (p & s & i & b & fs & g & FP & FS & E & _ & _ & ->).
      destruct MO as [-> | ->]; eapply last_with_In; eassumption.
  Qed.

  (** every element type of an array, every message of a refinement has been declared
      before, and no other type of the model has its name *)
  Theorem C57_references l st : signals -> create_model l initial_state = Done st ->
    forall pre t post u, types st = pre ++ t :: post -> made_of t u ->
    In u pre /\ forall v, In v (types st) -> same (ty_id v) (ty_id u) -> v = u.
  Proof.
    intros SG H. apply C57_model in H as [R U]; [|exact SG].
    assert (C : closed (types st)).
    { assert (C0 : closed (types initial_state)).
      { intros [|? [|? [|? ?]]] x post u E M; cbn in E; try discriminate.
        - injection E as <- _. destruct M.
        - injection E as _ <- _. destruct M. }
      clear U SG. induction R; auto. apply IHR. eapply runs_closed; eassumption. }
    intros pre t post u E M. pose proof (C pre t post u E M) as I. split; [exact I|].
    intros v V Q. apply same_id2 in Q. apply P_Model.C34_unique, model_distinct in U.
    assert (Iu : In u (types st)) by (rewrite E; apply in_or_app; auto).
    apply In_nth_error in V as [i Ei], Iu as [j Ej].
    assert (i = j); [|congruence]. 
    eapply (proj1 (NoDup_nth_error (map id2 (types st))) U).
    - rewrite map_length. apply nth_error_Some. congruence.
    - rewrite !nth_error_map, Ei, Ej. cbn. unfold id2. now rewrite Q.
  Qed.

  (** *** Mistakes are reported *)

  (** what is wrong with the declaration [d] of the package [pkg] in the state [st] *)
  Definition mistakes (pkg : string) (d : decl B S) (st : state) (es : list string) : Prop :=
    match d with
    | DType name def =>
      create_type (qualified_type_identifier [name] [pkg]) def (types st) = Raised es \/
      exists t, create_type (qualified_type_identifier [name] [pkg]) def (types st) = Done (es, t)
    | DRefinement pdu field sdu c =>
      create_refinement [pkg] pdu field sdu c (types st) = Raised es \/
      exists t, create_refinement [pkg] pdu field sdu c (types st) = Done (es, t)
    | DSession s => exists i, create_session s [pkg] (types st) = Done (es, i)
    end.

  (** no session of the declarations raises an exception *)
  Definition quiet (pkg : string) (ds : list (decl B S)) : Prop :=
    forall s ts es, In (DSession s) ds -> create_session s [pkg] ts <> Raised es.

  Lemma loop_app pkg ds1 : quiet pkg ds1 -> forall st,
    (forall es, exists st' w, evaluate_loop [pkg] ds1 st es = (st', Crash w)) \/
    (exists st1 es1, forall ds2 es, evaluate_loop [pkg] (ds1 ++ ds2) st es = evaluate_loop [pkg] ds2 st1 (es ++ es1)).
  Proof.
    induction ds1 as [|d ds1 IH]; intros Q st.
    - right. exists st, []. intros ds2 es. now rewrite app_nil_r.
    - assert (Q' : quiet pkg ds1) by (intros s ts es I; apply Q; now right). specialize (IH Q').
      assert (GO : forall st' es', (forall ds es, evaluate_loop [pkg] (d :: ds) st es = evaluate_loop [pkg] ds st' (es ++ es')) ->
        (forall es, exists st' w, evaluate_loop [pkg] (d :: ds1) st es = (st', Crash w)) \/
        (exists st1 es1, forall ds2 es, evaluate_loop [pkg] ((d :: ds1) ++ ds2) st es = evaluate_loop [pkg] ds2 st1 (es ++ es1))).
      { intros st' es' H. destruct (IH st') as [X|(st1 & es1 & X)].
        - left. intros es. rewrite H. apply X.
        - right. exists st1, (es' ++ es1). intros ds2 es. cbn [app]. rewrite H, X, <- app_assoc. reflexivity. }
      destruct d as [name d|pdu f sdu c|s].
      + destruct (create_type (qualified_type_identifier [name] [pkg]) d (types st)) as [[es' t]|es'|w] eqn:C.
        * eapply GO. intros ds es. cbn [SpecModel.evaluate_loop]. rewrite C. reflexivity.
        * eapply GO. intros ds es. cbn [SpecModel.evaluate_loop]. rewrite C. reflexivity.
        * left. intros es. exists st, w. cbn [SpecModel.evaluate_loop]. rewrite C. reflexivity.
      + destruct (create_refinement [pkg] pdu f sdu c (types st)) as [[es' t]|es'|w] eqn:C.
        * eapply GO. intros ds es. cbn [SpecModel.evaluate_loop]. rewrite C. reflexivity.
        * eapply GO. intros ds es. cbn [SpecModel.evaluate_loop]. rewrite C. reflexivity.
        * left. intros es. exists st, w. cbn [SpecModel.evaluate_loop]. rewrite C. reflexivity.
      + destruct (create_session s [pkg] (types st)) as [[es' t]|es'|w] eqn:C.
        * eapply GO. intros ds es. cbn [SpecModel.evaluate_loop]. rewrite C. reflexivity.
        * destruct (Q s (types st) es' (or_introl eq_refl) C).
        * left. intros es. exists st, w. cbn [SpecModel.evaluate_loop]. rewrite C. reflexivity.
  Qed.
  Lemma all_incl l : forall st es st' es', evaluate_all l st es = Done (st', es') -> incl es es'.
  Proof.
    induction l as [|sp l IH]; intros st es st' es'; cbn [SpecModel.evaluate_all].
    - intros H. injection H as _ <-. apply incl_refl.
    - destruct (evaluate_specification _ _ _ _ sp st) as [st1 [u|es1|w]]; [apply IH| |discriminate].
      intros H. apply IH in H. eapply incl_tran; [|exact H]. apply incl_appl, incl_refl.
  Qed.
  Lemma all_app l1 : forall l2 st es,
    evaluate_all (l1 ++ l2) st es =
    match evaluate_all l1 st es with
    | Done (st', es') => evaluate_all l2 st' es'
    | Raised es' => Raised es'
    | Crash w => Crash w
    end.
  Proof.
    induction l1 as [|sp l1 IH]; intros l2 st es; cbn [app SpecModel.evaluate_all]; [reflexivity|].
    destruct (evaluate_specification _ _ _ _ sp st) as [st1 [u|es1|w]]; [apply IH|apply IH|reflexivity].
  Qed.
  Lemma all_raised l : forall st es es', evaluate_all l st es <> Raised es'.
  Proof.
    induction l as [|sp l IH]; intros st es es'; cbn [SpecModel.evaluate_all]; [discriminate|].
    destruct (evaluate_specification _ _ _ _ sp st) as [st1 [u|es1|w]]; [apply IH|apply IH|discriminate].
  Qed.

  (** the mistakes of a declaration are among the errors of the exception, wherever
      it stands, if no session of its file raises an exception *)
  Theorem C57_reported l1 pkg ds1 d ds2 l2 st0 es0 st1 o es :
    evaluate_all l1 initial_state [] = Done (st0, es0) ->
    evaluate_loop [pkg] ds1 st0 [] = (st1, o) -> (forall w, o <> Crash w) ->
    mistakes pkg d st1 es -> quiet pkg (ds1 ++ d :: ds2) ->
    match create_model (l1 ++ (pkg, ds1 ++ d :: ds2) :: l2) initial_state with
    | Done _ => es = []
    | Raised es' => incl es es'
    | Crash _ => True
    end.
  Proof.
    intros E0 E1 NC M Q. unfold SpecModel.create_model. rewrite all_app, E0. cbn [SpecModel.evaluate_all].
    unfold evaluate_specification. cbn [fst snd].
    assert (Q1 : quiet pkg ds1) by (intros s ts es' I; apply Q; apply in_or_app; auto).
    assert (Q2 : quiet pkg ds2) by (intros s ts es' I; apply Q; apply in_or_app; right; now right).
    destruct (loop_app pkg ds1 Q1 st0) as [X|(st1' & es1 & X)].
    { destruct (X []) as (st' & w & Y). rewrite E1 in Y. injection Y as _ ->. destruct (NC w eq_refl). }
    assert (st1' = st1) as ->.
    { pose proof (X [] []) as Y. rewrite app_nil_r, E1 in Y. cbn in Y. now injection Y as <- _. }
    rewrite X. cbn [app].
    assert (STEP : exists st2, evaluate_loop [pkg] (d :: ds2) st1 es1 = evaluate_loop [pkg] ds2 st2 (es1 ++ es)).
    { destruct d as [name d|pdu f sdu c|s]; cbn [mistakes SpecModel.evaluate_loop] in *.
      - destruct M as [-> |[t ->]]; eauto.
      - destruct M as [-> |[t ->]]; eauto.
      - destruct M as [i ->]; eauto. }
    destruct STEP as [st2 ->].
    destruct (loop_app pkg ds2 Q2 st2) as [Y|(st3 & es3 & Y)].
    - destruct (Y (es1 ++ es)) as (st' & w & ->). exact Logic.I.
    - specialize (Y [] (es1 ++ es)). rewrite app_nil_r in Y. rewrite Y. cbn [SpecModel.evaluate_loop].
      destruct ((es1 ++ es) ++ es3) as [|e r] eqn:Z.
      + apply app_eq_nil in Z as [Z _]. apply app_eq_nil in Z as [_ ->].
        destruct (evaluate_all l2 st3 es0) as [[st' es']|es'|w]; cbn [and_then]; [|apply incl_nil_l|exact Logic.I].
        destruct (es' ++ _); [reflexivity|apply incl_nil_l].
      + rewrite <- Z. destruct (evaluate_all l2 st3 _) as [[st' es']|es'|w] eqn:G; cbn [and_then]; [| |exact Logic.I].
        * apply all_incl in G. assert (I : incl es es').
          { eapply incl_tran; [|exact G]. intros x I. apply in_or_app. right. apply in_or_app. left. apply in_or_app. now right. }
          destruct (es' ++ _) as [|y ys] eqn:W.
          -- apply app_eq_nil in W as [-> _]. now apply incl_l_nil in I.
          -- rewrite <- W. now apply incl_appl.
        * destruct (all_raised _ _ _ _ G).
  Qed.

  (** *** Files do not depend on unrelated ones *)

  (** the references of a declaration *)
  Definition mentions (d : decl B S) : list ident :=
    match d with
    | DType _ (DArray r) | DType _ (DDerived r) => [r]
    | DType _ (DMessage fields _) => map snd fields
    | DRefinement pdu _ sdu _ => [pdu; sdu]
    | _ => []
    end.
  Definition unrelated (pkg : string) (d : decl B S) (extra : list ty) : Prop :=
    forall r t, In r (mentions d) -> In t extra -> ~ stands_for pkg r (ty_id t).
  (** no session, and no name of a built-in type *)
  Definition proper (d : decl B S) : Prop :=
    match d with DType name _ => plain [name] | DRefinement _ _ _ _ => True | DSession _ => False end.

  Lemma find_mid {A} (f : A -> bool) a extra b : (forall x, In x extra -> f x = false) ->
    find f (a ++ extra ++ b) = find f (a ++ b).
  Proof.
    intros H. induction a as [|x a IH]; cbn; [|now rewrite IH].
    induction extra as [|x extra IH]; cbn; [reflexivity|]. rewrite (H x (or_introl eq_refl)). apply IH. intros y I. apply H. now right.
  Qed.
  Lemma filter_mid {A} (f : A -> bool) a extra b : (forall x, In x extra -> f x = false) ->
    filter f (a ++ extra ++ b) = filter f (a ++ b).
  Proof.
    intros H. rewrite !filter_app. f_equal.
    induction extra as [|x extra IH]; cbn; [reflexivity|]. rewrite (H x (or_introl eq_refl)). apply IH. intros y I. apply H. now right.
  Qed.
  Lemma unrelated_false pkg d extra r t : unrelated pkg d extra -> In r (mentions d) -> In t extra ->
    id_eq (qualified_type_identifier r [pkg]) (ty_id t) = false.
  Proof.
    intros U I J. destruct (id_eq _ _) eqn:E; [|reflexivity]. apply stands_for_iff in E. destruct (U r t I J E).
  Qed.
  Lemma find_type_mid pkg d extra r a b : unrelated pkg d extra -> In r (mentions d) ->
    find_type (a ++ extra ++ b) (qualified_type_identifier r [pkg]) = find_type (a ++ b) (qualified_type_identifier r [pkg]).
  Proof. intros U I. apply find_mid. intros x J. eapply unrelated_false; eassumption. Qed.
  Lemma create_type_frame pkg name d a extra b : unrelated pkg (DType name d) extra ->
    create_type [pkg; name] d (a ++ extra ++ b) = create_type [pkg; name] d (a ++ b).
  Proof.
    intros U. destruct d as [e|fe le x se|lits aspects|r|fields body| |r]; cbn [SpecModel.create_type]; try reflexivity.
    - unfold create_array. change (package [pkg; name]) with [pkg]. erewrite find_type_mid; [reflexivity|exact U|now left].
    - unfold create_message. f_equal. f_equal. unfold create_message_types. change (package [pkg; name]) with [pkg].
      assert (G : forall l acc, incl l fields ->
        fold_left (fun d fr => match find_type (a ++ extra ++ b) (qualified_type_identifier (snd fr) [pkg]) with
                               | Some t => field_set d (fst fr) t | None => d end) l acc =
        fold_left (fun d fr => match find_type (a ++ b) (qualified_type_identifier (snd fr) [pkg]) with
                               | Some t => field_set d (fst fr) t | None => d end) l acc).
      { induction l as [|[f r] l IH]; intros acc I; [reflexivity|]. cbn [fold_left fst snd].
        erewrite find_type_mid; [|exact U|]; [|cbn; apply in_map_iff; exists (f, r); split; [reflexivity|apply I; now left]].
        apply IH. intros y J. apply I. now right. }
      apply G, incl_refl.
    - unfold create_derived_message. change (package [pkg; name]) with [pkg]. rewrite filter_mid; [reflexivity|].
      intros t I. assert (F : id_eq (qualified_type_identifier r [pkg]) (ty_id t) = false) by (eapply unrelated_false; [exact U|now left|exact I]).
      destruct (id_eq (ty_id t) _) eqn:E; [|reflexivity]. apply id_eq_same, same_sym, id_eq_same in E. congruence.
  Qed.
  Lemma create_refinement_frame pkg pdu f sdu c a extra b : unrelated pkg (DRefinement pdu f sdu c) extra ->
    create_refinement [pkg] pdu f sdu c (a ++ extra ++ b) = create_refinement [pkg] pdu f sdu c (a ++ b).
  Proof.
    intros U. unfold create_refinement.
    assert (X : forall r, In r [pdu; sdu] ->
      find_message (a ++ extra ++ b) (qualified_type_identifier r [pkg]) = find_message (a ++ b) (qualified_type_identifier r [pkg])).
    { intros r I. unfold find_message. rewrite !rev_app_distr, <- app_assoc. apply find_mid. intros t J. apply in_rev in J.
      rewrite (unrelated_false pkg _ extra r t U I J). apply andb_false_r. }
    rewrite X by now left. rewrite X by (right; now left). reflexivity.
  Qed.

  (** the evaluation of a file finds the same errors and makes the same types if
      types that no reference of the file stands for are taken away or added *)
  Theorem C57_frame pkg ds : forall a extra b ss ss' es,
    (forall d, In d ds -> proper d /\ unrelated pkg d extra) ->
    exists new o, evaluate_loop [pkg] ds (mkState (a ++ b) ss) es = (mkState ((a ++ b) ++ new) ss, o) /\
      evaluate_loop [pkg] ds (mkState (a ++ extra ++ b) ss') es = (mkState ((a ++ extra ++ b) ++ new) ss', o).
  Proof.
    induction ds as [|d ds IH]; intros a extra b ss ss' es H.
    - exists []. eexists. rewrite !app_nil_r. split; reflexivity.
    - assert (H' : forall d, In d ds -> proper d /\ unrelated pkg d extra) by (intros x I; apply H; now right).
      destruct (H d (or_introl eq_refl)) as [P U].
      assert (GO : forall t es', exists new o,
        evaluate_loop [pkg] ds (mkState ((a ++ b) ++ [t]) ss) es' = (mkState ((a ++ b) ++ new) ss, o) /\
        evaluate_loop [pkg] ds (mkState ((a ++ extra ++ b) ++ [t]) ss') es' = (mkState ((a ++ extra ++ b) ++ new) ss', o)).
      { intros t es'. destruct (IH a extra (b ++ [t]) ss ss' es' H') as (new & o & E1 & E2). exists (t :: new), o.
        rewrite <- !app_assoc in *. cbn [app] in *. split; [rewrite E1|rewrite E2]; reflexivity. }
      destruct d as [name d|pdu f sdu c|s]; [| |destruct P]; cbn [SpecModel.evaluate_loop types sessions].
      + cbn in P. rewrite qualified_plain, create_type_frame by assumption.
        destruct (create_type [pkg; name] d (a ++ b)) as [[es' t]|es'|w]; [apply GO|apply (IH a extra b); exact H'|].
        exists []. eexists. rewrite !app_nil_r. split; reflexivity.
      + rewrite create_refinement_frame by assumption.
        destruct (create_refinement [pkg] pdu f sdu c (a ++ b)) as [[es' t]|es'|w]; [apply GO|apply (IH a extra b); exact H'|].
        exists []. eexists. rewrite !app_nil_r. split; reflexivity.
  Qed.

  (** *** A parser makes one model only *)

  (** create_model adds to the types of the parser; a second call fails if there is
      any declaration of a type *)
  Theorem C57_twice l st : signals -> create_model l initial_state = Done st -> type_decls l <> [] ->
    forall st', create_model l st <> Done st'.
  Proof.
    intros SG H ND st' H'. pose proof H as H0. apply C57_model in H as [R U]; [|exact SG].
    unfold SpecModel.create_model in H'. apply and_then_done in H' as ([st2 es] & E & K).
    destruct (es ++ _) as [|x r] eqn:Z; [|discriminate]. injection K as ->. apply app_eq_nil in Z as [-> Z].
    apply model_distinct in Z.
    assert (HB : based st).
    { assert (HB0 : based initial_state) by (split; [apply incl_refl|repeat constructor]).
      clear -R HB0. induction R; auto. apply IHR. eapply runs_based; eassumption. }
    apply evaluate_all_runs in E; [|exact SG|exact HB|now right].
    apply runs_all_gives in R as (ts & E1 & F1). apply runs_all_gives in E as (ts2 & E2 & F2).
    destruct (type_decls l) as [|[pkg d] tl]; [congruence|].
    inversion F1 as [|? t ? ts' G1 _]; subst. inversion F2 as [|? t2 ? ts2' G2 _]; subst.
    rewrite E2, E1 in Z. destruct d as [name d|pdu f sdu c|s]; [| |destruct G1].
    - destruct G1 as [I1 _]. destruct G2 as [I2 _]. cbn [fst] in I1, I2. rewrite map_app in Z. cbn [map] in Z.
      apply NoDup_remove_2 in Z. apply Z. apply in_or_app. left. apply in_map_iff. exists t. split.
      + unfold id2. rewrite I1, I2. reflexivity.
      + apply in_or_app. right. now left.
    - destruct t as [| | | | |i p g s c']; try (exfalso; exact G1). destruct (C57_references l st SG H0 _ _ _ p E1 (or_introl eq_refl)) as [[<-|[<-|[]]] _];
        destruct G1 as (_ & _ & _ & M & _); discriminate M.
  Qed.
  (** *** No other exception *)

  Definition total (e : expr) : Prop := exists e', simplify expr_eqb n e = Ok e'.
  (** the sizes are static *)
  Definition static (d : decl B S) : Prop :=
    match d with
    | DType _ (DModular e) => exists v, value e v
    | DType _ (DRange f l _ s) => total f /\ total l /\ exists v, value s v
    | DType _ (DEnumeration _ aspects) => forall v, In ("Size", v) aspects -> exists e z, v = Some e /\ value e z
    | _ => True
    end.
  Definition calm (t : ty) : Prop := forall o, scalar_size n t = Some o -> exists v, o = Done v.

  Lemma aspects_static l : (forall v, In ("Size", v) l -> exists e z, v = Some e /\ value e z) ->
    forall es size av, (forall e, size = Some e -> exists z, value e z) ->
    exists es' size' av', create_aspects l es size av = Done (es', size', av') /\ forall e, size' = Some e -> exists z, value e z.
  Proof.
    induction l as [|[x v] l IH]; intros H es size av HS; cbn [create_aspects]; [eauto 10|].
    assert (H' : forall v, In ("Size", v) l -> exists e z, v = Some e /\ value e z) by (intros w I; apply H; now right).
    destruct (String.eqb_spec x "Size") as [->|NE].
    - destruct (H v (or_introl eq_refl)) as (e & z & -> & V). apply IH; [exact H'|]. intros e' E. injection E as <-. eauto.
    - destruct (String.eqb x "Always_Valid"); [|now apply IH]. destruct v as [e|]; [|now apply IH].
      destruct (expr_eqb e _); [now apply IH|]. destruct (expr_eqb e _); now apply IH.
  Qed.
  Lemma scalar_calm r p w : calm p -> (forall w', r <> Err w') -> scalar_type r p <> Crash w /\
    forall es t, scalar_type r p = Done (es, t) -> calm t.
  Proof.
    intros P R. destruct r as [[es [s|]]|w']; cbn.
    - split; [discriminate|]. intros es' t H. injection H as _ <-. intros o E. cbn in E. injection E as <-. eauto.
    - split; [discriminate|]. intros es' t H. injection H as _ <-. exact P.
    - destruct (R w' eq_refl).
  Qed.
  Lemma partial_calm id e z l : value e z -> calm (TPartial id (Some e) l).
  Proof. intros V o E. cbn in E. unfold value in V. unfold simp in E. rewrite V in E. injection E as <-. eauto. Qed.

  Definition no_crashes : Prop :=
    (forall i b l w, build i b l <> Crash w) /\ (forall i m w, derive i m <> Crash w) /\
    (forall s p ts w, create_session s p ts <> Crash w).

  Lemma create_type_calm id name d ts w : no_crashes -> static (DType name d) -> Forall calm ts ->
    create_type id d ts <> Crash w /\ forall es t, create_type id d ts = Done (es, t) -> calm t.
  Proof.
    intros (NB & ND & _) ST C.
    assert (MS : forall o, o <> Crash w -> message_type id o <> Crash w /\ forall es t, message_type id o = Done (es, t) -> calm t).
    { intros [[? [? ?]]|es|w'] H; cbn; (split; [congruence|]); intros es' t E; try discriminate. injection E as _ <-. intros o E. discriminate. }
    destruct d as [e|fe le a se|lits aspects|r|fields body| |r]; cbn [SpecModel.create_type static] in *.
    - destruct ST as [v V]. unfold create_modular, ModularInteger. unfold value in V. unfold simp. rewrite V. cbn.
      split; [discriminate|]. intros es t E. injection E as _ <-. intros o E. injection E as <-. cbn. eauto.
    - destruct ST as ([fe' F] & [le' L] & [v V]). unfold create_range. destruct (negb _); [split; discriminate|].
      apply scalar_calm; [eapply partial_calm; eassumption|]. intros w'. unfold RangeInteger, simp. unfold value in V.
      rewrite F, L, V. cbn [bind]. destruct le'; try discriminate. cbn [is_num].
      match goal with |- context [match ?l with [] => _ | _ :: _ => _ end] => destruct l eqn:Z end; [|discriminate].
      destruct fe'; try discriminate; exfalso; apply app_eq_nil in Z as [Z _]; apply app_eq_nil in Z as [_ Z]; discriminate Z.
    - unfold create_enumeration. destruct (aspects_static aspects ST [] None false) as (es' & size' & av' & -> & HS); [discriminate|].
      cbn [and_then]. destruct size' as [e|]; [|destruct es'; split; discriminate].
      destruct es'; [|split; discriminate]. destruct (HS e eq_refl) as [z V].
      apply scalar_calm; [eapply partial_calm; eassumption|]. intros w'. unfold Enumeration, simp. unfold value in V. rewrite V. discriminate.
    - unfold create_array. destruct (find_type _ _) as [u|] eqn:F; [|split; discriminate].
      apply find_some in F as [I _]. rewrite Forall_forall in C. specialize (C u I). unfold Array.
      destruct (scalar_size n u) as [o|] eqn:Z.
      + destruct (C o Z) as [v ->]. cbn. split; [discriminate|]. intros es t E. injection E as _ <-. intros o E. discriminate.
      + split; [discriminate|]. intros es t E. injection E as _ <-. intros o E. discriminate.
    - apply MS, NB.
    - split; [discriminate|]. intros es t E. injection E as _ <-. intros o E. discriminate.
    - unfold create_derived_message. destruct (filter _ ts) as [|x l]; [split; discriminate|].
      destruct (filter is_message (x :: l)) as [|[] ?]; try (split; discriminate). apply MS, ND.
  Qed.
  Lemma loop_calm pkg ds : no_crashes -> Forall static ds -> forall st es, Forall calm (types st) ->
    forall st' o, evaluate_loop [pkg] ds st es = (st', o) -> Forall calm (types st') /\ forall w, o <> Crash w.
  Proof.
    intros NC. induction ds as [|d ds IH]; intros ST st es C st' o; cbn [SpecModel.evaluate_loop].
    - intros H. injection H as <- <-. split; [exact C|]. intros w. destruct es; discriminate.
    - inversion ST as [|? ? S1 S2]; subst. destruct d as [name d|pdu f sdu c|s].
      + destruct (create_type _ d (types st)) as [[es' t]|es'|w] eqn:E.
        * apply IH; [exact S2|]. cbn. apply Forall_app. split; [exact C|]. constructor; [|constructor].
          eapply (create_type_calm _ name d (types st) "" NC S1 C); exact E.
        * apply IH; assumption.
        * destruct (create_type_calm (qualified_type_identifier [name] [pkg]) name d (types st) w NC S1 C) as [X _]. contradiction.
      + destruct (create_refinement _ _ _ _ _ _) as [[es' t]|es'|w] eqn:E.
        * apply IH; [exact S2|]. cbn. apply Forall_app. split; [exact C|]. constructor; [|constructor]. revert E.
          unfold create_refinement. destruct (find_message _ _); [|discriminate]. destruct (find_message _ _); [|discriminate].
          intros E. injection E as _ <-. intros o' E. discriminate.
        * apply IH; assumption.
        * exfalso. revert E. unfold create_refinement. destruct (find_message _ _); [|discriminate]. destruct (find_message _ _); discriminate.
      + destruct (create_session s [pkg] (types st)) as [[es' i]|es'|w] eqn:E.
        * apply IH; assumption.
        * intros H. injection H as <- <-. split; [exact C|discriminate].
        * destruct NC as (_ & _ & NS). destruct (NS _ _ _ _ E).
  Qed.

  (** if the sizes of the scalar types are static and building messages and sessions
      raises no other exception, neither does create_model *)
  Theorem C57_no_crash l : no_crashes -> (forall pkg ds d, In (pkg, ds) l -> In d ds -> static d) ->
    forall w, create_model l initial_state <> Crash w.
  Proof.
    intros NC ST w. unfold SpecModel.create_model.
    assert (G : forall l st es, (forall pkg ds d, In (pkg, ds) l -> In d ds -> static d) -> Forall calm (types st) ->
      evaluate_all l st es <> Crash w).
    { clear l ST. induction l as [|[pkg ds] l IH]; intros st es ST C; cbn [SpecModel.evaluate_all]; [discriminate|].
      destruct (evaluate_specification _ _ _ _ (pkg, ds) st) as [st1 o] eqn:E. unfold evaluate_specification in E. cbn [fst snd] in E.
      apply loop_calm in E as [C1 NCr]; [|exact NC|apply Forall_forall; intros d I; eapply ST; [now left|exact I]|exact C].
      destruct o as [u|es'|w']; [apply IH; [|exact C1]; intros p ds' d I; apply (ST p ds' d); now right..|destruct (NCr w' eq_refl)]. }
    assert (C0 : Forall calm (types initial_state)).
    { constructor; [|constructor; [|constructor]]; intros o E; cbn in E; [injection E as <-; eauto|discriminate]. }
    pose proof (G l initial_state [] ST C0) as X.
    destruct (evaluate_all l initial_state []) as [[st es]|es|w']; cbn [and_then]; [|discriminate|congruence].
    destruct (es ++ _); discriminate.
  Qed.
End Meaning.

(** ** A case, and what does not hold *)

(** two packages: A declares an integer, an enumeration and messages; B, which refers
    to A, an array, messages and a refinement.  A message is built with all its fields
    or fails if a field has no type. *)
Definition ex_build (i : ident) (fields : nat) (d : list (ident * ty))
  : outcome (list string * (bool * list (ident * ty))) :=
  if Nat.eqb fields (List.length d) then Done ([], (negb (Nat.eqb fields 0), d)) else Raised ["missing type"].
Definition ex_derive (i : ident) (m : bool * list (ident * ty)) : outcome (list string * (bool * list (ident * ty))) :=
  Done ([], m).
(** a session is fine if it has a name *)
Definition ex_session (s : string) (pkg : ident) (ts : list ty) : outcome (list string * ident) :=
  if String.eqb s "" then Raised ["empty states"] else Done ([], pkg ++ [s]).
Definition ex_a : spec nat string :=
  ("A", [DType "T" (DModular (ENum 256));
         DType "E" (DEnumeration [(["X"], 0); (["Y"], 1)] [("Size", Some (ENum 8)); ("Always_Valid", None)]);
         DType "PDU" (DMessage [(["Tag"], ["E"]); (["Length"], ["t"]); (["Data"], ["Opaque"])] 3%nat);
         DSession "S"]).
Definition ex_b : spec nat string :=
  ("B", [DType "L" (DArray ["a"; "T"]);
         DType "SDU" (DMessage [(["L"], ["L"]); (["F"], ["Boolean"])] 2%nat);
         DType "D" (DDerived ["A"; "PDU"]);
         DRefinement ["D"] ["data"] ["SDU"] (Some (ERel OEq (EVar "tag") (EVar "a::x")))]).
Lemma ex_signals : signals ex_build ex_derive ex_session.
Proof.
  repeat split; intros; unfold ex_build, ex_derive, ex_session; try discriminate;
    [destruct (Nat.eqb _ _)|destruct (String.eqb _ _)]; discriminate.
Qed.
Definition ex_types : list ty :=
  let t := TScalar (Modular ["A"; "T"] (ENum 256) 256 8) in
  let e := TScalar (Enum ["A"; "E"] [(["X"], 0); (["Y"], 1)] 8 true) in
  let fs := [(["Tag"], e); (["Length"], t); (["Data"], TOpaque)] in
  let l := TArray ["B"; "L"] t in
  let sdu := TMessage ["B"; "SDU"] true [(["L"], l); (["F"], boolean)] in
  let d := TMessage ["B"; "D"] true fs in
  initial_types ++ [t; e; TMessage ["A"; "PDU"] true fs; l; sdu; d;
    TRefinement ["B"; "__REFINEMENT__B_SDU__B_D__data__"] d ["data"] sdu (ERel OEq (EVar "tag") (EVar "a::x"))].
Example C57_case : create_model 10 ex_build ex_derive ex_session [ex_a; ex_b] initial_state =
  Done (mkState ex_types [["A"; "S"]]).
Proof. vm_compute. reflexivity. Qed.
Example C57_case_runs : runs_all 10 ex_build ex_derive ex_session [ex_a; ex_b] initial_state (mkState ex_types [["A"; "S"]]).
Proof. apply C57_model; [exact ex_signals|exact C57_case]. Qed.
Example C57_case_twice : forall st, create_model 10 ex_build ex_derive ex_session [ex_a; ex_b] (mkState ex_types [["A"; "S"]]) <> Done st.
Proof. apply (C57_twice _ _ _ _ [ex_a; ex_b]); [exact ex_signals|exact C57_case|discriminate]. Qed.
Example C57_case_static : forall w, create_model 10 ex_build ex_derive ex_session [ex_a; ex_b] initial_state <> Crash w.
Proof.
  apply C57_no_crash.
  - repeat split; intros; unfold ex_build, ex_derive, ex_session; try discriminate;
      [destruct (Nat.eqb _ _)|destruct (String.eqb _ _)]; discriminate.
  - intros pkg ds d [E|[E|[]]] I; injection E as <- <-; cbn in I;
      repeat (destruct I as [<-|I]; [cbn|]); try exact Logic.I; try destruct I.
    + exists 256. vm_compute. reflexivity.
    + intros v [E|[E|[]]]; [injection E as <-|discriminate]. exists (ENum 8), 8. split; vm_compute; reflexivity.
Qed.
(** the declarations of B do not depend on a package C *)
Example C57_case_frame : exists new o, forall extra,
  extra = [TScalar (Modular ["C"; "T"] (ENum 256) 256 8)] ->
  evaluate_loop 10 ex_build ex_derive ex_session ["B"] (snd ex_b) (mkState (firstn 5 ex_types) []) [] = (mkState (firstn 5 ex_types ++ new) [], o) /\
  evaluate_loop 10 ex_build ex_derive ex_session ["B"] (snd ex_b) (mkState (firstn 5 ex_types ++ extra) []) [] = (mkState ((firstn 5 ex_types ++ extra) ++ new) [], o).
Proof.
  destruct (C57_frame 10 ex_build ex_derive ex_session "B" (snd ex_b) (firstn 5 ex_types)
              [TScalar (Modular ["C"; "T"] (ENum 256) 256 8)] [] [] [] []) as (new & o & E1 & E2).
  - assert (PL : forall x, is_builtin_type [x] = false -> is_internal_type [x] = false -> plain [x]).
    { intros x E F. split; intros X; [apply is_builtin_iff in X|apply is_internal_iff in X]; congruence. }
    assert (NS : forall r, id_eq (qualified_type_identifier r ["B"]) ["C"; "T"] = false -> ~ stands_for "B" r ["C"; "T"]).
    { intros r E X. apply stands_for_iff in X. congruence. }
    intros d I. cbn in I. repeat (destruct I as [<-|I]; [|]); try destruct I.
    all: split; [try exact Logic.I; apply PL; vm_compute; reflexivity|].
    all: intros r t Ir [<-|[]]; cbn [ty_id type_id]; apply NS; cbn in Ir;
      repeat (destruct Ir as [<-|Ir]; [vm_compute; reflexivity|]); destruct Ir.
  - exists new, o. intros extra ->. rewrite app_nil_r in *. split; [exact E1|exact E2].
Qed.

(** a mistake is reported together with the mistakes of the files behind it *)
Example C57_case_reported :
  create_model 10 ex_build ex_derive ex_session
    [("A", [DType "T" (DModular (ENum 255)); DType "U" (DArray ["V"]); DSession "S"]);
     ("B", [DType "M" (DMessage [(["F"], ["V"])] 1%nat); DRefinement ["M"] ["F"] ["M"] None])] initial_state =
  Raised ["modulus not power of two"; "undefined element type"; "missing type"; "undefined type in refinement"].
Proof. vm_compute. reflexivity. Qed.
Example C57_case_reported_meets : exists es,
  evaluate_all 10 ex_build ex_derive ex_session [] initial_state [] = Done (initial_state, []) /\
  evaluate_loop 10 ex_build ex_derive ex_session ["A"] [] initial_state [] = (initial_state, Done tt) /\
  mistakes 10 ex_build ex_derive ex_session "A" (DType "T" (DModular (ENum 255))) initial_state es /\
  es = ["modulus not power of two"] /\
  quiet ex_session "A" ([] ++ DType "T" (DModular (ENum 255)) :: [DType "U" (DArray ["V"]); DSession "S"] : list (decl nat string)).
Proof.
  exists ["modulus not power of two"]. split; [reflexivity|]. split; [reflexivity|]. split; [|split; [reflexivity|]].
  - right. eexists. vm_compute. reflexivity.
  - intros s ts es I. cbn in I. destruct I as [E|[E|[E|[]]]]; try discriminate. injection E as <-. discriminate.
Qed.

(** The claim "every mistake is reported" is false without the condition on
    sessions: an exception raised by a session is not caught in the loop, the errors
    collected before it are lost and the declarations behind it are not looked at
    (parser.py:1381-1388). *)
Theorem C57_session_refuted :
  exists ds1 (s : string) ds2 es,
    evaluate_loop 10 ex_build ex_derive ex_session ["A"] ds1 initial_state [] = (initial_state, Raised ["undefined element type"]) /\
    mistakes 10 ex_build ex_derive ex_session "A" (hd (DSession "") ds2) initial_state ["undefined base message"] /\
    create_model 10 ex_build ex_derive ex_session [("A", ds1 ++ DSession s :: ds2)] initial_state = Raised es /\
    ~ In "undefined element type" es /\ ~ In "undefined base message" es.
Proof.
  exists [DType "U" (DArray ["V"])], "", [DType "W" (DDerived ["V"])], ["empty states"].
  split; [vm_compute; reflexivity|]. split; [left; vm_compute; reflexivity|]. split; [vm_compute; reflexivity|].
  split; intros [E|[]]; discriminate.
Qed.

(** The claim "only RecordFluxError is raised" is false without the condition on
    sizes: a type whose modulus is not static is recorded as an error but remains
    among the types, and an array of it asks for its size (type_.py:56-60, 496). *)
Theorem C57_crash_refuted : exists e,
  (exists t, create_type 10 ex_build ex_derive ["A"; "T"] (DModular e) initial_types = Done (["modulus contains variable"], t)) /\
  create_model 10 ex_build ex_derive ex_session [("A", [DType "T" (DModular e); DType "L" (DArray ["T"])])] initial_state =
    Crash "AssertionError".
Proof. exists (EVar "x"). split; [eexists|]; vm_compute; reflexivity. Qed.

(** The claim "a reference to a type of another package needs a with clause" is
    false: it is enough that the other file has been evaluated before.  Neither of
    the files has a with clause; the order in which they are given decides. *)
Theorem C57_with_refuted :
  let a := ("A", [DType "T" (DModular (ENum 256))]) : spec nat string in
  let b := ("B", [DType "L" (DArray ["A"; "T"])]) : spec nat string in
  let fs := [("a", []); ("b", [])] in
  SpecSort.parse fs 5 5 ["b"; "a"] = Ok ([], ["a"; "b"]) /\
  (exists st, create_model 10 ex_build ex_derive ex_session [a; b] initial_state = Done st) /\
  SpecSort.parse fs 5 5 ["a"; "b"] = Ok ([], ["b"; "a"]) /\
  create_model 10 ex_build ex_derive ex_session [b; a] initial_state = Raised ["undefined element type"].
Proof. cbv zeta. repeat split; try eexists; vm_compute; reflexivity. Qed.

(** The claim "a package may declare a type of any name that is not built-in" is
    false: a type named like the internal type Opaque is put into the internal
    package and then conflicts with it (check_naming looks for built-in types only,
    parser.py:1178-1185). *)
Theorem C57_opaque_refuted : exists name, ~ is_boolean [name] /\
  create_model 10 ex_build ex_derive ex_session [("A", [DType name (DModular (ENum 256))])] initial_state =
    Raised ["name conflict for type"].
Proof. exists "OPAQUE". split; [intros H; apply is_builtin_iff in H; vm_compute in H; discriminate|vm_compute; reflexivity]. Qed.

Print Assumptions C57_model.
Print Assumptions C57_order.
Print Assumptions C57_references.
Print Assumptions C57_reported.
Print Assumptions C57_frame.
Print Assumptions C57_twice.
Print Assumptions C57_no_crash.
Print Assumptions C57_session_refuted.
Print Assumptions C57_crash_refuted.
Print Assumptions C57_with_refuted.
Print Assumptions C57_opaque_refuted.
