(** C66: the export of a model. *)
From Coq Require Import String List ZArith Bool Lia Arith Ascii.
From Coq Require DecimalString DecimalZ.
From Verif Require Import Base JsonExport.
Import ListNotations.
Local Open Scope string_scope.
Local Open Scope list_scope.
Local Open Scope res_scope.

(** ** Statements *)

(** the attributes that are not part of the value of an object: its place in the file, errors, and what
    can be found from the rest *)
Definition unseen : list string := ["location"; "error"; "type_"; "_str"; "immutable"].
Definition mem_text (x : string) (l : list string) : bool := existsb (String.eqb x) l.
(** an object without these attributes *)
Fixpoint erase (o : py) : py :=
  match o with
  | PObj cls attrs =>
    PObj cls ((fix go (l : list (string * py)) := match l with [] => [] | (k, v) :: r => if mem_text k unseen then go r else (k, erase v) :: go r end) attrs)
  | PList l => PList (map erase l)
  | _ => o
  end.
Definition erase_link (l : xlink) : xlink :=
  mkXLink (xl_source l) (xl_target l) (erase (xl_condition l)) (erase (xl_size l)) (erase (xl_first l)).
(** a type without its checksums *)
Definition erase_type (t : xtype) : xtype :=
  match t with
  | XModular i m => XModular i (erase m)
  | XMessage i s ts _ => XMessage i (map erase_link s) ts []
  | XRefinement i p pdu f sdu c => XRefinement i p pdu f sdu (erase c)
  | _ => t
  end.

(** the expressions of messages, expression.py: attributes in the order in which they are
    set; type, location and text are arbitrary *)
Inductive expression : py -> Prop :=
| X_literal c t l s : In c ["BooleanTrue"; "BooleanFalse"] -> expression (PObj c [("type_", t); ("location", l); ("_str", s)])
| X_number v b t l s : expression (PObj "Number" [("type_", t); ("location", l); ("value", PInt v); ("base", PInt b); ("_str", s)])
| X_variable i t l n m s : i <> [] ->
    expression (PObj "Variable" [("identifier", PId i); ("type_", t); ("location", l); ("negative", PBool n); ("immutable", PBool m); ("_str", s)])
| X_undefined t l n m s :
    expression (PObj "UndefinedExpr" [("type_", t); ("location", l); ("negative", PBool n); ("immutable", PBool m); ("_str", s)])
| X_attribute c p t l n m s : In c ["Size"; "Length"; "First"; "Last"; "ValidChecksum"; "Valid"; "Present"; "Head"; "Opaque"] -> expression p ->
    expression (PObj c [("prefix", p); ("type_", t); ("location", l); ("negative", PBool n); ("immutable", PBool m); ("_str", s)])
| X_not e t l s : expression e -> expression (PObj "Not" [("type_", t); ("location", l); ("expr", e); ("_str", s)])
| X_binary c a b t l s : In c ["Sub"; "Div"; "Pow"; "Mod"; "Less"; "LessEqual"; "Equal"; "GreaterEqual"; "Greater"; "NotEqual"; "In"; "NotIn"] ->
    expression a -> expression b -> expression (PObj c [("type_", t); ("location", l); ("left", a); ("right", b); ("_str", s)])
| X_associative c ts t l s : In c ["And"; "AndThen"; "Or"; "OrElse"; "Add"; "Mul"] -> Forall expression ts ->
    expression (PObj c [("type_", t); ("location", l); ("terms", PList ts); ("_str", s)])
| X_aggregate es t l s : Forall expression es -> expression (PObj "Aggregate" [("type_", t); ("location", l); ("elements", PList es); ("_str", s)])
| X_string es d t l s : Forall expression es ->
    expression (PObj "String" [("type_", t); ("location", l); ("elements", PList es); ("_str", s); ("data", PStr d)])
| X_range a b t l s : expression a -> expression b ->
    expression (PObj "ValueRange" [("type_", t); ("location", l); ("lower", a); ("upper", b); ("_str", s)]).
Definition type_expressions (t : xtype) : list py :=
  match t with
  | XModular _ m => [m]
  | XMessage _ s _ _ => flat_map (fun l => [xl_condition l; xl_size l; xl_first l]) s
  | XRefinement _ _ _ _ _ c => [c]
  | _ => []
  end.
Definition sound_type (t : xtype) : Prop :=
  Forall expression (type_expressions t) /\ match t with XPrivate i => i <> [] | _ => True end.

(** ** Proofs *)

Lemma res_bind {A B} (r : res A) (k : A -> res B) b : bind r k = Ok b -> exists a, r = Ok a /\ k a = Ok b.
Proof. destruct r as [a|]; cbn [bind]; [eauto|discriminate]. Qed.
Local Ltac dbind H x E := apply res_bind in H as (x & E & H).

(** *** objects can be read back *)
Definition str_of (j : json) : string := match j with JStr s => s | _ => "" end.
Fixpoint decode (j : json) : py :=
  match j with
  | JInt z => PInt z
  | JBool b => PBool b
  | JStr s => PStr s
  | JList (JStr s :: r) => PId (s :: map str_of r)
  | JList l => PList (map decode l)
  | JObj [("kind", JStr c); ("data", JObj d)] => PObj c (map (fun p => (fst p, decode (snd p))) d)
  | JObj _ => PNone
  end.

Definition no_str (j : json) : Prop := match j with JStr _ => False | _ => True end.
Lemma decode_list l : Forall no_str l -> decode (JList l) = PList (map decode l).
Proof. intros F. destruct l as [|j l]; [reflexivity|]. apply Forall_inv in F. destruct j; try reflexivity. destruct F. Qed.
Lemma decode_object c d : decode (object c d) = PObj c (map (fun p => (fst p, decode (snd p))) d).
Proof. reflexivity. Qed.
Lemma decode_ident i : i <> [] -> decode (ident i) = PId i.
Proof.
  intros N. destruct i as [|s r]; [congruence|]. unfold ident. cbn [map decode]. f_equal. f_equal. rewrite map_map. cbn [str_of]. apply map_id.
Qed.
Lemma serialize_no_str o j : serialize o = Ok j -> no_str j.
Proof. destruct o; cbn [serialize]; try discriminate; intros E; [apply Ok_inj in E; now subst|]. dbind E d ED. apply Ok_inj in E. now subst. Qed.

Lemma expression_object o : expression o -> exists c a, o = PObj c a.
Proof. destruct 1; eauto. Qed.
(** the result of serialize on expressions *)
Definition good (o : py) : Prop := exists j, serialize o = Ok j /\ decode j = erase o.
Lemma serialize_list l : Forall good l ->
  exists js, map_all serialize l = Ok js /\ decode (JList js) = PList (map erase l).
Proof.
  intros F. assert (X : exists js, map_all serialize l = Ok js /\ Forall no_str js /\ map decode js = map erase l).
  { induction F as [|o l (j & E & D) F (js & E' & N & D')]; [exists []; split; [reflexivity|split; [constructor|reflexivity]]|].
    exists (j :: js). cbn [map_all]. rewrite E. cbn [bind]. rewrite E'. cbn [bind map]. split; [reflexivity|]. split; [|congruence].
    constructor; [now apply serialize_no_str in E|exact N]. }
  destruct X as (js & E & N & D). exists js. split; [exact E|]. now rewrite (decode_list _ N), D.
Qed.
Lemma attributes_nil (f : py -> res json) : attributes f [] = Ok [].
Proof. reflexivity. Qed.
Lemma attributes_cons f k v r : attributes f ((k, v) :: r) =
  if kept k then let* j := value f v in let* r' := attributes f r in Ok ((k, j) :: r') else attributes f r.
Proof. reflexivity. Qed.
Fixpoint erase_attrs (l : list (string * py)) : list (string * py) :=
  match l with [] => [] | (k, v) :: r => if mem_text k unseen then erase_attrs r else (k, erase v) :: erase_attrs r end.
Lemma kept_seen k : kept k = negb (mem_text k unseen).
Proof. reflexivity. Qed.
Lemma erase_object c a : erase (PObj c a) = PObj c (erase_attrs a).
Proof. reflexivity. Qed.
Definition good_value (v : py) : Prop := exists j, value serialize v = Ok j /\ decode j = erase v.
Lemma object_good c a : Forall (fun p => kept (fst p) = true -> good_value (snd p)) a -> good (PObj c a).
Proof.
  intros F. assert (X : exists d, attributes serialize a = Ok d /\ map (fun p => (fst p, decode (snd p))) d = erase_attrs a).
  { induction F as [|(k & v) a H F (d & E & D)]; [exists []; auto|]. rewrite attributes_cons. cbn [erase_attrs fst snd] in *. rewrite kept_seen in *.
    destruct (mem_text k unseen); cbn [negb] in *; [eauto|].
    destruct (H eq_refl) as (j & EJ & DJ). rewrite EJ. cbn [bind]. rewrite E. cbn [bind]. exists ((k, j) :: d). split; [reflexivity|]. cbn [map fst snd]. congruence. }
  destruct X as (d & E & D). exists (object c d). cbn [serialize]. rewrite E. cbn [bind]. split; [reflexivity|]. now rewrite decode_object, erase_object, D.
Qed.
Lemma good_object_value c a : good (PObj c a) -> good_value (PObj c a).
Proof. intros (j & E & D). exists j. auto. Qed.
Lemma good_list_value l : Forall good l -> good_value (PList l).
Proof. intros F. destruct (serialize_list l F) as (js & E & D). exists (JList js). cbn [value]. rewrite E. auto. Qed.
Lemma good_id_value i : i <> [] -> good_value (PId i).
Proof. intros N. exists (ident i). split; [reflexivity|]. now rewrite decode_ident. Qed.
Lemma good_int z : good_value (PInt z). Proof. now exists (JInt z). Qed.
Lemma good_bool b : good_value (PBool b). Proof. now exists (JBool b). Qed.
Lemma good_str s : good_value (PStr s). Proof. now exists (JStr s). Qed.

Fixpoint expression_good o (X : expression o) {struct X} : good o.
Proof.
  assert (V : forall e, expression e -> good e -> good_value e) by (intros e X' G; destruct (expression_object e X') as (c & a & ->); now apply good_object_value).
  assert (L : forall l, Forall expression l -> Forall good l).
  { fix L 2. intros l F. destruct F as [|e l E F]; constructor; [now apply expression_good|now apply L]. }
  destruct X; apply object_good; repeat (apply Forall_cons; [cbn [fst snd]; intros K; try discriminate K|]); try apply Forall_nil;
    auto using good_int, good_bool, good_str, good_id_value, good_list_value.
Qed.
Lemma expression_value o : expression o -> good_value o.
Proof. intros X. pose proof (expression_good o X) as G. destruct (expression_object o X) as (c & a & ->). now apply good_object_value. Qed.

(** *** types can be read back *)
Definition as_id (j : json) : list string := match j with JList l => map str_of l | _ => [] end.
Lemma as_ident i : as_id (ident i) = i.
Proof. unfold ident. cbn [as_id]. rewrite map_map. cbn [str_of]. apply map_id. Qed.
Definition as_number (j : json) : Z * Z :=
  match j with JObj [_; (_, JObj [(_, JInt v); (_, JInt b)])] => (v, b) | _ => (0, 0)%Z end.
Definition as_field (j : json) : string := match j with JObj [_; (_, JObj [(_, JList [JStr f])])] => f | _ => "" end.
Definition as_link (j : json) : xlink :=
  match j with
  | JObj [_; (_, JObj [(_, s); (_, t); (_, c); (_, z); (_, f)])] => mkXLink (as_field s) (as_field t) (decode c) (decode z) (decode f)
  | _ => mkXLink "" "" PNone PNone PNone
  end.
Definition as_type (j : json) : xtype :=
  match j with
  | JObj [_; (_, JObj d)] =>
    match j with
    | JObj ((_, JStr k) :: _) =>
      if String.eqb k "ModularInteger" then match d with [(_, i); (_, m)] => XModular (as_id i) (decode m) | _ => XOpaque end
      else if String.eqb k "RangeInteger" then
        match d with [(_, i); (_, f); (_, l); (_, s)] => XRange (as_id i) (as_number f) (as_number l) (as_number s) | _ => XOpaque end
      else if String.eqb k "Enumeration" then
        match d with
        | [(_, i); (_, JObj ls); (_, s); (_, JBool av)] => XEnum (as_id i) (map (fun p => (fst p, as_number (snd p))) ls) (as_number s) av
        | _ => XOpaque
        end
      else if String.eqb k "Array" then match d with [(_, i); (_, e)] => XArray (as_id i) (as_id e) | _ => XOpaque end
      else if String.eqb k "Private" then match d with [(_, i)] => XPrivate (as_id i) | _ => XOpaque end
      else if String.eqb k "Message" then
        match d with
        | [(_, i); (_, JList ls); (_, JObj ts)] => XMessage (as_id i) (map as_link ls) (map (fun p => (fst p, as_id (snd p))) ts) []
        | _ => XOpaque
        end
      else if String.eqb k "Refinement" then
        match d with
        | [(_, i); (_, p); (_, pdu); (_, f); (_, sdu); (_, c)] => XRefinement (as_id i) (as_id p) (as_id pdu) (as_field f) (as_id sdu) (decode c)
        | _ => XOpaque
        end
      else XOpaque
    | _ => XOpaque
    end
  | _ => XOpaque
  end.
Lemma serialize_number n : exists j, serialize (number n) = Ok j /\ as_number j = n.
Proof. destruct n as [v b]. eexists. split; reflexivity. Qed.
Lemma serialize_field f : exists j, serialize (field f) = Ok j /\ as_field j = f.
Proof. eexists. split; reflexivity. Qed.
Lemma field_value f : exists j, value serialize (field f) = Ok j /\ as_field j = f.
Proof. eexists. split; reflexivity. Qed.
Lemma serialize_link l : expression (xl_condition l) -> expression (xl_size l) -> expression (xl_first l) ->
  exists j, serialize (link_object l) = Ok j /\ as_link j = erase_link l.
Proof.
  intros C S F. destruct l as [s t c z f]. cbn [xl_condition xl_size xl_first] in *.
  destruct (expression_value c C) as (jc & EC & DC). destruct (expression_value z S) as (jz & EZ & DZ). destruct (expression_value f F) as (jf & EF & DF).
  destruct (field_value s) as (js & ES & DS). destruct (field_value t) as (jt & ET & DT).
  unfold link_object. cbn [xl_source xl_target xl_condition xl_size xl_first serialize]. rewrite !attributes_cons.
  change (kept "source") with true. change (kept "target") with true. change (kept "condition") with true. change (kept "size") with true.
  change (kept "first") with true. change (kept "location") with false. cbv iota. rewrite attributes_nil.
  rewrite ES. cbn [bind]. rewrite ET. cbn [bind]. rewrite EC. cbn [bind]. rewrite EZ. cbn [bind]. rewrite EF. cbn [bind].
  eexists. split; [reflexivity|]. cbn [as_link]. unfold erase_link. cbn. congruence.
Qed.
Lemma map_all_ok {A B C} (f : A -> res B) (g : B -> C) (h : A -> C) l : (forall x, In x l -> exists y, f x = Ok y /\ g y = h x) ->
  exists ys, map_all f l = Ok ys /\ map g ys = map h l.
Proof.
  induction l as [|x l IH]; intros H; [exists []; auto|]. destruct (H x (or_introl eq_refl)) as (y & E & G).
  destruct IH as (ys & E' & G'); [intros z J; apply H; now right|]. exists (y :: ys). cbn [map_all map]. rewrite E. cbn [bind]. rewrite E'. cbn [bind]. split; [reflexivity|congruence].
Qed.
Lemma type_back t : sound_type t -> exists j, type_json t = Ok j /\ as_type j = erase_type t.
Proof.
  intros [S P]. destruct t as [i m|i f l s|i lits s av|i e| |i|i st ts cs|i p pdu f sdu c]; cbn [type_expressions] in S.
  - apply Forall_inv in S. destruct (expression_good m S) as (j & E & D). cbn [type_json]. rewrite E. cbn [bind]. eexists. split; [reflexivity|].
    change (as_type _) with (XModular (as_id (ident i)) (decode j)). rewrite as_ident, D. reflexivity.
  - cbn [type_json]. destruct (serialize_number f) as (jf & EF & DF). destruct (serialize_number l) as (jl & EL & DL). destruct (serialize_number s) as (js & ES & DS).
    rewrite EF. cbn [bind]. rewrite EL. cbn [bind]. rewrite ES. cbn [bind]. eexists. split; [reflexivity|].
    change (as_type _) with (XRange (as_id (ident i)) (as_number jf) (as_number jl) (as_number js)). rewrite as_ident. cbn [erase_type]. congruence.
  - cbn [type_json]. destruct (map_all_ok (fun p => let* v := serialize (number (snd p)) in Ok (fst p, v)) (fun p => (fst p, as_number (snd p))) (fun p => p) lits) as (ls & EL & DL).
    { intros [k n] _. destruct (serialize_number n) as (j & E & D). cbn [fst snd]. rewrite E. cbn [bind]. eexists. split; [reflexivity|]. cbn [fst snd]. congruence. }
    rewrite EL. cbn [bind]. destruct (serialize_number s) as (js & ES & DS). rewrite ES. cbn [bind]. eexists. split; [reflexivity|].
    change (as_type _) with (XEnum (as_id (ident i)) (map (fun p => (fst p, as_number (snd p))) ls) (as_number js) av). rewrite as_ident, DL, DS, map_id. reflexivity.
  - eexists. split; [reflexivity|]. change (as_type _) with (XArray (as_id (ident i)) (as_id (ident e))). now rewrite !as_ident.
  - eexists. split; reflexivity.
  - eexists. split; [reflexivity|]. change (as_type _) with (XPrivate (as_id (ident i))). now rewrite as_ident.
  - cbn [type_json]. destruct (map_all_ok (fun l => serialize (link_object l)) as_link erase_link st) as (ls & EL & DL).
    { intros l J. rewrite Forall_forall in S.
      assert (K : forall e, In e [xl_condition l; xl_size l; xl_first l] -> expression e) by (intros e I; apply S, in_flat_map; eauto).
      apply serialize_link; apply K; cbn; auto. }
    rewrite EL. cbn [bind]. eexists. split; [reflexivity|].
    change (as_type _) with (XMessage (as_id (ident i)) (map as_link ls) (map (fun p => (fst p, as_id (snd p))) (map (fun p => (fst p, ident (snd p))) ts)) []).
    rewrite as_ident, DL, map_map. cbn [erase_type]. f_equal. rewrite <- (map_id ts) at 2. apply map_ext. intros [k x]. cbn [fst snd]. now rewrite as_ident.
  - apply Forall_inv in S. cbn [type_json]. destruct (serialize_field f) as (jf & EF & DF). destruct (expression_good c S) as (j & E & D).
    rewrite EF. cbn [bind]. rewrite E. cbn [bind]. eexists. split; [reflexivity|].
    change (as_type _) with (XRefinement (as_id (ident i)) (as_id (ident p)) (as_id (ident pdu)) (as_field jf) (as_id (ident sdu)) (decode j)).
    rewrite !as_ident. cbn [erase_type]. congruence.
Qed.

(** *** texts *)
Lemma append_assoc (a b c : string) : ((a ++ b) ++ c = a ++ (b ++ c))%string.
Proof. induction a as [|x a IH]; cbn [append]; [reflexivity|]. now rewrite IH. Qed.
Lemma append_head_inj (a b c : string) : (a ++ b = a ++ c)%string -> b = c.
Proof. induction a as [|x a IH]; cbn [append]; [auto|]. intros E. injection E as E. auto. Qed.
Fixpoint is_prefix (a b : string) : bool :=
  match a, b with "", _ => true | String x a', String y b' => Ascii.eqb x y && is_prefix a' b' | _, _ => false end.
Lemma append_prefix a : forall b r s, (a ++ r = b ++ s)%string -> is_prefix a b || is_prefix b a = true.
Proof.
  induction a as [|x a IH]; intros b r s E; [reflexivity|]. destruct b as [|y b]; [reflexivity|]. cbn [append] in E. injection E as -> E.
  cbn [is_prefix]. rewrite Ascii.eqb_refl. cbn [andb]. eapply IH. exact E.
Qed.
Definition all_chars : list ascii := map ascii_of_nat (seq 0 256).
Lemma all_chars_In c : In c all_chars.
Proof. apply in_map_iff. exists (nat_of_ascii c). split; [apply ascii_nat_embedding|]. apply in_seq. pose proof (nat_ascii_bounded c). lia. Qed.
Lemma escape_code : forallb (fun c => forallb (fun d => Ascii.eqb c d || negb (is_prefix (escape c) (escape d) || is_prefix (escape d) (escape c))) all_chars) all_chars = true.
Proof. vm_compute. reflexivity. Qed.
Lemma escape_inj c d r s : (escape c ++ r = escape d ++ s)%string -> c = d /\ r = s.
Proof.
  intros E. pose proof escape_code as X. rewrite forallb_forall in X. specialize (X c (all_chars_In c)). rewrite forallb_forall in X. specialize (X d (all_chars_In d)).
  rewrite (append_prefix _ _ _ _ E) in X. cbn [negb] in X. rewrite orb_false_r in X. apply Ascii.eqb_eq in X. subst d. split; [reflexivity|]. now apply append_head_inj in E.
Qed.
Lemma escape_quote : forallb (fun c => negb (is_prefix (escape c) quote || is_prefix quote (escape c))) all_chars = true.
Proof. vm_compute. reflexivity. Qed.
Lemma escape_no_quote c r s : (escape c ++ r = quote ++ s)%string -> False.
Proof.
  intros E. pose proof escape_quote as X. rewrite forallb_forall in X. specialize (X c (all_chars_In c)). now rewrite (append_prefix _ _ _ _ E) in X.
Qed.
Lemma escaped_inj a : forall b r s, (escaped a ++ quote ++ r = escaped b ++ quote ++ s)%string -> a = b /\ r = s.
Proof.
  induction a as [|x a IH]; intros [|y b] r s E.
  - cbn [escaped append] in E. now apply append_head_inj in E.
  - cbn [escaped] in E. rewrite append_assoc in E. change ("" ++ quote ++ r)%string with (quote ++ r)%string in E. symmetry in E. now apply escape_no_quote in E.
  - cbn [escaped] in E. rewrite append_assoc in E. change ("" ++ quote ++ s)%string with (quote ++ s)%string in E. now apply escape_no_quote in E.
  - cbn [escaped] in E. rewrite !append_assoc in E. apply escape_inj in E as [-> E]. apply IH in E as [-> ->]. auto.
Qed.
Lemma string_text_inj a b r s : (string_text a ++ r = string_text b ++ s)%string -> a = b /\ r = s.
Proof. unfold string_text. rewrite !append_assoc. intros E. apply append_head_inj in E. now apply escaped_inj in E. Qed.

(** numbers *)
Definition number_char (c : ascii) : bool := Ascii.eqb c "-" || (Nat.leb 48 (nat_of_ascii c) && Nat.leb (nat_of_ascii c) 57).
Fixpoint all_number (s : string) : bool := match s with "" => true | String c r => number_char c && all_number r end.
Definition ends (r : string) : Prop := match r with "" => True | String c _ => number_char c = false end.
Lemma number_inj a : forall b r s, all_number a = true -> all_number b = true -> ends r -> ends s -> (a ++ r = b ++ s)%string -> a = b /\ r = s.
Proof.
  induction a as [|x a IH]; intros [|y b] r s A B R S E; cbn [append all_number] in *.
  - auto.
  - subst r. cbn [ends] in R. apply andb_true_iff in B as [B _]. congruence.
  - subst s. cbn [ends] in S. apply andb_true_iff in A as [A _]. congruence.
  - injection E as -> E. apply andb_true_iff in A as [_ A]. apply andb_true_iff in B as [_ B]. destruct (IH b r s A B R S E) as [-> ->]. auto.
Qed.
Lemma uint_number d : all_number (DecimalString.NilEmpty.string_of_uint d) = true.
Proof. induction d; cbn [DecimalString.NilEmpty.string_of_uint all_number]; rewrite ?IHd; reflexivity. Qed.
Lemma int_number z : all_number (int_text z) = true /\ exists c s, int_text z = String c s.
Proof.
  unfold int_text, DecimalString.NilZero.string_of_int, DecimalString.NilZero.string_of_uint.
  destruct (Z.to_int z) as [d|d]; destruct d; (split; [cbn [DecimalString.NilEmpty.string_of_uint all_number]; rewrite ?uint_number; reflexivity|cbn [DecimalString.NilEmpty.string_of_uint]; eauto]).
Qed.
Lemma to_int_nil z : Z.to_int z <> Decimal.Pos Decimal.Nil /\ Z.to_int z <> Decimal.Neg Decimal.Nil.
Proof.
  assert (P : forall p, Pos.to_uint p <> Decimal.Nil).
  { intros p E. pose proof (DecimalPos.Unsigned.of_to p) as Q. rewrite E in Q. discriminate Q. }
  destruct z as [|p|p]; cbn [Z.to_int]; (split; [|]); try discriminate; intros E; injection E as E; now apply P in E.
Qed.
Lemma int_text_inj a b : int_text a = int_text b -> a = b.
Proof.
  unfold int_text. intros E. destruct (to_int_nil a) as [A1 A2]. destruct (to_int_nil b) as [B1 B2].
  pose proof (DecimalString.NilZero.isi (Z.to_int a)) as A. pose proof (DecimalString.NilZero.isi (Z.to_int b)) as B.
  apply DecimalZ.to_int_inj. rewrite E in A. specialize (A A1 A2). specialize (B B1 B2). congruence.
Qed.

Section JsonInd.
  Context (P : json -> Prop) (HI : forall z, P (JInt z)) (HB : forall b, P (JBool b)) (HS : forall s, P (JStr s))
    (HL : forall l, Forall P l -> P (JList l)) (HO : forall l, Forall (fun p => P (snd p)) l -> P (JObj l)).
  Fixpoint json_nested (j : json) : P j :=
    match j with
    | JInt z => HI z
    | JBool b => HB b
    | JStr s => HS s
    | JList l => HL l ((fix go l := match l return Forall P l with [] => Forall_nil _ | x :: r => Forall_cons x (json_nested x) (go r) end) l)
    | JObj l => HO l ((fix go l := match l return Forall (fun p => P (snd p)) l with [] => Forall_nil _ | x :: r => Forall_cons x (json_nested (snd x)) (go r) end) l)
    end.
End JsonInd.

(** the text of a value is no proper beginning of the text of another one *)
Definition readable (j : json) : Prop := forall n k r s, ends r -> ends s -> (dump n j ++ r = dump n k ++ s)%string -> j = k /\ r = s.
Lemma items_ends f n l m r : ends (items f n l ++ new_line m ++ r)%string.
Proof. destruct l; reflexivity. Qed.
Lemma members_ends f n l m r : ends (members f n l ++ new_line m ++ r)%string.
Proof. destruct l as [|[k x] l]; reflexivity. Qed.
Lemma items_inj n m a : Forall readable a -> forall b r s,
  (items (dump n) n a ++ new_line m ++ "]" ++ r = items (dump n) n b ++ new_line m ++ "]" ++ s)%string -> a = b /\ r = s.
Proof.
  induction 1 as [|x a X F IH]; intros [|y b] r s E; cbn [items] in E.
  - apply append_head_inj, append_head_inj, append_head_inj in E. auto.
  - discriminate E.
  - discriminate E.
  - rewrite !append_assoc in E. apply append_head_inj, append_head_inj in E. apply X in E as [-> E]; [|apply items_ends|apply items_ends].
    apply IH in E as [-> ->]. auto.
Qed.
Lemma members_inj n m a : Forall (fun p => readable (snd p)) a -> forall b r s,
  (members (dump n) n a ++ new_line m ++ "}" ++ r = members (dump n) n b ++ new_line m ++ "}" ++ s)%string -> a = b /\ r = s.
Proof.
  induction 1 as [|[k x] a X F IH]; intros [|[k' y] b] r s E; cbn [members] in E.
  - apply append_head_inj, append_head_inj, append_head_inj in E. auto.
  - discriminate E.
  - discriminate E.
  - rewrite !append_assoc in E. apply append_head_inj, append_head_inj in E. apply string_text_inj in E as [-> E]. apply append_head_inj in E.
    apply X in E as [Q E]; [|apply members_ends|apply members_ends]. cbn [snd] in Q. subst y. apply IH in E as [-> ->]. auto.
Qed.
Definition first_char (s : string) : ascii := match s with String c _ => c | "" => "000"%char end.
Definition kind_char (j : json) (c : ascii) : Prop :=
  match j with
  | JInt _ => number_char c = true
  | JBool true => c = "t"%char
  | JBool false => c = "f"%char
  | JStr _ => c = ascii_of_nat 34
  | JList _ => c = "["%char
  | JObj _ => c = "{"%char
  end.
Lemma dump_first n j r : kind_char j (first_char (dump n j ++ r)).
Proof.
  destruct j as [z|[]|s|[|x l]|[|[k x] l]]; cbn [dump kind_char]; try reflexivity.
  destruct (int_number z) as [A (c & s & E)]. rewrite E in *. cbn [append first_char all_number] in *. now apply andb_true_iff in A as [A _].
Qed.
Lemma all_readable j : readable j.
Proof.
  induction j as [z|b|s|l F|l F] using json_nested; intros n k r s' R S E; pose proof (dump_first n k s') as K; rewrite <- E in K.
  - destruct (int_number z) as [A (c & t & Q)].
    destruct k as [z'|b'|s''|l'|l'].
    + cbn [dump] in E. destruct (int_number z') as [A' _]. destruct (number_inj _ _ _ _ A A' R S E) as [X ->]. apply int_text_inj in X as ->. auto.
    + exfalso. cbn [dump] in K. rewrite Q in K, A. cbn [append first_char all_number kind_char] in K, A. destruct b'; subst c; discriminate A.
    + exfalso. cbn [dump] in K. rewrite Q in K, A. cbn [append first_char all_number kind_char] in K, A. subst c. discriminate A.
    + exfalso. cbn [dump] in K. rewrite Q in K, A. cbn [append first_char all_number kind_char] in K, A. subst c. discriminate A.
    + exfalso. cbn [dump] in K. rewrite Q in K, A. cbn [append first_char all_number kind_char] in K, A. subst c. discriminate A.
  - destruct b; destruct k as [z'|[]|s''|l'|l']; cbn [dump append first_char kind_char] in K; try discriminate K; cbn [dump] in E; apply append_head_inj in E; auto.
  - destruct k as [z'|[]|s''|l'|l']; cbn [dump] in K; unfold string_text in K; cbn [quote append first_char kind_char] in K; try discriminate K.
    cbn [dump] in E. apply string_text_inj in E as [-> ->]. auto.
  - assert (K' : first_char (dump n (JList l) ++ r) = "["%char) by (destruct l; reflexivity). rewrite K' in K.
    destruct k as [z'|[]|s''|l'|l']; cbn [kind_char] in K; try discriminate K.
    destruct l as [|x l], l' as [|y l']; cbn [dump] in E.
    + apply append_head_inj in E. auto.
    + exfalso. rewrite !append_assoc in E. cbn [append] in E. discriminate E.
    + exfalso. rewrite !append_assoc in E. cbn [append] in E. discriminate E.
    + rewrite !append_assoc in E. apply append_head_inj, append_head_inj in E. apply (Forall_inv F) in E as [-> E]; [|apply items_ends|apply items_ends].
      apply items_inj in E as [-> ->]; [auto|]. now apply Forall_inv_tail in F.
  - assert (K' : first_char (dump n (JObj l) ++ r) = "{"%char) by (destruct l as [|[? ?] ?]; reflexivity). rewrite K' in K.
    destruct k as [z'|[]|s''|l'|l']; cbn [kind_char] in K; try discriminate K.
    destruct l as [|[k x] l], l' as [|[k' y] l']; cbn [dump] in E.
    + apply append_head_inj in E. auto.
    + exfalso. rewrite !append_assoc in E. cbn [append] in E. discriminate E.
    + exfalso. rewrite !append_assoc in E. cbn [append] in E. discriminate E.
    + rewrite !append_assoc in E. apply append_head_inj, append_head_inj in E. apply string_text_inj in E as [-> E]. apply append_head_inj in E.
      apply (Forall_inv F) in E as [Q E]; [|apply members_ends|apply members_ends]. cbn [snd] in Q. subst y.
      apply members_inj in E as [-> ->]; [auto|]. now apply Forall_inv_tail in F.
Qed.
Lemma append_nil (a : string) : (a ++ "" = a)%string.
Proof. induction a as [|x a IH]; cbn [append]; [reflexivity|]. now rewrite IH. Qed.
Lemma dump_inj n j k : dump n j = dump n k -> j = k.
Proof. intros E. rewrite <- (append_nil (dump n j)), <- (append_nil (dump n k)) in E. apply all_readable in E; [tauto|exact I|exact I]. Qed.

Lemma model_back m : Forall sound_type (xm_types m) -> xm_sessions m = [] -> exists ts, map_all type_json (xm_types m) = Ok ts /\
  model_json m = Ok (object "Model" [("_Model__types", JList ts); ("_Model__sessions", JList [])]) /\ map as_type ts = map erase_type (xm_types m).
Proof.
  intros S N. destruct (map_all_ok type_json as_type erase_type (xm_types m)) as (ts & E & D).
  { intros t J. rewrite Forall_forall in S. now apply type_back, S. }
  exists ts. unfold model_json. rewrite E, N. cbn [bind map_all]. auto.
Qed.

(** ** Properties *)

(** C66: The text of an exported model determines its types: two models with the same text
    have the same types with the same expressions.  No other file is changed. *)
Theorem C66_determined : forall parse parse' fs fs' inputs inputs' output output' m m' fs1 fs1' text,
  parse fs inputs = Ok m -> parse' fs' inputs' = Ok m' ->
  Forall sound_type (xm_types m) -> Forall sound_type (xm_types m') ->
  export parse fs inputs output = (fs1, Ok tt) -> export parse' fs' inputs' output' = (fs1', Ok tt) ->
  fs1 output = Some text -> fs1' output' = Some text ->
  map erase_type (xm_types m) = map erase_type (xm_types m') /\ forall q, q <> output -> fs1 q = fs q.
Proof.
  intros parse parse' fs fs' inputs inputs' output output' m m' fs1 fs1' text EP EP' S S' X X' T T'.
  assert (N : forall m fs1 output text parse fs inputs, parse fs inputs = Ok m -> Forall sound_type (xm_types m) -> export parse fs inputs output = (fs1, Ok tt) ->
    fs1 output = Some text -> exists ts, text = dump 0 (object "Model" [("_Model__types", JList ts); ("_Model__sessions", JList [])]) /\
      map as_type ts = map erase_type (xm_types m) /\ forall q, q <> output -> fs1 q = fs q).
  { clear. intros m fs1 output text parse fs inputs EP S X T. unfold export in X. rewrite EP in X.
    destruct (model_json m) as [j|] eqn:J; [|discriminate]. injection X as <-.
    assert (NS : xm_sessions m = []).
    { unfold model_json in J. dbind J ts ET. dbind J ss ES. destruct (xm_sessions m) as [|s l]; [reflexivity|]. cbn [map_all] in ES. dbind ES js EJ. unfold session_object in EJ.
      cbn [serialize app] in EJ. dbind EJ d ED. rewrite !attributes_cons in ED. change (kept "identifier") with true in ED. change (kept "initial") with true in ED.
      change (kept "final") with true in ED. change (kept "states") with true in ED. change (kept "declarations") with true in ED. cbv iota in ED.
      dbind ED a1 E1. dbind ED r1 E2. dbind E2 a2 E3. dbind E2 r2 E4. dbind E4 a3 E5. dbind E4 r3 E6. dbind E6 a4 E7. dbind E6 r4 E8. dbind E8 a5 E9. discriminate E9. }
    destruct (model_back m S NS) as (ts & _ & EJ & D). rewrite EJ in J. apply Ok_inj in J. subst j. exists ts.
    split; [|split; [exact D|]].
    - unfold write in T. rewrite String.eqb_refl in T. congruence.
    - intros q Q. unfold write. destruct (String.eqb_spec q output); [contradiction|reflexivity]. }
  destruct (N _ _ _ _ _ _ _ EP S X T) as (ts & E & D & F). destruct (N _ _ _ _ _ _ _ EP' S' X' T') as (ts' & E' & D' & _).
  split; [|exact F]. rewrite E in E'. apply dump_inj in E'. unfold object in E'. injection E' as ->. congruence.
Qed.

(** C66: A model without sessions can be exported. *)
Theorem C66_total : forall parse fs inputs output m,
  parse fs inputs = Ok m -> Forall sound_type (xm_types m) -> xm_sessions m = [] ->
  exists fs1 text, export parse fs inputs output = (fs1, Ok tt) /\ fs1 output = Some text /\ text <> "".
Proof.
  intros parse fs inputs output m EP S N. destruct (model_back m S N) as (ts & _ & E & _). unfold export. rewrite EP, E.
  eexists. eexists. split; [reflexivity|]. unfold write. rewrite String.eqb_refl. split; [reflexivity|]. discriminate.
Qed.

(** C66: A model with a session cannot be exported: the command ends with an AttributeError
    and leaves an empty file. *)
Section PyInd.
  Context (P : py -> Prop) (H0 : P PNone) (HI : forall z, P (PInt z)) (HB : forall b, P (PBool b)) (HS : forall s, P (PStr s))
    (HL : forall l, Forall P l -> P (PList l)) (HD : forall l, P (PDict l)) (HX : forall i, P (PId i))
    (HO : forall c a, Forall (fun p => P (snd p)) a -> P (PObj c a)).
  Fixpoint py_nested (o : py) : P o :=
    match o with
    | PNone => H0
    | PInt z => HI z
    | PBool b => HB b
    | PStr s => HS s
    | PList l => HL l ((fix go l := match l return Forall P l with [] => Forall_nil _ | x :: r => Forall_cons x (py_nested x) (go r) end) l)
    | PDict l => HD l
    | PId i => HX i
    | PObj c a => HO c a ((fix go l := match l return Forall (fun p => P (snd p)) l with [] => Forall_nil _ | x :: r => Forall_cons x (py_nested (snd x)) (go r) end) a)
    end.
End PyInd.
Definition only_error (r : res json) : Prop := forall e, r = Err e -> e = "AttributeError".
Lemma serialize_only o : only_error (serialize o) /\ only_error (value serialize o).
Proof.
  induction o as [|z|b|s|l F|l|i|c a F] using py_nested; try (split; intros e E; cbn in E; [injection E as <-; reflexivity|try discriminate E; injection E as <-; reflexivity]).
  - split; [intros e E; cbn in E; injection E as <-; reflexivity|]. intros e E. cbn [value] in E.
    assert (M : forall e, map_all serialize l = Err e -> e = "AttributeError").
    { clear e E. induction F as [|x l [X _] F IH]; intros e E; cbn [map_all] in E; [discriminate|]. destruct (serialize x) as [j|e0]; cbn [bind] in E; [|injection E as <-; now apply X].
      destruct (map_all serialize l) as [js|e0]; cbn [bind] in E; [discriminate|]. injection E as <-. now apply IH. }
    destruct (map_all serialize l) as [js|e0]; cbn [bind] in E; [discriminate|]. injection E as <-. now apply M.
  - split; intros e E; cbn in E; discriminate E.
  - assert (A : forall e, attributes serialize a = Err e -> e = "AttributeError").
    { induction F as [|[k v] a [_ X] F IH]; intros e E; [discriminate|]. rewrite attributes_cons in E. destruct (kept k); [|now apply IH]. cbn [snd] in X.
      destruct (value serialize v) as [j|e0]; cbn [bind] in E; [|injection E as <-; now apply X].
      destruct (attributes serialize a) as [r|e0]; cbn [bind] in E; [discriminate|]. injection E as <-. now apply IH. }
    assert (S : only_error (serialize (PObj c a))).
    { intros e E. cbn [serialize] in E. destruct (attributes serialize a) as [d|e0]; cbn [bind] in E; [discriminate|]. injection E as <-. now apply A. }
    split; [exact S|exact S].
Qed.
Lemma serialize_errors o e : serialize o = Err e -> e = "AttributeError".
Proof. intros E. now apply (proj1 (serialize_only o)). Qed.
Theorem C66_sessions : forall parse fs inputs output m,
  parse fs inputs = Ok m -> Forall sound_type (xm_types m) -> xm_sessions m <> [] ->
  exists fs1, export parse fs inputs output = (fs1, Err "AttributeError") /\ fs1 output = Some "".
Proof.
  intros parse fs inputs output m EP S N. unfold export. rewrite EP.
  assert (E : model_json m = Err "AttributeError").
  { unfold model_json. destruct (map_all_ok type_json as_type erase_type (xm_types m)) as (ts & -> & _); [intros t J; rewrite Forall_forall in S; now apply type_back, S|].
    cbn [bind]. destruct (xm_sessions m) as [|s l]; [congruence|]. cbn [map_all].
    destruct (serialize (session_object s)) as [j|e] eqn:E; [|cbn [bind]; apply serialize_errors in E; now subst].
    exfalso. unfold session_object in E. cbn [serialize app] in E. dbind E d ED. rewrite !attributes_cons in ED. change (kept "identifier") with true in ED.
    change (kept "initial") with true in ED. change (kept "final") with true in ED. change (kept "states") with true in ED. change (kept "declarations") with true in ED. cbv iota in ED.
    dbind ED a1 E1. dbind ED r1 E2. dbind E2 a2 E3. dbind E2 r2 E4. dbind E4 a3 E5. dbind E4 r3 E6. dbind E6 a4 E7. dbind E6 r4 E8. dbind E8 a5 E9. discriminate E9. }
  rewrite E. eexists. split; [reflexivity|]. unfold write. now rewrite String.eqb_refl.
Qed.

(** C66: The checksums of a message are not exported. *)
Theorem C66_checksums_refuted : exists i structure types c c', c <> c' /\
  Forall sound_type [XMessage i structure types c; XMessage i structure types c'] /\
  exists j, model_json (mkXModel [XMessage i structure types c] []) = Ok j /\ model_json (mkXModel [XMessage i structure types c'] []) = Ok j.
Proof.
  pose (t := PObj "BooleanTrue" [("type_", PNone); ("location", PNone); ("_str", PStr "True")]).
  pose (u := PObj "UndefinedExpr" [("type_", PNone); ("location", PNone); ("negative", PBool false); ("immutable", PBool false); ("_str", PNone)]).
  exists ["P"; "M"], [mkXLink "Initial" "A" t u u; mkXLink "A" "Final" t u u], [("A", ["P"; "T"])], [], [("A", [number (8, 0)%Z])].
  split; [discriminate|]. split.
  - assert (ET : expression t) by (apply X_literal; cbn; auto). assert (EU : expression u) by apply X_undefined.
    repeat constructor; assumption.
  - eexists. split; vm_compute; reflexivity.
Qed.

(** ** the hypotheses can be met *)
Definition ex_true : py := PObj "BooleanTrue" [("type_", PNone); ("location", PNone); ("_str", PStr "True")].
Definition ex_undefined : py := PObj "UndefinedExpr" [("type_", PNone); ("location", PNone); ("negative", PBool false); ("immutable", PBool false); ("_str", PNone)].
Definition ex_variable (x : string) : py :=
  PObj "Variable" [("identifier", PId [x]); ("type_", PNone); ("location", PNone); ("negative", PBool false); ("immutable", PBool false); ("_str", PStr x)].
Definition ex_equal (a b : py) : py := PObj "Equal" [("type_", PNone); ("location", PNone); ("left", a); ("right", b); ("_str", PNone)].
Definition ex_mul (ts : list py) : py := PObj "Mul" [("type_", PNone); ("location", PNone); ("terms", PList ts); ("_str", PNone)].
Definition ex_types : list xtype :=
  [XModular ["P"; "Byte"] (number (256, 0)%Z); XRange ["P"; "R"] (1, 0)%Z (100, 0)%Z (8, 0)%Z;
   XEnum ["P"; "E"] [("A", (1, 0)%Z); ("B", (2, 16)%Z)] (8, 0)%Z true; XArray ["P"; "L"] ["P"; "Byte"]; XOpaque; XPrivate ["P"; "Q"];
   XMessage ["P"; "M"]
     [mkXLink "Initial" "Length" ex_true ex_undefined ex_undefined;
      mkXLink "Length" "Data" (ex_equal (ex_variable "Length") (number (4, 0)%Z)) (ex_mul [ex_variable "Length"; number (8, 0)%Z]) ex_undefined;
      mkXLink "Data" "Final" ex_true ex_undefined ex_undefined] [("Length", ["P"; "Byte"]); ("Data", ["__INTERNAL__"; "Opaque"])] [];
   XRefinement ["P"; "__REFINEMENT__P_M__P_M__Data__"] ["P"] ["P"; "M"] "Data" ["P"; "M"] (ex_equal (ex_variable "Length") (number (4, 0)%Z))].
Lemma ex_expressions : expression ex_true /\ expression ex_undefined /\ (forall x, expression (ex_variable x)) /\ (forall n, expression (number n)) /\
  (forall a b, expression a -> expression b -> expression (ex_equal a b)) /\ (forall ts, Forall expression ts -> expression (ex_mul ts)).
Proof.
  split; [apply X_literal; cbn; auto|]. split; [apply X_undefined|]. split; [intros x; apply X_variable; discriminate|].
  split; [intros [v b]; apply X_number|]. split; [intros a b A B; apply X_binary; auto; cbn; tauto|]. intros ts F. apply X_associative; [cbn; tauto|exact F].
Qed.
Example ex_sound : Forall sound_type ex_types.
Proof.
  destruct ex_expressions as (A & B & C & D & E & F).
  repeat (apply Forall_cons; [split; [cbn [type_expressions flat_map app xl_condition xl_size xl_first]; repeat (apply Forall_cons; [auto 10|]); apply Forall_nil|cbn; try discriminate; auto]|]); apply Forall_nil.
Qed.
Example ex_text : exists j, model_json (mkXModel [XArray ["P"; "L"] ["P"; "Byte"]] []) = Ok j /\ dump 0 j =
"{
   ""kind"": ""Model"",
   ""data"": {
      ""_Model__types"": [
         {
            ""kind"": ""Array"",
            ""data"": {
               ""identifier"": [
                  ""P"",
                  ""L""
               ],
               ""element_type"": [
                  ""P"",
                  ""Byte""
               ]
            }
         }
      ],
      ""_Model__sessions"": []
   }
}".
Proof. eexists. split; vm_compute; reflexivity. Qed.
Example ex_number : exists j, serialize (number (-12, 16)%Z) = Ok j /\ dump 1 j =
"{
      ""kind"": ""Number"",
      ""data"": {
         ""value"": -12,
         ""base"": 16
      }
   }".
Proof. eexists. split; vm_compute; reflexivity. Qed.
Example ex_export : exists fs1, export (fun _ _ => Ok (mkXModel ex_types [])) (fun _ => None) ["p.rflx"] "out.json" = (fs1, Ok tt) /\
  fs1 "p.rflx" = None /\ exists text, fs1 "out.json" = Some text /\ text <> "".
Proof.
  destruct (C66_total (fun _ _ => Ok (mkXModel ex_types [])) (fun _ => None) ["p.rflx"] "out.json" (mkXModel ex_types []) eq_refl ex_sound eq_refl) as (fs1 & t & E & T & N).
  exists fs1. split; [exact E|]. split; [|eauto].
  pose (m := mkXModel ex_types []). destruct (C66_determined _ _ _ _ _ _ _ _ m m _ _ _ eq_refl eq_refl ex_sound ex_sound E E T T) as [_ Q]. now apply Q.
Qed.
(** Not every model can be exported. *)
Theorem C66_sessions_refuted : exists m fs1, Forall sound_type (xm_types m) /\
  export (fun _ _ => Ok m) (fun _ => Some "old") ["p.rflx"] "out.json" = (fs1, Err "AttributeError") /\ fs1 "out.json" = Some "".
Proof.
  exists (mkXModel ex_types [mkXSession ["P"; "S"] ["A"] ["A"] [] [] []]).
  destruct (C66_sessions (fun _ _ => Ok (mkXModel ex_types [mkXSession ["P"; "S"] ["A"] ["A"] [] [] []])) (fun _ => Some "old") ["p.rflx"] "out.json" _ eq_refl ex_sound) as (fs1 & E & F);
    [discriminate|]. exists fs1. split; [exact ex_sound|]. auto.
Qed.

Print Assumptions C66_determined.
Print Assumptions C66_total.
Print Assumptions C66_sessions.
Print Assumptions C66_sessions_refuted.
Print Assumptions C66_checksums_refuted.
