(** Facts about the reading of a model: the grammar is deterministic, and the lexical elements
    of the text of a model are read as its declarations. *)
From Coq Require Import String Ascii List ZArith Bool Lia.
From Verif Require Import Base Ident Expr ExprEval ExprFacts ExprPrint ExprRead ExprReadFacts ExprReadTree.
From Verif Require Import MsgGraph ModelText SpecExpr.
From Verif Require Import ModelRead ModelTextFacts.
Import ListNotations.
Local Open Scope string_scope.
Local Open Scope list_scope.
Local Open Scope nat_scope.

(** ** More repetitions do not change what is read *)

Definition mono {A} (p : nat -> parser A) : Prop := forall n m ts x, n <= m -> p n ts = Some x -> p m ts = Some x.
Lemma mono_const {A} (p : parser A) : mono (fun _ => p).
Proof. intros n m ts x _ H. exact H. Qed.
Lemma mono_bind {A B} (p : nat -> parser A) (k : nat -> A -> parser B) :
  mono p -> (forall a, mono (fun n => k n a)) -> mono (fun n => bind (p n) (k n)).
Proof.
  intros P K n m ts x L. unfold bind. destruct (p n ts) as [[a r]|] eqn:E; [|discriminate].
  rewrite (P n m ts _ L E). now apply (K a n m).
Qed.
Lemma mono_ahead {A} w (p q : nat -> parser A) : mono p -> mono q -> mono (fun n => ahead w (p n) (q n)).
Proof.
  intros P Q n m ts x L. unfold ahead. destruct ts as [|y r]; [now apply Q|]. destruct (String.eqb y w); [now apply P|now apply Q].
Qed.
Lemma mono_expression : mono expression.
Proof. intros n m ts x L. now apply rd_mono. Qed.
(** the bound of the repetitions *)
Definition mono2 {A} (p : nat -> nat -> parser A) : Prop :=
  forall n m k l ts x, n <= m -> k <= l -> p n k ts = Some x -> p m l ts = Some x.
Lemma mono2_diag {A} (p : nat -> nat -> parser A) : mono2 p -> mono (fun n => p n n).
Proof. intros P n m ts x L. now apply P. Qed.
Lemma mono_comma {A} (p : nat -> parser A) : mono p -> mono2 (fun n k => comma_list k (p n)).
Proof.
  intros P n m k. induction k as [|k IH]; intros l ts x N K; [discriminate|]. destruct l as [|l]; [lia|].
  cbn [comma_list]. unfold bind. destruct (p n ts) as [[a r]|] eqn:E; [|discriminate]. rewrite (P n m ts _ N E).
  unfold ahead. destruct r as [|y r]; [auto|]. destruct (String.eqb y ","); [|auto].
  unfold bind. destruct (word "," (y :: r)) as [[u r']|]; [|discriminate].
  destruct (comma_list k (p n) r') as [[b r'']|] eqn:E'; [|discriminate]. rewrite (IH l r' _ N ltac:(lia) E'). auto.
Qed.
Lemma mono_repeat {A} w (p : nat -> parser A) : mono p -> mono2 (fun n k => repeat k w (p n)).
Proof.
  intros P n m k. induction k as [|k IH]; intros l ts x N K; [discriminate|]. destruct l as [|l]; [lia|].
  cbn [repeat]. unfold ahead. destruct ts as [|y r]; [auto|]. destruct (String.eqb y w); [|auto].
  unfold bind. destruct (p n (y :: r)) as [[a r']|] eqn:E; [|discriminate]. rewrite (P n m _ _ N E).
  destruct (repeat k w (p n) r') as [[b r'']|] eqn:E'; [|discriminate]. rewrite (IH l r' _ N ltac:(lia) E'). auto.
Qed.
Lemma mono_until {A} w (p : nat -> parser A) : mono p -> mono2 (fun n k => until k w (p n)).
Proof.
  intros P n m k. induction k as [|k IH]; intros l ts x N K; [discriminate|]. destruct l as [|l]; [lia|].
  cbn [until]. unfold bind. destruct (p n ts) as [[a r]|] eqn:E; [|discriminate]. rewrite (P n m ts _ N E).
  unfold ahead. destruct r as [|y r].
  - unfold bind. destruct (until k w (p n) []) as [[b r'']|] eqn:E'; [|discriminate]. rewrite (IH l [] _ N ltac:(lia) E'). auto.
  - destruct (String.eqb y w); [auto|].
    unfold bind. destruct (until k w (p n) (y :: r)) as [[b r'']|] eqn:E'; [|discriminate]. rewrite (IH l (y :: r) _ N ltac:(lia) E'). auto.
Qed.

Ltac mono :=
  repeat first
    [ apply mono_const | apply mono_expression
    | apply mono_bind; [|intros ?] | apply mono_ahead
    | apply (mono2_diag (fun n k => comma_list k (association n))), mono_comma ].
Lemma mono_association : mono association.
Proof. unfold association. mono. Qed.
Lemma mono_with : mono with_aspects.
Proof. unfold with_aspects. mono. Qed.
Lemma mono_if : mono if_condition.
Proof. unfold if_condition. mono. Qed.
Lemma mono_then : mono then_.
Proof. unfold then_. mono. Qed.
Lemma mono_component : mono component_.
Proof.
  unfold component_. mono.
  all: apply (mono2_diag (fun n k => repeat k "then" (then_ n))), mono_repeat, mono_then.
Qed.
Lemma mono_null : mono null_component.
Proof. unfold null_component. mono. Qed.
Lemma mono_type x : mono (fun n => type_definition n x).
Proof.
  unfold type_definition. mono.
  all: apply (mono2_diag (fun n k => until k "end" (component_ n))), mono_until, mono_component.
Qed.
Lemma mono_declaration : mono declaration_.
Proof.
  unfold declaration_. mono.
  all: apply (mono2_diag (fun n k => until k "end" (component_ n))), mono_until, mono_component.
Qed.
Lemma mono_declarations : mono2 declarations_.
Proof.
  intros n m k. induction k as [|k IH]; intros l ts x N K.
  - destruct ts; [|discriminate]. destruct l; auto.
  - destruct l as [|l]; [lia|]. destruct ts as [|y ts]; [auto|]. cbn [declarations_]. unfold bind.
    destruct (declaration_ n (y :: ts)) as [[d r]|] eqn:E; [|discriminate]. rewrite (mono_declaration n m _ _ N E).
    destruct (word ";" r) as [[u r']|]; [|discriminate].
    destruct (declarations_ n k r') as [[b r'']|] eqn:E'; [|discriminate]. rewrite (IH l r' _ N ltac:(lia) E'). auto.
Qed.

(** ** Reading with enough repetitions *)

Definition ev {A} (p : nat -> parser A) (ts : list string) (x : A) (rest : list string) : Prop :=
  exists N, forall n, N <= n -> p n ts = Some (x, rest).
Lemma ev_bind {A B} (p : nat -> parser A) (k : nat -> A -> parser B) ts a r x rest :
  ev p ts a r -> ev (fun n => k n a) r x rest -> ev (fun n => bind (p n) (k n)) ts x rest.
Proof. intros [N P] [M K]. exists (N + M). intros n L. unfold bind. rewrite P by lia. apply K. lia. Qed.
Lemma ev_ret {A} (a : A) ts : ev (fun _ => ret a) ts a ts.
Proof. exists 0. reflexivity. Qed.
Lemma ev_word w r : ev (fun _ => word w) (w :: r) tt r.
Proof. exists 0. intros n _. unfold word. now rewrite String.eqb_refl. Qed.
Lemma ev_some f w r : f w = true -> ev (fun _ => some f) (w :: r) w r.
Proof. intros H. exists 0. intros n _. unfold some. now rewrite H. Qed.
Lemma ev_yes {A} w (p q : nat -> parser A) r x rest : ev p (w :: r) x rest -> ev (fun n => ahead w (p n) (q n)) (w :: r) x rest.
Proof. intros [N P]. exists N. intros n L. unfold ahead. rewrite String.eqb_refl. now apply P. Qed.
Definition starts_not (w : string) (ts : list string) : Prop := match ts with [] => True | y :: _ => y <> w end.
Lemma ev_no {A} w (p q : nat -> parser A) ts x rest : starts_not w ts -> ev q ts x rest -> ev (fun n => ahead w (p n) (q n)) ts x rest.
Proof.
  intros H [N P]. exists N. intros n L. unfold ahead. destruct ts as [|y r]; [now apply P|].
  cbn [starts_not] in H. apply String.eqb_neq in H. rewrite H. now apply P.
Qed.
Lemma ev_expr e rest : readable e = true -> stops 5 rest -> ev expression (tk e ++ rest) (tree_of e) rest.
Proof.
  intros E S. destruct (rd_expr e rest E S) as [N H]. exists N. intros n L. exact (rd_mono N n _ _ _ L H).
Qed.
Lemma ev_item p rest : simple_name (fst p) = true -> readable (snd p) = true -> stops 5 rest ->
  ev association (item_tokens p ++ rest) (fst p, tree_of (snd p)) rest.
Proof.
  intros N E S. unfold association, item_tokens. cbn [app].
  eapply ev_bind; [now apply ev_some|]. eapply ev_bind; [apply ev_word|]. eapply ev_bind; [now apply ev_expr|]. apply ev_ret.
Qed.

(** *** lists *)
Definition tree_item (p : string * expr) : string * tree := (fst p, tree_of (snd p)).
Lemma ev_commas ps rest : ps <> [] -> Forall (fun p => simple_name (fst p) = true /\ readable (snd p) = true) ps ->
  stops 5 rest -> starts_not "," rest ->
  ev (fun n => comma_list n (association n)) (commas (map item_tokens ps) ++ rest) (map tree_item ps) rest.
Proof.
  intros NE H SS C.
  assert (X : exists N, forall n k, N <= n -> N <= k ->
    comma_list k (association n) (commas (map item_tokens ps) ++ rest) = Some (map tree_item ps, rest)).
  { revert NE. induction H as [|p ps [N E] H IH]; [tauto|]. intros _. destruct ps as [|q ps].
    - destruct (ev_item p rest N E SS) as [M K]. exists (S M). intros n k Ln Lk. destruct k as [|k]; [lia|].
      cbn [map commas flat_map comma_list]. rewrite app_nil_r. unfold bind. rewrite K by lia.
      unfold ahead. destruct rest as [|y r]; [reflexivity|]. cbn in C. apply String.eqb_neq in C. now rewrite C.
    - destruct IH as [M IH]; [discriminate|]. set (more := commas (map item_tokens (q :: ps)) ++ rest) in *.
      assert (E2 : commas (map item_tokens (p :: q :: ps)) ++ rest = item_tokens p ++ "," :: more).
      { subst more. cbn [map commas flat_map]. now rewrite <- !app_assoc. }
      destruct (ev_item p ("," :: more) N E) as [M' K]; [cbn; lia|].
      exists (S (M + M')). intros n k Ln Lk. destruct k as [|k]; [lia|]. rewrite E2. cbn [comma_list]. unfold bind at 1.
      rewrite K by lia. unfold ahead. rewrite String.eqb_refl. unfold bind, word. rewrite String.eqb_refl.
      rewrite IH by lia. reflexivity. }
  destruct X as [N X]. exists N. intros n L. now apply X.
Qed.

(** what follows a then clause or a component *)
Definition follows (ts : list string) : Prop := match ts with y :: _ => y = "then" \/ y = ";" | [] => False end.
Lemma follows_stops ts : follows ts -> stops 5 ts /\ starts_not "," ts /\ starts_not "with" ts /\ starts_not "if" ts.
Proof. destruct ts as [|y r]; [intros []|]. intros [-> | ->]; repeat split; cbn; try discriminate; lia. Qed.
Lemma follows_semi r : follows (";" :: r).
Proof. now right. Qed.

Definition cond_tree (e : expr) : option tree := if is_true e then None else Some (tree_of e).
Lemma ev_if e rest : readable e = true -> stops 5 rest -> starts_not "if" rest ->
  ev if_condition (if_tokens e ++ rest) (cond_tree e) rest.
Proof.
  intros E S I. unfold if_condition, if_tokens, cond_tree. destruct (is_true e).
  - apply ev_no; [exact I|]. apply ev_ret.
  - cbn [app]. apply ev_yes. eapply ev_bind; [apply ev_word|]. eapply ev_bind; [now apply ev_expr|]. apply ev_ret.
Qed.
Lemma if_starts e rest : stops 5 rest -> starts_not "," rest -> starts_not "with" rest ->
  stops 5 (if_tokens e ++ rest) /\ starts_not "," (if_tokens e ++ rest) /\ starts_not "with" (if_tokens e ++ rest).
Proof. unfold if_tokens. destruct (is_true e); [auto|]. intros _ _ _. repeat split; cbn; try discriminate. lia. Qed.

Definition clause_of (l : link) : then_clause :=
  mkClause (if same_field (target l) FINAL then None else Some (target l)) (map tree_item (aspect_items l)) (cond_tree (condition l)).
Lemma ev_with l rest : link_ok l = true -> stops 5 rest -> starts_not "," rest -> starts_not "with" rest ->
  ev with_aspects (with_tokens l ++ rest) (map tree_item (aspect_items l)) rest.
Proof.
  intros H S C W. pose proof (items_ok l H) as I. unfold with_aspects, with_tokens.
  destruct (aspect_items l) as [|p ps] eqn:E.
  - apply ev_no; [exact W|]. apply ev_ret.
  - change (("with" :: commas (map item_tokens (p :: ps))) ++ rest) with ("with" :: commas (map item_tokens (p :: ps)) ++ rest).
    apply ev_yes. eapply ev_bind; [apply ev_word|]. apply ev_commas; auto. discriminate.
Qed.
Lemma reserved_not x w : simple_name x = true -> lower w = w -> existsb (String.eqb w) reserved_words = true -> x <> w.
Proof.
  unfold simple_name. rewrite !andb_true_iff, !negb_true_iff. intros (_ & H) L K E. subst x. rewrite L in H. congruence.
Qed.
Lemma ev_then l rest : link_ok l = true -> follows rest -> ev then_ (link_tokens l ++ rest) (clause_of l) rest.
Proof.
  intros H F. destruct (follows_stops _ F) as (S & C & W & I).
  destruct (if_starts (condition l) rest S C W) as (S' & C' & W').
  unfold then_, link_tokens, clause_of. cbn [app]. rewrite <- app_assoc.
  assert (Rc : readable (condition l) = true) by (unfold link_ok in H; rewrite !andb_true_iff in H; tauto).
  assert (Rt : same_field (target l) FINAL = true \/ simple_name (target l) = true)
    by (unfold link_ok in H; rewrite !andb_true_iff, orb_true_iff in H; tauto).
  eapply ev_bind; [apply ev_word|]. eapply (ev_bind _ _ _ (if same_field (target l) FINAL then None else Some (target l))).
  - unfold target_token. destruct (same_field (target l) FINAL).
    + apply ev_yes. eapply ev_bind; [apply ev_word|]. apply ev_ret.
    + destruct Rt as [Rt|Rt]; [discriminate|]. apply ev_no; [now apply reserved_not|]. eapply ev_bind; [now apply ev_some|]. apply ev_ret.
  - eapply ev_bind; [now apply ev_with|]. eapply ev_bind; [now apply ev_if|]. apply ev_ret.
Qed.
Lemma link_tokens_follow ls r : follows (flat_map link_tokens ls ++ ";" :: r).
Proof. destruct ls as [|l ls]; [now right|]. now left. Qed.
Lemma ev_thens ls r : Forall (fun l => link_ok l = true) ls ->
  ev (fun n => repeat n "then" (then_ n)) (flat_map link_tokens ls ++ ";" :: r) (map clause_of ls) (";" :: r).
Proof.
  intros H.
  assert (X : exists N, forall n k, N <= n -> N <= k ->
    repeat k "then" (then_ n) (flat_map link_tokens ls ++ ";" :: r) = Some (map clause_of ls, ";" :: r)).
  { induction H as [|l ls L H [N IH]].
    - exists 1. intros n k _ K. destruct k; [lia|]. reflexivity.
    - destruct (ev_then l (flat_map link_tokens ls ++ ";" :: r) L (link_tokens_follow ls r)) as [M T].
      exists (S (N + M)). intros n k Ln Lk. destruct k as [|k]; [lia|]. cbn [flat_map map repeat]. rewrite <- app_assoc.
      unfold ahead. cbn [link_tokens app]. rewrite String.eqb_refl. unfold bind.
      specialize (T n ltac:(lia)). cbn [link_tokens app] in T. rewrite T, IH by lia. reflexivity. }
  destruct X as [N X]. exists N. intros n L. now apply X.
Qed.

(** *** components *)
Fixpoint comps_of (structure : list link) (l : list (string * ident)) : list component :=
  match l with
  | [] => []
  | (f, t) :: rest =>
    let out := outgoing_of structure f in
    mkComp f (name t) [] None (if plain out (next_of rest) then [] else map clause_of out) :: comps_of structure rest
  end.
Definition field_tokens (structure : list link) (f : string) (t : ident) (rest : list (string * ident)) : list string :=
  f :: ":" :: name t :: thens_tokens structure f (next_of rest) ++ [";"].
Lemma ev_component structure f t next r : simple_name f = true -> simple_name (name t) = true ->
  Forall (fun l => link_ok l = true) structure ->
  ev component_ ((f :: ":" :: name t :: thens_tokens structure f next ++ [";"]) ++ r)
    (mkComp f (name t) [] None (if plain (outgoing_of structure f) next then [] else map clause_of (outgoing_of structure f))) r.
Proof.
  intros N T H. unfold component_. cbn [app]. rewrite <- app_assoc. cbn [app].
  set (ls := if plain (outgoing_of structure f) next then [] else outgoing_of structure f).
  assert (E1 : thens_tokens structure f next = flat_map link_tokens ls) by (unfold thens_tokens, ls; now destruct (plain _ _)).
  assert (E2 : (if plain (outgoing_of structure f) next then [] else map clause_of (outgoing_of structure f)) = map clause_of ls)
    by (unfold ls; now destruct (plain _ _)).
  assert (HL : Forall (fun l => link_ok l = true) ls) by (unfold ls; destruct (plain _ _); [constructor|now apply outgoing_links_ok]).
  rewrite E1, E2. destruct (follows_stops _ (link_tokens_follow ls r)) as (S & C & W & I).
  eapply ev_bind; [now apply ev_some|]. eapply ev_bind; [apply ev_word|].
  eapply ev_bind; [apply ev_some, simple_qualified, T|].
  eapply ev_bind; [apply ev_no; [exact W|apply ev_ret]|].
  eapply ev_bind; [apply ev_no; [exact I|apply ev_ret]|].
  eapply ev_bind; [now apply ev_thens|]. eapply ev_bind; [apply ev_word|]. apply ev_ret.
Qed.
Lemma ev_components structure l r : l <> [] -> fields_ok l -> Forall (fun l => link_ok l = true) structure ->
  ev (fun n => until n "end" (component_ n)) (fields_tokens structure l ++ "end" :: r) (comps_of structure l) ("end" :: r).
Proof.
  intros NE F H.
  assert (X : exists N, forall n k, N <= n -> N <= k ->
    until k "end" (component_ n) (fields_tokens structure l ++ "end" :: r) = Some (comps_of structure l, "end" :: r)).
  { revert NE. induction F as [|[f t] l [N T] F IH]; [tauto|]. intros _. cbn [fst snd] in N, T.
    destruct (ev_component structure f t (next_of l) (fields_tokens structure l ++ "end" :: r) N T H) as [M K].
    assert (E : fields_tokens structure ((f, t) :: l) ++ "end" :: r =
      (f :: ":" :: name t :: thens_tokens structure f (next_of l) ++ [";"]) ++ fields_tokens structure l ++ "end" :: r).
    { cbn [fields_tokens app]. rewrite <- !app_assoc. reflexivity. }
    rewrite E. cbn [comps_of].
    destruct l as [|[g u] l].
    - exists (S M). intros n k Ln Lk. destruct k as [|k]; [lia|]. cbn [until]. unfold bind. rewrite K by lia. reflexivity.
    - destruct IH as [M' IH]; [discriminate|]. exists (S (M + M')). intros n k Ln Lk. destruct k as [|k]; [lia|].
      cbn [until]. unfold bind at 1. rewrite K by lia. unfold ahead. cbn [fields_tokens app].
      inversion F as [|? ? [Ng _] _]; subst. cbn [fst] in Ng.
      destruct (String.eqb_spec g "end") as [->|_]; [discriminate Ng|].
      specialize (IH n k ltac:(lia) ltac:(lia)). cbn [fields_tokens app] in IH. unfold bind. rewrite IH. reflexivity. }
  destruct X as [N X]. exists N. intros n L. now apply X.
Qed.

Definition init_of (structure : list link) (next : option string) : option then_clause :=
  let out := outgoing_of structure "Initial" in
  if plain out next then None else match out with l :: _ => Some (clause_of l) | [] => None end.
Lemma ev_initial structure next f r : Forall (fun l => link_ok l = true) structure ->
  List.length (outgoing_of structure "Initial") = 1 -> f <> "null" ->
  ev null_component (initial_tokens structure next ++ f :: r) (init_of structure next) (f :: r).
Proof.
  intros H L F. unfold null_component, initial_tokens, init_of.
  destruct (plain (outgoing_of structure "Initial") next).
  - apply ev_no; [exact F|apply ev_ret].
  - pose proof (outgoing_links_ok structure "Initial" H) as O.
    destruct (outgoing_of structure "Initial") as [|l [|]]; [discriminate| |discriminate].
    inversion O as [|? ? O1 _]; subst. cbn [flat_map app]. rewrite app_nil_r.
    change ("null" :: (link_tokens l ++ [";"]) ++ f :: r) with ("null" :: (link_tokens l ++ [";"]) ++ f :: r).
    rewrite <- app_assoc. apply ev_yes. eapply ev_bind; [apply ev_word|].
    eapply ev_bind; [apply ev_then; [exact O1|now right]|]. eapply ev_bind; [apply ev_word|]. apply ev_ret.
Qed.

(** *** declarations *)
Definition declaration_of (d : decl) : declaration :=
  match d with
  | Modular i e => DModular (name i) (tree_of e)
  | Range i f l s => DRange (name i) (tree_of f) (tree_of l) (tree_of s)
  | Enumeration i ls s a =>
    DEnumeration (name i) (map tree_item ls) (("Size", tree_of s) :: if a then [("Always_Valid", TBool true)] else [])
  | Array i e => DArray (name i) (name e)
  | Opaque => DNull ""
  | Message i ts s _ =>
    match s, ts with
    | [], _ | _, [] => DNull (name i)
    | _, _ => DMessage (name i) (init_of s (next_of ts)) (comps_of s ts)
    end
  | Refinement _ pdu f sdu c => DRefinement (name pdu) f (name sdu) (cond_tree c)
  end.
(** the text can be read *)
Definition decl_readable (d : decl) : Prop :=
  decl_lexical d /\
  match d with
  | Enumeration _ ls _ _ => ls <> []
  | Message _ ts s _ => s = [] \/ ts = [] \/ List.length (outgoing_of s "Initial") = 1
  | _ => True
  end.

Ltac skip := apply ev_no; [cbn; discriminate|].
Ltac step := eapply ev_bind; [apply ev_word|].
Lemma ev_declaration d r : decl_readable d -> ev declaration_ (decl_tokens d ++ ";" :: r) (declaration_of d) (";" :: r).
Proof.
  assert (S : stops 5 (";" :: r)) by (cbn; lia).
  intros [Lx K]. destruct d as [i e|i f l s|i ls s a|i e| |i ts s cs|p pdu f sdu c]; cbn [decl_lexical decl_tokens declaration_of app] in *.
  - destruct Lx as [N E]. unfold declaration_. skip. step. eapply ev_bind; [now apply ev_some|]. step. unfold type_definition.
    apply ev_yes. step. eapply ev_bind; [now apply ev_expr|]. apply ev_ret.
  - destruct Lx as (N & F & L & Z). unfold declaration_. skip. step. eapply ev_bind; [now apply ev_some|]. step. unfold type_definition.
    skip. apply ev_yes. step. rewrite <- app_assoc. eapply ev_bind; [apply ev_expr; [exact F|cbn; lia]|]. cbn [app]. step.
    rewrite <- app_assoc. eapply ev_bind; [apply ev_expr; [exact L|cbn; lia]|]. cbn [app]. step. step. step.
    eapply ev_bind; [now apply ev_expr|]. apply ev_ret.
  - destruct Lx as (N & Z & L). unfold declaration_. skip. step. eapply ev_bind; [now apply ev_some|]. step. unfold type_definition.
    skip. skip. apply ev_yes. step. rewrite <- app_assoc.
    eapply ev_bind; [apply ev_commas; [exact K|exact L|cbn; lia|cbn; discriminate]|]. cbn [app]. step.
    assert (X : ev with_aspects ("with" :: "Size" :: "=>" :: (tk s ++ (if a then [","; "Always_Valid"; "=>"; "True"] else [])) ++ ";" :: r)
              (("Size", tree_of s) :: if a then [("Always_Valid", TBool true)] else []) (";" :: r)).
    { unfold with_aspects. apply ev_yes. step.
      assert (Y := ev_commas (("Size", s) :: if a then [("Always_Valid", ETrue)] else []) (";" :: r)).
      replace ("Size" :: "=>" :: (tk s ++ (if a then [","; "Always_Valid"; "=>"; "True"] else [])) ++ ";" :: r)
        with (commas (map item_tokens (("Size", s) :: if a then [("Always_Valid", ETrue)] else [])) ++ ";" :: r)
        by (destruct a; cbn [map commas flat_map item_tokens fst snd app tk]; rewrite ?app_nil_r, <- ?app_assoc; reflexivity).
      replace (("Size", tree_of s) :: if a then [("Always_Valid", TBool true)] else [])
        with (map tree_item (("Size", s) :: if a then [("Always_Valid", ETrue)] else [])) by (destruct a; reflexivity).
      apply Y; [discriminate| |exact S|cbn; discriminate].
      constructor; [split; [reflexivity|exact Z]|]. destruct a; repeat constructor. }
    eapply ev_bind; [exact X|]. apply ev_ret.
  - destruct Lx as [N E]. unfold declaration_. skip. step. eapply ev_bind; [now apply ev_some|]. step. unfold type_definition.
    do 3 skip. apply ev_yes. step. step. eapply ev_bind; [apply ev_some, simple_qualified, E|]. apply ev_ret.
  - tauto.
  - destruct Lx as (N & F & L). unfold message_tokens.
    assert (Null : ev declaration_ (["type"; name i; "is"; "null"; "message"] ++ ";" :: r) (DNull (name i)) (";" :: r)).
    { cbn [app]. unfold declaration_. skip. step. eapply ev_bind; [now apply ev_some|]. step. unfold type_definition.
      do 4 skip. apply ev_yes. step. step. apply ev_ret. }
    destruct s as [|l0 ls] eqn:Es; [exact Null|]. destruct ts as [|[g u] ts'] eqn:Et; [exact Null|]. rewrite <- Es, <- Et in *.
    assert (K' : List.length (outgoing_of s "Initial") = 1) by (destruct K as [K|[K|K]]; [rewrite Es in K; discriminate|rewrite Et in K; discriminate|exact K]).
    clear Null. cbn [app]. unfold declaration_. skip. step. eapply ev_bind; [now apply ev_some|]. step. unfold type_definition.
    do 5 skip. step. rewrite <- !app_assoc. cbn [app].
    assert (Hg : exists more, fields_tokens s ts ++ "end" :: "message" :: ";" :: r = g :: more /\ g <> "null").
    { rewrite Et. cbn [fields_tokens app]. eexists. split; [reflexivity|]. rewrite Et in F. inversion F as [|? ? [Ng _] _]; subst.
      now apply reserved_not. }
    destruct Hg as (more & Eg & Ng). eapply ev_bind; [rewrite Eg; apply ev_initial; [exact L|exact K'|exact Ng]|].
    rewrite <- Eg. eapply ev_bind; [apply ev_components; [rewrite Et; discriminate|exact F|exact L]|]. step. step. apply ev_ret.
  - destruct Lx as (P & F & Z & C). unfold declaration_. apply ev_yes. step.
    eapply ev_bind; [apply ev_some, simple_qualified, P|]. step. step. eapply ev_bind; [now apply ev_some|]. step.
    eapply ev_bind; [apply ev_some, simple_qualified, Z|]. step. eapply ev_bind; [apply ev_if; [exact C|exact S|cbn; discriminate]|]. apply ev_ret.
Qed.

Definition model_tokens (ds : list decl) : list string := flat_map (fun d => decl_tokens d ++ [";"]) ds.
Lemma lexes_model ds : Forall decl_lexical ds ->
  lexes (String.concat (nl ++ nl) (map (fun d => decl_str d ++ ";")%string ds)) (model_tokens ds).
Proof.
  intros H.
  assert (X := lexes_concat (nl ++ nl) [] (fun s => eq_refl) (fun r => eq_refl)
    (map (fun d => ((decl_str d ++ ";")%string, decl_tokens d ++ [";"])) ds)).
  rewrite !map_map in X. cbn [fst snd] in X.
  assert (E : model_tokens ds = match map (fun d => decl_tokens d ++ [";"]) ds with [] => [] | x :: r => x ++ flat_map (fun y => [] ++ y) r end).
  { destruct ds as [|l ls]; [reflexivity|]. unfold model_tokens. cbn [flat_map map]. f_equal. clear. induction ls; [reflexivity|].
    cbn [flat_map map app]. now rewrite IHls. }
  rewrite E. apply X. apply Forall_map. eapply Forall_impl; [|exact H]. intros d D. cbn [fst snd].
  apply lexes_end; [now apply lexes_decl|reflexivity|].
  intros s. change (lex ";" s = [";"] ++ lex "" s). now rewrite lex_none by reflexivity.
Qed.
Lemma ev_model ds : Forall decl_readable ds -> ev (fun n => declarations_ n n) (model_tokens ds) (map declaration_of ds) [].
Proof.
  intros H.
  assert (X : exists N, forall n k, N <= n -> N <= k -> declarations_ n k (model_tokens ds) = Some (map declaration_of ds, [])).
  { induction H as [|d ds D H [N IH]].
    - exists 0. intros n k _ _. destruct k; reflexivity.
    - destruct (ev_declaration d (model_tokens ds) D) as [M K]. exists (S (N + M)). intros n k Ln Lk. destruct k as [|k]; [lia|].
      change (model_tokens (d :: ds)) with ((decl_tokens d ++ [";"]) ++ model_tokens ds). rewrite <- app_assoc. cbn [app].
      assert (NE : exists y ys, decl_tokens d ++ ";" :: model_tokens ds = y :: ys).
      { destruct (decl_tokens d); cbn; eauto. }
      destruct NE as (y & ys & E). specialize (K n ltac:(lia)). rewrite E in *. cbn [declarations_]. unfold bind. rewrite K.
      unfold word. rewrite String.eqb_refl, IH by lia. reflexivity. }
  destruct X as [N X]. exists N. intros n L. now apply X.
Qed.

(** The text of a model is read in one way. *)
Theorem declares_model ds l : Forall decl_readable (filter shown ds) ->
  (declares (model_str ds) l <-> l = map declaration_of (filter shown ds)).
Proof.
  intros H. assert (X : lex "" (model_str ds) = model_tokens (filter shown ds)).
  { unfold model_str. rewrite <- (app_nil_s (String.concat _ _)).
    rewrite (lexes_model (filter shown ds)); [apply app_nil_r| |exact Logic.I]. eapply Forall_impl; [|exact H]. intros d [D _]. exact D. }
  destruct (ev_model _ H) as [N E]. unfold declares. rewrite X. split.
  - intros [n K]. assert (K' := mono_declarations n (max n N) n (max n N) _ _ ltac:(lia) ltac:(lia) K). rewrite E in K' by lia. congruence.
  - intros ->. exists N. now apply E.
Qed.
