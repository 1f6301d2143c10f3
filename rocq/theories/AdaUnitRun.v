(** Facts: which declarations of a package are printed. *)
From Coq Require Import String Ascii List Bool Arith Lia.
From Verif Require Import Base Ident ExprPrint AdaStmt AdaUnit AdaUnitSpec AdaUnitFacts.
Import ListNotations.
Local Open Scope string_scope.
Local Open Scope list_scope.
Local Open Scope res_scope.

(** ** unique *)
Section Unique.
  Context {X : Type} (xt : X -> string) (xeq : nat -> X -> X -> bool).

  Definition alike (a b : obj X) : Prop := a = b \/ exists n, item_eqb xeq n (snd a) (snd b) = true.

  Lemma unique_total l : forall n seen, forallb (fun o => hashable (snd o)) l = true -> exists k, unique_from xeq n seen l = Ok k.
  Proof.
    induction l as [|e l IH]; intros n seen H; [now exists []|]. cbn [forallb] in H. apply andb_prop in H as [H1 H2].
    cbn [unique_from]. rewrite H1. destruct (existsb (fun s => same xeq n s e) seen); [now apply IH|].
    destruct (IH (S n) (e :: seen) H2) as [k ->]. now exists (e :: k).
  Qed.
  Lemma unique_hashable l : forall n seen k, unique_from xeq n seen l = Ok k -> forallb (fun o => hashable (snd o)) l = true.
  Proof.
    induction l as [|e l IH]; intros n seen k H; [reflexivity|]. cbn [unique_from] in H. cbn [forallb].
    destruct (hashable (snd e)); [|discriminate]. cbn [andb]. destruct (existsb (fun s => same xeq n s e) seen); [now apply IH in H|].
    destruct (unique_from xeq (S n) (e :: seen) l) as [k'|] eqn:U; [|discriminate]. now apply IH in U.
  Qed.
  Lemma unique_within l : forall n seen k, unique_from xeq n seen l = Ok k -> within k l.
  Proof.
    induction l as [|e l IH]; intros n seen k H; cbn [unique_from] in H.
    - injection H as <-. constructor.
    - destruct (hashable (snd e)); [|discriminate]. destruct (existsb (fun s => same xeq n s e) seen); [constructor; now apply IH in H|].
      destruct (unique_from xeq (S n) (e :: seen) l) as [k'|] eqn:U; [|discriminate]. injection H as <-. constructor. now apply IH in U.
  Qed.
  Lemma unique_found l : forall n seen k, unique_from xeq n seen l = Ok k -> coherent (seen ++ l) ->
    forall l1 o l2, l = l1 ++ o :: l2 -> exists o', (In o' seen \/ In o' k /\ In o' (l1 ++ [o])) /\ alike o' o.
  Proof.
    induction l as [|e l IH]; intros n seen k H C l1 o l2 E; [destruct l1; discriminate|]. cbn [unique_from] in H.
    destruct (hashable (snd e)); [|discriminate].
    destruct (existsb (fun s => same xeq n s e) seen) eqn:S0.
    - destruct l1 as [|e' l1]; injection E as <- ->.
      + apply existsb_exists in S0 as (s & I & S0). exists s. split; [now left|]. unfold same in S0. apply orb_prop in S0 as [S0|S0].
        * left. apply C; [apply in_or_app; now left|apply in_or_app; right; now left|]. now apply Nat.eqb_eq.
        * right. now exists n.
      + destruct (IH _ _ _ H) with (l1 := l1) (o := o) (l2 := l2) as (o' & [I|[I J]] & A).
        * intros a b Ia Ib. apply C; rewrite in_app_iff in *; cbn [In]; tauto.
        * reflexivity.
        * exists o'. split; [now left|exact A].
        * exists o'. split; [right; split; [exact I|now right]|exact A].
    - destruct (unique_from xeq (S n) (e :: seen) l) as [k'|] eqn:U; [|discriminate]. injection H as <-.
      destruct l1 as [|e' l1]; injection E as <- ->.
      + exists e. split; [right; split; now left|now left].
      + destruct (IH _ _ _ U) with (l1 := l1) (o := o) (l2 := l2) as (o' & [[<-|I]|[I J]] & A).
        * intros a b Ia Ib. apply C; rewrite in_app_iff in *; cbn [In] in *; tauto.
        * reflexivity.
        * exists e. split; [right; split; now left|exact A].
        * exists o'. split; [now left|exact A].
        * exists o'. split; [right; split; now right|exact A].
  Qed.
  Lemma pragma_never n (i j : item X) : is_pragma j = true -> item_eqb xeq n i j = false.
  Proof. destruct j; try discriminate. destruct i; reflexivity. Qed.
  Lemma unique_pragmas l : forall n seen k, unique_from xeq n seen l = Ok k -> NoDup (map fst (seen ++ l)) ->
    filter (fun o => is_pragma (snd o)) k = filter (fun o => is_pragma (snd o)) l.
  Proof.
    induction l as [|e l IH]; intros n seen k H N; cbn [unique_from] in H; [now injection H as <-|].
    destruct (hashable (snd e)); [|discriminate].
    assert (NoDup (map fst (seen ++ l))) as N1 by (rewrite map_app in *; cbn [map] in N; now apply NoDup_remove_1 in N).
    destruct (existsb (fun s => same xeq n s e) seen) eqn:S0.
    - cbn [filter]. destruct (is_pragma (snd e)) eqn:P; [|now apply IH in H].
      apply existsb_exists in S0 as (s & I & S0). unfold same in S0. rewrite (pragma_never _ _ _ P), orb_false_r in S0.
      apply Nat.eqb_eq in S0. rewrite map_app in N. cbn [map] in N. apply NoDup_remove_2 in N. exfalso. apply N.
      apply in_or_app. left. rewrite <- S0. now apply in_map.
    - destruct (unique_from xeq (S n) (e :: seen) l) as [k'|] eqn:U; [|discriminate]. injection H as <-.
      cbn [filter]. enough (filter (fun o => is_pragma (snd o)) k' = filter (fun o => is_pragma (snd o)) l) as -> by reflexivity.
      apply (IH _ _ _ U). rewrite map_app in *. cbn [app map] in *. 
      apply NoDup_cons; [now apply NoDup_remove_2 in N|exact N1].
  Qed.

  Lemma list_refl {A} (eqb : A -> A -> bool) l : (forall x, eqb x x = true) -> list_eqb eqb l l = true.
  Proof. intros H. induction l as [|x l IH]; [reflexivity|]. cbn [list_eqb]. now rewrite H, IH. Qed.
  Lemma opt_refl {A} (eqb : A -> A -> bool) o : (forall x, eqb x x = true) -> opt_eqb eqb o o = true.
  Proof. intros H. destruct o; [apply H|reflexivity]. Qed.
  Lemma id_refl x : same_id x x = true.
  Proof. now apply same_id_lower. Qed.
  Section Refl.
    Context (R : forall n x, xeq n x x = true).
    Lemma param_refl n p : param_eqb xeq n p p = true.
    Proof.
      unfold param_eqb. rewrite (list_refl _ _ id_refl), id_refl, (opt_refl _ _ (R n)), !andb_true_r. cbn [andb].
      destruct (p_mode p) as [| | |[]]; reflexivity.
    Qed.
    Lemma spec_refl n s : spec_eqb xeq n s s = true.
    Proof. unfold spec_eqb. now rewrite id_refl, (list_refl _ _ (param_refl n)), (opt_refl _ _ id_refl). Qed.
    Lemma literals_refl n l : NoDup (map (fun p : string * option X => lower (fst p)) l) -> literals_eqb xeq n l l = true.
    Proof.
      intros N. unfold literals_eqb. destruct (unvalued l || unvalued l).
      - rewrite Nat.eqb_refl. cbn [andb]. apply forallb_forall. intros (k, v) I. cbn [fst snd].
        rewrite (in_value_of k v l N I). apply opt_refl, R.
      - apply list_refl. intros (k, v). cbn [fst snd]. now rewrite id_refl, (opt_refl _ _ (R n)).
    Qed.
    Lemma item_refl n i : is_pragma i = false -> keys_differ i -> item_eqb xeq n i i = true.
    Proof.
      destruct i; intros P K; try discriminate P; cbn [item_eqb];
        rewrite ?id_refl, ?spec_refl, ?R, ?(list_refl _ _ id_refl), ?(list_refl _ _ (R n)),
          ?(opt_refl (list_eqb (xeq n)) _ (fun l => list_refl _ l (R n))), ?Bool.eqb_reflx; try reflexivity.
      cbn [andb]. destruct d; cbn [tdef_eqb]; rewrite ?id_refl, ?R, ?(list_refl _ _ (R n)), ?(opt_refl _ _ (R n)); try reflexivity.
      cbn [keys_differ] in K. now rewrite (literals_refl _ _ K).
    Qed.
    Lemma unique_new l : forall n seen k, unique_from xeq n seen l = Ok k -> (forall o, In o l -> keys_differ (snd o)) ->
      forall a b, In a seen -> In b k -> snd a = snd b -> is_pragma (snd a) = true.
    Proof.
      induction l as [|e l IH]; intros n seen k H K a b Ia Ib E; cbn [unique_from] in H; [injection H as <-; destruct Ib|].
      destruct (hashable (snd e)); [|discriminate].
      destruct (existsb (fun s => same xeq n s e) seen) eqn:S0.
      - apply (IH _ _ _ H) with (b := b); [|exact Ia|exact Ib|exact E]. intros o I. apply K. now right.
      - destruct (unique_from xeq (S n) (e :: seen) l) as [k'|] eqn:U; [|discriminate]. injection H as <-.
        destruct Ib as [<-|Ib].
        + destruct (is_pragma (snd a)) eqn:P; [reflexivity|]. exfalso.
          enough (existsb (fun s => same xeq n s e) seen = true) by congruence.
          apply existsb_exists. exists a. split; [exact Ia|]. unfold same. rewrite E in P |- *. rewrite (item_refl n _ P); [apply orb_true_r|].
          apply K. now left.
        + apply (IH _ _ _ U) with (b := b); [|now right|exact Ib|exact E]. intros o I. apply K. now right.
    Qed.
    Lemma unique_once l : forall n seen k, unique_from xeq n seen l = Ok k -> (forall o, In o l -> keys_differ (snd o)) ->
      forall k1 a k2 b k3, k = k1 ++ a :: k2 ++ b :: k3 -> snd a = snd b -> is_pragma (snd a) = true.
    Proof.
      induction l as [|e l IH]; intros n seen k H K k1 a k2 b k3 E S; cbn [unique_from] in H; [injection H as <-; destruct k1; discriminate|].
      assert (forall o, In o l -> keys_differ (snd o)) as K' by (intros o I; apply K; now right).
      destruct (hashable (snd e)); [|discriminate].
      destruct (existsb (fun s => same xeq n s e) seen).
      - now apply (IH _ _ _ H K' _ _ _ _ _ E).
      - destruct (unique_from xeq (Datatypes.S n) (e :: seen) l) as [k'|] eqn:U; [|discriminate]. injection H as <-.
        destruct k1 as [|x k1]; injection E as <- E.
        + apply (unique_new _ _ _ _ U K') with (b := b); [now left| |exact S]. rewrite E. apply in_or_app. right. now left.
        + now apply (IH _ _ _ U K' _ _ _ _ _ E).
    Qed.
  End Refl.
End Unique.

Lemma within_In {A} (k l : list A) x : within k l -> In x k -> In x l.
Proof. induction 1; cbn [In]; intuition. Qed.

Lemma forallb_filter_id {A} (f : A -> bool) l : forallb f l = true -> filter f l = l.
Proof. induction l as [|x l IH]; [reflexivity|]. cbn [forallb filter]. intros H. apply andb_prop in H as [-> H]. now rewrite (IH H). Qed.

(** ** Texts are not empty *)
Lemma starts_eq (a : string) b : a <> "" -> starts_line a = false -> starts_line (a ++ b)%string = false.
Proof. intros N S. now rewrite starts_app. Qed.
Section Texts.
  Context {X : Type} (xt : X -> string) (xeq : nat -> X -> X -> bool).
  Context (HX : forall n x y, xeq n x y = true -> lower (xt x) = lower (xt y)).

  Lemma spec_starts (s : spec X) b : starts_line (spec_text xt s ++ b)%string = false.
  Proof. unfold spec_text. destruct (s_return s); reflexivity. Qed.
  Lemma item_starts (i : item X) : hashable i = true -> starts_line (item_text xt i) = false.
  Proof.
    destruct i; intros H; try discriminate H; try reflexivity; unfold item_text; try apply spec_starts.
    - destruct d; reflexivity.
    - destruct formals as [l|]; [reflexivity|apply spec_starts].
    - destruct function; reflexivity.
  Qed.
  Lemma item_ne (i : item X) : hashable i = true -> item_text xt i <> "".
  Proof. intros H E. apply item_starts in H. rewrite E in H. discriminate. Qed.

  Lemma unique_announces n l k : orderly xt xeq l -> unique_from xeq n [] l = Ok k -> announces (item_text xt) (forall n x, xeq n x x = true) (map (fun o => item_text xt (snd o)) k) l.
  Proof.
    intros O U. exists k. split; [reflexivity|]. pose proof (unique_within _ _ _ _ _ U) as W. split; [exact W|]. split.
    - intros l1 o l2 E. destruct (unique_found _ _ _ _ _ U (o_same _ _ _ O) _ _ _ E) as (o' & [[]|[I J]] & A).
      exists o'. split; [exact I|]. split; [exact J|]. destruct A as [->|[m A]]; [reflexivity|].
      assert (In o' l) as I1 by now apply (within_In _ _ _ W). assert (In o l) as I2 by (subst l; apply in_or_app; right; now left).
      apply (item_low _ xeq HX m); [exact A|now apply (o_shape _ _ _ O _ _ m)|now apply (o_keys _ _ _ O)].
    - split; [intros N; now apply (unique_pragmas _ _ _ _ _ U)|].
      intros R. apply (unique_once _ R _ _ _ _ U). apply (o_keys _ _ _ O).
  Qed.
  Lemma orderly_unique n l : orderly xt xeq l -> exists k, unique_from xeq n [] l = Ok k /\ (forall o, In o k -> In o l) /\ (k = [] -> l = []).
  Proof.
    intros O. destruct (unique_total xeq _ n [] (o_hash _ _ _ O)) as [k U]. exists k. split; [exact U|].
    pose proof (unique_within _ _ _ _ _ U) as W. split; [intros o; now apply within_In|].
    intros ->. destruct l as [|o l]; [reflexivity|].
    destruct (unique_found _ _ _ _ _ U (o_same _ _ _ O) [] o l eq_refl) as (o' & [[]|[[] _]] & _).
  Qed.
  Lemma kept_texts l (k : list (obj X)) : orderly xt xeq l -> (forall o, In o k -> In o l) ->
    forall s, In s (map (fun o => item_text xt (snd o)) k) -> tidy s = true /\ starts_line s = false /\ s <> "".
  Proof.
    intros O K s I. apply in_map_iff in I as (o & <- & I). apply K in I.
    pose proof (o_hash _ _ _ O) as H. rewrite forallb_forall in H. specialize (H _ I).
    split; [now apply (o_tidy _ _ _ O)|]. split; [now apply item_starts|now apply item_ne].
  Qed.

  Lemma items_announce n l : orderly xt xeq l -> exists ts, items xt xeq n l = Ok (map (fun s => indent s 3) ts) /\
    announces (item_text xt) (forall n x, xeq n x x = true) ts l /\ (forall s, In s ts -> tidy s = true /\ s <> "") /\ (ts = [] <-> l = []).
  Proof.
    intros O. destruct (orderly_unique n l O) as (k & U & K & Z). exists (map (fun o => item_text xt (snd o)) k).
    pose proof (kept_texts _ _ O K) as T. unfold items. rewrite U. cbn [bind]. split; [|split; [now apply (unique_announces n)|split]].
    - do 2 f_equal. apply forallb_filter_id. apply forallb_forall. intros s I. apply negb_true_iff, String.eqb_neq. now apply T.
    - intros s I. destruct (T s I) as (? & ? & ?). now split.
    - split.
      + intros E. apply Z. destruct k; [reflexivity|discriminate].
      + intros ->. cbn [unique_from] in U. now injection U as <-.
  Qed.

  (** ** The parts of the text *)
  Lemma concat_ne (l : list string) sep : l <> [] -> (forall s, In s l -> s <> "") -> String.concat sep l <> "".
  Proof.
    intros N H. destruct l as [|a l]; [congruence|]. specialize (H a (or_introl eq_refl)). destruct a as [|c a]; [congruence|].
    destruct l; discriminate.
  Qed.

  Lemma declarative_items_ok n l private : orderly xt xeq l -> exists ts s, declarative_items xt xeq n l private = Ok s /\
    announces (item_text xt) (forall n x, xeq n x x = true) ts l /\
    (forall b, paragraphs (s ++ b)%string = 
       (match ts with [] => [] | _ => (if private then ["private"] else []) ++ map (fun s => indent s 3) ts end ++ paragraphs b)%list).
  Proof.
    intros O. destruct (items_announce n l O) as (ts & I & A & T & Z). exists ts. unfold declarative_items. rewrite I. cbn [bind].
    destruct ts as [|t ts].
    - exists "". split; [reflexivity|]. split; [exact A|]. intros b. reflexivity.
    - assert (forall s, In s (map (fun s => indent s 3) (t :: ts)) -> tidy s = true /\ s <> "") as T'.
      { intros s J. apply in_map_iff in J as (s0 & <- & J). destruct (T _ J). split; [now apply indent_tidy|now apply indent_ne]. }
      destruct (String.eqb_spec (String.concat (nl ++ nl)%string (map (fun s => indent s 3) (t :: ts))) "") as [E|E].
      + exfalso. revert E. apply concat_ne; [discriminate|]. intros s J. now apply T'.
      + eexists. split; [reflexivity|]. split; [exact A|]. intros b.
        destruct private.
        * rewrite !app_assoc_s. rewrite paragraphs_split by reflexivity. cbn [app]. f_equal.
          apply (paragraphs_concat (map (fun s => indent s 3) (t :: ts))); [discriminate|]. intros s J. now apply T'.
        * rewrite !app_assoc_s. apply (paragraphs_concat (map (fun s => indent s 3) (t :: ts))); [discriminate|]. intros s J. now apply T'.
  Qed.

  Lemma context_clause_ok n l : orderly xt xeq l -> exists ts s, context_clause xt xeq n l = Ok s /\
    announces (item_text xt) (forall n x, xeq n x x = true) ts l /\
    (forall b, paragraphs (s ++ b)%string = (match ts with [] => [] | _ => [String.concat nl ts] end ++ paragraphs b)%list).
  Proof.
    intros O. destruct (orderly_unique n l O) as (k & U & K & Z). exists (map (fun o => item_text xt (snd o)) k).
    pose proof (kept_texts _ _ O K) as T. pose proof (unique_announces n l k O U) as A.
    destruct l as [|o l].
    - cbn [unique_from] in U. injection U as <-. exists "". split; [reflexivity|]. split; [exact A|reflexivity].
    - unfold context_clause. rewrite U. cbn [bind]. eexists. split; [reflexivity|]. split; [exact A|]. intros b.
      destruct k as [|o' k]; [discriminate (Z eq_refl)|]. rewrite !app_assoc_s, paragraphs_split; [reflexivity|].
      apply tidy_lines; [discriminate|]. intros s I. destruct (T s I) as (? & ? & _). now split.
  Qed.

  Lemma add_all_package ps : forall k v, add_all (Package k) ps = Ok v -> v = Package (mkPackage (X := X)
    (u_context k) (u_id k) (u_formals k) (u_aspects k) (u_declarations k ++ flat_map part_specification ps)%list
    (u_private k ++ flat_map part_private ps)%list (u_body_context k) (u_body_id k) (u_body_aspects k) (u_body k ++ flat_map part_body ps)%list).
  Proof.
    induction ps as [|p ps IH]; intros k v H.
    - cbn [add_all] in H. injection H as <-. cbn [flat_map]. rewrite !app_nil_r. now destruct k.
    - cbn [add_all iadd bind] in H. apply IH in H. rewrite H. cbn. now rewrite <- !app_assoc.
  Qed.
  Lemma add_all_total ps : forall k, exists v, add_all (X := X) (Package k) ps = Ok v.
  Proof. induction ps as [|p ps IH]; intros k; [now eexists|]. cbn [add_all iadd bind]. apply IH. Qed.
End Texts.
