(** Facts: the text of packages. *)
From Coq Require Import String Ascii List Bool Arith Lia.
From Verif Require Import Base Ident ExprPrint AdaStmt AdaUnit AdaUnitSpec.
Import ListNotations.
Local Open Scope list_scope.
Local Open Scope string_scope.

(** ** Paragraphs *)

Lemma app_assoc_s a b c : ((a ++ b) ++ c)%string = (a ++ b ++ c)%string.
Proof. induction a as [|x a IH]; [reflexivity|]. cbn [String.append]. now rewrite IH. Qed.

Lemma paragraphs_split a b : tidy a = true -> paragraphs (a ++ nl ++ nl ++ b)%string = a :: paragraphs b.
Proof.
  induction a as [|c a IH]; intros T; [reflexivity|].
  destruct a as [|d a].
  - cbn [tidy] in T. apply negb_true_iff in T.
    change ((String c "" ++ nl ++ nl ++ b)%string) with (String c (String newline (String newline b))).
    cbn [paragraphs]. rewrite T. cbn [andb]. reflexivity.
  - change (tidy (String c (String d a))) with (negb (Ascii.eqb c newline && Ascii.eqb d newline) && tidy (String d a)) in T.
    apply andb_prop in T as [T1 T2]. apply negb_true_iff in T1.
    change ((String c (String d a) ++ nl ++ nl ++ b)%string) with (String c (String d (a ++ nl ++ nl ++ b))).
    cbn [paragraphs]. rewrite T1.
    change (String d (a ++ nl ++ nl ++ b)) with ((String d a ++ nl ++ nl ++ b)%string). 
    specialize (IH T2).
    cbn [String.append] in IH |- *. cbn [paragraphs] in IH. rewrite IH. reflexivity.
Qed.

Lemma paragraphs_last a : tidy a = true -> paragraphs (a ++ nl)%string = [(a ++ nl)%string].
Proof.
  induction a as [|c a IH]; intros T; [reflexivity|].
  destruct a as [|d a].
  - cbn [tidy] in T. apply negb_true_iff in T.
    change ((String c "" ++ nl)%string) with (String c (String newline "")).
    cbn [paragraphs]. rewrite T. cbn [andb]. reflexivity.
  - change (tidy (String c (String d a))) with (negb (Ascii.eqb c newline && Ascii.eqb d newline) && tidy (String d a)) in T.
    apply andb_prop in T as [T1 T2]. apply negb_true_iff in T1. specialize (IH T2).
    change ((String c (String d a) ++ nl)%string) with (String c (String d (a ++ nl))).
    cbn [String.append] in IH. cbn [paragraphs] in IH |- *. rewrite T1, IH. reflexivity.
Qed.

(** *** Joining *)
Lemma tidy_cons c d r : tidy (String c (String d r)) = negb (Ascii.eqb c newline && Ascii.eqb d newline) && tidy (String d r).
Proof. reflexivity. Qed.

Lemma tidy_app a b : tidy a = true -> tidy b = true -> tidy (a ++ b)%string = true.
Proof.
  intros T Tb. induction a as [|c a IH]; [exact Tb|]. destruct a as [|d a].
  - cbn [tidy] in T. apply negb_true_iff in T. destruct b as [|e b]; cbn [String.append]; [cbn [tidy]; now rewrite T|].
    rewrite tidy_cons, T. exact Tb.
  - rewrite tidy_cons in T. apply andb_prop in T as [T1 T2]. specialize (IH T2). cbn [String.append] in IH |- *. rewrite tidy_cons, T1. exact IH.
Qed.

Definition starts_line (s : string) : bool := match s with String c _ => Ascii.eqb c newline | "" => true end.
(** no newline at the start, something there *)
Lemma tidy_join a b : tidy a = true -> a <> "" -> tidy b = true -> starts_line b = false -> tidy (a ++ nl ++ b)%string = true.
Proof.
  intros T _ Tb Sb. induction a as [|c a IH].
  - cbn [String.append]. destruct b as [|e b]; [discriminate Sb|]. cbn [starts_line] in Sb.
    change (nl ++ String e b)%string with (String newline (String e b)). rewrite tidy_cons, Sb, andb_false_r, Tb. reflexivity.
  - destruct a as [|d a].
    + cbn [tidy] in T. destruct b as [|e b]; [discriminate Sb|]. cbn [starts_line] in Sb.
      change ((String c "" ++ nl ++ String e b)%string) with (String c (String newline (String e b))).
      rewrite !tidy_cons, Sb, andb_false_r, Tb, andb_true_r. apply negb_true_iff in T. rewrite T. reflexivity.
    + rewrite tidy_cons in T. apply andb_prop in T as [T1 T2].
      change ((String c (String d a) ++ nl ++ b)%string) with (String c ((String d a) ++ nl ++ b)%string).
      change ((String d a ++ nl ++ b)%string) with (String d (a ++ nl ++ b)) in *. rewrite tidy_cons, T1, (IH T2). reflexivity.
Qed.

Lemma starts_app a b : a <> "" -> starts_line (a ++ b)%string = starts_line a.
Proof. destruct a; [congruence|reflexivity]. Qed.

Lemma concat_cons sep (a b : string) l : String.concat sep (a :: b :: l) = (a ++ sep ++ String.concat sep (b :: l))%string.
Proof. reflexivity. Qed.

Lemma tidy_lines l : l <> [] -> (forall s, In s l -> tidy s = true /\ starts_line s = false) ->
  tidy (String.concat nl l) = true /\ starts_line (String.concat nl l) = false.
Proof.
  induction l as [|a l IH]; intros N H; [congruence|].
  destruct l as [|b l]; [cbn [String.concat]; apply H; now left|].
  rewrite concat_cons. destruct (H a (or_introl eq_refl)) as [Ta Sa].
  assert (a <> "") as Na by (intros ->; discriminate Sa).
  destruct (IH ltac:(discriminate) (fun s I => H s (or_intror I))) as [Tl Sl].
  split; [now apply tidy_join|]. now rewrite starts_app.
Qed.

Lemma paragraphs_concat l b : l <> [] -> (forall s, In s l -> tidy s = true) ->
  paragraphs (String.concat (nl ++ nl) l ++ nl ++ nl ++ b)%string = (l ++ paragraphs b)%list.
Proof.
  induction l as [|x l IH]; intros N H; [congruence|].
  destruct l as [|y l].
  - cbn [String.concat]. rewrite paragraphs_split by (apply H; now left). reflexivity.
  - rewrite concat_cons, !app_assoc_s, paragraphs_split by (apply H; now left).
    rewrite IH; [reflexivity|discriminate|]. intros s I. apply H. now right.
Qed.

(** *** Indentation *)
Lemma tidy_spaces n s : tidy s = true -> starts_line s = false -> tidy (spaces n ++ s)%string = true.
Proof.
  intros T S. induction n as [|n IH]; [exact T|].
  cbn [spaces String.append]. destruct ((spaces n ++ s)%string) as [|d r] eqn:E.
  - destruct n; destruct s; discriminate.
  - rewrite tidy_cons. replace (Ascii.eqb " " newline) with false by reflexivity. exact IH.
Qed.
Lemma indent_from_tidy n : forall s b, tidy s = true -> tidy (indent_from b s n) = true.
Proof.
  induction s as [|c s IH]; intros b T; [reflexivity|].
  assert (tidy s = true) as Ts.
  { destruct s as [|d s]; [reflexivity|]. rewrite tidy_cons in T. now apply andb_prop in T. }
  assert (forall b', (Ascii.eqb c newline = true -> b' = true) -> tidy (String c (indent_from b' s n)) = true) as K.
  { intros b' B. destruct s as [|d s]; [exact T|].
    rewrite tidy_cons in T. apply andb_prop in T as [T1 _]. apply negb_true_iff in T1.
    specialize (IH b' Ts). cbn [indent_from] in IH |- *.
    destruct (Ascii.eqb d newline) eqn:D.
    - rewrite andb_true_r in T1. rewrite tidy_cons, T1. exact IH.
    - destruct b'.
      + destruct n as [|n]; cbn [spaces String.append] in IH |- *.
        * rewrite tidy_cons, D, andb_false_r. exact IH.
        * rewrite tidy_cons. replace (Ascii.eqb " " newline) with false by reflexivity. rewrite andb_false_r. exact IH.
      + rewrite tidy_cons, D, andb_false_r. exact IH. }
  cbn [indent_from]. destruct (Ascii.eqb c newline) eqn:C; [now apply K|].
  destruct b; [|now apply K].
  apply tidy_spaces; [|exact C]. apply K. congruence.
Qed.
Lemma indent_tidy n s : tidy s = true -> tidy (indent s n) = true.
Proof. apply indent_from_tidy. Qed.
Lemma indent_ne n s : s <> "" -> indent s n <> "".
Proof.
  destruct s as [|c s]; [congruence|]. intros _. unfold indent. cbn [indent_from].
  destruct (Ascii.eqb c newline); [discriminate|]. destruct n; discriminate.
Qed.

(** ** Case of letters *)
Lemma lower_app a b : lower (a ++ b)%string = (lower a ++ lower b)%string.
Proof. induction a as [|c a IH]; [reflexivity|]. cbn [String.append lower]. now rewrite IH. Qed.
Lemma lower_newline c : Ascii.eqb (lower_char c) newline = Ascii.eqb c newline.
Proof. destruct c as [[] [] [] [] [] [] [] []]; reflexivity. Qed.
Lemma lower_spaces n : lower (spaces n) = spaces n.
Proof. induction n as [|n IH]; [reflexivity|]. cbn [spaces lower]. rewrite IH. reflexivity. Qed.
Lemma newline_low c : Ascii.eqb c newline = true -> lower_char c = c.
Proof. intros H. apply Ascii.eqb_eq in H as ->. reflexivity. Qed.
Lemma lower_indent_from n : forall s b, lower (indent_from b s n) = indent_from b (lower s) n.
Proof.
  induction s as [|c s IH]; intros b; [reflexivity|].
  cbn [lower indent_from]. rewrite lower_newline. destruct (Ascii.eqb c newline).
  - cbn [lower]. now rewrite IH.
  - destruct b; [rewrite lower_app, lower_spaces|]; cbn [lower]; now rewrite IH.
Qed.
Lemma lower_indent n s : lower (indent s n) = indent (lower s) n.
Proof. apply lower_indent_from. Qed.
Lemma lower_indent_next n : forall s, lower (indent_next s n) = indent_next (lower s) n.
Proof.
  induction s as [|c s IH]; [reflexivity|]. cbn [lower indent_next]. rewrite lower_newline.
  destruct (Ascii.eqb c newline); cbn [lower]; [rewrite lower_app, lower_spaces|]; now rewrite IH.
Qed.
Lemma lower_concat sep l : lower (String.concat sep l) = String.concat (lower sep) (map lower l).
Proof.
  induction l as [|a l IH]; [reflexivity|]. destruct l as [|b l]; [reflexivity|].
  cbn [map]. rewrite !concat_cons, !lower_app, IH. reflexivity.
Qed.
Lemma same_id_lower a b : same_id a b = true <-> lower a = lower b.
Proof. apply String.eqb_eq. Qed.

(** ** Equal objects have equal texts *)
Lemma list_eqb_map {A B} (eqb : A -> A -> bool) (f : A -> B) :
  (forall x y, eqb x y = true -> f x = f y) -> forall l m, list_eqb eqb l m = true -> map f l = map f m.
Proof.
  intros H. induction l as [|x l IH]; intros [|y m] E; cbn [list_eqb] in E; try discriminate; [reflexivity|].
  apply andb_prop in E as [E1 E2]. cbn [map]. rewrite (H _ _ E1), (IH _ E2). reflexivity.
Qed.
Lemma list_eqb_nil {A} (eqb : A -> A -> bool) l m : list_eqb eqb l m = true -> (l = [] <-> m = []).
Proof. destruct l, m; cbn [list_eqb]; intros E; split; congruence. Qed.

Ltac low := repeat first [rewrite lower_app | rewrite lower_concat | rewrite lower_indent | rewrite lower_indent_next | rewrite map_map].

Section Equal.
  Context {X : Type} (xt : X -> string) (xeq : nat -> X -> X -> bool).
  Context (HX : forall n x y, xeq n x y = true -> lower (xt x) = lower (xt y)).

  Lemma commas_low l m : list_eqb same_id l m = true -> lower (commas l) = lower (commas m).
  Proof.
    intros E. unfold commas. rewrite !lower_concat. f_equal. revert E. apply list_eqb_map. intros x y. apply same_id_lower.
  Qed.
  Lemma default_low n a b : opt_eqb (xeq n) a b = true -> lower (default_text xt a) = lower (default_text xt b).
  Proof. destruct a, b; cbn [opt_eqb]; intros E; try discriminate; [|reflexivity]. unfold default_text. rewrite !lower_app, (HX _ _ _ E). reflexivity. Qed.
  Lemma param_low n a b : param_eqb xeq n a b = true -> uncompared (p_mode a) = uncompared (p_mode b) -> lower (param_text xt a) = lower (param_text xt b).
  Proof.
    unfold param_eqb. intros E M. apply andb_prop in E as [E D]. apply andb_prop in E as [E T]. apply andb_prop in E as [I Q].
    assert (p_mode a = p_mode b) as M'.
    { destruct (p_mode a) as [| | |[]], (p_mode b) as [| | |[]]; cbn in Q, M; try discriminate; reflexivity. }
    clear M.
    unfold param_text. low. rewrite (commas_low _ _ I), M', (proj1 (same_id_lower _ _) T), (default_low _ _ _ D). reflexivity.
  Qed.
  Lemma params_low n l : forall m, list_eqb (param_eqb xeq n) l m = true -> map (fun p => uncompared (p_mode p)) l = map (fun p => uncompared (p_mode p)) m ->
    map (fun p => lower (param_text xt p)) l = map (fun p => lower (param_text xt p)) m.
  Proof.
    induction l as [|x l IH]; intros [|y m] E M; cbn [list_eqb map] in *; try discriminate; [reflexivity|].
    apply andb_prop in E as [E1 E2]. injection M as M1 M2. rewrite (param_low _ _ _ E1 M1), (IH _ E2 M2). reflexivity.
  Qed.
  Lemma params_text_low n l m : list_eqb (param_eqb xeq n) l m = true -> map (fun p => uncompared (p_mode p)) l = map (fun p => uncompared (p_mode p)) m ->
    lower (params_text xt l) = lower (params_text xt m).
  Proof.
    intros E M. pose proof (params_low _ _ _ E M) as K.
    destruct l as [|x l], m as [|y m]; try discriminate E; [reflexivity|].
    unfold params_text. low. rewrite K. reflexivity.
  Qed.
  Lemma spec_id_low n s t : spec_eqb xeq n s t = true -> lower (s_id s) = lower (s_id t).
  Proof. unfold spec_eqb. intros E. apply andb_prop in E as [E _]. apply andb_prop in E as [E _]. now apply same_id_lower. Qed.
  Lemma spec_low n s t : spec_eqb xeq n s t = true -> modes s = modes t -> lower (spec_text xt s) = lower (spec_text xt t).
  Proof.
    intros E M. pose proof (spec_id_low _ _ _ E) as I. unfold spec_eqb in E. apply andb_prop in E as [E R]. apply andb_prop in E as [_ P].
    unfold spec_text. destruct (s_return s), (s_return t); try discriminate R; low; rewrite I, (params_text_low _ _ _ P M); [|reflexivity].
    cbn [opt_eqb] in R. rewrite (proj1 (same_id_lower _ _) R). reflexivity.
  Qed.
  Lemma xs_low n l m : list_eqb (xeq n) l m = true -> map (fun x => lower (xt x)) l = map (fun x => lower (xt x)) m.
  Proof. apply list_eqb_map. apply HX. Qed.
  Lemma xs_map n {B} (f : string -> B) l m : list_eqb (xeq n) l m = true -> map (fun x => f (lower (xt x))) l = map (fun x => f (lower (xt x))) m.
  Proof. apply list_eqb_map. intros x y E. f_equal. now apply (HX n). Qed.
  Lemma aspects_low n l m : list_eqb (xeq n) l m = true -> lower (aspects_text xt l) = lower (aspects_text xt m).
  Proof.
    intros E. destruct l as [|x l], m as [|y m]; try discriminate E; [reflexivity|].
    unfold aspects_text. low. do 3 f_equal. 
    rewrite (map_ext _ (fun x => indent (lower (xt x)) 2)) by (intros; apply lower_indent).
    rewrite (map_ext (fun x => lower (indent (xt x) 2)) (fun x => indent (lower (xt x)) 2)) by (intros; apply lower_indent).
    now apply (xs_map n (fun s => indent s 2)).
  Qed.
  Lemma formals_low n l m : opt_eqb (list_eqb (xeq n)) l m = true -> lower (formals_text xt l) = lower (formals_text xt m).
  Proof.
    destruct l as [l|], m as [m|]; cbn [opt_eqb]; intros E; try discriminate; [|reflexivity].
    unfold formals_text. low. do 3 f_equal.
    rewrite (map_ext (fun x => lower (nl ++ "   " ++ xt x)) (fun x => nl ++ "   " ++ lower (xt x)))%string by (intros; now rewrite !lower_app).
    now apply (xs_map n (fun s => nl ++ "   " ++ s)%string).
  Qed.
  Lemma discriminants_low n l m : opt_eqb (list_eqb (xeq n)) l m = true -> lower (discriminants_text xt l) = lower (discriminants_text xt m).
  Proof.
    destruct l as [l|], m as [m|]; cbn [opt_eqb]; intros E; try discriminate; [|reflexivity].
    destruct l as [|x l], m as [|y m]; try discriminate E; [reflexivity|].
    unfold discriminants_text. low. rewrite (xs_low _ _ _ E). reflexivity.
  Qed.

  (** *** Literals *)
  Definition value_low (p : string * option X) : string * option string := (lower (fst p), option_map (fun x => lower (xt x)) (snd p)).
  Lemma value_of_in k (l : list (string * option X)) v : value_of k l = Some v -> exists k', lower k = lower k' /\ In (k', v) l.
  Proof.
    induction l as [|(k', w) l IH]; cbn [value_of]; [discriminate|].
    destruct (same_id k k') eqn:E.
    - intros [= ->]. exists k'. apply same_id_lower in E. split; [exact E|now left].
    - intros H. destruct (IH H) as (k2 & L & I). exists k2. split; [exact L|now right].
  Qed.
  Lemma in_value_of k v l : NoDup (map (fun p : string * option X => lower (fst p)) l) -> In (k, v) l -> value_of k l = Some v.
  Proof.
    induction l as [|(k', w) l IH]; intros N I; [destruct I|]. cbn [map fst] in N. apply NoDup_cons_iff in N as [N1 N2].
    cbn [value_of]. destruct I as [[= -> ->]|I].
    - now rewrite (proj2 (same_id_lower k k) eq_refl).
    - destruct (same_id k k') eqn:E; [|now apply IH]. apply same_id_lower in E. exfalso. apply N1. rewrite <- E.
      apply in_map_iff. exists (k, v). now split.
  Qed.
  Lemma opt_low n a b : opt_eqb (xeq n) a b = true -> option_map (fun x => lower (xt x)) a = option_map (fun x => lower (xt x)) b.
  Proof. destruct a, b; cbn [opt_eqb option_map]; intros E; try discriminate; [|reflexivity]. now rewrite (HX _ _ _ E). Qed.

  Lemma literals_low n l m : literals_eqb xeq n l m = true -> 
    literal_order l = literal_order m -> NoDup (map (fun p => lower (fst p)) m) -> map value_low l = map value_low m.
  Proof.
    unfold literals_eqb, literal_order. destruct (unvalued l || unvalued m) eqn:UV.
    - intros E K N.
      assert (map (fun p => lower (fst p)) l = map (fun p => lower (fst p)) m) as K'.
      { destruct (unvalued l) eqn:Ul, (unvalued m) eqn:Um; [exact K| | |discriminate UV].
        - destruct l; [discriminate Ul|discriminate K].
        - destruct m; [discriminate Um|discriminate K]. }
      clear K UV. rename K' into K. apply andb_prop in E as [_ E]. rewrite forallb_forall in E.
      assert (forall p q, In p l -> In q m -> lower (fst p) = lower (fst q) -> value_low p = value_low q) as H.
      { intros (k, v) (k', w) I J Q. cbn [fst] in Q. specialize (E _ I). cbn [fst snd] in E.
        destruct (value_of k m) as [v'|] eqn:V; [|discriminate].
        apply value_of_in in V as (k2 & L & I2).
        assert (v' = w) as ->.
        { apply (in_value_of _ _ _ N) in I2. apply (in_value_of _ _ _ N) in J.
          enough (value_of k2 m = value_of k' m) by congruence.
          clear -L Q. induction m as [|(k3, x) m IH]; [reflexivity|]. cbn [value_of]. unfold same_id. rewrite <- L, <- Q, IH. reflexivity. }
        unfold value_low. cbn [fst snd]. now rewrite Q, (opt_low _ _ _ E). }
      clear E N. revert m K H. induction l as [|p l IH]; intros [|q m] K H; try discriminate K; [reflexivity|].
      cbn [map] in K |- *. injection K as K1 K2. f_equal.
      + apply H; [now left|now left|exact K1].
      + apply IH; [exact K2|]. intros p' q' I J. apply H; now right.
    - intros E _ _. revert E. apply list_eqb_map. intros (k, v) (k', w) E. cbn [fst snd] in E. apply andb_prop in E as [E1 E2].
      unfold value_low. cbn [fst snd]. now rewrite (proj1 (same_id_lower _ _) E1), (opt_low _ _ _ E2).
  Qed.
  Lemma represented_low l : forall m, map value_low l = map value_low m -> map lower (represented xt l) = map lower (represented xt m).
  Proof.
    induction l as [|(k, v) l IH]; intros [|(k', w) m] E; try discriminate E; [reflexivity|].
    cbn [map] in E. injection E as E1 E2 E3. unfold value_low in E1, E2. cbn [fst snd] in E1, E2.
    destruct v, w; try discriminate E2; cbn [represented]; [|now apply IH]. cbn [option_map] in E2. injection E2 as E2.
    cbn [map]. rewrite (IH _ E3), !lower_app, E1, E2. reflexivity.
  Qed.
  Lemma represented_nil l m : map lower (represented xt l) = map lower (represented xt m) -> (represented xt l = [] <-> represented xt m = []).
  Proof. destruct (represented xt l), (represented xt m); cbn [map]; intros E; split; congruence. Qed.

  Definition tshape (d : tdef X) : bool * list string :=
    match d with TArray u _ _ => (u, []) | TEnum ls _ => (false, literal_order ls) | _ => (false, []) end.
  Definition tkeys (d : tdef X) : Prop := match d with TEnum ls _ => NoDup (map (fun p => lower (fst p)) ls) | _ => True end.

  Lemma tdef_low n x y d e : lower x = lower y -> tdef_eqb xeq n d e = true -> tshape d = tshape e -> tkeys e ->
    lower (sub_text d) = lower (sub_text e) /\ lower (definition_text xt d) = lower (definition_text xt e) /\
    lower (extra_text xt x d) = lower (extra_text xt y e).
  Proof.
    intros I E S K. destruct d, e; cbn [tdef_eqb] in E; try discriminate E; repeat split; unfold definition_text, extra_text; low;
      repeat match goal with H : _ && _ = true |- _ => apply andb_prop in H as [? H] end;
      repeat match goal with H : same_id _ _ = true |- _ => apply same_id_lower in H; rewrite ?H; clear H end;
      repeat match goal with H : xeq _ _ _ = true |- _ => apply HX in H; rewrite ?H; clear H end; try reflexivity.
    - cbn [tshape] in S. injection S as S. cbn [tkeys] in K.
      match goal with H : literals_eqb _ _ _ _ = true |- _ => pose proof (literals_low _ _ _ H S K) as V end.
      unfold commas. rewrite !lower_concat, !map_map. apply (f_equal (map fst)) in V. rewrite !map_map in V. unfold value_low in V. cbn [fst] in V.
      rewrite V. reflexivity.
    - cbn [tshape] in S. injection S as S. cbn [tkeys] in K.
      match goal with H : literals_eqb _ _ _ _ = true |- _ => pose proof (literals_low _ _ _ H S K) as V end.
      pose proof (represented_low _ _ V) as R. pose proof (represented_nil _ _ R) as Z.
      destruct (represented xt literals) as [|r rs], (represented xt literals0) as [|r' rs']; try (now destruct Z as [Z1 Z2]; discriminate (Z1 eq_refl) || discriminate (Z2 eq_refl)); [reflexivity|].
      unfold commas. low. rewrite R, I. reflexivity.
    - cbn [tshape] in S. injection S as ->. reflexivity.
    - match goal with H : list_eqb _ _ _ = true |- _ => pose proof (xs_low _ _ _ H) as C; rename H into L end.
      assert (forall l m : list X, list_eqb (xeq n) l m = true ->
        lower (match l with [] => "" | _ => indent (String.concat nl (map xt l)) 6 ++ nl end)%string =
        lower (match m with [] => "" | _ => indent (String.concat nl (map xt m)) 6 ++ nl end)%string) as G.
      { clear -HX. intros l m E. destruct l as [|a l], m as [|b m]; try discriminate E; [reflexivity|].
        rewrite !lower_app, !lower_indent, !lower_concat, !map_map, (xs_low _ _ _ E). reflexivity. }
      rewrite (G _ _ L). do 4 f_equal. 
      destruct variant, variant0; cbn [opt_eqb] in E; try discriminate E; [|reflexivity]. now rewrite !lower_indent, (HX _ _ _ E).
  Qed.

  Lemma item_low n a b : item_eqb xeq n a b = true -> shape a = shape b -> keys_differ b -> lower (item_text xt a) = lower (item_text xt b).
  Proof.
    intros E S K. destruct a, b; cbn [item_eqb] in E; try discriminate E; unfold item_text;
      repeat match goal with H : _ && _ = true |- _ => apply andb_prop in H as [H ?] end.
    - low. now rewrite (commas_low _ _ E).
    - low. now rewrite (commas_low _ _ E).
    - low. now rewrite (commas_low _ _ E).
    - apply same_id_lower in E.
      destruct (tdef_low n id id0 d d0) as (T1 & T2 & T3); [exact E|assumption|destruct d, d0; cbn [tdef_eqb] in *; try discriminate; cbn [shape tshape] in *; congruence|destruct d0; exact K|].
      low. rewrite T1, T2, T3, E.
      match goal with H : list_eqb _ _ _ = true |- _ => rewrite (aspects_low _ _ _ H) end.
      match goal with H : opt_eqb _ _ _ = true |- _ => rewrite (discriminants_low _ _ _ H) end. reflexivity.
    - cbn [shape] in S. injection S as S. low. rewrite (spec_low _ _ _ E S).
      match goal with H : list_eqb _ _ _ = true |- _ => rewrite (aspects_low _ _ _ H) end.
      match goal with H : opt_eqb _ _ _ = true |- _ => rewrite (formals_low _ _ _ H) end. reflexivity.
    - cbn [shape] in S. injection S as S. rename H into A, H0 into B, H1 into C.
      low. rewrite (spec_low _ _ _ E S), (spec_id_low _ _ _ E).
      assert (lower (match aspects with [] => " " | _ => aspects_text xt aspects ++ nl end)%string =
              lower (match aspects0 with [] => " " | _ => aspects_text xt aspects0 ++ nl end)%string) as ->.
      { pose proof (aspects_low _ _ _ A) as Q. destruct aspects, aspects0; try discriminate A; [reflexivity|]. rewrite !lower_app, Q. reflexivity. }
      rewrite !(map_ext (fun x => lower (indent (xt x ++ nl) 3)) (fun x => indent (lower (xt x) ++ nl) 3))%string by (intros; now rewrite lower_indent, lower_app).
      rewrite (xs_map n (fun s => indent (s ++ nl) 3)%string _ _ C).
      rewrite !(map_ext (fun x => lower (indent (xt x) 3)) (fun x => indent (lower (xt x)) 3))%string by (intros; now rewrite lower_indent).
      rewrite (xs_map n (fun s => indent s 3)%string _ _ B). reflexivity.
    - cbn [shape] in S. injection S as S. rename H into A, H0 into B.
      low. rewrite (spec_low _ _ _ E S), (HX _ _ _ B). do 5 f_equal.
      assert (lower (match aspects with [] => "" | _ => nl ++ aspects_text xt aspects end)%string =
              lower (match aspects0 with [] => "" | _ => nl ++ aspects_text xt aspects0 end)%string) as ->; [|reflexivity].
      pose proof (aspects_low _ _ _ A) as Q. destruct aspects, aspects0; try discriminate A; [reflexivity|]. rewrite !lower_app, Q. reflexivity.
    - rename H into A, H0 into B, H1 into C. apply Bool.eqb_prop in E as <-. low. apply same_id_lower in C. rewrite C, (spec_id_low _ _ _ B).
      assert (lower (associations_text associations) = lower (associations_text associations0)) as ->; [|reflexivity].
      destruct associations, associations0; try discriminate A; [reflexivity|]. unfold associations_text. low. now rewrite (commas_low _ _ A).
    - cbn [shape] in S. injection S as S. rename H into A. apply same_id_lower in A. low. rewrite (spec_low _ _ _ E S), A. reflexivity.
    - apply (HX n). exact E.
  Qed.
End Equal.
