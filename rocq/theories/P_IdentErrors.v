(** Properties C35 (identifiers) and C36 (error containers). *)
From Coq Require Import String Ascii List Bool Arith Lia Permutation.
From Verif Require Import Base Ident Errors.
Import ListNotations.
Local Open Scope string_scope.
Local Open Scope list_scope.
Local Open Scope nat_scope.
Local Notation length := List.length.

(** what a well-formed identifier is: at least one part, no empty part, no blank,
    dot or colon inside a part *)
Definition good_part (s : string) : Prop :=
  s <> "" /\ forall c, In c (list_ascii_of_string s) -> c <> " "%char /\ c <> "."%char /\ c <> ":"%char.
Definition good_id (a : list string) : Prop := a <> [] /\ Forall good_part a.

Lemma has_char_In c s : has_char c s = true <-> In c (list_ascii_of_string s).
Proof.
  induction s as [|d s IH]; cbn; [split; [discriminate|tauto]|].
  rewrite orb_true_iff, Ascii.eqb_eq, IH. split; intros [H|H]; auto.
Qed.

Lemma good_part_b s : good_part s <->
  String.eqb "" s = false /\ has_char " " s = false /\ has_char "." s = false /\ has_char ":" s = false.
Proof.
  unfold good_part.
  assert (N : forall c, has_char c s = false <-> ~ In c (list_ascii_of_string s)).
  { intros c. rewrite <- has_char_In. destruct (has_char c s); split; congruence. }
  rewrite !N, String.eqb_neq. split.
  - intros [H K]. split; [congruence|]. repeat split; intros I; apply K in I; tauto.
  - intros (H & K1 & K2 & K3). split; [congruence|]. intros c I.
    repeat split; intros ->; contradiction.
Qed.

Lemma check_parts_ok p q : check_parts p = Ok q <-> q = p /\ good_id p.
Proof.
  unfold check_parts, good_id. destruct p as [|x p]; [split; [discriminate|intros [_ [H _]]; congruence]|].
  assert (E : forall f, existsb f (x :: p) = false <-> Forall (fun s => f s = false) (x :: p)).
  { intros f. rewrite Forall_forall. split.
    - intros H s I. destruct (f s) eqn:F; [|reflexivity].
      assert (existsb f (x :: p) = true) by (apply existsb_exists; eauto). congruence.
    - intros H. destruct (existsb f (x :: p)) eqn:F; [|reflexivity].
      apply existsb_exists in F. destruct F as (s & I & F). rewrite (H s I) in F. discriminate. }
  assert (G : Forall good_part (x :: p) <->
    existsb (String.eqb "") (x :: p) = false /\ existsb (has_char " ") (x :: p) = false /\
    existsb (has_char ".") (x :: p) = false /\ existsb (has_char ":") (x :: p) = false).
  { rewrite !E, !Forall_forall. split.
    - intros H. repeat split; intros s I; apply H, good_part_b in I; tauto.
    - intros (A & B & C & D) s I. apply good_part_b. auto. }
  rewrite G.
  destruct (existsb (String.eqb "") (x :: p)); [split; [discriminate|intros (_ & _ & H & _); discriminate]|].
  destruct (existsb (has_char " ") (x :: p)); [split; [discriminate|intros (_ & _ & _ & H & _); discriminate]|].
  destruct (existsb (has_char ".") (x :: p)); [split; [discriminate|intros (_ & _ & _ & _ & H & _); discriminate]|].
  destruct (existsb (has_char ":") (x :: p)); [split; [discriminate|intros (_ & _ & _ & _ & _ & H); discriminate]|].
  split; [intros H; injection H as <-; repeat split; congruence|].
  intros [-> _]. reflexivity.
Qed.

Lemma split_nonempty s : exists h t, split s = h :: t.
Proof.
  destruct s as [|c r]; cbn; [eauto|].
  assert (K : exists h t, match split r with h :: t => String c h :: t | [] => [String c ""] end = h :: t)
    by (destruct (split r); eauto).
  destruct (Ascii.eqb c ":"); [|exact K]. destruct r as [|d r]; [exact K|].
  destruct (Ascii.eqb d ":"); eauto.
Qed.

(** a text without a colon is a single part *)
Lemma split_plain s : has_char ":" s = false -> split s = [s].
Proof.
  induction s as [|c s IH]; [reflexivity|]. cbn [has_char]. intros H.
  apply orb_false_iff in H as [H K]. cbn [split].
  rewrite Ascii.eqb_sym, H, (IH K). reflexivity.
Qed.

(** splitting a text up to a separator *)
Lemma split_sep s r : has_char ":" s = false -> split (s ++ "::" ++ r) = s :: split r.
Proof.
  induction s as [|c s IH]; [reflexivity|]. cbn [has_char]. intros H.
  apply orb_false_iff in H as [H K].
  change (String c s ++ "::" ++ r)%string with (String c (s ++ "::" ++ r)%string).
  cbn [split]. rewrite Ascii.eqb_sym, H, (IH K). reflexivity.
Qed.

Lemma split_concat a : Forall good_part a -> a <> [] -> split (String.concat "::" a) = a.
Proof.
  induction a as [|x a IH]; [congruence|]. intros G _. inversion G as [|? ? Gx Ga]; subst.
  apply good_part_b in Gx as (_ & _ & _ & Cx). destruct a as [|y a].
  - cbn. now apply split_plain.
  - change (String.concat "::" (x :: y :: a)) with (x ++ "::" ++ String.concat "::" (y :: a))%string.
    rewrite split_sep by exact Cx. f_equal. apply IH; [exact Ga|discriminate].
Qed.

Lemma concat_app a b : a <> [] -> b <> [] ->
  String.concat "::" (a ++ b) = (String.concat "::" a ++ "::" ++ String.concat "::" b)%string.
Proof.
  intros Ha Hb. induction a as [|x a IH]; [congruence|]. destruct a as [|y a].
  - destruct b as [|z b]; [congruence|]. reflexivity.
  - change (String.concat "::" ((x :: y :: a) ++ b)) with
      (x ++ "::" ++ String.concat "::" ((y :: a) ++ b))%string.
    rewrite IH by discriminate.
    change (String.concat "::" (x :: y :: a)) with (x ++ "::" ++ String.concat "::" (y :: a))%string.
    generalize (String.concat "::" (y :: a)) (String.concat "::" b). intros u v.
    assert (A : forall p q r : string, ((p ++ q) ++ r = p ++ q ++ r)%string)
      by (clear; intros p q r; induction p; cbn; congruence).
    rewrite !A. reflexivity.
Qed.

Lemma concat_nonempty a : good_id a -> String.concat "::" a <> "".
Proof.
  intros [Hn Hg]. destruct a as [|x a]; [congruence|]. inversion Hg as [|? ? [Gx _] _]; subst.
  destruct x; [congruence|]. destruct a; discriminate.
Qed.

(** ** C35 *)

(** exactly the well-formed names are accepted, and their text form gives them back *)
Theorem C35_accepted : forall l i, id_of_list l = Ok i <-> i = l /\ good_id l.
Proof. intros. apply check_parts_ok. Qed.
Theorem C35_text_roundtrip : forall l i, id_of_list l = Ok i -> id_of_string (id_str i) = Ok i.
Proof.
  intros l i H. apply check_parts_ok in H as [-> [Hn Hg]].
  unfold id_of_string, id_str. rewrite split_concat by assumption. now apply check_parts_ok.
Qed.
Theorem C35_text_accepted_is_good : forall s i, id_of_string s = Ok i -> good_id i /\ id_str i = s.
Proof.
  intros s i H. apply check_parts_ok in H as [-> G]. split; [exact G|].
  clear G. unfold id_str. revert s. fix IH 1. intros [|c r]; [reflexivity|].
  assert (K : String.concat "::" (match split r with h :: t => String c h :: t | [] => [String c ""] end)
              = String c r).
  { pose proof (IH r) as E. destruct (split r) as [|h t] eqn:S.
    - destruct (split_nonempty r) as (? & ? & ?). congruence.
    - rewrite <- E. destruct t; reflexivity. }
  cbn [split]. destruct (Ascii.eqb c ":") eqn:C; [|exact K]. apply Ascii.eqb_eq in C as ->.
  destruct r as [|d r]; [exact K|]. destruct (Ascii.eqb d ":") eqn:D; [|exact K].
  apply Ascii.eqb_eq in D as ->. pose proof (IH r) as E.
  destruct (split_nonempty r) as (h & t & S). rewrite S in *.
  change (String.concat "::" ("" :: h :: t)) with ("::" ++ String.concat "::" (h :: t))%string.
  rewrite E. reflexivity.
Qed.
Example C35_accepted_case : id_of_string "Net::Ethernet" = Ok ["Net"; "Ethernet"] /\
  id_of_list ["Net"; "Ethernet"] = Ok ["Net"; "Ethernet"] /\ good_id ["Net"; "Ethernet"].
Proof.
  split; [reflexivity|]. split; [reflexivity|]. now apply (C35_accepted _ ["Net"; "Ethernet"]).
Qed.
Example C35_rejected_cases : is_ok (id_of_string "A::") = false /\ is_ok (id_of_string "A B") = false /\
  is_ok (id_of_string "A:::B") = false /\ is_ok (id_of_list []) = false /\ is_ok (id_of_list ["A.B"]) = false.
Proof. repeat split. Qed.

(** equality is an equivalence and is what the hash sees *)
Lemma id_eq_hash a : forall b, id_eq a b = true <-> id_hash a = id_hash b.
Proof.
  unfold id_eq, id_hash. intros b. destruct (length a =? length b) eqn:L; cbn [negb].
  - apply Nat.eqb_eq in L. revert b L. induction a as [|x a IH]; intros [|y b] L; try discriminate L.
    + cbn. split; reflexivity.
    + cbn [all_zip map]. injection L as L. rewrite andb_true_iff, String.eqb_eq, (IH b L).
      split; [intros [-> ->]; reflexivity|]. intros H. injection H as -> ->. split; reflexivity.
  - split; [discriminate|]. intros H. apply (f_equal (@length string)) in H. rewrite !map_length in H.
    apply Nat.eqb_neq in L. contradiction.
Qed.
Theorem C35_equivalence : (forall a, id_eq a a = true) /\
  (forall a b, id_eq a b = true -> id_eq b a = true) /\
  (forall a b c, id_eq a b = true -> id_eq b c = true -> id_eq a c = true).
Proof.
  split; [|split]; intros *; rewrite !id_eq_hash; congruence.
Qed.
Theorem C35_hash : forall a b, id_eq a b = true -> id_hash a = id_hash b.
Proof. intros a b. apply id_eq_hash. Qed.
Theorem C35_same_length : forall a b, id_eq a b = true -> length a = length b.
Proof.
  intros a b H. apply id_eq_hash in H. unfold id_hash in H. apply (f_equal (@length string)) in H.
  now rewrite !map_length in H.
Qed.
Example C35_equivalence_case : id_eq ["Net"; "IPv4"] ["NET"; "ipV4"] = true /\
  id_eq ["Net"; "IPv4"] ["NetIPv4"] = false /\ id_eq ["A"] ["A"; "B"] = false.
Proof. repeat split. Qed.

(** joining *)
Theorem C35_join : forall a b, good_id a -> good_id b -> id_mul a (id_str b) = Ok (a ++ b).
Proof.
  intros a b Ga Gb. unfold id_mul. destruct (String.eqb (id_str b) "") eqn:E.
  - apply String.eqb_eq in E. now apply concat_nonempty in Gb.
  - unfold id_of_string, id_str. rewrite <- concat_app by (apply Ga || apply Gb).
    rewrite split_concat.
    + apply check_parts_ok. split; [reflexivity|]. split; [|apply Forall_app; split; [apply Ga|apply Gb]].
      destruct Ga as [Ha _]. destruct a; [congruence|discriminate].
    + apply Forall_app. split; [apply Ga|apply Gb].
    + destruct Ga as [Ha _]. destruct a; [congruence|discriminate].
Qed.
Theorem C35_join_assoc : forall a b c ab bc, good_id a -> good_id b -> good_id c ->
  id_mul a (id_str b) = Ok ab -> id_mul b (id_str c) = Ok bc ->
  exists r, id_mul ab (id_str c) = Ok r /\ id_mul a (id_str bc) = Ok r.
Proof.
  intros a b c ab bc Ga Gb Gc H1 H2. rewrite C35_join in H1, H2 by assumption.
  injection H1 as <-. injection H2 as <-.
  assert (Gab : forall x y, good_id x -> good_id y -> good_id (x ++ y)).
  { intros x y [Hx Gx] [Hy Gy]. split; [destruct x; [congruence|discriminate]|]. now apply Forall_app. }
  exists (a ++ b ++ c). rewrite C35_join by auto. rewrite C35_join by auto.
  now rewrite app_assoc.
Qed.
Theorem C35_join_equal : forall a a' b b' r r', good_id a -> good_id a' -> good_id b -> good_id b' ->
  id_eq a a' = true -> id_eq b b' = true ->
  id_mul a (id_str b) = Ok r -> id_mul a' (id_str b') = Ok r' -> id_eq r r' = true.
Proof.
  intros a a' b b' r r' Ga Ga' Gb Gb' Ea Eb H1 H2. rewrite C35_join in H1, H2 by assumption.
  injection H1 as <-. injection H2 as <-. apply id_eq_hash in Ea, Eb. apply id_eq_hash.
  unfold id_hash in *. rewrite !map_app. congruence.
Qed.
(** a qualified identifier is its parent joined with its name *)
Theorem C35_parent_name : forall a, good_id a -> 2 <= length a ->
  exists p n, id_parent a = Ok p /\ id_name a = Ok n /\ id_mul p (id_str n) = Ok a /\
              id_rmul n (id_str p) = Ok a.
Proof.
  intros a [Hn Hg] L. destruct (exists_last Hn) as (p & x & ->).
  unfold id_parent, id_name. rewrite removelast_last, last_last.
  apply Forall_app in Hg as [Gp Gx]. inversion Gx as [|? ? Px _]; subst.
  assert (Hp : p <> []) by (rewrite app_length in L; destruct p; [cbn in L; lia|discriminate]).
  exists p, [x].
  assert (Hx : id_of_string x = Ok [x]).
  { unfold id_of_string. rewrite split_plain by (apply good_part_b in Px; tauto).
    apply check_parts_ok. repeat split; [discriminate|exact Gx]. }
  split; [apply check_parts_ok; repeat split; assumption|]. split; [exact Hx|].
  split; [apply C35_join; split; trivial; discriminate|].
  unfold id_rmul. destruct (String.eqb (id_str p) "") eqn:E.
  - apply String.eqb_eq in E. exfalso. apply (concat_nonempty p); [now split|exact E].
  - unfold id_of_string, id_str. rewrite <- concat_app by (assumption || discriminate).
    rewrite split_concat; [|now apply Forall_app|destruct p; discriminate].
    apply check_parts_ok. split; [reflexivity|]. split; [destruct p; discriminate|now apply Forall_app].
Qed.
Theorem C35_unqualified_parent : forall x, is_ok (id_parent [x]) = false.
Proof. reflexivity. Qed.
Example C35_join_case : good_id ["A"; "B"] /\ id_mul ["A"] "B::C" = Ok ["A"; "B"; "C"] /\
  id_mul ["A"] "" = Ok ["A"] /\ id_parent ["A"; "B"] = Ok ["A"] /\ id_name ["A"; "B"] = Ok ["B"].
Proof.
  split; [now apply (C35_accepted _ ["A"; "B"])|]. repeat split.
Qed.

(** the textual concatenation extends the last part *)
Theorem C35_add_suffix : forall a x s, good_id (a ++ [x]) -> good_part s ->
  id_add (a ++ [x]) s = Ok (a ++ [(x ++ s)%string]).
Proof.
  intros a x s [Hn Hg] Gs. apply Forall_app in Hg as [Ga Gx]. inversion Gx as [|? ? Px _]; subst.
  assert (P : good_part (x ++ s)).
  { assert (L : list_ascii_of_string (x ++ s) = (list_ascii_of_string x ++ list_ascii_of_string s)%list).
    { clear. induction x; cbn; congruence. }
    destruct Px as [N Q]. split; [destruct x; [congruence|discriminate]|]. intros c I.
    rewrite L in I. apply in_app_or in I as [I|I]; [now apply Q|now apply Gs]. }
  assert (E : (id_str (a ++ [x])%list ++ s)%string = id_str (a ++ [(x ++ s)%string])).
  { unfold id_str. destruct a as [|y a]; [reflexivity|]. rewrite !concat_app by discriminate.
    change (String.concat "::" [x]) with x. change (String.concat "::" [(x ++ s)%string]) with (x ++ s)%string.
    generalize (String.concat "::" (y :: a)). clear. intros u.
    assert (A : forall p q r : string, ((p ++ q) ++ r = p ++ q ++ r)%string)
      by (clear; intros p q r; induction p; cbn; congruence).
    rewrite !A. reflexivity. }
  unfold id_add, id_of_string. rewrite E. unfold id_str. rewrite split_concat.
  - apply check_parts_ok. repeat split; [destruct a; discriminate|]. apply Forall_app. split; auto.
  - apply Forall_app. split; auto.
  - destruct a; discriminate.
Qed.
Example C35_add_suffix_case : good_id ["P"; "M"] /\ good_part "_Length" /\
  id_add ["P"; "M"] "_Length" = Ok ["P"; "M_Length"].
Proof.
  split; [now apply (C35_accepted _ ["P"; "M"])|]. split; [now apply good_part_b|reflexivity].
Qed.

(** ordering is by the exact text and does not respect equality *)
Theorem C35_order_refuted : exists a b c, id_eq a b = true /\ id_lt c b = true /\ id_lt c a = false /\
  id_lt a b = true.
Proof. exists ["A"], ["a"], ["B"]. repeat split. Qed.

Print Assumptions C35_accepted.
Print Assumptions C35_text_roundtrip.
Print Assumptions C35_text_accepted_is_good.
Print Assumptions C35_equivalence.
Print Assumptions C35_hash.
Print Assumptions C35_same_length.
Print Assumptions C35_join.
Print Assumptions C35_join_assoc.
Print Assumptions C35_join_equal.
Print Assumptions C35_parent_name.
Print Assumptions C35_unqualified_parent.
Print Assumptions C35_add_suffix.
Print Assumptions C35_order_refuted.

(** ** C36 *)

Section C36.
  Context {entry : Type}.
  Implicit Types (h : heap entry) (o : op entry) (ops : list (op entry)).

  (** which existing container an operation writes to *)
  Definition target (o : op entry) : option nat :=
    match o with
    | New | Plus _ _ => None
    | Append i _ | AppendLeft i _ | ExtendList i _ | Extend i _ | IAdd i _ => Some i
    end.

  (** what an operation on container [i] has to put before and behind the old
      entries (read in the state before the operation) *)
  Definition front (o : op entry) : list entry := match o with AppendLeft _ e => [e] | _ => [] end.
  Definition back (h : heap entry) (o : op entry) : list entry :=
    match o with
    | Append _ e => [e]
    | ExtendList _ l => l
    | Extend _ j | IAdd _ j => nth j h []
    | _ => []
    end.

  (** all entries ever put in front of (behind) container [i] in a history *)
  Fixpoint fronts (i : nat) (h : heap entry) (ops : list (op entry)) : list entry :=
    match ops with
    | [] => []
    | o :: r => fronts i (step h o) r ++
                (match target o with Some k => if k =? i then front o else [] | None => [] end)
    end.
  Fixpoint backs (i : nat) (h : heap entry) (ops : list (op entry)) : list entry :=
    match ops with
    | [] => []
    | o :: r => (match target o with Some k => if k =? i then back h o else [] | None => [] end) ++
                backs i (step h o) r
    end.

  Lemma put_length h : forall i v, length (put h i v) = length h.
  Proof. induction h as [|x h IH]; intros [|i] v; cbn; auto. Qed.
  Lemma get_put_same h : forall i v, i < length h -> get (put h i v) i = v.
  Proof.
    unfold get. induction h as [|x h IH]; intros [|i] v L; cbn in *; try lia; [reflexivity|].
    apply IH. lia.
  Qed.
  Lemma get_put_other h : forall i j v, i <> j -> get (put h i v) j = get h j.
  Proof.
    unfold get. induction h as [|x h IH]; intros [|i] [|j] v N; cbn; try congruence.
    apply IH. congruence.
  Qed.
  Lemma extend_list_app l : forall d : list entry, extend_list d l = d ++ l.
  Proof.
    unfold extend_list. induction l as [|e l IH]; intros d; cbn; [now rewrite app_nil_r|].
    rewrite IH, <- app_assoc. reflexivity.
  Qed.
  Lemma get_new h i : i < length h -> get (h ++ [[]]) i = get h i.
  Proof. unfold get. intros L. now rewrite app_nth1. Qed.
  Lemma get_new_last h : get (h ++ [[]]) (length h) = [].
  Proof. unfold get. now rewrite app_nth2, Nat.sub_diag by lia. Qed.

  Lemma step_length h o : length h <= length (step h o).
  Proof. destruct o; cbn [step]; rewrite ?put_length, ?app_length; cbn; lia. Qed.

  Lemma step_get h o i : i < length h ->
    get (step h o) i = match target o with
                       | Some k => if k =? i then front o ++ get h i ++ back h o else get h i
                       | None => get h i
                       end.
  Proof.
    intros L. destruct o; cbn [step target front back].
    - now apply get_new.
    - destruct (Nat.eqb_spec i0 i) as [->|N]; [now rewrite get_put_same|now rewrite get_put_other].
    - destruct (Nat.eqb_spec i0 i) as [->|N]; [|now rewrite get_put_other].
      rewrite get_put_same by exact L. cbn. now rewrite app_nil_r.
    - destruct (Nat.eqb_spec i0 i) as [->|N]; [|now rewrite get_put_other].
      rewrite get_put_same by exact L. now rewrite extend_list_app.
    - destruct (Nat.eqb_spec i0 i) as [->|N]; [|now rewrite get_put_other].
      now rewrite get_put_same by exact L.
    - destruct (Nat.eqb_spec i0 i) as [->|N]; [|now rewrite get_put_other].
      now rewrite get_put_same by exact L.
    - rewrite !get_put_other by lia. now apply get_new.
  Qed.

  (** no entry of a container is lost, duplicated or reordered by any history, and a
      container is changed only by operations on it *)
  Theorem C36_history : forall ops h i, i < length h ->
    nth i (run h ops) [] = fronts i h ops ++ nth i h [] ++ backs i h ops.
  Proof.
    induction ops as [|o ops IH]; intros h i L; cbn [run fold_left fronts backs].
    - now rewrite app_nil_r.
    - change (nth i (run (step h o) ops) [] = (fronts i (step h o) ops ++
        match target o with Some k => if k =? i then front o else [] | None => [] end) ++ nth i h [] ++
        match target o with Some k => if k =? i then back h o else [] | None => [] end ++
        backs i (step h o) ops).
      rewrite IH by (pose proof (step_length h o); lia).
      change (nth i (step h o) []) with (get (step h o) i). rewrite step_get by exact L.
      destruct (target o) as [k|]; [destruct (k =? i)|]; cbn [app]; rewrite <- ?app_assoc; reflexivity.
  Qed.

  (** the sum of two containers is a new container with the entries of both *)
  Theorem C36_sum : forall h i j, i < length h -> j < length h ->
    step h (Plus i j) = h ++ [nth i h [] ++ nth j h []].
  Proof.
    intros h i j Hi Hj. cbn [step]. set (k := length h).
    assert (P : forall v w, put (h ++ [v]) k w = h ++ [w]).
    { intros v w. subst k. clear. induction h as [|x h IH]; cbn; [reflexivity|now rewrite IH]. }
    rewrite P. rewrite P. do 2 f_equal. subst k. unfold get. rewrite !app_nth2 by lia.
    rewrite Nat.sub_diag. cbn. rewrite !app_nth1 by assumption. reflexivity.
  Qed.

  (** propagate raises exactly if there is an entry, and raises all entries *)
  Theorem C36_propagate : forall d : list entry, (propagate d = None <-> d = []) /\
    (forall r, propagate d = Some r -> r = d).
  Proof.
    intros d. unfold propagate, check_. destruct d as [|e d]; cbn.
    - repeat split; congruence.
    - repeat split; congruence.
  Qed.
  (** hence an error recorded at any time makes a later propagate raise *)
  Theorem C36_recorded_error_raises : forall ops h i e, i < length h -> In e (nth i h []) ->
    exists d, propagate (nth i (run h ops) []) = Some d /\ In e d.
  Proof.
    intros ops h i e L I. rewrite C36_history by exact L. set (d := _ ++ _ ++ _).
    assert (D : In e d) by (unfold d; rewrite !in_app_iff; auto).
    exists d. split; [|exact D]. destruct d; [destruct D|reflexivity].
  Qed.
  Theorem C36_fail_raises : forall e : entry, fail e = Some [e].
  Proof. reflexivity. Qed.
End C36.

Example C36_history_case :
  run [[]; [9]] [Append 0 1; AppendLeft 0 2; New; IAdd 2 0; ExtendList 0 [3; 4]; Plus 0 1; Extend 0 0; AppendLeft 0 5]
  = [[5; 2; 1; 3; 4; 2; 1; 3; 4]; [9]; [2; 1]; [2; 1; 3; 4; 9]].
Proof. reflexivity. Qed.
Example C36_raises_case : propagate [1; 2] = Some [1; 2] /\ propagate (@nil nat) = None.
Proof. split; reflexivity. Qed.

Print Assumptions C36_history.
Print Assumptions C36_sum.
Print Assumptions C36_propagate.
Print Assumptions C36_recorded_error_raises.
Print Assumptions C36_fail_raises.
