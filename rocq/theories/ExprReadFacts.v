(** Facts: the text of an expression is read as the expression. *)
From Coq Require Import String Ascii List ZArith Bool Lia DecimalString DecimalN DecimalPos.
From Verif Require Import Base Expr ExprEval ExprTotal ExprMore ExprFacts ExprPrint ExprRead.
Import ListNotations.
Local Open Scope string_scope.
Local Open Scope list_scope.
Local Open Scope nat_scope.

(** ** Strings *)

Lemma app_assoc_s a b c : ((a ++ b) ++ c = a ++ b ++ c)%string.
Proof. induction a; cbn; congruence. Qed.
Lemma app_nil_s a : (a ++ "" = a)%string.
Proof. induction a; cbn; congruence. Qed.

(** ** Lexer *)

(** what follows is not part of a word *)
Definition brk (r : string) : Prop := match r with "" => True | String c _ => is_word c = false end.

Lemma lex_break p s :
  match s with "" => True | String c _ => joins p c = false end -> lex p s = (flush p ++ lex "" s)%list.
Proof. destruct s as [|c r]; intros H; cbn [lex joins flush]; [now rewrite app_nil_r|]. now rewrite H. Qed.

Lemma joins_word_brk p c : starts is_word p = true -> is_word c = false -> joins p c = false.
Proof.
  destruct p as [|h t]; [discriminate|]. cbn [starts joins]. intros H1 H2. rewrite H1, H2. cbn [andb orb].
  unfold compound. cbn [existsb].
  assert (h <> "*"%char /\ h <> "/"%char /\ h <> "<"%char /\ h <> ">"%char /\ h <> "="%char)
    by (repeat split; intros ->; discriminate H1).
  cbn [String.append String.eqb].
  repeat match goal with |- context [Ascii.eqb h ?x] => destruct (Ascii.eqb_spec h x); [tauto|] end.
  reflexivity.
Qed.

Lemma lex_word_more w : forall p r, starts is_word p = true -> all_word w = true -> lex p (w ++ r)%string = lex (p ++ w)%string r.
Proof.
  induction w as [|c w IH]; intros p r H1 H2; [now rewrite app_nil_s|].
  cbn [all_word] in H2. apply andb_true_iff in H2 as [H2 H3]. cbn [String.append lex].
  assert (J : joins p c = true).
  { destruct p as [|h t]; [discriminate|]. cbn [starts] in H1. cbn [joins]. now rewrite H1, H2. }
  rewrite J, IH; [|destruct p; [discriminate|exact H1]|exact H3]. now rewrite app_assoc_s.
Qed.

Lemma lex_word w r : starts is_word w = true -> all_word w = true -> brk r -> lex "" (w ++ r)%string = w :: lex "" r.
Proof.
  destruct w as [|c w]; [discriminate|]. intros H1 H2 B. cbn [String.append lex joins flush app].
  assert (is_space c = false).
  { cbn [starts] in H1. unfold is_word, is_digit, is_letter, is_space in *.
    destruct (Nat.eqb_spec (nat_of_ascii c) 32) as [E|]; [rewrite E in H1; discriminate|].
    destruct (Nat.eqb_spec (nat_of_ascii c) 10) as [E|]; [rewrite E in H1; discriminate|]. reflexivity. }
  rewrite H. cbn [all_word] in H2. apply andb_true_iff in H2 as [_ H2].
  rewrite lex_word_more by auto. cbn [String.append].
  rewrite lex_break; [reflexivity|]. destruct r; [exact Logic.I|]. now apply joins_word_brk.
Qed.

Lemma lex_spaces n s : lex "" (spaces n ++ s)%string = lex "" s.
Proof. induction n; [reflexivity|]. exact IHn. Qed.

Lemma compound_newline p : compound (p ++ String newline "") = false.
Proof.
  unfold compound. cbn [existsb].
  assert (X : forall s, match s with String a (String b "") => b <> newline /\ a <> newline | _ => False end -> String.eqb (p ++ String newline "") s = false).
  { intros [|a [|b [|? ?]]]; try tauto. intros [N N'].
    destruct p as [|x [|y p]]; cbn [String.append String.eqb].
    - destruct (Ascii.eqb newline a); reflexivity.
    - destruct (Ascii.eqb x a); [|reflexivity]. destruct (Ascii.eqb_spec newline b) as [E|]; [symmetry in E; tauto|reflexivity].
    - destruct (Ascii.eqb x a); [|reflexivity]. destruct (Ascii.eqb y b); [|reflexivity]. now destruct p. }
  rewrite !X by (split; intros E; discriminate E). reflexivity.
Qed.
Lemma joins_newline p : joins p newline = false.
Proof.
  destruct p as [|h t]; [reflexivity|]. cbn [joins]. rewrite compound_newline.
  replace (is_word newline) with false by reflexivity. now rewrite andb_false_r.
Qed.

Lemma lex_indent n r : forall s p, lex p (indent_next s n ++ r)%string = lex p (s ++ r)%string.
Proof.
  induction s as [|c s IH]; intros p; [reflexivity|]. cbn [indent_next].
  destruct (Ascii.eqb_spec c newline) as [->|].
  - cbn [String.append lex]. rewrite joins_newline. f_equal.
    replace (is_space newline) with true by reflexivity. rewrite app_assoc_s, lex_spaces. apply IH.
  - cbn [String.append lex]. rewrite !IH. reflexivity.
Qed.

(** ** Tokens *)

Definition number_tokens (v : Z) : list string :=
  if (v <? 0)%Z then ["("; "-"; decimal (- v); ")"] else [decimal v].
Definition name_rep (n : name) : list string :=
  match n with NVar id => [id] | NAttr a id => [id; "'"; attr_str a] end.
Definition name_tokens (n : name) (neg : bool) : list string :=
  if neg then "(" :: "-" :: name_rep n ++ [")"] else name_rep n.
Definition wrap (p : nat) (e : expr) (l : list string) : list string :=
  if Nat.leb (precedence e) p then "(" :: l ++ [")"] else l.
Definition op_tokens (o : assop) : list string :=
  match o with
  | OAnd => ["and"] | OAndThen => ["and"; "then"] | OOr => ["or"] | OOrElse => ["or"; "else"]
  | OAdd => ["+"] | OMul => ["*"]
  end.
Definition bin_token (o : binop) : string := match o with OSub => "-" | ODiv => "/" | OPow => "**" | OMod => "mod" end.
Definition rel_token (o : relop) : string :=
  match o with OLt => "<" | OLe => "<=" | OEq => "=" | OGe => ">=" | OGt => ">" | ONe => "/=" end.

(** term of a sum after the first *)
Definition add_term (x : expr) (l : list string) : list string :=
  match x with
  | ENum v => if (v <? 0)%Z then ["-"; decimal (- v)] else ["+"; decimal v]
  | EName n true => "-" :: name_rep n
  | _ => "+" :: wrap 3 x l
  end.
Fixpoint tk (e : expr) : list string :=
  match e with
  | ETrue => ["True"]
  | EFalse => ["False"]
  | ENum v => number_tokens v
  | EName n neg => name_tokens n neg
  | ENot x => "not" :: wrap 6 x (tk x)
  | EAss OAdd [] => ["0"]
  | EAss OMul [] => ["1"]
  | EAss _ [] => ["True"]
  | EAss OAdd (t :: ts) => tk t ++ flat_map (fun x => add_term x (tk x)) ts
  | EAss o (t :: ts) =>
    wrap (precedence e) t (tk t) ++ flat_map (fun x => op_tokens o ++ wrap (precedence e) x (tk x)) ts
  | EBin o l r => wrap (precedence e) l (tk l) ++ bin_token o :: wrap (precedence e) r (tk r)
  | ERel o l r => wrap (precedence e) l (tk l) ++ rel_token o :: wrap (precedence e) r (tk r)
  end.

Definition name_id (n : name) : string := match n with NVar id | NAttr _ id => id end.
(** all names satisfy [f] *)
Fixpoint names_ok (f : name -> bool) (e : expr) : bool :=
  match e with
  | ETrue | EFalse | ENum _ => true
  | EName n _ => f n
  | ENot x => names_ok f x
  | EAss _ ts => forallb (names_ok f) ts
  | EBin _ l r | ERel _ l r => names_ok f l && names_ok f r
  end.
Definition lexical (n : name) : bool := identifier (name_id n).

(** *** decimals *)
Lemma uint_word d : all_word (NilEmpty.string_of_uint d) = true.
Proof. induction d; [reflexivity|..]; exact IHd. Qed.
Lemma decimal_word v : all_word (decimal v) = true /\ starts is_digit (decimal v) = true.
Proof.
  unfold decimal, NilZero.string_of_uint. destruct (N.to_uint (Z.to_N v)) as [|d|d|d|d|d|d|d|d|d|d]; split; try reflexivity;
    exact (uint_word d).
Qed.
Lemma digit_word c : is_digit c = true -> is_word c = true.
Proof. intros H. unfold is_word. now rewrite H. Qed.
Lemma letter_word c : is_letter c = true -> is_word c = true.
Proof. intros H. unfold is_word. rewrite H. now rewrite orb_true_r. Qed.
Lemma starts_mono (f h : ascii -> bool) s : (forall c, f c = true -> h c = true) -> starts f s = true -> starts h s = true.
Proof. destruct s; cbn; auto. Qed.
Lemma numeral_decimal v : (0 <= v)%Z -> numeral (decimal v) = Some v.
Proof.
  intros H. unfold numeral, decimal. rewrite NilZero.usu.
  - rewrite DecimalN.Unsigned.of_to. now rewrite Z2N.id.
  - destruct (Z.to_N v) as [|p]; [discriminate|]. cbn. apply DecimalPos.Unsigned.to_uint_nonnil.
Qed.
Lemma lex_decimal v r : brk r -> lex "" (decimal v ++ r)%string = decimal v :: lex "" r.
Proof.
  intros B. destruct (decimal_word v) as [A D]. apply lex_word; auto. eapply starts_mono; [|exact D]. apply digit_word.
Qed.
Lemma lex_none p s : (forall c, joins p c = false) -> lex p s = (flush p ++ lex "" s)%list.
Proof. intros X. apply lex_break. destruct s; auto. Qed.
Lemma lex_close r : lex "" (")" ++ r)%string = ")" :: lex "" r.
Proof. change (lex "" (")" ++ r)%string) with (lex ")" r). now rewrite lex_none by (intros; reflexivity). Qed.
Lemma lex_open r : lex "" ("(" ++ r)%string = "(" :: lex "" r.
Proof. change (lex "" ("(" ++ r)%string) with (lex "(" r). now rewrite lex_none by (intros; reflexivity). Qed.
Lemma lex_minus r : lex "" ("-" ++ r)%string = "-" :: lex "" r.
Proof. change (lex "" ("-" ++ r)%string) with (lex "-" r). now rewrite lex_none by (intros; reflexivity). Qed.
Lemma lex_neg s r : lex "" ("(-" ++ s ++ ")" ++ r)%string = "(" :: "-" :: lex "" (s ++ ")" ++ r)%string.
Proof. change ("(-" ++ s ++ ")" ++ r)%string with ("(" ++ "-" ++ s ++ ")" ++ r)%string. now rewrite lex_open, lex_minus. Qed.
Lemma lex_number v r : brk r -> lex "" (number_str v ++ r)%string = (number_tokens v ++ lex "" r)%list.
Proof.
  intros B. unfold number_str, number_tokens. destruct (v <? 0)%Z; [|now apply lex_decimal].
  rewrite !app_assoc_s, lex_neg, lex_decimal, lex_close by reflexivity. reflexivity.
Qed.

Lemma identifier_word id : identifier id = true -> starts is_word id = true /\ all_word id = true.
Proof.
  unfold identifier. rewrite !andb_true_iff. intros ((((A & B) & _) & _) & _). split; [|exact B].
  eapply starts_mono; [|exact A]. apply letter_word.
Qed.
Lemma lex_rep n r : lexical n = true -> brk r -> lex "" (representation n ++ r)%string = (name_rep n ++ lex "" r)%list.
Proof.
  intros L B. destruct (identifier_word _ L) as [A D]. destruct n as [id|a id]; cbn [name_id representation name_rep] in *.
  - now apply lex_word.
  - rewrite !app_assoc_s, lex_word by (auto; reflexivity). cbn [app]. f_equal.
    change (lex "" ("'" ++ attr_str a ++ r)%string) with (lex "'" (attr_str a ++ r)%string).
    rewrite lex_none by (intros; reflexivity). cbn [flush app]. f_equal.
    apply lex_word; [now destruct a..|exact B].
Qed.
Lemma lex_name n s r : lexical n = true -> brk r -> lex "" (name_str n s ++ r)%string = (name_tokens n s ++ lex "" r)%list.
Proof.
  intros L B. unfold name_str, name_tokens. destruct s; [|now apply lex_rep].
  rewrite !app_assoc_s, lex_neg, lex_rep, lex_close by (auto; reflexivity).
  cbn [app]. now rewrite <- app_assoc.
Qed.

(** the text [s] consists of the tokens [l] *)
Definition lexes (s : string) (l : list string) : Prop := forall r, brk r -> lex "" (s ++ r)%string = (l ++ lex "" r)%list.
Lemma lexes_paren p e s l : lexes s l -> lexes (parenthesized p e s) (wrap p e l).
Proof.
  intros H r B. unfold parenthesized, wrap. destruct (Nat.leb (precedence e) p); [|now apply H].
  rewrite !app_assoc_s, lex_open, lex_indent, H, lex_close by reflexivity. cbn [app]. now rewrite <- app_assoc.
Qed.
Lemma lexes_indent s l n : lexes s l -> lexes (indent_next s n) l.
Proof. intros H r B. rewrite lex_indent. now apply H. Qed.
Lemma lexes_bin o s l : lexes s l -> lexes (bin_symbol o ++ s)%string (bin_token o :: l).
Proof.
  intros H r B. rewrite app_assoc_s. cbn [app]. rewrite <- (H r B). destruct o; [reflexivity..| |reflexivity].
  change (lex "" (bin_symbol OPow ++ s ++ r)%string) with (lex "**" (s ++ r)%string). now rewrite lex_none by (intros; reflexivity).
Qed.
Lemma lexes_rel o s l : lexes s l -> lexes (rel_symbol o ++ s)%string (rel_token o :: l).
Proof. intros H r B. rewrite app_assoc_s. cbn [app]. rewrite <- (H r B). destruct o; reflexivity. Qed.
Lemma lexes_app s l s' l' : lexes s l -> (forall r, brk r -> brk (s' ++ r)%string) -> lexes s' l' -> lexes (s ++ s')%string (l ++ l')%list.
Proof. intros H X H' r B. rewrite app_assoc_s, H, H' by auto. now rewrite app_assoc. Qed.
Lemma lexes_symbol o s l :
  lexes s l -> lexes (match o with OAdd | OMul => ass_symbol o | _ => String newline (tail (ass_symbol o)) end ++ s)%string (op_tokens o ++ l).
Proof. intros H r B. rewrite app_assoc_s, <- app_assoc, <- (H r B). destruct o; reflexivity. Qed.
Lemma lexes_sub s l : lexes s l -> lexes (" - " ++ s)%string ("-" :: l).
Proof. intros H r B. rewrite app_assoc_s. cbn [app]. rewrite <- (H r B). reflexivity. Qed.

Lemma lexes_str e : names_ok lexical e = true -> lexes (str e) (tk e).
Proof.
  induction e as [| |v|n s|x IH|o ts IH|o l r IHl IHr|o l r IHl IHr] using expr_ind'; cbn [names_ok]; intros N.
  - intros r B. apply lex_word; auto.
  - intros r B. apply lex_word; auto.
  - intros r B. now apply lex_number.
  - intros r B. now apply lex_name.
  - intros r B. cbn [str tk precedence]. rewrite app_assoc_s.
    change (lex "" ("not " ++ parenthesized 6 x (str x) ++ r)%string) with ("not" :: lex "" (parenthesized 6 x (str x) ++ r)%string).
    rewrite (lexes_paren _ _ _ (tk x) (IH N) r B). reflexivity.
  - destruct ts as [|t ts]; [destruct o; intros r B; apply lex_word; auto|].
    cbn [forallb] in N. apply andb_true_iff in N as [Nt Ns]. inversion IH as [|? ? IHt IHs]; subst.
    specialize (IHt Nt).
    assert (IHs' : Forall (fun x => lexes (str x) (tk x) /\ names_ok lexical x = true) ts).
    { clear - IHs Ns. induction IHs; constructor; cbn in Ns; apply andb_true_iff in Ns as [? ?]; auto. }
    clear IHs Ns IH.
    destruct o.
    5: { cbn [str tk precedence]. apply lexes_app; [exact IHt| |].
         - intros r B. destruct ts as [|x ts]; [exact B|]. destruct x as [| |v|n [|]| | | |]; try reflexivity.
           destruct (v <? 0)%Z; reflexivity.
         - induction IHs' as [|x ts [Hx Nx] _ IHts]; [now intros r B|]. cbn [flat_map].
           apply lexes_app; [| |exact IHts].
           + destruct x as [| |v|n [|]| | | |]; try (apply (lexes_symbol OAdd); now apply lexes_paren).
             * cbn [add_term]. destruct (v <? 0)%Z eqn:E.
               -- apply lexes_sub. unfold parenthesized. cbn [precedence Nat.leb].
                  intros r B. rewrite lex_number by exact B. unfold number_tokens.
                  assert (E' : (- v <? 0)%Z = false) by (apply Z.ltb_ge; apply Z.ltb_lt in E; lia). now rewrite E'.
               -- apply (lexes_symbol OAdd). intros r B. cbn [str]. unfold parenthesized. cbn [precedence Nat.leb].
                  rewrite lex_number by exact B. unfold number_tokens. now rewrite E.
             * cbn [add_term]. apply lexes_sub. unfold parenthesized. cbn [precedence Nat.leb].
               intros r B. unfold name_str. now apply lex_rep.
           + intros r B. destruct ts as [|y ts]; [exact B|]. destruct y as [| |v|n [|]| | | |]; try reflexivity.
             destruct (v <? 0)%Z; reflexivity. }
    all: cbn [str tk]; apply lexes_app; [now apply lexes_paren|intros r B; destruct ts; [exact B|reflexivity]|];
      induction IHs' as [|x ts [Hx Nx] _ IHts]; [now intros r B|]; cbn [flat_map].
    5: { rewrite <- app_assoc_s. apply lexes_app; [|intros r B; destruct ts; [exact B|reflexivity]|exact IHts].
         apply (lexes_symbol OMul). now apply lexes_paren. }
    all: rewrite <- app_assoc_s; apply lexes_app;
         [match goal with |- lexes (String newline (tail (ass_symbol ?o)) ++ _)%string _ =>
            apply (lexes_symbol o); apply lexes_indent; now apply lexes_paren end
         |intros r B; destruct ts; [exact B|reflexivity]|exact IHts].
  - apply andb_true_iff in N as [Nl Nr]. cbn [str tk]. apply lexes_app; [now apply lexes_paren; apply IHl| |].
    + intros r' B. now destruct o.
    + apply lexes_bin. now apply lexes_paren; apply IHr.
  - apply andb_true_iff in N as [Nl Nr]. cbn [str tk]. apply lexes_app; [now apply lexes_paren; apply IHl| |].
    + intros r' B. now destruct o.
    + apply lexes_rel. now apply lexes_paren; apply IHr.
Qed.

(** ** Parser *)

Lemma more_fuel n :
  (forall l ts x, rd n l ts = Some x -> rd (S n) l ts = Some x)
  /\ (forall l o t ts x, loop n l o t ts = Some x -> loop (S n) l o t ts = Some x).
Proof.
  induction n as [|n [IHr IHl]]; [split; discriminate|].
  assert (R : forall l ts, match rd n l ts with Some x => rd (S n) l ts = Some x | None => True end).
  { intros l ts. destruct (rd n l ts) eqn:E; auto. }
  assert (L : forall l o t ts, match loop n l o t ts with Some x => loop (S n) l o t ts = Some x | None => True end).
  { intros l o t ts. destruct (loop n l o t ts) eqn:E; auto. }
  clear IHr IHl. split.
  - intros l ts x H. remember (S n) as m eqn:Em. cbn [rd]. rewrite Em in H. cbn [rd] in H.
    repeat match goal with
      | H : context [rd n ?a ?b] |- _ =>
        let E := fresh "E" in pose proof (R a b); destruct (rd n a b) as [[? ?]|] eqn:E;
        match goal with K : rd m a b = Some _ |- _ => rewrite K; clear E | _ => clear E end
      | H : context [loop n ?a ?o ?b ?c] |- _ =>
        let E := fresh "E" in pose proof (L a o b c); destruct (loop n a o b c) as [[? ?]|] eqn:E;
        match goal with K : loop m a o b c = Some _ |- _ => rewrite K; clear E | _ => clear E end
      | H : context [match ?x with _ => _ end] |- _ =>
        lazymatch x with context [match _ with _ => _ end] => fail | _ => idtac end; destruct x eqn:?
      | _ => assumption
      | _ => discriminate
      end.
  - intros l o t ts x H. remember (S n) as m eqn:Em. cbn [loop]. rewrite Em in H. cbn [loop] in H.
    repeat match goal with
      | H : context [rd n ?a ?b] |- _ =>
        let E := fresh "E" in pose proof (R a b); destruct (rd n a b) as [[? ?]|] eqn:E;
        match goal with K : rd m a b = Some _ |- _ => rewrite K; clear E | _ => clear E end
      | H : context [loop n ?a ?o ?b ?c] |- _ =>
        let E := fresh "E" in pose proof (L a o b c); destruct (loop n a o b c) as [[? ?]|] eqn:E;
        match goal with K : loop m a o b c = Some _ |- _ => rewrite K; clear E | _ => clear E end
      | H : context [match ?x with _ => _ end] |- _ =>
        lazymatch x with context [match _ with _ => _ end] => fail | _ => idtac end; destruct x eqn:?
      | _ => assumption
      | _ => discriminate
      end.
Qed.
Lemma rd_mono n m l ts x : n <= m -> rd n l ts = Some x -> rd m l ts = Some x.
Proof. induction 1; intros; [assumption|]. now apply more_fuel, IHle. Qed.
Lemma loop_mono n m l o t ts x : n <= m -> loop n l o t ts = Some x -> loop m l o t ts = Some x.
Proof. induction 1; intros; [assumption|]. now apply more_fuel, IHle. Qed.

Definition R (l : nat) (ts : list string) (x : tree * list string) : Prop := exists n, rd n l ts = Some x.
Definition L (l : nat) (o : option log_op) (t : tree) (ts : list string) (x : tree * list string) : Prop :=
  exists n, loop n l o t ts = Some x.

Lemma R_fun l ts x y : R l ts x -> R l ts y -> x = y.
Proof.
  intros [n H] [m K]. apply (rd_mono n (max n m)) in H; [|lia]. apply (rd_mono m (max n m)) in K; [|lia]. congruence.
Qed.

(** how an operand may begin *)
Definition start0 (w : string) : bool := String.eqb w "(" || starts is_digit w || (starts is_letter w && negb (reserved w)).
Lemma start_0 n w r x : rd n 0 (w :: r) = Some x -> start0 w = true.
Proof.
  destruct n; [discriminate|]. cbn [rd]. unfold start0. destruct (String.eqb w "("); [reflexivity|].
  destruct (starts is_digit w); [reflexivity|]. destruct (starts is_letter w); [|discriminate].
  unfold name_at. now destruct (reserved w).
Qed.
Lemma start_1 n w r x : rd n 1 (w :: r) = Some x -> start0 w || String.eqb w "not" = true.
Proof.
  destruct n; [discriminate|]. cbn [rd]. destruct (String.eqb w "not"); [now rewrite orb_true_r|].
  destruct (rd n 0 (w :: r)) eqn:E; [|discriminate]. now rewrite (start_0 _ _ _ _ E).
Qed.
Lemma start_2 n w r x : rd n 2 (w :: r) = Some x -> start0 w || String.eqb w "not" = true.
Proof.
  destruct n; [discriminate|]. cbn [rd]. destruct (rd n 1 (w :: r)) eqn:E; [|discriminate]. intros _. exact (start_1 _ _ _ _ E).
Qed.
Lemma start_3 n w r x : rd n 3 (w :: r) = Some x -> start0 w || String.eqb w "not" || String.eqb w "-" = true.
Proof.
  destruct n; [discriminate|]. cbn [rd]. destruct (String.eqb w "-"); [now rewrite orb_true_r|].
  destruct (rd n 2 (w :: r)) eqn:E; [|discriminate]. intros _. now rewrite (start_2 _ _ _ _ E).
Qed.
Lemma start_4 n w r x : rd n 4 (w :: r) = Some x -> start0 w || String.eqb w "not" || String.eqb w "-" = true.
Proof.
  destruct n; [discriminate|]. cbn [rd]. destruct (rd n 3 (w :: r)) eqn:E; [|discriminate]. intros _. exact (start_3 _ _ _ _ E).
Qed.

(** the level at which a token continues an expression *)
Definition at_level (w : string) : nat :=
  if String.eqb w "'" then 0 else if String.eqb w "**" then 1
  else match mul_op w with Some _ => 2 | None =>
       match add_op w with Some _ => 3 | None =>
       match rel_op w with Some _ => 4 | None =>
       if String.eqb w "and" || String.eqb w "or" then 5 else 6 end end end.
Definition stops (k : nat) (ts : list string) : Prop := match ts with [] => True | w :: _ => k < at_level w end.
Lemma stops_le k l ts : k <= l -> stops l ts -> stops k ts.
Proof. destruct ts; cbn; lia. Qed.

Lemma stops_0 w r : stops 0 (w :: r) -> String.eqb w "'" = false.
Proof. cbn [stops]. unfold at_level. destruct (String.eqb w "'"); [lia|auto]. Qed.
Lemma stops_1 w r : stops 1 (w :: r) -> String.eqb w "**" = false.
Proof. cbn [stops]. unfold at_level. destruct (String.eqb w "'"); [lia|]. destruct (String.eqb w "**"); [lia|auto]. Qed.
Lemma stops_2 w r : stops 2 (w :: r) -> mul_op w = None.
Proof. cbn [stops]. unfold at_level. do 2 (destruct (String.eqb _ _); [lia|]). destruct (mul_op w); [lia|auto]. Qed.
Lemma stops_3 w r : stops 3 (w :: r) -> add_op w = None.
Proof.
  cbn [stops]. unfold at_level. do 2 (destruct (String.eqb _ _); [lia|]). destruct (mul_op w); [lia|].
  destruct (add_op w); [lia|auto].
Qed.
Lemma stops_4 w r : stops 4 (w :: r) -> rel_op w = None.
Proof.
  cbn [stops]. unfold at_level. do 2 (destruct (String.eqb _ _); [lia|]). destruct (mul_op w); [lia|]. destruct (add_op w); [lia|].
  destruct (rel_op w); [lia|auto].
Qed.
Lemma stops_5 ts : stops 5 ts -> log_op_at ts = None.
Proof.
  destruct ts as [|w r]; [reflexivity|]. cbn [stops]. unfold at_level. do 2 (destruct (String.eqb _ _); [lia|]).
  destruct (mul_op w); [lia|]. destruct (add_op w); [lia|]. destruct (rel_op w); [lia|]. cbn [log_op_at].
  destruct (String.eqb w "and"); [cbn; lia|]. destruct (String.eqb w "or"); [cbn; lia|]. reflexivity.
Qed.

(** *** derived rules *)
Lemma R0_paren r t r' : R 5 r (t, ")" :: r') -> R 0 ("(" :: r) (t, r').
Proof. intros [n H]. exists (S n). cbn [rd]. change (String.eqb "(" "(") with true. cbv iota. now rewrite H. Qed.
Lemma R1_not r x t : R 0 r (t, x) -> R 1 ("not" :: r) (TNot t, x).
Proof. intros [n H]. exists (S n). cbn [rd]. change (String.eqb "not" "not") with true. cbv iota. now rewrite H. Qed.
Lemma not_not w : start0 w = true -> String.eqb w "not" = false.
Proof. destruct (String.eqb_spec w "not") as [->|]; [discriminate|reflexivity]. Qed.
Lemma R1_prim ts t r : R 0 ts (t, r) -> stops 1 r -> R 1 ts (t, r).
Proof.
  intros [n H] S. exists (Datatypes.S n). destruct ts as [|w ts]; [destruct n; discriminate|]. cbn [rd].
  rewrite (not_not _ (start_0 _ _ _ _ H)), H. destruct r as [|o r]; [reflexivity|]. apply stops_1 in S. now rewrite S.
Qed.
Lemma R1_pow ts t r u r' : R 0 ts (t, "**" :: r) -> R 0 r (u, r') -> R 1 ts (TArith APow t u, r').
Proof.
  intros [n H] [m K]. exists (S (max n m)). destruct ts as [|w ts]; [destruct n; discriminate|]. cbn [rd].
  rewrite (not_not _ (start_0 _ _ _ _ H)). rewrite (rd_mono n (max n m) _ _ _ ltac:(lia) H).
  change (String.eqb "**" "**") with true. cbv iota. now rewrite (rd_mono m (max n m) _ _ _ ltac:(lia) K).
Qed.
Lemma R2_loop ts t r x : R 1 ts (t, r) -> L 2 None t r x -> R 2 ts x.
Proof.
  intros [n H] [m K]. exists (S (max n m)). cbn [rd]. rewrite (rd_mono n (max n m) _ _ _ ltac:(lia) H).
  now apply (loop_mono m); [lia|].
Qed.
Lemma R3_loop ts t r x : R 2 ts (t, r) -> L 3 None t r x -> R 3 ts x.
Proof.
  intros [n H] [m K]. exists (S (max n m)). destruct ts as [|w ts]; [destruct n as [|[|n]]; discriminate|]. cbn [rd].
  assert (E : String.eqb w "-" = false).
  { destruct (String.eqb_spec w "-") as [->|]; [|reflexivity]. now apply start_2 in H. }
  rewrite E, (rd_mono n (max n m) _ _ _ ltac:(lia) H). now apply (loop_mono m); [lia|].
Qed.
Lemma R3_neg ts t r x : R 2 ts (t, r) -> L 3 None (TNeg t) r x -> R 3 ("-" :: ts) x.
Proof.
  intros [n H] [m K]. exists (S (max n m)). cbn [rd]. change (String.eqb "-" "-") with true. cbv iota.
  rewrite (rd_mono n (max n m) _ _ _ ltac:(lia) H). now apply (loop_mono m); [lia|].
Qed.
Lemma R4_simple ts t r : R 3 ts (t, r) -> stops 4 r -> R 4 ts (t, r).
Proof.
  intros [n H] S. exists (Datatypes.S n). cbn [rd]. rewrite H. destruct r as [|o r]; [reflexivity|]. now rewrite (stops_4 _ _ S).
Qed.
Lemma R4_rel ts t w q r u r' : R 3 ts (t, w :: r) -> rel_op w = Some q -> R 3 r (u, r') -> R 4 ts (TRel q t u, r').
Proof.
  intros [n H] Q [m K]. exists (S (max n m)). cbn [rd].
  rewrite (rd_mono n (max n m) _ _ _ ltac:(lia) H), Q. now rewrite (rd_mono m (max n m) _ _ _ ltac:(lia) K).
Qed.
Lemma R5_simple ts t r : R 4 ts (t, r) -> stops 5 r -> R 5 ts (t, r).
Proof. intros [n H] S. exists (Datatypes.S n). cbn [rd]. rewrite H. now rewrite (stops_5 _ S). Qed.
Lemma R5_loop ts t r o r' x : R 4 ts (t, r) -> log_op_at r = Some (o, r') -> L 5 (Some o) t r x -> R 5 ts x.
Proof.
  intros [n H] Q [m K]. exists (S (max n m)). cbn [rd].
  rewrite (rd_mono n (max n m) _ _ _ ltac:(lia) H), Q. now apply (loop_mono m); [lia|].
Qed.
Lemma L_stop k t r : k = 2 \/ k = 3 -> stops k r -> L k None t r (t, r).
Proof.
  intros K S. exists 1. cbn [loop]. destruct r as [|w r]; [reflexivity|].
  destruct K as [-> | ->]; [rewrite (stops_2 _ _ S)|rewrite (stops_3 _ _ S)]; reflexivity.
Qed.
Lemma L2_step t w a r u r' x : mul_op w = Some a -> R 1 r (u, r') -> L 2 None (TArith a t u) r' x -> L 2 None t (w :: r) x.
Proof.
  intros A [n H] [m K]. exists (S (max n m)). cbn [loop Nat.eqb Nat.sub]. rewrite A, (rd_mono n (max n m) _ _ _ ltac:(lia) H).
  now apply (loop_mono m); [lia|].
Qed.
Lemma L3_step t w a r u r' x : add_op w = Some a -> R 2 r (u, r') -> L 3 None (TArith a t u) r' x -> L 3 None t (w :: r) x.
Proof.
  intros A [n H] [m K]. exists (S (max n m)). cbn [loop Nat.eqb Nat.sub]. rewrite A, (rd_mono n (max n m) _ _ _ ltac:(lia) H).
  now apply (loop_mono m); [lia|].
Qed.
Lemma L5_stop o t r : stops 5 r -> L 5 (Some o) t r (t, r).
Proof. intros S. exists 1. cbn [loop]. now rewrite (stops_5 _ S). Qed.
Lemma L5_step o t ts r u r' x :
  log_op_at ts = Some (o, r) -> R 4 r (u, r') -> L 5 (Some o) (TLog o t u) r' x -> L 5 (Some o) t ts x.
Proof.
  intros A [n H] [m K]. exists (S (max n m)). cbn [loop]. rewrite A. replace (log_op_eqb o o) with true by now destruct o.
  rewrite (rd_mono n (max n m) _ _ _ ltac:(lia) H). now apply (loop_mono m); [lia|].
Qed.

(** lifting to higher levels *)
Lemma R_lift k l ts t r : k <= l -> l <= 5 -> R k ts (t, r) -> stops l r -> R l ts (t, r).
Proof.
  intros Hk Hl H S. induction Hk as [|l Hk IH]; [exact H|].
  specialize (IH ltac:(lia) (stops_le l (Datatypes.S l) r ltac:(lia) S)).
  destruct l as [|[|[|[|[|l]]]]]; [| | | | |lia].
  - now apply R1_prim.
  - eapply R2_loop; [exact IH|]. apply L_stop; auto.
  - eapply R3_loop; [exact IH|]. apply L_stop; auto.
  - now apply R4_simple.
  - now apply R5_simple.
Qed.
