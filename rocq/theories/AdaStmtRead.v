(** Facts: the tokens of statements are read as the statements, and grouping choices keeps what they do. *)
From Coq Require Import String Ascii List ZArith Bool Lia.
From Verif Require Import Base Ident Expr ExprEval ExprTotal ExprMore ExprFacts ExprPrint ExprRead ExprReadFacts ExprReadTree ExprAda AdaStmt AdaStmtSpec AdaStmtFacts.
Import ListNotations.
Local Open Scope string_scope.
Local Open Scope list_scope.
Local Open Scope nat_scope.

(** other expressions in the same statements *)
Fixpoint pmap {A B} (f : A -> B) (p : prog A) : prog B :=
  match p with
  | PNull => PNull
  | PAssign id e => PAssign id (f e)
  | PCall id l => PCall id (map f l)
  | PPragma id l => PPragma id (map f l)
  | PReturn e => PReturn (f e)
  | PIf l e => PIf (map (fun p => (f (fst p), map (pmap f) (snd p))) l) (map (pmap f) e)
  | PCase e l => PCase (f e) (map (fun p => (map f (fst p), map (pmap f) (snd p))) l)
  end.

(** ** Reading *)

(** for all bounds that are large enough *)
Definition ev_all (P : nat -> Prop) : Prop := exists k, forall n, k <= n -> P n.
Lemma ev_and (P Q : nat -> Prop) : ev_all P -> ev_all Q -> ev_all (fun n => P n /\ Q n).
Proof. intros [k H] [m G]. exists (max k m). intros n L. split; [apply H|apply G]; lia. Qed.
Lemma ev_S (P Q : nat -> Prop) : ev_all P -> (forall n, P n -> Q (S n)) -> ev_all Q.
Proof. intros [k H] G. exists (S k). intros [|n] L; [lia|]. apply G, H. lia. Qed.

Lemma read_expression e rest : good e = true -> stops 5 rest -> ev_all (fun n => expression n (tk e ++ rest) = Some (tree_of e, rest)).
Proof.
  unfold good. rewrite !andb_true_iff. intros [[N S] _] St.
  assert (H : R 5 (tk e ++ rest) (tree_of e, rest)).
  { apply (R_lift (rlevel e)); [apply rlevel_le|lia| |exact St]. destruct (parses_all e N S) as [P _]. apply P.
    eapply stops_le; [|exact St]. apply rlevel_le. }
  destruct H as [k H]. exists k. intros n L. exact (rd_mono _ _ _ _ _ L H).
Qed.
Lemma stops_word w r : at_level w = 6 -> stops 5 (w :: r).
Proof. cbn [stops]. lia. Qed.

Lemma read_several sep stop rest : at_level sep = 6 -> at_level stop = 6 -> String.eqb stop stop = true -> String.eqb sep stop = false -> String.eqb sep sep = true ->
  forall l, forallb good l = true -> l <> [] ->
  ev_all (fun n => several n sep stop (sep_by sep (map tk l) ++ stop :: rest) = Some (map tree_of l, rest)).
Proof.
  intros As At Et En Es. induction l as [|e l IH]; intros G N; [congruence|].
  cbn [forallb] in G. apply andb_true_iff in G as [Ge Gl]. destruct l as [|e' l].
  - cbn [map sep_by]. eapply ev_S; [exact (read_expression e (stop :: rest) Ge (stops_word _ _ At))|].
    intros n H. cbn [several]. now rewrite H, Et.
  - specialize (IH Gl ltac:(discriminate)).
    change (sep_by sep (map tk (e :: e' :: l))) with (tk e ++ sep :: sep_by sep (map tk (e' :: l))).
    rewrite <- app_assoc. cbn [app].
    eapply ev_S; [exact (ev_and _ _ (read_expression e (sep :: sep_by sep (map tk (e' :: l)) ++ stop :: rest) Ge (stops_word _ _ As)) IH)|].
    intros n [H1 H2]. cbn [several]. rewrite H1, En, Es, H2. reflexivity.
Qed.

Lemma eat_app l r : eat l (l ++ r) = Some r.
Proof. induction l as [|x l IH]; cbn [eat app]; [reflexivity|]. now rewrite String.eqb_refl. Qed.
Lemma eat_one w r : eat [w] (w :: r) = Some r.
Proof. exact (eat_app [w] r). Qed.

Lemma entity_not id w : entity id = true -> stops_seq w || begins w = true -> lower w = w -> String.eqb id w = false.
Proof.
  intros H B L. destruct (String.eqb_spec id w) as [->|]; [|reflexivity]. unfold entity in H. rewrite L, !andb_true_iff in H.
  destruct H as [[_ H1] H2]. rewrite negb_true_iff in H1, H2. now rewrite H1, H2 in B.
Qed.
Lemma entity_open id : entity id = true -> stops_seq id = false.
Proof.
  intros H. unfold stops_seq. cbn [existsb]. rewrite !(entity_not id _ H) by reflexivity. reflexivity.
Qed.

Definition seq_end (rest : list string) : Prop := match rest with [] => True | w :: _ => stops_seq w = true end.
Definition reads_stmt (p : prog expr) : Prop :=
  pwf p = true -> forall rest, ev_all (fun n => statement n (ptk p ++ rest) = Some (pmap tree_of p, rest)).

Lemma ptk_head p : pwf p = true -> exists w r, ptk p = w :: r /\ stops_seq w = false.
Proof.
  destruct p as [|id e|id l|id l|e|l e|e l]; cbn [pwf ptk]; rewrite ?andb_true_iff; intros W; try (eexists; eexists; split; [reflexivity|]; try reflexivity).
  - apply entity_open, W.
  - apply entity_open, W.
  - destruct l as [|[c b] l]; [now destruct W as [[W _] _]|]. cbn [arm_tokens app]. eexists. eexists. split; reflexivity.
Qed.

Lemma read_sequence b : Forall reads_stmt b -> forallb pwf b = true -> b <> [] -> forall rest, seq_end rest ->
  ev_all (fun n => sequence n (flat_map ptk b ++ rest) = Some (map (pmap tree_of) b, rest)).
Proof.
  induction 1 as [|p b H F IH]; intros W N rest E; [congruence|]. cbn [forallb] in W. apply andb_true_iff in W as [Wp Wb].
  destruct b as [|q b].
  - cbn [flat_map map]. rewrite app_nil_r. eapply ev_S; [exact (H Wp rest)|]. intros n K. cbn [sequence]. rewrite K.
    destruct rest as [|w r]; [reflexivity|]. cbn [seq_end] in E. now rewrite E.
  - specialize (IH Wb ltac:(discriminate) rest E).
    change (flat_map ptk (p :: q :: b)) with (ptk p ++ flat_map ptk (q :: b)). rewrite <- app_assoc.
    eapply ev_S; [exact (ev_and _ _ (H Wp (flat_map ptk (q :: b) ++ rest)) IH)|]. intros n [K1 K2]. cbn [sequence]. rewrite K1.
    cbn [forallb] in Wb. apply andb_true_iff in Wb as [Wq _]. destruct (ptk_head q Wq) as (w & r & Ew & Sw).
    rewrite K2. cbn [flat_map]. rewrite Ew. cbn [app]. rewrite Sw. reflexivity.
Qed.

Definition else_tokens (e : list (prog expr)) : list string := match e with [] => [] | _ => "else" :: flat_map ptk e end.
Lemma read_branches e : Forall reads_stmt e -> forallb pwf e = true -> forall rest l c b,
  Forall (fun p => Forall reads_stmt (snd p)) ((c, b) :: l) ->
  forallb (fun p => good (fst p) && full_list (snd p) && forallb pwf (snd p)) ((c, b) :: l) = true ->
  ev_all (fun n => branches n (tk c ++ "then" :: flat_map ptk b ++ arm_tokens ptk "elsif" l ++ else_tokens e ++ "end" :: "if" :: ";" :: rest)
    = Some (map (fun p => (tree_of (fst p), map (pmap tree_of) (snd p))) ((c, b) :: l), map (pmap tree_of) e, rest)).
Proof.
  intros Fe We rest. induction l as [|[c' b'] l IH]; intros c b F W; cbn [forallb fst snd] in W; rewrite !andb_true_iff in W.
  - destruct W as [[[Wc Wf] Wb] _]. inversion F as [|? ? Fb _]; subst. cbn [arm_tokens app snd] in *.
    destruct e as [|p e].
    + cbn [else_tokens app].
      eapply ev_S; [exact (ev_and _ _ (read_expression c ("then" :: flat_map ptk b ++ "end" :: "if" :: ";" :: rest) Wc (stops_word "then" _ eq_refl))
        (read_sequence b Fb Wb (full_nonempty _ Wf) ("end" :: "if" :: ";" :: rest) eq_refl))|].
      intros n [H1 H2]. cbn [branches]. rewrite H1, eat_one, H2. reflexivity.
    + cbn [else_tokens app].
      eapply ev_S; [exact (ev_and _ _ (read_expression c ("then" :: flat_map ptk b ++ "else" :: flat_map ptk (p :: e) ++ "end" :: "if" :: ";" :: rest) Wc (stops_word "then" _ eq_refl))
        (ev_and _ _ (read_sequence b Fb Wb (full_nonempty _ Wf) ("else" :: flat_map ptk (p :: e) ++ "end" :: "if" :: ";" :: rest) eq_refl)
          (read_sequence (p :: e) Fe We ltac:(discriminate) ("end" :: "if" :: ";" :: rest) eq_refl)))|].
      intros n (H1 & H2 & H3). cbn [branches]. rewrite H1, eat_one, H2.
      change (String.eqb "else" "elsif") with false. change (String.eqb "else" "else") with true. cbn iota. rewrite H3. reflexivity.
  - destruct W as [[[Wc Wf] Wb] W']. inversion F as [|? ? Fb F']; subst. cbn [snd] in Fb.
    assert (W'' : forallb (fun p => good (fst p) && full_list (snd p) && forallb pwf (snd p)) ((c', b') :: l) = true).
    { cbn [forallb fst snd]. rewrite !andb_true_iff. exact W'. }
    specialize (IH c' b' F' W''). cbn [arm_tokens]. fold (arm_tokens ptk). cbn [app].
    rewrite <- !app_assoc. cbn [app]. rewrite <- !app_assoc.
    eapply ev_S; [exact (ev_and _ _ (read_expression c ("then" :: flat_map ptk b ++ "elsif" :: tk c' ++ "then" :: flat_map ptk b' ++ arm_tokens ptk "elsif" l ++ else_tokens e ++ "end" :: "if" :: ";" :: rest) Wc (stops_word "then" _ eq_refl))
      (ev_and _ _ (read_sequence b Fb Wb (full_nonempty _ Wf) ("elsif" :: tk c' ++ "then" :: flat_map ptk b' ++ arm_tokens ptk "elsif" l ++ else_tokens e ++ "end" :: "if" :: ";" :: rest) eq_refl) IH))|].
    intros n (H1 & H2 & H3). cbn [branches]. rewrite H1, eat_one, H2.
    change (String.eqb "elsif" "elsif") with true. cbn iota. rewrite H3. reflexivity.
Qed.

Definition alt_tokens (p : list expr * list (prog expr)) : list string :=
  "when" :: sep_by "|" (map tk (fst p)) ++ "=>" :: flat_map ptk (snd p).
Lemma read_alternatives rest : forall l, Forall (fun p => Forall reads_stmt (snd p)) l -> l <> [] ->
  forallb (fun p => full_list (fst p) && forallb good (fst p) && full_list (snd p) && forallb pwf (snd p)) l = true ->
  ev_all (fun n => alternatives n (flat_map alt_tokens l ++ "end" :: "case" :: ";" :: rest)
    = Some (map (fun p => (map tree_of (fst p), map (pmap tree_of) (snd p))) l, rest)).
Proof.
  induction l as [|[cs b] l IH]; intros F N W; [congruence|]. cbn [forallb fst snd] in W. rewrite !andb_true_iff in W.
  destruct W as [[[[Wn Wc] Wf] Wb] W']. inversion F as [|? ? Fb F']; subst. cbn [snd] in Fb.
  cbn [flat_map]. unfold alt_tokens at 1. cbn [fst snd app]. rewrite <- !app_assoc. cbn [app]. rewrite <- ?app_assoc.
  set (rest' := flat_map alt_tokens l ++ "end" :: "case" :: ";" :: rest) in *.
  assert (E : seq_end rest') by (unfold rest'; destruct l; reflexivity).
  pose proof (read_several "|" "=>" (flat_map ptk b ++ rest') eq_refl eq_refl eq_refl eq_refl eq_refl cs Wc (full_nonempty _ Wn)) as H1.
  pose proof (read_sequence b Fb Wb (full_nonempty _ Wf) rest' E) as H2.
  destruct l as [|q l].
  - eapply ev_S; [exact (ev_and _ _ H1 H2)|]. intros n [K1 K2]. cbn [alternatives]. rewrite eat_one, K1, K2. reflexivity.
  - specialize (IH F' ltac:(discriminate) W').
    eapply ev_S; [exact (ev_and _ _ H1 (ev_and _ _ H2 IH))|]. intros n (K1 & K2 & K3). cbn [alternatives]. rewrite eat_one, K1, K2.
    fold rest' in K3. rewrite K3. unfold rest'. reflexivity.
Qed.

Theorem read_statement p : reads_stmt p.
Proof.
  induction p as [|id e|id l|id l|e|l e IHl IHe|e l IHl] using prog_ind'; intros W rest; cbn [pwf] in W; rewrite ?andb_true_iff in W.
  - exists 1. intros [|n] L; [lia|]. reflexivity.
  - destruct W as [W1 W2]. cbn [ptk app]. rewrite <- app_assoc. cbn [app].
    eapply ev_S; [exact (read_expression e (";" :: rest) W2 (stops_word ";" _ eq_refl))|]. intros n H. cbn [statement].
    rewrite !(entity_not id _ W1) by reflexivity. rewrite W1. cbn [negb]. cbn [eat].
    change (String.eqb ":" ":") with true. change (String.eqb "=" "=") with true. cbn iota. rewrite H. reflexivity.
  - destruct W as [[W1 W2] W3]. cbn [ptk app]. rewrite <- app_assoc. cbn [app].
    eapply ev_S; [exact (read_several "," ")" (";" :: rest) eq_refl eq_refl eq_refl eq_refl eq_refl l W3 (full_nonempty _ W2))|].
    intros n H. cbn [statement]. rewrite !(entity_not id _ W1) by reflexivity. rewrite W1. cbn [negb].
    change (eat [":"; "="] ("(" :: sep_by "," (map tk l) ++ ")" :: ";" :: rest)) with (@None (list string)).
    change (eat [";"] ("(" :: sep_by "," (map tk l) ++ ")" :: ";" :: rest)) with (@None (list string)).
    cbn iota. rewrite eat_one, H. reflexivity.
  - destruct W as [W1 W3]. cbn [ptk app].
    destruct l as [|x l].
    + exists 1. intros [|n] L; [lia|]. cbn [app statement]. change (String.eqb "pragma" "null") with false.
      change (String.eqb "pragma" "return") with false. change (String.eqb "pragma" "pragma") with true. cbn iota. rewrite W1. reflexivity.
    + cbn [app]. rewrite <- !app_assoc. cbn [app].
      eapply ev_S; [exact (read_several "," ")" (";" :: rest) eq_refl eq_refl eq_refl eq_refl eq_refl (x :: l) W3 ltac:(discriminate))|].
      intros n H. cbn [statement]. change (String.eqb "pragma" "null") with false.
      change (String.eqb "pragma" "return") with false. change (String.eqb "pragma" "pragma") with true. cbn iota. rewrite W1. cbn [negb].
      change (eat [";"] ("(" :: sep_by "," (map tk (x :: l)) ++ ")" :: ";" :: rest)) with (@None (list string)).
      cbn iota. rewrite eat_one, H. reflexivity.
  - cbn [ptk app]. rewrite <- app_assoc. cbn [app].
    eapply ev_S; [exact (read_expression e (";" :: rest) W (stops_word ";" _ eq_refl))|]. intros n H. cbn [statement].
    change (String.eqb "return" "null") with false. change (String.eqb "return" "return") with true. cbn iota. rewrite H. reflexivity.
  - destruct W as [[W1 W2] W3]. destruct l as [|[c b] l]; [discriminate W1|].
    cbn [ptk]. rewrite <- !app_assoc. cbn [arm_tokens]. fold (arm_tokens ptk). cbn [app]. rewrite <- !app_assoc. cbn [app]. rewrite <- !app_assoc.
    eapply ev_S; [exact (read_branches e IHe W3 rest l c b IHl W2)|]. intros n H. cbn [statement].
    change (String.eqb "if" "null") with false. change (String.eqb "if" "return") with false. change (String.eqb "if" "pragma") with false.
    change (String.eqb "if" "if") with true. cbn iota. unfold else_tokens in H. rewrite H. reflexivity.
  - destruct W as [[W1 W2] W3]. cbn [ptk]. cbn [app]. rewrite <- app_assoc. cbn [app]. rewrite <- app_assoc. cbn [app].
    match goal with |- context [flat_map ?f l ++ ["end"; "case"; ";"]] => change f with alt_tokens | |- context [flat_map ?f l] => change f with alt_tokens end.
    eapply ev_S; [exact (ev_and _ _ (read_expression e ("is" :: flat_map alt_tokens l ++ "end" :: "case" :: ";" :: rest) W1 (stops_word "is" _ eq_refl))
      (read_alternatives rest l IHl (full_nonempty _ W2) W3))|].
    intros n [H1 H2]. cbn [statement].
    change (String.eqb "case" "null") with false. change (String.eqb "case" "return") with false. change (String.eqb "case" "pragma") with false.
    change (String.eqb "case" "if") with false. change (String.eqb "case" "case") with true. cbn iota. rewrite H1, eat_one, H2. reflexivity.
Qed.

Lemma group_from_full {A K} same (l : list (A * K)) : forall cs k, group_from same cs k l <> [].
Proof. induction l as [|[a k'] l IH]; intros cs k; cbn [group_from]; [discriminate|]. destruct (same k k'); [apply IH|discriminate]. Qed.
Lemma grouped_wf alike s : wf s = true -> pwf (grouped alike s) = true.
Proof.
  induction s as [|id e|id l|id l|e|l e IHl IHe|e l IHl] using stmt_ind'; cbn [wf grouped pwf]; auto; rewrite !andb_true_iff.
  - intros [[W1 W2] W3]. split; [split|].
    + now destruct l.
    + rewrite forallb_forall in *. rewrite Forall_forall in IHl. intros p Hp. apply in_map_iff in Hp as (q & <- & Hq).
      specialize (IHl q Hq). apply W2 in Hq. rewrite !andb_true_iff in *. cbn [fst snd]. destruct Hq as [[H1 H2] H3]. split; [split; [auto|now destruct (snd q)]|].
      rewrite forallb_forall in *. rewrite Forall_forall in IHl. intros p Hp. apply in_map_iff in Hp as (x & <- & Hx). auto.
    + destruct e as [b|]; [|reflexivity]. rewrite forallb_forall in *. rewrite Forall_forall in IHe.
      intros p Hp. apply in_map_iff in Hp as (x & <- & Hx). auto.
  - intros [[W1 W2] W3].
    set (m := map (fun p => (fst p, (snd p, map (grouped alike) (snd p)))) l).
    assert (M : Forall (fun (x : expr * (list stmt * list (prog expr))) => good (fst x) = true /\ (full_list (snd (snd x)) = true /\ forallb pwf (snd (snd x)) = true)) m).
    { unfold m. clear W1 W2. rewrite forallb_forall in W3. revert W3 IHl. induction l as [|p l IH]; intros W I; cbn [map]; constructor.
      - cbn [fst snd]. inversion I as [|? ? Ip _]; subst. specialize (W p (or_introl eq_refl)). rewrite !andb_true_iff in W. destruct W as [[H1 H2] H3].
        split; [auto|]. split; [now destruct (snd p)|]. rewrite forallb_forall in *. rewrite Forall_forall in Ip.
        intros q Hq. apply in_map_iff in Hq as (x & <- & Hx). auto.
      - apply IH; [intros x Hx; apply W; now right|now inversion I]. }
    assert (NE : group (fun x y : list stmt * list (prog expr) => same_stmts alike (fst x) (fst y)) m <> []).
    { unfold m. destruct l as [|p l]; [discriminate W2|]. cbn [map group].
      apply group_from_full. }
    split; [split; [exact W1|]|].
    + destruct (group _ m); [congruence|reflexivity].
    + assert (N := group_full (fun x y : list stmt * list (prog expr) => same_stmts alike (fst x) (fst y)) m).
      rewrite forallb_forall. intros x Hx. apply in_map_iff in Hx as (y & <- & Hy). rewrite Forall_forall in N. specialize (N y Hy).
      assert (K : Forall (fun y => Forall (fun a => good a = true) (fst y) /\ full_list (snd (snd y)) = true /\ forallb pwf (snd (snd y)) = true)
        (group (fun x y : list stmt * list (prog expr) => same_stmts alike (fst x) (fst y)) m)).
      { assert (G' : forall (l : list (expr * (list stmt * list (prog expr)))) cs k,
          Forall (fun x => good (fst x) = true /\ full_list (snd (snd x)) = true /\ forallb pwf (snd (snd x)) = true) l ->
          Forall (fun a => good a = true) cs -> full_list (snd k) = true -> forallb pwf (snd k) = true ->
          Forall (fun y => Forall (fun a => good a = true) (fst y) /\ full_list (snd (snd y)) = true /\ forallb pwf (snd (snd y)) = true)
            (group_from (fun x y : list stmt * list (prog expr) => same_stmts alike (fst x) (fst y)) cs k l)).
        { clear. induction l as [|[a k'] l IH]; intros cs k F C K1 K2; cbn [group_from]; [now repeat constructor|].
          inversion F as [|? ? (F1 & F2 & F3) F']; subst. cbn [fst snd] in *. destruct (same_stmts alike (fst k) (fst k')).
          - apply IH; auto. apply Forall_app. auto.
          - constructor; [auto|]. apply IH; auto. }
        clear - G' M. destruct m as [|[a k] m]; [constructor|]. inversion M as [|? ? (F1 & F2 & F3) F']; subst. cbn [group fst snd] in *.
        apply G'; auto. }
      rewrite Forall_forall in K. destruct (K y Hy) as (K1 & K2 & K3). cbn [fst snd]. rewrite !andb_true_iff. repeat split; auto.
      * now destruct (fst y).
      * apply forallb_forall. rewrite Forall_forall in K1. auto.
Qed.
