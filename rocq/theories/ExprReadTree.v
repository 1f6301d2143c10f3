(** Facts: the syntax tree of the text of an expression and its value. *)
From Coq Require Import String Ascii List ZArith Bool Lia.
From Verif Require Import Base Expr ExprEval ExprTotal ExprMore ExprFacts ExprPrint ExprRead ExprReadFacts.
Import ListNotations.
Local Open Scope string_scope.
Local Open Scope list_scope.
Local Open Scope nat_scope.

Definition num_tree (v : Z) : tree := if (v <? 0)%Z then TNeg (TNum (- v)) else TNum v.
Definition name_tree (n : name) (neg : bool) : tree := if neg then TNeg (TName n) else TName n.
Definition log_of (o : assop) : log_op := match o with OAndThen => LAndThen | OOr => LOr | OOrElse => LOrElse | _ => LAnd end.
Definition arith_of (o : binop) : arith_op := match o with OSub => ASub | ODiv => ADiv | OPow => APow | OMod => AMod end.
Definition add_tree (a : tree) (x : expr) (t : tree) : tree :=
  match x with
  | ENum v => if (v <? 0)%Z then TArith ASub a (TNum (- v)) else TArith AAdd a (TNum v)
  | EName n true => TArith ASub a (TName n)
  | _ => TArith AAdd a t
  end.
Fixpoint tree_of (e : expr) : tree :=
  match e with
  | ETrue => TBool true
  | EFalse => TBool false
  | ENum v => num_tree v
  | EName n neg => name_tree n neg
  | ENot x => TNot (tree_of x)
  | EAss OAdd [] => TNum 0
  | EAss OMul [] => TNum 1
  | EAss _ [] => TBool true
  | EAss OAdd (t :: ts) => fold_left (fun a x => add_tree a x (tree_of x)) ts (tree_of t)
  | EAss OMul (t :: ts) => fold_left (fun a x => TArith AMul a (tree_of x)) ts (tree_of t)
  | EAss o (t :: ts) => fold_left (fun a x => TLog (log_of o) a (tree_of x)) ts (tree_of t)
  | EBin o l r => TArith (arith_of o) (tree_of l) (tree_of r)
  | ERel o l r => TRel o (tree_of l) (tree_of r)
  end.

(** the first term of a sum is not printed in parentheses, so that it must not be a
    relation or a logical expression *)
Fixpoint sums (e : expr) : bool :=
  match e with
  | ETrue | EFalse | ENum _ | EName _ _ => true
  | ENot x => sums x
  | EAss OAdd ts => match ts with [] => true | t :: _ => Nat.leb 3 (precedence t) end && forallb sums ts
  | EAss _ ts => forallb sums ts
  | EBin _ l r | ERel _ l r => sums l && sums r
  end.

Definition rlevel (e : expr) : nat :=
  match precedence e with 7 => 0 | 6 => 1 | 5 => 2 | 3 => 3 | 2 => 4 | _ => 5 end.
Lemma rlevel_le e : rlevel e <= 5.
Proof. unfold rlevel. destruct (precedence e) as [|[|[|[|[|[|[|[|?]]]]]]]]; lia. Qed.
(** the level at which operands are read *)
Definition olevel (p : nat) : nat := match p with 1 => 4 | 2 => 3 | 3 => 2 | 5 => 1 | 6 => 0 | _ => 5 end.

Lemma R0_num v r : (0 <= v)%Z -> R 0 (decimal v :: r) (TNum v, r).
Proof.
  intros H. exists 1. cbn [rd]. destruct (decimal_word v) as [_ D].
  destruct (String.eqb_spec (decimal v) "(") as [E|]; [rewrite E in D; discriminate|]. rewrite D, (numeral_decimal v H). reflexivity.
Qed.
Lemma R0_name n r : lexical n = true -> stops 0 r -> R 0 (name_rep n ++ r) (TName n, r).
Proof.
  intros H S. exists 1.
  assert (X : forall id rest, identifier id = true ->
      rd 1 0 (id :: rest) = match name_at id rest with Some (t, r') => Some (literal t, r') | None => None end
      /\ reserved id = false /\ literal (TName (NVar id)) = TName (NVar id)).
  { clear. intros id rest. unfold identifier. rewrite !andb_true_iff, !negb_true_iff. intros ((((A & B) & C) & D) & E).
    cbn [literal rd]. rewrite C, D, E. repeat split.
    destruct (String.eqb_spec id "(") as [->|]; [discriminate|]. rewrite A.
    replace (starts is_digit id) with false; [reflexivity|]. destruct id as [|c ?]; [reflexivity|]. cbn [starts] in *.
    unfold is_letter, is_digit in *. destruct (_ || _) eqn:O in A; [|discriminate]. symmetry. apply andb_false_iff.
    apply orb_true_iff in O as [O|O]; apply andb_true_iff in O as [O1 O2]; apply Nat.leb_le in O1; right; apply Nat.leb_gt; lia. }
  destruct n as [id|a id]; cbn [name_rep app]; unfold lexical, name_id in H.
  - destruct (X id r H) as (E & F & G). rewrite E. unfold name_at. rewrite F.
    destruct r as [|q [|a r]]; [now rewrite G..|]. rewrite (stops_0 _ _ S). now rewrite G.
  - destruct (X id ("'" :: attr_str a :: r) H) as (E & F & G). rewrite E. unfold name_at. rewrite F.
    change (String.eqb "'" "'") with true. cbv iota. now destruct a.
Qed.

Lemma R0_bool (b : bool) r : stops 0 r -> R 0 ((if b then "True" else "False") :: r) (TBool b, r).
Proof.
  intros S. exists 1. assert (X : forall w, name_at w r = if reserved w then None else Some (TName (NVar w), r)).
  { intros w. unfold name_at. destruct r as [|q [|a r]]; [reflexivity..|]. now rewrite (stops_0 _ _ S). }
  destruct b; cbn [rd]; rewrite X; reflexivity.
Qed.

Lemma stops_close k r : k <= 5 -> stops k (")" :: r).
Proof. intros H. change (k < 6). lia. Qed.

Lemma R_wrap e :
  (forall rest, stops (rlevel e) rest -> R (rlevel e) (tk e ++ rest) (tree_of e, rest)) ->
  forall p k, k <= 5 -> (p < precedence e -> rlevel e <= k) ->
  forall rest, stops k rest -> R k (wrap p e (tk e) ++ rest) (tree_of e, rest).
Proof.
  intros H p k K C rest S. unfold wrap. destruct (Nat.leb_spec (precedence e) p) as [|Hp].
  - apply (R_lift 0); [lia|exact K| |exact S]. cbn [app]. apply R0_paren. rewrite <- app_assoc. cbn [app].
    apply (R_lift (rlevel e)); [apply rlevel_le|lia| |apply stops_close; lia]. apply H. apply stops_close, rlevel_le.
  - specialize (C Hp). apply (R_lift (rlevel e)); [exact C|exact K| |exact S]. apply H. now apply (stops_le _ k).
Qed.

Definition parses (e : expr) : Prop :=
  (forall rest, stops (rlevel e) rest -> R (rlevel e) (tk e ++ rest) (tree_of e, rest))
  /\ (3 <= precedence e -> forall rest x, stops 2 rest -> L 3 None (tree_of e) rest x -> R 3 (tk e ++ rest) x).

Lemma prec_cases e : precedence e = 7 \/ precedence e = 6 \/ precedence e = 5 \/ precedence e = 3 \/ precedence e = 2 \/ precedence e = 1.
Proof. destruct e as [| | | | |[]| []|]; cbn; auto 10. Qed.
Lemma olevel_ok e p k : olevel p = k -> p < precedence e -> p = 1 \/ p = 2 \/ p = 3 \/ p = 5 \/ p = 6 -> rlevel e <= k.
Proof.
  intros <- H [-> | [-> | [-> | [-> | ->]]]]; unfold rlevel, olevel;
    destruct (prec_cases e) as [E|[E|[E|[E|[E|E]]]]]; rewrite E in *; lia.
Qed.

Lemma parses_low e : rlevel e <= 2 ->
  (forall rest, stops (rlevel e) rest -> R (rlevel e) (tk e ++ rest) (tree_of e, rest)) -> parses e.
Proof.
  intros K H. split; [exact H|]. intros _ rest x S HL. eapply R3_loop; [|exact HL].
  apply (R_lift (rlevel e)); [exact K|lia| |exact S]. apply H. now apply (stops_le _ 2).
Qed.
Lemma parses_3 e : precedence e = 3 ->
  (forall rest x, stops 2 rest -> L 3 None (tree_of e) rest x -> R 3 (tk e ++ rest) x) -> parses e.
Proof.
  intros E H. split; [|intros _; exact H]. unfold rlevel. rewrite E. intros rest S. apply H; [now apply (stops_le _ 3); [lia|]|].
  apply L_stop; auto.
Qed.
Lemma parses_high e : precedence e < 3 ->
  (forall rest, stops (rlevel e) rest -> R (rlevel e) (tk e ++ rest) (tree_of e, rest)) -> parses e.
Proof. intros K H. split; [exact H|lia]. Qed.

Lemma operand e p : parses e -> p = 1 \/ p = 2 \/ p = 3 \/ p = 5 \/ p = 6 ->
  forall rest, stops (olevel p) rest -> R (olevel p) (wrap p e (tk e) ++ rest) (tree_of e, rest).
Proof.
  intros [H _] P. apply (R_wrap _ H); [destruct P as [-> | [-> | [-> | [-> | ->]]]]; cbn; lia|].
  intros Q. now apply (olevel_ok e p).
Qed.

Lemma literal_number v rest : stops 0 rest -> R 0 (number_tokens v ++ rest) (num_tree v, rest).
Proof.
  intros S. unfold number_tokens, num_tree. destruct (Z.ltb_spec v 0); cbn [app]; [|now apply R0_num].
  apply R0_paren. apply (R_lift 3); [lia..| |apply stops_close; lia]. eapply R3_neg; [|apply L_stop; [auto|apply stops_close; lia]].
  apply (R_lift 0); [lia..| |apply stops_close; lia]. apply R0_num. lia.
Qed.
Lemma literal_name n s rest : lexical n = true -> stops 0 rest -> R 0 (name_tokens n s ++ rest) (name_tree n s, rest).
Proof.
  intros Hn S. unfold name_tokens, name_tree. destruct s; cbn [app]; [|now apply R0_name].
  apply R0_paren. apply (R_lift 3); [lia..| |apply stops_close; lia]. eapply R3_neg; [|apply L_stop; [auto|apply stops_close; lia]].
  apply (R_lift 0); [lia..| |apply stops_close; lia]. rewrite <- app_assoc. apply R0_name; [exact Hn|apply stops_close; lia].
Qed.

Lemma log_token o r w : boolean_op o = true -> start0 w || String.eqb w "not" || String.eqb w "-" = true ->
  log_op_at (op_tokens o ++ w :: r) = Some (log_of o, w :: r).
Proof.
  intros B S. assert (String.eqb w "then" = false /\ String.eqb w "else" = false) as [A C].
  { split; [destruct (String.eqb_spec w "then") as [->|]|destruct (String.eqb_spec w "else") as [->|]]; auto; discriminate. }
  destruct o; cbn [op_tokens app log_op_at]; try discriminate; try reflexivity.
  - change (String.eqb "and" "and") with true. cbv iota. now rewrite A.
  - change (String.eqb "or" "and") with false. change (String.eqb "or" "or") with true. cbv iota. now rewrite C.
Qed.

Lemma R4_start ts x : R 4 ts x -> exists w r, ts = w :: r /\ start0 w || String.eqb w "not" || String.eqb w "-" = true.
Proof.
  intros [n H]. destruct ts as [|w r].
  - destruct n as [|[|n]]; discriminate.
  - exists w, r. split; [reflexivity|]. exact (start_4 _ _ _ _ H).
Qed.

Lemma bool_tail o ts rest : boolean_op o = true -> Forall (fun x => parses x /\ names_ok lexical x = true) ts -> stops 5 rest ->
  forall t0, let l := flat_map (fun x => op_tokens o ++ wrap 1 x (tk x)) ts ++ rest in
  stops 4 l /\ L 5 (Some (log_of o)) t0 l (fold_left (fun a x => TLog (log_of o) a (tree_of x)) ts t0, rest)
  /\ (ts = [] \/ exists r, log_op_at l = Some (log_of o, r)).
Proof.
  intros B Ps K. induction Ps as [|y ts [Py Ny] _ IHs]; intros t0.
  - cbn. repeat split; [apply (stops_le _ 5); [lia|exact K]|now apply L5_stop|now left].
  - cbn [flat_map fold_left]. rewrite <- !app_assoc.
    destruct (IHs (TLog (log_of o) t0 (tree_of y))) as (K' & G & _).
    pose proof (operand y 1 Py ltac:(auto) _ K') as Y.
    destruct (R4_start _ _ Y) as (w & r & E & W). cbv zeta in *. rewrite E in *. pose proof (log_token o r w B W) as T. repeat split.
    + destruct o; try discriminate; cbn; lia.
    + eapply L5_step; [exact T|exact Y|exact G].
    + right. eauto.
Qed.

Theorem parses_all e : names_ok lexical e = true -> sums e = true -> parses e.
Proof.
  induction e as [| |v|n s|x IH|o ts IH|o l r IHl IHr|o l r IHl IHr] using expr_ind'; cbn [names_ok sums]; intros N S.
  - apply parses_low; [cbn; lia|]. intros rest K. now apply (R0_bool true).
  - apply parses_low; [cbn; lia|]. intros rest K. now apply (R0_bool false).
  - apply parses_low; [cbn; lia|]. intros rest K. now apply literal_number.
  - apply parses_low; [cbn; lia|]. intros rest K. now apply literal_name.
  - apply parses_low; [cbn; lia|]. intros rest K. apply R1_not.
    apply (operand x 6 (IH N S)); [auto 10|]. now apply (stops_le _ 1); [cbn; lia|].
  - destruct ts as [|t ts].
    { destruct o; [apply parses_high; [cbn; lia|]..|apply parses_3; [reflexivity|]|apply parses_low; [cbn; lia|]].
      1-4: intros rest K; apply (R_lift 0); [lia|cbn; lia| |exact K]; apply (R0_bool true); now apply (stops_le _ 5); [lia|].
      - intros rest x K HL. eapply R3_loop; [|exact HL]. apply (R_lift 0); [lia..| |exact K]. apply (R0_num 0); lia.
      - intros rest K. apply (R_lift 0); [lia|cbn; lia| |exact K]. apply (R0_num 1); lia. }
    assert (All : parses t /\ Forall (fun x => parses x /\ names_ok lexical x = true) ts).
    { assert (F : forallb sums (t :: ts) = true).
      { destruct o; try exact S. cbn [forallb]. now apply andb_true_iff in S as [_ S]. }
      clear S. cbn [forallb] in N, F. apply andb_true_iff in N as [N1 N2]. apply andb_true_iff in F as [F1 F2].
      inversion IH as [|? ? I1 I2]; subst. split; [auto|]. clear - I2 N2 F2.
      induction I2; constructor; cbn in N2, F2; apply andb_true_iff in N2 as [? ?]; apply andb_true_iff in F2 as [? ?]; auto. }
    destruct All as [Pt Ps]. clear IH N.
    destruct o.
    5: { (* sums *)
      apply parses_3; [reflexivity|]. cbn [sums] in S. apply andb_true_iff in S as [S _]. apply Nat.leb_le in S.
      assert (G : forall t0 rest, stops 2 rest -> stops 2 (flat_map (fun x => add_term x (tk x)) ts ++ rest)
                  /\ forall x, L 3 None (fold_left (fun a x => add_tree a x (tree_of x)) ts t0) rest x ->
                  L 3 None t0 (flat_map (fun x => add_term x (tk x)) ts ++ rest) x).
      { clear - Ps. induction Ps as [|y ts [Py Ny] _ IHs]; intros t0 rest K; [auto|].
        assert (M : forall w, w = "+" \/ w = "-" -> forall r, stops 2 (w :: r)) by (intros w [-> | ->] r; cbn; lia).
        cbn [flat_map]. rewrite <- app_assoc. split.
        { destruct y as [| |v|m [|]| | | |]; cbn [add_term app]; try (apply M; auto; fail). destruct (v <? 0)%Z; apply M; auto. }
        intros x HL. cbn [fold_left] in HL.
        destruct (IHs (add_tree t0 y (tree_of y)) rest K) as [K' G]. specialize (G x HL). clear IHs HL.
        assert (D : add_term y (tk y) = "+" :: wrap 3 y (tk y) -> add_tree t0 y (tree_of y) = TArith AAdd t0 (tree_of y) ->
          L 3 None t0 (add_term y (tk y) ++ flat_map (fun x => add_term x (tk x)) ts ++ rest) x).
        { intros E1 E2. rewrite E1. rewrite E2 in G. cbn [app]. eapply L3_step; [reflexivity| |exact G].
          apply (operand y 3 Py); [auto 10|exact K']. }
        destruct y as [| |v|m [|]| | | |]; try (apply D; reflexivity).
        - cbn [add_term add_tree] in *. destruct (Z.ltb_spec v 0); cbn [app].
          + eapply L3_step; [reflexivity| |exact G]. apply (R_lift 0); [lia..| |exact K']. apply R0_num. lia.
          + eapply L3_step; [reflexivity| |exact G]. apply (R_lift 0); [lia..| |exact K']. apply R0_num. lia.
        - cbn [add_term add_tree app] in *. eapply L3_step; [reflexivity| |exact G].
          apply (R_lift 0); [lia..| |exact K']. apply R0_name; [exact Ny|now apply (stops_le _ 2); [lia|]]. }
      intros rest x K HL. cbn [tk tree_of] in *. rewrite <- app_assoc. destruct (G (tree_of t) rest K) as [K' G'].
      destruct Pt as [_ Pt]. apply Pt; auto. }
    5: { (* products *)
      apply parses_low; [cbn; lia|]. clear S.
      assert (G : forall t0 rest, stops 2 rest -> stops 1 (flat_map (fun x => op_tokens OMul ++ wrap 5 x (tk x)) ts ++ rest)
                  /\ L 2 None t0 (flat_map (fun x => op_tokens OMul ++ wrap 5 x (tk x)) ts ++ rest)
                     (fold_left (fun a x => TArith AMul a (tree_of x)) ts t0, rest)).
      { clear - Ps. induction Ps as [|y ts [Py Ny] _ IHs]; intros t0 rest K.
        { split; [now apply (stops_le _ 2); [lia|]|]. cbn [flat_map app fold_left]. apply L_stop; auto. }
        cbn [flat_map fold_left op_tokens app]. split; [cbn; lia|]. rewrite <- app_assoc.
        destruct (IHs (TArith AMul t0 (tree_of y)) rest K) as [K' G].
        eapply L2_step; [reflexivity| |exact G]. apply (operand y 5 Py); [auto 10|exact K']. }
      intros rest K. cbn [tk tree_of precedence rlevel] in *. rewrite <- app_assoc. destruct (G (tree_of t) rest K) as [K' G'].
      eapply R2_loop; [|exact G']. apply (operand t 5 Pt); [auto 10|exact K']. }
    all: apply parses_high; [cbn; lia|]; intros rest K;
      match goal with |- R (rlevel (EAss ?op _)) _ _ => pose proof (bool_tail op ts rest eq_refl Ps K (tree_of t)) as (K' & G & Z) end;
      cbn [tk tree_of precedence rlevel] in *; rewrite <- app_assoc;
      pose proof (operand t 1 Pt ltac:(auto) _ K') as Y;
      (destruct Z as [-> | [r Z]]; [apply R5_simple; [exact Y|exact K]|eapply R5_loop; [exact Y|exact Z|exact G]]).
  - apply andb_true_iff in N as [Nl Nr]. apply andb_true_iff in S as [Sl Sr]. specialize (IHl Nl Sl). specialize (IHr Nr Sr).
    assert (A : forall rest, tk (EBin o l r) ++ rest = wrap (precedence (EBin o l r)) l (tk l) ++ bin_token o :: wrap (precedence (EBin o l r)) r (tk r) ++ rest).
    { intros rest. cbn [tk]. now rewrite <- app_assoc. }
    destruct o.
    + apply parses_3; [reflexivity|]. intros rest x K HL. rewrite A. eapply R3_loop.
      * apply (operand l 3 IHl); [auto 10|cbn; lia].
      * eapply L3_step; [reflexivity|apply (operand r 3 IHr); [auto 10|exact K]|exact HL].
    + apply parses_low; [cbn; lia|]. intros rest K. rewrite A. eapply R2_loop.
      * apply (operand l 5 IHl); [auto 10|cbn; lia].
      * eapply L2_step; [reflexivity|apply (operand r 5 IHr); [auto 10|]|apply L_stop; auto].
        apply (stops_le _ 2); [cbn; lia|exact K].
    + apply parses_low; [cbn; lia|]. intros rest K. rewrite A. eapply R1_pow.
      * apply (operand l 6 IHl); [auto 10|cbn; lia].
      * apply (operand r 6 IHr); [auto 10|]. apply (stops_le _ 1); [cbn; lia|exact K].
    + apply parses_low; [cbn; lia|]. intros rest K. rewrite A. eapply R2_loop.
      * apply (operand l 5 IHl); [auto 10|cbn; lia].
      * eapply L2_step; [reflexivity|apply (operand r 5 IHr); [auto 10|]|apply L_stop; auto].
        apply (stops_le _ 2); [cbn; lia|exact K].
  - apply andb_true_iff in N as [Nl Nr]. apply andb_true_iff in S as [Sl Sr]. specialize (IHl Nl Sl). specialize (IHr Nr Sr).
    apply parses_high; [cbn; lia|]. intros rest K. cbn [tk tree_of precedence]. rewrite <- app_assoc. cbn [app]. eapply R4_rel.
    + apply (operand l 2 IHl); [auto 10|]. destruct o; cbn; lia.
    + now destruct o.
    + apply (operand r 2 IHr); [auto 10|]. apply (stops_le _ 4); [cbn; lia|exact K].
Qed.

(** what is read *)
Theorem reads_tree e t : names_ok lexical e = true -> sums e = true -> (reads (str e) t <-> t = tree_of e).
Proof.
  intros N S. assert (H : R 5 (tk e) (tree_of e, [])).
  { rewrite <- (app_nil_r (tk e)). apply (R_lift (rlevel e)); [apply rlevel_le|lia| |exact Logic.I]. now apply parses_all. }
  assert (X : lex "" (str e) = tk e).
  { pose proof (lexes_str e N "" Logic.I) as X. rewrite app_nil_s in X. rewrite X. apply app_nil_r. }
  unfold reads. rewrite X. split.
  - intros K. pose proof (R_fun _ _ _ _ H K) as E. congruence.
  - intros ->. exact H.
Qed.

(** ** Values *)

Local Open Scope Z_scope.

(** all disjunctions have terms *)
Fixpoint full (e : expr) : bool :=
  match e with
  | ETrue | EFalse | ENum _ | EName _ _ => true
  | ENot x => full x
  | EAss o ts => (match o, ts with (OOr | OOrElse), [] => false | _, _ => true end) && forallb full ts
  | EBin _ l r | ERel _ l r => full l && full r
  end.
(** no associative expression has exactly one term *)
Fixpoint plural (e : expr) : bool :=
  match e with
  | ETrue | EFalse | ENum _ | EName _ _ => true
  | ENot x => plural x
  | EAss o ts => (match ts with [_] => false | _ => true end) && forallb plural ts
  | EBin _ l r | ERel _ l r => plural l && plural r
  end.

Definition ev (sc : bool) (g : env) (e : expr) : option val := if sc then eval_sc g e else eval g e.

Section Values.
Variable exact : bool.
Definition Q (a b : option val) : Prop := b = a \/ (exact = false /\ a = None).

Lemma Q_refl a : Q a a.
Proof. now left. Qed.
Lemma Q_arith o a b c d : Q a b -> Q c d -> Q (arith_val o a c) (arith_val o b d).
Proof.
  intros [-> | [E ->]] [-> | [F ->]]; [now left|right|right|right]; split; auto; destruct a as [[]|]; reflexivity.
Qed.
Lemma Q_rel o a b c d : Q a b -> Q c d -> Q (rel_val o a c) (rel_val o b d).
Proof.
  intros [-> | [E ->]] [-> | [F ->]]; [now left|right|right|right]; split; auto; destruct a as [[]|]; reflexivity.
Qed.
Lemma Q_not a b : Q a b -> Q (not_val a) (not_val b).
Proof. intros [-> | [E ->]]; [now left|right; auto]. Qed.
Lemma Q_log sc o a b c d : Q a b -> Q c d -> Q (log_val sc o a c) (log_val sc o b d).
Proof.
  intros [-> | [E ->]] [-> | [F ->]]; [now left| |right; auto|right; auto].
  destruct a as [[z|x]|]; [now left| |now left]. destruct o, x, sc; cbn; unfold Q; auto.
Qed.
Lemma Q_fold (f : option val -> option val -> option val) (S : forall a b c d, Q a b -> Q c d -> Q (f a c) (f b d)) :
  forall vs ws, Forall2 Q vs ws -> forall v w, Q v w -> Q (fold_left f vs v) (fold_left f ws w).
Proof. intros vs ws H. induction H; intros v w K; cbn; auto. Qed.
End Values.

Lemma ints_cons v vs : ints (v :: vs) = match v, ints vs with Some (VInt z), Some zs => Some (z :: zs) | _, _ => None end.
Proof. destruct v as [[]|]; reflexivity. Qed.
Lemma bools_cons v vs : bools (v :: vs) = match v, bools vs with Some (VBool z), Some zs => Some (z :: zs) | _, _ => None end.
Proof. destruct v as [[]|]; reflexivity. Qed.

Lemma arith_none o vs : fold_left (arith_val o) vs None = None.
Proof. induction vs; cbn; auto. Qed.
Lemma log_none sc o vs : fold_left (log_val sc o) vs None = None.
Proof. induction vs; cbn; auto. Qed.
Lemma fold_add vs : forall z, fold_left (arith_val AAdd) vs (Some (VInt z)) =
  match ints vs with Some zs => Some (VInt (z + sumZ zs)) | None => None end.
Proof.
  induction vs as [|v vs IH]; intros z; [cbn; now rewrite Z.add_0_r|]. cbn [fold_left]. rewrite ints_cons.
  destruct v as [[y|]|]; cbn [arith_val]; [|apply arith_none..]. rewrite IH. destruct (ints vs); [|reflexivity].
  cbn [sumZ fold_right]. now rewrite Z.add_assoc.
Qed.
Lemma fold_mul vs : forall z, fold_left (arith_val AMul) vs (Some (VInt z)) =
  match ints vs with Some zs => Some (VInt (z * prodZ zs)) | None => None end.
Proof.
  induction vs as [|v vs IH]; intros z; [cbn; now rewrite Z.mul_1_r|]. cbn [fold_left]. rewrite ints_cons.
  destruct v as [[y|]|]; cbn [arith_val]; [|apply arith_none..]. rewrite IH. destruct (ints vs); [|reflexivity].
  cbn [prodZ fold_right]. now rewrite Z.mul_assoc.
Qed.
Definition strict (sc : bool) (o : log_op) : bool := match o with LAnd | LOr => true | _ => negb sc end.
Lemma fold_log sc o vs : strict sc o = true -> forall b, fold_left (log_val sc o) vs (Some (VBool b)) =
  match bools vs with
  | Some bs => Some (VBool match o with LAnd | LAndThen => b && allb bs | _ => b || anyb bs end)
  | None => None
  end.
Proof.
  intros S. induction vs as [|v vs IH]; intros b.
  { cbn. destruct o; cbn; now rewrite ?andb_true_r, ?orb_false_r. }
  cbn [fold_left]. rewrite bools_cons.
  assert (E : log_val sc o (Some (VBool b)) v = match v with Some (VBool y) => Some (VBool match o with LAnd | LAndThen => b && y | _ => b || y end) | _ => None end).
  { destruct o, sc, b; try discriminate S; reflexivity. }
  rewrite E. destruct v as [[|y]|]; [apply log_none| |apply log_none]. rewrite IH. destruct (bools vs); [|reflexivity].
  destruct o; cbn [allb anyb forallb existsb]; now rewrite ?andb_assoc, ?orb_assoc.
Qed.
Lemma fold_and_then vs : forall b, fold_left (log_val true LAndThen) vs (Some (VBool b)) =
  if b then sc_val false vs else Some (VBool false).
Proof.
  induction vs as [|v vs IH]; intros [|]; try reflexivity; cbn [fold_left].
  - destruct v as [[|[|]]|]; cbn [log_val sc_val Bool.eqb]; [apply log_none|now rewrite IH..|apply log_none].
  - cbn [log_val]. now rewrite IH.
Qed.
Lemma fold_or_else vs : forall b, fold_left (log_val true LOrElse) vs (Some (VBool b)) =
  if b then Some (VBool true) else sc_val true vs.
Proof.
  induction vs as [|v vs IH]; intros [|]; try reflexivity; cbn [fold_left].
  - cbn [log_val]. now rewrite IH.
  - destruct v as [[|[|]]|]; cbn [log_val sc_val Bool.eqb]; [apply log_none|now rewrite IH..|apply log_none].
Qed.

(** the value of an associative expression *)
Definition ev_ass (sc : bool) (o : assop) (vs : list (option val)) : option val :=
  match sc, o with
  | true, OAndThen => sc_val false vs
  | true, OOrElse => sc_val true vs
  | _, _ => ass_val o vs
  end.
Definition vop (sc : bool) (o : assop) : option val -> option val -> option val :=
  match o with OAdd => arith_val AAdd | OMul => arith_val AMul | _ => log_val sc (log_of o) end.
Lemma ass_fold sc o v vs : vs <> [] -> ev_ass sc o (v :: vs) = fold_left (vop sc o) vs v.
Proof.
  intros N. destruct vs as [|w vs]; [tauto|].
  assert (Bad : forall o', match v with Some (VBool _) => False | _ => True end -> fold_left (log_val sc o') (w :: vs) v = None).
  { intros o' B. cbn [fold_left]. replace (log_val sc o' v w) with (@None val) by (now destruct v as [[]|]). apply log_none. }
  assert (Bad' : forall o', match v with Some (VInt _) => False | _ => True end -> fold_left (arith_val o') (w :: vs) v = None).
  { intros o' B. cbn [fold_left]. replace (arith_val o' v w) with (@None val) by (now destruct v as [[]|]). apply arith_none. }
  assert (Good : forall o', strict sc o' = true -> fold_left (log_val sc o') (w :: vs) v =
     match bools (v :: w :: vs) with Some bs => Some (VBool match o' with LAnd | LAndThen => allb bs | _ => anyb bs end) | None => None end).
  { intros o' S. destruct v as [[z|b]|]; [now apply Bad| |now apply Bad]. rewrite fold_log by exact S. rewrite (bools_cons _ (w :: vs)).
    now destruct (bools (w :: vs)), o'. }
  destruct sc, o; unfold ev_ass, vop, log_of; try (rewrite Good by reflexivity; reflexivity).
  all: try (unfold ass_val; rewrite ints_cons; destruct v as [[z|b]|]; [rewrite ?fold_add, ?fold_mul; now destruct (ints (w :: vs))|now rewrite Bad'..]).
  - destruct v as [[z|[|]]|]; [now rewrite Bad|rewrite fold_and_then; reflexivity..|now rewrite Bad].
  - destruct v as [[z|[|]]|]; [now rewrite Bad|rewrite fold_or_else; reflexivity..|now rewrite Bad].
Qed.
Lemma ass_single sc o v : ev_ass sc o [v] = v \/ ev_ass sc o [v] = None.
Proof.
  destruct sc, o, v as [[z|[|]]|]; cbn; auto; left; repeat f_equal; ring.
Qed.

Lemma ev_EAss sc g o ts : ev sc g (EAss o ts) = ev_ass sc o (map (ev sc g) ts).
Proof. destruct sc, o; reflexivity. Qed.

Lemma add_tree_val sc g a x : teval sc g (add_tree a x (tree_of x)) = arith_val AAdd (teval sc g a) (teval sc g (tree_of x)).
Proof.
  destruct x as [| |v|n [|]| | | |]; try reflexivity; cbn [add_tree tree_of].
  - unfold num_tree. destruct (Z.ltb_spec v 0); cbn [teval]; [|reflexivity]. destruct (teval sc g a) as [[]|]; cbn [arith_val]; [|reflexivity..].
    apply f_equal, f_equal. lia.
  - cbn [teval name_tree]. destruct (teval sc g a) as [[]|], (g n) as [|]; cbn [arith_val]; try reflexivity; apply f_equal, f_equal; lia.
Qed.

Theorem tree_value exact sc g e : full e = true -> (exact = true -> plural e = true) -> Q exact (ev sc g e) (teval sc g (tree_of e)).
Proof.
  induction e as [| |v|n s|x IH|o ts IH|o l r IHl IHr|o l r IHl IHr] using expr_ind'; cbn [full plural]; intros F P.
  - left. now destruct sc.
  - left. now destruct sc.
  - left. cbn [tree_of]. unfold num_tree. destruct (v <? 0); destruct sc; cbn; rewrite ?Z.opp_involutive; reflexivity.
  - left. cbn [tree_of]. unfold name_tree. destruct s, sc; cbn; destruct (g n); reflexivity.
  - specialize (IH F P). destruct sc; exact (Q_not exact _ _ IH).
  - rewrite ev_EAss. apply andb_true_iff in F as [F0 F].
    assert (All : Forall (fun x => Q exact (ev sc g x) (teval sc g (tree_of x))) ts).
    { assert (P' : exact = true -> forallb plural ts = true) by (intros K; specialize (P K); now apply andb_true_iff in P).
      clear - IH F P'. induction IH as [|x l Hx _ IHl]; [constructor|]. cbn in F. apply andb_true_iff in F as [F1 F2].
      constructor.
      - apply Hx; [exact F1|]. intros K. specialize (P' K). now apply andb_true_iff in P'.
      - apply IHl; [exact F2|]. intros K. specialize (P' K). now apply andb_true_iff in P'. }
    destruct ts as [|t ts]; [destruct o; try discriminate F0; destruct sc; left; reflexivity|].
    inversion All as [|? ? Qt Qs]; subst.
    assert (T : teval sc g (tree_of (EAss o (t :: ts))) = fold_left (vop sc o) (map (fun x => teval sc g (tree_of x)) ts) (teval sc g (tree_of t))).
    { clear. cbn [tree_of]. destruct o; generalize (tree_of t); induction ts as [|x ts IH]; intros t0; try reflexivity;
        cbn [fold_left map]; rewrite IH; try reflexivity. f_equal. apply add_tree_val. }
    rewrite T. destruct ts as [|x ts].
    { cbn [map fold_left]. destruct exact eqn:X; [specialize (P eq_refl); discriminate P|].
      destruct (ass_single sc o (ev sc g t)) as [-> | ->]; [exact Qt|right; auto]. }
    cbn [map]. rewrite ass_fold by discriminate.
    apply Q_fold; [|change (Forall2 (Q exact) (map (ev sc g) (x :: ts)) (map (fun x => teval sc g (tree_of x)) (x :: ts)))|exact Qt].
    + destruct o; cbn [vop]; intros; (now apply Q_arith) || (now apply Q_log).
    + clear - Qs. induction Qs; constructor; auto.
  - apply andb_true_iff in F as [Fl Fr].
    assert (Ql := IHl Fl (fun K => proj1 (proj1 (andb_true_iff _ _) (P K)))).
    assert (Qr := IHr Fr (fun K => proj2 (proj1 (andb_true_iff _ _) (P K)))).
    assert (E : ev sc g (EBin o l r) = arith_val (arith_of o) (ev sc g l) (ev sc g r)) by (destruct sc, o; reflexivity).
    rewrite E. now apply Q_arith.
  - apply andb_true_iff in F as [Fl Fr].
    assert (Ql := IHl Fl (fun K => proj1 (proj1 (andb_true_iff _ _) (P K)))).
    assert (Qr := IHr Fr (fun K => proj2 (proj1 (andb_true_iff _ _) (P K)))).
    destruct sc; now apply Q_rel.
Qed.
