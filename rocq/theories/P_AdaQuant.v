(** Property C73: the text of quantified expressions. *)
From Coq Require Import String Ascii List ZArith Bool Lia.
From Verif Require Import Base Ident Expr ExprEval ExprTotal ExprMore ExprFacts ExprPrint ExprRead ExprReadFacts ExprReadTree ExprAda AdaStmt AdaStmtSpec AdaStmtFacts AdaStmtRead AdaStmtMean P_AdaStmt AdaCond AdaCondSpec AdaCondFacts AdaCondMean P_AdaCond AdaQuant AdaQuantSpec AdaQuantFacts.
Import ListNotations.
Local Open Scope string_scope.
Local Open Scope list_scope.
Local Open Scope nat_scope.

(** the conditional expression inside; the expressions inside *)
Fixpoint innermost (q : qexpr) : cexpr := match q with QC c => c | QFor _ _ _ p => innermost p end.
Definition bounds (i : iterable) : list expr := match i with IRange a b => [a; b] | IExpr e => [e] end.
Fixpoint qinner (q : qexpr) : list expr := match q with QC c => inner c | QFor _ _ it p => bounds it ++ qinner p end.

Lemma expr_value exact sc g e : good e = true -> (exact = true -> plural e = true) -> Qo exact (ev sc g e) (teval sc g (tree_of e)).
Proof.
  intros G P. unfold good in G. rewrite !andb_true_iff in G. destruct (tree_value exact sc g e) as [T|T]; [apply solid_full, G|exact P|now left|now right].
Qed.
Lemma values_Q exact sc elements g of i : iwf i = true -> (exact = true -> forallb plural (bounds i) = true) ->
  Qo exact (values (ev sc) expr_variable elements g of (as_domain i)) (values (teval sc) tree_variable elements g of (dmap tree_of (as_domain i))).
Proof.
  destruct i as [a b|e]; cbn [iwf as_domain dmap values bounds forallb]; intros W P.
  - destruct of; [now left|]. apply andb_true_iff in W as [Wa Wb].
    destruct (expr_value exact sc g a Wa) as [Ha|[X Ha]].
    { intros X. specialize (P X). rewrite !andb_true_iff in P. apply P. }
    2: { right. rewrite Ha. auto. }
    destruct (expr_value exact sc g b Wb) as [Hb|[X Hb]].
    { intros X. specialize (P X). rewrite !andb_true_iff in P. apply P. }
    2: { right. rewrite Hb. split; [exact X|]. destruct (ev sc g a) as [[|]|]; reflexivity. }
    left. now rewrite Ha, Hb.
  - left. now rewrite expr_variable_tree.
Qed.
Lemma quant_value alike exact sc elements q : qwf q = true -> (sc = true -> cuniform (innermost q)) ->
  (exact = true -> forallb plural (qinner q) = true) -> forall g,
  Qo exact (qvalue (ev sc) expr_variable elements g (quant_of as_cond q))
    (qvalue (teval sc) tree_variable elements g (qmap tree_of (quant_of (cgrouped alike) q))).
Proof.
  induction q as [c|k id it p IH]; cbn [qwf quant_of qmap innermost qinner]; intros W U P g; [now apply cond_value|].
  rewrite !andb_true_iff in W. destruct W as [[Wi Wd] Wp].
  assert (P1 : exact = true -> forallb plural (bounds it) = true) by (intros X; specialize (P X); rewrite forallb_app, andb_true_iff in P; apply P).
  assert (P2 : exact = true -> forallb plural (qinner p) = true) by (intros X; specialize (P X); rewrite forallb_app, andb_true_iff in P; apply P).
  specialize (IH Wp U P2). cbn [qvalue]. destruct (values_Q exact sc elements g (is_of k) it Wd P1) as [H|[X H]]; rewrite H; [|now right].
  destruct (values (ev sc) expr_variable elements g (is_of k) (as_domain it)) as [l|]; [|now left]. clear H.
  induction l as [|w l IHl]; [now left|]. destruct (IH (bound g id w)) as [H|[X H]]; rewrite H; [|now right].
  destruct (qvalue (ev sc) expr_variable elements (bound g id w) (quant_of as_cond p)) as [[z|b]|]; [now left| |now left].
  destruct (Bool.eqb b (is_all k)); [exact IHl|now left].
Qed.
Lemma quant_reads alike q : qwf q = true -> exists txt, qexpr_str alike q = Ok txt /\ reads_quant txt (qmap tree_of (quant_of (cgrouped alike) q)).
Proof.
  intros W. destruct (qexpr_text alike q W) as (txt & T & X). exists txt. split; [exact T|].
  pose proof (X "" Logic.I) as Z. rewrite app_nil_s in Z. unfold reads_quant. rewrite Z.
  exact (read_quantified _ (quant_wf alike q W) [] Logic.I).
Qed.
Lemma quant_fun s a b : reads_quant s a -> reads_quant s b -> a = b.
Proof. intros [k H] [m G]. specialize (H (max k m) ltac:(lia)). specialize (G (max k m) ltac:(lia)). congruence. Qed.

(** The text of a quantified expression is an expression of Ada that can be read in one way only, and it has the
    value of the quantified expression, whatever arrays and subtypes are iterated over. *)
Theorem C73_text : forall alike q, qwf q = true ->
  exists txt t, qexpr_str alike q = Ok txt /\ (forall r, reads_quant txt r <-> r = t) /\
    forall sc elements g v, (sc = true -> cuniform (innermost q)) ->
      qvalue (ev sc) expr_variable elements g (quant_of as_cond q) = Some v -> qvalue (teval sc) tree_variable elements g t = Some v.
Proof.
  intros alike q W. destruct (quant_reads alike q W) as (txt & T & R). exists txt. eexists. split; [exact T|]. split.
  - intros r. split; [intros Q; exact (quant_fun _ _ _ Q R)|now intros ->].
  - intros sc elements g w U E. destruct (quant_value alike false sc elements q W U ltac:(discriminate) g) as [Q|[_ Q]]; [now rewrite Q|].
    rewrite Q in E. discriminate.
Qed.
Print Assumptions C73_text.

(** Without associative expressions of a single term the text also has no value exactly where the expression
    has none. *)
Theorem C73_exact : forall alike q txt t, qwf q = true -> forallb plural (qinner q) = true ->
  qexpr_str alike q = Ok txt -> reads_quant txt t ->
  forall sc elements g, (sc = true -> cuniform (innermost q)) ->
    qvalue (teval sc) tree_variable elements g t = qvalue (ev sc) expr_variable elements g (quant_of as_cond q).
Proof.
  intros alike q txt t W P T R sc elements g U. destruct (quant_reads alike q W) as (txt' & T' & R').
  rewrite T in T'. apply Ok_inj in T' as <-. rewrite (quant_fun _ _ _ R R').
  destruct (quant_value alike true sc elements q W U (fun _ => P) g) as [Q|[Q _]]; [exact Q|discriminate].
Qed.
Print Assumptions C73_exact.

Lemma integers_in a b z : In (VInt z) (integers a b) <-> (a <= z <= b)%Z.
Proof.
  unfold integers. rewrite in_map_iff. split.
  - intros (i & E & H). injection E as <-. apply in_seq in H. lia.
  - intros H. exists (Z.to_nat (z - a)). split; [f_equal; lia|]. apply in_seq. lia.
Qed.
Lemma integers_int a b v : In v (integers a b) -> exists z, v = VInt z.
Proof. unfold integers. rewrite in_map_iff. intros (i & <- & _). eauto. Qed.

(** What the text of a quantified expression over a range says: that of ForAllIn (id, ValueRange (a, b), p) is
    True if and only if p is True for all integers from a to b. *)
Theorem C73_for_all : forall alike id a b p txt t, qwf (QFor ForAllIn id (IRange a b) p) = true ->
  forallb plural (qinner (QFor ForAllIn id (IRange a b) p)) = true ->
  qexpr_str alike (QFor ForAllIn id (IRange a b) p) = Ok txt -> reads_quant txt t ->
  forall sc elements g x y, (sc = true -> cuniform (innermost p)) -> ev sc g a = Some (VInt x) -> ev sc g b = Some (VInt y) ->
    (qvalue (teval sc) tree_variable elements g t = Some (VBool true) <->
     forall z, (x <= z <= y)%Z -> qvalue (ev sc) expr_variable elements (bound g id (VInt z)) (quant_of as_cond p) = Some (VBool true)).
Proof.
  intros alike id a b p txt t W P T R sc elements g x y U Ha Hb.
  rewrite (C73_exact alike _ txt t W P T R sc elements g U). cbn [quant_of qvalue as_domain is_of is_all values]. rewrite Ha, Hb.
  transitivity (forall w, In w (integers x y) -> qvalue (ev sc) expr_variable elements (bound g id w) (quant_of as_cond p) = Some (VBool true)).
  2: { split.
    - intros H z Hz. apply H, integers_in, Hz.
    - intros H w Hw. destruct (integers_int _ _ _ Hw) as [z ->]. apply H. now apply integers_in in Hw. }
  induction (integers x y) as [|w l IH]; [split; [now intros _ w []|reflexivity]|].
  destruct (qvalue (ev sc) expr_variable elements (bound g id w) (quant_of as_cond p)) as [[z|[|]]|] eqn:E.
  - split; [discriminate|]. intros H. specialize (H w (or_introl eq_refl)). congruence.
  - cbn [Bool.eqb]. rewrite IH. split.
    + intros H w' [<-|Hw]; [exact E|auto].
    + intros H w' Hw. apply H. now right.
  - split; [discriminate|]. intros H. specialize (H w (or_introl eq_refl)). congruence.
  - split; [discriminate|]. intros H. specialize (H w (or_introl eq_refl)). congruence.
Qed.
Print Assumptions C73_for_all.

(** That of ForSomeIn (id, ValueRange (a, b), p) is True if and only if p is True for an integer from a to b and
    False for all smaller ones from a. *)
Theorem C73_for_some : forall alike id a b p txt t, qwf (QFor ForSomeIn id (IRange a b) p) = true ->
  forallb plural (qinner (QFor ForSomeIn id (IRange a b) p)) = true ->
  qexpr_str alike (QFor ForSomeIn id (IRange a b) p) = Ok txt -> reads_quant txt t ->
  forall sc elements g x y, (sc = true -> cuniform (innermost p)) -> ev sc g a = Some (VInt x) -> ev sc g b = Some (VInt y) ->
    (qvalue (teval sc) tree_variable elements g t = Some (VBool true) <->
     exists z, (x <= z <= y)%Z /\ qvalue (ev sc) expr_variable elements (bound g id (VInt z)) (quant_of as_cond p) = Some (VBool true) /\
       forall u, (x <= u < z)%Z -> qvalue (ev sc) expr_variable elements (bound g id (VInt u)) (quant_of as_cond p) = Some (VBool false)).
Proof.
  intros alike id a b p txt t W P T R sc elements g x y U Ha Hb.
  rewrite (C73_exact alike _ txt t W P T R sc elements g U). cbn [quant_of qvalue as_domain is_of is_all values]. rewrite Ha, Hb.
  set (h := fun w => qvalue (ev sc) expr_variable elements (bound g id w) (quant_of as_cond p)).
  set (go := fix go (l : list val) : option val :=
    match l with [] => Some (VBool false) | v :: r => match h v with Some (VBool b) => if Bool.eqb b false then go r else Some (VBool b) | _ => None end end).
  assert (G : forall n s, go (map (fun i => VInt (x + Z.of_nat i)) (List.seq s n)) = Some (VBool true) <->
    exists i, s <= i < s + n /\ h (VInt (x + Z.of_nat i)) = Some (VBool true) /\ forall j, s <= j < i -> h (VInt (x + Z.of_nat j)) = Some (VBool false)).
  { induction n as [|n IH]; intros s; cbn [List.seq map go].
    - split; [discriminate|]. intros (i & H & _). lia.
    - destruct (h (VInt (x + Z.of_nat s))) as [[z|[|]]|] eqn:E.
      + split; [discriminate|]. intros (i & H & H1 & H2). destruct (Nat.eq_dec i s) as [->|]; [congruence|]. specialize (H2 s ltac:(lia)). congruence.
      + split; [|reflexivity]. intros _. exists s. split; [lia|]. split; [exact E|]. intros j Hj. lia.
      + cbn [Bool.eqb]. fold go. rewrite IH. split.
        * intros (i & H & H1 & H2). exists i. split; [lia|]. split; [exact H1|]. intros j Hj. destruct (Nat.eq_dec j s) as [->|]; [exact E|]. apply H2. lia.
        * intros (i & H & H1 & H2). exists i. destruct (Nat.eq_dec i s) as [->|]; [congruence|]. split; [lia|]. split; [exact H1|]. intros j Hj. apply H2. lia.
      + split; [discriminate|]. intros (i & H & H1 & H2). destruct (Nat.eq_dec i s) as [->|]; [congruence|]. specialize (H2 s ltac:(lia)). congruence. }
  change (go (integers x y) = Some (VBool true) <-> exists z, (x <= z <= y)%Z /\ h (VInt z) = Some (VBool true) /\ forall u, (x <= u < z)%Z -> h (VInt u) = Some (VBool false)).
  unfold integers. rewrite G. split.
  - intros (i & H & H1 & H2). exists (x + Z.of_nat i)%Z. split; [lia|]. split; [exact H1|]. intros u Hu.
    replace u with (x + Z.of_nat (Z.to_nat (u - x)))%Z by lia. apply H2. lia.
  - intros (z & H & H1 & H2). exists (Z.to_nat (z - x)). split; [lia|]. split.
    + now replace (x + Z.of_nat (Z.to_nat (z - x)))%Z with z by lia.
    + intros j Hj. apply H2. lia.
Qed.
Print Assumptions C73_for_some.

(** ** A case *)

Definition C73_expr (k : qclass) : qexpr :=
  QFor k "F" (IRange (v "First") (EAss OAdd [v "First"; ENum 3]))
    (QFor ForAllOf "E" (IExpr (v "Buffer"))
      (QC (mk_if [(ERel OGt (v "F") (ENum 101), CE (ERel OLt (v "E") (v "f")))] None))).
Example C73_shown : qexpr_str (fun _ _ => true) (C73_expr ForAllIn) = Ok
"(for all F in First .. First + 3 =>
    (for all E of Buffer =>
        (if
            F > 101
         then
            E < f)))"
  /\ qwf (C73_expr ForAllIn) = true /\ qwf (C73_expr ForSomeIn) = true /\ cuniform (innermost (C73_expr ForAllIn))
  /\ forallb plural (qinner (C73_expr ForAllIn)) = true.
Proof. repeat split; try reflexivity. now left. Qed.
Definition C73_elements (l : list val) (of : bool) (n : name) (g : env) : option (list val) := if of then Some l else None.
Example C73_run :
  qvalue (ev true) expr_variable (C73_elements [VInt 5; VInt 101]) C70_env (quant_of as_cond (C73_expr ForAllIn)) = Some (VBool true) /\
  qvalue (ev true) expr_variable (C73_elements [VInt 5; VInt 102]) C70_env (quant_of as_cond (C73_expr ForAllIn)) = Some (VBool false) /\
  qvalue (ev true) expr_variable (C73_elements [VInt 5; VInt 102]) C70_env (quant_of as_cond (C73_expr ForSomeIn)) = Some (VBool true) /\
  ev true C70_env (v "First") = Some (VInt 100) /\ ev true C70_env (EAss OAdd [v "First"; ENum 3]) = Some (VInt 103).
Proof. repeat split; vm_compute; reflexivity. Qed.

(** ** What does not hold *)

(** Refuted: the text of ForAllOf over a range can be read, but a range has no elements, so there is no value. *)
Theorem C73_of_range_refuted : exists q txt t, qexpr_str (fun _ _ => true) q = Ok txt /\ reads_quant txt t /\
  q = QFor ForAllOf "F" (IRange (ENum 1) (ENum 2)) (QC (CE ETrue)) /\
  forall sc elements g, qvalue (teval sc) tree_variable elements g t = None.
Proof.
  set (q := QFor ForAllOf "F" (IRange (ENum 1) (ENum 2)) (QC (CE ETrue))).
  destruct (quant_reads (fun _ _ => true) q eq_refl) as (txt & T & R). exists q, txt. eexists. split; [exact T|]. split; [exact R|].
  split; reflexivity.
Qed.
Print Assumptions C73_of_range_refuted.
