(** Facts: Python's equality of expressions identifies only expressions with the same
    value, and simplification with Python's equality is simplification with a sound
    equality. *)
From Coq Require Import String Ascii List ZArith Bool Lia.
From Verif Require Import Base Ident Expr ExprEval ExprTotal ExprMore ExprFacts ExprPrint ExprRead ExprReadFacts ExprReadTree.
Import ListNotations.
Local Open Scope string_scope.
Local Open Scope list_scope.
Local Open Scope Z_scope.

(** operands of arithmetic operators are arithmetic *)
Fixpoint wide (e : expr) : bool :=
  match e with
  | ETrue | EFalse | ENum _ | EName _ _ => true
  | ENot x => wide x
  | EAss (OAdd | OMul) ts => forallb arith ts
  | EAss _ ts => forallb wide ts
  | EBin _ l r => arith l && arith r
  | ERel _ l r => wide l && wide r
  end.

Lemma arith_wide e : arith e = true -> wide e = true.
Proof. destruct e as [| | | | |[]| |]; cbn; auto; discriminate. Qed.
Lemma arith_prec e : arith e = true -> (3 <= precedence e)%nat.
Proof. destruct e as [| | | | |[]|[]|]; cbn; try lia; discriminate. Qed.
Lemma arith_sums e : arith e = true -> sums e = true.
Proof.
  induction e as [| |v|n s|x IH|o ts IH|o l r IHl IHr|o l r IHl IHr] using expr_ind'; try reflexivity; try discriminate.
  - assert (X : forallb arith ts = true -> forallb sums ts = true).
    { intros H. induction IH as [|x l Hx _ IHl]; [reflexivity|]. cbn in *. apply andb_true_iff in H as [H1 H2].
      now rewrite (Hx H1), (IHl H2). }
    destruct o; cbn [arith sums]; try discriminate; intros H; [|now apply X]. apply andb_true_iff. split; [|now apply X].
    destruct ts as [|t ts]; [reflexivity|]. cbn in H. apply andb_true_iff in H as [H _]. apply Nat.leb_le. now apply arith_prec.
  - cbn. intros H. apply andb_true_iff in H as [H1 H2]. now rewrite (IHl H1), (IHr H2).
Qed.
Lemma wide_sums e : wide e = true -> sums e = true.
Proof.
  induction e as [| |v|n s|x IH|o ts IH|o l r IHl IHr|o l r IHl IHr] using expr_ind'; try reflexivity.
  - exact IH.
  - assert (X : forallb wide ts = true -> forallb sums ts = true).
    { intros H. induction IH as [|x l Hx _ IHl]; [reflexivity|]. cbn in *. apply andb_true_iff in H as [H1 H2].
      now rewrite (Hx H1), (IHl H2). }
    intros H. destruct o; try (now apply X); apply arith_sums; exact H.
  - intros H. apply arith_sums. exact H.
  - cbn. intros H. apply andb_true_iff in H as [H1 H2]. now rewrite (IHl H1), (IHr H2).
Qed.

(** ** Python's equality is sound *)

Definition spelled (N : list string) (n : name) : bool := lexical n && existsb (String.eqb (name_id n)) N.
Definition spelling (N : list string) : Prop := forall x y, In x N -> In y N -> lower x = lower y -> x = y.

Lemma names_ok_mono (f h : name -> bool) e : (forall n, f n = true -> h n = true) -> names_ok f e = true -> names_ok h e = true.
Proof.
  intros X. induction e as [| |v|n s|x IH|o ts IH|o l r IHl IHr|o l r IHl IHr] using expr_ind'; cbn [names_ok]; auto.
  - rewrite !forallb_forall. rewrite Forall_forall in IH. auto.
  - rewrite !andb_true_iff. tauto.
  - rewrite !andb_true_iff. tauto.
Qed.

Lemma same_text exact sc a b g :
  names_ok lexical a = true -> names_ok lexical b = true -> sums a = true -> sums b = true ->
  full a = true -> full b = true -> (exact = true -> plural a = true /\ plural b = true) ->
  str a = str b -> exists w, Q exact (ev sc g a) w /\ Q exact (ev sc g b) w.
Proof.
  intros Na Nb Sa Sb Fa Fb P E.
  assert (T : tree_of a = tree_of b).
  { apply (reads_tree b _ Nb Sb). rewrite <- E. now apply (reads_tree a _ Na Sa). }
  exists (teval sc g (tree_of a)). split; [|rewrite T]; apply tree_value; auto; intros K; now apply P.
Qed.

Section Sound.
Variable N : list string.
Hypothesis HN : spelling N.

Definition inv (e : expr) : bool := wide e && plural e && full e && names_ok (spelled N) e.
(** Python's equality on expressions that can be compared during simplification *)
Definition eqb2 (a b : expr) : bool := py_eqb a b && inv a && inv b.

Lemma spelled_var x y : spelled N (NVar x) = true -> spelled N (NVar y) = true -> lower x = lower y -> x = y.
Proof.
  unfold spelled. rewrite !andb_true_iff, !existsb_exists. cbn [name_id]. intros [_ (a & Ha & Ea)] [_ (b & Hb & Eb)].
  apply String.eqb_eq in Ea, Eb. subst. now apply HN.
Qed.

Lemma py_eqb_text a b : py_eqb a b = true -> inv a = true -> inv b = true ->
  str a = str b \/ a = b.
Proof.
  unfold inv. rewrite !andb_true_iff. intros H (_ & Na) (_ & Nb).
  destruct a as [| |v|[x|k x] s|x|o ts|o l r|o l r], b as [| |w|[y|m y] t|y|p us|p l' r'|p l' r']; try discriminate H; auto; cbn [py_eqb] in H;
    try (left; now apply String.eqb_eq); try (apply andb_true_iff in H as [_ H]; left; now apply String.eqb_eq).
  - apply Z.eqb_eq in H as ->. now right.
  - apply andb_true_iff in H as [H1 H2]. apply eqb_prop in H1 as ->. apply String.eqb_eq in H2.
    rewrite (spelled_var x y Na Nb H2). now right.
  - destruct k, m; try discriminate H; left; now apply String.eqb_eq.
Qed.

Lemma eqb2_ev sc a b : eqb2 a b = true -> forall g, ev sc g a = ev sc g b.
Proof.
  unfold eqb2. rewrite !andb_true_iff. intros [[H Ia] Ib] g.
  destruct (py_eqb_text a b H Ia Ib) as [E| ->]; [|reflexivity].
  unfold inv in Ia, Ib. rewrite !andb_true_iff in Ia, Ib. destruct Ia as (((Wa & Pa) & Fa) & Na), Ib as (((Wb & Pb) & Fb) & Nb).
  assert (L : forall n, spelled N n = true -> lexical n = true) by (intros n K; now apply andb_true_iff in K).
  destruct (same_text true sc a b g) as (w & [<- | [? _]] & [<- | [? _]]);
    eauto using names_ok_mono, wide_sums; discriminate.
Qed.
Theorem eqb2_sound a b : eqb2 a b = true -> forall g, eval g a = eval g b.
Proof. exact (eqb2_ev false a b). Qed.
Lemma eqb2_py a b : inv a = true -> inv b = true -> eqb2 a b = py_eqb a b.
Proof. intros Ia Ib. unfold eqb2. now rewrite Ia, Ib, !andb_true_r. Qed.

(** ** Simplification *)

Lemma inv_parts e : inv e = true <-> wide e = true /\ plural e = true /\ full e = true /\ names_ok (spelled N) e = true.
Proof. unfold inv. rewrite !andb_true_iff. tauto. Qed.

Lemma forallb_inv ts : forallb inv ts = true ->
  forallb wide ts = true /\ forallb plural ts = true /\ forallb full ts = true /\ forallb (names_ok (spelled N)) ts = true.
Proof.
  rewrite !forallb_forall. intros H. repeat split; intros x Hx; specialize (H x Hx); now apply inv_parts in H.
Qed.
Lemma inv_ass o ts : forallb inv ts = true -> (boolean_op o = false -> forallb arith ts = true) ->
  (List.length ts <> 1)%nat -> (ts = [] -> o = OAnd \/ o = OAndThen \/ boolean_op o = false) -> inv (EAss o ts) = true.
Proof.
  intros H A L E. destruct (forallb_inv ts H) as (Hw & Hp & Hf & Hn). apply inv_parts. cbn [plural full names_ok].
  rewrite Hp, Hf, Hn, !andb_true_r. repeat split.
  - destruct o; cbn [wide]; auto.
  - destruct ts as [|? [|]]; auto.
  - destruct o; auto; destruct ts; auto; destruct (E eq_refl) as [K|[K|K]]; discriminate K.
Qed.
(** the terms of an associative expression *)
Lemma inv_terms o ts : inv (EAss o ts) = true -> (boolean_op o = false -> forallb arith ts = true) /\ forallb inv ts = true.
Proof.
  intros H. apply inv_parts in H as (Hw & Hp & Hf & Hn). cbn [plural full names_ok] in *.
  apply andb_true_iff in Hp as [_ Hp]. apply andb_true_iff in Hf as [_ Hf].
  assert (W : forallb wide ts = true).
  { destruct o; cbn in Hw; auto; rewrite forallb_forall in *; intros x Hx; apply arith_wide; auto. }
  split; [destruct o; auto; discriminate|]. rewrite forallb_forall in *. intros x Hx. apply inv_parts. auto.
Qed.

Section Step.
Variables simp1 simp2 : expr -> res expr.
Hypothesis HS : forall e, wide e = true -> names_ok (spelled N) e = true ->
  simp1 e = simp2 e /\ forall e', simp2 e = Ok e' -> inv e' = true /\ (arith e = true -> arith e' = true).

Lemma neg_same e : arith e = true -> inv e = true ->
  neg simp1 e = neg simp2 e /\ forall e', neg simp2 e = Ok e' -> inv e' = true /\ arith e' = true.
Proof.
  induction e as [| |v|n s|x IH|o ts IH|o l r IHl IHr|o l r IHl IHr] using expr_ind'; intros A I; try discriminate A.
  - split; [reflexivity|]. intros e' E. now injection E as <-.
  - split; [reflexivity|]. intros e' E. now injection E as <-.
  - split; [reflexivity|]. intros e' E. now injection E as <-.
  - split; [reflexivity|]. intros e' E. injection E as <-. split; [|reflexivity]. exact I.
  - destruct (inv_terms _ _ I) as [_ It]. apply inv_parts in I as (_ & Hp & _ & Hn). cbn [plural names_ok] in Hp, Hn.
    apply andb_true_iff in Hp as [Hp _].
    destruct o; try discriminate A; cbn [arith] in A.
    + cbn [neg].
      set (go1 := fix go (l : list expr) : res (list expr) :=
        match l with [] => Ok [] | x :: t => bind (neg simp1 x) (fun y => bind (go t) (fun ys => Ok (y :: ys))) end).
      set (go2 := fix go (l : list expr) : res (list expr) :=
        match l with [] => Ok [] | x :: t => bind (neg simp2 x) (fun y => bind (go t) (fun ys => Ok (y :: ys))) end).
      assert (G : go1 ts = go2 ts /\ forall ts', go2 ts = Ok ts' ->
                  forallb inv ts' = true /\ forallb arith ts' = true /\ List.length ts' = List.length ts).
      { clear Hp Hn. induction IH as [|x l Hx _ IHl].
        - split; [reflexivity|]. intros ts' E. now injection E as <-.
        - cbn in A, It. apply andb_true_iff in A as [A1 A2]. apply andb_true_iff in It as [I1 I2].
          destruct (Hx A1 I1) as [E1 X1]. destruct (IHl A2 I2) as [E2 X2]. cbn [go1 go2]. fold go1 go2. rewrite E1, E2. split; [reflexivity|].
          intros ts' E. destruct (neg simp2 x) as [y|]; cbn [bind] in E; [|discriminate].
          destruct (go2 l) as [ys|]; cbn [bind] in E; [|discriminate]. injection E as <-.
          destruct (X1 _ eq_refl) as [Y1 Y2]. destruct (X2 _ eq_refl) as (Z1 & Z2 & Z3). cbn. rewrite Y1, Y2, Z1, Z2, Z3. auto. }
      destruct G as [G1 G2]. rewrite G1. split; [reflexivity|]. intros e' E. destruct (go2 ts) as [ts'|]; cbn [bind] in E; [|discriminate].
      injection E as <-. destruct (G2 _ eq_refl) as (Z1 & Z2 & Z3). split; [|exact Z2]. apply inv_ass; auto.
      rewrite Z3. destruct ts as [|? [|]]; cbn; (lia || discriminate).
    + cbn [neg]. destruct (HS (EAss OMul (ts ++ [ENum (-1)]))) as [E1 X1].
      * cbn [wide]. rewrite forallb_app, A. reflexivity.
      * cbn [names_ok]. rewrite forallb_app, Hn. reflexivity.
      * split; [exact E1|]. intros e' E. destruct (X1 _ E) as [Y1 Y2]. split; [exact Y1|]. apply Y2. cbn [arith].
        rewrite forallb_app, A. reflexivity.
  - cbn [arith] in A. apply andb_true_iff in A as [A1 A2]. apply inv_parts in I as (_ & Hp & Hf & Hn).
    cbn [plural full names_ok] in *. apply andb_true_iff in Hp as [Hp1 Hp2]. apply andb_true_iff in Hf as [Hf1 Hf2].
    apply andb_true_iff in Hn as [Hn1 Hn2].
    destruct (IHl A1) as [E1 X1]; [apply inv_parts; auto using arith_wide|]. cbn [neg]. rewrite E1. split; [reflexivity|].
    intros e' E. destruct (neg simp2 l) as [l'|]; cbn [bind] in E; [|discriminate]. injection E as <-.
    destruct (X1 _ eq_refl) as [Y1 Y2]. apply inv_parts in Y1 as (W1 & W2 & W3 & W4).
    split; [apply inv_parts|]; cbn; rewrite ?Y2, ?A2, ?W2, ?W3, ?W4, ?Hp2, ?Hf2, ?Hn2; auto.
Qed.

Lemma collect_same o m : forall work total acc,
  forallb wide work = true -> forallb (names_ok (spelled N)) work = true -> forallb inv acc = true ->
  collect simp1 o m work total acc = collect simp2 o m work total acc
  /\ forall tot ts, collect simp2 o m work total acc = Ok (tot, ts) -> forallb inv ts = true
     /\ (forallb arith work = true -> forallb arith acc = true -> forallb arith ts = true).
Proof.
  induction m as [|m IH]; intros work total acc Hw Hn Ha.
  - destruct work as [|t rest]; cbn [collect]; (split; [reflexivity|]); [|discriminate]. intros tot ts E. injection E as <- <-.
    split.
    + rewrite forallb_forall in *. intros x Hx. apply in_rev in Hx. auto.
    + intros _ K. rewrite forallb_forall in *. intros x Hx. apply in_rev in Hx. auto.
  - destruct work as [|t rest]; cbn [collect].
    { split; [reflexivity|]. intros tot ts E. injection E as <- <-. split.
      - rewrite forallb_forall in *. intros x Hx. apply in_rev in Hx. auto.
      - intros _ K. rewrite forallb_forall in *. intros x Hx. apply in_rev in Hx. auto. }
    cbn [forallb] in Hw, Hn. apply andb_true_iff in Hw as [Wt Wr]. apply andb_true_iff in Hn as [Nt Nr].
    destruct (HS t Wt Nt) as [E1 X1]. rewrite E1. destruct (simp2 t) as [u|w]; cbn [bind]; [|split; [reflexivity|discriminate]].
    destruct (X1 u eq_refl) as [Iu Au].
    assert (Keep : collect simp1 o m rest total (u :: acc) = collect simp2 o m rest total (u :: acc)
       /\ forall tot ts, collect simp2 o m rest total (u :: acc) = Ok (tot, ts) -> forallb inv ts = true
     /\ (forallb arith (t :: rest) = true -> forallb arith acc = true -> forallb arith ts = true)).
    { destruct (IH rest total (u :: acc) Wr Nr) as [E2 X2]; [cbn; now rewrite Iu|]. split; [exact E2|].
      intros tot ts E. destruct (X2 _ _ E) as [Y1 Y2]. split; [exact Y1|]. intros K1 K2. cbn in K1. apply andb_true_iff in K1 as [K1 K3].
      apply Y2; auto. cbn. now rewrite (Au K1), K2. }
    assert (Const : forall c, collect simp1 o m rest c acc = collect simp2 o m rest c acc
       /\ forall tot ts, collect simp2 o m rest c acc = Ok (tot, ts) -> forallb inv ts = true
     /\ (forallb arith (t :: rest) = true -> forallb arith acc = true -> forallb arith ts = true)).
    { intros c. destruct (IH rest c acc Wr Nr Ha) as [E2 X2]. split; [exact E2|].
      intros tot ts E. destruct (X2 _ _ E) as [Y1 Y2]. split; [exact Y1|]. intros K1 K2. cbn in K1. apply andb_true_iff in K1 as [K1 K3]. auto. }
    destruct u as [| |v|n s|x|p us|q l r|q l r]; auto.
    destruct (flattens o p); [|exact Keep].
    destruct (inv_terms _ _ Iu) as [Ap Ip]. destruct (forallb_inv _ Ip) as (Wu & _ & _ & Nu).
    destruct (IH (rest ++ us) total acc) as [E2 X2]; [rewrite forallb_app, Wr, Wu|rewrite forallb_app, Nr, Nu|exact Ha|]; try reflexivity.
    split; [exact E2|]. intros tot ts E. destruct (X2 _ _ E) as [Y1 Y2]. split; [exact Y1|]. intros K1 K2. cbn in K1.
    apply andb_true_iff in K1 as [K1 K3]. apply Y2; [|exact K2]. rewrite forallb_app, K3. specialize (Au K1).
    destruct p; try discriminate Au; exact Au.
Qed.

Lemma remove_first_same x l : inv x = true -> forallb inv l = true ->
  remove_first py_eqb x l = remove_first eqb2 x l.
Proof.
  intros Ix. induction l as [|y l IH]; [reflexivity|]. cbn. intros H. apply andb_true_iff in H as [Iy Il].
  rewrite (eqb2_py y x Iy Ix), (IH Il). reflexivity.
Qed.
Lemma remove_first_sub eqb x l l' (P : expr -> bool) : remove_first eqb x l = Some l' -> forallb P l = true -> forallb P l' = true.
Proof.
  revert l'. induction l as [|y l IH]; intros l' E H; [discriminate|]. cbn in E, H. apply andb_true_iff in H as [H1 H2].
  destruct (eqb y x); [injection E as <-; exact H2|]. destruct (remove_first eqb x l) as [l2|]; [|discriminate].
  injection E as <-. cbn. now rewrite H1, (IH _ eq_refl H2).
Qed.
Lemma cancel_same l : forall acc, forallb inv l = true -> forallb arith l = true -> forallb inv acc = true -> forallb arith acc = true ->
  cancel py_eqb simp1 l acc = cancel eqb2 simp2 l acc
  /\ forall ts, cancel eqb2 simp2 l acc = Ok ts -> forallb inv ts = true /\ forallb arith ts = true.
Proof.
  induction l as [|t l IH]; intros acc Il Al Ia Aa.
  - split; [reflexivity|]. intros ts E. injection E as <-. auto.
  - cbn in Il, Al. apply andb_true_iff in Il as [It Il]. apply andb_true_iff in Al as [At Al]. cbn [cancel].
    destruct acc as [|a acc].
    { apply IH; auto; cbn; [now rewrite It|now rewrite At]. }
    destruct (neg_same t At It) as [E1 X1]. rewrite E1. destruct (neg simp2 t) as [nt|]; cbn [bind]; [|split; [reflexivity|discriminate]].
    destruct (X1 _ eq_refl) as [In An]. rewrite (remove_first_same nt (a :: acc) In Ia).
    destruct (remove_first eqb2 nt (a :: acc)) as [acc'|] eqn:Er.
    + apply IH; auto; eapply remove_first_sub; eauto.
    + apply IH; auto; cbn [forallb] in *; [now rewrite It|now rewrite At].
Qed.
Lemma finish_inv o tot ts : forallb inv ts = true -> (boolean_op o = false -> forallb arith ts = true) ->
  inv (finish o tot ts) = true /\ (boolean_op o = false -> arith (finish o tot ts) = true).
Proof.
  intros Hi Ha.
  assert (L : forall z, inv (if boolean_op o then EBool (negb (z =? 0)) else ENum z) = true
                     /\ arith (if boolean_op o then EBool (negb (z =? 0)) else ENum z) = true).
  { intros z. destruct (boolean_op o); [unfold EBool; destruct (negb _)|]; auto. }
  assert (T : forall l, l <> [] -> forallb inv l = true -> (boolean_op o = false -> forallb arith l = true) ->
    inv (match l with [t] => t | _ => EAss o l end) = true /\ (boolean_op o = false -> arith (match l with [t] => t | _ => EAss o l end) = true)).
  { intros l NE I A. destruct l as [|a [|b l]]; [tauto| |].
    - cbn in I. rewrite andb_true_r in I. split; [exact I|]. intros K. specialize (A K). cbn in A. now rewrite andb_true_r in A.
    - split.
      + apply inv_ass; auto; [cbn; lia|discriminate].
      + intros K. specialize (A K). destruct o; try discriminate K; exact A. }
  unfold finish. destruct ts as [|t ts]; [split; [apply L|intros _; apply L]|].
  destruct (tot =? neutral o).
  - apply (T (t :: ts)); [discriminate|exact Hi|exact Ha].
  - apply (T ((t :: ts) ++ [_])).
    + discriminate.
    + rewrite forallb_app, Hi. cbn [forallb]. now rewrite (proj1 (L tot)).
    + intros K. rewrite forallb_app, (Ha K). cbn [forallb]. now rewrite (proj2 (L tot)).
Qed.
Lemma existsb_same a ts : inv a = true -> forallb inv ts = true -> existsb (py_eqb a) ts = existsb (eqb2 a) ts.
Proof.
  intros Ia. induction ts as [|t ts IH]; [reflexivity|]. cbn. intros H. apply andb_true_iff in H as [H1 H2].
  now rewrite (eqb2_py a t Ia H1), (IH H2).
Qed.
Lemma absorb_same o e : inv e = true -> absorb py_eqb o e = absorb eqb2 o e /\ inv (absorb eqb2 o e) = true.
Proof.
  intros I. destruct e as [| |v|n s|x|p us|q l r|q l r]; try (destruct o; (split; [reflexivity|exact I])).
  destruct (inv_terms _ _ I) as [_ It].
  destruct o, p; cbn [absorb]; rewrite ?(existsb_same EFalse us eq_refl It), ?(existsb_same ETrue us eq_refl It);
    (split; [reflexivity|]); try exact I; match goal with |- context [if ?c then _ else _] => destruct c end; auto.
Qed.
Lemma add_tail_same e : inv e = true -> arith e = true -> add_tail py_eqb simp1 e = add_tail eqb2 simp2 e
  /\ forall e', add_tail eqb2 simp2 e = Ok e' -> inv e' = true /\ arith e' = true.
Proof.
  intros I A. assert (D : Ok e = Ok e /\ forall e', Ok e = Ok e' -> inv e' = true /\ arith e' = true).
  { split; [reflexivity|]. intros e' E. injection E as <-. auto. }
  destruct e as [| |v|n s|x|p us|q l r|q l r]; try exact D. destruct p; try exact D. clear D. cbn [add_tail].
  destruct (inv_terms _ _ I) as [_ It]. cbn [arith] in A.
  destruct (cancel_same (rev us) []) as [E1 X1]; auto.
  - rewrite forallb_forall in *. intros x Hx. apply in_rev in Hx. auto.
  - rewrite forallb_forall in *. intros x Hx. apply in_rev in Hx. auto.
  - rewrite E1. split; [reflexivity|]. intros e' E. destruct (cancel eqb2 simp2 (rev us) []) as [ts|]; cbn [bind] in E; [|discriminate].
    destruct (X1 _ eq_refl) as [Y1 Y2]. destruct ts as [|a [|b ts]]; injection E as <-.
    + auto.
    + cbn in Y1, Y2. rewrite andb_true_r in Y1, Y2. auto.
    + split; [|exact Y2]. apply inv_ass; [exact Y1|intros _; exact Y2|cbn; lia|discriminate].
Qed.
End Step.

Theorem simplify_same n : forall e, wide e = true -> names_ok (spelled N) e = true ->
  simplify py_eqb n e = simplify eqb2 n e
  /\ forall e', simplify eqb2 n e = Ok e' -> inv e' = true /\ (arith e = true -> arith e' = true).
Proof.
  induction n as [|n IH]; intros e W Nm; [split; [reflexivity|discriminate]|]. cbn [simplify].
  destruct e as [| |v|m s|x|o ts|o l r|o l r].
  1-4: split; [reflexivity|]; intros e' E; injection E as <-; split; auto; apply inv_parts; auto.
  - assert (D : (let* x' := simplify py_eqb n x in Ok (ENot x'))%res = (let* x' := simplify eqb2 n x in Ok (ENot x'))%res
       /\ forall e', (let* x' := simplify eqb2 n x in Ok (ENot x'))%res = Ok e' -> inv e' = true /\ (arith (ENot x) = true -> arith e' = true)).
    { destruct (IH x W Nm) as [E1 X1]. rewrite E1. split; [reflexivity|]. intros e' E.
      destruct (simplify eqb2 n x) as [x'|]; cbn [bind] in E; [|discriminate]. injection E as <-. destruct (X1 _ eq_refl) as [Y _].
      split; [exact Y|discriminate]. }
    destruct x as [| |v|m s|x|o ts|o l r|o l r]; try exact D. clear D.
    cbn in W, Nm. apply andb_true_iff in W as [Wl Wr]. apply andb_true_iff in Nm as [Nl Nr].
    destruct (IH l Wl Nl) as [E1 X1]. destruct (IH r Wr Nr) as [E2 X2]. rewrite E1, E2. split; [reflexivity|]. intros e' E.
    destruct (simplify eqb2 n l) as [l'|]; cbn [bind] in E; [|discriminate]. destruct (simplify eqb2 n r) as [r'|]; cbn [bind] in E; [|discriminate].
    injection E as <-. split; [|discriminate]. destruct (X1 _ eq_refl) as [Y1 _], (X2 _ eq_refl) as [Y2 _].
    apply inv_parts in Y1 as (A1 & A2 & A3 & A4). apply inv_parts in Y2 as (B1 & B2 & B3 & B4). apply inv_parts. cbn.
    now rewrite A1, A2, A3, A4, B1, B2, B3, B4.
  - assert (Wt : forallb wide ts = true /\ (boolean_op o = false -> forallb arith ts = true)).
    { destruct o; cbn in W; split; auto; try discriminate; rewrite forallb_forall in *; intros x Hx; apply arith_wide; auto. }
    destruct Wt as [Wt At]. cbn [names_ok] in Nm.
    destruct (collect_same (simplify py_eqb n) (simplify eqb2 n) IH o n ts (neutral o) [] Wt Nm eq_refl) as [E1 X1]. rewrite E1.
    destruct (collect (simplify eqb2 n) o n ts (neutral o) []) as [[tot terms]|]; cbn [bind]; [|split; [reflexivity|discriminate]].
    destruct (X1 _ _ eq_refl) as [Y1 Y2]. assert (Y3 : boolean_op o = false -> forallb arith terms = true) by auto.
    destruct (finish_inv o tot terms Y1 Y3) as [Z1 Z2].
    assert (B : boolean_op o = true -> Ok (absorb py_eqb o (finish o tot terms)) = Ok (absorb eqb2 o (finish o tot terms))
       /\ forall e', Ok (absorb eqb2 o (finish o tot terms)) = Ok e' -> inv e' = true /\ (arith (EAss o ts) = true -> arith e' = true)).
    { intros Ho. destruct (absorb_same o _ Z1) as [E2 X2]. rewrite E2. split; [reflexivity|]. intros e' E. injection E as <-.
      split; [exact X2|]. destruct o; discriminate. }
    destruct o; try (apply B; reflexivity).
    + destruct (add_tail_same (simplify py_eqb n) (simplify eqb2 n) IH _ Z1 (Z2 eq_refl)) as [E2 X2]. split; [exact E2|].
      intros e' E. destruct (X2 _ E). auto.
    + split; [reflexivity|]. intros e' E. injection E as <-. auto.
  - cbn in W, Nm. apply andb_true_iff in W as [Wl Wr]. apply andb_true_iff in Nm as [Nl Nr].
    destruct (IH l (arith_wide _ Wl) Nl) as [E1 X1]. destruct (IH r (arith_wide _ Wr) Nr) as [E2 X2]. rewrite E1, E2.
    destruct (simplify eqb2 n l) as [l'|]; cbn [bind]; [|split; [reflexivity|discriminate]].
    destruct (simplify eqb2 n r) as [r'|]; cbn [bind]; [|split; [reflexivity|discriminate]].
    destruct (X1 _ eq_refl) as [A1 A2]. destruct (X2 _ eq_refl) as [B1 B2]. specialize (A2 Wl). specialize (B2 Wr).
    assert (P : forall q, inv (EBin q l' r') = true /\ arith (EBin q l' r') = true).
    { intros q. apply inv_parts in A1 as (_ & C2 & C3 & C4). apply inv_parts in B1 as (_ & D2 & D3 & D4).
      split; [apply inv_parts|]; cbn; now rewrite ?A2, ?B2, ?C2, ?C3, ?C4, ?D2, ?D3, ?D4. }
    assert (Gen : (match o with OSub => (let* nr := neg (simplify py_eqb n) r' in Ok (EAss OAdd [l'; nr]))%res | _ => Ok (EBin o l' r') end)
        = (match o with OSub => (let* nr := neg (simplify eqb2 n) r' in Ok (EAss OAdd [l'; nr]))%res | _ => Ok (EBin o l' r') end)
      /\ forall e', (match o with OSub => (let* nr := neg (simplify eqb2 n) r' in Ok (EAss OAdd [l'; nr]))%res | _ => Ok (EBin o l' r') end) = Ok e' ->
         inv e' = true /\ (arith (EBin o l r) = true -> arith e' = true)).
    { destruct o; try (split; [reflexivity|]; intros e' E; injection E as <-; split; [apply P|intros _; apply P]).
      destruct (neg_same (simplify py_eqb n) (simplify eqb2 n) IH r' B2 B1) as [E3 X3]. rewrite E3. split; [reflexivity|].
      intros e' E. destruct (neg (simplify eqb2 n) r') as [nr|]; cbn [bind] in E; [|discriminate]. injection E as <-.
      destruct (X3 _ eq_refl) as [C1 C2]. split; [|intros _; cbn; now rewrite A2, C2].
      apply inv_ass; cbn [forallb List.length]; [now rewrite A1, C1|intros _; now rewrite A2, C2|lia|discriminate]. }
    destruct l' as [| |x|m s|x|p us|q ll lr|q ll lr]; try exact Gen.
    destruct r' as [| |y|m s|y|p us|q rl rr|q rl rr]; try exact Gen.
    split; [reflexivity|]. intros e' E. destruct o; cbn [bin_num] in E.
    + injection E as <-. auto.
    + destruct (y =? 0); [discriminate|]. destruct (x mod y =? 0); injection E as <-; auto.
    + destruct (y <? 0); [discriminate|]. injection E as <-. auto.
    + destruct (y =? 0); [discriminate|]. injection E as <-. auto.
  - cbn in W, Nm. apply andb_true_iff in W as [Wl Wr]. apply andb_true_iff in Nm as [Nl Nr].
    destruct (IH l Wl Nl) as [E1 X1]. destruct (IH r Wr Nr) as [E2 X2]. rewrite E1, E2.
    destruct (simplify eqb2 n l) as [l'|]; cbn [bind]; [|split; [reflexivity|discriminate]].
    destruct (simplify eqb2 n r) as [r'|]; cbn [bind]; [|split; [reflexivity|discriminate]].
    destruct (X1 _ eq_refl) as [Y1 _], (X2 _ eq_refl) as [Y2 _]. unfold rel_simp. rewrite (eqb2_py _ _ Y1 Y2).
    split; [reflexivity|]. intros e' E. split; [|discriminate]. injection E as <-.
    match goal with |- context [if ?c then _ else _] => destruct c end; [reflexivity|].
    assert (P : inv (ERel o l' r') = true).
    { apply inv_parts in Y1 as (A1 & A2 & A3 & A4). apply inv_parts in Y2 as (B1 & B2 & B3 & B4). apply inv_parts. cbn.
      now rewrite A1, A2, A3, A4, B1, B2, B3, B4. }
    destruct l'; try exact P. destruct r'; try exact P. unfold EBool. now destruct (rel_num _ _ _).
Qed.
End Sound.
