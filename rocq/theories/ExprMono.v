(** More fuel never changes a result of the simplifier model; substitution leaves
    expressions alone in which no mapped name occurs. *)
From Coq Require Import String List ZArith Bool Lia.
From Verif Require Import Base Expr ExprEval ExprFacts.
Import ListNotations.

Definition le_res (f g : expr -> res expr) : Prop := forall e e', f e = Ok e' -> g e = Ok e'.

Ltac dbind H x E :=
  match type of H with
  | bind ?r _ = Ok _ => destruct r as [x|] eqn:E; cbn [bind] in H; [|discriminate H]
  end.

Lemma neg_mono simp simp' : le_res simp simp' -> le_res (neg simp) (neg simp').
Proof.
  intros HS. unfold le_res. fix IH 1. intros e e' H. destruct e; try exact H.
  - destruct o; cbn [neg] in *; try exact H; try discriminate H.
    + dbind H ts' E. apply Ok_inj in H. subst e'.
      assert (K : forall ts ts', (fix go (l : list expr) : res (list expr) :=
                       match l with
                       | [] => Ok []
                       | x :: t => bind (neg simp x) (fun y => bind (go t) (fun ys => Ok (y :: ys)))
                       end) ts = Ok ts' ->
              (fix go (l : list expr) : res (list expr) :=
                       match l with
                       | [] => Ok []
                       | x :: t => bind (neg simp' x) (fun y => bind (go t) (fun ys => Ok (y :: ys)))
                       end) ts = Ok ts').
      { clear E ts ts'. fix go 1. intros [|x l] r Hr; [exact Hr|].
        dbind Hr y Ey. dbind Hr ys Eys. rewrite (IH x y Ey). cbn [bind].
        rewrite (go l ys Eys). exact Hr. }
      rewrite (K _ _ E). reflexivity.
    + apply HS. exact H.
  - cbn [neg] in *. dbind H l' E. rewrite (IH _ _ E). exact H.
Qed.

Lemma collect_mono simp simp' o : le_res simp simp' -> forall m m' work total acc r, (m <= m')%nat ->
  collect simp o m work total acc = Ok r -> collect simp' o m' work total acc = Ok r.
Proof.
  intros HS. induction m as [|m IH]; intros m' work total acc r L H.
  - destruct work; [|discriminate]. destruct m'; exact H.
  - destruct work as [|t rest]; [destruct m'; exact H|].
    destruct m' as [|m']; [lia|]. cbn [collect] in *.
    dbind H u E. rewrite (HS _ _ E). cbn [bind].
    assert (L' : (m <= m')%nat) by lia.
    destruct u; try (apply IH; [exact L'|exact H]).
    destruct (flattens o o0); apply IH; auto.
Qed.

Lemma cancel_mono eqb simp simp' : le_res simp simp' -> forall l acc r,
  cancel eqb simp l acc = Ok r -> cancel eqb simp' l acc = Ok r.
Proof.
  intros HS. induction l as [|t l IH]; intros acc r H; [exact H|]. cbn [cancel] in *.
  destruct acc; [now apply IH|]. dbind H nt E. rewrite (neg_mono _ _ HS _ _ E). cbn [bind].
  destruct (remove_first eqb nt (e :: acc)); now apply IH.
Qed.

Lemma simplify_S eqb n : le_res (simplify eqb n) (simplify eqb (S n)).
Proof.
  induction n as [|n IH]; [discriminate|]. intros e e' H.
  set (m := S n). change (simplify eqb (S m) e = Ok e').
  cbn [simplify] in H |- *. fold m in H |- *.
  change (le_res (simplify eqb n) (simplify eqb m)) in IH.
  destruct e; try exact H.
  - destruct e; try (dbind H x E; rewrite (IH _ _ E); exact H).
    dbind H l' E1. dbind H r' E2. rewrite (IH _ _ E1). cbn [bind]. rewrite (IH _ _ E2). exact H.
  - dbind H c E. rewrite (collect_mono _ _ o IH n m _ _ _ _ (Nat.le_succ_diag_r n) E). cbn [bind].
    destruct c as [total terms]. destruct o; try exact H.
    unfold add_tail in *. destruct (finish OAdd total terms); try exact H.
    destruct o; try exact H. dbind H ts' E'. rewrite (cancel_mono _ _ _ IH _ _ _ E'). exact H.
  - dbind H l' E1. dbind H r' E2. rewrite (IH _ _ E1). cbn [bind]. rewrite (IH _ _ E2). cbn [bind].
    destruct l', r'; try exact H; destruct o; try exact H;
      (dbind H nr E3; rewrite (neg_mono _ _ IH _ _ E3); exact H).
  - dbind H l' E1. dbind H r' E2. rewrite (IH _ _ E1). cbn [bind]. rewrite (IH _ _ E2). exact H.
Qed.

Lemma simplify_mono eqb n m : (n <= m)%nat -> le_res (simplify eqb n) (simplify eqb m).
Proof.
  intros L e e' H. induction L; [exact H|]. now apply simplify_S.
Qed.

(** names in an expression *)
Fixpoint names (e : expr) : list name :=
  match e with
  | ETrue | EFalse | ENum _ => []
  | EName n _ => [n]
  | ENot x => names x
  | EAss _ ts => flat_map names ts
  | EBin _ l r => names l ++ names r
  | ERel _ l r => names l ++ names r
  end.

Lemma substituted_id ng mapping : forall e, (forall n, In n (names e) -> mapping n = None) ->
  substituted ng mapping e = Ok e.
Proof.
  fix IH 1. intros e H. destruct e; try reflexivity.
  - cbn [substituted]. rewrite (H n) by (left; reflexivity). destruct neg; reflexivity.
  - cbn [substituted]. cbn [names] in H.
    assert (K : forall l, (forall n, In n (flat_map names l) -> mapping n = None) ->
      (fix go (l : list expr) : res (list expr) :=
                     match l with
                     | [] => Ok []
                     | x :: t => bind (substituted ng mapping x) (fun y => bind (go t) (fun ys => Ok (y :: ys)))
                     end) l = Ok l).
    { clear H ts. fix go 1. intros [|x l] H; [reflexivity|].
      rewrite IH by (intros n I; apply H; cbn; apply in_or_app; auto). cbn [bind].
      rewrite go by (intros n I; apply H; cbn; apply in_or_app; auto). reflexivity. }
    rewrite K by exact H. reflexivity.
  - cbn [substituted]. cbn [names] in H.
    rewrite IH by (intros n I; apply H; apply in_or_app; auto). cbn [bind].
    rewrite IH by (intros n I; apply H; apply in_or_app; auto). reflexivity.
  - cbn [substituted]. cbn [names] in H.
    rewrite IH by (intros n I; apply H; apply in_or_app; auto). cbn [bind].
    rewrite IH by (intros n I; apply H; apply in_or_app; auto). reflexivity.
Qed.
