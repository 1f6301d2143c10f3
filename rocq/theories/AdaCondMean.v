(** Facts: the value of conditional expressions, by way of statements that return it. *)
From Coq Require Import String Ascii List ZArith Bool Lia.
From Verif Require Import Base Ident Expr ExprEval ExprPrint ExprRead ExprReadFacts ExprReadTree ExprAda AdaStmt AdaStmtSpec AdaStmtFacts AdaStmtRead AdaStmtMean AdaCond AdaCondSpec AdaCondFacts.
Import ListNotations.
Local Open Scope string_scope.
Local Open Scope list_scope.
Local Open Scope nat_scope.

(** the statement that returns the value, or nothing if that is True for want of an else part *)
Fixpoint pe {E} (c : cond E) : prog E :=
  match c with
  | VE e => PReturn e
  | VIf l o => PIf (map (fun p => (fst p, [pe (snd p)])) l) match o with Some x => [pe x] | None => [] end
  | VCase e l => PCase e (map (fun p => (fst p, [pe (snd p)])) l)
  end.
Fixpoint se (c : cexpr) : stmt :=
  match c with
  | CE e => SReturn e
  | CIf l o => SIf (map (fun p => (fst p, [se (snd p)])) l) match o with Some x => Some [se x] | None => None end
  | CCase e l => SCase e (map (fun p => (fst p, [se (snd p)])) l)
  end.
Fixpoint unse (s : stmt) : cexpr :=
  match s with
  | SReturn e => CE e
  | SIf l o => CIf (map (fun p => (fst p, match snd p with s :: _ => unse s | [] => CE ETrue end)) l)
      match o with Some (s :: _) => Some (unse s) | _ => None end
  | SCase e l => CCase e (map (fun p => (fst p, match snd p with s :: _ => unse s | [] => CE ETrue end)) l)
  | _ => CE ETrue
  end.
Definition lifted (alike : cexpr -> cexpr -> bool) (a b : list stmt) : bool :=
  match a, b with s :: _, t :: _ => alike (unse s) (unse t) | _, _ => true end.

Lemma unse_se : forall c, unse (se c) = c.
Proof.
  assert (L : forall l, Forall (fun p => unse (se (snd p)) = snd p) l ->
    map (fun p => (fst p, match snd p with s :: _ => unse s | [] => CE ETrue end)) (map (fun p : expr * cexpr => (fst p, [se (snd p)])) l) = l).
  { induction 1 as [|[c x] l H _ IH]; [reflexivity|]. cbn [map fst snd] in *. now rewrite H, IH. }
  intros c. induction c as [e|l o IHl IHo|e l IHl] using cexpr_ind'; cbn [se unse]; [reflexivity| |]; rewrite L by exact IHl; [|reflexivity].
  destruct o; [|reflexivity]. now rewrite (IHo _ eq_refl).
Qed.

Lemma se_eqb : forall a b, stmt_eqb (se a) (se b) = cexpr_eqb a b.
Proof.
  assert (L : forall l, Forall (fun p => forall b, stmt_eqb (se (snd p)) (se b) = cexpr_eqb (snd p) b) l -> forall m,
    list_eqb (fun p q => ada_eqb (fst p) (fst q) && list_eqb stmt_eqb (snd p) (snd q))
      (map (fun p : expr * cexpr => (fst p, [se (snd p)])) l) (map (fun p : expr * cexpr => (fst p, [se (snd p)])) m)
    = list_eqb (fun p q => ada_eqb (fst p) (fst q) && cexpr_eqb (snd p) (snd q)) l m).
  { induction 1 as [|[c x] l H _ IH]; intros [|[d y] m]; try reflexivity. cbn [map list_eqb fst snd] in *. rewrite H, andb_true_r.
    f_equal. apply IH. }
  intros a. induction a as [e|l o IHl IHo|e l IHl] using cexpr_ind'; intros [f|m q|f m]; try reflexivity; cbn [se stmt_eqb cexpr_eqb]; rewrite L by exact IHl; [|reflexivity].
  f_equal. destruct o, q; try reflexivity. cbn [list_eqb]. now rewrite (IHo _ eq_refl), andb_true_r.
Qed.

Lemma as_prog_se c : as_prog (se c) = pe (as_cond c).
Proof.
  induction c as [e|l o IHl IHo|e l IHl] using cexpr_ind'; cbn [se as_prog as_cond pe]; [reflexivity| |].
  - rewrite !map_map. f_equal.
    + apply map_ext_in. rewrite Forall_forall in IHl. intros p Hp. cbn [fst snd map]. now rewrite (IHl p Hp).
    + destruct o; [|reflexivity]. cbn [map]. now rewrite (IHo _ eq_refl).
  - rewrite !map_map. f_equal. apply map_ext_in. rewrite Forall_forall in IHl. intros p Hp. cbn [fst snd map]. now rewrite (IHl p Hp).
Qed.

Lemma group_map {A K L} (f : K -> L) same1 same2 : (forall k k', same2 (f k) (f k') = same1 k k') ->
  forall l : list (A * K), group same2 (map (fun p => (fst p, f (snd p))) l) = map (fun p => (fst p, f (snd p))) (group same1 l).
Proof.
  intros S.
  assert (G : forall (l : list (A * K)) cs k, group_from same2 cs (f k) (map (fun p => (fst p, f (snd p))) l) = map (fun p => (fst p, f (snd p))) (group_from same1 cs k l)).
  { induction l as [|[a k'] l IH]; intros cs k; [reflexivity|]. cbn [map group_from fst snd]. rewrite S. destruct (same1 k k'); [apply IH|].
    cbn [map fst snd]. f_equal. apply IH. }
  intros [|[a k] l]; [reflexivity|]. apply G.
Qed.

Lemma same_se alike a b : same_stmts (lifted alike) [se a] [se b] = same_cexpr alike a b.
Proof. unfold same_stmts, same_cexpr, lifted. cbn [list_eqb]. now rewrite se_eqb, andb_true_r, !unse_se. Qed.
Lemma grouped_se alike c : grouped (lifted alike) (se c) = pe (cgrouped alike c).
Proof.
  induction c as [e|l o IHl IHo|e l IHl] using cexpr_ind'; cbn [se grouped cgrouped pe]; [reflexivity| |].
  - rewrite !map_map. f_equal.
    + apply map_ext_in. rewrite Forall_forall in IHl. intros p Hp. cbn [fst snd map]. now rewrite (IHl p Hp).
    + destruct o; [|reflexivity]. cbn [map]. now rewrite (IHo _ eq_refl).
  - rewrite !map_map. f_equal. cbn [fst snd map].
    assert (E : map (fun x : expr * cexpr => (fst x, ([se (snd x)], [grouped (lifted alike) (se (snd x))]))) l
      = map (fun p => (fst p, (fun k : cexpr * cond expr => ([se (fst k)], [pe (snd k)])) (snd p))) (map (fun p => (fst p, (snd p, cgrouped alike (snd p)))) l)).
    { rewrite map_map. apply map_ext_in. rewrite Forall_forall in IHl. intros p Hp. cbn [fst snd]. now rewrite (IHl p Hp). }
    rewrite E, (group_map (fun k : cexpr * cond expr => ([se (fst k)], [pe (snd k)])) (fun x y => same_cexpr alike (fst x) (fst y))).
    + rewrite map_map. reflexivity.
    + intros k k'. cbn [fst]. apply same_se.
Qed.
Lemma pe_cmap {A B} (f : A -> B) c : pe (cmap f c) = pmap f (pe c).
Proof.
  induction c as [e|l o IHl IHo|e l IHl] using cond_ind'; cbn [cmap pe pmap]; [reflexivity| |].
  - rewrite !map_map. f_equal.
    + apply map_ext_in. rewrite Forall_forall in IHl. intros p Hp. cbn [fst snd map]. now rewrite (IHl p Hp).
    + destruct o; [|reflexivity]. cbn [map]. now rewrite (IHo _ eq_refl).
  - rewrite !map_map. f_equal. apply map_ext_in. rewrite Forall_forall in IHl. intros p Hp. cbn [fst snd map]. now rewrite (IHl p Hp).
Qed.

(** ** Values *)

Definition nothing : string -> list (option name * val) -> env -> option env := fun _ _ _ => None.
Definition keep : env -> string -> val -> env := fun g _ _ => g.
Definition fin (r : option (env * option val)) : option val :=
  match r with Some (_, Some v) => Some v | Some (_, None) => Some (VBool true) | None => None end.

Lemma seq_fin {E} (x : env -> prog E -> option (env * option val)) p g : fin (seq x [p] g) = fin (x g p).
Proof. cbn [seq]. destruct (x g p) as [[g' [v|]]|]; reflexivity. Qed.
Lemma cvalue_run {E} (value : env -> E -> option val) variable g c :
  cvalue value variable g c = fin (exec value variable keep nothing nothing g (pe c)).
Proof.
  induction c as [e|l o IHl IHo|e l IHl] using cond_ind'; cbn [cvalue pe exec].
  - destruct (value g e); reflexivity.
  - induction IHl as [|[c x] l H _ IH]; cbn [map fst snd] in *.
    + destruct o as [x|]; [|reflexivity]. rewrite seq_fin. now apply IHo.
    + destruct (value g c) as [[z|[|]]|]; try reflexivity; [now rewrite seq_fin|exact IH].
  - destruct (value g e) as [v|]; [|reflexivity]. induction IHl as [|[cs x] l H _ IH]; cbn [map fst snd] in *; [reflexivity|].
    destruct (covers value variable g v cs) as [[|]|]; [now rewrite seq_fin|exact IH|reflexivity].
Qed.
Lemma Qo_fin exact a b : Qo exact a b -> Qo exact (fin a) (fin b).
Proof. intros [->|[E ->]]; [now left|now right]. Qed.
