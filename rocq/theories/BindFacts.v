(** Lemmas for C59: values and scopes of the expressions of sessions. *)
From Coq Require Import String List ZArith Bool Lia.
From Verif Require Import Base Expr SessionType SessionEval BindExpr BindSpec.
Import ListNotations.
Local Open Scope string_scope.
Local Open Scope list_scope.
Local Open Scope Z_scope.

(** for 'Present: also the prefix of the selection *)
Definition below (P : bx -> Prop) (e : bx) : Prop := match e with BSel q _ _ => P q | _ => True end.
Section Ind.
  Variable P : bx -> Prop.
  Hypothesis Hb : forall b, P (BBool b).
  Hypothesis Hn : forall v, P (BNum v).
  Hypothesis Hv : forall x s, P (BVar x s).
  Hypothesis Hnot : forall e, P e -> P (BNot e).
  Hypothesis Hass : forall o ts, Forall P ts -> P (BAss o ts).
  Hypothesis Hbin : forall o l r, P l -> P r -> P (BBin o l r).
  Hypothesis Hrel : forall o l r, P l -> P r -> P (BRel o l r).
  Hypothesis Hin : forall s l r, P l -> P r -> P (BIn s l r).
  Hypothesis Hattr : forall a e s, P e -> below P e -> P (BAttr a e s).
  Hypothesis Hsel : forall e f s, P e -> P (BSel e f s).
  Hypothesis Hcall : forall f args s, Forall P args -> P (BCall f args s).
  Hypothesis Hagg : forall es, Forall P es -> P (BAgg es).
  Hypothesis Hquant : forall a x i p, P i -> P p -> P (BQuant a x i p).
  Hypothesis Hconv : forall t e, P e -> P (BConv t e).
  Hypothesis Hcompr : forall x a s c, P a -> P s -> P c -> P (BCompr x a s c).
  Hypothesis Hmsg : forall t fs, Forall (fun p => P (snd p)) fs -> P (BMsg t fs).
  Hypothesis Hbind : forall e data, P e -> Forall (fun p => P (snd p)) data -> P (BBind e data).
  Fixpoint bx_ind' (e : bx) : P e :=
    let all := fix go (l : list bx) : Forall P l :=
                 match l with [] => Forall_nil _ | x :: r => Forall_cons _ (bx_ind' x) (go r) end in
    let alls := fix go (l : list (string * bx)) : Forall (fun p => P (snd p)) l :=
                 match l with [] => Forall_nil _ | x :: r => Forall_cons x (bx_ind' (snd x)) (go r) end in
    match e with
    | BBool b => Hb b
    | BNum v => Hn v
    | BVar x s => Hv x s
    | BNot x => Hnot x (bx_ind' x)
    | BAss o ts => Hass o ts (all ts)
    | BBin o l r => Hbin o l r (bx_ind' l) (bx_ind' r)
    | BRel o l r => Hrel o l r (bx_ind' l) (bx_ind' r)
    | BIn s l r => Hin s l r (bx_ind' l) (bx_ind' r)
    | BAttr a x s => Hattr a x s (bx_ind' x) (match x as y return below P y with BSel q _ _ => bx_ind' q | _ => I end)
    | BSel x f s => Hsel x f s (bx_ind' x)
    | BCall f args s => Hcall f args s (all args)
    | BAgg es => Hagg es (all es)
    | BQuant a x i p => Hquant a x i p (bx_ind' i) (bx_ind' p)
    | BConv t x => Hconv t x (bx_ind' x)
    | BCompr x a s c => Hcompr x a s c (bx_ind' a) (bx_ind' s) (bx_ind' c)
    | BMsg t fs => Hmsg t fs (alls fs)
    | BBind x data => Hbind x data (bx_ind' x) (alls data)
    end.
End Ind.

(** ** outcomes *)
Lemma after_val {A B} (o : outcome A) (k : A -> outcome B) b : after o k = Val b -> exists a, o = Val a /\ k a = Val b.
Proof. destruct o; cbn; try discriminate. eauto. Qed.
Lemma Val_inj {A} (a b : A) : Val a = Val b -> a = b.
Proof. congruence. Qed.
Lemma each_val {A B} (f : A -> outcome B) l bs : each f l = Val bs <-> Forall2 (fun a b => f a = Val b) l bs.
Proof.
  revert bs. induction l as [|a l IH]; intros bs; cbn [each].
  - split; intros H; [apply Val_inj in H as <-; constructor|inversion H; reflexivity].
  - split; intros H.
    + apply after_val in H as (b & E & H). apply after_val in H as (r & E' & H). apply Val_inj in H as <-.
      constructor; [exact E|]. now apply IH.
    + inversion H as [|? b ? r E F]; subst. rewrite E. cbn [after]. apply IH in F. rewrite F. reflexivity.
Qed.
Lemma each_ext {A B} (f g : A -> outcome B) l : Forall (fun a => f a = g a) l -> each f l = each g l.
Proof. induction 1 as [|a l E _ IH]; cbn [each]; [reflexivity|]. now rewrite E, IH. Qed.
Lemma each_ext' {A B} (f g : A -> outcome B) l : (forall a, f a = g a) -> each f l = each g l.
Proof. intros H. apply each_ext. now apply Forall_forall. Qed.
Lemma each_map {A B C} (f : B -> outcome C) (h : A -> B) l : each f (map h l) = each (fun a => f (h a)) l.
Proof. induction l as [|a l IH]; cbn [each map]; [reflexivity|]. now rewrite IH. Qed.
(** the second list has the values of the first *)
Lemma each_mono {A A' B} (f : A -> outcome B) (g : A' -> outcome B) l l' :
  Forall2 (fun a a' => forall b, f a = Val b -> g a' = Val b) l l' -> forall bs, each f l = Val bs -> each g l' = Val bs.
Proof.
  induction 1 as [|a a' l l' E _ IH]; intros bs H; [exact H|]. cbn [each] in *.
  apply after_val in H as (b & E1 & H). apply after_val in H as (r & E2 & H). rewrite (E _ E1). cbn [after]. now rewrite (IH _ E2).
Qed.

Section World.
Variable w : world.
Notation ev := (ev w).

Definition assv (o : assop) (vs : list value) : outcome value :=
  match o with
  | OAdd => do zs <- each to_int vs ;; Val (VInt (fold_right Z.add 0 zs))
  | OMul => do zs <- each to_int vs ;; Val (VInt (fold_right Z.mul 1 zs))
  | OAnd | OAndThen => do bs <- each to_bool vs ;; Val (VBool (forallb id bs))
  | OOr | OOrElse => do bs <- each to_bool vs ;; Val (VBool (existsb id bs))
  end.
Definition sgn (s : bool) (o : outcome value) : outcome value :=
  if s then do v <- o ;; do z <- to_int v ;; Val (VInt (- z)) else o.
Lemma ev_signed st s e : eval w st (signed s e) = sgn s (eval w st e).
Proof.
  destruct s; [|reflexivity]. cbn [signed sgn eval after].
  destruct (eval w st e) as [v| |]; [|reflexivity|reflexivity]. cbn [after to_int]. destruct v; reflexivity.
Qed.
Lemma ev_ass st o ts : ev st (BAss o ts) = do vs <- each (ev st) ts ;; assv o vs.
Proof. unfold BindSpec.ev. cbn [to_sx eval]. rewrite each_map. destruct o; reflexivity. Qed.
Lemma ev_var st x s : ev st (BVar x s) = sgn s (match st x with Some v => Val v | None => Stuck end).
Proof. apply ev_signed. Qed.
Lemma ev_call st f args s : ev st (BCall f args s) = sgn s (do vs <- each (ev st) args ;; w_call w f vs).
Proof. unfold BindSpec.ev. cbn [to_sx]. rewrite ev_signed. cbn [eval]. now rewrite each_map. Qed.
Definition selv (f : string) (v : value) : outcome value :=
  match v with
  | VMsg t fs => if existsb (String.eqb f) (w_fields w t) then match assoc f fs with Some x => Val x | None => Raise end else Stuck
  | _ => Stuck
  end.
Lemma ev_sel st p f s : ev st (BSel p f s) = sgn s (do v <- ev st p ;; selv f v).
Proof. unfold BindSpec.ev. cbn [to_sx]. rewrite ev_signed. reflexivity. Qed.
Lemma ev_agg st es : ev st (BAgg es) = do vs <- each (ev st) es ;; Val (VSeq vs).
Proof. unfold BindSpec.ev. cbn [to_sx eval]. now rewrite each_map. Qed.
Definition opaque (v : value) : value := match v with VMsg _ _ => VSeq (map VInt (w_bytes w v)) | _ => v end.
Lemma ev_msg st t fs : ev st (BMsg t fs) =
  do vs <- each (fun p => do v <- ev st (snd p) ;; Val (fst p, opaque v)) fs ;;
  if w_full w (map snd vs) then Raise else Val (VMsg (w_message w t) vs).
Proof.
  unfold BindSpec.ev. cbn [to_sx eval]. rewrite each_map. f_equal. apply each_ext'. intros [k v]. reflexivity.
Qed.
Lemma ev_bind st x data : ev st (BBind x data) =
  do vs <- each (fun p => do v <- ev st (snd p) ;; Val (fst p, v)) data ;; ev (upd_all st vs) x.
Proof.
  unfold BindSpec.ev. cbn [to_sx eval]. rewrite each_map. f_equal. apply each_ext'. intros [k v]. reflexivity.
Qed.
Lemma ev_quant st a x i p : ev st (BQuant a x i p) =
  do v <- ev st i ;; do vs <- to_seq v ;;
  do bs <- each (fun y => do b <- ev (upd st x y) p ;; to_bool b) vs ;;
  Val (VBool (if a then forallb id bs else existsb id bs)).
Proof. reflexivity. Qed.
Lemma ev_compr st x a s c : ev st (BCompr x a s c) =
  do v <- ev st a ;; do vs <- to_seq v ;;
  do r <- each (fun y => do b <- ev (upd st x y) c ;; do k <- to_bool b ;;
                         if k then do z <- ev (upd st x y) s ;; Val [z] else Val []) vs ;;
  if w_full w (List.concat r) then Raise else Val (VSeq (List.concat r)).
Proof. reflexivity. Qed.
Lemma ev_not st x : ev st (BNot x) = do v <- ev st x ;; do b <- to_bool v ;; Val (VBool (negb b)).
Proof. reflexivity. Qed.
Definition binv (o : binop) (a b : value) : outcome value :=
  do x <- to_int a ;; do y <- to_int b ;; do z <- arith o x y ;; Val (VInt z).
Lemma ev_bin st o l r : ev st (BBin o l r) = do a <- ev st l ;; do b <- ev st r ;; binv o a b.
Proof. reflexivity. Qed.
Definition relv (o : relop) (a b : value) : outcome value :=
  match o with
  | OEq | ONe => if comparable a b then Val (VBool (Bool.eqb (value_eqb a b) (match o with OEq => true | _ => false end))) else Stuck
  | _ => do x <- to_int a ;; do y <- to_int b ;; Val (VBool (less o x y))
  end.
Lemma ev_rel st o l r : ev st (BRel o l r) = do a <- ev st l ;; do b <- ev st r ;; relv o a b.
Proof. reflexivity. Qed.
Definition inv (s : bool) (a b : value) : outcome value :=
  do vs <- to_seq b ;; Val (VBool (Bool.eqb (existsb (value_eqb a) vs) s)).
Lemma ev_in st s l r : ev st (BIn s l r) = do a <- ev st l ;; do b <- ev st r ;; inv s a b.
Proof. reflexivity. Qed.
Definition convv (t : string) (v : value) : outcome value :=
  do bs <- to_seq v ;;
  match w_parse w (w_message w t) bs with Some fs => Val (VMsg (w_message w t) fs) | None => Raise end.
Lemma ev_conv st t p : ev st (BConv t p) = do v <- ev st p ;; convv t v.
Proof. reflexivity. Qed.
(** attributes: of a name, of a selection or of a value *)
Definition attrv (a : sattr) (v : value) : outcome value :=
  match a with
  | SInt at_ => Val (VInt (w_attr w at_ v))
  | SValidChecksum => Val (VBool (w_checksum w v))
  | SValid => match v with VSeq _ | VMsg _ _ => Val (VBool (w_valid w v)) | _ => Stuck end
  | SPresent => Stuck
  | SHead => do vs <- to_seq v ;; match vs with [] => Raise | h :: _ => Val h end
  | SOpaque => match v with VMsg _ _ => Val (VSeq (map VInt (w_bytes w v))) | _ => Stuck end
  end.
Definition presentv (f : string) (v : value) : outcome value :=
  match v with VMsg _ fs => Val (VBool (has f fs)) | _ => Stuck end.
Lemma ev_attr st a p s : ev st (BAttr a p s) =
  sgn s (match a, p with
         | SInt at_, BVar x false => Val (VInt (w_name w at_ x))
         | SPresent, BSel q f false => do v <- ev st q ;; presentv f v
         | SPresent, _ => Stuck
         | _, _ => do v <- ev st p ;; attrv a v
         end).
Proof.
  unfold BindSpec.ev. cbn [to_sx]. rewrite ev_signed. f_equal.
  destruct a; try reflexivity; destruct p as [| |x [|]| | | | | |? ? [|]|? ? [|]|? ? [|]| | | | | |]; try reflexivity.
Qed.
End World.

(** ** scopes *)
Lemma forallb_impl {A} (p q : A -> bool) l : Forall (fun x => p x = true -> q x = true) l -> forallb p l = true -> forallb q l = true.
Proof.
  induction 1 as [|x l H _ IH]; cbn; [auto|]. intros E. apply andb_true_iff in E as [E1 E2]. now rewrite (H E1), (IH E2).
Qed.
Lemma within_mono g : forall e A A', (forall x, A x = true -> A' x = true) -> within g A e = true -> within g A' e = true.
Proof.
  assert (PL : forall (A A' : scope) x, (forall y, A y = true -> A' y = true) -> forall y, plus A x y = true -> plus A' x y = true).
  { unfold plus. intros A A' x H y. destruct (String.eqb y x); cbn; auto. }
  assert (MI : forall (A A' : scope) x, (forall y, A y = true -> A' y = true) -> forall y, (if g then minus A x else A) y = true -> (if g then minus A' x else A') y = true).
  { destruct g; [|auto]. unfold minus. intros A A' x H y. destruct (String.eqb y x); cbn; auto. }
  induction e using bx_ind'; intros A A' S; cbn [within]; auto;
    try (intros E; apply andb_true_iff in E as [E1 E2]; rewrite (IHe1 _ _ S E1), (IHe2 _ _ S E2); reflexivity).
  - now apply IHe.
  - apply forallb_impl. eapply Forall_impl; [|eassumption]. cbn. intros e H0. now apply H0.
  - now apply IHe.
  - now apply IHe.
  - apply forallb_impl. eapply Forall_impl; [|eassumption]. cbn. intros e H0. now apply H0.
  - apply forallb_impl. eapply Forall_impl; [|eassumption]. cbn. intros e H0. apply H0. destruct g; auto.
  - intros E. apply andb_true_iff in E as [E1 E2]. rewrite (IHe1 _ _ (MI _ _ x S) E1), (IHe2 _ _ (PL _ _ x S) E2). reflexivity.
  - now apply IHe.
  - intros E. apply andb_true_iff in E as [E E3]. apply andb_true_iff in E as [E1 E2].
    rewrite (IHe1 _ _ (MI _ _ x S) E1), (IHe2 _ _ (PL _ _ x S) E2), (IHe3 _ _ (PL _ _ x S) E3). reflexivity.
  - apply forallb_impl. eapply Forall_impl; [|eassumption]. cbn. intros p H0. now apply H0.
  - intros E. apply andb_true_iff in E as [E1 E2]. apply andb_true_iff. split.
    + revert E1. apply forallb_impl. eapply Forall_impl; [|eassumption]. cbn. intros p H0. now apply H0.
    + revert E2. apply IHe. unfold plus_all. intros y. destruct (mem y (map fst data)); cbn; auto.
Qed.
Lemma forallb_Forall {A} (p : A -> bool) l : forallb p l = true <-> Forall (fun x => p x = true) l.
Proof. rewrite forallb_forall. symmetry. apply Forall_forall. Qed.

(** an expression means the same in stores which agree on the scope *)
Lemma upd_agree (st st' : store) (A : scope) x v : (forall y, A y = true -> st y = st' y) ->
  forall y, plus A x y = true -> upd st x v y = upd st' x v y.
Proof. unfold plus, upd. intros H y. destruct (String.eqb y x); cbn; auto. Qed.
Lemma mem_In x l : mem x l = true <-> In x l.
Proof.
  unfold mem. rewrite existsb_exists. split.
  - intros (y & I & E). apply String.eqb_eq in E as ->. exact I.
  - intros I. exists x. split; [exact I|apply String.eqb_refl].
Qed.
Lemma upd_all_agree (st st' : store) (A : scope) vs : (forall y, A y = true -> st y = st' y) ->
  forall y, plus_all A (map fst vs) y = true -> upd_all st vs y = upd_all st' vs y.
Proof.
  intros H. induction vs as [|[k v] r IH]; cbn [upd_all map fst]; intros y.
  - unfold plus_all. cbn. apply H.
  - unfold upd, plus_all in *. cbn. destruct (String.eqb y k); cbn; auto.
Qed.
Lemma bound_keys {B} (f : bx -> outcome B) data vs :
  Forall2 (fun (p : string * bx) b => (do v <- f (snd p) ;; Val (fst p, v)) = Val b) data vs -> map fst vs = map fst data.
Proof.
  induction 1 as [|p b l bs E _ IH]; [reflexivity|]. apply after_val in E as (v & _ & E). apply Val_inj in E as <-. cbn. now rewrite IH.
Qed.

Lemma ev_agree w g : forall e A st st', within g A e = true -> (forall x, A x = true -> st x = st' x) -> ev w st e = ev w st' e.
Proof.
  assert (MI : forall (A : scope) x y, (if g then minus A x else A) y = true -> A y = true).
  { destruct g; [|auto]. unfold minus. intros A x y H. now apply andb_true_iff in H. }
  assert (L : forall ts, Forall (fun e => forall A st st', within g A e = true -> (forall x, A x = true -> st x = st' x) -> ev w st e = ev w st' e) ts ->
    forall A st st', forallb (within g A) ts = true -> (forall x, A x = true -> st x = st' x) -> each (ev w st) ts = each (ev w st') ts).
  { intros ts F A st st' W S. apply each_ext. rewrite forallb_Forall in W. rewrite Forall_forall in *. intros e I. now apply (F e I A); [apply W|]. }
  assert (L2 : forall fs (K : string -> value -> string * value), Forall (fun p => forall A st st', within g A (snd p) = true -> (forall x, A x = true -> st x = st' x) -> ev w st (snd p) = ev w st' (snd p)) fs ->
    forall A st st', forallb (fun p => within g A (snd p)) fs = true -> (forall x, A x = true -> st x = st' x) ->
    each (fun p : string * bx => do v <- ev w st (snd p) ;; Val (K (fst p) v)) fs = each (fun p => do v <- ev w st' (snd p) ;; Val (K (fst p) v)) fs).
  { intros fs K F A st st' W S. apply each_ext. rewrite forallb_Forall in W. rewrite Forall_forall in *. intros p I. now rewrite (F p I A st st' (W p I) S). }
  induction e using bx_ind'; intros A st st' W S; cbn [within] in W.
  - reflexivity.
  - reflexivity.
  - rewrite !ev_var. now rewrite (S x W).
  - rewrite !ev_not. now rewrite (IHe _ _ _ W S).
  - rewrite !ev_ass. now rewrite (L ts H _ _ _ W S).
  - apply andb_true_iff in W as [W1 W2]. rewrite !ev_bin. now rewrite (IHe1 _ _ _ W1 S), (IHe2 _ _ _ W2 S).
  - apply andb_true_iff in W as [W1 W2]. rewrite !ev_rel. now rewrite (IHe1 _ _ _ W1 S), (IHe2 _ _ _ W2 S).
  - apply andb_true_iff in W as [W1 W2]. rewrite !ev_in. now rewrite (IHe1 _ _ _ W1 S), (IHe2 _ _ _ W2 S).
  - rewrite !ev_attr. f_equal. pose proof (IHe _ _ _ W S) as E. rewrite E.
    destruct a; try reflexivity. destruct e; try reflexivity. destruct neg; [reflexivity|].
    now rewrite (H _ _ _ W S).
  - rewrite !ev_sel. now rewrite (IHe _ _ _ W S).
  - rewrite !ev_call. now rewrite (L args H _ _ _ W S).
  - rewrite !ev_agg. rewrite (L es H _ st st' W); [reflexivity|]. destruct g; [discriminate|exact S].
  - apply andb_true_iff in W as [W1 W2]. rewrite !ev_quant. rewrite (IHe1 _ st st' W1) by (intros y Hy; apply S; now apply (MI _ x)).
    destruct (ev w st' e1) as [v| |]; [|reflexivity|reflexivity]. cbn [after]. destruct (to_seq v) as [vs| |]; [|reflexivity|reflexivity]. cbn [after].
    f_equal. apply each_ext'. intros y. now rewrite (IHe2 _ (upd st x y) (upd st' x y) W2 (upd_agree _ _ _ x y S)).
  - rewrite !ev_conv. now rewrite (IHe _ _ _ W S).
  - apply andb_true_iff in W as [W W3]. apply andb_true_iff in W as [W1 W2]. rewrite !ev_compr.
    rewrite (IHe1 _ st st' W1) by (intros y Hy; apply S; now apply (MI _ x)).
    destruct (ev w st' e1) as [v| |]; [|reflexivity|reflexivity]. cbn [after]. destruct (to_seq v) as [vs| |]; [|reflexivity|reflexivity]. cbn [after].
    f_equal. apply each_ext'. intros y.
    now rewrite (IHe3 _ (upd st x y) (upd st' x y) W3 (upd_agree _ _ _ x y S)), (IHe2 _ (upd st x y) (upd st' x y) W2 (upd_agree _ _ _ x y S)).
  - rewrite !ev_msg. now rewrite (L2 fs (fun k v => (k, opaque w v)) H _ _ _ W S).
  - apply andb_true_iff in W as [W1 W2]. rewrite !ev_bind. rewrite (L2 data (fun k v => (k, v)) H _ _ _ W1 S).
    destruct (each _ data) as [vs| |] eqn:E; [|reflexivity|reflexivity]. cbn [after].
    apply each_val in E. apply bound_keys in E. rewrite <- E in W2. apply (IHe _ _ _ W2). now apply upd_all_agree.
Qed.

(** ** equality *)
Lemma list_eqb_eq {A} (f : A -> A -> bool) l : Forall (fun x => forall y, f x y = true -> x = y) l -> forall m, list_eqb f l m = true -> l = m.
Proof.
  induction 1 as [|x l H _ IH]; intros [|y m]; cbn; try discriminate; [reflexivity|]. intros E. apply andb_true_iff in E as [E1 E2]. now rewrite (H _ E1), (IH _ E2).
Qed.
Lemma bx_eqb_eq : forall a b, bx_eqb a b = true -> a = b.
Proof.
  assert (LF : forall fs : list (string * bx), Forall (fun p => forall b, bx_eqb (snd p) b = true -> snd p = b) fs ->
    Forall (fun p : string * bx => forall q, String.eqb (fst p) (fst q) && bx_eqb (snd p) (snd q) = true -> p = q) fs).
  { intros fs. apply Forall_impl. intros [k v] H [k' v'] E. cbn in *. apply andb_true_iff in E as [E1 E2]. apply String.eqb_eq in E1. now rewrite E1, (H _ E2). }
  induction a using bx_ind'; intros []; cbn [bx_eqb]; try discriminate; rewrite ?andb_true_iff, ?String.eqb_eq, ?Bool.eqb_true_iff, ?Z.eqb_eq.
  - congruence.
  - congruence.
  - intros [-> ->]. reflexivity.
  - intros E. f_equal. auto.
  - intros [E1 E2]. apply (list_eqb_eq _ _ H) in E2 as ->. f_equal. destruct o, o0; try discriminate E1; reflexivity.
  - intros [[E1 E2] E3]. rewrite (IHa1 _ E2), (IHa2 _ E3). f_equal. destruct o, o0; try discriminate E1; reflexivity.
  - intros [[E1 E2] E3]. rewrite (IHa1 _ E2), (IHa2 _ E3). f_equal. destruct o, o0; try discriminate E1; reflexivity.
  - intros [[-> E2] E3]. rewrite (IHa1 _ E2), (IHa2 _ E3). reflexivity.
  - intros [[E1 E2] ->]. rewrite (IHa _ E2). f_equal. destruct a as [[]| | | | |], a1 as [[]| | | | |]; try discriminate E1; reflexivity.
  - intros [[E1 ->] ->]. now rewrite (IHa _ E1).
  - intros [[-> E2] ->]. now apply (list_eqb_eq _ _ H) in E2 as ->.
  - intros E2. now apply (list_eqb_eq _ _ H) in E2 as ->.
  - intros [[[-> ->] E2] E3]. now rewrite (IHa1 _ E2), (IHa2 _ E3).
  - intros [-> E]. now rewrite (IHa _ E).
  - intros [[[-> E1] E2] E3]. now rewrite (IHa1 _ E1), (IHa2 _ E2), (IHa3 _ E3).
  - intros [-> E]. now rewrite (list_eqb_eq _ _ (LF _ H) _ E).
  - intros [E1 E]. now rewrite (IHa _ E1), (list_eqb_eq _ _ (LF _ H) _ E).
Qed.
