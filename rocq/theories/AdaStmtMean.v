(** Facts: grouping choices with the same statements keeps what the statements do. *)
From Coq Require Import String Ascii List ZArith Bool Lia.
From Verif Require Import Base Ident Expr ExprEval ExprTotal ExprMore ExprFacts ExprPrint ExprRead ExprReadFacts ExprReadTree ExprAda AdaStmt AdaStmtSpec AdaStmtFacts AdaStmtRead.
Import ListNotations.
Local Open Scope string_scope.
Local Open Scope list_scope.
Local Open Scope nat_scope.

(** what the objects stand for: each pair of a case statement is an alternative *)
Fixpoint as_prog (s : stmt) : prog expr :=
  match s with
  | SNull => PNull
  | SAssign id e => PAssign id e
  | SCall id l => PCall id l
  | SPragma id l => PPragma id l
  | SReturn e => PReturn e
  | SIf l e => PIf (map (fun p => (fst p, map as_prog (snd p))) l) match e with Some b => map as_prog b | None => [] end
  | SCase e l => PCase e (map (fun p => ([fst p], map as_prog (snd p))) l)
  end.
(** the variable that an expression consists of; And (X) is X *)
Fixpoint expr_variable (e : expr) : option name :=
  match e with
  | EName n false => Some n
  | EAss _ [x] => expr_variable x
  | _ => None
  end.
(** the expressions in statements *)
Fixpoint pexprs {E} (p : prog E) : list E :=
  match p with
  | PNull => []
  | PAssign _ e | PReturn e => [e]
  | PCall _ l | PPragma _ l => l
  | PIf l e => flat_map (fun p => fst p :: flat_map pexprs (snd p)) l ++ flat_map pexprs e
  | PCase e l => e :: flat_map (fun p => fst p ++ flat_map pexprs (snd p)) l
  end.
Definition exprs_of (l : list stmt) : list expr := flat_map (fun s => pexprs (as_prog s)) l.

Lemma expr_variable_tree e : tree_variable (tree_of e) = expr_variable e.
Proof.
  induction e as [| |v|n s|x IH|o ts IH|o l r IHl IHr|o l r IHl IHr] using expr_ind'; try reflexivity.
  - cbn. unfold num_tree. now destruct (v <? 0)%Z.
  - now destruct s.
  - assert (L : forall (f : tree -> expr -> tree) l t, (forall a x, tree_variable (f a x) = None) -> tree_variable t = None ->
      tree_variable (fold_left f l t) = None).
    { intros f. induction l as [|x l IHl]; intros t H E; [exact E|]. cbn [fold_left]. apply IHl; auto. }
    assert (A : forall a x, tree_variable (add_tree a x (tree_of x)) = None).
    { intros a x. destruct x as [| |v|n [|]|?|? ?|? ? ?|? ? ?]; cbn; try reflexivity. now destruct (v <? 0)%Z. }
    destruct ts as [|x [|y ts]]; [now destruct o| |].
    + inversion IH; subst. destruct o; cbn [tree_of fold_left expr_variable]; assumption.
    + destruct o; cbn [tree_of fold_left expr_variable]; apply L; auto.
Qed.

(** equal, or not exact and the first one is no value *)
Definition Qo {X} (exact : bool) (a b : option X) : Prop := b = a \/ (exact = false /\ a = None).
Lemma Qo_refl {X} exact (a : option X) : Qo exact a a.
Proof. now left. Qed.

Section Run.
  Context (store : env -> string -> val -> env) (call pragma : string -> list (option name * val) -> env -> option env).
  Notation run v x := (exec v x store call pragma).

  Section Map.
    Context {A B : Type} (f : A -> B) (exact : bool).
    Context (va : env -> A -> option val) (xa : A -> option name) (vb : env -> B -> option val) (xb : B -> option name).
    Definition fits (e : A) : Prop := (forall g, Qo exact (va g e) (vb g (f e))) /\ xb (f e) = xa e.

    Lemma args_Q g l : (forall e, In e l -> fits e) -> Qo exact (arguments va xa g l) (arguments vb xb g (map f l)).
    Proof.
      induction l as [|e l IH]; intros H; [now left|]. cbn [arguments map].
      destruct (H e (or_introl eq_refl)) as [H1 H2]. rewrite H2. specialize (IH (fun x Hx => H x (or_intror Hx))).
      destruct (H1 g) as [-> |[E ->]]; [|now right]. destruct IH as [-> |[E ->]]; [now left|right]. split; [exact E|]. now destruct (va g e).
    Qed.
    Lemma covers_Q g v l : (forall e, In e l -> fits e) -> Qo exact (covers va xa g v l) (covers vb xb g v (map f l)).
    Proof.
      induction l as [|e l IH]; intros H; [now left|]. cbn [covers map].
      destruct (H e (or_introl eq_refl)) as [H1 H2]. specialize (IH (fun x Hx => H x (or_intror Hx))).
      unfold others. rewrite H2. destruct (match xa e with Some (NVar id) => String.eqb (lower id) "others" | _ => false end); [now left|].
      destruct (H1 g) as [-> |[E ->]]; [|now right]. destruct (va g e) as [w|]; [|now left]. destruct (val_eqb w v); [now left|exact IH].
    Qed.
    Lemma seq_Q l : Forall (fun p => (forall e, In e (pexprs p) -> fits e) -> forall g, Qo exact (run va xa g p) (run vb xb g (pmap f p))) l ->
      (forall e, In e (flat_map pexprs l) -> fits e) -> forall g, Qo exact (seq (run va xa) l g) (seq (run vb xb) (map (pmap f) l) g).
    Proof.
      induction 1 as [|p l Hp _ IH]; intros H g; [now left|]. cbn [seq map flat_map] in *. fold (seq (run va xa)) (seq (run vb xb)).
      assert (Hp' : forall e, In e (pexprs p) -> fits e) by (intros e He; apply H, in_or_app; now left).
      assert (Hl : forall e, In e (flat_map pexprs l) -> fits e) by (intros e He; apply H, in_or_app; now right).
      destruct (Hp Hp' g) as [-> |[E ->]]; [|now right]. destruct (run va xa g p) as [[g' [v|]]|]; [now left| |now left]. apply IH, Hl.
    Qed.
    Lemma exec_Q p : (forall e, In e (pexprs p) -> fits e) -> forall g, Qo exact (run va xa g p) (run vb xb g (pmap f p)).
    Proof.
      induction p as [|id e|id l|id l|e|l e IHl IHe|e l IHl] using prog_ind'; intros H g; cbn [exec pmap].
      - now left.
      - destruct (proj1 (H e (or_introl eq_refl)) g) as [-> |[E ->]]; [now left|now right].
      - destruct (args_Q g l H) as [-> |[E ->]]; [now left|now right].
      - destruct (args_Q g l H) as [-> |[E ->]]; [now left|now right].
      - destruct (proj1 (H e (or_introl eq_refl)) g) as [-> |[E ->]]; [now left|now right].
      - cbn [pexprs] in H. induction IHl as [|[c b] l Hb _ IH]; cbn [map fst snd].
        + apply seq_Q; [exact IHe|]. intros e' He'. apply H, in_or_app. now right.
        + assert (Hc : fits c) by (apply H; cbn; now left).
          destruct (proj1 Hc g) as [-> |[E ->]]; [|now right].
          destruct (va g c) as [[z|[|]]|]; try now left.
          * apply seq_Q; [exact Hb|]. intros e' He'. apply H. cbn [flat_map snd]. apply in_or_app. left. right. apply in_or_app. now left.
          * apply IH. intros e' He'. apply H. cbn [flat_map]. right. rewrite <- app_assoc. apply in_or_app. right.
            exact He'.
      - cbn [pexprs] in H. destruct (proj1 (H e (or_introl eq_refl)) g) as [-> |[E ->]]; [|now right].
        destruct (va g e) as [v|]; [|now left].
        assert (H' : forall x, In x (flat_map (fun p => fst p ++ flat_map pexprs (snd p)) l) -> fits x) by (intros x Hx; apply H; now right).
        clear H. induction IHl as [|[cs b] l Hb _ IH]; cbn [map fst snd]; [now left|]. cbn [flat_map fst snd] in H'.
        assert (Hc : forall x, In x cs -> fits x) by (intros x Hx; apply H'; rewrite <- app_assoc; apply in_or_app; now left).
        destruct (covers_Q g v cs Hc) as [-> |[E ->]]; [|now right].
        destruct (covers va xa g v cs) as [[|]|]; [|apply IH; intros x Hx; apply H', in_or_app; now right|now left].
        apply seq_Q; [exact Hb|]. intros x Hx. apply H'. rewrite <- app_assoc. apply in_or_app. right. apply in_or_app. now left.
    Qed.
  End Map.

  (** *** Identifiers of calls *)
  Fixpoint plow {A} (p : prog A) : prog A :=
    match p with
    | PCall id l => PCall (lower id) l
    | PPragma id l => PPragma (lower id) l
    | PIf l e => PIf (map (fun p => (fst p, map plow (snd p))) l) (map plow e)
    | PCase e l => PCase e (map (fun p => (fst p, map plow (snd p))) l)
    | _ => p
    end.
  Lemma lower_low s : lower (lower s) = lower s.
  Proof.
    induction s as [|c s IH]; [reflexivity|]. cbn [lower]. rewrite IH. f_equal.
    destruct c as [[] [] [] [] [] [] [] []]; reflexivity.
  Qed.
  Lemma seq_ext {A B} (x : env -> prog A -> option (env * option val)) (y : env -> prog B -> option (env * option val)) l m :
    Forall2 (fun p q => forall g, x g p = y g q) l m -> forall g, seq x l g = seq y m g.
  Proof.
    induction 1 as [|p q l m H _ IH]; intros g; [reflexivity|]. cbn [seq]. fold (seq x) (seq y). rewrite H.
    destruct (y g q) as [[g' [v|]]|]; auto.
  Qed.
  Lemma Forall2_map_r {A B} (R : A -> B -> Prop) (f : A -> B) l : Forall (fun x => R x (f x)) l -> Forall2 R l (map f l).
  Proof. induction 1; constructor; auto. Qed.
  Lemma Forall2_maps {X A B} (R : A -> B -> Prop) (f : X -> A) (h : X -> B) l : Forall (fun x => R (f x) (h x)) l -> Forall2 R (map f l) (map h l).
  Proof. induction 1; constructor; auto. Qed.
  Lemma exec_low {A} (v : env -> A -> option val) x p : forall g, run v x g (plow p) = run v x g p.
  Proof.
    induction p as [|id e|id l|id l|e|l e IHl IHe|e l IHl] using prog_ind'; intros g; cbn [exec plow]; try reflexivity.
    - now rewrite lower_low.
    - now rewrite lower_low.
    - assert (S : forall b, Forall (fun p => forall g, run v x g (plow p) = run v x g p) b ->
        seq (run v x) (map plow b) g = seq (run v x) b g).
      { intros b F. symmetry. apply seq_ext. apply Forall2_map_r. eapply Forall_impl; [|exact F]. intros p H g'. now rewrite H. }
      rewrite <- (S e IHe). induction IHl as [|[c b] l Hb _ IH]; cbn [map fst snd]; [reflexivity|].
      rewrite IH, (S b Hb). reflexivity.
    - destruct (v g e) as [w|]; [|reflexivity].
      assert (S : forall b, Forall (fun p => forall g, run v x g (plow p) = run v x g p) b ->
        seq (run v x) (map plow b) g = seq (run v x) b g).
      { intros b F. symmetry. apply seq_ext. apply Forall2_map_r. eapply Forall_impl; [|exact F]. intros p H g'. now rewrite H. }
      induction IHl as [|[c b] l Hb _ IH]; cbn [map fst snd]; [reflexivity|].
      rewrite IH, (S b Hb). reflexivity.
  Qed.

  (** *** Equal statements *)
  Section Equal.
    Context (h : expr -> expr) (Hh : forall a b, ada_eqb a b = true -> h a = h b).
    Lemma list_eqb_map {X Y} (eqb : X -> X -> bool) (k : X -> Y) : forall l, Forall (fun x => forall y, eqb x y = true -> k x = k y) l ->
      forall m, list_eqb eqb l m = true -> map k l = map k m.
    Proof.
      induction 1 as [|x l H _ IH]; intros [|y m] E; try discriminate; [reflexivity|]. cbn [list_eqb map] in *. fold (list_eqb eqb) in E.
      apply andb_true_iff in E as [E1 E2]. f_equal; auto.
    Qed.
    Definition canon (s : stmt) : prog expr := plow (pmap h (as_prog s)).
    Lemma canon_exprs l m : list_eqb ada_eqb l m = true -> map h l = map h m.
    Proof. apply list_eqb_map. apply Forall_forall. intros x _ y. apply Hh. Qed.
    Lemma canon_if l e : canon (SIf l e) = PIf (map (fun p => (h (fst p), map canon (snd p))) l) match e with Some b => map canon b | None => [] end.
    Proof.
      unfold canon. cbn [as_prog pmap plow]. f_equal.
      - rewrite !map_map. apply map_ext. intros [c b]. cbn [fst snd]. now rewrite !map_map.
      - destruct e as [b|]; [|reflexivity]. now rewrite !map_map.
    Qed.
    Lemma canon_case e l : canon (SCase e l) = PCase (h e) (map (fun p => ([h (fst p)], map canon (snd p))) l).
    Proof.
      unfold canon. cbn [as_prog pmap plow]. f_equal.
      rewrite !map_map. apply map_ext. intros [c b]. cbn [fst snd map]. now rewrite !map_map.
    Qed.
    Lemma canon_equal s : forall t, stmt_eqb s t = true -> canon s = canon t.
    Proof.
      induction s as [|id e|id l|id l|e|l e IHl IHe|e l IHl] using stmt_ind'; intros t E; destruct t as [|id' e'|id' l'|id' l'|e'|l' e'|e' l'];
        cbn [stmt_eqb] in E; try discriminate; try reflexivity; try (apply andb_true_iff in E as [E1 E2]).
      - apply String.eqb_eq in E1. apply Hh in E2. unfold canon. cbn. now rewrite E1, E2.
      - apply String.eqb_eq in E1. apply canon_exprs in E2. unfold canon. cbn [as_prog pmap plow]. now rewrite E1, E2.
      - apply String.eqb_eq in E1. apply canon_exprs in E2. unfold canon. cbn [as_prog pmap plow]. now rewrite E1, E2.
      - apply Hh in E. unfold canon. cbn. now rewrite E.
      - rewrite !canon_if. f_equal.
        + eapply list_eqb_map; [|exact E1]. eapply Forall_impl; [|exact IHl]. intros p Hp q Eq. cbn beta in *.
          apply andb_true_iff in Eq as [Ec Eb]. f_equal; [now apply Hh|]. eapply list_eqb_map; eauto.
        + destruct e as [b|], e' as [b'|]; try discriminate; [|reflexivity]. eapply list_eqb_map; eauto.
      - rewrite !canon_case. f_equal; [now apply Hh|].
        eapply list_eqb_map; [|exact E2]. eapply Forall_impl; [|exact IHl]. intros p Hp q Eq. cbn beta in *.
        apply andb_true_iff in Eq as [Ec Eb]. f_equal; [now rewrite (Hh _ _ Ec)|]. eapply list_eqb_map; eauto.
    Qed.

    Context (value : env -> expr -> option val).
    Definition kept (e : expr) : Prop := (forall g, value g (h e) = value g e) /\ expr_variable (h e) = expr_variable e.
    Lemma exec_canon s g : (forall e, In e (pexprs (as_prog s)) -> kept e) -> run value expr_variable g (canon s) = run value expr_variable g (as_prog s).
    Proof.
      intros K. unfold canon. rewrite exec_low.
      destruct (exec_Q h true value expr_variable value expr_variable (as_prog s)) with (g := g) as [E|[E _]]; [|exact E|discriminate].
      intros e He. destruct (K e He) as [K1 K2]. split; [intros g'; left; apply K1|exact K2].
    Qed.
    Lemma seq_equal a b : list_eqb stmt_eqb a b = true -> (forall e, In e (exprs_of a) -> kept e) -> (forall e, In e (exprs_of b) -> kept e) ->
      forall g, seq (run value expr_variable) (map as_prog a) g = seq (run value expr_variable) (map as_prog b) g.
    Proof.
      intros E Ka Kb g.
      assert (M : map canon a = map canon b).
      { eapply list_eqb_map; [|exact E]. apply Forall_forall. intros x _ y. apply canon_equal. }
      assert (S : forall c, (forall e, In e (exprs_of c) -> kept e) ->
        seq (run value expr_variable) (map canon c) g = seq (run value expr_variable) (map as_prog c) g).
      { intros c Kc. apply seq_ext. apply Forall2_maps. apply Forall_forall. intros s Hs g'. apply exec_canon.
        intros e He. apply Kc. apply in_flat_map. eauto. }
      now rewrite <- (S a Ka), <- (S b Kb), M.
    Qed.

    Lemma covers_app g v a b : covers value expr_variable g v (a ++ b) =
      match covers value expr_variable g v a with Some false => covers value expr_variable g v b | x => x end.
    Proof.
      induction a as [|c a IH]; [reflexivity|]. cbn [app covers]. destruct (others expr_variable c); [reflexivity|].
      destruct (value g c) as [w|]; [|reflexivity]. destruct (val_eqb w v); [reflexivity|exact IH].
    Qed.

    Context (alike : list stmt -> list stmt -> bool).
    Lemma seq_grouped b : Forall (fun s => (forall e, In e (pexprs (as_prog s)) -> kept e) -> forall g,
        run value expr_variable g (grouped alike s) = run value expr_variable g (as_prog s)) b ->
      (forall e, In e (exprs_of b) -> kept e) -> forall g,
      seq (run value expr_variable) (map (grouped alike) b) g = seq (run value expr_variable) (map as_prog b) g.
    Proof.
      intros F K. apply seq_ext, Forall2_maps. rewrite Forall_forall in *. intros s Hs. apply F; [exact Hs|].
      intros e He. apply K. apply in_flat_map. eauto.
    Qed.
    Theorem exec_grouped s : (forall e, In e (pexprs (as_prog s)) -> kept e) -> forall g,
      run value expr_variable g (grouped alike s) = run value expr_variable g (as_prog s).
    Proof.
      induction s as [|id e|id l|id l|e|l e IHl IHe|e l IHl] using stmt_ind'; intros K g; cbn [grouped as_prog]; try reflexivity.
      - cbn [exec]. cbn [as_prog pexprs] in K.
        assert (E : seq (run value expr_variable) match e with Some b => map (grouped alike) b | None => [] end g
          = seq (run value expr_variable) match e with Some b => map as_prog b | None => [] end g).
        { destruct e as [b|]; [|reflexivity]. apply seq_grouped; [exact IHe|]. intros x Hx. apply K, in_or_app. right.
          unfold exprs_of in Hx. rewrite flat_map_concat_map, map_map, <- flat_map_concat_map. exact Hx. }
        rewrite E.
        assert (K' : forall x, In x (flat_map (fun p => fst p :: flat_map pexprs (snd p)) (map (fun p => (fst p, map as_prog (snd p))) l)) -> kept x)
          by (intros x Hx; apply K, in_or_app; now left).
        clear K E IHe. induction IHl as [|[c b] l Hb _ IH]; cbn [map fst snd]; [reflexivity|]. cbn [map flat_map fst snd] in K'.
        rewrite IH by (intros x Hx; apply K'; right; apply in_or_app; now right).
        rewrite (seq_grouped b Hb); [reflexivity|]. intros x Hx. apply K'. right. apply in_or_app. left.
        unfold exprs_of in Hx. rewrite flat_map_concat_map, map_map, <- flat_map_concat_map. exact Hx.
      - cbn [exec]. cbn [as_prog pexprs] in K.
        assert (K' : forall p, In p l -> forall x, In x (exprs_of (snd p)) -> kept x).
        { intros p Hp x Hx. apply K. right. apply in_flat_map. exists ([fst p], map as_prog (snd p)). split; [apply in_map_iff; eauto|].
          cbn [fst snd]. apply in_or_app. right. unfold exprs_of in Hx. rewrite flat_map_concat_map, map_map, <- flat_map_concat_map. exact Hx. }
        destruct (value g e) as [v|]; [|reflexivity]. clear K.
        set (go := fix go (l : list (list expr * list (prog expr))) : option (env * option val) :=
          match l with
          | [] => None
          | (cs, b) :: r => match covers value expr_variable g v cs with
                            | Some true => seq (run value expr_variable) b g | Some false => go r | None => None end
          end).
        set (same := fun x y : list stmt * list (prog expr) => same_stmts alike (fst x) (fst y)).
        set (pairs := fun l : list (expr * list stmt) => map (fun p => (fst p, (snd p, map (grouped alike) (snd p)))) l).
        assert (M : forall l, (forall p, In p l -> forall x, In x (exprs_of (snd p)) -> kept x) ->
          Forall (fun p => Forall (fun s => (forall e, In e (pexprs (as_prog s)) -> kept e) -> forall g,
            run value expr_variable g (grouped alike s) = run value expr_variable g (as_prog s)) (snd p)) l ->
          forall cs b, (forall x, In x (exprs_of b) -> kept x) ->
          Forall (fun s => (forall e, In e (pexprs (as_prog s)) -> kept e) -> forall g,
            run value expr_variable g (grouped alike s) = run value expr_variable g (as_prog s)) b ->
          go (map (fun p => (fst p, snd (snd p))) (group_from same cs (b, map (grouped alike) b) (pairs l)))
          = match covers value expr_variable g v cs with
            | Some true => seq (run value expr_variable) (map as_prog b) g
            | Some false => go (map (fun p => ([fst p], map as_prog (snd p))) l)
            | None => None
            end).
        { clear IHl K' l. induction l as [|[a k] l IH]; intros K F cs b Kb Fb.
          - cbn [pairs map group_from fst snd go]. rewrite (seq_grouped b Fb Kb). destruct (covers value expr_variable g v cs) as [[|]|]; reflexivity.
          - inversion F as [|? ? Fk F']; subst. cbn [snd] in Fk.
            assert (Kk : forall x, In x (exprs_of k) -> kept x) by exact (K (a, k) (or_introl eq_refl)).
            specialize (IH (fun p Hp => K p (or_intror Hp)) F').
            cbn [pairs map group_from fst snd]. fold (pairs l). unfold same at 1. cbn [fst].
            destruct (same_stmts alike b k) eqn:S.
            + rewrite (IH (cs ++ [a]) b Kb Fb), covers_app. destruct (covers value expr_variable g v cs) as [[|]|]; [reflexivity| |reflexivity].
              cbn [go]. unfold same_stmts in S. apply andb_true_iff in S as [S _]. now rewrite (seq_equal b k S Kb Kk).
            + cbn [map fst snd go]. fold go. rewrite (seq_grouped b Fb Kb).
              destruct (covers value expr_variable g v cs) as [[|]|]; [reflexivity| |reflexivity].
              change (go (map (fun p => (fst p, snd (snd p))) (group_from same [a] (k, map (grouped alike) k) (pairs l)))
                = go (([a], map as_prog k) :: map (fun p => ([fst p], map as_prog (snd p))) l)).
              rewrite (IH [a] k Kk Fk). reflexivity. }
        change (go (map (fun p => (fst p, snd (snd p))) (group same (pairs l))) = go (map (fun p => ([fst p], map as_prog (snd p))) l)).
        destruct l as [|[a k] l]; [reflexivity|]. inversion IHl as [|? ? Fk F']; subst.
        cbn [pairs map group fst snd]. fold (pairs l).
        rewrite (M l (fun p Hp => K' p (or_intror Hp)) F' [a] k (K' (a, k) (or_introl eq_refl)) Fk). reflexivity.
    Qed.
  End Equal.
End Run.

(** *** And and And then *)

(** other logical operators *)
Fixpoint emap (f : assop -> assop) (e : expr) : expr :=
  match e with
  | ENot x => ENot (emap f x)
  | EAss o ts => EAss (f o) (map (emap f) ts)
  | EBin o l r => EBin o (emap f l) (emap f r)
  | ERel o l r => ERel o (emap f l) (emap f r)
  | _ => e
  end.
Definition long (o : assop) : assop := match o with OAndThen => OAnd | OOrElse => OOr | _ => o end.
Definition short (o : assop) : assop := match o with OAnd => OAndThen | OOr => OOrElse | _ => o end.
Lemma ada_eqb_map f : f OAnd = f OAndThen -> f OOr = f OOrElse -> forall a b, ada_eqb a b = true -> emap f a = emap f b.
Proof.
  intros F1 F2. induction a as [ | |v|n s|a IH|o ts IH|o l r IHl IHr|o l r IHl IHr] using expr_ind';
    intros b E; destruct b as [ | |v'|n' s'|b'|o' ts'|o' l' r'|o' l' r']; cbn [ada_eqb] in E;
    try discriminate; auto; cbn [emap].
  - apply Z.eqb_eq in E. now subst.
  - apply andb_true_iff in E as [E1 E2]. apply name_eqb_eq in E1. apply eqb_prop in E2. now subst.
  - f_equal. auto.
  - apply andb_true_iff in E as [E1 E2]. f_equal.
    + destruct o, o'; try discriminate; auto.
    + eapply list_eqb_map; eauto.
  - rewrite !andb_true_iff in E. destruct E as [[E1 E2] E3].
    assert (o = o') by (destruct o, o'; try discriminate; auto). subst. f_equal; auto.
  - rewrite !andb_true_iff in E. destruct E as [[E1 E2] E3].
    assert (o = o') by (destruct o, o'; try discriminate; auto). subst. f_equal; auto.
Qed.
Lemma emap_variable f e : expr_variable (emap f e) = expr_variable e.
Proof.
  induction e as [| |v|n s|x IH|o ts IH|o l r IHl IHr|o l r IHl IHr] using expr_ind'; try reflexivity.
  destruct ts as [|x [|y ts]]; try reflexivity. inversion IH; subst. assumption.
Qed.
Lemma emap_value g e : ev false g (emap long e) = ev false g e.
Proof.
  induction e as [| |v|n s|x IH|o ts IH|o l r IHl IHr|o l r IHl IHr] using expr_ind'; try reflexivity.
  - cbn [emap ev eval] in *. unfold ev in IH. now rewrite IH.
  - cbn [emap]. rewrite !ev_EAss, map_map.
    assert (E : map (fun x => ev false g (emap long x)) ts = map (ev false g) ts).
    { clear - IH. induction IH; cbn [map]; congruence. }
    rewrite E. destruct o; reflexivity.
  - cbn [emap ev eval] in *. unfold ev in *. now rewrite IHl, IHr.
  - cbn [emap ev eval] in *. unfold ev in *. now rewrite IHl, IHr.
Qed.
