(** Lemmas on derived messages: renaming of expressions, and what it does to the graph of
    a message and to the questions asked of the solver. *)
From Coq Require Import String Ascii List ZArith Bool Lia.
From Verif Require Import Base Expr ExprEval ExprFacts ExprTotal Ident TypeSpec MsgGraph MsgGraphFacts Solver SolverFacts Verify VerifySpec VerifyFacts GenSpec DerivedMsg.
From Verif Require ExprType Typing.
Import ListNotations.
Local Open Scope string_scope.
Local Open Scope list_scope.
Local Open Scope Z_scope.
Local Open Scope res_scope.

(** ** Renaming *)

Section Rename.
  (** some names and a prefix for them *)
  Variable lits : list string.
  Variable pk : string.

  Definition prefixed (x : string) : string := (pk ++ "::" ++ x)%string.
  Definition rho (x : string) : string := if memf x lits then prefixed x else x.
  Definition ren_name (n : name) : name := with_id n (rho (id_of n)).
  Fixpoint ren (e : expr) : expr :=
    match e with
    | ETrue | EFalse | ENum _ => e
    | EName n s => EName (ren_name n) s
    | ENot x => ENot (ren x)
    | EAss o ts => EAss o (map ren ts)
    | EBin o l r => EBin o (ren l) (ren r)
    | ERel o l r => ERel o (ren l) (ren r)
    end.

  (** the names taken as their renamings are in [i] *)
  Definition pull (i : interp) : interp :=
    mkInterp (fun n => z_name i (ren_name n)) (z_div0 i) (z_mod0 i) (z_pow i).
  (** the renamed variables taken as the original ones are in [j] *)
  Definition unprefixed (y : string) : option string := find (fun x => String.eqb y (prefixed x)) lits.
  Definition push (j : interp) : interp :=
    mkInterp (fun n => z_name j (match n with
                                 | NVar y => match unprefixed y with Some x => NVar x | None => n end
                                 | NAttr _ _ => n
                                 end)) (z_div0 j) (z_mod0 j) (z_pow j).
  Definition pull_env (g : env) : env := fun n => g (ren_name n).

  (** a name that is no prefixed one, an attribute of no name to be renamed *)
  Definition clean (n : name) : Prop :=
    match n with NVar x => unprefixed x = None | NAttr _ x => memf x lits = false end.

  Lemma append_inj p x y : (p ++ x)%string = (p ++ y)%string -> x = y.
  Proof. induction p as [|c p IH]; cbn; intros E; [exact E|]. injection E as E. auto. Qed.
  Lemma prefixed_inj x y : prefixed x = prefixed y -> x = y.
  Proof. intros E. unfold prefixed in E. apply append_inj, append_inj in E. exact E. Qed.
  Lemma unprefixed_prefixed x : In x lits -> unprefixed (prefixed x) = Some x.
  Proof.
    intros I. unfold unprefixed. destruct (find _ lits) as [y|] eqn:F.
    - apply find_some in F as [_ E]. apply String.eqb_eq, prefixed_inj in E. now subst.
    - exfalso. apply (find_none _ _ F x) in I. rewrite String.eqb_refl in I. discriminate.
  Qed.
  Lemma unprefixed_none y : (forall x, In x lits -> y <> prefixed x) -> unprefixed y = None.
  Proof.
    intros H. unfold unprefixed. destruct (find _ lits) as [x|] eqn:F; [|reflexivity].
    apply find_some in F as [I E]. apply String.eqb_eq in E. destruct (H x I E).
  Qed.
  Lemma rho_in x : In x lits -> rho x = prefixed x.
  Proof. intros I. unfold rho. apply memf_iff in I. now rewrite I. Qed.
  Lemma rho_out x : memf x lits = false -> rho x = x.
  Proof. intros I. unfold rho. now rewrite I. Qed.

  Lemma zeval_ext i j e : z_div0 i = z_div0 j -> z_mod0 i = z_mod0 j -> z_pow i = z_pow j ->
    (forall n, In n (names e) -> z_name i n = z_name j n) -> zeval i e = zeval j e.
  Proof.
    intros D M P. induction e as [ | |z|n b|a IH|o ts IH|o l r IHl IHr|o l r IHl IHr] using expr_ind';
      intros N; cbn [zeval names] in *; auto.
    - rewrite (N n); [reflexivity|now left].
    - now rewrite IH.
    - assert (E : map (zeval i) ts = map (zeval j) ts).
      { rewrite Forall_forall in IH. apply map_ext_in. intros t I. apply IH; [exact I|]. intros x J. apply N. apply in_flat_map. eauto. }
      rewrite E. reflexivity.
    - rewrite IHl, IHr, D, M, P; auto; intros x J; apply N, in_app_iff; auto.
    - rewrite IHl, IHr; auto; intros x J; apply N, in_app_iff; auto.
  Qed.
  Lemma zeval_ren i e : zeval i (ren e) = zeval (pull i) e.
  Proof.
    induction e as [ | |z|n b|a IH|o ts IH|o l r IHl IHr|o l r IHl IHr] using expr_ind'; cbn [zeval ren]; auto.
    - now rewrite IH.
    - assert (E : map (zeval i) (map ren ts) = map (zeval (pull i)) ts).
      { rewrite map_map. rewrite Forall_forall in IH. apply map_ext_in. exact IH. }
      rewrite E. reflexivity.
    - rewrite IHl, IHr. reflexivity.
    - rewrite IHl, IHr. reflexivity.
  Qed.
  Lemma pull_push j n : clean n -> z_name (pull (push j)) n = z_name j n.
  Proof.
    destruct n as [x|a x]; cbn; intros C.
    - unfold rho. destruct (memf x lits) eqn:E.
      + apply memf_iff in E. now rewrite (unprefixed_prefixed _ E).
      + now rewrite C.
    - unfold rho. now rewrite C.
  Qed.
  Lemma zeval_push j e : Forall clean (names e) -> zeval (push j) (ren e) = zeval j e.
  Proof.
    intros C. rewrite zeval_ren. apply zeval_ext; try reflexivity. intros n I. rewrite Forall_forall in C. now apply pull_push, C.
  Qed.

  (** *** Values *)
  Lemma eval_sc_ren g e : eval_sc g (ren e) = eval_sc (pull_env g) e.
  Proof.
    induction e as [ | |z|n b|a IH|o ts IH|o l r IHl IHr|o l r IHl IHr] using expr_ind'; cbn [eval_sc ren]; auto.
    - now rewrite IH.
    - assert (E : map (eval_sc g) (map ren ts) = map (eval_sc (pull_env g)) ts).
      { rewrite map_map. rewrite Forall_forall in IH. apply map_ext_in. exact IH. }
      rewrite E. reflexivity.
    - rewrite IHl, IHr. reflexivity.
    - rewrite IHl, IHr. reflexivity.
  Qed.
  Lemma eval_ren g e : eval g (ren e) = eval (pull_env g) e.
  Proof.
    induction e as [ | |z|n b|a IH|o ts IH|o l r IHl IHr|o l r IHl IHr] using expr_ind'; cbn [eval ren]; auto.
    - now rewrite IH.
    - assert (E : map (eval g) (map ren ts) = map (eval (pull_env g)) ts).
      { rewrite map_map. rewrite Forall_forall in IH. apply map_ext_in. exact IH. }
      rewrite E. reflexivity.
    - rewrite IHl, IHr. reflexivity.
    - rewrite IHl, IHr. reflexivity.
  Qed.
  Lemma names_ren e : names (ren e) = map ren_name (names e).
  Proof.
    induction e as [ | |z|n b|a IH|o ts IH|o l r IHl IHr|o l r IHl IHr] using expr_ind'; cbn [names ren]; auto.
    - induction IH as [|x l Hx HF IHl]; cbn; [reflexivity|]. now rewrite Hx, map_app, IHl.
    - now rewrite IHl, IHr, map_app.
    - now rewrite IHl, IHr, map_app.
  Qed.

  (** expressions without names to be renamed *)
  Lemma ren_id e : (forall n, In n (names e) -> memf (id_of n) lits = false) -> ren e = e.
  Proof.
    induction e as [ | |z|n b|a IH|o ts IH|o l r IHl IHr|o l r IHl IHr] using expr_ind'; cbn [names ren]; intros N; auto.
    - unfold ren_name. rewrite rho_out; [|apply N; now left]. destruct n; reflexivity.
    - now rewrite IH.
    - f_equal. rewrite <- (map_id ts) at 2. rewrite Forall_forall in IH. apply map_ext_in. intros t I. apply IH; [exact I|].
      intros n J. apply N, in_flat_map. eauto.
    - rewrite IHl, IHr; auto; intros n J; apply N, in_app_iff; auto.
    - rewrite IHl, IHr; auto; intros n J; apply N, in_app_iff; auto.
  Qed.

  (** renaming keeps clean expressions apart *)
  Lemma ren_name_eqb a b : clean a -> clean b -> name_eqb (ren_name a) (ren_name b) = name_eqb a b.
  Proof.
    assert (R : forall x y, unprefixed x = None -> unprefixed y = None -> rho x = rho y -> x = y).
    { intros x y X Y E. unfold rho in E. destruct (memf x lits) eqn:MX, (memf y lits) eqn:MY.
      - now apply prefixed_inj.
      - apply memf_iff in MX. rewrite <- E, (unprefixed_prefixed _ MX) in Y. discriminate.
      - apply memf_iff in MY. rewrite E, (unprefixed_prefixed _ MY) in X. discriminate.
      - exact E. }
    destruct a as [x|k x], b as [y|k' y]; cbn; intros A B; try reflexivity.
    - destruct (String.eqb x y) eqn:E.
      + apply String.eqb_eq in E. subst. apply String.eqb_refl.
      + apply String.eqb_neq in E. apply String.eqb_neq. intros F. apply E. now apply R.
    - rewrite !rho_out by assumption. reflexivity.
  Qed.
  Lemma ren_eqb a : forall b, Forall clean (names a) -> Forall clean (names b) -> expr_eqb (ren a) (ren b) = expr_eqb a b.
  Proof.
    induction a as [ | |z|n s|a IH|o ts IH|o l r IHl IHr|o l r IHl IHr] using expr_ind';
      intros [ | |z'|n' s'|a'|o' ts'|o' l' r'|o' l' r'] A B; cbn [ren expr_eqb names] in *; try reflexivity.
    - inversion A; inversion B; subst. now rewrite ren_name_eqb.
    - auto.
    - f_equal. revert ts' B. induction IH as [|x l Hx HF IHl]; intros [|y l'] B; cbn in *; try reflexivity.
      apply Forall_app in A as [A1 A2]. apply Forall_app in B as [B1 B2]. rewrite Hx by assumption. f_equal. auto.
    - apply Forall_app in A as [A1 A2]. apply Forall_app in B as [B1 B2]. now rewrite IHl, IHr.
    - apply Forall_app in A as [A1 A2]. apply Forall_app in B as [B1 B2]. now rewrite IHl, IHr.
  Qed.

  (** *** Questions *)

  Lemma sequence_map {A B} (f g : A -> res B) l : (forall x, In x l -> f x = g x) -> sequence (map f l) = sequence (map g l).
  Proof. intros H. f_equal. now apply map_ext_in. Qed.
  Lemma sort_ren e : sort_of (ren e) = sort_of e.
  Proof.
    induction e as [ | |z|n b|a IH|o ts IH|o l r IHl IHr|o l r IHl IHr] using expr_ind'; cbn [sort_of ren]; auto.
    - now rewrite IH.
    - rewrite map_map, map_length. rewrite Forall_forall in IH. rewrite (map_ext_in _ _ _ IH). reflexivity.
    - now rewrite IHl, IHr.
    - now rewrite IHl, IHr.
  Qed.

  (** the first formula that is none *)
  Fixpoint ferr (fs : list expr) : option string :=
    match fs with
    | [] => None
    | e :: t => match formula e with Ok _ => ferr t | Err w => Some w end
    end.
  Lemma ferr_app a b : ferr (a ++ b) = match ferr a with None => ferr b | Some w => Some w end.
  Proof. induction a as [|e a IH]; cbn; [reflexivity|]. destruct (formula e); [exact IH|reflexivity]. Qed.
  Lemma ferr_mapr fs : match ferr fs with None => exists us, mapr formula fs = Ok us | Some w => mapr formula fs = Err w end.
  Proof.
    induction fs as [|e fs IH]; cbn; [now exists []|]. destruct (formula e) as [u|w]; cbn [bind]; [|reflexivity].
    destruct (ferr fs) as [w|]; [now rewrite IH|]. destruct IH as [us ->]. cbn. eauto.
  Qed.
  Lemma check_ferr solve goal facts : check_facts solve goal facts =
    match ferr (goal :: facts) with None => Ok (solve (goal :: facts)) | Some w => Err w end.
  Proof.
    unfold check_facts. pose proof (ferr_mapr (goal :: facts)) as H. destruct (ferr (goal :: facts)) as [w|].
    - now rewrite H.
    - destruct H as [us ->]. reflexivity.
  Qed.
  Lemma ferr_ren fs : ferr (map ren fs) = ferr fs.
  Proof. induction fs as [|e fs IH]; cbn; [reflexivity|]. unfold formula. rewrite sort_ren, IH. reflexivity. Qed.

  (** [b] asks about the renamed what [a] asks *)
  Record part (a b : list expr) : Prop := {
    pt_ferr : ferr b = ferr a;
    pt_pull : forall i, models i b -> models (pull i) a;
    pt_push : forall j, models j a -> models (push j) b
  }.
  Lemma part_app a b a' b' : part a b -> part a' b' -> part (a ++ a') (b ++ b').
  Proof.
    intros [F1 P1 Q1] [F2 P2 Q2]. split.
    - now rewrite !ferr_app, F1, F2.
    - intros i. rewrite !models_app. intros [H K]. auto.
    - intros j. rewrite !models_app. intros [H K]. auto.
  Qed.
  Lemma part_ren a : (forall e, In e a -> Forall clean (names e)) -> part a (map ren a).
  Proof.
    intros C. split; [apply ferr_ren| |].
    - intros i M e I. rewrite <- zeval_ren. apply M. now apply in_map.
    - intros j M e I. apply in_map_iff in I as (x & <- & I). rewrite zeval_push; auto.
  Qed.
  Lemma part_cons e a b : Forall clean (names e) -> part a b -> part (e :: a) (ren e :: b).
  Proof.
    intros C P. apply (part_app [e] [ren e] a b); [|exact P]. apply (part_ren [e]). intros x [<-|[]]. exact C.
  Qed.

  Definition indifferent (solve : list expr -> answer) : Prop :=
    forall fs fs', (forall i, models i fs' -> models (pull i) fs) -> (forall j, models j fs -> models (push j) fs') ->
      solve fs' = solve fs.
  Lemma ask_same solve goal goal' facts facts' : indifferent solve -> part (goal :: facts) (goal' :: facts') ->
    check_facts solve goal' facts' = check_facts solve goal facts.
  Proof. intros N [F P Q]. rewrite !check_ferr, F. destruct (ferr (goal :: facts)); [reflexivity|]. f_equal. now apply N. Qed.
End Rename.

(** ** The graph of a message with renamed conditions *)

Definition rmap {A B} (f : A -> B) (r : res A) : res B := match r with Ok x => Ok (f x) | Err w => Err w end.
Lemma mapr_map {A B C} (f : B -> res C) (g : A -> B) l : mapr f (map g l) = mapr (fun x => f (g x)) l.
Proof. induction l as [|x l IH]; cbn; [reflexivity|]. now rewrite IH. Qed.
Lemma mapr_ext {A B} (f g : A -> res B) l : (forall x, In x l -> f x = g x) -> mapr f l = mapr g l.
Proof.
  induction l as [|x l IH]; intros H; cbn; [reflexivity|]. rewrite H by now left. rewrite IH; [reflexivity|].
  intros y I. apply H. now right.
Qed.
Lemma mapr_rmap {A B C} (f : A -> res B) (h : B -> C) l : mapr (fun x => rmap h (f x)) l = rmap (map h) (mapr f l).
Proof. induction l as [|x l IH]; cbn; [reflexivity|]. destruct (f x); cbn; [|reflexivity]. rewrite IH. now destruct (mapr f l). Qed.

Section Graphs.
  Variable lits : list string.
  Variable pk : string.
  Local Notation ren := (ren lits pk).
  Local Notation clean := (clean lits pk).

  Definition rl (l : link) : link := mkLink (source l) (target l) (ren (condition l)) (lsize l) (lfirst l).

  Variable s : list link.
  Hypothesis CL : forall l, In l s -> Forall clean (names (condition l)).

  Lemma incoming_rl t f : incoming (map rl t) f = map rl (incoming t f).
  Proof. unfold incoming. induction t as [|l t IH]; cbn; [reflexivity|]. rewrite IH. destruct (target l =? f)%string; reflexivity. Qed.
  Lemma outgoing_rl t f : outgoing (map rl t) f = map rl (outgoing t f).
  Proof. unfold outgoing. induction t as [|l t IH]; cbn; [reflexivity|]. rewrite IH. destruct (source l =? f)%string; reflexivity. Qed.
  Lemma link_eqb_rl a b : In a s -> In b s -> link_eqb (rl a) (rl b) = link_eqb a b.
  Proof. intros A B. unfold link_eqb. cbn. now rewrite ren_eqb by auto. Qed.
  Lemma link_key_rl a b : In a s -> In b s -> link_key_eqb (rl a) (rl b) = link_key_eqb a b.
  Proof. intros A B. unfold link_key_eqb. cbn. now rewrite ren_eqb by auto. Qed.
  Lemma meml_rl a v : In a s -> incl v s -> meml (rl a) (map rl v) = meml a v.
  Proof.
    intros A. induction v as [|x v IH]; intros V; cbn; [reflexivity|]. apply incl_cons_inv in V as [X V].
    rewrite link_eqb_rl by auto. f_equal. now apply IH.
  Qed.
  Lemma incl_filter {A} (f : A -> bool) l : incl (filter f l) l.
  Proof. intros x I. now apply filter_In in I. Qed.
  Lemma all_meml_rl t v : incl t s -> incl v s ->
    forallb (fun l => meml l (map rl v)) (map rl t) = forallb (fun l => meml l v) t.
  Proof.
    intros T V. induction t as [|x t IH]; cbn; [reflexivity|]. apply incl_cons_inv in T as [X T].
    rewrite meml_rl by auto. f_equal. now apply IH.
  Qed.
  Lemma relax_rl out : forall visited fields, incl out s -> incl visited s ->
    relax (map rl s) (map rl out) (map rl visited) fields =
      (map rl (fst (relax s out visited fields)), snd (relax s out visited fields)) /\ incl (fst (relax s out visited fields)) s.
  Proof.
    induction out as [|e out IH]; intros visited fields O V; cbn [map relax]; [now split|].
    apply incl_cons_inv in O as [E O]. change (target (rl e)) with (target e). rewrite incoming_rl.
    change (rl e :: map rl visited) with (map rl (e :: visited)).
    rewrite (all_meml_rl (incoming s (target e)) (e :: visited)); [|apply incl_filter|now apply incl_cons].
    apply IH; [exact O|now apply incl_cons].
  Qed.
  Lemma kahn_rl n : forall fields result visited, incl visited s ->
    kahn (map rl s) n fields result (map rl visited) =
      rmap (fun r => (fst r, map rl (snd r))) (kahn s n fields result visited) /\
    (forall r v, kahn s n fields result visited = Ok (r, v) -> incl v s).
  Proof.
    induction n as [|n IH]; intros [|f fields] result visited V; cbn [kahn].
    - split; [reflexivity|]. intros r v E. now injection E as <- <-.
    - split; [reflexivity|]. discriminate.
    - split; [reflexivity|]. intros r v E. now injection E as <- <-.
    - rewrite outgoing_rl. destruct (relax_rl (outgoing s f) visited fields (incl_filter _ _) V) as [R RI]. rewrite R.
      destruct (relax s (outgoing s f) visited fields) as [v' f'] eqn:E. cbn [fst snd] in *. apply IH. exact RI.
  Qed.
  Lemma topological_rl n b : topological_sorting (map rl s) n b = topological_sorting s n b.
  Proof.
    unfold topological_sorting. destruct (kahn_rl n [INITIAL] [] [] (incl_nil_l s)) as [K KI]. cbn [map] in K. rewrite K.
    destruct (kahn s n [INITIAL] [] []) as [[r v]|w] eqn:E; cbn [rmap bind fst snd]; [|reflexivity].
    rewrite all_meml_rl; [reflexivity|apply incl_refl|]. now apply (KI r).
  Qed.
  Lemma paths_rl t n f : paths (map rl t) n f = rmap (map (map rl)) (paths t n f).
  Proof.
    revert f. induction n as [|n IH]; intros f; cbn [paths]; destruct (f =? INITIAL)%string; try reflexivity.
    rewrite incoming_rl, mapr_map.
    rewrite (mapr_ext _ (fun l => rmap (map (map rl)) (let* src := paths t n (source l) in
      Ok (match src with [] => [[l]] | _ => map (fun p => p ++ [l]) src end)))).
    - rewrite mapr_rmap. destruct (mapr _ (incoming t f)) as [rs|]; cbn; [|reflexivity]. now rewrite concat_map.
    - intros l _. cbn [source rl]. rewrite IH. destruct (paths t n (source l)) as [src|]; cbn; [|reflexivity]. f_equal.
      destruct src as [|p src]; [reflexivity|]. cbn [map]. rewrite map_app. f_equal.
      rewrite !map_map. apply map_ext. intros q. now rewrite map_app.
  Qed.
  Lemma finds_variable_ren e : finds_variable (ren e) = finds_variable e.
  Proof.
    induction e as [ | |z|n b|a IH|o ts IH|o l r IHl IHr|o l r IHl IHr] using expr_ind'; cbn [finds_variable DerivedFacts.ren]; auto.
    - induction IH as [|x l Hx HF IHl]; cbn; [reflexivity|]. now rewrite Hx, IHl.
    - now rewrite IHl, IHr.
    - now rewrite IHl, IHr.
  Qed.
  Lemma finds_bad_pow_ren e : finds_bad_pow (ren e) = finds_bad_pow e.
  Proof.
    induction e as [ | |z|n b|a IH|o ts IH|o l r IHl IHr|o l r IHl IHr] using expr_ind'; cbn [finds_bad_pow DerivedFacts.ren]; auto.
    - induction IH as [|x l Hx HF IHl]; cbn; [reflexivity|]. now rewrite Hx, IHl.
    - now rewrite IHl, IHr, finds_variable_ren.
    - now rewrite IHl, IHr.
  Qed.
  Lemma has_duplicates_rl t : incl t s -> has_duplicates (map rl t) = has_duplicates t.
  Proof.
    induction t as [|l t IH]; intros T; cbn; [reflexivity|]. apply incl_cons_inv in T as [L T]. rewrite IH by exact T. f_equal.
    clear IH. induction t as [|x t IH]; cbn; [reflexivity|]. apply incl_cons_inv in T as [X T].
    rewrite link_key_rl by assumption. f_equal. now apply IH.
  Qed.
  Lemma sources_rl t : map source (map rl t) = map source t.
  Proof. rewrite map_map. now apply map_ext. Qed.
  Lemma targets_rl t : map target (map rl t) = map target t.
  Proof. rewrite map_map. now apply map_ext. Qed.

  (** the structural checks, if no names of fields get into conflict with literals *)
  Definition body (n : nat) (m : message) : res (list string * list field) :=
    let* e1 := validate_first m in
    match e1 with
    | _ :: _ => Ok (e1, [])
    | [] =>
      let e2 := validate_second m in
      let* t := topological_sorting (structure m) n (unreachable m) in
      match t with
      | None => Ok (e2 ++ ["structure contains cycle"], [])
      | Some fields => Ok (e2, fields)
      end
    end.
  Lemma construct_body n m : structure m <> [] \/ type_fields m <> [] -> construct n m = body n m.
  Proof. unfold construct, body. destruct (structure m), (type_fields m); intros H; try reflexivity. destruct H as [H | H]; now destruct H. Qed.
  Lemma unreachable_rl tf en en' : unreachable (mkMessage (map rl s) tf en') = unreachable (mkMessage s tf en).
  Proof. unfold unreachable. cbn [structure]. now rewrite sources_rl, targets_rl. Qed.
  Lemma validate_second_rl tf en en' : validate_second (mkMessage (map rl s) tf en') = validate_second (mkMessage s tf en).
  Proof.
    unfold validate_second. rewrite (unreachable_rl tf en en'). cbn [structure]. rewrite has_duplicates_rl by apply incl_refl.
    do 3 f_equal. clear CL. induction s as [|l t IH]; [reflexivity|]. cbn [map existsb]. rewrite IH. f_equal.
    cbn [condition rl lfirst lsize app existsb]. now rewrite finds_bad_pow_ren.
  Qed.
  Lemma validate_first_rl tf en en' : incl en' en -> validate_first (mkMessage s tf en) = Ok [] ->
    validate_first (mkMessage (map rl s) tf en') = Ok [].
  Proof.
    intros EN. unfold validate_first. cbn [structure type_fields enum_names]. rewrite sources_rl, targets_rl, outgoing_rl, map_length.
    destruct (outgoing s INITIAL) as [|l out]; cbn [map]; [discriminate|]. cbn [lfirst rl]. intros H. apply Ok_inj in H.
    repeat (apply app_eq_nil in H as [? H]).
    rewrite H0, H1, H2, H3. cbn [app]. f_equal. unfold err_if in *.
    destruct (existsb (fun f => memf f en) (tf ++ [INITIAL; FINAL])) eqn:E; [discriminate|].
    destruct (existsb (fun f => memf f en') (tf ++ [INITIAL; FINAL])) eqn:E'; [|reflexivity].
    apply existsb_exists in E' as (f & I & M). exfalso. apply Bool.not_true_iff_false in E. apply E, existsb_exists. exists f.
    split; [exact I|]. apply memf_iff in M. now apply memf_iff, EN.
  Qed.
  Lemma construct_rl n tf en en' r : incl en' en ->
    construct n (mkMessage s tf en) = Ok ([], r) -> construct n (mkMessage (map rl s) tf en') = Ok ([], r).
  Proof.
    intros EN H.
    assert (D : (s = [] /\ tf = []) \/ (s <> [] \/ tf <> [])).
    { destruct s; [destruct tf; [now left|right; right; discriminate]|right; left; discriminate]. }
    destruct D as [[-> ->] | D]; [exact H|].
    rewrite construct_body in H by exact D.
    rewrite construct_body.
    2:{ cbn. destruct D as [D|D]; [left; destruct s; [now destruct D|discriminate]|now right]. }
    unfold body in *.
    assert (VF : validate_first (mkMessage s tf en) = Ok []).
    { destruct (validate_first (mkMessage s tf en)) as [[|]|]; cbn [bind] in H; [reflexivity|discriminate H|discriminate H]. }
    rewrite VF in H. rewrite (validate_first_rl tf en en' EN VF). cbn [bind structure] in *.
    rewrite (validate_second_rl tf en en'), topological_rl, (unreachable_rl tf en en'). exact H.
  Qed.
End Graphs.
