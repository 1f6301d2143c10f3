(** C31: the links of a message carry what its components and then clauses declare. *)
From Coq Require Import String List ZArith Arith Bool Lia.
From Verif Require Import Base Ident Expr MsgGraph MsgGraphFacts MsgStruct.
Import ListNotations.
Local Open Scope string_scope.
Local Open Scope list_scope.
Local Open Scope nat_scope.
Local Notation length := List.length.

(** What the text says: an arrow is a then clause or the implicit step to the next
    component.  [a_pos] is the number of components that were read before the arrow. *)
Record arrow := mkArrow {
  a_pos : nat;
  a_src : field;
  a_tgt : field;
  a_cond : option expr;
  a_aspects : list (string * expr)
}.
Definition then_arrow (pos : nat) (src : field) (t : then_) : arrow :=
  mkArrow pos src (match t_target t with Some n => lower n | None => FINAL end) (t_condition t) (t_aspects t).
Definition component_arrows (k : nat) (c : component) (next : list component) : list arrow :=
  match c_thens c with
  | [] => [mkArrow k (lower (c_name c)) (match next with n :: _ => lower (c_name n) | [] => FINAL end) None []]
  | ts => map (then_arrow (S k) (lower (c_name c))) ts
  end.
Fixpoint arrows_from (k : nat) (cs : list component) : list arrow :=
  match cs with
  | [] => []
  | c :: rest => component_arrows k c rest ++ arrows_from (S k) rest
  end.
Definition arrows (initial : option then_) (cs : list component) : list arrow :=
  match initial, cs with
  | Some t, _ => [then_arrow 0 INITIAL t]
  | None, c :: _ => [mkArrow 0 INITIAL (lower (c_name c)) None []]
  | None, [] => []
  end ++ arrows_from 0 cs.

(** the last value given for an aspect *)
Definition declared (n : string) (l : list (string * expr)) : option expr :=
  match find (fun kv => String.eqb (fst kv) n) (rev l) with Some kv => Some (snd kv) | None => None end.
(** a conjunction in which "True" may be left out *)
Definition conjoined (c a r : expr) : Prop :=
  (c = ETrue /\ r = a) \/ (c <> ETrue /\ a = ETrue /\ r = c) \/ (c <> ETrue /\ a <> ETrue /\ r = EAss OAnd [c; a]).
(** a value that may be given at one of two places only *)
Definition one_of (x y r : option expr) : Prop :=
  match x, y with Some _, Some _ => False | Some e, None => r = Some e | None, _ => r = y end.

(** the link carries the aspects of the arrow and of the component *)
Definition combined (a : arrow) (c : component) (l : link) : Prop :=
  conjoined (cond_of (c_condition c)) (cond_of (a_cond a)) (condition l) /\
  one_of (declared "Size" (c_aspects c)) (declared "Size" (a_aspects a)) (lsize l) /\
  one_of (declared "First" (c_aspects c)) (declared "First" (a_aspects a)) (lfirst l).
(** the link carries the aspects of the arrow only *)
Definition plain (a : arrow) (l : link) : Prop :=
  condition l = cond_of (a_cond a) /\ lsize l = declared "Size" (a_aspects a) /\ lfirst l = declared "First" (a_aspects a).

(** Among the first [k] components, the one the arrow leads to has not been read when
    the arrow is met, and the link has the aspects of both; or there is none such. *)
Definition link_ok (cs : list component) (k : nat) (a : arrow) (l : link) : Prop :=
  source l = a_src a /\ target l = a_tgt a /\
  ((exists j c, nth_error cs j = Some c /\ j < k /\ lower (c_name c) = a_tgt a /\ a_pos a <= j /\ combined a c l) \/
   ((forall j c, nth_error cs j = Some c -> j < k -> lower (c_name c) = a_tgt a -> j < a_pos a) /\ plain a l)).

Lemma find_app {A} (p : A -> bool) l l' : find p (l ++ l') = match find p l with Some x => Some x | None => find p l' end.
Proof. induction l as [|x l IH]; cbn; [reflexivity|]. destruct (p x); auto. Qed.
Lemma extract_aspect_spec l : forall errs size first errs' s f,
  extract_aspect_loop l errs size first = (errs', s, f) -> errs' = [] -> errs = [] /\
  s = match declared "Size" l with Some e => Some e | None => size end /\
  f = match declared "First" l with Some e => Some e | None => first end.
Proof.
  unfold declared. induction l as [|[n e] l IH]; intros errs size first errs' s f H N; cbn in H.
  - injection H as <- <- <-. cbn. auto.
  - cbn [rev]. rewrite !find_app. cbn [find fst snd].
    destruct (String.eqb_spec n "Size") as [->|NS].
    + apply IH in H as (-> & -> & ->); [|exact N]. split; [reflexivity|].
      change (String.eqb "Size" "First") with false.
      split; [destruct (find (fun kv => (fst kv =? "Size")%string) (rev l))|destruct (find (fun kv => (fst kv =? "First")%string) (rev l))]; reflexivity.
    + destruct (String.eqb_spec n "First") as [->|NF].
      * apply IH in H as (-> & -> & ->); [|exact N]. split; [reflexivity|].
        split; [destruct (find (fun kv => (fst kv =? "Size")%string) (rev l))|destruct (find (fun kv => (fst kv =? "First")%string) (rev l))]; reflexivity.
      * apply IH in H as (X & _); [|exact N]. destruct errs; discriminate.
Qed.

Lemma plain_then pos src t e l : extract_then src t = (e, l) -> e = [] ->
  source l = src /\ target l = a_tgt (then_arrow pos src t) /\ plain (then_arrow pos src t) l.
Proof.
  unfold extract_then, extract_aspect. destruct (extract_aspect_loop (t_aspects t) [] None None) as [[er s] f] eqn:E.
  intros H N. injection H as <- <-. apply extract_aspect_spec in E as (_ & -> & ->); [|exact N].
  cbn. split; [reflexivity|]. split; [reflexivity|]. unfold plain. cbn.
  split; [reflexivity|]. split; destruct (declared _ _); reflexivity.
Qed.

Lemma expr_eqb_neq a b : expr_eqb a b = false <-> a <> b.
Proof. rewrite <- expr_eqb_iff. destruct (expr_eqb a b); intuition congruence. Qed.

(** the effect of the aspects of a component on one link *)
Lemma apply_aspects_spec cnd size first a l e l' :
  plain a l -> apply_aspects cnd size first l = (e, l') -> e = [] ->
  source l' = source l /\ target l' = target l /\
  conjoined cnd (cond_of (a_cond a)) (condition l') /\
  one_of size (declared "Size" (a_aspects a)) (lsize l') /\ one_of first (declared "First" (a_aspects a)) (lfirst l').
Proof.
  intros (PC & PS & PF) H N. unfold apply_aspects in H. rewrite PC, PS, PF in H.
  set (ds := declared "Size" (a_aspects a)) in *. set (df := declared "First" (a_aspects a)) in *.
  set (ac := cond_of (a_cond a)) in *.
  assert (CJ : conjoined cnd ac (if negb (expr_eqb cnd ETrue) then if negb (expr_eqb ac ETrue) then EAss OAnd [cnd; ac] else cnd else ac)).
  { unfold conjoined. destruct (expr_eqb cnd ETrue) eqn:E1; cbn [negb].
    - left. now apply expr_eqb_iff in E1.
    - apply expr_eqb_neq in E1. right. destruct (expr_eqb ac ETrue) eqn:E2; cbn [negb].
      + left. apply expr_eqb_iff in E2. auto.
      + right. apply expr_eqb_neq in E2. auto. }
  destruct first as [f1|], df as [f2|], size as [s1|], ds as [s2|]; injection H as <- <-; try discriminate; cbn; auto 10.
Qed.

Section Proof.
  Variable cs : list component.
  Hypothesis ND : NoDup (map (fun c => lower (c_name c)) cs).

  Lemma nth_unique j k c d : nth_error cs j = Some c -> nth_error cs k = Some d ->
    lower (c_name c) = lower (c_name d) -> j = k.
  Proof.
    intros J K E.
    assert (J' : nth_error (map (fun c => lower (c_name c)) cs) j = Some (lower (c_name c))) by (now rewrite (map_nth_error _ _ _ J)).
    assert (K' : nth_error (map (fun c => lower (c_name c)) cs) k = Some (lower (c_name d))) by (now rewrite (map_nth_error _ _ _ K)).
    rewrite NoDup_nth_error in ND. apply ND.
    - apply nth_error_Some. rewrite J'. discriminate.
    - now rewrite J', K', E.
  Qed.

  (** one more component *)
  Lemma link_ok_step k c a l : nth_error cs k = Some c -> lower (c_name c) <> a_tgt a \/ k < a_pos a ->
    link_ok cs k a l -> link_ok cs (S k) a l.
  Proof.
    intros K N (A & B & C). split; [exact A|]. split; [exact B|]. destruct C as [(j & d & J & Lt & E & P & Q)|[F P]].
    - left. exists j, d. split; [exact J|]. split; [lia|]. auto.
    - right. split; [|exact P]. intros j d J Lt E. destruct (Nat.eq_dec j k) as [->|Ne].
      + rewrite K in J. injection J as <-. destruct N as [N|N]; [contradiction|exact N].
      + apply (F j d J); [lia|exact E].
  Qed.
  Lemma link_ok_same k c a l : nth_error cs k = Some c -> lower (c_name c) = a_tgt a ->
    link_ok cs k a l -> plain a l.
  Proof.
    intros K E (A & B & [(j & d & J & Lt & X & P & Q)|[F P]]); [|exact P].
    assert (j = k) by (eapply nth_unique; eauto; congruence). lia.
  Qed.

  Lemma apply_all_spec k c cnd size first : nth_error cs k = Some c ->
    cnd = cond_of (c_condition c) -> size = declared "Size" (c_aspects c) -> first = declared "First" (c_aspects c) ->
    forall as_ s e s', apply_all (lower (c_name c)) cnd size first s = (e, s') -> e = [] ->
    Forall2 (link_ok cs k) as_ s -> Forall (fun a => a_pos a <= k) as_ ->
    Forall2 (link_ok cs (S k)) as_ s'.
  Proof.
    intros K -> -> -> as_ s e s' H N F. revert e s' H N. induction F as [|a l as_ s L F IH]; intros e s' H N P; cbn in H.
    - injection H as <- <-. constructor.
    - inversion P as [|? ? Pa P']; subst.
      destruct (String.eqb (target l) (lower (c_name c))) eqn:T.
      + apply String.eqb_eq in T.
        destruct (apply_aspects (cond_of (c_condition c)) (declared "Size" (c_aspects c)) (declared "First" (c_aspects c)) l) as [e1 l'] eqn:A.
        destruct (apply_all _ _ _ _ s) as [e2 s2] eqn:B. injection H as X <-.
        apply app_eq_nil in X as [-> ->]. constructor; [|eapply IH; eauto].
        assert (TA : a_tgt a = lower (c_name c)) by (destruct L as (_ & X & _); congruence).
        pose proof (link_ok_same _ _ _ _ K (eq_sym TA) L) as PL.
        destruct (apply_aspects_spec _ _ _ _ _ _ _ PL A eq_refl) as (A1 & A2 & A3 & A4 & A5).
        destruct L as (L1 & L2 & _). split; [congruence|]. split; [congruence|].
        left. exists k, c. repeat apply conj; auto.
      + apply String.eqb_neq in T. destruct (apply_all _ _ _ _ s) as [e2 s2] eqn:B. injection H as X <-. cbn in X.
        constructor; [|eapply IH; eauto]. eapply link_ok_step; [exact K| |exact L].
        left. destruct L as (_ & X' & _). congruence.
  Qed.
  (** a component without aspects *)
  Lemma apply_none_spec k c : nth_error cs k = Some c ->
    cond_of (c_condition c) = ETrue -> declared "Size" (c_aspects c) = None -> declared "First" (c_aspects c) = None ->
    forall as_ s, Forall2 (link_ok cs k) as_ s -> Forall (fun a => a_pos a <= k) as_ -> Forall2 (link_ok cs (S k)) as_ s.
  Proof.
    intros K E1 E2 E3 as_ s F. induction F as [|a l as_ s L F IH]; intros P; [constructor|].
    inversion P as [|? ? Pa P']; subst. constructor; [|auto].
    destruct (string_dec (lower (c_name c)) (a_tgt a)) as [T|T]; [|eapply link_ok_step; eauto].
    pose proof (link_ok_same _ _ _ _ K T L) as (P1 & P2 & P3). destruct L as (L1 & L2 & _).
    split; [exact L1|]. split; [exact L2|]. left. exists k, c. repeat apply conj; auto.
    - unfold conjoined. left. rewrite E1. auto.
    - rewrite E2. cbn. exact P2.
    - rewrite E3. cbn. exact P3.
  Qed.

  Lemma add_thens_errs names src ts : forall errs s e s', add_thens names src ts errs s = (e, s') -> e = [] -> errs = [].
  Proof.
    induction ts as [|u ts IH]; intros errs s e s' H N; cbn in H; [now injection H as -> ->|].
    destruct (match t_target u with Some n => negb (existsb (String.eqb n) names) | None => false end).
    - apply IH in H; [|exact N]. destruct errs; discriminate.
    - destruct (extract_then src u). apply IH in H; [|exact N]. now apply app_eq_nil in H.
  Qed.
  Lemma add_thens_spec names src k ts : forall errs s e s' as_,
    add_thens names src ts errs s = (e, s') -> e = [] ->
    Forall2 (link_ok cs k) as_ s -> Forall2 (link_ok cs k) (as_ ++ map (then_arrow k src) ts) s'.
  Proof.
    induction ts as [|t ts IH]; intros errs s e s' as_ H N F; cbn in H.
    - injection H as <- <-. cbn. now rewrite app_nil_r.
    - destruct (match t_target t with Some n => negb (existsb (String.eqb n) names) | None => false end).
      { apply add_thens_errs in H; [|exact N]. destruct errs; discriminate. }
      destruct (extract_then src t) as [e1 l] eqn:X.
      pose proof (add_thens_errs _ _ _ _ _ _ _ H N) as Y. apply app_eq_nil in Y as [-> ->].
      eapply IH with (as_ := as_ ++ [then_arrow k src t]) in H; eauto.
      + rewrite <- app_assoc in H. exact H.
      + apply Forall2_app; [exact F|]. constructor; [|constructor].
        destruct (plain_then k src t [] l X eq_refl) as (S1 & S2 & S3). split; [exact S1|]. split; [exact S2|]. right.
        split; [|exact S3]. intros j d _ Lt _. exact Lt.
  Qed.

  Lemma add_components_errs names l : forall errs s e s', add_components names l errs s = (e, s') -> e = [] -> errs = [].
  Proof.
    induction l as [|c l IH]; intros errs s e s' H N; cbn in H; [now injection H as -> ->|].
    destruct (String.eqb (lower (c_name c)) "message").
    { apply IH in H; [|exact N]. destruct errs; discriminate. }
    destruct (extract_aspect (c_aspects c)) as [[e1 size] first].
    match type of H with context [let '(_, _) := ?m in _] => destruct m as [e2 s2] end.
    destruct (add_thens names (lower (c_name c)) (c_thens c) [] s2) as [e3 s3].
    apply IH in H; [|exact N]. now apply app_eq_nil in H.
  Qed.
  Lemma arrows_pos k c rest : Forall (fun a => a_pos a <= S k) (component_arrows k c rest).
  Proof.
    unfold component_arrows. destruct (c_thens c) as [|t ts].
    - constructor; [cbn; lia|constructor].
    - apply Forall_forall. intros x I. apply in_map_iff in I as (u & <- & _). cbn. lia.
  Qed.

  Lemma add_components_spec names l : forall done errs s e s' as_, cs = done ++ l ->
    add_components names l errs s = (e, s') -> e = [] ->
    Forall2 (link_ok cs (length done)) as_ s -> Forall (fun a => a_pos a <= length done) as_ ->
    Forall2 (link_ok cs (length cs)) (as_ ++ arrows_from (length done) l) s'.
  Proof.
    induction l as [|c l IH]; intros done errs s e s' as_ E H N F P; cbn in H.
    - injection H as <- <-. cbn [arrows_from]. rewrite app_nil_r in *. now subst cs.
    - destruct (String.eqb (lower (c_name c)) "message").
      { apply add_components_errs in H; [|exact N]. destruct errs; discriminate. }
      assert (K : nth_error cs (length done) = Some c) by (rewrite E, nth_error_app2, Nat.sub_diag; [reflexivity|lia]).
      destruct (extract_aspect (c_aspects c)) as [[e1 size] first] eqn:X.
      set (s1 := match c_thens c with [] => _ | _ => s end) in H.
      match type of H with context [let '(_, _) := ?m in _] => destruct m as [e2 s2] eqn:A end.
      destruct (add_thens names (lower (c_name c)) (c_thens c) [] s2) as [e3 s3] eqn:T.
      pose proof (add_components_errs _ _ _ _ _ _ H N) as EE.
      apply app_eq_nil in EE as [-> EE]. apply app_eq_nil in EE as [-> EE]. apply app_eq_nil in EE as [-> ->].
      unfold extract_aspect in X. apply extract_aspect_spec in X as (_ & XS & XF); [|reflexivity].
      assert (XS' : size = declared "Size" (c_aspects c)) by (rewrite XS; destruct (declared "Size" (c_aspects c)); reflexivity).
      assert (XF' : first = declared "First" (c_aspects c)) by (rewrite XF; destruct (declared "First" (c_aspects c)); reflexivity).
      clear XS XF.
      (* the implicit arrow *)
      set (imp := match c_thens c with [] => component_arrows (length done) c l | _ => [] end).
      assert (F1 : Forall2 (link_ok cs (length done)) (as_ ++ imp) s1).
      { unfold imp, s1, component_arrows. destruct (c_thens c); [|now rewrite app_nil_r].
        apply Forall2_app; [exact F|]. constructor; [|constructor]. split; [reflexivity|]. split; [reflexivity|].
        right. split; [intros j d _ Lt _; exact Lt|]. unfold plain. cbn. auto. }
      assert (P1 : Forall (fun a => a_pos a <= length done) (as_ ++ imp)).
      { apply Forall_app. split; [exact P|]. unfold imp, component_arrows. destruct (c_thens c); [|constructor].
        constructor; [cbn; lia|constructor]. }
      assert (F2 : Forall2 (link_ok cs (S (length done))) (as_ ++ imp) s2).
      { assert (ALL : forall q, apply_all (lower (c_name c)) (cond_of (c_condition c)) size first s1 = (q, s2) -> q = [] ->
                   Forall2 (link_ok cs (S (length done))) (as_ ++ imp) s2).
        { intros q Q Nq. eapply apply_all_spec; eauto. }
        destruct first as [f|]; [eapply ALL; [exact A|reflexivity]|].
        destruct size as [z|]; [eapply ALL; [exact A|reflexivity]|].
        destruct (expr_eqb (cond_of (c_condition c)) ETrue) eqn:C; cbn [negb] in A; [|eapply ALL; [exact A|reflexivity]].
        injection A as <-. apply expr_eqb_iff in C. eapply apply_none_spec; eauto. }
      eapply add_thens_spec in T; [|reflexivity|exact F2].
      assert (AR : imp ++ map (then_arrow (S (length done)) (lower (c_name c))) (c_thens c) = component_arrows (length done) c l).
      { unfold imp, component_arrows. destruct (c_thens c); [now rewrite app_nil_r|reflexivity]. }
      rewrite <- app_assoc, AR in T.
      assert (LD : length (done ++ [c]) = S (length done)) by (rewrite app_length; cbn; lia).
      specialize (IH (done ++ [c]) _ _ _ _ (as_ ++ component_arrows (length done) c l) ltac:(rewrite <- app_assoc; exact E) H N).
      rewrite LD in IH. cbn [arrows_from]. rewrite app_assoc. apply IH; [exact T|].
      apply Forall_app. split; [eapply Forall_impl; [|exact P]; cbn; intros; lia|apply arrows_pos].
  Qed.
End Proof.

(** If no error is reported, there is exactly one link per arrow, with the same ends.
    It has the aspects of the arrow and, if the component it leads to comes later in
    the text, those of the component, none of which is given twice. *)
Theorem C31_links initial cs s :
  NoDup (map (fun c => lower (c_name c)) cs) ->
  create_structure initial cs = Ok ([], s) ->
  Forall2 (link_ok cs (length cs)) (arrows initial cs) s.
Proof.
  intros ND H. unfold create_structure in H. unfold arrows.
  assert (S0 : forall a l e s, source l = a_src a -> target l = a_tgt a -> plain a l -> a_pos a = 0 ->
            add_components (map c_name cs) cs [] [l] = (e, s) -> e = [] ->
            Forall2 (link_ok cs (length cs)) ([a] ++ arrows_from 0 cs) s).
  { intros a l e s0 A B C D E N. eapply (add_components_spec cs ND _ cs [] []); eauto.
    - constructor; [|constructor]. split; [exact A|]. split; [exact B|]. right. split; [|exact C]. cbn. intros; lia.
    - constructor; [cbn; lia|constructor]. }
  destruct initial as [t|].
  - destruct (extract_then INITIAL t) as [e0 l] eqn:X. cbn [fst snd] in H.
    destruct (add_components (map c_name cs) cs e0 [l]) as [e s'] eqn:E. apply Ok_inj in H. injection H as -> ->.
    pose proof (add_components_errs _ _ _ _ _ _ E eq_refl) as ->.
    destruct (plain_then 0 INITIAL t [] l X eq_refl) as (A & B & C). eapply S0; eauto.
  - destruct cs as [|c rest] eqn:CS; [discriminate|]. rewrite <- CS in *. cbn [fst snd] in H.
    destruct (add_components (map c_name cs) cs [] _) as [e s'] eqn:E in H. apply Ok_inj in H. injection H as -> ->.
    eapply S0; [| | | |exact E|reflexivity]; cbn; auto. unfold plain. cbn. auto.
Qed.
Print Assumptions C31_links.

(** In particular: if every arrow to a component comes earlier in the text than the
    component, the aspects of a component are on all links that lead to it. *)
Definition forward (initial : option then_) (cs : list component) : Prop :=
  forall a j c, In a (arrows initial cs) -> nth_error cs j = Some c -> lower (c_name c) = a_tgt a -> a_pos a <= j.
Corollary C31_forward initial cs s :
  NoDup (map (fun c => lower (c_name c)) cs) -> forward initial cs ->
  create_structure initial cs = Ok ([], s) ->
  Forall2 (fun a l => source l = a_src a /\ target l = a_tgt a /\
             forall c, In c cs -> lower (c_name c) = a_tgt a -> combined a c l) (arrows initial cs) s.
Proof.
  intros ND FW H. pose proof (C31_links _ _ _ ND H) as F. clear H. unfold forward in FW. revert FW F.
  generalize (arrows initial cs). intros as_ FW F. revert FW. induction F as [|a l as_ s' L F IH]; intros FW; constructor.
  - destruct L as (A & B & C). split; [exact A|]. split; [exact B|]. intros c I E. apply In_nth_error in I as [j J].
    assert (Lj : j < length cs) by (apply nth_error_Some; congruence).
    destruct C as [(k & d & K & _ & E' & _ & Q)|[N _]].
    + assert (j = k) by (eapply (nth_unique cs ND); eauto; congruence). subst k. congruence.
    + specialize (N j c J Lj E). specialize (FW a j c (or_introl eq_refl) J E). lia.
  - apply IH. intros b j c I. apply FW. now right.
Qed.
Print Assumptions C31_forward.

(** No error also means: no component is called Message, then clauses name components
    (letter by letter), and only the aspects Size and First are used. *)
Lemma aspects_only l : forall errs size first e s f, extract_aspect_loop l errs size first = (e, s, f) -> e = [] ->
  Forall (fun kv => fst kv = "Size" \/ fst kv = "First") l.
Proof.
  induction l as [|[n x] l IH]; intros errs size first e s f H N; [constructor|]. cbn in H.
  destruct (String.eqb_spec n "Size") as [->|A]; [constructor; [now left|eapply IH; eauto]|].
  destruct (String.eqb_spec n "First") as [->|B]; [constructor; [now right|eapply IH; eauto]|].
  exfalso. apply extract_aspect_spec in H as (X & _); [|exact N]. destruct errs; discriminate.
Qed.
Theorem C31_checked initial cs s : create_structure initial cs = Ok ([], s) ->
  forall c, In c cs ->
    lower (c_name c) <> "message" /\
    Forall (fun kv => fst kv = "Size" \/ fst kv = "First") (c_aspects c) /\
    forall t, In t (c_thens c) -> Forall (fun kv => fst kv = "Size" \/ fst kv = "First") (t_aspects t) /\
      forall n, t_target t = Some n -> exists d, In d cs /\ c_name d = n.
Proof.
  intros H.
  assert (TH : forall names src ts errs s e s', add_thens names src ts errs s = (e, s') -> e = [] ->
            forall t, In t ts -> Forall (fun kv => fst kv = "Size" \/ fst kv = "First") (t_aspects t) /\
              forall n, t_target t = Some n -> In n names).
  { induction ts as [|u ts IH]; intros errs s0 e s' A N t I; [destruct I|]. cbn in A.
    destruct (match t_target u with Some n => negb (existsb (String.eqb n) names) | None => false end) eqn:U.
    { apply add_thens_errs in A; [|exact N]. destruct errs; discriminate. }
    destruct (extract_then src u) as [e1 l] eqn:X. destruct I as [<-|I]; [|eapply IH; eauto].
    pose proof (add_thens_errs _ _ _ _ _ _ _ A N) as Y. apply app_eq_nil in Y as [-> ->]. split.
    - unfold extract_then, extract_aspect in X. destruct (extract_aspect_loop (t_aspects u) [] None None) as [[e2 z] f] eqn:Z.
      injection X as -> _. eapply aspects_only; eauto.
    - intros n E. rewrite E in U. apply negb_false_iff, existsb_exists in U as (m & I & M). apply String.eqb_eq in M. now subst. }
  assert (CO : forall names l errs s e s', add_components names l errs s = (e, s') -> e = [] ->
            forall c, In c l -> lower (c_name c) <> "message" /\
              Forall (fun kv => fst kv = "Size" \/ fst kv = "First") (c_aspects c) /\
              forall t, In t (c_thens c) -> Forall (fun kv => fst kv = "Size" \/ fst kv = "First") (t_aspects t) /\
                forall n, t_target t = Some n -> In n names).
  { induction l as [|d l IH]; intros errs s0 e s' A N c I; [destruct I|]. cbn in A.
    destruct (String.eqb_spec (lower (c_name d)) "message") as [M|M].
    { apply add_components_errs in A; [|exact N]. destruct errs; discriminate. }
    destruct (extract_aspect (c_aspects d)) as [[e1 size] first] eqn:X.
    match type of A with context [let '(_, _) := ?m in _] => destruct m as [e2 s2] end.
    destruct (add_thens names (lower (c_name d)) (c_thens d) [] s2) as [e3 s3] eqn:T.
    pose proof (add_components_errs _ _ _ _ _ _ A N) as EE.
    apply app_eq_nil in EE as [-> EE]. apply app_eq_nil in EE as [-> EE]. apply app_eq_nil in EE as [-> ->].
    destruct I as [<-|I]; [|eapply IH; eauto].
    split; [exact M|]. split; [eapply aspects_only; eauto|]. eapply TH; eauto. }
  intros c I.
  assert (E : exists errs0 s0, add_components (map c_name cs) cs errs0 s0 = ([], s)).
  { unfold create_structure in H. destruct initial as [t|].
    - destruct (add_components (map c_name cs) cs (fst (extract_then INITIAL t)) [snd (extract_then INITIAL t)]) as [e s'] eqn:E.
      apply Ok_inj in H. injection H as -> ->. eauto.
    - destruct cs as [|d rest] eqn:CS; [destruct I|]. rewrite <- CS in *. cbn [fst snd] in H.
      destruct (add_components (map c_name cs) cs [] _) as [e s'] eqn:E in H. apply Ok_inj in H. injection H as -> ->. eauto. }
  destruct E as (errs0 & s0 & E). destruct (CO _ _ _ _ _ _ E eq_refl c I) as (A & B & C).
  split; [exact A|]. split; [exact B|]. intros t It. destruct (C t It) as [C1 C2]. split; [exact C1|].
  intros n En. apply C2 in En. apply in_map_iff in En as (d & <- & Id). eauto.
Qed.
Print Assumptions C31_checked.

(** An aspect given for the arrow and again for the component is an error. *)
Theorem C31_conflict initial cs e s a j c :
  NoDup (map (fun c => lower (c_name c)) cs) ->
  create_structure initial cs = Ok (e, s) ->
  In a (arrows initial cs) -> nth_error cs j = Some c -> lower (c_name c) = a_tgt a -> a_pos a <= j ->
  (declared "Size" (c_aspects c) <> None /\ declared "Size" (a_aspects a) <> None) \/
  (declared "First" (c_aspects c) <> None /\ declared "First" (a_aspects a) <> None) ->
  e <> [].
Proof.
  intros ND H I J E P D ->. pose proof (C31_links _ _ _ ND H) as F.
  assert (X : exists l, link_ok cs (length cs) a l).
  { clear -F I. induction F as [|b l as_ s' L F IH]; [destruct I|]. destruct I as [<-|I]; eauto. }
  destruct X as (l & _ & _ & [(k & d & K & _ & E' & _ & Q)|[N _]]).
  - assert (j = k) by (eapply (nth_unique cs ND); eauto; congruence). subst k. rewrite J in K. injection K as <-.
    destruct Q as (_ & Q1 & Q2). destruct D as [[D1 D2]|[D1 D2]].
    + destruct (declared "Size" (c_aspects c)); [|congruence]. destruct (declared "Size" (a_aspects a)); [exact Q1|congruence].
    + destruct (declared "First" (c_aspects c)); [|congruence]. destruct (declared "First" (a_aspects a)); [exact Q2|congruence].
  - assert (Lj : j < length cs) by (apply nth_error_Some; congruence). specialize (N j c J Lj E). lia.
Qed.
Print Assumptions C31_conflict.

(** A message with a skipped field, a size on the arrow and a condition and a position
    on the components. *)
Definition ex_components : list component :=
  [mkComponent "Length" None [] [mkThen (Some "Data") (Some (ERel OGt (EVar "length") (ENum 3%Z))) [("Size", EAss OMul [EVar "length"; ENum 8%Z])];
                                 mkThen None (Some (ERel OLe (EVar "length") (ENum 3%Z))) []];
   mkComponent "Data" (Some (ERel OLt (EVar "length") (ENum 9%Z))) [("First", EName (NAttr AFirst "message") false)] []].

Definition ex_structure : list link :=
  [mkLink "initial" "length" ETrue None None;
   mkLink "length" "data"
     (EAss OAnd [ERel OLt (EVar "length") (ENum 9%Z); ERel OGt (EVar "length") (ENum 3%Z)])
     (Some (EAss OMul [EVar "length"; ENum 8%Z])) (Some (EName (NAttr AFirst "message") false));
   mkLink "length" "final" (ERel OLe (EVar "length") (ENum 3%Z)) None None;
   mkLink "data" "final" ETrue None None].
Example C31_case : create_structure None ex_components = Ok ([], ex_structure).
Proof. vm_compute. reflexivity. Qed.
Example C31_nodup_meets : NoDup (map (fun c => lower (c_name c)) ex_components).
Proof. vm_compute. repeat constructor; cbn; intuition discriminate. Qed.
Example C31_forward_meets : forward None ex_components.
Proof.
  intros a j c I J E. vm_compute in I.
  destruct j as [|[|j]]; [injection J as <-|injection J as <-|cbn in J; now destruct j].
  - repeat (destruct I as [<-|I]; [vm_compute in E |- *; try lia; try discriminate|]). destruct I.
  - repeat (destruct I as [<-|I]; [vm_compute in E |- *; try lia; try discriminate|]). destruct I.
Qed.
(** the same aspect at both places *)
Definition ex_conflict : list component :=
  [mkComponent "Length" None [] [mkThen (Some "Data") None [("Size", ENum 8%Z)]];
   mkComponent "Data" None [("Size", ENum 16%Z)] []].
Example C31_conflict_case : exists s, create_structure None ex_conflict = Ok (["size aspect conflicts"], s).
Proof. eexists. vm_compute. reflexivity. Qed.
Example C31_conflict_meets : exists a j c,
  In a (arrows None ex_conflict) /\ nth_error ex_conflict j = Some c /\ lower (c_name c) = a_tgt a /\ a_pos a <= j /\
  declared "Size" (c_aspects c) <> None /\ declared "Size" (a_aspects a) <> None.
Proof.
  exists (mkArrow 1 "length" "data" None [("Size", ENum 8%Z)]), 1, (mkComponent "Data" None [("Size", ENum 16%Z)] []).
  cbn. repeat split; auto; discriminate.
Qed.

(** The condition of a component is lost without any error if the component stands
    before the one that leads to it: here no link has a condition although field B
    declares one. *)
Definition ex_lost : list component :=
  [mkComponent "A" None [] [mkThen (Some "C") None []];
   mkComponent "B" (Some (ERel OGt (EVar "a") (ENum 3%Z))) [("Size", ENum 8%Z)] [mkThen None None []];
   mkComponent "C" None [] [mkThen (Some "B") None []]].
Theorem C31_lost_refuted : exists cs s c,
  NoDup (map (fun c => lower (c_name c)) cs) /\ create_structure None cs = Ok ([], s) /\
  In c cs /\ c_condition c <> None /\ c_aspects c <> [] /\
  (exists l, In l s /\ target l = lower (c_name c)) /\
  Forall (fun l => condition l = ETrue /\ lsize l = None) s.
Proof.
  exists ex_lost. eexists. exists (mkComponent "B" (Some (ERel OGt (EVar "a") (ENum 3%Z))) [("Size", ENum 8%Z)] [mkThen None None []]).
  split; [vm_compute; repeat constructor; cbn; intuition discriminate|].
  split; [vm_compute; reflexivity|]. split; [cbn; auto|]. split; [discriminate|]. split; [discriminate|]. split.
  - exists (mkLink "c" "b" ETrue None None). split; [cbn; auto 10|reflexivity].
  - repeat (apply Forall_cons; [split; reflexivity|]). apply Forall_nil.
Qed.
Print Assumptions C31_lost_refuted.

(** A then clause that spells a component differently is rejected although names
    are case-insensitive everywhere else. *)
Theorem C31_case_refuted : exists cs s t d,
  In t (c_thens (hd d cs)) /\ t_target t = Some "data" /\ In d cs /\ lower (c_name d) = "data" /\
  create_structure None cs = Ok (["undefined field"], s).
Proof.
  exists [mkComponent "Length" None [] [mkThen (Some "data") None []]; mkComponent "Data" None [] []].
  eexists. exists (mkThen (Some "data") None []), (mkComponent "Data" None [] []).
  repeat (split; [cbn; auto|]). vm_compute. reflexivity.
Qed.
Print Assumptions C31_case_refuted.
