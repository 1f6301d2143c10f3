(** C67: which specification files are loaded, and what an error-free loading guarantees. *)
From Coq Require Import String Ascii List Bool Arith Lia.
From Verif Require Import Base Ident SpecExpr SpecSort SpecSortFacts SpecLoad.
Import ListNotations.
Local Open Scope string_scope.
Local Open Scope list_scope.
Local Open Scope nat_scope.

(** ** What the theorems speak of *)

(** the files that [l] asks for: those of [l], and beside a file the files of the packages in its
    with clauses *)
Inductive needed (fs : files) (l : list path) : path -> Prop :=
| needed_given f : In f l -> needed fs l f
| needed_withed f s p : needed fs l f -> content_of fs f = Parsed s -> In p (s_withs s) ->
                        needed fs l (removelast f ++ [(lower p ++ ".rflx")%string]).
(** a specification without complaint: file [f] has the name of the package, which does not start
    with RFLX; no reserved words; Boolean is not declared again *)
Definition fine (f : path) (s : spec) : Prop :=
  last f "" = (lower (s_package s) ++ ".rflx")%string /\ s_end s = s_package s
  /\ (forall r, s_package s <> ("RFLX" ++ r)%string)
  /\ (forall t, In t (s_types s) -> ~ In (lower t) reserved_words /\ lower t <> "boolean")
  /\ (forall p, In p (s_withs s) -> ~ In (lower p) reserved_words).

(** ** Proofs *)

Lemma path_eq_iff a b : path_eq a b = true <-> a = b.
Proof. unfold path_eq. destruct (list_eq_dec string_dec a b); intuition congruence. Qed.
Lemma get_set d k v g : get (set d k v) g = if String.eqb k g then Some v else get d g.
Proof.
  induction d as [|[k' w] d IH]; cbn; [reflexivity|].
  destruct (String.eqb_spec k' k) as [->|N]; cbn.
  - destruct (String.eqb_spec k g); reflexivity.
  - rewrite IH. destruct (String.eqb_spec k' g) as [->|]; [|reflexivity]. destruct (String.eqb_spec k g); [congruence|reflexivity].
Qed.
Lemma get_in d k v : get d k = Some v -> In (k, v) d.
Proof.
  induction d as [|[k' w] d IH]; cbn; [discriminate|]. destruct (String.eqb_spec k' k) as [->|N]; [|auto].
  intros X. injection X as ->. now left.
Qed.
Lemma in_get d k v : NoDup (names d) -> In (k, v) d -> get d k = Some v.
Proof.
  induction d as [|[k' w] d IH]; cbn; [intros _ []|]. intros ND [X|I].
  - injection X as -> ->. now rewrite String.eqb_refl.
  - inversion ND; subst. destruct (String.eqb_spec k' k) as [->|N]; [|auto].
    destruct H1. apply in_map_iff. exists (k, v). auto.
Qed.
Lemma names_get d k : In k (names d) -> exists v, get d k = Some v.
Proof.
  induction d as [|[k' w] d IH]; cbn; [intros []|]. intros [->|I].
  - rewrite String.eqb_refl. eauto.
  - destruct (String.eqb k' k); eauto.
Qed.
Lemma get_none d k : get d k = None -> ~ In k (names d).
Proof. intros E I. destruct (names_get _ _ I). congruence. Qed.
(** an assignment of the present value changes nothing, one of a new key appends *)
Lemma set_same d k v : get d k = Some v -> set d k v = d.
Proof.
  induction d as [|[k' w] d IH]; cbn; [discriminate|]. destruct (String.eqb_spec k' k) as [->|N].
  - intros X. injection X as ->. reflexivity.
  - intros X. now rewrite IH.
Qed.
Lemma set_new d k v : get d k = None -> set d k v = d ++ [(k, v)].
Proof.
  induction d as [|[k' w] d IH]; cbn; [reflexivity|]. destruct (String.eqb_spec k' k) as [->|N]; [discriminate|].
  intros X. now rewrite IH.
Qed.
Lemma reserved_iff x : is_reserved x = true <-> In (lower x) reserved_words.
Proof.
  unfold is_reserved. rewrite existsb_exists. split.
  - intros (y & I & E). apply String.eqb_eq in E. now subst.
  - intros I. exists (lower x). split; [exact I|apply String.eqb_refl].
Qed.
Lemma reserved_false x : is_reserved x = false <-> ~ In (lower x) reserved_words.
Proof. rewrite <- reserved_iff. destruct (is_reserved x); intuition congruence. Qed.
Lemma mem_names k (l : list string) : existsb (String.eqb k) l = true <-> In k l.
Proof.
  rewrite existsb_exists. split.
  - intros (y & I & E). apply String.eqb_eq in E. now subst.
  - intros I. exists k. split; [exact I|apply String.eqb_refl].
Qed.
Lemma in_transitions item tr : existsb (fun t => String.eqb (lower t) (lower item)) tr = true <-> In (lower item) (map lower tr).
Proof.
  rewrite existsb_exists, in_map_iff. split.
  - intros (t & I & E). apply String.eqb_eq in E. eauto.
  - intros (t & E & I). exists t. split; [exact I|]. now apply String.eqb_eq.
Qed.

Lemma check_types_iff ts : check_types ts = inl [] <->
  forall t, In t ts -> ~ In (lower t) reserved_words /\ lower t <> "boolean".
Proof.
  induction ts as [|t ts IH]; [split; [intros _ ? []|reflexivity]|]. cbn [check_types].
  destruct (is_reserved t) eqn:R.
  - split; [intros Y; discriminate Y|]. intros H. apply reserved_iff in R. destruct (H t); [now left|]. contradiction.
  - apply reserved_false in R. destruct (check_types ts) as [l|e].
    + destruct (String.eqb_spec (lower t) "boolean") as [B|B]; cbn [app].
      * split; [discriminate|]. intros H. destruct (H t); [now left|]. contradiction.
      * split.
        -- intros X. injection X as ->. intros u [<-|I]; [auto|]. now apply (proj1 IH).
        -- intros H. apply IH. intros u I. apply H. now right.
    + split; [intros Y; discriminate Y|]. intros H. exfalso. assert (X : @inr (list message) message e = inl []) by (apply IH; intros u I; apply H; now right). discriminate.
Qed.
Lemma prefix_iff p s : String.prefix p s = true <-> exists r, s = (p ++ r)%string.
Proof.
  revert s. induction p as [|a p IH]; intros s; cbn [String.prefix String.append].
  - split; [intros _; now exists s|now destruct s].
  - destruct s as [|b s]; [split; [discriminate|intros [r E]; discriminate]|]. cbn [String.prefix].
    destruct (ascii_dec a b) as [->|N].
    + rewrite IH. split; intros [r E]; exists r; congruence.
    + split; [discriminate|]. intros [r E]. congruence.
Qed.
Lemma check_naming_iff s f : check_naming s f = inl [] <->
  last f "" = rflx (s_package s) /\ s_end s = s_package s /\ (forall r, s_package s <> ("RFLX" ++ r)%string)
  /\ forall t, In t (s_types s) -> ~ In (lower t) reserved_words /\ lower t <> "boolean".
Proof.
  rewrite <- check_types_iff. unfold check_naming, file_name_of.
  destruct (check_types (s_types s)) as [l|e]; [|split; [discriminate|intros (_ & _ & _ & X); discriminate]].
  destruct (String.prefix "RFLX" (s_package s)) eqn:P.
  - split; [discriminate|]. intros (_ & _ & H & _). apply prefix_iff in P as [r E]. destruct (H r E).
  - assert (H : forall r, s_package s <> ("RFLX" ++ r)%string).
    { intros r E. enough (String.prefix "RFLX" (s_package s) = true) by congruence. apply prefix_iff. eauto. }
    destruct (String.eqb_spec (s_package s) (s_end s)) as [E|E].
    + destruct (String.eqb_spec (last f "") (rflx (s_package s))) as [F|F]; cbn -[rflx].
      * split; [intros X; injection X as ->; auto|]. intros (_ & _ & _ & X). exact X.
      * split; [discriminate|]. intros (X & _). contradiction.
    + split; [discriminate|]. intros (_ & X & _). congruence.
Qed.

Lemma append_cancel a : forall b s, (a ++ s)%string = (b ++ s)%string -> a = b.
Proof.
  assert (L : forall x s, String.length (x ++ s) = String.length x + String.length s)
    by (intros x; induction x as [|c x IH]; intros s; cbn; [reflexivity|now rewrite IH]).
  induction a as [|c a IH]; intros [|d b] s E; [reflexivity| | |].
  - apply (f_equal String.length) in E. cbn in E. rewrite L in E. lia.
  - apply (f_equal String.length) in E. cbn in E. rewrite L in E. lia.
  - cbn in E. injection E as -> E. f_equal. eapply IH, E.
Qed.
Lemma rflx_inj a b : rflx a = rflx b <-> lower a = lower b.
Proof. unfold rflx. split; [apply append_cancel|congruence]. Qed.
Lemma beside_beside f x y : beside (beside f x) y = beside f y.
Proof. unfold beside. now rewrite removelast_last. Qed.
Lemma last_beside f x : last (beside f x) "" = x.
Proof. unfold beside. now rewrite last_last. Qed.
Lemma nodup_snoc {A} (l : list A) x : NoDup l -> ~ In x l -> NoDup (l ++ [x]).
Proof.
  intros ND N. apply NoDup_rev in ND. rewrite <- (rev_involutive (l ++ [x])). apply NoDup_rev. rewrite rev_app_distr. cbn.
  constructor; [|exact ND]. now rewrite <- in_rev.
Qed.
Lemma snoc_split {A} (l a b : list A) x y : l ++ [x] = a ++ y :: b -> (b = [] /\ a = l /\ y = x) \/ exists b', l = a ++ y :: b'.
Proof.
  intros E. destruct b as [|z b _] using rev_ind.
  - left. apply app_inj_tail in E as [-> ->]. auto.
  - right. exists b. change (a ++ y :: b ++ [z]) with (a ++ (y :: b) ++ [z]) in E. rewrite app_assoc in E.
    now apply app_inj_tail in E as [-> _].
Qed.

Section Facts.
  Context (fs : files) (Q : path -> Prop).
  Context (QW : forall f s p, Q f -> content_of fs f = Parsed s -> In p (s_withs s) -> Q (beside f (rflx p))).

  (** *** soundness *)

  (** an entry as the loading without errors makes it *)
  Definition entry_ok (k : string) (v : node) : Prop :=
    let '(f, s, w) := v in
    content_of fs f = Parsed s /\ fine f s /\ k = rflx (s_package s) /\ w = map rflx (s_withs s) /\ Q f.
  (** every entry is fine and comes after those of its with clauses *)
  Definition ordered (sp : specs) : Prop :=
    NoDup (names sp)
    /\ (forall k v, In (k, v) sp -> entry_ok k v)
    /\ forall a k f s w b, sp = a ++ (k, (f, s, w)) :: b -> incl w (names a).

  Lemma ordered_nil : ordered [].
  Proof. split; [constructor|split; [intros ? ? []|]]. intros [|? ?] k f s w b E; discriminate. Qed.
  Lemma ordered_snoc sp k f s w : ordered sp -> ~ In k (names sp) -> entry_ok k (f, s, w) -> incl w (names sp) ->
    ordered (sp ++ [(k, (f, s, w))]).
  Proof.
    intros (ND & EN & OR) N E I. split; [|split].
    - unfold names. rewrite map_app. cbn. now apply nodup_snoc.
    - intros k' v' J. apply in_app_or in J as [J|[J|[]]]; [now apply EN|]. injection J as <- <-. exact E.
    - intros a k' f' s' w' b X. apply snoc_split in X as [(-> & -> & X)|[b' X]].
      + injection X as -> -> -> ->. exact I.
      + eapply OR, X.
  Qed.

  Definition extends (sp sp' : specs) : Prop := exists r, sp' = sp ++ r.
  Lemma extends_trans a b c : extends a b -> extends b c -> extends a c.
  Proof. intros [r ->] [q ->]. exists (r ++ q). now rewrite app_assoc. Qed.
  Lemma extends_names a b k : extends a b -> In k (names a) -> In k (names b).
  Proof. intros [r ->] I. unfold names. rewrite map_app, in_app_iff. now left. Qed.
  Lemma extends_in a b x : extends a b -> In x a -> In x b.
  Proof. intros [r ->] I. rewrite in_app_iff. now left. Qed.

  Definition file_sound (rec : path -> list string -> specs -> run specs) : Prop :=
    forall f tr sp sp', Q f -> rec f tr sp = Done [] sp' -> ordered sp ->
    ordered sp' /\ extends sp sp' /\ exists s, content_of fs f = Parsed s /\ In (last f "", (f, s, map rflx (s_withs s))) sp'.

  Lemma items_sound rec f tr : file_sound rec -> forall items errs wi sp wi' sp',
    (forall p, In p items -> Q (beside f (rflx p))) ->
    load_items rec f tr items errs wi sp = Done [] (wi', sp') ->
    errs = [] /\ (ordered sp -> wi' = wi ++ map rflx items /\ ordered sp' /\ extends sp sp'
      /\ forall p, In p items -> In (rflx p) (names sp') /\ ~ In (lower p) reserved_words).
  Proof.
    intros R items. induction items as [|p items IH]; intros errs wi sp wi' sp' HQ H; cbn [load_items] in H.
    - injection H as -> -> ->. split; [reflexivity|]. intros O. split; [now rewrite app_nil_r|]. split; [exact O|].
      split; [exists []; now rewrite app_nil_r|intros p []].
    - destruct (is_reserved p) eqn:RP; [discriminate|]. apply reserved_false in RP.
      assert (HQ' : forall q, In q items -> Q (beside f (rflx q))) by (intros q I; apply HQ; now right).
      destruct (existsb _ tr) eqn:T.
      { apply IH in H as [E _]; [|exact HQ']. now destruct errs. }
      destruct (existsb _ (names sp)) eqn:M.
      + apply IH in H as [E H]; [|exact HQ']. split; [exact E|]. intros O. destruct (H O) as (W & O' & X & J).
        split; [rewrite W; cbn; now rewrite <- app_assoc|]. split; [exact O'|]. split; [exact X|].
        intros q [<-|I]; [|auto]. split; [|exact RP]. apply mem_names in M. eapply extends_names; eassumption.
      + destruct (rec (beside f (rflx p)) (tr ++ [p]) sp) as [e sp1|e sp1|] eqn:C; [|discriminate|discriminate].
        apply IH in H as [E H]; [|exact HQ']. apply app_eq_nil in E as [-> ->]. split; [reflexivity|]. intros O.
        destruct (R _ _ _ _ (HQ p (or_introl eq_refl)) C O) as (O1 & X1 & s & _ & G). rewrite last_beside in G.
        destruct (H O1) as (W & O' & X & J).
        split; [rewrite W; cbn; now rewrite <- app_assoc|]. split; [exact O'|]. split; [eapply extends_trans; eassumption|].
        intros q [<-|I]; [|auto]. split; [|exact RP]. eapply extends_names; [exact X|]. apply in_map_iff. now exists (rflx p, (beside f (rflx p), s, map rflx (s_withs s))).
  Qed.

  Lemma file_is_sound n : file_sound (load_file fs n).
  Proof.
    induction n as [|n IH]; intros f tr sp sp' HQ H O; cbn [load_file] in H; [discriminate|].
    destruct (content_of fs f) as [d ds|s] eqn:C; [discriminate|].
    destruct (check_naming s f) as [l|e] eqn:N; [|discriminate].
    destruct (load_items (load_file fs n) f tr (s_withs s) l [] sp) as [e [wi sp1]|e sp1|] eqn:L; [|discriminate|discriminate].
    assert (E : e = [] /\ check_duplicate s f sp1 = []) by (injection H as H _; now apply app_eq_nil in H).
    destruct E as [-> D]. rewrite D in H. apply items_sound in L as [-> L]; [|exact IH|intros p I; eapply QW; eassumption].
    destruct (L O) as (W & O1 & X & J). cbn in W. subst wi. injection H as <-.
    apply check_naming_iff in N as (F1 & F2 & F3 & F4).
    assert (FI : fine f s) by (split; [exact F1|split; [exact F2|split; [exact F3|split; [exact F4|intros p I; now apply J]]]]).
    unfold check_duplicate in D. rewrite F1.
    destruct (get sp1 (rflx (s_package s))) as [[[g s'] w']|] eqn:G.
    - destruct (path_eq f g) eqn:P; [|discriminate]. apply path_eq_iff in P. subst g.
      pose proof O1 as (ND & EN & _). pose proof (EN _ _ (get_in _ _ _ G)) as (C' & _ & _ & W' & _).
      assert (s' = s) by congruence. subst s' w'.
      rewrite (set_same _ _ _ G). split; [exact O1|]. split; [exact X|]. exists s. split; [reflexivity|]. now apply get_in.
    - rewrite (set_new _ _ _ G). split; [|split].
      + apply ordered_snoc; [exact O1|now apply get_none| |].
        * split; [exact C|]. auto.
        * intros k I. apply in_map_iff in I as (p & <- & I). now apply J.
      + eapply extends_trans; [exact X|]. eexists. reflexivity.
      + exists s. split; [reflexivity|]. apply in_or_app. right. now left.
  Qed.

  Lemma files_sound n l : forall errs sp sp', (forall f, In f l -> Q f) -> load_files fs n l errs sp = Done [] sp' ->
    errs = [] /\ (ordered sp -> ordered sp' /\ extends sp sp'
      /\ forall f, In f l -> exists s, content_of fs f = Parsed s /\ In (last f "", (f, s, map rflx (s_withs s))) sp').
  Proof.
    induction l as [|f l IH]; intros errs sp sp' HQ H; cbn [load_files] in H.
    - injection H as -> ->. split; [reflexivity|]. intros O. split; [exact O|]. split; [exists []; now rewrite app_nil_r|intros f []].
    - destruct (load_file fs n f [] sp) as [e sp1|e sp1|] eqn:L; [|discriminate|discriminate].
      apply IH in H as [E H]; [|intros g I; apply HQ; now right]. apply app_eq_nil in E as [-> ->]. split; [reflexivity|]. intros O.
      destruct (file_is_sound n _ _ _ _ (HQ f (or_introl eq_refl)) L O) as (O1 & X1 & s & C & I).
      destruct (H O1) as (O' & X & J). split; [exact O'|]. split; [eapply extends_trans; eassumption|].
      intros g [<-|K]; [|auto]. exists s. split; [exact C|]. eapply extends_in; eassumption.
  Qed.

  (** *** completeness *)
  Context (FINE : forall f, Q f -> exists s, content_of fs f = Parsed s /\ fine f s).
  Context (ONE : forall f g, Q f -> Q g -> last f "" = last g "" -> f = g).
  Context (rank : path -> nat).
  Context (RANK : forall f s p, Q f -> content_of fs f = Parsed s -> In p (s_withs s) -> rank (beside f (rflx p)) < rank f).

  Definition file_complete (rec : path -> list string -> specs -> run specs) : Prop :=
    forall f tr sp, Q f -> (forall t, In t tr -> rank f <= rank (beside f (rflx t))) -> ordered sp ->
    rec f tr sp = Fuel \/ exists sp', rec f tr sp = Done [] sp'.

  Lemma items_complete rec f tr s : file_sound rec -> file_complete rec -> Q f -> content_of fs f = Parsed s -> fine f s ->
    (forall t, In t tr -> rank f <= rank (beside f (rflx t))) ->
    forall items wi sp, incl items (s_withs s) -> ordered sp ->
    load_items rec f tr items [] wi sp = Fuel \/ exists r, load_items rec f tr items [] wi sp = Done [] r.
  Proof.
    intros R1 R2 HQ C FI HT. induction items as [|p items IH]; intros wi sp I O; cbn [load_items]; [right; eauto|].
    assert (Ip : In p (s_withs s)) by (apply I; now left). assert (I' : incl items (s_withs s)) by (intros x J; apply I; now right).
    assert (RP : is_reserved p = false) by (apply reserved_false; now apply FI). rewrite RP.
    destruct (existsb _ tr) eqn:T.
    { exfalso. apply in_transitions in T. apply in_map_iff in T as (t & E & J). apply rflx_inj in E.
      pose proof (HT t J) as A. rewrite E in A. pose proof (RANK f s p HQ C Ip). lia. }
    destruct (existsb _ (names sp)); [now apply IH|].
    destruct (R2 (beside f (rflx p)) (tr ++ [p]) sp) as [E|[sp1 E]].
    - eapply QW; eassumption.
    - intros t J. rewrite beside_beside. apply in_app_or in J as [J|[<-|[]]]; [|lia].
      pose proof (HT t J). pose proof (RANK f s p HQ C Ip). lia.
    - exact O.
    - rewrite E. now left.
    - rewrite E. apply IH; [exact I'|]. apply (R1 _ _ _ _ (QW f s p HQ C Ip) E O).
  Qed.
  Lemma file_is_complete n : file_complete (load_file fs n).
  Proof.
    induction n as [|n IH]; intros f tr sp HQ HT O; cbn [load_file]; [now left|].
    destruct (FINE f HQ) as (s & C & FI). rewrite C.
    assert (N : check_naming s f = inl []) by (apply check_naming_iff; destruct FI as (? & ? & ? & ? & _); auto).
    rewrite N. destruct (items_complete _ f tr s (file_is_sound n) IH HQ C FI HT (s_withs s) [] sp (incl_refl _) O) as [E|[[wi sp1] E]];
      rewrite E; [now left|]. right.
    pose proof E as E'. apply items_sound in E' as [_ E']; [|apply file_is_sound|intros p I; eapply QW; eassumption].
    destruct (E' O) as (_ & O1 & _). cbn.
    assert (D : check_duplicate s f sp1 = []).
    { unfold check_duplicate. destruct (get sp1 (rflx (s_package s))) as [[[g s'] w']|] eqn:G; [|reflexivity].
      apply get_in in G. pose proof O1 as (_ & EN & _). apply EN in G as (_ & FG & K & _ & QG).
      assert (X : f = g).
      { apply ONE; [exact HQ|exact QG|]. destruct FI as (-> & _). destruct FG as (-> & _). exact K. }
      apply path_eq_iff in X. now rewrite X. }
    rewrite D. eauto.
  Qed.
  Lemma files_complete n l : forall sp, (forall f, In f l -> Q f) -> ordered sp ->
    load_files fs n l [] sp = Fuel \/ exists sp', load_files fs n l [] sp = Done [] sp'.
  Proof.
    induction l as [|f l IH]; intros sp HQ O; cbn [load_files]; [right; eauto|].
    assert (HQ' : forall g, In g l -> Q g) by (intros g I; apply HQ; now right).
    assert (Qf : Q f) by (apply HQ; now left).
    destruct (file_is_complete n f [] sp Qf) as [E|[sp1 E]]; [intros t []|exact O| |]; rewrite E; [now left|].
    apply IH; [exact HQ'|]. apply (file_is_sound n _ _ _ _ Qf E O).
  Qed.
End Facts.

(** *** the fuel *)
Section Total.
  Context (fs : files).
  Definition file_names : list string := map (fun e => last (fst e) "") fs.
  Lemma parsed_name f s : content_of fs f = Parsed s -> In (last f "") file_names.
  Proof.
    unfold file_names. induction fs as [|[p c] r IH]; cbn; [discriminate|]. destruct (path_eq p f) eqn:P; [|auto].
    apply path_eq_iff in P. subst. now left.
  Qed.
  Lemma items_total rec f tr : (forall p sp, ~ In (lower p) (map lower tr) -> rec (beside f (rflx p)) (tr ++ [p]) sp <> Fuel) ->
    forall items errs wi sp, load_items rec f tr items errs wi sp <> Fuel.
  Proof.
    intros R. induction items as [|p items IH]; intros errs wi sp; cbn [load_items]; [discriminate|].
    destruct (is_reserved p); [discriminate|]. destruct (existsb _ tr) eqn:T; [apply IH|]. destruct (existsb _ (names sp)); [apply IH|].
    assert (N : ~ In (lower p) (map lower tr)) by (rewrite <- in_transitions; congruence).
    pose proof (R p sp N). destruct (rec _ _ sp); [apply IH|discriminate|contradiction].
  Qed.
  Lemma file_total n : forall f tr sp, NoDup (map rflx tr) -> incl (map rflx tr) (last f "" :: file_names) ->
    List.length fs + 2 <= n + List.length tr -> load_file fs n f tr sp <> Fuel.
  Proof.
    induction n as [|n IH]; intros f tr sp ND I L.
    - exfalso. apply (NoDup_incl_length ND) in I. cbn [List.length] in I. unfold file_names in I. rewrite !map_length in I. unfold path in *. lia.
    - cbn [load_file]. destruct (content_of fs f) as [d ds|s] eqn:C; [discriminate|].
      destruct (check_naming s f); [|discriminate].
      pose proof (items_total (load_file fs n) f tr) as T.
      destruct (load_items (load_file fs n) f tr (s_withs s) l [] sp) as [e [wi sp1]|e sp1|] eqn:E; [discriminate|discriminate|].
      exfalso. apply (fun H => T H (s_withs s) l [] sp E). intros p sp' N. apply IH.
      + rewrite map_app. cbn. apply nodup_snoc; [exact ND|]. rewrite in_map_iff. intros (t & X & J). apply N.
        apply rflx_inj in X. apply in_map_iff. eauto.
      + rewrite last_beside, map_app. intros x J. apply in_app_or in J as [J|[<-|[]]]; [|now left]. right.
        apply I in J as [<-|J]; [eapply parsed_name, C|exact J].
      + rewrite app_length. cbn. lia.
  Qed.
  Lemma files_total n l : List.length fs + 2 <= n -> forall errs sp, load_files fs n l errs sp <> Fuel.
  Proof.
    intros L. induction l as [|f l IH]; intros errs sp; cbn [load_files]; [discriminate|].
    assert (T : load_file fs n f [] sp <> Fuel) by (apply file_total; [constructor|intros x []|cbn [List.length]; lia]).
    destruct (load_file fs n f [] sp); [apply IH|discriminate|contradiction].
  Qed.
End Total.

(** *** what is reported *)
Lemma items_prefix rec f tr items : forall errs wi sp e r, load_items rec f tr items errs wi sp = Done e r -> exists x, e = errs ++ x.
Proof.
  induction items as [|p items IH]; intros errs wi sp e r H; cbn [load_items] in H.
  - injection H as <- _. exists []. now rewrite app_nil_r.
  - destruct (is_reserved p); [discriminate|]. destruct (existsb _ tr).
    { apply IH in H as [x ->]. rewrite <- app_assoc. eauto. }
    destruct (existsb _ (names sp)); [eauto|]. destruct (rec _ _ sp) as [e1 sp1| |]; [|discriminate|discriminate].
    apply IH in H as [x ->]. rewrite <- app_assoc. eauto.
Qed.
Lemma files_prefix fs n l : forall errs sp e sp', load_files fs n l errs sp = Done e sp' -> exists x, e = errs ++ x.
Proof.
  induction l as [|f l IH]; intros errs sp e sp' H; cbn [load_files] in H.
  - injection H as <- _. exists []. now rewrite app_nil_r.
  - destruct (load_file fs n f [] sp) as [e1 sp1| |]; [|discriminate|discriminate]. apply IH in H as [x ->]. rewrite <- app_assoc. eauto.
Qed.
(** what a file itself gives reason to *)
Definition complaints (fs : files) (f : path) : list message :=
  match content_of fs f with
  | Broken d ds => map Diagnostic (d :: ds)
  | Parsed s => match check_naming s f with inl e => e | inr e => [e] end
  end.
Lemma file_reported fs n f tr sp e sp' : load_file fs n f tr sp = Done e sp' -> incl (complaints fs f) e.
Proof.
  destruct n as [|n]; [discriminate|]. cbn [load_file]. unfold complaints. destruct (content_of fs f) as [d ds|s].
  - intros H. injection H as <- _. apply incl_refl.
  - destruct (check_naming s f) as [l|x]; [|discriminate].
    destruct (load_items _ f tr _ l [] sp) as [e1 [w sp1]| |] eqn:L; [|discriminate|discriminate]. intros H. injection H as <- _.
    apply items_prefix in L as [x ->]. intros y I. rewrite !in_app_iff. auto.
Qed.
Lemma files_reported fs n l : forall errs sp e sp', load_files fs n l errs sp = Done e sp' -> forall f, In f l -> incl (complaints fs f) e.
Proof.
  induction l as [|g l IH]; intros errs sp e sp' H f I; [destruct I|]. cbn [load_files] in H.
  destruct (load_file fs n g [] sp) as [e1 sp1| |] eqn:L; [|discriminate|discriminate]. destruct I as [->|I]; [|eauto].
  apply file_reported in L. apply files_prefix in H as [x ->]. intros y J. rewrite !in_app_iff. left. right. now apply L.
Qed.

(** *** duplicates *)
Definition duplicate (e : list message) : Prop := exists x, In (DuplicateSpecification x) e.
Lemma duplicate_app a b : duplicate (a ++ b) <-> duplicate a \/ duplicate b.
Proof.
  unfold duplicate. split.
  - intros [x I]. apply in_app_or in I as [I|I]; eauto.
  - intros [[x I]|[x I]]; exists x; apply in_or_app; auto.
Qed.
Definition stays (sp sp' : specs) : Prop :=
  forall k g s w, get sp k = Some (g, s, w) -> exists s' w', get sp' k = Some (g, s', w').
Lemma stays_refl sp : stays sp sp. Proof. intros k g s w G. eauto. Qed.
Lemma stays_trans a b c : stays a b -> stays b c -> stays a c.
Proof. intros X Y k g s w G. destruct (X _ _ _ _ G) as (s' & w' & G'). eauto. Qed.
Lemma items_stay rec f tr : (forall g t sp e sp', rec g t sp = Done e sp' -> duplicate e \/ stays sp sp') ->
  forall items errs wi sp e wi' sp', load_items rec f tr items errs wi sp = Done e (wi', sp') -> duplicate e \/ stays sp sp'.
Proof.
  intros R items. induction items as [|p items IH]; intros errs wi sp e wi' sp' H; cbn [load_items] in H.
  - injection H as _ _ <-. right. apply stays_refl.
  - destruct (is_reserved p); [discriminate|]. destruct (existsb _ tr); [eapply IH; eassumption|].
    destruct (existsb _ (names sp)); [eapply IH; eassumption|]. destruct (rec _ _ sp) as [e1 sp1| |] eqn:L; [|discriminate|discriminate].
    pose proof (items_prefix _ _ _ _ _ _ _ _ _ H) as [x ->]. apply IH in H. destruct H as [H|H]; [now left|].
    apply R in L as [D|S]; [left; rewrite !duplicate_app; auto|]. right. eapply stays_trans; eassumption.
Qed.
Lemma file_stays fs n : forall f tr sp e sp', load_file fs n f tr sp = Done e sp' -> duplicate e \/
  (stays sp sp' /\ forall s, content_of fs f = Parsed s -> exists w, get sp' (rflx (s_package s)) = Some (f, s, w)).
Proof.
  induction n as [|n IH]; intros f tr sp e sp' H; cbn [load_file] in H; [discriminate|].
  destruct (content_of fs f) as [d ds|s]; [injection H as <- <-; right; split; [apply stays_refl|discriminate]|].
  destruct (check_naming s f) as [l|x]; [|discriminate].
  destruct (load_items _ f tr _ l [] sp) as [e1 [w sp1]| |] eqn:L; [|discriminate|discriminate]. injection H as <- <-.
  apply items_stay in L as [D|S]; [left; rewrite duplicate_app; auto| |].
  - unfold check_duplicate. destruct (get sp1 (rflx (s_package s))) as [[[g s'] w']|] eqn:G.
    + destruct (path_eq f g) eqn:P; [|left; rewrite duplicate_app; right; exists f; now left].
      apply path_eq_iff in P. subst g. right. split.
      * eapply stays_trans; [exact S|]. intros k g t v G'. rewrite get_set. destruct (String.eqb_spec (rflx (s_package s)) k) as [<-|]; [|eauto].
        rewrite G in G'. injection G' as -> -> ->. eauto.
      * intros t X. injection X as <-. exists w. now rewrite get_set, String.eqb_refl.
    + right. split.
      * eapply stays_trans; [exact S|]. intros k g t v G'. rewrite get_set. destruct (String.eqb_spec (rflx (s_package s)) k) as [<-|]; [congruence|eauto].
      * intros t X. injection X as <-. exists w. now rewrite get_set, String.eqb_refl.
  - intros g t sp0 e0 sp0' X. apply IH in X as [D|[S _]]; auto.
Qed.
Lemma files_stay fs n l : forall errs sp e sp', load_files fs n l errs sp = Done e sp' -> duplicate e \/
  (stays sp sp' /\ forall f s, In f l -> content_of fs f = Parsed s -> exists s' w, get sp' (rflx (s_package s)) = Some (f, s', w)).
Proof.
  induction l as [|f l IH]; intros errs sp e sp' H; cbn [load_files] in H.
  - injection H as _ <-. right. split; [apply stays_refl|intros f s []].
  - destruct (load_file fs n f [] sp) as [e1 sp1| |] eqn:L; [|discriminate|discriminate].
    pose proof (files_prefix _ _ _ _ _ _ _ H) as [x ->]. apply IH in H. destruct H as [H|[H1 H2]]; [now left|].
    apply file_stays in L as [D|[S F]]; [left; rewrite !duplicate_app; auto|]. right.
    split; [eapply stays_trans; eassumption|]. intros g s [<-|I] C; [|eauto]. destruct (F s C) as [w G]. eauto.
Qed.

(** the invariant of the files that are needed *)
Lemma needed_closed fs l f s p : needed fs l f -> content_of fs f = Parsed s -> In p (s_withs s) -> needed fs l (beside f (rflx p)).
Proof. intros N C I. exact (needed_withed fs l f s p N C I). Qed.

(** the place of a key *)
Fixpoint place (k : string) (l : list string) : nat :=
  match l with [] => 0 | x :: r => if String.eqb x k then 0 else S (place k r) end.
Lemma place_in k l r : In k l -> place k (l ++ r) < List.length l.
Proof.
  induction l as [|x l IH]; [intros []|]. cbn. destruct (String.eqb_spec x k) as [E|N]; [lia|]. intros [E|I]; [congruence|].
  specialize (IH I). lia.
Qed.
Lemma place_at k l r : ~ In k l -> place k (l ++ k :: r) = List.length l.
Proof.
  induction l as [|x l IH]; cbn; [now rewrite String.eqb_refl|]. intros N.
  destruct (String.eqb_spec x k) as [E|_]; [destruct N; now left|]. rewrite IH; [reflexivity|tauto].
Qed.
Lemma keys_withs_of sp : keys (withs_of sp) = names sp.
Proof. unfold keys, withs_of, names. rewrite map_map. now apply map_ext. Qed.
Lemma dget_withs_of sp k : dget (withs_of sp) k = option_map snd (get sp k).
Proof. induction sp as [|[k' v] sp IH]; cbn; [reflexivity|]. destruct (String.eqb k' k); [reflexivity|exact IH]. Qed.
Lemma nodup_split {A} (x : A) a b a' b' : a ++ x :: b = a' ++ x :: b' -> NoDup (a ++ x :: b) -> a = a' /\ b = b'.
Proof.
  revert a'. induction a as [|y a IH]; intros [|z a'] E ND; cbn in *.
  - injection E as ->. auto.
  - injection E as -> ->. inversion ND; subst. destruct H1. apply in_or_app. right. now left.
  - injection E as <- <-. inversion ND; subst. destruct H1. apply in_or_app. right. now left.
  - injection E as -> E. inversion ND; subst. destruct (IH _ E H2) as [-> ->]. auto.
Qed.

(** ** Theorems *)

(** Loading comes to an end, however the files refer to each other. *)
Theorem C67_total fs l n : List.length fs + 2 <= n ->
  (exists errors sp, load_files fs n l [] [] = Done errors sp) \/ exists e sp, load_files fs n l [] [] = Raised e sp.
Proof.
  intros L. pose proof (files_total fs n l L [] []) as T. destruct (load_files fs n l [] []); [left|right|contradiction]; eauto.
Qed.
Print Assumptions C67_total.

(** If no error is found, then each given file is loaded under its own path, everything loaded is
    asked for and without complaint, no package is loaded twice, and all packages in with clauses are
    loaded, before the specifications that name them. *)
Theorem C67_sound fs l n sp : load_files fs n l [] [] = Done [] sp ->
  (forall f, In f l -> exists s w, In (last f "", (f, s, w)) sp)
  /\ (forall k f s w, In (k, (f, s, w)) sp ->
        needed fs l f /\ content_of fs f = Parsed s /\ fine f s /\ k = last f ""
        /\ w = map (fun p => lower p ++ ".rflx")%string (s_withs s))
  /\ NoDup (map fst sp)
  /\ forall a k f s w b, sp = a ++ (k, (f, s, w)) :: b -> forall p, In p (s_withs s) -> In (lower p ++ ".rflx")%string (map fst a).
Proof.
  intros E. apply (files_sound fs (needed fs l) (needed_closed fs l)) in E as [_ E]; [|intros f I; now constructor].
  destruct (E (ordered_nil _ _)) as ((ND & EN & OR) & _ & G). split; [|split; [|split]].
  - intros f I. destruct (G f I) as (s & _ & J). eauto.
  - intros k f s w I. destruct (EN _ _ I) as (C & FI & K & W & N). split; [exact N|]. split; [exact C|]. split; [exact FI|].
    split; [|exact W]. destruct FI as (F & _). rewrite F. exact K.
  - exact ND.
  - intros a k f s w b X p I. apply (OR _ _ _ _ _ _ X).
    assert (J : In (k, (f, s, w)) sp) by (rewrite X; apply in_or_app; right; now left).
    destruct (EN _ _ J) as (_ & _ & _ & W & _). rewrite W. apply in_map_iff. now exists p.
Qed.
Print Assumptions C67_sound.

(** The other way round: nothing is complained about if all the files asked for are without
    complaint, no two of them have the same name, and with clauses do not form a cycle. *)
Theorem C67_complete fs l n (rank : path -> nat) : List.length fs + 2 <= n ->
  (forall f, needed fs l f -> exists s, content_of fs f = Parsed s /\ fine f s) ->
  (forall f g, needed fs l f -> needed fs l g -> last f "" = last g "" -> f = g) ->
  (forall f s p, needed fs l f -> content_of fs f = Parsed s -> In p (s_withs s) ->
     rank (removelast f ++ [(lower p ++ ".rflx")%string]) < rank f) ->
  exists sp, load_files fs n l [] [] = Done [] sp
    /\ forall f, needed fs l f -> exists s w, In (last f "", (f, s, w)) sp.
Proof.
  intros L F O R.
  destruct (files_complete fs (needed fs l) (needed_closed fs l) F O rank R n l []) as [E|[sp E]].
  { intros f I. now constructor. } { apply ordered_nil. }
  { exfalso. exact (files_total fs n l L [] [] E). }
  exists sp. split; [exact E|].
  pose proof E as E'. apply (files_sound fs (needed fs l) (needed_closed fs l)) in E' as [_ E']; [|intros f I; now constructor].
  destruct (E' (ordered_nil _ _)) as ((ND & EN & OR) & _ & G). intros f N.
  induction N as [f I|f s p N [s' [w I]] C J].
  - destruct (G f I) as (s & _ & K). eauto.
  - destruct (EN _ _ I) as (C' & FI & _ & W & _). assert (s' = s) by congruence. subst s'.
    destruct (in_split _ _ I) as (a & b & X). pose proof (OR _ _ _ _ _ _ X) as M.
    assert (K : In (rflx p) (names a)) by (apply M; rewrite W; apply in_map_iff; now exists p).
    apply in_map_iff in K as ((k & [[g t] v]) & K1 & K2). cbn in K1. subst k.
    assert (K3 : In (rflx p, (g, t, v)) sp) by (rewrite X; apply in_or_app; now left).
    destruct (EN _ _ K3) as (_ & (LG & _) & K4 & _ & NG).
    assert (Y : g = removelast f ++ [rflx p]).
    { apply O; [exact NG|exact (needed_withed fs l f s p N C J)|]. rewrite last_last, LG. symmetry. exact K4. }
    exists t, v. rewrite last_last. fold (rflx p). rewrite <- Y. exact K3.
Qed.
Print Assumptions C67_complete.

(** Whether there are errors or not: if loading is not broken off then all that is wrong with the
    given files is reported. *)
Theorem C67_reported fs l n errors sp f : load_files fs n l [] [] = Done errors sp -> In f l ->
  match content_of fs f with
  | Broken d ds => forall x, In x (d :: ds) -> In (Diagnostic x) errors
  | Parsed s =>
    ((exists r, s_package s = ("RFLX" ++ r)%string) -> In (IllegalPrefix (s_package s)) errors)
    /\ (s_end s <> s_package s -> In (InconsistentEnd (s_end s)) errors)
    /\ (last f "" <> (lower (s_package s) ++ ".rflx")%string -> In (WrongFileName (s_package s)) errors)
    /\ forall t, In t (s_types s) -> lower t = "boolean" -> In (Redefinition t) errors
  end.
Proof.
  intros E I. pose proof (files_reported _ _ _ _ _ _ _ E f I) as R. unfold complaints in R.
  assert (NR : forall x sp', load_files fs n l [] [] = Raised x sp' -> False) by congruence.
  destruct (content_of fs f) as [d ds|s] eqn:C; [intros x J; apply R, in_map, J|].
  destruct (check_naming s f) as [e|e] eqn:N.
  2:{ exfalso. clear R NR. revert E I. generalize (@nil message) at 1. generalize (@nil (string * node)) at 1.
      induction l as [|g l IH]; intros sp0 errs0 E I; [destruct I|]. destruct I as [->|I]; cbn [load_files] in E.
      - destruct (load_file fs n f [] sp0) as [e1 sp1| |] eqn:L; [|discriminate|discriminate].
        destruct n as [|n]; [discriminate|]. cbn [load_file] in L. rewrite C, N in L. discriminate.
      - destruct (load_file fs n g [] sp0) as [e1 sp1| |]; [|discriminate|discriminate]. eapply IH; eassumption. }
  unfold check_naming in N. destruct (check_types (s_types s)) as [ts|] eqn:T; [|discriminate]. injection N as <-.
  split; [|split; [|split]].
  - intros P. apply prefix_iff in P. apply R. rewrite P. now left.
  - intros P. apply R. apply in_or_app. right. apply in_or_app. left.
    destruct (String.eqb_spec (s_package s) (s_end s)); [congruence|now left].
  - intros P. apply R. apply in_or_app. right. apply in_or_app. right. apply in_or_app. left. unfold file_name_of.
    destruct (String.eqb_spec (last f "") (rflx (s_package s))); [contradiction|now left].
  - intros t J B. apply R. apply in_or_app. right. apply in_or_app. right. apply in_or_app. right.
    clear - T J B. revert ts T. induction (s_types s) as [|u r IH]; intros ts T; [destruct J|]. cbn [check_types] in T.
    destruct (is_reserved u); [discriminate|]. destruct (check_types r) as [l|]; [|discriminate]. injection T as <-.
    apply in_or_app. destruct J as [->|J]; [left; rewrite B; now left|right; now apply IH].
Qed.
Print Assumptions C67_reported.

(** Two given files of the same package are reported, unless loading is broken off. *)
Theorem C67_duplicates fs l n errors sp f g s t : load_files fs n l [] [] = Done errors sp -> In f l -> In g l -> f <> g ->
  content_of fs f = Parsed s -> content_of fs g = Parsed t -> lower (s_package s) = lower (s_package t) ->
  exists x, In (DuplicateSpecification x) errors.
Proof.
  intros E If Ig N Cf Cg K. destruct (files_stay _ _ _ _ _ _ _ E) as [D|[_ H]]; [exact D|exfalso].
  destruct (H _ _ If Cf) as (s' & w & G). destruct (H _ _ Ig Cg) as (t' & w' & G'). apply rflx_inj in K. rewrite K in G. congruence.
Qed.
Print Assumptions C67_duplicates.

(** After loading without errors nothing is lost by the sorting: each specification is evaluated
    once, after those of its with clauses. *)
Theorem C67_order fs l n sp : load_files fs n l [] [] = Done [] sp ->
  exists m0, forall m, m0 <= m -> exists sp', parse fs n m l = Ok ([], sp')
    /\ NoDup (map fst sp') /\ (forall x, In x sp' <-> In x sp)
    /\ forall a k f s w b, sp' = a ++ (k, (f, s, w)) :: b -> forall p, In p (s_withs s) -> In (lower p ++ ".rflx")%string (map fst a).
Proof.
  intros E. destruct (C67_sound _ _ _ _ E) as (_ & EN & ND & OR).
  destruct (sort_ok (withs_of sp) ltac:(rewrite keys_withs_of; exact ND) (fun k => place k (names sp))) as [m0 S].
  { intros k d I K. rewrite keys_withs_of in K. unfold withs in I. rewrite dget_withs_of in I.
    destruct (get sp k) as [[[f s] w]|] eqn:G; [|destruct I]. cbn in I. apply get_in in G.
    destruct (EN _ _ _ _ G) as (_ & _ & _ & _ & W). destruct (in_split _ _ G) as (a & b & X).
    rewrite W in I. apply in_map_iff in I as (p & <- & I). pose proof (OR _ _ _ _ _ _ X p I) as J.
    assert (N : names sp = map fst a ++ k :: map fst b) by (unfold names; rewrite X, map_app; reflexivity).
    rewrite N. rewrite place_at; [now apply place_in|].
    fold (names sp) in ND. rewrite N in ND. apply NoDup_remove_2 in ND. rewrite in_app_iff in ND. tauto. }
  exists m0. intros m L. destruct (S m L) as (order & O1 & O2 & O3 & O4).
  set (sp' := flat_map (fun k => match get sp k with Some v => [(k, v)] | None => [] end) order).
  exists sp'. split; [unfold parse; rewrite E; unfold sorted; rewrite O1; reflexivity|].
  assert (F : map fst sp' = order).
  { unfold sp'. assert (H : forall k, In k order -> In k (names sp)) by (intros k I; apply O3 in I; now rewrite keys_withs_of in I).
    clear - H. induction order as [|k r IH]; [reflexivity|]. cbn. destruct (names_get sp k) as [v G]; [apply H; now left|].
    rewrite G. cbn. f_equal. apply IH. intros x I. apply H. now right. }
  split; [rewrite F; exact O2|].
  assert (IN : forall x, In x sp' <-> In x sp).
  { intros [k v]. unfold sp'. rewrite in_flat_map. split.
    - intros (k' & _ & J). destruct (get sp k') eqn:G; [|destruct J]. destruct J as [J|[]]. injection J as -> ->. now apply get_in.
    - intros I. exists k. rewrite (in_get _ _ _ ND I). split; [|now left]. apply O3. rewrite keys_withs_of. apply in_map_iff. now exists (k, v). }
  split; [exact IN|]. intros a k f s w b X p I.
  assert (J : In (k, (f, s, w)) sp) by (apply IN; rewrite X; apply in_or_app; right; now left).
  destruct (EN _ _ _ _ J) as (_ & _ & _ & _ & W).
  assert (D : before (lower p ++ ".rflx")%string k order).
  { apply O4.
    - unfold withs. rewrite dget_withs_of, (in_get _ _ _ ND J). cbn. rewrite W. apply in_map_iff. now exists p.
    - rewrite keys_withs_of. destruct (in_split _ _ J) as (a' & b' & Y). pose proof (OR _ _ _ _ _ _ Y p I) as Z.
      unfold names. rewrite Y, map_app. apply in_or_app. now left. }
  destruct D as (x & y & z & D). rewrite <- F, X, map_app in D. cbn [map fst] in D.
  rewrite app_comm_cons, app_assoc in D. apply nodup_split in D as [D _].
  - refine (eq_ind_r (fun l => In (lower p ++ ".rflx")%string l) _ D). apply in_or_app. right. now left.
  - rewrite <- F, X, map_app in O2. exact O2.
Qed.
Print Assumptions C67_order.

(** If the parser raises no error then each given file is parsed and without complaint, and each
    package in its with clauses has been read from such a file. *)
Theorem C67_accepted fs l n m sp' : parse fs n m l = Ok ([], sp') -> forall f, In f l ->
  exists s, content_of fs f = Parsed s /\ fine f s
    /\ forall p, In p (s_withs s) -> exists g t, needed fs l g /\ content_of fs g = Parsed t /\ fine g t /\ lower (s_package t) = lower p.
Proof.
  intros P f I. assert (E : exists sp, load_files fs n l [] [] = Done [] sp).
  { unfold parse in P. destruct (load_files fs n l [] []) as [errors sp|e sp|]; [|discriminate|discriminate].
    destruct (sorted sp m); [|discriminate]. injection P as -> _. eauto. }
  destruct E as [sp E]. destruct (C67_sound _ _ _ _ E) as (G & EN & _ & OR).
  destruct (G f I) as (s & w & J). destruct (EN _ _ _ _ J) as (_ & C & FI & _ & _). exists s. split; [exact C|]. split; [exact FI|].
  intros p K. destruct (in_split _ _ J) as (a & b & X). pose proof (OR _ _ _ _ _ _ X p K) as M.
  apply in_map_iff in M as ((k & [[g t] v]) & M1 & M2). cbn in M1. subst k.
  assert (K3 : In ((lower p ++ ".rflx")%string, (g, t, v)) sp) by (rewrite X; apply in_or_app; now left).
  destruct (EN _ _ _ _ K3) as (NG & CG & FG & LG & _). exists g, t. split; [exact NG|]. split; [exact CG|]. split; [exact FG|].
  apply rflx_inj. unfold rflx. rewrite LG. destruct FG as (FG & _). symmetry. exact FG.
Qed.
Print Assumptions C67_accepted.

(** ** A case: two directories, shared and mixed-case dependencies *)
Definition case_fs : files :=
  [(["x"; "a.rflx"], Parsed (mkSpec "A" "A" ["B"; "c"] ["T"]));
   (["x"; "b.rflx"], Parsed (mkSpec "B" "B" ["C"] ["U"; "V"]));
   (["x"; "c.rflx"], Parsed (mkSpec "C" "C" [] ["W"]));
   (["d.rflx"], Parsed (mkSpec "D" "D" [] []))].
Definition case_files : list path := [["x"; "a.rflx"]; ["d.rflx"]; ["x"; "b.rflx"]].
Definition case_specs : specs :=
  [("c.rflx", (["x"; "c.rflx"], mkSpec "C" "C" [] ["W"], []));
   ("b.rflx", (["x"; "b.rflx"], mkSpec "B" "B" ["C"] ["U"; "V"], ["c.rflx"]));
   ("a.rflx", (["x"; "a.rflx"], mkSpec "A" "A" ["B"; "c"] ["T"], ["b.rflx"; "c.rflx"]));
   ("d.rflx", (["d.rflx"], mkSpec "D" "D" [] [], []))].
Example C67_case : load_files case_fs 6 case_files [] [] = Done [] case_specs.
Proof. vm_compute. reflexivity. Qed.
Example C67_case_order : parse case_fs 6 20 case_files =
  Ok ([], map (fun k => (k, match get case_specs k with Some v => v | None => ([], mkSpec "" "" [] [], []) end))
            ["c.rflx"; "b.rflx"; "d.rflx"; "a.rflx"]).
Proof. vm_compute. reflexivity. Qed.
(** the hypotheses of C67_complete hold of it *)
Lemma case_needed f : needed case_fs case_files f -> In f (map fst case_fs).
Proof.
  intros N. induction N as [f I|f s p N IH C I].
  - cbn in I |- *. intuition auto.
  - cbn in IH. destruct IH as [<-|[<-|[<-|[<-|[]]]]]; cbn in C; injection C as <-; cbn in I |- *;
      repeat (destruct I as [<-|I]; [cbn; auto|]); destruct I.
Qed.
Definition case_rank (f : path) : nat :=
  if path_eq f ["x"; "a.rflx"] then 2 else if path_eq f ["x"; "b.rflx"] then 1 else 0.
Example C67_complete_meets :
  (forall f, needed case_fs case_files f -> exists s, content_of case_fs f = Parsed s /\ fine f s)
  /\ (forall f g, needed case_fs case_files f -> needed case_fs case_files g -> last f "" = last g "" -> f = g)
  /\ (forall f s p, needed case_fs case_files f -> content_of case_fs f = Parsed s -> In p (s_withs s) ->
       case_rank (removelast f ++ [(lower p ++ ".rflx")%string]) < case_rank f).
Proof.
  split; [|split].
  - intros f N. apply case_needed in N. destruct (C67_sound _ _ _ _ C67_case) as (_ & H & _).
    assert (X : exists k s w, In (k, (f, s, w)) case_specs).
    { cbn in N. destruct N as [<-|[<-|[<-|[<-|[]]]]]; do 3 eexists; unfold case_specs;
        [do 2 right; left|right; left|left|do 3 right; left]; reflexivity. }
    destruct X as (k & s & w & I). destruct (H _ _ _ _ I) as (_ & C & F & _). eauto.
  - intros f g N M. apply case_needed in N, M. cbn in N, M.
    destruct N as [<-|[<-|[<-|[<-|[]]]]]; destruct M as [<-|[<-|[<-|[<-|[]]]]]; cbn; congruence.
  - intros f s p N C I. apply case_needed in N. cbn in N.
    destruct N as [<-|[<-|[<-|[<-|[]]]]]; cbn in C; injection C as <-; cbn in I;
      repeat (destruct I as [<-|I]; [vm_compute; lia|]); destruct I.
Qed.
(** errors are collected over all given files *)
Definition bad_fs : files :=
  [(["x"; "a.rflx"], Parsed (mkSpec "RFLX_A" "B" ["Q"] ["Boolean"]));
   (["y"; "b.rflx"], Parsed (mkSpec "B" "B" [] []));
   (["x"; "b.rflx"], Parsed (mkSpec "B" "B" ["B"] []));
   (["z.rflx"], Broken "Expected 'package'" [])].
Example C67_reported_case :
  load_files bad_fs 6 [["x"; "a.rflx"]; ["y"; "b.rflx"]; ["x"; "b.rflx"]; ["z.rflx"]] [] [] =
  Done [IllegalPrefix "RFLX_A"; InconsistentEnd "B"; PreviousIdentifier "RFLX_A"; WrongFileName "RFLX_A"; Redefinition "Boolean";
        Diagnostic "Cannot read file"; DuplicateSpecification ["x"; "b.rflx"]; PreviousSpecification ["y"; "b.rflx"];
        Diagnostic "Expected 'package'"]
    [("rflx_a.rflx", (["x"; "a.rflx"], mkSpec "RFLX_A" "B" ["Q"] ["Boolean"], ["q.rflx"]));
     ("b.rflx", (["x"; "b.rflx"], mkSpec "B" "B" ["B"] [], ["b.rflx"]))].
Proof. vm_compute. reflexivity. Qed.

(** ** What does not hold *)

(** A with clause does not always mean the file beside the specification: another file of this name
    that is already loaded is taken silently, and which one depends on the order of the files. *)
Definition shadow_fs : files :=
  [(["x"; "a.rflx"], Parsed (mkSpec "A" "A" ["B"] []));
   (["x"; "b.rflx"], Parsed (mkSpec "B" "B" [] ["T"]));
   (["y"; "c.rflx"], Parsed (mkSpec "C" "C" ["B"] []));
   (["y"; "b.rflx"], Parsed (mkSpec "B" "B" [] ["U"]))].
Theorem C67_shadow_refuted : exists fs l1 l2 sp1 sp2 v1 v2,
  (forall f, In f l1 <-> In f l2)
  /\ load_files fs (List.length fs + 2) l1 [] [] = Done [] sp1 /\ load_files fs (List.length fs + 2) l2 [] [] = Done [] sp2
  /\ In ("b.rflx", v1) sp1 /\ In ("b.rflx", v2) sp2
  /\ needed fs l1 (fst (fst v1)) /\ needed fs l1 (fst (fst v2)) /\ snd (fst v1) <> snd (fst v2).
Proof.
  exists shadow_fs, [["x"; "a.rflx"]; ["y"; "c.rflx"]], [["y"; "c.rflx"]; ["x"; "a.rflx"]].
  eexists. eexists.
  exists (["x"; "b.rflx"], mkSpec "B" "B" [] ["T"], []), (["y"; "b.rflx"], mkSpec "B" "B" [] ["U"], []).
  split; [cbn; intuition auto|]. split; [vm_compute; reflexivity|]. split; [vm_compute; reflexivity|].
  split; [now left|]. split; [now left|]. split; [|split; [|discriminate]].
  - apply (needed_withed shadow_fs _ ["x"; "a.rflx"] (mkSpec "A" "A" ["B"] []) "B"); [constructor; now left|reflexivity|now left].
  - apply (needed_withed shadow_fs _ ["y"; "c.rflx"] (mkSpec "C" "C" ["B"] []) "B"); [constructor; right; now left|reflexivity|now left].
Qed.
Print Assumptions C67_shadow_refuted.

(** A reserved word as the name of a type or in a with clause breaks loading off: the errors found
    before are lost and the remaining files are not read. *)
Theorem C67_lost_refuted : exists fs l f d g s errors sp,
  In f l /\ content_of fs f = Broken d [] /\ In g l /\ content_of fs g = Parsed s
  /\ parse fs (List.length fs + 2) 10 l = Ok (errors, sp)
  /\ ~ In (Diagnostic d) errors /\ get sp (last g "") = None.
Proof.
  exists [(["a.rflx"], Broken "Expected 'package'" []); (["b.rflx"], Parsed (mkSpec "B" "B" ["Private"] []));
          (["c.rflx"], Parsed (mkSpec "C" "C" [] []))], [["a.rflx"]; ["b.rflx"]; ["c.rflx"]].
  exists ["a.rflx"], "Expected 'package'", ["c.rflx"], (mkSpec "C" "C" [] []), [ReservedWord "Private"], [].
  split; [now left|]. split; [reflexivity|]. split; [right; right; now left|]. split; [reflexivity|].
  split; [vm_compute; reflexivity|]. split; [|reflexivity]. intros [X|[]]. discriminate.
Qed.
Print Assumptions C67_lost_refuted.
