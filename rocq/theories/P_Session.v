(** C33, C44: what is known of a session without structural errors. *)
From Coq Require Import String List Arith Bool Lia.
From Verif Require Import SessionCheck.
Import ListNotations.
Local Open Scope string_scope.
Local Open Scope list_scope.
Local Open Scope nat_scope.
Local Notation length := List.length.

Lemma mem_iff x l : mem x l = true <-> In x l.
Proof.
  unfold mem. rewrite existsb_exists. split.
  - intros (y & I & E). apply String.eqb_eq in E. now subst.
  - intros I. exists x. split; [exact I|]. apply String.eqb_refl.
Qed.
Lemma when_nil b e : when b e = [] <-> b = false.
Proof. destruct b; cbn; split; congruence. Qed.
Lemma app_nil {A} (l l' : list A) : l ++ l' = [] <-> l = [] /\ l' = [].
Proof. split; [apply app_eq_nil|]. intros [-> ->]. reflexivity. Qed.
Lemma flat_map_nil {A B} (f : A -> list B) l : flat_map f l = [] <-> forall x, In x l -> f x = [].
Proof.
  induction l as [|a l IH]; cbn; [split; [intros _ x []|reflexivity]|]. rewrite app_nil, IH. split.
  - intros [H K] x [<-|I]; auto.
  - intros H. split; [apply H; now left|]. intros x I. apply H. now right.
Qed.
Lemma negb_mem x l : negb (mem x l) = false <-> In x l.
Proof. rewrite negb_false_iff. apply mem_iff. Qed.

Lemma existence_iff s : existence_errors s = [] <->
  In (se_initial s) (map st_id (se_states s)) /\ In (se_final s) (map st_id (se_states s)) /\
  forall st t, In st (se_states s) -> In t (st_transitions st) -> In (tr_target t) (map st_id (se_states s)).
Proof.
  unfold existence_errors. rewrite !app_nil, !when_nil, !negb_mem, flat_map_nil.
  split; intros (A & B & C); (split; [exact A|]); (split; [exact B|]).
  - intros st t I J. specialize (C st I). rewrite flat_map_nil in C. specialize (C t J). now rewrite when_nil, negb_mem in C.
  - intros st I. apply flat_map_nil. intros t J. rewrite when_nil, negb_mem. eauto.
Qed.
Lemma duplicate_iff l : forall seen, duplicate_errors seen l = [] <->
  NoDup (map st_id l) /\ forall x, In x (map st_id l) -> ~ In x seen.
Proof.
  induction l as [|st l IH]; intros seen; cbn; [split; [intros _; split; [constructor|intros x []]|reflexivity]|].
  rewrite app_nil, when_nil, IH. split.
  - intros (A & B & C). split.
    + constructor; [|exact B]. intros I. exact (C _ I (or_introl eq_refl)).
    + intros x [<-|I] J; [apply mem_iff in J; congruence|]. apply (C x I). now right.
  - intros (A & B). inversion A as [|? ? N A']; subst. split.
    + destruct (mem (st_id st) seen) eqn:M; [|reflexivity]. apply mem_iff in M. destruct (B _ (or_introl eq_refl) M).
    + split; [exact A'|]. intros x I [<-|J]; [contradiction|]. exact (B x (or_intror I) J).
Qed.
Lemma reachability_iff initial final l : forall inputs, reachability_errors initial final inputs l = [] <->
  forall k st, nth_error l k = Some st ->
    (st_id st = initial \/ In (st_id st) inputs \/
       exists j p t, j <= k /\ nth_error l j = Some p /\ In t (st_transitions p) /\ tr_target t = st_id st) /\
    (st_id st = final \/ st_transitions st <> []).
Proof.
  induction l as [|p l IH]; intros inputs; cbn [reachability_errors].
  - split; [|reflexivity]. intros _ [|k] st; discriminate.
  - rewrite !app_nil, !when_nil, IH. clear IH. split.
    + intros (A & B & C) [|k] st N; cbn in N.
      * injection N as <-. split.
        -- destruct (String.eqb_spec (st_id p) initial) as [E|E]; [now left|]. cbn in A. apply negb_mem, in_app_or in A as [A|A]; [|auto].
           right. right. apply in_map_iff in A as (t & T & I). exists 0, p, t. repeat split; auto.
        -- destruct (String.eqb_spec (st_id p) final) as [E|E]; [now left|]. cbn in B. right. destruct (st_transitions p); discriminate.
      * destruct (C k st N) as [[D|[D|(j & q & t & L & Q & I & T)]] E]; split; auto.
        -- apply in_app_or in D as [D|D]; [|auto]. right. right. apply in_map_iff in D as (t & T & I). exists 0, p, t. repeat split; auto. lia.
        -- right. right. exists (S j), q, t. repeat split; auto. lia.
    + intros H. split; [|split].
      * destruct (String.eqb_spec (st_id p) initial) as [E|E]; [reflexivity|]. cbn [negb andb].
        destruct (H 0 p eq_refl) as [[X|[X|(j & q & t & L & Q & I & T)]] _]; [contradiction| |]; apply negb_mem, in_or_app; [now right|].
        left. assert (j = 0) by lia. subst j. cbn in Q. injection Q as <-. apply in_map_iff. eauto.
      * destruct (String.eqb_spec (st_id p) final) as [E|E]; [reflexivity|]. cbn [negb andb].
        destruct (H 0 p eq_refl) as [_ [X|X]]; [contradiction|]. destruct (st_transitions p); congruence.
      * intros k st N. destruct (H (S k) st N) as [[X|[X|(j & q & t & L & Q & I & T)]] E]; split; auto.
        -- right. left. apply in_or_app. now right.
        -- destruct j as [|j]; cbn in Q.
           ++ injection Q as <-. right. left. apply in_or_app. left. apply in_map_iff. eauto.
           ++ right. right. exists j, q, t. repeat split; auto. lia.
Qed.
Lemma exception_iff st : exception_errors st = [] <-> (st_exception st <> None <-> st_has_exceptions st = true).
Proof.
  unfold exception_errors. destruct (st_exception st), (st_has_exceptions st); cbn; split; try discriminate; try reflexivity;
    try (intros _; split; congruence); intros [H K]; try (discriminate (H ltac:(discriminate))); try (destruct (K eq_refl); reflexivity).
Qed.

(** the part of the errors that concerns states *)
Lemma states_errors gnames l : forall i, fst (states_check gnames i l) = [] ->
  forall st, In st l -> exception_errors st = [] /\
    exists j, fst (declarations_check gnames (Some j) (dict_of (st_declarations st)) (map (fun n => (None, n)) gnames)) = [].
Proof.
  induction l as [|p l IH]; intros i H st I; [destruct I|]. cbn in H. unfold state_check in H.
  destruct (declarations_check _ _ _ _) as [e1 r1] eqn:D. destruct (states_check gnames (S i) l) as [e2 r2] eqn:R.
  cbn in H. rewrite !app_nil in H. destruct H as [[-> A] ->]. destruct I as [<-|I].
  - split; [exact A|]. exists i. now rewrite D.
  - eapply IH; [|exact I]. now rewrite R.
Qed.

(** The conditions on states that are guaranteed by acceptance. *)
Record sound (s : session) : Prop := {
  so_initial : exists st, In st (se_states s) /\ st_id st = se_initial s;
  so_final : exists st, In st (se_states s) /\ st_id st = se_final s;
  so_unique : NoDup (map st_id (se_states s));
  so_target : forall st t, In st (se_states s) -> In t (st_transitions st) ->
    exists st', In st' (se_states s) /\ st_id st' = tr_target t;
  so_leaves : forall st, In st (se_states s) -> st_id st <> se_final s -> st_transitions st <> [];
  (* every state but the initial one is the target of itself or of a state before it in the text *)
  so_entered : forall k st, nth_error (se_states s) k = Some st -> st_id st <> se_initial s ->
    exists j p t, j <= k /\ nth_error (se_states s) j = Some p /\ In t (st_transitions p) /\ tr_target t = st_id st;
  so_exception : forall st, In st (se_states s) -> st_exception st <> None <-> st_has_exceptions st = true
}.
Theorem C33_sound s : session_errors s = [] -> sound s.
Proof.
  unfold session_errors. destruct (declarations_check _ _ _ _) as [e1 r1]. destruct (states_check _ _ _) as [e2 r2] eqn:SC.
  rewrite !app_nil. intros (_ & EX & DU & RE & _ & -> & _).
  apply existence_iff in EX as (A & B & C). apply duplicate_iff in DU as [D _].
  assert (RE' := proj1 (reachability_iff _ _ _ _) RE).
  constructor.
  - apply in_map_iff in A as (st & E & I). eauto.
  - apply in_map_iff in B as (st & E & I). eauto.
  - exact D.
  - intros st t I J. specialize (C st t I J). apply in_map_iff in C as (st' & E & I'). eauto.
  - intros st I N. apply In_nth_error in I as [k K]. destruct (RE' k st K) as [_ [X|X]]; [contradiction|exact X].
  - intros k st K N. destruct (RE' k st K) as [[X|[[]|X]] _]; [contradiction|exact X].
  - intros st I. apply exception_iff. eapply states_errors; [|exact I]. now rewrite SC.
Qed.
Print Assumptions C33_sound.

(** The converse: a session of sound states without declarations has no error. *)
Theorem C33_complete s : se_declarations s = [] -> se_parameters s = [] ->
  (forall st, In st (se_states s) -> st_declarations st = []) -> sound s -> session_errors s = [].
Proof.
  intros D P L [A B U T Lv E X].
  assert (G : globals s = []) by (unfold globals; rewrite D, P; reflexivity).
  unfold session_errors, usage_errors. rewrite G. cbn [map declarations_check].
  destruct (states_check [] 0 (se_states s)) as [e2 r2] eqn:SC.
  assert (E2 : e2 = []).
  { assert (H : forall l i, (forall st, In st l -> In st (se_states s)) -> fst (states_check [] i l) = []).
    { induction l as [|st l IH]; intros i I; [reflexivity|]. cbn. unfold state_check. rewrite (L st (I st (or_introl eq_refl))). cbn.
      specialize (IH (S i) ltac:(intros; apply I; now right)). destruct (states_check [] (S i) l). cbn in *. subst.
      rewrite (proj2 (exception_iff st)); [reflexivity|]. apply X, I. now left. }
    specialize (H (se_states s) 0 ltac:(auto)). now rewrite SC in H. }
  subst e2.
  assert (LK : local_keys 0 (se_states s) = []).
  { assert (H : forall l i, (forall st, In st l -> st_declarations st = []) -> local_keys i l = []).
    { induction l as [|st l IH]; intros i I; [reflexivity|]. cbn. rewrite (I st (or_introl eq_refl)). cbn. apply IH. intros; apply I. now right. }
    now apply H. }
  rewrite LK. cbn [map app flat_map]. rewrite !app_nil. repeat apply conj; auto.
  - destruct A as (st & I & _). destruct (se_states s); [destruct I|reflexivity].
  - apply existence_iff. repeat apply conj.
    + apply in_map_iff. destruct A as (st & I & Q). eauto.
    + apply in_map_iff. destruct B as (st & I & Q). eauto.
    + intros st t I J. apply in_map_iff. destruct (T st t I J) as (st' & I' & Q). eauto.
  - apply duplicate_iff. split; [exact U|]. intros x _ [].
  - apply reachability_iff. intros k st K. split.
    + destruct (string_dec (st_id st) (se_initial s)) as [Q|Q]; [now left|right; right; eauto].
    + destruct (string_dec (st_id st) (se_final s)) as [Q|Q]; [now left|right]. apply Lv; [eapply nth_error_In; eassumption|exact Q].
Qed.
Print Assumptions C33_complete.

Definition go (t : string) : transition := mkTransition t [].
Definition plain_state (n : string) (ts : list string) : state := mkState n (map go ts) None false [] [].
Definition ex_session : session :=
  mkSession "start" "end"
    [plain_state "start" ["wait"; "end"]; mkState "wait" [go "wait"; go "start"] (Some "end") true [] []; plain_state "end" []] [] [].
Example C33_meets : session_errors ex_session = [].
Proof. vm_compute. reflexivity. Qed.

(** A step of the session to another state, by a normal transition. *)
Inductive steps (s : session) : string -> string -> Prop :=
| steps_refl x : steps s x x
| steps_next x st t y : In st (se_states s) -> st_id st = x -> In t (st_transitions st) -> steps s (tr_target t) y -> steps s x y.
Lemma steps_closed s (S : string -> Prop) : (forall st t, In st (se_states s) -> S (st_id st) -> In t (st_transitions st) -> S (tr_target t)) ->
  forall x y, steps s x y -> S x -> S y.
Proof. intros C x y H. induction H as [|x st t y I E J H IH]; intros X; [exact X|]. apply IH. eapply C; eauto. now subst. Qed.

Lemma steps_snoc s x z st t : steps s x z -> In st (se_states s) -> st_id st = z -> In t (st_transitions st) -> steps s x (tr_target t).
Proof.
  intros H I E J. induction H as [x|x p u y Ip Ep Ju H IH].
  - exact (steps_next _ _ _ _ _ I E J (steps_refl _ _)).
  - exact (steps_next _ _ _ _ _ Ip Ep Ju (IH E)).
Qed.

(** Acceptance does not mean that states can be reached, nor that the session can end. *)
Theorem C33_reachable_refuted : exists s, session_errors s = [] /\
  (exists st, In st (se_states s) /\ ~ steps s (se_initial s) (st_id st)) /\ ~ steps s (se_initial s) (se_final s).
Proof.
  set (s := mkSession "start" "end" [plain_state "start" ["start"]; plain_state "lost" ["lost"; "end"]; plain_state "end" []] [] []).
  exists s.
  assert (C : forall x y, steps s x y -> x = "start" -> y = "start").
  { apply steps_closed. intros st t I E J. cbn in I. destruct I as [<-|[<-|[<-|[]]]]; try discriminate E. destruct J as [<-|[]]. reflexivity. }
  split; [vm_compute; reflexivity|]. split.
  - exists (plain_state "lost" ["lost"; "end"]). split; [cbn; auto|]. intros H. discriminate (C _ _ H eq_refl).
  - intros H. discriminate (C _ _ H eq_refl).
Qed.
Print Assumptions C33_reachable_refuted.

(** The order of the states matters: these two sessions have the same states, all
    reachable from the initial one, but only one is accepted. *)
Theorem C33_order_refuted : exists s s', se_initial s = se_initial s' /\ se_final s = se_final s' /\
  (forall st, In st (se_states s) <-> In st (se_states s')) /\
  (forall st, In st (se_states s') -> steps s' (se_initial s') (st_id st)) /\
  session_errors s = [] /\ session_errors s' = ["unreachable state"].
Proof.
  set (a := plain_state "start" ["first"]). set (b := plain_state "first" ["second"]).
  set (c := plain_state "second" ["end"]). set (d := plain_state "end" []).
  exists (mkSession "start" "end" [a; b; c; d] [] []), (mkSession "start" "end" [a; c; b; d] [] []).
  split; [reflexivity|]. split; [reflexivity|]. split; [cbn; tauto|]. split.
  - set (s' := mkSession _ _ _ _ _).
    assert (H1 : steps s' "start" "start") by constructor.
    assert (SN : forall x st t y, steps s' x (st_id st) -> In st (se_states s') -> In t (st_transitions st) -> y = tr_target t -> steps s' x y)
      by (intros; subst; eapply steps_snoc; eauto).
    assert (H2 : steps s' "start" "first") by (apply (SN _ a (go "first")); cbn; auto).
    assert (H3 : steps s' "start" "second") by (apply (SN _ b (go "second")); cbn; auto).
    assert (H4 : steps s' "start" "end") by (apply (SN _ c (go "end")); cbn; auto).
    intros st I. cbn in I. destruct I as [<-|[<-|[<-|[<-|[]]]]]; assumption.
  - split; vm_compute; reflexivity.
Qed.
Print Assumptions C33_order_refuted.

(** The target of an exception transition need not exist, a state that is only entered
    by one is refused, and the final state may have transitions. *)
Theorem C33_exception_refuted : exists s st t, session_errors s = [] /\ In st (se_states s) /\
  st_exception st = Some t /\ ~ In t (map st_id (se_states s)).
Proof.
  exists (mkSession "start" "end" [mkState "start" [go "end"] (Some "nowhere") true [] []; plain_state "end" []] [] []).
  exists (mkState "start" [go "end"] (Some "nowhere") true [] []), "nowhere".
  split; [vm_compute; reflexivity|]. split; [now left|]. split; [reflexivity|]. cbn. intuition discriminate.
Qed.
Theorem C33_exception_entry_refuted : exists s p st, In p (se_states s) /\ In st (se_states s) /\
  st_id p = se_initial s /\ st_exception p = Some (st_id st) /\ session_errors s = ["unreachable state"].
Proof.
  set (p := mkState "start" [go "end"] (Some "failed") true [] []). set (q := plain_state "failed" ["end"]).
  exists (mkSession "start" "end" [p; q; plain_state "end" []] [] []), p, q. cbn [se_states se_initial]. repeat split; auto; cbn; auto.
Qed.
Theorem C33_final_refuted : exists s st, session_errors s = [] /\ In st (se_states s) /\ st_id st = se_final s /\ st_transitions st <> [].
Proof.
  exists (mkSession "start" "end" [plain_state "start" ["end"]; plain_state "end" ["start"]] [] []), (plain_state "end" ["start"]).
  split; [vm_compute; reflexivity|]. split; [cbn; auto|]. split; [reflexivity|discriminate].
Qed.
Print Assumptions C33_final_refuted.

(** ** C44: declarations *)

(** [d] is the last declaration of its name in [l] *)
Definition survives (d : decl) (l : list decl) : Prop :=
  exists a b, l = a ++ d :: b /\ forall e, In e b -> d_id e <> d_id d.

Lemma put_in d l x : NoDup (map d_id l) -> In x (put d l) <-> x = d \/ (In x l /\ d_id x <> d_id d).
Proof.
  induction l as [|e l IH]; intros ND; cbn; [intuition auto|].
  cbn in ND. inversion ND as [|? ? N ND']; subst.
  destruct (String.eqb_spec (d_id e) (d_id d)) as [E|E]; cbn.
  - split; [intros [<-|I]; [now left|]|intros [->|[[<-|I] X]]; [now left|contradiction|now right]].
    right. split; [now right|]. intros X. apply N. rewrite E, <- X. now apply in_map.
  - rewrite IH by exact ND'. split; [intros [<-|[->|[I X]]]; auto|intros [->|[[<-|I] X]]; auto].
Qed.
Lemma put_nodup d l : NoDup (map d_id l) -> NoDup (map d_id (put d l)).
Proof.
  induction l as [|e l IH]; intros ND; cbn; [repeat constructor; intros []|].
  cbn in ND. inversion ND as [|? ? N ND']; subst. destruct (String.eqb_spec (d_id e) (d_id d)) as [E|E]; cbn.
  - constructor; [now rewrite <- E|exact ND'].
  - constructor; [|auto]. intros I. apply in_map_iff in I as (x & X & I). apply put_in in I as [->|[I _]]; [congruence| |exact ND'].
    apply N. rewrite <- X. now apply in_map.
Qed.
Lemma fold_put_nodup ds : forall l, NoDup (map d_id l) -> NoDup (map d_id (fold_left (fun acc d => put d acc) ds l)).
Proof. induction ds as [|d ds IH]; intros l ND; cbn; [exact ND|]. apply IH, put_nodup, ND. Qed.
Lemma fold_put_in ds : forall l, NoDup (map d_id l) ->
  forall x, In x (fold_left (fun acc d => put d acc) ds l) <->
    survives x ds \/ (In x l /\ forall e, In e ds -> d_id e <> d_id x).
Proof.
  induction ds as [|d ds IH]; intros l ND x; cbn.
  - split; [intros I; right; split; [exact I|intros e []]|]. intros [(a & b & E & _)|[I _]]; [destruct a; discriminate|exact I].
  - rewrite (IH _ (put_nodup d l ND)), (put_in d l x ND). split.
    + intros [(a & b & -> & S)|[[->|[I N]] K]].
      * left. exists (d :: a), b. auto.
      * left. exists [], ds. auto.
      * right. split; [exact I|]. intros e [<-|J]; [congruence|auto].
    + intros [([|d' a] & b & E & S)|[I K]].
      * injection E as -> ->. right. split; [now left|]. intros e J. apply S, J.
      * injection E as -> ->. left. exists a, b. auto.
      * right. split; [|intros e J; apply K; now right]. right. split; [exact I|].
        intros X. apply (K d); [now left|congruence].
Qed.
Lemma dict_of_in l x : In x (dict_of l) <-> survives x l.
Proof. unfold dict_of. rewrite fold_put_in by constructor. split; [intros [H|[[] _]]; exact H|now left]. Qed.
Lemma dict_of_nodup l : NoDup (map d_id (dict_of l)).
Proof. apply fold_put_nodup. constructor. Qed.
Lemma survives_name l d : In d l -> exists e, survives e l /\ d_id e = d_id d.
Proof.
  induction l as [|x l IH]; [intros []|]. intros I.
  destruct (in_dec string_dec (d_id d) (map d_id l)) as [J|J].
  - apply in_map_iff in J as (y & E & J). 
    assert (X : exists e, survives e l /\ d_id e = d_id d).
    { clear -J E. revert y E J. induction l as [|z l IHl]; [intros ? ? []|]. intros y E J.
      destruct (in_dec string_dec (d_id d) (map d_id l)) as [K|K].
      - apply in_map_iff in K as (w & W & K). destruct (IHl w W K) as (e & (a & b & -> & S) & Q).
        exists e. split; [|exact Q]. exists (z :: a), b. auto.
      - destruct J as [->|J]; [|destruct K; rewrite <- E; now apply in_map].
        exists y. split; [|exact E]. exists [], l. split; [reflexivity|]. intros e Ie X. apply K. rewrite <- E, <- X. now apply in_map. }
    destruct X as (e & (a & b & -> & S) & Q). exists e. split; [|exact Q]. exists (x :: a), b. auto.
  - destruct I as [->|I]; [|destruct J; now apply in_map].
    exists d. split; [|reflexivity]. exists [], l. split; [reflexivity|]. intros e Ie X. apply J. rewrite <- X. now apply in_map.
Qed.
Lemma survives_in l d : survives d l -> In d l.
Proof. intros (a & b & -> & _). apply in_or_app. right. now left. Qed.
Lemma globals_in s x : In x (globals s) <-> survives x (se_parameters s ++ se_declarations s).
Proof.
  unfold globals. rewrite fold_put_in by apply dict_of_nodup. split.
  - intros [H|[I K]].
    + apply survives_in, dict_of_in in H. destruct H as (a & b & -> & S). exists (se_parameters s ++ a), b. rewrite <- app_assoc. auto.
    + apply dict_of_in in I as (a & b & -> & S). exists a, (b ++ se_declarations s). rewrite <- app_assoc. split; [reflexivity|].
      intros e J. apply in_app_or in J as [J|J]; [auto|].
      destruct (survives_name _ _ J) as (e' & S' & Q). rewrite <- Q. apply K. now apply dict_of_in.
  - intros (a & b & E & S).
    assert (D : (exists c, a = se_parameters s ++ c /\ se_declarations s = c ++ x :: b) \/
                (exists c, se_parameters s = a ++ x :: c /\ b = c ++ se_declarations s)).
    { clear S. revert a E. generalize (se_parameters s). intros l. induction l as [|y l IH]; intros a E; cbn in E.
      - left. exists a. auto.
      - destruct a as [|z a]; cbn in E.
        + injection E as -> <-. right. exists l. auto.
        + injection E as -> E. destruct (IH a E) as [(c & -> & Q)|(c & -> & Q)]; [left|right]; exists c; auto. }
    destruct D as [(c & -> & Q)|(c & Q & ->)].
    + left. assert (I : In x (dict_of (se_declarations s))) by (apply dict_of_in; exists c, b; auto).
      apply in_split in I as (u & v & Y). exists u, v. split; [exact Y|].
      pose proof (dict_of_nodup (se_declarations s)) as ND. rewrite Y, map_app in ND. cbn in ND.
      apply NoDup_remove_2 in ND. intros e J X. apply ND, in_or_app. right. rewrite <- X. now apply in_map.
    + right. split; [apply dict_of_in; exists a, c; split; [exact Q|]; intros e J; apply S, in_or_app; now left|].
      intros e J. apply S, in_or_app. right. apply dict_of_in, survives_in in J. exact J.
Qed.
Lemma globals_nodup s : NoDup (map d_id (globals s)).
Proof. apply fold_put_nodup, dict_of_nodup. Qed.

Lemma lookup_in vis n k : In k (lookup vis n) -> In k vis /\ snd k = n.
Proof.
  unfold lookup. destruct (find (fun k => String.eqb (snd k) n) vis) as [k'|] eqn:F; [|intros []]. intros [<-|[]].
  apply find_some in F as [I E]. apply String.eqb_eq in E. auto.
Qed.

(** references and errors of a list of declarations *)
Lemma declarations_refs gn sc ds : forall vis, NoDup (map d_id ds) ->
  forall c n, In (c, n) (snd (declarations_check gn sc ds vis)) ->
  (exists d, In d ds /\ In n (d_vars d) /\ (In (c, n) vis \/ (c = sc /\ In n (map d_id ds) /\ d_id d <> n))) \/
  (c = None /\ exists d, In d ds /\ d_kind d = KTyped n).
Proof.
  induction ds as [|d ds IH]; intros vis ND c n H; cbn in H; [destruct H|].
  cbn in ND. inversion ND as [|? ? N ND']; subst.
  destruct (declarations_check gn sc ds ((sc, d_id d) :: vis)) as [e r] eqn:D. cbn in H.
  rewrite <- app_assoc in H. apply in_app_or in H as [H|H].
  - apply in_flat_map in H as (v & Iv & L). apply lookup_in in L as [L E]. cbn in E. subst v. left. exists d. cbn. auto.
  - apply in_app_or in H as [H|H].
    + right. destruct (d_kind d) eqn:K; try destruct H. destruct (mem type_identifier gn); [|destruct H]. destruct H as [E|[]].
      injection E as <- <-. split; [reflexivity|]. exists d. cbn. auto.
    + specialize (IH ((sc, d_id d) :: vis) ND' c n). rewrite D in IH. destruct (IH H) as [(x & Ix & V & [[E|J]|(E1 & E2 & E3)])|(E & x & Ix & V)].
      * injection E as <- <-. left. exists x. split; [now right|]. split; [exact V|]. right. split; [reflexivity|]. split; [cbn; auto|].
        intros X. apply N. rewrite <- X. now apply in_map.
      * left. exists x. cbn. auto.
      * left. exists x. cbn. auto 10.
      * right. split; [exact E|]. exists x. cbn. auto.
Qed.
Lemma declarations_errs gn sc ds : forall vis, fst (declarations_check gn sc ds vis) = [] ->
  forall d, In d ds -> d_id d <> "data_available" /\ ~ In (d_id d) (map snd vis).
Proof.
  induction ds as [|x ds IH]; intros vis H d I; [destruct I|]. cbn in H.
  destruct (declarations_check gn sc ds ((sc, d_id x) :: vis)) as [e r] eqn:D. cbn in H.
  rewrite !app_nil, !when_nil in H. destruct H as [[A B] ->]. destruct I as [<-|I].
  - split; [now apply String.eqb_neq|]. intros J. apply mem_iff in J. congruence.
  - specialize (IH ((sc, d_id x) :: vis)). rewrite D in IH. destruct (IH eq_refl d I) as [P Q]. split; [exact P|]. intros J. apply Q. now right.
Qed.

(** what counts as a use *)
Definition state_uses (st : state) (n : string) : Prop :=
  In n (st_action_vars st) \/ exists t, In t (st_transitions st) /\ In n (tr_vars t).
Definition used_global (s : session) (n : string) : Prop :=
  (exists d, survives d (se_parameters s ++ se_declarations s) /\ ((In n (d_vars d) /\ d_id d <> n) \/ d_kind d = KTyped n)) \/
  (exists st, In st (se_states s) /\
     (state_uses st n \/ exists d, survives d (st_declarations st) /\ (In n (d_vars d) \/ d_kind d = KTyped n))).
Definition used_local (st : state) (n : string) : Prop :=
  state_uses st n \/ exists d, survives d (st_declarations st) /\ In n (d_vars d) /\ d_id d <> n.

Lemma state_refs gn i st c n : In (c, n) (snd (state_check gn i st)) ->
  (c = None /\ (state_uses st n \/ exists d, survives d (st_declarations st) /\ (In n (d_vars d) \/ d_kind d = KTyped n))) \/
  (c = Some i /\ used_local st n).
Proof.
  unfold state_check. destruct (declarations_check gn (Some i) (dict_of (st_declarations st)) (map (fun n => (None, n)) gn)) as [e r] eqn:D.
  cbn [snd]. intros H. apply in_app_or in H as [H|H].
  - pose proof (declarations_refs gn (Some i) (dict_of (st_declarations st)) (map (fun n => (None, n)) gn) (dict_of_nodup _) c n) as R.
    rewrite D in R. destruct (R H) as [(d & Id & V & [J|(-> & J & X)])|(-> & d & Id & V)].
    + apply in_map_iff in J as (m & E & _). injection E as <- <-. left. split; [reflexivity|]. right. exists d. split; [now apply dict_of_in|now left].
    + right. split; [reflexivity|]. right. exists d. split; [now apply dict_of_in|auto].
    + left. split; [reflexivity|]. right. exists d. split; [now apply dict_of_in|now right].
  - assert (U : state_uses st n /\ (c = None \/ c = Some i)).
    { apply in_app_or in H as [H|H].
      - apply in_flat_map in H as (v & Iv & L). apply lookup_in in L as [L E]. cbn in E. subst v. split; [now left|].
        apply in_app_or in L as [L|L]; apply in_map_iff in L as (? & E & _); injection E; auto.
      - apply in_flat_map in H as (t & It & H). apply in_flat_map in H as (v & Iv & L). apply lookup_in in L as [L E]. cbn in E. subst v.
        split; [right; eauto|]. apply in_app_or in L as [L|L]; apply in_map_iff in L as (? & E & _); injection E; auto. }
    destruct U as [U [-> | ->]]; [left|right]; (split; [reflexivity|]); [now left|now left].
Qed.
Lemma states_refs gn l : forall i c n, In (c, n) (snd (states_check gn i l)) ->
  match c with
  | None => exists st, In st l /\ (state_uses st n \/ exists d, survives d (st_declarations st) /\ (In n (d_vars d) \/ d_kind d = KTyped n))
  | Some j => exists k st, j = i + k /\ nth_error l k = Some st /\ used_local st n
  end.
Proof.
  induction l as [|p l IH]; intros i c n H; cbn in H; [destruct H|].
  destruct (state_check gn i p) as [e1 r1] eqn:A. destruct (states_check gn (S i) l) as [e2 r2] eqn:B. cbn in H.
  apply in_app_or in H as [H|H].
  - pose proof (state_refs gn i p c n) as R. rewrite A in R. destruct (R H) as [[-> U]|[-> U]].
    + exists p. split; [now left|exact U].
    + exists 0, p. split; [lia|]. auto.
  - specialize (IH (S i) c n). rewrite B in IH. specialize (IH H). destruct c as [j|].
    + destruct IH as (k & st & -> & N & U). exists (S k), st. split; [lia|]. auto.
    + destruct IH as (st & I & U). exists st. split; [now right|exact U].
Qed.
Lemma key_eqb_eq a b : key_eqb a b = true -> a = b.
Proof.
  destruct a as [[i|] x], b as [[j|] y]; cbn; try discriminate.
  - intros H. apply andb_true_iff in H as [H K]. apply Nat.eqb_eq in H. apply String.eqb_eq in K. now subst.
  - intros H. apply String.eqb_eq in H. now subst.
Qed.
Lemma local_keys_in l : forall i k st d, nth_error l k = Some st -> In d (dict_of (st_declarations st)) ->
  In (Some (i + k), d_id d) (local_keys i l).
Proof.
  induction l as [|p l IH]; intros i [|k] st d N I; try discriminate; cbn in *; apply in_or_app.
  - injection N as ->. left. rewrite Nat.add_0_r. apply in_map_iff. eauto.
  - right. rewrite <- Nat.add_succ_comm. eapply IH; eauto.
Qed.

(** In an accepted session no declaration has the name of the built-in function, local
    ones do not hide global ones, and every declared name is used in its scope. *)
Theorem C44_declarations s : session_errors s = [] ->
  (forall d, In d (se_parameters s ++ se_declarations s) -> d_id d <> "data_available" /\ used_global s (d_id d)) /\
  (forall st d, In st (se_states s) -> In d (st_declarations st) ->
     d_id d <> "data_available" /\ used_local st (d_id d) /\
     forall g, In g (se_parameters s ++ se_declarations s) -> d_id g <> d_id d).
Proof.
  unfold session_errors, usage_errors. set (gn := map d_id (globals s)).
  destruct (declarations_check gn None (globals s) []) as [e1 r1] eqn:D1. destruct (states_check gn 0 (se_states s)) as [e2 r2] eqn:D2.
  rewrite !app_nil. intros (_ & _ & _ & _ & -> & -> & U). rewrite flat_map_nil in U.
  assert (REF : forall k, In k (map (fun d => (None, d_id d)) (globals s) ++ local_keys 0 (se_states s)) -> In k (r1 ++ r2)).
  { intros k I. specialize (U k I). rewrite when_nil, negb_false_iff, existsb_exists in U. destruct U as (k' & I' & E). apply key_eqb_eq in E. now subst. }
  pose proof (declarations_refs gn None (globals s) [] (globals_nodup s)) as R1. rewrite D1 in R1. cbn [snd] in R1.
  pose proof (states_refs gn (se_states s) 0) as R2. rewrite D2 in R2. cbn [snd] in R2.
  split.
  - intros d0 I0. destruct (survives_name _ _ I0) as (d & S & <-). apply globals_in in S. split.
    + pose proof (declarations_errs gn None (globals s) []) as E. rewrite D1 in E. now apply (E eq_refl d S).
    + assert (K : In (None, d_id d) (r1 ++ r2)) by (apply REF, in_or_app; left; apply in_map_iff; eauto).
      apply in_app_or in K as [K|K].
      * left. destruct (R1 _ _ K) as [(x & Ix & V & [[]|(_ & _ & X)])|(_ & x & Ix & V)]; exists x; apply globals_in in Ix; auto.
      * right. exact (R2 None _ K).
  - intros st d0 Ist I0. destruct (survives_name _ _ I0) as (d & S & <-). apply dict_of_in in S.
    pose proof Ist as Ik. apply In_nth_error in Ik as [k K].
    pose proof (states_errors gn (se_states s) 0) as ER. rewrite D2 in ER. destruct (ER eq_refl st Ist) as (_ & j & EJ).
    destruct (declarations_errs _ _ _ _ EJ d S) as [P Q]. split; [exact P|]. split.
    + assert (KK : In (Some (0 + k), d_id d) (r1 ++ r2)) by (apply REF, in_or_app; right; eapply local_keys_in; eauto).
      apply in_app_or in KK as [KK|KK].
      * destruct (R1 _ _ KK) as [(x & _ & _ & [[]|(X & _)])|(X & _)]; discriminate X.
      * destruct (R2 (Some (0 + k)) _ KK) as (k' & st' & E & N & U'). cbn in E. subst k'. rewrite K in N. injection N as <-. exact U'.
    + intros g Ig X. apply Q. rewrite map_map. cbn. rewrite map_id. unfold gn. rewrite <- X.
      destruct (survives_name _ _ Ig) as (g' & G & <-). apply globals_in in G. now apply in_map.
Qed.
Print Assumptions C44_declarations.

Definition ex_declared : session :=
  mkSession "start" "end"
    [mkState "start" [mkTransition "end" ["x"; "y"]] None false [] [mkDecl "y" (KTyped "t") ["x"]]; plain_state "end" []]
    [mkDecl "x" (KTyped "t") ["z"]] [mkDecl "t" KType []; mkDecl "z" (KTyped "t") []].
Example C44_meets : session_errors ex_declared = [].
Proof. vm_compute. reflexivity. Qed.
Example C44_shadow : session_errors
  (mkSession "start" "end" [mkState "start" [mkTransition "end" ["x"]] None false ["x"] [mkDecl "x" KOther []]; plain_state "end" []]
     [mkDecl "x" KOther []] []) = ["local variable shadows previous declaration"; "unused declaration"].
Proof. vm_compute. reflexivity. Qed.

(** Two declarations of the same name in one scope are accepted: the first one is
    ignored, with its type and its initialisation. *)
Theorem C44_duplicate_refuted : exists s d e, session_errors s = [] /\ se_declarations s = [d; e] /\
  d_id d = d_id e /\ d_kind d <> d_kind e.
Proof.
  set (d := mkDecl "x" (KTyped "boolean") ["unknown"]). set (e := mkDecl "x" (KTyped "opaque") []).
  exists (mkSession "start" "end" [mkState "start" [mkTransition "end" ["x"]] None false [] []; plain_state "end" []] [d; e] []), d, e.
  split; [vm_compute; reflexivity|]. split; [reflexivity|]. split; [reflexivity|discriminate].
Qed.
Print Assumptions C44_duplicate_refuted.
