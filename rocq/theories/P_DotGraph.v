(** C65: the graphs of messages and sessions. *)
From Coq Require Import String List ZArith Bool Lia Arith Ascii.
From Coq Require DecimalString DecimalNat.
From Verif Require Import Base Ident Expr SessionType SessionEval BindExpr BindSpec BindVars DotGraph P_BindExpr.
Import ListNotations.
Local Open Scope string_scope.
Local Open Scope list_scope.
Local Open Scope res_scope.

(** ** Statements *)

(** [p] leads from node to node along edges *)
Fixpoint walk (edges : list edge) (a : string) (p : list string) (b : string) : Prop :=
  match p with
  | [] => a = b
  | x :: r => (exists e, In e edges /\ e_src e = a /\ e_dst e = x) /\ walk edges x r b
  end.
(** links of a message, given by their numbers, that follow each other *)
Fixpoint link_path (s : list glink) (a : string) (is : list nat) (b : string) : Prop :=
  match is with
  | [] => a = b
  | i :: r => exists l, nth_error s i = Some l /\ gl_source l = a /\ link_path s (gl_target l) r b
  end.
(** the nodes on the way *)
Definition link_nodes (s : list glink) (is : list nat) : list string :=
  flat_map (fun i => match nth_error s i with Some l => [intermediate i; gl_target l] | None => [] end) is.

(** the names of nodes are different and links use the names of fields *)
Record plain_message (m : gmessage) : Prop := {
  pm_fields : NoDup (gm_fields m);
  pm_reserved : forall f, In f (gm_fields m) -> f <> "Initial" /\ f <> "Final" /\ forall i, f <> intermediate i;
  pm_links : forall l, In l (gm_structure m) ->
    (gl_source l = "Initial" \/ In (gl_source l) (gm_fields m)) /\ (gl_target l = "Final" \/ In (gl_target l) (gm_fields m))
}.

(** the variables that are used in the transitions and assignments of a state *)
Definition state_exprs (st : gstate) : list bx :=
  map gt_condition (gs_transitions st) ++ flat_map (fun a => match a with GAssign _ e => [e] | GAttribute _ _ => [] end) (gs_actions st).
Definition state_reads (eqb : bx -> bx -> bool) (fuel : nat) (st : gstate) (x : string) : Prop :=
  ~ In x (gs_declarations st) /\ exists e vs s, In e (state_exprs st) /\ variables eqb fuel e = Ok vs /\ In (x, s) vs.
Definition state_writes (st : gstate) (x : string) : Prop :=
  ~ In x (gs_declarations st) /\ exists a, In a (gs_actions st) /\ action_id a = x.
Definition value_true (v : value) : bool := match v with VEnum _ l => String.eqb l "True" | _ => false end.
(** states have different names, transitions lead to states, and no variable is named like a
    state *)
Record plain_session (eqb : bx -> bx -> bool) (fuel : nat) (s : gsession) : Prop := {
  ps_states : NoDup (map (fun st => lower (gs_id st)) (gg_states s));
  ps_targets : forall st t, In st (gg_states s) -> In t (gs_transitions st) -> In (gt_target t) (map gs_id (gg_states s));
  ps_variables : forall st x, In st (gg_states s) -> state_reads eqb fuel st x \/ state_writes st x -> ~ In x (map gs_id (gg_states s))
}.
Definition edges_between (d : dot) (a b : string) : list edge :=
  filter (fun e => String.eqb (e_src e) a && String.eqb (e_dst e) b) (d_edges d).
Definition state_name (s : gsession) (a : string) : bool := existsb (fun st => String.eqb a (gs_id st)) (gg_states s).
(** the edges from a state to states, and to a state from states *)
Definition leaving (s : gsession) (d : dot) (a : string) : list edge :=
  filter (fun e => String.eqb (e_src e) a && state_name s (e_dst e)) (d_edges d).
Definition entering (s : gsession) (d : dot) (a : string) : list edge :=
  filter (fun e => state_name s (e_src e) && String.eqb (e_dst e) a) (d_edges d).
(** the state that follows, [None]: no condition holds; conditions are tried in order *)
Fixpoint next (w : world) (v : store) (ts : list gtransition) : outcome (option string) :=
  match ts with
  | [] => Val None
  | t :: r =>
    match ev w v (gt_condition t) with
    | Val x => if value_true x then Val (Some (gt_target t)) else next w v r
    | Raise => Raise
    | Stuck => Stuck
    end
  end.

(** ** Proofs *)

Lemma res_bind {A B} (r : res A) (k : A -> res B) b : bind r k = Ok b -> exists a, r = Ok a /\ k a = Ok b.
Proof. destruct r as [a|]; cbn [bind]; [eauto|discriminate]. Qed.
Local Ltac dbind H x E := apply res_bind in H as (x & E & H).

Lemma NoDup_app_intro {A} (l l' : list A) : NoDup l -> NoDup l' -> (forall x, In x l -> In x l' -> False) -> NoDup (l ++ l').
Proof.
  induction l as [|x l IH]; intros N N' D; cbn [app]; [exact N'|]. apply NoDup_cons_iff in N as [N1 N2]. constructor.
  - intros J. apply in_app_or in J as [J|J]; [contradiction|]. now apply (D x (or_introl eq_refl)).
  - apply IH; auto. intros y J. apply D. now right.
Qed.
Lemma append_assoc (a b c : string) : ((a ++ b) ++ c = a ++ (b ++ c))%string.
Proof. induction a as [|x a IH]; cbn [append]; [reflexivity|]. now rewrite IH. Qed.
Lemma nat_text_inj i j : nat_text i = nat_text j -> i = j.
Proof.
  unfold nat_text. intros E. apply DecimalNat.Unsigned.to_uint_inj.
  pose proof (DecimalString.NilEmpty.usu (Nat.to_uint i)) as A. rewrite E, DecimalString.NilEmpty.usu in A. congruence.
Qed.
Lemma intermediate_inj i j : intermediate i = intermediate j -> i = j.
Proof. unfold intermediate. cbn [append]. intros E. repeat (injection E as E). now apply nat_text_inj. Qed.

Section Message.
  Context (str : expr -> string) (m : gmessage).

  Definition structure_of : list glink := match gm_structure m with [] => [mkGLink "Initial" "Final" ETrue None None] | s => s end.
  (** what the loop adds *)
  Definition link_edges (i : nat) (ls : list glink) : list edge :=
    flat_map (fun p => [mkEdge (gl_source (snd p)) (intermediate (fst p)) None; mkEdge (intermediate (fst p)) (gl_target (snd p)) None])
      (combine (seq i (List.length ls)) ls).
  Lemma add_links_inv ls : forall i nodes edges ns es, add_links str m i ls nodes edges = Ok (ns, es) ->
    es = edges ++ link_edges i ls /\
    exists labels, Forall2 (fun l t => edge_label str m l = Ok t) ls labels /\
      ns = nodes ++ map (fun p => mkNode (intermediate (fst p)) Green (Some (snd p)) None) (combine (seq i (List.length labels)) labels).
  Proof.
    induction ls as [|l ls IH]; intros i nodes edges ns es E; cbn [add_links] in E.
    - apply Ok_inj in E. injection E as <- <-. split; [now rewrite app_nil_r|]. exists []. split; [constructor|]. now rewrite app_nil_r.
    - dbind E t ET. destruct (IH _ _ _ _ _ E) as [-> (ts & F & ->)]. split; [unfold link_edges; cbn [List.length seq combine flat_map app]; now rewrite <- app_assoc|].
      exists (t :: ts). split; [now constructor|]. cbn [List.length seq combine map]. now rewrite <- app_assoc.
  Qed.
  Lemma add_links_ok ls : (forall l, In l ls -> exists t, edge_label str m l = Ok t) -> forall i nodes edges, exists r, add_links str m i ls nodes edges = Ok r.
  Proof.
    induction ls as [|l ls IH]; intros H i nodes edges; cbn [add_links]; [eauto|].
    destruct (H l (or_introl eq_refl)) as (t & ->). cbn [bind]. apply IH. intros l' J. apply H. now right.
  Qed.
  Lemma in_link_edges e ls : forall i, In e (link_edges i ls) <->
    exists k l, nth_error ls k = Some l /\
      (e = mkEdge (gl_source l) (intermediate (i + k)) None \/ e = mkEdge (intermediate (i + k)) (gl_target l) None).
  Proof.
    induction ls as [|l ls IH]; intros i; [split; [intros []|intros ([|k] & l & Q & _); discriminate]|].
    unfold link_edges. cbn [List.length seq combine flat_map app fst snd]. fold (link_edges (S i) ls). cbn [In]. rewrite IH. split.
    - intros [<-|[<-|(k & l' & Q & H)]].
      + exists 0, l. rewrite Nat.add_0_r. auto.
      + exists 0, l. rewrite Nat.add_0_r. auto.
      + exists (S k), l'. rewrite <- Nat.add_succ_comm. auto.
    - intros ([|k] & l' & Q & H); cbn [nth_error] in Q.
      + injection Q as <-. rewrite Nat.add_0_r in H. destruct H as [->| ->]; auto.
      + right. right. exists k, l'. rewrite Nat.add_succ_comm. auto.
  Qed.

  Context (P : plain_message m).
  Lemma plain_links l : In l structure_of ->
    (gl_source l = "Initial" \/ In (gl_source l) (gm_fields m)) /\ (gl_target l = "Final" \/ In (gl_target l) (gm_fields m)).
  Proof. pose proof (pm_links m P) as PL. unfold structure_of. destruct (gm_structure m); [intros [<-|[]]; cbn; auto|apply PL]. Qed.
  Definition place_name (a : string) : Prop := a = "Initial" \/ a = "Final" \/ In a (gm_fields m).
  Lemma place_not_intermediate a i : place_name a -> a <> intermediate i.
  Proof.
    intros [->|[->|H]]; [discriminate|discriminate|]. apply (pm_reserved m P a H).
  Qed.
  Lemma walk_links b : place_name b -> forall k p a, List.length p <= k -> place_name a -> walk (link_edges 0 structure_of) a p b ->
    exists is, link_path structure_of a is b /\ p = link_nodes structure_of is.
  Proof.
    intros PB. induction k as [|k IH]; intros p a LE PA H.
    - destruct p; [|cbn in LE; lia]. exists []. split; [exact H|reflexivity].
    - destruct p as [|x p]; [exists []; split; [exact H|reflexivity]|]. cbn [walk] in H. destruct H as [(e & J & S & D) H].
      apply in_link_edges in J as (i & l & N & [->| ->]); cbn [e_src e_dst] in S, D; [|exfalso; now apply (place_not_intermediate a i PA)].
      cbn [Nat.add] in D. subst x. destruct p as [|y p]; cbn [walk] in H; [exfalso; now apply (place_not_intermediate b i PB)|].
      destruct H as [(e' & J' & S' & D') H].
      apply in_link_edges in J' as (i' & l' & N' & [->| ->]); cbn [e_src e_dst Nat.add] in S', D'.
      + exfalso. apply nth_error_In, plain_links in N'. apply (place_not_intermediate (gl_source l') i); [|exact S']. unfold place_name. tauto.
      + apply intermediate_inj in S'. subst i'. rewrite N in N'. injection N' as <-. subst y.
        assert (PT : place_name (gl_target l)) by (apply nth_error_In, plain_links in N; unfold place_name; tauto).
        destruct (IH p (gl_target l) ltac:(cbn in LE; lia) PT H) as (is & L & ->). exists (i :: is). split.
        * cbn [link_path]. exists l. auto.
        * unfold link_nodes. cbn [flat_map]. rewrite N. reflexivity.
  Qed.
  Lemma links_walk b is : forall a, link_path structure_of a is b -> walk (link_edges 0 structure_of) a (link_nodes structure_of is) b.
  Proof.
    induction is as [|i is IH]; intros a H; cbn [link_path] in H; [exact H|]. destruct H as (l & N & S & H).
    unfold link_nodes. cbn [flat_map]. rewrite N. cbn [app walk]. split; [|split].
    - exists (mkEdge (gl_source l) (intermediate i) None). split; [|auto]. apply in_link_edges. exists i, l. auto.
    - exists (mkEdge (intermediate i) (gl_target l) None). split; [|auto]. apply in_link_edges. exists i, l. auto.
    - apply IH, H.
  Qed.
End Message.

(** *** Counters *)
Lemma count_one_keys c x k y : In y (map fst (count_one c x k)) <-> y = x \/ In y (map fst c).
Proof.
  induction c as [|[z d] c IH]; cbn [count_one map fst In]; [intuition|]. destruct (String.eqb_spec z x) as [->|N]; cbn [map fst In]; [intuition|]. rewrite IH. intuition.
Qed.
Lemma count_one_nodup c x k : NoDup (map fst c) -> NoDup (map fst (count_one c x k)).
Proof.
  induction c as [|[z d] c IH]; cbn [count_one map fst]; intros N; [constructor; [intros []|constructor]|].
  apply NoDup_cons_iff in N as [N1 N2]. destruct (String.eqb_spec z x) as [->|NE]; cbn [map fst]; constructor; auto.
  rewrite count_one_keys. intros [->|J]; [now apply NE|contradiction].
Qed.
Lemma count_list_keys l : forall c y, In y (map fst (count_list c l)) <-> In y l \/ In y (map fst c).
Proof.
  induction l as [|x l IH]; intros c y; cbn [count_list fold_left In]; [intuition|]. unfold count_list in IH. rewrite IH, count_one_keys. intuition.
Qed.
Lemma count_list_nodup l : forall c, NoDup (map fst c) -> NoDup (map fst (count_list c l)).
Proof. induction l as [|x l IH]; intros c N; cbn [count_list fold_left]; [exact N|]. apply IH. now apply count_one_nodup. Qed.
Lemma count_counter_keys d : forall c y, In y (map fst (count_counter c d)) <-> In y (map fst d) \/ In y (map fst c).
Proof.
  induction d as [|[x k] d IH]; intros c y; cbn [count_counter fold_left map fst snd In]; [intuition|]. unfold count_counter in IH. rewrite IH, count_one_keys. intuition.
Qed.
Lemma count_counter_nodup d : forall c, NoDup (map fst c) -> NoDup (map fst (count_counter c d)).
Proof. induction d as [|x d IH]; intros c N; cbn [count_counter fold_left]; [exact N|]. apply IH. now apply count_one_nodup. Qed.

Section Session.
  Context (str : bx -> string) (eqb : bx -> bx -> bool) (fuel : nat).
  Definition reads_of (st : gstate) (es : list bx) (x : string) : Prop :=
    exists e vs s, In e es /\ variables eqb fuel e = Ok vs /\ In (x, s) vs /\ ~ In x (gs_declarations st).
  Lemma declared_In (st : gstate) x : existsb (String.eqb x) (gs_declarations st) = true <-> In x (gs_declarations st).
  Proof.
    rewrite existsb_exists. split; [intros (y & J & E); apply String.eqb_eq in E; now subst|intros J; exists x; split; [exact J|apply String.eqb_refl]].
  Qed.
  Lemma global_variables_in st e l x : global_variables eqb fuel st e = Ok l -> (In x l <-> reads_of st [e] x).
  Proof.
    intros E. unfold global_variables in E. dbind E vs EV. apply Ok_inj in E. subst l. rewrite filter_In, in_map_iff, negb_true_iff. split.
    - intros [((x' & s) & <- & J) D]. exists e, vs, s. split; [now left|]. split; [exact EV|]. split; [exact J|]. intros Q. cbn [fst] in D, Q. apply declared_In in Q. congruence.
    - intros (e' & vs' & s & [<-|[]] & EV' & J & D). assert (vs' = vs) by congruence. subst vs'. split; [exists (x, s); auto|].
      destruct (existsb _ _) eqn:Q; [|reflexivity]. now apply declared_In in Q.
  Qed.
  Lemma reads_app st a b x : reads_of st (a ++ b) x <-> reads_of st a x \/ reads_of st b x.
  Proof.
    unfold reads_of. split.
    - intros (e & vs & s & J & R). apply in_app_or in J as [J|J]; [left|right]; exists e, vs, s; auto.
    - intros [(e & vs & s & J & R)|(e & vs & s & J & R)]; exists e, vs, s; (split; [apply in_or_app; auto|exact R]).
  Qed.

  Definition shown (st : gstate) (i : nat) (t : gtransition) : string :=
    if is_btrue (gt_condition t) then ""
    else (gs_id st ++ arrow_sign ++ gt_target t ++ newline ++ newline ++ "[" ++ nat_text i ++ "] " ++ str (gt_condition t))%string.
  Fixpoint transition_edges (st : gstate) (i : nat) (ts : list gtransition) : list edge :=
    match ts with [] => [] | t :: r => mkEdge (gs_id st) (gt_target t) (Some (shown st i t)) :: transition_edges st (S i) r end.
  Lemma add_transitions_inv st ts : forall i edges read es rd, add_transitions str eqb fuel st i ts edges read = Ok (es, rd) ->
    es = edges ++ transition_edges st i ts /\
    (forall x, In x (map fst rd) <-> reads_of st (map gt_condition ts) x \/ In x (map fst read)) /\
    (NoDup (map fst read) -> NoDup (map fst rd)) /\
    (forall e, In e (map gt_condition ts) -> exists vs, variables eqb fuel e = Ok vs).
  Proof.
    induction ts as [|t ts IH]; intros i edges read es rd E; cbn [add_transitions] in E.
    - apply Ok_inj in E. injection E as <- <-. split; [cbn; now rewrite app_nil_r|]. split; [|split; [auto|intros e []]]. intros x. split; [auto|]. intros [(e & vs & s & [] & _)|J]; exact J.
    - dbind E vs EV. destruct (IH _ _ _ _ _ E) as (-> & R & N & V). split; [cbn [transition_edges]; now rewrite <- app_assoc|]. split; [|split].
      + intros x. rewrite R, count_list_keys, (global_variables_in _ _ _ x EV). change (map gt_condition (t :: ts)) with ([gt_condition t] ++ map gt_condition ts).
        rewrite reads_app. tauto.
      + intros Q. apply N. now apply count_list_nodup.
      + intros e [<-|J]; [|now apply V]. unfold global_variables in EV. dbind EV vs' EV'. eauto.
  Qed.
  Definition assigned (acts : list gaction) : list bx := flat_map (fun a => match a with GAssign _ e => [e] | GAttribute _ _ => [] end) acts.
  Lemma add_actions_inv st acts : forall read write rd wr, add_actions eqb fuel st acts read write = Ok (rd, wr) ->
    (forall x, In x (map fst rd) <-> reads_of st (assigned acts) x \/ In x (map fst read)) /\
    (forall x, In x (map fst wr) <-> (~ In x (gs_declarations st) /\ exists a, In a acts /\ action_id a = x) \/ In x (map fst write)) /\
    (NoDup (map fst read) -> NoDup (map fst rd)) /\ (NoDup (map fst write) -> NoDup (map fst wr)) /\
    (forall e, In e (assigned acts) -> exists vs, variables eqb fuel e = Ok vs).
  Proof.
    induction acts as [|a acts IH]; intros read write rd wr E; cbn [add_actions] in E.
    - apply Ok_inj in E. injection E as <- <-. split; [|split; [|split; [auto|split; [auto|intros e []]]]].
      + intros x. split; [auto|]. intros [(e & vs & s & [] & _)|J]; exact J.
      + intros x. split; [auto|]. intros [(_ & a & [] & _)|J]; exact J.
    - set (write' := if existsb (String.eqb (action_id a)) (gs_declarations st) then write else count_one write (action_id a) 1) in *.
      assert (KW : forall x, In x (map fst write') <-> (~ In x (gs_declarations st) /\ action_id a = x) \/ In x (map fst write)).
      { intros x. unfold write'. destruct (existsb _ _) eqn:Q.
        - apply declared_In in Q. split; [auto|]. intros [[D <-]|J]; [contradiction|exact J].
        - assert (D : ~ In (action_id a) (gs_declarations st)) by (intros J; apply declared_In in J; congruence).
          rewrite count_one_keys. split; [intros [->|J]; auto|intros [[_ <-]|J]; auto]. }
      assert (NW : NoDup (map fst write) -> NoDup (map fst write')) by (intros N; unfold write'; destruct (existsb _ _); [exact N|now apply count_one_nodup]).
      dbind E read' ER. destruct (IH _ _ _ _ E) as (R & Wr & N1 & N2 & V).
      assert (KR : (forall e, In e (assigned [a]) -> exists vs, variables eqb fuel e = Ok vs) /\ (forall x, In x (map fst read') <-> reads_of st (assigned [a]) x \/ In x (map fst read)) /\ (NoDup (map fst read) -> NoDup (map fst read'))).
      { destruct a as [y e|y ps].
        - dbind ER vs EV. apply Ok_inj in ER. subst read'. split; [|split; [|apply count_list_nodup]].
          { intros e' [<-|[]]. unfold global_variables in EV. dbind EV vs' EV'. eauto. }
          intros x. now rewrite count_list_keys, (global_variables_in _ _ _ x EV).
        - apply Ok_inj in ER. subst read'. split; [intros e' []|]. split; [|auto]. intros x. split; [auto|]. intros [(e & vs & s & [] & _)|J]; exact J. }
      destruct KR as (KV & KR & NR).
      assert (AA : assigned (a :: acts) = assigned [a] ++ assigned acts) by (unfold assigned; cbn [flat_map]; now rewrite app_nil_r).
      split; [|split; [|split; [auto|split; [auto|]]]].
      3: { intros e J. rewrite AA in J. apply in_app_or in J as [J|J]; auto. }
      + intros x. rewrite R, KR, AA.
        rewrite reads_app. tauto.
      + intros x. rewrite Wr, KW. split.
        * intros [(D & a' & J & Q)|[(D & Q)|J]]; [left; split; [exact D|exists a'; split; [now right|exact Q]]|left; split; [exact D|exists a; split; [now left|exact Q]]|now right].
        * intros [(D & a' & [<-|J] & Q)|J]; [right; left; auto|left; split; [exact D|eauto]|auto].
  Qed.

  (** the edges and variables of a state *)
  Definition state_edges (st : gstate) (es : list edge) (rd wr : counter) : Prop :=
    es = transition_edges st 0 (gs_transitions st)
      ++ map (fun p => mkEdge (fst p) (gs_id st) (Some (gs_id st ++ ": read " ++ fst p)%string)) rd
      ++ map (fun p => mkEdge (gs_id st) (fst p) (Some (gs_id st ++ ": write " ++ fst p)%string)) wr /\
    (forall x, In x (map fst rd) <-> state_reads eqb fuel st x) /\ (forall x, In x (map fst wr) <-> state_writes st x) /\
    NoDup (map fst rd) /\ NoDup (map fst wr) /\
    (forall e, In e (state_exprs st) -> exists vs, variables eqb fuel e = Ok vs).
  Definition state_node (s : gsession) (st : gstate) : node :=
    mkNode (gs_id st) (if same (gs_id st) (gg_initial s) then White else if same (gs_id st) (gg_final s) then Grey else Green) None (Some (degree s st)).
  Lemma add_state_inv s st d vars d' vars' : add_state str eqb fuel s st d vars = Ok (d', vars') ->
    exists es rd wr, state_edges st es rd wr /\ d' = mkDot (d_name d) (d_nodes d ++ [state_node s st]) (d_edges d ++ es) /\
      vars' = count_counter (count_counter vars rd) wr.
  Proof.
    intros E. unfold add_state in E. dbind E r ER. destruct r as [es0 rd0]. cbn [fst snd] in E. dbind E rw ERW. destruct rw as [rd wr]. cbn [fst snd] in E.
    apply Ok_inj in E. injection E as <- <-.
    destruct (add_transitions_inv _ _ _ _ _ _ _ ER) as (-> & R1 & N1 & V1). destruct (add_actions_inv _ _ _ _ _ _ ERW) as (R2 & W2 & N2 & N3 & V2).
    eexists. exists rd, wr. split; [split; [reflexivity|split; [|split; [|split; [|split]]]]|split; [cbn [fst snd]; now rewrite <- !app_assoc|reflexivity]].
    - intros x. rewrite R2, R1. unfold state_reads, state_exprs, reads_of. cbn [map In]. split.
      + intros [(e & vs & s0 & J & V & I & D)|[(e & vs & s0 & J & V & I & D)|[]]]; (split; [exact D|exists e, vs, s0; split; [apply in_or_app; auto|auto]]).
      + intros (D & e & vs & s0 & J & V & I). apply in_app_or in J as [J|J]; [right; left|left]; exists e, vs, s0; auto.
    - intros x. rewrite W2. cbn [map In]. unfold state_writes. tauto.
    - apply N2, N1. constructor.
    - apply N3. constructor.
    - intros e J. apply in_app_or in J as [J|J]; auto.
  Qed.
  (** the graph of a list of states *)
  Inductive built : list gstate -> list edge -> counter -> Prop :=
  | built_nil : built [] [] []
  | built_snoc l es vars st es1 rd wr : built l es vars -> state_edges st es1 rd wr ->
      built (l ++ [st]) (es ++ es1) (count_counter (count_counter vars rd) wr).
  Lemma add_states_inv s l : forall done d vars d' vars', built done (d_edges d) vars -> d_nodes d = map (state_node s) done ->
    add_states str eqb fuel s l d vars = Ok (d', vars') ->
    built (done ++ l) (d_edges d') vars' /\ d_nodes d' = map (state_node s) (done ++ l).
  Proof.
    induction l as [|st l IH]; intros done d vars d' vars' B N E; cbn [add_states] in E.
    - apply Ok_inj in E. injection E as <- <-. now rewrite app_nil_r.
    - dbind E p EP. destruct p as [d1 vars1]. cbn [fst snd] in E. destruct (add_state_inv _ _ _ _ _ _ EP) as (es & rd & wr & SE & -> & ->).
      replace (done ++ st :: l) with ((done ++ [st]) ++ l) by now rewrite <- app_assoc.
      refine (IH (done ++ [st]) _ _ _ _ _ _ E); cbn [d_edges d_nodes]; [econstructor; eassumption|rewrite N, map_app; reflexivity].
  Qed.
  Lemma get_session_inv s d : get_session str eqb fuel s = Ok d ->
    exists vars, built (gg_states s) (d_edges d) vars /\
      d_nodes d = map (state_node s) (gg_states s) ++ map (fun v => mkNode (fst v) Blue None (Some (snd v))) vars.
  Proof.
    intros E. unfold get_session in E. dbind E p EP. destruct p as [d1 vars]. apply Ok_inj in E. subst d. cbn [fst snd d_edges d_nodes].
    destruct (add_states_inv s _ [] (mkDot "Session" [] []) [] _ _ built_nil eq_refl EP) as [B N]. cbn [app] in B, N. exists vars. rewrite N. auto.
  Qed.
  Lemma built_vars l es vars : built l es vars -> NoDup (map fst vars) /\
    forall x, In x (map fst vars) <-> exists st, In st l /\ (state_reads eqb fuel st x \/ state_writes st x).
  Proof.
    induction 1 as [|l es vars st es1 rd wr B [N1 IH] (_ & R & Wr & _)]; [split; [constructor|]; intros x; split; [intros []|intros (st & [] & _)]|].
    split; [now apply count_counter_nodup, count_counter_nodup|]. intros x. rewrite !count_counter_keys, R, Wr, IH. split.
    - intros [H|[H|(st' & J & H)]]; [exists st|exists st|exists st']; (split; [apply in_or_app; cbn; auto|auto]).
    - intros (st' & J & H). apply in_app_or in J as [J|[<-|[]]]; [right; right; eauto|tauto].
  Qed.
  Lemma built_edges l es vars e : built l es vars -> In e es -> exists st es1 rd wr, In st l /\ state_edges st es1 rd wr /\ In e es1.
  Proof.
    induction 1 as [|l es vars st es1 rd wr B IH SE]; [intros []|]. intros J. apply in_app_or in J as [J|J].
    - destruct (IH J) as (st' & es' & rd' & wr' & J1 & J2). exists st', es', rd', wr'. split; [apply in_or_app; now left|exact J2].
    - exists st, es1, rd, wr. split; [apply in_or_app; right; now left|auto].
  Qed.
  Lemma built_state l es vars st : built l es vars -> In st l -> exists es1 rd wr, state_edges st es1 rd wr /\ incl es1 es.
  Proof.
    induction 1 as [|l es vars st' es1 rd wr B IH SE]; [intros []|]. intros J. apply in_app_or in J as [J|[<-|[]]].
    - destruct (IH J) as (es' & rd' & wr' & J1 & J2). exists es', rd', wr'. split; [exact J1|]. intros e Q. apply in_or_app. left. now apply J2.
    - exists es1, rd, wr. split; [exact SE|]. intros e Q. apply in_or_app. now right.
  Qed.
  Lemma in_transition_edges st e ts : forall i, In e (transition_edges st i ts) <->
    exists k t, nth_error ts k = Some t /\ e = mkEdge (gs_id st) (gt_target t) (Some (shown st (i + k) t)).
  Proof.
    induction ts as [|t ts IH]; intros i; [split; [intros []|intros ([|k] & t & Q & _); discriminate]|]. cbn [transition_edges In]. rewrite IH. split.
    - intros [<-|(k & t' & Q & H)]; [exists 0, t; rewrite Nat.add_0_r; auto|exists (S k), t'; rewrite <- Nat.add_succ_comm; auto].
    - intros ([|k] & t' & Q & H); cbn [nth_error] in Q; [injection Q as <-; rewrite Nat.add_0_r in H; auto|right; exists k, t'; rewrite Nat.add_succ_comm; auto].
  Qed.

  Context (s : gsession) (P : plain_session eqb fuel s).
  Lemma state_name_In a : state_name s a = true <-> In a (map gs_id (gg_states s)).
  Proof.
    unfold state_name. rewrite existsb_exists, in_map_iff. split.
    - intros (st & J & E). apply String.eqb_eq in E. exists st. auto.
    - intros (st & <- & J). exists st. split; [exact J|apply String.eqb_refl].
  Qed.
  Lemma same_states st st' : In st (gg_states s) -> In st' (gg_states s) -> lower (gs_id st) = lower (gs_id st') -> st = st'.
  Proof.
    pose proof (ps_states _ _ _ P) as N. revert N. induction (gg_states s) as [|y l IH]; [intros _ []|]. cbn [map]. intros N. apply NoDup_cons_iff in N as [N1 N2].
    intros [->|J] [->|J'] E; auto.
    - destruct N1. rewrite E. now apply (in_map (fun st => lower (gs_id st))).
    - destruct N1. rewrite <- E. now apply (in_map (fun st => lower (gs_id st))).
  Qed.
  Lemma same_names a b : In a (map gs_id (gg_states s)) -> In b (map gs_id (gg_states s)) -> same a b = String.eqb a b.
  Proof.
    intros A B. unfold same. destruct (String.eqb_spec a b) as [->|N]; [apply String.eqb_refl|]. apply String.eqb_neq. intros E.
    apply in_map_iff in A as (x & <- & A). apply in_map_iff in B as (y & <- & B). apply N. now rewrite (same_states x y A B E).
  Qed.
  Lemma nodup_names : NoDup (map gs_id (gg_states s)).
  Proof. pose proof (ps_states _ _ _ P) as N. rewrite <- map_map in N. now apply NoDup_map_inv in N. Qed.

  Lemma filter_none {A} (f : A -> bool) l : (forall x, In x l -> f x = false) -> filter f l = [].
  Proof. induction l as [|x l IH]; intros H; cbn [filter]; [reflexivity|]. rewrite (H x (or_introl eq_refl)). apply IH. intros y J. apply H. now right. Qed.
  Lemma filter_all {A} (f : A -> bool) l : (forall x, In x l -> f x = true) -> filter f l = l.
  Proof. induction l as [|x l IH]; intros H; cbn [filter]; [reflexivity|]. rewrite (H x (or_introl eq_refl)). f_equal. apply IH. intros y J. apply H. now right. Qed.

  Section State.
    Context (st : gstate) (J : In st (gg_states s)) (es : list edge) (rd wr : counter) (SE : state_edges st es rd wr).
    Lemma read_foreign p : In p rd -> state_reads eqb fuel st (fst p) /\ state_name s (fst p) = false.
    Proof.
      intros I. destruct SE as (_ & R & _). assert (Q : state_reads eqb fuel st (fst p)) by (apply R; now apply in_map).
      split; [exact Q|]. destruct (state_name s (fst p)) eqn:N; [|reflexivity]. apply state_name_In in N. now destruct (ps_variables _ _ _ P st (fst p) J (or_introl Q)).
    Qed.
    Lemma write_foreign p : In p wr -> state_writes st (fst p) /\ state_name s (fst p) = false.
    Proof.
      intros I. destruct SE as (_ & _ & R & _). assert (Q : state_writes st (fst p)) by (apply R; now apply in_map).
      split; [exact Q|]. destruct (state_name s (fst p)) eqn:N; [|reflexivity]. apply state_name_In in N. now destruct (ps_variables _ _ _ P st (fst p) J (or_intror Q)).
    Qed.
    Lemma state_named : state_name s (gs_id st) = true.
    Proof. apply state_name_In. now apply in_map. Qed.
    Lemma target_named t : In t (gs_transitions st) -> state_name s (gt_target t) = true.
    Proof. intros I. apply state_name_In. now apply (ps_targets _ _ _ P st). Qed.
    Lemma named_neq a b : state_name s a = true -> state_name s b = false -> String.eqb a b = false.
    Proof. intros A B. apply String.eqb_neq. intros ->. congruence. Qed.
    Lemma named_neq' a b : state_name s a = true -> state_name s b = false -> String.eqb b a = false.
    Proof. intros A B. apply String.eqb_neq. intros ->. congruence. Qed.

    Lemma state_leaving a : state_name s a = true ->
      filter (fun e => String.eqb (e_src e) a && state_name s (e_dst e)) es =
      if String.eqb (gs_id st) a then transition_edges st 0 (gs_transitions st) else [].
    Proof.
      intros A. pose proof SE as (EQ & _). rewrite EQ, !filter_app.
      rewrite (filter_none _ (map _ rd)), (filter_none _ (map _ wr)), !app_nil_r.
      - destruct (String.eqb (gs_id st) a) eqn:Q.
        + apply filter_all. intros e I. apply in_transition_edges in I as (k & t & N & ->). cbn [e_src e_dst]. rewrite Q. cbn [andb].
          apply target_named. now apply nth_error_In in N.
        + apply filter_none. intros e I. apply in_transition_edges in I as (k & t & N & ->). cbn [e_src e_dst]. now rewrite Q.
      - intros e I. apply in_map_iff in I as (p & <- & I). cbn [e_src e_dst]. rewrite (proj2 (write_foreign p I)). apply andb_false_r.
      - intros e I. apply in_map_iff in I as (p & <- & I). cbn [e_src e_dst]. now rewrite (named_neq' _ _ A (proj2 (read_foreign p I))).
    Qed.
    Lemma state_entering a : state_name s a = true ->
      List.length (filter (fun e => state_name s (e_src e) && String.eqb (e_dst e) a) es) =
      List.length (filter (fun t => same (gt_target t) a) (gs_transitions st)).
    Proof.
      intros A. pose proof SE as (EQ & _). rewrite EQ, !filter_app.
      rewrite (filter_none _ (map _ rd)), (filter_none _ (map _ wr)), !app_nil_r.
      - assert (T : forall ts i, incl ts (gs_transitions st) ->
          List.length (filter (fun e => state_name s (e_src e) && String.eqb (e_dst e) a) (transition_edges st i ts)) =
          List.length (filter (fun t => same (gt_target t) a) ts)).
        { induction ts as [|t ts IH]; intros i I; [reflexivity|]. cbn [transition_edges filter e_src e_dst]. rewrite state_named. cbn [andb].
          rewrite same_names by (apply state_name_In; auto using target_named, in_eq).
          specialize (IH (S i) (fun x Q => I x (or_intror Q))). destruct (String.eqb _ _); cbn [List.length]; [f_equal|]; exact IH. }
        apply T, incl_refl.
      - intros e I. apply in_map_iff in I as (p & <- & I). cbn [e_src e_dst]. rewrite (named_neq' _ _ A (proj2 (write_foreign p I))). apply andb_false_r.
      - intros e I. apply in_map_iff in I as (p & <- & I). cbn [e_src e_dst]. now rewrite (proj2 (read_foreign p I)).
    Qed.
    Lemma once (c : counter) (g : string -> edge) f x : NoDup (map fst c) -> (forall p, In p c -> f (g (fst p)) = true -> fst p = x) ->
      List.length (filter f (map (fun p => g (fst p)) c)) <= 1.
    Proof.
      induction c as [|p c IH]; intros N H; cbn [map filter List.length]; [lia|]. cbn [map] in N. apply NoDup_cons_iff in N as [N1 N2].
      assert (H' : forall p, In p c -> f (g (fst p)) = true -> fst p = x) by (intros q I; apply H; now right).
      destruct (f (g (fst p))) eqn:F; [|now apply IH]. rewrite filter_none; [cbn; lia|].
      intros e I. apply in_map_iff in I as (q & <- & I). destruct (f (g (fst q))) eqn:F'; [|reflexivity].
      destruct N1. rewrite (H p (or_introl eq_refl) F), <- (H' q I F'). now apply in_map.
    Qed.
    Lemma state_read_once x a : state_name s x = false -> List.length (filter (fun e => String.eqb (e_src e) x && String.eqb (e_dst e) a) es)
      <= if String.eqb (gs_id st) a then 1 else 0.
    Proof.
      intros A. pose proof SE as (EQ & _ & _ & N & _). rewrite EQ, !filter_app, !app_length.
      rewrite (filter_none _ (transition_edges _ _ _)), (filter_none _ (map _ wr)).
      - cbn [List.length Nat.add]. rewrite Nat.add_0_r. destruct (String.eqb (gs_id st) a) eqn:Q.
        + apply (once rd (fun v => mkEdge v (gs_id st) (Some (gs_id st ++ ": read " ++ v)%string)) _ x N). intros p _ I. cbn [e_src e_dst] in I.
          apply andb_true_iff in I as [I _]. now apply String.eqb_eq in I.
        + rewrite filter_none; [cbn; lia|]. intros e I. apply in_map_iff in I as (p & <- & I). cbn [e_src e_dst]. rewrite Q. apply andb_false_r.
      - intros e I. apply in_map_iff in I as (p & <- & I). cbn [e_src e_dst]. now rewrite (named_neq _ _ state_named A).
      - intros e I. apply in_transition_edges in I as (k & t & _ & ->). cbn [e_src e_dst]. now rewrite (named_neq _ _ state_named A).
    Qed.
    Lemma state_write_once x a : state_name s x = false -> List.length (filter (fun e => String.eqb (e_src e) a && String.eqb (e_dst e) x) es)
      <= if String.eqb (gs_id st) a then 1 else 0.
    Proof.
      intros A. pose proof SE as (EQ & _ & _ & _ & N & _). rewrite EQ, !filter_app, !app_length.
      rewrite (filter_none _ (transition_edges _ _ _)), (filter_none _ (map _ rd)).
      - cbn [List.length Nat.add]. destruct (String.eqb (gs_id st) a) eqn:Q.
        + apply (once wr (fun v => mkEdge (gs_id st) v (Some (gs_id st ++ ": write " ++ v)%string)) _ x N). intros p _ I. cbn [e_src e_dst] in I.
          apply andb_true_iff in I as [_ I]. now apply String.eqb_eq in I.
        + rewrite filter_none; [cbn; lia|]. intros e I. apply in_map_iff in I as (p & <- & I). cbn [e_src e_dst]. now rewrite Q.
      - intros e I. apply in_map_iff in I as (p & <- & I). cbn [e_src e_dst]. rewrite (named_neq _ _ state_named A). apply andb_false_r.
      - intros e I. apply in_transition_edges in I as (k & t & N' & ->). cbn [e_src e_dst]. apply nth_error_In in N'.
        rewrite (named_neq _ _ (target_named t N') A). apply andb_false_r.
    Qed.
  End State.

  Lemma built_leaving l es vars a : built l es vars -> incl l (gg_states s) -> state_name s a = true ->
    filter (fun e => String.eqb (e_src e) a && state_name s (e_dst e)) es =
    flat_map (fun st => if String.eqb (gs_id st) a then transition_edges st 0 (gs_transitions st) else []) l.
  Proof.
    induction 1 as [|l es vars st es1 rd wr B IH SE]; intros I A; [reflexivity|]. apply incl_app_inv in I as [I1 I2].
    rewrite filter_app, flat_map_app, (IH I1 A), (state_leaving st (I2 _ (or_introl eq_refl)) _ _ _ SE a A). cbn [flat_map]. now rewrite app_nil_r.
  Qed.
  Lemma built_entering l es vars a : built l es vars -> incl l (gg_states s) -> state_name s a = true ->
    List.length (filter (fun e => state_name s (e_src e) && String.eqb (e_dst e) a) es) =
    List.length (filter (fun t => same (gt_target t) a) (flat_map gs_transitions l)).
  Proof.
    induction 1 as [|l es vars st es1 rd wr B IH SE]; intros I A; [reflexivity|]. apply incl_app_inv in I as [I1 I2].
    rewrite filter_app, flat_map_app, filter_app, !app_length, (IH I1 A), (state_entering st (I2 _ (or_introl eq_refl)) _ _ _ SE a A).
    cbn [flat_map]. now rewrite app_nil_r.
  Qed.
  Lemma built_once l es vars x a : built l es vars -> incl l (gg_states s) -> state_name s x = false ->
    List.length (filter (fun e => String.eqb (e_src e) x && String.eqb (e_dst e) a) es) <= List.length (filter (fun st => String.eqb (gs_id st) a) l) /\
    List.length (filter (fun e => String.eqb (e_src e) a && String.eqb (e_dst e) x) es) <= List.length (filter (fun st => String.eqb (gs_id st) a) l).
  Proof.
    induction 1 as [|l es vars st es1 rd wr B IH SE]; intros I A; [split; cbn; lia|]. apply incl_app_inv in I as [I1 I2].
    destruct (IH I1 A) as [H1 H2]. pose proof (state_read_once st (I2 _ (or_introl eq_refl)) _ _ _ SE x a A) as H3.
    pose proof (state_write_once st (I2 _ (or_introl eq_refl)) _ _ _ SE x a A) as H4.
    rewrite !filter_app, !app_length. cbn [filter]. destruct (String.eqb (gs_id st) a); cbn [List.length] in *; lia.
  Qed.
  Lemma one_state (l : list gstate) a : NoDup (map gs_id l) -> List.length (filter (fun st => String.eqb (gs_id st) a) l) <= 1.
  Proof.
    induction l as [|st l IH]; intros N; cbn [filter List.length]; [lia|]. cbn [map] in N. apply NoDup_cons_iff in N as [N1 N2].
    destruct (String.eqb_spec (gs_id st) a) as [Q|Q]; [|now apply IH]. rewrite filter_none; [cbn; lia|].
    intros y I. apply String.eqb_neq. intros E. apply N1. rewrite Q, <- E. now apply in_map.
  Qed.
  Lemma pick_state {A} (f : gstate -> list A) (l : list gstate) st : NoDup (map gs_id l) -> In st l ->
    flat_map (fun x => if String.eqb (gs_id x) (gs_id st) then f x else []) l = f st.
  Proof.
    induction l as [|y l IH]; intros N J; [destruct J|]. cbn [map] in N. apply NoDup_cons_iff in N as [N1 N2]. cbn [flat_map].
    assert (Z : forall l, ~ In (gs_id st) (map gs_id l) -> flat_map (fun x => if String.eqb (gs_id x) (gs_id st) then f x else []) l = []).
    { clear. induction l as [|z l IH]; intros N; [reflexivity|]. cbn [flat_map map In] in *. destruct (String.eqb_spec (gs_id z) (gs_id st)) as [E|E]; [tauto|]. apply IH. tauto. }
    destruct J as [->|J].
    - rewrite String.eqb_refl, Z by exact N1. apply app_nil_r.
    - destruct (String.eqb_spec (gs_id y) (gs_id st)) as [E|E]; [|now apply IH]. destruct N1. rewrite E. now apply in_map.
  Qed.
End Session.

(** ** Properties *)

(** C65: The graph of a message has different nodes, all ends of edges are nodes, and the ways
    through the graph are the paths through the message. *)
Theorem C65_message str m d : plain_message m -> gm_structure m <> [] -> get_message str m = Ok d ->
  NoDup (map n_name (d_nodes d)) /\
  (forall e, In e (d_edges d) -> In (e_src e) (map n_name (d_nodes d)) /\ In (e_dst e) (map n_name (d_nodes d))) /\
  (forall p, walk (d_edges d) "Initial" p "Final" <->
     exists is, link_path (gm_structure m) "Initial" is "Final" /\ p = link_nodes (gm_structure m) is).
Proof.
  intros P NE E. unfold get_message in E. dbind E r ER. destruct r as [ns es]. apply Ok_inj in E. subst d. cbn [fst snd d_nodes d_edges].
  fold (structure_of m) in ER. assert (SO : structure_of m = gm_structure m) by (unfold structure_of; destruct (gm_structure m); congruence).
  apply add_links_inv in ER as (-> & labels & F & ->). rewrite SO in *. rewrite app_nil_l.
  assert (LL : List.length labels = List.length (gm_structure m)) by (clear -F; induction F; cbn; congruence).
  assert (NI : map n_name (map (fun p => mkNode (intermediate (fst p)) Green (Some (snd p)) None) (combine (seq 0 (List.length labels)) labels)) =
               map intermediate (seq 0 (List.length (gm_structure m)))).
  { rewrite map_map. cbn [n_name]. rewrite <- LL, <- (map_map fst intermediate). f_equal.
    assert (G : forall (a : list nat) (b : list string), List.length a = List.length b -> map fst (combine a b) = a).
    { induction a as [|x a IH]; intros [|y b] Q; cbn in *; try discriminate; [reflexivity|]. f_equal. apply IH. lia. }
    apply G. apply seq_length. }
  assert (NN : map n_name ((mkNode "Initial" White (Some "") None :: map (fun f => mkNode f Green None None) (gm_fields m)) ++
     map (fun p => mkNode (intermediate (fst p)) Green (Some (snd p)) None) (combine (seq 0 (List.length labels)) labels) ++ [mkNode "Final" Grey (Some "") None]) =
     "Initial" :: gm_fields m ++ map intermediate (seq 0 (List.length (gm_structure m))) ++ ["Final"]).
  { rewrite !map_app, NI. cbn [map app n_name]. rewrite map_map. cbn [n_name]. now rewrite map_id. }
  rewrite <- app_assoc, NN. clear NN NI. split; [|split].
  - constructor; [|apply NoDup_app_intro].
    + intros J. apply in_app_or in J as [J|J]; [now destruct (pm_reserved m P _ J)|]. apply in_app_or in J as [J|[J|[]]]; [|discriminate].
      apply in_map_iff in J as (i & Q & _). discriminate.
    + apply (pm_fields m P).
    + apply NoDup_app_intro; [apply FinFun.Injective_map_NoDup; [intros i j; apply intermediate_inj|apply seq_NoDup]|constructor; [intros []|constructor]|].
      intros x J [<-|[]]. apply in_map_iff in J as (i & Q & _). discriminate.
    + intros x J J'. destruct (pm_reserved m P _ J) as (_ & H1 & H2). apply in_app_or in J' as [J'|[<-|[]]]; [|now apply H1].
      apply in_map_iff in J' as (i & Q & _). now apply (H2 i).
  - intros e J. apply in_link_edges in J as (k & l & N & H). cbn [Nat.add] in H.
    assert (K : In (intermediate k) (map intermediate (seq 0 (List.length (gm_structure m))))).
    { apply in_map, in_seq. split; [lia|]. cbn. apply nth_error_Some. congruence. }
    destruct (pm_links m P l (nth_error_In _ _ N)) as [LS LT].
    destruct H as [->| ->]; cbn [e_src e_dst]; (split; cbn [In]; rewrite !in_app_iff; cbn [In]; intuition).
  - intros p. split.
    + intros W. rewrite <- SO in *. eapply walk_links; [exact P|right; left; reflexivity|apply le_n|left; reflexivity|exact W].
    + intros (is & L & ->). rewrite <- SO in *. now apply links_walk.
Qed.

(** C65: Each link is labelled with its condition, the size of its target and its first bit. *)
Theorem C65_label str m d i l : get_message str m = Ok d -> nth_error (gm_structure m) i = Some l ->
  exists size sep1 sep2,
    In (mkNode (intermediate i) Green (Some ("(" ++ (if is_true (gl_condition l) then top_sign else str (gl_condition l)) ++ "," ++ sep1
      ++ size ++ "," ++ sep2 ++ match gl_first l with Some e => str e | None => star_sign end ++ ")")%string) None) (d_nodes d) /\
    In sep1 [" "; newline] /\ In sep2 [" "; newline] /\
    (forall e, gl_size l = Some e -> size = str e) /\
    (gl_size l = None -> forall z, In (gl_target l) (gm_fields m) -> gm_size m (gl_target l) = Some z -> lower (gl_target l) <> "final" -> size = str (ENum z)) /\
    (gl_size l = None -> gl_target l = "Final" -> size = str (ENum 0)).
Proof.
  intros E N. unfold get_message in E. dbind E r ER. destruct r as [ns es]. apply Ok_inj in E. subst d. cbn [fst snd d_nodes].
  fold (structure_of m) in ER. assert (SO : structure_of m = gm_structure m) by (unfold structure_of; destruct (gm_structure m); [now destruct i|reflexivity]).
  apply add_links_inv in ER as (-> & labels & F & ->). rewrite SO in F.
  assert (X : exists t, nth_error labels i = Some t /\ edge_label str m l = Ok t).
  { clear -F N. revert i N. induction F as [|a b la lb H F IH]; intros [|i] N; cbn [nth_error] in *; try discriminate; [injection N as <-; eauto|eauto]. }
  destruct X as (t & NT & ET). unfold edge_label in ET. dbind ET size ES. apply Ok_inj in ET.
  exists size, (if is_true (gl_condition l) || match gl_size l with None => true | Some _ => false end then " " else newline),
    (match gl_first l with None => " " | Some _ => newline end).
  split; [|split; [|split; [|split; [|split]]]].
  - rewrite ET. apply in_or_app. left. apply in_or_app. right. apply in_map_iff. exists (i, t). split; [reflexivity|].
    assert (G : forall (lb : list string) k j u, nth_error lb k = Some u -> In ((j + k)%nat, u) (combine (seq j (List.length lb)) lb)).
    { induction lb as [|y lb IH]; intros [|k] j u Q; cbn [nth_error] in Q; try discriminate; cbn [List.length seq combine In].
      - injection Q as <-. rewrite Nat.add_0_r. now left.
      - right. rewrite <- Nat.add_succ_comm. now apply IH. }
    apply (G labels i 0 t NT).
  - destruct (is_true _ || _); cbn [In]; auto.
  - destruct (gl_first l); cbn [In]; auto.
  - intros e Q. rewrite Q in ES. apply Ok_inj in ES. now subst.
  - intros Q z J S NF. rewrite Q in ES. unfold field_size_text, same in ES. change (lower "Final") with "final" in ES.
    destruct (String.eqb_spec (lower (gl_target l)) "final") as [X|_]; [contradiction|]. destruct (existsb _ _); [|discriminate]. rewrite S in ES. now apply Ok_inj in ES.
  - intros Q T. rewrite Q, T in ES. now apply Ok_inj in ES.
Qed.

(** C65: The graph of a message can be made if the targets of links are fields. *)
Theorem C65_message_total str m : (forall l, In l (gm_structure m) -> gl_target l = "Final" \/ In (gl_target l) (gm_fields m)) ->
  exists d, get_message str m = Ok d.
Proof.
  intros H. unfold get_message. fold (structure_of m).
  assert (T : forall l, In l (structure_of m) -> exists t, edge_label str m l = Ok t).
  { intros l J. assert (G : gl_target l = "Final" \/ In (gl_target l) (gm_fields m)).
    { unfold structure_of in J. destruct (gm_structure m); [destruct J as [<-|[]]; now left|now apply H]. }
    unfold edge_label. destruct (gl_size l); [cbn [bind]; eauto|]. unfold field_size_text. destruct G as [->|G]; [change (same "Final" "Final") with true; cbn [bind]; eauto|].
    destruct (same _ _); [cbn [bind]; eauto|].
    assert (X : existsb (same (gl_target l)) (gm_fields m) = true) by (apply existsb_exists; exists (gl_target l); split; [exact G|apply String.eqb_refl]).
    rewrite X. cbn [bind]. eauto. }
  destruct (add_links_ok str m _ T 0 (mkNode "Initial" White (Some "") None :: map (fun f => mkNode f Green None None) (gm_fields m)) []) as (r & ->).
  cbn [bind]. eauto.
Qed.

(** C65: The graph of a session has the states and the variables that are not local to a state
    as different nodes; all ends of edges are nodes. *)
Theorem C65_nodes str eqb fuel s d : plain_session eqb fuel s -> get_session str eqb fuel s = Ok d ->
  NoDup (map n_name (d_nodes d)) /\
  (forall x, In x (map n_name (d_nodes d)) <-> In x (map gs_id (gg_states s)) \/
     exists st, In st (gg_states s) /\ (state_reads eqb fuel st x \/ state_writes st x)) /\
  (forall e, In e (d_edges d) -> In (e_src e) (map n_name (d_nodes d)) /\ In (e_dst e) (map n_name (d_nodes d))) /\
  (forall st, In st (gg_states s) -> exists n, In n (d_nodes d) /\ n_name n = gs_id st /\
     (n_fill n = White <-> lower (gs_id st) = lower (gg_initial s)) /\
     (n_fill n = Grey <-> lower (gs_id st) = lower (gg_final s) /\ lower (gs_id st) <> lower (gg_initial s)) /\
     n_degree n = Some (List.length (leaving s d (gs_id st)) + List.length (entering s d (gs_id st)))) /\
  (forall n, In n (d_nodes d) -> n_fill n = Blue <-> ~ In (n_name n) (map gs_id (gg_states s))).
Proof.
  intros P E. destruct (get_session_inv _ _ _ _ _ E) as (vars & B & N). destruct (built_vars _ _ _ _ _ _ B) as [NV KV].
  assert (NM : map n_name (d_nodes d) = map gs_id (gg_states s) ++ map fst vars).
  { rewrite N, map_app, !map_map. cbn [n_name state_node]. reflexivity. }
  assert (KN : forall x, In x (map n_name (d_nodes d)) <-> In x (map gs_id (gg_states s)) \/
     exists st, In st (gg_states s) /\ (state_reads eqb fuel st x \/ state_writes st x)) by (intros x; rewrite NM, in_app_iff, KV; tauto).
  split; [|split; [exact KN|split; [|split]]].
  - rewrite NM. apply NoDup_app_intro; [now apply (nodup_names eqb fuel)|exact NV|]. intros x J J'. apply KV in J' as (st & I & H). now apply (ps_variables _ _ _ P st x I H).
  - intros e J. destruct (built_edges _ _ _ _ _ _ _ B J) as (st & es1 & rd & wr & I & SE & J1).
    assert (IS : In (gs_id st) (map n_name (d_nodes d))) by (apply KN; left; now apply in_map).
    pose proof SE as (EQ & R & Wr & _). rewrite EQ, !in_app_iff in J1. destruct J1 as [J1|[J1|J1]].
    + apply in_transition_edges in J1 as (k & t & NT & ->). cbn [e_src e_dst]. split; [exact IS|]. apply KN. left. apply (ps_targets _ _ _ P st); [exact I|now apply nth_error_In in NT].
    + apply in_map_iff in J1 as (p & <- & J1). cbn [e_src e_dst]. split; [|exact IS]. apply KN. right. exists st. split; [exact I|]. left. apply R. now apply in_map.
    + apply in_map_iff in J1 as (p & <- & J1). cbn [e_src e_dst]. split; [exact IS|]. apply KN. right. exists st. split; [exact I|]. right. apply Wr. now apply in_map.
  - intros st I. exists (state_node s st). split; [rewrite N; apply in_or_app; left; now apply in_map|]. split; [reflexivity|].
    unfold state_node, same. cbn [n_fill n_degree]. split; [|split].
    + destruct (String.eqb_spec (lower (gs_id st)) (lower (gg_initial s))) as [Q|Q]; [tauto|].
      destruct (String.eqb_spec (lower (gs_id st)) (lower (gg_final s))); (split; [discriminate|contradiction]).
    + destruct (String.eqb_spec (lower (gs_id st)) (lower (gg_initial s))) as [Q|Q]; [split; [discriminate|tauto]|].
      destruct (String.eqb_spec (lower (gs_id st)) (lower (gg_final s))); (split; [try discriminate; auto|tauto]).
    + f_equal. unfold degree, leaving, entering.
      assert (SN : state_name s (gs_id st) = true) by (apply state_name_In; now apply in_map).
      rewrite (built_leaving str eqb fuel s P _ _ _ _ B (incl_refl _) SN), (built_entering str eqb fuel s P _ _ _ _ B (incl_refl _) SN).
      f_equal. rewrite (pick_state (fun st => transition_edges str st 0 (gs_transitions st)) _ _ (nodup_names eqb fuel s P) I).
      clear. generalize 0. induction (gs_transitions st) as [|t ts IH]; intros i; [reflexivity|]. cbn [transition_edges List.length]. f_equal. apply IH.
  - intros n J. rewrite N in J. apply in_app_or in J as [J|J].
    + apply in_map_iff in J as (st & <- & I). unfold state_node. cbn [n_fill n_name]. split.
      * destruct (same _ _); [discriminate|]. destruct (same _ _); discriminate.
      * intros H. destruct H. now apply in_map.
    + apply in_map_iff in J as (v & <- & I). cbn [n_fill n_name]. split; [|reflexivity]. intros _ H.
      assert (K : In (fst v) (map fst vars)) by now apply in_map. apply KV in K as (st & I' & Q). now apply (ps_variables _ _ _ P st (fst v) I' Q).
Qed.

(** C65: The edges from a state to states are its transitions in their order, with their
    conditions. *)
Theorem C65_transitions str eqb fuel s d st : plain_session eqb fuel s -> get_session str eqb fuel s = Ok d -> In st (gg_states s) ->
  Forall2 (fun t e => e_dst e = gt_target t /\ exists pre, e_tip e = Some (if is_btrue (gt_condition t) then "" else (pre ++ str (gt_condition t))%string))
    (gs_transitions st) (leaving s d (gs_id st)).
Proof.
  intros P E I. destruct (get_session_inv _ _ _ _ _ E) as (vars & B & _). unfold leaving.
  assert (SN : state_name s (gs_id st) = true) by (apply state_name_In; now apply in_map).
  rewrite (built_leaving str eqb fuel s P _ _ _ _ B (incl_refl _) SN), (pick_state (fun st => transition_edges str st 0 (gs_transitions st)) _ _ (nodup_names eqb fuel s P) I).
  generalize (gs_transitions st). intros ts. generalize 0. induction ts as [|t ts IH]; intros i; cbn [transition_edges]; constructor; [|apply IH].
  cbn [e_dst e_tip]. split; [reflexivity|]. unfold shown. destruct (is_btrue _); [now exists ""|].
  exists (gs_id st ++ arrow_sign ++ gt_target t ++ newline ++ newline ++ "[" ++ nat_text i ++ "] ")%string.
  now rewrite !append_assoc.
Qed.

(** C65: There is exactly one edge from a variable to a state if the state reads it in a
    condition or an assignment, and exactly one to it if an action changes it, and none
    otherwise; there are no edges between variables. *)
Theorem C65_access str eqb fuel s d : plain_session eqb fuel s -> get_session str eqb fuel s = Ok d ->
  (forall st x, In st (gg_states s) -> ~ In x (map gs_id (gg_states s)) ->
     (List.length (edges_between d x (gs_id st)) = 1 <-> state_reads eqb fuel st x) /\ List.length (edges_between d x (gs_id st)) <= 1 /\
     (List.length (edges_between d (gs_id st) x) = 1 <-> state_writes st x) /\ List.length (edges_between d (gs_id st) x) <= 1) /\
  (forall e, In e (d_edges d) -> In (e_src e) (map gs_id (gg_states s)) \/ In (e_dst e) (map gs_id (gg_states s))).
Proof.
  intros P E. destruct (get_session_inv _ _ _ _ _ E) as (vars & B & _). split.
  - intros st x I NX. assert (A : state_name s x = false) by (destruct (state_name s x) eqn:Q; [now apply state_name_In in Q|reflexivity]).
    destruct (built_once str eqb fuel s P _ _ _ x (gs_id st) B (incl_refl _) A) as [O1 O2].
    pose proof (one_state (gg_states s) (gs_id st) (nodup_names eqb fuel s P)) as O3. fold (edges_between d x (gs_id st)) in O1. fold (edges_between d (gs_id st) x) in O2.
    assert (NE : forall l : list edge, List.length l <= 1 -> (List.length l = 1 <-> exists e, In e l)).
    { intros [|e l] L; cbn [List.length] in *.
      - split; [lia|intros (e & [])].
      - split; [intros _; exists e; now left|lia]. }
    split; [|split; [lia|split; [|lia]]].
    + rewrite NE by lia. split.
      * intros (e & J). unfold edges_between in J. apply filter_In in J as [J Q]. apply andb_true_iff in Q as [Q1 Q2]. apply String.eqb_eq in Q1, Q2.
        destruct (built_edges _ _ _ _ _ _ _ B J) as (st' & es1 & rd & wr & I' & SE & J1). pose proof SE as (EQ & R & Wr & _). rewrite EQ, !in_app_iff in J1.
        destruct J1 as [J1|[J1|J1]].
        -- apply in_transition_edges in J1 as (k & t & _ & ->). cbn [e_src] in Q1. destruct NX. rewrite <- Q1. now apply in_map.
        -- apply in_map_iff in J1 as (p & <- & J1). cbn [e_src e_dst] in Q1, Q2.
           assert (EST : st' = st) by (apply (same_states eqb fuel s P); [exact I'|exact I|now rewrite Q2]). rewrite EST in R. apply R. rewrite <- Q1. now apply in_map.
        -- apply in_map_iff in J1 as (p & <- & J1). cbn [e_src] in Q1. destruct NX. rewrite <- Q1. now apply in_map.
      * intros R. destruct (built_state _ _ _ _ _ _ _ B I) as (es1 & rd & wr & (-> & R1 & _) & IN). apply R1 in R. apply in_map_iff in R as (p & EP & J).
        exists (mkEdge x (gs_id st) (Some (gs_id st ++ ": read " ++ x)%string)). unfold edges_between. apply filter_In. split; [|cbn; now rewrite !String.eqb_refl].
        apply IN. rewrite !in_app_iff. right. left. apply in_map_iff. exists p. now rewrite EP.
    + rewrite NE by lia. split.
      * intros (e & J). unfold edges_between in J. apply filter_In in J as [J Q]. apply andb_true_iff in Q as [Q1 Q2]. apply String.eqb_eq in Q1, Q2.
        destruct (built_edges _ _ _ _ _ _ _ B J) as (st' & es1 & rd & wr & I' & SE & J1). pose proof SE as (EQ & R & Wr & _). rewrite EQ, !in_app_iff in J1.
        destruct J1 as [J1|[J1|J1]].
        -- apply in_transition_edges in J1 as (k & t & NT & ->). cbn [e_dst] in Q2. destruct NX. rewrite <- Q2. apply (ps_targets _ _ _ P st'); [exact I'|now apply nth_error_In in NT].
        -- apply in_map_iff in J1 as (p & <- & J1). cbn [e_dst] in Q2. destruct NX. rewrite <- Q2. now apply in_map.
        -- apply in_map_iff in J1 as (p & <- & J1). cbn [e_src e_dst] in Q1, Q2.
           assert (EST : st' = st) by (apply (same_states eqb fuel s P); [exact I'|exact I|now rewrite Q1]). rewrite EST in Wr. apply Wr. rewrite <- Q2. now apply in_map.
      * intros R. destruct (built_state _ _ _ _ _ _ _ B I) as (es1 & rd & wr & (-> & _ & R1 & _) & IN). apply R1 in R. apply in_map_iff in R as (p & EP & J).
        exists (mkEdge (gs_id st) x (Some (gs_id st ++ ": write " ++ x)%string)). unfold edges_between. apply filter_In. split; [|cbn; now rewrite !String.eqb_refl].
        apply IN. rewrite !in_app_iff. right. right. apply in_map_iff. exists p. now rewrite EP.
  - intros e J. destruct (built_edges _ _ _ _ _ _ _ B J) as (st & es1 & rd & wr & I & (-> & _) & J1). rewrite !in_app_iff in J1. destruct J1 as [J1|[J1|J1]].
    + apply in_transition_edges in J1 as (k & t & _ & ->). left. cbn [e_src]. now apply in_map.
    + apply in_map_iff in J1 as (p & <- & J1). right. cbn [e_dst]. now apply in_map.
    + apply in_map_iff in J1 as (p & <- & J1). left. cbn [e_src]. now apply in_map.
Qed.

(** C65: What a state assigns and which state follows depends only on its own variables and on
    those with an edge to the state. *)
Theorem C65_depends str eqb fuel s d st w sums (v1 v2 : store) : get_session str eqb fuel s = Ok d -> In st (gg_states s) ->
  sound w eqb -> (forall e, In e (state_exprs st) -> linear sums e = true /\ bindings true e /\ within true (fun _ => true) e = true) ->
  (forall x, In x (gs_declarations st) \/ (exists e, In e (d_edges d) /\ e_src e = x /\ e_dst e = gs_id st) -> v1 x = v2 x) ->
  (forall e r1 r2, In e (state_exprs st) -> ev w v1 e = Val r1 -> ev w v2 e = Val r2 -> r1 = r2) /\
  (forall r1 r2, next w v1 (gs_transitions st) = Val r1 -> next w v2 (gs_transitions st) = Val r2 -> r1 = r2).
Proof.
  intros E I S H A. destruct (get_session_inv _ _ _ _ _ E) as (vars & B & _).
  destruct (built_state _ _ _ _ _ _ _ B I) as (es1 & rd & wr & (-> & R & _ & _ & _ & V) & IN).
  assert (G : forall e r1 r2, In e (state_exprs st) -> ev w v1 e = Val r1 -> ev w v2 e = Val r2 -> r1 = r2).
  { intros e r1 r2 J E1 E2. destruct (V e J) as (vs & VE). destruct (H e J) as (H1 & H2 & H3).
    apply (C59_variables w sums eqb fuel e vs v1 v2 r1 r2 S H1 H2 H3 VE); [|exact E1|exact E2].
    intros x sg X. apply A. destruct (in_dec string_dec x (gs_declarations st)) as [D|D]; [now left|]. right.
    assert (Q : state_reads eqb fuel st x) by (split; [exact D|exists e, vs, sg; auto]). apply R in Q. apply in_map_iff in Q as (p & EP & Q).
    exists (mkEdge x (gs_id st) (Some (gs_id st ++ ": read " ++ x)%string)). split; [|auto]. apply IN. rewrite !in_app_iff. right. left. apply in_map_iff. exists p. now rewrite EP. }
  split; [exact G|]. clear -G.
  assert (T : forall ts, incl ts (gs_transitions st) -> forall r1 r2, next w v1 ts = Val r1 -> next w v2 ts = Val r2 -> r1 = r2).
  { induction ts as [|t ts IH]; intros IC r1 r2 N1 N2; cbn [next] in N1, N2; [congruence|].
    assert (J : In (gt_condition t) (state_exprs st)) by (apply in_or_app; left; apply in_map, IC; now left).
    destruct (ev w v1 (gt_condition t)) as [a| |] eqn:E1; try discriminate. destruct (ev w v2 (gt_condition t)) as [b| |] eqn:E2; try discriminate.
    rewrite <- (G _ a b J E1 E2) in N2. destruct (value_true a); [congruence|]. apply (IH (fun x Q => IC x (or_intror Q)) r1 r2 N1 N2). }
  apply T, incl_refl.
Qed.

(** C65: The graph of a session can be made if the variables of its expressions can be
    determined. *)
Theorem C65_session_total str eqb fuel s :
  (forall st e, In st (gg_states s) -> In e (state_exprs st) -> exists vs, variables eqb fuel e = Ok vs) ->
  exists d, get_session str eqb fuel s = Ok d.
Proof.
  intros H. unfold get_session.
  assert (G : forall st e, (exists vs, variables eqb fuel e = Ok vs) -> exists vs, global_variables eqb fuel st e = Ok vs).
  { intros st e (vs & E). unfold global_variables. rewrite E. cbn [bind]. eauto. }
  assert (T : forall st ts, (forall e, In e (map gt_condition ts) -> exists vs, variables eqb fuel e = Ok vs) ->
    forall i edges read, exists r, add_transitions str eqb fuel st i ts edges read = Ok r).
  { intros st. induction ts as [|t ts IH]; intros V i edges read; cbn [add_transitions]; [eauto|].
    destruct (G st _ (V _ (or_introl eq_refl))) as (vs & ->). cbn [bind]. apply IH. intros e J. apply V. now right. }
  assert (A : forall st acts, (forall e, In e (assigned acts) -> exists vs, variables eqb fuel e = Ok vs) ->
    forall read write, exists r, add_actions eqb fuel st acts read write = Ok r).
  { intros st. induction acts as [|a acts IH]; intros V read write; cbn [add_actions]; [eauto|]. destruct a as [y e|y ps].
    - destruct (G st e (V _ (or_introl eq_refl))) as (vs & ->). cbn [bind]. apply IH. intros e' J. apply V. now right.
    - cbn [bind]. apply IH. exact V. }
  assert (L : forall l, incl l (gg_states s) -> forall d vars, exists r, add_states str eqb fuel s l d vars = Ok r).
  { induction l as [|st l IH]; intros IC d vars; cbn [add_states]; [eauto|]. unfold add_state.
    destruct (T st (gs_transitions st) (fun e J => H st e (IC _ (or_introl eq_refl)) (in_or_app _ _ _ (or_introl J))) 0 (d_edges d) []) as (r & ->). cbn [bind].
    destruct (A st (gs_actions st) (fun e J => H st e (IC _ (or_introl eq_refl)) (in_or_app _ _ _ (or_intror J))) (snd r) []) as (rw & ->). cbn [bind fst snd].
    apply IH. intros x J. apply IC. now right. }
  destruct (L (gg_states s) (incl_refl _) (mkDot "Session" [] []) []) as (r & ->). cbn [bind]. eauto.
Qed.

(** ** the hypotheses can be met *)
Definition ex_str (e : expr) : string := match e with ENum z => if Z.eqb z 8 then "8" else "N" | _ => "E" end.
Definition ex_links : list glink :=
  [mkGLink "Initial" "Type" ETrue None None;
   mkGLink "Type" "Final" (ENot ETrue) None None;
   mkGLink "Type" "Data" ETrue (Some (ENum 8)) None;
   mkGLink "Data" "Final" ETrue None None].
Definition ex_message : gmessage := mkGMessage "P::M" ["Type"; "Data"] ex_links (fun f => if String.eqb f "Type" then Some 8%Z else None).
Example ex_plain_message : plain_message ex_message /\ gm_structure ex_message <> [].
Proof.
  split; [split|discriminate].
  - repeat constructor; cbn; intuition discriminate.
  - intros f [<-|[<-|[]]]; (split; [discriminate|split; [discriminate|intros i; unfold intermediate; discriminate]]).
  - intros l J. cbn in J. repeat (destruct J as [<-|J]; [cbn; auto|]). destruct J.
Qed.
Example ex_message_graph : exists d, get_message ex_str ex_message = Ok d /\
  map n_name (d_nodes d) = ["Initial"; "Type"; "Data"; "intermediate_0"; "intermediate_1"; "intermediate_2"; "intermediate_3"; "Final"] /\
  map (fun e => (e_src e, e_dst e)) (d_edges d) =
    [("Initial", "intermediate_0"); ("intermediate_0", "Type"); ("Type", "intermediate_1"); ("intermediate_1", "Final");
     ("Type", "intermediate_2"); ("intermediate_2", "Data"); ("Data", "intermediate_3"); ("intermediate_3", "Final")].
Proof. eexists. split; [vm_compute; reflexivity|]. vm_compute. auto. Qed.
Example ex_message_path : link_path (gm_structure ex_message) "Initial" [0; 2; 3] "Final" /\
  link_nodes (gm_structure ex_message) [0; 2; 3] = ["intermediate_0"; "Type"; "intermediate_2"; "Data"; "intermediate_3"; "Final"].
Proof. vm_compute. split; [repeat (eexists; split; [reflexivity|split; [reflexivity|]]); reflexivity|reflexivity]. Qed.
(** a message without fields *)
Example ex_null : exists d, get_message ex_str (mkGMessage "P::N" [] [] (fun _ => None)) = Ok d /\
  map n_name (d_nodes d) = ["Initial"; "intermediate_0"; "Final"] /\
  map (fun e => (e_src e, e_dst e)) (d_edges d) = [("Initial", "intermediate_0"); ("intermediate_0", "Final")].
Proof. eexists. split; [vm_compute; reflexivity|]. vm_compute. auto. Qed.

Definition ex_bstr (e : bx) : string := match e with BBind _ _ => "B" | BRel _ _ _ => "R" | _ => "E" end.
(** Start reads List, M, A and writes Y; Work has A as its own variable *)
Definition ex_session : gsession := mkGSession "Start" "End"
  [mkGState "Start" [mkGTransition "Work" ex_bind; mkGTransition "End" (BBool true)] None [GAssign "y" (BAss OAdd [V "a"; BNum 1])] [];
   mkGState "Work" [mkGTransition "Start" (BRel OGt (V "a") (V "y")); mkGTransition "End" (BBool true)] None
     [GAssign "a" (V "y"); GAttribute "list" [V "a"]] ["a"];
   mkGState "End" [] None [] []].
Lemma ex_vars_start e vs : In e (state_exprs (nth 0 (gg_states ex_session) (mkGState "" [] None [] []))) -> variables ex_eqb 20 e = Ok vs ->
  forall x sg, In (x, sg) vs -> In x ["list"; "m"; "a"; "next"; "y"].
Proof.
  cbn [state_exprs ex_session gg_states nth gs_transitions gs_actions map flat_map app gt_condition].
  intros [<-|[<-|[<-|[]]]] E; vm_compute in E; injection E as <-; intros x sg J; cbn [In] in J |- *;
    repeat (destruct J as [J|J]; [injection J as <- _; tauto|]); destruct J.
Qed.
Lemma ex_vars_work e vs : In e (state_exprs (nth 1 (gg_states ex_session) (mkGState "" [] None [] []))) -> variables ex_eqb 20 e = Ok vs ->
  forall x sg, In (x, sg) vs -> In x ["list"; "m"; "a"; "next"; "y"].
Proof.
  cbn [state_exprs ex_session gg_states nth gs_transitions gs_actions map flat_map app gt_condition].
  intros [<-|[<-|[<-|[]]]] E; vm_compute in E; injection E as <-; intros x sg J; cbn [In] in J |- *;
    repeat (destruct J as [J|J]; [injection J as <- _; tauto|]); destruct J.
Qed.
Example ex_plain_session : plain_session ex_eqb 20 ex_session.
Proof.
  assert (O : forall x, In x ["list"; "m"; "a"; "next"; "y"] -> ~ In x (map gs_id (gg_states ex_session))).
  { intros x J. cbn [In] in J. repeat (destruct J as [<-|J]; [vm_compute; intuition discriminate|]). destruct J. }
  split.
  - vm_compute. repeat constructor; cbn; intuition discriminate.
  - intros st t [<-|[<-|[<-|[]]]] J; cbn in J; repeat (destruct J as [<-|J]; [cbn; auto|]); destruct J.
  - intros st x [<-|[<-|[<-|[]]]] [(D & e & vs & sg & J & E & I)|(D & a & J & <-)].
    + apply O. now apply (ex_vars_start e vs J E x sg).
    + apply O. cbn in J. destruct J as [<-|[]]. cbn. tauto.
    + apply O. now apply (ex_vars_work e vs J E x sg).
    + apply O. cbn in J. destruct J as [<-|[<-|[]]]; cbn; tauto.
    + destruct J.
    + destruct J.
Qed.
Example ex_session_graph : exists d, get_session ex_bstr ex_eqb 20 ex_session = Ok d /\
  map (fun n => (n_name n, n_degree n)) (d_nodes d) =
    [("Start", Some 3); ("Work", Some 3); ("End", Some 2); ("list", Some 2); ("m", Some 1); ("a", Some 2); ("next", Some 1); ("y", Some 3)] /\
  map (fun e => (e_src e, e_dst e)) (d_edges d) =
    [("Start", "Work"); ("Start", "End"); ("list", "Start"); ("m", "Start"); ("a", "Start"); ("next", "Start"); ("Start", "y");
     ("Work", "Start"); ("Work", "End"); ("y", "Work"); ("Work", "list")].
Proof. eexists. split; [vm_compute; reflexivity|]. vm_compute. auto. Qed.
Example ex_depends : sound ex_world ex_eqb /\
  (forall e, In e (state_exprs (nth 0 (gg_states ex_session) (mkGState "" [] None [] []))) ->
     linear true e = true /\ bindings true e /\ within true (fun _ => true) e = true) /\
  next ex_world (ex_store 7) (gs_transitions (nth 0 (gg_states ex_session) (mkGState "" [] None [] []))) = Val (Some "Work") /\
  next ex_world (ex_store 8) (gs_transitions (nth 0 (gg_states ex_session) (mkGState "" [] None [] []))) = Val (Some "End").
Proof.
  split; [apply ex_sound|]. split; [|vm_compute; auto].
  cbn [state_exprs ex_session gg_states nth gs_transitions gs_actions map flat_map app gt_condition].
  intros e [<-|[<-|[<-|[]]]].
  - split; [exact ex_linear|]. split; [apply ex_bindings|vm_compute; reflexivity].
  - split; [reflexivity|]. split; [|reflexivity]. exact I || (cbn; auto).
  - split; [reflexivity|]. split; [|reflexivity]. cbn; auto.
Qed.

(** ** what the graphs do not show *)

(** Fields are compared without regard to upper and lower case, nodes are not: if a link
    spells a field differently, the graph has no way through the message. *)
Theorem C65_spelling_refuted : exists m d, get_message ex_str m = Ok d /\
  map lower (gm_fields m) = ["type"] /\
  map (fun l => (lower (gl_source l), lower (gl_target l))) (gm_structure m) = [("initial", "type"); ("type", "final")] /\
  forall p, ~ walk (d_edges d) "Initial" p "Final".
Proof.
  exists (mkGMessage "P::M" ["Type"] [mkGLink "Initial" "Type" ETrue None None; mkGLink "TYPE" "Final" ETrue None None] (fun _ => Some 8%Z)).
  eexists. split; [vm_compute; reflexivity|]. split; [reflexivity|]. split; [reflexivity|].
  intros p W. cbn [d_edges] in W.
  destruct p as [|a p]; cbn [walk] in W; [discriminate|]. destruct W as [(e & J & S & <-) W]. cbn [In] in J.
  repeat (destruct J as [<-|J]; [try discriminate S|]); [|destruct J]. cbn [e_dst] in W.
  destruct p as [|a p]; cbn [walk] in W; [discriminate|]. destruct W as [(e & J & S' & <-) W]. cbn [In] in J.
  repeat (destruct J as [<-|J]; [try discriminate S'|]); [|destruct J]. cbn [e_dst] in W.
  destruct p as [|a p]; cbn [walk] in W; [discriminate|]. destruct W as [(e & J & S'' & <-) W]. cbn [In] in J.
  repeat (destruct J as [<-|J]; [discriminate S''|]). destruct J.
Qed.
(** A field can have the name of a node of a link; the graph then has a way that is not in the
    message. *)
Theorem C65_intermediate_refuted : exists m d, get_message ex_str m = Ok d /\ NoDup (gm_fields m) /\
  ~ NoDup (map n_name (d_nodes d)) /\
  walk (d_edges d) "Initial" ["intermediate_0"; "intermediate_2"; "Final"] "Final" /\
  forall is, link_path (gm_structure m) "Initial" is "Final" -> is = [0; 1; 2].
Proof.
  exists (mkGMessage "P::M" ["A"; "intermediate_0"]
    [mkGLink "Initial" "A" ETrue None None; mkGLink "A" "intermediate_0" ETrue None None; mkGLink "intermediate_0" "Final" ETrue None None] (fun _ => Some 8%Z)).
  eexists. split; [vm_compute; reflexivity|]. split; [repeat constructor; cbn; intuition discriminate|]. split; [|split].
  - cbn [d_nodes map n_name]. intros N. apply NoDup_cons_iff in N as [_ N]. apply NoDup_cons_iff in N as [_ N]. apply NoDup_cons_iff in N as [N _]. apply N. now left.
  - cbn [walk d_edges].
    split; [exists (mkEdge "Initial" "intermediate_0" None); cbn; tauto|].
    split; [exists (mkEdge "intermediate_0" "intermediate_2" None); cbn; tauto|].
    split; [exists (mkEdge "intermediate_2" "Final" None); cbn; tauto|reflexivity].
  - intros is H. cbn [gm_structure] in H.
    assert (D : forall i l, nth_error [mkGLink "Initial" "A" ETrue None None; mkGLink "A" "intermediate_0" ETrue None None; mkGLink "intermediate_0" "Final" ETrue None None] i = Some l ->
      i = 0 /\ gl_source l = "Initial" /\ gl_target l = "A" \/ i = 1 /\ gl_source l = "A" /\ gl_target l = "intermediate_0" \/ i = 2 /\ gl_source l = "intermediate_0" /\ gl_target l = "Final").
    { intros [|[|[|[|i]]]] l Q; try discriminate Q; injection Q as <-; cbn; tauto. }
    destruct is as [|i is]; cbn [link_path] in H; [discriminate|]. destruct H as (l & N & S & H). apply D in N as [(-> & _ & T)|[(-> & Q & _)|(-> & Q & _)]]; try congruence.
    rewrite T in H. destruct is as [|i is]; cbn [link_path] in H; [discriminate|]. destruct H as (l' & N & S' & H). apply D in N as [(-> & Q & _)|[(-> & _ & T')|(-> & Q & _)]]; try congruence.
    rewrite T' in H. destruct is as [|i is]; cbn [link_path] in H; [discriminate|]. destruct H as (l'' & N & S'' & H). apply D in N as [(-> & Q & _)|[(-> & Q & _)|(-> & _ & T'')]]; try congruence.
    rewrite T'' in H. destruct is as [|i is]; [reflexivity|]. cbn [link_path] in H. destruct H as (l3 & N & S3 & H). apply D in N as [(-> & Q & _)|[(-> & Q & _)|(-> & Q & _)]]; congruence.
Qed.
(** The transition that is taken on an exception is not shown. *)
Theorem C65_exception_refuted : exists s st target d, get_session ex_bstr ex_eqb 20 s = Ok d /\ In st (gg_states s) /\
  gs_exception st = Some target /\ edges_between d (gs_id st) target = [].
Proof.
  exists (mkGSession "A" "B" [mkGState "A" [mkGTransition "B" (BBool true)] (Some "C") [GAssign "x" (BCall "f" [] false)] []; mkGState "C" [] None [] []; mkGState "B" [] None [] []]).
  eexists. exists "C". eexists. split; [vm_compute; reflexivity|]. split; [left; reflexivity|]. split; reflexivity.
Qed.
(** The variables in the parameters of other actions are not shown as read. *)
Theorem C65_append_refuted : exists s st x y d, get_session ex_bstr ex_eqb 20 s = Ok d /\ In st (gg_states s) /\
  In (GAttribute x [BVar y false]) (gs_actions st) /\ ~ In y (map n_name (d_nodes d)).
Proof.
  exists (mkGSession "A" "B" [mkGState "A" [mkGTransition "B" (BBool true)] None [GAttribute "list" [V "y"]] []; mkGState "B" [] None [] []]).
  eexists. exists "list", "y". eexists. split; [vm_compute; reflexivity|]. split; [left; reflexivity|]. split; [left; reflexivity|]. cbn. intuition discriminate.
Qed.
(** A variable can have the name of a state; the graph then shows a transition that is none. *)
Theorem C65_variable_refuted : exists s st st' d, get_session ex_bstr ex_eqb 20 s = Ok d /\ In st (gg_states s) /\ In st' (gg_states s) /\
  edges_between d (gs_id st) (gs_id st') <> [] /\ ~ In (gs_id st') (map gt_target (gs_transitions st)).
Proof.
  exists (mkGSession "a" "b" [mkGState "a" [mkGTransition "b" (BBool true)] None [GAssign "c" (BNum 1)] []; mkGState "c" [] None [] []; mkGState "b" [] None [] []]).
  eexists. eexists. eexists. split; [vm_compute; reflexivity|]. split; [left; reflexivity|]. split; [right; left; reflexivity|]. split; [vm_compute; discriminate|]. cbn. intuition discriminate.
Qed.

Print Assumptions C65_message.
Print Assumptions C65_label.
Print Assumptions C65_message_total.
Print Assumptions C65_nodes.
Print Assumptions C65_transitions.
Print Assumptions C65_access.
Print Assumptions C65_depends.
Print Assumptions C65_session_total.
Print Assumptions C65_spelling_refuted.
Print Assumptions C65_intermediate_refuted.
Print Assumptions C65_exception_refuted.
Print Assumptions C65_append_refuted.
Print Assumptions C65_variable_refuted.
