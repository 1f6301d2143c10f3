(** No run-time check of the generated parser and serializer fails: lemmas. *)
From Coq Require Import String List ZArith Bool Lia Arith.
From Verif Require Import Base Expr ExprEval ExprFacts ExprMore MsgGraph MsgGraphFacts P_MsgGraph
  AdaTypes AdaBuffer AdaBufferFacts P_AdaTypes GenCode GenSpec GenFacts GenRun GenInv GenVerify GenMessage GenSet GenPred.
Import ListNotations.
Local Open Scope string_scope.
Local Open Scope list_scope.
Local Open Scope Z_scope.
Local Open Scope res_scope.
Local Notation length := List.length.

(** ** What is required of a message *)

Section Spec.
  Context (s : list link) (fields : list field) (types : field -> ftype) (constants : name -> option Z).
  Local Notation run F L := (run s types constants F L).
  Local Notation holds F L := (holds constants F L).
  Local Notation env_of F L := (env_of constants F L).

  (** a field that may be tried after [es], with any value of its size *)
  Definition candidate (F L : Z) (es : list entry) (e : entry) : Prop :=
    exists l size, In l s /\ source l = last_fld es /\ target l = e_fld e /\ e_fld e <> FINAL /\ holds F L es l /\
      e_first e = end_bit F es + 1 /\
      match types (e_fld e) with
      | FScalar z _ => size = z /\ 0 <= e_val e < 2 ^ z
      | FComposite => means constants F L es (lsize l) size /\ e_val e = 0
      end /\ 0 <= size <= Bit_Length_Last /\ e_last e = e_first e + size - 1.
  (** what the conditions of links are evaluated for *)
  Inductive reached (F L : Z) (b : buffer) : list entry -> Prop :=
  | reached_nil : reached F L b []
  | reached_snoc es e : run F L b es -> candidate F L es e -> reached F L b (es ++ [e]).

  (** the name has a meaning after [es] *)
  Definition named (es : list entry) (n : name) : Prop :=
    (In (name_id n) fields -> In (name_id n) (map e_fld es)) /\
    match n with
    | NVar id => (In id fields -> types id <> FComposite) /\ (~ In id fields -> constants n <> None)
    | NAttr a id => (In id fields \/ id = "message" -> a <> ALength) /\
                    (~ In id fields -> id <> "message" -> constants n <> None)
    end.
  (** all names in links are known where the link starts (what the path-wise type check
      establishes, message.py:655-706) *)
  Definition visible : Prop := forall F L b es l e n, 1 <= F <= L -> L < Bit_Length_Last -> reached F L b es ->
    In l s -> source l = last_fld es -> In e (condition l :: opt_expr (lsize l) ++ opt_expr (lfirst l)) -> In n (names e) ->
    named es n.
  (** conditions and sizes can be computed in the types that the generated code uses *)
  Definition computable : Prop := forall F L b es l, 1 <= F <= L -> L < Bit_Length_Last -> reached F L b es ->
    In l s -> source l = last_fld es ->
    (exists q, aeval in_U64 (fun n => Ok (env_of F L es n)) (condition l) = Ok (VBool q)) /\
    (run F L b es -> holds F L es l -> target l <> FINAL -> types (target l) = FComposite ->
     exists e z, lsize l = Some e /\ aeval in_S64 (fun n => Ok (env_of F L es n)) e = Ok (VInt z) /\ 0 <= z <= Bit_Length_Last).
  (** conditions on an attribute of the field they start at *)
  Definition no_own (a : attr) : Prop :=
    forall l, In l s -> ~ In (NAttr a (source l)) (names (condition l)).
End Spec.

(** ** Evaluation depends on the names in the expression *)

Lemma aeval_ext inr lk lk' e : (forall n, In n (names e) -> lk n = lk' n) -> aeval inr lk e = aeval inr lk' e.
Proof.
  induction e as [ | |z|n neg|a IH|o ts IH|o l r IHl IHr|o l r IHl IHr] using expr_ind'; intros G; cbn [aeval]; auto.
  - now rewrite (G n (or_introl eq_refl)).
  - now rewrite (IH G).
  - assert (E : map (aeval inr lk) ts = map (aeval inr lk') ts); [|now rewrite E].
    assert (GG : forall t, In t ts -> forall n, In n (names t) -> lk n = lk' n).
    { intros t It n In_. apply G. cbn [names]. apply in_flat_map. eauto. }
    clear G. induction IH as [|t ts Ht Hts IHts]; cbn [map]; [reflexivity|]. f_equal.
    + apply Ht. apply (GG t). now left.
    + apply IHts. intros t' It. apply (GG t'). now right.
  - rewrite IHl, IHr; auto; intros n In_; apply G; cbn [names]; apply in_or_app; auto.
  - rewrite IHl, IHr; auto; intros n In_; apply G; cbn [names]; apply in_or_app; auto.
Qed.

Lemma or_all_total l : (forall r, In r l -> exists c, r = Ok c) -> exists q, or_all l = Ok q.
Proof.
  induction l as [|r l IH]; intros H; cbn [or_all]; [eauto|].
  destruct (H r (or_introl eq_refl)) as (c & ->). destruct IH as (q & ->); [intros r' J; apply H; now right|].
  cbn [bind]. eauto.
Qed.
Lemma and_then_total l : (forall r, In r l -> exists c, r = Ok c) -> exists q, and_then l = Ok q.
Proof.
  induction l as [|r l IH]; intros H; cbn [and_then]; [eauto|].
  destruct (H r (or_introl eq_refl)) as (c & ->). cbn [bind]. destruct c; [|eauto]. apply IH. intros r' J. apply H. now right.
Qed.
Lemma and_then_step r l : (exists c, r = Ok c) -> (r = Ok true -> exists q, and_then l = Ok q) -> exists q, and_then (r :: l) = Ok q.
Proof. intros (c & ->) H. cbn [and_then bind]. destruct c; [|eauto]. auto. Qed.
(** the value of one that is true is defined *)
Lemma if_elsif_total {A} (l : list (res bool * res A)) d v : (forall c w, In (c, w) l -> exists q, c = Ok q) ->
  In (Ok true, Ok v) l -> (forall w, In (Ok true, w) l -> exists u, w = Ok u) -> exists u, if_elsif l d = Ok u.
Proof.
  induction l as [|[c w] l IH]; [intros _ []|]. intros H I H2. cbn [if_elsif].
  destruct (H c w (or_introl eq_refl)) as (q & ->). cbn [bind]. destruct q.
  - apply H2. now left.
  - destruct I as [I|I]; [discriminate I|]. apply IH; [|exact I|].
    + intros c' w' J. apply (H c' w'). now right.
    + intros w' J. apply H2. now right.
Qed.
Lemma if_elsif_total_d {A} (l : list (res bool * res A)) d : (forall c w, In (c, w) l -> exists q, c = Ok q) ->
  (forall w, In (Ok true, w) l -> exists u, w = Ok u) -> (exists u, d = Ok u) -> exists u, if_elsif l d = Ok u.
Proof.
  induction l as [|[c w] l IH]; intros H H2 D; cbn [if_elsif]; [exact D|].
  destruct (H c w (or_introl eq_refl)) as (q & ->). cbn [bind]. destruct q; [apply H2; now left|].
  apply IH; [| |exact D].
  - intros c' w' J. apply (H c' w'). now right.
  - intros w' J. apply H2. now right.
Qed.

Lemma bit_index_ok z : 1 <= z <= Bit_Length_Last -> bit_index z = Ok z.
Proof. intros [A B]. unfold bit_index. destruct (Z.leb_spec 1 z); [|lia]. destruct (Z.leb_spec z Bit_Length_Last); [|lia]. reflexivity. Qed.
Lemma bit_length_ok z : 0 <= z <= Bit_Length_Last -> bit_length z = Ok z.
Proof. intros [A B]. unfold bit_length. destruct (Z.leb_spec 0 z); [|lia]. destruct (Z.leb_spec z Bit_Length_Last); [|lia]. reflexivity. Qed.
Lemma bll : 64 < Bit_Length_Last.
Proof. reflexivity. Qed.

Section Total.
  Context (s : list link) (fields : list field) (types : field -> ftype) (constants : name -> option Z).
  Local Notation run F L := (run s types constants F L).
  Local Notation reached F L := (reached s types constants F L).
  Local Notation candidate F L := (candidate s types constants F L).
  Local Notation place F L := (place s types constants F L).
  Local Notation holds F L := (holds constants F L).
  Local Notation env_of F L := (env_of constants F L).
  Local Notation look := (look fields types constants).
  Local Notation look_val := (look_val s fields types constants).
  Local Notation composite := (composite fields types).
  Local Notation Inv := (Inv s fields types constants).
  Local Notation field_first := (field_first s fields types constants).
  Local Notation field_size := (field_size s fields types constants).
  Local Notation field_last := (field_last s fields types constants).
  Local Notation "x @ f" := (x_cursors x f) (at level 9, f at level 9).

  Context (W : wf s fields) (TS : forall f size vd, types f = FScalar size vd -> 1 <= size <= 64)
    (DET : deterministic s types constants) (NO : no_overlay s)
    (FS : exists size vd, types (first_field fields) = FScalar size vd)
    (VIS : visible s fields types constants) (CMP : computable s types constants).

  (** the context has the fields [es] *)
  Definition seen (x : context) (es : list entry) : Prop :=
    forall e, In e es -> structural_valid (x @ (e_fld e)) = true /\ c_first (x @ (e_fld e)) = e_first e /\
      c_last (x @ (e_fld e)) = e_last e /\ c_fld (x @ (e_fld e)) = e_fld e /\ c_value (x @ (e_fld e)) = e_val e.

  Lemma inv_seen x b es pre rest : Inv x b es -> es = pre ++ rest -> seen x pre.
  Proof.
    intros I ES e J. apply in_split in J as (p & q & E). subst pre. rewrite <- app_assoc in ES. cbn [app] in ES.
    pose proof (i_cur _ _ _ _ _ _ _ I p e _ ES) as (A & _ & _ & B). auto.
  Qed.
  Lemma inv_range x b es : Inv x b es -> 1 <= x_first x <= x_last x /\ x_last x < Bit_Length_Last.
  Proof. intros I. destruct (i_bounds _ _ _ _ _ _ _ I) as (_ & _ & _ & _ & _ & _ & A & B & C). auto. Qed.

  Lemma place_candidate F L es e : 1 <= F <= L -> L < Bit_Length_Last -> place F L es (e_fld e) (e_first e) (e_last e) ->
    match types (e_fld e) with FScalar z _ => 0 <= e_val e < 2 ^ z | FComposite => e_val e = 0 end -> candidate F L es e.
  Proof.
    intros B1 B2 (l & z & IL & S & T & NF & H & A & K & K0 & B & FA & LB) V. rewrite (NO l IL) in A.
    exists l, z. split; [exact IL|]. split; [exact S|]. split; [exact T|]. split; [exact NF|]. split; [exact H|]. split; [exact A|].
    split; [destruct (types (e_fld e)); auto|]. split; [lia|exact B].
  Qed.
  Lemma run_reached F L b es : 1 <= F <= L -> L < Bit_Length_Last -> run F L b es -> reached F L b es.
  Proof.
    intros B1 B2 R. destruct R as [|es e R (P & C & _)]; [constructor|]. constructor; [exact R|].
    apply place_candidate; auto. unfold content in C. destruct (types (e_fld e)); tauto.
  Qed.

  (** ** Lookup *)
  Section At.
    Context (x : context) (b : buffer) (es : list entry).
    Local Notation F := (x_first x).
    Local Notation L := (x_last x).
    Hypothesis R : run F L b es.
    Hypothesis SN : seen x es.
    Hypothesis B1 : 1 <= F <= L.
    Hypothesis B2 : L < Bit_Length_Last.

    Lemma look_total n : named fields types constants es n -> look x n = Ok (env_of F L es n).
    Proof.
      intros [V N]. assert (IN : memf (name_id n) fields = true -> exists e, In e es /\ e_fld e = name_id n).
      { intros M. apply memf_iff, V, in_map_iff in M as (e & E & J). eauto. }
      assert (NF : memf (name_id n) fields = false -> find (fun e => String.eqb (e_fld e) (name_id n)) es = None).
      { intros M. apply find_none_in. intros e J. apply String.eqb_neq. intros Q.
        apply (run_in_fields s fields types constants W _ _ b es e R) in J. rewrite Q in J. apply memf_iff in J. congruence. }
      destruct n as [id|a id]; cbn [name_id] in *; unfold GenCode.look; destruct (memf id fields) eqn:M.
      - destruct (IN eq_refl) as (e & J & EF). rewrite (env_entry s fields types constants W _ _ b es e (NVar id) R J) by auto.
        apply memf_iff in M. destruct N as [NC _]. destruct (types id) eqn:T; [|now destruct (NC M)].
        destruct (SN e J) as (A1 & _ & _ & A2 & A3). rewrite EF in *. rewrite A1, A2, A3, String.eqb_refl. reflexivity.
      - unfold GenSpec.env_of. rewrite (NF eq_refl). destruct N as [_ NC].
        destruct (constants (NVar id)); [reflexivity|]. exfalso. apply NC; [|reflexivity]. intros J. apply memf_iff in J. congruence.
      - destruct (IN eq_refl) as (e & J & EF). rewrite (env_entry s fields types constants W _ _ b es e (NAttr a id) R J) by auto.
        apply memf_iff in M. destruct N as [NL _]. destruct (SN e J) as (A1 & A2 & A3 & _). rewrite EF in *. rewrite A1, A2, A3.
        destruct a; try reflexivity. exfalso. apply NL; [now left|reflexivity].
      - unfold GenSpec.env_of. rewrite (NF eq_refl). destruct N as [NL NC].
        assert (NI : ~ In id fields) by (intros J; apply memf_iff in J; congruence).
        destruct (String.eqb_spec id "message") as [E|E].
        + destruct a; try reflexivity. exfalso. apply NL; [now right|reflexivity].
        + destruct (constants (NAttr a id)); [reflexivity|]. exfalso. now apply NC.
    Qed.

    Lemma link_look l e n : In l s -> source l = last_fld es -> In e (condition l :: opt_expr (lsize l) ++ opt_expr (lfirst l)) ->
      In n (names e) -> look x n = Ok (env_of F L es n).
    Proof. intros IL S IE J. apply look_total, (VIS F L b es l e n); auto. now apply run_reached. Qed.

    Lemma cond_total l : In l s -> source l = last_fld es -> exists q, cond (look x) l = Ok q /\ (q = true <-> holds F L es l).
    Proof.
      intros IL S. destruct (CMP F L b es l B1 B2 (run_reached _ _ _ _ B1 B2 R) IL S) as [(q & E) _]. exists q.
      assert (E' : aeval in_U64 (look x) (condition l) = Ok (VBool q)).
      { rewrite <- E. apply aeval_ext. intros n J. eapply link_look; eauto. now left. }
      split; [unfold cond; rewrite E'; reflexivity|].
      pose proof (aeval_sound in_U64 (fun n => Ok (env_of F L es n)) (env_of F L es) (condition l)
        ltac:(intros n v _ Q; now apply Ok_inj in Q) _ E) as V.
      unfold GenSpec.holds. rewrite V. split; [intros ->; reflexivity|congruence].
    Qed.
    Lemma cond_true l : In l s -> source l = last_fld es -> cond (look x) l = Ok true -> holds F L es l.
    Proof. intros IL S E. destruct (cond_total l IL S) as (q & E' & Q). apply Q. rewrite E' in E. now apply Ok_inj in E. Qed.
    Lemma holds_cond l : In l s -> source l = last_fld es -> holds F L es l -> cond (look x) l = Ok true.
    Proof. intros IL S H. destruct (cond_total l IL S) as (q & E' & Q). rewrite E'. now rewrite (proj2 Q H). Qed.
    Lemma size_total l : In l s -> source l = last_fld es -> holds F L es l -> target l <> FINAL -> types (target l) = FComposite ->
      exists z, int_expr (look x) (lsize l) = Ok z /\ 0 <= z <= Bit_Length_Last.
    Proof.
      intros IL S H NF T. destruct (CMP F L b es l B1 B2 (run_reached _ _ _ _ B1 B2 R) IL S) as [_ C].
      destruct (C R H NF T) as (e & z & LS & E & Z0). exists z. split; [|exact Z0]. rewrite LS. unfold int_expr.
      rewrite (aeval_ext in_S64 (look x) (fun n => Ok (env_of F L es n))); [rewrite E; reflexivity|].
      intros n J. eapply link_look; eauto. rewrite LS. right. now left.
    Qed.

    Lemma first_entry : es <> [] -> 1 <= end_bit F es <= L.
    Proof.
      intros N. pose proof (run_bits s types constants NO F L b es R) as [_ RB]. split.
      - destruct es as [|e t] eqn:EE; [contradiction|]. destruct (RB e (or_introl eq_refl)) as [A B].
        pose proof (run_step s types constants F L b [] e t R) as ((l & k & IL & S & T & NF & _ & _ & K & _ & BB & _) & _).
        assert (EF : e_fld e = first_field fields) by (rewrite <- T; apply (wf_from_initial _ _ W l IL S); congruence).
        destruct FS as (size & vd & TF). rewrite EF, TF in K. pose proof (TS _ _ _ TF). lia.
      - destruct (exists_last N) as (p & e & E). rewrite E in *. rewrite end_bit_snoc. apply run_snoc_inv in R as [_ (P & _)].
        destruct P as (l & k & _ & _ & _ & _ & _ & _ & _ & _ & _ & _ & LB). exact LB.
    Qed.

    (** ** The place of a field *)
    Section Link.
      Context (f : field).
      Hypothesis P : c_pred (x @ f) = last_fld es.
      Hypothesis IF : In f fields.

      Lemma path_total : exists q, path_condition s fields types constants x f = Ok q /\
        (q = true -> exists l, In l s /\ source l = last_fld es /\ target l = f /\ holds F L es l).
      Proof.
        destruct (or_all_total (map (cond (look x)) (links_to s (c_pred (x @ f)) f))) as (q & E).
        - intros r J. apply in_map_iff in J as (l & <- & J). apply in_links_to in J as (IL & S & _). rewrite P in S.
          destruct (cond_total l IL S) as (q & E & _). eauto.
        - exists q. split; [exact E|]. intros ->. apply or_all_true, in_map_iff in E as (l & E & J).
          apply in_links_to in J as (IL & S & T). rewrite P in S. exists l. split; [exact IL|]. split; [exact S|]. split; [exact T|].
          now apply cond_true.
      Qed.

      Context (l : link).
      Hypothesis IL : In l s.
      Hypothesis S : source l = last_fld es.
      Hypothesis T : target l = f.
      Hypothesis H : holds F L es l.

      Local Lemma nf : f <> FINAL.
      Proof. intros ->. now apply (wf_final _ _ W). Qed.
      Lemma first_total : field_first x f = Ok (end_bit F es + 1) /\ 1 <= end_bit F es + 1 <= L + 1 /\
        (f <> first_field fields -> 2 <= end_bit F es + 1).
      Proof.
        pose proof nf as NF. unfold GenCode.field_first. destruct (String.eqb_spec f (first_field fields)) as [E1|N].
        - assert (SI : source l = INITIAL) by (apply (wf_into_first _ _ W l IL); congruence). rewrite S in SI.
          rewrite (last_fld_nil s fields types constants W F L b es R SI). unfold end_bit. cbn [map List.last].
          replace (F - 1 + 1) with F by lia. split; [apply bit_index_ok; lia|]. split; [lia|contradiction].
        - assert (NE : es <> []).
          { intros Q. apply N. rewrite <- T. apply (wf_from_initial _ _ W l IL); [rewrite S, Q; reflexivity|congruence]. }
          pose proof (first_entry NE) as FE.
          assert (LC : structural_valid (x @ (last_fld es)) = true /\ c_last (x @ (last_fld es)) = end_bit F es).
          { destruct (exists_last NE) as (p & e & E). rewrite E, last_fld_snoc, end_bit_snoc.
            destruct (SN e) as (A1 & _ & A2 & _); [rewrite E; apply in_or_app; right; now left|]. auto. }
          destruct LC as [SV CL]. cbn zeta. rewrite P.
          set (cs := map _ _).
          assert (V : forall c w, In (c, w) cs -> w = Ok (end_bit F es + 1) /\ exists q, c = Ok q).
          { intros c w J. apply in_map_iff in J as (l' & J & I'). apply in_incoming in I' as [I' T']. injection J as <- <-.
            rewrite (NO l' I'), SV, CL. split; [reflexivity|]. destruct (String.eqb_spec (last_fld es) (source l')); [|eauto].
            destruct (cond_total l' I') as (q & E & _); [congruence|eauto]. }
          destruct (if_elsif_total cs (Err "unreachable") (end_bit F es + 1)) as (u & E).
          + intros c w J. now destruct (V c w J).
          + apply in_map_iff. exists l. split; [|now apply in_incoming].
            rewrite (NO l IL), SV, CL, S, String.eqb_refl, holds_cond by auto. reflexivity.
          + intros w J. destruct (V _ _ J) as [-> _]. eauto.
          + rewrite E. cbn [bind]. destruct (if_elsif_ok _ _ _ E) as [(w & J & EW)|[D _]]; [|discriminate].
            destruct (V _ _ J) as [Q _]. assert (u = end_bit F es + 1) by congruence. subst u.
            split; [apply bit_index_ok; lia|]. split; [lia|]. intros _. lia.
      Qed.
      Lemma field_size_total : exists z, field_size x f = Ok z /\ 0 <= z <= Bit_Length_Last /\
        match types f with FScalar k _ => z = k | FComposite => means constants F L es (lsize l) z end.
      Proof.
        pose proof nf as NF. unfold GenCode.field_size. rewrite P. cbn zeta.
        destruct (forallb _ _) eqn:FB.
        { exfalso. rewrite forallb_forall in FB. specialize (FB l (proj2 (in_outgoing s l _) (conj IL S))).
          apply String.eqb_eq in FB. congruence. }
        assert (LI : In l (links_to s (last_fld es) f)) by (apply in_links_to; auto).
        assert (MEAN : forall z, int_expr (look x) (lsize l) = Ok z -> means constants F L es (lsize l) z).
        { intros z E. unfold int_expr in E. destruct (lsize l) as [e|] eqn:LS; [|discriminate]. dbind E v E1.
          apply (aeval_sound in_S64 (look x) (env_of F L es)) in E1.
          - exists e. split; [reflexivity|]. destruct v; [|discriminate]. apply Ok_inj in E. now subst.
          - intros n w J Q. rewrite (link_look l e n IL S) in Q; [now apply Ok_inj in Q| |exact J]. right. rewrite LS. now left. }
        destruct (types f) as [k vd|] eqn:TY.
        - pose proof (TS _ _ _ TY). pose proof bll. assert (K : 0 <= k <= Bit_Length_Last) by lia. exists k.
          split; [|auto]. destruct (links_to s (last_fld es) f) as [|l0 [|l1 ls]]; [destruct LI| |]; now apply bit_length_ok.
        - destruct (size_total l IL S H) as (z & EZ & Z0); [congruence|congruence|]. exists z.
          split; [|split; [exact Z0|now apply MEAN]].
          destruct (links_to s (last_fld es) f) as [|l0 [|l1 ls]] eqn:LT; [destruct LI| |].
          + destruct LI as [->|[]]. rewrite EZ. cbn [bind]. now apply bit_length_ok.
          + rewrite <- LT in *. set (cs := map _ _).
            assert (V : forall c w, In (c, w) cs -> (exists q, c = Ok q) /\ (c = Ok true -> w = Ok z)).
            { intros c w J. apply in_map_iff in J as (l' & J & I'). apply in_links_to in I' as (I' & S' & T'). injection J as <- <-.
              split; [destruct (cond_total l' I' S') as (q & E & _); eauto|]. intros E.
              assert (X : l' = l) by (apply (holds_unique s types constants F L DET b es l' l); auto; now apply cond_true). congruence. }
            destruct (if_elsif_total cs (Err "unreachable") z) as (u & E).
            * intros c w J. now destruct (V c w J).
            * apply in_map_iff. exists l. split; [|exact LI]. now rewrite EZ, holds_cond.
            * intros w J. destruct (V _ _ J) as [_ Q]. rewrite Q by reflexivity. eauto.
            * rewrite E. cbn [bind]. destruct (if_elsif_ok _ _ _ E) as [(w & J & EW)|[D _]]; [|discriminate].
              destruct (V _ _ J) as [_ Q]. assert (u = z) by (specialize (Q eq_refl); congruence). subst u. now apply bit_length_ok.
      Qed.
      Lemma field_last_total z : field_size x f = Ok z -> end_bit F es + z <= L -> 
        field_last x f = Ok (end_bit F es + z) /\ 1 <= end_bit F es + z.
      Proof.
        intros EZ LB. destruct first_total as (EA & A1 & A2). unfold GenCode.field_last. rewrite EA, EZ. cbn [bind].
        replace (end_bit F es + 1 + z - 1) with (end_bit F es + z) by lia.
        assert (Q : 1 <= end_bit F es + z); [|split; [apply bit_index_ok; lia|exact Q]].
        destruct field_size_total as (z' & EZ' & Z0 & K). assert (z' = z) by congruence. subst z'.
        destruct (string_dec f (first_field fields)) as [E|N]; [|specialize (A2 N); lia].
        destruct FS as (size & vd & TF). rewrite E, TF in K. pose proof (TS _ _ _ TF). lia.
      Qed.
      Lemma space_total : exists z, sufficient_space s fields types constants x f = Ok (z <=? L - (end_bit F es + 1) + 1) /\ field_size x f = Ok z.
      Proof.
        destruct first_total as (EA & A1 & _). destruct field_size_total as (z & EZ & _). exists z. split; [|exact EZ].
        unfold sufficient_space, available_space. rewrite EA, EZ. cbn [bind]. rewrite bit_length_ok by lia. reflexivity.
      Qed.
      Lemma buffer_length_total : exists q, sufficient_buffer_length s fields types constants x f = Ok q.
      Proof.
        destruct first_total as (EA & A1 & _). destruct field_size_total as (z & EZ & _).
        unfold sufficient_buffer_length, available_space. rewrite EA, EZ. cbn [bind]. rewrite bit_length_ok by lia. cbn [bind]. eauto.
      Qed.

      (** Field_Condition *)
      Lemma field_cond_total v z sz : ~ In f (map e_fld es) -> field_size x f = Ok z ->
        match types f with FScalar k _ => 0 <= v < 2 ^ k | FComposite => v = 0 end ->
        (sz = z \/ forall l', In l' s -> source l' = f -> ~ In (NAttr ASize f) (names (condition l'))) ->
        (end_bit F es + z <= L \/ no_own s ALast) -> no_own s AFirst ->
        exists q, field_cond s fields types constants x f v sz = Ok q.
      Proof.
        intros FR EZ VR SZ LA NOF. set (a := end_bit F es + 1). set (e := mkEntry f a (a + z - 1) v).
        destruct field_size_total as (z' & EZ' & Z0 & K). assert (z' = z) by congruence. subst z'.
        assert (RC : reached F L b (es ++ [e])).
        { constructor; [exact R|]. exists l, z. split; [exact IL|]. split; [exact S|]. split; [exact T|]. split; [exact nf|].
          split; [exact H|]. split; [reflexivity|]. split; [|split; [exact Z0|reflexivity]]. cbn [e e_fld e_val]. destruct (types f); auto. }
        apply or_all_total. intros r J. apply in_map_iff in J as (l' & <- & J). apply in_outgoing in J as [I' S'].
        assert (S2 : source l' = last_fld (es ++ [e])) by (now rewrite last_fld_snoc).
        destruct (CMP F L b (es ++ [e]) l' B1 B2 RC I' S2) as [(q & E) _]. exists q. unfold cond.
        rewrite (aeval_ext in_U64 (look_val x f v sz) (fun n => Ok (env_of F L (es ++ [e]) n))); [now rewrite E|].
        intros n J. pose proof (VIS F L b (es ++ [e]) l' (condition l') n B1 B2 RC I' S2 (or_introl eq_refl) J) as [V N].
        destruct (string_dec (name_id n) f) as [EN|NE].
        - rewrite (env_last constants F L es e n FR EN). destruct n as [id|at' id]; cbn [name_id] in *; subst id.
          + cbn [GenCode.look_val]. rewrite String.eqb_refl. destruct (types f) eqn:TY; [reflexivity|]. exfalso. now apply (proj1 N IF).
          + destruct at'; cbn [GenCode.look_val]; rewrite ?String.eqb_refl.
            * destruct SZ as [->|X]; [|exfalso; apply (X l' I' S' J)]. cbn [e e_last e_first]. f_equal. f_equal. lia.
            * exfalso. now apply (proj1 N (or_introl IF)).
            * exfalso. apply (NOF l' I'). now rewrite S'.
            * destruct LA as [LA|LA]; [|exfalso; apply (LA l' I'); now rewrite S'].
              destruct (field_last_total z EZ LA) as [-> _]. cbn [bind e e_last]. unfold a. f_equal. f_equal. lia.
        - assert (EQ : look_val x f v sz n = look x n).
          { destruct n as [id|[] id]; cbn [GenCode.look_val name_id] in *; auto; destruct (String.eqb_spec id f); try contradiction; auto. }
          rewrite EQ, env_prefix by (cbn; intuition). apply look_total. split; [|exact N].
          intros Q. specialize (V Q). rewrite map_app in V. apply in_app_or in V as [V|[V|[]]]; [exact V|exfalso; apply NE; symmetry; exact V].
      Qed.
    End Link.

    (** Successor, once the cursor of the field is set *)
    Lemma successor_total e : candidate F L es e -> ~ In (e_fld e) (map e_fld es) -> In (e_fld e) fields -> seen x [e] ->
      exists n, successor s fields types constants x (e_fld e) = Ok n.
    Proof.
      intros CA FR IF SE. assert (RC : reached F L b (es ++ [e])) by now constructor.
      apply if_elsif_total_d; [| |eauto].
      2:{ intros w J. apply in_map_iff in J as (l & J & _). injection J as _ <-. eauto. }
      intros c w J. apply in_map_iff in J as (l & J & I). injection J as <- _. apply in_outgoing in I as [IL S].
      assert (S2 : source l = last_fld (es ++ [e])) by (now rewrite last_fld_snoc).
      destruct (CMP F L b (es ++ [e]) l B1 B2 RC IL S2) as [(q & E) _]. exists q. unfold cond.
      rewrite (aeval_ext in_U64 (look x) (fun n => Ok (env_of F L (es ++ [e]) n))); [now rewrite E|].
      intros n J. pose proof (VIS F L b (es ++ [e]) l (condition l) n B1 B2 RC IL S2 (or_introl eq_refl) J) as [V N].
      destruct (string_dec (name_id n) (e_fld e)) as [EN|NE].
      - rewrite (env_last constants F L es e n FR EN). destruct (SE e (or_introl eq_refl)) as (A1 & A2 & A3 & A4 & A5).
        assert (M : memf (e_fld e) fields = true) by now apply memf_iff.
        unfold GenCode.look. destruct n as [id|at' id]; cbn [name_id] in *; subst id; rewrite M, A1.
        + rewrite A4, String.eqb_refl, A5. destruct (types (e_fld e)) eqn:TY; [reflexivity|]. exfalso. now apply (proj1 N IF).
        + rewrite A2, A3. destruct at'; try reflexivity. exfalso. now apply (proj1 N (or_introl IF)).
      - rewrite env_prefix by (cbn; intuition). apply look_total. split; [|exact N].
        intros Q. specialize (V Q). rewrite map_app in V. apply in_app_or in V as [V|[V|[]]]; [exact V|exfalso; apply NE; symmetry; exact V].
    Qed.
  End At.

  Lemma seen_one x e : structural_valid (x @ (e_fld e)) = true -> c_first (x @ (e_fld e)) = e_first e ->
    c_last (x @ (e_fld e)) = e_last e -> c_fld (x @ (e_fld e)) = e_fld e -> c_value (x @ (e_fld e)) = e_val e -> seen x [e].
  Proof. intros A B C D E e' [<-|[]]. auto. Qed.

  Context (NF : no_own s AFirst).

  (** ** Verify *)
  Theorem verify_total x b es f : Inv x b es -> In f fields -> exists x', verify s fields types constants x f = Ok x'.
  Proof.
    intros I IF. unfold verify. destruct (has_buffer x && invalid (x @ f) && valid_predecessor s fields types x f) eqn:G; [|eauto].
    apply andb_true_iff in G as [G VP]. apply andb_true_iff in G as [HB IV].
    destruct (pending s fields types constants W x b es f I IF IV VP) as [FR PL].
    pose proof (i_run _ _ _ _ _ _ _ I) as R. pose proof (inv_range _ _ _ I) as [B1 B2].
    assert (SN : seen x es) by (apply (inv_seen x b es es []); [exact I|now rewrite app_nil_r]).
    destruct (path_total x b es R SN B1 B2 f PL) as (q & -> & PQ). cbn [bind]. destruct q; [|eauto].
    destruct (PQ eq_refl) as (l & IL & S & T & H). clear PQ.
    destruct (buffer_length_total x b es R SN B1 B2 f PL IF l IL S T H) as (q & EQ). rewrite EQ. cbn [bind]. destruct q; [|eauto].
    destruct (suff_inv s fields types constants x f true EQ) as (a & z & EA & EZ & SQ).
    destruct (proj1 SQ eq_refl) as (_ & Z0 & _ & FA & LB). clear SQ EQ.
    destruct (first_total x b es R SN B1 B2 f PL IF l IL S T H) as (EA' & A1 & A2).
    assert (a = end_bit (x_first x) es + 1) by congruence. subst a.
    destruct (field_size_total x b es R SN B1 B2 f PL IF l IL S T H) as (z' & EZ' & Z1 & K). assert (z' = z) by congruence. subst z'.
    destruct (field_last_total x b es R SN B1 B2 f PL IF l IL S T H z EZ) as [EL L1]; [lia|].
    pose proof (i_bounds _ _ _ _ _ _ _ I) as BO. pose proof BO as (BB & BW & _).
    assert (V : exists v, get_field_value s fields types constants x f = Ok v /\
      match types f with FScalar k _ => 0 <= v < 2 ^ k | FComposite => v = 0 end).
    { unfold get_field_value. destruct (types f) as [k vd|] eqn:TY; [|eauto]. subst k. rewrite EA, EL, BB. cbn [bind].
      pose proof (TS _ _ _ TY) as TZ.
      assert (INB : in_buf b (end_bit (x_first x) es + 1) (end_bit (x_first x) es + z)) by (apply (in_range x b); [exact BO|lia|lia]).
      destruct (read_field_spec z b (end_bit (x_first x) es + 1) (end_bit (x_first x) es + z)) as (v & E0 & E1 & _); auto; try lia. eauto. }
    destruct V as (v & -> & VR). cbn [bind]. rewrite EZ. cbn [bind].
    destruct (field_cond_total x b es R SN B1 B2 f PL IF l IL S T H v z z FR EZ VR (or_introl eq_refl)) as (fc & ->); [left; lia|exact NF|].
    cbn [bind]. destruct (valid_value types f v && fc); [|eauto]. rewrite EL, EA. cbn [bind]. cbn zeta.
    set (x1 := set_cursor _ _ _).
    set (e := mkEntry f (end_bit (x_first x) es + 1) (end_bit (x_first x) es + z) v).
    destruct (successor_total x1 b es R) with (e := e) as (n & EN).
    - intros e' J. unfold x1. cbn [set_cursor set_message_last x_cursors]. rewrite upd_other; [now apply SN|].
      intros Q. apply FR. rewrite <- Q. now apply in_map.
    - exact B1.
    - exact B2.
    - exists l, z. split; [exact IL|]. split; [exact S|]. split; [exact T|].
      split; [intros Q; apply (wf_final _ _ W); rewrite <- Q; exact IF|].
      split; [exact H|]. split; [reflexivity|]. split; [|split; [exact Z1|cbn [e e_first e_last]; lia]].
      cbn [e e_fld e_val]. destruct (types f); auto.
    - exact FR.
    - exact IF.
    - apply seen_one; unfold x1; cbn [set_cursor x_cursors e e_fld]; rewrite upd_same; try reflexivity. now destruct (composite f).
    - change f with (e_fld e). rewrite EN. cbn [bind]. eauto.
  Qed.
  Lemma verify_all_total fs : forall x b es, Inv x b es -> (forall f, In f fs -> In f fields) ->
    exists x', verify_all s fields types constants x fs = Ok x'.
  Proof.
    induction fs as [|f fs IH]; intros x b es I IN; cbn [verify_all]; [eauto|].
    assert (IF : In f fields) by (apply IN; now left). destruct (verify_total x b es f I IF) as (y & E). rewrite E. cbn [bind].
    destruct (verify_inv s fields types constants W TS DET x b es f y I IF E) as (es1 & I1 & _).
    apply (IH y b es1 I1). intros g J. apply IN. now right.
  Qed.

  (** ** Structural_Valid_Message and Valid_Message *)
  Lemma message_cond_total st x b es : Inv x b es -> forall n pre rest, es = pre ++ rest ->
    (length fields < n + rank fields (last_fld pre))%nat -> exists q, message_cond s fields types constants n st x (last_fld pre) = Ok q.
  Proof.
    intros I. pose proof (i_run _ _ _ _ _ _ _ I) as R. pose proof (inv_range _ _ _ I) as [B1 B2].
    induction n as [|n IH]; intros pre rest ES FU.
    { exfalso. pose proof (rank_le fields (last_fld pre)). lia. }
    assert (R0 : run (x_first x) (x_last x) b pre) by (rewrite ES in R; eapply run_prefix; eauto).
    pose proof (inv_seen x b es pre rest I ES) as SN.
    cbn [message_cond]. apply or_all_total. intros r J. apply in_map_iff in J as (l & <- & J). apply in_outgoing in J as [IL S].
    destruct (cond_total x b pre R0 SN B1 B2 l IL S) as (q & E & Q).
    destruct (String.eqb_spec (target l) FINAL) as [TF|NFI]; [eauto|].
    assert (IT : In (target l) fields) by (destruct (wf_target _ _ W l IL); [contradiction|assumption]).
    apply and_then_step; [eauto|]. intros C. apply Ok_inj in C.
    apply and_then_step; [eauto|]. intros E2. rewrite E2 in E. apply Ok_inj in E. subst q. pose proof (proj1 Q eq_refl) as H.
    assert (SV : structural_valid (x @ (target l)) = true).
    { destruct (st && composite (target l)); [exact C|].
      unfold valid_field in C. apply andb_true_iff in C as [C _]. unfold valid in C. unfold structural_valid. destruct (c_state _); auto. }
    destruct (inv_covers _ _ _ _ _ _ _ I _ IT SV) as (e & JE & EE & _).
    pose proof (wf_rank _ _ W l IL IT) as K2. rewrite S in K2.
    destruct rest as [|e1 t].
    { exfalso. rewrite ES, app_nil_r in JE. pose proof (run_rank s fields types constants W _ _ b pre e R0 JE) as K. rewrite EE in K. lia. }
    pose proof R as R1. rewrite ES in R1. pose proof (run_step _ _ _ _ _ _ _ _ _ R1) as ((l' & k & I' & S' & T' & _ & H' & _) & _).
    assert (X : l = l') by (apply (holds_unique s types constants (x_first x) (x_last x) DET b pre l l'); auto). subst l'.
    destruct (IH (pre ++ [e1]) t) as (q & EQ).
    - now rewrite <- app_assoc.
    - rewrite last_fld_snoc, <- T'. lia.
    - rewrite last_fld_snoc, <- T' in EQ. apply and_then_total. intros r [<-|[]]. eauto.
  Qed.

  (** ** The predicate of Context *)
  Lemma structure_total x b es : Inv x b es -> forall n pre rest l, es = pre ++ rest -> In l s -> source l = last_fld pre ->
    (length fields < n + rank fields (last_fld pre))%nat -> exists q, structure_invariant s fields types constants n x l = Ok q.
  Proof.
    intros I. pose proof (i_run _ _ _ _ _ _ _ I) as R. pose proof (inv_range _ _ _ I) as [B1 B2].
    induction n as [|n IH]; intros pre rest l ES IL S FU.
    { exfalso. pose proof (rank_le fields (last_fld pre)). lia. }
    assert (R0 : run (x_first x) (x_last x) b pre) by (rewrite ES in R; eapply run_prefix; eauto).
    pose proof (inv_seen x b es pre rest I ES) as SN.
    cbn [structure_invariant]. destruct (String.eqb_spec (target l) FINAL) as [TF|NFI]; [eauto|]. cbn zeta.
    assert (IT : In (target l) fields) by (destruct (wf_target _ _ W l IL); [contradiction|assumption]).
    destruct (cond_total x b pre R0 SN B1 B2 l IL S) as (q & E & Q).
    cbn [and_then bind]. destruct (structural_valid (x @ (target l))) eqn:SV; [|cbn [bind]; eauto].
    rewrite E. cbn [bind]. destruct q; [|cbn [bind]; eauto]. pose proof (proj1 Q eq_refl) as H. cbn [bind].
    destruct (inv_covers _ _ _ _ _ _ _ I _ IT SV) as (e & JE & EE & _).
    pose proof (wf_rank _ _ W l IL IT) as K2. rewrite S in K2.
    destruct rest as [|e1 t].
    { exfalso. rewrite ES, app_nil_r in JE. pose proof (run_rank s fields types constants W _ _ b pre e R0 JE) as K. rewrite EE in K. lia. }
    pose proof R as R1. rewrite ES in R1. pose proof (run_step _ _ _ _ _ _ _ _ _ R1) as ((l' & k & I' & S' & T' & _ & H' & _) & _).
    assert (X : l = l') by (apply (holds_unique s types constants (x_first x) (x_last x) DET b pre l l'); auto). subst l'.
    apply and_then_total. intros r J. apply in_app_or in J as [J|J].
    - destruct J as [<-|[<-|[<-|[]]]].
      + destruct (types (target l)) eqn:TY; [cbn [bind]; eauto|].
        destruct (size_total x b pre R0 SN B1 B2 l IL S H NFI TY) as (z & -> & _). cbn [bind]. eauto.
      + eauto.
      + destruct (String.eqb_spec (source l) INITIAL) as [SI|SNI]; [cbn [bind]; eauto|]. rewrite (NO l IL).
        rewrite S in SNI. assert (NE : pre <> []) by (intros ->; now apply SNI).
        destruct (exists_last NE) as (p & e0 & EP). rewrite S, EP, last_fld_snoc.
        destruct (SN e0) as (-> & _); [rewrite EP; apply in_or_app; right; now left|]. cbn [bind]. eauto.
    - apply in_map_iff in J as (l2 & <- & J). apply in_outgoing in J as [J S2].
      apply (IH (pre ++ [e1]) t l2); [now rewrite <- app_assoc|exact J|rewrite last_fld_snoc; congruence|].
      rewrite last_fld_snoc, <- T'. lia.
  Qed.
  Theorem valid_context_total n x b es : Inv x b es -> (length fields < n)%nat -> outgoing s INITIAL <> [] ->
    exists q, valid_context s fields types constants n x = Ok q.
  Proof.
    intros I FU OI. unfold valid_context. pose proof (i_run _ _ _ _ _ _ _ I) as R. pose proof (inv_range _ _ _ I) as [B1 B2].
    apply and_then_total. intros r J. destruct J as [<-|[<-|[<-|[<-|[<-|[<-|[<-|[<-|[]]]]]]]]]; eauto.
    - apply and_then_total. intros r J. apply in_map_iff in J as (f & <- & J). apply filter_In in J as [IF NS].
      destruct (structural_valid (x @ f)) eqn:V; [|eauto].
      apply or_all_total. intros r J. apply in_map_iff in J as (l & <- & J). apply in_incoming in J as [IL T].
      apply and_then_step; [eauto|]. intros _. apply and_then_step; [eauto|]. intros Q. apply Ok_inj, String.eqb_eq in Q.
      destruct (inv_covers _ _ _ _ _ _ _ I f IF V) as (e & JE & EE & _). apply in_split in JE as (pre & post & ES).
      pose proof (i_cur _ _ _ _ _ _ _ I pre e post ES) as (_ & _ & C1 & _). rewrite EE in C1.
      assert (R0 : run (x_first x) (x_last x) b pre) by (rewrite ES in R; eapply run_prefix; eauto).
      destruct (cond_total x b pre R0 (inv_seen x b es pre (e :: post) I ES) B1 B2 l IL) as (c & E & _); [congruence|].
      apply and_then_total. intros r [<-|[]]. eauto.
    - destruct (outgoing s INITIAL) as [|l ls] eqn:OO; [contradiction|].
      assert (J2 : In l (outgoing s INITIAL)) by (rewrite OO; now left). apply in_outgoing in J2 as [IL S].
      apply (structure_total x b es I n [] es l eq_refl IL S). lia.
  Qed.

  (** ** Setters *)
  Context (NL : no_own s ALast).

  Lemma cut_valid x b es f : Inv x b es -> In f fields -> valid_predecessor s fields types x f = true ->
    exists pre rest, es = pre ++ rest /\ c_pred (x @ f) = last_fld pre.
  Proof.
    intros I IF VP. destruct (in_dec String.string_dec f (map e_fld es)) as [J|J].
    - apply in_map_iff in J as (e & EF & J). apply in_split in J as (pre & post & ES).
      pose proof (i_cur _ _ _ _ _ _ _ I pre e post ES) as (_ & _ & P & _). rewrite EF in P. eauto.
    - destruct (i_rest _ _ _ _ _ _ _ I f IF J) as [_ [PF|[PL _]]].
      + exfalso. unfold valid_predecessor in VP. apply existsb_exists in VP as (p & Q & E). apply andb_true_iff in E as [_ E].
        apply String.eqb_eq in E. rewrite PF in E. subst p. now apply (no_final_pred s fields W) in Q.
      + exists es, []. rewrite app_nil_r. auto.
  Qed.

  (** all that a setter may rely on once Valid_Next holds *)
  Lemma next_total x b es f : Inv x b es -> In f fields -> exists q, valid_next s fields types constants x f = Ok q /\
    (q = true -> exists pre rest l, es = pre ++ rest /\ c_pred (x @ f) = last_fld pre /\ run (x_first x) (x_last x) b pre /\ seen x pre /\
       In l s /\ source l = last_fld pre /\ target l = f /\ holds (x_first x) (x_last x) pre l /\ ~ In f (map e_fld pre)).
  Proof.
    intros I IF. unfold valid_next. destruct (valid_predecessor s fields types x f) eqn:VP; [|exists false; split; [reflexivity|discriminate]].
    destruct (cut_valid x b es f I IF VP) as (pre & rest & ES & PL).
    pose proof (i_run _ _ _ _ _ _ _ I) as R. pose proof (inv_range _ _ _ I) as [B1 B2].
    assert (R0 : run (x_first x) (x_last x) b pre) by (rewrite ES in R; eapply run_prefix; eauto).
    pose proof (inv_seen x b es pre rest I ES) as SN.
    destruct (path_total x b pre R0 SN B1 B2 f PL) as (q & E & PQ). exists q. split; [exact E|]. intros ->.
    destruct (PQ eq_refl) as (l & IL & S & T & H). exists pre, rest, l.
    split; [exact ES|]. split; [exact PL|]. split; [exact R0|]. split; [exact SN|]. split; [exact IL|]. split; [exact S|]. split; [exact T|].
    split; [exact H|]. apply (run_fresh s fields types constants W _ _ b pre f R0). rewrite <- S, <- T.
    apply (wf_rank _ _ W l IL). now rewrite T.
  Qed.

  (** the context after the dependent fields are reset *)
  Lemma reset_seen x b f pre l : In f fields -> run (x_first x) (x_last x) b pre -> In l s -> source l = last_fld pre -> target l = f ->
    seen x pre -> seen (reset_dependent_fields fields x f) pre /\
    c_pred ((reset_dependent_fields fields x f) @ f) = c_pred (x @ f) /\
    x_first (reset_dependent_fields fields x f) = x_first x /\ x_last (reset_dependent_fields fields x f) = x_last x /\
    x_buffer (reset_dependent_fields fields x f) = x_buffer x.
  Proof.
    intros IF R0 IL S T SN. destruct (reset_spec fields x f (wf_nodup _ _ W) IF) as (A & _ & _ & C & D & _ & E).
    split; [|split; [|auto]].
    - intros e J. pose proof (run_rank s fields types constants W _ _ b pre e R0 J) as K.
      assert (TR : (rank fields (last_fld pre) < rank fields f)%nat) by (rewrite <- S, <- T; apply (wf_rank _ _ W l IL); now rewrite T).
      assert (Q : (reset_dependent_fields fields x f) @ (e_fld e) = x @ (e_fld e)); [|rewrite Q; now apply SN].
      rewrite A. destruct (memf (e_fld e) (after f fields)) eqn:M.
      + apply memf_iff, (in_after fields f _ (wf_nodup _ _ W) IF) in M. lia.
      + destruct (String.eqb_spec (e_fld e) f) as [Q|]; [rewrite Q in K; lia|reflexivity].
    - rewrite A, String.eqb_refl. destruct (memf f (after f fields)) eqn:M; [|reflexivity].
      apply memf_iff, (in_after fields f f (wf_nodup _ _ W) IF) in M. lia.
  Qed.
  Lemma enter_total st y b pre f l z v : run (x_first y) (x_last y) b pre -> seen y pre -> 1 <= x_first y <= x_last y -> x_last y < Bit_Length_Last ->
    In l s -> source l = last_fld pre -> target l = f -> holds (x_first y) (x_last y) pre l -> In f fields -> ~ In f (map e_fld pre) ->
    match types f with FScalar k _ => z = k /\ 0 <= v < 2 ^ k | FComposite => means constants (x_first y) (x_last y) pre (lsize l) z /\ v = 0 end ->
    0 <= z <= Bit_Length_Last -> st = S_Valid \/ st = S_Structural_Valid ->
    exists x', enter_field s fields types constants st y f (end_bit (x_first y) pre + 1) (end_bit (x_first y) pre + z) v = Ok x'.
  Proof.
    intros R0 SN B1 B2 IL S T H IF FR K Z0 ST. unfold enter_field. cbn zeta. set (x2 := set_cursor _ _ _).
    set (e := mkEntry f (end_bit (x_first y) pre + 1) (end_bit (x_first y) pre + z) v).
    destruct (successor_total x2 b pre R0) with (e := e) as (n & EN).
    - intros e' J. unfold x2. cbn [set_cursor set_message_last x_cursors]. rewrite upd_other; [now apply SN|].
      intros Q. apply FR. rewrite <- Q. now apply in_map.
    - exact B1.
    - exact B2.
    - exists l, z. split; [exact IL|]. split; [exact S|]. split; [exact T|].
      split; [intros Q; apply (wf_final _ _ W); rewrite <- Q; exact IF|].
      split; [exact H|]. split; [reflexivity|]. split; [exact K|]. split; [exact Z0|cbn [e e_first e_last]; lia].
    - exact FR.
    - exact IF.
    - apply seen_one; unfold x2; cbn [set_cursor x_cursors e e_fld]; rewrite upd_same; try reflexivity. now destruct ST as [->| ->].
    - change f with (e_fld e). rewrite EN. cbn [bind]. eauto.
  Qed.

  Theorem set_scalar_total x b es f k vd v : Inv x b es -> In f fields -> types f = FScalar k vd -> 0 <= v < 2 ^ k ->
    (forall l, In l s -> source l = f -> ~ In (NAttr ASize f) (names (condition l))) ->
    exists q, set_scalar_pre s fields types constants x f v = Ok q /\
      (q = true -> exists x', set_scalar s fields types constants x f v = Ok x').
  Proof.
    intros I IF TY VR OS. pose proof (inv_range _ _ _ I) as [B1 B2]. unfold set_scalar_pre. cbn [and_then bind].
    destruct (has_buffer x) eqn:HB; [|exists false; split; [reflexivity|discriminate]].
    destruct (next_total x b es f I IF) as (q & -> & NX). cbn [bind]. destruct q; [|exists false; split; [reflexivity|discriminate]].
    destruct (NX eq_refl) as (pre & rest & l & ES & PL & R0 & SN & IL & S & T & H & FR). clear NX.
    destruct (field_size_total x b pre R0 SN B1 B2 f PL IF l IL S T H) as (z & EZ & Z0 & K). pose proof K as K'. rewrite TY in K'. subst z.
    assert (VR' : match types f with FScalar k' _ => 0 <= v < 2 ^ k' | FComposite => v = 0 end) by now rewrite TY.
    destruct (field_cond_total x b pre R0 SN B1 B2 f PL IF l IL S T H v k 0 FR EZ VR' (or_intror OS) (or_intror NL) NF) as (q & ->).
    cbn [bind]. destruct q; [|exists false; split; [reflexivity|discriminate]].
    destruct (valid_value types f v); [|exists false; split; [reflexivity|discriminate]].
    destruct (space_total x b pre R0 SN B1 B2 f PL IF l IL S T H) as (z & -> & EZ2). assert (z = k) by congruence. subst z. cbn [bind].
    destruct (Z.leb_spec k (x_last x - (end_bit (x_first x) pre + 1) + 1)) as [LB|]; [|exists false; split; [reflexivity|discriminate]].
    exists true. split; [reflexivity|]. intros _. unfold set_scalar, set_field_value.
    set (xr := reset_dependent_fields fields x f).
    destruct (reset_seen x b f pre l IF R0 IL S T SN) as (SR & PR & FR' & LR & BR). fold xr in SR, PR, FR', LR, BR. rewrite PL in PR.
    pose proof R0 as R0'. rewrite <- FR', <- LR in R0'. pose proof H as H'. rewrite <- FR', <- LR in H'.
    assert (B1' : 1 <= x_first xr <= x_last xr) by (rewrite FR', LR; exact B1). assert (B2' : x_last xr < Bit_Length_Last) by (rewrite LR; exact B2).
    destruct (first_total xr b pre R0' SR B1' B2' f PR IF l IL S T H') as (EA & A1 & _).
    destruct (field_size_total xr b pre R0' SR B1' B2' f PR IF l IL S T H') as (z & EZ' & _ & KZ). rewrite TY in KZ. subst z.
    destruct (field_last_total xr b pre R0' SR B1' B2' f PR IF l IL S T H' k EZ') as [EL _]; [rewrite FR', LR; lia|].
    rewrite EA, EL, TY. cbn [bind]. pose proof (i_bounds _ _ _ _ _ _ _ I) as BO. pose proof BO as (BB & BW & _). rewrite BR, BB.
    pose proof (TS _ _ _ TY) as TZ. rewrite FR' in *.
    pose proof (run_bits s types constants NO _ _ b pre R0) as [FB _].
    assert (INB : in_buf b (end_bit (x_first x) pre + 1) (end_bit (x_first x) pre + k)) by (apply (in_range x b); [exact BO|lia|lia]).
    destruct (write_field_spec k b (end_bit (x_first x) pre + 1) (end_bit (x_first x) pre + k)) with (v := v) as (b1 & EB & _); auto; try lia.
    rewrite EB. cbn [bind].
    destruct (enter_total S_Valid (set_buffer xr (Some b1)) b pre f l k v) as (x' & EX); auto.
    - cbn [set_buffer x_first x_last]. now rewrite FR'.
    - cbn [set_buffer x_first x_last]. now rewrite FR'.
    - cbn [set_buffer x_first x_last]. now rewrite FR'.
    - rewrite TY. auto.
    - change (x_first (set_buffer xr (Some b1))) with (x_first xr) in EX. rewrite FR' in EX. eauto.
  Qed.

  Lemma set_composite_pre_total x b es f : Inv x b es -> In f fields -> types f = FComposite ->
    exists q, set_composite_pre s fields types constants x f = Ok q /\
      (q = true -> exists pre rest l z, es = pre ++ rest /\ c_pred (x @ f) = last_fld pre /\ run (x_first x) (x_last x) b pre /\ seen x pre /\
         In l s /\ source l = last_fld pre /\ target l = f /\ holds (x_first x) (x_last x) pre l /\ ~ In f (map e_fld pre) /\
         field_first x f = Ok (end_bit (x_first x) pre + 1) /\ field_size x f = Ok z /\ 0 <= z <= Bit_Length_Last /\
         means constants (x_first x) (x_last x) pre (lsize l) z /\
         field_last x f = Ok (end_bit (x_first x) pre + z) /\ end_bit (x_first x) pre + z <= x_last x /\
         (end_bit (x_first x) pre + 1) mod 8 = 1 /\ z mod 8 = 0).
  Proof.
    intros I IF TY. pose proof (inv_range _ _ _ I) as [B1 B2]. unfold set_composite_pre. cbn [and_then bind].
    destruct (has_buffer x) eqn:HB; [|exists false; split; [reflexivity|discriminate]].
    destruct (next_total x b es f I IF) as (q & -> & NX). cbn [bind]. destruct q; [|exists false; split; [reflexivity|discriminate]].
    destruct (NX eq_refl) as (pre & rest & l & ES & PL & R0 & SN & IL & S & T & H & FR). clear NX.
    destruct (field_size_total x b pre R0 SN B1 B2 f PL IF l IL S T H) as (z & EZ & Z0 & K). rewrite TY in K. rewrite EZ. cbn [bind].
    assert (VR' : match types f with FScalar k' _ => 0 <= 0 < 2 ^ k' | FComposite => 0 = 0 end) by now rewrite TY.
    destruct (field_cond_total x b pre R0 SN B1 B2 f PL IF l IL S T H 0 z z FR EZ VR' (or_introl eq_refl) (or_intror NL) NF) as (q & ->).
    cbn [bind]. destruct q; [|exists false; split; [reflexivity|discriminate]].
    destruct (space_total x b pre R0 SN B1 B2 f PL IF l IL S T H) as (z' & -> & EZ2). assert (z' = z) by congruence. subst z'. cbn [bind].
    destruct (Z.leb_spec z (x_last x - (end_bit (x_first x) pre + 1) + 1)) as [LB|]; [|exists false; split; [reflexivity|discriminate]].
    destruct (first_total x b pre R0 SN B1 B2 f PL IF l IL S T H) as (EA & A1 & _). rewrite EA. cbn [bind].
    destruct (Z.eqb_spec ((end_bit (x_first x) pre + 1) mod 8) 1) as [A8|]; [|exists false; split; [reflexivity|discriminate]]. cbn [bind].
    destruct (Z.eqb_spec (z mod 8) 0) as [Z8|]; [|exists false; split; [reflexivity|discriminate]].
    exists true. split; [reflexivity|]. intros _.
    destruct (field_last_total x b pre R0 SN B1 B2 f PL IF l IL S T H z EZ) as [EL _]; [lia|].
    exists pre, rest, l, z. repeat (split; [solve [assumption|reflexivity|lia]|]). assumption.
  Qed.
  Theorem set_composite_total st x b es f : Inv x b es -> In f fields -> types f = FComposite -> st = S_Valid \/ st = S_Structural_Valid ->
    exists q, set_composite_pre s fields types constants x f = Ok q /\
      (q = true -> exists x', set_composite s fields types constants st x f = Ok x').
  Proof.
    intros I IF TY ST. pose proof (inv_range _ _ _ I) as [B1 B2].
    destruct (set_composite_pre_total x b es f I IF TY) as (q & E & Q). exists q. split; [exact E|]. intros ->.
    destruct (Q eq_refl) as (pre & rest & l & z & ES & PL & R0 & SN & IL & S & T & H & FR & EA & EZ & Z0 & K & EL & _).
    unfold set_composite. rewrite EA, EL. cbn [bind]. set (xr := reset_dependent_fields fields x f).
    destruct (reset_seen x b f pre l IF R0 IL S T SN) as (SR & PR & FR' & LR & BR). fold xr in SR, PR, FR', LR, BR.
    destruct (enter_total st xr b pre f l z 0) as (x' & EX); auto; rewrite ?FR', ?LR; auto.
    - rewrite TY. auto.
    - rewrite FR' in EX. eauto.
  Qed.
  Theorem set_opaque_total st x b es f value : scoped s fields -> Inv x b es -> In f fields -> types f = FComposite ->
    st = S_Valid \/ st = S_Structural_Valid ->
    exists q, set_opaque_pre s fields types constants x f value = Ok q /\
      (q = true -> exists x', set_opaque s fields types constants st x f value = Ok x').
  Proof.
    intros SC I IF TY ST. unfold set_opaque_pre. cbn [and_then].
    destruct (set_composite_pre_total x b es f I IF TY) as (q & E & Q). rewrite E. cbn [bind].
    destruct q; [|exists false; split; [reflexivity|discriminate]].
    destruct (Q eq_refl) as (pre & rest & l & z & ES & PL & R0 & SN & IL & S & T & H & FR & EA & EZ & Z0 & K & EL & LB & A8 & Z8).
    rewrite EA, EL. cbn [bind].
    destruct (Z.of_nat (length value) =? _) eqn:LEN; [|exists false; split; [reflexivity|discriminate]].
    exists true. split; [reflexivity|]. intros _. unfold set_opaque. rewrite EA, EL. cbn [bind].
    destruct (set_composite_total st x b es f I IF TY ST) as (q & E' & QC). assert (q = true) by congruence. subst q.
    destruct (QC eq_refl) as (y & EY). rewrite EY. cbn [bind].
    destruct (set_composite_inv s fields types constants W DET SC NO st x b es f y I IF TY ST E EY) as (p0 & r0 & e0 & _ & _ & _ & IY & _).
    pose proof (i_bounds _ _ _ _ _ _ _ IY) as (BB & _). rewrite BB.
    pose proof (i_bounds _ _ _ _ _ _ _ I) as BO. pose proof (run_bits s types constants NO _ _ b pre R0) as [FB _].
    assert (SL : exists d, slice b (Byte_Index (end_bit (x_first x) pre + 1)) (Byte_Index (end_bit (x_first x) pre + z)) = Ok d).
    { unfold slice. destruct (Z.leb_spec (Byte_Index (end_bit (x_first x) pre + 1)) (Byte_Index (end_bit (x_first x) pre + z))) as [Q1|]; [|eauto].
      destruct BO as (_ & _ & _ & _ & O1 & O2 & _).
      pose proof (byte_index_bounds (end_bit (x_first x) pre + 1)). pose proof (byte_index_bounds (end_bit (x_first x) pre + z)).
      pose proof (byte_index_bounds (x_first x)). pose proof (byte_index_bounds (x_last x)).
      destruct (Z.leb_spec (b_first b) (Byte_Index (end_bit (x_first x) pre + 1))); [|lia].
      destruct (Z.leb_spec (Byte_Index (end_bit (x_first x) pre + z)) (b_last b)); [|lia]. eexists. reflexivity. }
    destruct SL as (d & ->). cbn [bind]. rewrite LEN. eauto.
  Qed.
End Total.
