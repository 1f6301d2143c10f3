(** The setters keep the invariant. *)
From Coq Require Import String List ZArith Bool Lia Arith.
From Verif Require Import Base Expr ExprEval ExprMore MsgGraph MsgGraphFacts P_MsgGraph
  AdaTypes AdaBuffer AdaBufferFacts P_AdaTypes GenCode GenSpec GenFacts GenRun GenInv GenVerify GenMessage.
Import ListNotations.
Local Open Scope string_scope.
Local Open Scope list_scope.
Local Open Scope Z_scope.
Local Notation length := List.length.

(** ** Reset_Dependent_Fields *)
Lemma fold_reset c l : forall x,
  let y := fold_left (fun y g => set_cursor y g c) l x in
  (forall g, x_cursors y g = if memf g l then c else x_cursors x g) /\
  x_buffer_first y = x_buffer_first x /\ x_buffer_last y = x_buffer_last x /\ x_first y = x_first x /\ x_last y = x_last x /\
  x_message_last y = x_message_last x /\ x_buffer y = x_buffer x.
Proof.
  induction l as [|h l IH]; intros x; cbn [fold_left]; [cbn; auto 10|].
  destruct (IH (set_cursor x h c)) as (A & B). split; [|exact B].
  intros g. rewrite A. cbn [memf existsb set_cursor x_cursors]. fold (memf g l). unfold upd.
  destruct (String.eqb g h), (memf g l); reflexivity.
Qed.
Lemma reset_spec fields x f : NoDup fields -> In f fields ->
  let y := reset_dependent_fields fields x f in
  (forall g, x_cursors y g = if memf g (after f fields) then no_cursor S_Invalid FINAL
                             else if String.eqb g f then no_cursor S_Invalid (c_pred (x_cursors x f)) else x_cursors x g) /\
  x_buffer_first y = x_buffer_first x /\ x_buffer_last y = x_buffer_last x /\ x_first y = x_first x /\ x_last y = x_last x /\
  x_message_last y = x_message_last x /\ x_buffer y = x_buffer x.
Proof.
  intros ND IF. unfold reset_dependent_fields. cbn zeta.
  destruct (fold_reset (no_cursor S_Invalid FINAL) (rev (after f fields)) x) as (A & B).
  split; [|exact B]. intros g. cbn [set_cursor x_cursors].
  assert (M : forall h, memf h (rev (after f fields)) = memf h (after f fields)).
  { intros h. destruct (memf h (after f fields)) eqn:E.
    - apply memf_iff in E. apply memf_iff. now apply -> in_rev.
    - destruct (memf h (rev (after f fields))) eqn:E'; [|reflexivity]. apply memf_iff, in_rev, memf_iff in E'. congruence. }
  assert (NF : memf f (after f fields) = false).
  { destruct (memf f (after f fields)) eqn:E; [|reflexivity]. apply memf_iff, (in_after fields f f ND IF) in E. lia. }
  unfold upd. destruct (String.eqb_spec g f) as [->|NE].
  - rewrite NF, A, M, NF. reflexivity.
  - rewrite A, M. reflexivity.
Qed.

Lemma app_inj_len {A} (l l' r r' : list A) : l ++ r = l' ++ r' -> length l = length l' -> l = l' /\ r = r'.
Proof.
  revert l'. induction l as [|x l IH]; intros [|y l'] E K; cbn in *; try discriminate; [auto|].
  injection E as -> E. injection K as K. destruct (IH l' E K) as [-> ->]. auto.
Qed.

Lemma rank_inj l f g : In f l -> In g l -> rank l f = rank l g -> f = g.
Proof.
  intros I J E. destruct (split_at f l I) as [EF NF]. destruct (split_at g l J) as [EG NG].
  rewrite EF in E at 1. rewrite EG in E at 3. rewrite (rank_at _ _ _ NF), (rank_at _ _ _ NG) in E. injection E as E.
  destruct (app_inj_len _ _ _ _ (eq_trans (eq_sym EF) EG) E) as [_ X]. congruence.
Qed.

Section Set_.
  Context (s : list link) (fields : list field) (types : field -> ftype) (constants : name -> option Z).
  Local Notation run F L := (run s types constants F L).
  Local Notation step F L := (step s types constants F L).
  Local Notation place F L := (place s types constants F L).
  Local Notation leads_on F L := (leads_on s constants F L).
  Local Notation content := (content types).
  Local Notation holds F L := (holds constants F L).
  Local Notation env_of F L := (env_of constants F L).
  Local Notation look := (look fields types constants).
  Local Notation composite := (composite fields types).
  Local Notation Inv := (Inv s fields types constants).
  Local Notation rest_ok := (rest_ok s fields constants).
  Local Notation next := (next s constants).
  Local Notation matches := (matches fields types).
  Local Notation field_first := (field_first s fields types constants).
  Local Notation field_size := (field_size s fields types constants).
  Local Notation field_last := (field_last s fields types constants).
  Local Notation "x @ f" := (x_cursors x f) (at level 9, f at level 9).

  Context (W : wf s fields) (TS : forall f size vd, types f = FScalar size vd -> 1 <= size <= 64)
    (DET : deterministic s types constants) (SC : scoped s fields) (NO : no_overlay s).

  (** ** Fields that follow each other *)
  Lemma run_bits F L b es : run F L b es -> F <= end_bit F es + 1 /\ forall e, In e es -> F <= e_first e /\ e_last e <= end_bit F es.
  Proof.
    intros R. induction R as [|es e R [IH1 IH2] ST]; [cbn; split; [lia|intros e []]|].
    rewrite end_bit_snoc. destruct ST as ((l & z & I & _ & _ & _ & _ & A & _ & Z0 & B & FA & _) & _).
    rewrite (NO l I) in A. split; [lia|]. intros e' J. apply in_app_or in J as [J|[<-|[]]]; [|lia].
    destruct (IH2 e' J). lia.
  Qed.
  Lemma run_frame F L b b' es : run F L b es -> (forall i, F <= i <= end_bit F es -> bit_at b' i = bit_at b i) -> run F L b' es.
  Proof.
    intros R. induction R as [|es e R IH ST]; intros H; [constructor|].
    pose proof (run_bits F L b (es ++ [e]) ltac:(now constructor)) as [_ RB].
    destruct (RB e ltac:(apply in_or_app; right; now left)) as [Q1 Q2]. rewrite end_bit_snoc in *.
    destruct ST as (P & C & LD). pose proof P as (l & z & I & _ & _ & _ & _ & A & K & Z0 & B & FA & _). rewrite (NO l I) in A.
    constructor.
    - apply IH. intros i [I1 I2]. apply H. lia.
    - split; [exact P|]. split; [|exact LD]. unfold GenSpec.content in *. destruct (types (e_fld e)) as [size vd|]; [|exact C].
      destruct C as (C1 & C2 & C3). split; [exact C1|]. split; [|exact C3]. intros k KK. rewrite (C2 k KK), H; [reflexivity|]. lia.
  Qed.

  Section One.
    Context (x : context) (b : buffer) (es : list entry) (f : field).
    Local Notation F := (x_first x).
    Local Notation L := (x_last x).
    Hypothesis I : Inv x b es.
    Hypothesis IF : In f fields.
    Hypothesis VN : valid_next s fields types constants x f = Ok true.
    Hypothesis SP : sufficient_space s fields types constants x f = Ok true.

    Lemma no_final_pred g : ~ In FINAL (direct_predecessors s g).
    Proof.
      unfold direct_predecessors. intros J. apply (unique_In String.eqb String.eqb_eq), in_map_iff in J as (l & E & J).
      apply in_incoming in J as [J _]. destruct (wf_source _ _ W l J) as [X|X]; rewrite E in X; [discriminate X|].
      now apply (wf_final _ _ W).
    Qed.
    (** the field comes after [pre]; if it has been found before, [rest] starts with it *)
    Lemma cut : exists pre rest, es = pre ++ rest /\ c_pred (x @ f) = last_fld pre /\
      (rest = [] /\ ~ In f (map e_fld es) \/ exists e0 post, rest = e0 :: post /\ e_fld e0 = f).
    Proof.
      unfold valid_next in VN. destruct (valid_predecessor s fields types x f) eqn:VP; [|discriminate].
      destruct (in_dec String.string_dec f (map e_fld es)) as [J|J].
      - apply in_map_iff in J as (e & EF & J). apply in_split in J as (pre & post & ES).
        pose proof (i_cur _ _ _ _ _ _ _ I pre e post ES) as (_ & _ & P & _). rewrite EF in P. exists pre, (e :: post). eauto 8.
      - destruct (i_rest _ _ _ _ _ _ _ I f IF J) as [_ [PF|[PL _]]].
        + exfalso. unfold valid_predecessor in VP. apply existsb_exists in VP as (p & Q & E). apply andb_true_iff in E as [_ E].
          apply String.eqb_eq in E. rewrite PF in E. subst p. now apply no_final_pred in Q.
        + exists es, []. rewrite app_nil_r. auto.
    Qed.

    Context (pre rest : list entry).
    Hypothesis ES : es = pre ++ rest.
    Hypothesis PL : c_pred (x @ f) = last_fld pre.
    Hypothesis RT : rest = [] /\ ~ In f (map e_fld es) \/ exists e0 post, rest = e0 :: post /\ e_fld e0 = f.

    Local Lemma R : run F L b es.
    Proof. exact (i_run _ _ _ _ _ _ _ I). Qed.
    Local Lemma R0 : run F L b pre.
    Proof. pose proof R as R. rewrite ES in R. eapply run_prefix; eauto. Qed.
    Local Lemma rest_rank e : In e rest -> (rank fields f <= rank fields (e_fld e))%nat.
    Proof.
      intros J. destruct RT as [[-> _]|(e0 & post & -> & <-)]; [destruct J|]. destruct J as [<-|J]; [lia|].
      pose proof R as R. rewrite ES in R. pose proof (run_later s fields types constants W F L b pre e0 post e R J). lia.
    Qed.
    Local Lemma sees_pre l : In l s -> source l = last_fld pre -> sees fields types constants x pre l.
    Proof.
      intros IL S e n w IE J E. rewrite <- (env_scoped s fields types constants W SC F L b pre rest l e n).
      - rewrite <- ES. eapply look_sound; eauto; [exact R|]. eapply inv_covers; eauto.
      - rewrite <- ES. exact R.
      - exact IL.
      - exact S.
      - exact IE.
      - exact J.
    Qed.
    Local Lemma last_pre : pre <> [] -> c_last (x @ (last_fld pre)) = end_bit F pre.
    Proof.
      intros N. destruct (exists_last N) as (p & e & E). rewrite E, last_fld_snoc, end_bit_snoc.
      assert (ES' : es = p ++ e :: rest) by (rewrite ES, E, <- app_assoc; reflexivity).
      now destruct (i_cur _ _ _ _ _ _ _ I p e rest ES') as (_ & _ & _ & _ & A & _).
    Qed.
    Local Lemma the_link : exists l, In l s /\ source l = last_fld pre /\ target l = f /\ holds F L pre l.
    Proof.
      unfold valid_next in VN. destruct (valid_predecessor s fields types x f); [|discriminate].
      exact (path_link s fields types constants x pre f PL sees_pre VN).
    Qed.
    Lemma the_rank : (rank fields (last_fld pre) < rank fields f)%nat.
    Proof. destruct the_link as (l & IL & S & T & _). rewrite <- S, <- T. apply (wf_rank _ _ W l IL). now rewrite T. Qed.
    Lemma fresh : ~ In f (map e_fld pre).
    Proof. apply (run_fresh s fields types constants W F L b pre f R0 the_rank). Qed.

    (** where the field is *)
    Lemma placed : exists a z, field_first x f = Ok a /\ field_size x f = Ok z /\ place F L pre f a (a + z - 1) /\ a = end_bit F pre + 1.
    Proof.
      destruct the_link as (l & IL & S & T & H). pose proof R0 as R0.
      unfold sufficient_space, available_space in SP. pose proof SP as Q. clear SP. dbind Q av E. dbind E a EA. dbind Q z EZ.
      exists a, z. split; [exact EA|]. split; [exact EZ|].
      destruct (first_of s fields types constants W DET x b pre f R0 PL sees_pre (fun N _ => last_pre N) IF l IL S T H a EA) as [A _].
      rewrite (NO l IL) in A. split; [|exact A]. pose proof (run_bits F L b pre R0) as [FB _].
      unfold bit_length in E. destruct (_ && _) in E; [|discriminate]. apply Ok_inj in E. apply Ok_inj in Q. apply Z.leb_le in Q.
      eapply (place_of s fields types constants W DET x b pre f R0 PL sees_pre (fun N _ => last_pre N) IF l); eauto; lia.
    Qed.

    Context (a z : Z).
    Hypothesis EA : field_first x f = Ok a.
    Hypothesis EZ : field_size x f = Ok z.
    Hypothesis PC : place F L pre f a (a + z - 1).

    Lemma last_x q : field_last x f = Ok q -> q = a + z - 1.
    Proof. intros E. destruct (field_last_inv _ _ _ _ _ _ _ E) as (a1 & z1 & A1 & A2 & ->). congruence. Qed.

    (** Field_Condition, evaluated before anything is changed *)
    Lemma leads_x v sz : (sz = z \/ forall l, In l s -> source l = f -> ~ In (NAttr ASize f) (names (condition l))) ->
      field_cond s fields types constants x f v sz = Ok true -> leads_on F L (pre ++ [mkEntry f a (a + z - 1) v]).
    Proof.
      intros SZ. apply field_cond_true; auto.
      - exact fresh.
      - intros l n w IL S J N E.
        assert (E2 : env_of F L es n = w) by (eapply look_sound; eauto; [exact R|eapply inv_covers; eauto]).
        rewrite <- E2, ES. symmetry. apply env_prefix. intros Q. apply in_map_iff in Q as (e & EQ & Q).
        assert (IE : In (e_fld e) fields) by (eapply run_in_fields; [exact W|exact R|rewrite ES; apply in_or_app; now right]).
        destruct (SC l (condition l) n IL (or_introl eq_refl) J) as [_ UP]; [now rewrite <- EQ|].
        rewrite S in UP. apply (in_upto fields _ _ (wf_nodup _ _ W) IF) in UP. rewrite <- EQ in UP.
        destruct RT as [[RN _]|(e0 & post & RE & EF)]; [rewrite RN in Q; destruct Q|]. rewrite RE in Q. destruct Q as [<-|Q]; [congruence|].
        pose proof R as R. rewrite ES, RE in R. pose proof (run_later s fields types constants W F L b pre e0 post e R Q). rewrite EF in *. lia.
      - intros V. destruct RT as [[_ N]|(e0 & post & RE & EF)].
        + destruct (i_rest _ _ _ _ _ _ _ I f IF N) as [V' _]. congruence.
        + pose proof ES as ES'. rewrite RE in ES'. destruct (i_cur _ _ _ _ _ _ _ I pre e0 post ES') as (_ & _ & _ & A & _). rewrite EF in A. rewrite A.
          pose proof R as R. rewrite ES' in R. pose proof (run_step _ _ _ _ _ _ _ _ _ R) as (P0 & _).
          destruct (place_unique s types constants F L DET b pre _ _ _ _ _ _ R0 P0 PC) as (_ & Q & _). exact Q.
      - exact last_x.
    Qed.

    (** the context after the dependent fields are reset *)
    Local Notation xr := (reset_dependent_fields fields x f).
    Lemma reset_early g : (rank fields g < rank fields f)%nat -> xr @ g = x @ g.
    Proof.
      intros K. destruct (reset_spec fields x f (wf_nodup _ _ W) IF) as (A & _). rewrite A.
      destruct (memf g (after f fields)) eqn:M.
      - apply memf_iff, (in_after fields f g (wf_nodup _ _ W) IF) in M. lia.
      - destruct (String.eqb_spec g f) as [->|]; [lia|reflexivity].
    Qed.
    Lemma reset_pred : c_pred (xr @ f) = last_fld pre.
    Proof.
      destruct (reset_spec fields x f (wf_nodup _ _ W) IF) as (A & _). rewrite A, String.eqb_refl.
      destruct (memf f (after f fields)) eqn:M; [|exact PL].
      apply memf_iff, (in_after fields f f (wf_nodup _ _ W) IF) in M. lia.
    Qed.
    Lemma reset_late g : In g fields -> (rank fields f <= rank fields g)%nat -> structural_valid (xr @ g) = false.
    Proof.
      intros IG K. destruct (reset_spec fields x f (wf_nodup _ _ W) IF) as (A & _). rewrite A.
      destruct (memf g (after f fields)) eqn:M; [reflexivity|]. destruct (String.eqb_spec g f) as [->|N]; [reflexivity|exfalso].
      destruct (le_lt_dec (rank fields g) (rank fields f)) as [Q|Q].
      - apply N. apply (rank_inj fields); [exact IG|exact IF|lia].
      - apply (in_after fields f g (wf_nodup _ _ W) IF), memf_iff in Q. congruence.
    Qed.
    Lemma reset_covers : covers fields xr pre.
    Proof.
      intros g IG V. destruct (le_lt_dec (rank fields f) (rank fields g)) as [K|K].
      - rewrite (reset_late g IG K) in V. discriminate.
      - rewrite (reset_early g K) in *. destruct (inv_covers _ _ _ _ _ _ _ I g IG V) as (e & J & EF & E).
        exists e. split; [|auto]. rewrite ES in J. apply in_app_or in J as [J|J]; [exact J|exfalso].
        pose proof (rest_rank e J). rewrite EF in *. lia.
    Qed.
    Lemma reset_bounds : x_first xr = F /\ x_last xr = L /\ bounds_ok xr b.
    Proof.
      destruct (reset_spec fields x f (wf_nodup _ _ W) IF) as (_ & A & B & C & D & _ & E).
      split; [exact C|]. split; [exact D|]. pose proof (i_bounds _ _ _ _ _ _ _ I) as BO. unfold bounds_ok in *. rewrite A, B, C, D, E. exact BO.
    Qed.
    Lemma reset_place a' z' : (field_first xr f = Ok a' -> a' = a) /\ (field_size xr f = Ok z' -> z' = z).
    Proof.
      destruct reset_bounds as (EF & EL & _). pose proof R0 as R0'. rewrite <- EF, <- EL in R0'.
      assert (SE : forall l, In l s -> source l = last_fld pre -> sees fields types constants xr pre l).
      { intros l _ _. exact (covers_sees s fields types constants W xr b pre l R0' reset_covers). }
      assert (LA : pre <> [] -> structural_valid (xr @ (last_fld pre)) = true -> c_last (xr @ (last_fld pre)) = end_bit (x_first xr) pre).
      { intros N _. rewrite EF, (reset_early _ the_rank). now apply last_pre. }
      destruct the_link as (l & IL & S & T & H). pose proof H as H'. rewrite <- EF, <- EL in H'.
      split; intros E.
      - destruct (first_of s fields types constants W DET xr b pre f R0' reset_pred SE LA IF l IL S T H' a' E) as [A' _].
        destruct (first_of s fields types constants W DET x b pre f R0 PL sees_pre (fun N _ => last_pre N) IF l IL S T H a EA) as [A _].
        rewrite EF in A'. rewrite (NO l IL) in A, A'. congruence.
      - destruct (size_of s fields types constants W DET xr b pre f R0' reset_pred SE IF l IL S T H' z' E) as [Z' _].
        destruct (size_of s fields types constants W DET x b pre f R0 PL sees_pre IF l IL S T H z EZ) as [Z0 _].
        rewrite EF, EL in Z'. destruct (types f); [congruence|]. destruct Z' as (e1 & Q1 & Q2), Z0 as (e2 & Q3 & Q4). congruence.
    Qed.

    Local Notation e v := (mkEntry f a (a + z - 1) v).
    Lemma finish st y b' v x' : (forall g, y @ g = xr @ g) -> x_first y = F -> x_last y = L -> bounds_ok y b' ->
      run F L b' (pre ++ [e v]) -> st = S_Valid \/ st = S_Structural_Valid /\ composite f = true ->
      enter_field s fields types constants st y f a (a + z - 1) v = Ok x' ->
      Inv x' b' (pre ++ [e v]) /\ x_first x' = F /\ x_last x' = L /\
      forall g, In g fields -> (rank fields g < rank fields f)%nat -> x' @ g = x @ g.
    Proof.
      intros CY EF EL BY RR ST E. unfold enter_field in E. cbn zeta in E. dbind E n SU. apply Ok_inj in E. subst x'.
      change (x_cursors (set_message_last y (a + z - 1)) f) with (y @ f) in *.
      set (x2 := set_cursor (set_message_last y (a + z - 1)) f (mkCursor st (c_pred (y @ f)) a (a + z - 1) f v)) in *.
      assert (OTHER : forall g, g <> f -> x2 @ g = xr @ g).
      { intros g N. unfold x2. cbn [set_cursor set_message_last x_cursors]. rewrite upd_other by exact N. apply CY. }
      assert (EN : Inv (set_cursor x2 n (no_cursor S_Invalid f)) b' (pre ++ [e v]) /\
                   next (x_first x2) (x_last x2) (pre ++ [e v]) n /\ ~ In n (map e_fld (pre ++ [e v]))).
      2:{ destruct EN as (EN & (l & IL & S & T & _) & _). split; [exact EN|]. split; [exact EF|]. split; [exact EL|].
          intros g IG K. cbn [set_cursor x_cursors]. rewrite last_fld_snoc in S. cbn [e_fld] in S.
          rewrite upd_other.
          - rewrite (OTHER g) by (intros ->; lia). now apply reset_early.
          - intros ->. pose proof (wf_rank _ _ W l IL ltac:(now rewrite T)) as K2. rewrite S, T in K2. lia. }
      apply (enter s fields types constants W DET x2 b' pre (e v) n).
      - change (x_first x2) with (x_first y). change (x_last x2) with (x_last y). now rewrite EF, EL.
      - exact BY.
      - intros p e' post E. apply snoc_split in E as [(-> & -> & ->)|(post' & -> & E)].
        + cbn [e_fld]. unfold x2. cbn [set_cursor x_cursors]. rewrite upd_same. unfold GenInv.matches.
          cbn [c_pred c_first c_last c_fld c_value e_fld e_first e_last e_val]. rewrite CY, reset_pred.
          split; [destruct ST as [->|[-> _]]; reflexivity|]. split; [|auto]. intros CF. destruct ST as [->|[_ X]]; [reflexivity|congruence].
        + assert (EP : In e' pre) by (rewrite E; apply in_or_app; right; now left).
          pose proof (run_rank s fields types constants W F L b pre e' R0 EP) as K. pose proof the_rank as TR.
          assert (NE : e_fld e' <> f) by (intros Q; rewrite Q in K; lia).
          rewrite (OTHER _ NE), reset_early by lia.
          apply (i_cur _ _ _ _ _ _ _ I p e' (post' ++ rest)). rewrite ES, E, <- app_assoc. reflexivity.
      - intros g IG J. assert (NG : g <> f) by (intros ->; apply J; rewrite map_app; apply in_or_app; right; now left).
        assert (NP : ~ In g (map e_fld pre)) by (intros Q; apply J; rewrite map_app; apply in_or_app; now left).
        unfold GenInv.rest_ok. rewrite (OTHER g NG).
        change (x_first x2) with (x_first y). change (x_last x2) with (x_last y). rewrite EF, EL.
        destruct (le_lt_dec (rank fields f) (rank fields g)) as [K|K].
        + split; [now apply reset_late|]. left. destruct (reset_spec fields x f (wf_nodup _ _ W) IF) as (A & _).
          pose proof (reset_late g IG K) as V. rewrite A in *. destruct (memf g (after f fields)) eqn:M; [reflexivity|exfalso].
          destruct (String.eqb_spec g f) as [|_]; [contradiction|].
          destruct (le_lt_dec (rank fields g) (rank fields f)) as [Q|Q].
          * apply NG. apply (rank_inj fields); [exact IG|exact IF|lia].
          * apply (in_after fields f g (wf_nodup _ _ W) IF), memf_iff in Q. congruence.
        + rewrite (reset_early g K). assert (NS : ~ In g (map e_fld es)).
          { rewrite ES, map_app. intros Q. apply in_app_or in Q as [Q|Q]; [auto|]. apply in_map_iff in Q as (e' & <- & Q).
            pose proof (rest_rank e' Q). lia. }
          destruct (i_rest _ _ _ _ _ _ _ I g IG NS) as [V [PF|[PG NX]]]; (split; [exact V|]); [now left|].
          destruct RT as [[RN _]|(e0 & post & RE & EF0)].
          * assert (EP : es = pre) by (rewrite ES, RN; apply app_nil_r). right. rewrite <- EP. auto.
          * exfalso. destruct NX as [(l & IL & S & T & _)|[X _]].
            -- assert (IN0 : In e0 es) by (rewrite ES, RE; apply in_or_app; right; now left).
               pose proof (run_rank s fields types constants W F L b es e0 R IN0) as K2.
               pose proof (wf_rank _ _ W l IL ltac:(now rewrite T)) as K3. rewrite S, T in K3. rewrite EF0 in K2. lia.
            -- rewrite X in ES. rewrite RE in ES. destruct pre; discriminate.
      - reflexivity.
      - exact SU.
    Qed.
  End One.

  Lemma and_then_cons r l : and_then (r :: l) = Ok true -> r = Ok true /\ and_then l = Ok true.
  Proof. cbn [and_then]. intros E. dbind E c E1. destruct c; [auto|discriminate]. Qed.

  (** What a setter does: the fields before [f] are as they were, [f] is added. *)
  Definition set_result (x : context) (b : buffer) (es : list entry) (f : field) (v : Z) (x' : context) (b' : buffer) : Prop :=
    exists pre rest e, es = pre ++ rest /\ e_fld e = f /\ e_val e = v /\ Inv x' b' (pre ++ [e]) /\
      x_first x' = x_first x /\ x_last x' = x_last x /\ e_first e = end_bit (x_first x) pre + 1 /\
      b_first b' = b_first b /\ length (b_data b') = length (b_data b) /\
      (rest = [] \/ exists e0 post, rest = e0 :: post /\ e_fld e0 = f) /\
      forall g, In g fields -> (rank fields g < rank fields f)%nat -> x' @ g = x @ g.

  Lemma bounds_buffer y b b' : bounds_ok y b -> wf_buf b' -> b_first b' = b_first b -> length (b_data b') = length (b_data b) ->
    bounds_ok (set_buffer y (Some b')) b'.
  Proof.
    intros (A & B & C & D & E) WB EF EL. unfold bounds_ok, set_buffer. cbn [x_buffer x_buffer_first x_buffer_last x_first x_last].
    assert (LL : b_last b' = b_last b) by (unfold b_last; now rewrite EF, EL).
    rewrite EF, LL. split; [reflexivity|]. split; [exact WB|]. split; [exact C|]. split; [exact D|exact E].
  Qed.

  Theorem set_scalar_inv x b es f size vd v x' : Inv x b es -> In f fields -> types f = FScalar size vd -> 0 <= v < 2 ^ size ->
    (forall l, In l s -> source l = f -> ~ In (NAttr ASize f) (names (condition l))) ->
    set_scalar_pre s fields types constants x f v = Ok true -> set_scalar s fields types constants x f v = Ok x' ->
    exists b', set_result x b es f v x' b' /\
      forall i, First_Bit_Index (b_first b) <= i -> i < c_first (x' @ f) \/ c_last (x' @ f) < i -> bit_at b' i = bit_at b i.
  Proof.
    intros I IF T VR OS PRE E. unfold set_scalar_pre in PRE.
    apply and_then_cons in PRE as [_ PRE]. apply and_then_cons in PRE as [VN PRE]. apply and_then_cons in PRE as [FC PRE].
    apply and_then_cons in PRE as [VV PRE]. apply and_then_cons in PRE as [SP _].
    destruct (cut x b es f I IF VN) as (pre & rest & ES & PL & RT).
    destruct (placed x b es f I IF VN SP pre rest ES PL) as (a & z & EA & EZ & PC & AE).
    unfold set_scalar in E. dbind E r ER. destruct r as [[x1 a1] l1]. unfold set_field_value in ER.
    dbind ER a2 EA2. dbind ER l2 EL2. destruct (field_last_inv _ _ _ _ _ _ _ EL2) as (a3 & z3 & EA3 & EZ3 & ->).
    destruct (reset_place x b es f I IF VN SP pre rest ES PL RT a z EA EZ a2 z3) as [QA QZ].
    pose proof (QA EA2). pose proof (QZ EZ3). subst a2 z3. assert (a3 = a) by congruence. subst a3.
    rewrite T in ER. destruct (reset_bounds x b es f I IF) as (RF & RL & RB). pose proof RB as (RBB & RBW & _). rewrite RBB in ER.
    dbind ER b' EB. apply Ok_inj in ER. injection ER as <- <- <-.
    pose proof (TS _ _ _ T) as TZ.
    assert (ZS : z = size) by (destruct PC as (l & k & _ & _ & _ & _ & _ & _ & K & _ & B & _); rewrite T in K; subst k; clear -B; lia). subst z.
    pose proof PC as (l0 & k0 & _ & _ & _ & _ & _ & _ & _ & _ & _ & FA & LB).
    assert (INB : in_buf b a (a + size - 1)) by (apply (in_range (reset_dependent_fields fields x f)); [exact RB|rewrite RF; exact FA|rewrite RL; exact LB]).
    destruct (write_field_spec size b a (a + size - 1)) with (v := v) as (b1 & EB1 & WB1 & BF1 & BL1 & BI & BO); try assumption; try lia.
    assert (b1 = b') by congruence. subst b1.
    set (e := mkEntry f a (a + size - 1) v).
    pose proof (R0 x b es I pre rest ES) as R0.
    assert (RR : run (x_first x) (x_last x) b' (pre ++ [e])).
    { constructor.
      - apply (run_frame _ _ b); [exact R0|]. intros i [I1 I2]. apply BO; [|left; lia].
        destruct INB as [_ _]. pose proof (i_bounds _ _ _ _ _ _ _ I) as (_ & _ & _ & _ & B1 & _).
        unfold First_Bit_Index. pose proof (byte_index_bounds (x_first x)). lia.
      - split; [exact PC|]. split.
        + unfold GenSpec.content, e. cbn [e_fld e_val e_last]. rewrite T. split; [exact VR|]. split.
          * intros k K. symmetry. now apply BI.
          * unfold valid_value in VV. rewrite T in VV. apply Ok_inj in VV. exact VV.
        + eapply leads_x; eauto. }
    destruct (finish x b es f I IF VN SP pre rest ES PL RT a size PC S_Valid (set_buffer (reset_dependent_fields fields x f) (Some b')) b' v x')
      as (IN & F' & L' & BE); auto.
    { apply (bounds_buffer _ b); auto. }
    exists b'. split.
    - exists pre, rest, e. repeat (split; [solve [auto]|]). split; [destruct RT as [[RN _]|RT]; auto|exact BE].
    - intros i I1 I2. apply BO; [exact I1|].
      pose proof (i_cur _ _ _ _ _ _ _ IN pre e [] eq_refl) as (_ & _ & _ & C1 & C2 & _). unfold e in C1, C2. cbn [e_fld e_first e_last] in C1, C2.
      rewrite C1, C2 in I2. exact I2.
  Qed.

  (** composite fields *)
  Lemma set_composite_pre_inv x f : set_composite_pre s fields types constants x f = Ok true ->
    valid_next s fields types constants x f = Ok true /\ sufficient_space s fields types constants x f = Ok true /\
    (exists z, field_size x f = Ok z /\ field_cond s fields types constants x f 0 z = Ok true /\ z mod 8 = 0) /\
    (exists a, field_first x f = Ok a /\ a mod 8 = 1).
  Proof.
    unfold set_composite_pre. intros PRE.
    apply and_then_cons in PRE as [_ PRE]. apply and_then_cons in PRE as [VN PRE]. apply and_then_cons in PRE as [FC PRE].
    apply and_then_cons in PRE as [SP PRE]. apply and_then_cons in PRE as [A PRE]. apply and_then_cons in PRE as [Z' _].
    split; [exact VN|]. split; [exact SP|]. split.
    - dbind FC z EZ. exists z. split; [exact EZ|]. split; [exact FC|]. rewrite EZ in Z'. cbn [bind] in Z'. apply Ok_inj in Z'. now apply Z.eqb_eq.
    - dbind A a EA. exists a. split; [exact EA|]. apply Ok_inj in A. now apply Z.eqb_eq.
  Qed.

  Theorem set_composite_inv st x b es f x' : Inv x b es -> In f fields -> types f = FComposite ->
    st = S_Valid \/ st = S_Structural_Valid ->
    set_composite_pre s fields types constants x f = Ok true -> set_composite s fields types constants st x f = Ok x' ->
    set_result x b es f 0 x' b.
  Proof.
    intros I IF T ST PRE E. destruct (set_composite_pre_inv x f PRE) as (VN & SP & (z' & EZ' & FC & _) & _).
    destruct (cut x b es f I IF VN) as (pre & rest & ES & PL & RT).
    destruct (placed x b es f I IF VN SP pre rest ES PL) as (a & z & EA & EZ & PC & AE).
    assert (z' = z) by congruence. subst z'.
    unfold set_composite in E. rewrite EA in E. cbn [bind] in E. dbind E l EL.
    pose proof (last_x x f a z EA EZ l EL). subst l.
    destruct (reset_bounds x b es f I IF) as (RF & RL & RB).
    set (e := mkEntry f a (a + z - 1) 0).
    assert (CF : composite f = true) by (unfold GenCode.composite; rewrite T; now apply memf_iff).
    assert (RR : run (x_first x) (x_last x) b (pre ++ [e])).
    { constructor; [exact (R0 x b es I pre rest ES)|]. split; [exact PC|]. split.
      - unfold GenSpec.content, e. cbn [e_fld e_val]. now rewrite T.
      - eapply leads_x; eauto. }
    destruct (finish x b es f I IF VN SP pre rest ES PL RT a z PC st (reset_dependent_fields fields x f) b 0 x') as (IN & F' & L' & BE); auto.
    { destruct ST as [->| ->]; auto. }
    exists pre, rest, e. repeat (split; [solve [auto]|]). split; [destruct RT as [[RN _]|RT]; auto|exact BE].
  Qed.

  Lemma put_slice_nil b f : b_first b <= f -> put_slice b f [] = b.
  Proof. intros H. unfold put_slice. cbn [app List.length]. rewrite Nat.add_0_r, firstn_skipn. now destruct b. Qed.

  (** writing the bytes of a field that starts at a byte *)
  Lemma put_slice_field b a l value : wf_buf b -> wf_buffer value -> in_buf b a l -> a mod 8 = 1 -> a <= l + 1 -> (l - a + 1) mod 8 = 0 ->
    Z.of_nat (length value) = Byte_Index l - Byte_Index a + 1 -> b_first b <= Byte_Index a ->
    let b' := put_slice b (Byte_Index a) value in
    wf_buf b' /\ b_first b' = b_first b /\ length (b_data b') = length (b_data b) /\
    (forall i, First_Bit_Index (b_first b) <= i -> i < a \/ l < i -> bit_at b' i = bit_at b i) /\
    slice b' (Byte_Index a) (Byte_Index l) = Ok value.
  Proof.
    intros [WB1 WB2] WV [IN1 IN2] A8 AL L8 LEN BF. cbn zeta.
    unfold First_Bit_Index, Last_Bit_Index in *.
    assert (EA : a = 8 * (Byte_Index a - 1) + 1).
    { pose proof (bit_in_byte a) as Q. pose proof (byte_index_bounds a). pose proof (Z.div_mod a 8 ltac:(lia)).
      assert (X : (a - 1) mod 8 = 0) by (rewrite (Z.div_mod a 8) by lia; rewrite A8; replace (8 * (a / 8) + 1 - 1) with ((a / 8) * 8) by lia; apply Z.mod_mul; lia). lia. }
    assert (EL : l = 8 * Byte_Index l).
    { pose proof (Z.div_mod (l - a + 1) 8 ltac:(lia)) as D. rewrite L8, Z.add_0_r in D.
      assert (X : l = 8 * (Byte_Index a - 1 + (l - a + 1) / 8)) by lia.
      rewrite X at 2. rewrite (byte_index_eq _ (Byte_Index a - 1 + (l - a + 1) / 8)); lia. }
    destruct (Z.eq_dec (a) (l + 1)) as [Q|N].
    - assert (VN : value = []) by (destruct value; [reflexivity|cbn [List.length] in LEN; lia]). subst value.
      rewrite put_slice_nil by exact BF. split; [split; assumption|]. split; [reflexivity|]. split; [reflexivity|]. split; [auto|].
      unfold slice. destruct (Z.leb_spec (Byte_Index a) (Byte_Index l)); [lia|reflexivity].
    - assert (C : Byte_Index a <= Byte_Index l) by lia.
      assert (D : Byte_Index l <= b_last b) by lia.
      split; [|split; [reflexivity|]].
      + split; [exact WB1|]. eapply put_slice_wf; eauto.
      + split; [eapply put_slice_same_length; eauto|]. split.
        * intros i I1 I2. eapply put_slice_outside; eauto.
          -- pose proof (byte_index_bounds i). lia.
          -- destruct I2 as [I2|I2]; pose proof (byte_index_bounds i); lia.
        * eapply put_slice_slice; eauto.
  Qed.

  Theorem set_opaque_inv st x b es f value x' : Inv x b es -> In f fields -> types f = FComposite ->
    st = S_Valid \/ st = S_Structural_Valid -> wf_buffer value ->
    set_opaque_pre s fields types constants x f value = Ok true -> set_opaque s fields types constants st x f value = Ok x' ->
    exists b', set_result x b es f 0 x' b' /\
      slice b' (Byte_Index (c_first (x' @ f))) (Byte_Index (c_last (x' @ f))) = Ok value /\
      forall i, First_Bit_Index (b_first b) <= i -> i < c_first (x' @ f) \/ c_last (x' @ f) < i -> bit_at b' i = bit_at b i.
  Proof.
    intros I IF T ST WV PRE E. unfold set_opaque_pre in PRE. apply and_then_cons in PRE as [PRE PL]. apply and_then_cons in PL as [PL _].
    destruct (set_composite_pre_inv x f PRE) as (VN & SP & (z & EZ & FC & Z8) & (a & EA & A8)).
    unfold set_opaque in E. dbind E a1 EA1. assert (a1 = a) by congruence. subst a1.
    dbind E l EL. pose proof (last_x x f a z EA EZ l EL). subst l.
    dbind E y EY. pose proof (set_composite_inv st x b es f y I IF T ST PRE EY) as (pre & rest & e & ES & EF & EV & IN & F' & L' & AE & _ & _ & RT & BE).
    pose proof (i_bounds _ _ _ _ _ _ _ IN) as BY. pose proof BY as (BB & WB & _). rewrite BB in E.
    dbind E d ED. rewrite EA, EL in PL. cbn [bind] in PL. apply Ok_inj in PL.
    rewrite PL in E. apply Ok_inj in E. subst x'. apply Z.eqb_eq in PL.
    pose proof (i_cur _ _ _ _ _ _ _ IN pre e [] eq_refl) as (_ & _ & _ & C1 & C2 & _). rewrite EF in C1, C2.
    (* the positions of e *)
    assert (EE : e_first e = a /\ e_last e = a + z - 1).
    { unfold set_composite in EY. rewrite EA, EL in EY. cbn [bind] in EY. unfold enter_field in EY. cbn zeta in EY.
      dbind EY n SU. apply Ok_inj in EY.
      assert (NF : n <> f).
      { intros ->. pose proof (i_cur _ _ _ _ _ _ _ IN pre e [] eq_refl) as (SV & _). rewrite EF in SV. rewrite <- EY in SV.
        cbn [set_cursor x_cursors] in SV. rewrite upd_same in SV. discriminate. }
      rewrite <- C1, <- C2, <- EY. cbn [set_cursor x_cursors]. rewrite upd_other by auto. rewrite upd_same. auto. }
    destruct EE as [E1 E2]. rewrite E1 in C1. rewrite E2 in C2.
    pose proof (i_run _ _ _ _ _ _ _ IN) as RN. rewrite F', L' in RN.
    apply run_snoc_inv in RN as RS. destruct RS as [RP (PC & CT & LD)].
    assert (FA : x_first x <= a /\ a + z - 1 <= x_last x /\ 0 <= z).
    { destruct PC as (l0 & k0 & _ & _ & _ & _ & _ & _ & _ & K0 & B & FA & LB). lia. }
    assert (INB : in_buf b a (a + z - 1)) by (apply (in_range y); [exact BY|lia|lia]).
    assert (BFA : b_first b <= Byte_Index a).
    { pose proof BY as (_ & _ & _ & _ & B1 & _). rewrite F' in B1. pose proof (byte_index_mono (x_first x) a ltac:(lia)). lia. }
    destruct (put_slice_field b a (a + z - 1) value) as (WB' & BF' & BL' & BO & SL); auto; try lia.
    { replace (a + z - 1 - a + 1) with z by lia. exact Z8. }
    set (b' := put_slice b (Byte_Index a) value) in *.
    change (x_cursors (set_buffer y (Some b')) f) with (y @ f). rewrite C1, C2.
    exists b'. split; [|split; [exact SL|exact BO]].
    exists pre, rest, e. split; [exact ES|]. split; [exact EF|]. split; [exact EV|]. split.
    - destruct IN as [IB IR IC IRE IL]. constructor.
      + apply (bounds_buffer _ b); auto.
      + change (x_first (set_buffer y (Some b'))) with (x_first y). change (x_last (set_buffer y (Some b'))) with (x_last y). rewrite F', L'.
        constructor.
        * apply (run_frame _ _ b); [exact RP|]. intros i [I1 I2]. apply BO; [|left; lia].
          pose proof IB as (_ & _ & _ & _ & B1 & _). rewrite F' in B1. unfold First_Bit_Index. pose proof (byte_index_bounds (x_first x)). lia.
        * split; [exact PC|]. split; [|exact LD]. unfold GenSpec.content in *. rewrite EF, T in *. exact CT.
      + exact IC.
      + exact IRE.
      + exact IL.
    - change (x_first (set_buffer y (Some b'))) with (x_first y). change (x_last (set_buffer y (Some b'))) with (x_last y). auto 10.
  Qed.
End Set_.
