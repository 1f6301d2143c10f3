(** C32: the verification cache never vouches for an unverified message. *)
From Coq Require Import String Ascii List Bool Arith Lia.
From Verif Require Import Cache.
Import ListNotations.
Local Open Scope string_scope.
Local Open Scope list_scope.
Local Open Scope nat_scope.

Lemma app_assoc_s (a b c : string) : ((a ++ b) ++ c = a ++ (b ++ c))%string.
Proof. induction a; cbn; congruence. Qed.
Lemma app_nil_s (a : string) : (a ++ "")%string = a.
Proof. induction a; cbn; congruence. Qed.
Lemma length_app_s (a b : string) : String.length (a ++ b) = String.length a + String.length b.
Proof. induction a; cbn; congruence. Qed.
Lemma app_cancel_s (a b : string) : (a ++ b)%string = a -> b = "".
Proof. intros H. apply (f_equal String.length) in H. rewrite length_app_s in H. destruct b; [reflexivity|cbn in H; lia]. Qed.

(** reading what was written *)
Lemma p_chars_escape s : forall r, p_chars (escape s ++ String quote_char r) = Some (s, r).
Proof.
  induction s as [|c s IH]; intros r; cbn [escape String.append]; [cbn; reflexivity|].
  destruct (Ascii.eqb c quote_char || Ascii.eqb c backslash) eqn:E; cbn [String.append p_chars].
  - change (Ascii.eqb backslash quote_char) with false. change (Ascii.eqb backslash backslash) with true.
    cbn iota. rewrite E, IH. reflexivity.
  - apply orb_false_iff in E as [-> ->]. rewrite IH. reflexivity.
Qed.
Lemma p_string_quoted s r : p_string (quoted s ++ r) = Some (s, r).
Proof. unfold quoted. cbn [String.append p_string]. rewrite Ascii.eqb_refl, app_assoc_s. apply p_chars_escape. Qed.
Lemma p_expect_app w r : p_expect w (w ++ r) = Some r.
Proof. induction w as [|c w IH]; cbn; [reflexivity|]. now rewrite Ascii.eqb_refl. Qed.
Lemma members_cons kv d r : (members (kv :: d) ++ "}" ++ r)%string =
  (quoted (fst kv) ++ ": " ++ quoted (snd kv) ++ match d with [] => "}" ++ r | _ => ", " ++ members d ++ "}" ++ r end)%string.
Proof. destruct d; cbn [members]; unfold member; now rewrite ?app_assoc_s. Qed.
Lemma p_members_dump d : d <> [] -> forall n r, List.length d <= n -> p_members n (members d ++ "}" ++ r) = Some (d, r).
Proof.
  induction d as [|[k v] d IH]; [congruence|]. intros _ [|n] r L; [cbn in L; lia|].
  rewrite members_cons. cbn [p_members fst snd]. rewrite p_string_quoted, p_expect_app, p_string_quoted.
  destruct d as [|kv d].
  - rewrite p_expect_app. reflexivity.
  - change (p_expect "}" (", " ++ members (kv :: d) ++ "}" ++ r)) with (@None string).
    rewrite p_expect_app, IH; [reflexivity|discriminate|cbn in *; lia].
Qed.
Lemma members_length d : List.length d <= S (String.length (members d)).
Proof.
  induction d as [|kv d IH]; [cbn; lia|]. destruct d as [|kv' d]; [cbn [members List.length]; lia|].
  change (members (kv :: kv' :: d)) with (member kv ++ ", " ++ members (kv' :: d))%string.
  rewrite !length_app_s. cbn [List.length String.length] in *. lia.
Qed.
Lemma p_object_dump d n r : List.length d <= n -> p_object n (dump d ++ r) = Some (d, r).
Proof.
  intros L. unfold p_object, dump. rewrite !app_assoc_s. rewrite p_expect_app.
  destruct d as [|kv d].
  - cbn [members]. change ("" ++ ("}" ++ r))%string with ("}" ++ r)%string. rewrite p_expect_app. reflexivity.
  - replace (p_expect "}" (members (kv :: d) ++ "}" ++ r)) with (@None string).
    + apply p_members_dump; [discriminate|exact L].
    + rewrite members_cons. unfold quoted. cbn [String.append p_expect]. reflexivity.
Qed.
(** what was read stays read if the text goes on *)
Lemma p_chars_more s : forall v r t, p_chars s = Some (v, r) -> p_chars (s ++ t) = Some (v, (r ++ t)%string).
Proof.
  induction s as [s IH] using (induction_ltof1 _ String.length). unfold ltof in IH. intros v r t H.
  destruct s as [|c s]; [discriminate|]. cbn in H |- *. destruct (Ascii.eqb c quote_char).
  - injection H as <- <-. reflexivity.
  - destruct (Ascii.eqb c backslash).
    + destruct s as [|c' s]; [discriminate|]. cbn. destruct (_ || _); [|discriminate].
      destruct (p_chars s) as [[v' r']|] eqn:P; [|discriminate]. injection H as <- <-.
      rewrite (IH s ltac:(cbn; lia) _ _ t P). reflexivity.
    + destruct (p_chars s) as [[v' r']|] eqn:P; [|discriminate]. injection H as <- <-.
      rewrite (IH s ltac:(cbn; lia) _ _ t P). reflexivity.
Qed.
Lemma p_string_more s v r t : p_string s = Some (v, r) -> p_string (s ++ t) = Some (v, (r ++ t)%string).
Proof. destruct s as [|c s]; [discriminate|]. cbn. destruct (Ascii.eqb c quote_char); [|discriminate]. apply p_chars_more. Qed.
Lemma p_expect_more w : forall s r t, p_expect w s = Some r -> p_expect w (s ++ t) = Some (r ++ t)%string.
Proof.
  induction w as [|c w IH]; intros s r t H; cbn in H.
  - destruct s; injection H as <-; reflexivity.
  - destruct s as [|c' s]; [discriminate|]. cbn. destruct (Ascii.eqb c c'); [auto|discriminate].
Qed.
(** a text that does not begin with "}" but is not empty *)
Lemma p_brace_none s t : s <> "" -> p_expect "}" s = None -> p_expect "}" (s ++ t) = None.
Proof. destruct s as [|c s]; [congruence|]. intros _. cbn [p_expect String.append]. destruct (Ascii.eqb "}" c); [discriminate|reflexivity]. Qed.
Lemma p_members_more n : forall s d r t, p_members n s = Some (d, r) -> p_members n (s ++ t) = Some (d, (r ++ t)%string).
Proof.
  induction n as [|n IH]; intros s d r t H; [discriminate|]. cbn [p_members] in *.
  destruct (p_string s) as [[k r1]|] eqn:A; [|discriminate]. rewrite (p_string_more _ _ _ t A).
  destruct (p_expect ": " r1) as [r2|] eqn:B; [|discriminate]. rewrite (p_expect_more _ _ _ t B).
  destruct (p_string r2) as [[v r3]|] eqn:C; [|discriminate]. rewrite (p_string_more _ _ _ t C).
  destruct (p_expect "}" r3) as [r4|] eqn:D.
  - injection H as <- <-. rewrite (p_expect_more _ _ _ t D). reflexivity.
  - destruct (p_expect ", " r3) as [r4|] eqn:E; [|discriminate].
    assert (NE : r3 <> "") by (intros X; rewrite X in E; discriminate E).
    rewrite (p_brace_none r3 t NE D), (p_expect_more _ _ _ t E).
    destruct (p_members n r4) as [[d' r5]|] eqn:F; [|discriminate]. injection H as <- <-.
    rewrite (IH _ _ _ t F). reflexivity.
Qed.
Lemma p_object_more n s d r t : p_object n s = Some (d, r) -> p_object n (s ++ t) = Some (d, (r ++ t)%string).
Proof.
  unfold p_object. destruct (p_expect "{" s) as [q|] eqn:A; [|discriminate]. rewrite (p_expect_more _ _ _ t A).
  destruct (p_expect "}" q) as [q'|] eqn:B.
  - intros H. injection H as <- <-. rewrite (p_expect_more _ _ _ t B). reflexivity.
  - intros H. rewrite p_brace_none; [|intros ->|exact B].
    + now apply p_members_more.
    + destruct n; discriminate.
Qed.
Lemma p_members_fuel n : forall s x, p_members n s = Some x -> forall n', n <= n' -> p_members n' s = Some x.
Proof.
  induction n as [|n IH]; intros s x H [|n'] L; try discriminate; [lia|]. cbn [p_members] in *.
  destruct (p_string s) as [[k r1]|]; [|discriminate]. destruct (p_expect ": " r1) as [r2|]; [|discriminate].
  destruct (p_string r2) as [[v r3]|]; [|discriminate]. destruct (p_expect "}" r3); [exact H|].
  destruct (p_expect ", " r3) as [r4|]; [|discriminate].
  destruct (p_members n r4) as [q|] eqn:F; [|discriminate]. rewrite (IH _ _ F n' ltac:(lia)). exact H.
Qed.
Lemma p_object_fuel n s x n' : p_object n s = Some x -> n <= n' -> p_object n' s = Some x.
Proof.
  unfold p_object. destruct (p_expect "{" s) as [q|]; [|discriminate]. destruct (p_expect "}" q); [auto|].
  intros H L. eapply p_members_fuel; eauto.
Qed.

(** What is written to the file is read back, for all dicts of strings. *)
Theorem C32_roundtrip d : json_load (dump d) = Some d.
Proof.
  unfold json_load. rewrite <- (app_nil_s (dump d)) at 2. rewrite p_object_dump; [reflexivity|].
  pose proof (members_length d). unfold dump. cbn [String.append String.length]. rewrite length_app_s. cbn. lia.
Qed.
Print Assumptions C32_roundtrip.
(** A file of which only a part was written is never readable. *)
Theorem C32_torn d p rest : dump d = (p ++ rest)%string -> rest <> "" -> json_load p = None.
Proof.
  intros E N. unfold json_load. destruct (p_object (String.length p) p) as [[d' r]|] eqn:P; [|reflexivity].
  destruct r as [|c r]; [|reflexivity]. exfalso.
  apply p_object_more with (t := rest) in P. rewrite <- E in P. cbn [String.append] in P.
  apply p_object_fuel with (n' := String.length p + List.length d) in P; [|lia].
  rewrite <- (app_nil_s (dump d)) in P. rewrite p_object_dump in P by lia. injection P as _ X. congruence.
Qed.
Print Assumptions C32_torn.
Example C32_torn_case : json_load "{""P::M"": ""d41d8cd9"", ""P::N"": ""0cc1" = None /\
  json_load "{""P::M"": ""d41d8cd9"", ""P::N"": ""0cc1""}" = Some [("P::M", "d41d8cd9"); ("P::N", "0cc1")].
Proof. vm_compute. split; reflexivity. Qed.

Section History.
  Variable md5 : string -> string.
  Notation message_hash := (message_hash md5).
  Notation is_verified := (is_verified md5).
  Notation add_verified := (add_verified md5).
  Notation history := (history md5).

  (** the pair is the record of a verified message *)
  Definition recorded (w : world) (k h : string) : Prop :=
    exists v m, In (v, m) (verified w) /\ full_name m = k /\ message_hash v m = h.
  Definition honest (w : world) (d : dict) : Prop := forall k h, In (k, h) d -> recorded w k h.
  Record inv (w : world) : Prop := {
    i_runs : forall v d, In (v, d) (runs w) -> honest w d;
    i_disk : forall s, disk w = Some s -> exists d rest, dump d = (s ++ rest)%string /\ honest w d
  }.
  Lemma get_in d k v : get d k = Some v -> In (k, v) d.
  Proof.
    induction d as [|[k' w] d IH]; [discriminate|]. cbn. destruct (String.eqb_spec k' k) as [->|N]; [|auto].
    intros E. injection E as ->. now left.
  Qed.
  Lemma set_in d k v k' v' : In (k', v') (set d k v) -> (k' = k /\ v' = v) \/ In (k', v') d.
  Proof.
    induction d as [|[k0 w] d IH]; cbn.
    - intros [E|[]]. injection E as <- <-. auto.
    - destruct (String.eqb_spec k0 k) as [->|N]; cbn.
      + intros [E|I]; [injection E as <- <-; auto|auto].
      + intros [E|I]; [auto|]. destruct (IH I); auto.
  Qed.
  Lemma honest_more w w' d : (forall x, In x (verified w) -> In x (verified w')) -> honest w d -> honest w' d.
  Proof. intros S H k h I. destruct (H k h I) as (v & m & J & X). exists v, m. auto. Qed.
  Lemma honest_load w s : inv w -> disk w = s -> honest w (load_cache s).
  Proof.
    intros [_ D] E k h I. destruct s as [s|]; [|destruct I]. cbn in I.
    destruct (json_load s) as [d'|] eqn:J; [|destruct I].
    destruct (D s E) as (d & rest & X & H). destruct rest as [|c rest].
    - rewrite app_nil_s in X. rewrite <- X, C32_roundtrip in J. injection J as <-. auto.
    - rewrite (C32_torn d s (String c rest) X) in J; [discriminate|discriminate].
  Qed.
  Lemma inv_step w w' : inv w -> step md5 w w' -> inv w'.
  Proof.
    intros V H. pose proof V as [R D]. destruct H; constructor; cbn [disk runs verified].
    - intros v' d [E|I]; [injection E as <- <-; exact (honest_load w _ V eq_refl)|exact (R v' d I)].
    - exact D.
    - intros v' d' I.
      assert (OLD : forall v0 d0, In (v0, d0) (runs w) -> honest (mkWorld (disk w) (a ++ (v, add_verified v d m) :: b) ((v, m) :: verified w)) d0).
      { intros v0 d0 J. eapply honest_more; [|exact (R v0 d0 J)]. intros x X. cbn. auto. }
      apply in_app_or in I as [I|[E|I]]; [| |].
      + apply (OLD v' d'). rewrite H. apply in_or_app. now left.
      + injection E as <- <-. assert (HD := OLD v d ltac:(rewrite H; apply in_or_app; right; now left)).
        intros k h K. unfold Cache.add_verified in K.
        assert (NEW : recorded (mkWorld (disk w) (a ++ (v, add_verified v d m) :: b) ((v, m) :: verified w)) (full_name m) (message_hash v m)).
        { exists v, m. cbn. auto. }
        destruct (get d (full_name m)) as [h0|].
        * destruct (String.eqb h0 (Cache.message_hash md5 v m)); [exact (HD k h K)|].
          apply set_in in K as [[-> ->]|K]; [exact NEW|exact (HD k h K)].
        * apply set_in in K as [[-> ->]|K]; [exact NEW|exact (HD k h K)].
      + apply (OLD v' d'). rewrite H. apply in_or_app. right. now right.
    - intros s E. destruct (D s E) as (d0 & rest & X & Hd). exists d0, rest. split; [exact X|].
      eapply honest_more; [|exact Hd]. intros x J. cbn. auto.
    - intros v' d' I. exact (R v' d' I).
    - intros s E. injection E as <-. exists d, rest. split; [assumption|]. exact (R v d H).
    - intros v' d' I. apply (R v' d'). rewrite H. apply in_app_or in I as [I|I]; apply in_or_app; [now left|right; now right].
    - exact D.
    - exact R.
    - intros s E. injection E as <-. destruct (D _ H) as (d0 & rest' & X & Hd). exists d0, (rest ++ rest')%string.
      split; [now rewrite <- app_assoc_s|exact Hd].
    - exact R.
    - discriminate.
  Qed.
  Lemma history_inv w : history w -> inv w.
  Proof.
    induction 1; [|eapply inv_step; eauto]. constructor; cbn; [intros v d []|discriminate].
  Qed.

  (** Whatever happened before: if a run finds a message in the cache, then a message of
      the same name with the same digest has been verified before. *)
  Theorem C32_honest w v d m : history w -> In (v, d) (runs w) -> is_verified v d m = true ->
    exists v' m', In (v', m') (verified w) /\ full_name m' = full_name m /\ message_hash v' m' = message_hash v m.
  Proof.
    intros H I V. unfold Cache.is_verified in V. destruct (get d (full_name m)) as [h|] eqn:G; [|discriminate].
    apply String.eqb_eq in V. subst h. apply get_in in G. exact (i_runs w (history_inv w H) v d I _ _ G).
  Qed.
  (** If the digest has no collisions and the parts are separated, the version and the
      text of the message are the same, too. *)
  Fixpoint no_bar (s : string) : bool :=
    match s with EmptyString => true | String c r => negb (Ascii.eqb c "|"%char) && no_bar r end.
  Lemma bar_split a : forall b x y, no_bar a = true -> no_bar b = true ->
    (a ++ "|" ++ x = b ++ "|" ++ y)%string -> a = b /\ x = y.
  Proof.
    induction a as [|c a IH]; intros [|c' b] x y A B E; cbn in *.
    - injection E as ->. auto.
    - injection E as <- _. discriminate.
    - injection E as -> _. discriminate.
    - injection E as -> E. apply andb_true_iff in A as [A1 A2]. apply andb_true_iff in B as [B1 B2].
      destruct (IH _ _ _ A2 B2 E) as [-> ->]. auto.
  Qed.
  Theorem C32_same_text w v d m : (forall x y, md5 x = md5 y -> x = y) ->
    no_bar v = true -> no_bar (text m) = true ->
    (forall v' m', In (v', m') (verified w) -> no_bar v' = true /\ no_bar (text m') = true) ->
    history w -> In (v, d) (runs w) -> is_verified v d m = true ->
    exists m', In (v, m') (verified w) /\ full_name m' = full_name m /\ text m' = text m /\
      String.concat "|" (map ftype_str (types m')) = String.concat "|" (map ftype_str (types m)).
  Proof.
    intros INJ NV NT NB H I V. destruct (C32_honest w v d m H I V) as (v' & m' & J & F & E).
    apply INJ in E. destruct (NB v' m' J) as [NV' NT'].
    apply bar_split in E as [-> E]; [|assumption|assumption]. apply bar_split in E as [E1 E2]; [|assumption|assumption].
    exists m'. auto.
  Qed.
  (** A run that verifies a message and completes the writing makes it known to
      the next run. *)
  Theorem C32_remembered w a b v d m : history w -> runs w = a ++ (v, d) :: b ->
    exists w', history w' /\ verified w' = (v, m) :: verified w /\
      exists d', In (v, d') (runs w') /\ d' = load_cache (disk w') /\ is_verified v d' m = true.
  Proof.
    intros H R. set (d1 := add_verified v d m).
    set (w1 := mkWorld (disk w) (a ++ (v, d1) :: b) ((v, m) :: verified w)).
    set (w2 := mkWorld (Some (dump d1)) (runs w1) (verified w1)).
    set (w3 := mkWorld (disk w2) ((v, load_cache (disk w2)) :: runs w2) (verified w2)).
    assert (H1 : history w1) by (eapply history_step; [exact H|]; apply step_verify; exact R).
    assert (H2 : history w2).
    { eapply history_step; [exact H1|]. eapply step_write with (v := v) (d := d1) (rest := "").
      - cbn. apply in_or_app. right. now left.
      - now rewrite app_nil_s. }
    assert (H3 : history w3) by (eapply history_step; [exact H2|]; apply step_start).
    exists w3. split; [exact H3|]. split; [reflexivity|]. exists (load_cache (disk w2)). split; [now left|]. split; [reflexivity|].
    cbn [disk w2 load_cache]. rewrite C32_roundtrip. unfold Cache.is_verified, d1, Cache.add_verified.
    assert (GS : forall d k x, get (set d k x) k = Some x).
    { induction d0 as [|[k0 y] d0 IH]; intros k x; cbn; [now rewrite String.eqb_refl|].
      destruct (String.eqb_spec k0 k) as [->|N]; cbn; [now rewrite String.eqb_refl|]. destruct (String.eqb_spec k0 k); [contradiction|auto]. }
    destruct (get d (full_name m)) as [h|] eqn:G.
    - destruct (String.eqb h (Cache.message_hash md5 v m)) eqn:E; [now rewrite G|]. rewrite GS. apply String.eqb_refl.
    - rewrite GS. apply String.eqb_refl.
  Qed.

  (** The digest does not show the definition of array elements nor the checksums: a
      message can be taken as verified although it differs from the verified one. *)
  Theorem C32_stale_refuted : exists m m', types m <> types m' /\ checksums m <> checksums m' /\
    forall v, exists w d, history w /\ verified w = [(v, m)] /\ In (v, d) (runs w) /\ is_verified v d m' = true.
  Proof.
    set (m := mkMessage "P::M" "type M is message A : L end message" [FArray "L" "E" "type E is mod 256"] []).
    set (m' := mkMessage "P::M" "type M is message A : L end message" [FArray "L" "E" "type E is mod 65536"] [("C", ["A'Size"])]).
    exists m, m'. split; [discriminate|]. split; [discriminate|]. intros v.
    assert (H0 : history (mkWorld None [(v, [])] [])) by (eapply history_step; [apply history_start|]; apply step_start).
    destruct (C32_remembered _ [] [] v [] m H0 eq_refl) as (w & H & V & d & I & _ & K).
    exists w, d. split; [exact H|]. split; [exact V|]. split; [exact I|]. exact K.
  Qed.
End History.
Print Assumptions C32_honest.
Print Assumptions C32_same_text.
Print Assumptions C32_remembered.
Print Assumptions C32_stale_refuted.

(** Two concurrent runs of different versions, one of which is interrupted while
    writing: the file is unreadable, and the next run knows nothing. *)
Definition id_md5 (s : string) : string := s.
Definition ex_m : message := mkMessage "P::M" "type M is null message" [] [].
Example C32_history_meets : exists w d, history id_md5 w /\ In ("0.5", d) (runs w) /\ is_verified id_md5 "0.5" d ex_m = true /\
  disk w = Some "{""P::M"": ""0.5" /\ load_cache (disk w) = [].
Proof.
  set (w1 := mkWorld None [("0.5", []); ("0.4", [])] []).
  assert (H1 : history id_md5 w1).
  { eapply history_step; [eapply history_step; [apply history_start|exact (step_start _ "0.4" _)]|exact (step_start _ "0.5" _)]. }
  set (d := add_verified id_md5 "0.5" [] ex_m).
  set (w2 := mkWorld None [("0.5", d); ("0.4", [])] [("0.5", ex_m)]).
  assert (H2 : history id_md5 w2) by (eapply history_step; [exact H1|]; exact (step_verify _ [] [("0.4", [])] "0.5" [] ex_m w1 eq_refl)).
  set (w3 := mkWorld (Some "{""P::M"": ""0.5") [("0.5", d); ("0.4", [])] [("0.5", ex_m)]).
  assert (H3 : history id_md5 w3).
  { eapply history_step; [exact H2|]. eapply (step_write id_md5 "0.5" d "{""P::M"": ""0.5" "|type M is null message|""}" w2); [now left|vm_compute; reflexivity]. }
  exists w3, d. split; [exact H3|]. split; [now left|]. repeat split; vm_compute; reflexivity.
Qed.
