(** C52: the types of sessions.  SessionType.v is the model of the check, SessionEval.v says
    what sessions mean, SessionSound.v and SessionRun.v say which sessions the theorems are
    about ([sure], [sure_session]) and contain the proofs. *)
From Coq Require Import String List ZArith Bool Arith Lia.
From Verif Require Import Base Expr Typing ExprType SessionType SessionEval SessionTypeFacts SessionSound SessionRun.
Import ListNotations.
Local Open Scope string_scope.
Local Open Scope list_scope.
Local Open Scope Z_scope.

(** ** the theorems *)

(** An expression that is accepted for a declared type has, if any, a value of this type:
    its evaluation is never stuck. *)
Theorem C52_expression : forall sig w names g st e t,
  regular sig w -> typed sig w g -> models sig names g st -> sure names g e = true ->
  check_expr g e t = [] -> param t = true ->
  match eval w st e with Val v => fits sig t v | Raise => True | Stuck => False end.
Proof. intros sig w names g st e t R T M S C P. exact (expression_value sig w names g st e t R T M S C P). Qed.

(** An accepted statement is executed or raises an exception, and afterwards every variable
    still has a value of its type. *)
Theorem C52_statement : forall sig w names g st received a,
  regular sig w -> typed sig w g -> models sig names g st -> fine sig received -> sure_stmt names g a = true ->
  param (g_var g (stmt_id a)) = true -> stmt_errors (g_var g (stmt_id a)) g a = [] ->
  match exec w received st a with Val st' => models sig names g st' | Raise => True | Stuck => False end.
Proof. intros sig w names g st received a R T M F S P E. exact (statement_sound sig w names g st received a _ R T M F S eq_refl P E). Qed.

(** The configurations of a run: in each step any message may be received. *)
Inductive reach (sig : signature) (w : world) (start : string -> value) (s : session) (st : store) : config -> Prop :=
| reach_initial : reach sig w start s st (mkConfig None (Entering (globals s)) st)
| reach_step c received c' : reach sig w start s st c -> fine sig received -> step w start s received c = Next c' -> reach sig w start s st c'.

(** A run of an accepted session goes on, ends or is aborted by an exception: no evaluation
    is stuck and the next state always exists. *)
Theorem C52_session : forall sig w start s st c received,
  session_errors s = [] -> sure_session s = true -> consistent sig w start s st ->
  reach sig w start s st c -> fine sig received -> step w start s received c <> Fault.
Proof.
  intros sig w start s st c received Acc Sure K Re Fi.
  assert (I : inv sig w s c).
  { clear Fi. induction Re as [|c received' c' _ IH Fi E].
    - exact (initial_inv sig w start s Acc Sure st K).
    - pose proof (step_sound sig w start s Acc Sure st received' c K Fi IH) as H. now rewrite E in H. }
  pose proof (step_sound sig w start s Acc Sure st received c K Fi I) as H. intros E. now rewrite E in H.
Qed.

(** A run is aborted only by an exception in a global declaration or in a state without an
    exception transition. *)
Theorem C52_aborted : forall w start s received c, step w start s received c = Aborted ->
  match c_state c with Some q => st_exception q = None | None => True end.
Proof.
  intros w start s received [[q|] ph st] H; [|exact Logic.I]. cbn [c_state].
  assert (G : forall x st, goto s x st <> Aborted) by (intros x st'; unfold goto; destruct (find _ _); discriminate).
  assert (X : exception s (mkConfig (Some q) ph st) = Aborted -> st_exception q = None).
  { unfold exception. cbn. destruct (st_exception q); [intros Z; now apply G in Z|reflexivity]. }
  unfold step in H. cbn [c_state c_phase c_store] in H. destruct ph as [[|d ds]|[|a ss]|[|[t e] ts]]; try discriminate H.
  - destruct (enter w (se_package s) start st d); try discriminate H. auto.
  - destruct (exec w received st a); try discriminate H. auto.
  - destruct (do v <- eval w st e ;; to_bool v) as [[|]| |]; try discriminate H; auto. now apply G in H.
Qed.

(** *** message aggregates *)

Lemma fields_check_combinations errs types : forall fs i cs es cs', fields_check errs types i cs fs = (es, cs') -> es = [] ->
  cs' = filter (fun c => forallb (fun p => match nth_error c (fst p) with Some f => String.eqb f (snd p) | None => false end)
                          (combine (seq i (List.length fs)) (map fst fs))) cs.
Proof.
  induction fs as [|[f x] fs IH]; intros i cs es cs' H E.
  - cbn in H. injection H as _ <-. cbn. induction cs as [|c cs IHc]; [reflexivity|]. cbn. now f_equal.
  - cbn [fields_check] in H. fold (fields_check errs types) in H. destruct (assoc f types) as [t|].
    + destruct (filter (fun c => match nth_error c i with Some f' => String.eqb f' f | None => false end) cs) as [|c0 rest] eqn:F.
      * injection H as <- _. destruct (errs f x t); discriminate E.
      * destruct (fields_check errs types (S i) (c0 :: rest) fs) as [es1 cs1] eqn:G. injection H as <- <-. apply app_eq_nil in E as [_ E].
        rewrite (IH _ _ _ _ G E), <- F. cbn [List.length seq map combine forallb fst snd]. clear.
        induction cs as [|c cs IHc]; [reflexivity|]. cbn [filter]. destruct (match nth_error c i with Some f' => String.eqb f' f | None => false end); cbn [andb filter]; [|exact IHc].
        destruct (forallb _ _); now rewrite IHc.
    + destruct (fields_check errs types (S i) cs fs) as [es1 cs1]. injection H as <- _. discriminate E.
Qed.
Lemma fields_check_some errs types : forall fs i cs es cs', fields_check errs types i cs fs = (es, cs') -> es = [] -> cs <> [] -> cs' <> [].
Proof.
  induction fs as [|[f x] fs IH]; intros i cs es cs' H E N.
  - cbn in H. injection H as _ <-. exact N.
  - cbn [fields_check] in H. fold (fields_check errs types) in H. destruct (assoc f types) as [t|].
    + destruct (filter _ cs) as [|c0 rest] eqn:F.
      * injection H as <- _. destruct (errs f x t); discriminate E.
      * destruct (fields_check errs types (S i) (c0 :: rest) fs) as [es1 cs1] eqn:G. injection H as <- <-. apply app_eq_nil in E as [_ E].
        apply (IH _ _ _ _ G E). discriminate.
    + destruct (fields_check errs types (S i) cs fs) as [es1 cs1]. injection H as <- _. discriminate E.
Qed.
Lemma prefix_equal : forall (l c : list string) pre, (List.length c <= List.length pre + List.length l)%nat -> (firstn (List.length pre) c = pre) ->
  forallb (fun p => match nth_error c (fst p) with Some f => String.eqb f (snd p) | None => false end) (combine (seq (List.length pre) (List.length l)) l) = true ->
  c = pre ++ l.
Proof.
  induction l as [|f l IH]; intros c pre L P H.
  - cbn in L. rewrite app_nil_r. rewrite <- P. symmetry. apply firstn_all2. lia.
  - cbn [List.length seq combine forallb fst snd] in H. apply andb_true_iff in H as [H1 H2]. destruct (nth_error c (List.length pre)) as [f'|] eqn:N; [|discriminate].
    apply String.eqb_eq in H1 as ->. 
    assert (P' : firstn (List.length (pre ++ [f])) c = pre ++ [f]).
    { rewrite app_length. cbn [List.length]. rewrite Nat.add_1_r. rewrite <- P at 2. clear -N. revert c N. generalize (List.length pre) as n. induction n as [|n IHn]; intros [|a c] N; try discriminate.
      - cbn in N. injection N as ->. reflexivity.
      - cbn [firstn app]. f_equal. apply IHn. exact N. }
    replace (pre ++ f :: l) with ((pre ++ [f]) ++ l) by (now rewrite <- app_assoc).
    apply IH; [rewrite app_length; cbn in *; lia|exact P'|]. rewrite app_length. cbn [List.length]. rewrite Nat.add_1_r. exact H2.
Qed.
Lemma fields_check_complete errs types c : forall fs pre cs, c = pre ++ map fst fs -> In c cs ->
  Forall (fun p => exists t, assoc (fst p) types = Some t /\ errs (fst p) (snd p) t = []) fs ->
  exists cs', fields_check errs types (List.length pre) cs fs = ([], cs') /\ In c cs'.
Proof.
  induction fs as [|[f x] fs IH]; intros pre cs E I F.
  - exists cs. now split.
  - inversion F as [|? ? (t & A & Er) Fr]; subst. cbn [fst snd map] in *. cbn [fields_check]. fold (fields_check errs types). rewrite A, Er.
    set (rest := filter (fun c => match nth_error c (List.length pre) with Some f' => String.eqb f' f | None => false end) cs).
    assert (Ir : In (pre ++ f :: map fst fs) rest).
    { apply filter_In. split; [exact I|]. rewrite nth_error_app2 by lia. rewrite Nat.sub_diag. cbn. apply String.eqb_refl. }
    destruct (IH (pre ++ [f]) rest ltac:(now rewrite <- app_assoc) Ir Fr) as (cs' & H & Ic). rewrite app_length in H. cbn [List.length] in H. rewrite Nat.add_1_r in H.
    exists cs'. split; [|exact Ic]. destruct rest as [|r0 rr]; [destruct Ir|]. now rewrite H.
Qed.
(** A message aggregate is accepted if and only if it gives values to the fields of one of
    the possible sequences of fields of the message, to all of them and in their order,
    and each value is accepted for its field or, for an opaque field, has the type of a
    refinement of the field. *)
Theorem C52_aggregate : forall g t fs n combinations types refinements,
  g_msg g t = TMessage n combinations types refinements -> combinations <> [] ->
  (subexpr_errors g (SMsg t fs) = [] <->
   In (map fst fs) combinations /\
   forall f x, In (f, x) fs -> exists ft, assoc f types = Some ft /\
     (check_expr g x ft = [] \/ ty_eqb ft OPAQUE = true /\ exists sdu, In (f, sdu) refinements /\ is_compatible (new_type g x) sdu = true)).
Proof.
  intros g t fs n cs types rs G N. cbn [subexpr_errors]. rewrite G.
  set (errs := fun f x t => if ty_eqb t OPAQUE && existsb (fun r => String.eqb (fst r) f && is_compatible (new_type g x) (snd r)) rs then [] else subexpr_errors g x ++ expect (type_of g x) t).
  assert (Ev : forall f x ft, errs f x ft = [] <-> check_expr g x ft = [] \/ ty_eqb ft OPAQUE = true /\ exists sdu, In (f, sdu) rs /\ is_compatible (new_type g x) sdu = true).
  { intros f x ft. unfold errs, check_expr. destruct (ty_eqb ft OPAQUE) eqn:Q; cbn [andb].
    - destruct (existsb _ rs) eqn:X.
      + split; [intros _|reflexivity]. right. split; [reflexivity|]. apply existsb_exists in X as ([f' u] & I & X). apply andb_true_iff in X as [X1 X2]. cbn in X1, X2.
        apply String.eqb_eq in X1 as ->. eauto.
      + split; [tauto|]. intros [H|[_ (sdu & I & H)]]; [exact H|]. exfalso. rewrite <- not_true_iff_false, existsb_exists in X. apply X. exists (f, sdu). cbn. now rewrite String.eqb_refl, H.
    - split; [tauto|]. intros [H|[H _]]; [exact H|discriminate]. }
  destruct (fields_check errs types 0 cs fs) as [es cs'] eqn:Fc. split.
  - intros E. apply app_eq_nil in E as [E1 E2]. split.
    + apply fields_check_combinations in Fc as C; [|exact E1].
      pose proof (fields_check_some _ _ _ _ _ _ _ Fc E1 N) as Nn.
      destruct cs' as [|c0 cr]; [congruence|].
      destruct (forallb (fun c => (List.length fs <? List.length c)%nat) (c0 :: cr)) eqn:L; [discriminate E2|].
      assert (X : exists c, In c (c0 :: cr) /\ (List.length c <= List.length fs)%nat).
      { clear -L. revert L. generalize (c0 :: cr) as l. induction l as [|c l IH]; [discriminate|]. cbn [forallb]. destruct (List.length fs <? List.length c)%nat eqn:Q.
        - intros H. destruct (IH H) as (c' & I & H'). exists c'. split; [now right|exact H'].
        - intros _. exists c. split; [now left|]. now apply Nat.ltb_ge in Q. }
      destruct X as (c & I & Lc). rewrite C in I. apply filter_In in I as [I F].
      rewrite <- (map_length fst fs) in Lc, F. change 0%nat with (List.length (@nil string)) in F.
      pose proof (prefix_equal (map fst fs) c [] Lc eq_refl F) as Q. cbn in Q. now rewrite Q in I.
    + apply fields_check_ok in Fc; [|exact E1]. rewrite Forall_forall in Fc. intros f x Hx. destruct (Fc _ Hx) as (ft & A & Er). exists ft. split; [exact A|]. now apply Ev.
  - intros [I F]. destruct (fields_check_complete errs types (map fst fs) fs [] cs eq_refl I) as (cs2 & H & Ic).
    { apply Forall_forall. intros [f x] Hx. destruct (F f x Hx) as (ft & A & Er). exists ft. split; [exact A|]. now apply Ev. }
    cbn [List.length] in H. rewrite Fc in H. injection H as -> ->. cbn [app]. destruct cs2 as [|c0 cr]; [reflexivity|].
    destruct (forallb _ (c0 :: cr)) eqn:L; [|reflexivity]. rewrite forallb_forall in L. specialize (L _ Ic). rewrite map_length in L. apply Nat.ltb_lt in L. lia.
Qed.

(** ** a session that meets the hypotheses *)

Definition byte : ty := TInteger "P::Byte" (known 0 255).
Definition kind : ty := TEnumeration "P::Kind".
Definition msg_fields : list (string * ty) := [("Kind", kind); ("Data", OPAQUE); ("Tail", OPAQUE)].
Definition msg_paths : list (list string) := [["Kind"]; ["Kind"; "Data"; "Tail"]].
Definition inner_fields : list (string * ty) := [("Value", byte)].
Definition ex_types : list mtype := [
  mkType "__builtins__" "boolean" (KEnum "__BUILTINS__::Boolean" ["true"; "false"]);
  mkType "__internal__" "opaque" (KOther OPAQUE);
  mkType "p" "byte" (KOther byte);
  mkType "p" "bytes" (KOther (TArray "P::Bytes" byte));
  mkType "p" "kind" (KEnum "P::Kind" ["kind_a"; "kind_b"]);
  mkType "p" "msg" (KMessage "P::Msg" msg_paths msg_fields);
  mkType "p" "inner" (KMessage "P::Inner" [["Value"]] inner_fields);
  mkType "p" "inners" (KOther (TArray "P::Inners" (TMessage "P::Inner" [["Value"]] inner_fields [])));
  mkType "p" "__refinement__" (KRefinement "p::msg" "Data" "p::inner" (TMessage "P::Msg" msg_paths msg_fields []) (TMessage "P::Inner" [["Value"]] inner_fields []))
].
Definition ex_sig : signature := fun n =>
  if String.eqb n "P::Msg" then Some msg_fields else if String.eqb n "P::Inner" then Some inner_fields else None.
Definition ex_inner : value := VMsg "P::Inner" [("Value", VInt 7)].
Definition ex_msg : value := VMsg "P::Msg" [("Kind", VEnum "P::Kind" "kind_b"); ("Data", VSeq [VInt 7]); ("Tail", VSeq [])].
Definition ex_world : world := mkWorld
  (fun n => if String.eqb n "P::Msg" then map fst msg_fields else if String.eqb n "P::Inner" then map fst inner_fields else [])
  (fun id => if String.eqb id "p::msg" then "P::Msg" else if String.eqb id "p::inner" then "P::Inner" else "")
  (fun f vs => if String.eqb f "data_available" then Val (VBool true)
               else match vs with [VInt z] => Val (VInt (z + 1)) | _ => Stuck end)
  (fun _ _ => 8) (fun _ _ => 8) (fun _ => true) (fun _ => true)
  (fun v => match v with VMsg _ fs => [Z.of_nat (List.length fs)] | _ => [] end)
  (fun n bs => if String.eqb n "P::Inner" then match bs with [VInt z] => Some [("Value", VInt z)] | _ => None end else None)
  (fun vs => (8 <? List.length vs)%nat).
Definition ex_start (id : string) : value :=
  match qualified "p" id with
  | "__builtins__::boolean" => VBool false
  | "p::byte" => VInt 0
  | "p::kind" => VEnum "P::Kind" "kind_a"
  | "p::msg" => ex_msg
  | "p::inner" => ex_inner
  | "__internal__::opaque" | "p::bytes" | "p::inners" => VSeq []
  | "p::token" => VPrivate "P::Token" 0
  | _ => VInt 0
  end.
Definition ex_store : store := fun x =>
  if String.eqb x "true" then Some (VEnum "__BUILTINS__::Boolean" "True")
  else if String.eqb x "false" then Some (VEnum "__BUILTINS__::Boolean" "False")
  else if String.eqb x "kind_a" || String.eqb x "p::kind_a" then Some (VEnum "P::Kind" "kind_a")
  else if String.eqb x "kind_b" || String.eqb x "p::kind_b" then Some (VEnum "P::Kind" "kind_b")
  else None.
Definition ex_read : sstate := mkState "reading"
  [("writing", SRel OEq (SVar "count") (SNum 8)); ("done", SBool true)]
  (Some "done")
  [Read "channel" (SVar "m");
   Assignment "count" (SCall "next" [SSel (SVar "i") "Value"]);
   Assignment "list" (SAgg [SVar "count"; SNum 1]);
   Append "list" (SNum 3);
   Assignment "ok" (SQuant true "x" (SVar "list") (SRel OGt (SVar "x") (SNum 0)))]
  [DRenaming "i" "p::inner" (SVar "m") "Data"].
Definition ex_write : sstate := mkState "writing"
  [("reading", SCall "data_available" [SVar "channel"]); ("done", SBool true)]
  (Some "done")
  [Assignment "m" (SMsg "p::msg" [("Kind", SVar "kind_a"); ("Data", SVar "n"); ("Tail", SAgg [])]);
   Write "channel" (SVar "m");
   Assignment "list" (SCompr "x" (SVar "list") (SBin OSub (SVar "x") (SNum 1)) (SVar "ok")); Reset "list"]
  [DVar "n" "p::inner" (Some (SConv "p::inner" (SSel (SVar "m") "Data")))].
Definition ex_session : session := mkSession "p" "reading" "done" ex_types
  [DChannel "channel" true true; DFunction "next" ["byte"] "p::byte"; DType "token" "P::Token"]
  [DVar "m" "p::msg" None; DVar "count" "byte" (Some (SNum 1)); DVar "list" "p::bytes" None; DVar "ok" "boolean" None; DVar "secret" "token" None]
  [ex_read; ex_write; mkState "done" [] None [] []].
Example ex_accepted : session_errors ex_session = [] /\ sure_session ex_session = true.
Proof. vm_compute. split; reflexivity. Qed.

Definition quiet (n : string) : option (list (string * value)) := None.
Definition hears (n : string) : option (list (string * value)) :=
  if String.eqb n "P::Msg" then Some [("Kind", VEnum "P::Kind" "kind_b"); ("Data", VSeq [VInt 1]); ("Tail", VSeq [VInt 2])] else None.
Fixpoint steps (n : nat) (received : string -> option (list (string * value))) (s : session) (c : config) : progress :=
  match n with
  | O => Next c
  | S n => match step ex_world ex_start s received c with Next c' => steps n received s c' | p => p end
  end.
(** These steps lead from the beginning to the end of the second state *)
Example ex_run : match steps 24 hears ex_session (mkConfig None (Entering (globals ex_session)) ex_store) with
  | Next c => (option_map st_id (c_state c), c_store c "count", c_store c "list", c_store c "m")
              = (Some "writing", Some (VInt 8), Some (VSeq []), Some (VMsg "P::Msg" [("Kind", VEnum "P::Kind" "kind_a"); ("Data", VSeq [VInt 1]); ("Tail", VSeq [])]))
  | _ => False
  end.
Proof. vm_compute. reflexivity. Qed.
Lemma ex_sig_cases n types : ex_sig n = Some types -> n = "P::Msg" /\ types = msg_fields \/ n = "P::Inner" /\ types = inner_fields.
Proof.
  unfold ex_sig. destruct (String.eqb n "P::Msg") eqn:A; [apply String.eqb_eq in A as ->; intros [= <-]; auto|].
  destruct (String.eqb n "P::Inner") eqn:B; [apply String.eqb_eq in B as ->; intros [= <-]; auto|discriminate].
Qed.
Lemma ex_bytes zs : fits ex_sig (TArray "P::Bytes" byte) (VSeq (map VInt zs)).
Proof. constructor. rewrite Forall_map. apply Forall_forall. intros. now constructor. Qed.
Lemma ex_regular : regular ex_sig ex_world.
Proof.
  split.
  - intros n types f t H I. destruct (ex_sig_cases _ _ H) as [[-> ->]|[-> ->]]; cbn in I;
      repeat (destruct I as [[= <- <-]|I]); try destruct I; repeat split; intros; discriminate.
  - intros n types H. destruct (ex_sig_cases _ _ H) as [[-> ->]|[-> ->]]; reflexivity.
  - intros n types bs fs H P. destruct (ex_sig_cases _ _ H) as [[-> ->]|[-> ->]]; cbn in P; [discriminate|].
    destruct bs as [|[z| | | | |] [|]]; try discriminate P. injection P as <-. repeat constructor. exists byte. split; [reflexivity|now constructor].
Qed.
Lemma ex_inner_fits c rs : fits ex_sig (TMessage "P::Inner" c inner_fields rs) ex_inner.
Proof. econstructor; [reflexivity|]. repeat constructor. exists byte. split; [reflexivity|now constructor]. Qed.
Lemma ex_msg_fits c rs : fits ex_sig (TMessage "P::Msg" c msg_fields rs) ex_msg.
Proof.
  econstructor; [reflexivity|]. repeat constructor; cbn [fst snd].
  - exists kind. split; [reflexivity|constructor; discriminate].
  - exists OPAQUE. split; [reflexivity|]. now repeat constructor.
  - exists OPAQUE. split; [reflexivity|]. repeat constructor.
Qed.
Lemma ex_consistent : consistent ex_sig ex_world ex_start ex_session ex_store.
Proof.
  split.
  - exact ex_regular.
  - repeat constructor; try (now repeat split); try discriminate.
    + repeat eexists.
    + exists (mkType "p" "inner" (KMessage "P::Inner" [["Value"]] inner_fields)). repeat eexists.
  - intros wr. constructor. intros _. auto.
  - intros f args ret vs I F. vm_compute in I. repeat (destruct I as [I|I]; [try discriminate I|]); [|now destruct I]. injection I as <- <- <-.
    vm_compute in F. inversion F as [|? v ? ? K F']; subst. inversion F'; subst. inversion K; subst; try discriminate. vm_compute. now constructor.
  - intros id m H. destruct (find_type_In _ _ _ H) as [I E]. unfold ex_start. change (se_package ex_session) with "p" in E. rewrite <- E. clear H E.
    vm_compute in I. repeat (destruct I as [<-|I]); try destruct I; try (now constructor); try (now repeat constructor).
    + apply ex_msg_fits.
    + apply ex_inner_fits.
  - intros x t H. apply assoc_In in H. vm_compute in H. repeat (destruct H as [[= <- <-]|H]); try destruct H; (eexists; split; [reflexivity|constructor; (discriminate || (intros _; auto))]).
Qed.
Example ex_fine : fine ex_sig hears.
Proof.
  intros n types fs H E. destruct (ex_sig_cases _ _ H) as [[-> ->]|[-> ->]]; cbn in E; [|discriminate E]. injection E as <-. repeat constructor; cbn [fst snd].
  - exists kind. split; [reflexivity|constructor; discriminate].
  - exists OPAQUE. split; [reflexivity|]. now repeat constructor.
  - exists OPAQUE. split; [reflexivity|]. now repeat constructor.
Qed.
(** the hypotheses of the theorems on expressions and statements are met by every
    environment of this session, e.g. by that of its first state *)
Example C52_case : forall c received, reach ex_sig ex_world ex_start ex_session ex_store c -> fine ex_sig received ->
  step ex_world ex_start ex_session received c <> Fault.
Proof. intros c received. apply C52_session; [apply ex_accepted|apply ex_accepted|exact ex_consistent]. Qed.
Definition ex_vis : visible :=
  [("count", mkInfo (Some byte) None); ("list", mkInfo (Some (TArray "P::Bytes" byte)) None);
   ("m", mkInfo (Some (TMessage "P::Msg" msg_paths msg_fields [("Data", TMessage "P::Inner" [["Value"]] inner_fields [])])) None)].
Definition ex_lits : list (string * ty) := literals ex_types "p".
Definition ex_env : tenv := typify ex_types ex_lits ex_vis.
Definition ex_values : store := upd (upd (upd ex_store "count" (VInt 3)) "list" (VSeq [VInt 3; VInt 4])) "m" ex_msg.
Definition ex_names : string -> bool := fun x => has x (type_literals ex_types).
Lemma ex_typed : typed ex_sig ex_world ex_env.
Proof.
  apply (typed_session ex_sig ex_world ex_start ex_session ex_store).
  - exact ex_consistent.
  - split; [exact (k_types _ _ _ _ _ ex_consistent)|]. exists []. reflexivity.
  - intros x i H. apply assoc_In in H. vm_compute in H.
    repeat (destruct H as [[= <- <-]|H]); try destruct H; (split; [reflexivity|split; [|intros t a [=]]]); cbn; intros t [= <-]; repeat split; repeat constructor; repeat eexists.
Qed.
Lemma ex_models : models ex_sig ex_names ex_env ex_values.
Proof.
  intros x Hx U. unfold ex_env in *. cbn [g_var typify] in *.
  destruct (assoc x ex_lits) as [t|] eqn:E.
  - apply assoc_In in E. vm_compute in E. repeat (destruct E as [[= <- <-]|E]); try destruct E; try discriminate Hx; (eexists; split; [reflexivity|constructor; (discriminate || (intros _; auto))]).
  - clear E. destruct (assoc x ex_vis) as [[[t|] a]|] eqn:E; try congruence. apply assoc_In in E. vm_compute in E.
    repeat (destruct E as [[= <- <- <-]|E]); try destruct E.
    + exists (VInt 3). split; [reflexivity|now constructor].
    + exists (VSeq [VInt 3; VInt 4]). split; [reflexivity|now repeat constructor].
    + exists ex_msg. split; [reflexivity|apply ex_msg_fits].
Qed.
Definition ex_expression : sx :=
  SBind (SBin OSub (SSel (SConv "p::inner" (SSel (SVar "m") "Data")) "Value") (SAss OAdd [SVar "y"; SVar "count"])) [("y", SAttr SHead (SVar "list"))].
Example C52_expression_case :
  sure ex_names ex_env ex_expression = true /\ check_expr ex_env ex_expression byte = [] /\
  eval ex_world ex_values ex_expression = Val (VInt 1).
Proof. vm_compute. repeat split. Qed.
Example C52_statement_case :
  let a := Extend "list" (SCompr "z" (SVar "list") (SBin OSub (SVar "z") (SNum 1)) (SRel OGt (SVar "z") (SNum 3))) in
  sure_stmt ex_names ex_env a = true /\ stmt_errors (g_var ex_env (stmt_id a)) ex_env a = [] /\
  match exec ex_world quiet ex_values a with Val st => st "list" = Some (VSeq [VInt 3; VInt 4; VInt 3]) | _ => False end.
Proof. vm_compute. repeat split. Qed.
Example C52_aborted_case :
  step ex_world ex_start ex_session quiet (mkConfig (Some (mkState "x" [] None [] [])) (Acting [Assignment "y" (SAttr SHead (SAgg []))]) ex_store) = Aborted.
Proof. reflexivity. Qed.
Example C52_aggregate_case :
  subexpr_errors ex_env (SMsg "p::msg" [("Kind", SVar "kind_a")]) = [] /\
  subexpr_errors ex_env (SMsg "p::msg" [("Kind", SVar "kind_a"); ("Data", SVar "list")]) <> [] /\
  subexpr_errors ex_env (SMsg "p::msg" [("Kind", SVar "kind_a"); ("Data", SConv "p::inner" (SSel (SVar "m") "Data")); ("Tail", SAgg [SNum 1])]) = [].
Proof. vm_compute. repeat split; discriminate. Qed.

(** ** what the check does not exclude *)

(** The field of the head of a sequence of messages is not checked: the type of the head is
    not known when its fields are looked up. *)
Theorem C52_head_refuted : exists g e t, check_expr g e t = [] /\ param t = true /\ typed ex_sig ex_world g /\
  exists st, models ex_sig ex_names g st /\ eval ex_world st e = Stuck.
Proof.
  set (t := TArray "P::Inners" (TMessage "P::Inner" [["Value"]] inner_fields [])).
  exists (bound ex_env "msgs" t), (SSel (SAttr SHead (SVar "msgs")) "Nonexistent"), byte. split; [reflexivity|]. split; [reflexivity|]. split.
  - apply typed_bound; [exact ex_typed|]. repeat split.
  - exists (upd ex_values "msgs" (VSeq [ex_inner])). split; [|reflexivity].
    assert (M : models ex_sig (without ex_names "msgs") (bound ex_env "msgs" t) (upd ex_values "msgs" (VSeq [ex_inner]))).
    { apply models_bound; [exact ex_models|]. constructor. repeat constructor. apply ex_inner_fits. }
    intros x Hx. apply M. unfold without. now destruct (String.eqb x "msgs").
Qed.
(** The value of an opaque field is not checked at all if it is a message aggregate of a
    refining message type. *)
Theorem C52_nested_refuted : exists e, check_expr ex_env e (g_msg ex_env "p::msg") = [] /\ eval ex_world ex_values e = Stuck.
Proof.
  exists (SMsg "p::msg" [("Kind", SVar "kind_a"); ("Data", SMsg "p::inner" [("Unknown", SVar "undeclared")]); ("Tail", SAgg [])]).
  split; reflexivity.
Qed.
(** The name of a type is accepted as a value of the type. *)
Theorem C52_type_name_refuted : exists x, check_expr ex_env (SVar x) byte = [] /\ eval ex_world ex_values (SVar x) = Stuck.
Proof. exists "p::byte". split; reflexivity. Qed.
(** A field is accepted for a conversion although no refinement is defined for it. *)
Theorem C52_conversion_refuted : exists t f, check_expr ex_env (SConv t (SSel (SVar "m") f)) (fst (g_conv ex_env t)) = [] /\
  forall m p field u pt st, In m ex_types -> mt_kind m = KRefinement p field u pt st -> field <> f.
Proof.
  exists "p::inner", "Tail". split; [reflexivity|]. intros m p field u pt st I E. vm_compute in I. repeat (destruct I as [<-|I]); try destruct I; try discriminate E. now injection E as _ <- _ _ _.
Qed.
(** Membership in a sequence of values of another type is accepted. *)
Theorem C52_membership_refuted : exists e, check_expr ex_env e BOOLEAN = [] /\ e = SIn true (SVar "count") (SAgg [SVar "kind_a"]).
Proof. eexists. split; [|reflexivity]. reflexivity. Qed.
(** Presence of a field the message does not have is accepted. *)
Theorem C52_present_refuted : exists f, check_expr ex_env (SAttr SPresent (SSel (SVar "m") f)) BOOLEAN = [] /\ ~ In f (map fst msg_fields).
Proof. exists "Nonexistent". split; [reflexivity|]. cbn. intuition discriminate. Qed.

(** Conversely, an aggregate of fields is rejected: the type of a selection is not known
    when the type of the aggregate is determined. *)
Theorem C52_aggregate_elements_refuted : exists e, check_expr ex_env e byte = [] /\
  check_expr ex_env (SAgg [e]) (TArray "P::Bytes" byte) <> [] /\ check_expr ex_env (SAgg [SVar "count"]) (TArray "P::Bytes" byte) = [].
Proof. exists (SAttr SHead (SVar "list")). split; [reflexivity|]. split; [vm_compute; discriminate|reflexivity]. Qed.

(** Sessions which are accepted and in which an evaluation is stuck: a function is
    assigned to; a variable has the name of an enumeration literal. *)
Definition one_state (ps ds : list sdecl) (actions : list stmt) (ex : option string) : session :=
  mkSession "p" "start" "done" ex_types ps ds
    [mkState "start" [("done", SBool true)] ex actions []; mkState "done" [] None [] []].
Definition ends (s : session) : progress := steps 20 quiet s (mkConfig None (Entering (globals s)) ex_store).
Theorem C52_function_refuted : exists s, session_errors s = [] /\ ends s = Fault.
Proof. exists (one_state [DFunction "next" ["byte"] "byte"] [] [Assignment "next" (SNum 1)] None). split; vm_compute; reflexivity. Qed.
Theorem C52_literal_refuted : exists s, session_errors s = [] /\ ends s = Fault.
Proof.
  exists (one_state [] [DVar "kind_a" "byte" None; DVar "x" "p::kind" None; DVar "y" "boolean" None]
    [Assignment "kind_a" (SNum 1); Assignment "x" (SVar "kind_a"); Assignment "y" (SRel OEq (SVar "x") (SVar "kind_b"))] None).
  split; vm_compute; reflexivity.
Qed.
(** An exception in a state without an exception transition: only the outermost operation
    of an assignment is considered. *)
Theorem C52_exception_refuted : exists s, session_errors s = [] /\ sure_session s = true /\ ends s = Aborted.
Proof.
  exists (one_state [] [DVar "x" "byte" None; DVar "l" "p::bytes" None] [Assignment "x" (SAss OAdd [SAttr SHead (SVar "l"); SNum 1])] None).
  split; [|split]; vm_compute; reflexivity.
Qed.
(** Whether a renaming is accepted depends on how the type of the message is written. *)
Theorem C52_qualified_refuted : exists t t', qualified "p" t = qualified "p" t' /\
  session_errors (one_state [] [DVar "m" t None; DRenaming "i" "p::inner" (SVar "m") "Data"] [] None) = [] /\
  session_errors (one_state [] [DVar "m" t' None; DRenaming "i" "p::inner" (SVar "m") "Data"] [] None) <> [].
Proof. exists "p::msg", "msg". split; [reflexivity|]. split; [vm_compute; reflexivity|vm_compute; discriminate]. Qed.

Print Assumptions C52_expression.
Print Assumptions C52_statement.
Print Assumptions C52_session.
Print Assumptions C52_aborted.
Print Assumptions C52_aggregate.
