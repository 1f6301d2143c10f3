(** C68: what the commands of rflx report and which files they write. *)
From Coq Require Import String Ascii List Bool Arith Lia.
From Verif Require Import Base Ident SpecLoad Cli.
From Verif Require GenUnits.
Import ListNotations.
Local Open Scope string_scope.
Local Open Scope list_scope.
Local Open Scope nat_scope.

(** ** What the theorems speak of *)

(** the specification files of a command *)
Definition specifications (c : command) : list path :=
  match c with Check l | Generate _ _ _ l | Graph _ _ _ l | Export l _ => l end.
(** the given files that exist, and those that do not *)
Definition present (d : disk) (l : list path) : list path := filter (fun f => match d f with Some _ => true | None => false end) l.
Definition missing (d : disk) (l : list path) : list path := filter (fun f => match d f with Some _ => false | None => true end) l.
(** the text of the message about a missing file *)
Definition not_found (f : path) : string := ("cli: error: file not found: " ++ quoted (path_text f))%string.
(** whether the model is not verified *)
Definition skips (c : command) : bool := match c with Graph _ b _ _ => b | _ => false end.
(** the directory of the output exists and the prefix has no empty part *)
Definition ready (is_dir : path -> bool) (c : command) : Prop :=
  match c with
  | Check _ | Export _ _ => True
  | Graph _ _ dir _ => is_dir dir = true
  | Generate prefix _ dir _ => is_dir dir = true /\ (prefix = "" \/ prefix = " " \/ ~ In "" (split_dots prefix))
  end.

(** ** Proofs *)

Lemma look_up_spec d l : forall e p, look_up d l e p = (e ++ map not_found (missing d l), p ++ present d l).
Proof.
  induction l as [|f l IH]; intros e p; cbn [look_up missing present filter map]; [now rewrite !app_nil_r|].
  unfold is_file. destruct (d f); rewrite IH; cbn [map]; now rewrite <- app_assoc.
Qed.
Lemma write_all_app dir a : forall d b, write_all d dir (a ++ b) = write_all (write_all d dir a) dir b.
Proof. induction a as [|[n t] a IH]; intros d b; cbn; [reflexivity|apply IH]. Qed.
Lemma path_eq_iff a b : path_eq a b = true <-> a = b.
Proof. unfold path_eq. destruct (list_eq_dec string_dec a b); intuition congruence. Qed.
Lemma write_same d p c : write d p c p = Some c.
Proof. unfold write. now rewrite (proj2 (path_eq_iff p p) eq_refl). Qed.
Lemma write_other d p c q : q <> p -> write d p c q = d q.
Proof. intros N. unfold write. destruct (path_eq q p) eqn:E; [now apply path_eq_iff in E|reflexivity]. Qed.
Lemma inside_inj dir a b : inside dir a = inside dir b -> a = b.
Proof. intros E. apply app_inv_head in E. congruence. Qed.
Lemma write_all_other dir l : forall d q, (forall name, In name (map fst l) -> q <> dir ++ [name]) -> write_all d dir l q = d q.
Proof.
  induction l as [|[n t] l IH]; intros d q H; cbn; [reflexivity|]. rewrite IH.
  - apply write_other. apply H. now left.
  - intros name I. apply H. now right.
Qed.
Lemma write_all_at dir a name text b d : ~ In name (map fst b) ->
  write_all d dir (a ++ (name, text) :: b) (dir ++ [name]) = Some (Text text).
Proof.
  intros N. rewrite write_all_app. cbn. rewrite write_all_other; [apply write_same|].
  intros n I E. apply inside_inj in E. now subst.
Qed.

Lemma split_join s : String.concat "." (split_dots s) = s.
Proof.
  induction s as [|c s IH]; [reflexivity|]. cbn [split_dots]. destruct (Ascii.eqb_spec c ".") as [->|N].
  - destruct (split_dots s) as [|x l] eqn:E; [destruct s as [|c' s]; [discriminate|cbn in E; destruct (Ascii.eqb c' "."); [discriminate|destruct (split_dots s); discriminate]]|].
    change (String.concat "." ("" :: x :: l)) with ("" ++ "." ++ String.concat "." (x :: l))%string. rewrite IH. reflexivity.
  - destruct (split_dots s) as [|x [|y l]] eqn:E.
    + cbn in IH. now subst s.
    + cbn in *. now rewrite IH.
    + change (String.concat "." (String c x :: y :: l)) with (String c (String.concat "." (x :: y :: l))). now rewrite IH.
Qed.

(** *** tables of locations *)
Lemma access_assign {A} (d : list (string * A)) k v k' : access (assign d k v) k' = if String.eqb k k' then Some v else access d k'.
Proof.
  induction d as [|[x w] d IH]; cbn; [reflexivity|]. destruct (String.eqb_spec x k) as [->|N]; cbn.
  - destruct (String.eqb_spec k k'); reflexivity.
  - rewrite IH. destruct (String.eqb_spec x k') as [->|]; [|reflexivity]. destruct (String.eqb_spec k k'); [congruence|reflexivity].
Qed.
(** locations[source][name] *)
Definition located (t : table) (source name : string) : option ((nat * nat) * (nat * nat)) :=
  match access t source with Some i => access i name | None => None end.
Lemma located_add t name loc source name' : located (add_location t name loc) source name' =
  if String.eqb (l_source loc) source && String.eqb name name' then Some (l_start loc, l_end loc) else located t source name'.
Proof.
  unfold located, add_location. rewrite access_assign. destruct (String.eqb_spec (l_source loc) source) as [<-|N]; [|reflexivity].
  rewrite access_assign. cbn. destruct (String.eqb name name'); [reflexivity|]. now destruct (access t (l_source loc)).
Qed.
Definition item : Type := ident * (string -> outcome string) * location.
Definition item_id (i : item) : ident := fst (fst i).
(** the flat names of identifiers, with "_" between the parts *)
Definition flat (i : item) : string := String.concat "_" (item_id i).

Lemma append_assoc a b c : ((a ++ b) ++ c)%string = (a ++ (b ++ c))%string.
Proof. induction a as [|x a IH]; cbn; [reflexivity|now rewrite IH]. Qed.
Lemma append_length x s : String.length (x ++ s) = String.length x + String.length s.
Proof. induction x as [|c x IH]; cbn; [reflexivity|now rewrite IH]. Qed.
Lemma append_cancel_r a : forall b s, (a ++ s)%string = (b ++ s)%string -> a = b.
Proof.
  induction a as [|c a IH]; intros [|d b] s E; [reflexivity| | |].
  - apply (f_equal String.length) in E. cbn in E. rewrite append_length in E. lia.
  - apply (f_equal String.length) in E. cbn in E. rewrite append_length in E. lia.
  - cbn in E. injection E as -> E. f_equal. eapply IH, E.
Qed.

Lemma graphs_spec dir fmt l : forall d t t' d', write_graphs d dir fmt l t = (Ret t', d') ->
  (forall q, (forall i, In i l -> q <> dir ++ [(flat i ++ "." ++ fmt)%string]) -> d' q = d q)
  /\ (forall source name, ~ In name (map flat l) -> located t' source name = located t source name)
  /\ (NoDup (map flat l) -> forall i, In i l -> exists g, snd (fst i) fmt = Ret g
      /\ d' (dir ++ [(flat i ++ "." ++ fmt)%string]) = Some (Text g)
      /\ located t' (l_source (snd i)) (flat i) = Some (l_start (snd i), l_end (snd i))).
Proof.
  induction l as [|[[id graph] loc] l IH]; intros d t t' d' H; cbn [write_graphs] in H.
  - injection H as <- <-. split; [reflexivity|]. split; [reflexivity|]. intros _ i [].
  - destruct (graph fmt) as [g|e|why] eqn:G; [|discriminate|discriminate].
    apply IH in H as (H1 & H2 & H3). split; [|split].
    + intros q N. rewrite H1; [|intros i I; apply N; now right]. apply write_other. apply (N (id, graph, loc)). now left.
    + intros source name N. cbn in N. rewrite H2; [|tauto]. rewrite located_add.
      destruct (String.eqb_spec (GenUnits.flat_name id) name) as [E|_]; [destruct N; now left|]. now rewrite andb_false_r.
    + intros ND i I. cbn in ND. inversion ND as [|x y N ND']; subst. destruct I as [<-|I]; [|now apply H3].
      exists g. split; [exact G|]. split.
      * rewrite H1; [apply write_same|]. intros j J E. apply inside_inj in E. apply append_cancel_r in E.
        destruct N. apply in_map_iff. exists j. split; [symmetry; exact E|exact J].
      * rewrite H2; [|exact N]. rewrite located_add. cbn. unfold flat. cbn. unfold GenUnits.flat_name.
        now rewrite !String.eqb_refl.
Qed.

Lemma flat_inj_last p x y : String.concat "_" (p ++ [x]) = String.concat "_" (p ++ [y]) -> x = y.
Proof.
  induction p as [|a p IH]; [cbn; auto|]. intros E.
  assert (C : forall z, String.concat "_" ((a :: p) ++ [z]) = (a ++ "_" ++ String.concat "_" (p ++ [z]))%string) by (intros z; destruct p; reflexivity).
  rewrite !C in E. apply IH. clear - E. induction a as [|c a IHa]; [cbn in E; congruence|]. cbn in E. injection E as E. auto.
Qed.

(** the last character of a text *)
Fixpoint final (s : string) : ascii := match s with EmptyString => zero | String c EmptyString => c | String _ r => final r end.
Lemma final_append a s : s <> "" -> final (a ++ s) = final s.
Proof.
  intros N. induction a as [|c a IH]; [reflexivity|]. cbn [String.append final].
  destruct (a ++ s)%string eqn:E; [|exact IH]. destruct a; [contradiction|discriminate].
Qed.
Lemma format_not_json x fmt : In fmt formats -> (x ++ "." ++ fmt)%string <> "locations.json".
Proof.
  intros I E. apply (f_equal final) in E.
  assert (N : ("." ++ fmt)%string <> "") by discriminate. rewrite final_append in E by exact N.
  cbn in I. destruct I as [<-|[<-|[<-|[<-|[<-|[<-|[]]]]]]]; discriminate.
Qed.

Section Theorems.
  Context (fs : files) (is_dir : path -> bool) (line : message -> string) (Model : Type).
  Context (create_model : bool -> specs -> outcome Model) (units : Model -> ident -> outcome (list (string * string))).
  Context (library_text : ident -> string -> string) (header : string).
  Context (items : Model -> list item) (exported : Model -> outcome string).
  Let rflx_main := main fs is_dir line Model create_model units library_text header items exported.

  Lemma parse_model_ok n m d l skip model : parse_model fs line Model create_model n m d l skip = Ret model <->
    missing d l = [] /\ exists sp, parse fs n m l = Ok ([], sp) /\ create_model skip sp = Ret model.
  Proof.
    unfold parse_model. rewrite look_up_spec. cbn [app].
    assert (P : missing d l = [] -> present d l = l).
    { clear. induction l as [|f l IH]; [reflexivity|]. cbn. destruct (d f); [|discriminate]. intros E. f_equal. now apply IH. }
    split.
    - destruct (parse fs n m (present d l)) as [[pe sp]|] eqn:PA; [|discriminate].
      destruct (create_model skip sp) as [mo|e|] eqn:C; [|destruct ((map not_found (missing d l) ++ map line pe) ++ e); discriminate|discriminate].
      destruct (missing d l) eqn:M; [|discriminate]. destruct pe; [|discriminate]. cbn. intros X. injection X as <-. split; [reflexivity|].
      exists sp. rewrite (P eq_refl) in PA. auto.
    - intros (M & sp & PA & C). rewrite (P M). rewrite PA, M, C. reflexivity.
  Qed.
  Lemma parse_model_errors n m d l skip pe sp : parse fs n m (present d l) = Ok (pe, sp) ->
    forall lines, lines = map not_found (missing d l) ++ map line pe ++ match create_model skip sp with Raise e => e | _ => [] end ->
    lines <> [] -> (forall why, create_model skip sp <> Crash why) ->
    parse_model fs line Model create_model n m d l skip = Raise lines.
  Proof.
    intros P lines L N C. unfold parse_model. rewrite look_up_spec. cbn [app]. rewrite P.
    destruct (create_model skip sp) as [mo|e|why]; [| |now destruct (C why)].
    - rewrite app_nil_r in L. rewrite <- L. destruct lines; [contradiction|reflexivity].
    - rewrite <- app_assoc, <- L. destruct lines; [contradiction|reflexivity].
  Qed.

  (** ** Theorems *)

  (** rflx check changes nothing, and ends with success exactly if all files exist and there are no
      errors in them and in the model. *)
  Theorem C68_check n m d l : exists o, rflx_main n m d (Check l) = (o, d)
    /\ (o = Success <-> (forall f, In f l -> d f <> None) /\ exists sp model, parse fs n m l = Ok ([], sp) /\ create_model false sp = Ret model).
  Proof.
    unfold rflx_main, main, check_cmd.
    assert (M : missing d l = [] <-> forall f, In f l -> d f <> None).
    { clear. induction l as [|f l IH]; [split; [intros _ f []|reflexivity]|]. unfold missing in *. cbn [filter In]. destruct (d f) eqn:E.
      - rewrite IH. split; [intros H g [<-|I]; [congruence|auto]|auto].
      - split; [discriminate|]. intros H. destruct (H f); auto. }
    pose proof (parse_model_ok n m d l false) as OK.
    destruct (parse_model fs line Model create_model n m d l false) as [mo|e|why].
    - eexists. split; [reflexivity|]. split; [intros _|reflexivity]. destruct (proj1 (OK mo) eq_refl) as (A & sp & B & C).
      pose proof (proj1 M A). eauto.
    - eexists. split; [reflexivity|]. split; [discriminate|]. intros (A & sp & mo & B & C).
      pose proof (proj2 (OK mo) (conj (proj2 M A) (ex_intro _ sp (conj B C)))). discriminate.
    - eexists. split; [reflexivity|]. split; [discriminate|]. intros (A & sp & mo & B & C).
      pose proof (proj2 (OK mo) (conj (proj2 M A) (ex_intro _ sp (conj B C)))). discriminate.
  Qed.

  (** Success of any command means the same of its specifications. *)
  Theorem C68_success n m d c d' : rflx_main n m d c = (Success, d') -> 
    (forall f, In f (specifications c) -> d f <> None)
    /\ exists sp model, parse fs n m (specifications c) = Ok ([], sp) /\ create_model (skips c) sp = Ret model.
  Proof.
    assert (K : forall l skip model, parse_model fs line Model create_model n m d l skip = Ret model ->
      (forall f, In f l -> d f <> None) /\ exists sp model, parse fs n m l = Ok ([], sp) /\ create_model skip sp = Ret model).
    { intros l skip model E. apply parse_model_ok in E as (A & sp & B & C). split; [|eauto].
      intros f I X. assert (J : In f (missing d l)) by (apply filter_In; rewrite X; auto). rewrite A in J. destruct J. }
    unfold rflx_main, main. destruct c as [l|prefix nl dir l|fmt nv dir l|l out]; cbn [specifications skips].
    - unfold check_cmd. destruct (parse_model _ _ _ _ n m d l false) eqn:E; try discriminate. intros _. eapply K, E.
    - unfold generate_cmd. destruct (_ && _); [discriminate|]. destruct (negb _); [discriminate|].
      destruct (parse_model _ _ _ _ n m d l false) eqn:E; try discriminate. intros _. eapply K, E.
    - unfold graph_cmd. destruct (negb _); [discriminate|]. destruct (parse_model _ _ _ _ n m d l nv) eqn:E; try discriminate.
      intros _. eapply K, E.
    - unfold export_cmd. destruct (parse_model _ _ _ _ n m d l false) eqn:E; try discriminate. intros _. eapply K, E.
  Qed.

  (** Missing files do not hide the errors in the others, and errors in files do not hide those of
      the model: all of them are in the text, in this order, and no file is changed. *)
  Theorem C68_errors n m d c pe sp lines : ready is_dir c ->
    parse fs n m (present d (specifications c)) = Ok (pe, sp) -> (forall why, create_model (skips c) sp <> Crash why) ->
    lines = map not_found (missing d (specifications c)) ++ map line pe ++ match create_model (skips c) sp with Raise e => e | _ => [] end ->
    lines <> [] -> rflx_main n m d c = (Failure (String.concat newline lines), d).
  Proof.
    intros R P C L N. pose proof (parse_model_errors n m d _ (skips c) pe sp P lines L N C) as E.
    unfold rflx_main, main. destruct c as [l|prefix nl dir l|fmt nv dir l|l out]; cbn [specifications skips ready] in *.
    - unfold check_cmd. now rewrite E.
    - destruct R as [R1 R2]. unfold generate_cmd. rewrite R1, E.
      assert (X : negb (String.eqb (if String.eqb prefix " " then "" else prefix) "") && existsb (String.eqb "") (split_dots (if String.eqb prefix " " then "" else prefix)) = false).
      { destruct R2 as [->|[->|R2]]; [reflexivity|reflexivity|]. destruct (String.eqb prefix " "); [reflexivity|].
        apply andb_false_iff. right. destruct (existsb (String.eqb "") (split_dots prefix)) eqn:Y; [|reflexivity].
        apply existsb_exists in Y as (y & I & Z). apply String.eqb_eq in Z. now subst. }
      rewrite X. reflexivity.
    - unfold graph_cmd. now rewrite R, E.
    - unfold export_cmd. now rewrite E.
  Qed.

  (** A command that ends with an error message has changed no file. *)
  Theorem C68_unchanged n m d c text d' : 
    (forall model e, exported model <> Raise e) -> (forall model i fmt e, In i (items model) -> snd (fst i) fmt <> Raise e) ->
    rflx_main n m d c = (Failure text, d') -> d' = d.
  Proof.
    intros EX GR. unfold rflx_main, main. destruct c as [l|prefix nl dir l|fmt nv dir l|l out].
    - unfold check_cmd. destruct (parse_model _ _ _ _ n m d l false); intros X; injection X; congruence.
    - unfold generate_cmd. destruct (_ && _); [intros X; injection X; congruence|]. destruct (negb _); [intros X; injection X; congruence|].
      destruct (parse_model _ _ _ _ n m d l false); try (intros X; injection X; congruence).
      destruct (generator_prefix _); try (intros X; injection X; congruence).
      destruct (units _ _); intros X; injection X; congruence.
    - unfold graph_cmd. destruct (negb _); [intros X; injection X; congruence|].
      destruct (parse_model _ _ _ _ n m d l nv) as [model| |]; try (intros X; injection X; congruence).
      assert (G : forall l d t e d1, (forall i, In i l -> In i (items model)) -> write_graphs d dir fmt l t <> (Raise e, d1)).
      { clear - GR. induction l as [|[[id g] loc] l IH]; intros d t e d1 I; cbn [write_graphs]; [discriminate|].
        destruct (g fmt) as [x|x|x] eqn:E; [|exfalso; exact (GR model (id, g, loc) fmt x (I _ (or_introl eq_refl)) E)|discriminate].
        apply IH. intros i J. apply I. now right. }
      destruct (write_graphs d dir fmt (items model) []) as [[t|e|why] d1] eqn:E; [discriminate| |discriminate].
      destruct (G _ _ _ _ _ (fun i I => I) E).
    - unfold export_cmd. destruct (parse_model _ _ _ _ n m d l false) as [model| |]; try (intros X; injection X; congruence).
      destruct (exported model) eqn:E; [discriminate|destruct (EX _ _ E)|discriminate].
  Qed.

  (** If rflx generate succeeds: the prefix is empty or a name whose parts, as they are between its
      dots, are neither empty nor contain blanks and colons.  Exactly the files of the units, those of
      the library unless they are unwanted and, for the default prefix, that of its package are
      written in the directory. *)
  Theorem C68_generate n m d prefix no_library dir l d' :
    rflx_main n m d (Generate prefix no_library dir l) = (Success, d') ->
    exists p model us files,
      ((prefix = "" \/ prefix = " ") /\ p = [] \/
       String.concat "." p = prefix /\ forall x, In x p -> x <> "" /\ has_char " " x = false /\ has_char ":" x = false)
      /\ (exists sp, parse fs n m l = Ok ([], sp) /\ create_model false sp = Ret model)
      /\ units model p = Ret us
      /\ files = us ++ (if no_library then [] else map (fun f => (f, library_text p f)) (GenUnits.library_files p))
                 ++ (if string_dec prefix "RFLX"
                     then [("rflx.ads", (header ++ "package RFLX is" ++ newline ++ newline ++ "end RFLX;")%string)] else [])
      /\ (forall a name text b, files = a ++ (name, text) :: b -> ~ In name (map fst b) -> d' (dir ++ [name]) = Some (Text text))
      /\ forall q, (forall name, In name (map fst files) -> q <> dir ++ [name]) -> d' q = d q.
  Proof.
    unfold rflx_main, main, generate_cmd. set (pr := if String.eqb prefix " " then "" else prefix).
    destruct (_ && _) eqn:V; [discriminate|]. destruct (negb (is_dir dir)); [discriminate|].
    destruct (parse_model _ _ _ _ n m d l false) as [model| |] eqn:PM; [|discriminate|discriminate].
    apply parse_model_ok in PM as [_ PM].
    destruct (generator_prefix pr) as [p|] eqn:P; [|discriminate].
    destruct (units model p) as [us| |] eqn:U; [|discriminate|discriminate]. intros X. injection X as X.
    exists p, model, us. eexists.
    assert (TOP : (if String.eqb pr "RFLX" then top_level header p else []) =
                  (if string_dec prefix "RFLX" then [("rflx.ads", (header ++ "package RFLX is" ++ newline ++ newline ++ "end RFLX;")%string)] else [])).
    { destruct (string_dec prefix "RFLX") as [->|N].
      - vm_compute in P. injection P as <-. reflexivity.
      - unfold pr. destruct (String.eqb_spec prefix " "); [reflexivity|]. destruct (String.eqb_spec prefix "RFLX"); [contradiction|reflexivity]. }
    split; [|split; [exact PM|split; [exact U|split; [reflexivity|]]]].
    - unfold generator_prefix in P. destruct (String.eqb_spec pr "") as [E|E].
      + injection P as <-. left. split; [|reflexivity]. unfold pr in E. destruct (String.eqb_spec prefix " "); auto.
      + right. unfold pr in *. destruct (String.eqb_spec prefix " "); [contradiction|].
        unfold check_parts in P. destruct (split_dots prefix) as [|y r] eqn:S; [discriminate|].
        destruct (existsb (String.eqb "") (y :: r)) eqn:B1; [discriminate|]. destruct (existsb (has_char " ") (y :: r)) eqn:B2; [discriminate|].
        destruct (existsb (has_char ".") (y :: r)); [discriminate|]. destruct (existsb (has_char ":") (y :: r)) eqn:B3; [discriminate|].
        injection P as <-. rewrite <- S in *. split; [apply split_join|]. intros x I.
        assert (F : forall f, existsb f (split_dots prefix) = false -> f x = false).
        { intros f B. destruct (f x) eqn:Z; [|reflexivity]. assert (existsb f (split_dots prefix) = true) by (apply existsb_exists; eauto). congruence. }
        split; [|split; [now apply F|now apply F]]. intros ->. apply F in B1. discriminate.
    - rewrite <- TOP. revert X.
      set (lib := map (fun f => (f, library_text p f)) (GenUnits.library_files p)). intros X.
      assert (D : d' = write_all d dir (us ++ (if no_library then [] else lib) ++ (if String.eqb pr "RFLX" then top_level header p else []))).
      { rewrite <- X, !write_all_app. destruct no_library, (String.eqb pr "RFLX"); reflexivity. }
      rewrite D. split.
      + intros a name text b E N. rewrite E. now apply write_all_at.
      + intros q N. now apply write_all_other.
  Qed.

  (** If rflx graph succeeds and the flat names are different: each message and session has its graph
      in the directory and its place in locations.json, and nothing else is changed. *)
  Theorem C68_graph n m d fmt no_verification dir l d' : In fmt formats ->
    rflx_main n m d (Graph fmt no_verification dir l) = (Success, d') ->
    exists model t,
      (exists sp, parse fs n m l = Ok ([], sp) /\ create_model no_verification sp = Ret model)
      /\ d' (dir ++ ["locations.json"]) = Some (Locations t)
      /\ (NoDup (map flat (items model)) -> forall i, In i (items model) ->
            (exists g, snd (fst i) fmt = Ret g /\ d' (dir ++ [(flat i ++ "." ++ fmt)%string]) = Some (Text g))
            /\ located t (l_source (snd i)) (flat i) = Some (l_start (snd i), l_end (snd i)))
      /\ (forall source name, ~ In name (map flat (items model)) -> located t source name = None)
      /\ forall q, q <> dir ++ ["locations.json"] -> (forall i, In i (items model) -> q <> dir ++ [(flat i ++ "." ++ fmt)%string]) -> d' q = d q.
  Proof.
    intros F. unfold rflx_main, main, graph_cmd. destruct (negb _); [discriminate|].
    destruct (parse_model _ _ _ _ n m d l no_verification) as [model| |] eqn:PM; [|discriminate|discriminate].
    apply parse_model_ok in PM as [_ PM].
    destruct (write_graphs d dir fmt (items model) []) as [[t|e|why] d1] eqn:E; [|discriminate|discriminate].
    intros X. injection X as <-. exists model, t. destruct (graphs_spec _ _ _ _ _ _ _ E) as (H1 & H2 & H3).
    split; [exact PM|]. split; [apply write_same|]. split; [|split].
    - intros ND i I. destruct (H3 ND i I) as (g & G1 & G2 & G3). split; [|exact G3]. exists g. split; [exact G1|].
      rewrite write_other; [exact G2|]. intros Z. apply inside_inj in Z. revert Z. now apply format_not_json.
    - intros source name N. now rewrite H2.
    - intros q N1 N2. rewrite write_other; [now apply H1|exact N1].
  Qed.

  (** If rflx export succeeds, the output file has the text of the model and nothing else is changed. *)
  Theorem C68_export n m d l output d' : rflx_main n m d (Export l output) = (Success, d') ->
    exists sp model text, parse fs n m l = Ok ([], sp) /\ create_model false sp = Ret model /\ exported model = Ret text
      /\ d' output = Some (Text text) /\ forall q, q <> output -> d' q = d q.
  Proof.
    unfold rflx_main, main, export_cmd. destruct (parse_model _ _ _ _ n m d l false) as [model| |] eqn:PM; [|discriminate|discriminate].
    apply parse_model_ok in PM as (_ & sp & P & C). destruct (exported model) as [text| |] eqn:E; [|discriminate|discriminate].
    intros X. injection X as <-. exists sp, model, text. split; [exact P|]. split; [exact C|]. split; [exact E|].
    split; [apply write_same|]. intros q N. now apply write_other.
  Qed.
End Theorems.
Print Assumptions C68_check.
Print Assumptions C68_success.
Print Assumptions C68_errors.
Print Assumptions C68_unchanged.
Print Assumptions C68_generate.
Print Assumptions C68_graph.
Print Assumptions C68_export.

(** The flat names of different types of the same package are different. *)
Theorem C68_same_package p x y : String.concat "_" (p ++ [x]) = String.concat "_" (p ++ [y]) -> x = y.
Proof. apply flat_inj_last. Qed.
Print Assumptions C68_same_package.

(** ** A case: a directory with two specifications *)
Definition case_fs : files :=
  [(["a.rflx"], Parsed (mkSpec "A" "A" ["B"] ["T"])); (["b.rflx"], Parsed (mkSpec "B" "B" [] ["M"])); (["c.rflx"], Broken "syntax error" [])].
Definition case_disk : disk := fun f =>
  if existsb (path_eq f) [["a.rflx"]; ["b.rflx"]; ["c.rflx"]; ["out"; "old.ads"]] then Some (Text "old") else None.
Definition case_dir (p : path) : bool := path_eq p ["out"].
Definition case_line (x : message) : string := match x with Diagnostic d => ("parser: error: " ++ d)%string | _ => "parser: error" end.
(** the model is the list of packages; there is an error if package B is not loaded *)
Definition case_model (skip : bool) (sp : specs) : outcome (list string) :=
  if existsb (String.eqb "b.rflx") (map fst sp) then Ret (map fst sp) else Raise ["model: error: undefined type"].
Definition case_units (m : list string) (p : ident) : outcome (list (string * string)) :=
  Ret [("rflx-a.ads", "package A"); ("rflx-b.ads", "package B")].
Definition case_items (m : list string) : list item :=
  [(["A"; "M"], fun fmt => Ret ("graph of A::M as " ++ fmt)%string, mkLoc "a.rflx" (1, 2) (3, 4));
   (["B"; "S"], fun fmt => Ret ("graph of B::S as " ++ fmt)%string, mkLoc "b.rflx" (5, 6) (7, 8))].
Definition case_main (n m : nat) (d : disk) (c : command) : ending * disk :=
  main case_fs case_dir case_line (list string) case_model case_units (fun _ f => f) "-- header" case_items (fun _ => Ret "{}") n m d c.
Example C68_check_case : fst (case_main 5 20 case_disk (Check [["a.rflx"]])) = Success.
Proof. vm_compute. reflexivity. Qed.
(** a missing file, a syntax error and an error of the model in one run *)
Example C68_errors_case : fst (case_main 5 20 case_disk (Check [["no.rflx"]; ["c.rflx"]])) =
  Failure (String.concat newline ["cli: error: file not found: " ++ quoted "no.rflx"; "parser: error: syntax error"; "model: error: undefined type"])%string.
Proof. vm_compute. reflexivity. Qed.
Example C68_generate_case :
  let r := case_main 5 20 case_disk (Generate "RFLX" false ["out"] [["a.rflx"]]) in
  fst r = Success
  /\ map (fun f => snd r ["out"; f]) ["rflx-a.ads"; "rflx-b.ads"; "rflx-rflx_types.ads"; "old.ads"; "x.ads"]
     = [Some (Text "package A"); Some (Text "package B"); Some (Text "rflx-rflx_types.ads"); Some (Text "old"); None]
  /\ snd r ["out"; "rflx.ads"] = Some (Text ("-- headerpackage RFLX is" ++ newline ++ newline ++ "end RFLX;")%string).
Proof. vm_compute. auto. Qed.
Example C68_no_library_case :
  let r := case_main 5 20 case_disk (Generate "My.Lib" true ["out"] [["a.rflx"]]) in
  fst r = Success /\ map (fun f => snd r ["out"; f]) ["rflx-a.ads"; "my-lib-rflx_types.ads"; "my-lib.ads"] = [Some (Text "package A"); None; None].
Proof. vm_compute. auto. Qed.
Example C68_prefix_case : map (fun p => fst (case_main 5 20 case_disk (Generate p true ["out"] [["a.rflx"]]))) [" "; "A..B"; "A B"] =
  [Success; Failure ("cli: error: invalid prefix: " ++ quoted "A..B"); Failure "id: error: blank in identifier parts"]%string.
Proof. vm_compute. reflexivity. Qed.
Example C68_graph_case :
  let r := case_main 5 20 case_disk (Graph "svg" false ["out"] [["a.rflx"]]) in
  fst r = Success /\ NoDup (map flat (case_items []))
  /\ snd r ["out"; "A_M.svg"] = Some (Text "graph of A::M as svg")
  /\ snd r ["out"; "locations.json"] = Some (Locations [("a.rflx", [("A_M", ((1, 2), (3, 4)))]); ("b.rflx", [("B_S", ((5, 6), (7, 8)))])]).
Proof.
  split; [vm_compute; reflexivity|]. split; [|split; vm_compute; reflexivity].
  cbn. repeat constructor; cbn; intuition discriminate.
Qed.

Example C68_export_case :
  let r := case_main 5 20 case_disk (Export [["a.rflx"]] ["out"; "old.ads"]) in
  fst r = Success /\ snd r ["out"; "old.ads"] = Some (Text "{}") /\ snd r ["a.rflx"] = Some (Text "old").
Proof. vm_compute. auto. Qed.

(** ** What does not hold *)

(** Types of different packages can have the same flat name: then the graph of one of them is
    overwritten by that of the other. *)
Theorem C68_flat_refuted : exists (l : list item) i j g d' t,
  In i l /\ In j l /\ id_eq (item_id i) (item_id j) = false
  /\ write_graphs case_disk ["out"] "svg" l [] = (Ret t, d') /\ snd (fst i) "svg" = Ret g
  /\ forall f, d' f <> Some (Text g).
Proof.
  set (i := (["A"; "B_C"], fun _ : string => @Ret string "graph of A::B_C", mkLoc "a.rflx" (1, 1) (1, 1)) : item).
  set (j := (["A_B"; "C"], fun _ : string => @Ret string "graph of A_B::C", mkLoc "a_b.rflx" (1, 1) (1, 1)) : item).
  exists [i; j], i, j, "graph of A::B_C". eexists. eexists. split; [now left|]. split; [right; now left|]. split; [reflexivity|].
  split; [cbn [write_graphs i j]; reflexivity|]. split; [reflexivity|].
  intros f. unfold write. destruct (path_eq f (inside ["out"] (graph_name ["A_B"; "C"] "svg"))) eqn:E; [discriminate|].
  change (graph_name ["A"; "B_C"] "svg") with (graph_name ["A_B"; "C"] "svg"). rewrite E.
  unfold case_disk. destruct (existsb _ _); discriminate.
Qed.
Print Assumptions C68_flat_refuted.

(** An unexpected exception leaves files behind: the graphs drawn before, and an empty output file in
    place of the former one. *)
Theorem C68_exception_refuted : exists Model create_model units items exported d c1 c2 why,
  (let r := main case_fs case_dir case_line Model create_model units (fun _ f => f) "" items exported 5 20 d c1 in
   fst r = Unexpected why /\ exists f, snd r f <> d f)
  /\ (let r := main case_fs case_dir case_line Model create_model units (fun _ f => f) "" items exported 5 20 d c2 in
      fst r = Unexpected why /\ exists f, d f = Some (Text "old") /\ snd r f = Some (Text "")).
Proof.
  exists (list string), case_model, case_units,
    (fun m => case_items m ++ [(["B"; "T"], fun _ : string => @Crash string "AttributeError", mkLoc "b.rflx" (1, 1) (1, 1))]),
    (fun _ => Crash "AttributeError"), case_disk, (Graph "svg" false ["out"] [["a.rflx"]]), (Export [["a.rflx"]] ["out"; "old.ads"]), "AttributeError".
  split; (split; [vm_compute; reflexivity|]).
  - exists ["out"; "A_M.svg"]. vm_compute. discriminate.
  - exists ["out"; "old.ads"]. split; vm_compute; reflexivity.
Qed.
Print Assumptions C68_exception_refuted.
