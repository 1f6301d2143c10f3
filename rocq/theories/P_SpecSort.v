(** C30: specification files are ordered by dependency. *)
From Coq Require Import String List Arith Bool Lia.
From Verif Require Import Base Expr SpecSort SpecSortFacts.
Import ListNotations.
Local Open Scope string_scope.
Local Open Scope list_scope.
Local Open Scope nat_scope.
Local Open Scope res_scope.
Local Notation length := List.length.

(** [uses fs f d]: file f has a with clause naming d; [leads_to]: through any number
    of with clauses; [before d f l]: d comes before f in l. *)
Definition uses (fs : dict) (f d : file) : Prop := exists ws, dget fs f = Some ws /\ In d ws.
Inductive leads_to (fs : dict) : file -> file -> Prop :=
| lt_refl f : leads_to fs f f
| lt_step f g d : uses fs f g -> leads_to fs g d -> leads_to fs f d.
Definition exists_file (fs : dict) (f : file) : Prop := exists ws, dget fs f = Some ws.
(** one of the files leads into a cycle of with clauses *)
Definition cyclic (fs : dict) (files : list file) : Prop :=
  exists f x y, In f files /\ leads_to fs f x /\ uses fs x y /\ leads_to fs y x.

Lemma uses_iff fs f d : uses fs f d <-> In d (withs fs f).
Proof.
  unfold uses, withs. destruct (dget fs f) as [ws|]; split; [|eauto| |intros []].
  - intros (us & E & I). now injection E as ->.
  - intros (us & E & I). discriminate.
Qed.
Lemma leads_iff fs f d : leads_to fs f d <-> reach fs f d.
Proof.
  split; intros H; induction H; try constructor; [eapply reach_step|eapply lt_step]; eauto; now apply uses_iff.
Qed.
Lemma exists_iff fs f : exists_file fs f <-> In f (keys fs).
Proof. split; [intros [ws E]; eapply dget_in; eassumption|apply in_dget]. Qed.

(** Loading comes to an end for every set of files, even a cyclic one, and reports a
    dependency cycle exactly if there is one. *)
Theorem C30_load fs files n : length fs + 2 <= n ->
  exists errs specs, parse_files fs n files [] [] = Ok (errs, specs) /\
    (In "dependency cycle" errs <-> cyclic fs files).
Proof.
  intros L. destruct (files_total fs n files [] [] L) as [[errs specs] E]. exists errs, specs. split; [exact E|]. split.
  - intros I. destruct (files_cycle _ _ _ _ _ _ _ E I) as [[]|(f & x & y & A & B & C & D)].
    exists f, x, y. rewrite !leads_iff, uses_iff. auto.
  - intros (f & x & y & A & B & C & D). rewrite !leads_iff, uses_iff in *.
    destruct (in_dec string_dec "dependency cycle" errs) as [I|N]; [exact I|exfalso].
    destruct (files_spec _ _ _ _ _ _ _ E) as (_ & _ & _ & G).
    destruct G as [G F]; [exact N|split; [constructor|split; [discriminate|exists (fun _ => 0); intros ? ? []]]|].
    assert (Kx : In x (keys fs)). { unfold withs in C. destruct (dget fs x) eqn:X; [|destruct C]. eapply dget_in; eassumption. }
    assert (Kf : In f (keys fs)).
    { inversion B as [|u v w Z]; subst; [exact Kx|]. unfold withs in Z. destruct (dget fs f) eqn:X; [|destruct Z]. eapply dget_in; eassumption. }
    eapply good_acyclic; [exact G|eapply good_reach; [exact G|exact (F f A Kf)|exact B|exact Kx]|exact C|exact D].
Qed.
Print Assumptions C30_load.

Lemma specfile_mono fs n : forall f tr sp r, parse_specfile fs n f tr sp = Ok r ->
  forall n', n <= n' -> parse_specfile fs n' f tr sp = Ok r.
Proof.
  induction n as [|n IH]; intros f tr sp r H n' L; [discriminate|]. destruct n' as [|n']; [lia|]. cbn in *.
  destruct (dget fs f) as [items|]; [|exact H].
  assert (IT : forall items errs wi sp r, parse_items (parse_specfile fs n) tr items errs wi sp = Ok r ->
                parse_items (parse_specfile fs n') tr items errs wi sp = Ok r).
  { clear - IH L. induction items as [|i items IHi]; intros errs wi sp r H; [exact H|]. cbn in *.
    destruct (mem i tr); [auto|]. destruct (mem i (keys sp)); [auto|].
    destruct (parse_specfile fs n i (tr ++ [i]) sp) as [q|] eqn:E; [|discriminate]. rewrite (IH _ _ _ _ E n' ltac:(lia)). cbn in *. auto. }
  destruct (parse_items (parse_specfile fs n) tr items [] [] sp) as [q|] eqn:E; [|discriminate].
  rewrite (IT _ _ _ _ _ E). exact H.
Qed.
Lemma files_mono fs n n' : n <= n' -> forall files errs specs r, parse_files fs n files errs specs = Ok r ->
  parse_files fs n' files errs specs = Ok r.
Proof.
  intros L. induction files as [|f fl IH]; intros errs specs r E; cbn in *; [exact E|].
  destruct (parse_specfile fs n f [] specs) as [q|] eqn:X; [|discriminate]. rewrite (specfile_mono _ _ _ _ _ _ X n' L). cbn in *. auto.
Qed.

(** Without cycles the files that are reached and exist are processed, each once and
    each after all files named in its with clauses. *)
Theorem C30_order fs files : ~ cyclic fs files ->
  exists m0, forall n m, length fs + 2 <= n -> m0 <= m ->
  exists errs order, parse fs n m files = Ok (errs, order) /\
    ~ In "dependency cycle" errs /\ NoDup order /\
    (forall f, In f order <-> exists_file fs f /\ exists g, In g files /\ leads_to fs g f) /\
    forall f d, In f order -> uses fs f d -> exists_file fs d -> before d f order.
Proof.
  intros NC.
  (* the specifications do not depend on the fuel *)
  destruct (C30_load fs files (length fs + 2) (le_n _)) as (e0 & s0 & E0 & I0).
  assert (INV : forall n errs specs, parse_files fs n files [] [] = Ok (errs, specs) -> ~ In "dependency cycle" errs ->
            good fs specs /\ (forall f, In f (keys specs) <-> exists_file fs f /\ exists g, In g files /\ leads_to fs g f)).
  { intros n errs specs E N. destruct (files_spec _ _ _ _ _ _ _ E) as (_ & _ & R & G).
    destruct G as [G F]; [exact N|split; [constructor|split; [discriminate|exists (fun _ => 0); intros ? ? []]]|].
    split; [exact G|]. intros f. rewrite exists_iff. split.
    - intros K. destruct (R f K) as [[]|(K' & g & Ig & L)]. split; [exact K'|]. exists g. now rewrite leads_iff.
    - intros (K & g & Ig & L). apply leads_iff in L. eapply good_reach; eauto. apply F; auto.
      inversion L as [|u v w Z]; subst; [exact K|]. unfold withs in Z. destruct (dget fs g) eqn:X; [|destruct Z]. eapply dget_in; eassumption. }
  assert (DET : forall n, length fs + 2 <= n -> parse_files fs n files [] [] = Ok (e0, s0)).
  { intros n L. eapply files_mono; eassumption. }
  assert (N0 : ~ In "dependency cycle" e0) by tauto.
  destruct (INV _ _ _ E0 N0) as [G K]. pose proof G as (ND & EX & rank & R).
  assert (W : forall f, In f (keys s0) -> withs s0 f = withs fs f).
  { intros f I. destruct (in_dget _ _ I) as [ws D]. unfold withs. now rewrite D, (EX _ _ D). }
  destruct (sort_ok s0 ND rank) as [m0 S].
  { intros f d I Kd.
    assert (Kf : In f (keys s0)) by (unfold withs in I; destruct (dget s0 f) eqn:D; [eapply dget_in; eassumption|destruct I]).
    rewrite (W _ Kf) in I. apply (R f d Kf I). destruct (in_dget _ _ Kd) as [v Kv]. apply EX in Kv. eapply dget_in; eassumption. }
  exists m0. intros n m Ln Lm. destruct (S m Lm) as (order & O1 & O2 & O3 & O4).
  exists e0, order. unfold parse. rewrite (DET n Ln). cbn [bind fst snd]. rewrite O1. cbn [bind]. split; [reflexivity|].
  split; [exact N0|]. split; [exact O2|]. split.
  - intros f. now rewrite O3.
  - intros f d If U Ed. apply O3 in If. apply uses_iff in U. apply O4; [now rewrite (W _ If)|].
    apply (R f d If U). now apply exists_iff.
Qed.
Print Assumptions C30_order.

(** A file set with shared and repeated dependencies, of which one does not exist. *)
Definition example_fs : dict :=
  [("r", ["x"; "e"]); ("q", ["z"]); ("z", ["x"]); ("x", ["e"; "none"]); ("e", [])].
Example C30_order_meets : ~ cyclic example_fs ["r"; "q"].
Proof.
  destruct (C30_load example_fs ["r"; "q"] 7 (le_n _)) as (errs & specs & E & I). rewrite <- I.
  vm_compute in E. injection E as <- _. cbn. intuition discriminate.
Qed.
Example C30_order_case : parse example_fs 7 20 ["r"; "q"] = Ok (["unreadable"], ["e"; "x"; "z"; "q"; "r"]).
Proof. vm_compute. reflexivity. Qed.

(** The cycle of two files is found when loading a third one or one of the two, but
    the sorting need not come to an end: the error is never shown. *)
Definition hang_fs : dict := [("a", ["b"]); ("b", ["a"]); ("r", ["a"; "b"])].
Theorem C30_hang_refuted : exists fs files, cyclic fs files /\
  forall n m, length fs + 2 <= n -> parse fs n m files = Err out_of_fuel.
Proof.
  exists hang_fs, ["a"; "r"]. split.
  { exists "a", "a", "b". split; [now left|]. split; [constructor|].
    split; [exists ["b"]; split; [reflexivity|now left]|]. eapply lt_step; [exists ["a"]; split; [reflexivity|now left]|constructor]. }
  intros n m L. cbn in L. do 5 (destruct n as [|n]; [lia|]).
  set (specs := [("a", ["b"]); ("b", ["a"]); ("r", ["a"; "b"])]).
  assert (E : exists errs, parse_files hang_fs (S (S (S (S (S n))))) ["a"; "r"] [] [] = Ok (errs, [("a", ["b"]); ("b", ["a"]); ("r", ["a"; "b"])])).
  { eexists. cbn. reflexivity. }
  destruct E as [errs E]. unfold parse. rewrite E. cbn [bind snd]. fold specs.
  assert (STEP : forall k q p v f g, (f = "a" /\ g = "b") \/ (f = "b" /\ g = "a") ->
            In "a" v -> In "b" v -> In "r" v ->
            exists v', sort_loop specs (S k) (f :: q) p v = sort_loop specs k (q ++ [g]) (p ++ [f]) v' /\ In "a" v' /\ In "b" v' /\ In "r" v').
  { intros k q p v f g FG Ia Ib Ir. exists (g :: v).
    split; [|cbn [In]; auto].
    assert (V : forall e, e = "a" \/ e = "b" -> visit specs [e] v q = (e :: v, q ++ [e])).
    { intros e D.
      assert (T : forallb (fun x => mem x (e :: v)) (includers specs e) = true).
      { apply forallb_forall. intros x J. apply mem_iff. right.
        destruct D as [-> | ->]; [change (In x ["b"; "r"]) in J|change (In x ["a"; "r"]) in J];
          destruct J as [<-|[<-|[]]]; assumption. }
      transitivity (e :: v, if mem e (keys specs) && forallb (fun x => mem x (e :: v)) (includers specs e) then q ++ [e] else q); [reflexivity|].
      rewrite T. destruct D as [-> | ->]; reflexivity. }
    destruct FG as [[-> ->]|[-> ->]].
    - change (sort_loop specs (S k) ("a" :: q) p v) with (let '(v', q') := visit specs ["b"] v q in sort_loop specs k q' (p ++ ["a"]) v').
      rewrite V by auto. reflexivity.
    - change (sort_loop specs (S k) ("b" :: q) p v) with (let '(v', q') := visit specs ["a"] v q in sort_loop specs k q' (p ++ ["b"]) v').
      rewrite V by auto. reflexivity. }
  assert (LOOP : forall k f p v, f = "a" \/ f = "b" -> In "a" v -> In "b" v -> In "r" v -> sort_loop specs k [f] p v = Err out_of_fuel).
  { induction k as [|k IH]; intros f p v F Ia Ib Ir; [reflexivity|].
    destruct (STEP k [] p v f (if String.eqb f "a" then "b" else "a")) as (v' & -> & A & B & C); auto.
    { destruct F as [-> | ->]; cbn; auto. }
    cbn [app]. apply IH; auto. destruct F as [-> | ->]; cbn; auto. }
  unfold sort_specs. change (filter _ (keys specs)) with ["r"].
  destruct m as [|m]; [reflexivity|].
  change (sort_loop specs (S m) ["r"] [] ["r"]) with (sort_loop specs m ["b"] ["r"] ["b"; "a"; "r"]).
  rewrite LOOP; cbn; auto.
Qed.
Print Assumptions C30_hang_refuted.
Example C30_hang_reported : exists specs, parse_files hang_fs 5 ["a"; "r"] [] [] = Ok (["dependency cycle"], specs).
Proof. eexists. vm_compute. reflexivity. Qed.
