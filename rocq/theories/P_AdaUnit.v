(** C71: the text of a package has the declarations that were added to it.

    ada.py:1645-1743.  [xt] is the text of the expressions, aspects, statements and components inside
    declarations, [xeq n] their equality at a time: it may depend on which texts have been made before. *)
From Coq Require Import String Ascii List Bool Arith Lia.
From Verif Require Import Base Ident ExprPrint AdaStmt AdaUnit AdaUnitSpec AdaUnitFacts AdaUnitRun AdaProfile.
Import ListNotations.
Local Open Scope string_scope.
Local Open Scope list_scope.
Local Open Scope res_scope.

Section Theorems.
  Context {X : Type} (xt : X -> string) (xeq : nat -> X -> X -> bool).
  (** equal objects have the same text up to the case of letters *)
  Context (HX : forall n x y, xeq n x y = true -> lower (xt x) = lower (xt y)).
  Let shows := announces (item_text xt) (forall n x, xeq n x x = true).

  (** the head of a package: everything up to the declarations, ada.py:971-972, 995 *)
  Definition head (k : package X) : string :=
    (formals_text xt (u_formals k) ++ "package " ++ u_id k ++ aspects_text xt (u_aspects k) ++ nl ++ "is")%string.
  Definition body_head (k : package X) : string :=
    ("package body " ++ u_body_id k ++ aspects_text xt (u_body_aspects k) ++ nl ++ "is")%string.

  (** Whatever parts are added to a package, the text of its specification has these paragraphs and no
      others: the context, the head, the declarations, "private" and the private declarations if there
      are any, and the end. *)
  Theorem C71_specification k ps :
    let ds := u_declarations k ++ flat_map part_specification ps in
    let pr := u_private k ++ flat_map part_private ps in
    orderly xt xeq (u_context k) -> orderly xt xeq ds -> orderly xt xeq pr ->
    tidy (head k) = true -> tidy (u_id k) = true ->
    exists v s C D P,
      add_all (Package k) ps = Ok v /\ ads xt xeq v = Ok s /\
      paragraphs s =
        match C with [] => [] | _ => [String.concat nl C] end ++ [head k] ++ map (fun t => indent t 3) D ++
        match P with [] => [] | _ => "private" :: map (fun t => indent t 3) P end ++
        [("end " ++ u_id k ++ ";" ++ nl)%string] /\
      shows C (u_context k) /\ shows D ds /\ shows P pr.
  Proof.
    intros ds pr Oc Od Op Th Ti. destruct (add_all_total ps k) as [v A]. pose proof (add_all_package _ _ _ A) as ->.
    destruct (context_clause_ok xt xeq HX 0 _ Oc) as (C & c & Ec & Ac & Pc).
    destruct (declarative_items_ok xt xeq HX (List.length (u_context k)) _ false Od) as (D & d & Ed & Ad & Pd).
    destruct (declarative_items_ok xt xeq HX (List.length (u_context k) + List.length ds) _ true Op) as (P & p & Ep & Ap & Pp).
    eexists _, _, C, D, P. split; [exact A|]. split.
    { unfold ads. cbn [u_context u_declarations u_private]. fold ds pr. rewrite Ec. cbn [bind]. rewrite Ed. cbn [bind]. rewrite Ep. cbn [bind]. reflexivity. }
    split; [|now repeat split].
    cbn [u_formals u_id u_aspects]. rewrite Pc. f_equal.
    replace (formals_text xt (u_formals k) ++ "package " ++ u_id k ++ aspects_text xt (u_aspects k) ++ nl ++ "is" ++ nl ++ nl ++
       d ++ p ++ "end " ++ u_id k ++ ";" ++ nl)%string with (head k ++ nl ++ nl ++ d ++ p ++ "end " ++ u_id k ++ ";" ++ nl)%string
      by (unfold head; now rewrite !app_assoc_s).
    rewrite (paragraphs_split _ _ Th), Pd, Pp. cbn [app]. f_equal.
    replace ("end " ++ u_id k ++ ";" ++ nl)%string with (("end " ++ u_id k ++ ";") ++ nl)%string by now rewrite !app_assoc_s.
    rewrite paragraphs_last.
    - destruct D, P; reflexivity.
    - apply (tidy_app "end "); [reflexivity|]. now apply tidy_app.
  Qed.

  (** the same for the text of the body; without declarations there is no text *)
  Theorem C71_body k ps :
    let ds := u_body k ++ flat_map part_body ps in
    orderly xt xeq (u_body_context k) -> orderly xt xeq ds -> tidy (body_head k) = true -> tidy (u_body_id k) = true ->
    exists v s C D,
      add_all (Package k) ps = Ok v /\ adb xt xeq v = Ok s /\
      (ds = [] -> s = "") /\
      (ds <> [] -> paragraphs s =
        match C with [] => [] | _ => [String.concat nl C] end ++ [body_head k] ++ map (fun t => indent t 3) D ++
        [("end " ++ u_body_id k ++ ";" ++ nl)%string]) /\
      shows C (u_body_context k) /\ shows D ds.
  Proof.
    intros ds Oc Od Th Ti. destruct (add_all_total ps k) as [v A]. pose proof (add_all_package _ _ _ A) as ->.
    destruct (declarative_items_ok xt xeq HX 0 _ false Od) as (D0 & d0 & Ed0 & _ & _).
    destruct (context_clause_ok xt xeq HX (List.length ds) _ Oc) as (C & c & Ec & Ac & Pc).
    destruct (declarative_items_ok xt xeq HX (List.length ds + List.length (u_body_context k)) _ false Od) as (D & d & Ed & Ad & Pd).
    destruct ds as [|o os] eqn:E.
    - eexists _, "", C, D. split; [exact A|]. split; [unfold adb; cbn [u_body]; fold ds; now rewrite E|]. split; [reflexivity|].
      split; [congruence|now split].
    - eexists _, _, C, D. split; [exact A|]. split.
      { unfold adb. cbn [u_body u_body_context u_body_id u_body_aspects]. fold ds. rewrite E, Ed0. cbn [bind]. rewrite Ec. cbn [bind]. rewrite Ed. cbn [bind]. reflexivity. }
      split; [discriminate|]. split; [|now split]. intros _. rewrite Pc. f_equal.
      replace ("package body " ++ u_body_id k ++ aspects_text xt (u_body_aspects k) ++ nl ++ "is" ++ nl ++ nl ++
         d ++ "end " ++ u_body_id k ++ ";" ++ nl)%string with (body_head k ++ nl ++ nl ++ d ++ "end " ++ u_body_id k ++ ";" ++ nl)%string
        by (unfold body_head; now rewrite !app_assoc_s).
      rewrite (paragraphs_split _ _ Th), Pd. cbn [app]. f_equal.
      replace ("end " ++ u_body_id k ++ ";" ++ nl)%string with (("end " ++ u_body_id k ++ ";") ++ nl)%string by now rewrite !app_assoc_s.
      rewrite paragraphs_last.
      + destruct D; reflexivity.
      + apply (tidy_app "end "); [reflexivity|]. now apply tidy_app.
  Qed.

  (** the text of an instantiation has its context and one declaration; it has no body, and nothing can be
      added *)
  Theorem C71_instantiation c i g l :
    orderly xt xeq c -> tidy i = true -> tidy g = true -> Forall (fun a => tidy a = true) l ->
    exists s C, ads xt xeq (Instantiation c i g l) = Ok s /\ adb xt xeq (Instantiation c i g l) = Ok "" /\
      (forall p, iadd (Instantiation c i g l) p = Err "TypeError") /\
      paragraphs s = match C with [] => [] | _ => [String.concat nl C] end ++
        [("package " ++ i ++ " is new " ++ g ++ match l with [] => "" | _ => " (" ++ String.concat ", " l ++ ")" end ++ ";" ++ nl)%string] /\
      shows C c.
  Proof.
    intros Oc Ti Tg Tl. destruct (context_clause_ok xt xeq HX 0 _ Oc) as (C & s & Ec & Ac & Pc).
    eexists _, C. split; [unfold ads; rewrite Ec; cbn [bind]; reflexivity|]. split; [reflexivity|]. split; [reflexivity|]. split; [|exact Ac].
    rewrite Pc. f_equal. unfold associations_text, commas.
    replace ("package " ++ i ++ " is new " ++ g ++ match l with [] => "" | _ => " (" ++ String.concat ", " l ++ ")" end ++ ";" ++ nl)%string
      with (("package " ++ i ++ " is new " ++ g ++ match l with [] => "" | _ => " (" ++ String.concat ", " l ++ ")" end ++ ";") ++ nl)%string
      by now rewrite !app_assoc_s.
    apply paragraphs_last.
    apply (tidy_app "package "); [reflexivity|]. apply tidy_app; [exact Ti|]. apply (tidy_app " is new "); [reflexivity|]. apply tidy_app; [exact Tg|].
    apply tidy_app; [|reflexivity]. destruct l as [|a l]; [reflexivity|]. apply (tidy_app " ("); [reflexivity|]. apply tidy_app; [|reflexivity].
    revert a Tl. induction l as [|b l IH]; intros a Tl; apply Forall_cons_iff in Tl as [Ta Tl]; [exact Ta|].
    rewrite concat_cons. apply tidy_app; [exact Ta|]. apply (tidy_app ", "); [reflexivity|]. now apply IH.
  Qed.

  (** a package has a text unless it contains an object without a hash *)
  Theorem C71_hash v : 
    (exists s, ads xt xeq v = Ok s) <->
    Forall (fun o => hashable (snd o) = true)
      match v with Package k => u_context k ++ u_declarations k ++ u_private k | Instantiation c _ _ _ => c end.
  Proof.
    assert (forall l, forallb (fun o : obj X => hashable (snd o)) l = true <-> Forall (fun o => hashable (snd o) = true) l) as F.
    { intros l. rewrite forallb_forall, Forall_forall. reflexivity. }
    assert (forall n l, (exists s, context_clause xt xeq n l = Ok s) <-> Forall (fun o => hashable (snd o) = true) l) as GC.
    { intros n l. rewrite <- F. split.
      - intros [s H]. destruct l as [|o l]; [reflexivity|]. unfold context_clause in H.
        destruct (unique_from xeq n [] (o :: l)) eqn:U; [|discriminate]. now apply unique_hashable in U.
      - intros H. destruct l as [|o l]; [now exists ""|]. destruct (unique_total xeq (o :: l) n [] H) as [k U].
        unfold context_clause. rewrite U. cbn [bind]. now eexists. }
    assert (forall n l b, (exists s, declarative_items xt xeq n l b = Ok s) <-> Forall (fun o => hashable (snd o) = true) l) as GD.
    { intros n l b. rewrite <- F. unfold declarative_items, items. split.
      - intros [s H]. destruct (unique_from xeq n [] l) eqn:U; [|discriminate]. now apply unique_hashable in U.
      - intros H. destruct (unique_total xeq l n [] H) as [k U]. rewrite U. cbn [bind]. destruct String.eqb; now eexists. }
    destruct v as [k|c i g l]; unfold ads.
    - rewrite !Forall_app, <- (GC 0), <- (GD (List.length (u_context k)) (u_declarations k) false),
        <- (GD (List.length (u_context k) + List.length (u_declarations k)) (u_private k) true).
      split.
      + intros [s H]. destruct (context_clause xt xeq 0 (u_context k)); [|discriminate]. cbn [bind] in H.
        destruct (declarative_items xt xeq _ (u_declarations k) false); [|discriminate]. cbn [bind] in H.
        destruct (declarative_items xt xeq _ (u_private k) true); [|discriminate]. repeat split; now eexists.
      + intros ([c ->] & [d Hd] & [p Hp]). cbn [bind]. rewrite Hd. cbn [bind]. rewrite Hp. now eexists.
    - rewrite <- (GC 0). split.
      + intros [s H]. destruct (context_clause xt xeq 0 c); [|discriminate]. now eexists.
      + intros [s ->]. now eexists.
  Qed.

  (** the text of a subprogram specification is read as its name, its parameters with their modes and
      types, and the type of its result *)
  Theorem C71_subprogram s : spec_ok s ->
    subprogram_of (spec_text xt s) = Some (s_id s, map (fun p => (p_ids p, p_mode p, p_type p)) (s_params s), s_return s).
  Proof. apply subprogram_read. Qed.
  (** so specifications with the same text are the same *)
  Theorem C71_subprogram_only s t : spec_ok s -> spec_ok t -> spec_text xt s = spec_text xt t -> s = t.
  Proof.
    intros S T E. pose proof (C71_subprogram s S) as R. rewrite E, (C71_subprogram t T) in R. injection R as R1 R2 R3.
    destruct s as [i ps r], t as [i' ps' r']. cbn [s_id s_params s_return] in *. subst i' r'. f_equal.
    destruct S as (_ & S & _), T as (_ & T & _). cbn [s_params] in S, T. clear E. revert ps' R2 T.
    induction S as [|p ps (_ & _ & _ & D) _ IH]; intros [|q qs] R T; try discriminate R; [reflexivity|].
    cbn [map] in R. injection R as R1 R2 R3 R4. apply Forall_cons_iff in T as [(_ & _ & _ & D') T].
    rewrite (IH _ R4 T). destruct p, q. cbn in *. congruence.
  Qed.
End Theorems.

(** ** A package *)

(** the objects inside declarations are their texts *)
Definition id_text (s : string) : string := s.
Definition id_eq (n : nat) (a b : string) : bool := String.eqb a b.
Lemma id_eq_text n x y : id_eq n x y = true -> lower (id_text x) = lower (id_text y).
Proof. intros H. apply String.eqb_eq in H as ->. reflexivity. Qed.

Definition get_spec : spec string := mkSpec "Get" [mkParam ["Ctx"] MInOut "Context" None; mkParam ["A"; "B"] MOut "Bytes" None] None.
Definition get_decl : item string := ISub get_spec ["Pre"] None.
Definition off : item string := IPragma "Warnings" ["Off"].
Definition on : item string := IPragma "Warnings" ["On"].
(** with clauses twice, in other letters; a package that begins with a type; parts that add procedures
    between pragmas, the same use clause each time *)
Definition pkg : package string :=
  mkPackage [(0, IPragma "SPARK_Mode" []); (1, IWith ["Types"; "P.Q"]); (2, IWith ["types"; "P.Q"]); (3, IUse ["P.Q"])]
    "M.Generic_Message" (Some ["with package Types is new Generic_Types (<>);"]) ["SPARK_Mode"]
    [(4, IType "Field" None ["Size => 2"] (TEnum [("F_A", None); ("F_B", Some "1")] None))] []
    [] "M.Generic_Message" ["SPARK_Mode"] [].
Definition p1 : part string := mkPart [(10, IUseType ["Types.Index"]); (11, off); (12, get_decl); (13, on)]
  [(14, IBody get_spec ["V : T;"] ["null;"] [])] [(15, IType "Context" (Some ["A : T"; "B : T"]) [] (TRecord ["C : T;"] None))].
Definition p2 : part string := mkPart [(20, IUseType ["Types.Index"]); (21, off); (22, IExprFun (mkSpec "Valid" [] (Some "Boolean")) "True" []); (23, on)] [] [].

Ltac all_in := repeat match goal with H : In _ _ |- _ => cbn in H; repeat destruct H as [<-|H]; try destruct H end.
Ltac orderly_tac := split; [reflexivity|intros o I; all_in; first [exact Logic.I|vm_compute; repeat (apply NoDup_cons; [intros H; repeat (destruct H as [H|H]; [discriminate H|]); exact H|]); apply NoDup_nil]|intros o I; all_in; reflexivity|
  intros a b I J E; all_in; cbn in E; congruence|intros o o' n I J E; all_in; first [reflexivity|vm_compute in E; discriminate E]].

Example C71_orderly :
  orderly id_text id_eq (u_context pkg) /\
  orderly id_text id_eq (u_declarations pkg ++ flat_map part_specification [p1; p2]) /\
  orderly id_text id_eq (u_private pkg ++ flat_map part_private [p1; p2]) /\
  orderly id_text id_eq (u_body pkg ++ flat_map part_body [p1; p2]) /\
  orderly id_text id_eq (u_body_context pkg) /\
  tidy (head id_text pkg) = true /\ tidy (u_id pkg) = true /\ tidy (body_head id_text pkg) = true.
Proof. split; [orderly_tac|]. split; [orderly_tac|]. split; [orderly_tac|]. split; [orderly_tac|]. split; [orderly_tac|]. repeat split; reflexivity. Qed.

Example C71_text :
  (let* v := add_all (Package pkg) [p1; p2] in let* s := ads id_text id_eq v in Ok (paragraphs s)) =
  Ok ["pragma SPARK_Mode;" ++ nl ++ "with Types, P.Q;" ++ nl ++ "use P.Q;";
      "generic" ++ nl ++ "   with package Types is new Generic_Types (<>);" ++ nl ++ "package M.Generic_Message with" ++ nl ++ "  SPARK_Mode" ++ nl ++ "is";
      "   type Field is (F_A, F_B) with" ++ nl ++ "     Size => 2;" ++ nl ++ "   for Field use (F_B => 1);";
      "   use type Types.Index;";
      "   pragma Warnings (Off);";
      "   procedure Get (Ctx : in out Context; A, B : out Bytes) with" ++ nl ++ "     Pre;";
      "   pragma Warnings (On);";
      "   pragma Warnings (Off);";
      "   function Valid return Boolean is" ++ nl ++ "     (True);";
      "   pragma Warnings (On);";
      "private";
      "   type Context (A : T; B : T) is" ++ nl ++ "      record" ++ nl ++ "         C : T;" ++ nl ++ "      end record;";
      "end M.Generic_Message;" ++ nl]%string.
Proof. vm_compute. reflexivity. Qed.

Example C71_body_text :
  (let* v := add_all (Package pkg) [p1; p2] in adb id_text id_eq v) =
  Ok ("package body M.Generic_Message with" ++ nl ++ "  SPARK_Mode" ++ nl ++ "is" ++ nl ++ nl ++
      "   procedure Get (Ctx : in out Context; A, B : out Bytes) is" ++ nl ++ "      V : T;" ++ nl ++ "   begin" ++ nl ++ "      null;" ++ nl ++ "   end Get;" ++ nl ++ nl ++
      "end M.Generic_Message;" ++ nl)%string.
Proof. vm_compute. reflexivity. Qed.

Example C71_instance :
  orderly id_text id_eq [(0, IPragma "SPARK_Mode" []); (1, IWith ["A"]); (2, IWith ["a"])] /\
  ads id_text id_eq (Instantiation [(0, IPragma "SPARK_Mode" []); (1, IWith ["A"]); (2, IWith ["a"])] "P.M" "P.Generic_M" ["A"; "B"]) =
  Ok ("pragma SPARK_Mode;" ++ nl ++ "with A;" ++ nl ++ nl ++ "package P.M is new P.Generic_M (A, B);" ++ nl)%string.
Proof. split; [orderly_tac|vm_compute; reflexivity]. Qed.

Example C71_profile : spec_ok get_spec /\
  subprogram_of "procedure Get (Ctx : in out Context; A, B : out Bytes)" =
    Some ("Get", [(["Ctx"], MInOut, "Context"); (["A"; "B"], MOut, "Bytes")], None) /\
  subprogram_of "procedure Get (Ctx : in out Context; A, B : out)" = None /\
  subprogram_of "function F (X : access constant T)" = None.
Proof. split; [|split; [|split]; vm_compute; reflexivity]. repeat split; try discriminate; repeat constructor; try discriminate; reflexivity. Qed.

(** ** What is lost *)

(** whether the text of some declaration is in the text of a package, up to the case of letters *)
Definition shown (i : item string) (ds : list (obj string)) : bool :=
  match ads id_text id_eq (Package (mkPackage [] "P" None [] ds [] [] "P" [] [])) with
  | Ok s => existsb (fun t => String.eqb (lower t) (lower (indent (item_text id_text i) 3))) (paragraphs s)
  | Err _ => false
  end.

(** modes of parameters are not compared: the second of two procedures that differ in a mode is not printed *)
Theorem C71_modes_refuted : exists a b, 
  shown a [(0, a)] = true /\ shown b [(1, b)] = true /\ shown a [(0, a); (1, b)] = true /\ shown b [(0, a); (1, b)] = false.
Proof.
  exists (ISub (mkSpec "P" [mkParam ["X"] MIn "T" None] None) [] None), (ISub (mkSpec "P" [mkParam ["X"] MOut "T" None] None) [] None).
  vm_compute. repeat split.
Qed.
(** an unconstrained array type is not printed after a constrained one *)
Theorem C71_array_refuted : exists a b, 
  shown a [(0, a)] = true /\ shown b [(1, b)] = true /\ shown a [(0, a); (1, b)] = true /\ shown b [(0, a); (1, b)] = false.
Proof. exists (IType "A" None [] (TArray false "I" "C")), (IType "A" None [] (TArray true "I" "C")). vm_compute. repeat split. Qed.
(** literals without values in another order: the second type is not printed *)
Theorem C71_literals_refuted : exists a b, 
  shown a [(0, a)] = true /\ shown b [(1, b)] = true /\ shown a [(0, a); (1, b)] = true /\ shown b [(0, a); (1, b)] = false.
Proof.
  exists (IType "E" None [] (TEnum [("A", None); ("B", None)] None)), (IType "E" None [] (TEnum [("B", None); ("A", None)] None)).
  vm_compute. repeat split.
Qed.
(** one pragma object added twice is printed once, so that what follows is not covered by it *)
Theorem C71_pragma_refuted : exists p q l, 
  (let* s := ads id_text id_eq (Package (mkPackage [] "P" None [] ((0, p) :: (1, q) :: (0, p) :: l) [] [] "P" [] [])) in Ok (paragraphs s)) =
  (let* s := ads id_text id_eq (Package (mkPackage [] "P" None [] ((0, p) :: (1, q) :: l) [] [] "P" [] [])) in Ok (paragraphs s)) /\
  is_pragma p = true /\ (exists t, In t l /\ shown (snd t) ((0, p) :: (1, q) :: (0, p) :: l) = true).
Proof.
  exists off, on, [(2, get_decl)]. split; [vm_compute; reflexivity|]. split; [reflexivity|]. exists (2, get_decl). split; [now left|vm_compute; reflexivity].
Qed.
(** declarations of objects have no hash: a package with one has no text *)
Theorem C71_objects_refuted : exists x, ads id_text id_eq (Package (mkPackage [] "P" None [] [(0, IOther x)] [] [] "P" [] [])) = Err "TypeError".
Proof. exists "X : constant T := 1;". reflexivity. Qed.

Print Assumptions C71_specification.
Print Assumptions C71_body.
Print Assumptions C71_instantiation.
Print Assumptions C71_hash.
Print Assumptions C71_subprogram.
Print Assumptions C71_subprogram_only.
Print Assumptions C71_modes_refuted.
Print Assumptions C71_array_refuted.
Print Assumptions C71_literals_refuted.
Print Assumptions C71_pragma_refuted.
Print Assumptions C71_objects_refuted.
