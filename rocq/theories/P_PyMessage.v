(** C11: parsing a message value. *)
From Coq Require Import String List ZArith Bool Lia.
From Verif Require Import Base Expr ExprEval ExprFacts ExprTotal Ident TypeSpec Bitstring BitFacts PyValue PyValueFacts.
From Verif Require Import MsgGraph MsgGraphFacts GenSpec PyMessage PyMessageFacts PyMessageParse.
Import ListNotations.
Local Open Scope string_scope.
Local Open Scope list_scope.
Local Open Scope Z_scope.

(** consecutive nodes are connected by links whose conditions are true in the world [E] *)
Fixpoint linked (mt : mtype) (E : env) (p : list field) : Prop :=
  match p with
  | f :: (g :: _) as t =>
    (exists l, In l (m_links mt) /\ source l = f /\ target l = g /\ eval E (condition l) = Some (VBool true)) /\
    linked mt E t
  | _ => True
  end.
Definition positive_sizes (mt : mtype) : Prop := forall f t i, In f (m_fields mt) ->
  m_types mt f = FScalar t i \/ m_types mt f = FScalars t i -> 0 < type_size t.
Definition prefixes (inner : bool -> string -> bits -> res bits) : Prop :=
  forall r m b x, inner r m b = Ok x -> exists t, b = x ++ t.

Lemma linked_nth mt E : forall p, (forall i f g, nth_error p i = Some f -> nth_error p (S i) = Some g ->
    exists l, In l (m_links mt) /\ source l = f /\ target l = g /\ eval E (condition l) = Some (VBool true)) ->
  linked mt E p.
Proof.
  induction p as [|f p IH]; intros H; [exact I|]. destruct p as [|g p]; [exact I|]. split.
  - apply (H 0%nat); reflexivity.
  - apply IH. intros i a b A B. apply (H (S i)); assumption.
Qed.

Section C11.
  Variables (n : nat) (mt : mtype) (rank : field -> nat).
  Variables (refs : list refinement) (inner : bool -> string -> bits -> res bits).
  Hypothesis T : tidy mt rank.

  Lemma inv_linked fs st E : inv n mt fs st -> describes mt st E -> linked mt E (INITIAL :: fs).
  Proof.
    intros V D. apply linked_nth. intros i f g F G.
    destruct (v_path _ _ _ _ V E _ g D G) as [p P]. inversion P as [|k q l z S I C Z]; subst.
    destruct (v_path _ _ _ _ V E _ f D F) as [q' Q].
    destruct (steps_fun _ _ _ T (d_literals _ _ _ D) _ _ _ S _ _ Q) as [Es _]. exists l. auto.
  Qed.
  Lemma linked_snoc E : forall p c g, linked mt E p -> nth_error p (pred (List.length p)) = Some c ->
    (exists l, In l (m_links mt) /\ source l = c /\ target l = g /\ eval E (condition l) = Some (VBool true)) ->
    linked mt E (p ++ [g]).
  Proof.
    induction p as [|f p IH]; intros c g L Hc H; [exact I|]. destruct p as [|h p].
    - cbn in Hc. injection Hc as ->. cbn. auto.
    - destruct L as [L1 L2]. split; [exact L1|]. apply (IH c g L2); auto.
  Qed.
  Lemma inv_nodup fs st : inv n mt fs st -> NoDup fs.
  Proof.
    intros V. apply NoDup_nth_error. intros i j L E. pose proof (inv_world n mt rank T fs st V) as D.
    apply nth_error_Some in L. destruct (nth_error fs i) as [f|] eqn:F; [|congruence]. symmetry in E.
    destruct (v_path _ _ _ _ V _ (Datatypes.S i) f D F) as [p P]. destruct (v_path _ _ _ _ V _ (Datatypes.S j) f D E) as [q Q].
    destruct (steps_index _ _ _ T (d_literals _ _ _ D) _ _ _ _ _ P Q) as [X _]. lia.
  Qed.
End C11.

(** A message value that accepts the bits [b], in a message without overlays: the set
    fields are a path through the message whose conditions are true for the values that
    were read, every field stands where the field before it ends, and the bits of the
    fields one after the other are the first bits of [b].  The hypothesis [whole] says
    that no field is longer or shorter than the bits it was given. *)
Theorem C11_parse_prefix : forall n mt rank refs inner st0 b st,
  tidy mt rank -> positive_sizes mt -> prefixes inner ->
  new n mt = Ok st0 -> parse n mt refs inner st0 b = Ok st ->
  (forall f, In f (m_fields mt) -> is_set mt st f = true -> whole mt st b f) ->
  exists fs xs rest,
    (forall f, In f (m_fields mt) -> (is_set mt st f = true <-> In f fs)) /\ NoDup fs /\ incl fs (m_fields mt) /\
    (exists E, describes mt st E) /\ (forall E, describes mt st E -> linked mt E (INITIAL :: fs ++ [FINAL])) /\
    Forall2 (fun f x => tv_bits (m_types mt f) (tv (fields st f)) = Ok x /\ size_of mt st f = Some (len x)) fs xs /\
    (forall i f, nth_error fs i = Some f -> first (fields st f) = Some (len (concat (firstn i xs)))) /\
    b = concat xs ++ rest /\
    (forall x, bitstring n mt st = Ok x -> exists j, x = concat (firstn j xs)).
Proof.
  intros n mt rank refs inner st0 b st T POS NP H P W.
  destruct (parse_placed n mt rank refs inner T NP POS st0 b st H P W) as (fs & c & V & Ec & Nx & PL).
  destruct (placed_row mt st b fs PL) as [xs R].
  destruct (row_prefix n mt rank T fs st xs b V R PL) as [rest Er].
  exists fs, xs, rest.
  split. { intros f I. split; [|apply (v_fields _ _ _ _ V)].
    intros S. destruct (inv_set_in n mt rank T fs st V f (or_intror I) S) as [E|I']; [|exact I'].
    exfalso. now apply (initial_ne mt rank T f I). }
  split; [now apply (inv_nodup n mt rank T fs st)|].
  split; [intros f I; now apply (v_fields _ _ _ _ V)|].
  split; [exists (world mt st); apply (inv_world n mt rank T fs st V)|].
  split. { intros E D. change (INITIAL :: fs ++ [FINAL]) with ((INITIAL :: fs) ++ [FINAL]).
    apply (linked_snoc mt E (INITIAL :: fs) c).
    - now apply (inv_linked n mt rank T fs st).
    - exact Ec.
    - pose proof (ends_in _ _ Ec) as Ic. pose proof (inv_path_field n mt fs st V c Ic) as Icf.
      destruct (next_link n mt rank _ c FINAL T Icf Nx) as (l & I & Sl & Tl & Hl); [discriminate|].
      exists l. repeat split; auto. now apply (inv_link n mt rank T fs st V). }
  split. { assert (F : forall fs' xs', incl fs' (m_fields mt) -> row mt st fs' xs' ->
      Forall2 (fun f x => tv_bits (m_types mt f) (tv (fields st f)) = Ok x /\ size_of mt st f = Some (len x)) fs' xs').
    { clear -T. intros fs' xs' I R. induction R as [|f x fs' xs' [B S] R IH]; constructor.
      - rewrite <- (typ_field mt rank T f) by (apply I; now left). auto.
      - apply IH. intros g Ig. apply I. now right. }
    apply F; [|exact R]. intros f I; now apply (v_fields _ _ _ _ V). }
  split. { intros i f Hi. now apply (row_first n mt rank T fs st xs i f V R). }
  split; [exact Er|]. intros x Hx. now apply (bitstring_row n mt rank T fs st xs x V R).
Qed.

(** The bits that a message value, with all its nested messages, gives back are the
    first bits of its input. *)
Theorem C11_message_prefix : forall n types refs,
  (forall m mt, types m = Some mt -> (exists rank, tidy mt rank) /\ positive_sizes mt) ->
  (forall depth rs m mt b st0 st, types m = Some mt -> new n mt = Ok st0 ->
     parse n mt rs (parse_message n types refs depth) st0 b = Ok st ->
     forall f, In f (m_fields mt) -> is_set mt st f = true -> whole mt st b f) ->
  forall depth refined m b x, parse_message n types refs depth refined m b = Ok x -> exists t, b = x ++ t.
Proof.
  intros n types refs HT HW. induction depth as [|d IH]; intros refined m b x H; [discriminate|].
  cbn [parse_message] in H. destruct (types m) as [mt|] eqn:Tm; [|discriminate].
  destruct (HT m mt Tm) as [[rank T] POS]. binds H. destruct x2; cbn [bind] in H; [|discriminate].
  destruct (C11_parse_prefix n mt rank _ (parse_message n types refs d) x0 b x1 T POS IH B B0) as
    (fs & xs & rest & _ & _ & _ & _ & _ & _ & _ & Er & BS).
  { eapply HW; eauto. }
  destruct (BS x H) as [j ->]. destruct (concat_firstn_prefix xs j) as [t Et].
  exists (t ++ rest). rewrite Er, Et. now rewrite <- app_assoc.
Qed.

(** Nothing has to be assumed about the values if there are only scalars and arrays of
    messages. *)
Corollary C11_nested_prefix : forall n types refs,
  (forall m mt, types m = Some mt -> (exists rank, tidy mt rank) /\ positive_sizes mt /\
     forall f, In f (m_fields mt) -> (exists t i, m_types mt f = FScalar t i) \/ exists e, m_types mt f = FMessages e) ->
  forall depth refined m b x, parse_message n types refs depth refined m b = Ok x -> exists t, b = x ++ t.
Proof.
  intros n types refs H. apply C11_message_prefix.
  - intros m mt Tm. destruct (H m mt Tm) as (A & B & _). auto.
  - intros depth rs m mt b st0 st Tm N P f If _. destruct (H m mt Tm) as ([rank T] & _ & F).
    pose proof (kinds_parse n mt rs _ st0 b st N P f) as K. rewrite (typ_field mt rank T f If) in K. unfold whole.
    destruct (F f If) as [(t & i & Ty)|(e & Ty)]; rewrite Ty in K; destruct (tv (fields st f)); auto; contradiction.
Qed.

(** Cases. *)
Ltac in_cases H := repeat match type of H with
  | _ \/ _ => destruct H as [H|H]
  | False => contradiction
  end.
Ltac tidy_links := let l := fresh "l" in let I := fresh "I" in
  intros l; intros; repeat match goal with H : In _ _ |- _ => cbn in H; in_cases H end; subst; cbn in *.

Definition byte : scalar := Modular ["P"; "B"] (EBin OPow (ENum 2) (ENum 8)) 256 8.
Definition nibble : scalar := Modular ["P"; "N"] (EBin OPow (ENum 2) (ENum 4)) 16 4.
Definition tag_type : scalar := Enum ["P"; "Tag"] [(["Data"], 1); (["Error"], 3)] 8 false.
Definition tlv : mtype := mkMtype "P.TLV"
  [mkLink INITIAL "tag" ETrue None None;
   mkLink "tag" "length" (ERel OEq (EVar "tag") (EVar "data")) None None;
   mkLink "tag" FINAL (ERel OEq (EVar "tag") (EVar "error")) None None;
   mkLink "length" "value" ETrue (Some (EAss OMul [EVar "length"; ENum 8])) None;
   mkLink "value" FINAL ETrue None None]
  ["tag"; "length"; "value"]
  (fun f => if String.eqb f "tag" then FScalar tag_type false
            else if String.eqb f "length" then FScalar byte false else FOpaque).
Definition position (l : list field) (f : field) : nat :=
  (fix go l k := match l with [] => k | x :: t => if String.eqb x f then k else go t (S k) end) l O.
Definition nothing (r : bool) (m : string) (b : bits) : res bits := Err "KeyError".
Definition bits_of_bytes (l : list Z) : bits := match from_bytes l with Ok b => b | Err _ => [] end.
Definition parsed (mt : mtype) refs inner (b : bits) : res mvalue :=
  bind (new 40 mt) (fun st => parse 40 mt refs inner st b).

Lemma tlv_tidy : tidy tlv (position [INITIAL; "tag"; "length"; "value"]).
Proof.
  constructor.
  - tidy_links; try (vm_compute; lia).
  - eexists. split; reflexivity.
  - tidy_links; auto 10.
  - tidy_links; auto 10.
  - tidy_links; (split; [discriminate|]); (split; [discriminate|]); split; discriminate.
  - tidy_links; reflexivity.
  - tidy_links; reflexivity.
  - intros l x I J. cbn in I. in_cases I; subst l; cbn in J; in_cases J; subst x; split; intros X; discriminate X.
  - intros l E I [EI L]. cbn in I. in_cases I; subst l; cbn [condition eval]; eauto;
      destruct (EI (NVar "tag")) as [z Z]; [destruct (EI (NVar "data")) as [y Y]|destruct (EI (NVar "error")) as [y Y]];
      cbn -[Z.eqb]; rewrite Z, Y; cbn; eauto.
  - assert (D : forall E, literal_env tlv E -> E (NVar "data") = VInt 1 /\ E (NVar "error") = VInt 3).
    { intros E [_ L]. split; [apply (L ["Data"] 1)|apply (L ["Error"] 3)]; vm_compute; auto 10. }
    intros l l' E I I' Es LE C C'. destruct (D E LE) as [D1 D3]. cbn in I, I'.
    in_cases I; in_cases I'; subst l l'; cbn in Es; try discriminate Es; try reflexivity;
      cbn -[Z.eqb] in C, C'; rewrite D1 in *; rewrite D3 in *;
      destruct (E (NVar "tag")) as [z|]; cbn in C, C'; try discriminate;
      injection C as C; injection C' as C'; apply Z.eqb_eq in C; apply Z.eqb_eq in C'; lia.
  - intros k v I. vm_compute in I. in_cases I; injection I as <- <-;
      (split; [vm_compute; reflexivity|]); (split; [|split; discriminate]); cbn; intuition discriminate.
  - intros f id lits size av imported x I Ty Ix. cbn in I. in_cases I; subst f; try discriminate Ty.
    injection Ty as <- <- <- <- <-. vm_compute in Ix. in_cases Ix; subst x; (split; [|split; discriminate]); cbn; intuition discriminate.
Qed.
Lemma tlv_positive : positive_sizes tlv.
Proof.
  intros f t i I [Ty|Ty]; cbn in I; in_cases I; subst f; try discriminate Ty; injection Ty as <- <-; reflexivity.
Qed.
Lemma nothing_prefixes : prefixes nothing.
Proof. intros r m b x H. discriminate H. Qed.

Example C11_case : exists st,
  parsed tlv [] nothing (bits_of_bytes [1; 2; 3; 4; 5]) = Ok st /\
  (forall f, In f (m_fields tlv) -> is_set tlv st f = true -> whole tlv st (bits_of_bytes [1; 2; 3; 4; 5]) f) /\
  bitstring 40 tlv st = Ok (bits_of_bytes [1; 2; 3; 4]) /\
  map (fun f => first (fields st f)) ["tag"; "length"; "value"] = [Some 0; Some 8; Some 16].
Proof.
  destruct (parsed tlv [] nothing (bits_of_bytes [1; 2; 3; 4; 5])) as [st|] eqn:P; [|vm_compute in P; discriminate].
  vm_compute in P. apply Ok_inj in P. subst st. eexists. split; [reflexivity|]. split.
  - intros f I _. cbn in I. in_cases I; subst f; vm_compute; auto.
  - split; vm_compute; reflexivity.
Qed.
(** another way through the message; the rest of the input is not looked at *)
Example C11_case_error : exists st,
  parsed tlv [] nothing (bits_of_bytes [3; 2; 3]) = Ok st /\
  (forall f, In f (m_fields tlv) -> is_set tlv st f = true -> whole tlv st (bits_of_bytes [3; 2; 3]) f) /\
  bitstring 40 tlv st = Ok (bits_of_bytes [3]) /\
  map (is_set tlv st) ["tag"; "length"; "value"] = [true; false; false] /\
  is_ok (parsed tlv [] nothing (bits_of_bytes [2; 2; 3; 4])) = false /\
  is_ok (parsed tlv [] nothing (bits_of_bytes [1; 2; 3])) = false.
Proof.
  destruct (parsed tlv [] nothing (bits_of_bytes [3; 2; 3])) as [st|] eqn:P; [|vm_compute in P; discriminate].
  vm_compute in P. apply Ok_inj in P. subst st. eexists. split; [reflexivity|]. split.
  - intros f I. cbn in I. in_cases I; subst f; vm_compute; auto; discriminate.
  - repeat split; vm_compute; reflexivity.
Qed.

(** a message with a list of messages *)
Definition item : mtype := mkMtype "P.Item"
  [mkLink INITIAL "x" ETrue None None; mkLink "x" "y" ETrue None None; mkLink "y" FINAL ETrue None None]
  ["x"; "y"] (fun _ => FScalar byte false).
Definition items : mtype := mkMtype "P.Items"
  [mkLink INITIAL "length" ETrue None None;
   mkLink "length" "list" ETrue (Some (EAss OMul [EVar "length"; ENum 8])) None;
   mkLink "list" FINAL ETrue None None]
  ["length"; "list"] (fun f => if String.eqb f "list" then FMessages "P.Item" else FScalar byte false).
Definition item_types (m : string) : option mtype :=
  if String.eqb m "P.Items" then Some items else if String.eqb m "P.Item" then Some item else None.
(** messages without conditions *)
Lemma straight_tidy mt rank :
  (forall l, In l (m_links mt) -> (rank (source l) < rank (target l))%nat) ->
  (exists l, outgoing (m_links mt) INITIAL = [l]) ->
  (forall l, In l (m_links mt) -> In (source l) (INITIAL :: m_fields mt) /\ In (target l) (FINAL :: m_fields mt) /\
     lfirst l = None /\ condition l = ETrue) ->
  (forall x, In x (m_fields mt) -> x <> "" /\ x <> "message" /\ x <> INITIAL /\ x <> FINAL) ->
  (forall l l', In l (m_links mt) -> In l' (m_links mt) -> source l = source l' -> l = l') ->
  type_literals mt = [] -> (forall f id lits size av i, m_types mt f <> FScalar (Enum id lits size av) i) ->
  tidy mt rank.
Proof.
  intros R [l0 O] L N U TL NE. constructor; auto.
  - exists l0. split; [exact O|]. apply L. assert (I : In l0 (outgoing (m_links mt) INITIAL)) by (rewrite O; now left).
    unfold outgoing in I. now apply filter_In in I.
  - intros l I. apply (L l I).
  - intros l I. apply (L l I).
  - intros l I. apply (L l I).
  - intros l I. destruct (L l I) as (_ & _ & _ & ->). reflexivity.
  - intros l x I. destruct (L l I) as (_ & _ & _ & ->). intros [].
  - intros l E I _. destruct (L l I) as (_ & _ & _ & ->). exists true. reflexivity.
  - intros k v I. rewrite TL in I. contradiction.
  - intros f id lits size av i x _ Ty. now apply NE in Ty.
Qed.
Ltac straight := apply straight_tidy;
  [ intros l I; cbn in I; in_cases I; subst l; vm_compute; lia
  | eexists; reflexivity
  | intros l I; cbn in I; in_cases I; subst l; cbn; auto 10
  | intros x I; cbn in I; in_cases I; subst x; (split; [discriminate|]); (split; [discriminate|]); split; discriminate
  | intros l l' I I' E; cbn in I, I'; in_cases I; in_cases I'; subst l l'; try reflexivity; discriminate E
  | reflexivity
  | intros f id lits size av i E; cbn in E;
    repeat match type of E with (if ?c then _ else _) = _ => destruct c end; discriminate E ].

Example C11_nested_case :
  (forall m mt, item_types m = Some mt -> (exists rank, tidy mt rank) /\ positive_sizes mt /\
     forall f, In f (m_fields mt) -> (exists t i, m_types mt f = FScalar t i) \/ exists e, m_types mt f = FMessages e) /\
  parse_message 40 item_types [] 2 false "P.Items" (bits_of_bytes [4; 1; 2; 3; 4; 5]) = Ok (bits_of_bytes [4; 1; 2; 3; 4]) /\
  is_ok (parse_message 40 item_types [] 2 false "P.Items" (bits_of_bytes [3; 1; 2; 3; 4; 5])) = false.
Proof.
  split; [|split; vm_compute; reflexivity].
  intros m mt. unfold item_types. destruct (String.eqb m "P.Items"); [|destruct (String.eqb m "P.Item"); [|discriminate]];
    intros H; injection H as <-.
  - split; [exists (position [INITIAL; "length"; "list"]); straight|]. split.
    + intros f t i _ [Ty|Ty]; cbn in Ty; destruct (String.eqb f "list"); try discriminate Ty. injection Ty as <- <-. reflexivity.
    + intros f _. cbn. destruct (String.eqb f "list"); eauto.
  - split; [exists (position [INITIAL; "x"; "y"]); straight|]. split.
    + intros f t i _ [Ty|Ty]; [injection Ty as <- <-; reflexivity|discriminate Ty].
    + intros f _. cbn. eauto.
Qed.

(** ** Where the property fails *)

(** A refined field keeps only the bits of the nested message: the rest is lost and the
    fields after it move. *)
Definition cut : mtype := mkMtype "P.Cut"
  [mkLink INITIAL "length" ETrue None None;
   mkLink "length" "value" ETrue (Some (EAss OMul [EVar "length"; ENum 8])) None;
   mkLink "value" "tail" ETrue None None;
   mkLink "tail" FINAL ETrue None None]
  ["length"; "value"; "tail"]
  (fun f => if String.eqb f "value" then FOpaque else FScalar byte false).
Definition one : mtype := mkMtype "P.One"
  [mkLink INITIAL "x" ETrue None None; mkLink "x" FINAL ETrue None None] ["x"] (fun _ => FScalar byte false).
Definition cut_types (m : string) : option mtype :=
  if String.eqb m "P.Cut" then Some cut else if String.eqb m "P.One" then Some one else None.
Definition cut_refs : list refinement := [mkRef "P.Cut" "value" "P.One" ETrue].
Theorem C11_refined_refuted : exists n types refs m b x,
  (forall m mt, types m = Some mt -> (exists rank, tidy mt rank) /\ positive_sizes mt) /\
  parse_message n types refs 2 true m b = Ok x /\ ~ exists t, b = x ++ t.
Proof.
  exists 40%nat, cut_types, cut_refs, "P.Cut", (bits_of_bytes [2; 7; 8; 9]), (bits_of_bytes [2; 7; 9]).
  split; [|split; [vm_compute; reflexivity|]].
  - intros m mt. unfold cut_types. destruct (String.eqb m "P.Cut"); [|destruct (String.eqb m "P.One"); [|discriminate]];
      intros H; injection H as <-.
    + split; [exists (position [INITIAL; "length"; "value"; "tail"]); straight|].
      intros f t i _ [Ty|Ty]; cbn in Ty; destruct (String.eqb f "value"); try discriminate Ty. injection Ty as <- <-. reflexivity.
    + split; [exists (position [INITIAL; "x"]); straight|].
      intros f t i _ [Ty|Ty]; [injection Ty as <- <-; reflexivity|discriminate Ty].
  - intros [t E]. vm_compute in E. discriminate E.
Qed.
(** Bits of an opaque field that are no whole bytes. *)
Definition odd : mtype := mkMtype "P.Odd"
  [mkLink INITIAL "value" ETrue (Some (ENum 4)) None;
   mkLink "value" "tail" ETrue None None;
   mkLink "tail" FINAL ETrue None None]
  ["value"; "tail"]
  (fun f => if String.eqb f "value" then FOpaque else FScalar nibble false).
Theorem C11_odd_size_refuted : exists n mt rank b st0 st x, tidy mt rank /\ positive_sizes mt /\
  new n mt = Ok st0 /\ parse n mt [] nothing st0 b = Ok st /\ valid_message n mt st = Ok true /\
  bitstring n mt st = Ok x /\ ~ exists t, b = x ++ t.
Proof.
  exists 40%nat, odd, (position [INITIAL; "value"; "tail"]), (bits_of_bytes [90]).
  destruct (new 40 odd) as [st0|] eqn:N; [|vm_compute in N; discriminate].
  destruct (parse 40 odd [] nothing st0 (bits_of_bytes [90])) as [st|] eqn:P;
    vm_compute in N; apply Ok_inj in N; subst st0; vm_compute in P; [|discriminate]. apply Ok_inj in P. subst st.
  do 3 eexists. split; [straight|]. split.
  { intros f t i _ [Ty|Ty]; cbn in Ty; destruct (String.eqb f "value"); try discriminate Ty. injection Ty as <- <-. reflexivity. }
  split; [reflexivity|]. split; [vm_compute; reflexivity|]. split; [vm_compute; reflexivity|].
  split; [vm_compute; reflexivity|]. intros [t E]. vm_compute in E. discriminate E.
Qed.
(** A size that is no number takes the rest of the input, and the next field is read
    from the same place again. *)
Definition half : mtype := mkMtype "P.Half"
  [mkLink INITIAL "length" ETrue None None;
   mkLink "length" "value" ETrue (Some (EBin ODiv (EVar "length") (ENum 2))) None;
   mkLink "value" "tail" ETrue None None;
   mkLink "tail" FINAL ETrue None None]
  ["length"; "value"; "tail"]
  (fun f => if String.eqb f "value" then FOpaque else FScalar byte false).
Theorem C11_unsized_refuted : exists n mt rank b st0 st x, tidy mt rank /\ positive_sizes mt /\
  new n mt = Ok st0 /\ parse n mt [] nothing st0 b = Ok st /\ valid_message n mt st = Ok true /\
  bitstring n mt st = Ok x /\ ~ exists t, b = x ++ t.
Proof.
  exists 40%nat, half, (position [INITIAL; "length"; "value"; "tail"]), (bits_of_bytes [5; 1; 2; 9]).
  destruct (new 40 half) as [st0|] eqn:N; [|vm_compute in N; discriminate].
  destruct (parse 40 half [] nothing st0 (bits_of_bytes [5; 1; 2; 9])) as [st|] eqn:P;
    vm_compute in N; apply Ok_inj in N; subst st0; vm_compute in P; [|discriminate]. apply Ok_inj in P. subst st.
  do 3 eexists. split; [straight|]. split.
  { intros f t i _ [Ty|Ty]; cbn in Ty; destruct (String.eqb f "value"); try discriminate Ty. injection Ty as <- <-. reflexivity. }
  split; [reflexivity|]. split; [vm_compute; reflexivity|]. split; [vm_compute; reflexivity|].
  split; [vm_compute; reflexivity|]. intros [t E]. vm_compute in E. discriminate E.
Qed.
(** A field laid over another one than its predecessor is read behind its predecessor. *)
Definition over : mtype := mkMtype "P.Over"
  [mkLink INITIAL "a" ETrue None None;
   mkLink "a" "c" ETrue None None;
   mkLink "c" "b" ETrue None (Some (EName (NAttr AFirst "a") false));
   mkLink "b" FINAL ETrue None None]
  ["a"; "c"; "b"] (fun f => FScalar byte false).
Theorem C11_overlay_refuted : exists n mt b st0 st x,
  new n mt = Ok st0 /\ parse n mt [] nothing st0 b = Ok st /\ valid_message n mt st = Ok true /\
  bitstring n mt st = Ok x /\ ~ exists t, b = x ++ t.
Proof.
  exists 40%nat, over, (bits_of_bytes [5; 1; 2; 9]).
  destruct (new 40 over) as [st0|] eqn:N; [|vm_compute in N; discriminate].
  destruct (parse 40 over [] nothing st0 (bits_of_bytes [5; 1; 2; 9])) as [st|] eqn:P;
    vm_compute in N; apply Ok_inj in N; subst st0; vm_compute in P; [|discriminate]. apply Ok_inj in P. subst st.
  do 3 eexists. split; [reflexivity|]. split; [vm_compute; reflexivity|]. split; [vm_compute; reflexivity|].
  split; [vm_compute; reflexivity|]. intros [t E]. vm_compute in E. discriminate E.
Qed.

Print Assumptions C11_parse_prefix.
Print Assumptions C11_message_prefix.
Print Assumptions C11_nested_prefix.
Print Assumptions C11_refined_refuted.
Print Assumptions C11_odd_size_refuted.
Print Assumptions C11_unsized_refuted.
Print Assumptions C11_overlay_refuted.
