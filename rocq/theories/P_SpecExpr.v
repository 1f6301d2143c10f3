(** C61: the expressions, statements and sessions of a specification become those of the
    model.  The specification is the meaning of a parse tree, which is defined here on the
    tree itself, with the values, stores and operations of SessionEval.v. *)
From Coq Require Import String Ascii List ZArith Bool Arith Lia.
From Verif Require Import Base Ident.
From Verif Require P_IdentErrors.
From Verif Require Import Expr SessionType SessionEval SpecExpr.
Import ListNotations.
Local Open Scope string_scope.
Local Open Scope list_scope.
Local Open Scope Z_scope.
Local Open Scope res_scope.

(** ** Specification: numeric literals (Ada RM 2.4) *)

(** the position of a digit *)
Definition digit_value (c : ascii) : option nat := index 0 (String (lower_char c) "") "0123456789abcdef".
(** digits below the base, with single underscores between digits, and their value *)
Inductive numeral (b : Z) : string -> Z -> Prop :=
| N_one c d : digit_value c = Some d -> Z.of_nat d < b -> numeral b (String c "") (Z.of_nat d)
| N_more s z c d : numeral b s z -> digit_value c = Some d -> Z.of_nat d < b ->
    numeral b (s ++ String c "")%string (z * b + Z.of_nat d)
| N_under s z c d : numeral b s z -> digit_value c = Some d -> Z.of_nat d < b ->
    numeral b (s ++ "_" ++ String c "")%string (z * b + Z.of_nat d).
(** a decimal literal or a literal with its base *)
Inductive Literal : string -> Z -> Prop :=
| L_decimal s z : numeral 10 s z -> Literal s z
| L_based t b s z : numeral 10 t b -> 2 <= b <= 16 -> numeral b s z -> Literal (t ++ "#" ++ s ++ "#")%string z.

(** ** Specification: the meaning of a parse tree *)

(** an identifier as it is written, and without regard to case *)
Definition written (i : id_node) : string :=
  match i with Unqualified t | Qualified None t => t | Qualified (Some p) n => (p ++ "::" ++ n)%string end.
Definition reads (i : id_node) : string := lower (written i).

Definition ints (a b : value) (k : Z -> Z -> outcome value) : outcome value :=
  do x <- to_int a ;; do y <- to_int b ;; k x y.
Definition bools (a b : value) (k : bool -> bool -> bool) : outcome value :=
  do x <- to_bool a ;; do y <- to_bool b ;; Val (VBool (k x y)).
Definition binary (o : op) (a b : value) : outcome value :=
  match o with
  | OpAdd => ints a b (fun x y => Val (VInt (x + y)))
  | OpSub => ints a b (fun x y => Val (VInt (x - y)))
  | OpMul => ints a b (fun x y => Val (VInt (x * y)))
  | OpDiv => ints a b (fun x y => if y =? 0 then Raise else Val (VInt (x / y)))
  | OpMod => ints a b (fun x y => if y =? 0 then Raise else Val (VInt (x mod y)))
  | OpPow => ints a b (fun x y => if y <? 0 then Raise else Val (VInt (x ^ y)))
  | OpLt => ints a b (fun x y => Val (VBool (x <? y)))
  | OpLe => ints a b (fun x y => Val (VBool (x <=? y)))
  | OpGt => ints a b (fun x y => Val (VBool (y <? x)))
  | OpGe => ints a b (fun x y => Val (VBool (y <=? x)))
  | OpAnd => bools a b andb
  | OpOr => bools a b orb
  | OpEq => if comparable a b then Val (VBool (value_eqb a b)) else Stuck
  | OpNeq => if comparable a b then Val (VBool (negb (value_eqb a b))) else Stuck
  | OpIn => do vs <- to_seq b ;; Val (VBool (existsb (value_eqb a) vs))
  | OpNotin => do vs <- to_seq b ;; Val (VBool (negb (existsb (value_eqb a) vs)))
  end.
(** parentheses make no difference *)
Fixpoint bare (t : node) : node := match t with NParen d => bare d | _ => t end.

Section Meaning.
  Context (w : world).
  (** the value of numeric literals *)
  Context (lit : string -> Z).

  (** the value of 'Size etc.: of a name, if there is one, or else of a value *)
  Definition measure (a : attr) (e : node) (v : outcome value) : outcome value :=
    match bare e with
    | NVariable i => Val (VInt (w_name w a (reads i)))
    | _ => do x <- v ;; Val (VInt (w_attr w a x))
    end.

  Fixpoint sense (st : store) (t : node) : outcome value :=
    match t with
    | NNumeric s => Val (VInt (lit s))
    | NParen d => sense st d
    | NVariable i => match st (reads i) with Some v => Val v | None => Stuck end
    | NAttribute e k =>
      match k with
      | AttrLast => measure ALast e (sense st e)
      | AttrFirst => measure AFirst e (sense st e)
      | AttrSize => measure ASize e (sense st e)
      | AttrValidChecksum => do v <- sense st e ;; Val (VBool (w_checksum w v))
      | AttrValid => do v <- sense st e ;; match v with VSeq _ | VMsg _ _ => Val (VBool (w_valid w v)) | _ => Stuck end
      | AttrHead => do v <- sense st e ;; do vs <- to_seq v ;; match vs with [] => Raise | h :: _ => Val h end
      | AttrOpaque => do v <- sense st e ;; match v with VMsg _ _ => Val (VSeq (map VInt (w_bytes w v))) | _ => Stuck end
      | AttrPresent =>
        (fix present (e : node) : outcome value :=
           match e with
           | NParen d => present d
           | NSelect q f =>
             do v <- sense st q ;; match v with VMsg _ fs => Val (VBool (has (written f) fs)) | _ => Stuck end
           | _ => Stuck
           end) e
      end
    | NArray vs => do r <- each (sense st) vs ;; Val (VSeq r)
    | NString s => Val (VSeq (map (fun c => VInt (Z.of_nat (nat_of_ascii c))) (list_ascii_of_string (substring 1 (String.length s - 2) s))))
    | NCall i args => do vs <- each (sense st) args ;; w_call w (reads i) vs
    | NQuantified all p i b =>
      do v <- sense st i ;; do vs <- to_seq v ;;
      do bs <- each (fun y => do r <- sense (upd st (reads p) y) b ;; to_bool r) vs ;;
      Val (VBool (if all then forallb id bs else existsb id bs))
    | NBinding e bs =>
      do vs <- each (fun p => match p with (i, d) => do v <- sense st d ;; Val (reads i, v) end) bs ;;
      sense (upd_all st vs) e
    | NNegation d => do v <- sense st d ;; do z <- to_int v ;; Val (VInt (- z))
    | NConcatenation l r =>
      do a <- sense st l ;; do b <- sense st r ;; do x <- to_seq a ;; do y <- to_seq b ;; Val (VSeq (x ++ y))
    | NComprehension i a s cond =>
      do v <- sense st a ;; do vs <- to_seq v ;;
      do r <- each (fun y => do k <- match cond with
                                     | Some c => do x <- sense (upd st (reads i) y) c ;; to_bool x
                                     | None => Val true
                                     end ;;
                             if k then do z <- sense (upd st (reads i) y) s ;; Val [z] else Val []) vs ;;
      if w_full w (List.concat r) then Raise else Val (VSeq (List.concat r))
    | NSelect e f =>
      do v <- sense st e ;;
      match v with
      | VMsg t fs =>
        if existsb (String.eqb (written f)) (w_fields w t)
        then match assoc (written f) fs with Some x => Val x | None => Raise end else Stuck
      | _ => Stuck
      end
    | NConversion i a =>
      do v <- sense st a ;; do bs <- to_seq v ;;
      match w_parse w (w_message w (reads i)) bs with Some fs => Val (VMsg (w_message w (reads i)) fs) | None => Raise end
    | NMessage i fs =>
      do vs <- each (fun p => match p with (f, x) =>
                       do v <- sense st x ;; Val (written f, match v with VMsg _ _ => VSeq (map VInt (w_bytes w v)) | _ => v end) end) fs ;;
      if w_full w (map snd vs) then Raise else Val (VMsg (w_message w (reads i)) vs)
    | NBinOp o l r => do a <- sense st l ;; do b <- sense st r ;; binary o a b
    end.
End Meaning.

(** numeric literals are well-formed, strings contain no quotation mark, and neither two
    variables of a binding nor two components of a message aggregate have the same name *)
Definition all_of {A} (P : A -> Prop) : list A -> Prop :=
  fix go (l : list A) : Prop := match l with [] => True | a :: r => P a /\ go r end.
Fixpoint proper (t : node) : Prop :=
  match t with
  | NNumeric s => exists z, Literal s z
  | NString s => exists d, s = ("""" ++ d ++ """")%string /\ ~ In """"%char (list_ascii_of_string d)
  | NVariable _ => True
  | NParen d | NNegation d | NAttribute d _ | NSelect d _ | NConversion _ d => proper d
  | NArray l | NCall _ l => all_of proper l
  | NQuantified _ _ l r | NConcatenation l r | NBinOp _ l r => proper l /\ proper r
  | NBinding e bs => proper e /\ all_of (fun p => match p with (_, d) => proper d end) bs
                     /\ NoDup (map (fun p => reads (fst p)) bs)
  | NMessage _ fs => all_of (fun p => match p with (_, d) => proper d end) fs
                     /\ NoDup (map (fun p => reads (fst p)) fs)
  | NComprehension _ a s c => proper a /\ proper s /\ match c with Some d => proper d | None => True end
  end.

(** ** Proofs: trees *)

Section Induction.
  Context (P : node -> Prop).
  Context (H1 : forall s, P (NNumeric s)) (H2 : forall d, P d -> P (NParen d)) (H3 : forall i, P (NVariable i))
          (H4 : forall e k, P e -> P (NAttribute e k)) (H5 : forall l, Forall P l -> P (NArray l))
          (H6 : forall s, P (NString s)) (H7 : forall i l, Forall P l -> P (NCall i l))
          (H8 : forall a p i b, P i -> P b -> P (NQuantified a p i b))
          (H9 : forall e l, P e -> Forall (fun p => P (snd p)) l -> P (NBinding e l))
          (H10 : forall d, P d -> P (NNegation d)) (H11 : forall l r, P l -> P r -> P (NConcatenation l r))
          (H12 : forall i a s c, P a -> P s -> (forall d, c = Some d -> P d) -> P (NComprehension i a s c))
          (H13 : forall e f, P e -> P (NSelect e f)) (H14 : forall i a, P a -> P (NConversion i a))
          (H15 : forall i l, Forall (fun p => P (snd p)) l -> P (NMessage i l))
          (H16 : forall o l r, P l -> P r -> P (NBinOp o l r)).
  Fixpoint node_induction (t : node) : P t.
  Proof.
    destruct t.
    - apply H1.
    - apply H2, node_induction.
    - apply H3.
    - apply H4, node_induction.
    - apply H5. induction values; constructor; auto.
    - apply H6.
    - apply H7. induction args; constructor; auto.
    - apply H8; apply node_induction.
    - apply H9; [apply node_induction|]. induction bindings as [|[k d] r IH]; constructor; [apply node_induction|exact IH].
    - apply H10, node_induction.
    - apply H11; apply node_induction.
    - apply H12; [apply node_induction|apply node_induction|].
      intros d. destruct condition as [x|]; [|discriminate]. intros E. injection E as <-. apply node_induction.
    - apply H13, node_induction.
    - apply H14, node_induction.
    - apply H15. induction associations as [|[k d] r IH]; constructor; [apply node_induction|exact IH].
    - apply H16; apply node_induction.
  Qed.
End Induction.

Lemma bind_ok {A B} (r : res A) (k : A -> res B) b : bind r k = Ok b -> exists a, r = Ok a /\ k a = Ok b.
Proof. destruct r as [a|]; [exists a; auto|discriminate]. Qed.
Lemma each_ok_inv {A B} (f : A -> res B) l bs : each_ok f l = Ok bs -> Forall2 (fun a b => f a = Ok b) l bs.
Proof.
  revert bs. induction l as [|a l IH]; intros bs E; cbn in E.
  - apply Ok_inj in E. subst. constructor.
  - apply bind_ok in E as (b & E1 & E). apply bind_ok in E as (r & E2 & E). apply Ok_inj in E. subst.
    constructor; auto.
Qed.
Lemma each_ok_intro {A B} (f : A -> res B) l bs : Forall2 (fun a b => f a = Ok b) l bs -> each_ok f l = Ok bs.
Proof. induction 1 as [|a b l bs E _ IH]; [reflexivity|]. cbn. rewrite E. cbn. now rewrite IH. Qed.

(** ** Proofs: identifiers *)

Lemma create_id_written i x : create_id i = Ok x -> id_str x = written i /\ P_IdentErrors.good_id x.
Proof.
  destruct i as [t|[p|] n]; cbn [create_id written].
  - destruct (existsb _ _); [discriminate|]. intros E. apply P_IdentErrors.C35_text_accepted_is_good in E. tauto.
  - intros E. apply bind_ok in E as (a & A & E). apply bind_ok in E as (b & B & E).
    apply P_IdentErrors.C35_text_accepted_is_good in A as (GA & A). apply P_IdentErrors.C35_text_accepted_is_good in B as (GB & B).
    unfold id_mul in E. destruct (String.eqb (id_str a) "") eqn:N.
    + apply String.eqb_eq in N. exfalso. revert N. now apply P_IdentErrors.concat_nonempty.
    + apply P_IdentErrors.C35_text_accepted_is_good in E as (G & E). split; [|exact G]. now rewrite E, A, B.
  - intros E. apply bind_ok in E as (a & A & E). apply Ok_inj in E. subst a.
    apply P_IdentErrors.C35_text_accepted_is_good in A. tauto.
Qed.
Lemma create_id_reads i x : create_id i = Ok x -> low x = reads i.
Proof. intros E. apply create_id_written in E as (E & _). unfold low, reads. now rewrite E. Qed.

Lemma lower_app a b : lower (a ++ b)%string = (lower a ++ lower b)%string.
Proof. induction a as [|c a IH]; [reflexivity|]. cbn. now rewrite IH. Qed.
Lemma lower_concat l : lower (String.concat "::" l) = String.concat "::" (map lower l).
Proof.
  induction l as [|a l IH]; [reflexivity|]. destruct l as [|b l]; [reflexivity|].
  change (String.concat "::" (a :: b :: l)) with (a ++ "::" ++ String.concat "::" (b :: l))%string.
  rewrite !lower_app, IH. reflexivity.
Qed.
Lemma id_eq_low a b : id_eq a b = true -> low a = low b.
Proof.
  intros E. apply P_IdentErrors.id_eq_hash in E. unfold id_hash in E. unfold low, id_str. now rewrite !lower_concat, E.
Qed.

Lemma put_key_new k v d : ~ In (low k) (map (fun p => low (fst p)) d) -> put_key k v d = d ++ [(k, v)].
Proof.
  induction d as [|[k' v'] d IH]; [reflexivity|]. intros N. cbn in N |- *.
  destruct (id_eq k' k) eqn:E; [apply id_eq_low in E; exfalso; tauto|]. rewrite IH by tauto. reflexivity.
Qed.
Lemma dict_of_distinct l : NoDup (map (fun p => low (fst p)) l) -> dict_of l = l.
Proof.
  assert (G : forall l d, NoDup (map (fun p : ident * sx => low (fst p)) (d ++ l)) ->
              fold_left (fun d p => put_key (fst p) (snd p) d) l d = d ++ l).
  { clear l. induction l as [|[k v] l IH]; intros d N; cbn [fold_left fst snd]; [now rewrite app_nil_r|].
    rewrite put_key_new.
    - rewrite IH; rewrite <- app_assoc; [reflexivity|exact N].
    - rewrite map_app in N. cbn in N. apply NoDup_remove_2 in N. intros I. apply N, in_or_app. now left. }
  intros N. apply (G l [] N).
Qed.

(** ** Proofs: numeric literals *)

Lemma digit_value_digit c d : digit_value c = Some d -> digit c = Some (Z.of_nat d) /\ c <> "_"%char /\ c <> "#"%char /\ (d < 16)%nat.
Proof.
  intros E. assert (X : match digit_value c with
                        | Some n => digit c = Some (Z.of_nat n) /\ c <> "_"%char /\ c <> "#"%char /\ (n < 16)%nat
                        | None => True end).
  { clear. destruct c as [[] [] [] [] [] [] [] []]; vm_compute; repeat split; try discriminate; auto; lia. }
  now rewrite E in X.
Qed.
Lemma append_assoc (a b c : string) : ((a ++ b) ++ c = a ++ (b ++ c))%string.
Proof. induction a as [|x a IH]; [reflexivity|]. cbn. now rewrite IH. Qed.
Lemma append_empty (a : string) : (a ++ "")%string = a.
Proof. induction a as [|x a IH]; [reflexivity|]. cbn. now rewrite IH. Qed.

Lemma numeral_int b s z : numeral b s z ->
  exists k, forall acc fl r, int_digits b acc fl (s ++ r) = int_digits b (acc * k + z) true r.
Proof.
  assert (D : forall c d acc fl r, digit_value c = Some d -> Z.of_nat d < b ->
              int_digits b acc fl (String c r) = int_digits b (acc * b + Z.of_nat d) true r).
  { intros c d acc fl r E L. apply digit_value_digit in E as (E & N & _). cbn [int_digits].
    apply Ascii.eqb_neq in N. rewrite N, E. apply Z.ltb_lt in L. now rewrite L. }
  induction 1 as [c d E L|s z c d _ (k & IH) E L|s z c d _ (k & IH) E L].
  - exists b. intros. apply D; assumption.
  - exists (k * b). intros. rewrite append_assoc, IH. cbn [append]. rewrite (D _ _ _ _ _ E L). f_equal. ring.
  - exists (k * b). intros. rewrite append_assoc, IH.
    change (int_digits b (acc * k + z) true (("_" ++ String c "") ++ r)) with (int_digits b (acc * k + z) false (String c r)).
    rewrite (D _ _ _ _ _ E L). f_equal. ring.
Qed.
(** the second character of a number, if the first is a digit, is no prefix of its base *)
Lemma numeral_chars b s z : numeral b s z ->
  forall c, In c (list_ascii_of_string s) -> c = "_"%char \/ exists d, digit_value c = Some d /\ Z.of_nat d < b.
Proof.
  assert (A : forall x y, list_ascii_of_string (x ++ y)%string = list_ascii_of_string x ++ list_ascii_of_string y).
  { induction x as [|e x IH]; intros y; [reflexivity|]. cbn. now rewrite IH. }
  induction 1 as [c d E L|s z c d _ IH E L|s z c d _ IH E L]; intros x I.
  - cbn in I. destruct I as [<-|[]]. right. eauto.
  - rewrite A, in_app_iff in I. destruct I as [I|[<-|[]]]; [now apply IH|right; eauto].
  - rewrite !A, !in_app_iff in I. destruct I as [I|[[<-|[]]|[<-|[]]]]; [now apply IH|now left|right; eauto].
Qed.
Lemma prefix_base_digit c b : prefix_base c = Some b ->
  c <> "_"%char /\ match digit_value c with Some d => b <= Z.of_nat d | None => True end /\ 2 <= b <= 16 /\ b <> 10.
Proof.
  intros E. assert (X : match prefix_base c with
                        | Some b => c <> "_"%char /\ match digit_value c with Some d => b <= Z.of_nat d | None => True end /\ 2 <= b <= 16 /\ b <> 10
                        | None => True end).
  { clear. destruct c as [[] [] [] [] [] [] [] []]; vm_compute; repeat split; try discriminate; auto. }
  now rewrite E in X.
Qed.
Lemma numeral_py_int b s z : 2 <= b <= 16 -> numeral b s z -> py_int s b = Ok z.
Proof.
  intros B N. assert (I : int_digits b 0 false s = Ok z).
  { destruct (numeral_int b s z N) as (k & H). specialize (H 0 false ""). rewrite append_empty in H. rewrite H. reflexivity. }
  assert (Z0 : b =? 0 = false) by (apply Z.eqb_neq; lia).
  unfold py_int. rewrite Z0. cbn [orb].
  replace ((2 <=? b) && (b <=? 36)) with true by (symmetry; apply andb_true_iff; split; apply Z.leb_le; lia). cbn [negb].
  destruct s as [|x [|c r]]; [exact I|exact I|]. destruct (Ascii.eqb x "0"); [|exact I].
  destruct (prefix_base c) as [b'|] eqn:Q; [|exact I].
  destruct (b =? b') eqn:E; [|exact I]. apply Z.eqb_eq in E. subst b'. exfalso.
  apply prefix_base_digit in Q as (U & D & _).
  destruct (numeral_chars b _ z N c) as [->|(d & V & L)]; [right; now left|congruence|]. rewrite V in D. lia.
Qed.
Lemma split_on_none c s : ~ In c (list_ascii_of_string s) -> split_on c s = [s].
Proof.
  induction s as [|x s IH]; [reflexivity|]. cbn. intros N. destruct (Ascii.eqb x c) eqn:E; [apply Ascii.eqb_eq in E; tauto|].
  now rewrite IH by tauto.
Qed.
Lemma split_on_cut c s r : ~ In c (list_ascii_of_string s) -> split_on c (s ++ String c r) = s :: split_on c r.
Proof.
  induction s as [|x s IH]; cbn; intros N.
  - now rewrite Ascii.eqb_refl.
  - destruct (Ascii.eqb x c) eqn:E; [apply Ascii.eqb_eq in E; tauto|]. now rewrite IH by tauto.
Qed.
Lemma numeral_no_sign b s z : numeral b s z -> ~ In "#"%char (list_ascii_of_string s).
Proof.
  intros N I. destruct (numeral_chars b s z N _ I) as [X|(d & X & _)]; [discriminate|].
  apply digit_value_digit in X as (_ & _ & X & _). congruence.
Qed.

(** C61: a numeric literal becomes a number with the value of its digits; a literal with a
    base keeps its base *)
Theorem C61_number :
  (forall s z, numeral 10 s z -> create_numeric_literal s = Ok (z, 0))
  /\ (forall t b s z, numeral 10 t b -> 2 <= b <= 16 -> numeral b s z ->
      create_numeric_literal (t ++ "#" ++ s ++ "#") = Ok (z, b)).
Proof.
  split.
  - intros s z N. unfold create_numeric_literal. rewrite split_on_none by now apply (numeral_no_sign 10 s z).
    now rewrite (numeral_py_int 10 s z) by (assumption || lia).
  - intros t b s z T B N. unfold create_numeric_literal. cbn [append].
    rewrite split_on_cut by now apply (numeral_no_sign 10 t b). rewrite split_on_cut by now apply (numeral_no_sign b s z).
    cbn [split_on]. rewrite (numeral_py_int 10 t b) by (assumption || lia). cbn [bind].
    now rewrite (numeral_py_int b s z) by assumption.
Qed.
Print Assumptions C61_number.

Lemma literal_created s z : Literal s z -> exists b, create_numeric_literal s = Ok (z, b).
Proof.
  intros [s' z' N|t b s' z' T B N]; [exists 0; now apply (proj1 C61_number)|exists b; now apply (proj2 C61_number)].
Qed.

(** ** Proofs: the text of numbers *)

Lemma digit_char_value d : 0 <= d < 16 -> digit_value (digit_char d) = Some (Z.to_nat d).
Proof.
  intros H. assert (X : d = 0 \/ d = 1 \/ d = 2 \/ d = 3 \/ d = 4 \/ d = 5 \/ d = 6 \/ d = 7 \/ d = 8 \/ d = 9 \/ d = 10
                        \/ d = 11 \/ d = 12 \/ d = 13 \/ d = 14 \/ d = 15) by lia.
  repeat (destruct X as [->|X]; [vm_compute; reflexivity|]). subst d. vm_compute; reflexivity.
Qed.
Lemma format_digits_numeral b : 2 <= b <= 16 -> forall fuel v acc, 0 <= v < b ^ Z.of_nat (S fuel) ->
  exists ds, format_digits (S fuel) b v acc = (ds ++ acc)%string /\ numeral b ds v.
Proof.
  intros B. induction fuel as [|k IH]; intros v acc V.
  - cbn [format_digits]. change (Z.of_nat 1) with 1 in V. rewrite Z.pow_1_r in V.
    replace (v <? b) with true by (symmetry; apply Z.ltb_lt; lia). rewrite Z.mod_small by lia.
    exists (String (digit_char v) ""). split; [reflexivity|].
    rewrite <- (Z2Nat.id v) at 2 by lia. apply N_one; [apply digit_char_value; lia|rewrite Z2Nat.id; lia].
  - remember (S k) as n. cbn [format_digits]. pose proof (Z.mod_pos_bound v b ltac:(lia)) as M.
    destruct (v <? b) eqn:L.
    + apply Z.ltb_lt in L. rewrite Z.mod_small by lia. exists (String (digit_char v) ""). split; [reflexivity|].
      rewrite <- (Z2Nat.id v) at 2 by lia. apply N_one; [apply digit_char_value; lia|rewrite Z2Nat.id; lia].
    + subst n. destruct (IH (v / b) (String (digit_char (v mod b)) acc)) as (ds & E & N).
      { split; [apply Z.div_pos; lia|]. apply Z.div_lt_upper_bound; [lia|].
        replace (b * b ^ Z.of_nat (S k)) with (b ^ Z.of_nat (S (S k))); [lia|].
        rewrite (Nat2Z.inj_succ (S k)), Z.pow_succ_r by lia. reflexivity. }
      exists (ds ++ String (digit_char (v mod b)) "")%string. split; [rewrite E, append_assoc; reflexivity|].
      replace v with (v / b * b + Z.of_nat (Z.to_nat (v mod b))) at 2.
      * apply N_more; [exact N|apply digit_char_value; lia|rewrite Z2Nat.id; lia].
      * rewrite Z2Nat.id by lia. pose proof (Z.div_mod v b ltac:(lia)). lia.
Qed.
Lemma format_base_numeral b v : 2 <= b <= 16 -> 0 <= v -> numeral b (format_base b v) v.
Proof.
  intros B V. unfold format_base.
  destruct (format_digits_numeral b B (Z.to_nat (Z.log2 v)) v "") as (ds & E & N).
  - split; [lia|]. rewrite Nat2Z.inj_succ, Z2Nat.id by apply Z.log2_nonneg.
    destruct (Z.eq_dec v 0) as [->|NZ]; [apply Z.pow_pos_nonneg; [lia|apply Z.le_le_succ_r, Z.log2_nonneg]|].
    apply Z.lt_le_trans with (2 ^ Z.succ (Z.log2 v)); [apply Z.log2_spec; lia|].
    apply Z.pow_le_mono_l. lia.
  - rewrite E, append_empty. exact N.
Qed.

(** C61: the text of a number is read as the same number in the same base, a negative one as
    the negation of a literal *)
Theorem C61_text : forall v b s, number_text v b = Ok s ->
  (0 <= v -> create_numeric_literal s = Ok (v, b))
  /\ (v < 0 -> exists d, s = ("(-" ++ d ++ ")")%string /\ create_numeric_literal d = Ok (- v, b)
              /\ create General (NParen (NNegation (NNumeric d))) = Ok (SNum v)).
Proof.
  intros v b s E. unfold number_text in E. cbn zeta in E. apply bind_ok in E as (d & D & E). apply Ok_inj in E.
  assert (A : create_numeric_literal d = Ok (Z.abs v, b)).
  { assert (F : forall base, 2 <= base <= 16 -> numeral base (format_base base (Z.abs v)) (Z.abs v))
      by (intros; apply format_base_numeral; lia).
    assert (T : forall t base d, numeral 10 t base -> 2 <= base <= 16 -> b = base ->
                Ok (t ++ "#" ++ format_base base (Z.abs v) ++ "#")%string = Ok d -> create_numeric_literal d = Ok (Z.abs v, b)).
    { intros t base d' N B -> X. apply Ok_inj in X. subst d'. apply (proj2 C61_number); auto. }
    destruct (b =? 0) eqn:B0; [apply Z.eqb_eq in B0; apply Ok_inj in D; subst; apply (proj1 C61_number), F; lia|].
    destruct (b =? 2) eqn:B2; [apply Z.eqb_eq in B2; refine (T "2" 2 d _ _ B2 D); [apply (N_one 10 "2"%char 2); [reflexivity|lia]|lia]|].
    destruct (b =? 8) eqn:B8; [apply Z.eqb_eq in B8; refine (T "8" 8 d _ _ B8 D); [apply (N_one 10 "8"%char 8); [reflexivity|lia]|lia]|].
    destruct (b =? 10) eqn:B10; [apply Z.eqb_eq in B10; refine (T "10" 10 d _ _ B10 D);
      [apply (N_more 10 "1" 1 "0"%char 0); [apply (N_one 10 "1"%char 1); [reflexivity|lia]|reflexivity|lia]|lia]|].
    destruct (b =? 16) eqn:B16; [apply Z.eqb_eq in B16; refine (T "16" 16 d _ _ B16 D);
      [apply (N_more 10 "1" 1 "6"%char 6); [apply (N_one 10 "1"%char 1); [reflexivity|lia]|reflexivity|lia]|lia]|].
    discriminate. }
  split; intros V.
  - replace (v <? 0) with false in E by (symmetry; apply Z.ltb_ge; lia). subst s. rewrite A, Z.abs_eq by lia. reflexivity.
  - replace (v <? 0) with true in E by (symmetry; apply Z.ltb_lt; lia). subst s. exists d. rewrite Z.abs_neq in A by lia.
    split; [reflexivity|]. split; [exact A|]. cbn [create]. rewrite A. cbn [bind fst]. now rewrite Z.opp_involutive.
Qed.
Print Assumptions C61_text.
Example C61_text_case :
  number_text (-3054) 16 = Ok "(-16#BEE#)" /\ number_text 6 2 = Ok "2#110#" /\ number_text 0 8 = Ok "8#0#"
  /\ number_text 1536 0 = Ok "1536" /\ number_text 20 10 = Ok "10#20#"
  /\ create_numeric_literal "16#bE_e#" = Ok (3054, 16) /\ create_numeric_literal "1_536" = Ok (1536, 0)
  /\ Literal "16#bE_e#" 3054.
Proof.
  repeat (split; [vm_compute; reflexivity|]).
  change "16#bE_e#" with ("16" ++ "#" ++ "bE_e" ++ "#")%string. apply (L_based _ 16).
  - apply (N_more 10 "1" 1 "6"%char 6); [apply (N_one 10 "1"%char 1); [reflexivity|lia]|reflexivity|lia].
  - lia.
  - change "bE_e" with (("b" ++ "E") ++ "_" ++ "e")%string. change 3054 with ((11 * 16 + Z.of_nat 14) * 16 + Z.of_nat 14).
    apply N_under; [apply N_more; [apply (N_one 16 "b"%char 11)|..]|..]; (reflexivity || lia).
Qed.

(** ** Proofs: contexts *)

Lemma each_ok_mono {A B} (f g : A -> res B) l bs :
  (forall a b, In a l -> f a = Ok b -> g a = Ok b) -> each_ok f l = Ok bs -> each_ok g l = Ok bs.
Proof.
  intros M E. apply each_ok_inv in E. apply each_ok_intro. revert M. induction E as [|a b l bs E _ IH]; intros M; constructor.
  - apply M; [now left|exact E].
  - apply IH. intros x y I. apply M. now right.
Qed.

(** C61: what create_math_expression and create_bool_expression accept, create_expression
    makes the same expression of *)
Theorem C61_context : forall c t e, create c t = Ok e -> create General t = Ok e.
Proof.
  intros c t e. revert t c e.
  apply (node_induction (fun t => forall ctx x, create ctx t = Ok x -> create General t = Ok x)).
  1-15: intros; destruct ctx; cbn [create] in *; try discriminate; eauto.
  - match goal with E : bind _ _ = Ok _ |- _ => apply bind_ok in E as (y & Y & E); rewrite Y; cbn [bind];
      destruct k; cbn in E |- *; try discriminate; exact E end.
  - intros o l r L R ctx x E. cbn [create] in *. destruct ctx; [exact E| |].
    + destruct o; cbn in *; try discriminate; exact E.
    + destruct o; cbn in *; try discriminate; try exact E;
        apply bind_ok in E as (y & Y & E); apply bind_ok in E as (z & Z & E);
        rewrite (L _ _ Y); cbn; rewrite (R _ _ Z); exact E.
Qed.
Print Assumptions C61_context.

(** ** Proofs: meaning *)

Lemma create_bare c t : create c t = create c (bare t).
Proof. induction t; cbn [bare]; auto. Qed.
Lemma create_var c t x : create c t = Ok (SVar x) -> exists i, bare t = NVariable i /\ x = reads i.
Proof.
  revert c. induction t; intros ctx E; cbn [bare] in *; cbn [create] in E.
  16: destruct ctx, o; cbn in E; try discriminate.
  all: repeat match type of E with
       | match ?x with _ => _ end = _ => destruct x; try discriminate
       | bind ?r _ = Ok _ => let a := fresh "a" in let X := fresh "X" in apply bind_ok in E as (a & X & E)
       end; try discriminate.
  - eauto.
  - apply Ok_inj in E. injection E as <-. eexists. split; [reflexivity|]. now apply create_id_reads.
  - unfold create_string_literal in E. destruct (nth_error _ _); discriminate.
Qed.
Lemma create_sel c t p f : create c t = Ok (SSel p f) ->
  exists q i, bare t = NSelect q i /\ create General q = Ok p /\ f = written i.
Proof.
  revert c. induction t; intros ctx E; cbn [bare] in *; cbn [create] in E.
  16: destruct ctx, o; cbn in E; try discriminate.
  all: repeat match type of E with
       | match ?x with _ => _ end = _ => destruct x; try discriminate
       | bind ?r _ = Ok _ => let a := fresh "a" in let X := fresh "X" in apply bind_ok in E as (a & X & E)
       end; try discriminate.
  - eauto.
  - unfold create_string_literal in E. destruct (nth_error _ _); discriminate.
  - apply Ok_inj in E. injection E as <- <-. do 2 eexists. split; [reflexivity|]. split; [eassumption|].
    now apply create_id_written.
Qed.

Lemma each_app {A B} (f : A -> outcome B) a b :
  each f (a ++ b) = do x <- each f a ;; do y <- each f b ;; Val (x ++ y).
Proof.
  induction a as [|h a IH]; cbn; [destruct (each f b); reflexivity|]. destruct (f h); cbn; try reflexivity.
  rewrite IH. destruct (each f a); cbn; try reflexivity. destruct (each f b); reflexivity.
Qed.
Lemma each_Forall2 {A B C} (f : A -> outcome C) (g : B -> outcome C) l m :
  Forall2 (fun a b => f a = g b) l m -> each f l = each g m.
Proof. induction 1 as [|a b l m E _ IH]; [reflexivity|]. cbn. rewrite E. destruct (g b); cbn; [now rewrite IH|reflexivity|reflexivity]. Qed.
Lemma each_same {A B} (f g : A -> outcome B) l : (forall a, f a = g a) -> each f l = each g l.
Proof. intros E. apply each_Forall2. induction l; constructor; auto. Qed.
Lemma after_same {A B} (o : outcome A) (f g : A -> outcome B) : (forall a, f a = g a) -> after o f = after o g.
Proof. intros E. destruct o; cbn; auto. Qed.
Lemma all_of_In {A} (P : A -> Prop) l : all_of P l -> forall a, In a l -> P a.
Proof. induction l as [|x l IH]; intros H a I; [contradiction|]. destruct H as (X & H). destruct I as [<-|I]; auto. Qed.

(** what the pairs of a binding or a message aggregate become *)
Definition pair_created (p : id_node * node) : res (ident * sx) :=
  match p with (k, v) => let* i := create_id k in let* e := create General v in Ok (i, e) end.
Lemma pairs_created l ps : each_ok pair_created l = Ok ps -> NoDup (map (fun p => reads (fst p)) l) ->
  dict_of ps = ps /\ Forall2 (fun p q => create_id (fst p) = Ok (fst q) /\ create General (snd p) = Ok (snd q)) l ps.
Proof.
  intros E N. apply each_ok_inv in E.
  assert (F : Forall2 (fun p q => create_id (fst p) = Ok (fst q) /\ create General (snd p) = Ok (snd q)) l ps).
  { clear N. induction E as [|[k v] q l ps E _ IH]; constructor; [|exact IH].
    unfold pair_created in E. apply bind_ok in E as (i & I & E). apply bind_ok in E as (e & X & E). apply Ok_inj in E. subst q.
    now split. }
  split; [|exact F]. apply dict_of_distinct.
  replace (map (fun p => low (fst p)) ps) with (map (fun p => reads (fst p)) l); [exact N|].
  clear E N. induction F as [|p q l ps (I & _) _ IH]; [reflexivity|]. cbn [map]. rewrite IH. f_equal.
  symmetry. now apply create_id_reads.
Qed.

Lemma substring_all s : substring 0 (String.length s) s = s.
Proof. induction s as [|c s IH]; [reflexivity|]. cbn. now rewrite IH. Qed.
Lemma substring_prefix a b : substring 0 (String.length a) (a ++ b) = a.
Proof. induction a as [|c a IH]; [destruct b; reflexivity|]. cbn. now rewrite IH. Qed.
Lemma length_app a b : String.length (a ++ b) = (String.length a + String.length b)%nat.
Proof. induction a as [|c a IH]; [reflexivity|]. cbn. now rewrite IH. Qed.

Section Created.
  Context (w : world) (lit : string -> Z) (LIT : forall s z, Literal s z -> lit s = z).

  Definition means (t : node) : Prop :=
    (forall c e, create c t = Ok e -> forall st, eval w st e = sense w lit st t)
    /\ (forall q f p, bare t = NSelect q f -> create General q = Ok p -> forall st, eval w st p = sense w lit st q).

  Lemma eval_measure a t e st : create General t = Ok e -> eval w st e = sense w lit st t ->
    eval w st (SAttr (SInt a) e) = measure w a t (sense w lit st t).
  Proof.
    intros C E. unfold measure.
    assert (V : forall i, bare t = NVariable i -> e = SVar (reads i)).
    { intros i B. rewrite create_bare, B in C. cbn [create] in C. apply bind_ok in C as (x & X & C). apply Ok_inj in C. subst e.
      now rewrite (create_id_reads _ _ X). }
    assert (N : forall x, e = SVar x -> exists i, bare t = NVariable i /\ x = reads i).
    { intros x ->. now apply create_var in C. }
    destruct (bare t) as [| |i| | | | | | | | | | | | |] eqn:B.
    3: { rewrite (V i eq_refl). reflexivity. }
    all: rewrite <- E; destruct e; try reflexivity; destruct (N _ eq_refl) as (j & X & _); discriminate.
  Qed.

  Lemma eval_present t e st : create General t = Ok e ->
    (forall q f p, bare t = NSelect q f -> create General q = Ok p -> forall st, eval w st p = sense w lit st q) ->
    eval w st (SAttr SPresent e) = sense w lit st (NAttribute t AttrPresent).
  Proof.
    intros C IH.
    assert (X : sense w lit st (NAttribute t AttrPresent)
                = match bare t with
                  | NSelect q f => do v <- sense w lit st q ;; match v with VMsg _ fs => Val (VBool (has (written f) fs)) | _ => Stuck end
                  | _ => Stuck
                  end).
    { clear C IH. induction t; cbn [bare]; try reflexivity. exact IHt. }
    rewrite X. clear X. rewrite create_bare in C.
    destruct e; try (destruct (bare t) eqn:B; [..|reflexivity]; try reflexivity;
      cbn [create] in C; repeat (apply bind_ok in C as (? & ? & C)); discriminate).
    rewrite <- create_bare in C. apply create_sel in C as (q & i & B & Q & ->). rewrite B. cbn [eval].
    rewrite (IH q i e B Q). reflexivity.
  Qed.

  Lemma eval_binary o f l r st a b :
    (match math_operation o, math_comparison o, boolean_operation o, operation o with
     | Some g, _, _, _ | None, Some g, _, _ | None, None, Some g, _ | None, None, None, Some g => g = f
     | None, None, None, None => False
     end) ->
    eval w st a = sense w lit st l -> eval w st b = sense w lit st r ->
    eval w st (f a b) = sense w lit st (NBinOp o l r).
  Proof.
    intros F A B. cbn [sense]. rewrite <- A, <- B. clear A B l r.
    destruct o; cbn in F; subst f; cbn [eval each].
    all: destruct (eval w st a) as [x| |]; cbn [after]; try reflexivity;
         destruct (eval w st b) as [y| |]; cbn [after each]; try reflexivity.
    all: cbn [binary].
    all: try (destruct (comparable x y); [|reflexivity]; destruct (value_eqb x y); reflexivity).
    all: try (destruct (to_seq y) as [vs| |]; cbn [after]; try reflexivity; destruct (existsb (value_eqb x) vs); reflexivity).
    all: unfold ints, bools.
    all: try (destruct (to_bool x) as [p| |]; cbn [after]; try reflexivity; destruct (to_bool y) as [q| |]; cbn [after]; try reflexivity;
              destruct p, q; reflexivity).
    all: destruct (to_int x) as [p| |]; cbn [after]; try reflexivity; destruct (to_int y) as [q| |]; cbn [after arith less fold_right]; try reflexivity.
    - destruct (q <? 0); reflexivity.
    - now rewrite Z.add_0_r.
    - now rewrite Z.mul_1_r.
    - destruct (q =? 0); reflexivity.
    - destruct (q =? 0); reflexivity.
  Qed.

  Lemma created_means t : proper t -> means t.
  Proof.
    revert t. apply (node_induction (fun t => proper t -> means t)).
    - intros s (z & L). split; [|discriminate]. intros c e E st. cbn [create] in E.
      destruct (literal_created s z L) as (b & C). rewrite C in E. cbn [bind fst] in E.
      destruct c; try discriminate; apply Ok_inj in E; subst e; cbn [sense eval]; now rewrite (LIT s z L).
    - intros d IH P. destruct (IH P) as (A & B). split; [exact A|exact B].
    - intros i _. split; [|discriminate]. intros c e E st. cbn [create] in E. apply bind_ok in E as (x & X & E).
      apply Ok_inj in E. subst e. cbn [eval sense]. now rewrite (create_id_reads _ _ X).
    - intros t k IH P. destruct (IH P) as (A & B). split; [|discriminate]. intros c e E st. cbn [create] in E.
      apply bind_ok in E as (x & X & E). pose proof (A _ _ X st) as V.
      assert (K : e = SAttr (attribute k) x).
      { destruct c; [|destruct k; cbn in E; try discriminate|]; apply Ok_inj in E; now subst e. }
      subst e. destruct k; cbn [attribute].
      1-3: cbn [sense]; now apply eval_measure.
      all: try (cbn [eval sense]; rewrite V; reflexivity).
      now apply eval_present.
    - intros l IH P. split; [|discriminate]. intros c e E st. cbn [create] in E. cbn [proper] in P.
      assert (K : exists es, each_ok (create Math) l = Ok es /\ e = SAgg es).
      { destruct c; try discriminate; apply bind_ok in E as (es & X & E); apply Ok_inj in E; subst e; eauto. }
      destruct K as (es & X & ->). cbn [eval sense]. apply each_ok_inv in X.
      rewrite (each_Forall2 (eval w st) (sense w lit st) es l); [reflexivity|].
      rewrite Forall_forall in IH. clear E. induction X as [|a b l' bs E X IX]; constructor.
      + refine (proj1 (IH a (or_introl eq_refl) (proj1 P)) _ _ E st).
      + apply IX; [intros y I; apply IH; now right|exact (proj2 P)].
    - intros s (d & -> & Q). split; [|discriminate]. intros c e E st. cbn [create] in E.
      assert (K : create_string_literal ("""" ++ d ++ """")%string = Ok e) by (destruct c; (exact E || discriminate)).
      unfold create_string_literal in K. cbn [append split_on] in K. rewrite Ascii.eqb_refl in K.
      rewrite split_on_cut in K by exact Q. cbn [nth_error] in K. apply Ok_inj in K. subst e.
      cbn [eval sense].
      replace (substring 1 (String.length ("""" ++ d ++ """") - 2) ("""" ++ d ++ """")) with d.
      2: { cbn [append String.length substring]. rewrite length_app. cbn [String.length].
           replace (S (String.length d + 1) - 2)%nat with (String.length d) by lia. now rewrite substring_prefix. }
      clear. assert (G : each (eval w st) (map SNum (codes d)) = Val (map (fun c => VInt (Z.of_nat (nat_of_ascii c))) (list_ascii_of_string d))).
      { induction d as [|c d IH]; [reflexivity|]. cbn [codes map each eval after list_ascii_of_string]. now rewrite IH. }
      now rewrite G.
    - intros i l IH P. split; [|discriminate]. intros c e E st. cbn [create] in E. cbn [proper] in P.
      apply bind_ok in E as (f & F & E). apply bind_ok in E as (es & X & E). apply Ok_inj in E. subst e.
      cbn [eval sense]. rewrite (create_id_reads _ _ F). apply each_ok_inv in X.
      rewrite (each_Forall2 (eval w st) (sense w lit st) es l); [reflexivity|].
      rewrite Forall_forall in IH. induction X as [|a b l' bs E X IX]; constructor.
      + refine (proj1 (IH a (or_introl eq_refl) (proj1 P)) _ _ E st).
      + apply IX; [intros y I; apply IH; now right|exact (proj2 P)].
    - intros a p i b IHi IHb (Pi & Pb). split; [|discriminate]. intros c e E st. cbn [create] in E.
      assert (K : exists x it pr, create_id p = Ok x /\ create General i = Ok it /\ create General b = Ok pr
                  /\ e = SQuant a (low x) it pr).
      { destruct c; try discriminate; apply bind_ok in E as (x & X & E); apply bind_ok in E as (it & I & E);
          apply bind_ok in E as (pr & B & E); apply Ok_inj in E; subst e; eauto 8. }
      destruct K as (x & it & pr & X & I & B & ->). cbn [eval sense].
      rewrite (proj1 (IHi Pi) _ _ I st). rewrite (create_id_reads _ _ X).
      destruct (sense w lit st i) as [v| |]; cbn [after]; try reflexivity.
      destruct (to_seq v) as [vs| |]; cbn [after]; try reflexivity.
      rewrite (each_same _ (fun y => do r <- sense w lit (upd st (reads p) y) b ;; to_bool r)); [reflexivity|].
      intros y. now rewrite (proj1 (IHb Pb) _ _ B).
    - intros t l IHt IH (Pt & Pl & N). split; [|discriminate]. intros c e E st. cbn [create] in E.
      apply bind_ok in E as (data & D & E). apply bind_ok in D as (ps & D & Y). apply Ok_inj in Y. subst data.
      apply bind_ok in E as (x & X & E). apply Ok_inj in E. subst e.
      apply (pairs_created l ps) in D as (DD & F); [|exact N]. rewrite DD. clear DD. cbn [eval sense].
      rewrite (each_Forall2 _ (fun p => match p with (i, d) => do v <- sense w lit st d ;; Val (reads i, v) end) _ l).
      + apply after_same. intros vs. apply (proj1 (IHt Pt) _ _ X).
      + clear N. induction F as [|[k d] [q y] l' qs (A & B) F IX]; [constructor|]. cbn [map fst snd] in *.
        inversion IH as [|? ? I1 I2]; subst. destruct Pl as (P1 & P2). constructor; [|apply IX; assumption].
        rewrite (proj1 (I1 P1) _ _ B st), (create_id_reads _ _ A). reflexivity.
    - intros d IH P. split; [|discriminate]. intros c e E st. cbn [create] in E.
      assert (K : exists v, create Math d = Ok (SNum v) /\ e = SNum (- v)).
      { destruct c; try discriminate; apply bind_ok in E as (x & X & E); destruct x; try discriminate; apply Ok_inj in E; subst e; eauto. }
      destruct K as (v & X & ->). cbn [sense]. rewrite <- (proj1 (IH P) _ _ X st). reflexivity.
    - intros l r IHl IHr (Pl & Pr). split; [|discriminate]. intros c e E st. cbn [create] in E.
      destruct c; try discriminate. apply bind_ok in E as (x & X & E). apply bind_ok in E as (y & Y & E).
      destruct x as [| | | | | | | | | | |xs| | | | |]; try discriminate. destruct y as [| | | | | | | | | | |ys| | | | |]; try discriminate.
      apply Ok_inj in E. subst e. cbn [sense]. rewrite <- (proj1 (IHl Pl) _ _ X st), <- (proj1 (IHr Pr) _ _ Y st). cbn [eval].
      rewrite each_app. destruct (each (eval w st) xs); cbn [after]; try reflexivity.
      destruct (each (eval w st) ys); cbn [after to_seq]; reflexivity.
    - intros i a s k IHa IHs IHk (Pa & Ps & Pk). split; [|discriminate]. intros c e E st. cbn [create] in E.
      destruct c; try discriminate. apply bind_ok in E as (g & G & E). apply bind_ok in E as (x & X & E).
      apply bind_ok in E as (ar & A & E). apply bind_ok in E as (se & S & E). apply Ok_inj in E. subst e.
      cbn [eval sense]. rewrite (proj1 (IHa Pa) _ _ A st). rewrite (create_id_reads _ _ X).
      apply after_same. intros v. apply after_same. intros vs.
      match goal with |- after (each ?f vs) _ = after (each ?g vs) _ => rewrite (each_same f g); [reflexivity|] end.
      intros y. rewrite (proj1 (IHs Ps) _ _ S).
      destruct k as [d|].
      + rewrite (proj1 (IHk d eq_refl Pk) _ _ G). destruct (sense w lit (upd st (reads i) y) d); reflexivity.
      + apply Ok_inj in G. subst g. reflexivity.
    - intros t f IH P. split.
      + intros c e E st. cbn [create] in E. apply bind_ok in E as (x & X & E). apply bind_ok in E as (g & G & E).
        apply Ok_inj in E. subst e. cbn [eval sense]. rewrite (proj1 (IH P) _ _ X st).
        now rewrite (proj1 (create_id_written _ _ G)).
      + intros q g p B C. cbn [bare] in B. injection B as <- _. apply (proj1 (IH P) _ _ C).
    - intros i a IH P. split; [|discriminate]. intros c e E st. cbn [create] in E. destruct c; try discriminate.
      apply bind_ok in E as (x & X & E). apply bind_ok in E as (y & Y & E). apply Ok_inj in E. subst e.
      cbn [eval sense]. now rewrite (proj1 (IH P) _ _ Y st), (create_id_reads _ _ X).
    - intros i l IH (Pl & N). split; [|discriminate]. intros c e E st. cbn [create] in E. destruct c; try discriminate.
      apply bind_ok in E as (data & D & E). apply bind_ok in D as (ps & D & Y). apply Ok_inj in Y. subst data.
      apply bind_ok in E as (x & X & E). apply Ok_inj in E. subst e.
      apply (pairs_created l ps) in D as (DD & F); [|exact N]. rewrite DD. clear DD. cbn [eval sense].
      rewrite (create_id_reads _ _ X).
      match goal with |- after (each ?f _) _ = after (each ?g _) _ => rewrite (each_Forall2 f g _ l); [reflexivity|] end.
      clear N. induction F as [|[k d] [q y] l' qs (A & B) F IX]; [constructor|]. cbn [map fst snd] in *.
      inversion IH as [|? ? I1 I2]; subst. destruct Pl as (P1 & P2). constructor; [|apply IX; assumption].
      rewrite (proj1 (I1 P1) _ _ B st), (proj1 (create_id_written _ _ A)). reflexivity.
    - intros o l r IHl IHr (Pl & Pr). split; [|discriminate]. intros c e E st. cbn [create] in E.
      assert (K : exists f cl cr a b, create cl l = Ok a /\ create cr r = Ok b /\ e = f a b
                  /\ match math_operation o, math_comparison o, boolean_operation o, operation o with
                     | Some g, _, _, _ | None, Some g, _, _ | None, None, Some g, _ | None, None, None, Some g => g = f
                     | None, None, None, None => False
                     end).
      { destruct c, o; cbn in E; try discriminate; apply bind_ok in E as (a & A & E); apply bind_ok in E as (b & B & E);
          apply Ok_inj in E; subst e; cbn; do 5 eexists; (split; [eassumption|]); (split; [eassumption|]); (split; [|reflexivity]);
          reflexivity. }
      destruct K as (f & cl & cr & a & b & A & B & -> & F).
      apply (eval_binary o f l r st a b F); [apply (proj1 (IHl Pl) _ _ A)|apply (proj1 (IHr Pr) _ _ B)].
  Qed.
End Created.

(** C61: the expression that is created for a parse tree has the meaning of the tree, in
    every store *)
Theorem C61_meaning : forall w lit, (forall s z, Literal s z -> lit s = z) ->
  forall c t e, proper t -> create c t = Ok e -> forall st, eval w st e = sense w lit st t.
Proof. intros w lit L c t e P C. exact (proj1 (created_means w lit L t P) c e C). Qed.
Print Assumptions C61_meaning.
(** there are such values of literals *)
Lemma literals_have_values : exists lit, forall s z, Literal s z -> lit s = z.
Proof.
  exists (fun s => match create_numeric_literal s with Ok n => fst n | Err _ => 0 end).
  intros s z L. destruct (literal_created s z L) as (b & ->). reflexivity.
Qed.

(** an example with most kinds of nodes *)
Definition world0 : world :=
  mkWorld (fun _ => ["Tag"; "Data"]) (fun t => t) (fun f vs => if String.eqb f "f" then Val (VInt (Z.of_nat (List.length vs))) else Stuck)
          (fun _ _ => 8) (fun _ _ => 16) (fun _ => true) (fun _ => true) (fun _ => [1; 2])
          (fun _ _ => Some [("Tag", VInt 1)]) (fun _ => false).
Definition lit0 (s : string) : Z := match create_numeric_literal s with Ok n => fst n | Err _ => 0 end.
Definition store0 : store :=
  fun x => if String.eqb x "msg" then Some (VMsg "p::m" [("Tag", VInt 3)])
           else if String.eqb x "list" then Some (VSeq [VInt 1; VInt 5; VInt 9])
           else if String.eqb x "c" then Some (VChannel true true) else None.
Definition v (x : string) : id_node := Qualified None x.
Definition u (x : string) : id_node := Unqualified x.
Definition n (x : string) : node := NNumeric x.
(** (for all E in [for X in List if X > 2 => X + Msg.Tag] => E in [8, 16#C#] & "") and (Msg.Data)'Present or
    Y < F (1, Y) where Y = - 3 *)
Definition tree0 : node :=
  NBinding
    (NBinOp OpOr
      (NBinOp OpAnd
        (NParen (NQuantified true (u "E")
          (NComprehension (u "X") (NVariable (v "List")) (NBinOp OpAdd (NVariable (v "X")) (NSelect (NVariable (v "Msg")) (u "Tag")))
            (Some (NBinOp OpGt (NVariable (v "X")) (n "2"))))
          (NBinOp OpIn (NVariable (v "E")) (NConcatenation (NArray [n "8"; n "16#C#"]) (NString """""")))))
        (NAttribute (NParen (NSelect (NVariable (v "Msg")) (u "Data"))) AttrPresent))
      (NBinOp OpLt (NVariable (v "y")) (NCall (v "F") [n "1"; NVariable (v "Y")])))
    [(u "Y", NNegation (n "3"))].
Lemma one_digit c d : digit_value c = Some d -> Z.of_nat d < 10 -> exists z, Literal (String c "") z.
Proof. intros E L. eexists. apply L_decimal, (N_one 10 c d E L). Qed.
Example C61_meaning_case : proper tree0 /\ is_ok (create General tree0) = true
  /\ sense world0 lit0 store0 tree0 = Val (VBool true)
  /\ (forall s z, Literal s z -> lit0 s = z).
Proof.
  split; [|split; [vm_compute; reflexivity|split; [vm_compute; reflexivity|]]].
  - cbn. repeat split; try exact I; try (eapply one_digit; [reflexivity|lia]).
    + exists 12. change "16#C#" with ("16" ++ "#" ++ "C" ++ "#")%string. apply (L_based _ 16); [|lia|apply (N_one 16 "C"%char 12); [reflexivity|lia]].
      apply (N_more 10 "1" 1 "6"%char 6); [apply (N_one 10 "1"%char 1); [reflexivity|lia]|reflexivity|lia].
    + exists "". split; [reflexivity|intros []].
    + constructor; [intros []|constructor].
  - intros s z L. destruct (literal_created s z L) as (b & C). unfold lit0. now rewrite C.
Qed.

(** ** Identifiers *)

(** a word without blanks, dots and colons; a name on its own must not be a reserved word *)
Definition plain (s : string) : Prop := s <> "" /\ forall c, In c [" "%char; "."%char; ":"%char] -> ~ In c (list_ascii_of_string s).
Definition usable (i : id_node) : Prop :=
  match i with
  | Unqualified t => plain t /\ ~ In (lower t) reserved_words
  | Qualified None n => plain n
  | Qualified (Some p) n => plain p /\ plain n
  end.
Lemma plain_good s : plain s -> P_IdentErrors.good_id [s] /\ has_char ":" s = false.
Proof.
  intros (N & C). assert (G : P_IdentErrors.good_part s).
  { split; [exact N|]. intros c I. repeat split; intros ->; revert I; apply C; cbn; tauto. }
  split; [split; [discriminate|constructor; [exact G|constructor]]|].
  destruct (has_char ":" s) eqn:E; [|reflexivity]. exfalso. apply P_IdentErrors.has_char_In in E. revert E. apply C. cbn. tauto.
Qed.
Lemma plain_id s : plain s -> id_of_string s = Ok [s].
Proof.
  intros P. apply plain_good in P as (G & C). unfold id_of_string. rewrite P_IdentErrors.split_plain by exact C.
  now apply P_IdentErrors.check_parts_ok.
Qed.

(** C61: a usable identifier is accepted and keeps its text, a reserved word is reported *)
Theorem C61_identifier :
  (forall i x, create_id i = Ok x -> id_str x = written i)
  /\ (forall i, usable i -> exists x, create_id i = Ok x)
  /\ (forall t, In (lower t) reserved_words -> create_id (Unqualified t) = Err "reserved word used as identifier").
Proof.
  split; [intros i x E; now apply create_id_written|]. split.
  - intros [t|[p|] m]; cbn [usable create_id].
    + intros (P & R). destruct (existsb _ _) eqn:X.
      * apply existsb_exists in X as (r & I & X). apply String.eqb_eq in X. now subst r.
      * rewrite plain_id by exact P. eauto.
    + intros (P & M). rewrite (plain_id m M), (plain_id p P). cbn [bind id_str String.concat]. unfold id_mul.
      destruct (String.eqb m "") eqn:Z; [apply String.eqb_eq in Z; now destruct M|].
      exists [p; m]. unfold id_of_string. cbn [id_str String.concat].
      apply plain_good in P as (GP & CP). apply plain_good in M as (GM & CM).
      rewrite P_IdentErrors.split_sep, P_IdentErrors.split_plain by assumption.
      apply P_IdentErrors.check_parts_ok. split; [reflexivity|]. split; [discriminate|].
      destruct GP as (_ & GP), GM as (_ & GM). inversion GP; subst. constructor; assumption.
    + intros M. rewrite (plain_id m M). cbn. eauto.
  - intros t I. cbn [create_id]. assert (X : existsb (String.eqb (lower t)) reserved_words = true).
    { apply existsb_exists. exists (lower t). split; [exact I|apply String.eqb_refl]. }
    now rewrite X.
Qed.
Print Assumptions C61_identifier.
Example C61_identifier_case : usable (Qualified (Some "Pkg") "Msg") /\ usable (Unqualified "State_1")
  /\ create_id (Qualified (Some "Pkg") "Msg") = Ok ["Pkg"; "Msg"] /\ In (lower "FINAL") reserved_words.
Proof.
  assert (P : forall s, (s <> "" /\ existsb (fun c => has_char c s) [" "%char; "."%char; ":"%char] = false) -> plain s).
  { intros s (N & E). split; [exact N|]. intros c I J. apply P_IdentErrors.has_char_In in J.
    assert (X : existsb (fun c => has_char c s) [" "%char; "."%char; ":"%char] = true) by (apply existsb_exists; eauto). congruence. }
  repeat split; try (apply P; split; [discriminate|reflexivity]); try reflexivity.
  - cbn. intuition discriminate.
  - cbn. tauto.
Qed.

(** ** Mathematical and boolean expressions of the documented grammar *)

(** doc/Language-Reference.md:9: numbers and names combined by mathematical operators; also
    the attributes of names with numeric value *)
Inductive mathematical : node -> Prop :=
| M_number s z : Literal s z -> mathematical (NNumeric s)
| M_negative s z : Literal s z -> mathematical (NNegation (NNumeric s))
| M_name i : usable i -> mathematical (NVariable i)
| M_attribute i k : usable i -> In k [AttrFirst; AttrLast; AttrSize] -> mathematical (NAttribute (NVariable i) k)
| M_operation o l r : In o [OpAdd; OpSub; OpMul; OpDiv; OpPow; OpMod] -> mathematical l -> mathematical r ->
    mathematical (NBinOp o l r)
| M_paren d : mathematical d -> mathematical (NParen d).
(** doc/Language-Reference.md:11: relations combined by boolean operators *)
Inductive boolean_expression : node -> Prop :=
| B_name i : usable i -> boolean_expression (NVariable i)
| B_attribute i k : usable i -> In k [AttrValid; AttrPresent; AttrValidChecksum] -> boolean_expression (NAttribute (NVariable i) k)
| B_relation o l r : In o [OpLt; OpLe; OpEq; OpNeq; OpGe; OpGt] -> mathematical l -> mathematical r ->
    boolean_expression (NBinOp o l r)
| B_operation o l r : In o [OpAnd; OpOr] -> boolean_expression l -> boolean_expression r -> boolean_expression (NBinOp o l r)
| B_paren d : boolean_expression d -> boolean_expression (NParen d).

(** C61: mathematical and boolean expressions of the documented grammar are accepted where
    they are expected *)
Theorem C61_grammar :
  (forall t, mathematical t -> exists e, create Math t = Ok e)
  /\ (forall t, boolean_expression t -> exists e, create Bool t = Ok e).
Proof.
  assert (ID : forall i, usable i -> exists x, create_id i = Ok x) by (intros; now apply (proj1 (proj2 C61_identifier))).
  assert (M : forall t, mathematical t -> exists e, create Math t = Ok e).
  { induction 1 as [s z L|s z L|i U|i k U K|o l r O _ (a & A) _ (b & B)|d _ (e & E)].
    - destruct (literal_created s z L) as (b & C). cbn [create]. rewrite C. cbn. eauto.
    - destruct (literal_created s z L) as (b & C). cbn [create]. rewrite C. cbn. eauto.
    - destruct (ID i U) as (x & X). cbn [create]. rewrite X. cbn. eauto.
    - destruct (ID i U) as (x & X). cbn [create]. rewrite X. cbn [bind]. destruct K as [<-|[<-|[<-|[]]]]; cbn; eauto.
    - cbn [create]. rewrite A. cbn [bind]. rewrite B. cbn [bind].
      destruct O as [<-|[<-|[<-|[<-|[<-|[<-|[]]]]]]]; cbn; eauto.
    - exists e. exact E. }
  split; [exact M|].
  induction 1 as [i U|i k U K|o l r O L R|o l r O _ (a & A) _ (b & B)|d _ (e & E)].
  - destruct (ID i U) as (x & X). cbn [create]. rewrite X. cbn. eauto.
  - destruct (ID i U) as (x & X). cbn [create]. rewrite X. cbn. eauto.
  - destruct (M l L) as (a & A). destruct (M r R) as (b & B). cbn [create].
    pose proof (C61_context _ _ _ A) as A'. pose proof (C61_context _ _ _ B) as B'.
    destruct O as [<-|[<-|[<-|[<-|[<-|[<-|[]]]]]]]; cbn [math_comparison boolean_operation operation];
      rewrite ?A, ?A'; cbn [bind]; rewrite ?B, ?B'; cbn; eauto.
  - cbn [create]. destruct O as [<-|[<-|[]]]; cbn [math_comparison boolean_operation operation]; rewrite A; cbn [bind]; rewrite B; cbn; eauto.
  - exists e. exact E.
Qed.
Print Assumptions C61_grammar.
Example C61_grammar_case :
  boolean_expression (NBinOp OpAnd (NBinOp OpGe (NBinOp OpMul (NVariable (v "Length")) (n "8")) (NAttribute (NVariable (v "Message")) AttrSize))
                                   (NVariable (v "Flag"))).
Proof.
  assert (P : forall s, (s <> "" /\ existsb (fun c => has_char c s) [" "%char; "."%char; ":"%char] = false) -> usable (v s)).
  { intros s (N & E). split; [exact N|]. intros c I J. apply P_IdentErrors.has_char_In in J.
    assert (X : existsb (fun c => has_char c s) [" "%char; "."%char; ":"%char] = true) by (apply existsb_exists; eauto). congruence. }
  apply B_operation; [cbn; tauto| |apply B_name, P; split; [discriminate|reflexivity]].
  apply B_relation; [cbn; tauto| |].
  - apply M_operation; [cbn; tauto|apply M_name, P; split; [discriminate|reflexivity]|].
    apply (M_number "8" 8), L_decimal, (N_one 10 "8"%char 8); [reflexivity|lia].
  - apply M_attribute; [apply P; split; [discriminate|reflexivity]|cbn; tauto].
Qed.

(** ** Specification: statements, declarations, states and sessions *)

(** predefined types have a qualified name *)
Definition type_name (i : id_node) : string :=
  if existsb (String.eqb (reads i)) ["boolean"; "__builtins__::boolean"] then "__builtins__::boolean"
  else if existsb (String.eqb (reads i)) ["opaque"; "__internal__::opaque"] then "__internal__::opaque"
  else reads i.

Section Sessions.
  Context (w : world) (lit : string -> Z).

  (** the effect of a statement on the store *)
  Definition act (received : string -> option (list (string * value))) (st : store) (s : stmt_node) : outcome store :=
    match s with
    | NReset i =>
      match st (reads i) with
      | Some (VSeq _) => Val (upd st (reads i) (VSeq []))
      | Some (VMsg t _) => Val (upd st (reads i) (VMsg t []))
      | _ => Stuck
      end
    | NAssignment i e =>
      do x <- sense w lit st e ;; match st (reads i) with Some _ => Val (upd st (reads i) x) | None => Stuck end
    | NListAttribute i a e =>
      match st (reads i) with
      | Some (VSeq vs) =>
        let store_ us := if w_full w (vs ++ us) then Raise else Val (upd st (reads i) (VSeq (vs ++ us))) in
        if String.eqb a "Append" then do x <- sense w lit st e ;; store_ [x]
        else if String.eqb a "Extend" then do x <- sense w lit st e ;; do us <- to_seq x ;; store_ us
        else Stuck
      | Some (VChannel r wr) =>
        if String.eqb a "Read" && r then
          do x <- sense w lit st e ;;
          match x with
          | VMsg t _ =>
            match received t, bare e with
            | Some fs, NVariable j => Val (upd st (reads j) (VMsg t fs))
            | _, _ => Val st
            end
          | _ => Stuck
          end
        else if String.eqb a "Write" && wr then do x <- sense w lit st e ;; match x with VMsg _ _ => Val st | _ => Stuck end
        else Stuck
      | _ => Stuck
      end
    end.
  Definition target (s : stmt_node) : id_node := match s with NReset i | NAssignment i _ | NListAttribute i _ _ => i end.
  (** the statement [a] is what [s] says *)
  Definition statement_of (s : stmt_node) (a : stmt) : Prop :=
    stmt_id a = reads (target s) /\ forall received st, exec w received st a = act received st s.

  (** the effect of a declaration *)
  Definition declares (package : string) (start : string -> value) (st : store) (d : decl_node) : outcome store :=
    match d with
    | NVariableDecl i t None => Val (upd st (reads i) (start (type_name t)))
    | NVariableDecl i _ (Some e) => do x <- sense w lit st e ;; Val (upd st (reads i) x)
    | NRenamingDecl i t e =>
      match bare e with
      | NSelect p f =>
        do x <- sense w lit st p ;;
        match x with
        | VMsg m fs =>
          if existsb (String.eqb (written f)) (w_fields w m) then
            match assoc (written f) fs with
            | None => Raise
            | Some b =>
              do bs <- to_seq b ;;
              let sdu := w_message w (qualified package (type_name t)) in
              match w_parse w sdu bs with Some fs' => Val (upd st (reads i) (VMsg sdu fs')) | None => Raise end
            end
          else Stuck
        | _ => Stuck
        end
      | _ => Stuck
      end
    end.
  Definition declared (d : decl_node) : id_node := match d with NVariableDecl i _ _ | NRenamingDecl i _ _ => i end.
  Definition declaration_of (n : decl_node) (d : sdecl) : Prop :=
    d_id d = reads (declared n) /\ forall package start st, enter w package start st d = declares package start st n.

  Definition formal_of (n : formal_node) (d : sdecl) : Prop :=
    match n, d with
    | NChannelDecl i ps, DChannel x r wr => x = reads i /\ (r = true <-> In Readable ps) /\ (wr = true <-> In Writable ps)
    | NFunctionDecl i ps t, DFunction x args r => x = reads i /\ args = map (fun p => reads (snd p)) ps /\ r = reads t
    | NPrivateTypeDecl i, DType x p => x = reads i /\ p = written i
    | _, _ => False
    end.

  Definition transition_of (t : transition_node) (p : string * sx) : Prop :=
    fst p = reads (t_target t)
    /\ forall st, eval w st (snd p) = match t_condition t with Some b => sense w lit st b | None => Val (VBool true) end.

  (** the transitions of a state are its conditional ones and then the final one; a state
      without a body has nothing *)
  Definition state_of (s : state_node) (q : sstate) : Prop :=
    st_id q = reads (n_id s)
    /\ match n_body s with
       | None => st_transitions q = [] /\ st_exception q = None /\ st_actions q = [] /\ st_declarations q = []
       | Some b =>
         written (b_end b) = written (n_id s)
         /\ Forall2 transition_of (b_conditional b ++ [b_final b]) (st_transitions q)
         /\ st_exception q = option_map (fun t => reads (t_target t)) (b_exception b)
         /\ Forall2 statement_of (b_actions b) (st_actions q)
         /\ Forall2 declaration_of (b_declarations b) (st_declarations q)
       end.
End Sessions.

Definition proper_statement (s : stmt_node) : Prop :=
  match s with NReset _ => True | NAssignment _ e | NListAttribute _ _ e => proper e end.
Definition proper_declaration (d : decl_node) : Prop :=
  match d with NVariableDecl _ _ None => True | NVariableDecl _ _ (Some e) | NRenamingDecl _ _ e => proper e end.
Definition proper_transition (t : transition_node) : Prop := match t_condition t with Some b => proper b | None => True end.
Definition proper_state (s : state_node) : Prop :=
  match n_body s with
  | None => True
  | Some b => Forall proper_transition (b_conditional b ++ [b_final b]) /\ Forall proper_statement (b_actions b)
              /\ Forall proper_declaration (b_declarations b)
  end.

Lemma Forall2_impl_in {A B} (P : A -> Prop) (R S : A -> B -> Prop) l m :
  Forall P l -> (forall a b, P a -> R a b -> S a b) -> Forall2 R l m -> Forall2 S l m.
Proof.
  intros F I X. induction X as [|a b l m X _ IH]; constructor; inversion F; subst; auto.
Qed.

Section SessionsCreated.
  Context (w : world) (lit : string -> Z) (LIT : forall s z, Literal s z -> lit s = z).

  Lemma created_statement s a : proper_statement s -> create_statement s = Ok a -> statement_of w lit s a.
  Proof.
    intros P E. destruct s as [i|i e|i at_ e]; cbn [create_statement] in E; unfold statement_of; cbn [target].
    - apply bind_ok in E as (x & X & E). apply Ok_inj in E. subst a. cbn [stmt_id exec act]. rewrite (create_id_reads _ _ X). now split.
    - apply bind_ok in E as (x & X & E). apply bind_ok in E as (y & Y & E). apply Ok_inj in E. subst a. cbn [stmt_id exec act].
      rewrite (create_id_reads _ _ X). split; [reflexivity|]. intros. now rewrite (C61_meaning w lit LIT _ _ _ P Y).
    - assert (K : exists f x y, create_id i = Ok x /\ create General e = Ok y /\ a = f (low x) y
                  /\ ((at_ = "Append" /\ f = Append) \/ (at_ = "Extend" /\ f = Extend) \/ (at_ = "Read" /\ f = Read) \/ (at_ = "Write" /\ f = Write))).
      { destruct (String.eqb at_ "Append") eqn:Q1;
          [|destruct (String.eqb at_ "Extend") eqn:Q2; [|destruct (String.eqb at_ "Read") eqn:Q3; [|destruct (String.eqb at_ "Write") eqn:Q4; [|discriminate]]]];
          apply bind_ok in E as (x & X & E); apply bind_ok in E as (y & Y & E); apply Ok_inj in E; subst a;
          do 3 eexists; (split; [eassumption|]); (split; [eassumption|]); (split; [reflexivity|]).
        - left. split; [now apply String.eqb_eq|reflexivity].
        - right. left. split; [now apply String.eqb_eq|reflexivity].
        - right. right. left. split; [now apply String.eqb_eq|reflexivity].
        - right. right. right. split; [now apply String.eqb_eq|reflexivity]. }
      destruct K as (f & x & y & X & Y & -> & C).
      pose proof (C61_meaning w lit LIT _ _ _ P Y) as V. rewrite (create_id_reads _ _ X).
      destruct C as [(-> & ->)|[(-> & ->)|[(-> & ->)|(-> & ->)]]]; (split; [reflexivity|]); intros received st; cbn [exec act String.eqb Ascii.eqb Bool.eqb andb].
      + destruct (st (reads i)) as [[]|]; try reflexivity. now rewrite V.
      + destruct (st (reads i)) as [[]|]; try reflexivity. now rewrite V.
      + destruct (st (reads i)) as [[]|]; try reflexivity. destruct readable; [|reflexivity]. rewrite V.
        apply after_same. intros [| | |t fs| |]; try reflexivity. destruct (received t) as [gs|]; [|reflexivity].
        destruct (bare e) eqn:B; try (rewrite create_bare, B in Y; destruct y; try reflexivity;
          rewrite <- B, <- create_bare in Y; apply create_var in Y as (j & B' & _); rewrite B in B'; discriminate).
        rewrite create_bare, B in Y. cbn [create] in Y. apply bind_ok in Y as (z & Z & Y). apply Ok_inj in Y. subst y.
        now rewrite (create_id_reads _ _ Z).
      + destruct (st (reads i)) as [[]|]; try reflexivity. destruct writable; [|reflexivity]. now rewrite V.
  Qed.

  Lemma type_name_created t x : create_id t = Ok x -> qualified_alone (low x) = type_name t.
  Proof.
    intros X. unfold qualified_alone, type_name. rewrite (create_id_reads _ _ X). cbn [existsb]. now rewrite !orb_false_r.
  Qed.
  Lemma created_declaration d x : proper_declaration d -> create_declaration d = Ok x -> declaration_of w lit d x.
  Proof.
    intros P E. destruct d as [i t [e|]|i t e]; cbn [create_declaration] in E; unfold declaration_of; cbn [declared].
    - apply bind_ok in E as (o & O & E). apply bind_ok in O as (y & Y & O). apply Ok_inj in O. subst o.
      apply bind_ok in E as (a & A & E). apply bind_ok in E as (b & B & E). apply Ok_inj in E. subst x. cbn [d_id enter declares].
      rewrite (create_id_reads _ _ A). split; [reflexivity|]. intros. now rewrite (C61_meaning w lit LIT _ _ _ P Y).
    - apply bind_ok in E as (o & O & E). apply Ok_inj in O. subst o.
      apply bind_ok in E as (a & A & E). apply bind_ok in E as (b & B & E). apply Ok_inj in E. subst x. cbn [d_id enter declares].
      rewrite (create_id_reads _ _ A), (type_name_created _ _ B). now split.
    - apply bind_ok in E as (s & S & E). destruct s; try discriminate.
      apply bind_ok in E as (a & A & E). apply bind_ok in E as (b & B & E). apply Ok_inj in E. subst x. cbn [d_id enter declares].
      rewrite (create_id_reads _ _ A), (type_name_created _ _ B). split; [reflexivity|]. intros.
      apply create_sel in S as (q & g & Q & S & ->). rewrite Q.
      now rewrite (proj2 (created_means w lit LIT e P) _ _ _ Q S).
  Qed.
  Lemma created_transition t p : proper_transition t -> create_transition t = Ok p -> transition_of w lit t p.
  Proof.
    intros P E. unfold create_transition in E. apply bind_ok in E as (x & X & E). apply bind_ok in E as (c & C & E).
    apply Ok_inj in E. subst p. split; [now apply create_id_reads|]. intros st. cbn [snd]. unfold proper_transition in P.
    destruct (t_condition t) as [b|]; [now apply (C61_meaning w lit LIT _ _ _ P C)|]. apply Ok_inj in C. now subst c.
  Qed.
  Lemma created_state s q : proper_state s -> create_state s = Ok q -> state_of w lit s q.
  Proof.
    intros P E. unfold create_state in E. apply bind_ok in E as (i & I & E). unfold state_of. unfold proper_state in P.
    destruct (n_body s) as [b|].
    - destruct (String.eqb _ _) eqn:T; [|discriminate]. apply String.eqb_eq in T.
      apply bind_ok in E as (ts & TS & E). apply bind_ok in E as (f & F & E). apply bind_ok in E as (x & X & E).
      apply bind_ok in E as (acts & AC & E). apply bind_ok in E as (ds & DS & E). apply Ok_inj in E. subst q.
      cbn [st_id st_transitions st_exception st_actions st_declarations]. destruct P as (P1 & P2 & P3).
      split; [now apply create_id_reads|]. split; [symmetry; exact T|].
      split; [|split; [|split]].
      + assert (G : Forall2 (fun a c => create_transition a = Ok c) (b_conditional b ++ [b_final b]) (ts ++ [f])).
        { apply Forall2_app; [now apply each_ok_inv|constructor; [exact F|constructor]]. }
        revert G. apply Forall2_impl_in with (P := proper_transition); [exact P1|]. intros; now apply created_transition.
      + destruct (b_exception b) as [t|]; [|apply Ok_inj in X; now subst x].
        apply bind_ok in X as (e & Y & X). apply Ok_inj in X. subst x. unfold create_transition in Y.
        apply bind_ok in Y as (y & Z & Y). apply bind_ok in Y as (c & _ & Y). apply Ok_inj in Y. subst e. cbn.
        now rewrite (create_id_reads _ _ Z).
      + apply each_ok_inv in AC. revert AC. apply Forall2_impl_in with (P := proper_statement); [exact P2|].
        intros; now apply created_statement.
      + apply each_ok_inv in DS. revert DS. apply Forall2_impl_in with (P := proper_declaration); [exact P3|].
        intros; now apply created_declaration.
    - apply Ok_inj in E. subst q. cbn. split; [now apply create_id_reads|]. now repeat split.
  Qed.
  Lemma created_formal n d : create_formal_declaration n = Ok d -> formal_of n d.
  Proof.
    intros E. destruct n as [i ps|i ps r|i]; cbn [create_formal_declaration] in E.
    - apply bind_ok in E as (x & X & E). apply Ok_inj in E. subst d. cbn [formal_of].
      split; [now apply create_id_reads|]. split.
      + rewrite existsb_exists. split; [intros ([] & I & Q); (exact I || discriminate)|intros I; exists Readable; auto].
      + rewrite existsb_exists. split; [intros ([] & I & Q); (exact I || discriminate)|intros I; exists Writable; auto].
    - apply bind_ok in E as (args & A & E). apply bind_ok in E as (x & X & E). apply bind_ok in E as (y & Y & E).
      apply Ok_inj in E. subst d. cbn [formal_of]. split; [now apply create_id_reads|]. split; [|now apply create_id_reads].
      apply each_ok_inv in A. clear X Y. induction A as [|[a t] b l bs E _ IH]; [reflexivity|]. cbn [map snd]. rewrite <- IH.
      apply bind_ok in E as (p & _ & E). apply bind_ok in E as (q & Q & E). apply Ok_inj in E. subst b. f_equal. now apply create_id_reads.
    - apply bind_ok in E as (x & X & E). apply Ok_inj in E. subst d. cbn. split; [now apply create_id_reads|now apply create_id_written].
  Qed.
End SessionsCreated.

(** C61: a session that is created has the states, transitions, actions, declarations and
    parameters of the specification, in this order and with their meaning *)
Theorem C61_session : forall w lit, (forall s z, Literal s z -> lit s = z) ->
  forall n package types i s,
  Forall proper_state (s_states n) -> Forall proper_declaration (s_declarations n) ->
  create_session n package types = Ok (i, s) ->
  id_str i = (id_str package ++ "::" ++ written (s_id n))%string
  /\ written (s_end n) = written (s_id n)
  /\ se_package s = lower (id_str package) /\ se_initial s = reads (s_initial n) /\ se_final s = reads (s_final n)
  /\ se_types s = types
  /\ Forall2 (state_of w lit) (s_states n) (se_states s)
  /\ Forall2 (declaration_of w lit) (s_declarations n) (se_declarations s)
  /\ Forall2 formal_of (s_parameters n) (se_parameters s).
Proof.
  intros w lit LIT m package types i s PS PD E. unfold create_session in E.
  destruct (String.eqb _ _) eqn:T; [|discriminate]. apply String.eqb_eq in T.
  apply bind_ok in E as (x & X & E). apply bind_ok in E as (full & F & E). apply bind_ok in E as (ini & I & E).
  apply bind_ok in E as (fin & FI & E). apply bind_ok in E as (qs & Q & E). apply bind_ok in E as (ds & D & E).
  apply bind_ok in E as (ps & P & E). apply Ok_inj in E. injection E as <- <-.
  cbn [se_package se_initial se_final se_types se_states se_declarations se_parameters].
  destruct (create_id_written _ _ X) as (WX & GX).
  split; [|split; [symmetry; exact T|]].
  { unfold id_mul in F. destruct (String.eqb (id_str x) "") eqn:N.
    - apply String.eqb_eq in N. exfalso. revert N. now apply P_IdentErrors.concat_nonempty.
    - apply P_IdentErrors.C35_text_accepted_is_good in F as (_ & F). now rewrite F, WX. }
  split; [reflexivity|]. split; [now apply create_id_reads|]. split; [now apply create_id_reads|]. split; [reflexivity|].
  split; [|split].
  - apply each_ok_inv in Q. revert Q. apply Forall2_impl_in with (P := proper_state); [exact PS|]. intros; now apply created_state.
  - apply each_ok_inv in D. revert D. apply Forall2_impl_in with (P := proper_declaration); [exact PD|]. intros; now apply created_declaration.
  - apply each_ok_inv in P. clear - P. induction P as [|a b l l2 E _ IH]; constructor; [now apply created_formal|exact IH].
Qed.
Print Assumptions C61_session.

(** C61: a session or state whose identifiers at the start and the end differ is reported *)
Theorem C61_end :
  (forall n package types, written (s_id n) <> written (s_end n) ->
     create_session n package types = Err "inconsistent session identifier")
  /\ (forall s b x, n_body s = Some b -> create_id (n_id s) = Ok x -> written (n_id s) <> written (b_end b) ->
     create_state s = Err "inconsistent state identifier").
Proof.
  split.
  - intros m package types N. unfold create_session. apply String.eqb_neq in N.
    change (String.eqb (id_text (s_id m)) (id_text (s_end m)) = false) in N. now rewrite N.
  - intros s b x B X N. unfold create_state. rewrite X. cbn [bind]. rewrite B.
    apply String.eqb_neq in N. change (String.eqb (id_text (n_id s)) (id_text (b_end b)) = false) in N. now rewrite N.
Qed.
Print Assumptions C61_end.

(** a session with two states *)
Definition session0 : session_node :=
  mkSessionNode (u "S") (u "S") (u "Start") (u "Done")
    [mkStateNode (u "Start")
       (Some (mkBody (u "Start") [mkTransitionNode (u "Start") (Some (NBinOp OpGt (NVariable (v "X")) (n "1")))]
                     (mkTransitionNode (u "Done") None) (Some (mkTransitionNode (u "Done") None))
                     [NAssignment (u "X") (NBinOp OpAdd (NVariable (v "x")) (n "1"));
                      NListAttribute (u "C") "Write" (NVariable (v "Msg"))]
                     [NVariableDecl (u "X") (v "T") (Some (n "0"))]));
     mkStateNode (u "Done") None]
    [NVariableDecl (u "Msg") (Qualified (Some "P") "M") None]
    [NChannelDecl (u "C") [Writable]; NFunctionDecl (u "F") [(u "A", v "Boolean")] (v "T"); NPrivateTypeDecl (u "Priv")].
Example C61_session_case :
  Forall proper_state (s_states session0) /\ Forall proper_declaration (s_declarations session0)
  /\ create_session session0 ["P"] []
     = Ok (["P"; "S"],
           mkSession "p" "start" "done" []
             [DChannel "c" false true; DFunction "f" ["boolean"] "t"; DType "priv" "Priv"]
             [DVar "msg" "p::m" None]
             [mkState "start" [("start", SRel OGt (SVar "x") (SNum 1)); ("done", SBool true)] (Some "done")
                [Assignment "x" (SAss OAdd [SVar "x"; SNum 1]); Write "c" (SVar "msg")]
                [DVar "x" "t" (Some (SNum 0))];
              mkState "done" [] None [] []]).
Proof.
  split; [|split; [|vm_compute; reflexivity]].
  - repeat constructor; cbn; repeat split; try exact I; eapply one_digit; (reflexivity || lia).
  - repeat constructor.
Qed.

(** ** What is not as one would expect *)

(** two variables of a binding or two components of a message aggregate with the same name:
    the first is dropped without an error *)
Theorem C61_duplicate_refuted :
  (exists e bs data, ~ NoDup (map (fun p => reads (fst p)) bs)
     /\ create General (NBinding e bs) = Ok (SBind (SVar "a") data) /\ data = [("a", SNum 2)] /\ List.length bs = 2%nat)
  /\ (exists i fs, ~ NoDup (map (fun p => reads (fst p)) fs) /\ List.length fs = 2%nat
     /\ create General (NMessage i fs) = Ok (SMsg "m" [("Tag", SNum 2)])).
Proof.
  split.
  - exists (NVariable (v "A")), [(u "A", n "1"); (u "a", n "2")], [("a", SNum 2)].
    split; [intros N; inversion N as [|? ? I _]; subst; apply I; now left|]. repeat split; vm_compute; reflexivity.
  - exists (v "M"), [(u "Tag", n "1"); (u "TAG", n "2")].
    split; [intros N; inversion N as [|? ? I _]; subst; apply I; now left|]. repeat split; vm_compute; reflexivity.
Qed.
Print Assumptions C61_duplicate_refuted.

(** expressions with a meaning for which Python fails with an assertion, NotImplementedError
    or KeyError: the negation of a variable, the concatenation of variables, a calculation
    with the head of a list, an array of messages *)
Theorem C61_accepted_refuted :
  (exists t x, proper t /\ sense world0 lit0 store0 t = Val x /\ create General t = Err "AssertionError" /\ t = NNegation (NSelect (NVariable (v "Msg")) (u "Tag")))
  /\ (exists t x, proper t /\ sense world0 lit0 store0 t = Val x /\ create General t = Err "AssertionError"
      /\ t = NConcatenation (NVariable (v "List")) (NVariable (v "List")))
  /\ (exists t x, proper t /\ sense world0 lit0 store0 t = Val x /\ create General t = Err "NotImplementedError"
      /\ t = NBinOp OpAdd (NAttribute (NVariable (v "List")) AttrHead) (n "1"))
  /\ (exists t x, proper t /\ sense world0 lit0 store0 t = Val x /\ create General t = Err "KeyError"
      /\ t = NArray [NMessage (v "M") []]).
Proof.
  split; [|split; [|split]].
  - eexists _, (VInt (-3)). split; [|split; [|split; [|reflexivity]]]; [exact I|vm_compute; reflexivity..].
  - eexists _, (VSeq [VInt 1; VInt 5; VInt 9; VInt 1; VInt 5; VInt 9]).
    split; [|split; [|split; [|reflexivity]]]; [repeat split|vm_compute; reflexivity..].
  - eexists _, (VInt 2). split; [|split; [|split; [|reflexivity]]]; [|vm_compute; reflexivity..].
    split; [exact I|]. apply (one_digit "1"%char 1); [reflexivity|lia].
  - eexists _, (VSeq [VMsg "m" []]). split; [|split; [|split; [|reflexivity]]]; [|vm_compute; reflexivity..].
    repeat split. apply NoDup_nil.
Qed.
Print Assumptions C61_accepted_refuted.

(** a literal that is not well-formed (B is no binary digit) is accepted, as Python reads 0B
    as a prefix; and a literal in base 3 is accepted although its text, and thereby its
    comparison, raises NotImplementedError *)
Theorem C61_literal_refuted :
  (exists s z b, create_numeric_literal s = Ok (z, b) /\ forall y, ~ Literal s y)
  /\ (exists s z b, Literal s z /\ create_numeric_literal s = Ok (z, b) /\ number_text z b = Err "NotImplementedError").
Proof.
  split.
  - exists "2#0B1#", 1, 2. split; [vm_compute; reflexivity|]. intros y L.
    assert (X : split_on "#" "2#0B1#" = ["2"; "0B1"; ""]) by reflexivity.
    remember "2#0B1#" as s eqn:S. destruct L as [s y N|t b d y T B N].
    + rewrite (split_on_none "#" s) in X by now apply (numeral_no_sign 10 s y). subst s. discriminate.
    + clear S. cbn [append] in X. rewrite split_on_cut in X by now apply (numeral_no_sign 10 t b).
      rewrite split_on_cut in X by now apply (numeral_no_sign b d y). cbn [split_on] in X. injection X as -> ->.
      assert (E : b = 2).
      { pose proof (numeral_py_int 10 "2" b ltac:(lia) T) as E. vm_compute in E. apply Ok_inj in E. congruence. }
      subst b. destruct (numeral_chars 2 _ y N "B"%char) as [Q|(k & Q & K)]; [cbn; tauto|discriminate|].
      vm_compute in Q. injection Q as <-. cbn in K. lia.
  - exists "3#12#", 5, 3. split; [|split; vm_compute; reflexivity].
    change "3#12#" with ("3" ++ "#" ++ "12" ++ "#")%string. apply (L_based _ 3); [apply (N_one 10 "3"%char 3); [reflexivity|lia]|lia|].
    change "12" with ("1" ++ "2")%string. apply (N_more 3 "1" 1 "2"%char 2); [apply (N_one 3 "1"%char 1); [reflexivity|lia]|reflexivity|lia].
Qed.
Print Assumptions C61_literal_refuted.
