(** Proofs for C59: simplification keeps values and scopes. *)
From Coq Require Import String List ZArith Bool Lia.
From Verif Require Import Base Expr SessionType SessionEval BindExpr BindSpec BindFacts.
Import ListNotations.
Local Open Scope string_scope.
Local Open Scope list_scope.
Local Open Scope Z_scope.

(** ** results *)
Lemma bind_ok_inv {A B} (r : res A) (k : A -> res B) b : (match r with Ok a => k a | Err s => Err s end) = Ok b -> exists a, r = Ok a /\ k a = Ok b.
Proof. destruct r; [eauto|discriminate]. Qed.
Lemma Ok_inj {A} (a b : A) : Ok a = Ok b -> a = b.
Proof. congruence. Qed.
Ltac step H := apply bind_ok_inv in H; let a := fresh "a" in let E := fresh "E" in destruct H as (a & E & H).
Lemma map_res_ok f l l' : map_res f l = Ok l' <-> Forall2 (fun a b => f a = Ok b) l l'.
Proof.
  revert l'. induction l as [|a l IH]; intros l'; cbn [map_res].
  - split; intros H; [apply Ok_inj in H as <-; constructor|inversion H; reflexivity].
  - split; intros H.
    + step H. step H. apply Ok_inj in H as <-. constructor; [assumption|]. now apply IH.
    + inversion H as [|? b ? r E F]; subst. cbn. rewrite E. cbn. apply IH in F. cbn in F. rewrite F. reflexivity.
Qed.
Lemma map_values_ok f l l' : map_values f l = Ok l' <-> Forall2 (fun a b => fst a = fst b /\ f (snd a) = Ok (snd b)) l l'.
Proof.
  revert l'. induction l as [|[k v] l IH]; intros l'; cbn [map_values].
  - split; intros H; [apply Ok_inj in H as <-; constructor|inversion H; reflexivity].
  - split; intros H.
    + step H. step H. apply Ok_inj in H as <-. constructor; [split; [reflexivity|assumption]|]. now apply IH.
    + inversion H as [|? [k' v'] ? r [E1 E2] F]; subst. cbn in *. subst k'. rewrite E2. cbn. apply IH in F. cbn in F. rewrite F. reflexivity.
Qed.

(** ** values of associative expressions *)
Definition inj (o : assop) (z : Z) : value := if boolean_op o then VBool (negb (z =? 0)) else VInt z.
Definition dom (o : assop) (z : Z) : Prop := boolean_op o = true -> z = 0 \/ z = 1.
Definition tot (o : assop) (zs : list Z) : Z := fold_right (operation o) (neutral o) zs.
Definition sem (w : world) (o : assop) (st : store) (l : list bx) (zs : list Z) : Prop :=
  Forall2 (fun t z => dom o z /\ ev w st t = Val (inj o z)) l zs.

Lemma VBool_inj a b : VBool a = VBool b -> a = b.
Proof. destruct a, b; [auto|intros H; discriminate H|intros H; discriminate H|auto]. Qed.
Lemma inj_inj o a b : dom o a -> dom o b -> inj o a = inj o b -> a = b.
Proof.
  unfold inj, dom. destruct (boolean_op o); [|congruence]. intros Ha Hb H. apply VBool_inj in H.
  destruct (Ha eq_refl) as [-> | ->], (Hb eq_refl) as [-> | ->]; auto; discriminate.
Qed.
Lemma to_bool_inv v b : to_bool v = Val b -> v = VBool b.
Proof.
  destruct v; cbn [to_bool]; try discriminate. destruct (String.eqb t boolean) eqn:T; [|discriminate]. apply String.eqb_eq in T as ->.
  destruct (String.eqb l "True") eqn:A; [apply String.eqb_eq in A as ->; now intros [= <-]|].
  destruct (String.eqb l "False") eqn:B; [apply String.eqb_eq in B as ->; now intros [= <-]|discriminate].
Qed.
Lemma to_bool_VBool b : to_bool (VBool b) = Val b.
Proof. now destruct b. Qed.
Lemma to_int_inv v z : to_int v = Val z -> v = VInt z.
Proof. destruct v; cbn; try discriminate. congruence. Qed.
Lemma op_dom o a b : dom o a -> dom o b -> dom o (operation o a b).
Proof.
  unfold dom. intros Ha Hb Ho. specialize (Ha Ho). specialize (Hb Ho). destruct o; try discriminate Ho; cbn; destruct Ha as [-> | ->], Hb as [-> | ->]; auto.
Qed.
Lemma neutral_dom o : dom o (neutral o).
Proof. destruct o; intros H; try discriminate H; cbn; auto. Qed.
Lemma op_comm o a b : dom o a -> dom o b -> operation o a b = operation o b a.
Proof.
  unfold dom. destruct o; cbn [operation boolean_op]; try lia; intros Ha Hb; specialize (Ha eq_refl); specialize (Hb eq_refl); destruct Ha as [-> | ->], Hb as [-> | ->]; reflexivity.
Qed.
Lemma op_assoc o a b c : operation o a (operation o b c) = operation o (operation o a b) c.
Proof.
  destruct o; cbn [operation]; try lia; destruct (Z.eqb_spec a 0) as [->|]; try reflexivity; destruct (Z.eqb_spec b 0) as [->|]; try reflexivity;
    repeat match goal with |- context [?x =? 0] => destruct (Z.eqb_spec x 0); try lia; try congruence end.
Qed.
Lemma op_neutral_l o a : operation o (neutral o) a = a.
Proof. destruct o; cbn [operation neutral]; try reflexivity; lia. Qed.
Lemma op_neutral_r o a : dom o a -> operation o a (neutral o) = a.
Proof. intros H. rewrite (op_comm o _ _ H (neutral_dom o)). apply op_neutral_l. Qed.
Lemma sem_dom w o st l zs : sem w o st l zs -> Forall (dom o) zs.
Proof. induction 1 as [|t z l zs [D _] _ IH]; constructor; assumption. Qed.
Lemma tot_dom o zs : Forall (dom o) zs -> dom o (tot o zs).
Proof. induction 1; cbn [tot fold_right]; [apply neutral_dom|now apply op_dom]. Qed.
Lemma tot_app o a b : Forall (dom o) a -> tot o (a ++ b) = operation o (tot o a) (tot o b).
Proof.
  induction 1 as [|z zs D _ IH]; cbn [app tot fold_right].
  - symmetry. apply op_neutral_l.
  - fold (tot o (zs ++ b)) (tot o zs). rewrite IH. apply op_assoc.
Qed.
Lemma bools_tot_and bs : negb (fold_right (fun l r => if l =? 0 then l else r) 1 (map (fun b : bool => if b then 1 else 0) bs) =? 0) = forallb id bs.
Proof. induction bs as [|[|] bs IH]; cbn; auto. Qed.
Lemma bools_tot_or bs : negb (fold_right (fun l r => if l =? 0 then r else l) 0 (map (fun b : bool => if b then 1 else 0) bs) =? 0) = existsb id bs.
Proof. induction bs as [|[|] bs IH]; cbn; auto. Qed.
Lemma ass_val w st o ts v : ev w st (BAss o ts) = Val v <-> exists zs, sem w o st ts zs /\ v = inj o (tot o zs).
Proof.
  rewrite ev_ass. split.
  - intros H. apply after_val in H as (vs & E & H). apply each_val in E.
    destruct (boolean_op o) eqn:O.
    + assert (B : exists bs, each to_bool vs = Val bs /\ v = inj o (tot o (map (fun b : bool => if b then 1 else 0) bs))).
      { destruct o; try discriminate O; cbn [assv] in H; apply after_val in H as (bs & E' & H); exists bs; split; auto; apply Val_inj in H as <-;
          unfold inj, tot; cbn [boolean_op operation neutral]; [rewrite bools_tot_and|rewrite bools_tot_and|rewrite bools_tot_or|rewrite bools_tot_or]; reflexivity. }
      destruct B as (bs & E' & ->). exists (map (fun b : bool => if b then 1 else 0) bs). split; [|reflexivity].
      apply each_val in E'. clear H. revert bs E'. unfold sem. induction E as [|t u ts vs E _ IH]; intros bs E'; inversion E' as [|? b ? bs' Eb Fb]; subst; constructor; [|now apply IH].
      apply to_bool_inv in Eb as ->. rewrite E. split; [intros _; destruct b; auto|]. unfold inj. rewrite O. now destruct b.
    + assert (B : exists zs, each to_int vs = Val zs /\ v = inj o (tot o zs)).
      { destruct o; try discriminate O; cbn [assv] in H; apply after_val in H as (zs & E' & H); exists zs; split; auto; apply Val_inj in H as <-; reflexivity. }
      destruct B as (zs & E' & ->). exists zs. split; [|reflexivity].
      apply each_val in E'. clear H. revert zs E'. unfold sem. induction E as [|t u ts vs E _ IH]; intros bs E'; inversion E' as [|? b ? bs' Eb Fb]; subst; constructor; [|now apply IH].
      apply to_int_inv in Eb as ->. rewrite E. split; [intros X; congruence|]. unfold inj. now rewrite O.
  - intros (zs & S & ->).
    assert (E : each (ev w st) ts = Val (map (inj o) zs)).
    { apply each_val. induction S as [|t z ts zs [_ E] _ IH]; cbn [map]; constructor; auto. }
    rewrite E. cbn [after]. pose proof (sem_dom _ _ _ _ _ S) as D. clear S E.
    destruct (boolean_op o) eqn:O.
    + assert (F : each to_bool (map (inj o) zs) = Val (map (fun z => negb (z =? 0)) zs)).
      { apply each_val. clear D. induction zs as [|z zs IH]; cbn [map]; constructor; auto. unfold inj. rewrite O. apply to_bool_VBool. }
      assert (G : map (fun b : bool => if b then 1 else 0) (map (fun z => negb (z =? 0)) zs) = zs).
      { clear F. induction D as [|z zs D _ IH]; cbn [map]; [reflexivity|]. rewrite IH. f_equal. destruct (D O) as [-> | ->]; reflexivity. }
      rewrite <- G at 2. destruct o; try discriminate O; cbn [assv]; rewrite F; cbn [after]; unfold inj, tot; cbn [boolean_op operation neutral];
        [rewrite bools_tot_and|rewrite bools_tot_and|rewrite bools_tot_or|rewrite bools_tot_or]; reflexivity.
    + assert (F : each to_int (map (inj o) zs) = Val zs).
      { apply each_val. clear D. induction zs as [|z zs IH]; cbn [map]; constructor; auto. unfold inj. now rewrite O. }
      destruct o; try discriminate O; cbn [assv]; rewrite F; reflexivity.
Qed.

(** ** results of simplification *)
(** no difference is left where unary minus may get to see it *)
Fixpoint hn (e : bx) : bool :=
  match e with
  | BBin OSub _ _ => false
  | BAss OAdd ts => forallb hn ts
  | BNot x => hn x
  | _ => true
  end.
Lemma bindings_list g ts : fold_right (fun t P => bindings g t /\ P) True ts <-> Forall (bindings g) ts.
Proof. induction ts as [|t ts IH]; cbn; split; intros H; auto; [constructor; tauto|inversion H; tauto]. Qed.
Lemma bindings_fields g (fs : list (string * bx)) : fold_right (fun f P => bindings g (snd f) /\ P) True fs <-> Forall (fun p => bindings g (snd p)) fs.
Proof. induction fs as [|t ts IH]; cbn; split; intros H; auto; [constructor; tauto|inversion H; tauto]. Qed.
Lemma bindless_bindings g e : bindless e = true -> bindings g e.
Proof.
  unfold bindless. induction e using bx_ind'; cbn [every bindings]; auto; try discriminate; rewrite andb_true_l;
    rewrite ?andb_true_iff; intros E.
  all: rewrite ?bindings_list, ?bindings_fields; try rewrite forallb_Forall in E; rewrite ?Forall_forall in *; intuition auto.
Qed.

Section Sound.
Variables (w : world) (sums strict : bool).
Variable eqb : bx -> bx -> bool.
(** expressions which are equal have the same value *)
Hypothesis eqb_sound : forall a b st, eqb a b = true -> ev w st a = ev w st b.
Notation ev := (ev w).
Notation sem := (sem w).

(** what is kept: scopes, and the absence of bindings and of calls *)
Inductive kind := Scope (A : scope) | Each (b : bool) (F : string -> bool).
Definition plain_in (b : bool) (F : string -> bool) (e : bx) : bool :=
  match e with BCall f _ _ => F f | BBind _ _ => b | _ => true end.
Definition sat (c : kind) (e : bx) : bool := match c with Scope A => within strict A e | Each b F => every (plain_in b F) e end.
Definition good (e : bx) : Prop := linear sums e = true /\ bindings strict e.
Record red (e e' : bx) : Prop := mkRed {
  r_good : good e';
  r_hn : hn e' = true;
  r_sat : forall c, sat c e = true -> sat c e' = true;
  r_val : forall st v, ev st e = Val v -> ev st e' = Val v
}.

Lemma sat_ass c o ts : sat c (BAss o ts) = forallb (sat c) ts.
Proof. destruct c; reflexivity. Qed.
Lemma good_ass o ts : good (BAss o ts) <-> (o = OAdd -> sums = true) /\ Forall good ts.
Proof.
  unfold good. cbn [bindings]. rewrite bindings_list. unfold linear at 1. cbn [every]. fold (linear sums). rewrite andb_true_iff, forallb_Forall.
  rewrite !Forall_forall. split.
  - intros [[H1 H2] H3]. split; [intros ->; exact H1|]. intros t I. split; auto.
  - intros [H1 H2]. repeat split; try (intros t I; now apply H2). destruct o; auto.
Qed.

Section WithSimp.
Variable simp : bx -> res bx.
Hypothesis HS : forall e e', simp e = Ok e' -> good e -> red e e'.

Lemma sgn_neg s o z : sgn s o = Val (VInt z) -> sgn (negb s) o = Val (VInt (- z)).
Proof.
  destruct s; cbn [sgn negb].
  - intros H. apply after_val in H as (v & E & H). apply after_val in H as (y & E' & H). apply to_int_inv in E' as ->. rewrite E.
    apply Val_inj in H. injection H as <-. do 2 f_equal. lia.
  - intros ->. reflexivity.
Qed.
Lemma not_int b z : VBool b <> VInt z.
Proof. discriminate. Qed.
Lemma neg_ok : forall e e', neg simp e = Ok e' -> sums = true -> good e -> hn e = true ->
  good e' /\ hn e' = true /\ (forall c, sat c e = true -> sat c e' = true) /\
  (forall st z, ev st e = Val (VInt z) -> ev st e' = Val (VInt (- z))).
Proof.
  induction e using bx_ind'; intros e' N M G Hh; cbn [neg] in N; try discriminate N.
  - apply Ok_inj in N as <-. split; [|split; [|split]]; auto; try (now destruct c). intros st z Z0. cbn in Z0. discriminate Z0.
  - apply Ok_inj in N as <-. split; [|split; [|split]]; auto; try (now destruct c). intros st z Z0. cbn in *. congruence.
  - apply Ok_inj in N as <-. split; [|split; [|split]].
    + unfold good, linear, sign_ok in *. cbn in *. now rewrite M.
    + reflexivity.
    + intros [A|]; auto.
    + intros st z. rewrite !ev_var. apply sgn_neg.
  - apply Ok_inj in N as <-. split; [|split; [|split]].
    + exact G.
    + exact Hh.
    + intros [A|]; auto.
    + intros st z H. rewrite ev_not in H. apply after_val in H as (v & _ & H). apply after_val in H as (b & _ & H). apply Val_inj in H. now apply not_int in H.
  - apply good_ass in G as [_ G]. destruct o; try discriminate N.
    + step N. apply Ok_inj in N as <-. apply map_res_ok in E. cbn [hn] in Hh. rewrite forallb_Forall in Hh.
      assert (K : Forall2 (fun t t' => good t' /\ hn t' = true /\ (forall c, sat c t = true -> sat c t' = true) /\
                   (forall st z, ev st t = Val (VInt z) -> ev st t' = Val (VInt (- z)))) ts a).
      { clear -E H G Hh M. induction E as [|t t' ts ts' E _ IH]; [constructor|]. inversion H; subst. inversion G; subst. inversion Hh; subst. constructor; auto. }
      split; [|split; [|split]].
      * apply good_ass. split; [auto|]. clear -K. induction K as [|t t' ts ts' (K & _) _ IH]; constructor; auto.
      * cbn [hn]. apply forallb_Forall. clear -K. induction K as [|t t' ts ts' (_ & K & _) _ IH]; constructor; auto.
      * intros c. rewrite !sat_ass, !forallb_Forall. clear -K. induction K as [|t t' ts ts' (_ & _ & K & _) _ IH]; auto. intros F. inversion F; subst. constructor; auto.
      * intros st z Hz. apply ass_val in Hz as (zs & S & Hz). cbn in Hz. injection Hz as ->. apply ass_val. exists (map Z.opp zs). split.
        -- clear -K S. revert zs S. induction K as [|t t' ts ts' (_ & _ & _ & K) _ IH]; intros zs S; inversion S as [|? y ? ys [D Y] S']; subst; cbn [map]; constructor; [|now apply IH].
           split; [intros X; discriminate X|]. now apply K.
        -- cbn. f_equal. clear. induction zs as [|y zs IH]; cbn; [reflexivity|]. unfold tot in *. cbn in *. lia.
    + assert (G' : good (BAss OMul (ts ++ [BNum (-1)]))).
      { apply good_ass. split; [discriminate|]. apply Forall_app. split; [exact G|]. repeat constructor. }
      destruct (HS _ _ N G') as [R1 R2 R3 R4]. repeat split; try (now apply R1); auto.
      * intros c Hc. apply R3. rewrite sat_ass in *. rewrite forallb_app, Hc. now destruct c.
      * intros st z Hz. apply R4. apply ass_val in Hz as (zs & S & Hz). cbn in Hz. injection Hz as ->. apply ass_val. exists (zs ++ [-1]). split.
        -- apply Forall2_app; [exact S|]. constructor; [split; [intros X; discriminate X|reflexivity]|constructor].
        -- rewrite tot_app by (eapply sem_dom; eassumption). cbn. f_equal. lia.
  - exfalso. destruct G as [G _]. unfold linear in G. cbn [every] in G. rewrite M in G. destruct o; cbn in G; try discriminate G. discriminate Hh.
  - apply Ok_inj in N as <-. split; [|split; [|split]]; auto.
    + intros st z H. rewrite ev_rel in H. apply after_val in H as (v & _ & H). apply after_val in H as (b & _ & H). exfalso.
      destruct o; cbn [relv] in H; try (destruct (comparable v b); [|discriminate]); try (apply after_val in H as (? & _ & H); apply after_val in H as (? & _ & H)); apply Val_inj in H; now apply not_int in H.
  - apply Ok_inj in N as <-. split; [|split; [|split]]; auto.
    + intros st z H. rewrite ev_in in H. apply after_val in H as (v & _ & H). apply after_val in H as (b & _ & H). apply after_val in H as (? & _ & H). apply Val_inj in H. now apply not_int in H.
  - apply Ok_inj in N as <-. split; [|split; [|split]].
    + unfold good, linear, sign_ok in *. cbn in *. now rewrite M in *.
    + reflexivity.
    + intros [A|]; auto.
    + intros st z. rewrite !ev_attr. apply sgn_neg.
  - apply Ok_inj in N as <-. split; [|split; [|split]].
    + unfold good, linear, sign_ok in *. cbn in *. now rewrite M in *.
    + reflexivity.
    + intros [A|]; auto.
    + intros st z. rewrite !ev_sel. apply sgn_neg.
  - apply Ok_inj in N as <-. split; [|split; [|split]].
    + unfold good, linear, sign_ok in *. cbn in *. now rewrite M in *.
    + reflexivity.
    + intros [A|]; auto.
    + intros st z. rewrite !ev_call. apply sgn_neg.
Qed.

Definition kept (e : bx) : Prop := good e /\ hn e = true.

Lemma flattens_same o p : flattens o p = true -> boolean_op p = boolean_op o /\ neutral p = neutral o /\ (forall a b, operation p a b = operation o a b).
Proof. destruct o, p; try discriminate; repeat split. Qed.
Lemma flat_sem o p st us zs : flattens o p = true -> sem p st us zs -> sem o st us zs /\ inj p (tot p zs) = inj o (tot o zs).
Proof.
  intros F S. destruct (flattens_same _ _ F) as (B & N & O). split.
  - clear -S B. unfold BindSound.sem in *. induction S as [|t z l zs [D E] _ IH]; constructor; auto. unfold dom, inj in *. rewrite B in *. split; assumption.
  - unfold inj. rewrite B. assert (T : tot p zs = tot o zs); [|now rewrite T]. unfold tot. rewrite N. clear -O. induction zs as [|z zs IH]; cbn; [reflexivity|]. now rewrite IH, O.
Qed.
Lemma sem_one o st t z zs ts : sem o st (t :: ts) (z :: zs) <-> (dom o z /\ ev st t = Val (inj o z)) /\ sem o st ts zs.
Proof. split; intros H; [inversion H; subst; auto|]. destruct H. now constructor. Qed.

Lemma collect_ok o : forall k work total acc total' terms, collect simp o k work total acc = Ok (total', terms) ->
  Forall good work -> Forall kept acc ->
  Forall kept terms /\
  (forall c, Forall (fun e => sat c e = true) work -> Forall (fun e => sat c e = true) acc -> Forall (fun e => sat c e = true) terms) /\
  (forall st zs us, dom o total -> sem o st work zs -> sem o st (rev acc) us ->
     exists ts, sem o st terms ts /\ dom o total' /\ operation o total' (tot o ts) = operation o (operation o total (tot o zs)) (tot o us)).
Proof.
  induction k as [|k IH]; intros work total acc total' terms C G Ga.
  - destruct work as [|t rest]; cbn in C; [|discriminate]. injection C as <- <-. split; [now apply Forall_rev|]. split; [intros c _ F; now apply Forall_rev|].
    intros st zs us D S U. inversion S; subst. exists us. split; [exact U|]. split; [exact D|]. cbn [tot fold_right]. now rewrite (op_neutral_r o total D).
  - destruct work as [|t rest]; cbn [collect] in C.
    + injection C as <- <-. split; [now apply Forall_rev|]. split; [intros c _ F; now apply Forall_rev|].
      intros st zs us D S U. inversion S; subst. exists us. split; [exact U|]. split; [exact D|]. cbn [tot fold_right]. now rewrite (op_neutral_r o total D).
    + step C. rename a into t'. inversion G as [|? ? Gt Gr]; subst.
      destruct (HS _ _ E Gt) as [R1 R2 R3 R4].
      assert (ACC : collect simp o k rest total (t' :: acc) = Ok (total', terms) ->
         Forall kept terms /\
         (forall c, Forall (fun e => sat c e = true) (t :: rest) -> Forall (fun e => sat c e = true) acc -> Forall (fun e => sat c e = true) terms) /\
         (forall st zs us, dom o total -> sem o st (t :: rest) zs -> sem o st (rev acc) us ->
            exists ts, sem o st terms ts /\ dom o total' /\ operation o total' (tot o ts) = operation o (operation o total (tot o zs)) (tot o us))).
      { intros C'. destruct (IH _ _ _ _ _ C' Gr) as (I1 & I2 & I3); [constructor; [split; assumption|assumption]|].
        split; [exact I1|]. split.
        - intros c F Fa. inversion F; subst. apply I2; [assumption|]. constructor; auto.
        - intros st zs us D S U. inversion S as [|? z ? zs' [Dz Ez] S']; subst.
          destruct (I3 st zs' (us ++ [z]) D S') as (ts & T1 & T2 & T3).
          { cbn [rev]. apply Forall2_app; [exact U|]. constructor; [|constructor]. split; [exact Dz|]. now apply R4. }
          exists ts. split; [exact T1|]. split; [exact T2|]. rewrite T3.
          pose proof (sem_dom _ _ _ _ _ S') as Ds. pose proof (sem_dom _ _ _ _ _ U) as Du.
          rewrite tot_app by exact Du. cbn [tot fold_right]. fold (tot o zs').
          rewrite (op_neutral_r o z Dz). pose proof (tot_dom _ _ Ds) as Dz'. pose proof (tot_dom _ _ Du) as Du'.
          rewrite (op_comm o z (tot o zs') Dz Dz'). rewrite <- !op_assoc. do 2 f_equal. now apply op_comm. }
      assert (LIT : forall v, (forall st z, ev st t' = Val (inj o z) -> dom o z -> z = v) ->
         collect simp o k rest (operation o total v) acc = Ok (total', terms) ->
         Forall kept terms /\
         (forall c, Forall (fun e => sat c e = true) (t :: rest) -> Forall (fun e => sat c e = true) acc -> Forall (fun e => sat c e = true) terms) /\
         (forall st zs us, dom o total -> sem o st (t :: rest) zs -> sem o st (rev acc) us ->
            exists ts, sem o st terms ts /\ dom o total' /\ operation o total' (tot o ts) = operation o (operation o total (tot o zs)) (tot o us))).
      { intros v Hv C'. destruct (IH _ _ _ _ _ C' Gr Ga) as (I1 & I2 & I3).
        split; [exact I1|]. split.
        - intros c F Fa. inversion F; subst. now apply I2.
        - intros st zs us D S U. inversion S as [|? z ? zs' [Dz Ez] S']; subst.
          assert (z = v) as -> by (apply (Hv st); [now apply R4|exact Dz]).
          destruct (I3 st zs' us (op_dom _ _ _ D Dz) S' U) as (ts & T1 & T2 & T3). exists ts. split; [exact T1|]. split; [exact T2|]. rewrite T3. cbn [tot fold_right]. fold (tot o zs'). now rewrite !op_assoc. }
      destruct t' as [b|v| | |p us0| | | | | | | | | | | |]; try (now apply ACC).
      * apply (LIT (if b then 1 else 0)); [|exact C]. intros st z Ez Dz. cbn in Ez. apply Val_inj in Ez. unfold inj in Ez.
        destruct (boolean_op o) eqn:O; [|now apply not_int in Ez]. apply VBool_inj in Ez. subst b. destruct (Dz O) as [-> | ->]; reflexivity.
      * apply (LIT v); [|exact C]. intros st z Ez Dz. cbn in Ez. apply Val_inj in Ez. unfold inj in Ez.
        destruct (boolean_op o); [|congruence]. symmetry in Ez. now apply not_int in Ez.
      * destruct (flattens o p) eqn:F; [|now apply ACC].
        assert (Gu : Forall good us0) by (now apply good_ass in R1).
        destruct (IH _ _ _ _ _ C) as (I1 & I2 & I3); [now apply Forall_app|exact Ga|].
        split; [exact I1|]. split.
        -- intros c Fc Fa. inversion Fc; subst. apply I2; [|exact Fa]. apply Forall_app. split; [assumption|].
           apply forallb_Forall. rewrite <- (sat_ass c p). now apply R3.
        -- intros st zs us D S U. inversion S as [|? z ? zs' [Dz Ez] S']; subst.
           apply R4 in Ez. apply ass_val in Ez as (ys & Y & Ey). destruct (flat_sem _ _ _ _ _ F Y) as [Y' Ey'].
           rewrite Ey' in Ey. pose proof (sem_dom _ _ _ _ _ Y') as Dy. pose proof (sem_dom _ _ _ _ _ S') as Ds.
           apply (inj_inj o) in Ey; [|exact Dz|now apply tot_dom].
           destruct (I3 st (zs' ++ ys) us D) as (ts & T1 & T2 & T3); [now apply Forall2_app|exact U|].
           exists ts. split; [exact T1|]. split; [exact T2|]. rewrite T3. rewrite tot_app by exact Ds. cbn [tot fold_right]. fold (tot o zs'). rewrite Ey.
           do 2 f_equal. apply op_comm; now apply tot_dom.
Qed.

Lemma literal_good o total : good (literal o total) /\ hn (literal o total) = true /\ (forall c, sat c (literal o total) = true).
Proof. unfold literal. destruct (boolean_op o); (split; [split; reflexivity|split; [reflexivity|now intros [|]]]). Qed.
Lemma literal_val o total st : ev st (literal o total) = Val (inj o total).
Proof. unfold literal, inj. destruct (boolean_op o); reflexivity. Qed.

Lemma hn_ass o ts : Forall (fun e => hn e = true) ts -> hn (BAss o ts) = true.
Proof. intros F. destruct o; try reflexivity. cbn [hn]. now apply forallb_Forall. Qed.
Lemma kept_split l : Forall kept l -> Forall good l /\ Forall (fun e => hn e = true) l.
Proof. intros F. split; (eapply Forall_impl; [|exact F]); now intros e []. Qed.
(** a list of terms as one expression *)
Lemma terms_ok o terms : (o = OAdd -> sums = true) -> Forall kept terms ->
  good (BAss o terms) /\ hn (BAss o terms) = true /\
  (forall c, Forall (fun e => sat c e = true) terms -> sat c (BAss o terms) = true) /\
  (forall st ts, sem o st terms ts -> ev st (BAss o terms) = Val (inj o (tot o ts))).
Proof.
  intros M K. destruct (kept_split _ K) as [G Hh]. repeat split.
  - apply good_ass. auto.
  - apply good_ass. auto.
  - now apply hn_ass.
  - intros c F. rewrite sat_ass. now apply forallb_Forall.
  - intros st ts S. apply ass_val. eauto.
Qed.
Lemma finish_ok o total terms : (o = OAdd -> sums = true) -> Forall kept terms ->
  good (finish o total terms) /\ hn (finish o total terms) = true /\
  (forall c, Forall (fun e => sat c e = true) terms -> sat c (finish o total terms) = true) /\
  (forall st ts, dom o total -> sem o st terms ts -> ev st (finish o total terms) = Val (inj o (operation o total (tot o ts)))).
Proof.
  intros M K. unfold finish. destruct terms as [|t r].
  - destruct (literal_good o total) as (L1 & L2 & L3). repeat split; try apply L1; auto.
    intros st ts D S. inversion S; subst. cbn [tot fold_right]. rewrite op_neutral_r by exact D. apply literal_val.
  - set (l := t :: r) in *.
    assert (K' : exists l', (if total =? neutral o then l else l ++ [literal o total]) = l' /\ Forall kept l' /\
       (forall c, Forall (fun e => sat c e = true) l -> Forall (fun e => sat c e = true) l') /\
       (forall st ts, dom o total -> sem o st l ts -> exists ts', sem o st l' ts' /\ tot o ts' = operation o total (tot o ts))).
    { destruct (total =? neutral o) eqn:T.
      - apply Z.eqb_eq in T as ->. exists l. repeat split; auto. intros st ts _ S. exists ts. split; [exact S|]. symmetry. apply op_neutral_l.
      - destruct (literal_good o total) as (L1 & L2 & L3). eexists. split; [reflexivity|]. split; [|split].
        + apply Forall_app. split; [exact K|]. constructor; [split; assumption|constructor].
        + intros c F. apply Forall_app. split; [exact F|]. constructor; [apply L3|constructor].
        + intros st ts D S. exists (ts ++ [total]). pose proof (sem_dom _ _ _ _ _ S) as Ds. split.
          * apply Forall2_app; [exact S|]. constructor; [|constructor]. split; [exact D|apply literal_val].
          * rewrite tot_app by exact Ds. cbn [tot fold_right]. rewrite op_neutral_r by exact D. apply op_comm; [now apply tot_dom|exact D]. }
    destruct K' as (l' & E & K1 & K2 & K3). change (if total =? neutral o then l else l ++ [literal o total]) with (if total =? neutral o then l else l ++ [literal o total]).
    rewrite E. destruct l' as [|u [|u' l']].
    + destruct (terms_ok o [] M K1) as (T1 & T2 & T3 & T4). repeat split; try apply T1; auto.
      intros st ts D S. destruct (K3 st ts D S) as (ts' & S' & E'). rewrite <- E'. now apply T4.
    + inversion K1 as [|? ? [U1 U2] _]; subst. repeat split; try apply U1; auto.
      * intros c F. apply K2 in F. now inversion F.
      * intros st ts D S. destruct (K3 st ts D S) as (ts' & S' & E'). rewrite <- E'. inversion S' as [|? z ? zs [Dz Ez] S2]; subst. inversion S2; subst.
        cbn [tot fold_right]. now rewrite op_neutral_r by exact Dz.
    + destruct (terms_ok o (u :: u' :: l') M K1) as (T1 & T2 & T3 & T4). repeat split; try apply T1; auto.
      intros st ts D S. destruct (K3 st ts D S) as (ts' & S' & E'). rewrite <- E'. now apply T4.
Qed.

Lemma existsb_In {A} (p : A -> bool) l : existsb p l = true -> exists x, In x l /\ p x = true.
Proof. apply existsb_exists. Qed.
Lemma zero_and o st ts zs t : (o = OAnd \/ o = OAndThen) -> sem o st ts zs -> In t ts -> ev st t = Val (VBool false) -> tot o zs = 0.
Proof.
  intros O S I E. induction S as [|u z us zs [D Ez] _ IH]; [destruct I|]. cbn [tot fold_right]. fold (tot o zs). destruct I as [-> | I].
  - rewrite Ez in E. apply Val_inj in E. destruct O as [-> | ->]; (unfold inj in E; cbn [boolean_op] in E; apply VBool_inj in E; apply negb_false_iff in E; apply Z.eqb_eq in E as ->; reflexivity).
  - rewrite (IH I). destruct O as [-> | ->]; cbn; destruct (Z.eqb_spec z 0); auto.
Qed.
Lemma one_or o st ts zs t : (o = OOr \/ o = OOrElse) -> sem o st ts zs -> In t ts -> ev st t = Val (VBool true) -> tot o zs = 1.
Proof.
  intros O S I E. induction S as [|u z us zs [D Ez] _ IH]; [destruct I|]. cbn [tot fold_right]. fold (tot o zs). destruct I as [-> | I].
  - rewrite Ez in E. apply Val_inj in E. assert (B : boolean_op o = true) by (now destruct O as [-> | ->]).
    unfold inj in E. rewrite B in E. apply VBool_inj in E. apply negb_true_iff in E. apply Z.eqb_neq in E.
    destruct (D B) as [-> | ->]; [congruence|]. destruct O as [-> | ->]; reflexivity.
  - rewrite (IH I). assert (B : boolean_op o = true) by (now destruct O as [-> | ->]). destruct (D B) as [-> | ->]; destruct O as [-> | ->]; reflexivity.
Qed.
Lemma absorb_ok o e : good e -> hn e = true ->
  good (absorb eqb o e) /\ hn (absorb eqb o e) = true /\ (forall c, sat c e = true -> sat c (absorb eqb o e) = true) /\
  (forall st v, ev st e = Val v -> ev st (absorb eqb o e) = Val v).
Proof.
  intros G Hh. assert (ID : good e /\ hn e = true /\ (forall c, sat c e = true -> sat c e = true) /\ (forall st v, ev st e = Val v -> ev st e = Val v)) by auto.
  assert (TR : forall b, good (BBool b) /\ hn (BBool b) = true /\ (forall c, sat c (BBool b) = true)) by (intros b; repeat split; now intros [|]).
  unfold absorb. destruct e; try (destruct o; exact ID).
  assert (A0 : forall p, p = o0 -> (p = OAnd \/ p = OAndThen) -> existsb (eqb (BBool false)) ts = true -> forall st v, ev st (BAss o0 ts) = Val v -> ev st (BBool false) = Val v).
  { intros p -> P X st v H. apply existsb_In in X as (t & I & T). apply ass_val in H as (zs & S & ->).
    assert (Et : ev st t = Val (VBool false)) by (rewrite <- (eqb_sound _ _ st T); reflexivity).
    rewrite (zero_and _ _ _ _ _ P S I Et). destruct P as [-> | ->]; reflexivity. }
  assert (O1 : forall p, p = o0 -> (p = OOr \/ p = OOrElse) -> existsb (eqb (BBool true)) ts = true -> forall st v, ev st (BAss o0 ts) = Val v -> ev st (BBool true) = Val v).
  { intros p -> P X st v H. apply existsb_In in X as (t & I & T). apply ass_val in H as (zs & S & ->).
    assert (Et : ev st t = Val (VBool true)) by (rewrite <- (eqb_sound _ _ st T); reflexivity).
    rewrite (one_or _ _ _ _ _ P S I Et). destruct P as [-> | ->]; reflexivity. }
  destruct o; destruct o0; try exact ID;
    try (destruct (existsb (eqb (BBool false)) ts) eqn:X; [|exact ID]; destruct (TR false) as (T1 & T2 & T3); repeat split; try apply T1; auto; apply (A0 _ eq_refl); auto);
    try (destruct (existsb (eqb (BBool true)) ts) eqn:X; [|exact ID]; destruct (TR true) as (T1 & T2 & T3); repeat split; try apply T1; auto; apply (O1 _ eq_refl); auto).
Qed.

Lemma tot_cons z zs : tot OAdd (z :: zs) = z + tot OAdd zs.
Proof. reflexivity. Qed.
Lemma remove_ok x l l' : remove_first eqb x l = Some l' -> exists a y b, l = a ++ y :: b /\ l' = a ++ b /\ eqb y x = true.
Proof.
  revert l'. induction l as [|y l IH]; intros l' H; cbn in H; [discriminate|]. destruct (eqb y x) eqn:E.
  - injection H as <-. exists [], y, l. auto.
  - destruct (remove_first eqb x l) as [t|] eqn:R; [|discriminate]. injection H as <-. destruct (IH _ eq_refl) as (a & z & b & -> & -> & E').
    exists (y :: a), z, b. auto.
Qed.
Lemma cancel_ok : forall l acc ts', cancel eqb simp l acc = Ok ts' -> sums = true -> Forall kept l -> Forall kept acc ->
  Forall kept ts' /\
  (forall c, Forall (fun e => sat c e = true) l -> Forall (fun e => sat c e = true) acc -> Forall (fun e => sat c e = true) ts') /\
  (forall st zs us, sem OAdd st l zs -> sem OAdd st acc us -> exists ys, sem OAdd st ts' ys /\ tot OAdd ys = tot OAdd zs + tot OAdd us).
Proof.
  induction l as [|t l IH]; intros acc ts' C M K Ka; cbn [cancel] in C.
  - apply Ok_inj in C as <-. split; [exact Ka|]. split; [auto|]. intros st zs us S U. inversion S; subst. exists us. split; [exact U|reflexivity].
  - inversion K as [|? ? Kt Kl]; subst.
    assert (PUSH : cancel eqb simp l (t :: acc) = Ok ts' ->
      Forall kept ts' /\
      (forall c, Forall (fun e => sat c e = true) (t :: l) -> Forall (fun e => sat c e = true) acc -> Forall (fun e => sat c e = true) ts') /\
      (forall st zs us, sem OAdd st (t :: l) zs -> sem OAdd st acc us -> exists ys, sem OAdd st ts' ys /\ tot OAdd ys = tot OAdd zs + tot OAdd us)).
    { intros C'. destruct (IH _ _ C' M Kl) as (I1 & I2 & I3); [now constructor|]. split; [exact I1|]. split.
      - intros c F Fa. inversion F; subst. apply I2; auto.
      - intros st zs us S U. inversion S as [|? z ? zs' Hz S']; subst. destruct (I3 st zs' (z :: us) S') as (ys & Y & E); [now constructor|].
        exists ys. split; [exact Y|]. rewrite E, !tot_cons. lia. }
    destruct acc as [|u acc']; [exact (PUSH C)|]. set (acc := u :: acc') in *.
    step C. destruct (remove_first eqb a acc) as [acc2|] eqn:R; [|exact (PUSH C)].
    destruct (remove_ok _ _ _ R) as (p & y & q & Ea & -> & Ey).
    destruct (neg_ok _ _ E M (proj1 Kt) (proj2 Kt)) as (N1 & N2 & N3 & N4).
    rewrite Ea in Ka. apply Forall_app in Ka as [Kp Kq]. inversion Kq; subst.
    destruct (IH _ _ C M Kl) as (I1 & I2 & I3); [now apply Forall_app|]. split; [exact I1|]. split.
    + intros c F Fa. inversion F; subst. apply I2; [assumption|]. rewrite Ea in Fa. apply Forall_app in Fa as [Fp Fq]. inversion Fq; subst. now apply Forall_app.
    + intros st zs us S U. inversion S as [|? z ? zs' [Dz Ez] S']; subst. rewrite Ea in U.
      apply Forall2_app_inv_l in U as (up & uq & Up & Uq & ->). inversion Uq as [|? yv ? uq' [Dy Eyv] Uq']; subst.
      destruct (I3 st zs' (up ++ uq') S') as (ys & Y & Et); [now apply Forall2_app|]. exists ys. split; [exact Y|]. rewrite Et.
      pose proof (N4 st z Ez) as En. rewrite <- (eqb_sound _ _ st Ey) in En. rewrite Eyv in En. apply Val_inj in En. cbn in En. injection En as ->.
      pose proof (sem_dom _ _ _ _ _ Up) as Dp. rewrite !tot_app by exact Dp. rewrite !tot_cons. cbn [operation]. lia.
Qed.
Lemma add_tail_ok e e' : add_tail eqb simp e = Ok e' -> sums = true -> good e -> hn e = true ->
  good e' /\ hn e' = true /\ (forall c, sat c e = true -> sat c e' = true) /\ (forall st v, ev st e = Val v -> ev st e' = Val v).
Proof.
  intros T M G Hh. assert (ID : Ok e = Ok e' -> good e' /\ hn e' = true /\ (forall c, sat c e = true -> sat c e' = true) /\ (forall st v, ev st e = Val v -> ev st e' = Val v)) by (intros X; apply Ok_inj in X as <-; auto).
  unfold add_tail in T. destruct e; try exact (ID T). destruct o; try exact (ID T). clear ID. step T.
  assert (K : Forall kept ts).
  { apply good_ass in G as [_ G]. cbn [hn] in Hh. rewrite forallb_Forall in Hh. rewrite Forall_forall in *. intros x I. split; auto. }
  destruct (cancel_ok _ _ _ E M (Forall_rev K)) as (C1 & C2 & C3); [constructor|].
  assert (S' : forall c, sat c (BAss OAdd ts) = true -> Forall (fun e => sat c e = true) a).
  { intros c Hc. rewrite sat_ass, forallb_Forall in Hc. apply C2; [now apply Forall_rev|constructor]. }
  assert (V : forall st v, ev st (BAss OAdd ts) = Val v -> exists ys, sem OAdd st a ys /\ v = VInt (tot OAdd ys)).
  { intros st v Hv. apply ass_val in Hv as (zs & S & ->). destruct (C3 st (rev zs) []) as (ys & Y & Et); [|constructor|].
    - clear -S. induction S as [|t z l zs H _ IH]; cbn [rev]; [constructor|]. apply Forall2_app; [exact IH|]. constructor; [exact H|constructor].
    - exists ys. split; [exact Y|]. rewrite Et. unfold inj. cbn [boolean_op]. f_equal. change (tot OAdd []) with 0. clear. induction zs as [|z zs IH]; cbn [rev]; [reflexivity|].
      rewrite (tot_app OAdd) by (apply Forall_forall; intros ? _ X; discriminate X). rewrite !tot_cons. cbn [operation]. change (tot OAdd []) with 0. lia. }
  destruct a as [|t [|t' a]].
  - apply Ok_inj in T as <-. destruct (terms_ok OAdd [] (fun _ => M) C1) as (T1 & T2 & T3 & T4). repeat split; try apply T1; auto.
    intros st v Hv. destruct (V st v Hv) as (ys & Y & ->). now apply T4 in Y.
  - apply Ok_inj in T as <-. inversion C1 as [|? ? [U1 U2] _]; subst. repeat split; try apply U1; auto.
    + intros c Hc. apply S' in Hc. now inversion Hc.
    + intros st v Hv. destruct (V st v Hv) as (ys & Y & ->). inversion Y as [|? z ? zs [Dz Ez] Y']; subst. inversion Y'; subst. rewrite Ez. rewrite tot_cons. unfold inj. cbn [boolean_op]. do 2 f_equal. change (tot OAdd []) with 0. lia.
  - apply Ok_inj in T as <-. destruct (terms_ok OAdd (t :: t' :: a) (fun _ => M) C1) as (T1 & T2 & T3 & T4). repeat split; try apply T1; auto.
    intros st v Hv. destruct (V st v Hv) as (ys & Y & ->). now apply T4 in Y.
Qed.
End WithSimp.

(** ** relations and arithmetic *)
Lemma value_eqb_refl : forall v, value_eqb v v = true.
Proof.
  fix IH 1. intros [z|t l|vs|t fs|t z|r x]; cbn [value_eqb].
  - apply Z.eqb_refl.
  - now rewrite !String.eqb_refl.
  - revert vs. fix IHl 1. intros [|v vs]; [reflexivity|]. now rewrite (IH v), (IHl vs).
  - rewrite String.eqb_refl. cbn [andb]. revert fs. fix IHl 1. intros [|[f v] fs]; [reflexivity|]. now rewrite String.eqb_refl, (IH v), (IHl fs).
  - now rewrite String.eqb_refl, Z.eqb_refl.
  - now rewrite !eqb_reflx.
Qed.
Lemma rel_simp_ok o l r : good l -> good r ->
  good (rel_simp eqb o l r) /\ hn (rel_simp eqb o l r) = true /\
  (forall c, sat c l = true -> sat c r = true -> sat c (rel_simp eqb o l r) = true) /\
  (forall st v, ev st (BRel o l r) = Val v -> ev st (rel_simp eqb o l r) = Val v).
Proof.
  intros Gl Gr. unfold rel_simp.
  assert (TR : forall b, good (BBool b) /\ hn (BBool b) = true /\ (forall c, sat c (BBool b) = true)) by (intros b; repeat split; now intros [|]).
  assert (ID : good (BRel o l r) /\ hn (BRel o l r) = true /\ (forall c, sat c l = true -> sat c r = true -> sat c (BRel o l r) = true) /\
               (forall st v, ev st (BRel o l r) = Val v -> ev st (BRel o l r) = Val v)).
  { destruct Gl as [L1 L2], Gr as [R1 R2]. repeat split; auto.
    - unfold linear in *. cbn [every]. now rewrite L1, R1.
    - intros [A|b F] H1 H2; unfold sat in *; cbn [within every plain_in]; now rewrite H1, H2. }
  destruct ((match o with OEq | OLe | OGe => true | _ => false end) && eqb l r) eqn:Q.
  - apply andb_true_iff in Q as [O Q]. destruct (TR true) as (T1 & T2 & T3). repeat split; try apply T1; auto.
    intros st v H. rewrite ev_rel in H. apply after_val in H as (a & Ea & H). apply after_val in H as (b & Eb & H).
    rewrite (eqb_sound _ _ st Q), Eb in Ea. apply Val_inj in Ea as ->.
    destruct o; try discriminate O; cbn [relv] in H.
    + apply after_val in H as (x & Ex & H). apply after_val in H as (y & Ey & H). rewrite Ex in Ey. apply Val_inj in Ey as ->. rewrite <- H. cbn [less]. now rewrite Z.leb_refl.
    + destruct (comparable a a); [|discriminate]. rewrite <- H. now rewrite value_eqb_refl.
    + apply after_val in H as (x & Ex & H). apply after_val in H as (y & Ey & H). rewrite Ex in Ey. apply Val_inj in Ey as ->. rewrite <- H. cbn [less]. now rewrite Z.leb_refl.
  - destruct l as [|x| | | | | | | | | | | | | | |]; try exact ID. destruct r as [|y| | | | | | | | | | | | | | |]; try exact ID.
    destruct (TR (rel_num o x y)) as (T1 & T2 & T3). repeat split; try apply T1; auto.
    intros st v H. rewrite ev_rel in H. cbn [BindSpec.ev to_sx eval after] in *. unfold BindSpec.ev in *. cbn [to_sx eval after] in *. rewrite <- H.
    destruct o; cbn [relv comparable to_int after less rel_num value_eqb]; try reflexivity; destruct (x =? y); reflexivity.
Qed.
Lemma bin_num_ok o x y e' : bin_num o x y = Ok e' -> good (BBin o (BNum x) (BNum y)) ->
  good e' /\ hn e' = true /\ (forall c, sat c e' = true) /\ (forall st v, ev st (BBin o (BNum x) (BNum y)) = Val v -> ev st e' = Val v).
Proof.
  intros H G.
  assert (NU : forall z, good (BNum z) /\ hn (BNum z) = true /\ (forall c, sat c (BNum z) = true)) by (intros b; repeat split; now intros [|]).
  assert (LIT : forall z, arith o x y = Val z -> good (BNum z) /\ hn (BNum z) = true /\ (forall c, sat c (BNum z) = true) /\
                (forall st v, ev st (BBin o (BNum x) (BNum y)) = Val v -> ev st (BNum z) = Val v)).
  { intros z Hz. destruct (NU z) as (N1 & N2 & N3). repeat split; try apply N1; auto. intros st v E. rewrite <- E.
    rewrite ev_bin. unfold BindSpec.ev, binv. cbn [to_sx eval after to_int]. now rewrite Hz. }
  destruct o; cbn [bin_num] in H.
  - apply Ok_inj in H as <-. apply LIT. reflexivity.
  - destruct (y =? 0) eqn:Y; [discriminate|]. destruct (x mod y =? 0).
    + apply Ok_inj in H as <-. apply LIT. cbn [arith]. now rewrite Y.
    + apply Ok_inj in H as <-. repeat split; try apply G; auto. now intros [|].
  - destruct (y <? 0) eqn:Y; [discriminate|]. apply Ok_inj in H as <-. apply LIT. cbn [arith]. now rewrite Y.
  - destruct (y =? 0) eqn:Y; [discriminate|]. apply Ok_inj in H as <-. apply LIT. cbn [arith]. now rewrite Y.
Qed.
Lemma inverse_val o st l r v : ev st (BNot (BRel o l r)) = Val v -> ev st (BRel (inverse o) l r) = Val v.
Proof.
  rewrite ev_not, !ev_rel. intros H. apply after_val in H as (u & H0 & H). apply after_val in H as (b & Eb & H). apply to_bool_inv in Eb as ->. apply Val_inj in H as <-.
  apply after_val in H0 as (x & Ex & H). apply after_val in H as (y & Ey & H). rewrite Ex, Ey. cbn [after].
  destruct o; cbn [relv inverse] in *;
    try (apply after_val in H as (i & Ei & H); apply after_val in H as (j & Ej & H); apply Val_inj in H; apply VBool_inj in H; subst b; rewrite Ei, Ej; cbn [after less]; f_equal; f_equal;
         rewrite ?Z.ltb_antisym, ?Z.leb_antisym, ?negb_involutive; reflexivity);
    (destruct (comparable x y); [|discriminate H]); apply Val_inj in H; apply VBool_inj in H; subst b; destruct (value_eqb x y); reflexivity.
Qed.

(** ** attributes *)
Inductive head := HVar | HSel | HOther.
Definition headof (e : bx) : head := match e with BVar _ _ => HVar | BSel _ _ _ => HSel | _ => HOther end.
Lemma attr_plain a st p s : of_name a = false -> ev st (BAttr a p s) = sgn s (do v <- ev st p ;; attrv w a v).
Proof. intros O. rewrite ev_attr. destruct a; try discriminate O; reflexivity. Qed.
Lemma attr_int a st p s : headof p <> HVar -> ev st (BAttr (SInt a) p s) = sgn s (do v <- ev st p ;; attrv w (SInt a) v).
Proof. intros O. rewrite ev_attr. destruct p; try reflexivity. now destruct O. Qed.
Lemma attr_present st p s v : ev st (BAttr SPresent p s) = Val v -> exists q f, p = BSel q f false.
Proof.
  rewrite ev_attr. destruct p as [| | | | | | | | |q f [|]| | | | | | |]; try (destruct s; discriminate). eauto.
Qed.
Lemma sgn_mono s o o' v : (forall u, o = Val u -> o' = Val u) -> sgn s o = Val v -> sgn s o' = Val v.
Proof. intros H. destruct s; cbn [sgn]; [|apply H]. intros E. apply after_val in E as (u & E1 & E2). now rewrite (H _ E1). Qed.
Lemma after_mono {A B} (o o' : outcome A) (k k' : A -> outcome B) v :
  (forall u, o = Val u -> o' = Val u) -> (forall u, k u = Val v -> k' u = Val v) -> after o k = Val v -> after o' k' = Val v.
Proof. intros H K E. apply after_val in E as (u & E1 & E2). rewrite (H _ E1). now apply K. Qed.

(** ** scopes *)
Definition both (A B : scope) : scope := fun x => A x && B x.
Lemma within_false g : forall e A, within g A e = true -> within false A e = true.
Proof.
  assert (MI : forall (A : scope) x y, (if g then minus A x else A) y = true -> A y = true).
  { destruct g; [|auto]. unfold minus. intros A x y H. now apply andb_true_iff in H. }
  induction e using bx_ind'; intros A; cbn [within]; auto; rewrite ?andb_true_iff;
    try (apply forallb_impl; eapply Forall_impl; [|eassumption]; cbn; now auto);
    try (intros [E1 E2]; split; [now apply IHe1|now apply IHe2]).
  - apply forallb_impl. eapply Forall_impl; [|eassumption]. cbn. intros e H0 H1. apply (within_mono false _ (if g then nothing else A)); [destruct g; [discriminate|auto]|]. now apply H0.
  - intros [E1 E2]. split; [|now apply IHe2]. apply (within_mono false _ _ A (MI A x)). now apply IHe1.
  - intros [[E1 E2] E3]. repeat split; [|now apply IHe2|now apply IHe3]. apply (within_mono false _ _ A (MI A x)). now apply IHe1.
  - intros [E1 E2]. split; [|now apply IHe]. revert E1. apply forallb_impl. eapply Forall_impl; [|eassumption]. cbn. auto.
Qed.
Lemma within_both g : forall e A B, within g A e = true -> within false B e = true -> within g (both A B) e = true.
Proof.
  assert (L : forall ts, Forall (fun e => forall A B, within g A e = true -> within false B e = true -> within g (both A B) e = true) ts ->
    forall A B, forallb (within g A) ts = true -> forallb (within false B) ts = true -> forallb (within g (both A B)) ts = true).
  { intros ts F A B. rewrite !forallb_Forall, !Forall_forall in *. intros H1 H2 e I. now apply F; [|apply H1|apply H2]. }
  assert (L2 : forall (fs : list (string * bx)), Forall (fun p => forall A B, within g A (snd p) = true -> within false B (snd p) = true -> within g (both A B) (snd p) = true) fs ->
    forall A B, forallb (fun p => within g A (snd p)) fs = true -> forallb (fun p => within false B (snd p)) fs = true -> forallb (fun p => within g (both A B) (snd p)) fs = true).
  { intros ts F A B. rewrite !forallb_Forall, !Forall_forall in *. intros H1 H2 e I. now apply F; [|apply H1|apply H2]. }
  assert (MI : forall (A B : scope) x y, both (if g then minus A x else A) B y = true -> (if g then minus (both A B) x else both A B) y = true).
  { destruct g; [|auto]. unfold both, minus. intros A B x y. now rewrite andb_assoc. }
  assert (PL : forall (A B : scope) x y, both (plus A x) (plus B x) y = true -> plus (both A B) x y = true).
  { unfold both, plus. intros A B x y. destruct (String.eqb y x); auto. }
  induction e using bx_ind'; intros A B; cbn [within]; auto; rewrite ?andb_true_iff;
    try (intros [E1 E2] [F1 F2]; split; [now apply IHe1|now apply IHe2]).
  - unfold both. now intros -> ->.
  - intros E F. apply (fun X => proj2 (forallb_Forall _ _) X). apply forallb_Forall in E. apply forallb_Forall in F. rewrite Forall_forall in *.
    intros e I. apply (within_mono g _ (both (if g then nothing else A) B)); [destruct g; [unfold both, nothing; discriminate|auto]|]. apply H; [exact I|now apply E|now apply F].
  - intros [E1 E2] [F1 F2]. split; [apply (within_mono g _ _ _ (MI A B x)); now apply IHe1|apply (within_mono g _ _ _ (PL A B x)); now apply IHe2].
  - intros [[E1 E2] E3] [[F1 F2] F3]. repeat split; [apply (within_mono g _ _ _ (MI A B x)); now apply IHe1|apply (within_mono g _ _ _ (PL A B x)); now apply IHe2|apply (within_mono g _ _ _ (PL A B x)); now apply IHe3].
  - intros [E1 E2] [F1 F2]. split; [now apply L2|]. apply (within_mono g _ (both (plus_all A (map fst data)) (plus_all B (map fst data)))); [|now apply IHe].
    unfold both, plus_all. intros y. destruct (mem y (map fst data)); auto.
Qed.
End Sound.
