(** Specification for C59: scopes and the conditions under which simplification,
    substitution and variables () of the expressions of sessions do what they should. *)
From Coq Require Import String List ZArith Bool.
From Verif Require Import Base Expr SessionType SessionEval BindExpr.
Import ListNotations.
Local Open Scope string_scope.
Local Open Scope list_scope.
Local Open Scope Z_scope.

(** the value of an expression in a store *)
Definition ev (w : world) (st : store) (e : bx) : outcome value := eval w st (to_sx e).

(** ** scopes *)
Definition scope := string -> bool.
Definition nothing : scope := fun _ => false.
Definition plus (A : scope) (x : string) : scope := fun y => String.eqb y x || A y.
Definition minus (A : scope) (x : string) : scope := fun y => negb (String.eqb y x) && A y.
Definition mem (x : string) (l : list string) : bool := existsb (String.eqb x) l.
Definition plus_all (A : scope) (l : list string) : scope := fun y => mem y l || A y.
Definition outside (l : list string) : scope := fun y => negb (mem y l).

(** every variable of [e] is in scope: the free ones in [A].  If [strict], then
    aggregates mention no variable, and an iterable does not mention the variable that is
    bound next to it. *)
Fixpoint within (strict : bool) (A : scope) (e : bx) : bool :=
  match e with
  | BBool _ | BNum _ => true
  | BVar x _ => A x
  | BNot p | BAttr _ p _ | BSel p _ _ | BConv _ p => within strict A p
  | BAss _ ts | BCall _ ts _ => forallb (within strict A) ts
  | BBin _ l r | BRel _ l r | BIn _ l r => within strict A l && within strict A r
  | BAgg es => forallb (within strict (if strict then nothing else A)) es
  | BQuant _ x i p => within strict (if strict then minus A x else A) i && within strict (plus A x) p
  | BCompr x a s c =>
    within strict (if strict then minus A x else A) a && within strict (plus A x) s && within strict (plus A x) c
  | BMsg _ fs => forallb (fun p => within strict A (snd p)) fs
  | BBind x data =>
    forallb (fun p => within strict A (snd p)) data && within strict (plus_all A (map fst data)) x
  end.

(** the names bound anywhere in an expression *)
Fixpoint binders (e : bx) : list string :=
  match e with
  | BBool _ | BNum _ | BVar _ _ => []
  | BNot p | BAttr _ p _ | BSel p _ _ | BConv _ p => binders p
  | BAss _ ts | BCall _ ts _ | BAgg ts => flat_map binders ts
  | BBin _ l r | BRel _ l r | BIn _ l r => binders l ++ binders r
  | BQuant _ x i p => x :: binders i ++ binders p
  | BCompr x a s c => x :: binders a ++ binders s ++ binders c
  | BMsg _ fs => flat_map (fun p => binders (snd p)) fs
  | BBind x data => map fst data ++ binders x ++ flat_map (fun p => binders (snd p)) data
  end.
(** the functions called anywhere in an expression *)
Fixpoint functions (e : bx) : list string :=
  match e with
  | BBool _ | BNum _ | BVar _ _ => []
  | BNot p | BAttr _ p _ | BSel p _ _ | BConv _ p => functions p
  | BAss _ ts | BAgg ts => flat_map functions ts
  | BCall f ts _ => f :: flat_map functions ts
  | BBin _ l r | BRel _ l r | BIn _ l r => functions l ++ functions r
  | BQuant _ _ i p => functions i ++ functions p
  | BCompr _ a s c => functions a ++ functions s ++ functions c
  | BMsg _ fs => flat_map (fun p => functions (snd p)) fs
  | BBind x data => functions x ++ flat_map (fun p => functions (snd p)) data
  end.

(** ** conditions *)
(** a condition on every expression inside of an expression *)
Fixpoint every (p : bx -> bool) (e : bx) : bool :=
  p e &&
  match e with
  | BBool _ | BNum _ | BVar _ _ => true
  | BNot x | BAttr _ x _ | BSel x _ _ | BConv _ x => every p x
  | BAss _ ts | BCall _ ts _ | BAgg ts => forallb (every p) ts
  | BBin _ l r | BRel _ l r | BIn _ l r => every p l && every p r
  | BQuant _ _ i q => every p i && every p q
  | BCompr _ a s c => every p a && every p s && every p c
  | BMsg _ fs => forallb (fun f => every p (snd f)) fs
  | BBind x data => every p x && forallb (fun f => every p (snd f)) data
  end.
(** no bindings *)
Definition bindless : bx -> bool := every (fun e => match e with BBind _ _ => false | _ => true end).
(** no negative selections, of which substitution loses the sign *)
Definition unsigned : bx -> bool := every (fun e => match e with BSel _ _ s => negb s | _ => true end).

(** the prefix of 'Size, 'Length, 'First, 'Last and 'Present is a variable, selection,
    call, attribute or conversion *)
Definition is_name (e : bx) : bool :=
  match e with BVar _ _ | BSel _ _ _ | BCall _ _ _ | BAttr _ _ _ | BConv _ _ => true | _ => false end.
Definition of_name (a : sattr) : bool := match a with SInt _ | SPresent => true | _ => false end.
(** sums are not mixed with division, exponentiation and modulo (for these unary minus is
    wrong, see C13 and C15): if [sums], there are none of the latter, otherwise there are no
    sums, differences and negative names *)
Definition sign_ok (sums s : bool) : bool := sums || negb s.
Definition linear (sums : bool) : bx -> bool :=
  every (fun e =>
    match e with
    | BVar _ s | BSel _ _ s | BCall _ _ s => sign_ok sums s
    | BAttr a p s => sign_ok sums s && (negb (of_name a) || is_name p)
    | BAss OAdd _ | BBin OSub _ _ => sums
    | BBin _ _ _ => negb sums
    | _ => true
    end).

(** the names [ks] are neither used below a negation, where nothing is substituted, nor
    as the prefix of an attribute which belongs to a name *)
Definition exposed (ks : list string) : bx -> bool :=
  every (fun e =>
    match e with
    | BNot p => within false (outside ks) p
    | BAttr a (BVar x _) _ => negb (of_name a && mem x ks)
    | _ => true
    end).

(** a binding of [data] in [x]: bindings are not nested; a name that is bound inside of
    [x] is neither bound by the binding nor mentioned by its data *)
Definition bind_ok (strict : bool) (x : bx) (data : list (string * bx)) : Prop :=
  bindless x = true /\ Forall (fun p => bindless (snd p) = true) data /\
  unsigned x = true /\ exposed (map fst data) x = true /\
  exists B, Forall (fun p => within strict B (snd p) = true) data /\
            Forall (fun y => B y = false /\ ~ In y (map fst data)) (binders x).
Fixpoint bindings (strict : bool) (e : bx) : Prop :=
  match e with
  | BBool _ | BNum _ | BVar _ _ => True
  | BNot x | BAttr _ x _ | BSel x _ _ | BConv _ x => bindings strict x
  | BAss _ ts | BCall _ ts _ | BAgg ts => fold_right (fun t P => bindings strict t /\ P) True ts
  | BBin _ l r | BRel _ l r | BIn _ l r => bindings strict l /\ bindings strict r
  | BQuant _ _ i q => bindings strict i /\ bindings strict q
  | BCompr _ a s c => bindings strict a /\ bindings strict s /\ bindings strict c
  | BMsg _ fs => fold_right (fun f P => bindings strict (snd f) /\ P) True fs
  | BBind x data => bind_ok strict x data
  end.

(** an equality test: the same expression *)
Definition sattr_eqb (a b : sattr) : bool :=
  match a, b with
  | SInt ASize, SInt ASize | SInt ALength, SInt ALength | SInt AFirst, SInt AFirst | SInt ALast, SInt ALast => true
  | SValidChecksum, SValidChecksum | SValid, SValid | SPresent, SPresent | SHead, SHead | SOpaque, SOpaque => true
  | _, _ => false
  end.
Definition list_eqb {A} (f : A -> A -> bool) : list A -> list A -> bool :=
  fix go (l m : list A) : bool :=
  match l, m with [], [] => true | x :: r, y :: s => f x y && go r s | _, _ => false end.
Fixpoint bx_eqb (a b : bx) {struct a} : bool :=
  match a, b with
  | BBool x, BBool y => Bool.eqb x y
  | BNum x, BNum y => x =? y
  | BVar x s, BVar y t => String.eqb x y && Bool.eqb s t
  | BNot x, BNot y => bx_eqb x y
  | BAss o ts, BAss p us => assop_eqb o p && list_eqb bx_eqb ts us
  | BBin o l r, BBin p m s => binop_eqb o p && bx_eqb l m && bx_eqb r s
  | BRel o l r, BRel p m s => relop_eqb o p && bx_eqb l m && bx_eqb r s
  | BIn o l r, BIn p m s => Bool.eqb o p && bx_eqb l m && bx_eqb r s
  | BAttr x e s, BAttr y f t => sattr_eqb x y && bx_eqb e f && Bool.eqb s t
  | BSel e x s, BSel f y t => bx_eqb e f && String.eqb x y && Bool.eqb s t
  | BCall x es s, BCall y fs t => String.eqb x y && list_eqb bx_eqb es fs && Bool.eqb s t
  | BAgg es, BAgg fs => list_eqb bx_eqb es fs
  | BQuant q x l r, BQuant p y m s => Bool.eqb q p && String.eqb x y && bx_eqb l m && bx_eqb r s
  | BConv x e, BConv y f => String.eqb x y && bx_eqb e f
  | BCompr x l m r, BCompr y l' m' r' => String.eqb x y && bx_eqb l l' && bx_eqb m m' && bx_eqb r r'
  | BMsg x es, BMsg y fs => String.eqb x y && list_eqb (fun p q => String.eqb (fst p) (fst q) && bx_eqb (snd p) (snd q)) es fs
  | BBind e es, BBind f fs => bx_eqb e f && list_eqb (fun p q => String.eqb (fst p) (fst q) && bx_eqb (snd p) (snd q)) es fs
  | _, _ => false
  end.
