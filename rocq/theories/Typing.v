(** Model of the types of expressions, rflx/typing_.py. *)
From Coq Require Import String List ZArith Bool.
From Verif Require Import Base.
Import ListNotations.
Local Open Scope string_scope.
Local Open Scope list_scope.
Local Open Scope Z_scope.
Local Open Scope res_scope.

(** Bounds, typing_.py:9-15; [None] is Python's None.  The assertion lower <= upper of
    __post_init__ is [wf_bounds]. *)
Record bounds := mkBounds { lower : option Z; upper : option Z }.
Definition wf_bounds (b : bounds) : bool :=
  match lower b, upper b with Some l, Some u => l <=? u | _, _ => true end.
Definition no_bounds : bounds := mkBounds None None.
Definition known (l u : Z) : bounds := mkBounds (Some l) (Some u).

(** Bounds.__bool__, 17-18 *)
Definition defined_bounds (b : bounds) : bool :=
  match lower b, upper b with Some _, Some _ => true | _, _ => false end.
(** Bounds.__contains__ for an int, 20-24 *)
Definition contains_int (self : bounds) (v : Z) : bool :=
  match lower self, upper self with Some l, Some u => (l <=? v) && (v <=? u) | _, _ => false end.
(** Bounds.__contains__ for bounds, 25-35: "item in self" *)
Definition contains (self item : bounds) : bool :=
  if negb (defined_bounds self) && negb (defined_bounds item) then true
  else match lower self, upper self, lower item, upper item with
       | Some l, Some u, Some il, Some iu => (l <=? il) && (iu <=? u)
       | _, _, _, _ => false
       end.
(** Bounds.union, 44-48 *)
Definition union (a b : bounds) : bounds :=
  match lower a, upper a, lower b, upper b with
  | Some al, Some au, Some bl, Some bu => known (Z.min al bl) (Z.max au bu)
  | _, _, _, _ => no_bounds
  end.

Definition opt_eqb (a b : option Z) : bool :=
  match a, b with Some x, Some y => x =? y | None, None => true | _, _ => false end.
Definition bounds_eqb (a b : bounds) : bool := opt_eqb (lower a) (lower b) && opt_eqb (upper a) (upper b).

(** the classes with instances: Undefined 69-77, Any 80-88, Enumeration 104-109,
    AnyInteger 115-127, UndefinedInteger 130-135, UniversalInteger 138-162, Integer
    165-190, Aggregate 197-219, Array 222-247, Message 253-266, Private 269-274,
    Channel 277-301.  The set of field combinations and the dict of field types of a
    message are lists. *)
Inductive ty :=
| TUndefined
| TAny
| TEnumeration (name : string)
| TAnyInteger
| TUndefinedInteger
| TUniversal (b : bounds)
| TInteger (name : string) (b : bounds)
| TAggregate (element : ty)
| TArray (name : string) (element : ty)
| TMessage (name : string) (combinations : list (list string)) (types : list (string * ty))
           (refinements : list (string * ty))
| TPrivate (name : string)
| TChannel (readable writable : bool).

(** BOOLEAN, 112; OPAQUE, 250 *)
Definition BOOLEAN : ty := TEnumeration "__BUILTINS__::Boolean".
Definition OPAQUE : ty := TArray "Opaque" (TInteger "Byte" (known 0 255)).

Definition strings_eqb (a b : list string) : bool := if list_eq_dec string_dec a b then true else false.
(** equality of sets *)
Definition set_eqb (a b : list (list string)) : bool :=
  forallb (fun x => existsb (strings_eqb x) b) a && forallb (fun x => existsb (strings_eqb x) a) b.

(** "==": the dataclasses compare class and attributes *)
Fixpoint ty_eqb (a b : ty) : bool :=
  match a, b with
  | TUndefined, TUndefined | TAny, TAny | TAnyInteger, TAnyInteger | TUndefinedInteger, TUndefinedInteger => true
  | TEnumeration x, TEnumeration y | TPrivate x, TPrivate y => String.eqb x y
  | TUniversal x, TUniversal y => bounds_eqb x y
  | TInteger x b, TInteger y c => String.eqb x y && bounds_eqb b c
  | TAggregate x, TAggregate y => ty_eqb x y
  | TArray n x, TArray m y => String.eqb n m && ty_eqb x y
  | TMessage n c ts rs, TMessage n' c' ts' rs' =>
    String.eqb n n' && set_eqb c c'
    && Nat.eqb (List.length ts) (List.length ts')
    && forallb (fun kv => existsb (fun kv' => String.eqb (fst kv) (fst kv') && ty_eqb (snd kv) (snd kv')) ts') ts
    && (fix go (rs rs' : list (string * ty)) : bool :=
          match rs, rs' with
          | [], [] => true
          | (f, t) :: r, (f', t') :: r' => String.eqb f f' && ty_eqb t t' && go r r'
          | _, _ => false
          end) rs rs'
  | TChannel r w, TChannel r' w' => Bool.eqb r r' && Bool.eqb w w'
  | _, _ => false
  end.

(** isinstance (t, AnyInteger) *)
Definition is_integer (t : ty) : bool :=
  match t with TAnyInteger | TUndefinedInteger | TUniversal _ | TInteger _ _ => true | _ => false end.

(** is_compatible: Undefined 73-74, Any 84-85, IndependentType 95-96, AnyInteger
    119-120, Aggregate 205-210, Array 231-240, Channel 291-296; [strong] is
    is_compatible_strong of the elements *)
Definition compatible_with (strong : ty -> ty -> bool) (self other : ty) : bool :=
  match self with
  | TUndefined => false
  | TAny => match other with TUndefined => false | _ => true end
  | TEnumeration n => match other with TAny => true | TEnumeration n' => String.eqb n n' | _ => false end
  | TMessage n _ _ _ => match other with TAny => true | TMessage n' _ _ _ => String.eqb n n' | _ => false end
  | TPrivate n => match other with TAny => true | TPrivate n' => String.eqb n n' | _ => false end
  | TAnyInteger | TUndefinedInteger | TUniversal _ | TInteger _ _ =>
    match other with TAny => true | _ => is_integer other end
  | TAggregate e =>
    match other with TAny | TAggregate _ => true | TArray _ e' => strong e e' | _ => false end
  | TArray n e =>
    match other with
    | TAny => true
    | TAggregate e' => strong e' e
    | TArray n' e' => String.eqb n n' && ty_eqb e e'
    | _ => false
    end
  | TChannel r w =>
    match other with TAny => true | TChannel r' w' => (r || negb r') && (w || negb w') | _ => false end
  end.
(** is_compatible_strong: UniversalInteger 146-149, Integer 174-177, others 61-62 *)
Definition strong_with (compatible : ty -> ty -> bool) (self other : ty) : bool :=
  match self with
  | TUniversal b => match other with TUniversal _ => true | TInteger _ c => contains c b | _ => false end
  | TInteger _ b => ty_eqb self other || match other with TUniversal c => contains b c | _ => false end
  | _ => compatible self other
  end.

(** nesting of composite types: Python's recursion ends since the elements are smaller *)
Fixpoint depth (t : ty) : nat := match t with TAggregate e | TArray _ e => S (depth e) | _ => O end.
Fixpoint strong (n : nat) (self other : ty) : bool :=
  match n with
  | O => strong_with (compatible_with (fun _ _ => false)) self other
  | S n' => strong_with (compatible_with (strong n')) self other
  end.
Definition is_compatible_strong (self other : ty) : bool := strong (depth self) self other.
Definition is_compatible (self other : ty) : bool := compatible_with is_compatible_strong self other.

(** common_type: Undefined 76-77, Any 87-88, IndependentType 98-101, AnyInteger
    122-127, UndefinedInteger 132-135, UniversalInteger 151-162, Integer 179-190,
    Aggregate 212-219, Array 242-247, Channel 298-301 *)
Fixpoint common_type_of (self other : ty) : ty :=
  let self_or_undefined := match other with TAny => self | _ => if ty_eqb self other then self else TUndefined end in
  match self with
  | TUndefined => TUndefined
  | TAny => other
  | TEnumeration _ | TMessage _ _ _ _ | TPrivate _ | TChannel _ _ => self_or_undefined
  | TAnyInteger =>
    match other with TAny => self | _ => if is_integer other then other else TUndefined end
  | TUndefinedInteger =>
    match other with TAny => self | _ => if is_integer other then self else TUndefined end
  | TUniversal b =>
    match other with
    | TUndefinedInteger => TUndefinedInteger
    | TUniversal c => if bounds_eqb b c then self else TUniversal (union b c)
    | TInteger _ c => if contains c b then other else TUndefinedInteger
    | TAny | TAnyInteger => self
    | _ => TUndefined
    end
  | TInteger n b =>
    match other with
    | TUndefinedInteger => TUndefinedInteger
    | TUniversal c => if contains b c then self else TUndefinedInteger
    | TInteger n' c => if String.eqb n n' && bounds_eqb b c then self else TUndefinedInteger
    | TAny | TAnyInteger => self
    | _ => TUndefined
    end
  | TAggregate e =>
    match other with
    | TArray _ e' => if is_compatible_strong e e' then other else TUndefined
    | TAggregate e' => if ty_eqb e e' then self else TAggregate (common_type_of e e')
    | _ => self_or_undefined
    end
  | TArray n e =>
    match other with
    | TAggregate e' => if is_compatible_strong e e' then self else TUndefined
    | _ => self_or_undefined
    end
  end.

(** common_type, 304-310 *)
Definition common_type (types : list ty) : ty := fold_left common_type_of types TAny.

(** check_type, 313-347: the expected type or a tuple of types; the text of the errors
    is abbreviated and informational entries are dropped *)
Inductive expectation := One (t : ty) | Several (ts : list ty).
Definition check_type (actual : ty) (expected : expectation) : res (list string) :=
  match expected with
  | Several [] => Err "AssertionError"
  | _ =>
    match actual with
    | TUndefined => Ok ["undefined"]
    | _ =>
      let expected_types := match expected with One t => [t] | Several ts => ts end in
      let undefined := match expected with One TUndefined => true | _ => false end in
      if negb undefined && forallb (fun t => negb (is_compatible actual t)) expected_types
      then Ok ["unexpected type"] else Ok []
    end
  end.

(** classes of types, for isinstance *)
Inductive tclass := CAny | CAnyInteger | CComposite | CArray | CMessage.
Definition instance (t : ty) (c : tclass) : bool :=
  match c with
  | CAny => match t with TUndefined => false | _ => true end
  | CAnyInteger => is_integer t
  | CComposite => match t with TAggregate _ | TArray _ _ => true | _ => false end
  | CArray => match t with TArray _ _ => true | _ => false end
  | CMessage => match t with TMessage _ _ _ _ => true | _ => false end
  end.
(** check_type_instance, 350-382; [expected] is not empty *)
Definition check_type_instance (actual : ty) (expected : list tclass) : list string :=
  match actual with
  | TUndefined => ["undefined"]
  | TAny => []
  | _ => if existsb (instance actual) expected then [] else ["unexpected type"]
  end.
