(** Model of src/value.rs: the data being validated, with its derived order,
    and of the [BTreeMap] operations used by the validator. *)
From Coq Require Import List Bool ZArith NArith.
From Verif Require Import Base Util.
Import ListNotations.
Open Scope list_scope.

(** src/value.rs 16-27: [Value].  An [f64] is its 64-bit pattern ([N]); an
    [i128] is a [Z]; a [BTreeMap] is the list of its entries in key order. *)
Inductive value :=
| VNull
| VBool (b : bool)
| VInteger (z : Z)
| VFloat (bits : N)
| VBytes (b : bytes)
| VText (t : text)
| VArray (l : list value)
| VMap (m : list (value * value)).

(** float-ord 0.3 [FloatOrd::convert]: the integer key by which two [FloatOrd]
    are compared: flip the sign bit of non-negative patterns, all bits of
    negative ones. *)
Definition f64_msb : N := 0x8000000000000000.
Definition f64_ones : N := 0xFFFFFFFFFFFFFFFF.
Definition float_ord_key (u : N) : N :=
  if N.eqb (N.land u f64_msb) 0 then N.lor u f64_msb
  else N.lxor u f64_ones.

(** Lexicographic comparison of lists given the comparison of elements
    (derived [Ord] of [Vec], [BTreeMap] iteration order). *)
Definition lex {A} (cmp : A -> A -> comparison) : list A -> list A -> comparison :=
  fix go l1 l2 :=
    match l1, l2 with
    | [], [] => Eq
    | [], _ :: _ => Lt
    | _ :: _, [] => Gt
    | x :: l1', y :: l2' =>
        match cmp x y with
        | Eq => go l1' l2'
        | c => c
        end
    end.

(** Position of the variant in the declaration (derived [Ord]). *)
Definition variant (v : value) : N :=
  match v with
  | VNull => 0 | VBool _ => 1 | VInteger _ => 2 | VFloat _ => 3
  | VBytes _ => 4 | VText _ => 5 | VArray _ => 6 | VMap _ => 7
  end.

Definition bool_compare (a b : bool) : comparison :=
  match a, b with
  | false, true => Lt
  | true, false => Gt
  | _, _ => Eq
  end.

(** src/value.rs 16: derived [Ord for Value] (with [FloatOrd]'s [Ord]). *)
Fixpoint vcompare (a b : value) {struct a} : comparison :=
  match a, b with
  | VNull, VNull => Eq
  | VBool x, VBool y => bool_compare x y
  | VInteger x, VInteger y => Z.compare x y
  | VFloat x, VFloat y => N.compare (float_ord_key x) (float_ord_key y)
  | VBytes x, VBytes y => text_compare x y
  | VText x, VText y => text_compare x y
  | VArray x, VArray y => lex vcompare x y
  | VMap x, VMap y =>
      lex (fun p q =>
             match vcompare (fst p) (fst q) with
             | Eq => vcompare (snd p) (snd q)
             | c => c
             end) x y
  | _, _ => N.compare (variant a) (variant b)
  end.

(** Pointwise equality of lists given equality of elements. *)
Definition list_eqb {A} (eq : A -> A -> bool) : list A -> list A -> bool :=
  fix go l1 l2 :=
    match l1, l2 with
    | [], [] => true
    | x :: l1', y :: l2' => eq x y && go l1' l2'
    | _, _ => false
    end.

(** src/value.rs 16: derived [PartialEq for Value]; [FloatOrd] compares
    converted bit patterns. *)
Fixpoint veqb (a b : value) {struct a} : bool :=
  match a, b with
  | VNull, VNull => true
  | VBool x, VBool y => Bool.eqb x y
  | VInteger x, VInteger y => Z.eqb x y
  | VFloat x, VFloat y => N.eqb (float_ord_key x) (float_ord_key y)
  | VBytes x, VBytes y => text_eqb x y
  | VText x, VText y => text_eqb x y
  | VArray x, VArray y => list_eqb veqb x y
  | VMap x, VMap y =>
      list_eqb (fun p q => veqb (fst p) (fst q) && veqb (snd p) (snd q)) x y
  | _, _ => false
  end.

(** [BTreeMap::get]: entries are kept sorted by [vcompare]. *)
Fixpoint bt_get (k : value) (m : list (value * value)) : option value :=
  match m with
  | [] => None
  | (k', v') :: m' =>
      match vcompare k k' with
      | Eq => Some v'
      | Lt => None
      | Gt => bt_get k m'
      end
  end.

(** [BTreeMap::insert]: on an equal key the value is replaced (the old key is
    kept). *)
Fixpoint bt_insert (k v : value) (m : list (value * value)) : list (value * value) :=
  match m with
  | [] => [(k, v)]
  | (k', v') :: m' =>
      match vcompare k k' with
      | Eq => (k', v) :: m'
      | Lt => (k, v) :: m
      | Gt => (k', v') :: bt_insert k v m'
      end
  end.

(** [BTreeMap::remove]: the removed value (if any) and the new map. *)
Fixpoint bt_remove (k : value) (m : list (value * value))
  : option value * list (value * value) :=
  match m with
  | [] => (None, [])
  | (k', v') :: m' =>
      match vcompare k k' with
      | Eq => (Some v', m')
      | Lt => (None, m)
      | Gt => let (r, m'') := bt_remove k m' in (r, (k', v') :: m'')
      end
  end.

(** [BTreeMap::extend] / [FromIterator]: insert one by one. *)
Definition bt_extend (m : list (value * value)) (l : list (value * value)) :=
  fold_left (fun m p => bt_insert (fst p) (snd p) m) l m.

(** IEEE-754 [PartialOrd for f64] on bit patterns.  NaN: exponent all ones and
    non-zero fraction.  For non-NaN numbers the numeric order is the order of
    the sign-magnitude integers [f64_signed] (so that both zeros are equal). *)
Definition f64_is_nan (u : N) : bool :=
  let m := N.land u 0x7FFFFFFFFFFFFFFF in N.ltb 0x7FF0000000000000 m.
Definition f64_signed (u : N) : Z :=
  let m := Z.of_N (N.land u 0x7FFFFFFFFFFFFFFF) in
  if N.eqb (N.land u f64_msb) 0 then m else (- m)%Z.
Definition f64_lt (a b : N) : bool :=
  negb (f64_is_nan a) && negb (f64_is_nan b) && Z.ltb (f64_signed a) (f64_signed b).
Definition f64_le (a b : N) : bool :=
  negb (f64_is_nan a) && negb (f64_is_nan b) && Z.leb (f64_signed a) (f64_signed b).
