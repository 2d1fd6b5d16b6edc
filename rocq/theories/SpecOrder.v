(** The order of values, which is the order in which the entries of a map are
    visited.  Stated without the comparison function. *)
From Coq Require Import List ZArith NArith.
From Verif Require Import Base Util Data Value.
Import ListNotations.

(** The kinds of values, in order. *)
Inductive kind := KNull | KBool | KInteger | KFloat | KBytes | KText | KArray | KMap.
Definition kinds : list kind := [KNull; KBool; KInteger; KFloat; KBytes; KText; KArray; KMap].
Definition earlier (k k' : kind) : Prop := exists l1 l2 l3, kinds = l1 ++ k :: l2 ++ k' :: l3.
Definition kind_of (v : value) : kind :=
  match v with
  | VNull => KNull | VBool _ => KBool | VInteger _ => KInteger | VFloat _ => KFloat
  | VBytes _ => KBytes | VText _ => KText | VArray _ => KArray | VMap _ => KMap
  end.

(** Lists: a proper beginning comes first; otherwise the first difference decides. *)
Inductive list_before {A} (R : A -> A -> Prop) : list A -> list A -> Prop :=
| begins x l : list_before R [] (x :: l)
| differs x y l l' : R x y -> list_before R (x :: l) (y :: l')
| agrees x l l' : list_before R l l' -> list_before R (x :: l) (x :: l').

(** Floats, by their bits: negative before positive ones (zeroes included), negative
    ones by decreasing, positive ones by increasing magnitude. *)
Inductive float_before : N -> N -> Prop :=
| neg_pos u w : (2 ^ 63 <= u)%N -> (w < 2 ^ 63)%N -> float_before u w
| neg_neg u w : (2 ^ 63 <= w)%N -> (w < u)%N -> float_before u w
| pos_pos u w : (u < w)%N -> (w < 2 ^ 63)%N -> float_before u w.

Inductive before : value -> value -> Prop :=
| by_kind a b : earlier (kind_of a) (kind_of b) -> before a b
| bools : before (VBool false) (VBool true)
| integers x y : (x < y)%Z -> before (VInteger x) (VInteger y)
| floats u w : float_before u w -> before (VFloat u) (VFloat w)
| byte_strings x y : list_before N.lt x y -> before (VBytes x) (VBytes y)
| texts x y : list_before N.lt x y -> before (VText x) (VText y)
| arrays x y : list_before before x y -> before (VArray x) (VArray y)
| maps x y : list_before (fun p q => before (fst p) (fst q) \/ (fst p = fst q /\ before (snd p) (snd q))) x y ->
    before (VMap x) (VMap y).
