(** Specifications for scalar types (properties C01-C08). *)
From Coq Require Import List Bool ZArith NArith.
From Verif Require Import Base Util Data Value Ivt Validate SpecBase.
Import ListNotations.

(** The value a literal denotes. *)
Inductive lit_is : literal -> value -> Prop :=
| lit_bool b : lit_is (LBool b) (VBool b)
| lit_int z : lit_is (LInt z) (VInteger z)
| lit_float u : lit_is (LFloat u) (VFloat u)
| lit_text t : lit_is (LText t) (VText t)
| lit_bytes b : lit_is (LBytes b) (VBytes b).

(** The class of values of a prelude type. *)
Inductive in_prelude : prelude -> value -> Prop :=
| in_any v : in_prelude PAny v
| in_nil : in_prelude PNil VNull
| in_bool b : in_prelude PBool (VBool b)
| in_int z : in_prelude PInt (VInteger z)
| in_uint z : (0 <= z)%Z -> in_prelude PUint (VInteger z)
| in_nint z : (z < 0)%Z -> in_prelude PNint (VInteger z)
| in_float u : in_prelude PFloat (VFloat u)
| in_tstr t : in_prelude PTstr (VText t)
| in_bstr b : in_prelude PBstr (VBytes b).

(** Membership in an integer or float range. *)
Definition in_int_range (a b : Z) (inclusive : bool) (v : value) : Prop :=
  exists z, v = VInteger z /\ (a <= z)%Z /\ (if inclusive then z <= b else z < b)%Z.
Definition in_float_range (a b : N) (inclusive : bool) (v : value) : Prop :=
  exists x, v = VFloat x /\ ~ ieee_lt x a /\ (if inclusive then ieee_le x b else ieee_lt x b).

(** Kinds of literals. *)
Inductive same_kind : literal -> literal -> Prop :=
| sk_bool a b : same_kind (LBool a) (LBool b)
| sk_int a b : same_kind (LInt a) (LInt b)
| sk_float a b : same_kind (LFloat a) (LFloat b)
| sk_text a b : same_kind (LText a) (LText b)
| sk_bytes a b : same_kind (LBytes a) (LBytes b).

(** The four comparison operators. *)
Inductive cmp_op := OpLt | OpLe | OpGt | OpGe.
Definition cmp_holds (op : cmp_op) (x limit : Z) : Prop :=
  match op with
  | OpLt => x < limit | OpLe => x <= limit | OpGt => x > limit | OpGe => x >= limit
  end%Z.
Definition cmp_control (op : cmp_op) (target limit : node) : control node :=
  match op with
  | OpLt => CtlLt target limit | OpLe => CtlLe target limit
  | OpGt => CtlGt target limit | OpGe => CtlGe target limit
  end.

(** The least number of bytes that can hold [x]. *)
Definition min_bytes (x : Z) (k : Z) : Prop :=
  (0 <= k /\ 0 <= x < 256 ^ k /\ forall j, 0 <= j -> x < 256 ^ j -> k <= j)%Z.

Definition between (a b : Z) (inclusive : bool) (k : Z) : Prop :=
  (a <= k /\ if inclusive then k <= b else k < b)%Z.

(** Byte length of a string value. *)
Inductive byte_length : value -> Z -> Prop :=
| bl_bytes b : byte_length (VBytes b) (Z.of_nat (List.length b))
| bl_text t : byte_length (VText t) (Z.of_nat (List.length (utf8_encode t))).
