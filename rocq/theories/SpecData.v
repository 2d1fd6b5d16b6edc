(** Specification vocabulary for arrays and maps. *)
From Coq Require Import List Bool ZArith NArith String.
From Verif Require Import Base Util Data Value Convert Ivt Scalar Validate Fun SpecBase.
Import ListNotations.

(** A node that stands for exactly one array element: a type written directly, a
    name leading to one, or a choice between such nodes. *)
Inductive one_type (lk : lookup_context) : ctx -> node -> Prop :=
| one_plain c m :
    match m with
    | NRule _ _ | NUnwrap _ _ | NOccur _ _ | NChoice _ | NGroup _ | NKeyValue _ _ _ => False
    | _ => True
    end -> one_type lk c m
| one_rule c name args nd' c' :
    lookup_rule lk c name args = Ok (nd', c') -> one_type lk c' nd' -> one_type lk c (NRule name args)
| one_choice c os : (forall o, In o os -> one_type lk c o) -> one_type lk c (NChoice os).

(** An array member that stands for one element of type [t]: [t] itself, or
    [key: t] (keys are ignored in arrays). *)
Inductive element (lk : lookup_context) (c : ctx) : node -> node -> Prop :=
| element_type t : one_type lk c t -> element lk c t t
| element_kv k t cut : element lk c (NKeyValue k t cut) t.

Definition accepts (X : ext) (lk : lookup_context) (c : ctx) (t : node) (v : value) : Prop :=
  val X lk v t c = Ok tt.
(** The verdict is acceptance or an ordinary mismatch. *)
Definition settled (X : ext) (lk : lookup_context) (c : ctx) (t : node) (v : value) : Prop :=
  accepts X lk c t v \/ rejected (val X lk v t c).

(** A field of a struct-like map: literal key, type, required or optional, with
    ([key: t], [key ^ => t]) or without ([key => t]) cut. *)
Record field := Field { f_key : literal; f_type : node; f_required : bool; f_cut : bool }.
Definition field_member (f : field) : node :=
  let kv := NKeyValue (NLiteral (f_key f)) (f_type f) (f_cut f) in
  if f_required f then kv else NOccur OOptional kv.
Definition field_key (f : field) : value := literal_value (f_key f).
