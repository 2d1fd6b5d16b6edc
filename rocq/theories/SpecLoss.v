(** What a failed member may do to the data: nothing is added, reordered or
    changed; what disappears was accepted at a position of that member. *)
From Coq Require Import List.
From Verif Require Import Base Util Data Value Ivt Scalar Validate Fun SpecBase SpecPos.
Import ListNotations.

(** [thinned L a b]: [a] is [b], in the same order, without some elements; each
    element that is missing satisfies [L]. *)
Inductive thinned (L : value -> Prop) : list value -> list value -> Prop :=
| thinned_end : thinned L [] []
| thinned_keep x a b : thinned L a b -> thinned L (x :: a) (x :: b)
| thinned_drop x a b : L x -> thinned L a b -> thinned L a (x :: b).

Section Loss.
Variable X : ext.
Variable lk : lookup_context.

(** The element was accepted by a type written among the members [ms]. *)
Definition element_accepted (c : ctx) (ms : list node) (x : value) : Prop :=
  exists c' t, element_type lk c ms c' t /\ val X lk x t c' = Ok tt.
(** The element was accepted inside a parenthesised group found among the members. *)
Definition taken_by_group (c : ctx) (ms : list node) (x : value) : Prop :=
  exists c' gs, array_pos lk c ms c' (NGroup gs) /\ element_accepted c' gs x.

(** The same for map entries. *)
Definition entry_accepted (c : ctx) (ms : list node) (x : value * value) : Prop :=
  exists c' key t, entry_type lk c ms c' key t /\ val X lk (fst x) key c' = Ok tt /\ val X lk (snd x) t c' = Ok tt.
Definition entry_taken_by_group (c : ctx) (ms : list node) (x : value * value) : Prop :=
  exists c' gs, map_pos lk c ms c' (NGroup gs) /\ entry_accepted c' gs x.
End Loss.
