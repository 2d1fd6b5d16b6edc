(** What [&group] and [&( ... )] offer to choose from. *)
From Coq Require Import List Bool ZArith NArith String.
From Verif Require Import Base Util Data Value Convert Ivt Scalar Validate SpecBase.
Import ListNotations.

Section Choose.
Variable lk : lookup_context.

(** A name leads to a group, through other names. *)
Inductive leads_group : ctx -> text -> list node -> ctx -> list node -> Prop :=
| lg_here c name args c' ms : lookup_rule lk c name args = Ok (NGroup ms, c') -> leads_group c name args c' ms
| lg_next c name args c1 name' args' c' ms : lookup_rule lk c name args = Ok (NRule name' args', c1) ->
    leads_group c1 name' args' c' ms -> leads_group c name args c' ms.

(** The types offered by the members of a group: the value of a member with a
    key, the type of a member without key, and everything offered by a group
    that is a member. *)
Inductive offers : ctx -> list node -> ctx -> node -> Prop :=
| offer_value c ms k v cut : In (NKeyValue k v cut) ms -> offers c ms c v
| offer_type c ms t : In t ms -> (forall k v cut, t <> NKeyValue k v cut) -> (forall name args, t <> NRule name args) ->
    offers c ms c t
| offer_group c ms name args c1 ms1 c' t : In (NRule name args) ms -> leads_group c name args c1 ms1 ->
    offers c1 ms1 c' t -> offers c ms c' t.

(** All names among the members lead to groups, hereditarily. *)
Inductive groups_only : ctx -> list node -> Prop :=
| groups_intro c ms :
    (forall name args, In (NRule name args) ms -> exists c1 ms1, leads_group c name args c1 ms1 /\ groups_only c1 ms1) ->
    groups_only c ms.
End Choose.
