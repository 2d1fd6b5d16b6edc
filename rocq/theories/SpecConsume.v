(** Members that cannot succeed without using up an element of the array, or an
    entry of the map.  Defined on the schema only. *)
From Coq Require Import List Bool ZArith NArith String.
From Verif Require Import Base Util Data Value Convert Ivt Scalar Validate Fun SpecBase ArrayInv.
Import ListNotations.

Section Consume.
Variable lk : lookup_context.

Inductive eats_a : ctx -> node -> Prop :=
| ea_type c m : plain_member m -> eats_a c m
| ea_kv c key vl cut : eats_a c (NKeyValue key vl cut)
| ea_rule c name args :
    (forall nd' c', lookup_rule lk c name args = Ok (nd', c') -> eats_a c' nd') ->
    eats_a c (NRule name args)
| ea_unwrap c name args ms c' m : lookup_rule lk c name args = Ok (NArray ms, c') ->
    In m ms -> eats_a c' m -> eats_a c (NUnwrap name args)
| ea_occur c lim m : (0 < fst (bounds lim))%N -> eats_a c m -> eats_a c (NOccur lim m)
| ea_choice c os : (forall o, In o os -> eats_a c o) -> eats_a c (NChoice os)
| ea_group c ms m : In m ms -> eats_a c m -> eats_a c (NGroup ms).

(** In a map only key-value members use up entries; a plain type never succeeds
    as a member of a map. *)
Inductive eats_m : ctx -> node -> Prop :=
| em_type c m :
    match m with
    | NLiteral _ | NPrelude _ | NMap _ | NArray _ | NRange _ _ _ | NControl _ => True
    | _ => False
    end -> eats_m c m
| em_kv c key vl cut : eats_m c (NKeyValue key vl cut)
| em_rule c name args :
    (forall nd' c', lookup_rule lk c name args = Ok (nd', c') -> eats_m c' nd') ->
    eats_m c (NRule name args)
| em_unwrap c name args ms c' m : lookup_rule lk c name args = Ok (NMap ms, c') ->
    In m ms -> eats_m c' m -> eats_m c (NUnwrap name args)
| em_occur c lim m : (0 < fst (bounds lim))%N -> eats_m c m -> eats_m c (NOccur lim m)
| em_choice c os : (forall o, In o os -> eats_m c o) -> eats_m c (NChoice os)
| em_inline c os : (forall o, In o os -> eats_m c o) -> eats_m c (NChoiceifyInline os)
| em_group c ms m : In m ms -> eats_m c m -> eats_m c (NGroup ms)
| em_choiceify c name args : eats_mc c name args -> eats_m c (NChoiceify name args)
with eats_mc : ctx -> text -> list node -> Prop :=
| emc c name args :
    (forall n' a' c', lookup_rule lk c name args = Ok (NRule n' a', c') -> eats_mc c' n' a') ->
    (forall ms c' n' a', lookup_rule lk c name args = Ok (NGroup ms, c') ->
       In (NRule n' a') ms -> eats_mc c' n' a') ->
    (forall ms c' key vl cut, lookup_rule lk c name args = Ok (NGroup ms, c') ->
       In (NKeyValue key vl cut) ms -> eats_m c' vl) ->
    (forall ms c' m, lookup_rule lk c name args = Ok (NGroup ms, c') -> In m ms ->
       match m with NRule _ _ | NKeyValue _ _ _ => False | _ => True end -> eats_m c' m) ->
    eats_mc c name args.
End Consume.
