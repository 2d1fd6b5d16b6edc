(** Which nodes are used as array or map members when a member list is matched,
    reading the schema only (no data). *)
From Coq Require Import List Bool ZArith NArith String.
From Verif Require Import Base Util Data Value Ivt Validate SpecBase.
Import ListNotations.

Section Positions.
Variable lk : lookup_context.
Variables (c0 : ctx) (ms0 : list node).

(** [array_pos c m]: [m], in scope [c], is used as an array member. *)
Inductive array_pos : ctx -> node -> Prop :=
| apos_member m : In m ms0 -> array_pos c0 m
| apos_rule c name args nd' c' : array_pos c (NRule name args) ->
    lookup_rule lk c name args = Ok (nd', c') -> array_pos c' nd'
| apos_unwrap c name args ms c' m : array_pos c (NUnwrap name args) ->
    lookup_rule lk c name args = Ok (NArray ms, c') -> In m ms -> array_pos c' m
| apos_occur c lim m : array_pos c (NOccur lim m) -> array_pos c m
| apos_choice c os m : array_pos c (NChoice os) -> In m os -> array_pos c m
| apos_group c ms m : array_pos c (NGroup ms) -> In m ms -> array_pos c m.

(** [element_type c t]: [t] is a type that array elements are checked against. *)
Inductive element_type : ctx -> node -> Prop :=
| etype_kv c k t cut : array_pos c (NKeyValue k t cut) -> element_type c t
| etype_plain c t : array_pos c t ->
    match t with
    | NRule _ _ | NUnwrap _ _ | NOccur _ _ | NChoice _ | NGroup _ | NKeyValue _ _ _ => False
    | _ => True
    end -> element_type c t.

(** The same for map members; [map_choice_pos]: names used as [&name]. *)
Inductive map_pos : ctx -> node -> Prop :=
| mpos_member m : In m ms0 -> map_pos c0 m
| mpos_rule c name args nd' c' : map_pos c (NRule name args) ->
    lookup_rule lk c name args = Ok (nd', c') -> map_pos c' nd'
| mpos_unwrap c name args ms c' m : map_pos c (NUnwrap name args) ->
    lookup_rule lk c name args = Ok (NMap ms, c') -> In m ms -> map_pos c' m
| mpos_occur c lim m : map_pos c (NOccur lim m) -> map_pos c m
| mpos_choice c os m : map_pos c (NChoice os) -> In m os -> map_pos c m
| mpos_group c ms m : map_pos c (NGroup ms) -> In m ms -> map_pos c m
| mpos_inline c ms m : map_pos c (NChoiceifyInline ms) -> In m ms -> map_pos c m
| mpos_item c name args ms c' m : map_choice_pos c name args ->
    lookup_rule lk c name args = Ok (NGroup ms, c') -> In m ms ->
    match m with NRule _ _ | NKeyValue _ _ _ => False | _ => True end -> map_pos c' m
| mpos_item_value c name args ms c' k v cut : map_choice_pos c name args ->
    lookup_rule lk c name args = Ok (NGroup ms, c') -> In (NKeyValue k v cut) ms -> map_pos c' v
with map_choice_pos : ctx -> text -> list node -> Prop :=
| cpos_choiceify c name args : map_pos c (NChoiceify name args) -> map_choice_pos c name args
| cpos_alias c name args name' args' c' : map_choice_pos c name args ->
    lookup_rule lk c name args = Ok (NRule name' args', c') -> map_choice_pos c' name' args'
| cpos_item c name args ms name' args' c' : map_choice_pos c name args ->
    lookup_rule lk c name args = Ok (NGroup ms, c') -> In (NRule name' args') ms ->
    map_choice_pos c' name' args'.

Definition entry_type (c : ctx) (key val : node) : Prop := exists cut, map_pos c (NKeyValue key val cut).
End Positions.
