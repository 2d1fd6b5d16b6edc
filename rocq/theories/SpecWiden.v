(** Specification: changes of a schema that keep what it describes.

    [wider t t']: node [t'] of the new schema stands where [t] stood in the old one,
    and describes at least as much.  Allowed are: a leaf type that accepts more, [any]
    for a type, more options in a choice (or a choice instead of a type), wider
    limits of an occurrence, an occurrence around a member, new optional members,
    a wider type for an entry, dropping a cut, wider definitions of rules, new rules. *)
From Coq Require Import List Bool ZArith NArith String.
From Verif Require Import Base Util Data Value Ivt Validate Fun SpecBase SpecPeg.
Import ListNotations.

(** Where members stand. *)
Inductive place := InArray | InMap | InGroup.

Section Widen.
Variable X : ext.
(** The rules of the old and of the new schema. *)
Variables lk lk' : lookup_context.
(** Names used as types or members in the old schema; names that are never generic
    parameters; names used with [&]; names used with [~]. *)
Variables old plain amp tilde : text -> Prop.

Definition unbound (c : ctx) : Prop := forall n, plain n -> gm_get n (ctx_map c) = None.

Inductive wider : node -> node -> Prop :=
| wide_core t t' : core t t' -> wider t t'
| wide_option t t' ts' : In t' ts' -> wider t t' -> wider t (NChoice ts')
with core : node -> node -> Prop :=
| wide_leaf t t' : leaf t = true -> leaf t' = true ->
    (forall c c' v, unbound c -> unbound c' -> ctx_depth c = ctx_depth c' -> val X lk v t c = Ok tt -> val X lk' v t' c' = Ok tt) ->
    core t t'
| wide_any t : only_type t = true -> core t (NPrelude PAny)
| wide_name name args args' : old name -> Forall2 wider args args' -> core (NRule name args) (NRule name args')
| wide_choice ts ts' : Forall (fun t => Exists (wider t) ts') ts -> core (NChoice ts) (NChoice ts')
| wide_group ms ms' : members InGroup ms ms' -> (forall t, ms = [t] -> exists t', ms' = [t'] /\ wider t t') ->
    core (NGroup ms) (NGroup ms')
| wide_array ms ms' : members InArray ms ms' -> core (NArray ms) (NArray ms')
| wide_map ms ms' : members InMap ms ms' -> core (NMap ms) (NMap ms')
| wide_cbor t t' : wider t t' -> core (NControl (CtlCbor t)) (NControl (CtlCbor t'))
| wide_entry key key' t t' cut cut' : wider key key' -> wider t t' ->
    (forall l, key' = NLiteral l -> cut' = true -> key = NLiteral l /\ cut = true) ->
    core (NKeyValue key t cut) (NKeyValue key' t' cut')
| wide_occur l l' m m' : (fst (bounds l') <= fst (bounds l))%N -> (snd (bounds l) <= snd (bounds l'))%N ->
    (1 <= snd (bounds l))%N -> wider m m' -> core (NOccur l m) (NOccur l' m')
| wide_unwrap name args args' : tilde name -> Forall2 wider args args' ->
    core (NUnwrap name args) (NUnwrap name args')
| wide_one_of name args args' : amp name -> Forall2 wider args args' ->
    core (NChoiceify name args) (NChoiceify name args')
| wide_inline is is' : Forall (fun i => Exists (fun i' => item i i' /\ wider i i') is') is ->
    core (NChoiceifyInline is) (NChoiceifyInline is')
(** Members of an array, a map, or a group.  A new optional member of a map comes
    last or claims no key; a new optional member of a group claims no key. *)
with members : place -> list node -> list node -> Prop :=
| mem_end b : members b [] []
| mem_same b m m' ms ms' : wider m m' -> members b ms ms' -> members b (m :: ms) (m' :: ms')
| mem_optional b m m' l ms ms' : (fst (bounds l) <= 1 <= snd (bounds l))%N -> wider m m' -> members b ms ms' ->
    members b (m :: ms) (NOccur l m' :: ms')
| mem_new b l m' ms ms' : fst (bounds l) = 0%N ->
    match b with
    | InArray => True
    | InMap => ms = [] \/ forall c k, ~ claims lk' c (NOccur l m') k
    | InGroup => forall c k, ~ claims lk' c (NOccur l m') k
    end ->
    members b ms ms' -> members b ms (NOccur l m' :: ms')
(** The alternatives of [&name] and [&( )]. *)
with item : node -> node -> Prop :=
| item_type k k' t t' cut cut' : wider t t' -> item (NKeyValue k t cut) (NKeyValue k' t' cut')
| item_group name args args' : amp name -> Forall2 wider args args' -> item (NRule name args) (NRule name args')
| item_other i i' : match i with NKeyValue _ _ _ | NRule _ _ => False | _ => True end ->
    match i' with NKeyValue _ _ _ | NRule _ _ => False | _ => True end -> wider i i' -> item i i'.

(** Definitions of names used with [&] and with [~] keep their form. *)
Inductive amp_body : node -> node -> Prop :=
| amp_group is is' : Forall (fun i => Exists (item i) is') is -> amp_body (NGroup is) (NGroup is')
| amp_alias name args args' : amp name -> Forall2 wider args args' -> amp_body (NRule name args) (NRule name args')
| amp_none t t' : (forall is, t <> NGroup is) -> (forall n a, t <> NRule n a) -> amp_body t t'.
Inductive tilde_body : node -> node -> Prop :=
| tilde_array ms ms' : members InArray ms ms' -> tilde_body (NArray ms) (NArray ms')
| tilde_map ms ms' : members InGroup ms ms' -> tilde_body (NMap ms) (NMap ms')
| tilde_none t t' : (forall ms, t <> NArray ms) -> (forall ms, t <> NMap ms) -> (forall ms, t' <> NMap ms) -> tilde_body t t'.

(** A rule of the old schema and the rule of the same name in the new one. *)
Definition rule_widened (name : text) (d d' : rule_def) : Prop :=
  rd_parms d = rd_parms d' /\ (old name -> wider (rd_node d) (rd_node d')) /\
  (amp name -> amp_body (rd_node d) (rd_node d')) /\ (tilde name -> tilde_body (rd_node d) (rd_node d')).

Record rules_widened : Prop := {
  rw_rule : forall name, old name \/ amp name \/ tilde name ->
    match lk name, lk' name with
    | inl d, inl d' => rule_widened name d d'
    | inr _, inr _ => True
    | _, _ => False
    end;
  rw_params : forall name d p, lk name = inl d \/ lk' name = inl d -> In p (rd_parms d) -> ~ plain p;
  rw_amp : forall name, amp name -> plain name;
  rw_tilde : forall name, tilde name -> plain name
}.
End Widen.
