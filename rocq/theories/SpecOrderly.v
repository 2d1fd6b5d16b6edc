(** Specification: schemas in which greedy, ordered matching loses nothing.

    Stated on the declarative reading [means] only: which sequences of elements
    and which sets of entries a member describes.  The conditions are the usual
    ones for deciding with one element (or one key) of look-ahead. *)
From Coq Require Import List Bool ZArith NArith String Permutation.
From Verif Require Import Base Util Data Value Ivt Validate Fun ConvertProofs SpecPeg.
Import ListNotations.

Section Orderly.
Variable X : ext.
Variable lk : lookup_context.
Notation means := (means X lk).

(** ** Arrays *)

(** Some sequence described by the member starts with [v]. *)
Definition begins (c : ctx) (m : node) (v : value) : Prop := exists a, means c m (AList (v :: a)).
(** Some sequence described by the member can be continued with [v]. *)
Definition extends (c : ctx) (m : node) (v : value) : Prop :=
  exists a b, means c m (AList a) /\ means c m (AList (a ++ v :: b)).
Definition may_be_empty (c : ctx) (m : node) : Prop := means c m (AList []).

(** What may continue a member does not start what comes after it. *)
Definition in_order (c : ctx) (ms : list node) : Prop :=
  forall pre m post v, ms = pre ++ m :: post -> extends c m v -> ~ begins c (NGroup post) v.
(** Alternatives start differently, and only the last one may be empty. *)
Definition told_apart (c : ctx) (ms : list node) : Prop :=
  forall pre m post m', ms = pre ++ m :: post -> In m' post ->
    ~ may_be_empty c m /\ forall v, begins c m v -> ~ begins c m' v.
(** One round of a repetition ends before the next one starts. *)
Definition repeatable (c : ctx) (m : node) : Prop :=
  ~ may_be_empty c m /\ forall v, extends c m v -> ~ begins c m v.

(** ** Maps *)

(** The member has an entry whose key type describes [k]. *)
Inductive wants : ctx -> node -> value -> Prop :=
| wants_entry c key t cut k : means c key (AValue k) -> wants c (NKeyValue key t cut) k
| wants_name c name args m' c' k : lookup_rule lk c name args = Ok (m', c') -> wants c' m' k -> wants c (NRule name args) k
| wants_choice c ms m k : In m ms -> wants c m k -> wants c (NChoice ms) k
| wants_group c ms m k : In m ms -> wants c m k -> wants c (NGroup ms) k
| wants_occur c l m k : wants c m k -> wants c (NOccur l m) k
| wants_unwrap c name args ms c' m k : lookup_rule lk c name args = Ok (NMap ms, c') -> In m ms -> wants c' m k ->
    wants c (NUnwrap name args) k.

(** The member never forbids a later alternative: it is a group, or has no cuts. *)
Inductive cutless : ctx -> node -> Prop :=
| cutless_entry c key t : cutless c (NKeyValue key t false)
| cutless_group c ms : cutless c (NGroup ms)
| cutless_name c name args :
    (forall m' c', lookup_rule lk c name args = Ok (m', c') -> cutless c' m') -> cutless c (NRule name args)
| cutless_choice c ms : (forall m, In m ms -> cutless c m) -> cutless c (NChoice ms)
| cutless_occur c l m : cutless c m -> cutless c (NOccur l m)
| cutless_unwrap c name args :
    (forall ms c' m, lookup_rule lk c name args = Ok (NMap ms, c') -> In m ms -> cutless c' m) -> cutless c (NUnwrap name args).

(** In a map described by the members, no member wants a key that belongs to a later
    one (keys it claims do not). *)
Definition keys_in_order (c : ctx) (ms : list node) : Prop :=
  forall pre m post p p' k, ms = pre ++ m :: post -> means c m (ASet p) -> means c (NGroup post) (ASet p') ->
    NoDup (keys p ++ keys p') -> (forall k, claims lk c m k -> ~ In k (keys p')) -> In k (keys p') -> ~ wants c m k.
(** No alternative describes a part of what a later one describes, and none with
    a cut wants a key of a later one. *)
Definition entries_apart (c : ctx) (ms : list node) : Prop :=
  forall pre m post m' p, ms = pre ++ m :: post -> In m' post -> means c m' (ASet p) -> NoDup (keys p) ->
    (forall p' r, Permutation p (p' ++ r) -> ~ means c m (ASet p')) /\
    (cutless c m \/ forall k, In k (keys p) -> ~ wants c m k).
(** The member is a single entry (perhaps behind names and parentheses). *)
Inductive one_entry : ctx -> node -> Prop :=
| one_entry_here c key t cut : one_entry c (NKeyValue key t cut)
| one_entry_name c name args :
    (forall m' c', lookup_rule lk c name args = Ok (m', c') -> one_entry c' m') -> one_entry c (NRule name args)
| one_entry_group c m : one_entry c m -> one_entry c (NGroup [m]).

Section Class.
Variables (c0 : ctx) (nd0 : node).
Notation U := (uses lk c0 nd0).

Record orderly : Prop := Orderly {
  ord_tame : tame lk c0 nd0;
  ord_array : forall c ms, U AsType c (NArray ms) -> in_order c ms;
  ord_group : forall c ms, U AsArray c (NGroup ms) -> in_order c ms;
  ord_unwrap : forall c name args ms c', U AsArray c (NUnwrap name args) ->
    lookup_rule lk c name args = Ok (NArray ms, c') -> in_order c' ms;
  ord_choice : forall c ms, U AsArray c (NChoice ms) -> told_apart c ms;
  ord_occur : forall c l m, U AsArray c (NOccur l m) -> repeatable c m;
  ord_map : forall c ms, U AsType c (NMap ms) -> keys_in_order c ms;
  ord_group_m : forall c ms, U AsMap c (NGroup ms) -> keys_in_order c ms;
  ord_unwrap_m : forall c name args ms c', U AsMap c (NUnwrap name args) ->
    lookup_rule lk c name args = Ok (NMap ms, c') -> keys_in_order c' ms;
  ord_choice_m : forall c ms, U AsMap c (NChoice ms) -> entries_apart c ms;
  ord_occur_m : forall c l m, U AsMap c (NOccur l m) -> one_entry c m;
  (** [&name] and [&( )] are not used as map members. *)
  ord_one_of : forall c name args, ~ U AsMap c (NChoiceify name args);
  ord_inline : forall c is, ~ U AsMap c (NChoiceifyInline is);
  (** Key types accept the keys they describe. *)
  ord_key : forall c key t cut k, U AsMap c (NKeyValue key t cut) -> keys_sorted k ->
    means c key (AValue k) -> val X lk k key c = Ok tt
}.
End Class.
End Orderly.
