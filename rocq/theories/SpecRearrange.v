(** Encodings of the same document: entries of maps in another order, or with
    entries that a later one with the same key replaces, at any depth. *)
From Coq Require Import List Bool ZArith NArith Permutation.
From Verif Require Import Base Util Data Value SpecBase SpecConvert.
Import ListNotations.
Open Scope list_scope.

(** No two entries have keys with the same meaning. *)
Definition keys_apart (es : list (cbor * cbor)) : Prop :=
  forall pre e mid e' post k, es = pre ++ e :: mid ++ e' :: post ->
    cbor_means (fst e) k -> cbor_means (fst e') k -> False.

Inductive rearranged : cbor -> cbor -> Prop :=
| re_same c : rearranged c c
| re_sym c c' : rearranged c c' -> rearranged c' c
| re_trans c c' c'' : rearranged c c' -> rearranged c' c'' -> rearranged c c''
| re_element pre c c' post : rearranged c c' -> rearranged (CArray (pre ++ c :: post)) (CArray (pre ++ c' :: post))
| re_key pre k k' v post : rearranged k k' -> rearranged (CMap (pre ++ (k, v) :: post)) (CMap (pre ++ (k', v) :: post))
| re_value pre k v v' post : rearranged v v' -> rearranged (CMap (pre ++ (k, v) :: post)) (CMap (pre ++ (k, v') :: post))
| re_order es es' : Permutation es es' -> keys_apart es -> rearranged (CMap es) (CMap es')
| re_replaced pre k v mid v' post k0 v0 : cbor_means k k0 -> cbor_means v v0 ->
    rearranged (CMap (pre ++ (k, v) :: mid ++ (k, v') :: post)) (CMap (pre ++ mid ++ (k, v') :: post)).

Inductive rearranged_json : json -> json -> Prop :=
| rej_same c : rearranged_json c c
| rej_sym c c' : rearranged_json c c' -> rearranged_json c' c
| rej_trans c c' c'' : rearranged_json c c' -> rearranged_json c' c'' -> rearranged_json c c''
| rej_element pre c c' post : rearranged_json c c' -> rearranged_json (JArray (pre ++ c :: post)) (JArray (pre ++ c' :: post))
| rej_value pre k v v' post : rearranged_json v v' -> rearranged_json (JObject (pre ++ (k, v) :: post)) (JObject (pre ++ (k, v') :: post))
| rej_order es es' : Permutation es es' -> NoDup (map fst es) -> rearranged_json (JObject es) (JObject es')
| rej_replaced pre k v mid v' post :
    rearranged_json (JObject (pre ++ (k, v) :: mid ++ (k, v') :: post)) (JObject (pre ++ mid ++ (k, v') :: post)).
