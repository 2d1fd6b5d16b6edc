(** What it means for a [value] to stand for CBOR or JSON data.  Refers only to
    the data types and to the order [vcompare] on values. *)
From Coq Require Import List Bool ZArith NArith Sorted.
From Verif Require Import Base Util Data Value SpecBase.
Import ListNotations.

(** [last_entry k v l]: the last entry for key [k] in [l] has value [v]. *)
Definition last_entry {K V} (k : K) (v : V) (l : list (K * V)) : Prop :=
  exists pre post, l = pre ++ (k, v) :: post /\ ~ In k (map fst post).

(** [m] holds, in strictly increasing key order, the last entry of every key
    of [l] and nothing else. *)
Definition map_of (l m : list (value * value)) : Prop :=
  StronglySorted (fun p q => vcompare (fst p) (fst q) = Lt) m /\
  forall k v, In (k, v) m <-> last_entry k v l.

(** The value a CBOR item stands for. *)
Inductive cbor_means : cbor -> value -> Prop :=
| cm_null : cbor_means CNull VNull
| cm_bool b : cbor_means (CBool b) (VBool b)
| cm_int z : cbor_means (CInteger z) (VInteger z)
| cm_float u : cbor_means (CFloat u) (VFloat u)
| cm_bytes b : cbor_means (CBytes b) (VBytes b)
| cm_text t : cbor_means (CText t) (VText t)
| cm_array l l' : Forall2 cbor_means l l' -> cbor_means (CArray l) (VArray l')
| cm_map es ps m :
    Forall2 (fun e p => cbor_means (fst e) (fst p) /\ cbor_means (snd e) (snd p)) es ps ->
    map_of ps m ->
    cbor_means (CMap es) (VMap m).

(** A tag (or an unknown kind of item) occurs somewhere in the item. *)
Inductive has_tag : cbor -> Prop :=
| ht_tag t c : has_tag (CTag t c)
| ht_hidden : has_tag CHidden
| ht_array l c : In c l -> has_tag c -> has_tag (CArray l)
| ht_key es k v : In (k, v) es -> has_tag k -> has_tag (CMap es)
| ht_value es k v : In (k, v) es -> has_tag v -> has_tag (CMap es).

(** The value a JSON item stands for. *)
Inductive json_means : json -> value -> Prop :=
| jm_null : json_means JNull VNull
| jm_bool b : json_means (JBool b) (VBool b)
| jm_pos n : json_means (JNumber (JPosInt n)) (VInteger (Z.of_N n))
| jm_neg z : json_means (JNumber (JNegInt z)) (VInteger z)
| jm_float u : json_means (JNumber (JFloat u)) (VFloat u)
| jm_string t : json_means (JString t) (VText t)
| jm_array l l' : Forall2 json_means l l' -> json_means (JArray l) (VArray l')
| jm_object es ps m :
    Forall2 (fun e p => fst p = VText (fst e) /\ json_means (snd e) (snd p)) es ps ->
    map_of ps m ->
    json_means (JObject es) (VMap m).

(** The CBOR item of the same shape as a JSON item. *)
Inductive same_data : json -> cbor -> Prop :=
| sd_null : same_data JNull CNull
| sd_bool b : same_data (JBool b) (CBool b)
| sd_pos n : same_data (JNumber (JPosInt n)) (CInteger (Z.of_N n))
| sd_neg z : same_data (JNumber (JNegInt z)) (CInteger z)
| sd_float u : same_data (JNumber (JFloat u)) (CFloat u)
| sd_string t : same_data (JString t) (CText t)
| sd_array l l' : Forall2 same_data l l' -> same_data (JArray l) (CArray l')
| sd_object es es' :
    Forall2 (fun e e' => fst e' = CText (fst e) /\ same_data (snd e) (snd e')) es es' ->
    same_data (JObject es) (CMap es').

(** Data the Rust types of [ciborium] and [serde_json] can hold. *)
Inductive wf_cbor : cbor -> Prop :=
| wc_null : wf_cbor CNull
| wc_bool b : wf_cbor (CBool b)
| wc_int z : (- 2 ^ 64 <= z < 2 ^ 64)%Z -> wf_cbor (CInteger z)
| wc_float u : (u < 2 ^ 64)%N -> wf_cbor (CFloat u)
| wc_bytes b : Forall (fun x => (x < 256)%N) b -> wf_cbor (CBytes b)
| wc_text t : Forall is_scalar t -> wf_cbor (CText t)
| wc_array l : Forall wf_cbor l -> wf_cbor (CArray l)
| wc_map es : Forall (fun e => wf_cbor (fst e) /\ wf_cbor (snd e)) es -> wf_cbor (CMap es)
| wc_tag t c : wf_cbor c -> wf_cbor (CTag t c)
| wc_hidden : wf_cbor CHidden.

Inductive wf_json : json -> Prop :=
| wj_null : wf_json JNull
| wj_bool b : wf_json (JBool b)
| wj_pos n : (n < 2 ^ 64)%N -> wf_json (JNumber (JPosInt n))
| wj_neg z : (- 2 ^ 63 <= z < 0)%Z -> wf_json (JNumber (JNegInt z))
| wj_float u : (u < 2 ^ 64)%N -> wf_json (JNumber (JFloat u))
| wj_string t : Forall is_scalar t -> wf_json (JString t)
| wj_array l : Forall wf_json l -> wf_json (JArray l)
| wj_object es : Forall (fun e => Forall is_scalar (fst e) /\ wf_json (snd e)) es -> wf_json (JObject es).
