(** Data types of external crates that the crate consumes, and the record of
    external behaviours ("oracles") the model is parameterised by. *)
From Coq Require Import List Bool ZArith NArith.
From Verif Require Import Base.
Import ListNotations.

(** [ciborium::Value] (ciborium 0.2.2).  [CTag] is the only public variant not
    converted by the crate; the enum is [non_exhaustive], [CHidden] stands for
    any variant added later. *)
Inductive cbor :=
| CNull
| CBool (b : bool)
| CInteger (z : Z)
| CFloat (bits : N)
| CBytes (b : bytes)
| CText (t : text)
| CArray (l : list cbor)
| CMap (m : list (cbor * cbor))
| CTag (tag : N) (c : cbor)
| CHidden.

(** [serde_json::Number] (default features): non-negative integers are stored
    as [u64], negative ones as [i64], everything else as a float. *)
Inductive json_number :=
| JPosInt (n : N)
| JNegInt (z : Z)
| JFloat (bits : N).

(** [serde_json::Value]. *)
Inductive json :=
| JNull
| JBool (b : bool)
| JNumber (n : json_number)
| JString (t : text)
| JArray (l : list json)
| JObject (m : list (text * json)).

(** External behaviours.  Theorems quantify over every such record. *)
Record ext := Ext {
  (** [Display for f64] *)
  f64_display : N -> text;
  (** [str::parse::<f64>], result as bit pattern *)
  f64_parse : text -> option N;
  (** [RegexBuilder::new(re).size_limit(1 << 20).build().is_ok()] *)
  regex_compiles : text -> bool;
  (** [Regex::is_match] of the compiled pattern on a text *)
  regex_match : text -> text -> bool;
  (** [ciborium::from_reader]: value or error message *)
  cbor_decode : bytes -> cbor + text;
  (** [serde_json::from_str]: value or error message *)
  json_decode : text -> json + text;
  (** [escape8259::unescape] *)
  unescape : text -> option text;
  (** [base64::engine::general_purpose::URL_SAFE.decode] *)
  base64_decode : text -> option bytes
}.
