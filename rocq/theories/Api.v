(** Model of the entry points that take schema text: src/flatten.rs 22-35,
    src/cbor.rs 133-152, src/json.rs 91-110. *)
From Coq Require Import List Bool ZArith NArith.
From Verif Require Import Base Util Data Value Ivt Convert Validate Fun Ast Flatten Parser.

Section Api.
Variable X : ext.

(** The [?] of [flatten_from_str]: a parse error becomes
    [ValidateError::ParseError] (src/util.rs 16). *)
Definition parsed {A} (r : option (A + parse_error)) : res A :=
  match r with
  | Some (inl c) => Ok c
  | Some (inr e) => Err (EParse e)
  | None => Panic
  end.

(** src/flatten.rs 22-26: [flatten_from_str]. *)
Definition flatten_from_str (schema : text) : res rules :=
  bind_res (parsed (parse_cddl X schema)) (flatten X).

(** src/flatten.rs 32-35: [slice_flatten_from_str]. *)
Definition slice_flatten_from_str (schema : text) : res (list (text * (rule_def * text))) :=
  bind_res (parsed (slice_parse_cddl X schema)) (slice_flatten X).

(** [ctx.rules.get(name).ok_or_else(..)], src/cbor.rs 139-143 and src/json.rs
    97-101. *)
Definition get_rule (rs : rules) (name : text) : res rule_def :=
  match rules_get rs name with
  | Some def => Ok def
  | None => Err (EMissingRule name)
  end.

(** src/cbor.rs 134-152: [validate_cbor_bytes]. *)
Definition validate_cbor_bytes (name schema : text) (data : bytes) : res unit :=
  bind_res (flatten_from_str schema) (fun rs =>
  bind_res (get_rule rs name) (fun def =>
    match cbor_decode X data with
    | inr m => Err (EValueError m)
    | inl c => bind_res (of_cbor c) (fun v => run_validate X (basic_context rs) v def)
    end)).

(** src/json.rs 92-110: [validate_json_str]. *)
Definition validate_json_str (name schema data : text) : res unit :=
  bind_res (flatten_from_str schema) (fun rs =>
  bind_res (get_rule rs name) (fun def =>
    match json_decode X data with
    | inr m => Err (EValueError m)
    | inl j => bind_res (of_json j) (fun v => run_validate X (basic_context rs) v def)
    end)).
End Api.
