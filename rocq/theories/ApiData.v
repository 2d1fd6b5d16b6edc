(** Model of the entry points that take decoded data: src/cbor.rs 124-131 and
    src/json.rs 82-89. *)
From Coq Require Import List Bool ZArith NArith.
From Verif Require Import Base Util Data Value Ivt Convert Validate Fun.

(** src/cbor.rs 124-131: [validate_cbor]. *)
Definition validate_cbor (X : ext) (lk : lookup_context) (def : rule_def) (c : cbor) : res unit :=
  match of_cbor c with
  | Ok v => run_validate X lk v def
  | Err e => Err e
  | Panic => Panic
  end.

(** src/json.rs 82-89: [validate_json]. *)
Definition validate_json (X : ext) (lk : lookup_context) (def : rule_def) (j : json) : res unit :=
  match of_json j with
  | Ok v => run_validate X lk v def
  | Err e => Err e
  | Panic => Panic
  end.
