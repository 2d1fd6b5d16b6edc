(** Concrete oracles and schemas used by the Examples. *)
From Coq Require Import List Bool ZArith NArith String.
From Verif Require Import Base Util Data Value Ivt Validate Fun.
Import ListNotations.

(** Oracles for examples: a "regex" matches the texts equal to it, the "CBOR
    decoder" knows one-byte unsigned integers, base64 and escapes are refused. *)
Definition demo_ext : ext := {|
  f64_display := fun _ => txt "float";
  f64_parse := fun _ => None;
  regex_compiles := fun _ => true;
  regex_match := text_eqb;
  cbor_decode := fun b => match b with [x] => inl (CInteger (Z.of_N x)) | _ => inr (txt "bad") end;
  json_decode := fun _ => inr (txt "bad");
  unescape := fun t => Some t;
  base64_decode := fun _ => None
|}.

Definition no_rules : lookup_context := basic_context [].
Definition int_t := NPrelude PInt.
Definition tstr_t := NPrelude PTstr.
Definition lit_i (z : Z) := NLiteral (LInt z).
Definition lit_s (s : string) := NLiteral (LText (txt s)).
Definition name_ (s : string) := NRule (txt s) [].
Definition vi (z : Z) := VInteger z.
Definition vs (s : string) := VText (txt s).

(** Evaluate a fuel-free validation by running it with the given fuel. *)
Ltac run n := apply (val_run _ _ n); vm_compute; reflexivity.
