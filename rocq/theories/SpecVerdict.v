(** When two results are the same verdict: texts of messages are ignored. *)
From Coq Require Import List NArith String.
From Verif Require Import Base Util.
Import ListNotations.

(** The kind of an error, with the name of a missing rule. *)
Definition error_kind (e : verror) : verror :=
  match e with
  | EParse p => EParse p
  | EStructural _ => EStructural []
  | EMismatch _ => EMismatch []
  | EMapCut _ => EMapCut []
  | EMissingRule name => EMissingRule name
  | EUnsupported _ => EUnsupported []
  | EValueError _ => EValueError []
  | EGenericError => EGenericError
  end.

Definition same_verdict {A} (r1 r2 : res A) : Prop :=
  match r1, r2 with
  | Ok a, Ok b => a = b
  | Err e1, Err e2 => error_kind e1 = error_kind e2
  | _, _ => False
  end.
