(** Vocabulary of the specifications: verdicts, well-formed data, IEEE-754
    numbers.  Nothing here refers to the functions of the model except the
    types of values, results, nodes and contexts. *)
From Coq Require Import List Bool ZArith NArith Sorted.
From Verif Require Import Base Util Data Value Ivt Validate.
Import ListNotations.

(** * Verdicts *)

(** [decides P r]: the result [r] says exactly whether [P] holds: success if it
    does, an ordinary mismatch otherwise. *)
Inductive decides (P : Prop) : res unit -> Prop :=
| decides_yes : P -> decides P (Ok tt)
| decides_no m : ~ P -> decides P (Err (EMismatch m)).

Definition is_structural (r : res unit) : Prop := exists m, r = Err (EStructural m).
Definition rejected (r : res unit) : Prop := exists m, r = Err (EMismatch m).

(** * Data that the Rust types can hold *)

Definition is_scalar (c : N) : Prop := (c < 0xD800 \/ (0xE000 <= c /\ c < 0x110000))%N.

(** Integers fit [i128], floats are 64-bit patterns, bytes are bytes, characters
    are Unicode scalar values, map keys are strictly increasing. *)
Fixpoint wf_value (v : value) : Prop :=
  match v with
  | VNull | VBool _ => True
  | VInteger z => (- 2 ^ 127 <= z < 2 ^ 127)%Z
  | VFloat u => (u < 2 ^ 64)%N
  | VBytes b => Forall (fun x => (x < 256)%N) b
  | VText t => Forall is_scalar t
  | VArray l => (fix go l := match l with [] => True | x :: l' => wf_value x /\ go l' end) l
  | VMap m =>
      (fix go m := match m with
                   | [] => True
                   | p :: m' => wf_value (fst p) /\ wf_value (snd p) /\ go m'
                   end) m
      /\ StronglySorted (fun p q => vcompare (fst p) (fst q) = Lt) m
  end.

(** * IEEE-754 binary64 *)

(** The number denoted by a 64-bit pattern: sign bit 63, 11 exponent bits, 52
    fraction bits.  A finite number is given multiplied by 2^1074, which makes
    it an integer. *)
Inductive f64_number := NaN | Infinite (negative : bool) | Finite (scaled : Z).

Definition f64_decode (u : N) : f64_number :=
  let negative := N.odd (u / 2 ^ 63) in
  let expo := ((u / 2 ^ 52) mod 2 ^ 11)%N in
  let frac := (u mod 2 ^ 52)%N in
  if N.eqb expo 2047 then (if N.eqb frac 0 then Infinite negative else NaN)
  else
    let mag := if N.eqb expo 0 then frac else ((2 ^ 52 + frac) * 2 ^ (expo - 1))%N in
    Finite (if negative then - Z.of_N mag else Z.of_N mag).

Definition ieee_lt (a b : N) : Prop :=
  match f64_decode a, f64_decode b with
  | NaN, _ | _, NaN => False
  | Infinite true, Infinite true => False
  | Infinite true, _ => True
  | Infinite false, _ => False
  | Finite _, Infinite n => n = false
  | Finite x, Finite y => (x < y)%Z
  end.
Definition ieee_eq (a b : N) : Prop :=
  match f64_decode a, f64_decode b with
  | NaN, _ | _, NaN => False
  | Infinite m, Infinite n => m = n
  | Finite x, Finite y => x = y
  | _, _ => False
  end.
Definition ieee_le (a b : N) : Prop := ieee_lt a b \/ ieee_eq a b.

(** * Literals and occurrences *)

(** The value that a literal denotes. *)
Definition literal_value (l : literal) : value :=
  match l with
  | LBool b => VBool b
  | LInt z => VInteger z
  | LFloat u => VFloat u
  | LText t => VText t
  | LBytes b => VBytes b
  end.

(** The least and the greatest number of times that an occurrence indicator
    allows (RFC 8610, 3.2); counts are 64-bit numbers,
    at most 2^64 - 1. *)
Definition bounds (o : occur_limit) : N * N :=
  match o with
  | OOptional => (0, 1)
  | OZeroOrMore => (0, 18446744073709551615)
  | OOneOrMore => (1, 18446744073709551615)
  | ONumbered n m => (n, m)
  end%N.

(** * Names *)

(** [named lk c nd nd' c']: following rule names (and generic parameters) from
    [nd] in scope [c] ends at [nd'], which is not a name, in scope [c']. *)
Inductive named (lk : lookup_context) : ctx -> node -> node -> ctx -> Prop :=
| named_here c nd : (forall n a, nd <> NRule n a) -> named lk c nd nd c
| named_step c name args nd1 c1 nd2 c2 :
    lookup_rule lk c name args = Ok (nd1, c1) ->
    named lk c1 nd1 nd2 c2 ->
    named lk c (NRule name args) nd2 c2.
