(** Basic representations shared by the whole model.

    - A Rust [String]/[&str] is a list of Unicode scalar values ([text]).
    - A [Vec<u8>] is a list of numbers ([bytes]).
    - Rust integers are [Z] (or [N] for unsigned counters).

    Nothing in this file models a function of the crate; it models the parts of
    the Rust standard library the crate relies on (formatting of numbers,
    UTF-8 length, string comparison). *)
From Coq Require Import List Bool ZArith NArith Ascii String.
From Coq Require DecimalString DecimalN DecimalZ.
Import ListNotations.
Open Scope list_scope.

Definition text := list N.
Definition bytes := list N.

(** ASCII string literal to [text]. *)
Definition txt (s : string) : text := map N_of_ascii (list_ascii_of_string s).

(** String equality (std [PartialEq for str]). *)
Fixpoint text_eqb (a b : text) : bool :=
  match a, b with
  | [], [] => true
  | x :: a', y :: b' => N.eqb x y && text_eqb a' b'
  | _, _ => false
  end.

(** Lexicographic order (std [Ord for str]/[Ord for Vec<u8>]).  Rust compares
    strings by UTF-8 bytes; UTF-8 preserves code point order, so comparing code
    points is the same order. *)
Fixpoint text_compare (a b : text) : comparison :=
  match a, b with
  | [], [] => Eq
  | [], _ :: _ => Lt
  | _ :: _, [] => Gt
  | x :: a', y :: b' =>
      match N.compare x y with
      | Eq => text_compare a' b'
      | c => c
      end
  end.

(** Number of bytes of the UTF-8 encoding of one scalar value ([char::len_utf8]). *)
Definition utf8_len1 (c : N) : N :=
  if N.ltb c 0x80 then 1%N
  else if N.ltb c 0x800 then 2%N
  else if N.ltb c 0x10000 then 3%N
  else 4%N.

(** [str::len()]: length in UTF-8 bytes. *)
Fixpoint utf8_len (t : text) : N :=
  match t with
  | [] => 0%N
  | c :: t' => (utf8_len1 c + utf8_len t')%N
  end.

(** UTF-8 encoding of a scalar value / string ([str::as_bytes]). *)
Definition utf8_encode1 (c : N) : bytes :=
  if N.ltb c 0x80 then [c]
  else if N.ltb c 0x800 then
    [(0xC0 + c / 64)%N; (0x80 + c mod 64)%N]
  else if N.ltb c 0x10000 then
    [(0xE0 + c / 4096)%N; (0x80 + (c / 64) mod 64)%N; (0x80 + c mod 64)%N]
  else
    [(0xF0 + c / 262144)%N; (0x80 + (c / 4096) mod 64)%N;
     (0x80 + (c / 64) mod 64)%N; (0x80 + c mod 64)%N].

Definition utf8_encode (t : text) : bytes := flat_map utf8_encode1 t.

(** Integer formatting ([Display for i128]/[usize]). *)
Definition show_N (n : N) : text := txt (DecimalString.NilZero.string_of_uint (N.to_uint n)).
Definition show_Z (z : Z) : text := txt (DecimalString.NilZero.string_of_int (Z.to_int z)).

(** [usize::MAX] on a 64-bit target. *)
Definition usize_max : N := 18446744073709551615%N.
