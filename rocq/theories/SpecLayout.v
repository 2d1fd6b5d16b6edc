(** Specification for C48: two texts that differ only in whitespace and comments
    between tokens. *)
From Coq Require Import List NArith String.
From Verif Require Import Base SpecSyntax.
Import ListNotations.
Open Scope list_scope.

(** Characters outside of strings, whitespace and comments. *)
Definition plain (c : N) : Prop := ~ SPACE c /\ c <> 0x3b%N /\ c <> 0x22%N /\ c <> 0x27%N.
(** A complete string. *)
Definition quoted (s : text) : Prop :=
  (exists t, content SCHAR t /\ s = 0x22%N :: t ++ [0x22%N]) \/ (exists t, content BCHAR t /\ s = 0x27%N :: t ++ [0x27%N]).
(** [w] is whitespace and comments, all there is before [i]. *)
Definition gap (w i : text) : Prop := w <> [] /\ d_ws (w ++ i) i /\ ws_end i.

(** The same characters and strings; gaps may be replaced by other gaps. *)
Inductive relayout : text -> text -> Prop :=
| rl_nil : relayout [] []
| rl_char c i i' : plain c -> relayout i i' -> relayout (c :: i) (c :: i')
| rl_string s i i' : quoted s -> relayout i i' -> relayout (s ++ i) (s ++ i')
| rl_gap w w' i i' : gap w i -> gap w' i' -> relayout i i' -> relayout (w ++ i) (w' ++ i').
