(** Specification: what the error of a rejected schema text tells.

    [fault i e]: the error [e] names a fault of the text [i]: a literal without
    a value, or a key with arguments.  [stuck i k]: reading [i] came to a stop
    and [k] is what is reported.  Nothing here refers to the parser. *)
From Coq Require Import List Bool ZArith NArith String.
From Verif Require Import Base Util Data Ivt Ast SpecSyntax SpecReading.
Import ListNotations.
Open Scope list_scope.

(** The digits of a literal, without the prefix. *)
Inductive digits_of : text -> text -> Prop :=
| do_hex d : digits_of (txt "0x" ++ d) d
| do_bin d : digits_of (txt "0b" ++ d) d
| do_dec d : Forall DIGIT d -> digits_of d d.

Section WithX.
Variable X : ext.

(** Literals that have the form of a value but no value. *)
Inductive malformed : text -> parse_error -> Prop :=
| mf_uint s n d : uint_lit s n -> (2 ^ 64 <= n)%N -> digits_of s d -> malformed s (PErr MalformedInteger d)
| mf_nint s n d : uint_lit s n -> (2 ^ 63 <= n)%N -> digits_of s d -> malformed (txt "-" ++ s) (PErr MalformedInteger d)
| mf_float sg s n f e : sign sg -> uint_lit s n -> optional fraction f -> optional exponent e -> f ++ e <> [] ->
    f64_parse X (sg ++ s ++ f ++ e) = None -> malformed (sg ++ s ++ f ++ e) (PErr MalformedFloat (sg ++ s ++ f ++ e))
| mf_text s : content SCHAR s -> unescape X s = None -> malformed (txt """" ++ s ++ txt """") (PErr MalformedText s)
| mf_bytes s : content BCHAR s -> unescape X s = None -> malformed (txt "'" ++ s ++ txt "'") (PErr MalformedText s)
| mf_hex s t : content BCHAR s -> without_spaces s t -> (forall b, ~ hex_bytes t b) ->
    malformed (txt "h'" ++ s ++ txt "'") (PErr MalformedHex t)
| mf_base64 s : content BCHAR s -> base64_decode X s = None -> malformed (txt "b64'" ++ s ++ txt "'") (PErr MalformedBase64 s).

Inductive fault : text -> parse_error -> Prop :=
| fa_literal q s r e : malformed s e -> fault (q ++ s ++ r) e
(** [name<...> : ...] *)
| fa_key q i n a j k : d_name X i n a j -> a <> [] -> d_ws j (txt ":" ++ k) ->
    fault (q ++ i) (PErr Unparseable (txt "Bareword with generic arguments")).

Definition no_rule (i : text) : Prop := forall x r, ~ u_rule X i x r.
Inductive stuck : text -> text -> Prop :=
(** Not even the first rule can be read; the report is somewhere in it. *)
| st_first i j q k : skip i j -> no_rule j -> j = q ++ k -> stuck i k
(** Some rules have been read, and the report starts where no other begins. *)
| st_later i j c q k : skip i j -> j = q ++ k -> c <> [] -> many (fun i x r => exists m, d_rule X i x m /\ skip m r) j c k ->
    k <> [] -> no_rule k -> stuck i k.
End WithX.
