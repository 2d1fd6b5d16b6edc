(** Specification of the concrete syntax: RFC 8610 appendix B with the
    deviations documented in src/parser/mod.rs (tabs and naked carriage returns
    are whitespace, no hexadecimal floats, no tags, no [/=] and [//=], control
    operators are plain identifiers).

    Tokens are described by the text they are made of; phrases by relations
    [d_xxx i tree r]: the part of [i] before its suffix [r] derives [tree].
    Nothing here refers to the parser. *)
From Coq Require Import List Bool ZArith NArith String.
From Verif Require Import Base Data Ivt Ast.
Import ListNotations.
Open Scope list_scope.

(** * Characters *)

Definition between (a b c : N) : Prop := (a <= c)%N /\ (c <= b)%N.
Definition DIGIT (c : N) : Prop := between 0x30 0x39 c.
Definition ALPHA (c : N) : Prop := between 0x41 0x5a c \/ between 0x61 0x7a c.
Definition EALPHA (c : N) : Prop := ALPHA c \/ c = 0x40%N \/ c = 0x5f%N \/ c = 0x24%N.
Definition SPACE (c : N) : Prop := c = 32%N \/ c = 9%N \/ c = 13%N \/ c = 10%N.
Definition NOT_EOL (c : N) : Prop := c <> 13%N /\ c <> 10%N.

(** * Whitespace and comments

    A comment extends to the end of the line (which must be LF or CR LF) or of
    the text. *)
Definition at_eol (i : text) : Prop :=
  i = [] \/ (exists j, i = 10%N :: j) \/ (exists j, i = 13%N :: 10%N :: j).
Inductive d_ws : text -> text -> Prop :=
| dw_end i : d_ws i i
| dw_space c i r : SPACE c -> d_ws i r -> d_ws (c :: i) r
| dw_comment body i r : Forall NOT_EOL body -> at_eol i -> d_ws i r -> d_ws (0x3b%N :: body ++ i) r.

(** A position from which no more whitespace can be skipped. *)
Definition ws_end (r : text) : Prop := forall r', d_ws r r' -> r' = r.

(** * Identifiers: [EALPHA *( *("-" / ".") (EALPHA / DIGIT))] *)
Inductive is_ident : text -> Prop :=
| id_start c : EALPHA c -> is_ident [c]
| id_more n sep c :
    is_ident n -> Forall (fun x => x = 0x2d%N \/ x = 0x2e%N) sep -> EALPHA c \/ DIGIT c ->
    is_ident (n ++ sep ++ [c]).

(** The longest identifier at the beginning of [i]. *)
Definition longest_ident (i n r : text) : Prop :=
  is_ident n /\ i = n ++ r /\ (forall n' r', i = n' ++ r' -> is_ident n' -> List.length n' <= List.length n).

(** * Numbers *)

(** The value of a digit character. *)
Inductive digit_is : N -> N -> Prop :=
| di_dec c : DIGIT c -> digit_is c (c - 0x30)
| di_upper c : between 0x41 0x46 c -> digit_is c (c - 0x41 + 10)
| di_lower c : between 0x61 0x66 c -> digit_is c (c - 0x61 + 10).
(** Positional notation. *)
Inductive spells (base : N) : text -> N -> Prop :=
| sp_one c d : digit_is c d -> (d < base)%N -> spells base [c] d
| sp_more s n c d : spells base s n -> digit_is c d -> (d < base)%N -> spells base (s ++ [c]) (n * base + d)%N.

(** [uint]: decimal without leading zeros, [0x] or [0b]. *)
Inductive uint_lit : text -> N -> Prop :=
| ul_zero : uint_lit [0x30%N] 0
| ul_dec c s n : c <> 0x30%N -> spells 10 (c :: s) n -> uint_lit (c :: s) n
| ul_hex s n : spells 16 s n -> uint_lit (txt "0x" ++ s) n
| ul_bin s n : spells 2 s n -> uint_lit (txt "0b" ++ s) n.

Definition digits (s : text) : Prop := s <> [] /\ Forall DIGIT s.
Definition fraction (s : text) : Prop := exists d, s = txt "." ++ d /\ digits d.
Definition exponent (s : text) : Prop :=
  exists sign d, s = txt "e" ++ sign ++ d /\ In sign [[]; txt "+"; txt "-"] /\ digits d.
Definition sign (s : text) : Prop := s = [] \/ s = txt "-".
Definition optional (P : text -> Prop) (s : text) : Prop := s = [] \/ P s.

(** * Strings *)

(** Unescaped characters of text and byte literals as accepted by the parser
    (see C46 for the difference to the RFC). *)
Definition SCHAR (c : N) : Prop :=
  between 0x20 0x21 c \/ between 0x23 0x5b c \/ between 0x5d 0x7e c \/ between 0x80 0x10ffd c.
Definition BCHAR (c : N) : Prop :=
  between 0x20 0x26 c \/ between 0x28 0x5b c \/ between 0x5d 0x7e c \/ between 0x80 0x10ffd c.
(** RFC 8610 appendix B: [SCHAR] and [BCHAR], without escapes. *)
Definition RFC_SCHAR (c : N) : Prop :=
  between 0x20 0x21 c \/ between 0x23 0x5b c \/ between 0x5d 0x7e c \/ between 0x80 0x10fffd c.
(** A literal's content: unescaped characters and backslash pairs. *)
Inductive content (P : N -> Prop) : text -> Prop :=
| co_nil : content P []
| co_char c s : P c -> content P s -> content P (c :: s)
| co_escape c s : content P s -> content P (0x5c%N :: c :: s).

(** Hexadecimal content, whitespace already removed. *)
Inductive hex_bytes : text -> bytes -> Prop :=
| hb_nil : hex_bytes [] []
| hb_byte a b x y s l : digit_is a x -> digit_is b y -> hex_bytes s l -> hex_bytes (a :: b :: s) ((x * 16 + y)%N :: l).
Inductive without_spaces : text -> text -> Prop :=
| wo_nil : without_spaces [] []
| wo_space c s t : In c [32; 9; 10; 12; 13]%N -> without_spaces s t -> without_spaces (c :: s) t
| wo_char c s t : ~ In c [32; 9; 10; 12; 13]%N -> without_spaces s t -> without_spaces (c :: s) (c :: t).

Section WithX.
Variable X : ext.

(** The literal values. *)
Inductive value_lit : text -> ast_value -> Prop :=
| vl_uint s n : uint_lit s n -> (n < 2 ^ 64)%N -> value_lit s (AUint n)
| vl_nint s n : uint_lit s n -> (n < 2 ^ 63)%N -> value_lit (txt "-" ++ s) (ANint (- Z.of_N n))
| vl_float sg s n f e bits :
    sign sg -> uint_lit s n -> optional fraction f -> optional exponent e -> f ++ e <> [] ->
    f64_parse X (sg ++ s ++ f ++ e) = Some bits -> value_lit (sg ++ s ++ f ++ e) (AFloat bits)
| vl_text s t : content SCHAR s -> unescape X s = Some t -> value_lit (txt """" ++ s ++ txt """") (AText t)
| vl_bytes s t : content BCHAR s -> unescape X s = Some t ->
    value_lit (txt "'" ++ s ++ txt "'") (ABytes (utf8_encode t))
| vl_hex s t b : content BCHAR s -> without_spaces s t -> hex_bytes t b ->
    value_lit (txt "h'" ++ s ++ txt "'") (ABytes b)
| vl_base64 s b : content BCHAR s -> base64_decode X s = Some b ->
    value_lit (txt "b64'" ++ s ++ txt "'") (ABytes b).

(** * Phrases *)

(** A token made of the text [c]. *)
Definition tok (i c r : text) : Prop := i = c ++ r.

(** Occurrence indicators. *)
Inductive bound_lit : text -> option N -> Prop :=
| bl_none : bound_lit [] None
| bl_some s n : uint_lit s n -> (n < 2 ^ 64)%N -> bound_lit s (Some n).
Inductive occur_lit : text -> occur_limit -> Prop :=
| ol_opt : occur_lit (txt "?") OOptional
| ol_plus : occur_lit (txt "+") OOneOrMore
| ol_star : occur_lit (txt "*") OZeroOrMore
| ol_bounds s lo t hi : bound_lit s lo -> bound_lit t hi -> (lo, hi) <> (None, None) ->
    occur_lit (s ++ txt "*" ++ t)
      (ONumbered (match lo with Some n => n | None => 0%N end) (match hi with Some n => n | None => usize_max end)).

(** [sep_by sep item]: one or more items. *)
Inductive sep_by {A} (sep : text -> text -> Prop) (item : text -> A -> text -> Prop) : text -> list A -> text -> Prop :=
| sb_one i a r : item i a r -> sep_by sep item i [a] r
| sb_more i a j k l r : item i a j -> sep j k -> sep_by sep item k l r -> sep_by sep item i (a :: l) r.
(** [many item]: zero or more items. *)
Inductive many {A} (item : text -> A -> text -> Prop) : text -> list A -> text -> Prop :=
| ma_nil i : many item i [] i
| ma_cons i a j l r : item i a j -> many item j l r -> many item i (a :: l) r.

(** S token S. *)
Definition d_spaced (s : string) (i r : text) : Prop :=
  exists j k, d_ws i j /\ tok j (txt s) k /\ d_ws k r.
(** token S *)
Definition d_then_ws (s : string) (i r : text) : Prop := exists j, tok i (txt s) j /\ d_ws j r.
Definition d_optcom (i r : text) : Prop := d_ws i r \/ d_spaced "," i r.

Inductive d_type2 : text -> type2 -> text -> Prop :=
| d2_value i c v r : tok i c r -> value_lit c v -> d_type2 i (T2Value v) r
| d2_name i n a r : d_name i n a r -> d_type2 i (T2Typename n a) r
| d2_paren i j t k r : d_then_ws "(" i j -> d_type j t k -> (exists m, d_ws k m /\ tok m (txt ")") r) ->
    d_type2 i (T2Paren t) r
| d2_map i j g k r : d_then_ws "{" i j -> d_group j g k -> (exists m, d_ws k m /\ tok m (txt "}") r) ->
    d_type2 i (T2Map g) r
| d2_array i j g k r : d_then_ws "[" i j -> d_group j g k -> (exists m, d_ws k m /\ tok m (txt "]") r) ->
    d_type2 i (T2Array g) r
| d2_unwrap i j n a r : d_then_ws "~" i j -> d_name j n a r -> d_type2 i (T2Unwrap n a) r
| d2_choice_inline i j k g m r : d_then_ws "&" i j -> d_then_ws "(" j k -> d_group k g m ->
    (exists m', d_ws m m' /\ tok m' (txt ")") r) -> d_type2 i (T2ChoiceifyInline g) r
| d2_choice i j n a r : d_then_ws "&" i j -> d_name j n a r -> d_type2 i (T2Choiceify n a) r
with d_name : text -> text -> list type1 -> text -> Prop :=
| dn_plain i n r : is_ident n -> tok i n r -> d_name i n [] r
| dn_args i n j k a m r :
    is_ident n -> tok i n j -> d_then_ws "<" j k ->
    sep_by (d_then_ws ",") (fun i t r => exists j, d_type1 i t j /\ d_ws j r) k a m -> tok m (txt ">") r ->
    d_name i n a r
with d_type1 : text -> type1 -> text -> Prop :=
| d1_simple i t r : d_type2 i t r -> d_type1 i (T1Simple t) r
| d1_range i s j k m e r (incl : bool) :
    d_type2 i s j -> d_ws j k -> (exists k', tok k (txt (if incl then ".." else "...")) k' /\ d_ws k' m) -> d_type2 m e r ->
    d_type1 i (T1Range s e incl) r
| d1_control i t j k op m a r :
    d_type2 i t j -> d_ws j k -> is_ident op ->
    (exists k', tok k (txt "." ++ op) k' /\ d_ws k' m) -> d_type2 m a r ->
    d_type1 i (T1Control t a op) r
with d_type : text -> list type1 -> text -> Prop :=
| dt i l r : sep_by (d_spaced "/") d_type1 i l r -> d_type i l r
with d_group : text -> list (list grpent) -> text -> Prop :=
| dg i g r : sep_by (d_spaced "//") (many (fun i e r => exists j, d_grpent i e j /\ d_optcom j r)) i g r -> d_group i g r
with d_grpent : text -> grpent -> text -> Prop :=
| dge_plain i v r : d_grpent_val i v r -> d_grpent i (GrpEnt None v) r
| dge_occur i c o j k v r : occur_lit c o -> tok i c j -> d_ws j k -> d_grpent_val k v r ->
    d_grpent i (GrpEnt (Some o) v) r
with d_grpent_val : text -> grpent_val -> text -> Prop :=
| dv_type i t j r : d_type i t j -> d_ws j r -> d_grpent_val i (GMember None t) r
| dv_bareword i n j k t r : is_ident n -> tok i n j -> d_spaced ":" j k -> d_type k t r ->
    d_grpent_val i (GMember (Some (MKey (MKBareword n) true)) t) r
| dv_value i c v j k t r : value_lit c v -> tok i c j -> d_spaced ":" j k -> d_type k t r ->
    d_grpent_val i (GMember (Some (MKey (MKValue v) true)) t) r
| dv_key i kt j k t r : d_type1 i kt j -> d_spaced "=>" j k -> d_type k t r ->
    d_grpent_val i (GMember (Some (MKey (MKType1 kt) false)) t) r
| dv_key_cut i kt j k m t r : d_type1 i kt j -> d_spaced "^" j k -> d_then_ws "=>" k m -> d_type m t r ->
    d_grpent_val i (GMember (Some (MKey (MKType1 kt) true)) t) r
| dv_name i n r : is_ident n -> tok i n r -> d_grpent_val i (GGroupname n) r
| dv_paren i j g k r : d_then_ws "(" i j -> d_group j g k -> (exists m, d_ws k m /\ tok m (txt ")") r) ->
    d_grpent_val i (GParen g) r.

Inductive d_parms : text -> list text -> text -> Prop :=
| dp_none i : d_parms i [] i
| dp_some i j l k r : d_then_ws "<" i j ->
    sep_by (d_then_ws ",") (fun i n r => is_ident n /\ exists j, tok i n j /\ d_ws j r) j l k -> tok k (txt ">") r ->
    d_parms i l r.
Inductive d_rule : text -> rule -> text -> Prop :=
| dr_type i n j ps k m t r : is_ident n -> tok i n j -> d_parms j ps k -> d_spaced "=" k m -> d_type m t r ->
    d_rule i (Rule n ps (AssignType t)) r
| dr_group i n j ps k m g r : is_ident n -> tok i n j -> d_parms j ps k -> d_spaced "=" k m -> d_grpent m g r ->
    d_rule i (Rule n ps (AssignGroup g)) r.

(** A whole schema: at least one rule, nothing left over. *)
Definition d_cddl (i : text) (c : list rule) : Prop :=
  c <> [] /\ exists j, d_ws i j /\ many (fun i x r => exists j, d_rule i x j /\ d_ws j r) j c [].

(** The input is exactly the texts of the rules, in order, each followed by
    whitespace. *)
Inductive covers : text -> list (rule * text) -> Prop :=
| cv_nil : covers [] []
| cv_rule i x s j r l : tok i s j -> d_rule i x j -> d_ws j r -> covers r l -> covers i ((x, s) :: l).
End WithX.
