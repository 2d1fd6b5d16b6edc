(** Model of src/parser/mod.rs 56-1169. *)
From Coq Require Import List Bool Arith ZArith NArith String.
From Verif Require Import Base Util Data Ivt Ast Nom.
Import ListNotations.
Open Scope list_scope.

(** src/parser/mod.rs 64-79: [map_res_fail]; an error of the second function
    becomes an unrecoverable failure. *)
Definition map_res_fail {A B} (p : parser A) (f : A -> B + parse_error) : parser B :=
  bindp p (fun a r =>
    match f a with
    | inl b => Done b r
    | inr e => Hard e
    end).

(** src/parser/mod.rs 94-100: [comment]. *)
Definition p_comment : parser text := preceded (charp 0x3b) not_line_ending.

(** src/parser/mod.rs 105-116: [ws]. *)
Definition p_ws : parser text := recognize (many0 (orp multispace1 p_comment)).

(** src/parser/mod.rs 120-129: [optcom]. *)
Definition p_optcom : parser unit := valuep tt (pairp p_ws (opt (pairp (tag ",") p_ws))).

(** src/parser/mod.rs 141-143: [ealpha_char]. *)
Definition ealpha_char (c : N) : bool := is_alpha c || N.eqb c 0x40 || N.eqb c 0x5f || N.eqb c 0x24.
(** src/parser/mod.rs 146-149: [ealpha]. *)
Definition p_ealpha : parser text := take_while1 ealpha_char.
(** src/parser/mod.rs 153-164: [ident_tail]. *)
Definition p_ident_tail : parser text :=
  recognize (preceded (opt (many1 (one_of_chars "-."))) (orp p_ealpha digit1)).
(** src/parser/mod.rs 167-175: [ident]. *)
Definition p_ident : parser text := recognize (preceded p_ealpha (many0 p_ident_tail)).

(** * Numbers *)

(** src/parser/mod.rs 182-188: [uint_hex]. *)
Definition p_uint_hex : parser text := preceded (tag "0x") hex_digit1.
(** src/parser/mod.rs 191-197: [uint_binary]. *)
Definition p_uint_binary : parser text := preceded (tag "0b") (recognize (many1 (one_of_chars "01"))).
(** src/parser/mod.rs 200-211: [uint_decimal]. *)
Definition p_uint_decimal : parser text :=
  orp (tag "0") (recognize (pairp (one_of_chars "123456789") digit0)).
(** src/parser/mod.rs 225-234 [uint] with [RawUint] (218-221) as a pair of the
    slice and the base. *)
Definition p_uint : parser (text * N) :=
  orp (mapp (fun s => (s, 16%N)) p_uint_hex)
  (orp (mapp (fun s => (s, 2%N)) p_uint_binary)
       (mapp (fun s => (s, 10%N)) p_uint_decimal)).

(** [char::to_digit]. *)
Definition digit_value (base c : N) : option N :=
  let v :=
    if is_digit c then Some (c - 0x30)%N
    else if in_range 0x61 0x7a c then Some (c - 0x61 + 10)%N
    else if in_range 0x41 0x5a c then Some (c - 0x41 + 10)%N
    else None in
  match v with
  | Some d => if N.ltb d base then Some d else None
  | None => None
  end.
Fixpoint digits_value (base acc : N) (s : text) : option N :=
  match s with
  | [] => Some acc
  | c :: s' =>
      match digit_value base c with
      | Some d => digits_value base (acc * base + d)%N s'
      | None => None
      end
  end.
(** [u64::from_str_radix(..).ok()]; the slices passed to it are never empty and
    have no sign.  The checked arithmetic of the standard library fails exactly
    if the value does not fit. *)
Definition from_str_radix (s : text) (base : N) : option N :=
  match s with
  | [] => None
  | _ :: _ =>
      match digits_value base 0 s with
      | Some v => if N.ltb v (2 ^ 64) then Some v else None
      | None => None
      end
  end.

(** src/parser/mod.rs 238-246: [uint_u64]. *)
Definition p_uint_u64 : parser N :=
  map_res_fail p_uint (fun raw =>
    match from_str_radix (fst raw) (snd raw) with
    | Some v => inl v
    | None => inr (PErr MalformedInteger (fst raw))
    end).

(** src/parser/mod.rs 258-271 [int] with [RawInt] (250-254) as a nested pair. *)
Definition p_int : parser (text * N * bool) :=
  mapp (fun x => (fst (snd x), snd (snd x), match fst x with Some _ => true | None => false end))
       (pairp (opt (charp 0x2d)) p_uint).

(** src/parser/mod.rs 276-284: [dot_fraction]. *)
Definition p_dot_fraction : parser text := recognize (pairp (charp 0x2e) digit1).
(** src/parser/mod.rs 289-298: [e_exponent]. *)
Definition p_e_exponent : parser text :=
  recognize (pairp (charp 0x65) (pairp (opt (one_of_chars "+-")) digit1)).

(** src/parser/mod.rs 312-326: [parse_int]; [try_into_int] (732-737) from [u64]
    to [i64] fails above 2^63-1. *)
Definition parse_int (slice : text) (base : N) (neg : bool) : ast_value + parse_error :=
  match from_str_radix slice base with
  | None => inr (PErr MalformedInteger slice)
  | Some v =>
      if neg then
        if N.ltb v (2 ^ 63) then inl (ANint (- Z.of_N v)%Z) else inr (PErr MalformedInteger slice)
      else inl (AUint v)
  end.

(** src/parser/mod.rs 337-353 [recognizer] with [offset] (330-332). *)
Definition recognizer {A} (p : parser A) : parser (text * A) :=
  fun i =>
    match p i with
    | Done a r => Done (consumed i r, a) r
    | Soft e => Soft e
    | Hard e => Hard e
    | Crash => Crash
    | NoFuel => NoFuel
    end.

(** * Strings *)

(** src/parser/mod.rs 385-395: [is_unescaped_bchar]. *)
Definition is_unescaped_bchar (c : N) : bool :=
  in_range 0x20 0x26 c || in_range 0x28 0x5b c || in_range 0x5d 0x7e c || in_range 0x80 0x10ffd c.
(** src/parser/mod.rs 487-497: [is_unescaped_schar]. *)
Definition is_unescaped_schar (c : N) : bool :=
  in_range 0x20 0x21 c || in_range 0x23 0x5b c || in_range 0x5d 0x7e c || in_range 0x80 0x10ffd c.
(** src/parser/mod.rs 508-512: [sesc]. *)
Definition p_sesc : parser text := preceded (charp 0x5c) (recognize anychar).
(** src/parser/mod.rs 407-417 [bchar] with [unescaped_bchar] (399-402). *)
Definition p_bchar : parser text := recognize (many0 (orp (take_while1 is_unescaped_bchar) p_sesc)).
(** src/parser/mod.rs 516-526 [schar] with [unescaped_schar] (501-504). *)
Definition p_schar : parser text := recognize (many0 (orp (take_while1 is_unescaped_schar) p_sesc)).

(** src/parser/mod.rs 438-444: [bytestring_hex]. *)
Definition p_bytestring_hex : parser text := delimited (tag "h'") p_bchar (tag "'").
(** src/parser/mod.rs 449-455: [bytestring_base64]. *)
Definition p_bytestring_base64 : parser text := delimited (tag "b64'") p_bchar (charp 0x27).

(** [char::is_ascii_whitespace]: space, tab, LF, FF, CR. *)
Definition is_ascii_whitespace (c : N) : bool :=
  N.eqb c 0x20 || N.eqb c 9 || N.eqb c 10 || N.eqb c 12 || N.eqb c 13.
(** [hex::decode]. *)
Fixpoint hex_decode (s : text) : option bytes :=
  match s with
  | [] => Some []
  | a :: b :: s' =>
      match digit_value 16 a, digit_value 16 b, hex_decode s' with
      | Some x, Some y, Some l => Some ((x * 16 + y)%N :: l)
      | _, _, _ => None
      end
  | [_] => None
  end.
(** src/parser/mod.rs 459-465: [parse_hex]. *)
Definition parse_hex (s : text) : bytes + parse_error :=
  let s' := filter (fun c => negb (is_ascii_whitespace c)) s in
  match hex_decode s' with
  | Some b => inl b
  | None => inr (PErr MalformedHex s')
  end.

Section Parser.
Variable X : ext.

(** src/parser/mod.rs 303-308: [parse_float]. *)
Definition parse_float (s : text) : ast_value + parse_error :=
  match f64_parse X s with
  | Some bits => inl (AFloat bits)
  | None => inr (PErr MalformedFloat s)
  end.

(** src/parser/mod.rs 357-371: [float_or_int]. *)
Definition p_float_or_int : parser ast_value :=
  map_res_fail (recognizer (pairp p_int (pairp (opt p_dot_fraction) (opt p_e_exponent))))
    (fun x =>
       let '(recognized, (firstint, (frac, exp))) := x in
       match frac, exp with
       | None, None => parse_int (fst (fst firstint)) (snd (fst firstint)) (snd firstint)
       | _, _ => parse_float recognized
       end).

Definition unescape_text (s : text) : text + parse_error :=
  match unescape X s with
  | Some t => inl t
  | None => inr (PErr MalformedText s)
  end.

(** src/parser/mod.rs 422-433: [bytestring_utf8]. *)
Definition p_bytestring_utf8 : parser text :=
  map_res_fail (delimited (tag "'") p_bchar (tag "'")) unescape_text.

(** src/parser/mod.rs 468-480: [bytestring]. *)
Definition p_bytestring : parser bytes :=
  orp (mapp utf8_encode p_bytestring_utf8)
  (orp (map_res_fail p_bytestring_hex parse_hex)
       (map_res_fail p_bytestring_base64 (fun s =>
          match base64_decode X s with
          | Some b => inl b
          | None => inr (PErr MalformedBase64 s)
          end))).

(** src/parser/mod.rs 529-540: [text_literal]. *)
Definition p_text_literal : parser text :=
  map_res_fail (delimited (charp 0x22) p_schar (charp 0x22)) unescape_text.

(** src/parser/mod.rs 545-551: [value]. *)
Definition p_value : parser ast_value :=
  orp p_float_or_int (orp (mapp AText p_text_literal) (mapp ABytes p_bytestring)).

(** * Occurrences *)

(** src/parser/mod.rs 743-769: [occur_star]; [usize] is 64 bits, so the
    conversions of the limits succeed. *)
Definition p_occur_star : parser occur_limit :=
  map_res (pairp (opt p_uint_u64) (pairp (tag "*") (opt p_uint_u64)))
    (fun tup =>
       match fst tup, snd (snd tup) with
       | None, None => inl OZeroOrMore
       | lo, hi =>
           inl (ONumbered (match lo with Some n => n | None => 0%N end)
                          (match hi with Some n => n | None => usize_max end))
       end).
(** src/parser/mod.rs 772-779: [occur]. *)
Definition p_occur : parser occur_limit :=
  orp p_occur_star (orp (valuep OOneOrMore (tag "+")) (valuep OOptional (tag "?"))).

(** src/parser/mod.rs 570-596: [assemble_basic_member]; [None] is the panic. *)
Definition assemble_basic_member (key : type1) (value : type_) : option (grpent_val + parse_error) :=
  match key with
  | T1Simple (T2Value v) => Some (inl (GMember (Some (MKey (MKValue v) true)) value))
  | T1Simple (T2Typename name args) =>
      match args with
      | [] => Some (inl (GMember (Some (MKey (MKBareword name) true)) value))
      | _ :: _ => Some (inr (PErr Unparseable (txt "Bareword with generic arguments")))
      end
  | _ => None
  end.

(** * Recursive syntax

    The parsers below are written with the two parsers they recursively depend
    on, [type1] and [group], as parameters; the knot is tied at the end. *)
Section Bodies.
Variable p_type1 : parser type1.
Variable p_group : parser group.

(** The separator of [ty] and of the last part of [grpent_member]. *)
Definition p_slash : parser text := delimited p_ws (tag "/") p_ws.

(** src/parser/mod.rs 1017-1024: [ty]. *)
Definition p_ty : parser type_ := separated_list1 p_slash p_type1.

(** src/parser/mod.rs 1073-1081: [generic_arg]. *)
Definition p_generic_arg : parser (list type1) :=
  delimited (pairp (tag "<") p_ws)
    (separated_list1 (pairp (tag ",") p_ws) (terminated p_type1 p_ws))
    (tag ">").

(** src/parser/mod.rs 1085-1096: [name_generic]. *)
Definition p_name_generic : parser (text * list type1) :=
  mapp (fun x => (fst x, match snd x with Some l => l | None => [] end)) (pairp p_ident (opt p_generic_arg)).

(** src/parser/mod.rs 555-563: [grpent_memberkey_tail]. *)
Definition p_memberkey_tail : parser type_ := preceded (pairp (tag ":") p_ws) p_ty.

(** The part of src/parser/mod.rs 671-676 matched after a [type1] key. *)
Definition p_arrow_tail : parser (bool * type_) :=
  mapp (fun x => (match fst x with Some _ => true | None => false end, snd x))
    (pairp (opt (terminated (tag "^") p_ws)) (preceded (tag "=>") (preceded p_ws p_ty))).

(** src/parser/mod.rs 692-697: further choices of a member without key. *)
Definition p_more_choices : parser type_ := many0 (preceded p_slash p_type1).

(** src/parser/mod.rs 692-705: a member without key. *)
Definition member_plain (first : type1) : parser grpent_val :=
  fun i =>
    match p_more_choices i with
    | Done l r => Done (GMember None (first :: l)) r
    | Crash => Crash
    | NoFuel => NoFuel
    | _ => Soft (PErr Unparseable (txt "grpent_member"))
    end.

(** src/parser/mod.rs 671-686: a member whose key is followed by an arrow; any
    error ([if let Ok]) means that there is no key. *)
Definition member_arrow (first : type1) : parser grpent_val :=
  fun i =>
    match p_arrow_tail i with
    | Done x r => Done (GMember (Some (MKey (MKType1 first) (fst x))) (snd x)) r
    | Crash => Crash
    | NoFuel => NoFuel
    | _ => member_plain first i
    end.

(** src/parser/mod.rs 648-662: a member whose key is followed by a colon. *)
Definition member_colon (first : type1) : parser grpent_val :=
  fun i =>
    match p_memberkey_tail i with
    | Done t r =>
        match assemble_basic_member first t with
        | Some (inl m) => Done m r
        | Some (inr e) => Hard e
        | None => Crash
        end
    | Crash => Crash
    | NoFuel => NoFuel
    | _ => member_arrow first i
    end.

(** src/parser/mod.rs 638-705: [grpent_member]. *)
Definition p_grpent_member : parser grpent_val :=
  bindp (terminated p_type1 p_ws) (fun first =>
    match first with
    | T1Simple (T2Value _) | T1Simple (T2Typename _ _) => member_colon first
    | _ => member_arrow first
    end).

(** src/parser/mod.rs 708-718: [grpent_parens]. *)
Definition p_in (open close : N) {A} (p : parser A) : parser A :=
  delimited (charp open) (delimited p_ws p p_ws) (charp close).
Definition p_grpent_parens : parser group := p_in 0x28 0x29 p_group.

(** src/parser/mod.rs 721-728: [grpent_val]. *)
Definition p_grpent_val : parser grpent_val :=
  orp p_grpent_member (orp (mapp GGroupname p_ident) (mapp GParen p_grpent_parens)).

(** src/parser/mod.rs 786-793: [grpent]. *)
Definition p_grpent : parser grpent :=
  mapp (fun x => GrpEnt (fst x) (snd x)) (pairp (opt (terminated p_occur p_ws)) p_grpent_val).

(** src/parser/mod.rs 797-803: [grpchoice]. *)
Definition p_grpchoice : parser grpchoice := many0 (terminated p_grpent p_optcom).

(** src/parser/mod.rs 807-834: [group]. *)
Definition group_body : parser group :=
  mapp (fun x => fst x :: snd x)
    (pairp p_grpchoice (many0 (preceded (delimited p_ws (tag "//") p_ws) p_grpchoice))).

(** src/parser/mod.rs 838-848 [type2_parens], 852-862 [type2_map], 866-876
    [type2_array], 880-889 [type2_unwrap], 896-905 [type2_choiceify], 909-926
    [type2_choiceify_inline], 940-952 [type2]. *)
Definition p_type2 : parser type2 :=
  orp (mapp T2Value p_value)
  (orp (mapp (fun x => T2Typename (fst x) (snd x)) p_name_generic)
  (orp (mapp T2Paren (p_in 0x28 0x29 p_ty))
  (orp (mapp T2Map (p_in 0x7b 0x7d p_group))
  (orp (mapp T2Array (p_in 0x5b 0x5d p_group))
  (orp (mapp (fun x => T2Unwrap (fst x) (snd x)) (preceded (tag "~") (preceded p_ws p_name_generic)))
  (orp (mapp T2ChoiceifyInline (preceded (tag "&") (preceded p_ws (p_in 0x28 0x29 p_group))))
       (mapp (fun x => T2Choiceify (fst x) (snd x)) (preceded (tag "&") (preceded p_ws p_name_generic))))))))).

(** src/parser/mod.rs 956-962: [control_op]. *)
Definition p_control_op : parser text := preceded (tag ".") p_ident.
(** src/parser/mod.rs 967-980: [range_or_control_op]. *)
Definition p_range_or_control : parser (text * type2) :=
  pairp (orp (tag "...") (orp (tag "..") p_control_op)) (preceded p_ws p_type2).

(** src/parser/mod.rs 984-1013: [type1]. *)
Definition type1_body : parser type1 :=
  mapp (fun x =>
      match snd x with
      | None => T1Simple (fst x)
      | Some (op, t) =>
          if text_eqb op (txt "..") then T1Range (fst x) t true
          else if text_eqb op (txt "...") then T1Range (fst x) t false
          else T1Control (fst x) t op
      end)
    (pairp p_type2 (opt (preceded p_ws p_range_or_control))).

(** src/parser/mod.rs 1044-1057: [rule_val]. *)
Definition p_rule_val : parser rule_val :=
  mapp snd (separated_pair (tag "=") p_ws (orp (mapp AssignType p_ty) (mapp AssignGroup p_grpent))).

(** src/parser/mod.rs 1061-1069: [generic_parm]. *)
Definition p_generic_parm : parser (list text) :=
  delimited (pairp (tag "<") p_ws)
    (separated_list1 (pairp (tag ",") p_ws) (terminated p_ident p_ws))
    (tag ">").

(** src/parser/mod.rs 1099-1114: [rule]. *)
Definition p_rule : parser rule :=
  mapp (fun x => Rule (fst (fst x)) (match snd (fst x) with Some l => l | None => [] end) (snd x))
    (separated_pair (pairp p_ident (opt p_generic_parm)) p_ws p_rule_val).

(** src/parser/mod.rs 1118-1126: [cddl]. *)
Definition p_cddl : parser cddl := preceded p_ws (many1 (terminated p_rule p_ws)).

(** src/parser/mod.rs 1129-1142: [cddl_slice]. *)
Definition p_cddl_slice : parser cddl_slice :=
  preceded p_ws
    (many1 (terminated (mapp (fun x => (snd x, fst x)) (recognizer p_rule)) p_ws)).
End Bodies.

(** The recursion between [type1] and [group]; the fuel bounds the depth of
    nested calls. *)
Fixpoint type1_f (n : nat) (i : text) {struct n} : pres type1 :=
  match n with
  | O => NoFuel
  | S m => type1_body (type1_f m) (group_f m) i
  end
with group_f (n : nat) (i : text) {struct n} : pres group :=
  match n with
  | O => NoFuel
  | S m => group_body (type1_f m) (group_f m) i
  end.

(** Fuel that is always enough (ParserFuel.v): every nested call of [type1] or
    of [group] is on a shorter input, except the first [type1] of a [group]. *)
Definition enough (i : text) : nat := 2 * List.length i + 2.
Definition parse_type1 : parser type1 := fun i => type1_f (enough i) i.
Definition parse_group : parser group := fun i => group_f (enough i) i.

(** src/parser/parse_err.rs 80-89: conversion of the nom error; [None] stands
    for a panic or missing fuel. *)
Definition finish {A} (r : pres A) : option (A + parse_error) :=
  match r with
  | Done a _ => Some (inl a)
  | Soft e | Hard e => Some (inr e)
  | Crash | NoFuel => None
  end.

(** src/parser/mod.rs 1157-1160: [parse_cddl]. *)
Definition parse_cddl (i : text) : option (cddl + parse_error) :=
  finish (all_consuming (p_cddl parse_type1 parse_group) i).

(** src/parser/mod.rs 1166-1169: [slice_parse_cddl]. *)
Definition slice_parse_cddl (i : text) : option (cddl_slice + parse_error) :=
  finish (all_consuming (p_cddl_slice parse_type1 parse_group) i).
End Parser.
