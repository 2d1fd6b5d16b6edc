(** Specification: a canonical rendering of syntax trees as CDDL text, and the
    trees it applies to.  The spellings of literal values and of occurrence
    indicators are parameters, so it covers every way to write them.  Nothing here refers to the
    parser. *)
From Coq Require Import List Bool ZArith NArith String.
From Verif Require Import Base Data Ivt Ast SpecSyntax.
Import ListNotations.
Open Scope list_scope.

(** Items with a separator between them. *)
Fixpoint join (sep : text) (l : list text) : text :=
  match l with
  | [] => []
  | [a] => a
  | a :: l' => a ++ sep ++ join sep l'
  end.

Section Print.
Variable lit : ast_value -> text.
Variable occ : occur_limit -> text.

Definition print_args (l : list text) : text :=
  match l with [] => [] | _ => txt "<" ++ join (txt ", ") l ++ txt ">" end.
Definition print_choices (l : list text) : text := join (txt " / ") l.
(** Every entry is followed by a comma. *)
Definition print_group (l : list (list text)) : text :=
  join (txt "// ") (map (fun c => List.concat (map (fun e => e ++ txt ", ") c)) l).

Fixpoint print_type2 (t : type2) : text :=
  match t with
  | T2Value v => lit v
  | T2Typename n a => n ++ print_args (map print_type1 a)
  | T2Paren t => txt "(" ++ print_choices (map print_type1 t) ++ txt ")"
  | T2Map g => txt "{" ++ print_group (map (map print_grpent) g) ++ txt "}"
  | T2Array g => txt "[" ++ print_group (map (map print_grpent) g) ++ txt "]"
  | T2Unwrap n a => txt "~" ++ n ++ print_args (map print_type1 a)
  | T2ChoiceifyInline g => txt "&(" ++ print_group (map (map print_grpent) g) ++ txt ")"
  | T2Choiceify n a => txt "&" ++ n ++ print_args (map print_type1 a)
  end
with print_type1 (t : type1) : text :=
  match t with
  | T1Simple t => print_type2 t
  | T1Range s e incl => print_type2 s ++ (if incl then txt " .. " else txt " ... ") ++ print_type2 e
  | T1Control t a op => print_type2 t ++ txt " ." ++ op ++ txt " " ++ print_type2 a
  end
with print_grpent (e : grpent) : text :=
  match e with
  | GrpEnt None v => print_grpent_val v
  | GrpEnt (Some o) v => occ o ++ txt " " ++ print_grpent_val v
  end
with print_grpent_val (v : grpent_val) : text :=
  match v with
  | GMember None t => print_choices (map print_type1 t)
  | GMember (Some (MKey (MKBareword n) _)) t => n ++ txt ": " ++ print_choices (map print_type1 t)
  | GMember (Some (MKey (MKValue v) _)) t => lit v ++ txt ": " ++ print_choices (map print_type1 t)
  | GMember (Some (MKey (MKType1 k) cut)) t =>
      print_type1 k ++ (if cut then txt " ^ => " else txt " => ") ++ print_choices (map print_type1 t)
  | GGroupname n => n
  | GParen g => txt "(" ++ print_group (map (map print_grpent) g) ++ txt ")"
  end.

Definition print_rule (x : rule) : text :=
  r_name x ++ print_args (r_parms x) ++ txt " = " ++
  match r_val x with
  | AssignType t => print_choices (map print_type1 t)
  | AssignGroup e => print_grpent e
  end.
(** One rule per line. *)
Definition print_cddl (c : cddl) : text := List.concat (map (fun x => print_rule x ++ [10%N]) c).
End Print.

(** * The trees that can be written *)

Definition all {A} (P : A -> Prop) : list A -> Prop :=
  fix go l := match l with [] => True | a :: l' => P a /\ go l' end.

Section Writable.
Variable X : ext.

(** [s] spells the value [v]: as in the grammar, but the integer part of a
    floating point number is decimal, and without a sign less than 2^64. *)
Inductive spelling : text -> ast_value -> Prop :=
| se_uint s n : uint_lit s n -> (n < 2 ^ 64)%N -> spelling s (AUint n)
| se_nint s n : uint_lit s n -> (n < 2 ^ 63)%N -> spelling (txt "-" ++ s) (ANint (- Z.of_N n))
| se_float sg s n f e bits :
    sign sg -> uint_lit s n -> spells 10 s n -> (sg = [] -> (n < 2 ^ 64)%N) ->
    optional fraction f -> optional exponent e -> f ++ e <> [] ->
    f64_parse X (sg ++ s ++ f ++ e) = Some bits -> spelling (sg ++ s ++ f ++ e) (AFloat bits)
| se_text s t : content SCHAR s -> unescape X s = Some t -> spelling (txt """" ++ s ++ txt """") (AText t)
| se_bytes s t : content BCHAR s -> unescape X s = Some t ->
    spelling (txt "'" ++ s ++ txt "'") (ABytes (utf8_encode t))
| se_hex s t b : content BCHAR s -> without_spaces s t -> hex_bytes t b ->
    spelling (txt "h'" ++ s ++ txt "'") (ABytes b)
| se_base64 s b : content BCHAR s -> base64_decode X s = Some b ->
    spelling (txt "b64'" ++ s ++ txt "'") (ABytes b).

End Writable.

(** The shape of a tree that can be written, given the values, the occurrence
    indicators, and the occurrence indicators in front of a rule's group. *)
Section Shape.
Variable wval : ast_value -> Prop.
Variable wocc : occur_limit -> Prop.
Variable wfirst : occur_limit -> Prop.

(** Names are identifiers, choices and groups are not empty, a key with a colon
    has the cut, and a bare group name is a type (src/parser/mod.rs 638-705). *)
Fixpoint w_type2 (t : type2) : Prop :=
  match t with
  | T2Value v => wval v
  | T2Typename n a | T2Unwrap n a | T2Choiceify n a => is_ident n /\ all w_type1 a
  | T2Paren t => t <> [] /\ all w_type1 t
  | T2Map g | T2Array g | T2ChoiceifyInline g => g <> [] /\ all (all w_grpent) g
  end
with w_type1 (t : type1) : Prop :=
  match t with
  | T1Simple t => w_type2 t
  | T1Range s e _ => w_type2 s /\ w_type2 e
  | T1Control t a op => w_type2 t /\ w_type2 a /\ is_ident op
  end
with w_grpent (e : grpent) : Prop :=
  match e with GrpEnt o v => match o with Some o => wocc o | None => True end /\ w_grpent_val v end
with w_grpent_val (v : grpent_val) : Prop :=
  match v with
  | GMember None t => t <> [] /\ all w_type1 t
  | GMember (Some (MKey (MKBareword n) cut)) t => cut = true /\ is_ident n /\ t <> [] /\ all w_type1 t
  | GMember (Some (MKey (MKValue v) cut)) t => cut = true /\ wval v /\ t <> [] /\ all w_type1 t
  | GMember (Some (MKey (MKType1 k) _)) t => w_type1 k /\ t <> [] /\ all w_type1 t
  | GGroupname _ => False
  | GParen g => g <> [] /\ all (all w_grpent) g
  end.

(** The right-hand side of a rule is a group only if it does not begin like a
    type: it has an occurrence indicator or it is in parentheses. *)
Definition group_rule (e : grpent) : Prop :=
  match e with
  | GrpEnt None (GParen _) => True
  | GrpEnt None _ => False
  | GrpEnt (Some o) _ => wfirst o
  end.
Definition s_rule (x : rule) : Prop :=
  is_ident (r_name x) /\ all is_ident (r_parms x) /\
  match r_val x with
  | AssignType t => t <> [] /\ all w_type1 t
  | AssignGroup e => w_grpent e /\ group_rule e
  end.
Definition s_cddl (c : cddl) : Prop := c <> [] /\ all s_rule c.
End Shape.

(** The trees written with the given spellings.  The indicator in front of a
    rule's group has no lower limit, or it would be read as a number. *)
Section Spelled.
Variable X : ext.
Variable lit : ast_value -> text.
Variable occ : occur_limit -> text.
Definition w_value (v : ast_value) : Prop := spelling X (lit v) v.
Definition w_occur (o : occur_limit) : Prop := occur_lit (occ o) o.
Definition no_digit (s : text) : Prop := match s with c :: _ => ~ DIGIT c | [] => False end.
Definition w_first (o : occur_limit) : Prop := no_digit (occ o).
Definition w_rule (x : rule) : Prop := s_rule w_value w_occur w_first x.
Definition w_cddl (c : cddl) : Prop := s_cddl w_value w_occur w_first c.
End Spelled.

