(** Specification: how a text is read as a schema.  The grammar of SpecSyntax.v
    says which trees a text may stand for; here the text determines the tree.
    Every token is the longest possible one, all the whitespace is skipped, and
    where a phrase could continue the next character says that it does not.

    [u_xxx i tree r]: reading [tree] at the beginning of [i] leaves [r].
    Nothing here refers to the parser. *)
From Coq Require Import List Bool ZArith NArith String.
From Verif Require Import Base Data Ivt Ast SpecSyntax.
Import ListNotations.
Open Scope list_scope.

Definition first_is (P : N -> Prop) (i : text) : Prop := match i with [] => False | c :: _ => P c end.
Definition starts (l : list N) (i : text) : Prop := first_is (fun c => In c l) i.
(** The longest part of [P] at the beginning of [i]. *)
Definition longest (P : text -> Prop) (i s r : text) : Prop :=
  P s /\ i = s ++ r /\ (forall s' r', i = s' ++ r' -> P s' -> List.length s' <= List.length s).

(** * Whitespace and punctuation *)
Definition skip (i r : text) : Prop := d_ws i r /\ ws_end r.
(** [token S] *)
Definition opens (s : string) (i r : text) : Prop := exists k, i = txt s ++ k /\ skip k r.
(** [S token] *)
Definition closes (s : string) (i r : text) : Prop := exists k, skip i k /\ k = txt s ++ r.
(** [S token S] *)
Definition spaced (s : string) (i r : text) : Prop := exists k, skip i k /\ opens s k r.
(** The next character other than whitespace is not one of these. *)
Definition beyond (l : list N) (i : text) : Prop := exists k, skip i k /\ ~ starts l k.
(** [S [ "," S ]] *)
Definition u_optcom (i r : text) : Prop :=
  spaced "," i r \/ skip i r /\ ~ starts [0x2c%N] r.

(** * Numbers *)
Definition uint_text (s : text) : Prop := exists n, uint_lit s n.
Definition u_uint (i : text) (n : N) (r : text) : Prop := exists s, longest uint_text i s r /\ uint_lit s n.
(** A number: its sign, integer part, fraction and exponent. *)
Definition numeral (i sg s f e r : text) : Prop :=
  sign sg /\ exists j k m, i = sg ++ j /\ longest uint_text j s k /\ longest (optional fraction) k f m /\ longest (optional exponent) m e r.

(** * Occurrence indicators *)
Inductive u_bound : text -> option N -> text -> Prop :=
| ub_none i : ~ first_is DIGIT i -> u_bound i None i
| ub_some i n r : u_uint i n r -> (n < 2 ^ 64)%N -> u_bound i (Some n) r.
Inductive u_occur : text -> occur_limit -> text -> Prop :=
| uo_opt r : u_occur (txt "?" ++ r) OOptional r
| uo_plus r : u_occur (txt "+" ++ r) OOneOrMore r
| uo_star i r : u_bound i None (txt "*" ++ r) -> ~ first_is DIGIT r -> u_occur i OZeroOrMore r
| uo_bounds i lo j hi r : u_bound i lo (txt "*" ++ j) -> u_bound j hi r -> (lo, hi) <> (None, None) ->
    u_occur i (ONumbered (match lo with Some n => n | None => 0%N end) (match hi with Some n => n | None => usize_max end)) r.
(** [i] does not begin with an occurrence indicator, nor with a number that
    does not fit where one is expected. *)
Definition no_occur (i : text) : Prop :=
  ~ starts [0x2a; 0x2b; 0x3f]%N i /\ forall n r, u_uint i n r -> (n < 2 ^ 64)%N /\ ~ starts [0x2a%N] r.

(** The beginning of a byte string. *)
Definition starts_bytes (i : text) : Prop := exists j, i = txt "h'" ++ j \/ i = txt "b64'" ++ j.
(** After a type, a single slash is followed by another type. *)
Definition type_end (i : text) : Prop :=
  exists k, skip i k /\ (~ starts [0x2f%N] k \/ exists j, k = txt "//" ++ j).
(** The end of the entries of a group choice. *)
Definition choice_end (i : text) : Prop := starts [0x29; 0x5d; 0x7d]%N i \/ exists j, i = txt "//" ++ j.
(** [i] begins with the operator of a range. *)
Definition range_op (incl : bool) (i r : text) : Prop :=
  if incl then i = txt ".." ++ r /\ ~ starts [0x2e%N] r else i = txt "..." ++ r.
(** Just a type. *)
Definition lone (g : list (list grpent)) : Prop := exists t, g = [[GrpEnt None (GMember None t)]].

Section WithX.
Variable X : ext.

Inductive u_value : text -> ast_value -> text -> Prop :=
| ux_uint i s n r : numeral i [] s [] [] r -> uint_lit s n -> (n < 2 ^ 64)%N -> u_value i (AUint n) r
| ux_nint i s n r : numeral i (txt "-") s [] [] r -> uint_lit s n -> (n < 2 ^ 63)%N -> u_value i (ANint (- Z.of_N n)) r
| ux_float i sg s f e bits r : numeral i sg s f e r -> f ++ e <> [] ->
    f64_parse X (sg ++ s ++ f ++ e) = Some bits -> u_value i (AFloat bits) r
| ux_text s t r : content SCHAR s -> unescape X s = Some t -> u_value (txt """" ++ s ++ txt """" ++ r) (AText t) r
| ux_bytes s t r : content BCHAR s -> unescape X s = Some t ->
    u_value (txt "'" ++ s ++ txt "'" ++ r) (ABytes (utf8_encode t)) r
| ux_hex s t b r : content BCHAR s -> without_spaces s t -> hex_bytes t b ->
    u_value (txt "h'" ++ s ++ txt "'" ++ r) (ABytes b) r
| ux_base64 s b r : content BCHAR s -> base64_decode X s = Some b ->
    u_value (txt "b64'" ++ s ++ txt "'" ++ r) (ABytes b) r.

Inductive u_type2 : text -> type2 -> text -> Prop :=
| u2_value i v r : u_value i v r -> u_type2 i (T2Value v) r
| u2_name i n a r : ~ starts_bytes i -> u_name i n a r -> u_type2 i (T2Typename n a) r
| u2_paren i j t k r : opens "(" i j -> u_type j t k -> closes ")" k r -> u_type2 i (T2Paren t) r
| u2_map i j g r : opens "{" i j -> u_group j g (txt "}" ++ r) -> u_type2 i (T2Map g) r
| u2_array i j g r : opens "[" i j -> u_group j g (txt "]" ++ r) -> u_type2 i (T2Array g) r
| u2_unwrap i j n a r : opens "~" i j -> u_name j n a r -> u_type2 i (T2Unwrap n a) r
| u2_choice_inline i j k g r : opens "&" i j -> opens "(" j k -> u_group k g (txt ")" ++ r) -> u_type2 i (T2ChoiceifyInline g) r
| u2_choice i j n a r : opens "&" i j -> u_name j n a r -> u_type2 i (T2Choiceify n a) r
(** A name with its arguments; there is no space before them. *)
with u_name : text -> text -> list type1 -> text -> Prop :=
| un_plain i n r : longest is_ident i n r -> ~ starts [0x3c%N] r -> u_name i n [] r
| un_args i n j k a r : longest is_ident i n j -> opens "<" j k -> u_args k a r -> u_name i n a r
with u_args : text -> list type1 -> text -> Prop :=
| ua_last i t j r : u_type1 i t j -> closes ">" j r -> u_args i [t] r
| ua_more i t j k a r : u_type1 i t j -> spaced "," j k -> u_args k a r -> u_args i (t :: a) r
with u_type1 : text -> type1 -> text -> Prop :=
| u1_simple i t r : u_type2 i t r -> beyond [0x2e%N] r -> u_type1 i (T1Simple t) r
| u1_range i s j k l m e r (incl : bool) :
    u_type2 i s j -> skip j k -> range_op incl k l -> skip l m -> u_type2 m e r -> u_type1 i (T1Range s e incl) r
| u1_control i t j k op l m a r :
    u_type2 i t j -> skip j (txt "." ++ k) -> longest is_ident k op l -> skip l m -> u_type2 m a r ->
    u_type1 i (T1Control t a op) r
with u_type : text -> list type1 -> text -> Prop :=
| ut_last i t r : u_type1 i t r -> type_end r -> u_type i [t] r
| ut_more i t j k l r : u_type1 i t j -> spaced "/" j k -> u_type k l r -> u_type i (t :: l) r
with u_group : text -> list (list grpent) -> text -> Prop :=
| ug_last i c r : u_choice i c r -> u_group i [c] r
| ug_more i c j k g r : u_choice i c j -> opens "//" j k -> u_group k g r -> u_group i (c :: g) r
with u_choice : text -> list grpent -> text -> Prop :=
| uc_nil i : choice_end i -> u_choice i [] i
| uc_cons i e j k c r : u_grpent i e j -> u_optcom j k -> u_choice k c r -> u_choice i (e :: c) r
with u_grpent : text -> grpent -> text -> Prop :=
| ue_plain i v r : no_occur i -> u_val i v r -> u_grpent i (GrpEnt None v) r
| ue_occur i o j k v r : u_occur i o j -> skip j k -> u_val k v r -> u_grpent i (GrpEnt (Some o) v) r
with u_val : text -> grpent_val -> text -> Prop :=
| uv_type i t r : u_type i t r -> beyond [0x3a; 0x3d; 0x5e]%N r -> u_val i (GMember None t) r
| uv_bareword i n j k t r : ~ starts_bytes i -> longest is_ident i n j -> spaced ":" j k -> u_type k t r ->
    u_val i (GMember (Some (MKey (MKBareword n) true)) t) r
| uv_value i v j k t r : u_value i v j -> spaced ":" j k -> u_type k t r ->
    u_val i (GMember (Some (MKey (MKValue v) true)) t) r
| uv_key i kt j k t r : u_type1 i kt j -> spaced "=>" j k -> u_type k t r ->
    u_val i (GMember (Some (MKey (MKType1 kt) false)) t) r
| uv_key_cut i kt j k m t r : u_type1 i kt j -> spaced "^" j k -> opens "=>" k m -> u_type m t r ->
    u_val i (GMember (Some (MKey (MKType1 kt) true)) t) r
(** Parentheses around just a type belong to the type, unless there is a comma. *)
| uv_paren i j g r : opens "(" i j -> u_group j g (txt ")" ++ r) -> ~ lone g -> u_val i (GParen g) r
| uv_paren_type i j t k r : opens "(" i j -> no_occur j -> u_type j t k -> spaced "," k (txt ")" ++ r) ->
    u_val i (GParen [[GrpEnt None (GMember None t)]]) r.

Inductive u_idents : text -> list text -> text -> Prop :=
| ui_last i n j r : longest is_ident i n j -> closes ">" j r -> u_idents i [n] r
| ui_more i n j k l r : longest is_ident i n j -> spaced "," j k -> u_idents k l r -> u_idents i (n :: l) r.
Inductive u_parms : text -> list text -> text -> Prop :=
| up_none i : ~ starts [0x3c%N] i -> u_parms i [] i
| up_some i j l r : opens "<" i j -> u_idents j l r -> u_parms i l r.
(** The right-hand side of a rule is a group only if it cannot begin with a
    type. *)
Definition not_type (i : text) (e : grpent) : Prop :=
  match e with
  | GrpEnt None (GParen _) => True
  | GrpEnt None _ => False
  | GrpEnt (Some _) _ => ~ first_is DIGIT i
  end.
Inductive u_rule : text -> rule -> text -> Prop :=
| ur_type i n j ps k m t r : longest is_ident i n j -> u_parms j ps k -> spaced "=" k m -> u_type m t r ->
    u_rule i (Rule n ps (AssignType t)) r
| ur_group i n j ps k m e r : longest is_ident i n j -> u_parms j ps k -> spaced "=" k m -> u_grpent m e r -> not_type m e ->
    u_rule i (Rule n ps (AssignGroup e)) r.
Inductive u_rules : text -> list rule -> Prop :=
| us_nil : u_rules [] []
| us_rule i x j k l : u_rule i x j -> skip j k -> u_rules k l -> u_rules i (x :: l).
Definition u_cddl (i : text) (c : list rule) : Prop := c <> [] /\ exists j, skip i j /\ u_rules j c.
End WithX.

Scheme u_type2_mind := Induction for u_type2 Sort Prop
with u_name_mind := Induction for u_name Sort Prop
with u_args_mind := Induction for u_args Sort Prop
with u_type1_mind := Induction for u_type1 Sort Prop
with u_type_mind := Induction for u_type Sort Prop
with u_group_mind := Induction for u_group Sort Prop
with u_choice_mind := Induction for u_choice Sort Prop
with u_grpent_mind := Induction for u_grpent Sort Prop
with u_val_mind := Induction for u_val Sort Prop.
Combined Scheme u_mind from u_type2_mind, u_name_mind, u_args_mind, u_type1_mind, u_type_mind, u_group_mind, u_choice_mind, u_grpent_mind, u_val_mind.
