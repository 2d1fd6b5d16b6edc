(** Specification of the conversion of syntax trees: which trees are
    supported, and which validation tree a syntax tree stands for.  Refers only
    to the types of Ast.v and Ivt.v. *)
From Coq Require Import List Bool ZArith NArith String.
From Verif Require Import Base Ivt Ast.
Import ListNotations.
Open Scope list_scope.

(** The standard prelude (RFC 8610 appendix D); [None]: not supported. *)
Definition prelude_table : list (string * option node) :=
  [ ("any", Some (NPrelude PAny)); ("nil", Some (NPrelude PNil)); ("null", Some (NPrelude PNil));
    ("bool", Some (NPrelude PBool));
    ("false", Some (NLiteral (LBool false))); ("true", Some (NLiteral (LBool true)));
    ("int", Some (NPrelude PInt)); ("uint", Some (NPrelude PUint)); ("nint", Some (NPrelude PNint));
    ("float", Some (NPrelude PFloat)); ("float16", Some (NPrelude PFloat));
    ("float32", Some (NPrelude PFloat)); ("float64", Some (NPrelude PFloat));
    ("float16-32", Some (NPrelude PFloat)); ("float32-64", Some (NPrelude PFloat));
    ("tstr", Some (NPrelude PTstr)); ("text", Some (NPrelude PTstr));
    ("bstr", Some (NPrelude PBstr)); ("bytes", Some (NPrelude PBstr));
    ("tdate", Some (NPrelude PTstr)); ("uri", Some (NPrelude PTstr)); ("b64url", Some (NPrelude PTstr));
    ("b64legacy", Some (NPrelude PTstr)); ("regexp", Some (NPrelude PTstr));
    ("mime-message", Some (NPrelude PTstr));
    ("biguint", Some (NPrelude PBstr)); ("bignint", Some (NPrelude PBstr));
    ("encoded-cbor", Some (NPrelude PBstr));
    ("eb64url", Some (NPrelude PAny)); ("eb64legacy", Some (NPrelude PAny)); ("eb16", Some (NPrelude PAny));
    ("cbor-any", Some (NPrelude PAny));
    ("time", None); ("bigint", None); ("integer", None); ("unsigned", None); ("number", None);
    ("decfrac", None); ("bigfloat", None); ("undefined", None) ]%string.

Definition user_name (name : text) : Prop := ~ In name (map (fun e => txt (fst e)) prelude_table).

Definition literal_of (v : ast_value) : literal :=
  match v with
  | AText s => LText s
  | AUint n => LInt (Z.of_N n)
  | ANint z => LInt z
  | AFloat u => LFloat u
  | ABytes b => LBytes b
  end.

Definition is_limit (nd : node) : Prop :=
  (exists z, nd = NLiteral (LInt z)) \/ (exists n a, nd = NRule n a).

(** The control node of an operator, if the operands are admissible. *)
Inductive control_of (compiles : text -> bool) : string -> node -> node -> control node -> Prop :=
| co_size t s : is_limit s \/ (exists a b i, s = NRange a b i) -> control_of compiles "size" t s (CtlSize t s)
| co_lt t l : is_limit l -> control_of compiles "lt" t l (CtlLt t l)
| co_le t l : is_limit l -> control_of compiles "le" t l (CtlLe t l)
| co_gt t l : is_limit l -> control_of compiles "gt" t l (CtlGt t l)
| co_ge t l : is_limit l -> control_of compiles "ge" t l (CtlGe t l)
| co_regexp re : compiles re = true ->
    control_of compiles "regexp" (NPrelude PTstr) (NLiteral (LText re)) (CtlRegexp re)
| co_cbor nd : control_of compiles "cbor" (NPrelude PBstr) nd (CtlCbor nd).

(** [means2 t nd]: the type [t] stands for [nd]; likewise for the other
    syntactic categories.  Members keep their order. *)
Inductive means2 (rx : text -> bool) : type2 -> node -> Prop :=
| m2_value v : means2 rx (T2Value v) (NLiteral (literal_of v))
| m2_prelude s nd : In (s, Some nd) prelude_table -> means2 rx (T2Typename (txt s) []) nd
| m2_name name args args' :
    user_name name -> Forall2 (means1 rx) args args' -> means2 rx (T2Typename name args) (NRule name args')
| m2_paren t nd : means_type rx t nd -> means2 rx (T2Paren t) nd
| m2_map g ms : means_group rx g ms -> means2 rx (T2Map g) (NMap ms)
| m2_array g ms : means_group rx g ms -> means2 rx (T2Array g) (NArray ms)
| m2_choiceify_inline g ms : means_group rx g ms -> means2 rx (T2ChoiceifyInline g) (NChoiceifyInline ms)
| m2_unwrap name args args' :
    user_name name -> Forall2 (means1 rx) args args' -> means2 rx (T2Unwrap name args) (NUnwrap name args')
| m2_choiceify name args args' :
    user_name name -> Forall2 (means1 rx) args args' -> means2 rx (T2Choiceify name args) (NChoiceify name args')
with means1 (rx : text -> bool) : type1 -> node -> Prop :=
| m1_simple t nd : means2 rx t nd -> means1 rx (T1Simple t) nd
| m1_range s e incl s' e' :
    means_point rx s s' -> means_point rx e e' -> means1 rx (T1Range s e incl) (NRange s' e' incl)
| m1_control target arg op t a c :
    means2 rx target t -> means2 rx arg a -> control_of rx op t a c ->
    means1 rx (T1Control target arg (txt op)) (NControl c)
with means_point (rx : text -> bool) : type2 -> node -> Prop :=
| mp_value v : means_point rx (T2Value v) (NLiteral (literal_of v))
| mp_bool s l : In (s, Some (NLiteral l)) prelude_table -> means_point rx (T2Typename (txt s) []) (NLiteral l)
| mp_name name args args' :
    user_name name -> Forall2 (means1 rx) args args' -> means_point rx (T2Typename name args) (NRule name args')
with means_type (rx : text -> bool) : list type1 -> node -> Prop :=
| mt_one t nd : means1 rx t nd -> means_type rx [t] nd
| mt_choice t1 t2 ts n1 n2 ns :
    means1 rx t1 n1 -> means1 rx t2 n2 -> Forall2 (means1 rx) ts ns ->
    means_type rx (t1 :: t2 :: ts) (NChoice (n1 :: n2 :: ns))
with means_group (rx : text -> bool) : list (list grpent) -> list node -> Prop :=
| mg_one es ms : Forall2 (means_entry rx) es ms -> means_group rx [es] ms
| mg_choice g os : List.length g <> 1 -> Forall2 (means_grpchoice rx) g os -> means_group rx g [NChoice os]
with means_grpchoice (rx : text -> bool) : list grpent -> node -> Prop :=
| mgc es ms : Forall2 (means_entry rx) es ms -> means_grpchoice rx es (NGroup ms)
with means_entry (rx : text -> bool) : grpent -> node -> Prop :=
| me_plain v nd : means_entry_val rx v nd -> means_entry rx (GrpEnt None v) nd
| me_occur o v nd : means_entry_val rx v nd -> means_entry rx (GrpEnt (Some o) v) (NOccur o nd)
with means_entry_val (rx : text -> bool) : grpent_val -> node -> Prop :=
| mv_type t nd : means_type rx t nd -> means_entry_val rx (GMember None t) nd
| mv_bareword s cut t nd :
    means_type rx t nd ->
    means_entry_val rx (GMember (Some (MKey (MKBareword s) cut)) t) (NKeyValue (NLiteral (LText s)) nd cut)
| mv_value v cut t nd :
    means_type rx t nd ->
    means_entry_val rx (GMember (Some (MKey (MKValue v) cut)) t) (NKeyValue (NLiteral (literal_of v)) nd cut)
| mv_typekey k cut t kd nd :
    means1 rx k kd -> means_type rx t nd ->
    means_entry_val rx (GMember (Some (MKey (MKType1 k) cut)) t) (NKeyValue kd nd cut)
| mv_prelude s nd : In (s, Some nd) prelude_table -> means_entry_val rx (GGroupname (txt s)) nd
| mv_name name : user_name name -> means_entry_val rx (GGroupname name) (NRule name [])
| mv_paren g ms : means_group rx g ms -> means_entry_val rx (GParen g) (NGroup ms).

(** The definition a rule stands for. *)
Inductive means_rule (rx : text -> bool) : rule -> rule_def -> Prop :=
| mr_type name parms t nd :
    means_type rx t nd -> means_rule rx (Rule name parms (AssignType t)) (RuleDef parms nd)
| mr_group name parms g nd :
    means_entry rx g nd -> means_rule rx (Rule name parms (AssignGroup g)) (RuleDef parms nd).

(** * Supported constructs, on the syntax alone *)

(** Removes parentheses around a single type. *)
Fixpoint peel (t : type2) : type1 :=
  match t with
  | T2Paren [T1Simple t'] => peel t'
  | T2Paren [t1] => t1
  | _ => T1Simple t
  end.

(** An integer or a user-defined name, possibly in parentheses. *)
Inductive limit_syntax : type1 -> Prop :=
| ls_uint n : limit_syntax (T1Simple (T2Value (AUint n)))
| ls_nint z : limit_syntax (T1Simple (T2Value (ANint z)))
| ls_name name args : user_name name -> limit_syntax (T1Simple (T2Typename name args)).

(** A name of the prelude type [p], possibly in parentheses. *)
Inductive names_prelude (p : prelude) : type1 -> Prop :=
| np s : In (s, Some (NPrelude p)) prelude_table -> names_prelude p (T1Simple (T2Typename (txt s) [])).

Inductive operands_ok (rx : text -> bool) : string -> type1 -> type1 -> Prop :=
| ok_size t a : limit_syntax a \/ (exists s e i, a = T1Range s e i) -> operands_ok rx "size" t a
| ok_compare op t a : In op ["lt"; "le"; "gt"; "ge"]%string -> limit_syntax a -> operands_ok rx op t a
| ok_regexp t re : names_prelude PTstr t -> rx re = true ->
    operands_ok rx "regexp" t (T1Simple (T2Value (AText re)))
| ok_cbor t a : names_prelude PBstr t -> operands_ok rx "cbor" t a.

Inductive supported2 (rx : text -> bool) : type2 -> Prop :=
| s2_value v : supported2 rx (T2Value v)
| s2_prelude s nd : In (s, Some nd) prelude_table -> supported2 rx (T2Typename (txt s) [])
| s2_name name args : user_name name -> Forall (supported1 rx) args -> supported2 rx (T2Typename name args)
| s2_paren t : t <> [] -> Forall (supported1 rx) t -> supported2 rx (T2Paren t)
| s2_map g : Forall (Forall (supported_entry rx)) g -> supported2 rx (T2Map g)
| s2_array g : Forall (Forall (supported_entry rx)) g -> supported2 rx (T2Array g)
| s2_choiceify_inline g : Forall (Forall (supported_entry rx)) g -> supported2 rx (T2ChoiceifyInline g)
| s2_unwrap name args : user_name name -> Forall (supported1 rx) args -> supported2 rx (T2Unwrap name args)
| s2_choiceify name args : user_name name -> Forall (supported1 rx) args -> supported2 rx (T2Choiceify name args)
with supported1 (rx : text -> bool) : type1 -> Prop :=
| s1_simple t : supported2 rx t -> supported1 rx (T1Simple t)
| s1_range s e incl : supported_point rx s -> supported_point rx e -> supported1 rx (T1Range s e incl)
| s1_control target arg op :
    supported2 rx target -> supported2 rx arg -> operands_ok rx op (peel target) (peel arg) ->
    supported1 rx (T1Control target arg (txt op))
with supported_point (rx : text -> bool) : type2 -> Prop :=
| sp_value v : supported_point rx (T2Value v)
| sp_bool s : In s ["true"; "false"]%string -> supported_point rx (T2Typename (txt s) [])
| sp_name name args : user_name name -> Forall (supported1 rx) args -> supported_point rx (T2Typename name args)
with supported_entry (rx : text -> bool) : grpent -> Prop :=
| se o v : supported_entry_val rx v -> supported_entry rx (GrpEnt o v)
with supported_entry_val (rx : text -> bool) : grpent_val -> Prop :=
| sv_type t : t <> [] -> Forall (supported1 rx) t -> supported_entry_val rx (GMember None t)
| sv_bareword s cut t : t <> [] -> Forall (supported1 rx) t ->
    supported_entry_val rx (GMember (Some (MKey (MKBareword s) cut)) t)
| sv_value v cut t : t <> [] -> Forall (supported1 rx) t ->
    supported_entry_val rx (GMember (Some (MKey (MKValue v) cut)) t)
| sv_typekey k cut t : supported1 rx k -> t <> [] -> Forall (supported1 rx) t ->
    supported_entry_val rx (GMember (Some (MKey (MKType1 k) cut)) t)
| sv_prelude s nd : In (s, Some nd) prelude_table -> supported_entry_val rx (GGroupname (txt s))
| sv_name name : user_name name -> supported_entry_val rx (GGroupname name)
| sv_paren g : Forall (Forall (supported_entry rx)) g -> supported_entry_val rx (GParen g).

Inductive supported_rule (rx : text -> bool) : rule -> Prop :=
| sr_type name parms t : t <> [] -> Forall (supported1 rx) t -> supported_rule rx (Rule name parms (AssignType t))
| sr_group name parms g : supported_entry rx g -> supported_rule rx (Rule name parms (AssignGroup g)).

(** Two schemas with the same rules except for rules named like a prelude type. *)
Inductive same_but_prelude : list rule -> list rule -> Prop :=
| sbp_nil : same_but_prelude [] []
| sbp_same r c c' : same_but_prelude c c' -> same_but_prelude (r :: c) (r :: c')
| sbp_left r c c' : ~ user_name (r_name r) -> same_but_prelude c c' -> same_but_prelude (r :: c) c'
| sbp_right r c c' : ~ user_name (r_name r) -> same_but_prelude c c' -> same_but_prelude c (r :: c').

(** [r] is the last rule called [name]. *)
Definition last_rule (name : text) (r : rule) (c : list rule) : Prop :=
  exists pre post, c = pre ++ r :: post /\ r_name r = name /\ ~ In name (map r_name post).
