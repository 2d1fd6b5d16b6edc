(** Model of src/flatten.rs: conversion of the syntax tree into the
    validation tree. *)
From Coq Require Import List Bool ZArith NArith String.
From Verif Require Import Base Util Data Ivt Convert Validate Ast.
Import ListNotations.
Open Scope list_scope.

(** [BTreeMap<String, _>]: insertion in an association list sorted by key. *)
Fixpoint tm_insert {A} (k : text) (v : A) (m : list (text * A)) : list (text * A) :=
  match m with
  | [] => [(k, v)]
  | (k', v') :: m' =>
      match text_compare k k' with
      | Eq => (k', v) :: m'
      | Lt => (k, v) :: m
      | Gt => (k', v') :: tm_insert k v m'
      end
  end.
(** [FromIterator for BTreeMap]: insertion one by one. *)
Definition tm_collect {A} (l : list (text * A)) : list (text * A) :=
  fold_left (fun m p => tm_insert (fst p) (snd p) m) l [].

(** src/flatten.rs 326-341 with [num_to_i128] 586-596: [flatten_value].  The
    conversion of a [u64]/[i64] to [i128] cannot fail and is the identity. *)
Definition flatten_value (v : ast_value) : res node :=
  match v with
  | AText s => Ok (NLiteral (LText s))
  | AUint u => Ok (NLiteral (LInt (Z.of_N u)))
  | ANint n => Ok (NLiteral (LInt n))
  | AFloat f => Ok (NLiteral (LFloat f))
  | ABytes b => Ok (NLiteral (LBytes b))
  end.

(** One of the listed names ([|] patterns of [match name]). *)
Definition one_of (name : text) (l : list string) : bool :=
  existsb (fun s => text_eqb (txt s) name) l.

(** src/flatten.rs 357-437: [flatten_typename]. *)
Definition flatten_typename (name : text) : res node :=
  let unsupported := Err (EUnsupported (txt "prelude type '" ++ name ++ txt "'")) in
  if one_of name ["any"]%string then Ok (NPrelude PAny)
  else if one_of name ["nil"; "null"]%string then Ok (NPrelude PNil)
  else if one_of name ["bool"]%string then Ok (NPrelude PBool)
  else if one_of name ["false"]%string then Ok (NLiteral (LBool false))
  else if one_of name ["true"]%string then Ok (NLiteral (LBool true))
  else if one_of name ["int"]%string then Ok (NPrelude PInt)
  else if one_of name ["uint"]%string then Ok (NPrelude PUint)
  else if one_of name ["nint"]%string then Ok (NPrelude PNint)
  else if one_of name ["float"]%string then Ok (NPrelude PFloat)
  else if one_of name ["tstr"; "text"]%string then Ok (NPrelude PTstr)
  else if one_of name ["bstr"; "bytes"]%string then Ok (NPrelude PBstr)
  else if one_of name ["float16"; "float32"; "float64"; "float16-32"; "float32-64"]%string
  then Ok (NPrelude PFloat)
  else if one_of name ["tdate"; "uri"; "b64url"; "b64legacy"; "regexp"; "mime-message"]%string
  then Ok (NPrelude PTstr)
  else if one_of name ["biguint"; "bignint"; "encoded-cbor"]%string then Ok (NPrelude PBstr)
  else if one_of name ["eb64url"; "eb64legacy"; "eb16"; "cbor-any"]%string then Ok (NPrelude PAny)
  else if one_of name ["time"]%string then unsupported
  else if one_of name ["bigint"; "integer"; "unsigned"; "number"]%string then unsupported
  else if one_of name ["decfrac"; "bigfloat"; "undefined"]%string then unsupported
  else Ok (NRule name []).

(** src/flatten.rs 453-474: [flatten_name_generic], with the recursive call on
    the arguments as a parameter.  The arguments are flattened in order, only
    if the name is not a prelude name. *)
Definition flatten_name_generic_with (f : type1 -> res node) (name : text) (args : list type1)
  : res node :=
  bind_res (flatten_typename name) (fun nd =>
    match nd with
    | NRule n _ => bind_res (collect_res f args) (fun l => Ok (NRule n l))
    | _ => match args with [] => Ok nd | _ :: _ => Err EGenericError end
    end).

(** src/flatten.rs 445-451: [flatten_rule_generic]; the [Rule] as a pair. *)
Definition flatten_rule_generic_with (f : type1 -> res node) (name : text) (args : list type1)
  : res (text * list node) :=
  match flatten_name_generic_with f name args with
  | Ok (NRule n l) => Ok (n, l)
  | Panic => Panic
  | _ => Err EGenericError
  end.

(** src/flatten.rs 76-87: [flatten_type], after flattening the options. *)
Definition flatten_type_with (f : type1 -> res node) (t : list type1) : res node :=
  bind_res (collect_res f t) (fun options =>
    match options with
    | [] => Err (EUnsupported (txt "flatten type with 0 options"))
    | [o] => Ok o
    | _ => Ok (NChoice options)
    end).

(** src/flatten.rs 489-508: [flatten_group]; 510-514: [flatten_groupchoice]. *)
Definition flatten_group_with (f : grpent -> res node) (g : list (list grpent)) : res (list node) :=
  match g with
  | [gc] => collect_res f gc
  | _ =>
      bind_res
        (collect_res (fun gc => bind_res (collect_res f gc) (fun members => Ok (NGroup members))) g)
        (fun options => Ok [NChoice options])
  end.

(** src/flatten.rs 566-571: [occur_wrap]. *)
Definition occur_wrap (o : option occur_limit) (nd : node) : node :=
  match o with
  | Some l => NOccur l nd
  | None => nd
  end.

Section Flatten.
Variable X : ext.

(** The check of the limit in src/flatten.rs 128-150 ([control_size]). *)
Definition control_size (target size : node) : res (control node) :=
  match size with
  | NLiteral (LInt _) | NRange _ _ _ | NRule _ _ => Ok (CtlSize target size)
  | _ => Err (EUnsupported (txt ".size limit type"))
  end.

(** The check of the limit in src/flatten.rs 152-242 ([control_lt], [control_le],
    [control_gt], [control_ge]). *)
Definition control_compare (mk : node -> node -> control node) (msg : text) (target limit : node)
  : res (control node) :=
  match limit with
  | NLiteral (LInt _) | NRule _ _ => Ok (mk target limit)
  | _ => Err (EUnsupported msg)
  end.

(** src/flatten.rs 244-276: [control_regex] after flattening both operands. *)
Definition control_regex (target re : node) : res (control node) :=
  match target with
  | NPrelude PTstr =>
      match re with
      | NLiteral (LText s) =>
          if regex_compiles X s then Ok (CtlRegexp s)
          else Err (EStructural (txt "malformed regexp"))
      | _ => Err (EStructural (txt "improper regexp type"))
      end
  | _ => Err (EStructural (txt "bad regexp target type"))
  end.

(** src/flatten.rs 278-292: [control_cbor] after flattening both operands. *)
Definition control_cbor (target nd : node) : res (control node) :=
  match target with
  | NPrelude PBstr => Ok (CtlCbor nd)
  | _ => Err (EStructural (txt "bad .cbor target type"))
  end.

(** src/flatten.rs 109-123: [flatten_control].  Every operator first flattens
    the target, then the argument. *)
Definition flatten_control_with (f : type2 -> res node) (target arg : type2) (op : text) : res node :=
  let operands (k : node -> node -> res (control node)) : res node :=
    bind_res (f target) (fun t => bind_res (f arg) (fun a =>
      bind_res (k t a) (fun c => Ok (NControl c)))) in
  if text_eqb op (txt "size") then operands control_size
  else if text_eqb op (txt "lt") then operands (control_compare CtlLt (txt ".lt limit type"))
  else if text_eqb op (txt "le") then operands (control_compare CtlLe (txt ".le limit type"))
  else if text_eqb op (txt "gt") then operands (control_compare CtlGt (txt ".gt limit type"))
  else if text_eqb op (txt "ge") then operands (control_compare CtlGe (txt ".ge limit type"))
  else if text_eqb op (txt "regexp") then operands control_regex
  else if text_eqb op (txt "cbor") then operands control_cbor
  else Err (EUnsupported (txt "control operator")).

(** src/flatten.rs 297-313: [range_point]. *)
Definition range_point_with (f : type1 -> res node) (point : type2) : res node :=
  let bad := Err (EStructural (txt "bad type on range operator")) in
  bind_res
    (match point with
     | T2Value v => flatten_value v
     | T2Typename name args => flatten_name_generic_with f name args
     | _ => bad
     end)
    (fun nd => match nd with NRule _ _ | NLiteral _ => Ok nd | _ => bad end).

(** src/flatten.rs 343-355 [flatten_type2], 89-96 [flatten_type1] with 315-324
    [flatten_range], 516-519 [flatten_groupentry], 521-532
    [flatten_groupentry_val] with 573-583 [flatten_member], 598-610
    [flatten_memberkey]; 477-487 [flatten_map]/[flatten_array] and 612-620
    [flatten_choiceify]/[flatten_choiceify_inline] are inlined. *)
Fixpoint flatten_type2 (t : type2) : res node :=
  match t with
  | T2Value v => flatten_value v
  | T2Typename name args => flatten_name_generic_with flatten_type1 name args
  | T2Paren t => flatten_type_with flatten_type1 t
  | T2Map g => bind_res (flatten_group_with flatten_grpent g) (fun l => Ok (NMap l))
  | T2Array g => bind_res (flatten_group_with flatten_grpent g) (fun l => Ok (NArray l))
  | T2Unwrap name args =>
      bind_res (flatten_rule_generic_with flatten_type1 name args)
        (fun r => Ok (NUnwrap (fst r) (snd r)))
  | T2ChoiceifyInline g => bind_res (flatten_group_with flatten_grpent g) (fun l => Ok (NChoiceifyInline l))
  | T2Choiceify name args =>
      bind_res (flatten_rule_generic_with flatten_type1 name args)
        (fun r => Ok (NChoiceify (fst r) (snd r)))
  end
with flatten_type1 (t : type1) : res node :=
  match t with
  | T1Simple t2 => flatten_type2 t2
  | T1Range s e incl =>
      bind_res (range_point_with flatten_type1 s) (fun s' =>
        bind_res (range_point_with flatten_type1 e) (fun e' => Ok (NRange s' e' incl)))
  | T1Control target arg op => flatten_control_with flatten_type2 target arg op
  end
with flatten_grpent (g : grpent) : res node :=
  match g with
  | GrpEnt o v => bind_res (flatten_grpent_val v) (fun nd => Ok (occur_wrap o nd))
  end
with flatten_grpent_val (v : grpent_val) : res node :=
  match v with
  | GMember (Some k) value =>
      match k with
      | MKey kv cut =>
          bind_res (flatten_memberkey kv) (fun key =>
            bind_res (flatten_type_with flatten_type1 value) (fun val =>
              Ok (NKeyValue key val cut)))
      end
  | GMember None value => flatten_type_with flatten_type1 value
  | GGroupname s => flatten_typename s
  | GParen g => bind_res (flatten_group_with flatten_grpent g) (fun l => Ok (NGroup l))
  end
with flatten_memberkey (k : member_key_val) : res node :=
  match k with
  | MKBareword s => Ok (NLiteral (LText s))
  | MKType1 t => flatten_type1 t
  | MKValue v => flatten_value v
  end.

Definition flatten_type : list type1 -> res node := flatten_type_with flatten_type1.
Definition flatten_group : list (list grpent) -> res (list node) := flatten_group_with flatten_grpent.

(** src/flatten.rs 63-74: [flatten_rule]. *)
Definition flatten_rule (r : rule) : res (text * rule_def) :=
  bind_res
    (match r_val r with
     | AssignType t => flatten_type t
     | AssignGroup g => flatten_grpent g
     end)
    (fun nd => Ok (r_name r, RuleDef (r_parms r) nd)).

(** src/flatten.rs 38-41: [flatten]. *)
Definition flatten (c : cddl) : res rules :=
  bind_res (collect_res flatten_rule c) (fun l => Ok (tm_collect l)).

(** src/flatten.rs 47-58: [slice_flatten]. *)
Definition slice_flatten (c : cddl_slice) : res (list (text * (rule_def * text))) :=
  bind_res
    (collect_res (fun rs => bind_res (flatten_rule (fst rs)) (fun nf => Ok (fst nf, (snd nf, snd rs)))) c)
    (fun l => Ok (tm_collect l)).
End Flatten.
