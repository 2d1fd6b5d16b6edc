(** Which error an unsupported schema is reported with, on the syntax alone: the
    first fault, in the order of the text; of a control operator, an unknown
    operator comes before the operands and their combination after them.  Inside
    the arguments of [~name<...>] and [&name<...>] every fault is a generic error. *)
From Coq Require Import List ZArith NArith String.
From Verif Require Import Base Util Data Ivt Ast SpecFlatten.
Import ListNotations.
Open Scope list_scope.

(** [first P Q l]: some element of [l] has [Q] and all before it have [P]. *)
Definition first {A} (P Q : A -> Prop) (l : list A) : Prop :=
  exists pre x post, l = pre ++ x :: post /\ Forall P pre /\ Q x.

Definition unsupported (s : string) : verror := EUnsupported (txt s).
Definition structural (s : string) : verror := EStructural (txt s).
Definition operators : list string := ["size"; "lt"; "le"; "gt"; "ge"; "regexp"; "cbor"]%string.
Definition is_range (t : type1) : Prop := exists a b i, t = T1Range a b i.
Definition is_text (t : type1) (re : text) : Prop := t = T1Simple (T2Value (AText re)).

(** Operands that are fine in themselves but not for the operator. *)
Inductive misfit (rx : text -> bool) : string -> type1 -> type1 -> verror -> Prop :=
| misfit_size t a : ~ limit_syntax a -> ~ is_range a -> misfit rx "size" t a (unsupported ".size limit type")
| misfit_lt t a : ~ limit_syntax a -> misfit rx "lt" t a (unsupported ".lt limit type")
| misfit_le t a : ~ limit_syntax a -> misfit rx "le" t a (unsupported ".le limit type")
| misfit_gt t a : ~ limit_syntax a -> misfit rx "gt" t a (unsupported ".gt limit type")
| misfit_ge t a : ~ limit_syntax a -> misfit rx "ge" t a (unsupported ".ge limit type")
| misfit_target t a : ~ names_prelude PTstr t -> misfit rx "regexp" t a (structural "bad regexp target type")
| misfit_regexp t a : names_prelude PTstr t -> (forall re, ~ is_text a re) ->
    misfit rx "regexp" t a (structural "improper regexp type")
| misfit_malformed t a re : names_prelude PTstr t -> is_text a re -> rx re = false ->
    misfit rx "regexp" t a (structural "malformed regexp")
| misfit_cbor t a : ~ names_prelude PBstr t -> misfit rx "cbor" t a (structural "bad .cbor target type").

Section Fault.
Variable rx : text -> bool.

Inductive fault2 : type2 -> verror -> Prop :=
| fault_typename name args e : fault_name name args e -> fault2 (T2Typename name args) e
| fault_paren t e : fault_type t e -> fault2 (T2Paren t) e
| fault_map g e : fault_group g e -> fault2 (T2Map g) e
| fault_array g e : fault_group g e -> fault2 (T2Array g) e
| fault_inline g e : fault_group g e -> fault2 (T2ChoiceifyInline g) e
| fault_unwrap name args : ~ (user_name name /\ Forall (supported1 rx) args) -> fault2 (T2Unwrap name args) EGenericError
| fault_choice name args : ~ (user_name name /\ Forall (supported1 rx) args) -> fault2 (T2Choiceify name args) EGenericError
with fault_name : text -> list type1 -> verror -> Prop :=
| fault_prelude s args : In (s, None) prelude_table ->
    fault_name (txt s) args (EUnsupported (txt "prelude type '" ++ txt s ++ txt "'"))
| fault_generic s nd args : In (s, Some nd) prelude_table -> args <> [] -> fault_name (txt s) args EGenericError
| fault_argument name args e :
    user_name name -> first (supported1 rx) (fun a => fault1 a e) args -> fault_name name args e
with fault1 : type1 -> verror -> Prop :=
| fault_simple t e : fault2 t e -> fault1 (T1Simple t) e
| fault_start s t i e : fault_point s e -> fault1 (T1Range s t i) e
| fault_end s t i e : supported_point rx s -> fault_point t e -> fault1 (T1Range s t i) e
| fault_operator t a op : ~ In op (map txt operators) -> fault1 (T1Control t a op) (unsupported "control operator")
| fault_target t a op e : In op operators -> fault2 t e -> fault1 (T1Control t a (txt op)) e
| fault_operand t a op e : In op operators -> supported2 rx t -> fault2 a e -> fault1 (T1Control t a (txt op)) e
| fault_misfit t a op e : supported2 rx t -> supported2 rx a -> misfit rx op (peel t) (peel a) e ->
    fault1 (T1Control t a (txt op)) e
with fault_point : type2 -> verror -> Prop :=
| fault_pname name args e : fault_name name args e -> fault_point (T2Typename name args) e
| fault_pclass s p : In (s, Some (NPrelude p)) prelude_table ->
    fault_point (T2Typename (txt s) []) (structural "bad type on range operator")
| fault_pother t : (forall v, t <> T2Value v) -> (forall name args, t <> T2Typename name args) ->
    fault_point t (structural "bad type on range operator")
with fault_type : list type1 -> verror -> Prop :=
| fault_empty : fault_type [] (unsupported "flatten type with 0 options")
| fault_option ts e : first (supported1 rx) (fun t => fault1 t e) ts -> fault_type ts e
with fault_group : list (list grpent) -> verror -> Prop :=
| fault_member g e :
    first (Forall (supported_entry rx)) (first (supported_entry rx) (fun m => fault_entry m e)) g -> fault_group g e
with fault_entry : grpent -> verror -> Prop :=
| fault_ent o v e : fault_val v e -> fault_entry (GrpEnt o v) e
with fault_val : grpent_val -> verror -> Prop :=
| fault_key k cut ts e : fault1 k e -> fault_val (GMember (Some (MKey (MKType1 k) cut)) ts) e
| fault_value key ts e :
    match key with Some (MKey (MKType1 k) _) => supported1 rx k | _ => True end ->
    fault_type ts e -> fault_val (GMember key ts) e
| fault_gname s : In (s, None) prelude_table ->
    fault_val (GGroupname (txt s)) (EUnsupported (txt "prelude type '" ++ txt s ++ txt "'"))
| fault_gparen g e : fault_group g e -> fault_val (GParen g) e.

Inductive fault_rule : rule -> verror -> Prop :=
| fault_typerule name ps ts e : fault_type ts e -> fault_rule (Rule name ps (AssignType ts)) e
| fault_grouprule name ps g e : fault_entry g e -> fault_rule (Rule name ps (AssignGroup g)) e.
Definition fault_schema (c : list rule) (e : verror) : Prop :=
  first (supported_rule rx) (fun r => fault_rule r e) c.
End Fault.
