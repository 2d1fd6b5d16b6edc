(** Model of src/ast.rs: the syntax tree.  The newtypes [Type] (225), [Group]
    (121) and [GrpChoice] (109) are lists; [NameGeneric] (138), [TypeRange]
    (199), [TypeControl] (212) and [Member] (57) are inlined as constructor
    arguments. *)
From Coq Require Import List Bool ZArith NArith.
From Verif Require Import Base Ivt.
Import ListNotations.

(** src/ast.rs 14-25: [Value]; [Uint] is a [u64], [Nint] an [i64], a float is
    its bit pattern. *)
Inductive ast_value :=
| AText (t : text)
| AUint (n : N)
| ANint (z : Z)
| AFloat (bits : N)
| ABytes (b : bytes).

(** src/ast.rs 166-175 [Type2], 184-191 [Type1], 94-97 [GrpEnt], 75-79
    [GrpEntVal], 47-52 [MemberKey], 30-37 [MemberKeyVal].  [Occur] (65-70) is
    [occur_limit] of Ivt.v, as in the crate (src/ivt.rs 238). *)
Inductive type2 :=
| T2Value (v : ast_value)
| T2Typename (name : text) (args : list type1)
| T2Paren (t : list type1)
| T2Map (g : list (list grpent))
| T2Array (g : list (list grpent))
| T2Unwrap (name : text) (args : list type1)
| T2ChoiceifyInline (g : list (list grpent))
| T2Choiceify (name : text) (args : list type1)
with type1 :=
| T1Simple (t : type2)
| T1Range (start end_ : type2) (inclusive : bool)
| T1Control (target arg : type2) (op : text)
with grpent :=
| GrpEnt (occur : option occur_limit) (val : grpent_val)
with grpent_val :=
| GMember (key : option member_key) (value : list type1)
| GGroupname (name : text)
| GParen (g : list (list grpent))
with member_key :=
| MKey (val : member_key_val) (cut : bool)
with member_key_val :=
| MKType1 (t : type1)
| MKBareword (s : text)
| MKValue (v : ast_value).

Definition type_ := list type1.
Definition grpchoice := list grpent.
Definition group := list grpchoice.

(** src/ast.rs 261-267: [RuleVal]. *)
Inductive rule_val :=
| AssignType (t : type_)
| AssignGroup (g : grpent).

(** src/ast.rs 241-248: [Rule]. *)
Record rule := Rule { r_name : text; r_parms : list text; r_val : rule_val }.

(** src/ast.rs 274-277: [Cddl]; 286-289: [CddlSlice]. *)
Definition cddl := list rule.
Definition cddl_slice := list (rule * text).
