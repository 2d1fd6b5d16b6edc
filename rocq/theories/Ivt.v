(** Model of src/ivt.rs: the intermediate validation tree. *)
From Coq Require Import List Bool ZArith NArith String.
From Verif Require Import Base Util Data.
Import ListNotations.
Open Scope list_scope.

(** src/ivt.rs 52-71: [PreludeType]. *)
Inductive prelude := PAny | PNil | PBool | PInt | PUint | PNint | PFloat | PTstr | PBstr.

(** src/ivt.rs 76-83: [Literal]; floats as bit patterns. *)
Inductive literal :=
| LBool (b : bool)
| LInt (z : Z)
| LFloat (bits : N)
| LText (t : text)
| LBytes (b : bytes).

(** src/ast.rs 65-70 = src/ivt.rs 238: [OccurLimit]; the numbers are [usize]. *)
Inductive occur_limit :=
| OOptional
| OZeroOrMore
| OOneOrMore
| ONumbered (n m : N).

(** src/ivt.rs 378-393, 403-534: [Control], over the type of nodes.  A compiled
    regex is represented by its pattern. *)
Inductive control (node : Type) :=
| CtlSize (target size : node)
| CtlLt (target lt : node)
| CtlLe (target le : node)
| CtlGt (target gt : node)
| CtlGe (target ge : node)
| CtlRegexp (re : text)
| CtlCbor (nd : node).
Arguments CtlSize {node} target size.
Arguments CtlLt {node} target lt.
Arguments CtlLe {node} target le.
Arguments CtlGt {node} target gt.
Arguments CtlGe {node} target ge.
Arguments CtlRegexp {node} re.
Arguments CtlCbor {node} nd.

(** src/ivt.rs 539-554: [Node].  The structs [Rule] (131), [Choice] (158),
    [KeyValue] (190), [Occur] (246), [Map] (303), [Group] (310), [Array] (345),
    [Range] (358) are inlined as constructor arguments. *)
Inductive node :=
| NLiteral (l : literal)
| NPrelude (p : prelude)
| NRule (name : text) (args : list node)
| NChoice (options : list node)
| NMap (members : list node)
| NArray (members : list node)
| NGroup (members : list node)
| NKeyValue (key val : node) (cut : bool)
| NOccur (limit : occur_limit) (nd : node)
| NUnwrap (name : text) (args : list node)
| NRange (start end_ : node) (inclusive : bool)
| NControl (c : control node)
| NChoiceify (name : text) (args : list node)
| NChoiceifyInline (members : list node).

(** src/ivt.rs 21-26: [RuleDef]. *)
Record rule_def := RuleDef { rd_parms : list text; rd_node : node }.

(** src/ivt.rs 284-291: [Occur::limits]. *)
Definition limits (o : occur_limit) : N * N :=
  match o with
  | OOptional => (0, 1)%N
  | OZeroOrMore => (0%N, usize_max)
  | OOneOrMore => (1%N, usize_max)
  | ONumbered n m => (n, m)
  end.

(** src/ivt.rs 263-273: [Occur::symbol]. *)
Definition symbol (o : occur_limit) : text :=
  match o with
  | OOptional => txt "?"
  | OZeroOrMore => txt "*"
  | OOneOrMore => txt "+"
  | ONumbered n m =>
      if N.eqb n 0 && N.eqb m usize_max then show_N n ++ txt "*"
      else show_N n ++ txt "*" ++ show_N m
  end.

(** strum [Display] of [PreludeType] (src/ivt.rs 50): the variant name. *)
Definition show_prelude (p : prelude) : text :=
  match p with
  | PAny => txt "Any" | PNil => txt "Nil" | PBool => txt "Bool" | PInt => txt "Int"
  | PUint => txt "Uint" | PNint => txt "Nint" | PFloat => txt "Float"
  | PTstr => txt "Tstr" | PBstr => txt "Bstr"
  end.

Section Display.
Variable X : ext.

(** src/ivt.rs 85-97: [Display for Literal]. *)
Definition show_literal (l : literal) : text :=
  match l with
  | LBool true => txt "true"
  | LBool false => txt "false"
  | LInt z => show_Z z
  | LFloat u => f64_display X u
  | LText s => [34%N] ++ s ++ [34%N]
  | LBytes _ => txt "LiteralBytes"
  end.

(** src/ivt.rs 556-568 ([Display for Node], other variants print their name)
    and 209-213 ([Display for KeyValue]). *)
Fixpoint show_node (n : node) : text :=
  match n with
  | NLiteral l => show_literal l
  | NPrelude p => show_prelude p
  | NKeyValue k v _ => show_node k ++ txt ": " ++ show_node v
  | NRule _ _ => txt "Rule"
  | NChoice _ => txt "Choice"
  | NMap _ => txt "Map"
  | NArray _ => txt "Array"
  | NGroup _ => txt "Group"
  | NOccur _ _ => txt "Occur"
  | NUnwrap _ _ => txt "Unwrap"
  | NRange _ _ _ => txt "Range"
  | NControl _ => txt "Control"
  | NChoiceify _ _ => txt "Choiceify"
  | NChoiceifyInline _ => txt "ChoiceifyInline"
  end.

(** src/ivt.rs 294-298: [Display for Occur]. *)
Definition show_occur (o : occur_limit) (n : node) : text :=
  symbol o ++ txt " " ++ show_node n.

(** src/ivt.rs 364-369: [Display for Range]. *)
Definition show_range (s e : node) (incl : bool) : text :=
  show_node s ++ (if incl then txt ".." else txt "...") ++ show_node e.
End Display.
