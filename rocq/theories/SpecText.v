(** How error messages name types, values and parts of a schema.  Written down
    from the point of view of the reader of the messages; none of the printing
    functions of the model is used. *)
From Coq Require Import List Bool ZArith NArith String.
From Verif Require Import Base Data Ivt SpecBase SpecScalar.
Import ListNotations.
Open Scope list_scope.

(** Names of the prelude types as they are written in a schema. *)
Definition type_name (p : prelude) : text :=
  match p with
  | PAny => txt "any" | PNil => txt "nil" | PBool => txt "bool" | PInt => txt "int"
  | PUint => txt "uint" | PNint => txt "nint" | PFloat => txt "float"
  | PTstr => txt "tstr" | PBstr => txt "bstr"
  end.
Definition number (n : N) : text := txt (DecimalString.NilZero.string_of_uint (N.to_uint n)).
Definition integer (z : Z) : text := txt (DecimalString.NilZero.string_of_int (Z.to_int z)).
Definition count_of {A} (l : list A) : text := number (N.of_nat (List.length l)).
Definition op_name (op : cmp_op) : text :=
  match op with OpLt => txt "lt" | OpLe => txt "le" | OpGt => txt "gt" | OpGe => txt "ge" end.

(** A number over or under the limit of a comparison.  Three texts name another
    operator or direction than the schema does. *)
Definition limit_text (op : cmp_op) (p : prelude) : text :=
  match op, p with
  | OpLt, _ => type_name p ++ txt " over .lt limit"
  | OpLe, PNint => txt "nint over .lt limit"
  | OpLe, _ => type_name p ++ txt " over .le limit"
  | OpGt, PInt => txt "int over .ge limit"
  | OpGt, PNint => txt "nint over .gt limit"
  | OpGt, _ => type_name p ++ txt " under .gt limit"
  | OpGe, PUint => txt "uint under .ge limit"
  | OpGe, _ => type_name p ++ txt " over .ge limit"
  end.

Section Text.
Variable X : ext.
(** Literals are written out, except byte strings. *)
Definition literal_text (l : literal) : text :=
  match l with
  | LBool b => if b then txt "true" else txt "false"
  | LInt z => integer z
  | LFloat u => f64_display X u
  | LText s => txt """" ++ s ++ txt """"
  | LBytes _ => txt "LiteralBytes"
  end.
(** Of other types only the kind is named. *)
Definition kind_text (n : node) : text :=
  match n with
  | NPrelude PAny => txt "Any" | NPrelude PNil => txt "Nil" | NPrelude PBool => txt "Bool"
  | NPrelude PInt => txt "Int" | NPrelude PUint => txt "Uint" | NPrelude PNint => txt "Nint"
  | NPrelude PFloat => txt "Float" | NPrelude PTstr => txt "Tstr" | NPrelude PBstr => txt "Bstr"
  | NRule _ _ => txt "Rule" | NChoice _ => txt "Choice" | NMap _ => txt "Map" | NArray _ => txt "Array"
  | NGroup _ => txt "Group" | NOccur _ _ => txt "Occur" | NUnwrap _ _ => txt "Unwrap" | NRange _ _ _ => txt "Range"
  | NControl _ => txt "Control" | NChoiceify _ _ => txt "Choiceify" | NChoiceifyInline _ => txt "ChoiceifyInline"
  | NLiteral _ | NKeyValue _ _ _ => []
  end.
Fixpoint part_text (n : node) : text :=
  match n with
  | NLiteral l => literal_text l
  | NKeyValue key t _ => part_text key ++ txt ": " ++ part_text t
  | _ => kind_text n
  end.
Definition range_text (s e : node) (incl : bool) : text :=
  part_text s ++ (if incl then txt ".." else txt "...") ++ part_text e.
(** [n*] is only written for [0*]. *)
Definition occur_text (l : occur_limit) (n : node) : text :=
  match l with
  | OOptional => txt "? "
  | OZeroOrMore => txt "* "
  | OOneOrMore => txt "+ "
  | ONumbered a b => if N.eqb a 0 && N.eqb b (2 ^ 64 - 1) then txt "0* " else number a ++ txt "*" ++ number b ++ txt " "
  end ++ part_text n.
End Text.
