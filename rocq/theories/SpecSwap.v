(** Putting one type in the place of another, anywhere in a schema. *)
From Coq Require Import List Bool ZArith NArith String.
From Verif Require Import Base Util Data Value Ivt Validate Fun ConvertProofs SpecBase SpecCtx SpecConvert SpecVerdict SpecJudge SpecPeg.
Import ListNotations.

(** A place where any type may stand, and a place among the members of an array or map. *)
Inductive place := InType | InMember.

(** A type that is plainly one, also among members: not a name, not a group, not a
    member of a map, and not a choice with such an alternative. *)
Inductive type_member : node -> Prop :=
| tm_type t : only_type t = true -> type_member t
| tm_choice x l : (forall t, In t (x :: l) -> type_member t) -> type_member (NChoice (x :: l)).

Section Swap.
(** The pairs of types to be exchanged, and the names whose definition is inspected by
    [~], [&], a range or a control. *)
Variable hole : node -> node -> Prop.
Variable inspected : text -> Prop.

(** Generic arguments are not changed; if one is a name, the name counts as inspected. *)
Definition plain_arg (x : node) : Prop :=
  match x with
  | NRule name _ => inspected name
  | NGroup _ => False
  | _ => True
  end.

(** [swap p a b]: [b] is [a] with some types exchanged.  [kept]: the outermost
    construct is not exchanged. *)
Inductive swap : place -> node -> node -> Prop :=
| sw_kept p a b : kept p a b -> swap p a b
| sw_member p a b : hole a b -> type_member a -> type_member b -> swap p a b
| sw_type a b : hole a b -> swap InType a b
with kept : place -> node -> node -> Prop :=
| k_leaf p t : leaf t = true ->
    (forall name args, In (NRule name args) (children t) -> inspected name) ->
    (forall name args x, In (NRule name args) (children t) -> In x args -> kept InMember x x /\ plain_arg x) ->
    kept p t t
| k_rule p name args : (forall x, In x args -> kept InMember x x /\ plain_arg x) ->
    kept p (NRule name args) (NRule name args)
| k_choice p l1 l2 : Forall2 (swap InMember) l1 l2 -> kept p (NChoice l1) (NChoice l2)
| k_choice_type l1 l2 : Forall2 (swap InType) l1 l2 -> kept InType (NChoice l1) (NChoice l2)
| k_map p l1 l2 : Forall2 (swap InMember) l1 l2 -> kept p (NMap l1) (NMap l2)
| k_array p l1 l2 : Forall2 (swap InMember) l1 l2 -> kept p (NArray l1) (NArray l2)
| k_group p l1 l2 : Forall2 (swap InMember) l1 l2 -> kept p (NGroup l1) (NGroup l2)
| k_parens t1 t2 : swap InType t1 t2 -> kept InType (NGroup [t1]) (NGroup [t2])
| k_kv p k1 v1 k2 v2 cut : swap InType k1 k2 -> swap InType v1 v2 -> kept p (NKeyValue k1 v1 cut) (NKeyValue k2 v2 cut)
| k_occur p o n1 n2 : swap InMember n1 n2 -> kept p (NOccur o n1) (NOccur o n2)
| k_unwrap p name args : inspected name -> (forall x, In x args -> kept InMember x x /\ plain_arg x) ->
    kept p (NUnwrap name args) (NUnwrap name args)
| k_choiceify p name args : inspected name -> (forall x, In x args -> kept InMember x x /\ plain_arg x) ->
    kept p (NChoiceify name args) (NChoiceify name args)
| k_inline p l1 l2 : Forall2 (swap InMember) l1 l2 ->
    (forall name args, In (NRule name args) l1 -> inspected name) ->
    kept p (NChoiceifyInline l1) (NChoiceifyInline l2)
| k_cbor p t1 t2 : swap InType t1 t2 -> kept p (NControl (CtlCbor t1)) (NControl (CtlCbor t2)).

(** A definition that may be inspected. *)
Definition value_pair (i j : node) : Prop :=
  match i, j with
  | NKeyValue _ v _, NKeyValue _ v' _ => swap InMember v v'
  | _, _ => True
  end.
Definition seen (a b : node) : Prop :=
  match a, b with
  | NRule name _, _ => inspected name
  | NGroup l1, NGroup l2 =>
      (forall name args, In (NRule name args) l1 -> inspected name) /\ Forall2 value_pair l1 l2
  | _, _ => True
  end.

Definition swapped_rules (lk1 lk2 : lookup_context) : Prop :=
  forall name,
    match lk1 name, lk2 name with
    | inl d1, inl d2 =>
        rd_parms d1 = rd_parms d2 /\ swap InMember (rd_node d1) (rd_node d2) /\
        (inspected name -> kept InMember (rd_node d1) (rd_node d2) /\ seen (rd_node d1) (rd_node d2))
    | inr e1, inr e2 => e1 = e2
    | _, _ => False
    end.
End Swap.

(** A type without names. *)
Definition closed_type (t : node) : Prop := forall name, ~ mentions t name.

(** Two such types with the same verdict on every value. *)
Definition equal_types (X : ext) (a b : node) : Prop :=
  closed_type a /\ closed_type b /\
  forall v, keys_sorted v ->
    same_verdict (run_validate X (basic_context []) v (RuleDef [] a)) (run_validate X (basic_context []) v (RuleDef [] b)).
