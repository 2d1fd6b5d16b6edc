(** Specification: defects of schemas.

    [defect r c nd e]: the node [nd], used in the role [r] in scope [c], is
    reported as the error [e].  Only the schema is looked at, but for byte strings
    that [.cbor] cannot decode. *)
From Coq Require Import List Bool ZArith NArith String.
From Verif Require Import Base Util Data Value Convert Ivt Validate SpecBase SpecReach SpecPeg.
Import ListNotations.

Section Defect.
Variable X : ext.
Variable lk : lookup_context.

Definition same_kind (l l' : literal) : Prop :=
  match l, l' with
  | LBool _, LBool _ | LInt _, LInt _ | LFloat _, LFloat _ | LText _, LText _ | LBytes _, LBytes _ => True
  | _, _ => False
  end.

(** What a control operator may be applied to, and its possible arguments. *)
Inductive limit_for : control node -> node -> Prop :=
| limit_size t l z : u64 z -> limit_for (CtlSize t l) (NLiteral (LInt z))
| limit_size_range t l a b i : u64 a -> u64 b ->
    limit_for (CtlSize t l) (NRange (NLiteral (LInt a)) (NLiteral (LInt b)) i)
| limit_lt t l z : limit_for (CtlLt t l) (NLiteral (LInt z))
| limit_le t l z : limit_for (CtlLe t l) (NLiteral (LInt z))
| limit_gt t l z : limit_for (CtlGt t l) (NLiteral (LInt z))
| limit_ge t l z : limit_for (CtlGe t l) (NLiteral (LInt z)).
Inductive target_for : control node -> prelude -> Prop :=
| target_size t l p : In p [PUint; PTstr; PBstr] -> target_for (CtlSize t l) p
| target_lt t l p : In p [PUint; PNint; PInt] -> target_for (CtlLt t l) p
| target_le t l p : In p [PUint; PNint; PInt] -> target_for (CtlLe t l) p
| target_gt t l p : In p [PUint; PNint; PInt] -> target_for (CtlGt t l) p
| target_ge t l p : In p [PUint; PNint; PInt] -> target_for (CtlGe t l) p.

Inductive defect : role -> ctx -> node -> verror -> Prop :=
(** Names. *)
| bad_name r c name args e : lookup_rule lk c name args = Err e -> defect r c (NRule name args) e
| bad_unwrap r c name args e : r = AsArray \/ r = AsMap -> lookup_rule lk c name args = Err e ->
    defect r c (NUnwrap name args) e
(** [&name] where [name] is not a group. *)
| bad_one_of r c name args t' c' m : r = AsOneOf \/ r = AsOneOfM -> lookup_rule lk c name args = Ok (t', c') ->
    (forall is, t' <> NGroup is) -> (forall n l, t' <> NRule n l) -> defect r c (NRule name args) (EStructural m)
(** A member or a group as a type, a type as a member of a map. *)
| bad_member c t m : only_member t = true -> defect AsType c t (EStructural m)
| bad_group c ts m : List.length ts <> 1 -> defect AsType c (NGroup ts) (EUnsupported m)
| bad_entry c t m : only_type t = true -> defect AsMap c t (EStructural m)
(** Ranges whose ends are not literals of one kind. *)
| bad_range_name c s t i nd e : nd = s \/ nd = t -> dangles lk c nd e -> defect AsType c (NRange s t i) e
| bad_range_end c s t i nd nd' m : nd = s \/ nd = t -> stands lk c nd nd' -> (forall l, nd' <> NLiteral l) ->
    defect AsType c (NRange s t i) (EStructural m)
| bad_range_kinds c s t i l l' m : stands lk c s (NLiteral l) -> stands lk c t (NLiteral l') -> ~ same_kind l l' ->
    defect AsType c (NRange s t i) (EStructural m)
(** Controls. *)
| bad_control_name c ctl t l nd e : control_parts ctl t l -> nd = t \/ nd = l -> dangles lk c nd e ->
    defect AsType c (NControl ctl) e
| bad_limit_of c ctl t l l' m : control_parts ctl t l -> stands lk c l l' -> ~ limit_for ctl l' ->
    defect AsType c (NControl ctl) (EStructural m)
| bad_target c ctl t l t' m : control_parts ctl t l -> stands lk c t t' -> (forall p, target_for ctl p -> t' <> NPrelude p) ->
    defect AsType c (NControl ctl) (EStructural m)
| bad_cbor c t b e : (exists m, cbor_decode X b = inr m /\ e = EValueError m) \/
    (exists x, cbor_decode X b = inl x /\ of_cbor x = Err e) -> defect AsType c (NControl (CtlCbor t)) e.
End Defect.
