(** Specification of the leaves of a schema: literals, prelude types, ranges and
    the controls [.size], [.lt], [.le], [.gt], [.ge] and [.regexp].

    [judges c t v j]: the judgement [j] on the value [v] by the leaf [t] in scope
    [c].  The value has the type, or it does not, or the leaf is defective; in the
    last two cases with the text or error that is reported.  Of several defects the
    first one counts: the start of a range before its end, the argument of a control
    before its target. *)
From Coq Require Import List Bool ZArith NArith String.
From Verif Require Import Base Util Data Value Ivt Validate SpecBase SpecScalar SpecVerdict SpecReach.
From Verif Require Export SpecText.
Import ListNotations.
Open Scope list_scope.

Definition leaf (nd : node) : bool :=
  match nd with
  | NLiteral _ | NPrelude _ | NRange _ _ _ => true
  | NControl (CtlCbor _) => false
  | NControl _ => true
  | _ => false
  end.

(** * Sizes *)
Definition char_bytes (c : N) : Z :=
  if N.ltb c 0x80 then 1 else if N.ltb c 0x800 then 2 else if N.ltb c 0x10000 then 3 else 4.
Inductive in_bytes : value -> Z -> Prop :=
| in_bytes_bytes b : in_bytes (VBytes b) (Z.of_nat (List.length b))
| in_bytes_text t : in_bytes (VText t) (fold_right (fun c n => char_bytes c + n)%Z 0%Z t).
(** [uint .size n] are the numbers that fit in [n] bytes (every number in the data
    fits in 16); with a range of sizes the least number of bytes counts. *)
Inductive sized : prelude -> Z -> Z -> bool -> value -> Prop :=
| sized_uint n x : (0 <= x)%Z -> (x < 256 ^ n \/ 16 <= n)%Z -> sized PUint n n true (VInteger x)
| sized_uint_range a b incl x k : ~ (a = b /\ incl = true) -> min_bytes x k -> between a b incl k ->
    sized PUint a b incl (VInteger x)
| sized_string p a b incl v k : p = PTstr \/ p = PBstr -> in_prelude p v -> in_bytes v k -> between a b incl k ->
    sized p a b incl v.

(** * Ranges *)
Inductive within_ends (incl : bool) (v : value) : literal -> literal -> Prop :=
| within_int a b : in_int_range a b incl v -> within_ends incl v (LInt a) (LInt b)
| within_float a b : in_float_range a b incl v -> within_ends incl v (LFloat a) (LFloat b).

(** * Arguments *)
Definition u64 (z : Z) : Prop := (0 <= z < 2 ^ 64)%Z.
Inductive size_arg : node -> Z -> Z -> bool -> Prop :=
| size_arg_number n : u64 n -> size_arg (NLiteral (LInt n)) n n true
| size_arg_range a b incl : u64 a -> u64 b -> size_arg (NRange (NLiteral (LInt a)) (NLiteral (LInt b)) incl) a b incl.
Definition size_classes := [PUint; PTstr; PBstr].
Definition cmp_classes := [PUint; PNint; PInt].

(** * Texts *)
(** A value that is not of the class, or a number beyond the limit. *)
Inductive limit_said (op : cmp_op) (p : prelude) (v : value) : text -> Prop :=
| said_class : ~ in_prelude p v -> limit_said op p v (type_name p)
| said_limit : in_prelude p v -> limit_said op p v (limit_text op p).
(** The size of a value for [.size]. *)
Inductive size_is : prelude -> value -> Z -> Prop :=
| size_of_uint x k : min_bytes x k -> size_is PUint (VInteger x) k
| size_of_tstr t k : in_bytes (VText t) k -> size_is PTstr (VText t) k
| size_of_bstr b k : in_bytes (VBytes b) k -> size_is PBstr (VBytes b) k.
(** Values of the wrong kind for the target of [.size]. *)
Definition no_size (p : prelude) (v : value) : Prop :=
  match p with
  | PUint => forall x, v <> VInteger x
  | PTstr => forall t, v <> VText t
  | _ => forall b, v <> VBytes b
  end.
(** An empty range of sizes is reported first, then a value of the wrong kind, then a
    size below the start of the range; any other size is beyond its end. *)
Inductive size_said (p : prelude) (a b : Z) (incl : bool) (v : value) : text -> Prop :=
| said_empty : (forall k, ~ between a b incl k) -> size_said p a b incl v (type_name p ++ txt " over .size limit")
| said_kind k : between a b incl k -> no_size p v -> size_said p a b incl v (type_name p)
| said_negative k x : between a b incl k -> p = PUint -> v = VInteger x -> (x < 0)%Z ->
    size_said p a b incl v (txt ".size on negative integer")
| said_under k n : between a b incl k -> size_is p v n -> (n < a)%Z -> size_said p a b incl v (type_name p ++ txt " under .size limit")
| said_over k n : between a b incl k -> size_is p v n -> (a <= n)%Z -> size_said p a b incl v (type_name p ++ txt " over .size limit").

Section Judge.
Variable X : ext.

(** Arguments of [.size] that are neither a number nor a range of numbers that fit. *)
Inductive size_arg_fault : node -> text -> Prop :=
| fault_number z : ~ u64 z -> size_arg_fault (NLiteral (LInt z)) (txt "bad .size limit " ++ integer z)
| fault_start s e incl : (forall z, s <> NLiteral (LInt z)) ->
    size_arg_fault (NRange s e incl) (txt "bad .size range start type (" ++ part_text X s ++ txt ")")
| fault_end a e incl : (forall z, e <> NLiteral (LInt z)) ->
    size_arg_fault (NRange (NLiteral (LInt a)) e incl) (txt "bad .size range end type (" ++ part_text X e ++ txt ")")
| fault_start_number a b incl : ~ u64 a ->
    size_arg_fault (NRange (NLiteral (LInt a)) (NLiteral (LInt b)) incl) (txt "bad .size limit " ++ integer a)
| fault_end_number a b incl : u64 a -> ~ u64 b ->
    size_arg_fault (NRange (NLiteral (LInt a)) (NLiteral (LInt b)) incl) (txt "bad .size limit " ++ integer b)
| fault_type nd : (forall z, nd <> NLiteral (LInt z)) -> (forall s e incl, nd <> NRange s e incl) ->
    size_arg_fault nd (txt "bad .size argument type (" ++ part_text X nd ++ txt ")").
(** Types that cannot be compared. *)
Definition cmp_target_fault (op : cmp_op) (nd : node) : text :=
  match nd with
  | NPrelude PFloat => txt "." ++ op_name op ++ txt " for float is not supported yet"
  | _ => txt "bad ." ++ op_name op ++ txt " target type (" ++ part_text X nd ++ txt ")"
  end.
Variable lk : lookup_context.

(** Following names from [nd] one meets a reference that cannot be resolved: the
    name is not defined, it has the wrong number of arguments, or the recursion
    limit is reached. *)
Definition dangles (c : ctx) (nd : node) (e : verror) : Prop :=
  exists name args c', follows lk c nd name args c' /\ lookup_rule lk c' name args = Err e.
(** Following names from [nd] ends at [nd']. *)
Definition stands (c : ctx) (nd nd' : node) : Prop := exists c', named lk c nd nd' c'.

Inductive judgement := Good | Poor (m : text) | Faulty (e : verror).
(** A condition on the value decides. *)
Inductive settles (P : Prop) (m : text) : judgement -> Prop :=
| settles_yes : P -> settles P m Good
| settles_no : ~ P -> settles P m (Poor m).

Inductive judges (c : ctx) : node -> value -> judgement -> Prop :=
| j_literal l v j : settles (lit_is l v) (literal_text X l) j -> judges c (NLiteral l) v j
| j_prelude p v j : settles (in_prelude p v) (type_name p) j -> judges c (NPrelude p) v j
(** Ranges *)
| j_range s t incl l l' v j : stands c s (NLiteral l) -> stands c t (NLiteral l') -> same_kind l l' ->
    settles (within_ends incl v l l') (range_text X s t incl) j -> judges c (NRange s t incl) v j
| j_start_dangles s t incl v e : dangles c s e -> judges c (NRange s t incl) v (Faulty e)
| j_start_improper s t incl v nd : stands c s nd -> (forall l, nd <> NLiteral l) ->
    judges c (NRange s t incl) v (Faulty (EStructural (txt "confusing type on range operator")))
| j_end_dangles s t incl v l e : stands c s (NLiteral l) -> dangles c t e ->
    judges c (NRange s t incl) v (Faulty e)
| j_end_improper s t incl v l nd : stands c s (NLiteral l) -> stands c t nd -> (forall l, nd <> NLiteral l) ->
    judges c (NRange s t incl) v (Faulty (EStructural (txt "confusing type on range operator")))
| j_kinds s t incl v l l' : stands c s (NLiteral l) -> stands c t (NLiteral l') -> ~ same_kind l l' ->
    judges c (NRange s t incl) v (Faulty (EStructural (txt "mismatched types on range operator")))
(** Comparisons *)
| j_compare op t l p n v m j : stands c l (NLiteral (LInt n)) -> stands c t (NPrelude p) -> In p cmp_classes ->
    limit_said op p v m -> settles (in_prelude p v /\ exists z, v = VInteger z /\ cmp_holds op z n) m j ->
    judges c (NControl (cmp_control op t l)) v j
| j_limit_improper op t l nd v : stands c l nd -> (forall n, nd <> NLiteral (LInt n)) ->
    judges c (NControl (cmp_control op t l)) v
      (Faulty (EStructural (txt "bad ." ++ op_name op ++ txt " argument type (" ++ part_text X nd ++ txt ")")))
| j_compared_dangles op t l n v e : stands c l (NLiteral (LInt n)) -> dangles c t e ->
    judges c (NControl (cmp_control op t l)) v (Faulty e)
| j_compared_improper op t l n nd v : stands c l (NLiteral (LInt n)) -> stands c t nd ->
    (forall p, In p cmp_classes -> nd <> NPrelude p) ->
    judges c (NControl (cmp_control op t l)) v (Faulty (EStructural (cmp_target_fault op nd)))
(** Sizes *)
| j_size t l nd a b incl p v m j : stands c l nd -> size_arg nd a b incl -> stands c t (NPrelude p) -> In p size_classes ->
    size_said p a b incl v m -> settles (sized p a b incl v) m j -> judges c (NControl (CtlSize t l)) v j
| j_size_improper t l nd v m : stands c l nd -> size_arg_fault nd m ->
    judges c (NControl (CtlSize t l)) v (Faulty (EStructural m))
| j_sized_dangles t l nd a b incl v e : stands c l nd -> size_arg nd a b incl -> dangles c t e ->
    judges c (NControl (CtlSize t l)) v (Faulty e)
| j_sized_improper t l nd a b incl nd' v : stands c l nd -> size_arg nd a b incl -> stands c t nd' ->
    (forall p, In p size_classes -> nd' <> NPrelude p) ->
    judges c (NControl (CtlSize t l)) v (Faulty (EStructural (txt "bad .size target type (" ++ part_text X nd' ++ txt ")")))
| j_argument_dangles ctl t l v e : control_parts ctl t l -> dangles c l e ->
    judges c (NControl ctl) v (Faulty e)
(** Regular expressions *)
| j_regexp re v j : settles (exists t, v = VText t /\ regex_match X re t = true) (match v with VText _ => txt "regex mismatch" | _ => txt "tstr" end) j ->
    judges c (NControl (CtlRegexp re)) v j.
End Judge.
