(** Which call of the validator makes which other call, read off the schema alone
    (every alternative of a choice and every member of a map is taken, whatever the
    data), and chains of such calls.  A chain is what sits on the native stack. *)
From Coq Require Import List Bool ZArith NArith String.
From Verif Require Import Base Util Data Value Convert Ivt Scalar Validate SpecBase SpecReach ArrayInv.
Import ListNotations.

(** How a node is being used: as a type, as an array member, as a map member, as a
    name whose members are alternatives (for a value, for a map), or followed to a
    literal or type name (range ends, operands of controls). *)
Inductive job := JType | JArray | JMap | JAlt | JMapAlt | JChase.
Record call := Call { c_job : job; c_node : node; c_ctx : ctx }.

(** An item of a group used as a choice ([&group]). *)
Definition alt_call (c : ctx) (m : node) : call :=
  match m with
  | NKeyValue _ vl _ => Call JType vl c
  | NRule _ _ => Call JAlt m c
  | _ => Call JType m c
  end.
Definition map_alt_call (c : ctx) (m : node) : call :=
  match m with
  | NKeyValue _ vl _ => Call JMap vl c
  | NRule _ _ => Call JMapAlt m c
  | _ => Call JMap m c
  end.

Inductive calls (lk : lookup_context) : call -> call -> Prop :=
(* types *)
| k_choice os o c : In o os -> calls lk (Call JType (NChoice os) c) (Call JType o c)
| k_map ms m c : In m ms -> calls lk (Call JType (NMap ms) c) (Call JMap m c)
| k_array ms m c : In m ms -> calls lk (Call JType (NArray ms) c) (Call JArray m c)
| k_group m c : calls lk (Call JType (NGroup [m]) c) (Call JType m c)
| k_range_start s e i c : calls lk (Call JType (NRange s e i) c) (Call JChase s c)
| k_range_end s e i c : calls lk (Call JType (NRange s e i) c) (Call JChase e c)
| k_limit ctl t l c : control_parts ctl t l -> calls lk (Call JType (NControl ctl) c) (Call JChase l c)
| k_target ctl t l c : control_parts ctl t l -> calls lk (Call JType (NControl ctl) c) (Call JChase t c)
| k_cbor nd c : calls lk (Call JType (NControl (CtlCbor nd)) c) (Call JType nd c)
| k_choiceify name args c : calls lk (Call JType (NChoiceify name args) c) (Call JAlt (NRule name args) c)
| k_inline ms m c : In m ms -> calls lk (Call JType (NChoiceifyInline ms) c) (alt_call c m)
(* references, whatever their use *)
| k_rule j name args nd' c c' : lookup_rule lk c name args = Ok (nd', c') ->
    match j with JType | JArray | JMap | JChase => True | _ => False end ->
    calls lk (Call j (NRule name args) c) (Call j nd' c')
| k_alt_rule j name args name' args' c c' : lookup_rule lk c name args = Ok (NRule name' args', c') ->
    match j with JAlt | JMapAlt => True | _ => False end ->
    calls lk (Call j (NRule name args) c) (Call j (NRule name' args') c')
| k_alt_group name args ms m c c' : lookup_rule lk c name args = Ok (NGroup ms, c') -> In m ms ->
    calls lk (Call JAlt (NRule name args) c) (alt_call c' m)
| k_map_alt_group name args ms m c c' : lookup_rule lk c name args = Ok (NGroup ms, c') -> In m ms ->
    calls lk (Call JMapAlt (NRule name args) c) (map_alt_call c' m)
(* array members *)
| k_a_occur lim m c : calls lk (Call JArray (NOccur lim m) c) (Call JArray m c)
| k_a_kv key vl cut c : calls lk (Call JArray (NKeyValue key vl cut) c) (Call JType vl c)
| k_a_unwrap name args ms m c c' : lookup_rule lk c name args = Ok (NArray ms, c') -> In m ms ->
    calls lk (Call JArray (NUnwrap name args) c) (Call JArray m c')
| k_a_choice os o c : In o os -> calls lk (Call JArray (NChoice os) c) (Call JArray o c)
| k_a_group ms m c : In m ms -> calls lk (Call JArray (NGroup ms) c) (Call JArray m c)
| k_a_type m c : plain_member m -> calls lk (Call JArray m c) (Call JType m c)
(* map members *)
| k_m_occur lim m c : calls lk (Call JMap (NOccur lim m) c) (Call JMap m c)
| k_m_key key vl cut c : calls lk (Call JMap (NKeyValue key vl cut) c) (Call JType key c)
| k_m_value key vl cut c : calls lk (Call JMap (NKeyValue key vl cut) c) (Call JType vl c)
| k_m_unwrap name args ms m c c' : lookup_rule lk c name args = Ok (NMap ms, c') -> In m ms ->
    calls lk (Call JMap (NUnwrap name args) c) (Call JMap m c')
| k_m_choice os o c : In o os -> calls lk (Call JMap (NChoice os) c) (Call JMap o c)
| k_m_inline os o c : In o os -> calls lk (Call JMap (NChoiceifyInline os) c) (Call JMap o c)
| k_m_group ms m c : In m ms -> calls lk (Call JMap (NGroup ms) c) (Call JMap m c)
| k_m_choiceify name args c : calls lk (Call JMap (NChoiceify name args) c) (Call JMapAlt (NRule name args) c).

(** [n] calls, each made by the one before. *)
Inductive nested {A} (R : A -> A -> Prop) : nat -> A -> A -> Prop :=
| nested_zero a : nested R 0 a a
| nested_more n a b d : R a b -> nested R n b d -> nested R (S n) a d.

(** The occurrence limits met along the way fit in [U]. *)
Definition limit_within (U : N) (k : call) : Prop :=
  match c_node k with NOccur lim _ => (snd (bounds lim) <= U)%N | _ => True end.
