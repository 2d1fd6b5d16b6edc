(** Which subproblems a validation runs into.  A task is one call of the
    recursive functions; [next t t'] says that carrying out [t] leads to carrying
    out [t'], outside the search for a map key. *)
From Coq Require Import List Bool ZArith NArith String.
From Coq Require Export Relations.Relation_Operators.
From Verif Require Import Base Util Data Value Convert Ivt Scalar Validate Fun SpecBase.
Import ListNotations.

(** All members succeed, one after the other, taking the state from [s] to [s']. *)
Inductive runs {St} (f : node -> St -> res unit * St) : list node -> St -> St -> Prop :=
| runs_nil s : runs f [] s s
| runs_cons m ms s s1 s2 : f m s = (Ok tt, s1) -> runs f ms s1 s2 -> runs f (m :: ms) s s2.

(** All alternatives mismatch, one after the other. *)
Inductive skips {St} (f : node -> St -> res unit * St) : list node -> St -> St -> Prop :=
| skips_nil s : skips f [] s s
| skips_cons m ms s s1 s2 msg :
    f m s = (Err (EMismatch msg), s1) -> skips f ms s1 s2 -> skips f (m :: ms) s s2.

(** [k] successful repetitions. *)
Inductive repeats {St} (f : St -> res unit * St) : N -> St -> St -> Prop :=
| repeats_zero s : repeats f 0 s s
| repeats_more k s s1 s2 : repeats f k s s1 -> f s1 = (Ok tt, s2) -> repeats f (k + 1) s s2.

(** A value against a type; a member against a working array or map; a value or a
    working map against a name used as a choice ([&name]). *)
Inductive task :=
| TV (v : value) (nd : node) (c : ctx)
| TA (m : node) (w : warray) (c : ctx)
| TM (m : node) (w : wmap) (c : ctx)
| TC (name : text) (args : list node) (v : value) (c : ctx)
| TMC (name : text) (args : list node) (w : wmap) (c : ctx).

(** What the alternatives of a group turned into a choice stand for. *)
Definition item_task (v : value) (c : ctx) (item : node) : task :=
  match item with
  | NKeyValue _ vl _ => TV v vl c
  | NRule name args => TC name args v c
  | _ => TV v item c
  end.
Definition map_item_task (w : wmap) (c : ctx) (item : node) : task :=
  match item with
  | NKeyValue _ vl _ => TM vl w c
  | NRule name args => TMC name args w c
  | _ => TM item w c
  end.

Section Next.
Variable X : ext.
Variable lk : lookup_context.

Definition outcome (t : task) : res unit :=
  match t with
  | TV v nd c => val X lk v nd c
  | TA m w c => fst (aval X lk m w c)
  | TM m w c => fst (mval X lk m w c)
  | TC name args v c => chval X lk name args v c
  | TMC name args w c => fst (mchval X lk name args w c)
  end.

Definition af c m w := aval X lk m w c.
Definition mf c m w := mval X lk m w c.

(** [g = true] excludes the step into a parenthesised group inside a map. *)
Inductive next (g : bool) : task -> task -> Prop :=
(* types *)
| next_rule v name args c nd' c' : lookup_rule lk c name args = Ok (nd', c') ->
    next g (TV v (NRule name args) c) (TV v nd' c')
| next_choice v pre o post c : (forall o', In o' pre -> rejected (val X lk v o' c)) ->
    next g (TV v (NChoice (pre ++ o :: post)) c) (TV v o c)
| next_group v m c : next g (TV v (NGroup [m]) c) (TV v m c)
| next_array a pre m post c w : runs (af c) pre (wa_new a) w ->
    next g (TV (VArray a) (NArray (pre ++ m :: post)) c) (TA m w c)
| next_map a pre m post c w : runs (mf c) pre (wm_new a) w ->
    next g (TV (VMap a) (NMap (pre ++ m :: post)) c) (TM m w c)
| next_cbor b cv v' nd c : cbor_decode X b = inl cv -> of_cbor cv = Ok v' ->
    next g (TV (VBytes b) (NControl (CtlCbor nd)) c) (TV v' nd c)
| next_choiceify v name args c : next g (TV v (NChoiceify name args) c) (TC name args v c)
| next_inline v pre o post c :
    (forall o', In o' pre -> rejected (outcome (item_task v c o'))) ->
    next g (TV v (NChoiceifyInline (pre ++ o :: post)) c) (item_task v c o)
(* names used as choices *)
| next_c_rule v name args c name' args' c' : lookup_rule lk c name args = Ok (NRule name' args', c') ->
    next g (TC name args v c) (TC name' args' v c')
| next_c_group v name args c pre o post c' :
    lookup_rule lk c name args = Ok (NGroup (pre ++ o :: post), c') ->
    (forall o', In o' pre -> rejected (outcome (item_task v c' o'))) ->
    next g (TC name args v c) (item_task v c' o)
(* array members *)
| next_a_occur lim m w c k w' : repeats (af c m) k w w' -> (k = 0 \/ k < snd (bounds lim))%N ->
    next g (TA (NOccur lim m) w c) (TA m w' c)
| next_a_kv key vl cut w c v a : wa_array w = v :: a ->
    next g (TA (NKeyValue key vl cut) w c) (TV v vl c)
| next_a_rule name args w c nd' c' : lookup_rule lk c name args = Ok (nd', c') ->
    next g (TA (NRule name args) w c) (TA nd' w c')
| next_a_unwrap name args w c pre m post c' w' :
    lookup_rule lk c name args = Ok (NArray (pre ++ m :: post), c') -> runs (af c') pre w w' ->
    next g (TA (NUnwrap name args) w c) (TA m w' c')
| next_a_choice pre o post w c w' : skips (af c) pre w w' ->
    next g (TA (NChoice (pre ++ o :: post)) w c) (TA o w' c)
| next_a_group pre m post w c w' : runs (af c) pre (wa_snapshot w) w' ->
    next g (TA (NGroup (pre ++ m :: post)) w c) (TA m w' c)
| next_a_type m w c v a :
    match m with
    | NRule _ _ | NUnwrap _ _ | NOccur _ _ | NChoice _ | NGroup _ | NKeyValue _ _ _ => False
    | _ => True
    end -> wa_array w = v :: a ->
    next g (TA m w c) (TV v m c)
(* map members *)
| next_m_occur lim m w c k w' : repeats (mf c m) k w w' -> (k = 0 \/ k < snd (bounds lim))%N ->
    next g (TM (NOccur lim m) w c) (TM m w' c)
| next_m_kv key vl cut w c k v : map_key X lk key w c = Ok (k, v) ->
    next g (TM (NKeyValue key vl cut) w c) (TV v vl c)
| next_m_rule name args w c nd' c' : lookup_rule lk c name args = Ok (nd', c') ->
    next g (TM (NRule name args) w c) (TM nd' w c')
| next_m_unwrap name args w c pre m post c' w' :
    lookup_rule lk c name args = Ok (NMap (pre ++ m :: post), c') -> runs (mf c') pre w w' ->
    next g (TM (NUnwrap name args) w c) (TM m w' c')
| next_m_choice pre o post w c w' : skips (mf c) pre w w' ->
    next g (TM (NChoice (pre ++ o :: post)) w c) (TM o w' c)
| next_m_group pre m post w c w' : g = false -> runs (mf c) pre (wm_snapshot w) w' ->
    next g (TM (NGroup (pre ++ m :: post)) w c) (TM m w' c)
| next_m_choiceify name args w c : next g (TM (NChoiceify name args) w c) (TMC name args w c)
| next_m_inline pre o post w c w' : skips (mf c) pre w w' ->
    next g (TM (NChoiceifyInline (pre ++ o :: post)) w c) (TM o w' c)
| next_mc_rule name args w c name' args' c' : lookup_rule lk c name args = Ok (NRule name' args', c') ->
    next g (TMC name args w c) (TMC name' args' w c')
| next_mc_group name args w c pre o post c' w' :
    lookup_rule lk c name args = Ok (NGroup (pre ++ o :: post), c') ->
    skips (map_choiceify_item X lk c') pre w w' ->
    next g (TMC name args w c) (map_item_task w' c' o).

(** [t] leads to [t'] in any number of steps. *)
Definition reaches : task -> task -> Prop := clos_refl_trans_1n _ (next false).

(** Steps that stay among the members of one map and its groups-by-name. *)
Definition is_map_task (t : task) : bool := match t with TM _ _ _ | TMC _ _ _ _ => true | _ => false end.
Definition next_in_map (t t' : task) : Prop := next true t t' /\ is_map_task t' = true.
Definition reaches_in_map : task -> task -> Prop := clos_refl_trans_1n _ next_in_map.
End Next.

(** [follows lk c nd name args c']: following names from [nd] in scope [c], the
    reference [name<args>] is met in scope [c']. *)
Inductive follows (lk : lookup_context) : ctx -> node -> text -> list node -> ctx -> Prop :=
| follows_here c name args : follows lk c (NRule name args) name args c
| follows_step c name args nd1 c1 name' args' c' :
    lookup_rule lk c name args = Ok (nd1, c1) -> follows lk c1 nd1 name' args' c' ->
    follows lk c (NRule name args) name' args' c'.

(** A control operator with a target and a limit. *)
Inductive control_parts : control node -> node -> node -> Prop :=
| parts_size t l : control_parts (CtlSize t l) t l
| parts_lt t l : control_parts (CtlLt t l) t l
| parts_le t l : control_parts (CtlLe t l) t l
| parts_gt t l : control_parts (CtlGt t l) t l
| parts_ge t l : control_parts (CtlGe t l) t l.

(** The task begins by resolving [name<args>] in scope [c]: a name standing as a
    type, an array or map member, an unwrapped name ([~name]), a name used as a
    choice ([&name]), a range endpoint, the limit or the target of a control. *)
Inductive looks_up (lk : lookup_context) : task -> text -> list node -> ctx -> Prop :=
| looks_type v name args c : looks_up lk (TV v (NRule name args) c) name args c
| looks_choice v name args c : looks_up lk (TC name args v c) name args c
| looks_map_choice w name args c : looks_up lk (TMC name args w c) name args c
| looks_array w name args c : looks_up lk (TA (NRule name args) w c) name args c
| looks_array_unwrap w name args c : looks_up lk (TA (NUnwrap name args) w c) name args c
| looks_map w name args c : looks_up lk (TM (NRule name args) w c) name args c
| looks_map_unwrap w name args c : looks_up lk (TM (NUnwrap name args) w c) name args c
| looks_start v s e incl c name args c' : follows lk c s name args c' ->
    looks_up lk (TV v (NRange s e incl) c) name args c'
| looks_end v s e incl c l cs name args c' :
    named lk c s (NLiteral l) cs -> follows lk c e name args c' ->
    looks_up lk (TV v (NRange s e incl) c) name args c'
| looks_limit v ctl t l c name args c' : control_parts ctl t l -> follows lk c l name args c' ->
    looks_up lk (TV v (NControl ctl) c) name args c'
| looks_target v ctl t l c z cl name args c' : control_parts ctl t l ->
    named lk c l (NLiteral (LInt z)) cl -> (0 <= z < 2 ^ 64)%Z -> follows lk c t name args c' ->
    looks_up lk (TV v (NControl ctl) c) name args c'.

(** The reference a node leads to before any data is looked at: itself, or the
    first option of a choice, or the only member of a group. *)
Fixpoint leads_to (nd : node) : option (text * list node) :=
  match nd with
  | NRule name args => Some (name, args)
  | NChoice (o :: _) => leads_to o
  | NGroup [m] => leads_to m
  | _ => None
  end.
