(** Specification of the meaning of schemas.

    [peg] is the ordered-choice reading (RFC 8610, Appendix A): a big-step
    relation on plain lists of elements and entries, without any state to be
    saved and restored.  [means] is the declarative reading: an array is a
    concatenation, a map a union, an occurrence a repetition, a choice a union
    of alternatives; nothing is greedy, and nothing is ordered but for cuts
    (RFC 8610, 3.5.4).

    Scalar types (literals, prelude types, ranges and the controls other than
    [.cbor]) are judged by [judges] of SpecJudge.v. *)
From Coq Require Import List Bool ZArith NArith String Permutation.
From Verif Require Import Base Util Data Value Ivt Validate SpecBase SpecConvert SpecVerdict SpecPos.
From Verif Require Export SpecJudge.
Import ListNotations.

(** What an array member that is not a reference, occurrence, choice or group
    says about one element. *)
Definition element_of (m : node) : option node :=
  match m with
  | NKeyValue _ t _ => Some t
  | NRule _ _ | NUnwrap _ _ | NOccur _ _ | NChoice _ | NGroup _ => None
  | _ => Some m
  end.

(** Nodes that may not be used as a type, or as a member of a map. *)
Definition only_member (nd : node) : bool :=
  match nd with NKeyValue _ _ _ | NOccur _ _ | NUnwrap _ _ => true | _ => false end.
Definition only_type (nd : node) : bool :=
  match nd with
  | NLiteral _ | NPrelude _ | NMap _ | NArray _ | NRange _ _ _ | NControl _ => true
  | _ => false
  end.

Definition entries := list (value * value).

(** Questions: does a value have a type; what does an array or map member take
    from the elements or entries at hand. *)
Inductive query :=
| QType (c : ctx) (t : node) (v : value)
| QOneOf (c : ctx) (name : text) (args : list node) (v : value)
| QArr (c : ctx) (m : node) (a : list value)
| QSeqA (c : ctx) (ms : list node) (a : list value)
| QRepA (c : ctx) (m : node) (upper : N) (a : list value)
| QMap (c : ctx) (m : node) (es : entries)
| QSeqM (c : ctx) (ms : list node) (es : entries)
| QRepM (c : ctx) (m : node) (upper : N) (es : entries)
| QKey (c : ctx) (key : node) (es : entries)
| QOneOfM (c : ctx) (name : text) (args : list node) (es : entries)
| QAny (qs : list query).

(** Answers: yes (for a member: with what is left; for a repetition: also the
    number of rounds; for a key: the entry found and the others), no, no with a
    cut, or a defect of the schema. *)
Inductive answer :=
| Yes
| RestA (a : list value)
| RestM (es : entries)
| CountA (k : N) (a : list value)
| CountM (k : N) (es : entries)
| Entry (k v : value) (others : entries)
| No
| Cut
| Bad (e : verror).

Section Peg.
Variable X : ext.
Variable lk : lookup_context.

Definition verdict (r : res unit) : option answer :=
  match r with
  | Ok _ => Some Yes
  | Err (EMismatch _) => Some No
  | Err (EMapCut _) => Some Cut
  | Err e => Some (Bad (error_kind e))
  | Panic => None
  end.

Definition leaf_answer (j : judgement) : answer := match j with Good => Yes | Poor _ => No | Faulty e => Bad (error_kind e) end.

Definition one_of_item (c : ctx) (v : value) (i : node) : query :=
  match i with
  | NKeyValue _ t _ => QType c t v
  | NRule name args => QOneOf c name args v
  | _ => QType c i v
  end.
Definition one_of_member (c : ctx) (es : entries) (i : node) : query :=
  match i with
  | NKeyValue _ t _ => QMap c t es
  | NRule name args => QOneOfM c name args es
  | _ => QMap c i es
  end.

Definition whole (o : answer) : answer :=
  match o with
  | RestA [] | RestM [] => Yes
  | RestA _ | RestM _ | Cut => No
  | _ => o
  end.
Definition take (a : list value) (o : answer) : answer := match o with Yes => RestA a | _ => o end.
Definition one_more (o : answer) : answer :=
  match o with
  | CountA k a => CountA (k + 1) a
  | CountM k es => CountM (k + 1) es
  | _ => o
  end.
Definition enough (lower : N) (o : answer) : answer :=
  match o with
  | CountA k a => if N.leb lower k then RestA a else No
  | CountM k es => if N.leb lower k then RestM es else No
  | _ => o
  end.
Definition skip (k v : value) (o : answer) : answer :=
  match o with Entry k' v' es => Entry k' v' ((k, v) :: es) | _ => o end.
Definition entry_done (cut : bool) (others : entries) (o : answer) : answer :=
  match o with Yes => RestM others | No => if cut then Cut else No | _ => o end.
Definition end_cut (o : answer) : answer := match o with Cut => No | _ => o end.

Inductive peg : query -> answer -> Prop :=
(** Ordered choice: the first alternative that does not say no. *)
| any_none : peg (QAny []) No
| any_next q qs o : peg q No -> peg (QAny qs) o -> peg (QAny (q :: qs)) o
| any_first q qs o : peg q o -> o <> No -> peg (QAny (q :: qs)) o
(** Types. *)
| t_leaf c t v j : judges X lk c t v j -> peg (QType c t v) (leaf_answer j)
| t_rule c name args v t' c' o :
    lookup_rule lk c name args = Ok (t', c') -> peg (QType c' t' v) o -> peg (QType c (NRule name args) v) o
| t_rule_bad c name args v e :
    lookup_rule lk c name args = Err e -> peg (QType c (NRule name args) v) (Bad (error_kind e))
| t_choice c ts v o : peg (QAny (map (fun t => QType c t v) ts)) o -> peg (QType c (NChoice ts) v) o
| t_group c t v o : peg (QType c t v) o -> peg (QType c (NGroup [t]) v) o
| t_group_bad c ts v : List.length ts <> 1 -> peg (QType c (NGroup ts) v) (Bad (EUnsupported []))
| t_misplaced c t v : only_member t = true -> peg (QType c t v) (Bad (EStructural []))
| t_array c ms a o : peg (QSeqA c ms a) o -> peg (QType c (NArray ms) (VArray a)) (whole o)
| t_array_no c ms v : (forall a, v <> VArray a) -> peg (QType c (NArray ms) v) No
| t_map c ms es o : peg (QSeqM c ms es) o -> peg (QType c (NMap ms) (VMap es)) (whole o)
| t_map_no c ms v : (forall es, v <> VMap es) -> peg (QType c (NMap ms) v) No
| t_cbor c t b x v o : cbor_decode X b = inl x -> cbor_means x v -> peg (QType c t v) o ->
    peg (QType c (NControl (CtlCbor t)) (VBytes b)) o
| t_cbor_no c t v : (forall b, v <> VBytes b) -> peg (QType c (NControl (CtlCbor t)) v) No
| t_cbor_bad c t b msg : cbor_decode X b = inr msg ->
    peg (QType c (NControl (CtlCbor t)) (VBytes b)) (Bad (EValueError []))
| t_cbor_bad_value c t b x : cbor_decode X b = inl x -> has_tag x ->
    peg (QType c (NControl (CtlCbor t)) (VBytes b)) (Bad (EValueError []))
| t_one_of c name args v o : peg (QOneOf c name args v) o -> peg (QType c (NChoiceify name args) v) o
| t_inline c is v o : peg (QAny (map (one_of_item c v) is)) o -> peg (QType c (NChoiceifyInline is) v) o
| t_one_of_bad c name args v e :
    lookup_rule lk c name args = Err e -> peg (QOneOf c name args v) (Bad (error_kind e))
| t_one_of_group c name args v is c' o :
    lookup_rule lk c name args = Ok (NGroup is, c') -> peg (QAny (map (one_of_item c' v) is)) o ->
    peg (QOneOf c name args v) o
| t_one_of_alias c name args v name' args' c' o :
    lookup_rule lk c name args = Ok (NRule name' args', c') -> peg (QOneOf c' name' args' v) o ->
    peg (QOneOf c name args v) o
| t_one_of_improper c name args v t' c' :
    lookup_rule lk c name args = Ok (t', c') ->
    (forall is, t' <> NGroup is) -> (forall n l, t' <> NRule n l) ->
    peg (QOneOf c name args v) (Bad (EStructural []))
(** Array members. *)
| a_element c m t v a o : element_of m = Some t -> peg (QType c t v) o -> peg (QArr c m (v :: a)) (take a o)
| a_element_no c m t : element_of m = Some t -> peg (QArr c m []) No
| a_rule c name args a m' c' o :
    lookup_rule lk c name args = Ok (m', c') -> peg (QArr c' m' a) o -> peg (QArr c (NRule name args) a) o
| a_rule_bad c name args a e :
    lookup_rule lk c name args = Err e -> peg (QArr c (NRule name args) a) (Bad (error_kind e))
| a_unwrap c name args a ms c' o :
    lookup_rule lk c name args = Ok (NArray ms, c') -> peg (QSeqA c' ms a) o -> peg (QArr c (NUnwrap name args) a) o
| a_unwrap_no c name args a t' c' :
    lookup_rule lk c name args = Ok (t', c') -> (forall ms, t' <> NArray ms) -> peg (QArr c (NUnwrap name args) a) No
| a_unwrap_bad c name args a e :
    lookup_rule lk c name args = Err e -> peg (QArr c (NUnwrap name args) a) (Bad (error_kind e))
| a_choice c ms a o : peg (QAny (map (fun m => QArr c m a) ms)) o -> peg (QArr c (NChoice ms) a) o
| a_group c ms a o : peg (QSeqA c ms a) o -> peg (QArr c (NGroup ms) a) o
| a_occur c l m a o : peg (QRepA c m (snd (bounds l)) a) o -> peg (QArr c (NOccur l m) a) (enough (fst (bounds l)) o)
| seqa_nil c a : peg (QSeqA c [] a) (RestA a)
| seqa_cons c m ms a a' o : peg (QArr c m a) (RestA a') -> peg (QSeqA c ms a') o -> peg (QSeqA c (m :: ms) a) o
| seqa_stop c m ms a o : peg (QArr c m a) o -> (forall a', o <> RestA a') -> peg (QSeqA c (m :: ms) a) o
| repa_full c m a : peg (QRepA c m 0 a) (CountA 0 a)
| repa_end c m up a : (0 < up)%N -> peg (QArr c m a) No -> peg (QRepA c m up a) (CountA 0 a)
| repa_more c m up a a' o : (0 < up)%N -> peg (QArr c m a) (RestA a') -> peg (QRepA c m (up - 1) a') o ->
    peg (QRepA c m up a) (one_more o)
| repa_bad c m up a e : (0 < up)%N -> peg (QArr c m a) (Bad e) -> peg (QRepA c m up a) (Bad e)
(** Map members. *)
| m_entry_no c key t cut es : peg (QKey c key es) No -> peg (QMap c (NKeyValue key t cut) es) No
| m_entry c key t cut es k v others o :
    peg (QKey c key es) (Entry k v others) -> peg (QType c t v) o ->
    peg (QMap c (NKeyValue key t cut) es) (entry_done cut others o)
| key_none c key : peg (QKey c key []) No
| key_here c key k v es : peg (QType c key k) Yes -> peg (QKey c key ((k, v) :: es)) (Entry k v es)
| key_later c key k v es o' o : peg (QType c key k) o' -> o' <> Yes -> peg (QKey c key es) o ->
    peg (QKey c key ((k, v) :: es)) (skip k v o)
| m_rule c name args es m' c' o :
    lookup_rule lk c name args = Ok (m', c') -> peg (QMap c' m' es) o -> peg (QMap c (NRule name args) es) o
| m_rule_bad c name args es e :
    lookup_rule lk c name args = Err e -> peg (QMap c (NRule name args) es) (Bad (error_kind e))
| m_unwrap c name args es ms c' o :
    lookup_rule lk c name args = Ok (NMap ms, c') -> peg (QSeqM c' ms es) o -> peg (QMap c (NUnwrap name args) es) o
| m_unwrap_no c name args es t' c' :
    lookup_rule lk c name args = Ok (t', c') -> (forall ms, t' <> NMap ms) -> peg (QMap c (NUnwrap name args) es) No
| m_unwrap_bad c name args es e :
    lookup_rule lk c name args = Err e -> peg (QMap c (NUnwrap name args) es) (Bad (error_kind e))
| m_choice c ms es o : peg (QAny (map (fun m => QMap c m es) ms)) o -> peg (QMap c (NChoice ms) es) o
| m_inline c ms es o : peg (QAny (map (fun m => QMap c m es) ms)) o -> peg (QMap c (NChoiceifyInline ms) es) o
| m_one_of c name args es o : peg (QOneOfM c name args es) o -> peg (QMap c (NChoiceify name args) es) o
| m_group c ms es o : peg (QSeqM c ms es) o -> peg (QMap c (NGroup ms) es) (end_cut o)
| m_occur c l m es o : peg (QRepM c m (snd (bounds l)) es) o -> peg (QMap c (NOccur l m) es) (enough (fst (bounds l)) o)
| m_misplaced c m es : only_type m = true -> peg (QMap c m es) (Bad (EStructural []))
| m_one_of_bad c name args es e :
    lookup_rule lk c name args = Err e -> peg (QOneOfM c name args es) (Bad (error_kind e))
| m_one_of_group c name args es is c' o :
    lookup_rule lk c name args = Ok (NGroup is, c') -> peg (QAny (map (one_of_member c' es) is)) o ->
    peg (QOneOfM c name args es) o
| m_one_of_alias c name args es name' args' c' o :
    lookup_rule lk c name args = Ok (NRule name' args', c') -> peg (QOneOfM c' name' args' es) o ->
    peg (QOneOfM c name args es) o
| m_one_of_improper c name args es t' c' :
    lookup_rule lk c name args = Ok (t', c') ->
    (forall is, t' <> NGroup is) -> (forall n l, t' <> NRule n l) ->
    peg (QOneOfM c name args es) (Bad (EStructural []))
| seqm_nil c es : peg (QSeqM c [] es) (RestM es)
| seqm_cons c m ms es es' o : peg (QMap c m es) (RestM es') -> peg (QSeqM c ms es') o -> peg (QSeqM c (m :: ms) es) o
| seqm_stop c m ms es o : peg (QMap c m es) o -> (forall es', o <> RestM es') -> peg (QSeqM c (m :: ms) es) o
| repm_full c m es : peg (QRepM c m 0 es) (CountM 0 es)
| repm_end c m up es : (0 < up)%N -> peg (QMap c m es) No -> peg (QRepM c m up es) (CountM 0 es)
| repm_more c m up es es' o : (0 < up)%N -> peg (QMap c m es) (RestM es') -> peg (QRepM c m (up - 1) es') o ->
    peg (QRepM c m up es) (one_more o)
| repm_stop c m up es o : (0 < up)%N -> peg (QMap c m es) o -> (o = Cut \/ exists e, o = Bad e) ->
    peg (QRepM c m up es) o.

(** * Cuts

    [claims c m k]: when the member [m] is used on a map with the key [k], it takes
    the entry [k] or the map does not match: [m] has an entry for the literal key [k]
    with a cut ([k: t] or [k ^=> t]). *)
Inductive claims_once : ctx -> node -> value -> Prop :=
| once_entry c l t : claims_once c (NKeyValue (NLiteral l) t true) (literal_value l)
| once_name c name args m' c' k :
    lookup_rule lk c name args = Ok (m', c') -> claims_once c' m' k -> claims_once c (NRule name args) k.
Inductive claims : ctx -> node -> value -> Prop :=
| claims_entry c l t : claims c (NKeyValue (NLiteral l) t true) (literal_value l)
| claims_name c name args m' c' k :
    lookup_rule lk c name args = Ok (m', c') -> claims c' m' k -> claims c (NRule name args) k
| claims_group c ms m k : In m ms -> claims c m k -> claims c (NGroup ms) k
| claims_unwrap c name args ms c' m k :
    lookup_rule lk c name args = Ok (NMap ms, c') -> In m ms -> claims c' m k -> claims c (NUnwrap name args) k
| claims_occur c l m k : (1 <= snd (bounds l))%N -> claims_once c m k -> claims c (NOccur l m) k.

Definition keys (es : entries) : list value := map fst es.
(** No member is given an entry that an earlier one claims. *)
Fixpoint respects (c : ctx) (ms : list node) (parts : list entries) : Prop :=
  match ms, parts with
  | m :: ms', _ :: ps' => (forall k, claims c m k -> ~ In k (keys (List.concat ps'))) /\ respects c ms' ps'
  | _, _ => True
  end.

(** * The declarative reading *)

(** What a node may describe: a value, a sequence of elements, a set of entries. *)
Inductive thing := AValue (v : value) | AList (a : list value) | ASet (es : entries).

Inductive means : ctx -> node -> thing -> Prop :=
| mean_leaf c t v : judges X lk c t v Good -> means c t (AValue v)
| mean_name c name args t' c' x :
    lookup_rule lk c name args = Ok (t', c') -> means c' t' x -> means c (NRule name args) x
| mean_choice c ts t x : In t ts -> means c t x -> means c (NChoice ts) x
| mean_parens c t v : means c t (AValue v) -> means c (NGroup [t]) (AValue v)
| mean_array c ms parts :
    Forall2 (fun m a => means c m (AList a)) ms parts -> means c (NArray ms) (AValue (VArray (List.concat parts)))
| mean_map c ms parts es :
    Forall2 (fun m p => means c m (ASet p)) ms parts -> respects c ms parts -> Permutation es (List.concat parts) ->
    means c (NMap ms) (AValue (VMap es))
| mean_cbor c t b x v : cbor_decode X b = inl x -> cbor_means x v -> means c t (AValue v) ->
    means c (NControl (CtlCbor t)) (AValue (VBytes b))
| mean_one_of c name args v : one_of c name args (AValue v) -> means c (NChoiceify name args) (AValue v)
| mean_one_of_entries c name args es : one_of c name args (ASet es) -> means c (NChoiceify name args) (ASet es)
| mean_inline c is i v : In i is -> item_means c i (AValue v) -> means c (NChoiceifyInline is) (AValue v)
| mean_inline_entries c is i es : In i is -> means c i (ASet es) -> means c (NChoiceifyInline is) (ASet es)
| mean_element c m t v : element_of m = Some t -> means c t (AValue v) -> means c m (AList [v])
| mean_entry c key t cut k v : means c key (AValue k) -> means c t (AValue v) ->
    means c (NKeyValue key t cut) (ASet [(k, v)])
| mean_group c ms parts :
    Forall2 (fun m a => means c m (AList a)) ms parts -> means c (NGroup ms) (AList (List.concat parts))
| mean_group_entries c ms parts es :
    Forall2 (fun m p => means c m (ASet p)) ms parts -> respects c ms parts -> Permutation es (List.concat parts) ->
    means c (NGroup ms) (ASet es)
| mean_unwrap c name args ms c' parts :
    lookup_rule lk c name args = Ok (NArray ms, c') ->
    Forall2 (fun m a => means c' m (AList a)) ms parts -> means c (NUnwrap name args) (AList (List.concat parts))
| mean_unwrap_entries c name args ms c' parts es :
    lookup_rule lk c name args = Ok (NMap ms, c') ->
    Forall2 (fun m p => means c' m (ASet p)) ms parts -> respects c' ms parts -> Permutation es (List.concat parts) ->
    means c (NUnwrap name args) (ASet es)
| mean_occur c l m parts :
    (fst (bounds l) <= N.of_nat (List.length parts) <= snd (bounds l))%N ->
    Forall (fun a => means c m (AList a)) parts -> means c (NOccur l m) (AList (List.concat parts))
| mean_occur_entries c l m parts es :
    (fst (bounds l) <= N.of_nat (List.length parts) <= snd (bounds l))%N ->
    Forall (fun p => means c m (ASet p)) parts -> Permutation es (List.concat parts) ->
    means c (NOccur l m) (ASet es)
(** The alternatives of [&name] and of [&( )]: the values of the members of the group. *)
with one_of : ctx -> text -> list node -> thing -> Prop :=
| one_of_group c name args is c' i x :
    lookup_rule lk c name args = Ok (NGroup is, c') -> In i is -> item_means c' i x -> one_of c name args x
| one_of_alias c name args name' args' c' x :
    lookup_rule lk c name args = Ok (NRule name' args', c') -> one_of c' name' args' x -> one_of c name args x
with item_means : ctx -> node -> thing -> Prop :=
| item_value c k t cut x : means c t x -> item_means c (NKeyValue k t cut) x
| item_name c name args x : one_of c name args x -> item_means c (NRule name args) x
| item_plain c i x : match i with NKeyValue _ _ _ | NRule _ _ => False | _ => True end ->
    means c i x -> item_means c i x.
End Peg.

(** * The class of schemas on which the implementation follows [peg] *)

(** The role in which a node is used. *)
Inductive role := AsType | AsArray | AsMap | AsOneOf | AsOneOfM.

Definition item_role (i : node) : role := match i with NRule _ _ => AsOneOf | _ => AsType end.
Definition item_role_m (i : node) : role := match i with NRule _ _ => AsOneOfM | _ => AsMap end.
Definition item_node (i : node) : node := match i with NKeyValue _ t _ => t | _ => i end.

Section Uses.
Variable lk : lookup_context.
Variables (c0 : ctx) (nd0 : node).
(** [uses r c nd]: validating against [nd0] in scope [c0] may use [nd] in scope
    [c] in the role [r] (reading the schema only). *)
Inductive uses : role -> ctx -> node -> Prop :=
| use_start : uses AsType c0 nd0
| use_name r c name args t' c' : uses r c (NRule name args) -> r = AsType \/ r = AsArray \/ r = AsMap ->
    lookup_rule lk c name args = Ok (t', c') -> uses r c' t'
| use_choice r c ts t : uses r c (NChoice ts) -> In t ts -> uses r c t
| use_group r c ts t : uses r c (NGroup ts) -> r = AsType \/ r = AsArray \/ r = AsMap -> In t ts -> uses r c t
| use_array c ms m : uses AsType c (NArray ms) -> In m ms -> uses AsArray c m
| use_map c ms m : uses AsType c (NMap ms) -> In m ms -> uses AsMap c m
| use_cbor c t : uses AsType c (NControl (CtlCbor t)) -> uses AsType c t
| use_one_of c name args : uses AsType c (NChoiceify name args) -> uses AsOneOf c (NRule name args)
| use_inline c is i : uses AsType c (NChoiceifyInline is) -> In i is -> uses (item_role i) c (item_node i)
| use_one_of_group c name args is c' i : uses AsOneOf c (NRule name args) ->
    lookup_rule lk c name args = Ok (NGroup is, c') -> In i is -> uses (item_role i) c' (item_node i)
| use_one_of_alias r c name args name' args' c' : uses r c (NRule name args) -> r = AsOneOf \/ r = AsOneOfM ->
    lookup_rule lk c name args = Ok (NRule name' args', c') -> uses r c' (NRule name' args')
| use_element c m t : uses AsArray c m -> element_of m = Some t -> uses AsType c t
| use_occur r c l m : uses r c (NOccur l m) -> r = AsArray \/ r = AsMap -> uses r c m
| use_unwrap c name args ms c' m : uses AsArray c (NUnwrap name args) ->
    lookup_rule lk c name args = Ok (NArray ms, c') -> In m ms -> uses AsArray c' m
| use_unwrap_m c name args ms c' m : uses AsMap c (NUnwrap name args) ->
    lookup_rule lk c name args = Ok (NMap ms, c') -> In m ms -> uses AsMap c' m
| use_key c key t cut : uses AsMap c (NKeyValue key t cut) -> uses AsType c key
| use_entry c key t cut : uses AsMap c (NKeyValue key t cut) -> uses AsType c t
| use_one_of_m c name args : uses AsMap c (NChoiceify name args) -> uses AsOneOfM c (NRule name args)
| use_inline_m c is i : uses AsMap c (NChoiceifyInline is) -> In i is -> uses AsMap c i
| use_one_of_group_m c name args is c' i : uses AsOneOfM c (NRule name args) ->
    lookup_rule lk c name args = Ok (NGroup is, c') -> In i is -> uses (item_role_m i) c' (item_node i).
End Uses.

(** * Members that put back what they took when they do not match *)

Section Steady.
Variable lk : lookup_context.
Inductive steady : ctx -> node -> Prop :=
| steady_element c m t : element_of m = Some t -> steady c m
| steady_name c name args :
    (forall m' c', lookup_rule lk c name args = Ok (m', c') -> steady c' m') -> steady c (NRule name args)
| steady_choice c ms : (forall m, In m ms -> steady c m) -> steady c (NChoice ms)
| steady_occur c l m : (fst (bounds l) <= 1)%N -> steady c m -> steady c (NOccur l m)
| steady_unwrap c name args :
    (forall ms c', lookup_rule lk c name args = Ok (NArray ms, c') -> List.length ms <= 1) ->
    (forall ms c' m, lookup_rule lk c name args = Ok (NArray ms, c') -> In m ms -> steady c' m) ->
    steady c (NUnwrap name args)
(** A group without another group inside. *)
| steady_group c ms : (forall c' gs, ~ array_pos lk c ms c' (NGroup gs)) -> steady c (NGroup ms).

Inductive steady_m : ctx -> node -> Prop :=
| steadym_entry c k t cut : steady_m c (NKeyValue k t cut)
| steadym_type c m : only_type m = true -> steady_m c m
| steadym_name c name args :
    (forall m' c', lookup_rule lk c name args = Ok (m', c') -> steady_m c' m') -> steady_m c (NRule name args)
| steadym_choice c ms : (forall m, In m ms -> steady_m c m) -> steady_m c (NChoice ms)
| steadym_inline c ms : (forall m, In m ms -> steady_m c m) -> steady_m c (NChoiceifyInline ms)
| steadym_one_of c name args : steady_one_of c name args -> steady_m c (NChoiceify name args)
| steadym_occur c l m : (fst (bounds l) <= 1)%N -> steady_m c m -> steady_m c (NOccur l m)
| steadym_unwrap c name args :
    (forall ms c', lookup_rule lk c name args = Ok (NMap ms, c') -> List.length ms <= 1) ->
    (forall ms c' m, lookup_rule lk c name args = Ok (NMap ms, c') -> In m ms -> steady_m c' m) ->
    steady_m c (NUnwrap name args)
| steadym_group c ms : (forall c' gs, ~ map_pos lk c ms c' (NGroup gs)) -> steady_m c (NGroup ms)
with steady_one_of : ctx -> text -> list node -> Prop :=
| steady_items c name args :
    (forall is c' i, lookup_rule lk c name args = Ok (NGroup is, c') -> In i is -> steady_item c' i) ->
    (forall name' args' c', lookup_rule lk c name args = Ok (NRule name' args', c') -> steady_one_of c' name' args') ->
    steady_one_of c name args
with steady_item : ctx -> node -> Prop :=
| steady_item_value c k t cut : steady_m c t -> steady_item c (NKeyValue k t cut)
| steady_item_name c name args : steady_one_of c name args -> steady_item c (NRule name args)
| steady_item_plain c i : match i with NKeyValue _ _ _ | NRule _ _ => False | _ => True end ->
    steady_m c i -> steady_item c i.

(** The alternatives of choices and the bodies of occurrences in arrays and maps
    are steady, and no occurrence has the upper bound 0. *)
Record tame (c0 : ctx) (nd0 : node) : Prop := Tame {
  tame_choice : forall c ms m, uses lk c0 nd0 AsArray c (NChoice ms) -> In m ms -> steady c m;
  tame_occur : forall c l m, uses lk c0 nd0 AsArray c (NOccur l m) -> (1 <= snd (bounds l))%N /\ steady c m;
  tame_choice_m : forall c ms m, uses lk c0 nd0 AsMap c (NChoice ms) -> In m ms -> steady_m c m;
  tame_inline_m : forall c ms m, uses lk c0 nd0 AsMap c (NChoiceifyInline ms) -> In m ms -> steady_m c m;
  tame_occur_m : forall c l m, uses lk c0 nd0 AsMap c (NOccur l m) -> (1 <= snd (bounds l))%N /\ steady_m c m;
  tame_items_m : forall c name args is c' i, uses lk c0 nd0 AsOneOfM c (NRule name args) ->
    lookup_rule lk c name args = Ok (NGroup is, c') -> In i is -> steady_item c' i
}.
End Steady.
