(** What the validator does on every schema, written without working copies and
    snapshots.

    [acts q r]: the reply to a question about a value, or about what a member does
    to the elements or entries at hand.  A member takes elements and leaves others,
    also when it fails.  Members and alternatives go on with what the previous one
    left.  A group that fails puts back what its own members took; a group that
    succeeds does not give back anything later.  Replies other than acceptance carry
    the reported error or its text.  (RFC 8610 would have every failed
    alternative put back everything; that reading is [peg] of SpecPeg.v, and C28-C30
    say when the two agree.) *)
From Coq Require Import List Bool ZArith NArith String.
From Verif Require Import Base Util Data Value Ivt Validate SpecBase SpecConvert SpecVerdict SpecPos SpecJudge SpecPeg.
Import ListNotations.
Open Scope list_scope.

Inductive question :=
| AskType (c : ctx) (t : node) (v : value)
| AskOneOf (c : ctx) (name : text) (args : list node) (v : value)
| AskAny (none : text) (qs : list question)            (* [none]: reported if nothing matches *)
| AskArr (c : ctx) (m : node) (a : list value)
| AskSeqA (c : ctx) (ms : list node) (a : list value)
| AskAltA (none : text) (c : ctx) (ms : list node) (a : list value)
| AskRepA (c : ctx) (m : node) (rounds : N) (a : list value)
| AskMap (c : ctx) (m : node) (es : entries)
| AskSeqM (c : ctx) (ms : list node) (es : entries)
| AskAltM (none : text) (qs : list (entries -> question)) (es : entries)
| AskRepM (c : ctx) (m : node) (rounds : N) (es : entries)
| AskKey (c : ctx) (key : node) (es : entries)
| AskOneOfM (c : ctx) (name : text) (args : list node) (es : entries).

(** How a member ended: it matched, it did not, or a cut forbids going on. *)
Inductive ending := Matched | Missed (m : text) | Stopped (m : text).

Inductive reply :=
| Accept
| Reject (m : text)
| Wrong (e : verror)                                   (* a defect of the schema *)
| DidA (h : ending) (took rest : list value)
| DidM (h : ending) (took rest : entries)
| RoundsA (k : N) (took rest : list value)
| RoundsM (k : N) (took rest : entries)
| Found (k v : value)
| Absent.

Definition ruling (r : res unit) : option reply :=
  match r with
  | Ok _ => Some Accept
  | Err (EMismatch m) => Some (Reject m)
  | Err (EMapCut _) => None
  | Err e => Some (Wrong e)
  | Panic => None
  end.

Definition leaf_reply (j : judgement) : reply := match j with Good => Accept | Poor m => Reject m | Faulty e => Wrong e end.

(** Elements or entries taken earlier are counted in. *)
Definition afterA (took : list value) (r : reply) : reply :=
  match r with
  | DidA h took' rest => DidA h (took ++ took') rest
  | RoundsA k took' rest => RoundsA (k + 1) (took ++ took') rest
  | _ => r
  end.
Definition afterM (took : entries) (r : reply) : reply :=
  match r with
  | DidM h took' rest => DidM h (took ++ took') rest
  | RoundsM k took' rest => RoundsM (k + 1) (took ++ took') rest
  | _ => r
  end.
(** A whole array or map: nothing may be left. *)
Definition all_of (r : reply) : reply :=
  match r with
  | DidA Matched _ [] | DidM Matched _ [] => Accept
  | DidA Matched _ _ => Reject (txt "shorter array")
  | DidM Matched _ _ => Reject (txt "shorter map")
  | DidA (Missed m) _ _ | DidA (Stopped m) _ _ | DidM (Missed m) _ _ | DidM (Stopped m) _ _ => Reject m
  | _ => r
  end.
(** A group: what its members took is put back if it fails, for good otherwise. *)
Definition groupA (r : reply) : reply :=
  match r with
  | DidA Matched took rest => DidA Matched [] rest
  | DidA (Missed m) took rest | DidA (Stopped m) took rest => DidA (Missed m) [] (took ++ rest)
  | _ => r
  end.
Definition back (es took rest : entries) : entries :=
  filter (fun e => existsb (fun e' => veqb (fst e') (fst e)) (took ++ rest)) es.
Definition groupM (es : entries) (r : reply) : reply :=
  match r with
  | DidM Matched took rest => DidM Matched [] rest
  | DidM (Missed m) took rest | DidM (Stopped m) took rest => DidM (Missed m) [] (back es took rest)
  | _ => r
  end.
Definition at_least (lower : N) (few : text) (r : reply) : reply :=
  match r with
  | RoundsA k took rest => DidA (if N.leb lower k then Matched else Missed few) took rest
  | RoundsM k took rest => DidM (if N.leb lower k then Matched else Missed few) took rest
  | _ => r
  end.
Definition elementA (v : value) (a : list value) (r : reply) : reply :=
  match r with
  | Accept => DidA Matched [v] a
  | Reject m => DidA (Missed m) [] (v :: a)
  | _ => r
  end.
Definition entryM (cut : bool) (k v : value) (es : entries) (r : reply) : reply :=
  match r with
  | Accept => DidM Matched [(k, v)] (filter (fun e => negb (veqb (fst e) k)) es)
  | Reject m => DidM (if cut then Stopped m else Missed m) [] es
  | _ => r
  end.

Definition item_question (c : ctx) (v : value) (i : node) : question :=
  match i with
  | NKeyValue _ t _ => AskType c t v
  | NRule name args => AskOneOf c name args v
  | _ => AskType c i v
  end.
Definition member_question (c : ctx) (i : node) (es : entries) : question :=
  match i with
  | NKeyValue _ t _ => AskMap c t es
  | NRule name args => AskOneOfM c name args es
  | _ => AskMap c i es
  end.

(** Texts for what has no place. *)
Definition unexpected (t : node) : text :=
  match t with
  | NKeyValue _ _ _ => txt "unexpected KeyValue"
  | NOccur _ _ => txt "unexpected Occur"
  | _ => txt "unexpected Unwrap"
  end.
Definition no_member (m : node) : text :=
  match m with
  | NLiteral _ => txt "literal map member"
  | NPrelude _ => txt "prelude type map member"
  | NMap _ => txt "map as map member"
  | NArray _ => txt "array as map member"
  | NRange _ _ _ => txt "range as map member"
  | _ => txt "control op as map member"
  end.
Definition choice_of {A} (l : list A) : text := txt "choice of " ++ count_of l.
Definition one_of_text {A} (l : list A) : text := txt "choiceified group of " ++ count_of l.

Section Acts.
Variable X : ext.
Variable lk : lookup_context.

Inductive acts : question -> reply -> Prop :=
(** Types *)
| any_none none : acts (AskAny none []) (Reject none)
| any_next none q qs m r : acts q (Reject m) -> acts (AskAny none qs) r -> acts (AskAny none (q :: qs)) r
| any_first none q qs r : acts q r -> (forall m, r <> Reject m) -> acts (AskAny none (q :: qs)) r
| t_leaf c t v j : judges X lk c t v j -> acts (AskType c t v) (leaf_reply j)
| t_name c name args v t' c' r :
    lookup_rule lk c name args = Ok (t', c') -> acts (AskType c' t' v) r -> acts (AskType c (NRule name args) v) r
| t_name_wrong c name args v e :
    lookup_rule lk c name args = Err e -> acts (AskType c (NRule name args) v) (Wrong e)
| t_choice c ts v r : acts (AskAny (choice_of ts) (map (fun t => AskType c t v) ts)) r -> acts (AskType c (NChoice ts) v) r
| t_parens c t v r : acts (AskType c t v) r -> acts (AskType c (NGroup [t]) v) r
| t_parens_wrong c ts v : List.length ts <> 1 -> acts (AskType c (NGroup ts) v) (Wrong (EUnsupported (txt "standalone group")))
| t_misplaced c t v : only_member t = true -> acts (AskType c t v) (Wrong (EStructural (unexpected t)))
| t_array c ms a r : acts (AskSeqA c ms a) r -> acts (AskType c (NArray ms) (VArray a)) (all_of r)
| t_array_no c ms v : (forall a, v <> VArray a) -> acts (AskType c (NArray ms) v) (Reject (txt "array"))
| t_map c ms es r : acts (AskSeqM c ms es) r -> acts (AskType c (NMap ms) (VMap es)) (all_of r)
| t_map_no c ms v : (forall es, v <> VMap es) -> acts (AskType c (NMap ms) v) (Reject (txt "map"))
| t_cbor c t b x v r : cbor_decode X b = inl x -> cbor_means x v -> acts (AskType c t v) r ->
    acts (AskType c (NControl (CtlCbor t)) (VBytes b)) r
| t_cbor_no c t v : (forall b, v <> VBytes b) -> acts (AskType c (NControl (CtlCbor t)) v) (Reject (txt "Bytes"))
| t_cbor_wrong c t b msg : cbor_decode X b = inr msg ->
    acts (AskType c (NControl (CtlCbor t)) (VBytes b)) (Wrong (EValueError msg))
| t_cbor_wrong_value c t b x : cbor_decode X b = inl x -> has_tag x ->
    acts (AskType c (NControl (CtlCbor t)) (VBytes b)) (Wrong (EValueError (txt "can't handle hidden cbor Value")))
| t_one_of c name args v r : acts (AskOneOf c name args v) r -> acts (AskType c (NChoiceify name args) v) r
| t_inline c is v r : acts (AskAny (one_of_text is) (map (item_question c v) is)) r -> acts (AskType c (NChoiceifyInline is) v) r
| o_wrong c name args v e :
    lookup_rule lk c name args = Err e -> acts (AskOneOf c name args v) (Wrong e)
| o_group c name args v is c' r :
    lookup_rule lk c name args = Ok (NGroup is, c') -> acts (AskAny (one_of_text is) (map (item_question c' v) is)) r ->
    acts (AskOneOf c name args v) r
| o_alias c name args v name' args' c' r :
    lookup_rule lk c name args = Ok (NRule name' args', c') -> acts (AskOneOf c' name' args' v) r ->
    acts (AskOneOf c name args v) r
| o_improper c name args v t' c' :
    lookup_rule lk c name args = Ok (t', c') ->
    (forall is, t' <> NGroup is) -> (forall n l, t' <> NRule n l) ->
    acts (AskOneOf c name args v) (Wrong (EStructural (txt "improper choiceify target")))
(** Array members *)
| a_element c m t v a r : element_of m = Some t -> acts (AskType c t v) r -> acts (AskArr c m (v :: a)) (elementA v a r)
| a_element_no c m t : element_of m = Some t -> acts (AskArr c m []) (DidA (Missed (txt "array element " ++ part_text X t)) [] [])
| a_name c name args a m' c' r :
    lookup_rule lk c name args = Ok (m', c') -> acts (AskArr c' m' a) r -> acts (AskArr c (NRule name args) a) r
| a_name_wrong c name args a e :
    lookup_rule lk c name args = Err e -> acts (AskArr c (NRule name args) a) (Wrong e)
| a_unwrap c name args a ms c' r :
    lookup_rule lk c name args = Ok (NArray ms, c') -> acts (AskSeqA c' ms a) r -> acts (AskArr c (NUnwrap name args) a) r
| a_unwrap_no c name args a t' c' :
    lookup_rule lk c name args = Ok (t', c') -> (forall ms, t' <> NArray ms) ->
    acts (AskArr c (NUnwrap name args) a) (DidA (Missed (txt "unwrap array")) [] a)
| a_unwrap_wrong c name args a e :
    lookup_rule lk c name args = Err e -> acts (AskArr c (NUnwrap name args) a) (Wrong e)
| a_choice c ms a r : acts (AskAltA (choice_of ms) c ms a) r -> acts (AskArr c (NChoice ms) a) r
| a_group c ms a r : acts (AskSeqA c ms a) r -> acts (AskArr c (NGroup ms) a) (groupA r)
| a_occur c l m a r : acts (AskRepA c m (N.max 1 (snd (bounds l))) a) r ->
    acts (AskArr c (NOccur l m) a) (at_least (fst (bounds l)) (txt "more array element [" ++ occur_text X l m ++ txt "]") r)
| seqa_end c a : acts (AskSeqA c [] a) (DidA Matched [] a)
| seqa_next c m ms a took rest r : acts (AskArr c m a) (DidA Matched took rest) -> acts (AskSeqA c ms rest) r ->
    acts (AskSeqA c (m :: ms) a) (afterA took r)
| seqa_stop c m ms a r : acts (AskArr c m a) r -> (forall took rest, r <> DidA Matched took rest) ->
    acts (AskSeqA c (m :: ms) a) r
| alta_end none c a : acts (AskAltA none c [] a) (DidA (Missed none) [] a)
| alta_next none c m ms a msg took rest r : acts (AskArr c m a) (DidA (Missed msg) took rest) -> acts (AskAltA none c ms rest) r ->
    acts (AskAltA none c (m :: ms) a) (afterA took r)
| alta_stop none c m ms a r : acts (AskArr c m a) r -> (forall msg took rest, r <> DidA (Missed msg) took rest) ->
    acts (AskAltA none c (m :: ms) a) r
| repa_miss c m n a msg took rest : acts (AskArr c m a) (DidA (Missed msg) took rest) ->
    acts (AskRepA c m n a) (RoundsA 0 took rest)
| repa_last c m a took rest : acts (AskArr c m a) (DidA Matched took rest) ->
    acts (AskRepA c m 1 a) (RoundsA 1 took rest)
| repa_more c m n a took rest r : (1 < n)%N -> acts (AskArr c m a) (DidA Matched took rest) ->
    acts (AskRepA c m (n - 1) rest) r -> acts (AskRepA c m n a) (afterA took r)
| repa_wrong c m n a e : acts (AskArr c m a) (Wrong e) -> acts (AskRepA c m n a) (Wrong e)
(** Map members *)
| m_entry_no c key t cut es : acts (AskKey c key es) Absent ->
    acts (AskMap c (NKeyValue key t cut) es) (DidM (Missed (txt "map{" ++ part_text X key ++ txt "}")) [] es)
| m_entry c key t cut es k v r : acts (AskKey c key es) (Found k v) -> acts (AskType c t v) r ->
    acts (AskMap c (NKeyValue key t cut) es) (entryM cut k v es r)
| key_none c key : acts (AskKey c key []) Absent
| key_here c key k v es : acts (AskType c key k) Accept -> acts (AskKey c key ((k, v) :: es)) (Found k v)
| key_later c key k v es r' r : acts (AskType c key k) r' -> r' <> Accept -> acts (AskKey c key es) r ->
    acts (AskKey c key ((k, v) :: es)) r
| m_name c name args es m' c' r :
    lookup_rule lk c name args = Ok (m', c') -> acts (AskMap c' m' es) r -> acts (AskMap c (NRule name args) es) r
| m_name_wrong c name args es e :
    lookup_rule lk c name args = Err e -> acts (AskMap c (NRule name args) es) (Wrong e)
| m_unwrap c name args es ms c' r :
    lookup_rule lk c name args = Ok (NMap ms, c') -> acts (AskSeqM c' ms es) r -> acts (AskMap c (NUnwrap name args) es) r
| m_unwrap_no c name args es t' c' :
    lookup_rule lk c name args = Ok (t', c') -> (forall ms, t' <> NMap ms) ->
    acts (AskMap c (NUnwrap name args) es) (DidM (Missed (txt "unwrap map")) [] es)
| m_unwrap_wrong c name args es e :
    lookup_rule lk c name args = Err e -> acts (AskMap c (NUnwrap name args) es) (Wrong e)
| m_choice c ms es r : acts (AskAltM (choice_of ms) (map (AskMap c) ms) es) r -> acts (AskMap c (NChoice ms) es) r
| m_inline c ms es r : acts (AskAltM (choice_of ms) (map (AskMap c) ms) es) r -> acts (AskMap c (NChoiceifyInline ms) es) r
| m_one_of c name args es r : acts (AskOneOfM c name args es) r -> acts (AskMap c (NChoiceify name args) es) r
| m_group c ms es r : acts (AskSeqM c ms es) r -> acts (AskMap c (NGroup ms) es) (groupM es r)
| m_occur c l m es r : acts (AskRepM c m (N.max 1 (snd (bounds l))) es) r ->
    acts (AskMap c (NOccur l m) es) (at_least (fst (bounds l)) (txt "map{" ++ occur_text X l m ++ txt "}]") r)
| m_misplaced c m es : only_type m = true -> acts (AskMap c m es) (Wrong (EStructural (no_member m)))
| mo_wrong c name args es e :
    lookup_rule lk c name args = Err e -> acts (AskOneOfM c name args es) (Wrong e)
| mo_group c name args es is c' r :
    lookup_rule lk c name args = Ok (NGroup is, c') -> acts (AskAltM (one_of_text is) (map (member_question c') is) es) r ->
    acts (AskOneOfM c name args es) r
| mo_alias c name args es name' args' c' r :
    lookup_rule lk c name args = Ok (NRule name' args', c') -> acts (AskOneOfM c' name' args' es) r ->
    acts (AskOneOfM c name args es) r
| mo_improper c name args es t' c' :
    lookup_rule lk c name args = Ok (t', c') ->
    (forall is, t' <> NGroup is) -> (forall n l, t' <> NRule n l) ->
    acts (AskOneOfM c name args es) (Wrong (EStructural (txt "improper map choiceify target")))
| seqm_end c es : acts (AskSeqM c [] es) (DidM Matched [] es)
| seqm_next c m ms es took rest r : acts (AskMap c m es) (DidM Matched took rest) -> acts (AskSeqM c ms rest) r ->
    acts (AskSeqM c (m :: ms) es) (afterM took r)
| seqm_stop c m ms es r : acts (AskMap c m es) r -> (forall took rest, r <> DidM Matched took rest) ->
    acts (AskSeqM c (m :: ms) es) r
| altm_end none es : acts (AskAltM none [] es) (DidM (Missed none) [] es)
| altm_next none q qs es msg took rest r : acts (q es) (DidM (Missed msg) took rest) -> acts (AskAltM none qs rest) r ->
    acts (AskAltM none (q :: qs) es) (afterM took r)
| altm_stop none q qs es r : acts (q es) r -> (forall msg took rest, r <> DidM (Missed msg) took rest) ->
    acts (AskAltM none (q :: qs) es) r
| repm_miss c m n es msg took rest : acts (AskMap c m es) (DidM (Missed msg) took rest) ->
    acts (AskRepM c m n es) (RoundsM 0 took rest)
| repm_last c m es took rest : acts (AskMap c m es) (DidM Matched took rest) ->
    acts (AskRepM c m 1 es) (RoundsM 1 took rest)
| repm_more c m n es took rest r : (1 < n)%N -> acts (AskMap c m es) (DidM Matched took rest) ->
    acts (AskRepM c m (n - 1) rest) r -> acts (AskRepM c m n es) (afterM took r)
| repm_stop c m n es r : acts (AskMap c m es) r -> (forall h took rest, r = DidM h took rest -> exists msg, h = Stopped msg) ->
    acts (AskRepM c m n es) r.
End Acts.
