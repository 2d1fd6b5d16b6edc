(** How much work a validation is.

    [asks q qs]: the questions of SpecActs.v that the validator has to settle, one
    after the other, to answer [q].  A question stands for one call of a validation
    function, or for one pass through one of its loops.  [cost q n]: answering [q]
    settles [n] questions in all, repeated ones counted again.  Following the names
    of a range or a control is not counted; C17 bounds it. *)
From Coq Require Import List Bool ZArith NArith String.
From Verif Require Import Base Util Data Value Ivt Validate SpecBase SpecConvert SpecVerdict SpecPos SpecJudge SpecPeg SpecActs
  ArrayInv SpecNest SpecConsume.
Import ListNotations.

Section Work.
Variable X : ext.
Variable lk : lookup_context.
Notation acts := (acts X lk).

Inductive asks : question -> list question -> Prop :=
(** Alternatives: up to the first that does not just fail to match. *)
| w_any_none none : asks (AskAny none []) []
| w_any_next none q qs m : acts q (Reject m) -> asks (AskAny none (q :: qs)) [q; AskAny none qs]
| w_any_first none q qs r : acts q r -> (forall m, r <> Reject m) -> asks (AskAny none (q :: qs)) [q]
| w_alta_none none c a : asks (AskAltA none c [] a) []
| w_alta_next none c m ms a msg took rest : acts (AskArr c m a) (DidA (Missed msg) took rest) ->
    asks (AskAltA none c (m :: ms) a) [AskArr c m a; AskAltA none c ms rest]
| w_alta_stop none c m ms a r : acts (AskArr c m a) r -> (forall msg took rest, r <> DidA (Missed msg) took rest) ->
    asks (AskAltA none c (m :: ms) a) [AskArr c m a]
| w_altm_none none es : asks (AskAltM none [] es) []
| w_altm_next none q qs es msg took rest : acts (q es) (DidM (Missed msg) took rest) ->
    asks (AskAltM none (q :: qs) es) [q es; AskAltM none qs rest]
| w_altm_stop none q qs es r : acts (q es) r -> (forall msg took rest, r <> DidM (Missed msg) took rest) ->
    asks (AskAltM none (q :: qs) es) [q es]
(** Members one after the other: up to the first that does not match. *)
| w_seqa_end c a : asks (AskSeqA c [] a) []
| w_seqa_next c m ms a took rest : acts (AskArr c m a) (DidA Matched took rest) ->
    asks (AskSeqA c (m :: ms) a) [AskArr c m a; AskSeqA c ms rest]
| w_seqa_stop c m ms a r : acts (AskArr c m a) r -> (forall took rest, r <> DidA Matched took rest) ->
    asks (AskSeqA c (m :: ms) a) [AskArr c m a]
| w_seqm_end c es : asks (AskSeqM c [] es) []
| w_seqm_next c m ms es took rest : acts (AskMap c m es) (DidM Matched took rest) ->
    asks (AskSeqM c (m :: ms) es) [AskMap c m es; AskSeqM c ms rest]
| w_seqm_stop c m ms es r : acts (AskMap c m es) r -> (forall took rest, r <> DidM Matched took rest) ->
    asks (AskSeqM c (m :: ms) es) [AskMap c m es]
(** A member again and again: until it does not match, or the limit is reached. *)
| w_repa_last c m a took rest : acts (AskArr c m a) (DidA Matched took rest) -> asks (AskRepA c m 1 a) [AskArr c m a]
| w_repa_more c m n a took rest : (1 < n)%N -> acts (AskArr c m a) (DidA Matched took rest) ->
    asks (AskRepA c m n a) [AskArr c m a; AskRepA c m (n - 1) rest]
| w_repa_stop c m n a r : acts (AskArr c m a) r -> (forall took rest, r <> DidA Matched took rest) ->
    asks (AskRepA c m n a) [AskArr c m a]
| w_repm_last c m es took rest : acts (AskMap c m es) (DidM Matched took rest) -> asks (AskRepM c m 1 es) [AskMap c m es]
| w_repm_more c m n es took rest : (1 < n)%N -> acts (AskMap c m es) (DidM Matched took rest) ->
    asks (AskRepM c m n es) [AskMap c m es; AskRepM c m (n - 1) rest]
| w_repm_stop c m n es r : acts (AskMap c m es) r -> (forall took rest, r <> DidM Matched took rest) ->
    asks (AskRepM c m n es) [AskMap c m es]
(** Entries: up to the first whose key matches. *)
| w_key_none c key : asks (AskKey c key []) []
| w_key_here c key k v es : acts (AskType c key k) Accept -> asks (AskKey c key ((k, v) :: es)) [AskType c key k]
| w_key_later c key k v es r : acts (AskType c key k) r -> r <> Accept ->
    asks (AskKey c key ((k, v) :: es)) [AskType c key k; AskKey c key es]
(** Types *)
| w_leaf c t v : leaf t = true -> asks (AskType c t v) []
| w_name c name args v t' c' : lookup_rule lk c name args = Ok (t', c') -> asks (AskType c (NRule name args) v) [AskType c' t' v]
| w_name_wrong c name args v e : lookup_rule lk c name args = Err e -> asks (AskType c (NRule name args) v) []
| w_choice c ts v : asks (AskType c (NChoice ts) v) [AskAny (choice_of ts) (map (fun t => AskType c t v) ts)]
| w_parens c t v : asks (AskType c (NGroup [t]) v) [AskType c t v]
| w_parens_wrong c ts v : List.length ts <> 1 -> asks (AskType c (NGroup ts) v) []
| w_misplaced c t v : only_member t = true -> asks (AskType c t v) []
| w_array c ms a : asks (AskType c (NArray ms) (VArray a)) [AskSeqA c ms a]
| w_array_no c ms v : (forall a, v <> VArray a) -> asks (AskType c (NArray ms) v) []
| w_map c ms es : asks (AskType c (NMap ms) (VMap es)) [AskSeqM c ms es]
| w_map_no c ms v : (forall es, v <> VMap es) -> asks (AskType c (NMap ms) v) []
| w_cbor c t b x v : cbor_decode X b = inl x -> cbor_means x v -> asks (AskType c (NControl (CtlCbor t)) (VBytes b)) [AskType c t v]
| w_cbor_no c t v : (forall b x w, v = VBytes b -> cbor_decode X b = inl x -> ~ cbor_means x w) ->
    asks (AskType c (NControl (CtlCbor t)) v) []
| w_one_of c name args v : asks (AskType c (NChoiceify name args) v) [AskOneOf c name args v]
| w_inline c is v : asks (AskType c (NChoiceifyInline is) v) [AskAny (one_of_text is) (map (item_question c v) is)]
| w_o_group c name args v is c' : lookup_rule lk c name args = Ok (NGroup is, c') ->
    asks (AskOneOf c name args v) [AskAny (one_of_text is) (map (item_question c' v) is)]
| w_o_alias c name args v name' args' c' : lookup_rule lk c name args = Ok (NRule name' args', c') ->
    asks (AskOneOf c name args v) [AskOneOf c' name' args' v]
| w_o_wrong c name args v :
    (forall is c', lookup_rule lk c name args <> Ok (NGroup is, c')) ->
    (forall n l c', lookup_rule lk c name args <> Ok (NRule n l, c')) -> asks (AskOneOf c name args v) []
(** Members of arrays *)
| w_element c m t v a : element_of m = Some t -> asks (AskArr c m (v :: a)) [AskType c t v]
| w_element_no c m t : element_of m = Some t -> asks (AskArr c m []) []
| w_a_name c name args a m' c' : lookup_rule lk c name args = Ok (m', c') -> asks (AskArr c (NRule name args) a) [AskArr c' m' a]
| w_a_name_wrong c name args a e : lookup_rule lk c name args = Err e -> asks (AskArr c (NRule name args) a) []
| w_a_unwrap c name args a ms c' : lookup_rule lk c name args = Ok (NArray ms, c') -> asks (AskArr c (NUnwrap name args) a) [AskSeqA c' ms a]
| w_a_unwrap_no c name args a : (forall ms c', lookup_rule lk c name args <> Ok (NArray ms, c')) -> asks (AskArr c (NUnwrap name args) a) []
| w_a_choice c ms a : asks (AskArr c (NChoice ms) a) [AskAltA (choice_of ms) c ms a]
| w_a_group c ms a : asks (AskArr c (NGroup ms) a) [AskSeqA c ms a]
| w_a_occur c l m a : asks (AskArr c (NOccur l m) a) [AskRepA c m (N.max 1 (snd (bounds l))) a]
(** Members of maps *)
| w_entry_no c key t cut es : acts (AskKey c key es) Absent -> asks (AskMap c (NKeyValue key t cut) es) [AskKey c key es]
| w_entry c key t cut es k v : acts (AskKey c key es) (Found k v) ->
    asks (AskMap c (NKeyValue key t cut) es) [AskKey c key es; AskType c t v]
| w_m_name c name args es m' c' : lookup_rule lk c name args = Ok (m', c') -> asks (AskMap c (NRule name args) es) [AskMap c' m' es]
| w_m_name_wrong c name args es e : lookup_rule lk c name args = Err e -> asks (AskMap c (NRule name args) es) []
| w_m_unwrap c name args es ms c' : lookup_rule lk c name args = Ok (NMap ms, c') -> asks (AskMap c (NUnwrap name args) es) [AskSeqM c' ms es]
| w_m_unwrap_no c name args es : (forall ms c', lookup_rule lk c name args <> Ok (NMap ms, c')) -> asks (AskMap c (NUnwrap name args) es) []
| w_m_choice c ms es : asks (AskMap c (NChoice ms) es) [AskAltM (choice_of ms) (map (AskMap c) ms) es]
| w_m_inline c ms es : asks (AskMap c (NChoiceifyInline ms) es) [AskAltM (choice_of ms) (map (AskMap c) ms) es]
| w_m_one_of c name args es : asks (AskMap c (NChoiceify name args) es) [AskOneOfM c name args es]
| w_m_group c ms es : asks (AskMap c (NGroup ms) es) [AskSeqM c ms es]
| w_m_occur c l m es : asks (AskMap c (NOccur l m) es) [AskRepM c m (N.max 1 (snd (bounds l))) es]
| w_m_misplaced c m es : only_type m = true -> asks (AskMap c m es) []
| w_mo_group c name args es is c' : lookup_rule lk c name args = Ok (NGroup is, c') ->
    asks (AskOneOfM c name args es) [AskAltM (one_of_text is) (map (member_question c') is) es]
| w_mo_alias c name args es name' args' c' : lookup_rule lk c name args = Ok (NRule name' args', c') ->
    asks (AskOneOfM c name args es) [AskOneOfM c' name' args' es]
| w_mo_wrong c name args es :
    (forall is c', lookup_rule lk c name args <> Ok (NGroup is, c')) ->
    (forall n l c', lookup_rule lk c name args <> Ok (NRule n l, c')) -> asks (AskOneOfM c name args es) [].

Inductive cost : question -> nat -> Prop :=
| cost_of q qs n : asks q qs -> costs qs n -> cost q (S n)
with costs : list question -> nat -> Prop :=
| costs_none : costs [] 0
| costs_more q qs n m : cost q n -> costs qs m -> costs (q :: qs) (n + m).

(** Data in which no array or map, at any depth and also inside byte strings that
    hold CBOR, has more than [B] entries. *)
Inductive fits (B : nat) : value -> Prop :=
| fits_plain v : match v with VArray _ | VMap _ | VBytes _ => False | _ => True end -> fits B v
| fits_bytes b : (forall x w, cbor_decode X b = inl x -> cbor_means x w -> fits B w) -> fits B (VBytes b)
| fits_array a : List.length a <= B -> (forall v, In v a -> fits B v) -> fits B (VArray a)
| fits_map es : List.length es <= B -> (forall k v, In (k, v) es -> fits B k /\ fits B v) -> fits B (VMap es).

(** A repeated member cannot match without using something up, or it is repeated at
    most [B] times. *)
Definition modest (B : nat) (k : call) : Prop :=
  match k with
  | Call JArray (NOccur l m) c => eats_a lk c m \/ (snd (bounds l) <= N.of_nat B)%N
  | Call JMap (NOccur l m) c => eats_m lk c m \/ (snd (bounds l) <= N.of_nat B)%N
  | _ => True
  end.
End Work.
