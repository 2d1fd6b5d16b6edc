(** Specification: what a reported mismatch is about.

    [complains t m]: the task [t] itself (one schema node on one part of the
    data) is not met, for the reason that the text [m] tells.  [blamed t m]: the
    steps of the validation lead from [t] to such a task, every task on the way
    being reported with the same text. *)
From Coq Require Import List Bool ZArith NArith String Sorting.Sorted.
From Verif Require Import Base Util Data Value Convert Ivt Scalar Validate Fun SpecBase SpecScalar SpecReach SpecJudge SpecPeg.
Import ListNotations.
Open Scope list_scope.

Inductive size_fault (p : prelude) (a b : Z) (i : bool) (v : value) : text -> Prop :=
| size_empty : (forall k, ~ between a b i k) -> size_fault p a b i v (type_name p ++ txt " over .size limit")
| size_kind : no_size p v -> size_fault p a b i v (type_name p)
| size_negative x : p = PUint -> v = VInteger x -> (x < 0)%Z -> size_fault p a b i v (txt ".size on negative integer")
| size_under k : size_is p v k -> (k < a)%Z -> size_fault p a b i v (type_name p ++ txt " under .size limit")
| size_over k : size_is p v k -> (if i then b < k else b <= k)%Z -> size_fault p a b i v (type_name p ++ txt " over .size limit").

(** The limit of [.size] is a number or a range of numbers. *)
Inductive size_limit : node -> Z -> Z -> bool -> Prop :=
| limit_number z : (0 <= z < 2 ^ 64)%Z -> size_limit (NLiteral (LInt z)) z z true
| limit_range a b i : (0 <= a < 2 ^ 64)%Z -> (0 <= b < 2 ^ 64)%Z ->
    size_limit (NRange (NLiteral (LInt a)) (NLiteral (LInt b)) i) a b i.

(** Values that a range of literals does not contain. *)
Definition out_of_range (l l' : literal) (i : bool) (v : value) : Prop :=
  match l, l' with
  | LInt a, LInt b => ~ in_int_range a b i v
  | LFloat a, LFloat b => ~ in_float_range a b i v
  | _, _ => same_kind l l'
  end.

Section Blame.
Variable X : ext.
Variable lk : lookup_context.
Notation af := (af X lk).
Notation mf := (mf X lk).

(** Fewer repetitions than asked for: the [k]-th attempt fails, or the upper
    limit is below the lower one. *)
Definition too_few {St} (f : St -> res unit * St) (l : occur_limit) (s : St) : Prop :=
  exists k s', repeats f k s s' /\ (k < fst (bounds l))%N /\
    (((k = 0 \/ k < snd (bounds l))%N /\ exists m s2, f s' = (Err (EMismatch m), s2)) \/ k = N.max 1 (snd (bounds l))).

Inductive complains : task -> text -> Prop :=
(** Types. *)
| say_literal v l c : ~ lit_is l v -> complains (TV v (NLiteral l) c) (literal_text X l)
| say_prelude v p c : ~ in_prelude p v -> complains (TV v (NPrelude p) c) (type_name p)
| say_range v s e i c l l' cs ce : named lk c s (NLiteral l) cs -> named lk c e (NLiteral l') ce ->
    out_of_range l l' i v -> complains (TV v (NRange s e i) c) (range_text X s e i)
| say_size v t s c p l a b i ct cs m : named lk c t (NPrelude p) ct -> In p [PUint; PTstr; PBstr] ->
    named lk c s l cs -> size_limit l a b i -> size_fault p a b i v m ->
    complains (TV v (NControl (CtlSize t s)) c) m
| say_limit_kind v op t s c p z ct cs : named lk c t (NPrelude p) ct -> In p [PUint; PNint; PInt] ->
    named lk c s (NLiteral (LInt z)) cs -> ~ in_prelude p v ->
    complains (TV v (NControl (cmp_control op t s)) c) (type_name p)
| say_limit op t s c p x z ct cs : named lk c t (NPrelude p) ct -> In p [PUint; PNint; PInt] ->
    named lk c s (NLiteral (LInt z)) cs -> in_prelude p (VInteger x) -> ~ cmp_holds op x z ->
    complains (TV (VInteger x) (NControl (cmp_control op t s)) c) (limit_text op p)
| say_no_text v re c : (forall t, v <> VText t) -> complains (TV v (NControl (CtlRegexp re)) c) (txt "tstr")
| say_regexp t re c : regex_match X re t = false -> complains (TV (VText t) (NControl (CtlRegexp re)) c) (txt "regex mismatch")
| say_no_bytes v nd c : (forall b, v <> VBytes b) -> complains (TV v (NControl (CtlCbor nd)) c) (txt "Bytes")
| say_choice v os c : (forall o, In o os -> rejected (val X lk v o c)) ->
    complains (TV v (NChoice os) c) (txt "choice of " ++ count_of os)
| say_inline v is c : (forall i, In i is -> rejected (outcome X lk (item_task v c i))) ->
    complains (TV v (NChoiceifyInline is) c) (txt "choiceified group of " ++ count_of is)
| say_one_of v name args c is c' : lookup_rule lk c name args = Ok (NGroup is, c') ->
    (forall i, In i is -> rejected (outcome X lk (item_task v c' i))) ->
    complains (TC name args v c) (txt "choiceified group of " ++ count_of is)
| say_no_array v ms c : (forall a, v <> VArray a) -> complains (TV v (NArray ms) c) (txt "array")
| say_shorter_array a ms c w : runs (af c) ms (wa_new a) w -> wa_array w <> [] ->
    complains (TV (VArray a) (NArray ms) c) (txt "shorter array")
| say_no_map v ms c : (forall es, v <> VMap es) -> complains (TV v (NMap ms) c) (txt "map")
| say_shorter_map es ms c w : runs (mf c) ms (wm_new es) w -> wm_map w <> [] ->
    complains (TV (VMap es) (NMap ms) c) (txt "shorter map")
(** Members of arrays. *)
| say_element m t w c : element_of m = Some t -> wa_array w = [] ->
    complains (TA m w c) (txt "array element " ++ part_text X t)
| say_more l m w c : too_few (af c m) l w ->
    complains (TA (NOccur l m) w c) (txt "more array element [" ++ occur_text X l m ++ txt "]")
| say_unwrap name args w c nd c' : lookup_rule lk c name args = Ok (nd, c') -> (forall ms, nd <> NArray ms) ->
    complains (TA (NUnwrap name args) w c) (txt "unwrap array")
| say_array_choice os w c w' : skips (af c) os w w' -> complains (TA (NChoice os) w c) (txt "choice of " ++ count_of os)
(** Members of maps. *)
| say_literal_key l t cut w c : 
    (StronglySorted (fun p q => vcompare (fst p) (fst q) = Lt) (wm_map w) -> forall k v, In (k, v) (wm_map w) -> ~ lit_is l k) ->
    complains (TM (NKeyValue (NLiteral l) t cut) w c) (txt "map{" ++ literal_text X l ++ txt "}")
| say_key key t cut w c : (forall l, key <> NLiteral l) ->
    (forall k v, In (k, v) (wm_map w) -> exists e, val X lk k key c = Err e) ->
    complains (TM (NKeyValue key t cut) w c) (txt "map{" ++ part_text X key ++ txt "}")
| say_more_m l m w c : too_few (mf c m) l w ->
    complains (TM (NOccur l m) w c) (txt "map{" ++ occur_text X l m ++ txt "}]")
| say_unwrap_m name args w c nd c' : lookup_rule lk c name args = Ok (nd, c') -> (forall ms, nd <> NMap ms) ->
    complains (TM (NUnwrap name args) w c) (txt "unwrap map")
| say_map_choice os w c w' : skips (mf c) os w w' -> complains (TM (NChoice os) w c) (txt "choice of " ++ count_of os)
| say_map_inline os w c w' : skips (mf c) os w w' -> complains (TM (NChoiceifyInline os) w c) (txt "choice of " ++ count_of os)
| say_map_one_of name args w c is c' w' : lookup_rule lk c name args = Ok (NGroup is, c') ->
    skips (map_choiceify_item X lk c') is w w' ->
    complains (TMC name args w c) (txt "choiceified group of " ++ count_of is).

(** The task is reported with the text [m]; the second form stops the map. *)
Definition says (t : task) (m : text) : Prop := outcome X lk t = Err (EMismatch m) \/ outcome X lk t = Err (EMapCut m).
Inductive blamed : task -> text -> Prop :=
| blamed_here t m : says t m -> complains t m -> blamed t m
| blamed_below t t' m : says t m -> next X lk false t t' -> blamed t' m -> blamed t m.
End Blame.
