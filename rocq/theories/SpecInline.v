(** Writing definitions in place of references, anywhere in a schema. *)
From Coq Require Import List Bool ZArith NArith String.
From Verif Require Import Base Util Data Value Convert Ivt Scalar Validate SpecBase SpecCtx SpecVerdict.
Import ListNotations.

Section Inline.
(** The original rules, and the names that [~] and [&] may be applied to. *)
Variable lk : lookup_context.
Variable targets : text -> Prop.

(** [inl ps a b]: [b] is [a] with some references replaced by definitions (in which
    further references may have been replaced), in the scope of the generic
    parameters [ps].  A reference is kept where the program treats a name and its
    definition differently: as an end of a range, as the operand of [&], as
    an item of [&( ... )].  Occurrence indicators may be written differently.
    [kin]: the same, but the outermost construct is kept.
    [mem]: members of an array ([arr]) or a map; the members of a group, of a name
    that stands for a group, and of [~] with the name of an array or map may have
    been written in place. *)
Inductive inl : list text -> node -> node -> Prop :=
| in_place ps name body n2 : ~ In name ps -> lk name = Datatypes.inl (RuleDef [] body) ->
    inl [] body n2 -> (forall nm, mentions n2 nm -> ~ In nm ps) -> inl ps (NRule name []) n2
| in_kin ps n1 n2 : kin ps n1 n2 -> inl ps n1 n2
with kin : list text -> node -> node -> Prop :=
| kin_rule ps name a1 a2 : Forall2 (inl ps) a1 a2 -> kin ps (NRule name a1) (NRule name a2)
| kin_literal ps l : kin ps (NLiteral l) (NLiteral l)
| kin_prelude ps p : kin ps (NPrelude p) (NPrelude p)
| kin_choice ps l1 l2 : Forall2 (inl ps) l1 l2 -> kin ps (NChoice l1) (NChoice l2)
| kin_map ps l1 l2 : mem false ps l1 l2 -> kin ps (NMap l1) (NMap l2)
| kin_array ps l1 l2 : mem true ps l1 l2 -> kin ps (NArray l1) (NArray l2)
| kin_group ps l1 l2 : Forall2 (inl ps) l1 l2 -> kin ps (NGroup l1) (NGroup l2)
| kin_kv ps k1 v1 k2 v2 cut : inl ps k1 k2 -> inl ps v1 v2 -> kin ps (NKeyValue k1 v1 cut) (NKeyValue k2 v2 cut)
| kin_occur ps o o' n1 n2 : bounds o = bounds o' -> inl ps n1 n2 -> kin ps (NOccur o n1) (NOccur o' n2)
| kin_unwrap ps name a1 a2 : targets name -> ~ In name ps -> Forall2 (inl ps) a1 a2 ->
    kin ps (NUnwrap name a1) (NUnwrap name a2)
| kin_range ps a1 b1 a2 b2 i : kin ps a1 a2 -> kin ps b1 b2 -> kin ps (NRange a1 b1 i) (NRange a2 b2 i)
| kin_size ps a1 b1 a2 b2 : inl ps a1 a2 -> inl ps b1 b2 -> kin ps (NControl (CtlSize a1 b1)) (NControl (CtlSize a2 b2))
| kin_lt ps a1 b1 a2 b2 : inl ps a1 a2 -> inl ps b1 b2 -> kin ps (NControl (CtlLt a1 b1)) (NControl (CtlLt a2 b2))
| kin_le ps a1 b1 a2 b2 : inl ps a1 a2 -> inl ps b1 b2 -> kin ps (NControl (CtlLe a1 b1)) (NControl (CtlLe a2 b2))
| kin_gt ps a1 b1 a2 b2 : inl ps a1 a2 -> inl ps b1 b2 -> kin ps (NControl (CtlGt a1 b1)) (NControl (CtlGt a2 b2))
| kin_ge ps a1 b1 a2 b2 : inl ps a1 a2 -> inl ps b1 b2 -> kin ps (NControl (CtlGe a1 b1)) (NControl (CtlGe a2 b2))
| kin_regexp ps re : kin ps (NControl (CtlRegexp re)) (NControl (CtlRegexp re))
| kin_cbor ps a1 a2 : inl ps a1 a2 -> kin ps (NControl (CtlCbor a1)) (NControl (CtlCbor a2))
| kin_choiceify ps name a1 a2 : targets name -> ~ In name ps -> Forall2 (inl ps) a1 a2 ->
    kin ps (NChoiceify name a1) (NChoiceify name a2)
| kin_inline ps l1 l2 : Forall2 (kin ps) l1 l2 -> Forall (fun m => forall nm x, m = NRule nm x -> targets nm /\ ~ In nm ps) l1 ->
    kin ps (NChoiceifyInline l1) (NChoiceifyInline l2)
with mem : bool -> list text -> list node -> list node -> Prop :=
| mem_nil arr ps : mem arr ps [] []
| mem_cons arr ps a b r1 r2 : inl ps a b -> mem arr ps r1 r2 -> mem arr ps (a :: r1) (b :: r2)
| mem_group arr ps ms1 ms2 r1 r2 : mem arr ps ms1 ms2 -> mem arr ps r1 r2 ->
    mem arr ps (NGroup ms1 :: r1) (ms2 ++ r2)
| mem_rule arr ps name body ms2 r1 r2 : ~ In name ps -> lk name = Datatypes.inl (RuleDef [] body) ->
    mem arr [] [body] ms2 -> (forall m nm, In m ms2 -> mentions m nm -> ~ In nm ps) ->
    mem arr ps r1 r2 -> mem arr ps (NRule name [] :: r1) (ms2 ++ r2)
| mem_unwrap (arr : bool) ps name ms1 ms2 r1 r2 : ~ In name ps ->
    lk name = Datatypes.inl (RuleDef [] (if arr then NArray ms1 else NMap ms1)) ->
    mem arr [] ms1 ms2 -> (forall m nm, In m ms2 -> mentions m nm -> ~ In nm ps) ->
    mem arr ps r1 r2 -> mem arr ps (NUnwrap name [] :: r1) (ms2 ++ r2).

(** What [~] and [&] see of a definition is kept. *)
Inductive target_kin : list text -> node -> node -> Prop :=
| tk_group ps l1 l2 : Forall2 (kin ps) l1 l2 ->
    Forall (fun m => forall nm x, m = NRule nm x -> targets nm /\ ~ In nm ps) l1 ->
    target_kin ps (NGroup l1) (NGroup l2)
| tk_array ps l1 l2 : Forall2 (inl ps) l1 l2 -> target_kin ps (NArray l1) (NArray l2)
| tk_map ps l1 l2 : Forall2 (inl ps) l1 l2 -> target_kin ps (NMap l1) (NMap l2)
| tk_rule ps nm x y : targets nm -> ~ In nm ps -> kin ps (NRule nm x) (NRule nm y) -> target_kin ps (NRule nm x) (NRule nm y)
| tk_other ps n1 n2 : (forall l, n1 <> NGroup l) -> (forall l, n1 <> NArray l) -> (forall l, n1 <> NMap l) ->
    (forall nm x, n1 <> NRule nm x) -> kin ps n1 n2 -> target_kin ps n1 n2.

(** The same rules, in which definitions have been written in place. *)
Definition inlined_rules (lk2 : lookup_context) : Prop :=
  forall name,
    match lk name, lk2 name with
    | Datatypes.inl d1, Datatypes.inl d2 =>
        rd_parms d1 = rd_parms d2 /\ inl (rd_parms d1) (rd_node d1) (rd_node d2) /\
        (targets name -> target_kin (rd_parms d1) (rd_node d1) (rd_node d2))
    | inr e1, inr e2 => error_kind e1 = error_kind e2
    | _, _ => False
    end.
End Inline.
