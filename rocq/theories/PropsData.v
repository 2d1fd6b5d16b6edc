(** Arrays and maps: C21-C28, C31. *)
From Coq Require Import List Bool ZArith NArith String Lia.
From Verif Require Import Base Util Data Value Convert Ivt Scalar Validate Total Fun SpecBase SpecCtx SpecReach
  SpecData SpecPos ValueOrder ConvertProofs NoPanic CtxProofs ReachProofs LimitProofs ArrayProofs MapProofs GroupProofs Demo.
Import ListNotations.
Open Scope list_scope.

Definition bool_t := NPrelude PBool.
Definition any_t := NPrelude PAny.

Ltac wf := cbn; repeat split; try lia; repeat constructor; try lia; cbn; unfold is_scalar; lia.
Ltac plain := constructor; exact I.

(** ** C21.  [element lk c m t]: member [m] is a plain type or [key: type] standing for type [t]. *)
Theorem C21_fixed_array_exact : forall X lk c ms ts a, Forall2 (element lk c) ms ts ->
  (val X lk (VArray a) (NArray ms) c = Ok tt <-> Forall2 (fun t v => val X lk v t c = Ok tt) ts a).
Proof. intros X lk c ms ts a H. exact (fixed_array_accepts X lk c ms ts a H). Qed.
Theorem C21_first_error_reported : forall X lk c ms ts1 t ts2 a1 v a2 e,
  Forall2 (element lk c) ms (ts1 ++ t :: ts2) -> Forall2 (fun t v => val X lk v t c = Ok tt) ts1 a1 ->
  val X lk v t c = Err e -> val X lk (VArray (a1 ++ v :: a2)) (NArray ms) c = Err e.
Proof. intros X lk c ms ts1 t ts2 a1 v a2 e H F E. eapply fixed_array_first_error; eauto. Qed.
Theorem C21_too_short : forall X lk c ms ts1 t ts2 a,
  Forall2 (element lk c) ms (ts1 ++ t :: ts2) -> Forall2 (fun t v => val X lk v t c = Ok tt) ts1 a ->
  rejected (val X lk (VArray a) (NArray ms) c).
Proof. intros X lk c ms ts1 t ts2 a H F. eapply fixed_array_short; eauto. Qed.
Theorem C21_too_long : forall X lk c ms ts a v a', Forall2 (element lk c) ms ts ->
  Forall2 (fun t v => val X lk v t c = Ok tt) ts a ->
  val X lk (VArray (a ++ v :: a')) (NArray ms) c = Err (EMismatch (txt "shorter array")).
Proof. intros X lk c ms ts a v a' H F. eapply fixed_array_long; eauto. Qed.
Theorem C21_not_an_array : forall X lk c ms v, (forall a, v <> VArray a) ->
  val X lk v (NArray ms) c = Err (EMismatch (txt "array")).
Proof. exact array_needs_array. Qed.
Example C21_example :
  let ms := [int_t; NKeyValue (lit_s "k") tstr_t true; NChoice [tstr_t; int_t]] in
  Forall2 (element no_rules initial_ctx) ms [int_t; tstr_t; NChoice [tstr_t; int_t]] /\
  val demo_ext no_rules (VArray [vi 1; vs "x"; vi 2]) (NArray ms) initial_ctx = Ok tt /\
  rejected (val demo_ext no_rules (VArray [vi 1; vs "x"]) (NArray ms) initial_ctx) /\
  rejected (val demo_ext no_rules (VArray [vi 1; vi 1; vi 2]) (NArray ms) initial_ctx) /\
  val demo_ext no_rules (VArray [vi 1; vs "x"; vi 2; vi 3]) (NArray ms) initial_ctx = Err (EMismatch (txt "shorter array")).
Proof.
  cbn zeta. split.
  - constructor; [constructor; plain|]. constructor; [constructor|]. constructor; [|constructor].
    constructor. apply one_choice. intros o [<-|[<-|[]]]; plain.
  - split; [run 10|]. split; [eexists; run 10|]. split; [eexists; run 10|run 10].
Qed.

(** ** C22 *)
Theorem C22_homogeneous_array_exact : forall X lk c limit m t a,
  element lk c m t -> (1 <= snd (bounds limit))%N ->
  Forall (fun v => val X lk v t c = Ok tt \/ rejected (val X lk v t c)) a ->
  decides (Forall (fun v => val X lk v t c = Ok tt) a /\
           (fst (bounds limit) <= N.of_nat (List.length a) <= snd (bounds limit))%N)
    (val X lk (VArray a) (NArray [NOccur limit m]) c).
Proof. intros X lk c limit m t a E L S. exact (occur_array X lk c limit m t a E L S). Qed.
(** A fixed prefix followed by one repeated member. *)
Theorem C22_prefix_array_exact : forall X lk c ms ts limit m t a,
  Forall2 (element lk c) ms ts -> element lk c m t -> (1 <= snd (bounds limit))%N ->
  (forall v t', In v a -> In t' (t :: ts) -> val X lk v t' c = Ok tt \/ rejected (val X lk v t' c)) ->
  decides (exists a1 a2, a = a1 ++ a2 /\ Forall2 (fun t v => val X lk v t c = Ok tt) ts a1 /\
             Forall (fun v => val X lk v t c = Ok tt) a2 /\
             (fst (bounds limit) <= N.of_nat (List.length a2) <= snd (bounds limit))%N)
    (val X lk (VArray a) (NArray (ms ++ [NOccur limit m])) c).
Proof. intros X lk c ms ts limit m t a H E L S. exact (prefix_occur_array X lk c ms ts limit m t a H E L S). Qed.
(** The limits of the four indicators. *)
Theorem C22_limits : limits OOptional = (0, 1)%N /\ limits OZeroOrMore = (0, 2 ^ 64 - 1)%N /\
  limits OOneOrMore = (1, 2 ^ 64 - 1)%N /\ forall n m, limits (ONumbered n m) = (n, m).
Proof. repeat split. Qed.
Example C22_example :
  element no_rules initial_ctx int_t int_t /\
  val demo_ext no_rules (VArray [vi 1; vi 2]) (NArray [NOccur OOneOrMore int_t]) initial_ctx = Ok tt /\
  rejected (val demo_ext no_rules (VArray []) (NArray [NOccur OOneOrMore int_t]) initial_ctx) /\
  rejected (val demo_ext no_rules (VArray [vi 1; vs "x"]) (NArray [NOccur OZeroOrMore int_t]) initial_ctx) /\
  val demo_ext no_rules (VArray [vi 1; vi 2]) (NArray [NOccur (ONumbered 1 2) int_t]) initial_ctx = Ok tt /\
  rejected (val demo_ext no_rules (VArray [vi 1; vi 2; vi 3]) (NArray [NOccur (ONumbered 1 2) int_t]) initial_ctx).
Proof.
  split; [constructor; plain|]. split; [run 10|]. split; [eexists; run 10|]. split; [eexists; run 10|].
  split; [run 10|eexists; run 10].
Qed.

(** ** C23: false for an upper limit of 0, which still lets one repetition through. *)
Theorem C23_refuted : exists m, forall X lk c,
  val X lk (VArray [VInteger 1]) (NArray [NOccur (ONumbered 0 0) m]) c = Ok tt.
Proof. exists int_t. intros X lk c. apply (val_run _ _ 5). reflexivity. Qed.
(** For every other bound an occurrence stands for a number of repetitions within the
    bounds, and it is greedy: it stops only at the upper bound or at a mismatch. *)
Theorem C23_array_bounds_partial : forall X lk limit m w w2 c, (1 <= snd (bounds limit))%N ->
  aval X lk (NOccur limit m) w c = (Ok tt, w2) ->
  exists k w1, (fst (bounds limit) <= k <= snd (bounds limit))%N /\
    repeats (fun w => aval X lk m w c) k w w1 /\
    ((k = snd (bounds limit) /\ w2 = w1) \/ exists msg, aval X lk m w1 c = (Err (EMismatch msg), w2)).
Proof. exact array_occur_sound. Qed.
Theorem C23_map_bounds_partial : forall X lk limit m w w2 c, (1 <= snd (bounds limit))%N ->
  mval X lk (NOccur limit m) w c = (Ok tt, w2) ->
  exists k w1, (fst (bounds limit) <= k <= snd (bounds limit))%N /\
    repeats (fun w => mval X lk m w c) k w w1 /\
    ((k = snd (bounds limit) /\ w2 = w1) \/ exists msg, mval X lk m w1 c = (Err (EMismatch msg), w2)).
Proof. exact map_occur_sound. Qed.
Theorem C23_too_few_rejected_partial : forall X lk limit m k w w1 c, (1 <= snd (bounds limit))%N ->
  repeats (fun w => aval X lk m w c) k w w1 -> (k < fst (bounds limit))%N -> (k < snd (bounds limit))%N ->
  (exists msg w2, aval X lk m w1 c = (Err (EMismatch msg), w2)) ->
  rejected (fst (aval X lk (NOccur limit m) w c)).
Proof.
  intros X lk limit m k w w1 c U R Lo Hi (msg & w2 & E).
  destruct (array_occur_greedy X lk limit m k w w1 w2 c U R) as (_ & _ & H); eauto.
Qed.
Example C23_example :
  aval demo_ext no_rules (NOccur (ONumbered 1 2) int_t) (wa_new [vi 1; vi 2; vi 3]) initial_ctx = (Ok tt, wa_new [vi 3]) /\
  repeats (fun w => aval demo_ext no_rules int_t w initial_ctx) 2 (wa_new [vi 1; vi 2; vi 3]) (wa_new [vi 3]) /\
  rejected (fst (aval demo_ext no_rules (NOccur (ONumbered 2 3) int_t) (wa_new [vi 1; vs "x"]) initial_ctx)).
Proof.
  split; [apply (aval_run _ _ 5); reflexivity|]. split.
  - change 2%N with (0 + 1 + 1)%N. apply (repeats_more _ _ _ (wa_new [vi 2; vi 3])); [|apply (aval_run _ _ 5); reflexivity].
    apply (repeats_more _ _ _ (wa_new [vi 1; vi 2; vi 3])); [constructor|apply (aval_run _ _ 5); reflexivity].
  - eexists. erewrite (aval_run _ _ 5); [|reflexivity]. reflexivity.
Qed.

(** ** C24.  [field_member f] is the member [k: t], [k => t], [? k: t] or [? k => t]. *)
Theorem C24_struct_map_exact : forall X lk c fs m,
  wf_value (VMap m) -> NoDup (map field_key fs) ->
  (forall f v, In f fs -> In (field_key f, v) m ->
     val X lk v (f_type f) c = Ok tt \/ rejected (val X lk v (f_type f) c)) ->
  decides ((forall f v, In f fs -> In (field_key f, v) m -> val X lk v (f_type f) c = Ok tt) /\
           (forall f, In f fs -> f_required f = true -> exists v, In (field_key f, v) m) /\
           (forall k v, In (k, v) m -> exists f, In f fs /\ k = field_key f))
    (val X lk (VMap m) (NMap (map field_member fs)) c).
Proof. intros X lk c fs m W. apply struct_map_exact, wf_keys_sorted; auto. Qed.
Theorem C24_not_a_map : forall X lk c ms v, (forall m, v <> VMap m) ->
  val X lk v (NMap ms) c = Err (EMismatch (txt "map")).
Proof. intros X lk c ms v. apply map_needs_map. Qed.
Example C24_example :
  let fs := [Field (LText (txt "a")) int_t true true; Field (LInt 7) tstr_t false true] in
  NoDup (map field_key fs) /\
  wf_value (VMap [(vi 7, vs "x"); (vs "a", vi 1)]) /\
  val demo_ext no_rules (VMap [(vi 7, vs "x"); (vs "a", vi 1)]) (NMap (map field_member fs)) initial_ctx = Ok tt /\
  val demo_ext no_rules (VMap [(vs "a", vi 1)]) (NMap (map field_member fs)) initial_ctx = Ok tt /\
  rejected (val demo_ext no_rules (VMap [(vi 7, vs "x")]) (NMap (map field_member fs)) initial_ctx) /\
  rejected (val demo_ext no_rules (VMap [(vs "a", vi 1); (vs "b", vi 1)]) (NMap (map field_member fs)) initial_ctx) /\
  rejected (val demo_ext no_rules (VMap [(vi 7, vi 8); (vs "a", vi 1)]) (NMap (map field_member fs)) initial_ctx).
Proof.
  cbn zeta. split; [repeat constructor; cbn; intuition discriminate|]. split; [wf|].
  split; [run 10|]. split; [run 10|]. split; [eexists; run 10|]. split; eexists; run 10.
Qed.

(** ** C25.  No assumption on the key type: a key on which it fails, even fatally,
    counts as not accepted. *)
Theorem C25_table_map_exact : forall X lk c key t cut limit m,
  wf_value (VMap m) -> (1 <= snd (bounds limit))%N ->
  (forall k v, In (k, v) m -> val X lk k key c = Ok tt -> val X lk v t c = Ok tt \/ rejected (val X lk v t c)) ->
  decides ((forall k v, In (k, v) m -> val X lk k key c = Ok tt /\ val X lk v t c = Ok tt) /\
           (fst (bounds limit) <= N.of_nat (List.length m) <= snd (bounds limit))%N)
    (val X lk (VMap m) (NMap [NOccur limit (NKeyValue key t cut)]) c).
Proof. intros X lk c key t cut limit m W. apply table_map_exact, wf_keys_sorted; auto. Qed.
Example C25_example :
  let nd := NMap [NOccur OZeroOrMore (NKeyValue tstr_t int_t false)] in
  wf_value (VMap [(vs "a", vi 1); (vs "b", vi 2)]) /\
  val demo_ext no_rules (VMap [(vs "a", vi 1); (vs "b", vi 2)]) nd initial_ctx = Ok tt /\
  rejected (val demo_ext no_rules (VMap [(vi 1, vi 1); (vs "b", vi 2)]) nd initial_ctx) /\
  rejected (val demo_ext no_rules (VMap [(vs "a", vi 1); (vs "b", vs "c")]) nd initial_ctx).
Proof. cbn zeta. split; [wf|]. split; [run 10|]. split; eexists; run 10. Qed.

(** ** C26 *)
(** The entry a key-value member takes is the first one in key order with an accepted key. *)
Theorem C26_key_found : forall X lk c key m s k v, map_ok (WM m s) ->
  (map_key X lk key (WM m s) c = Ok (k, v) <->
   exists pre post, m = pre ++ (k, v) :: post /\ val X lk k key c = Ok tt /\
     forall x, In x pre -> val X lk (fst x) key c <> Ok tt).
Proof. exact map_key_first. Qed.
(** Wherever the matching of a map member arrives at a cut member (through occurrences,
    choices, names, unwrapping; not through a parenthesised group) whose key is there
    and whose value mismatches, the whole map is rejected with that mismatch. *)
Theorem C26_cut_is_final : forall X lk m0 pre m post c w key t w' c' k v msg,
  wf_value (VMap m0) ->
  runs (fun m w => mval X lk m w c) pre (wm_new m0) w ->
  reaches_in_map X lk (TM m w c) (TM (NKeyValue key t true) w' c') ->
  map_key X lk key w' c' = Ok (k, v) -> val X lk v t c' = Err (EMismatch msg) ->
  val X lk (VMap m0) (NMap (pre ++ m :: post)) c = Err (EMismatch msg).
Proof. intros X lk m0 pre m post c w key t w' c' k v msg W. apply cut_is_final, wf_keys_sorted; auto. Qed.
(** A parenthesised group turns a cut into an ordinary mismatch. *)
Theorem C26_group_stops_cut : forall X lk ms w c m, fst (mval X lk (NGroup ms) w c) <> Err (EMapCut m).
Proof. exact group_stops_cut. Qed.
(** Struct fields followed by a table.  A field that is required or has a cut must
    accept the entry with its key; an optional field without cut lets the entry pass on
    to the table. *)
Theorem C26_extensible_map_exact : forall X lk c fs key t cut limit m,
  wf_value (VMap m) -> NoDup (map field_key fs) -> (1 <= snd (bounds limit))%N ->
  (forall f v, In f fs -> In (field_key f, v) m ->
     val X lk v (f_type f) c = Ok tt \/ rejected (val X lk v (f_type f) c)) ->
  (forall k v, In (k, v) m -> val X lk k key c = Ok tt -> val X lk v t c = Ok tt \/ rejected (val X lk v t c)) ->
  decides
    ((forall f, In f fs -> f_required f = true -> exists v, In (field_key f, v) m) /\
     (forall f v, In f fs -> In (field_key f, v) m -> f_required f = true \/ f_cut f = true -> val X lk v (f_type f) c = Ok tt) /\
     exists rest, sorted rest /\
       (forall x, In x rest <-> In x m /\ ~ exists f, In f fs /\ fst x = field_key f /\ val X lk (snd x) (f_type f) c = Ok tt) /\
       (forall k v, In (k, v) rest -> val X lk k key c = Ok tt /\ val X lk v t c = Ok tt) /\
       (fst (bounds limit) <= N.of_nat (List.length rest) <= snd (bounds limit))%N)
    (val X lk (VMap m) (NMap (map field_member fs ++ [NOccur limit (NKeyValue key t cut)])) c).
Proof. intros X lk c fs key t cut limit m W. apply extensible_map_exact, wf_keys_sorted; auto. Qed.
Example C26_example :
  let table := NOccur OZeroOrMore (NKeyValue tstr_t any_t false) in
  let nd cut := NMap [NOccur OOptional (NKeyValue (lit_s "a") int_t cut); table] in
  let v := VMap [(vs "a", vs "x")] in
  wf_value v /\ val demo_ext no_rules v (nd false) initial_ctx = Ok tt /\
  rejected (val demo_ext no_rules v (nd true) initial_ctx) /\
  val demo_ext no_rules v (NMap [NOccur OOptional (NGroup [NKeyValue (lit_s "a") int_t true]); table]) initial_ctx = Ok tt.
Proof. cbn zeta. split; [wf|]. split; [run 10|]. split; [eexists; run 10|run 10]. Qed.
Example C26_reach_example :
  let m := NChoice [NKeyValue (lit_s "b") int_t true; NOccur OOptional (NKeyValue (lit_s "a") int_t true)] in
  let w := wm_new [(vs "a", vs "x")] in
  reaches_in_map demo_ext no_rules (TM m w initial_ctx) (TM (NKeyValue (lit_s "a") int_t true) w initial_ctx) /\
  map_key demo_ext no_rules (lit_s "a") w initial_ctx = Ok (vs "a", vs "x") /\
  rejected (val demo_ext no_rules (vs "x") int_t initial_ctx).
Proof.
  cbn zeta. split; [|split; [reflexivity|eexists; run 5]].
  apply Relation_Operators.rt1n_trans with
    (TM (NOccur OOptional (NKeyValue (lit_s "a") int_t true)) (wm_new [(vs "a", vs "x")]) initial_ctx).
  { split; [|reflexivity]. apply (next_m_choice _ _ _ [NKeyValue (lit_s "b") int_t true]).
    econstructor; [apply (mval_run _ _ 5); reflexivity|constructor]. }
  eapply Relation_Operators.rt1n_trans; [|constructor].
  split; [|reflexivity]. eapply (next_m_occur _ _ _ _ _ _ _ 0%N); [constructor|auto].
Qed.

(** ** C27.  [element_type] / [entry_type]: the types written in the schema at the
    positions of array elements / map entries of this array or map. *)
Theorem C27_array_consumed : forall X lk c ms a, val X lk (VArray a) (NArray ms) c = Ok tt ->
  forall x, In x a -> exists c' t, element_type lk c ms c' t /\ val X lk x t c' = Ok tt.
Proof. exact array_consumed. Qed.
Theorem C27_map_consumed : forall X lk c ms m, wf_value (VMap m) -> val X lk (VMap m) (NMap ms) c = Ok tt ->
  forall k v, In (k, v) m -> exists c' key t, entry_type lk c ms c' key t /\
    val X lk k key c' = Ok tt /\ val X lk v t c' = Ok tt.
Proof.
  intros X lk c ms m W E k v I. exact (map_consumed X lk c ms m (wf_keys_sorted _ W) E (k, v) I).
Qed.
Example C27_example :
  val demo_ext no_rules (VArray [vi 1; vs "x"]) (NArray [NGroup [int_t; NOccur OZeroOrMore tstr_t]]) initial_ctx = Ok tt /\
  val demo_ext no_rules (VMap [(vs "a", vi 1)]) (NMap [NGroup [NKeyValue tstr_t int_t false]]) initial_ctx = Ok tt.
Proof. split; run 10. Qed.

(** ** C28: false when a parenthesised group among the members succeeded before the
    failure: [ [((int, int), tstr) // bool] ] accepts [1, 2, true]. *)
Theorem C28_refuted : exists g1 g2, forall X lk c,
  rejected (val X lk (VArray [VInteger 1; VInteger 2; VBool true]) (NArray [g1]) c) /\
  rejected (val X lk (VArray [VInteger 1; VInteger 2; VBool true]) (NArray [g2]) c) /\
  val X lk (VArray [VInteger 1; VInteger 2; VBool true]) (NArray [NChoice [g1; g2]]) c = Ok tt.
Proof.
  exists (NGroup [NGroup [int_t; int_t]; tstr_t]), (NGroup [bool_t]). intros X lk c.
  split; [eexists; apply (val_run _ _ 8); reflexivity|]. split; [eexists; apply (val_run _ _ 8); reflexivity|].
  apply (val_run _ _ 8). reflexivity.
Qed.
(** It is also false for an unwrapped array ([~a]) and for an occurrence that comes too short. *)
Theorem C28_unwrap_refuted : exists rs g1 g2 v, forall X,
  rejected (val X (basic_context rs) v (NArray [g1]) initial_ctx) /\
  rejected (val X (basic_context rs) v (NArray [g2]) initial_ctx) /\
  val X (basic_context rs) v (NArray [NChoice [g1; g2]]) initial_ctx = Ok tt.
Proof.
  exists [(txt "a", RuleDef [] (NArray [int_t; tstr_t]))], (NUnwrap (txt "a") []), int_t, (VArray [VInteger 1; VInteger 2]).
  intros X. split; [eexists; apply (val_run _ _ 8); reflexivity|]. split; [eexists; apply (val_run _ _ 8); reflexivity|].
  apply (val_run _ _ 8). reflexivity.
Qed.
Theorem C28_occurrence_refuted : exists g1 g2 v, forall X lk c,
  rejected (val X lk v (NArray [g1]) c) /\ rejected (val X lk v (NArray [g2]) c) /\
  val X lk v (NArray [NChoice [g1; g2]]) c = Ok tt.
Proof.
  exists (NOccur (ONumbered 2 3) int_t), tstr_t, (VArray [VInteger 1; VText (txt "x")]).
  intros X lk c. split; [eexists; apply (val_run _ _ 8); reflexivity|]. split; [eexists; apply (val_run _ _ 8); reflexivity|].
  apply (val_run _ _ 8). reflexivity.
Qed.
Theorem C28_map_refuted : exists g1 g2 m, forall X lk c, wf_value (VMap m) /\
  rejected (val X lk (VMap m) (NMap [g1]) c) /\ rejected (val X lk (VMap m) (NMap [g2]) c) /\
  val X lk (VMap m) (NMap [NChoice [g1; g2]]) c = Ok tt.
Proof.
  exists (NGroup [NGroup [NKeyValue (lit_i 1) int_t true]; NKeyValue (lit_i 3) int_t true]),
    (NGroup [NKeyValue (lit_i 2) int_t true]), [(vi 1, vi 1); (vi 2, vi 2)].
  intros X lk c. split; [wf|]. split; [eexists; apply (val_run _ _ 8); reflexivity|].
  split; [eexists; apply (val_run _ _ 8); reflexivity|]. apply (val_run _ _ 8). reflexivity.
Qed.
(** It holds for groups with no further parenthesised group at member positions
    (through names, choices, occurrences, unwraps). *)
Theorem C28_flat_group_array_partial : forall X lk c ms w e w',
  (forall c' gs, ~ array_pos lk c ms c' (NGroup gs)) ->
  aval X lk (NGroup ms) w c = (Err e, w') -> w' = w.
Proof. exact flat_group_restores_array. Qed.
Theorem C28_flat_group_map_partial : forall X lk c ms w e w', sorted (wm_map w) ->
  (forall c' gs, ~ map_pos lk c ms c' (NGroup gs)) ->
  mval X lk (NGroup ms) w c = (Err e, w') -> w' = w.
Proof. exact flat_group_restores_map. Qed.
Example C28_example :
  let ms := [int_t; NOccur OZeroOrMore int_t; tstr_t] in
  (forall c' gs, ~ array_pos no_rules initial_ctx ms c' (NGroup gs)) /\
  exists e, aval demo_ext no_rules (NGroup ms) (wa_new [vi 1; vi 2; VNull]) initial_ctx = (Err e, wa_new [vi 1; vi 2; VNull]).
Proof.
  cbn zeta. split; [|eexists; apply (aval_run _ _ 8); reflexivity].
  assert (G : forall c m, array_pos no_rules initial_ctx [int_t; NOccur OZeroOrMore int_t; tstr_t] c m ->
     m = int_t \/ m = NOccur OZeroOrMore int_t \/ m = tstr_t).
  { induction 1 as [m H|c name args nd' c' H IH|c name args ms c' m H IH|c lim m H IH|c os m H IH|c ms m H IH];
      [cbn in H; intuition| | | | |]; destruct IH as [E|[E|E]]; inversion E; subst; auto. }
  intros c gs H. apply G in H. destruct H as [E|[E|E]]; discriminate.
Qed.
Example C28_map_example :
  let ms := [NKeyValue (lit_i 1) int_t true; NKeyValue (lit_i 3) int_t true] in
  (forall c' gs, ~ map_pos no_rules initial_ctx ms c' (NGroup gs)) /\
  exists e, mval demo_ext no_rules (NGroup ms) (wm_new [(vi 1, vi 1); (vi 2, vi 2)]) initial_ctx
    = (Err e, wm_new [(vi 1, vi 1); (vi 2, vi 2)]).
Proof.
  cbn zeta. split; [|eexists; apply (mval_run _ _ 8); reflexivity].
  assert (G : forall c m, map_pos no_rules initial_ctx [NKeyValue (lit_i 1) int_t true; NKeyValue (lit_i 3) int_t true] c m ->
     exists k v b, m = NKeyValue k v b).
  { apply (map_pos_mind _ _ _ (fun c m => exists k v b, m = NKeyValue k v b) (fun _ _ _ => False)); try contradiction;
      try (intros; match goal with H : exists _, _ |- _ => destruct H as (? & ? & ? & ?); discriminate end).
    intros m [<-|[<-|[]]]; eauto. }
  intros c gs H. apply G in H. destruct H as (? & ? & ? & H). discriminate.
Qed.

(** ** C31: false.  [{ ? missing => int, * tstr => any }] accepts {"a": 1} although
    testing the key against [missing] is an error. *)
Theorem C31_refuted : exists nd m, forall X,
  val X no_rules (VText (txt "a")) (name_ "missing") initial_ctx = Err (EMissingRule (txt "missing")) /\
  nd = NMap [NOccur OOptional (NKeyValue (name_ "missing") int_t false); NOccur OZeroOrMore (NKeyValue tstr_t any_t false)] /\
  m = [(VText (txt "a"), VInteger 1)] /\
  val X no_rules (VMap m) nd initial_ctx = Ok tt.
Proof.
  do 2 eexists. intros X. split; [apply (val_run _ _ 5); reflexivity|]. split; [reflexivity|]. split; [reflexivity|].
  apply (val_run _ _ 8). reflexivity.
Qed.
(** What holds instead: errors raised while testing a key make that key not match and
    have no other effect (this is the whole dependence of a member on its key type). *)
Theorem C31_key_errors_are_mismatches_partial : forall X lk c key m s, map_ok (WM m s) ->
  (exists k v, map_key X lk key (WM m s) c = Ok (k, v) /\ In (k, v) m /\ val X lk k key c = Ok tt) \/
  ((exists msg, map_key X lk key (WM m s) c = Err (EMismatch msg)) /\ forall x, In x m -> val X lk (fst x) key c <> Ok tt).
Proof.
  intros X lk c key m s O. destruct (map_key_cases X lk c key m s O) as [H|(msg & E & N)]; [left; exact H|].
  right. split; [exists msg; exact E|exact N].
Qed.
Example C31_example : map_ok (WM [(vs "a", vi 1); (vs "b", vi 2)] []) /\
  map_key demo_ext no_rules tstr_t (WM [(vs "a", vi 1); (vs "b", vi 2)] []) initial_ctx = Ok (vs "a", vi 1).
Proof.
  split; [apply keys_map_ok, wf_keys_sorted; wf|]. apply map_key_first; [apply keys_map_ok, wf_keys_sorted; wf|].
  exists [], [(vs "b", vi 2)]. split; [auto|]. split; [apply (val_run _ _ 5); reflexivity|intros x []].
Qed.

Print Assumptions C21_fixed_array_exact.
Print Assumptions C21_first_error_reported.
Print Assumptions C21_too_short.
Print Assumptions C21_too_long.
Print Assumptions C21_not_an_array.
Print Assumptions C22_homogeneous_array_exact.
Print Assumptions C22_prefix_array_exact.
Print Assumptions C22_limits.
Print Assumptions C23_refuted.
Print Assumptions C23_array_bounds_partial.
Print Assumptions C23_map_bounds_partial.
Print Assumptions C23_too_few_rejected_partial.
Print Assumptions C24_struct_map_exact.
Print Assumptions C24_not_a_map.
Print Assumptions C25_table_map_exact.
Print Assumptions C26_key_found.
Print Assumptions C26_cut_is_final.
Print Assumptions C26_group_stops_cut.
Print Assumptions C26_extensible_map_exact.
Print Assumptions C27_array_consumed.
Print Assumptions C27_map_consumed.
Print Assumptions C28_refuted.
Print Assumptions C28_unwrap_refuted.
Print Assumptions C28_occurrence_refuted.
Print Assumptions C28_map_refuted.
Print Assumptions C28_flat_group_array_partial.
Print Assumptions C28_flat_group_map_partial.
Print Assumptions C31_refuted.
Print Assumptions C31_key_errors_are_mismatches_partial.
