(** The meaning of schemas: C29, C30. *)
From Coq Require Import List Bool ZArith NArith String Lia Permutation.
From Verif Require Import Base Util Data Value Convert Ivt Scalar Validate Total Fun SpecBase SpecCtx SpecPos
  SpecVerdict ValueOrder ConvertProofs CtxProofs ScalarProofs SpecJudge JudgeProofs SpecPeg PegProofs PegExact PegTame TameCheck Demo PropsData.
Import ListNotations.
Open Scope list_scope.

(** ** C30.  On tame schemas the verdict is the one of the ordered-choice reading,
    for acceptance, mismatch and every kind of schema error. *)
Theorem C30_ordered_choice_partial : forall X lk v def o,
  (forall name e, lk name = inr e -> is_fatal e = true) -> wf_value v -> rd_parms def = [] ->
  tame lk initial_ctx (rd_node def) ->
  (peg X lk (QType initial_ctx (rd_node def) v) o <-> verdict (run_validate X lk v def) = Some o).
Proof.
  intros X lk v def o Hl W P T. rewrite run_validate_val by auto.
  apply peg_exact; auto. apply wf_keys_sorted; auto.
Qed.
(** The ordered-choice reading itself gives at most one answer to any question. *)
Theorem C30_reading_deterministic : forall X lk q o1 o2, peg X lk q o1 -> peg X lk q o2 -> o1 = o2.
Proof. intros. eapply peg_det; eauto. Qed.

(** ** C29.  On tame schemas accepted values are described by the schema. *)
Theorem C29_soundness_partial : forall X lk v def,
  (forall name e, lk name = inr e -> is_fatal e = true) -> wf_value v -> rd_parms def = [] ->
  tame lk initial_ctx (rd_node def) ->
  run_validate X lk v def = Ok tt -> means X lk initial_ctx (rd_node def) (AValue v).
Proof.
  intros X lk v def Hl W P T E. rewrite run_validate_val in E by auto.
  eapply tame_sound; eauto. apply wf_keys_sorted; auto.
Qed.
(** The ordered-choice reading never accepts more than the declarative one, for any schema. *)
Theorem C29_ordered_choice_sound : forall X lk c t v,
  wf_value v -> peg X lk (QType c t v) Yes -> means X lk c t (AValue v).
Proof. intros X lk c t v W. apply peg_sound. apply wf_keys_sorted; auto. Qed.

(** ** Outside the class both are false: [ [((int, int), tstr) // bool] ] accepts [1, 2, true]. *)
Definition untame_schema := NArray [NChoice [NGroup [NGroup [int_t; int_t]; tstr_t]; NGroup [bool_t]]].
Lemma means_array_inv X lk c ms v : means X lk c (NArray ms) (AValue v) ->
  exists parts, v = VArray (List.concat parts) /\ Forall2 (fun m a => means X lk c m (AList a)) ms parts.
Proof. intros M; inversion M; subst; try discriminate; try no_leaf; eauto. Qed.
Lemma means_choice_inv X lk c ms a : means X lk c (NChoice ms) (AList a) -> exists m, In m ms /\ means X lk c m (AList a).
Proof. intros M; inversion M; subst; try discriminate; try no_leaf; eauto. Qed.
Lemma means_group_inv X lk c ms a : means X lk c (NGroup ms) (AList a) ->
  exists parts, a = List.concat parts /\ Forall2 (fun m a => means X lk c m (AList a)) ms parts.
Proof. intros M; inversion M; subst; try discriminate; try no_leaf; eauto. Qed.
Lemma means_prelude_inv X lk c p a : means X lk c (NPrelude p) (AList a) ->
  exists v, a = [v] /\ val X lk v (NPrelude p) c = Ok tt.
Proof.
  intros M; inversion M; subst; try discriminate.
  match goal with H : element_of _ = Some _ |- _ => inversion H; subst end.
  all: match goal with H : means _ _ _ _ (AValue _) |- _ => inversion H; subst; eauto using judges_ok; discriminate end.
Qed.
Theorem C29_refuted : exists v, wf_value v /\ forall X lk c,
  val X lk v untame_schema c = Ok tt /\ ~ means X lk c untame_schema (AValue v).
Proof.
  exists (VArray [vi 1; vi 2; VBool true]). split; [wf|]. intros X lk c. split; [apply (val_run _ _ 8); reflexivity|].
  intros M. apply means_array_inv in M. destruct M as (parts & Q & F).
  inversion F as [|m a ms' parts' Hm F']; subst. inversion F'; subst. cbn in Q. rewrite app_nil_r in Q. inversion Q; subst a.
  apply means_choice_inv in Hm. destruct Hm as (m & [<-|[<-|[]]] & Mt); apply means_group_inv in Mt; destruct Mt as (ps & Q3 & F3).
  - inversion F3 as [|m1 a1 ? ps1 G1 F4]; subst. inversion F4 as [|m2 a2 ? ps2 G2 F5]; subst. inversion F5; subst.
    cbn in Q3. rewrite app_nil_r in Q3. apply means_prelude_inv in G2. destruct G2 as (v2 & -> & V2).
    destruct a1 as [|x1 [|x2 [|x3 a1]]]; cbn in Q3; inversion Q3; subst; try (destruct a1; discriminate).
    rewrite val_eq in V2. cbn in V2. discriminate.
  - inversion F3 as [|m1 a1 ? ps1 G1 F4]; subst. inversion F4; subst.
    cbn in Q3. rewrite app_nil_r in Q3. subst. apply means_prelude_inv in G1. destruct G1 as (v2 & Q4 & _). discriminate.
Qed.
Theorem C30_refuted : exists v, wf_value v /\ forall X lk c,
  val X lk v untame_schema c = Ok tt /\ peg X lk (QType c untame_schema v) No.
Proof.
  exists (VArray [vi 1; vi 2; VBool true]). split; [wf|]. intros X lk c. split; [apply (val_run _ _ 8); reflexivity|].
  assert (prelude_peg : forall p v o, verdict (validate_prelude_type p v) = Some o -> peg X lk (QType c (NPrelude p) v) o).
  { intros p v o V. pose proof (prelude_decides X lk p v c) as D. rewrite val_eq in D.
    destruct D as [D|m D]; inversion V; subst; [apply (t_leaf X lk c _ _ Good)|apply (t_leaf X lk c _ _ (Poor (type_name p)))]; constructor; constructor; auto. }
  assert (El : forall p v a o, verdict (validate_prelude_type p v) = Some o -> peg X lk (QArr c (NPrelude p) (v :: a)) (take a o)).
  { intros p v a o V. apply a_element with (t := NPrelude p); auto. }
  apply (t_array X lk c _ _ No). apply seqa_stop with (o := No); [|discriminate]. apply a_choice. cbn [map].
  apply any_next; [|apply any_next; [|apply any_none]]; apply a_group.
  - apply seqa_cons with (a' := [VBool true]).
    + apply a_group. apply seqa_cons with (a' := [vi 2; VBool true]); [exact (El PInt (vi 1) _ Yes eq_refl)|].
      apply seqa_cons with (a' := [VBool true]); [exact (El PInt (vi 2) _ Yes eq_refl)|apply seqa_nil].
    + apply seqa_stop with (o := No); [|discriminate]. exact (El PTstr (VBool true) _ No eq_refl).
  - apply seqa_stop with (o := No); [|discriminate]. exact (El PBool (vi 1) _ No eq_refl).
Qed.

(** ** The class can be checked by computation. *)
Lemma basic_fatal rs name e : basic_context rs name = inr e -> is_fatal e = true.
Proof. unfold basic_context. destruct (rules_get rs name); [discriminate|]. intros [= <-]. reflexivity. Qed.
Theorem C30_checked_partial : forall X rs v def o n,
  wf_value v -> rd_parms def = [] -> tame_b rs n (rd_node def) = true ->
  (peg X (basic_context rs) (QType initial_ctx (rd_node def) v) o <->
   verdict (run_validate X (basic_context rs) v def) = Some o).
Proof.
  intros. apply C30_ordered_choice_partial; auto; [apply basic_fatal|]. eapply tame_b_tame; eauto.
Qed.
Theorem C29_checked_partial : forall X rs v def n,
  wf_value v -> rd_parms def = [] -> tame_b rs n (rd_node def) = true ->
  run_validate X (basic_context rs) v def = Ok tt -> means X (basic_context rs) initial_ctx (rd_node def) (AValue v).
Proof.
  intros. eapply C29_soundness_partial; eauto; [apply basic_fatal|]. eapply tame_b_tame; eauto.
Qed.

(** A schema with recursion, generics, group rules, occurrences, group choices,
    cuts, unwrapping and [&]:
    [tree<t> = [value: t, * tree<t>]
     header = (version: 1 / 2, ? note: tstr)
     point = {x: int, y: int}
     colors = (red: 0, green: 1)
     doc = {header, shape: tree<opt<point>>, (inline: int // ref: tstr), * tstr => any}
     row = [&colors, * (int, tstr) / bool, ~pair]] *)
Definition rules_doc : rules :=
  [ (txt "tree", RuleDef [txt "t"] (NArray [NKeyValue (lit_s "value") (name_ "t") true;
       NOccur OZeroOrMore (NRule (txt "tree") [name_ "t"])]));
    (txt "opt", RuleDef [txt "t"] (NChoice [name_ "t"; NPrelude PNil]));
    (txt "header", RuleDef [] (NGroup [NKeyValue (lit_s "version") (NChoice [lit_i 1; lit_i 2]) true;
       NOccur OOptional (NKeyValue (lit_s "note") tstr_t true)]));
    (txt "point", RuleDef [] (NMap [NKeyValue (lit_s "x") int_t true; NKeyValue (lit_s "y") int_t true]));
    (txt "colors", RuleDef [] (NGroup [NKeyValue (lit_s "red") (lit_i 0) true; NKeyValue (lit_s "green") (lit_i 1) true]));
    (txt "pair", RuleDef [] (NArray [int_t; int_t]));
    (txt "row", RuleDef [] (NArray [NChoiceify (txt "colors") [];
       NOccur OZeroOrMore (NChoice [NGroup [int_t; tstr_t]; bool_t]); NUnwrap (txt "pair") []])) ].
Definition doc : rule_def := RuleDef [] (NMap [name_ "header";
  NKeyValue (lit_s "shape") (NRule (txt "tree") [NRule (txt "opt") [name_ "point"]]) true;
  NChoice [NGroup [NKeyValue (lit_s "inline") int_t true]; NGroup [NKeyValue (lit_s "ref") tstr_t true]];
  NOccur OZeroOrMore (NKeyValue tstr_t (name_ "row") false)]).
Definition doc_value : value := VMap
  [ (vs "a", VArray [vi 1; vi 7; vs "seven"; VBool true; vi 3; vi 4]); (vs "ref", vs "r");
    (vs "shape", VArray [VNull; VArray [VMap [(vs "x", vi 1); (vs "y", vi 2)]]]); (vs "version", vi 2) ].
Example C29_C30_example :
  tame_b rules_doc 20 (rd_node doc) = true /\ wf_value doc_value /\
  run_validate demo_ext (basic_context rules_doc) doc_value doc = Ok tt /\
  means demo_ext (basic_context rules_doc) initial_ctx (rd_node doc) (AValue doc_value) /\
  peg demo_ext (basic_context rules_doc) (QType initial_ctx (rd_node doc) doc_value) Yes /\
  peg demo_ext (basic_context rules_doc) (QType initial_ctx (rd_node doc) (VMap [(vs "version", vi 3)])) No.
Proof.
  assert (T : tame_b rules_doc 20 (rd_node doc) = true) by (vm_compute; reflexivity).
  assert (W : wf_value doc_value) by wf.
  assert (R : run_validate demo_ext (basic_context rules_doc) doc_value doc = Ok tt) by (apply (run_validate_run _ _ 40); vm_compute; reflexivity).
  split; auto. split; auto. split; auto. split; [eapply C29_checked_partial; eauto|]. split.
  - eapply C30_checked_partial; eauto. rewrite R. reflexivity.
  - eapply C30_checked_partial; eauto; [wf|].
    erewrite (run_validate_run _ _ 40); [|vm_compute; reflexivity]. reflexivity.
Qed.

Print Assumptions C30_ordered_choice_partial.
Print Assumptions C30_reading_deterministic.
Print Assumptions C29_soundness_partial.
Print Assumptions C29_ordered_choice_sound.
Print Assumptions C29_refuted.
Print Assumptions C30_refuted.
Print Assumptions C30_checked_partial.
Print Assumptions C29_checked_partial.
