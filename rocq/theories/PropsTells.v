(** The reported error, text included: C71. *)
From Coq Require Import List Bool ZArith NArith String Lia.
From Verif Require Import Base Util Data Value Convert Ivt Scalar Validate Total Fun NoPanic MapProofs SpecBase SpecConvert SpecVerdict SpecPos SpecJudge SpecPeg
  ConvertProofs ConvertExact CtxProofs Ast Flatten Parser Api PegExact JudgeProofs Demo PropsData PropsMeaning SpecActs ActProofs PropsActs.
Import ListNotations.
Open Scope list_scope.

Definition error_reply (e : verror) : reply := match e with EMismatch m => Reject m | _ => Wrong e end.

(** ** C71.  The error that is reported, with its text, is the one that
    [SpecActs.acts] tells: it is settled by the schema and the data, and the
    specification writes every message in its own words. *)
Theorem C71_error_exact : forall X lk v def e,
  (forall name e, lk name = inr e -> is_fatal e = true) -> wf_value v -> rd_parms def = [] ->
  (acts X lk (AskType initial_ctx (rd_node def) v) (error_reply e) <-> run_validate X lk v def = Err e).
Proof.
  intros X lk v def e Hl W P. rewrite C66_exact by auto. rewrite run_validate_val by auto.
  destruct (val_spec X lk v (rd_node def) initial_ctx) as (n & E). pose proof (wf_keys_sorted _ W) as K.
  pose proof (proj1 (VC X lk Hl n) _ _ _ K _ E) as [N C].
  destruct (val X lk v (rd_node def) initial_ctx) as [[]|e'|]; [|specialize (C _ eq_refl)|congruence].
  - split; [|discriminate]. destruct e; discriminate.
  - split.
    + intros Q. f_equal. destruct e, e'; cbn in Q; try discriminate; try congruence; destruct (C expected0); auto.
    + intros [= ->]. destruct e; cbn; auto. destruct (C expected); auto.
Qed.
Theorem C71_json : forall X name schema data rs def j v e,
  flatten_from_str X schema = Ok rs -> rules_get rs name = Some def -> rd_parms def = [] ->
  json_decode X data = inl j -> wf_json j -> json_means j v ->
  (acts X (basic_context rs) (AskType initial_ctx (rd_node def) v) (error_reply e) <-> validate_json_str X name schema data = Err e).
Proof.
  intros X name schema data rs def j v e F G P D W M.
  destruct (of_json_exact j) as (v' & O & M'). assert (v' = v) as -> by (eapply json_means_unique; eauto).
  rewrite C71_error_exact; auto; [|apply basic_fatal|eapply wf_of_json; eauto].
  unfold validate_json_str. rewrite F. cbn. unfold get_rule. rewrite G. cbn. rewrite D, O. cbn. reflexivity.
Qed.
Theorem C71_cbor : forall X name schema data rs def j v e,
  flatten_from_str X schema = Ok rs -> rules_get rs name = Some def -> rd_parms def = [] ->
  cbor_decode X data = inl j -> wf_cbor j -> cbor_means j v ->
  (acts X (basic_context rs) (AskType initial_ctx (rd_node def) v) (error_reply e) <-> validate_cbor_bytes X name schema data = Err e).
Proof.
  intros X name schema data rs def j v e F G P D W M. apply of_cbor_exact in M.
  rewrite C71_error_exact; [|apply basic_fatal|eapply wf_of_cbor; [eauto|apply of_cbor_exact; exact M]|auto].
  unfold validate_cbor_bytes. rewrite F. cbn. unfold get_rule. rewrite G. cbn. rewrite D, M. cbn. reflexivity.
Qed.

(** A choice none of whose options accepts is reported as such, whatever the options
    would have reported. *)
Lemma any_message X lk none qs m : acts X lk (AskAny none qs) (Reject m) -> m = none.
Proof.
  revert m. induction qs as [|q qs IH]; intros m H; inversion H; subst; auto.
  exfalso. match goal with N : forall m, _ <> Reject m |- _ => eapply N; reflexivity end.
Qed.
Theorem C71_choice_message : forall X lk v def ts m,
  (forall name e, lk name = inr e -> is_fatal e = true) -> wf_value v -> rd_parms def = [] -> rd_node def = NChoice ts ->
  run_validate X lk v def = Err (EMismatch m) -> m = txt "choice of " ++ count_of ts.
Proof.
  intros X lk v def ts m Hl W P N E. apply C71_error_exact in E; auto. rewrite N in E. cbn in E.
  inversion E; subst; [destruct j; try discriminate; match goal with J : judges _ _ _ _ _ _ |- _ => apply judges_leaf in J; discriminate end|].
  eapply any_message; eauto.
Qed.

(** ** Non-vacuity: the messages of [+ int, (tstr / {1: int})] and others. *)
Example ex_C71 : let t := NArray [NOccur OOneOrMore int_t; NChoice [tstr_t; NMap [NKeyValue (lit_i 1) int_t true]]] in
  acts demo_ext no_rules (AskType initial_ctx t (VArray [])) (Reject (txt "more array element [+ Int]")) /\
  acts demo_ext no_rules (AskType initial_ctx t (VArray [vi 1; VMap [(vi 1, vs "x")]])) (Reject (txt "choice of 2")) /\
  acts demo_ext no_rules (AskType initial_ctx t (VArray [vi 1; vs "x"; vs "y"])) (Reject (txt "shorter array")) /\
  acts demo_ext no_rules (AskType initial_ctx (NMap [NKeyValue (lit_i 1) int_t true]) (VMap [(vi 1, vs "x")])) (Reject (txt "int")) /\
  acts demo_ext no_rules (AskType initial_ctx (NMap [name_ "no"]) (VMap [])) (Wrong (EMissingRule (txt "no"))).
Proof.
  cbn zeta. assert (Hl : forall name e, no_rules name = inr e -> is_fatal e = true) by (apply basic_fatal).
  assert (G : forall t v e, wf_value v -> validate demo_ext (lookup_rule no_rules) 20 v t initial_ctx = Some (Err e) ->
     acts demo_ext no_rules (AskType initial_ctx t v) (error_reply e)).
  { intros t v e W E. apply (C71_error_exact demo_ext no_rules v (RuleDef [] t)); auto.
    rewrite run_validate_val by auto. eapply val_run; eauto. }
  split; [|split; [|split; [|split]]].
  - apply (G _ _ (EMismatch (txt "more array element [+ Int]"))); [wf|reflexivity].
  - apply (G _ _ (EMismatch (txt "choice of 2"))); [wf|reflexivity].
  - apply (G _ _ (EMismatch (txt "shorter array"))); [wf|reflexivity].
  - apply (G _ _ (EMismatch (txt "int"))); [wf|reflexivity].
  - apply (G _ _ (EMissingRule (txt "no"))); [wf|reflexivity].
Qed.

Print Assumptions C71_error_exact.
Print Assumptions C71_json.
Print Assumptions C71_cbor.
Print Assumptions C71_choice_message.
