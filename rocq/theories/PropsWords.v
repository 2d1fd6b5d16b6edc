(** Errors are worded from the schema, never from the document: C72. *)
From Coq Require Import List Bool ZArith NArith String Lia.
From Verif Require Import Base Util Data Value Convert Ivt Scalar Validate Total Fun NoPanic MapProofs SpecBase SpecConvert SpecVerdict SpecPos SpecJudge SpecPeg
  ConvertProofs ConvertExact CtxProofs Ast Flatten Parser Api PegExact JudgeProofs Demo PropsData PropsMeaning SpecActs ActProofs PropsActs PropsTells SpecWords WordProofs.
Import ListNotations.
Open Scope list_scope.

(** ** C72.  Whatever the document, the error that is reported is one of a finite
    list computed from the schema alone; the only exception is what the CBOR decoder
    says about bytes within the document. *)
Theorem C72_errors_from_schema : forall X rs v def e,
  wf_value v -> run_validate X (basic_context rs) v def = Err e ->
  In e (schema_errors X rs (rd_node def)) \/ decoder_error X e.
Proof.
  intros X rs v def e W R. destruct (list_eq_dec (list_eq_dec N.eq_dec) (rd_parms def) []) as [P|P].
  - apply C71_error_exact in R; auto; [|apply basic_fatal].
    apply (acts_worded X rs (rd_node def)) in R; [|split; [apply within_initial|apply S_start]]. destruct e; exact R.
  - rewrite run_validate_generic in R by auto. inversion R. left. left. reflexivity.
Qed.
(** A mismatch, in particular, says nothing about the document. *)
Theorem C72_mismatch : forall X rs v def m,
  wf_value v -> run_validate X (basic_context rs) v def = Err (EMismatch m) ->
  In (EMismatch m) (schema_errors X rs (rd_node def)).
Proof.
  intros X rs v def m W R. apply C72_errors_from_schema in R as [R|(b & msg & _ & [=])]; auto.
Qed.
Theorem C72_json : forall X name schema data rs def j e,
  flatten_from_str X schema = Ok rs -> rules_get rs name = Some def -> json_decode X data = inl j -> wf_json j ->
  validate_json_str X name schema data = Err e ->
  In e (schema_errors X rs (rd_node def)) \/ decoder_error X e.
Proof.
  intros X name schema data rs def j e F G D W V.
  destruct (of_json_exact j) as (v & O & M). apply (C72_errors_from_schema X rs v); [eapply wf_of_json; eauto|].
  unfold validate_json_str in V. rewrite F in V. cbn in V. unfold get_rule in V. rewrite G in V. cbn in V. rewrite D, O in V. exact V.
Qed.
Theorem C72_cbor : forall X name schema data rs def j e,
  flatten_from_str X schema = Ok rs -> rules_get rs name = Some def -> cbor_decode X data = inl j -> wf_cbor j ->
  validate_cbor_bytes X name schema data = Err e ->
  In e (schema_errors X rs (rd_node def)) \/ decoder_error X e.
Proof.
  intros X name schema data rs def j e F G D W V.
  unfold validate_cbor_bytes in V. rewrite F in V. cbn in V. unfold get_rule in V. rewrite G in V. cbn in V. rewrite D in V.
  destruct (of_cbor j) as [v|e'|] eqn:O; cbn in V; [|injection V as <-|discriminate].
  - apply (C72_errors_from_schema X rs v); auto. eapply wf_of_cbor; eauto. apply of_cbor_exact; auto.
  - apply of_cbor_message in O as ->. left. unfold schema_errors, fixed_errors. apply in_or_app. left. right. rewrite !in_app_iff.
    right. right. right. left. reflexivity.
Qed.

(** ** Non-vacuity: what may be said of [{"pin": 1}]; no document can make it say
    anything else. *)
Definition pin : node := NMap [NKeyValue (lit_s "pin") (lit_i 1) true].
Example ex_C72 : let X := demo_ext in let def := RuleDef [] pin in let said v := run_validate X no_rules v def in
  said (VMap [(vs "pin", vs "1234")]) = Err (EMismatch (txt "1")) /\
  said (VMap [(vs "password", vs "secret")]) = Err (EMismatch (txt "map{""pin""}")) /\
  said (VMap [(vs "pin", vi 1); (vs "password", vs "secret")]) = Err (EMismatch (txt "shorter map")) /\
  schema_errors X [] pin = fixed_errors ++ flat_map (errors_about X) [pin; NKeyValue (lit_s "pin") (lit_i 1) true; lit_s "pin"; lit_i 1].
Proof.
  cbn zeta. assert (G : forall v e, validate demo_ext (lookup_rule no_rules) 20 v pin initial_ctx = Some (Err e) ->
     run_validate demo_ext no_rules v (RuleDef [] pin) = Err e).
  { intros v e E. rewrite run_validate_val by auto. eapply val_run; eauto. }
  split; [|split; [|split]]; [apply G; reflexivity..|reflexivity].
Qed.

Print Assumptions C72_errors_from_schema.
Print Assumptions C72_mismatch.
Print Assumptions C72_json.
Print Assumptions C72_cbor.
