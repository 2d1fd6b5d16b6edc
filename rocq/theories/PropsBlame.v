(** What a reported mismatch is about: C65. *)
From Coq Require Import List Bool ZArith NArith String Lia.
From Verif Require Import Base Util Data Value Convert Ivt Scalar Validate Total Fun SpecBase SpecScalar SpecReach SpecPeg
  ConvertProofs ConvertExact CtxProofs Ast Flatten Parser Api SpecBlame BlameProofs Demo PropsFlatten PropsNames.
Import ListNotations.
Open Scope list_scope.

(** ** C65.  A mismatch comes from one node of the schema that is not met by one
    part of the data, and the text says which and how; every step from the
    document down to that part is reported with the same text. *)
Theorem C65_mismatch_explained : forall X lk v def m, (forall name e, lk name = inr e -> is_fatal e = true) ->
  run_validate X lk v def = Err (EMismatch m) -> blamed X lk (TV v (rd_node def) initial_ctx) m.
Proof.
  intros X lk v def m Hlk H. unfold run_validate in H. destruct (rd_parms def); [|discriminate].
  destruct (val_spec X lk v (rd_node def) initial_ctx) as (n & E). rewrite H in E.
  destruct (all_blames X lk Hlk n) as (IV & _). destruct (IV _ _ _ _ E eq_refl) as (m' & [= <-] & B). exact B.
Qed.
Lemma basic_fatal rs name e : basic_context rs name = inr e -> is_fatal e = true.
Proof. unfold basic_context. destruct (rules_get rs name); intros [= <-]; reflexivity. Qed.
Lemma flatten_no_mismatch X s m : flatten_from_str X s <> Err (EMismatch m).
Proof.
  unfold flatten_from_str. destruct (parse_cddl X s) as [[c|e]|]; cbn; try discriminate.
  pose proof (C40_errors X c) as C. destruct (flatten X c) as [rs|e|]; try discriminate.
  destruct C as [(x & ->)|[(x & ->)| -> ]]; discriminate.
Qed.

(** Through the entry points that take texts. *)
Theorem C65_json : forall X name schema data m, validate_json_str X name schema data = Err (EMismatch m) ->
  exists rs def j v, flatten_from_str X schema = Ok rs /\ rules_get rs name = Some def /\
    json_decode X data = inl j /\ of_json j = Ok v /\
    blamed X (basic_context rs) (TV v (rd_node def) initial_ctx) m.
Proof.
  intros X name schema data m H. unfold validate_json_str in H.
  destruct (flatten_from_str X schema) as [rs|e|] eqn:F; cbn in H; try discriminate; [|exfalso; inversion H; subst; eapply flatten_no_mismatch; exact F].
  unfold get_rule in H. destruct (rules_get rs name) as [def|] eqn:G; cbn in H; [|discriminate].
  destruct (json_decode X data) as [j|e] eqn:D; [|discriminate].
  destruct (of_json j) as [v|e|] eqn:O; cbn in H; try discriminate.
  - exists rs, def, j, v. repeat split; auto. apply C65_mismatch_explained; auto. apply basic_fatal.
  - exfalso. destruct (of_json_exact j) as (v & Q & _). congruence.
Qed.
Theorem C65_cbor : forall X name schema data m, validate_cbor_bytes X name schema data = Err (EMismatch m) ->
  exists rs def j v, flatten_from_str X schema = Ok rs /\ rules_get rs name = Some def /\
    cbor_decode X data = inl j /\ of_cbor j = Ok v /\
    blamed X (basic_context rs) (TV v (rd_node def) initial_ctx) m.
Proof.
  intros X name schema data m H. unfold validate_cbor_bytes in H.
  destruct (flatten_from_str X schema) as [rs|e|] eqn:F; cbn in H; try discriminate; [|exfalso; inversion H; subst; eapply flatten_no_mismatch; exact F].
  unfold get_rule in H. destruct (rules_get rs name) as [def|] eqn:G; cbn in H; [|discriminate].
  destruct (cbor_decode X data) as [j|e] eqn:D; [|discriminate].
  destruct (of_cbor j) as [v|e|] eqn:O; cbn in H; try discriminate.
  - exists rs, def, j, v. repeat split; auto. apply C65_mismatch_explained; auto. apply basic_fatal.
  - exfalso. destruct (of_cbor_spec j) as [(v & Q & _)|(x & Q)]; congruence.
Qed.

(** [{x: [* int .lt 10], y: (a: nint .le -5)}]: three documents, three reports.  The
    first one blames the end of an array two levels down (an element that is not
    below 10 ends the repetition); the last one names the wrong operator. *)
Definition doc_blame : rule_def := RuleDef []
  (NMap [NKeyValue (lit_s "x") (NArray [NOccur OZeroOrMore (NControl (CtlLt int_t (lit_i 10)))]) true;
         NGroup [NKeyValue (lit_s "y") (NControl (CtlLe (NPrelude PNint) (lit_i (-5)))) true]]).
Definition blame_doc (x : list value) (y : value) : value := VMap [(vs "x", VArray x); (vs "y", y)].
Example ex_C65 :
  run_validate demo_ext (basic_context []) (blame_doc [vi 1; vi 2; vi 30] (vi (-7))) doc_blame = Err (EMismatch (txt "shorter array")) /\
  run_validate demo_ext (basic_context []) (blame_doc [vi 1; vi 2] (vi 7)) doc_blame = Err (EMismatch (txt "nint")) /\
  run_validate demo_ext (basic_context []) (blame_doc [vi 1; vi 2] (vi (-1))) doc_blame = Err (EMismatch (txt "nint over .lt limit")) /\
  (exists c, complains demo_ext (basic_context []) (TV (vi (-1)) (NControl (CtlLe (NPrelude PNint) (lit_i (-5)))) c) (txt "nint over .lt limit")) /\
  blamed demo_ext (basic_context []) (TV (blame_doc [vi 1; vi 2; vi 30] (vi (-7))) (rd_node doc_blame) initial_ctx) (txt "shorter array").
Proof.
  assert (R : run_validate demo_ext (basic_context []) (blame_doc [vi 1; vi 2; vi 30] (vi (-7))) doc_blame = Err (EMismatch (txt "shorter array")))
    by (apply (run_validate_run _ _ 60); vm_compute; reflexivity).
  split; [exact R|]. split; [apply (run_validate_run _ _ 60); vm_compute; reflexivity|].
  split; [apply (run_validate_run _ _ 60); vm_compute; reflexivity|].
  split; [|apply (C65_mismatch_explained _ _ _ _ _ (basic_fatal _) R)].
  exists initial_ctx. apply (say_limit demo_ext (basic_context []) OpLe _ _ _ PNint _ (-5)%Z initial_ctx initial_ctx);
    [apply named_here; discriminate|cbn; tauto|apply named_here; discriminate|constructor; lia|cbn; lia].
Qed.

Print Assumptions C65_mismatch_explained.
Print Assumptions C65_json.
Print Assumptions C65_cbor.
