(** From schema text and encoded data to the verdict: C58. *)
From Coq Require Import List Bool ZArith NArith String Lia.
From Verif Require Import Base Util Data Value Convert Ivt Validate Total Ast Flatten Fun ValueOrder ConvertProofs SpecConvert ConvertExact
  SpecBase SpecCtx SpecFlatten FlattenProofs FlattenSupported CtxProofs Parser SpecSyntax SpecLayout SpecPrint Api ApiData
  SpecPeg PegExact TameCheck OrderlyDecide DefectCheck
  PropsData PropsMeaning PropsNames PropsFlatten PropsApi PropsPrint PropsComplete PropsDefect Demo.
Import ListNotations.
Open Scope list_scope.

Section Props.
Variable X : ext.
(** The schema [s] defines the rules [rs]; [name] is defined there as [def],
    without parameters. *)
Definition schema (s name : text) (rs : rules) (def : rule_def) : Prop :=
  exists c r, parse_cddl X s = Some (inl c) /\ flatten X c = Ok rs /\
    last_rule name r c /\ means_rule (regex_compiles X) r def /\ rd_parms def = [].
(** [s] is a text for the rules [c]: some spelling of its literals, any layout and
    any comments. *)
Definition text_of (s : text) (c : cddl) : Prop :=
  exists lit occ, w_cddl X lit occ c /\ relayout (print_cddl lit occ c) s.
(** The encoded data denotes the value [v]. *)
Definition json_data (data : text) (v : value) : Prop := exists j, json_decode X data = inl j /\ wf_json j /\ json_means j v.
Definition cbor_data (data : bytes) (v : value) : Prop := exists c, cbor_decode X data = inl c /\ wf_cbor c /\ cbor_means c v.
(** All three checks of C59 and C60. *)
Definition checked (rs : rules) (def : rule_def) : Prop :=
  exists n tab tab' kparams ranks, orderly_b rs n tab kparams (rd_node def) = true /\
    flawless_b rs n tab' false (rd_node def) = true /\ acyclic_b rs n ranks (rd_node def) = true.
Notation describes rs def v := (means X (basic_context rs) initial_ctx (rd_node def) (AValue v)).

Lemma end_runs s name rs def : schema s name rs def ->
  (forall data v, json_data data v -> wf_value v /\ validate_json_str X name s data = run_validate X (basic_context rs) v def) /\
  (forall data v, cbor_data data v -> wf_value v /\ validate_cbor_bytes X name s data = run_validate X (basic_context rs) v def).
Proof.
  intros (c & r & Pa & F & L & M & P).
  destruct (C36_validated_last X s c rs name r def Pa F L M) as [C J]. split.
  - intros data v (j & D & Wj & Mj). split; [eapply wf_of_json; eauto|eauto].
  - intros data v (j & D & Wj & Mj). split; [eapply wf_of_cbor; eauto|eauto].
Qed.

(** ** C58.  For a schema that passes the checks, the one-call entry points accept
    exactly the data that the schema describes and report anything else as a
    mismatch. *)
Theorem C58_json_exact : forall s name rs def data v,
  schema s name rs def -> checked rs def -> json_data data v ->
  (describes rs def v /\ validate_json_str X name s data = Ok tt) \/
  (~ describes rs def v /\ exists m, validate_json_str X name s data = Err (EMismatch m)).
Proof.
  intros s name rs def data v S (n & tab & tab' & kp & ranks & O & F & A) D. destruct (proj1 (end_runs _ _ _ _ S) _ _ D) as [W ->].
  eapply C60_decides; eauto. destruct S as (c & r & S). apply S.
Qed.
Theorem C58_cbor_exact : forall s name rs def data v,
  schema s name rs def -> checked rs def -> cbor_data data v ->
  (describes rs def v /\ validate_cbor_bytes X name s data = Ok tt) \/
  (~ describes rs def v /\ exists m, validate_cbor_bytes X name s data = Err (EMismatch m)).
Proof.
  intros s name rs def data v S (n & tab & tab' & kp & ranks & O & F & A) D. destruct (proj2 (end_runs _ _ _ _ S) _ _ D) as [W ->].
  eapply C60_decides; eauto. destruct S as (c & r & S). apply S.
Qed.
(** For the larger class of tame schemas: the verdict is the one of ordered choice. *)
Theorem C58_ordered_choice : forall s name rs def n,
  schema s name rs def -> tame_b rs n (rd_node def) = true ->
  (forall data v o, json_data data v ->
     (peg X (basic_context rs) (QType initial_ctx (rd_node def) v) o <-> verdict (validate_json_str X name s data) = Some o)) /\
  (forall data v o, cbor_data data v ->
     (peg X (basic_context rs) (QType initial_ctx (rd_node def) v) o <-> verdict (validate_cbor_bytes X name s data) = Some o)).
Proof.
  intros s name rs def n S T. assert (P : rd_parms def = []) by (destruct S as (c & r & S); apply S). destruct (end_runs _ _ _ _ S) as [J C]. split.
  - intros data v o D. destruct (J _ _ D) as [W ->]. eapply C30_checked_partial; eauto.
  - intros data v o D. destruct (C _ _ D) as [W ->]. eapply C30_checked_partial; eauto.
Qed.
(** Two texts for the same rules have the same verdicts, on the same data encoded
    in any way; in particular spelling of literals, layout and comments do not
    matter. *)
Theorem C58_same_verdict : forall s s' c name rs def,
  text_of s c -> text_of s' c -> schema s name rs def -> schema s' name rs def /\
  (forall data data' v, json_data data v -> json_data data' v -> validate_json_str X name s data = validate_json_str X name s' data') /\
  (forall data data' v, json_data data v -> cbor_data data' v -> validate_json_str X name s data = validate_cbor_bytes X name s' data').
Proof.
  intros s s' c name rs def (l & o & W & R) (l' & o' & W' & R') S.
  assert (A := C49_any_layout X _ _ _ _ W R). assert (B := C49_any_layout X _ _ _ _ W' R').
  assert (S' : schema s' name rs def).
  { destruct S as (c1 & r & P & S). assert (c1 = c) as -> by congruence. exists c, r. auto. }
  split; auto. destruct (end_runs _ _ _ _ S) as [J C], (end_runs _ _ _ _ S') as [J' C']. split.
  - intros data data' v D D'. rewrite (proj2 (J _ _ D)), (proj2 (J' _ _ D')). reflexivity.
  - intros data data' v D D'. rewrite (proj2 (J _ _ D)), (proj2 (C' _ _ D')). reflexivity.
Qed.
End Props.

(** ** Non-vacuity *)
Definition demo_json : json := JObject [(txt "name", JString (txt "Bo")); (txt "tags", JArray [JString (txt "a"); JNumber (JPosInt 7)])].
Definition demo_cbor : cbor := CMap [(CText (txt "tags"), CArray [CText (txt "a"); CInteger 7]); (CText (txt "name"), CText (txt "Bo"))].
(** A decoder that knows two documents. *)
Definition two_ext : ext := {|
  f64_display := f64_display demo_ext; f64_parse := f64_parse demo_ext;
  regex_compiles := regex_compiles demo_ext; regex_match := regex_match demo_ext;
  cbor_decode := fun b => match b with [1%N] => inl demo_cbor | _ => inr (txt "bad") end;
  json_decode := fun t => if text_eqb t (txt "good") then inl demo_json
    else if text_eqb t (txt "wrong") then inl (JObject [(txt "name", JNumber (JPosInt 1))]) else inr (txt "bad");
  unescape := unescape demo_ext; base64_decode := base64_decode demo_ext |}.
Definition end_schema : text :=
  txt "person = {name: tstr, ? age: small, ; comment" ++ [10%N] ++ txt "* tstr => [* tstr / small]} small = 0..99".
Definition person : rule_def := RuleDef [] (NMap [NKeyValue (lit_s "name") tstr_t true;
  NOccur OOptional (NKeyValue (lit_s "age") (name_ "small") true);
  NOccur OZeroOrMore (NKeyValue tstr_t (NArray [NOccur OZeroOrMore (NChoice [tstr_t; name_ "small"])]) false)]).
Definition end_rules : rules :=
  [ (txt "person", person); (txt "small", RuleDef [] (NRange (lit_i 0) (lit_i 99) true)) ].
Definition end_value : value := VMap [(vs "name", vs "Bo"); (vs "tags", VArray [vs "a"; vi 7])].
Lemma end_schema_ok : schema two_ext end_schema (txt "person") end_rules person.
Proof.
  destruct (parse_cddl two_ext end_schema) as [[c|]|] eqn:P; [|vm_compute in P; discriminate|vm_compute in P; discriminate].
  assert (F : flatten two_ext c = Ok end_rules) by (vm_compute in P; inversion P; vm_compute; reflexivity).
  assert (S : Forall (supported_rule (regex_compiles two_ext)) c) by (apply C38_success; eauto).
  assert (N : In (txt "person") (map r_name c)) by (vm_compute in P; inversion P; left; reflexivity).
  destruct (schema_ready two_ext end_schema c (txt "person") P S N) as (rs & r & d & E & F' & G & L & M).
  assert (rs = end_rules) as -> by congruence. vm_compute in G. inversion G; subst. exists c, r. repeat split; auto.
Qed.
Example C58_example :
  schema two_ext end_schema (txt "person") end_rules person /\ checked end_rules person /\
  json_data two_ext (txt "good") end_value /\ cbor_data two_ext [1%N] end_value /\
  validate_json_str two_ext (txt "person") end_schema (txt "good") = Ok tt /\
  validate_cbor_bytes two_ext (txt "person") end_schema [1%N] = Ok tt /\
  exists m, validate_json_str two_ext (txt "person") end_schema (txt "wrong") = Err (EMismatch m).
Proof.
  assert (J : json_data two_ext (txt "good") end_value).
  { exists demo_json. split; [reflexivity|]. split.
    - repeat constructor; cbn; unfold is_scalar; try lia.
    - destruct (of_json_exact demo_json) as (v & E & M). vm_compute in E. inversion E; subst. exact M. }
  assert (C : cbor_data two_ext [1%N] end_value).
  { exists demo_cbor. split; [reflexivity|]. split.
    - repeat constructor; cbn; unfold is_scalar; try lia.
    - apply of_cbor_exact. vm_compute. reflexivity. }
  pose proof end_schema_ok as S. split; auto. split; [|split; auto; split; auto; split; [|split]].
  - pose (tab := [(txt "small", AsType); (txt "small", AsArray)]). exists 20, tab, tab, [], [(txt "person", 1%N)]. split; [vm_compute; reflexivity|]. split; vm_compute; reflexivity.
  - rewrite (proj2 (proj1 (end_runs _ _ _ _ _ S) _ _ J)). apply (run_validate_run _ _ 60); vm_compute; reflexivity.
  - rewrite (proj2 (proj2 (end_runs _ _ _ _ _ S) _ _ C)). apply (run_validate_run _ _ 60); vm_compute; reflexivity.
  - assert (J' : json_data two_ext (txt "wrong") (VMap [(vs "name", vi 1)])).
    { eexists. split; [reflexivity|]. split.
      - repeat constructor; cbn; unfold is_scalar; try lia.
      - match goal with |- json_means ?j _ => destruct (of_json_exact j) as (v & E & M) end. vm_compute in E. inversion E; subst. exact M. }
    rewrite (proj2 (proj1 (end_runs _ _ _ _ _ S) _ _ J')). eexists. apply (run_validate_run _ _ 60); vm_compute; reflexivity.
Qed.

Print Assumptions C58_json_exact.
Print Assumptions C58_cbor_exact.
Print Assumptions C58_ordered_choice.
Print Assumptions C58_same_verdict.
