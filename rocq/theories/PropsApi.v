(** The one-call entry points on schema text: C36, and the end-to-end versions
    of C19, C20, C35, C39 and C48. *)
From Coq Require Import List Bool ZArith NArith String Lia.
From Verif Require Import Base Util Data Value Convert Ivt Validate Ast Flatten Fun ValueOrder ConvertProofs SpecConvert ConvertExact
  SpecBase SpecCtx SpecFlatten FlattenProofs FlattenSupported FlattenMap CtxProofs NoPanic Parser SpecSyntax SpecLayout ApiData Api
  PropsNames PropsConvert PropsFlatten PropsParser Demo.
Import ListNotations.
Open Scope list_scope.

Section Props.
Variable X : ext.
Notation sup := (Forall (supported_rule (regex_compiles X))).

Lemma flatten_str_ok s c rs : parse_cddl X s = Some (inl c) -> flatten X c = Ok rs -> flatten_from_str X s = Ok rs.
Proof. intros P F. unfold flatten_from_str, parsed. rewrite P. exact F. Qed.
Lemma get_missing c rs name : flatten X c = Ok rs -> ~ In name (map r_name c) -> get_rule rs name = Err (EMissingRule name).
Proof.
  intros F N. unfold get_rule. destruct (rules_get rs name) as [d|] eqn:E; auto. exfalso.
  apply (C38_last_definition_wins X c rs name d F) in E. destruct E as (r & (pre & post & -> & <- & _) & _). apply N.
  rewrite map_app, in_app_iff. cbn. auto.
Qed.
Lemma get_defined c rs name r def : flatten X c = Ok rs -> last_rule name r c -> means_rule (regex_compiles X) r def -> get_rule rs name = Ok def.
Proof.
  intros F L M. unfold get_rule. assert (E : rules_get rs name = Some def); [|now rewrite E].
  apply (C38_last_definition_wins X c rs name def F). eauto.
Qed.

Lemma last_rule_exists name c : In name (map r_name c) -> exists r, last_rule name r c.
Proof.
  induction c as [|x c IH] using rev_ind; [intros []|]. rewrite map_app, in_app_iff. intros H.
  destruct (list_eq_dec N.eq_dec (r_name x) name) as [E|N].
  - exists x. apply last_rule_snoc. auto.
  - destruct H as [H|[H|[]]]; [|contradiction]. destruct (IH H) as (r & L). exists r. apply last_rule_snoc. auto.
Qed.
Lemma schema_ready s c name : parse_cddl X s = Some (inl c) -> sup c -> In name (map r_name c) ->
  exists rs r def, flatten_from_str X s = Ok rs /\ flatten X c = Ok rs /\ get_rule rs name = Ok def /\
    last_rule name r c /\ means_rule (regex_compiles X) r def.
Proof.
  intros P S N. pose proof S as S'. apply C38_success in S. destruct S as (rs & F). destruct (last_rule_exists _ _ N) as (r & L).
  assert (exists d, means_rule (regex_compiles X) r d) as (d & M).
  { destruct L as (pre & post & -> & _). apply Forall_app in S'. destruct S' as [_ S']. inversion S'; subst. apply supported_rule_iff. auto. }
  exists rs, r, d. repeat split; auto; [eapply flatten_str_ok; eauto|eapply get_defined; eauto].
Qed.

(** ** C36: the stages.

    First, a schema that cannot be parsed; neither the rule's name nor the data
    matter. *)
Theorem C36_parse_error_first s e : parse_cddl X s = Some (inr e) ->
  (forall name data, validate_cbor_bytes X name s data = Err (EParse e)) /\
  (forall name data, validate_json_str X name s data = Err (EParse e)).
Proof. intros P. unfold validate_cbor_bytes, validate_json_str, flatten_from_str. rewrite P. auto. Qed.
(** Second, the first rule of the schema that is not supported. *)
Theorem C36_unsupported_second s pre r post e : parse_cddl X s = Some (inl (pre ++ r :: post)) ->
  sup pre -> flatten X [r] = Err e ->
  (forall name data, validate_cbor_bytes X name s data = Err e) /\
  (forall name data, validate_json_str X name s data = Err e).
Proof.
  intros P S F. assert (E : flatten X (pre ++ r :: post) = Err e) by (apply C38_first_error_reported; eauto 6).
  unfold validate_cbor_bytes, validate_json_str, flatten_from_str. rewrite P. cbn [parsed bind_res]. rewrite E. auto.
Qed.
(** Third, a name without a rule. *)
Theorem C36_missing_rule_third s c name : parse_cddl X s = Some (inl c) -> sup c -> ~ In name (map r_name c) ->
  (forall data, validate_cbor_bytes X name s data = Err (EMissingRule name)) /\
  (forall data, validate_json_str X name s data = Err (EMissingRule name)).
Proof.
  intros P S N. apply C38_success in S. destruct S as (rs & F).
  unfold validate_cbor_bytes, validate_json_str. rewrite (flatten_str_ok s c rs P F). cbn [bind_res].
  rewrite (get_missing c rs name F N). auto.
Qed.
(** Fourth, data that cannot be decoded or (CBOR tags) converted. *)
Theorem C36_bad_data_fourth s c name : parse_cddl X s = Some (inl c) -> sup c -> In name (map r_name c) ->
  (forall data m, cbor_decode X data = inr m -> validate_cbor_bytes X name s data = Err (EValueError m)) /\
  (forall data m, json_decode X data = inr m -> validate_json_str X name s data = Err (EValueError m)) /\
  (forall data cv, cbor_decode X data = inl cv -> has_tag cv -> exists m, validate_cbor_bytes X name s data = Err (EValueError m)).
Proof.
  intros P S N. destruct (schema_ready s c name P S N) as (rs & r & d & E & F & G & _).
  unfold validate_cbor_bytes, validate_json_str. rewrite E. cbn [bind_res]. rewrite G. cbn [bind_res].
  split; [|split].
  - intros data m ->. reflexivity.
  - intros data m ->. reflexivity.
  - intros data cv -> T. destruct (of_cbor_cases cv) as [(v & _ & H)|(H & _)]; [contradiction|]. rewrite H. eexists. reflexivity.
Qed.
(** Last, validation of the decoded data against the last rule of that name. *)
Theorem C36_validated_last s c rs name r def : parse_cddl X s = Some (inl c) -> flatten X c = Ok rs ->
  last_rule name r c -> means_rule (regex_compiles X) r def ->
  (forall data cv v, cbor_decode X data = inl cv -> cbor_means cv v ->
   validate_cbor_bytes X name s data = run_validate X (basic_context rs) v def) /\
  (forall data j v, json_decode X data = inl j -> json_means j v ->
   validate_json_str X name s data = run_validate X (basic_context rs) v def).
Proof.
  intros P F L M. unfold validate_cbor_bytes, validate_json_str. rewrite (flatten_str_ok s c rs P F). cbn [bind_res].
  rewrite (get_defined c rs name r def F L M). cbn [bind_res]. split.
  - intros data cv v -> Mv. apply of_cbor_exact in Mv. rewrite Mv. reflexivity.
  - intros data j v -> Mv. destruct (of_json_exact j) as (v' & E & Mv'). rewrite E. cbn [bind_res].
    rewrite (json_means_unique j v v'); auto.
Qed.
(** So a success implies that all stages succeeded. *)
Lemma api_split s : (exists e, parse_cddl X s = Some (inr e)) \/
  (exists pre r post e, parse_cddl X s = Some (inl (pre ++ r :: post)) /\ sup pre /\ flatten X [r] = Err e) \/
  (exists c, parse_cddl X s = Some (inl c) /\ sup c).
Proof.
  destruct (C42_parse_total X s) as ([c|e] & P); [|eauto]. right.
  pose proof (C40_errors X c) as H. destruct (flatten X c) as [rs|e|] eqn:F; [right|left|contradiction].
  - exists c. split; auto. apply C38_success. eauto.
  - apply C38_first_error_reported in F. destruct F as (pre & r & post & -> & S & E). eauto 8.
Qed.
Theorem C36_cbor_success name s data : validate_cbor_bytes X name s data = Ok tt ->
  exists c rs r def cv v, parse_cddl X s = Some (inl c) /\ sup c /\ flatten X c = Ok rs /\
    last_rule name r c /\ means_rule (regex_compiles X) r def /\
    cbor_decode X data = inl cv /\ cbor_means cv v /\ run_validate X (basic_context rs) v def = Ok tt.
Proof.
  intros V. destruct (api_split s) as [(e & P)|[(pre & r & post & e & P & S & E)|(c & P & S)]].
  - rewrite (proj1 (C36_parse_error_first s e P)) in V. discriminate.
  - rewrite (proj1 (C36_unsupported_second s pre r post e P S E)) in V. discriminate.
  - destruct (in_dec (list_eq_dec N.eq_dec) name (map r_name c)) as [I|N];
      [|rewrite (proj1 (C36_missing_rule_third s c name P S N)) in V; discriminate].
    destruct (schema_ready s c name P S I) as (rs & r & d & E & F & G & L & M).
    destruct (C36_bad_data_fourth s c name P S I) as (B & _ & T).
    destruct (cbor_decode X data) as [cv|m] eqn:D; [|rewrite (B data m D) in V; discriminate].
    destruct (of_cbor_cases cv) as [(v & O & _)|(_ & H)]; [|destruct (T data cv D H) as (m & Q); rewrite Q in V; discriminate].
    apply of_cbor_exact in O. exists c, rs, r, d, cv, v. repeat (split; [first [assumption|reflexivity]|]).
    rewrite <- (proj1 (C36_validated_last s c rs name r d P F L M) data cv v D O). exact V.
Qed.
Theorem C36_json_success name s data : validate_json_str X name s data = Ok tt ->
  exists c rs r def j v, parse_cddl X s = Some (inl c) /\ sup c /\ flatten X c = Ok rs /\
    last_rule name r c /\ means_rule (regex_compiles X) r def /\
    json_decode X data = inl j /\ json_means j v /\ run_validate X (basic_context rs) v def = Ok tt.
Proof.
  intros V. destruct (api_split s) as [(e & P)|[(pre & r & post & e & P & S & E)|(c & P & S)]].
  - rewrite (proj2 (C36_parse_error_first s e P)) in V. discriminate.
  - rewrite (proj2 (C36_unsupported_second s pre r post e P S E)) in V. discriminate.
  - destruct (in_dec (list_eq_dec N.eq_dec) name (map r_name c)) as [I|N];
      [|rewrite (proj2 (C36_missing_rule_third s c name P S N)) in V; discriminate].
    destruct (schema_ready s c name P S I) as (rs & r & d & E & F & G & L & M).
    destruct (C36_bad_data_fourth s c name P S I) as (_ & B & _).
    destruct (json_decode X data) as [j|m] eqn:D; [|rewrite (B data m D) in V; discriminate].
    destruct (of_json_exact j) as (v & _ & O). exists c, rs, r, d, j, v. repeat (split; [first [assumption|reflexivity]|]).
    rewrite <- (proj2 (C36_validated_last s c rs name r d P F L M) data j v D O). exact V.
Qed.

(** ** End-to-end versions of other properties. *)

(** C19: with decoders that deliver well-formed data no call panics. *)
Theorem C19_one_call_never_panics name s :
  (forall data, (forall cv, cbor_decode X data = inl cv -> wf_cbor cv) -> validate_cbor_bytes X name s data <> Panic) /\
  (forall data, (forall j, json_decode X data = inl j -> wf_json j) -> validate_json_str X name s data <> Panic).
Proof.
  unfold validate_cbor_bytes, validate_json_str, flatten_from_str.
  destruct (C42_parse_total X s) as ([c|e] & ->); [|split; discriminate]. cbn [parsed bind_res].
  pose proof (C40_errors X c) as H. destruct (flatten X c) as [rs|e|]; [|split; discriminate|contradiction]. cbn [bind_res].
  unfold get_rule. destruct (rules_get rs name) as [d|]; [|split; discriminate]. cbn [bind_res]. split.
  - intros data W. destruct (cbor_decode X data) as [cv|m]; [|discriminate]. specialize (W cv eq_refl).
    destruct (of_cbor_cases cv) as [(v & O & _)|(O & _)]; rewrite O; [|discriminate]. cbn. apply C19_never_panics. eapply wf_of_cbor; [exact W|apply of_cbor_exact; exact O].
  - intros data W. destruct (json_decode X data) as [j|m]; [|discriminate]. specialize (W j eq_refl).
    destruct (of_json_exact j) as (v & O & Mv). rewrite O. cbn. apply C19_never_panics. eapply wf_of_json; [exact W|exact Mv].
Qed.
(** C20: and the internal cut signal is never returned. *)
Theorem C20_one_call name s m :
  (forall data, (forall cv, cbor_decode X data = inl cv -> wf_cbor cv) -> validate_cbor_bytes X name s data <> Err (EMapCut m)) /\
  (forall data, (forall j, json_decode X data = inl j -> wf_json j) -> validate_json_str X name s data <> Err (EMapCut m)).
Proof.
  unfold validate_cbor_bytes, validate_json_str, flatten_from_str.
  destruct (C42_parse_total X s) as ([c|e] & ->); [|split; discriminate]. cbn [parsed bind_res].
  pose proof (C40_errors X c) as H.
  destruct (flatten X c) as [rs|e|]; [|split; intros; destruct H as [[? ->]|[[? ->]| ->]]; discriminate|contradiction]. cbn [bind_res].
  unfold get_rule. destruct (rules_get rs name) as [d|]; [|split; discriminate]. cbn [bind_res]. split.
  - intros data W. destruct (cbor_decode X data) as [cv|m']; [|discriminate]. specialize (W cv eq_refl).
    destruct (of_cbor_cases cv) as [(v & O & _)|(O & _)]; rewrite O; [|discriminate]. cbn. apply C20_cut_never_escapes_api. eapply wf_of_cbor; [exact W|apply of_cbor_exact; exact O].
  - intros data W. destruct (json_decode X data) as [j|m']; [|discriminate]. specialize (W j eq_refl).
    destruct (of_json_exact j) as (v & O & Mv). rewrite O. cbn. apply C20_cut_never_escapes_api. eapply wf_of_json; [exact W|exact Mv].
Qed.
(** C35: the two formats agree on corresponding documents. *)
Theorem C35_one_call_agree name s db dj c j : cbor_decode X db = inl c -> json_decode X dj = inl j -> same_data j c ->
  validate_json_str X name s dj = validate_cbor_bytes X name s db.
Proof.
  intros Dc Dj S. unfold validate_cbor_bytes, validate_json_str. destruct (flatten_from_str X s) as [rs|e|]; auto. cbn [bind_res].
  destruct (get_rule rs name) as [d|e|]; auto. cbn [bind_res]. rewrite Dc, Dj.
  pose proof (C35_json_cbor_agree X (basic_context rs) d j c S) as E. unfold validate_json, validate_cbor in E.
  destruct (of_json j), (of_cbor c); exact E.
Qed.
(** C39: the two ways of building a rule set from text agree. *)
Theorem C39_flatten_from_str s :
  match slice_flatten_from_str X s, flatten_from_str X s with
  | Ok ss, Ok rs => map (fun p => (fst p, fst (snd p))) ss = rs
  | Err e, Err e' => e = e'
  | _, _ => False
  end.
Proof.
  unfold slice_flatten_from_str, flatten_from_str. destruct (C42_slice_parse_total X s) as ([l|e] & P); rewrite P; cbn [parsed bind_res].
  - rewrite (C39_same_rules X s l P). cbn [parsed bind_res]. pose proof (C39_slice_flatten X l) as H.
    destruct (slice_flatten X l), (flatten X (map fst l)); tauto.
  - apply C39_same_errors in P. rewrite P. reflexivity.
Qed.
(** C48: the layout of the schema does not influence the verdict. *)
Theorem C48_one_call s s' name : relayout s s' ->
  (forall data, validate_cbor_bytes X name s data = Ok tt <-> validate_cbor_bytes X name s' data = Ok tt) /\
  (forall data, validate_json_str X name s data = Ok tt <-> validate_json_str X name s' data = Ok tt).
Proof.
  intros R. unfold validate_cbor_bytes, validate_json_str, flatten_from_str.
  destruct (C42_parse_total X s) as ([c|e] & P).
  - pose proof (proj1 (C48_layout X s s' c R) P) as P'. rewrite P, P'. tauto.
  - destruct (C48_layout_error X s s' e R P) as (e' & P' & _). rewrite P, P'. split; intros; split; discriminate.
Qed.
End Props.

(** ** Non-vacuity *)
Definition api := validate_cbor_bytes demo_ext.
Definition good_schema := txt "a = 1..10 / tstr a = b  b = uint .le 5 ; last a counts".
Example C36_example :
  api (txt "a") good_schema [3%N] = Ok tt /\
  (exists m, api (txt "a") good_schema [6%N] = Err (EMismatch m)) /\
  (exists e, api (txt "nope") (txt "a = ") [] = Err (EParse e)) /\
  (exists m, api (txt "nope") (txt "a = int .bits 1") [] = Err (EUnsupported m)) /\
  api (txt "nope") good_schema [] = Err (EMissingRule (txt "nope")) /\
  api (txt "a") good_schema [] = Err (EValueError (txt "bad")).
Proof.
  assert (P : exists c rs def, parse_cddl demo_ext good_schema = Some (inl c) /\ flatten demo_ext c = Ok rs /\ rules_get rs (txt "a") = Some def /\
    run_validate demo_ext (basic_context rs) (vi 3) def = Ok tt /\
    exists m, run_validate demo_ext (basic_context rs) (vi 6) def = Err (EMismatch m)).
  { eexists _, _, _. split; [vm_compute; reflexivity|]. split; [vm_compute; reflexivity|]. split; [vm_compute; reflexivity|].
    unfold run_validate. cbn [rd_parms rd_node]. split; [|eexists]; run 9. }
  destruct P as (c & rs & def & P & F & G & R & m & R').
  assert (U : forall d, api (txt "a") good_schema d = match cbor_decode demo_ext d with
      | inr m => Err (EValueError m) | inl c => bind_res (of_cbor c) (fun v => run_validate demo_ext (basic_context rs) v def) end).
  { intros d. unfold api, validate_cbor_bytes. rewrite (flatten_str_ok demo_ext _ _ _ P F). cbn [bind_res]. unfold get_rule. rewrite G. reflexivity. }
  rewrite !U. cbn. split; [exact R|]. split; [eauto|]. split; [eexists; vm_compute; reflexivity|].
  split; [eexists; vm_compute; reflexivity|]. split; [vm_compute; reflexivity|reflexivity].
Qed.

Print Assumptions C36_parse_error_first.
Print Assumptions C36_unsupported_second.
Print Assumptions C36_missing_rule_third.
Print Assumptions C36_bad_data_fourth.
Print Assumptions C36_validated_last.
Print Assumptions C36_cbor_success.
Print Assumptions C36_json_success.
Print Assumptions C19_one_call_never_panics.
Print Assumptions C20_one_call.
Print Assumptions C35_one_call_agree.
Print Assumptions C39_flatten_from_str.
Print Assumptions C48_one_call.
