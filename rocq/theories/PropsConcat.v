(** Schemas made of several texts: C62. *)
From Coq Require Import List Bool Arith ZArith NArith String Lia.
From Verif Require Import Base Util Data Value Convert Ivt Validate Ast Flatten Fun ValueOrder ConvertProofs SpecConvert ConvertExact
  SpecBase SpecCtx SpecFlatten FlattenProofs FlattenSupported FlattenMap CtxProofs Nom Parser SpecSyntax SpecReading Concat PropsNames PropsConvert PropsFlatten PropsRead ApiData Api PropsApi Demo PropsPrint.
Import ListNotations.
Open Scope list_scope.

Section Props.
Variable X : ext.

(** [i], a line break, [j]. *)
Definition joined (i j : text) : text := i ++ [10%N] ++ j.

(** * C62: the rules of a schema text followed, on the next line, by another. *)
Theorem C62_parse_joined i c j c' : parse_cddl X i = Some (inl c) -> parse_cddl X j = Some (inl c') -> parse_cddl X (joined i j) = Some (inl (c ++ c')).
Proof. intros H H'. apply C61_exact in H, H'. apply C61_exact. apply (cddl_cat X i c j c'); auto. Qed.

Lemma last_rule_app name r c c' : last_rule name r (c ++ c') <-> last_rule name r c' \/ ~ In name (map r_name c') /\ last_rule name r c.
Proof.
  induction c' as [|x c' IH] using rev_ind.
  - rewrite app_nil_r. split; [intros H; right; split; auto|intros [(p & q & E & _)|[_ H]]; auto; destruct p; discriminate].
  - rewrite app_assoc, !last_rule_snoc, IH, map_app, in_app_iff. cbn. tauto.
Qed.
Lemma defined_names c rs name : flatten X c = Ok rs -> (In name (map r_name c) <-> rules_get rs name <> None).
Proof.
  intros F. split.
  - intros H. destruct (last_rule_exists _ _ H) as (r & L).
    assert (S : Forall (supported_rule (regex_compiles X)) c) by (apply C38_success; eauto).
    assert (exists d, means_rule (regex_compiles X) r d) as (d & M).
    { destruct L as (pre & post & -> & _). apply Forall_app in S. destruct S as [_ S]. inversion S; subst. apply supported_rule_iff. auto. }
    rewrite (proj2 (C38_last_definition_wins X c rs name d F)); [discriminate|eauto].
  - intros H. destruct (rules_get rs name) as [d|] eqn:E; [|congruence]. apply (C38_last_definition_wins X c rs name d F) in E.
    destruct E as (r & (pre & post & -> & <- & _) & _). rewrite map_app, in_app_iff. cbn. auto.
Qed.
(** Every name means what the last text that defines it says. *)
Theorem C62_flatten_joined i j rs rs' : flatten_from_str X i = Ok rs -> flatten_from_str X j = Ok rs' ->
  exists rs2, flatten_from_str X (joined i j) = Ok rs2 /\
    forall name, rules_get rs2 name = match rules_get rs' name with Some d => Some d | None => rules_get rs name end.
Proof.
  unfold flatten_from_str. intros H H'. destruct (parse_cddl X i) as [[c|]|] eqn:P; try discriminate. destruct (parse_cddl X j) as [[c'|]|] eqn:P'; try discriminate.
  cbn [parsed bind_res] in H, H'. rewrite (C62_parse_joined _ _ _ _ P P'). cbn [parsed bind_res].
  assert (S : exists rs2, flatten X (c ++ c') = Ok rs2).
  { apply C38_success. apply Forall_app. split; apply C38_success; eauto. }
  destruct S as (rs2 & F). exists rs2. split; auto. intros name. destruct (rules_get rs' name) as [d|] eqn:E.
  - apply (C38_last_definition_wins X _ _ _ _ F). apply (C38_last_definition_wins X _ _ _ _ H') in E. destruct E as (r & L & M). exists r. split; auto. apply last_rule_app. auto.
  - assert (N : ~ In name (map r_name c')) by (rewrite (defined_names _ _ name H'); congruence).
    assert (NL : forall r, ~ last_rule name r c').
    { intros r (pre & post & -> & <- & _). apply N. rewrite map_app, in_app_iff. cbn. auto. }
    destruct (rules_get rs name) as [d|] eqn:E2.
    + apply (C38_last_definition_wins X _ _ _ _ F). apply (C38_last_definition_wins X _ _ _ _ H) in E2. destruct E2 as (r & L & M). exists r. split; auto. apply last_rule_app. auto.
    + destruct (rules_get rs2 name) as [d|] eqn:E3; auto. apply (C38_last_definition_wins X _ _ _ _ F) in E3. destruct E3 as (r & L & M). apply last_rule_app in L.
      destruct L as [L|[_ L]]; [destruct (NL _ L)|]. assert (rules_get rs name = Some d); [|congruence]. apply (C38_last_definition_wins X _ _ _ _ H). eauto.
Qed.
(** Adding a text that defines none of the names in use changes no verdict. *)
Theorem C62_same_verdict i j rs rs' name def : flatten_from_str X i = Ok rs -> flatten_from_str X j = Ok rs' -> rules_get rs name = Some def ->
  rules_get rs' name = None -> (forall n, reachable (basic_context rs) def n -> rules_get rs' n = None) ->
  (forall data, (forall k, json_decode X data = inl k -> wf_json k) -> validate_json_str X name (joined i j) data = validate_json_str X name i data) /\
  (forall data, (forall k, cbor_decode X data = inl k -> wf_cbor k) -> validate_cbor_bytes X name (joined i j) data = validate_cbor_bytes X name i data).
Proof.
  intros F F' D N R. destruct (C62_flatten_joined _ _ _ _ F F') as (rs2 & F2 & G). unfold validate_json_str, validate_cbor_bytes. rewrite F, F2. cbn [bind_res].
  unfold get_rule. rewrite G, N, D. cbn [bind_res].
  assert (Q : forall v, wf_value v -> run_validate X (basic_context rs2) v def = run_validate X (basic_context rs) v def).
  { intros v W. symmetry. apply C32_unreachable_irrelevant; auto. intros n Hn. unfold basic_context. rewrite G, (R n Hn). reflexivity. }
  split; intros data W.
  - destruct (json_decode X data) as [k|]; auto. destruct (of_json_exact k) as (v & O & Mv). rewrite O. cbn [bind_res]. apply Q. eapply wf_of_json; eauto.
  - destruct (cbor_decode X data) as [k|]; auto. destruct (of_cbor_cases k) as [(v & O & _)|(O & _)]; rewrite O; auto. cbn [bind_res]. apply Q.
    eapply wf_of_cbor; [eauto|apply of_cbor_exact; exact O].
Qed.
(** Adding a text that starts with a definition of [name] replaces it, and the
    data is checked against the new definition. *)
Theorem C62_replaced i j rs rs' name def : flatten_from_str X i = Ok rs -> flatten_from_str X j = Ok rs' -> rules_get rs' name = Some def ->
  (forall n, reachable (basic_context rs') def n -> rules_get rs' n <> None) ->
  (forall data, (forall k, json_decode X data = inl k -> wf_json k) -> validate_json_str X name (joined i j) data = validate_json_str X name j data) /\
  (forall data, (forall k, cbor_decode X data = inl k -> wf_cbor k) -> validate_cbor_bytes X name (joined i j) data = validate_cbor_bytes X name j data).
Proof.
  intros F F' D R. destruct (C62_flatten_joined _ _ _ _ F F') as (rs2 & F2 & G). unfold validate_json_str, validate_cbor_bytes. rewrite F', F2. cbn [bind_res].
  unfold get_rule. rewrite G, D. cbn [bind_res].
  assert (Q : forall v, wf_value v -> run_validate X (basic_context rs2) v def = run_validate X (basic_context rs') v def).
  { intros v W. symmetry. apply C32_unreachable_irrelevant; auto. intros n Hn. unfold basic_context. rewrite G. specialize (R n Hn). destruct (rules_get rs' n); congruence. }
  split; intros data W.
  - destruct (json_decode X data) as [k|]; auto. destruct (of_json_exact k) as (v & O & Mv). rewrite O. cbn [bind_res]. apply Q. eapply wf_of_json; eauto.
  - destruct (cbor_decode X data) as [k|]; auto. destruct (of_cbor_cases k) as [(v & O & _)|(O & _)]; rewrite O; auto. cbn [bind_res]. apply Q.
    eapply wf_of_cbor; [eauto|apply of_cbor_exact; exact O].
Qed.
End Props.

(** A first text that ends in a comment, and a second one that replaces a rule. *)
Definition part1 : text := txt "a = [b, b] b = int ; the end".
Definition part2 : text := txt " c = tstr  d = {b: c}".
Definition part3 : text := txt "a = [tstr]".
Example ex_C62 : exists rs1 rs2 def,
  flatten_from_str ascii_ext part1 = Ok rs1 /\ flatten_from_str ascii_ext part2 = Ok rs2 /\ rules_get rs1 (txt "a") = Some def /\
  rules_get rs2 (txt "a") = None /\ (forall n, reachable (basic_context rs1) def n -> rules_get rs2 n = None) /\
  reachable (basic_context rs1) def (txt "b") /\ joined part1 part2 <> part1 ++ part2 /\
  parse_cddl ascii_ext (part1 ++ part2) <> parse_cddl ascii_ext (joined part1 part2).
Proof.
  destruct (flatten_from_str ascii_ext part1) as [rs1| |] eqn:E1; [|vm_compute in E1; discriminate..].
  destruct (flatten_from_str ascii_ext part2) as [rs2| |] eqn:E2; [|vm_compute in E2; discriminate..].
  destruct (rules_get rs1 (txt "a")) as [def|] eqn:E3; [|vm_compute in E1; injection E1 as <-; vm_compute in E3; discriminate].
  exists rs1, rs2, def. split; [reflexivity|]. split; [reflexivity|]. split; [auto|].
  vm_compute in E1, E2. injection E1 as <-. injection E2 as <-. vm_compute in E3. injection E3 as <-.
  split; [reflexivity|]. split; [|split; [|split; vm_compute; discriminate]].
  - intros n H. assert (n = txt "b") as ->; [|reflexivity].
    induction H as [name [M _]|name d name' H IH E [M _]].
    + cbn in M. inversion M as [nd nm ar R|nd nd' nm I M']; subst; [discriminate R|].
      destruct I as [<-|[<-|[]]]; inversion M' as [nd nm ar R|nd nd' nm I _]; subst; try destruct I; inversion R; reflexivity.
    + subst. vm_compute in E. inversion E; subst. inversion M as [nd nm ar R|nd nd' nm I]; subst; [discriminate R|destruct I].
  - apply reach_start. split; [|intros []]. eapply mentions_child; [left; reflexivity|]. eapply mentions_here. reflexivity.
Qed.
Example ex_C62_replaced : parse_cddl ascii_ext (joined part1 part3) <> None /\ exists rs1 rs3 def,
  flatten_from_str ascii_ext part1 = Ok rs1 /\ flatten_from_str ascii_ext part3 = Ok rs3 /\ rules_get rs3 (txt "a") = Some def /\
  rules_get rs1 (txt "a") <> Some def /\ (forall n, reachable (basic_context rs3) def n -> rules_get rs3 n <> None).
Proof.
  split; [vm_compute; discriminate|]. eexists _, _, _. split; [vm_compute; reflexivity|]. split; [vm_compute; reflexivity|]. split; [vm_compute; reflexivity|].
  split; [vm_compute; discriminate|]. intros n H. exfalso. induction H as [name [M _]|name d name' H IH E [M _]]; auto.
  cbn in M. inversion M as [nd nm ar R|nd nd' nm I M']; subst; [discriminate R|]. destruct I as [<-|[]]. inversion M' as [nd nm ar R|nd nd' nm I _]; subst; [discriminate R|destruct I].
Qed.

Print Assumptions C62_parse_joined.
Print Assumptions C62_flatten_joined.
Print Assumptions C62_same_verdict.
Print Assumptions C62_replaced.
