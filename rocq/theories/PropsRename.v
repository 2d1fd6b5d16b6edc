(** Renaming rules and generic parameters: C64. *)
From Coq Require Import List Bool Arith ZArith NArith String Lia.
From Verif Require Import Base Util Data Value Convert Ivt Validate Ast Flatten Fun ValueOrder ConvertProofs ConvertExact Nom Parser
  SpecCtx SpecFlatten FlattenProofs FlattenMap CtxProofs SpecRename RenameProofs RenameFlatten PropsFlatten Api PropsApi Demo PropsPrint.
Import ListNotations.
Open Scope list_scope.

Section Props.
Variable X : ext.
Variable R : text -> text.

(** * C64: names do not matter. *)
(** For any source of definitions: the verdict is the same, error included, up to
    the name in the report of a missing rule. *)
Theorem C64_contexts lk lk' v d d' : renamed_context R lk lk' -> renamed_def R d d' ->
  run_validate X lk' v d' = ren_res R (run_validate X lk v d).
Proof. intros H. apply run_ren; auto. Qed.

Hypothesis Rinj : forall x y, R x = R y -> x = y.

(** Conversion fails on both or on neither, with the same error, and the rules correspond. *)
Theorem C64_flatten c c' : renamed_cddl R c c' ->
  match flatten X c with
  | Ok rs => exists rs', flatten X c' = Ok rs' /\
      forall x, match rules_get rs x with
                | Some d => exists d', rules_get rs' (R x) = Some d' /\ renamed_def R d d'
                | None => rules_get rs' (R x) = None
                end
  | Err e => flatten X c' = Err e
  | Panic => flatten X c' = Panic
  end.
Proof. apply flatten_cddl_ren; auto. Qed.

Lemma parsed_ren i i' c c' : parse_cddl X i = Some (inl c) -> parse_cddl X i' = Some (inl c') -> renamed_cddl R c c' ->
  forall (k k' : rules -> res unit),
  (forall rs rs', (forall x, match rules_get rs x with
                | Some d => exists d', rules_get rs' (R x) = Some d' /\ renamed_def R d d'
                | None => rules_get rs' (R x) = None
                end) -> k' rs' = ren_res R (k rs)) ->
  bind_res (flatten_from_str X i') k' = ren_res R (bind_res (flatten_from_str X i) k).
Proof.
  intros P P' H k k' K. unfold flatten_from_str. rewrite P, P'. cbn [parsed bind_res]. apply flatten_cddl_ren with (X := X) in H; auto.
  pose proof (C40_errors X c) as Fi. destruct (flatten X c) as [rs|e|]; [|rewrite H..]; cbn; auto.
  - destruct H as (rs' & -> & G). cbn. auto.
  - cbn in Fi. destruct Fi as [(m & ->)|[(m & ->)| ->]]; reflexivity.
Qed.
Lemma rule_get_ren rs rs' name (k k' : rule_def -> res unit) : (forall x, match rules_get rs x with
                | Some d => exists d', rules_get rs' (R x) = Some d' /\ renamed_def R d d'
                | None => rules_get rs' (R x) = None
                end) -> (forall d d', renamed_def R d d' -> k' d' = ren_res R (k d)) ->
  bind_res (get_rule rs' (R name)) k' = ren_res R (bind_res (get_rule rs name) k).
Proof.
  intros G K. unfold get_rule. specialize (G name). destruct (rules_get rs name) as [d|]; [destruct G as (d' & -> & D); cbn; auto|rewrite G; reflexivity].
Qed.

(** The two entry points, from the text of the schema to the verdict. *)
Theorem C64_json i i' c c' name data : parse_cddl X i = Some (inl c) -> parse_cddl X i' = Some (inl c') -> renamed_cddl R c c' ->
  validate_json_str X (R name) i' data = ren_res R (validate_json_str X name i data).
Proof.
  intros P P' H. unfold validate_json_str. apply (parsed_ren i i' c c'); auto. intros rs rs' G. apply rule_get_ren; auto. intros d d' D.
  destruct (json_decode X data) as [j|m]; [|reflexivity]. destruct (of_json_exact j) as (v & -> & _). cbn [bind_res].
  apply run_ren; auto. apply context_ren; auto.
Qed.
Theorem C64_cbor i i' c c' name data : parse_cddl X i = Some (inl c) -> parse_cddl X i' = Some (inl c') -> renamed_cddl R c c' ->
  validate_cbor_bytes X (R name) i' data = ren_res R (validate_cbor_bytes X name i data).
Proof.
  intros P P' H. unfold validate_cbor_bytes. apply (parsed_ren i i' c c'); auto. intros rs rs' G. apply rule_get_ren; auto. intros d d' D.
  destruct (cbor_decode X data) as [j|m]; [|reflexivity]. destruct (of_cbor_cases j) as [(v & -> & _)|[-> _]]; [|reflexivity]. cbn [bind_res].
  apply run_ren; auto. apply context_ren; auto.
Qed.
(** In particular acceptance. *)
Corollary C64_accepts i i' c c' name data : parse_cddl X i = Some (inl c) -> parse_cddl X i' = Some (inl c') -> renamed_cddl R c c' ->
  (validate_json_str X (R name) i' data = Ok tt <-> validate_json_str X name i data = Ok tt).
Proof.
  intros P P' H. rewrite (C64_json i i' c c') by auto. destruct (validate_json_str X name i data) as [[]| |]; cbn; split; congruence.
Qed.
End Props.

(** When only generic parameters are renamed, nothing changes at all, and the
    context may itself have been renamed so. *)
Lemma ren_res_id {A} (r : res A) : ren_res (fun x => x) r = r.
Proof. destruct r as [|e|]; auto. destruct e; reflexivity. Qed.
Theorem C64_parameters X lk lk' v d d' : renamed_def (fun x => x) d d' ->
  (forall x, match lk x with inl d => exists d', lk' x = inl d' /\ renamed_def (fun x => x) d d' | inr e => lk' x = inr e end) ->
  run_validate X lk' v d' = run_validate X lk v d.
Proof.
  intros D C. rewrite (C64_contexts X (fun x => x) lk lk' v d d'); auto using ren_res_id.
  intros x. specialize (C x). destruct (lk x) as [|e]; auto. rewrite C. f_equal. destruct e; reflexivity.
Qed.

Lemma json_run X n name s data rs d j v r : flatten_from_str X s = Ok rs -> rules_get rs name = Some d -> json_decode X data = inl j -> of_json j = Ok v ->
  do_validate X (basic_context rs) n v d = Some r -> validate_json_str X name s data = r.
Proof. intros F G D O V. unfold validate_json_str, get_rule. rewrite F. cbn. rewrite G. cbn. rewrite D, O. cbn. eapply run_validate_run; eauto. Qed.

(** Two spellings of a schema with a generic rule, a rule named like a key, and a
    reference to a rule that does not exist. *)
Definition names1_txt : text := txt "a = [* b<int>] b<t> = {k: t, ? a: c, ? z: a}".
Definition names2_txt : text := txt "k = [* x<int>] x<b> = {k: b, ? a: d, ? z: k}".
(** A decoder that knows two documents; the second needs the missing rule. *)
Definition names_json (k : string) : json := JArray [JObject [(txt "k", JNumber (JPosInt 1)); (txt k, JArray [])]].
Definition names_ext : ext := {|
  f64_display := f64_display demo_ext; f64_parse := f64_parse demo_ext;
  regex_compiles := regex_compiles demo_ext; regex_match := regex_match demo_ext;
  cbor_decode := cbor_decode demo_ext;
  json_decode := fun t => inl (names_json (if text_eqb t (txt "good") then "z" else "a"));
  unescape := unescape demo_ext; base64_decode := base64_decode demo_ext |}.
Definition swap (a b x : text) : text := if text_eqb x a then b else if text_eqb x b then a else x.
Lemma swap_inj a b x y : swap a b x = swap a b y -> x = y.
Proof. unfold swap. destruct (text_eqb_cases x a), (text_eqb_cases x b), (text_eqb_cases y a), (text_eqb_cases y b); congruence. Qed.
Definition R1 (x : text) : text := swap (txt "a") (txt "k") (swap (txt "b") (txt "x") (swap (txt "c") (txt "d") x)).
Lemma R1_inj x y : R1 x = R1 y -> x = y.
Proof. intros H. do 2 apply swap_inj in H. eapply swap_inj; eauto. Qed.
(** Inside the generic rule [t] becomes [b]. *)
Definition f1 (x : text) : text := if text_eqb x (txt "t") then txt "b" else R1 x.
Lemma user_dec_ok n : forallb (fun e => negb (text_eqb n (txt (fst e)))) prelude_table = true -> user_name n.
Proof.
  intros H I. apply in_map_iff in I. destruct I as (e & <- & I). rewrite forallb_forall in H. apply H in I. rewrite text_eqb_refl in I. discriminate.
Qed.
Example ex_C64 : exists c c', parse_cddl names_ext names1_txt = Some (inl c) /\ parse_cddl names_ext names2_txt = Some (inl c') /\ renamed_cddl R1 c c' /\
  (forall data, validate_json_str names_ext (txt "k") names2_txt data = ren_res R1 (validate_json_str names_ext (txt "a") names1_txt data)) /\
  validate_json_str names_ext (txt "a") names1_txt (txt "good") = Ok tt /\
  validate_json_str names_ext (txt "a") names1_txt (txt "bad") = Err (EMissingRule (txt "c")) /\
  validate_json_str names_ext (txt "k") names2_txt (txt "bad") = Err (EMissingRule (txt "d")).
Proof.
  assert (G : exists c c', parse_cddl names_ext names1_txt = Some (inl c) /\ parse_cddl names_ext names2_txt = Some (inl c') /\ renamed_cddl R1 c c').
  { destruct (parse_cddl names_ext names1_txt) as [[c|]|] eqn:E1; [|vm_compute in E1; discriminate..].
    destruct (parse_cddl names_ext names2_txt) as [[c'|]|] eqn:E2; [|vm_compute in E2; discriminate..].
    exists c, c'. split; [reflexivity|]. split; [reflexivity|]. vm_compute in E1, E2. injection E1 as <-. injection E2 as <-.
    constructor; [|constructor; [|constructor]].
    - exists R1. split; [intros x y [] |]. split; [|vm_compute; reflexivity].
      intros x H. vm_compute in H. repeat (destruct H as [<-|H]; [|try contradiction]).
      + split; [left; split; apply user_dec_ok; vm_compute; reflexivity|]. intros _. right. split; [reflexivity|intros []].
      + split; [right; split; [intros U; apply U; vm_compute; tauto|vm_compute; reflexivity]|]. intros _. right. split; [reflexivity|intros []].
    - exists f1. split; [intros x y [<-|[]] [<-|[]]; auto|]. split; [|vm_compute; reflexivity].
      intros x H. vm_compute in H. repeat (destruct H as [<-|H]; [|try contradiction]);
        (split; [left; split; apply user_dec_ok; vm_compute; reflexivity|]; intros _; first [left; vm_compute; tauto|right; split; [vm_compute; reflexivity|vm_compute; intros [H'|[]]; discriminate]]). }
  destruct G as (c & c' & P & P' & H). exists c, c'. split; [exact P|]. split; [exact P'|]. split; [exact H|].
  assert (V : forall data, validate_json_str names_ext (txt "k") names2_txt data = ren_res R1 (validate_json_str names_ext (txt "a") names1_txt data))
    by (intros data; exact (C64_json names_ext R1 R1_inj _ _ c c' (txt "a") data P P' H)).
  split; [exact V|]. assert (B : validate_json_str names_ext (txt "a") names1_txt (txt "bad") = Err (EMissingRule (txt "c"))).
  2: split; [|split; [exact B|rewrite V, B; reflexivity]].
  all: eapply (json_run _ 60); [vm_compute; reflexivity..].
Qed.
(** Renaming a rule to the name of a parameter in scope is not allowed: it changes the verdict. *)
Definition capture1_txt : text := txt "a = b<int> b<t> = [t, c] c = tstr".
Definition capture2_txt : text := txt "a = b<int> b<t> = [t, t] t = tstr".
Example ex_C64_capture : exists v rs1 rs2 d1 d2 e, flatten_from_str ascii_ext capture1_txt = Ok rs1 /\ flatten_from_str ascii_ext capture2_txt = Ok rs2 /\
  rules_get rs1 (txt "a") = Some d1 /\ rules_get rs2 (txt "a") = Some d2 /\
  do_validate ascii_ext (basic_context rs1) 20 v d1 = Some (Ok tt) /\ do_validate ascii_ext (basic_context rs2) 20 v d2 = Some (Err e).
Proof.
  exists (VArray [VInteger 1; VText (txt "s")]). do 5 eexists. repeat (split; [vm_compute; reflexivity|]). vm_compute. reflexivity.
Qed.

Print Assumptions C64_contexts.
Print Assumptions C64_flatten.
Print Assumptions C64_json.
Print Assumptions C64_cbor.
Print Assumptions C64_accepts.
Print Assumptions C64_parameters.
