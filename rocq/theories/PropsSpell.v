(** Equivalent spellings of types: C78. *)
From Coq Require Import List Bool ZArith NArith String Lia Permutation.
From Verif Require Import Base Util Data Value Convert Ivt Scalar Validate Total Fun SpecBase SpecScalar SpecCtx ConvertProofs CtxProofs
  SpecConvert SpecVerdict SpecPos SpecJudge SpecPeg SpecSwap SwapProofs PropsSwap SpecSpell SpellProofs Demo
  ConvertExact Ast Flatten Parser Api PropsMeaning PropsData PropsBlame PropsApi.
Import ListNotations.
Open Scope list_scope.
Open Scope Z_scope.

(** ** C78.  The spellings in SpecSpell.v have the same verdict on every value, for all
    numbers, sizes and alternatives. *)
Theorem C78_spellings : forall X a b v,
  spelled X a b -> wf_value v ->
  same_verdict (run_validate X (basic_context []) v (RuleDef [] a)) (run_validate X (basic_context []) v (RuleDef [] b)).
Proof. intros X a b v S W. apply (spelled_equal X a b S). apply wf_keys_sorted. exact W. Qed.
(** One may stand for the other anywhere in a schema. *)
Theorem C78_anywhere : forall X lk1 lk2 inspected v def1 def2,
  (forall name e, lk1 name = inr e -> is_fatal e = true) -> (forall name e, lk2 name = inr e -> is_fatal e = true) ->
  swapped_rules (spelled X) inspected lk1 lk2 ->
  rd_parms def1 = [] -> rd_parms def2 = [] -> swap (spelled X) inspected InType (rd_node def1) (rd_node def2) ->
  wf_value v ->
  same_verdict (run_validate X lk1 v def1) (run_validate X lk2 v def2).
Proof. intros. eapply (C76_interchangeable X lk1 lk2 (spelled X) inspected); eauto using spelled_equal. Qed.
(** Two schema texts whose rules differ in such spellings accept the same documents. *)
Lemma member_type hole inspected a b : swap hole inspected InMember a b -> swap hole inspected InType a b.
Proof.
  intros S. inversion S as [p a' b' K|p a' b' H A B|]; subst; [|apply sw_member; auto].
  apply sw_kept. inversion K; subst; [apply k_leaf|apply k_rule|apply k_choice|apply k_map|apply k_array|apply k_group|apply k_kv|apply k_occur
    |apply k_unwrap|apply k_choiceify|apply k_inline|apply k_cbor]; auto.
Qed.
Theorem C78_texts : forall X i j rs rs' inspected,
  flatten_from_str X i = Ok rs -> flatten_from_str X j = Ok rs' ->
  swapped_rules (spelled X) inspected (basic_context rs) (basic_context rs') ->
  forall name,
  (forall data, (forall k, json_decode X data = inl k -> wf_json k) ->
    same_verdict (validate_json_str X name i data) (validate_json_str X name j data)) /\
  (forall data, (forall k, cbor_decode X data = inl k -> wf_cbor k) ->
    same_verdict (validate_cbor_bytes X name i data) (validate_cbor_bytes X name j data)).
Proof.
  intros X i j rs rs' inspected F F' S name. unfold validate_json_str, validate_cbor_bytes. rewrite F, F'. cbn [bind_res].
  pose proof (S name) as Q. unfold basic_context in Q. unfold get_rule.
  destruct (rules_get rs name) as [d|], (rules_get rs' name) as [d'|]; try contradiction; cbn [bind_res].
  2:{ split; intros; reflexivity. }
  destruct Q as (P & W & _). apply member_type in W.
  assert (Q : forall v, wf_value v -> same_verdict (run_validate X (basic_context rs) v d) (run_validate X (basic_context rs') v d')).
  { intros v Wv. destruct (rd_parms d) as [|q qs] eqn:E.
    - eapply C78_anywhere; eauto; apply basic_fatal.
    - unfold run_validate. rewrite <- P, E. reflexivity. }
  split; intros data Wd.
  - destruct (json_decode X data) as [k|]; [|reflexivity]. destruct (of_json_exact k) as (v & O & Mv). rewrite O. cbn [bind_res]. apply Q. eapply wf_of_json; eauto.
  - destruct (cbor_decode X data) as [k|]; [|reflexivity]. destruct (of_cbor_cases k) as [(v & O & _)|(O & _)]; rewrite O; [|reflexivity]. cbn [bind_res]. apply Q.
    eapply wf_of_cbor; [eauto|apply of_cbor_exact; exact O].
Qed.
(** Types for which the order of alternatives does not matter. *)
Theorem C78_flawless : forall X,
  (forall l, flawless X (NLiteral l)) /\ (forall p, flawless X (NPrelude p)) /\
  (forall a b incl, flawless X (NRange (num a) (num b) incl)) /\
  (forall op p n, In p cmp_classes -> flawless X (compared op p n)) /\
  (forall p l a b incl, In p size_classes -> size_arg l a b incl -> flawless X (with_size p l)) /\
  (forall ts, Forall (flawless X) ts -> flawless X (NChoice ts)) /\
  (forall t, flawless X t -> flawless X (NGroup [t])).
Proof.
  intros X.
  split; [intros; eapply flawless_of, d_literal|].
  split; [intros; eapply flawless_of, d_prelude|].
  split; [intros; eapply flawless_of, d_range|].
  split; [intros; eapply flawless_of, d_compare; auto|].
  split; [intros; eapply flawless_of, d_size; eauto|].
  split.
  - intros ts F. split; [apply closed_choice, (flawless_closed X); auto|]. intros v K. rewrite run_validate_val by auto. cbn [rd_node].
    destruct (choice_soonest X ts v) as (m & ->). pose proof (flawless_calm X v ts K F) as Q.
    induction Q as [|r rs [->|(m' & ->)] Q IH]; cbn; eauto.
  - intros t [C H]. split; [apply closed_parens; auto|]. intros v K. specialize (H v K). rewrite run_validate_val in * by auto. cbn [rd_node] in *.
    rewrite val_eq. exact H.
Qed.
(** Spellings that one might expect to agree and do not: for numbers a range of sizes
    is about the least number of bytes, and a single size is an upper limit, also if it
    is written as a range from [n] to [n]. *)
Theorem C78_sizes_differ : forall X,
  run_validate X (basic_context []) (vi 5) (RuleDef [] (with_size PUint (from_to 2 2))) = Ok tt /\
  (exists m, run_validate X (basic_context []) (vi 5) (RuleDef [] (with_size PUint (from_until 2 3))) = Err (EMismatch m)) /\
  (exists m, run_validate X (basic_context []) (vi 5) (RuleDef [] (with_size PUint (from_to 2 3))) = Err (EMismatch m)) /\
  ~ equal_types X (with_size PUint (from_until 2 3)) (with_size PUint (from_to 2 2)).
Proof.
  intros X.
  assert (A : run_validate X (basic_context []) (vi 5) (RuleDef [] (with_size PUint (from_to 2 2))) = Ok tt)
    by (rewrite run_validate_val by reflexivity; run 10%nat).
  assert (B : exists m, run_validate X (basic_context []) (vi 5) (RuleDef [] (with_size PUint (from_until 2 3))) = Err (EMismatch m))
    by (eexists; rewrite run_validate_val by reflexivity; run 10%nat).
  split; [exact A|]. split; [exact B|]. split; [eexists; rewrite run_validate_val by reflexivity; run 10%nat|].
  intros (_ & _ & H). specialize (H (vi 5) ltac:(constructor)). rewrite A in H. destruct B as (m & B). rewrite B in H. contradiction.
Qed.
(** The order of alternatives matters if one of them is defective. *)
Theorem C78_order_needs_flawless : forall X,
  let bad := NGroup [] in
  let good := NPrelude PInt in
  closed_type bad /\
  run_validate X (basic_context []) (vi 5) (RuleDef [] (either good bad)) = Ok tt /\
  run_validate X (basic_context []) (vi 5) (RuleDef [] (either bad good)) = Err (EUnsupported (txt "standalone group")).
Proof.
  intros X. cbn zeta. split; [apply closed_b; reflexivity|]. split; rewrite run_validate_val by reflexivity; run 10%nat.
Qed.

(** [uint .size 1], [0..255], [0...256], [uint .lt 256] and [128..255 / 0..127]. *)
Ltac fc R := cbn [app]; repeat first [apply Forall_nil | apply Forall_cons; [first [apply R | auto]|]].
Example C78_octet : forall X, Forall (spelled X (with_size PUint (num 1)))
  [from_to 0 255; from_until 0 256; compared OpLt PUint 256; either (from_to 128 255) (from_to 0 127);
   NChoice [from_to 128 255; NGroup [either (num 0) (from_to 1 127)]; num 0]].
Proof.
  intros X. assert (O : spelled X (with_size PUint (num 1)) (from_to 0 255)) by (apply (sp_bytes X 1); lia).
  destruct (C78_flawless X) as (_ & _ & R & _).
  assert (H : spelled X (with_size PUint (num 1)) (either (from_to 128 255) (from_to 0 127))).
  { eapply sp_steps; [exact O|]. eapply sp_steps; [apply sp_back, (sp_join X 0 127 255); lia|].
    apply sp_order; [fc R|constructor]. }
  constructor; [exact O|]. constructor; [eapply sp_steps; [exact O|]; apply sp_back, (sp_until X 0 255)|].
  constructor; [eapply sp_steps; [exact O|]; eapply sp_steps; [apply sp_back, sp_upto|]; apply sp_back, (sp_lt X PUint 255); cbn; auto|].
  constructor; [exact H|]. constructor; [|constructor]. eapply sp_steps; [exact H|]. apply sp_back.
  assert (CR : forall a b, closed_type (from_to a b)) by (intros; apply closed_b; reflexivity).
  assert (CN : forall a, closed_type (num a)) by (intros; apply closed_b; reflexivity).
  eapply sp_steps; [apply (sp_alternative X [from_to 128 255] (NGroup [either (num 0) (from_to 1 127)]) (either (num 0) (from_to 1 127)) [num 0])|].
  { apply sp_parens. apply closed_b. reflexivity. } { fc CR. }
  eapply sp_steps; [apply (sp_nested X [from_to 128 255] [num 0; from_to 1 127] [num 0]); fc CR|].
  eapply sp_steps; [apply (sp_again X (num 0) [from_to 128 255] [from_to 1 127] []); fc CR|].
  eapply sp_steps; [apply sp_back, (sp_nested X [from_to 128 255] [num 0; from_to 1 127] []); fc CR|].
  apply (sp_alternative X [from_to 128 255]); [|fc CR].
  eapply sp_steps; [apply (sp_alternative X [] (num 0) (from_to 0 0) [from_to 1 127]); [apply sp_back, sp_single|fc CR]|].
  apply (sp_join X 0 0 127); lia.
Qed.
(** In an array, in a map value and in a rule. *)
Definition demo_spell (octet : node) : rule_def := RuleDef [] (NMap [
  NKeyValue (lit_s "ip") (NArray [NOccur (ONumbered 4 4) octet]) true;
  NOccur OOptional (NKeyValue (lit_s "port") (name_ "word") true)]).
Definition demo_words (word : node) : lookup_context := basic_context [(txt "word", RuleDef [] word)].
Example C78_example :
  let o1 := with_size PUint (num 1) in let o2 := compared OpLe PUint 255 in
  let w1 := with_size PUint (num 2) in let w2 := from_until 0 65536 in
  swapped_rules (spelled demo_ext) (fun _ => False) (demo_words w1) (demo_words w2) /\
  swap (spelled demo_ext) (fun _ => False) InType (rd_node (demo_spell o1)) (rd_node (demo_spell o2)) /\
  run_validate demo_ext (demo_words w2) (VMap [(vs "ip", VArray [vi 127; vi 0; vi 0; vi 1]); (vs "port", vi 80)]) (demo_spell o2) = Ok tt /\
  (exists m, run_validate demo_ext (demo_words w2) (VMap [(vs "ip", VArray [vi 127; vi 0; vi 256; vi 1])]) (demo_spell o2) = Err (EMismatch m)) /\
  (exists m, run_validate demo_ext (demo_words w1) (VMap [(vs "ip", VArray [vi 127; vi 0; vi 256; vi 1])]) (demo_spell o1) = Err (EMismatch m)).
Proof.
  cbn zeta. split; [|split; [|split; [|split]]].
  - intros name. unfold demo_words, basic_context. cbn [rules_get]. match goal with |- context [if ?b then _ else _] => destruct b end; [|reflexivity].
    cbn [rd_parms rd_node]. split; [auto|]. split; [|contradiction]. apply sw_member; [|apply tm_type; reflexivity..].
    eapply sp_steps; [apply (sp_bytes _ 2); lia|]. apply sp_back, (sp_until _ 0 65535).
  - apply sw_kept, k_map. constructor; [|constructor; [|constructor]].
    + apply sw_kept, k_kv; [apply sw_kept, k_leaf; [reflexivity|contradiction..]|].
      apply sw_kept, k_array. constructor; [|constructor]. apply sw_kept, k_occur. apply sw_member; [|apply tm_type; reflexivity..].
      eapply sp_steps; [apply (sp_bytes _ 1); lia|]. apply sp_back, (sp_upto _ 255).
    + apply sw_kept, k_occur, sw_kept, k_kv; [apply sw_kept, k_leaf; [reflexivity|contradiction..]|]. apply sw_kept, k_rule. contradiction.
  - rewrite run_validate_val by reflexivity. run 20%nat.
  - eexists. rewrite run_validate_val by reflexivity. run 20%nat.
  - eexists. rewrite run_validate_val by reflexivity. run 20%nat.
Qed.

Definition octets1 : text := txt "packet = [* octet] octet = uint .size 1".
Definition octets2 : text := txt "packet = [* octet] octet = 0...256 ; a byte".
Example C78_texts_example : exists rs rs',
  flatten_from_str demo_ext octets1 = Ok rs /\ flatten_from_str demo_ext octets2 = Ok rs' /\
  swapped_rules (spelled demo_ext) (fun _ => False) (basic_context rs) (basic_context rs') /\
  validate_cbor_bytes demo_ext (txt "octet") octets1 [200%N] = Ok tt /\
  validate_cbor_bytes demo_ext (txt "octet") octets2 [200%N] = Ok tt.
Proof.
  eexists _, _. split; [vm_compute; reflexivity|]. split; [vm_compute; reflexivity|]. split.
  - intros name. unfold basic_context. cbn [rules_get]. match goal with |- context [if ?b then _ else _] => destruct b end.
    + split; [reflexivity|]. split; [|contradiction]. apply sw_member; [|apply tm_type; reflexivity..].
      eapply sp_steps; [apply (sp_bytes _ 1); lia|]. apply sp_back, (sp_until _ 0 255).
    + match goal with |- context [if ?b then _ else _] => destruct b end; [|reflexivity].
      split; [reflexivity|]. split; [|contradiction]. apply sw_kept, k_array. constructor; [|constructor].
      apply sw_kept, k_occur, sw_kept, k_rule. contradiction.
  - split.
    + unfold validate_cbor_bytes. match goal with |- bind_res ?r _ = _ => let r' := eval vm_compute in r in change r with r' end.
      cbn [bind_res]. unfold get_rule. match goal with |- context [rules_get ?a ?b] => let r' := eval vm_compute in (rules_get a b) in change (rules_get a b) with r' end.
      cbn. run 20%nat.
    + unfold validate_cbor_bytes. match goal with |- bind_res ?r _ = _ => let r' := eval vm_compute in r in change r with r' end.
      cbn [bind_res]. unfold get_rule. match goal with |- context [rules_get ?a ?b] => let r' := eval vm_compute in (rules_get a b) in change (rules_get a b) with r' end.
      cbn. run 20%nat.
Qed.

Print Assumptions C78_texts.
Print Assumptions C78_spellings.
Print Assumptions C78_anywhere.
Print Assumptions C78_flawless.
Print Assumptions C78_sizes_differ.
Print Assumptions C78_order_needs_flawless.
