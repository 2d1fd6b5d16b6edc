(** What a schema accepts, a wider version of it accepts: C67. *)
From Coq Require Import List Bool ZArith NArith String Lia Permutation.
From Verif Require Import Base Util Data Value Convert Ivt Scalar Validate Total Fun SpecBase SpecCtx SpecPos
  SpecVerdict ValueOrder ConvertProofs CtxProofs SpecPeg PegProofs PegExact PegTame TameCheck SpecOrderly Orderly
  OrderlyCheck OrderlyDecide Demo PropsData PropsMeaning PropsComplete SpecWiden WidenProofs WidenCheck.
Import ListNotations.
Open Scope list_scope.

(** ** C67.  For every schema: data that the old schema describes is described by
    the new one, when the new one is wider. *)
Theorem C67_described : forall X lk lk' old plain amp tilde t t' v,
  rules_widened X lk lk' old plain amp tilde -> wider X lk lk' old plain amp tilde t t' ->
  means X lk initial_ctx t (AValue v) -> means X lk' initial_ctx t' (AValue v).
Proof.
  intros X lk lk' old plain amp tilde t t' v RW W M. eapply widened; eauto.
  apply scopes_top; [constructor|]. intros n _. reflexivity.
Qed.
(** Data accepted under the old schema is accepted under the wider one, when the
    verdicts follow the declarative reading: [tame] for the old schema, [orderly] for the new one. *)
Theorem C67_widening_partial : forall X lk lk' old plain amp tilde def def' v,
  (forall name e, lk name = inr e -> is_fatal e = true) -> (forall name e, lk' name = inr e -> is_fatal e = true) ->
  wf_value v -> rd_parms def = [] -> rd_parms def' = [] ->
  tame lk initial_ctx (rd_node def) -> orderly X lk' initial_ctx (rd_node def') ->
  rules_widened X lk lk' old plain amp tilde -> wider X lk lk' old plain amp tilde (rd_node def) (rd_node def') ->
  run_validate X lk v def = Ok tt ->
  run_validate X lk' v def' = Ok tt \/ exists e, run_validate X lk' v def' = Err e /\ is_fatal e = true.
Proof.
  intros X lk lk' old plain amp tilde def def' v Hl Hl' W P P' T O RW Wd E.
  apply (C59_exact_partial X lk' v def' Hl' W P' O). eapply C67_described; eauto. apply C29_soundness_partial; auto.
Qed.
(** The conditions can be checked by computation. *)
Theorem C67_checked_partial : forall X rs rs' n n' tab' kparams olds amps tildes def def' v,
  wf_value v -> rd_parms def = [] -> rd_parms def' = [] ->
  tame_b rs n (rd_node def) = true -> orderly_b rs' n' tab' kparams (rd_node def') = true ->
  rules_b olds amps tildes n rs rs' = true -> wider_b olds amps tildes n (rd_node def) (rd_node def') = true ->
  run_validate X (basic_context rs) v def = Ok tt ->
  run_validate X (basic_context rs') v def' = Ok tt \/
  exists e, run_validate X (basic_context rs') v def' = Err e /\ is_fatal e = true.
Proof.
  intros. eapply (C67_widening_partial X (basic_context rs) (basic_context rs') (isold olds) (isplain amps tildes) (isamp amps) (istilde tildes) def def' v);
    auto; try apply basic_fatal.
  - eapply tame_b_tame; eauto.
  - eapply orderly_b_orderly; eauto.
  - eapply rules_b_ok; eauto.
  - eapply wider_b_ok; eauto.
Qed.

(** The next version of [doc2] of C59:
    [tree<t> = [value: t, * tree<t>]
     opt<t> = t / nil / "none"
     header = (version: 1 / 2 / 3, ? note: tstr)
     point = {x: int, y: int, ? z: int}
     colors = (red: 0, green: 1, blue: 2)
     pair = [tstr, tstr]
     row = [&colors, * (int, tstr) / bool, ? [1*4 int], ~pair, * int]
     entry = {? name: tstr / bool, * tstr => any}
     doc = {header, shape: tree<opt<point>>, (inline: int // ref: tstr / uint), ? extra: entry, * int => row, ? meta: {* tstr => any}}] *)
Definition rules_doc3 : rules :=
  [ (txt "tree", RuleDef [txt "t"] (NArray [NKeyValue (lit_s "value") (name_ "t") true;
       NOccur OZeroOrMore (NRule (txt "tree") [name_ "t"])]));
    (txt "opt", RuleDef [txt "u"] (NChoice [name_ "u"; NPrelude PNil; lit_s "none"]));
    (txt "header", RuleDef [] (NGroup [NKeyValue (lit_s "version") (NChoice [lit_i 1; lit_i 2; lit_i 3]) true;
       NOccur OOptional (NKeyValue (lit_s "note") tstr_t true)]));
    (txt "point", RuleDef [] (NMap [NKeyValue (lit_s "x") int_t true; NKeyValue (lit_s "y") int_t true;
       NOccur OOptional (NKeyValue (lit_s "z") int_t true)]));
    (txt "colors", RuleDef [] (NGroup [NKeyValue (lit_s "red") (lit_i 0) true; NKeyValue (lit_s "green") (lit_i 1) true;
       NKeyValue (lit_s "blue") (lit_i 2) true]));
    (txt "pair", RuleDef [] (NArray [tstr_t; tstr_t]));
    (txt "row", RuleDef [] (NArray [NChoiceify (txt "colors") [];
       NOccur OZeroOrMore (NChoice [NGroup [int_t; tstr_t]; bool_t]);
       NOccur OOptional (NArray [NOccur (ONumbered 1 4) int_t]); NUnwrap (txt "pair") []; NOccur OZeroOrMore int_t]));
    (txt "entry", RuleDef [] (NMap [NOccur OOptional (NKeyValue (lit_s "name") (NChoice [tstr_t; bool_t]) true);
       NOccur OZeroOrMore (NKeyValue tstr_t (NPrelude PAny) false)])) ].
Definition doc3 : rule_def := RuleDef [] (NMap [name_ "header";
  NKeyValue (lit_s "shape") (NRule (txt "tree") [NRule (txt "opt") [name_ "point"]]) true;
  NChoice [NGroup [NKeyValue (lit_s "inline") int_t true]; NGroup [NKeyValue (lit_s "ref") (NChoice [tstr_t; NPrelude PUint]) true]];
  NOccur OOptional (NKeyValue (lit_s "extra") (name_ "entry") true);
  NOccur OZeroOrMore (NKeyValue int_t (name_ "row") false);
  NOccur OOptional (NKeyValue (lit_s "meta") (NMap [NOccur OZeroOrMore (NKeyValue tstr_t (NPrelude PAny) false)]) true)]).
Definition names3 : list text :=
  [txt "tree"; txt "t"; txt "opt"; txt "u"; txt "header"; txt "point"; txt "row"; txt "entry"].
Example C67_example :
  tame_b rules_doc2 20 (rd_node doc2) = true /\ orderly_b rules_doc3 20 tab2 [] (rd_node doc3) = true /\
  rules_b names3 [txt "colors"] [txt "pair"] 20 rules_doc2 rules_doc3 = true /\
  wider_b names3 [txt "colors"] [txt "pair"] 20 (rd_node doc2) (rd_node doc3) = true /\
  run_validate demo_ext (basic_context rules_doc2) doc2_value doc2 = Ok tt /\
  run_validate demo_ext (basic_context rules_doc3) doc2_value doc3 = Ok tt /\
  wider_b names3 [txt "colors"] [txt "pair"] 20 (rd_node doc3) (rd_node doc2) = false.
Proof.
  split; [vm_compute; reflexivity|]. split; [vm_compute; reflexivity|]. split; [vm_compute; reflexivity|]. split; [vm_compute; reflexivity|].
  split; [apply (run_validate_run _ _ 60); vm_compute; reflexivity|].
  split; [apply (run_validate_run _ _ 60); vm_compute; reflexivity|vm_compute; reflexivity].
Qed.

(** ** Without these conditions a change that only adds something can reject data. *)

(** [ [int, int] ] accepts [[1, 2]]; with a new optional element in front,
    [ [? int, int, int] ], it does not. *)
Theorem C67_greedy_refuted : exists ms ms' v, wf_value v /\
  forall X lk lk' old plain amp tilde, wider X lk lk' old plain amp tilde (NArray ms) (NArray ms') /\
  forall c, val X lk v (NArray ms) c = Ok tt /\ exists m, val X lk' v (NArray ms') c = Err (EMismatch m).
Proof.
  exists [int_t; int_t], [NOccur OOptional int_t; int_t; int_t], (VArray [vi 1; vi 2]). split; [wf|]. intros. split.
  - apply wide_core, wide_array. apply mem_new; [reflexivity|exact Logic.I|].
    assert (wider X lk lk' old plain amp tilde int_t int_t).
    { apply wide_core, wide_leaf; auto. intros c c' v _ _ _. rewrite !val_eq. auto. }
    apply mem_same; auto. apply mem_same; auto. apply mem_end.
  - intros c. split; [apply (val_run _ _ 10); reflexivity|eexists; apply (val_run _ _ 10); reflexivity].
Qed.
(** A new optional entry is not a wider schema when it comes before a wildcard:
    [{* tstr => any}] accepts [{"b": "x"}], and [{? b: int, * tstr => any}] does not,
    because [b:] claims the key. *)
Theorem C67_cut_refuted : exists ms m v, wf_value v /\ forall X lk lk' c,
  val X lk v (NMap ms) c = Ok tt /\ exists msg, val X lk' v (NMap (NOccur OOptional m :: ms)) c = Err (EMismatch msg).
Proof.
  exists [NOccur OZeroOrMore (NKeyValue tstr_t (NPrelude PAny) false)], (NKeyValue (lit_s "b") int_t true), (VMap [(vs "b", vs "x")]).
  split; [wf|]. intros. split; [apply (val_run _ _ 10); reflexivity|eexists; apply (val_run _ _ 10); reflexivity].
Qed.
(** After the wildcard it is harmless. *)
Example C67_last_example : forall X,
  wider_b [] [] [] 5 (NMap [NOccur OZeroOrMore (NKeyValue tstr_t (NPrelude PAny) false)])
    (NMap [NOccur OZeroOrMore (NKeyValue tstr_t (NPrelude PAny) false); NOccur OOptional (NKeyValue (lit_s "b") int_t true)]) = true /\
  wider_b [] [] [] 5 (NMap [NOccur OZeroOrMore (NKeyValue tstr_t (NPrelude PAny) false)])
    (NMap [NOccur OOptional (NKeyValue (lit_s "b") int_t true); NOccur OZeroOrMore (NKeyValue tstr_t (NPrelude PAny) false)]) = false /\
  val X no_rules (VMap [(vs "b", vs "x")]) (NMap [NOccur OZeroOrMore (NKeyValue tstr_t (NPrelude PAny) false);
    NOccur OOptional (NKeyValue (lit_s "b") int_t true)]) initial_ctx = Ok tt.
Proof. intros X. split; [reflexivity|]. split; [reflexivity|]. apply (val_run _ _ 10); reflexivity. Qed.

Print Assumptions C67_described.
Print Assumptions C67_widening_partial.
Print Assumptions C67_checked_partial.
Print Assumptions C67_greedy_refuted.
Print Assumptions C67_cut_refuted.
