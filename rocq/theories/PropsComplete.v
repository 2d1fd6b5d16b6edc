(** Everything the schema describes is accepted, when one element of look-ahead suffices: C59. *)
From Coq Require Import List Bool ZArith NArith String Lia Permutation.
From Verif Require Import Base Util Data Value Convert Ivt Scalar Validate Total Fun SpecBase SpecCtx SpecPos
  SpecVerdict ValueOrder ConvertProofs CtxProofs SpecPeg PegProofs PegExact PegTame TameCheck SpecOrderly Orderly
  OrderlyCheck OrderlyDecide Demo PropsData PropsMeaning.
Import ListNotations.
Open Scope list_scope.

(** ** C59.  On orderly schemas the verdict is the one of the declarative reading:
    accepted data is described, and data that is described is accepted (or the
    schema itself is reported to be wrong). *)
Theorem C59_exact_partial : forall X lk v def,
  (forall name e, lk name = inr e -> is_fatal e = true) -> wf_value v -> rd_parms def = [] ->
  orderly X lk initial_ctx (rd_node def) ->
  (run_validate X lk v def = Ok tt -> means X lk initial_ctx (rd_node def) (AValue v)) /\
  (means X lk initial_ctx (rd_node def) (AValue v) ->
   run_validate X lk v def = Ok tt \/ exists e, run_validate X lk v def = Err e /\ is_fatal e = true).
Proof.
  intros X lk v def Hl W P O. split.
  - apply C29_soundness_partial; auto. apply (ord_tame _ _ _ _ O).
  - intros M. rewrite run_validate_val by auto. eapply orderly_complete; eauto. apply wf_keys_sorted; auto.
Qed.
(** A mismatch is reported only for data that the schema does not describe. *)
Theorem C59_mismatch_justified_partial : forall X lk v def m,
  (forall name e, lk name = inr e -> is_fatal e = true) -> wf_value v -> rd_parms def = [] ->
  orderly X lk initial_ctx (rd_node def) ->
  run_validate X lk v def = Err (EMismatch m) -> ~ means X lk initial_ctx (rd_node def) (AValue v).
Proof.
  intros X lk v def m Hl W P O E M. destruct (C59_exact_partial X lk v def Hl W P O) as [_ H].
  destruct (H M) as [Q|(e & Q & F)]; rewrite E in Q; inversion Q; subst. discriminate.
Qed.
(** The class can be checked by computation, given the list of names and roles. *)
Theorem C59_checked_partial : forall X rs v def n tab kparams,
  wf_value v -> rd_parms def = [] -> orderly_b rs n tab kparams (rd_node def) = true ->
  (run_validate X (basic_context rs) v def = Ok tt -> means X (basic_context rs) initial_ctx (rd_node def) (AValue v)) /\
  (means X (basic_context rs) initial_ctx (rd_node def) (AValue v) ->
   run_validate X (basic_context rs) v def = Ok tt \/
   exists e, run_validate X (basic_context rs) v def = Err e /\ is_fatal e = true).
Proof.
  intros. apply C59_exact_partial; auto; [apply basic_fatal|]. eapply orderly_b_orderly; eauto.
Qed.

(** [tree<t> = [value: t, * tree<t>]
     opt<t> = t / nil
     header = (version: 1 / 2, ? note: tstr)
     point = {x: int, y: int}
     colors = (red: 0, green: 1)
     pair = [tstr, tstr]
     row = [&colors, * (int, tstr) / bool, ? [2*3 int], ~pair]
     entry = {? name: tstr, * tstr => any}
     doc = {header, shape: tree<opt<point>>, (inline: int // ref: tstr), ? extra: entry, * int => row}] *)
Definition rules_doc2 : rules :=
  [ (txt "tree", RuleDef [txt "t"] (NArray [NKeyValue (lit_s "value") (name_ "t") true;
       NOccur OZeroOrMore (NRule (txt "tree") [name_ "t"])]));
    (txt "opt", RuleDef [txt "u"] (NChoice [name_ "u"; NPrelude PNil]));
    (txt "header", RuleDef [] (NGroup [NKeyValue (lit_s "version") (NChoice [lit_i 1; lit_i 2]) true;
       NOccur OOptional (NKeyValue (lit_s "note") tstr_t true)]));
    (txt "point", RuleDef [] (NMap [NKeyValue (lit_s "x") int_t true; NKeyValue (lit_s "y") int_t true]));
    (txt "colors", RuleDef [] (NGroup [NKeyValue (lit_s "red") (lit_i 0) true; NKeyValue (lit_s "green") (lit_i 1) true]));
    (txt "pair", RuleDef [] (NArray [tstr_t; tstr_t]));
    (txt "row", RuleDef [] (NArray [NChoiceify (txt "colors") [];
       NOccur OZeroOrMore (NChoice [NGroup [int_t; tstr_t]; bool_t]);
       NOccur OOptional (NArray [NOccur (ONumbered 2 3) int_t]); NUnwrap (txt "pair") []]));
    (txt "entry", RuleDef [] (NMap [NOccur OOptional (NKeyValue (lit_s "name") tstr_t true);
       NOccur OZeroOrMore (NKeyValue tstr_t (NPrelude PAny) false)])) ].
Definition doc2 : rule_def := RuleDef [] (NMap [name_ "header";
  NKeyValue (lit_s "shape") (NRule (txt "tree") [NRule (txt "opt") [name_ "point"]]) true;
  NChoice [NGroup [NKeyValue (lit_s "inline") int_t true]; NGroup [NKeyValue (lit_s "ref") tstr_t true]];
  NOccur OOptional (NKeyValue (lit_s "extra") (name_ "entry") true);
  NOccur OZeroOrMore (NKeyValue int_t (name_ "row") false)]).
Definition tab2 : list (text * role) :=
  [ (txt "tree", AsType); (txt "tree", AsArray); (txt "t", AsType); (txt "opt", AsType); (txt "u", AsType);
    (txt "header", AsMap); (txt "point", AsType); (txt "colors", AsOneOf); (txt "row", AsType); (txt "entry", AsType) ].
Definition doc2_value : value := VMap
  [ (vi 5, VArray [vi 1; vi 7; vs "seven"; VBool true; VArray [vi 1; vi 2]; vs "p"; vs "q"]);
    (vs "extra", VMap [(vs "other", VBool true)]); (vs "ref", vs "r");
    (vs "shape", VArray [VNull; VArray [VMap [(vs "x", vi 1); (vs "y", vi 2)]]]); (vs "version", vi 2) ].
(** A value for [name] that is not a text is not left to [* tstr => any]. *)
Definition doc2_wrong : value := VMap
  [ (vs "extra", VMap [(vs "name", VBool true)]); (vs "inline", vi 3);
    (vs "shape", VArray [VNull]); (vs "version", vi 2) ].
Example C59_example :
  orderly_b rules_doc2 20 tab2 [] (rd_node doc2) = true /\ wf_value doc2_value /\ wf_value doc2_wrong /\
  run_validate demo_ext (basic_context rules_doc2) doc2_value doc2 = Ok tt /\
  means demo_ext (basic_context rules_doc2) initial_ctx (rd_node doc2) (AValue doc2_value) /\
  ~ means demo_ext (basic_context rules_doc2) initial_ctx (rd_node doc2) (AValue doc2_wrong).
Proof.
  assert (O : orderly_b rules_doc2 20 tab2 [] (rd_node doc2) = true) by (vm_compute; reflexivity).
  assert (W : wf_value doc2_value) by wf. assert (W' : wf_value doc2_wrong) by wf.
  assert (R : run_validate demo_ext (basic_context rules_doc2) doc2_value doc2 = Ok tt) by (apply (run_validate_run _ _ 60); vm_compute; reflexivity).
  split; auto. split; auto. split; auto. split; auto. split; [eapply C59_checked_partial; eauto|].
  assert (E : exists m, run_validate demo_ext (basic_context rules_doc2) doc2_wrong doc2 = Err (EMismatch m)).
  { eexists. apply (run_validate_run _ _ 60); vm_compute; reflexivity. }
  destruct E as (m & E). eapply C59_mismatch_justified_partial; eauto; [apply basic_fatal|].
  eapply orderly_b_orderly; eauto.
Qed.

(** ** Outside the class completeness is false. *)

(** [ [* int, int] ] does not accept [1]: the repetition is greedy. *)
Lemma vint X lk c z : means X lk c int_t (AValue (vi z)).
Proof. apply leaf_means; auto. rewrite val_eq. reflexivity. Qed.
Theorem C59_greedy_array_refuted : exists ms v, wf_value v /\ forall X lk c,
  means X lk c (NArray ms) (AValue v) /\ exists m, val X lk v (NArray ms) c = Err (EMismatch m).
Proof.
  exists [NOccur OZeroOrMore int_t; int_t], (VArray [vi 1]). split; [wf|]. intros X lk c. split.
  - apply (mean_array X lk c _ [[]; [vi 1]]). constructor; [|constructor; [|constructor]].
    + apply (mean_occur X lk c OZeroOrMore int_t []); [cbn; split; apply N.le_0_l|constructor].
    + apply (mean_element X lk c _ int_t); [reflexivity|]. apply vint.
  - eexists. apply (val_run _ _ 8); reflexivity.
Qed.
(** [{* tstr => int, a: tstr}] does not accept [{"a": "x", "b": 1}]: the first
    key of the right type decides. *)
Theorem C59_greedy_map_refuted : exists ms v, wf_value v /\ forall X lk c,
  means X lk c (NMap ms) (AValue v) /\ exists m, val X lk v (NMap ms) c = Err (EMismatch m).
Proof.
  exists [NOccur OZeroOrMore (NKeyValue tstr_t int_t false); NKeyValue (lit_s "a") tstr_t true],
    (VMap [(vs "a", vs "x"); (vs "b", vi 1)]).
  split; [wf|]. intros X lk c. split.
  - apply (mean_map X lk c _ [[(vs "b", vi 1)]; [(vs "a", vs "x")]]).
    + constructor; [|constructor; [|constructor]].
      * apply (mean_occur_entries X lk c OZeroOrMore _ [[(vs "b", vi 1)]]); [vm_compute; split; discriminate| |reflexivity].
        constructor; [|constructor]. apply mean_entry; [|apply vint]. apply leaf_means; auto. rewrite val_eq. reflexivity.
      * apply mean_entry; apply leaf_means; auto; rewrite val_eq; reflexivity.
    + cbn. split; [|tauto]. intros k H. inversion H; subst. inversion H5.
    + apply perm_swap.
  - eexists. apply (val_run _ _ 8); vm_compute; reflexivity.
Qed.
(** [ [(? int // tstr)] ] does not accept [["x"]]: an alternative that may be empty hides the later ones. *)
Theorem C59_empty_alternative_refuted : exists ms v, wf_value v /\ forall X lk c,
  means X lk c (NArray ms) (AValue v) /\ exists m, val X lk v (NArray ms) c = Err (EMismatch m).
Proof.
  exists [NChoice [NGroup [NOccur OOptional int_t]; NGroup [tstr_t]]], (VArray [vs "x"]). split; [wf|]. intros X lk c. split.
  - apply (mean_array X lk c _ [[vs "x"]]). constructor; [|constructor].
    apply mean_choice with (t := NGroup [tstr_t]); [right; left; reflexivity|].
    apply (mean_group X lk c _ [[vs "x"]]). constructor; [|constructor].
    apply (mean_element X lk c _ tstr_t); [reflexivity|]. apply leaf_means; auto. rewrite val_eq. reflexivity.
  - eexists. apply (val_run _ _ 10); reflexivity.
Qed.

Print Assumptions C59_exact_partial.
Print Assumptions C59_mismatch_justified_partial.
Print Assumptions C59_checked_partial.
Print Assumptions C59_greedy_array_refuted.
Print Assumptions C59_greedy_map_refuted.
Print Assumptions C59_empty_alternative_refuted.
