(** Errors other than a mismatch point at a defect of the schema: C60. *)
From Coq Require Import List Bool ZArith NArith String Lia.
From Verif Require Import Base Util Data Value Convert Ivt Scalar Validate Total Fun SpecBase SpecCtx SpecPos
  SpecVerdict ValueOrder ConvertProofs CtxProofs SpecReach SpecPeg PegProofs PegExact PegTame TameCheck SpecOrderly Orderly
  OrderlyCheck OrderlyDecide SpecDefect DefectProofs DefectCheck Demo PropsData PropsMeaning PropsNames PropsComplete.
Import ListNotations.
Open Scope list_scope.

(** ** C60.  Whatever the data: an error other than a mismatch is explained by a
    defect that can be reached from the rule validated against. *)
Theorem C60_error_has_defect : forall X lk v def e,
  run_validate X lk v def = Err e -> (forall m, e <> EMismatch m) -> (forall m, e <> EMapCut m) ->
  (e = EGenericError /\ rd_parms def <> []) \/
  exists r c nd, uses lk initial_ctx (rd_node def) r c nd /\ defect X lk r c nd e.
Proof.
  intros X lk v def e E M1 M2. destruct (rd_parms def) as [|p ps] eqn:P.
  - right. rewrite run_validate_val in E by auto. eapply val_defect; eauto. destruct e; auto; exfalso; [eapply M1|eapply M2]; reflexivity.
  - left. rewrite run_validate_generic in E by congruence. inversion E. split; auto. congruence.
Qed.
(** So a schema without a reachable defect only ever says yes or no. *)
Theorem C60_no_defect_no_error : forall X rs v def, wf_value v -> rd_parms def = [] ->
  (forall r c nd e, uses (basic_context rs) initial_ctx (rd_node def) r c nd -> ~ defect X (basic_context rs) r c nd e) ->
  run_validate X (basic_context rs) v def = Ok tt \/ exists m, run_validate X (basic_context rs) v def = Err (EMismatch m).
Proof.
  intros X rs v def W P H. destruct (run_validate X (basic_context rs) v def) as [[]|e|] eqn:E; auto.
  - right. assert (C := C20_cut_never_escapes_api X rs v def). destruct e; eauto; exfalso;
      try (eapply C; eauto; fail);
      (destruct (C60_error_has_defect _ _ _ _ _ E) as [(_ & Q)|(r & c & nd & U & D)]; [discriminate|discriminate|congruence|eapply H; eauto]).
  - exfalso. eapply run_nopanic; eauto. apply wf_keys_sorted; auto.
Qed.
(** The absence of defects can be checked by computation, given the list of names
    and roles; what remains is the recursion limit and data that [.cbor] cannot
    decode. *)
Theorem C60_checked : forall X rs v def n tab cb,
  wf_value v -> rd_parms def = [] -> flawless_b rs n tab cb (rd_node def) = true ->
  run_validate X (basic_context rs) v def = Ok tt \/
  (exists m, run_validate X (basic_context rs) v def = Err (EMismatch m)) \/
  run_validate X (basic_context rs) v def = Err limit_error \/
  (cb = true /\ exists m, run_validate X (basic_context rs) v def = Err (EValueError m)).
Proof.
  intros X rs v def n tab cb W P F. destruct (flawless_inv _ _ _ _ _ F) as [I T].
  destruct (run_validate X (basic_context rs) v def) as [[]|e|] eqn:E; auto.
  - right. assert (C := C20_cut_never_escapes_api X rs v def).
    destruct e; try (left; eexists; reflexivity); try (exfalso; eapply C; eauto; fail); right;
      (destruct (C60_error_has_defect _ _ _ _ _ E) as [(_ & Q)|(r & c & nd & U & D)]; [discriminate|discriminate|congruence|];
       assert (I' := uses_inv _ _ _ _ T _ _ I _ _ _ U);
       destruct (inv_defect _ _ _ _ T _ _ _ _ _ I' D) as [(Cb & m0 & Q)|(Q & _)];
       [try discriminate; right; split; auto; exists m0; congruence|left; congruence]).
  - exfalso. eapply run_nopanic; eauto. apply wf_keys_sorted; auto.
Qed.
(** Nor does the limit play a role if the rules are acyclic (of height below 50). *)
Theorem C60_acyclic : forall X rs v def n tab (rank : text -> N),
  wf_value v -> rd_parms def = [] -> flawless_b rs n tab false (rd_node def) = true ->
  (forall name def' name', basic_context rs name = inl def' -> depends def' name' -> (rank name' < rank name)%N) ->
  (forall name, mentions (rd_node def) name -> (rank name < 50)%N) ->
  run_validate X (basic_context rs) v def = Ok tt \/ exists m, run_validate X (basic_context rs) v def = Err (EMismatch m).
Proof.
  intros X rs v def n tab rank W P F R H. destruct (flawless_inv _ _ _ _ _ F) as [I T].
  apply C60_no_defect_no_error; auto. intros r c nd e U D.
  assert (I' := uses_inv _ _ _ _ T _ _ I _ _ _ U).
  destruct (inv_defect _ _ _ _ T _ _ _ _ _ I' D) as [(Cb & _)|(_ & S)]; [discriminate|].
  revert S. apply (shallow_strays rs rank R). eapply (uses_shallow rs rank R); eauto. apply shallow_initial; auto.
Qed.
(** For a schema that passes all checks, acceptance is exactly the declarative
    meaning, and anything else is reported as a mismatch. *)
Theorem C60_decides : forall X rs v def n tab tab' kparams ranks,
  wf_value v -> rd_parms def = [] -> orderly_b rs n tab kparams (rd_node def) = true ->
  flawless_b rs n tab' false (rd_node def) = true -> acyclic_b rs n ranks (rd_node def) = true ->
  (means X (basic_context rs) initial_ctx (rd_node def) (AValue v) /\ run_validate X (basic_context rs) v def = Ok tt) \/
  (~ means X (basic_context rs) initial_ctx (rd_node def) (AValue v) /\
   exists m, run_validate X (basic_context rs) v def = Err (EMismatch m)).
Proof.
  intros X rs v def n tab tab' kparams ranks W P O F A. destruct (acyclic_sound _ _ _ _ A) as [R H].
  destruct (C59_checked_partial X rs v def n tab kparams W P O) as [S C].
  destruct (C60_acyclic X rs v def n tab' (rank_of ranks) W P F R H) as [E|(m & E)].
  - left. auto.
  - right. split; [|eauto]. intros M. destruct (C M) as [Q|(e & Q & Fa)]; rewrite E in Q; inversion Q; subst; discriminate.
Qed.

(** [opt<u> = u / nil
     small = 0..limit
     limit = 100
     header = (version: 1 / 2, ? note: tstr .size 8)
     point = {x: int .lt 1000, y: opt<int>}
     colors = (red: 0, green: 1)
     pair = [tstr, tstr]
     row = [&colors, * (int, tstr) / bool, ? [2*3 small], ~pair]
     doc = {header, shape: opt<point>, (inline: int // ref: tstr), * int => row}] *)
Definition rules_doc3 : rules :=
  [ (txt "opt", RuleDef [txt "u"] (NChoice [name_ "u"; NPrelude PNil]));
    (txt "limit", RuleDef [] (lit_i 100));
    (txt "small", RuleDef [] (NRange (lit_i 0) (name_ "limit") true));
    (txt "header", RuleDef [] (NGroup [NKeyValue (lit_s "version") (NChoice [lit_i 1; lit_i 2]) true;
       NOccur OOptional (NKeyValue (lit_s "note") (NControl (CtlSize tstr_t (lit_i 8))) true)]));
    (txt "point", RuleDef [] (NMap [NKeyValue (lit_s "x") (NControl (CtlLt int_t (lit_i 1000))) true;
       NKeyValue (lit_s "y") (NRule (txt "opt") [int_t]) true]));
    (txt "colors", RuleDef [] (NGroup [NKeyValue (lit_s "red") (lit_i 0) true; NKeyValue (lit_s "green") (lit_i 1) true]));
    (txt "pair", RuleDef [] (NArray [tstr_t; tstr_t]));
    (txt "row", RuleDef [] (NArray [NChoiceify (txt "colors") [];
       NOccur OZeroOrMore (NChoice [NGroup [int_t; tstr_t]; bool_t]);
       NOccur OOptional (NArray [NOccur (ONumbered 2 3) (name_ "small")]); NUnwrap (txt "pair") []])) ].
Definition doc3 : rule_def := RuleDef [] (NMap [name_ "header";
  NKeyValue (lit_s "shape") (NRule (txt "opt") [name_ "point"]) true;
  NChoice [NGroup [NKeyValue (lit_s "inline") int_t true]; NGroup [NKeyValue (lit_s "ref") tstr_t true]];
  NOccur OZeroOrMore (NKeyValue int_t (name_ "row") false)]).
Definition tab3 : list (text * role) :=
  [ (txt "opt", AsType); (txt "u", AsType); (txt "header", AsMap); (txt "point", AsType); (txt "colors", AsOneOf);
    (txt "row", AsType); (txt "small", AsType); (txt "small", AsArray); (txt "limit", AsType) ].
Definition ranks3 : list (text * N) := [(txt "small", 1%N); (txt "point", 1%N); (txt "row", 2%N)].
Definition doc3_value : value := VMap
  [ (vi 5, VArray [vi 1; vi 7; vs "seven"; VBool true; VArray [vi 1; vi 100]; vs "p"; vs "q"]);
    (vs "note", vs "12345678"); (vs "ref", vs "r");
    (vs "shape", VMap [(vs "x", vi 1); (vs "y", VNull)]); (vs "version", vi 2) ].
Definition doc3_wrong : value := VMap
  [ (vs "note", vs "1234567"); (vs "ref", vs "r");
    (vs "shape", VMap [(vs "x", vi 1); (vs "y", VNull)]); (vs "version", vi 2) ].
Example C60_example :
  orderly_b rules_doc3 20 tab3 [] (rd_node doc3) = true /\ flawless_b rules_doc3 20 tab3 false (rd_node doc3) = true /\
  acyclic_b rules_doc3 20 ranks3 (rd_node doc3) = true /\ wf_value doc3_value /\ wf_value doc3_wrong /\
  run_validate demo_ext (basic_context rules_doc3) doc3_value doc3 = Ok tt /\
  (exists m, run_validate demo_ext (basic_context rules_doc3) doc3_wrong doc3 = Err (EMismatch m)) /\
  flawless_b rules_doc2 20 tab2 false (rd_node doc2) = true /\
  acyclic_b rules_doc2 20 ranks3 (rd_node doc2) = false.
Proof.
  split; [vm_compute; reflexivity|]. split; [vm_compute; reflexivity|]. split; [vm_compute; reflexivity|].
  split; [wf|]. split; [wf|]. split; [apply (run_validate_run _ _ 60); vm_compute; reflexivity|].
  split; [eexists; apply (run_validate_run _ _ 60); vm_compute; reflexivity|].
  split; vm_compute; reflexivity.
Qed.
(** A defect that is met, and its explanation: [{a: int .size 2}] (a size of an [int]). *)
Definition doc_flawed : rule_def := RuleDef [] (NMap [NKeyValue (lit_s "a") (NControl (CtlSize int_t (lit_i 2))) true]).
Example C60_flawed_example : exists m,
  run_validate demo_ext (basic_context []) (VMap [(vs "a", vi 1)]) doc_flawed = Err (EStructural m) /\
  flawless_b [] 20 [] true (rd_node doc_flawed) = false.
Proof. eexists. split; [apply (run_validate_run _ _ 60); vm_compute; reflexivity|vm_compute; reflexivity]. Qed.

Print Assumptions C60_error_has_defect.
Print Assumptions C60_no_defect_no_error.
Print Assumptions C60_checked.
Print Assumptions C60_acyclic.
Print Assumptions C60_decides.
