(** Generic rules: C14. *)
From Coq Require Import List Bool ZArith NArith String Lia.
From Verif Require Import Base Util Data Value Convert Ivt Scalar Validate Total Fun SpecBase SpecCtx
  ValueOrder ConvertProofs CtxProofs SpecVerdict Stutter SpecExpand Expand ExpandCheck Demo PropsNames.
Import ListNotations.
Open Scope list_scope.

(** ** C14.  Validation with contexts has the verdict of validation by macro
    expansion, where an application of a rule is its body with the parameters
    replaced by the (already expanded) arguments, and every remaining name is global. *)
Theorem C14_macro_expansion_partial : forall X lk v def,
  wf_value v -> rd_parms def = [] -> expandable lk (rd_node def) ->
  within_limit X lk v (rd_node def) initial_ctx ->
  exists n r, validate X (lookup_expand lk) n v (rd_node def) tt = Some r /\
    same_verdict (run_validate X lk v def) r.
Proof.
  intros X lk v def W P Ex L. rewrite run_validate_val by auto.
  apply expansion; auto. apply wf_keys_sorted; auto.
Qed.

(** The class can be checked by computation. *)
Theorem C14_checked_partial : forall X rs targets sized sized_params v def,
  wf_value v -> rd_parms def = [] -> expandable_b rs (rd_node def) targets sized sized_params = true ->
  within_limit X (basic_context rs) v (rd_node def) initial_ctx ->
  exists n r, validate X (lookup_expand (basic_context rs)) n v (rd_node def) tt = Some r /\
    same_verdict (run_validate X (basic_context rs) v def) r.
Proof.
  intros X rs targets sized sized_params v def W P B L. apply C14_macro_expansion_partial; auto.
  eapply expandable_checked; eauto.
Qed.

(** A rule set that passes parameters on under the same name, nests applications,
    uses [~] and [&], and uses parameters as the end of a range and as a size. *)
Definition rules_gen : rules :=
  [ (txt "opt", RuleDef [txt "t"] (NChoice [name_ "t"; NPrelude PNil]));
    (txt "pair", RuleDef [txt "t"; txt "u"] (NArray [name_ "t"; name_ "u"]));
    (txt "swap", RuleDef [txt "t"; txt "u"]
       (NRule (txt "pair") [NRule (txt "opt") [name_ "u"]; NRule (txt "opt") [name_ "t"]]));
    (txt "u", RuleDef [] (NPrelude PBool));
    (txt "both", RuleDef [txt "t"] (NArray [NUnwrap (txt "pair") [name_ "t"; name_ "u"]; NChoiceify (txt "col") []]));
    (txt "col", RuleDef [] (NGroup [NKeyValue (lit_s "red") (lit_i 1) true; NKeyValue (lit_s "blue") (lit_i 2) true]));
    (txt "upto", RuleDef [txt "t"] (NRange (lit_i 0) (name_ "t") true));
    (txt "fits", RuleDef [txt "n"] (NControl (CtlSize tstr_t (name_ "n"))));
    (txt "short", RuleDef [] (NRange (lit_i 0) (lit_i 4) true)) ].
Definition lk_gen := basic_context rules_gen.
Definition start_gen := NArray [NRule (txt "swap") [int_t; name_ "u"]; NRule (txt "both") [NRule (txt "opt") [tstr_t]]].

Definition start_lim := NArray [NRule (txt "opt") [NRule (txt "upto") [lit_i 9]]; NRule (txt "fits") [name_ "short"]].
Example C14_example :
  expandable lk_gen start_gen /\ within_limit demo_ext lk_gen
    (VArray [VArray [VBool true; VNull]; VArray [vs "x"; VBool false; vi 2]]) start_gen initial_ctx /\
  val demo_ext lk_gen (VArray [VArray [VBool true; VNull]; VArray [vs "x"; VBool false; vi 2]]) start_gen initial_ctx = Ok tt /\
  rejected (val demo_ext lk_gen (VArray [VArray [vi 1; VNull]; VArray [vs "x"; VBool false; vi 2]]) start_gen initial_ctx) /\
  validate demo_ext (lookup_expand lk_gen) 30
    (VArray [VArray [VBool true; VNull]; VArray [vs "x"; VBool false; vi 2]]) start_gen tt = Some (Ok tt).
Proof.
  split; [apply (expandable_checked _ _ [txt "pair"; txt "col"] [txt "short"] [([txt "n"], txt "n")]); vm_compute; reflexivity|].
  split; [exists 30, (Ok tt); split; [vm_compute; reflexivity|discriminate]|].
  split; [run 30|]. split; [eexists; run 30|]. vm_compute. reflexivity.
Qed.
Example C14_limits_example :
  expandable_b rules_gen start_lim [txt "pair"; txt "col"] [txt "short"] [([txt "n"], txt "n")] = true /\
  within_limit demo_ext lk_gen (VArray [vi 7; vs "abc"]) start_lim initial_ctx /\
  val demo_ext lk_gen (VArray [vi 7; vs "abc"]) start_lim initial_ctx = Ok tt /\
  rejected (val demo_ext lk_gen (VArray [vi 10; vs "abc"]) start_lim initial_ctx) /\
  rejected (val demo_ext lk_gen (VArray [vi 7; vs "abcde"]) start_lim initial_ctx) /\
  validate demo_ext (lookup_expand lk_gen) 30 (VArray [vi 7; vs "abc"]) start_lim tt = Some (Ok tt).
Proof.
  split; [vm_compute; reflexivity|].
  split; [exists 30, (Ok tt); split; [vm_compute; reflexivity|discriminate]|].
  split; [run 30|]. split; [eexists; run 30|]. split; [eexists; run 30|]. vm_compute. reflexivity.
Qed.

(** The unrestricted claim is false.  An application differs from the body with the
    argument written in it when the parameter is unwrapped, *)
Theorem C14_refuted_unwrap : forall X,
  let lk := basic_context [ (txt "r", RuleDef [txt "p"] (NArray [NUnwrap (txt "p") []])); (txt "q", RuleDef [] (NArray [int_t])) ] in
  rejected (val X lk (VArray [vi 1]) (NRule (txt "r") [name_ "q"]) initial_ctx) /\
  val X lk (VArray [vi 1]) (NArray [NUnwrap (txt "q") []]) initial_ctx = Ok tt.
Proof. intros X; cbn zeta. split; [eexists; run 10|run 10]. Qed.
(** when it bounds a size range, *)
Theorem C14_refuted_size_range : forall X,
  let lk := basic_context [ (txt "r", RuleDef [txt "p"] (NControl (CtlSize tstr_t (NRange (lit_i 0) (name_ "p") true)))) ] in
  (exists m, val X lk (vs "x") (NRule (txt "r") [lit_i 4]) initial_ctx = Err m /\ forall t, m <> EMismatch t) /\
  val X lk (vs "x") (instance (RuleDef [txt "p"] (NControl (CtlSize tstr_t (NRange (lit_i 0) (name_ "p") true)))) [lit_i 4]) initial_ctx = Ok tt.
Proof. intros X; cbn zeta. split; [eexists; split; [run 10|discriminate]|run 10]. Qed.
(** and when it is a member of an inline choice. *)
Theorem C14_refuted_inline_choice : forall X,
  let body := NChoiceifyInline [NKeyValue (lit_s "a") (lit_i 1) true; name_ "p"] in
  let lk := basic_context [ (txt "r", RuleDef [txt "p"] body) ] in
  (exists m, val X lk (vi 2) (NRule (txt "r") [lit_i 2]) initial_ctx = Err m /\ forall t, m <> EMismatch t) /\
  val X lk (vi 2) (instance (RuleDef [txt "p"] body) [lit_i 2]) initial_ctx = Ok tt.
Proof. intros X; cbn zeta. split; [eexists; split; [run 10|discriminate]|run 10]. Qed.

Print Assumptions C14_macro_expansion_partial.
Print Assumptions C14_checked_partial.
Print Assumptions C14_refuted_unwrap.
Print Assumptions C14_refuted_size_range.
Print Assumptions C14_refuted_inline_choice.
