(** Reading schemas on their text: C68. *)
From Coq Require Import List Bool ZArith NArith String Lia.
From Verif Require Import Base Util Data Value Convert Ivt Validate Total Ast Flatten Fun ValueOrder ConvertProofs SpecConvert ConvertExact
  SpecBase SpecScalar SpecCtx SpecFlatten FlattenProofs CtxProofs Parser SpecReading Api ApiData SpecPeg TameCheck
  SpecSchema SchemaBase SchemaLeaf SchemaProofs
  PropsData PropsMeaning PropsNames PropsFlatten PropsApi PropsRead PropsDefect PropsEnd Demo.
Import ListNotations.
Open Scope list_scope.

Section Props.
Variable X : ext.

Lemma context_defs c rs name def : flatten X c = Ok rs -> basic_context rs name = inl def ->
  exists r, last_rule name r c /\ means_rule (regex_compiles X) r def.
Proof.
  unfold basic_context. intros F G. destruct (rules_get rs name) eqn:E; [|discriminate]. inversion G; subst.
  apply (C38_last_definition_wins X c rs name def F). exact E.
Qed.
Lemma context_defined c rs name r : flatten X c = Ok rs -> last_rule name r c ->
  exists def, basic_context rs name = inl def /\ means_rule (regex_compiles X) r def.
Proof.
  intros F L. pose proof F as F'. apply flatten_ok in F'. destruct F' as (l & F2 & _). destruct (last_pair _ _ _ name (RuleDef [] (NLiteral (LBool true))) F2) as [_ H].
  destruct (H r L) as (d & _ & M). exists d. split; auto. unfold basic_context.
  rewrite (proj2 (C38_last_definition_wins X c rs name d F)); eauto.
Qed.

(** ** C68.  What a rule describes can be read off the schema as written: choices,
    occurrences, members, keys and cuts, generics, names of the last rule, controls
    and ranges, standard types.  The declarative meaning of the rule's validation
    tree (C29, C59) is that reading. *)
Theorem C68_reading_exact : forall c rs name def v,
  flatten X c = Ok rs -> rules_get rs name = Some def -> rd_parms def = [] ->
  (means X (basic_context rs) initial_ctx (rd_node def) (AValue v) <-> described X c 50 name v).
Proof.
  intros c rs name def v F G P. apply (C38_last_definition_wins X c rs name def F) in G. destruct G as (r & L & M).
  destruct (rule_flat X _ _ M) as [Fl Pr].
  pose proof (reading_exact X c (basic_context rs) (fun n d => context_defs c rs n d F) (fun n r => context_defined c rs n r F)
    initial_ctx top (body r) (rd_node def) (AValue v) (fits_top X) Fl) as E. cbn [image] in E.
  rewrite E. split.
  - intros S. exists r. repeat split; auto. congruence.
  - intros (r' & L' & P' & S). rewrite (last_rule_unique _ _ _ _ L' L) in S. exact S.
Qed.

Lemma read_schema s c rs name def : u_cddl X s c -> flatten X c = Ok rs -> rules_get rs name = Some def -> rd_parms def = [] ->
  schema X s name rs def.
Proof.
  intros U F G P. apply C61_exact in U. apply (C38_last_definition_wins X c rs name def F) in G. destruct G as (r & L & M).
  exists c, r. auto.
Qed.
(** Of a text [s] read as the rules [c]: when the rule passes the checks, the data
    accepted is the data described, and other data is a mismatch. *)
Theorem C68_json : forall s c rs name def data v,
  u_cddl X s c -> flatten X c = Ok rs -> rules_get rs name = Some def -> rd_parms def = [] -> checked rs def ->
  json_data X data v ->
  (described X c 50 name v /\ validate_json_str X name s data = Ok tt) \/
  (~ described X c 50 name v /\ exists m, validate_json_str X name s data = Err (EMismatch m)).
Proof.
  intros s c rs name def data v U F G P C D. pose proof (C68_reading_exact c rs name def v F G P) as R.
  destruct (C58_json_exact X s name rs def data v (read_schema _ _ _ _ _ U F G P) C D) as [[M E]|[M E]]; [left|right]; rewrite <- R; auto.
Qed.
Theorem C68_cbor : forall s c rs name def data v,
  u_cddl X s c -> flatten X c = Ok rs -> rules_get rs name = Some def -> rd_parms def = [] -> checked rs def ->
  cbor_data X data v ->
  (described X c 50 name v /\ validate_cbor_bytes X name s data = Ok tt) \/
  (~ described X c 50 name v /\ exists m, validate_cbor_bytes X name s data = Err (EMismatch m)).
Proof.
  intros s c rs name def data v U F G P C D. pose proof (C68_reading_exact c rs name def v F G P) as R.
  destruct (C58_cbor_exact X s name rs def data v (read_schema _ _ _ _ _ U F G P) C D) as [[M E]|[M E]]; [left|right]; rewrite <- R; auto.
Qed.
(** On the larger class of tame schemas, what is accepted is described. *)
Theorem C68_accepted_described : forall s c rs name def n,
  u_cddl X s c -> flatten X c = Ok rs -> rules_get rs name = Some def -> rd_parms def = [] -> tame_b rs n (rd_node def) = true ->
  (forall data v, json_data X data v -> validate_json_str X name s data = Ok tt -> described X c 50 name v) /\
  (forall data v, cbor_data X data v -> validate_cbor_bytes X name s data = Ok tt -> described X c 50 name v).
Proof.
  intros s c rs name def n U F G P T. destruct (end_runs X s name rs def (read_schema _ _ _ _ _ U F G P)) as [J C]. split.
  - intros data v D V. destruct (J _ _ D) as [W Q]. apply (C68_reading_exact c rs name def v F G P). eapply C29_checked_partial; eauto. congruence.
  - intros data v D V. destruct (C _ _ D) as [W Q]. apply (C68_reading_exact c rs name def v F G P). eapply C29_checked_partial; eauto. congruence.
Qed.
End Props.

(** ** Non-vacuity: the schema of C58, [person = {name: tstr, ? age: small, * tstr =>
    [* tstr / small]} small = 0..99]. *)
Definition ty (s : string) : type1 := T1Simple (T2Typename (txt s) []).
Definition person_tree : cddl :=
  [Rule (txt "person") [] (AssignType [T1Simple (T2Map [[
     GrpEnt None (GMember (Some (MKey (MKBareword (txt "name")) true)) [ty "tstr"]);
     GrpEnt (Some OOptional) (GMember (Some (MKey (MKBareword (txt "age")) true)) [ty "small"]);
     GrpEnt (Some OZeroOrMore) (GMember (Some (MKey (MKType1 (ty "tstr")) false))
       [T1Simple (T2Array [[GrpEnt (Some OZeroOrMore) (GMember None [ty "tstr"; ty "small"])]])])]])]);
   Rule (txt "small") [] (AssignType [T1Range (T2Value (AUint 0)) (T2Value (AUint 99)) true])].
Lemma person_read : u_cddl two_ext end_schema person_tree.
Proof. apply C61_exact. vm_compute. reflexivity. Qed.
Lemma person_flat : flatten two_ext person_tree = Ok end_rules.
Proof. vm_compute. reflexivity. Qed.
Example C68_example :
  u_cddl two_ext end_schema person_tree /\ flatten two_ext person_tree = Ok end_rules /\
  rules_get end_rules (txt "person") = Some person /\ checked end_rules person /\
  json_data two_ext (txt "good") end_value /\
  described two_ext person_tree 50 (txt "person") end_value /\
  ~ described two_ext person_tree 50 (txt "person") (VMap [(vs "name", vi 1)]).
Proof.
  destruct C58_example as (_ & C & J & _ & G & _ & B). split; [exact person_read|]. split; [exact person_flat|].
  split; [vm_compute; reflexivity|]. split; [exact C|]. split; [exact J|]. split.
  - destruct (C68_json two_ext _ _ _ (txt "person") _ _ _ person_read person_flat eq_refl eq_refl C J) as [[D _]|[_ (m & E)]]; [exact D|].
    rewrite G in E. discriminate.
  - assert (J' : json_data two_ext (txt "wrong") (VMap [(vs "name", vi 1)])).
    { eexists. split; [reflexivity|]. split.
      - repeat constructor; cbn; unfold is_scalar; try lia.
      - match goal with |- json_means ?j _ => destruct (of_json_exact j) as (v & E & M) end. vm_compute in E. inversion E; subst. exact M. }
    destruct (C68_json two_ext _ _ _ (txt "person") _ _ _ person_read person_flat eq_refl eq_refl C J') as [[_ D]|[N _]]; [|exact N].
    destruct B as (m & B). rewrite D in B. discriminate.
Qed.

(** Read by hand: [d = 0..9 / tstr  pair<a> = [a, * a]  r = pair<d>] describes
    [1, "x"]. *)
Definition pair_tree : cddl :=
  [Rule (txt "d") [] (AssignType [T1Range (T2Value (AUint 0)) (T2Value (AUint 9)) true; ty "tstr"]);
   Rule (txt "pair") [txt "a"] (AssignType [T1Simple (T2Array [[GrpEnt None (GMember None [ty "a"]); GrpEnt (Some OZeroOrMore) (GMember None [ty "a"])]])]);
   Rule (txt "r") [] (AssignType [T1Simple (T2Typename (txt "pair") [ty "d"])])].
Ltac user := unfold user_name; cbn; intuition discriminate.
Ltac last_of pre post := exists pre, post; split; [reflexivity|split; [reflexivity|cbn; intuition discriminate]].
Example C68_by_hand : forall X, described X pair_tree 50 (txt "r") (VArray [vi 1; vs "x"]).
Proof.
  intros X. exists (nth 2 pair_tree (Rule [] [] (AssignType []))). split; [last_of (firstn 2 pair_tree) (@nil rule)|]. split; [reflexivity|].
  eapply says_choice; [left; reflexivity|]. apply says_simple. eapply says_name; [user| |].
  { eapply stands_rule; [intros []|last_of (firstn 1 pair_tree) (skipn 2 pair_tree)|reflexivity|reflexivity]. }
  eapply says_choice; [left; reflexivity|]. apply says_simple. apply says_array. eapply says_group; [left; reflexivity|].
  assert (D : forall s', stands pair_tree 50 top (txt "d") [] (body (nth 0 pair_tree (Rule [] [] (AssignType [])))) s' -> forall v,
    says X pair_tree 50 s' (body (nth 0 pair_tree (Rule [] [] (AssignType [])))) (One v) ->
    says X pair_tree 50 (Scope [(txt "a", ty "d")] (Some top)) (PType [ty "a"]) (Elements [v])).
  { intros s' St v S. eapply says_choice; [left; reflexivity|]. apply says_element, says_simple. eapply says_name; [user| |].
    - apply stands_parameter with (t := ty "d"). exists [], []. cbn. auto.
    - apply says_simple. eapply says_name; [user|exact St|exact S]. }
  assert (St : stands pair_tree 50 top (txt "d") [] (body (nth 0 pair_tree (Rule [] [] (AssignType [])))) (Scope [] (Some top))).
  { apply (stands_rule pair_tree 50 top (txt "d") []); [intros []|last_of (@nil rule) (skipn 1 pair_tree)|reflexivity|reflexivity]. }
  apply (says_sequence X pair_tree 50 _ _ [[vi 1]; [vs "x"]]). constructor; [|constructor; [|constructor]].
  - apply says_entry, says_member. apply (D _ St). eapply says_choice; [left; reflexivity|].
    apply (says_range X pair_tree 50 _ _ _ _ (T1Simple (T2Value (AUint 0))) (T1Simple (T2Value (AUint 9))) (VInteger 0) (VInteger 9)).
    + apply denotes_here; [repeat constructor; discriminate|]. intros n a [B _]. inversion B; subst. inversion H0.
    + apply (is_plain (AUint 0)).
    + apply denotes_here; [repeat constructor; discriminate|]. intros n a [B _]. inversion B; subst. inversion H0.
    + apply (is_plain (AUint 9)).
    + apply in_range_int. exists 1%Z. cbn. split; auto. lia.
  - apply (says_occur X pair_tree 50 _ OZeroOrMore _ [[vs "x"]]); [split; [apply N.le_0_l|cbn; lia]|]. constructor; [|constructor].
    apply says_member. apply (D _ St). eapply says_choice; [right; left; reflexivity|]. apply says_simple.
    apply (says_standard X pair_tree 50 _ "tstr"). apply (standard_class "tstr" PTstr); [cbn; auto 30|constructor].
Qed.

Print Assumptions C68_reading_exact.
Print Assumptions C68_json.
Print Assumptions C68_cbor.
Print Assumptions C68_accepted_described.
