(** Rewriting a schema without changing its verdicts: C11, C54, C55, C56, C57. *)
From Coq Require Import List Bool ZArith NArith String Lia Permutation.
From Verif Require Import Base Util Data Value Convert Ivt Scalar Validate Total Fun SpecBase SpecCtx
  ValueOrder ConvertProofs CtxProofs SpecVerdict SpecInline Inline Splice SpecChoose Choose Demo PropsNames.
Import ListNotations.
Open Scope list_scope.

(** ** C11.  Definitions written in place of references anywhere: in types, members,
    keys, control operands, arguments, and in the other rules. *)
Theorem C11_anywhere : forall X lk lk2 targets v def def2,
  wf_value v -> inlined_rules lk targets lk2 -> rd_parms def = [] -> rd_parms def2 = [] ->
  inl lk targets [] (rd_node def) (rd_node def2) ->
  within_limit X lk v (rd_node def) initial_ctx ->
  same_verdict (run_validate X lk v def) (run_validate X lk2 v def2).
Proof.
  intros X lk lk2 targets v def def2 W HR P1 P2 H L. rewrite !run_validate_val by auto.
  apply (inlining X lk lk2 targets HR); auto. apply wf_keys_sorted; auto.
Qed.

(** A schema, and the same schema in which a name in a choice, the name of a group,
    an unwrapped array, a key, an argument and the operand of [.size] have been
    replaced; one reference is replaced in a rule that is kept. *)
Definition rules_orig : rules :=
  [ (txt "num", RuleDef [] (NChoice [int_t; NPrelude PFloat]));
    (txt "pt", RuleDef [] (NGroup [name_ "num"; name_ "num"]));
    (txt "hdr", RuleDef [] (NArray [tstr_t; name_ "len"]));
    (txt "len", RuleDef [] (lit_i 2));
    (txt "k", RuleDef [] (lit_s "x"));
    (txt "opt", RuleDef [txt "t"] (NChoice [name_ "t"; NPrelude PNil]));
    (txt "top", RuleDef [] (NArray [NUnwrap (txt "hdr") []; name_ "pt"; NOccur OOptional (NRule (txt "opt") [name_ "num"]);
       NMap [NKeyValue (name_ "k") (NControl (CtlSize tstr_t (name_ "len"))) false]])) ].
Definition top_inlined : node :=
  NArray [tstr_t; lit_i 2; name_ "num"; NChoice [int_t; NPrelude PFloat];
    NOccur (ONumbered 0 1) (NRule (txt "opt") [NChoice [int_t; NPrelude PFloat]]);
    NMap [NKeyValue (lit_s "x") (NControl (CtlSize tstr_t (lit_i 2))) false]].
Definition rules_inlined : rules :=
  [ (txt "num", RuleDef [] (NChoice [int_t; NPrelude PFloat]));
    (txt "pt", RuleDef [] (NGroup [NChoice [int_t; NPrelude PFloat]; name_ "num"]));
    (txt "hdr", RuleDef [] (NArray [tstr_t; name_ "len"]));
    (txt "len", RuleDef [] (lit_i 2));
    (txt "k", RuleDef [] (lit_s "x"));
    (txt "opt", RuleDef [txt "t"] (NChoice [name_ "t"; NPrelude PNil]));
    (txt "top", RuleDef [] top_inlined) ].
Definition value_orig (z : Z) := VArray [vs "h"; vi 2; vi z; VFloat 0; VNull; VMap [(vs "x", vs "ab")]].
Definition aim (nm : text) : Prop := nm = txt "hdr".


(** Prove [inl] by replacing a name only where the other side is not that name. *)
Ltac same :=
  lazymatch goal with
  | |- Forall2 _ [] [] => apply Forall2_nil
  | |- Forall2 _ (_ :: _) (_ :: _) => apply Forall2_cons; same
  | |- Forall _ _ => repeat constructor; intros; discriminate
  | |- inl _ _ _ (NRule ?nm ?a) (NRule ?nm ?b) => apply in_kin, kin_rule; same
  | |- inl _ _ [] (NRule _ []) _ => eapply in_place; [intros []|vm_compute; reflexivity|same|intros ? ? []]
  | |- inl _ _ _ _ _ => apply in_kin; same
  | |- kin _ _ _ (NLiteral _) _ => apply kin_literal
  | |- kin _ _ _ (NPrelude _) _ => apply kin_prelude
  | |- kin _ _ _ (NChoice _) _ => apply kin_choice; same
  | |- kin _ _ _ (NGroup _) _ => apply kin_group; same
  | |- kin _ _ _ (NArray _) _ => apply kin_array; same
  | |- kin _ _ _ (NMap _) _ => apply kin_map; same
  | |- kin _ _ _ (NKeyValue _ _ _) _ => apply kin_kv; same
  | |- kin _ _ _ (NOccur _ _) _ => apply kin_occur; [reflexivity|same]
  | |- kin _ _ _ (NControl (CtlSize _ _)) _ => apply kin_size; same
  | |- mem _ _ _ _ [] [] => apply mem_nil
  | |- mem _ _ _ _ (_ :: _) (_ :: _) => apply mem_cons; same
  end.
Lemma top_orig_inlined :
  inl (basic_context rules_orig) aim []
    (NArray [NUnwrap (txt "hdr") []; name_ "pt"; NOccur OOptional (NRule (txt "opt") [name_ "num"]);
       NMap [NKeyValue (name_ "k") (NControl (CtlSize tstr_t (name_ "len"))) false]]) top_inlined.
Proof.
  cbv [name_ int_t tstr_t lit_i lit_s top_inlined]. apply in_kin, kin_array.
  apply (mem_unwrap _ _ true [] (txt "hdr") [NPrelude PTstr; NRule (txt "len") []] [NPrelude PTstr; NLiteral (LInt 2)]);
    [intros []|reflexivity|same|intros ? ? _ _ []|].
  apply (mem_rule _ _ true [] (txt "pt") (NGroup [NRule (txt "num") []; NRule (txt "num") []])
    [NRule (txt "num") []; NChoice [NPrelude PInt; NPrelude PFloat]]); [intros []|reflexivity| |intros ? ? _ _ []|same].
  apply (mem_group _ _ true [] [NRule (txt "num") []; NRule (txt "num") []]
    [NRule (txt "num") []; NChoice [NPrelude PInt; NPrelude PFloat]] [] []); same.
Qed.
Lemma rules_orig_inlined : inlined_rules (basic_context rules_orig) aim (basic_context rules_inlined).
Proof.
  apply inlined_basic. pose proof top_orig_inlined as Top.
  assert (L : basic_context rules_orig (txt "num") = Datatypes.inl (RuleDef [] (NChoice [int_t; NPrelude PFloat]))) by reflexivity.
  revert Top L. generalize (basic_context rules_orig) as lk. intros lk Top L. unfold rules_orig, rules_inlined.
  repeat (apply Forall2_cons; [split; [reflexivity|]; split; [reflexivity|]; cbn [fst snd rd_parms rd_node];
    split; [|intros Ht; try (vm_compute in Ht; discriminate Ht)]|]); [..|apply Forall2_nil];
  try exact Top; cbv [name_ int_t tstr_t lit_i lit_s] in *.
  2: { apply in_kin, kin_group, Forall2_cons; [eapply in_place; [intros []|exact L|same|intros ? ? []]|same]. }
  3: { apply tk_array; same. }
  all: same.
Qed.
Example C11_anywhere_example :
  inlined_rules (basic_context rules_orig) aim (basic_context rules_inlined) /\
  inl (basic_context rules_orig) aim [] (name_ "top") top_inlined /\
  within_limit demo_ext (basic_context rules_orig) (value_orig 1) (name_ "top") initial_ctx /\
  val demo_ext (basic_context rules_orig) (value_orig 1) (name_ "top") initial_ctx = Ok tt /\
  val demo_ext (basic_context rules_inlined) (value_orig 1) top_inlined initial_ctx = Ok tt /\
  rejected (val demo_ext (basic_context rules_orig) (VArray [vs "h"; vi 3; vi 1; vi 1; VMap [(vs "x", vs "ab")]]) (name_ "top") initial_ctx) /\
  rejected (val demo_ext (basic_context rules_inlined) (VArray [vs "h"; vi 3; vi 1; vi 1; VMap [(vs "x", vs "ab")]]) top_inlined initial_ctx).
Proof.
  split; [apply rules_orig_inlined|].
  split; [eapply in_place; [intros []|reflexivity|apply top_orig_inlined|intros ? ? []]|].
  split; [exists 20, (Ok tt); split; [vm_compute; reflexivity|discriminate]|].
  split; [run 20|]. split; [run 20|]. split; eexists; run 20.
Qed.

(** Where the program distinguishes a name from its definition: an end of a range
    given to [.size], *)
Theorem C11_refuted_size_range : forall X,
  let lk := basic_context [ (txt "a", RuleDef [] (lit_i 5)) ] in
  (exists m, val X lk (vs "xyz") (NControl (CtlSize tstr_t (NRange (lit_i 1) (name_ "a") true))) initial_ctx = Err m /\
     forall t, m <> EMismatch t) /\
  val X lk (vs "xyz") (NControl (CtlSize tstr_t (NRange (lit_i 1) (lit_i 5) true))) initial_ctx = Ok tt.
Proof. intros X; cbn zeta. split; [eexists; split; [run 10|discriminate]|run 10]. Qed.
(** and an item of [&( ... )]. *)
Theorem C11_refuted_inline_choice : forall X,
  let lk := basic_context [ (txt "a", RuleDef [] (lit_i 5)) ] in
  (exists m, val X lk (vi 5) (NChoiceifyInline [name_ "a"]) initial_ctx = Err m /\ forall t, m <> EMismatch t) /\
  val X lk (vi 5) (NChoiceifyInline [lit_i 5]) initial_ctx = Ok tt.
Proof. intros X; cbn zeta. split; [eexists; split; [run 10|discriminate]|run 10]. Qed.

(** ** C54.  Members written in place. *)
Theorem C54_group_in_array : forall X lk v pre ms post c,
  val X lk v (NArray (pre ++ NGroup ms :: post)) c = val X lk v (NArray (pre ++ ms ++ post)) c.
Proof. intros. apply group_in_array. Qed.
Theorem C54_group_in_map : forall X lk v pre ms post c,
  val X lk v (NMap (pre ++ NGroup ms :: post)) c = val X lk v (NMap (pre ++ ms ++ post)) c.
Proof. intros. apply group_in_map. Qed.
Theorem C54_unwrap_in_array : forall X lk name c v pre ms post,
  gm_get name (ctx_map c) = None -> lk name = Datatypes.inl (RuleDef [] (NArray ms)) ->
  (forall m nm, In m ms -> mentions m nm -> gm_get nm (ctx_map c) = None) ->
  within_limit X lk v (NArray (pre ++ NUnwrap name [] :: post)) c ->
  val X lk v (NArray (pre ++ NUnwrap name [] :: post)) c = val X lk v (NArray (pre ++ ms ++ post)) c.
Proof. intros X lk name c v pre ms post H. apply unwrap_in_array; auto. Qed.
Theorem C54_unwrap_in_map : forall X lk name c v pre ms post,
  gm_get name (ctx_map c) = None -> lk name = Datatypes.inl (RuleDef [] (NMap ms)) ->
  (forall m nm, In m ms -> mentions m nm -> gm_get nm (ctx_map c) = None) ->
  within_limit X lk v (NMap (pre ++ NUnwrap name [] :: post)) c ->
  val X lk v (NMap (pre ++ NUnwrap name [] :: post)) c = val X lk v (NMap (pre ++ ms ++ post)) c.
Proof. intros X lk name c v pre ms post H. apply unwrap_in_map; auto. Qed.
Example C54_example :
  let lk := basic_context rules_orig in
  let v := VArray [vi 1; vs "h"; vi 2; vi 3] in
  within_limit demo_ext lk v (NArray ([int_t] ++ NUnwrap (txt "hdr") [] :: [int_t])) initial_ctx /\
  val demo_ext lk v (NArray ([int_t] ++ NUnwrap (txt "hdr") [] :: [int_t])) initial_ctx = Ok tt /\
  val demo_ext lk v (NArray ([int_t] ++ NGroup [tstr_t; name_ "len"] :: [int_t])) initial_ctx = Ok tt /\
  rejected (val demo_ext lk (VArray [vi 1; VArray [vs "h"; vi 2]; vi 3])
    (NArray ([int_t] ++ NUnwrap (txt "hdr") [] :: [int_t])) initial_ctx).
Proof.
  cbn zeta. split; [exists 20, (Ok tt); split; [vm_compute; reflexivity|discriminate]|].
  split; [run 20|]. split; [run 20|]. eexists; run 20.
Qed.
(** Inside an alternative of a group choice the members of a group must not be
    written in place: a group that fails after consuming keeps what an inner
    group consumed. *)
Theorem C54_nested_refuted : forall X lk,
  let v := VArray [vi 1; vi 2; vi 3] in
  let three := NGroup [int_t; int_t; int_t] in
  rejected (val X lk v (NArray [NChoice [NGroup [NGroup [int_t; int_t]; tstr_t]; three]]) initial_ctx) /\
  val X lk v (NArray [NChoice [NGroup [int_t; int_t; tstr_t]; three]]) initial_ctx = Ok tt.
Proof. intros X lk; cbn zeta. split; [eexists; run 10|run 10]. Qed.
(** [~] does not look through a name that stands for a name of an array. *)
Theorem C54_alias_refuted : forall X,
  let lk := basic_context [ (txt "a", RuleDef [] (name_ "b")); (txt "b", RuleDef [] (NArray [int_t])) ] in
  val X lk (VArray [vi 1]) (NArray [NUnwrap (txt "b") []]) initial_ctx = Ok tt /\
  val X lk (VArray [vi 1]) (NArray [NUnwrap (txt "a") []]) initial_ctx <> Ok tt.
Proof.
  intros X; cbn zeta. split; [run 10|].
  assert (exists e, val X (basic_context [ (txt "a", RuleDef [] (name_ "b")); (txt "b", RuleDef [] (NArray [int_t])) ])
    (VArray [vi 1]) (NArray [NUnwrap (txt "a") []]) initial_ctx = Err e) as [e ->] by (eexists; run 10). discriminate.
Qed.

(** ** C55.  [&group] and [&( ... )] choose among what the group offers. *)
Theorem C55_accepted_is_offered : forall X lk v name args c,
  val X lk v (NChoiceify name args) c = Ok tt ->
  exists c1 ms1 c' t, leads_group lk c name args c1 ms1 /\ offers lk c1 ms1 c' t /\ val X lk v t c' = Ok tt.
Proof.
  intros X lk v name args c H. rewrite val_eq in H.
  destruct (chval_spec X lk name args v c) as [n Hn]. rewrite H in Hn. eapply choose_sound; eauto.
Qed.
Theorem C55_exact : forall X lk v name args c c1 ms1,
  leads_group lk c name args c1 ms1 -> groups_only lk c1 ms1 ->
  (forall c' t, offers lk c1 ms1 c' t -> val X lk v t c' = Ok tt \/ rejected (val X lk v t c')) ->
  decides (exists c' t, offers lk c1 ms1 c' t /\ val X lk v t c' = Ok tt) (val X lk v (NChoiceify name args) c).
Proof.
  intros X lk v name args c c1 ms1 L G D. rewrite val_eq, (leads_chval X lk v c name args c1 ms1 L).
  apply choose_exact; auto.
Qed.
Theorem C55_inline_exact : forall X lk v ms c,
  groups_only lk c ms ->
  (forall c' t, offers lk c ms c' t -> val X lk v t c' = Ok tt \/ rejected (val X lk v t c')) ->
  decides (exists c' t, offers lk c ms c' t /\ val X lk v t c' = Ok tt) (val X lk v (NChoiceifyInline ms) c).
Proof. intros X lk v ms c G D. rewrite val_eq. apply choose_exact; auto. Qed.
Definition rules_colors : rules :=
  [ (txt "basic", RuleDef [] (NGroup [NKeyValue (lit_s "red") (lit_i 1) true; NKeyValue (lit_s "blue") (lit_i 2) true]));
    (txt "more", RuleDef [] (name_ "all"));
    (txt "all", RuleDef [] (NGroup [name_ "basic"; NKeyValue (lit_s "rgb") (NArray [int_t; int_t; int_t]) true; tstr_t])) ].
Example C55_example :
  let lk := basic_context rules_colors in
  let all := [name_ "basic"; NKeyValue (lit_s "rgb") (NArray [int_t; int_t; int_t]) true; tstr_t] in
  (exists c1, leads_group lk initial_ctx (txt "more") [] c1 all /\ groups_only lk c1 all) /\
  val demo_ext lk (vi 2) (NChoiceify (txt "more") []) initial_ctx = Ok tt /\
  val demo_ext lk (VArray [vi 9; vi 9; vi 9]) (NChoiceify (txt "more") []) initial_ctx = Ok tt /\
  rejected (val demo_ext lk (vi 3) (NChoiceify (txt "more") []) initial_ctx).
Proof.
  cbn zeta. split; [|split; [run 20|]; split; [run 20|eexists; run 20]].
  eexists. split; [eapply lg_next; [reflexivity|]; apply lg_here; reflexivity|].
  constructor. intros name args [H|[H|[H|[]]]]; try discriminate. inversion H; subst.
  do 2 eexists. split; [apply lg_here; reflexivity|]. constructor. intros ? ? [H'|[H'|[]]]; discriminate.
Qed.

(** ** C56.  Spellings of repetition. *)
Theorem C56_spelling_array : forall X lk o o' m w c,
  bounds o = bounds o' -> same_outcome (aval X lk (NOccur o m) w c) (aval X lk (NOccur o' m) w c).
Proof.
  intros X lk o o' m w c H. rewrite !aval_eq. unfold array_occur, occur_result. rewrite H.
  destruct (occ _ _ _ _) as [[n|e|] s]; try apply same_outcome_refl. destruct (N.ltb _ _); split; reflexivity.
Qed.
Theorem C56_spelling_map : forall X lk o o' m w c,
  bounds o = bounds o' -> same_outcome (mval X lk (NOccur o m) w c) (mval X lk (NOccur o' m) w c).
Proof.
  intros X lk o o' m w c H. rewrite !mval_eq. unfold map_occur, occur_result. rewrite H.
  destruct (occ _ _ _ _) as [[n|e|] s]; try apply same_outcome_refl. destruct (N.ltb _ _); split; reflexivity.
Qed.
(** [?] is [0*1], [*] is [0*] and [+] is [1*]. *)
Theorem C56_shorthands : forall X lk m c,
  let same o o' := (forall w, same_outcome (aval X lk (NOccur o m) w c) (aval X lk (NOccur o' m) w c)) /\
                   (forall w, same_outcome (mval X lk (NOccur o m) w c) (mval X lk (NOccur o' m) w c)) in
  same OOptional (ONumbered 0 1) /\ same OZeroOrMore (ONumbered 0 usize_max) /\ same OOneOrMore (ONumbered 1 usize_max).
Proof.
  intros X lk m c same.
  split; [|split]; (split; intros w; [apply C56_spelling_array|apply C56_spelling_map]; reflexivity).
Qed.
Theorem C56_copies_in_array : forall X lk v pre m (n : nat) post c, wf_value v -> (0 < n)%nat ->
  same_verdict (val X lk v (NArray (pre ++ NOccur (ONumbered (N.of_nat n) (N.of_nat n)) m :: post)) c)
               (val X lk v (NArray (pre ++ repeat m n ++ post)) c).
Proof. intros. apply copies_in_array; auto. apply wf_keys_sorted; auto. Qed.
Theorem C56_copies_in_map : forall X lk v pre m (n : nat) post c, wf_value v -> (0 < n)%nat ->
  same_verdict (val X lk v (NMap (pre ++ NOccur (ONumbered (N.of_nat n) (N.of_nat n)) m :: post)) c)
               (val X lk v (NMap (pre ++ repeat m n ++ post)) c).
Proof. intros. apply copies_in_map; auto. apply wf_keys_sorted; auto. Qed.
(** The same for members of any group, also within a group choice. *)
Theorem C56_copies_array_member : forall X lk (n : nat) m w c, (0 < n)%nat ->
  same_outcome (aval X lk (NOccur (ONumbered (N.of_nat n) (N.of_nat n)) m) w c)
               (seqs (fun m w => aval X lk m w c) (repeat m n) w).
Proof.
  intros X lk n m w c H. destruct (copies_array X lk n m w c H) as [Hs Hr]. split; auto.
  destruct (fst (seqs _ _ _)), (fst (aval _ _ _ _ _)); auto.
Qed.
Theorem C56_copies_map_member : forall X lk (n : nat) m w c, (0 < n)%nat ->
  same_outcome (mval X lk (NOccur (ONumbered (N.of_nat n) (N.of_nat n)) m) w c)
               (seqs (fun m w => mval X lk m w c) (repeat m n) w).
Proof.
  intros X lk n m w c H. destruct (copies_map X lk n m w c H) as [Hs Hr]. split; auto.
  destruct (fst (seqs _ _ _)), (fst (mval _ _ _ _ _)); auto.
Qed.
Example C56_example :
  limits OOptional = limits (ONumbered 0 1) /\ limits OZeroOrMore = limits (ONumbered 0 usize_max) /\
  limits OOneOrMore = limits (ONumbered 1 usize_max) /\
  val demo_ext no_rules (VArray [vi 1; vi 2; vi 3; vs "x"]) (NArray [NOccur (ONumbered 3 3) int_t; tstr_t]) initial_ctx = Ok tt /\
  val demo_ext no_rules (VArray [vi 1; vi 2; vi 3; vs "x"]) (NArray [int_t; int_t; int_t; tstr_t]) initial_ctx = Ok tt /\
  rejected (val demo_ext no_rules (VArray [vi 1; vi 2; vs "x"]) (NArray [NOccur (ONumbered 3 3) int_t; tstr_t]) initial_ctx).
Proof. split; [reflexivity|]. split; [reflexivity|]. split; [reflexivity|]. split; [run 20|]. split; [run 20|]. eexists; run 20. Qed.

(** ** C57.  Laws of choices. *)
Theorem C57_nested_type : forall X lk v pre os post c, wf_value v ->
  same_verdict (val X lk v (NChoice (pre ++ NChoice os :: post)) c) (val X lk v (NChoice (pre ++ os ++ post)) c).
Proof. intros. apply nested_type, wf_keys_sorted; auto. Qed.
Theorem C57_nested_array : forall X lk pre os post w c,
  same_outcome (aval X lk (NChoice (pre ++ NChoice os :: post)) w c) (aval X lk (NChoice (pre ++ os ++ post)) w c).
Proof. intros. apply nested_array. Qed.
Theorem C57_nested_map : forall X lk pre os post w c,
  same_outcome (mval X lk (NChoice (pre ++ NChoice os :: post)) w c) (mval X lk (NChoice (pre ++ os ++ post)) w c).
Proof. intros. apply nested_map. Qed.
Theorem C57_single : forall X lk v o c, wf_value v -> (forall name e, lk name = inr e -> is_fatal e = true) ->
  same_verdict (val X lk v (NChoice [o]) c) (val X lk v o c).
Proof. intros. apply single_type; auto. apply wf_keys_sorted; auto. Qed.
Theorem C57_more_options : forall X lk v os more c,
  val X lk v (NChoice os) c = Ok tt -> val X lk v (NChoice (os ++ more)) c = Ok tt.
Proof. intros X lk v os more c. apply more_options. Qed.
Theorem C57_reordered : forall X lk v os os' c, Permutation os os' ->
  (forall o, In o os -> val X lk v o c = Ok tt \/ rejected (val X lk v o c)) ->
  same_verdict (val X lk v (NChoice os) c) (val X lk v (NChoice os') c).
Proof. intros X lk v os os' c. apply reordered. Qed.
(** The order does matter in a group choice: the first alternative that matches
    a prefix of the rest is taken. *)
Theorem C57_order_matters_in_groups : forall X lk,
  let v := VArray [vi 1; vi 2] in
  let one := NGroup [int_t] in let two := NGroup [int_t; int_t] in
  rejected (val X lk v (NArray [NChoice [one; two]]) initial_ctx) /\
  val X lk v (NArray [NChoice [two; one]]) initial_ctx = Ok tt.
Proof. intros X lk; cbn zeta. split; [eexists; run 10|run 10]. Qed.
Example C57_example :
  (forall name e, no_rules name = inr e -> is_fatal e = true) /\
  val demo_ext no_rules (vi 5) (NChoice ([tstr_t] ++ NChoice [NPrelude PNil; int_t] :: [NPrelude PBool])) initial_ctx = Ok tt /\
  rejected (val demo_ext no_rules (VFloat 5) (NChoice ([tstr_t] ++ NChoice [NPrelude PNil; int_t] :: [NPrelude PBool])) initial_ctx).
Proof. split; [intros name e [= <-]; reflexivity|]. split; [run 10|]. eexists; run 10. Qed.

Print Assumptions C11_anywhere.
Print Assumptions C11_refuted_size_range.
Print Assumptions C11_refuted_inline_choice.
Print Assumptions C54_group_in_array.
Print Assumptions C54_group_in_map.
Print Assumptions C54_unwrap_in_array.
Print Assumptions C54_unwrap_in_map.
Print Assumptions C54_nested_refuted.
Print Assumptions C54_alias_refuted.
Print Assumptions C55_accepted_is_offered.
Print Assumptions C55_exact.
Print Assumptions C55_inline_exact.
Print Assumptions C56_spelling_array.
Print Assumptions C56_spelling_map.
Print Assumptions C56_shorthands.
Print Assumptions C56_copies_in_array.
Print Assumptions C56_copies_in_map.
Print Assumptions C56_copies_array_member.
Print Assumptions C56_copies_map_member.
Print Assumptions C57_nested_type.
Print Assumptions C57_nested_array.
Print Assumptions C57_nested_map.
Print Assumptions C57_single.
Print Assumptions C57_more_options.
Print Assumptions C57_reordered.
Print Assumptions C57_order_matters_in_groups.
