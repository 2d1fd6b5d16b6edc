(** Names, choices, generics and global guarantees: C09-C20, C32. *)
From Coq Require Import List Bool ZArith NArith String Lia.
From Verif Require Import Base Util Data Value Convert Ivt Scalar Validate Total Fun SpecBase SpecCtx SpecReach
  Unfold ArrayInv ValueOrder ConvertProofs CtxProofs ReachProofs LimitProofs
  SpecConsume Consume SpecNest Nest Demo.
Import ListNotations.
Open Scope list_scope.

Definition rules_demo : rules :=
  [ (txt "a", RuleDef [] (NChoice [name_ "b"; tstr_t]));
    (txt "b", RuleDef [] int_t);
    (txt "c", RuleDef [] (NArray [name_ "b"; NOccur OZeroOrMore (name_ "a")]));
    (txt "g", RuleDef [txt "t"] (NArray [name_ "t"; name_ "t"]));
    (txt "l1", RuleDef [] (NChoice [name_ "l2"; int_t]));
    (txt "l2", RuleDef [] (NGroup [name_ "l1"])) ].
Definition lk_demo := basic_context rules_demo.

(** ** C09 *)
Theorem C09_choice_iff : forall X lk v options c,
  (forall o, In o options -> val X lk v o c = Ok tt \/ rejected (val X lk v o c)) ->
  decides (exists o, In o options /\ val X lk v o c = Ok tt) (val X lk v (NChoice options) c) /\
  (rejected (val X lk v (NChoice options) c) ->
   val X lk v (NChoice options) c = Err (EMismatch (txt "choice of " ++ show_N (N.of_nat (List.length options))))).
Proof.
  intros X lk v os c H. destruct (choice_exact X lk v os c H) as [(E & o & I & A)|(E & N)]; rewrite E.
  - split; [constructor; eauto|intros (m & Q); discriminate].
  - split; [|auto]. constructor. intros (o & I & A). destruct (N o I) as (m & R). congruence.
Qed.
Theorem C09_first_wins : forall X lk v pre o post c,
  (forall o', In o' pre -> rejected (val X lk v o' c)) -> val X lk v o c = Ok tt ->
  val X lk v (NChoice (pre ++ o :: post)) c = Ok tt.
Proof.
  intros X lk v pre o post c H A. rewrite val_eq, (tries_pure_skips _ _ pre (o :: post)); auto. cbn. rewrite A. auto.
Qed.
Example C09_example :
  let o := [tstr_t; lit_i 3; int_t] in
  (forall x, In x o -> val demo_ext no_rules (vi 3) x initial_ctx = Ok tt \/ rejected (val demo_ext no_rules (vi 3) x initial_ctx)) /\
  val demo_ext no_rules (vi 3) (NChoice o) initial_ctx = Ok tt /\
  val demo_ext no_rules (VBool true) (NChoice o) initial_ctx = Err (EMismatch (txt "choice of 3")).
Proof.
  cbn zeta. split; [|split; run 5].
  intros x [<-|[<-|[<-|[]]]]; [right; eexists; run 5|left; run 5|left; run 5].
Qed.

(** ** C10.  [reaches] also covers fatal errors arising deeper than in an option. *)
Theorem C10_fatal_option_wins : forall X lk v pre o post c e,
  (forall o', In o' pre -> rejected (val X lk v o' c)) ->
  val X lk v o c = Err e -> (forall m, e <> EMismatch m /\ e <> EMapCut m) ->
  val X lk v (NChoice (pre ++ o :: post)) c = Err e.
Proof.
  intros X lk v pre o post c e H E F. rewrite val_eq, (tries_pure_skips _ _ pre (o :: post)); auto. cbn. rewrite E.
  destruct e; auto; destruct (F expected); congruence.
Qed.
Theorem C10_fatal_error_wins : forall X lk v nd c t e,
  wf_value v -> reaches X lk (TV v nd c) t -> outcome X lk t = Err e ->
  (forall m, e <> EMismatch m /\ e <> EMapCut m) -> val X lk v nd c = Err e.
Proof.
  intros X lk v nd c t e W R O F. apply (fatal_error_wins X lk v nd c t e (wf_keys_sorted v W) R); auto.
  destruct e; auto; destruct (F expected); congruence.
Qed.
Example C10_example :
  let o := [tstr_t; name_ "missing"; int_t] in
  rejected (val demo_ext no_rules (vi 3) tstr_t initial_ctx) /\
  val demo_ext no_rules (vi 3) (name_ "missing") initial_ctx = Err (EMissingRule (txt "missing")) /\
  val demo_ext no_rules (vi 3) (NChoice o) initial_ctx = Err (EMissingRule (txt "missing")) /\
  val demo_ext no_rules (vs "x") (NChoice o) initial_ctx = Ok tt /\
  reaches demo_ext no_rules (TV (VArray [vi 3]) (NArray [NChoice o]) initial_ctx)
    (TA (name_ "missing") (wa_new [vi 3]) initial_ctx).
Proof.
  cbn zeta. split; [eexists; run 5|]. split; [run 5|]. split; [run 5|]. split; [run 5|].
  eapply Relation_Operators.rt1n_trans; [apply (next_array _ _ _ _ []); constructor|].
  eapply Relation_Operators.rt1n_trans; [|constructor].
  apply (next_a_choice _ _ _ [tstr_t]). econstructor; [|constructor]. apply (aval_run _ _ 5). vm_compute. reflexivity.
Qed.

(** ** C11 *)
Theorem C11_rule_is_definition_type : forall X lk name body c v,
  gm_get name (ctx_map c) = None -> lk name = inl (RuleDef [] body) ->
  (forall name', mentions body name' -> gm_get name' (ctx_map c) = None) ->
  within_limit X lk v (NRule name []) c ->
  val X lk v (NRule name []) c = val X lk v body c.
Proof. intros X lk name body c v H1 H2 H3. apply in_place_type; auto. Qed.
Theorem C11_rule_is_definition_array : forall X lk name body c w,
  gm_get name (ctx_map c) = None -> lk name = inl (RuleDef [] body) ->
  (forall name', mentions body name' -> gm_get name' (ctx_map c) = None) ->
  within_limit_array X lk (NRule name []) w c ->
  aval X lk (NRule name []) w c = aval X lk body w c.
Proof. intros X lk name body c w H1 H2 H3. apply in_place_array; auto. Qed.
Theorem C11_rule_is_definition_map : forall X lk name body c w,
  gm_get name (ctx_map c) = None -> lk name = inl (RuleDef [] body) ->
  (forall name', mentions body name' -> gm_get name' (ctx_map c) = None) ->
  within_limit_map X lk (NRule name []) w c ->
  mval X lk (NRule name []) w c = mval X lk body w c.
Proof. intros X lk name body c w H1 H2 H3. apply in_place_map; auto. Qed.
(** Acyclic rule sets of height below 50 never meet the limit. *)
Theorem C11_acyclic_within_limit : forall X lk (rank : text -> N) nd v,
  (forall name def name', lk name = inl def -> depends def name' -> (rank name' < rank name)%N) ->
  (forall name, mentions nd name -> (rank name < 50)%N) -> wf_value v ->
  within_limit X lk v nd initial_ctx.
Proof.
  intros X lk rank nd v R H W. apply (shallow_within lk rank R); [|apply wf_keys_sorted; auto].
  apply shallow_initial; auto.
Qed.
Example C11_example :
  within_limit demo_ext lk_demo (VArray [vi 1; vs "x"]) (name_ "c") initial_ctx /\
  gm_get (txt "c") (ctx_map initial_ctx) = None /\
  val demo_ext lk_demo (VArray [vi 1; vs "x"]) (name_ "c") initial_ctx = Ok tt /\
  val demo_ext lk_demo (VArray [vi 1; vs "x"]) (NArray [name_ "b"; NOccur OZeroOrMore (name_ "a")]) initial_ctx = Ok tt.
Proof.
  split; [exists 20, (Ok tt); split; [vm_compute; reflexivity|discriminate]|]. split; [reflexivity|]. split; run 20.
Qed.

(** ** C12 *)
Theorem C12_missing_rule_reported : forall X lk v nd c t name args c',
  wf_value v -> reaches X lk (TV v nd c) t -> looks_up lk t name args c' ->
  gm_get name (ctx_map c') = None -> lk name = inr (EMissingRule name) ->
  val X lk v nd c = Err (EMissingRule name).
Proof. intros X lk v nd c t name args c' W. apply missing_rule_reported, wf_keys_sorted; auto. Qed.
(** Conversely the reported name is undefined. *)
Theorem C12_reported_name_is_missing : forall X rs v def name,
  wf_value v -> run_validate X (basic_context rs) v def = Err (EMissingRule name) -> rules_get rs name = None.
Proof. intros X rs v def name W. apply missing_rule_true, wf_keys_sorted; auto. Qed.
Example C12_example :
  let nd := NArray [int_t; NOccur OOptional (NChoice [tstr_t; name_ "nope"])] in
  reaches demo_ext lk_demo (TV (VArray [vi 1; vi 2]) nd initial_ctx)
    (TA (name_ "nope") (WA [vi 2] []) initial_ctx) /\
  val demo_ext lk_demo (VArray [vi 1; vi 2]) nd initial_ctx = Err (EMissingRule (txt "nope")).
Proof.
  cbn zeta. split; [|run 10].
  eapply Relation_Operators.rt1n_trans.
  { apply (next_array _ _ _ _ [int_t] _ []). econstructor; [apply (aval_run _ _ 5); vm_compute; reflexivity|constructor]. }
  eapply Relation_Operators.rt1n_trans; [eapply (next_a_occur _ _ _ _ _ _ _ 0%N); [constructor|auto]|].
  eapply Relation_Operators.rt1n_trans; [|constructor].
  apply (next_a_choice _ _ _ [tstr_t]). econstructor; [|constructor]. apply (aval_run _ _ 5). vm_compute. reflexivity.
Qed.

(** ** C13 *)
Theorem C13_wrong_arity_reported : forall X lk v nd c t name args c' def,
  wf_value v -> reaches X lk (TV v nd c) t -> looks_up lk t name args c' ->
  gm_get name (ctx_map c') = None -> lk name = inl def -> List.length (rd_parms def) <> List.length args ->
  val X lk v nd c = Err EGenericError.
Proof. intros X lk v nd c t name args c' def W. apply arity_reported, wf_keys_sorted; auto. Qed.
Theorem C13_generic_start_rejected : forall X lk v def,
  rd_parms def <> [] -> run_validate X lk v def = Err EGenericError.
Proof. exact generic_start_rejected. Qed.
Example C13_example :
  val demo_ext lk_demo (vi 1) (NChoice [NRule (txt "g") [int_t; int_t]; int_t]) initial_ctx = Err EGenericError /\
  val demo_ext lk_demo (VArray [vi 1; vi 2]) (NRule (txt "g") [int_t]) initial_ctx = Ok tt /\
  run_validate demo_ext lk_demo (vi 1) (RuleDef [txt "t"] int_t) = Err EGenericError.
Proof. split; [run 10|]. split; [run 10|]. apply C13_generic_start_rejected. discriminate. Qed.

(** ** C15.  Every validation has a result; the result does not depend on the fuel. *)
Theorem C15_terminates : forall X lk v def, exists r,
  (exists n, do_validate X lk n v def = Some r) /\
  (forall n r', do_validate X lk n v def = Some r' -> r' = r) /\
  run_validate X lk v def = r.
Proof.
  intros X lk v def. destruct (do_validate_total X lk v def) as (n & r & E). exists r. split; [eauto|]. split.
  - intros n' r' E'. apply run_validate_run in E. apply run_validate_run in E'. congruence.
  - apply run_validate_run with (n := n). auto.
Qed.
Example C15_example :
  run_validate demo_ext lk_demo (vi 1) (RuleDef [] (name_ "l1")) = Err (EStructural (txt "hit recursion limit")).
Proof. apply (run_validate_run _ _ 200). vm_compute. reflexivity. Qed.

(** ** C16 *)
Theorem C16_cycle_reported : forall X lk (S : text -> Prop),
  (forall name, S name -> exists def name' args',
     lk name = inl def /\ leads_to (rd_node def) = Some (name', args') /\ S name' /\ ~ In name' (rd_parms def) /\
     forall def', lk name' = inl def' -> List.length (rd_parms def') = List.length args') ->
  forall v nd c t name args c' def,
  wf_value v -> reaches X lk (TV v nd c) t ->
  (exists w, t = TV w (NRule name args) c' ) \/ (exists w, t = TA (NRule name args) w c') \/
  (exists w, t = TM (NRule name args) w c') ->
  S name -> gm_get name (ctx_map c') = None -> lk name = inl def -> List.length (rd_parms def) = List.length args ->
  val X lk v nd c = Err (EStructural (txt "hit recursion limit")).
Proof. intros X lk S H v nd c t name args c' def W. apply (cycle_reported X lk S H), wf_keys_sorted; auto. Qed.
Example C16_example : forall v, wf_value v ->
  val demo_ext lk_demo v (name_ "l1") initial_ctx = Err (EStructural (txt "hit recursion limit")).
Proof.
  intros v W. eapply (C16_cycle_reported demo_ext lk_demo (fun n => n = txt "l1" \/ n = txt "l2")) with (name := txt "l1") (args := []) (t := TV v (name_ "l1") initial_ctx); auto.
  - intros name [-> | ->]; do 3 eexists; (split; [vm_compute; reflexivity|]); (split; [reflexivity|]);
      (split; [auto|]); (split; [intros []|]); intros def' E; vm_compute in E; inversion E; reflexivity.
  - constructor.
  - left. eexists; reflexivity.
  - reflexivity.
  - vm_compute. reflexivity.
  - reflexivity.
Qed.

(** ** C17: false.  [K+1] one-line generic rules nest [2^K] calls deep although the
    depth counter stays below the limit. *)
Theorem C17_refuted : forall X K v, (K < 50)%nat ->
  exists rs def, List.length rs = S K /\
  (forall n r, do_validate X (basic_context rs) n v def = Some r -> (2 ^ N.of_nat K < N.of_nat n)%N) /\
  run_validate X (basic_context rs) v def = val X (basic_context []) v (NPrelude PInt) initial_ctx.
Proof.
  intros X K v H. destruct (nesting_exponential X K v H) as (def & E). exists (drules K), def. exact E.
Qed.
Example C17_refuted_example : exists rs def, List.length rs = 50%nat /\
  (forall n r, do_validate demo_ext (basic_context rs) n (vi 1) def = Some r -> (2 ^ 49 < N.of_nat n)%N) /\
  run_validate demo_ext (basic_context rs) (vi 1) def = Ok tt.
Proof.
  destruct (C17_refuted demo_ext 49 (vi 1) ltac:(lia)) as (rs & def & L & H & E). exists rs, def.
  split; [auto|]. split; [exact H|]. rewrite E. run 5.
Qed.
(** What holds: without generic parameters the nesting is at most linear in the limit
    and the size of the rules; with them it is still bounded, by a power.  [calls]
    (SpecNest.v) lists the calls one call can make; [nested] is a chain of them.
    Missing: the linear bound in the presence of generic parameters, which is false. *)
Theorem C17_plain_partial : forall lk s nd n k,
  (forall name def, lk name = inl def -> (nsize (rd_node def) <= s)%nat) ->
  (forall name def, lk name = inl def -> rd_parms def = []) ->
  nested (calls lk) n (Call JType nd initial_ctx) k -> (n <= 2 * (nsize nd + 50 * S s) + 1)%nat.
Proof. intros lk s nd n k S P. apply nesting_bound_plain; auto. Qed.
Theorem C17_any_partial : forall lk s nd n k,
  (forall name def, lk name = inl def -> (nsize (rd_node def) <= s)%nat) ->
  nested (calls lk) n (Call JType nd initial_ctx) k -> (n <= 2 * (nsize nd * S s ^ 50) + 1)%nat.
Proof. intros lk s nd n k S. apply nesting_bound; auto. Qed.
(** The chains account for every call the validator makes: if none is longer than
    [n], a validator that gives up on nesting deeper than [n], plus the iterations of
    one loop, never gives up. *)
Theorem C17_accounted_partial : forall X lk U n v nd,
  (forall m k, nested (calls lk) m (Call JType nd initial_ctx) k -> (m <= n)%nat /\ limit_within (N.of_nat U) k) ->
  forall fuel, (n + U < fuel)%nat -> validate X (lookup_rule lk) fuel v nd initial_ctx <> None.
Proof. intros X lk U n v nd H fuel L. eapply nesting_adequate; eauto. Qed.
Definition rules_plain : rules :=
  [ (txt "l", RuleDef [] (NChoice [NArray [int_t; name_ "l"]; NPrelude PNil])) ].
Lemma rules_plain_only name def : basic_context rules_plain name = inl def ->
  def = RuleDef [] (NChoice [NArray [int_t; name_ "l"]; NPrelude PNil]).
Proof. unfold basic_context, rules_plain. cbn [rules_get]. destruct (text_eqb (txt "l") name); intros H; inversion H; auto. Qed.
Example C17_partial_example :
  (forall name def, basic_context rules_plain name = inl def -> (nsize (rd_node def) <= 5)%nat) /\
  (forall name def, basic_context rules_plain name = inl def -> rd_parms def = []) /\
  exists k, nested (calls (basic_context rules_plain)) 5 (Call JType (name_ "l") initial_ctx) k.
Proof.
  split; [|split].
  - intros name def H. apply rules_plain_only in H. subst. cbn. lia.
  - intros name def H. apply rules_plain_only in H. subst. reflexivity.
  - eexists.
    eapply nested_more; [apply k_rule; [vm_compute; reflexivity|exact I]|].
    eapply nested_more; [apply k_choice; left; reflexivity|].
    eapply nested_more; [apply k_array; right; left; reflexivity|].
    eapply nested_more; [apply k_rule; [vm_compute; reflexivity|exact I]|].
    eapply nested_more; [apply k_a_choice; left; reflexivity|]. constructor.
Qed.
Example C17_accounted_example : exists k n, k <> Call JType (name_ "b") initial_ctx /\
  nested (calls lk_demo) n (Call JType (name_ "b") initial_ctx) k /\
  forall m k, nested (calls lk_demo) m (Call JType (name_ "b") initial_ctx) k -> (m <= 1)%nat /\ limit_within 0 k.
Proof.
  eexists _, 1%nat. split; [|split].
  2: eapply nested_more; [apply k_rule; [vm_compute; reflexivity|exact I]|]; constructor.
  - discriminate.
  - intros m k H. inversion H as [|? ? b ? C N]; subst; [split; [lia|exact I]|].
    assert (E : b = Call JType int_t (Ctx [] (Some initial_ctx) 1)).
    { inversion C; subst; try contradiction.
      match goal with L : lookup_rule _ _ _ _ = _ |- _ => vm_compute in L; inversion L; subst; reflexivity end. }
    subst. inversion N as [|? ? b ? C2 N2]; subst; [split; [lia|exact I]|]. inversion C2.
Qed.

(** ** C18: false in general.  [[* (? t)]] on an empty array iterates 2^64-1 times. *)
Theorem C18_refuted : forall X lk t c n r, plain_member t ->
  validate X (lookup_rule lk) n (VArray []) (NArray [NOccur OZeroOrMore (NOccur OOptional t)]) c = Some r ->
  (usize_max <= N.of_nat n)%N.
Proof. exact spin_empty. Qed.
Example C18_refuted_example : plain_member int_t /\ usize_max = (2 ^ 64 - 1)%N.
Proof. split; vm_compute; auto. Qed.
(** What holds: a member that cannot succeed without using up an element (entry), see
    SpecConsume.v, is called at most once more than there are elements (entries):
    the loop finishes when cut off after that many calls.
    Missing: members that can match nothing, for which it is false. *)
Theorem C18_array_partial : forall X lk c m w upper, eats_a lk c m ->
  exists r, occur_loop (S (List.length (wa_array w))) (fun w => Some (aval X lk m w c)) upper 0 w = Some r.
Proof.
  intros X lk c m w up E.
  pose proof (occur_calls asize any (fun w => aval X lk m w c) up 0%N w (array_not_longer X lk c m) (eats_array X lk c m E) I) as D.
  unfold asize in D. destruct (occur_loop _ _ _ _ _); [eauto|congruence].
Qed.
Theorem C18_map_partial : forall X lk c m w upper, eats_m lk c m -> sorted (wm_map w) ->
  exists r, occur_loop (S (List.length (wm_map w))) (fun w => Some (mval X lk m w c)) upper 0 w = Some r.
Proof.
  intros X lk c m w up E S.
  pose proof (occur_calls msize mok (fun w => mval X lk m w c) up 0%N w (map_not_longer X lk c m) (eats_map X lk c m E) S) as D.
  unfold msize in D. destruct (occur_loop _ _ _ _ _); [eauto|congruence].
Qed.
(** Such members do use something up. *)
Theorem C18_array_consumes_partial : forall X lk c m w w', eats_a lk c m ->
  aval X lk m w c = (Ok tt, w') -> (List.length (wa_array w') < List.length (wa_array w))%nat.
Proof. intros X lk c m w w' E H. exact (eats_array X lk c m E w w' I H). Qed.
Theorem C18_map_consumes_partial : forall X lk c m w w', eats_m lk c m -> sorted (wm_map w) ->
  mval X lk m w c = (Ok tt, w') -> (List.length (wm_map w') < List.length (wm_map w))%nat.
Proof. intros X lk c m w w' E S H. exact (eats_map X lk c m E w w' S H). Qed.
Example C18_partial_example :
  eats_a lk_demo initial_ctx (NGroup [NOccur OOptional tstr_t; name_ "a"]) /\
  eats_m lk_demo initial_ctx (NChoice [NKeyValue tstr_t int_t false; NGroup [NOccur OZeroOrMore (NKeyValue int_t int_t false); NOccur OOneOrMore (NKeyValue (lit_i 1) tstr_t true)]]).
Proof.
  split.
  - eapply ea_group; [right; left; reflexivity|]. apply ea_rule. intros nd' c' L. vm_compute in L. inversion L; subst.
    apply ea_choice. intros o [<- |[<- |[]]]; [|apply ea_type; exact I]. apply ea_rule. intros nd' c' L2. vm_compute in L2.
    inversion L2; subst. apply ea_type; exact I.
  - apply em_choice. intros o [<- |[<- |[]]]; [apply em_kv|].
    eapply em_group; [right; left; reflexivity|]. apply em_occur; [vm_compute; reflexivity|apply em_kv].
Qed.

(** ** C19 *)
Theorem C19_never_panics : forall X lk v def, wf_value v -> run_validate X lk v def <> Panic.
Proof. intros X lk v def W. apply run_nopanic, wf_keys_sorted; auto. Qed.
Example C19_example :
  wf_value (VMap [(vi 1, vs "x"); (vs "k", VArray [vi 2; VNull])]) /\
  run_validate demo_ext lk_demo (VMap [(vi 1, vs "x"); (vs "k", VArray [vi 2; VNull])])
    (RuleDef [] (NMap [NGroup [NKeyValue (lit_i 1) tstr_t true]; NOccur OZeroOrMore (NKeyValue tstr_t (NPrelude PAny) false)])) = Ok tt.
Proof.
  split; [|apply (run_validate_run _ _ 20); vm_compute; reflexivity].
  cbn. repeat split; try lia; repeat constructor; try lia; cbn; unfold is_scalar; lia.
Qed.

(** ** C20 *)
Theorem C20_cut_never_escapes : forall X lk v nd c m,
  wf_value v -> (forall name e, lk name = inr e -> forall m, e <> EMapCut m) ->
  val X lk v nd c <> Err (EMapCut m).
Proof. intros X lk v nd c m W L. apply no_cut_type; auto. apply wf_keys_sorted; auto. Qed.
Theorem C20_cut_never_escapes_api : forall X rs v def m,
  wf_value v -> run_validate X (basic_context rs) v def <> Err (EMapCut m).
Proof.
  intros X rs v def m W. apply no_cut_escapes; [apply wf_keys_sorted; auto|].
  intros name e E m' ->. unfold basic_context in E. destruct (rules_get rs name); discriminate.
Qed.
(** A map whose cut fails is an ordinary mismatch, so an outer choice goes on. *)
Example C20_example :
  let cutmap := NMap [NOccur OOptional (NKeyValue (lit_s "k") int_t true); NOccur OZeroOrMore (NKeyValue tstr_t tstr_t false)] in
  rejected (val demo_ext no_rules (VMap [(vs "k", vs "x")]) cutmap initial_ctx) /\
  val demo_ext no_rules (VMap [(vs "k", vs "x")]) (NChoice [cutmap; NPrelude PAny]) initial_ctx = Ok tt.
Proof. cbn zeta. split; [eexists; run 10|run 10]. Qed.

(** ** C32 *)
Theorem C32_unreachable_irrelevant : forall X lk1 lk2 v def,
  wf_value v -> (forall name, reachable lk1 def name -> lk1 name = lk2 name) ->
  run_validate X lk1 v def = run_validate X lk2 v def.
Proof. intros X lk1 lk2 v def W. apply unreachable_irrelevant, wf_keys_sorted; auto. Qed.
Example C32_example :
  let lk2 := basic_context (rules_demo ++ [(txt "zz", RuleDef [] (name_ "nope"))]) in
  let def := RuleDef [] (name_ "b") in
  (forall name, reachable lk_demo def name -> lk_demo name = lk2 name) /\ lk_demo (txt "zz") <> lk2 (txt "zz") /\
  reachable lk_demo def (txt "b").
Proof.
  cbn zeta. split; [|split; [vm_compute; discriminate|]].
  - intros name H. assert (name = txt "b") as ->; [|reflexivity].
    induction H as [name [M _]|name d name' H IH E [M _]].
    + cbn in M. inversion M as [nd nm ar R|nd nd' nm I]; subst; [cbn in R; inversion R; auto|destruct I].
    + subst. vm_compute in E. inversion E; subst. inversion M as [nd nm ar R|nd nd' nm I]; subst; [discriminate R|destruct I].
  - apply reach_start. split; [eapply mentions_here; reflexivity|intros []].
Qed.

Print Assumptions C09_choice_iff.
Print Assumptions C09_first_wins.
Print Assumptions C10_fatal_option_wins.
Print Assumptions C10_fatal_error_wins.
Print Assumptions C11_rule_is_definition_type.
Print Assumptions C11_rule_is_definition_array.
Print Assumptions C11_rule_is_definition_map.
Print Assumptions C11_acyclic_within_limit.
Print Assumptions C12_missing_rule_reported.
Print Assumptions C12_reported_name_is_missing.
Print Assumptions C13_wrong_arity_reported.
Print Assumptions C13_generic_start_rejected.
Print Assumptions C15_terminates.
Print Assumptions C16_cycle_reported.
Print Assumptions C17_refuted.
Print Assumptions C17_plain_partial.
Print Assumptions C17_any_partial.
Print Assumptions C17_accounted_partial.
Print Assumptions C18_refuted.
Print Assumptions C18_array_partial.
Print Assumptions C18_map_partial.
Print Assumptions C18_array_consumes_partial.
Print Assumptions C18_map_consumes_partial.
Print Assumptions C19_never_panics.
Print Assumptions C20_cut_never_escapes.
Print Assumptions C20_cut_never_escapes_api.
Print Assumptions C32_unreachable_irrelevant.
