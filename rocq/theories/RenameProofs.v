(** Consistent renaming changes no verdict. *)
From Coq Require Import List Bool ZArith NArith String Lia Arith.
From Verif Require Import Base Util Data Value Convert Ivt Scalar Validate Unfold Mono ValueOrder ConvertProofs Ast Flatten SpecCtx Fun CtxProofs ConvertExact
  Expand TameCheck SpecFlatten FlattenProofs FlattenMap SpecRename.
Import ListNotations.
Open Scope list_scope.

Lemma show_ren X f nd : show_node X (ren_node f nd) = show_node X nd.
Proof. induction nd; cbn [ren_node show_node]; auto. rewrite IHnd1, IHnd2. reflexivity. Qed.

Section Validator.
Variable X : ext.
Variable R : text -> text.
Variables lk lk' : lookup_context.
Hypothesis HR : renamed_context R lk lk'.

Definition ok (f : text -> text) (ps : list text) (nd : node) : Prop := forall x, mentions nd x -> sees R f ps x.
Lemma ok_child f ps nd nd' : ok f ps nd -> In nd' (children nd) -> ok f ps nd'.
Proof. intros H I x M. apply H. eapply mentions_child; eauto. Qed.
Lemma ok_name f ps nd n a : ok f ps nd -> refers nd = Some (n, a) -> sees R f ps n.
Proof. intros H E. apply H. eapply mentions_here; eauto. Qed.

Inductive crel : (text -> text) -> list text -> ctx -> ctx -> Prop :=
| cr_top f d : crel f [] (Ctx [] None d) (Ctx [] None d)
| cr_frame f ps g qs p p' args d : crel g qs p p' -> inj_on f ps -> List.length ps = List.length args -> Forall (ok g qs) args ->
    crel f ps (Ctx (gm_collect (combine ps args)) (Some p) d)
      (Ctx (gm_collect (combine (map f ps) (map (ren_node g) args))) (Some p') d).
Lemma crel_depth f ps c c' : crel f ps c c' -> ctx_depth c' = ctx_depth c. Proof. intros []; reflexivity. Qed.

Lemma get_ren f g ps : inj_on f ps -> forall args x, In x ps -> List.length ps = List.length args ->
  gm_get (f x) (gm_collect (combine (map f ps) (map (ren_node g) args))) = option_map (ren_node g) (gm_get x (gm_collect (combine ps args))).
Proof.
  intros J. assert (Q : forall l x, In x ps -> (forall k a, In (k, a) l -> In k ps) ->
    gm_get (f x) (gm_collect (map (fun p => (f (fst p), ren_node g (snd p))) l)) = option_map (ren_node g) (gm_get x (gm_collect l))).
  { intros l x Hx. induction l as [|[k a] l IH] using rev_ind; intros Hl; [reflexivity|]. unfold gm_collect in *. rewrite map_app. cbn [map].
    rewrite !fold_left_app. cbn [fold_left fst snd]. rewrite !insert_get.
    assert (Hk : In k ps) by (eapply Hl; apply in_app_iff; right; left; eauto).
    destruct (text_eqb k x) eqn:E.
    - apply text_eqb_eq in E. subst. rewrite (proj2 (text_eqb_eq _ _) eq_refl). reflexivity.
    - destruct (text_eqb (f k) (f x)) eqn:E'; [|apply IH; intros; eapply Hl; apply in_app_iff; eauto].
      apply text_eqb_eq in E'. apply J in E'; auto. subst. rewrite (proj2 (text_eqb_eq _ _) eq_refl) in E. discriminate. }
  intros args x Hx L. rewrite <- Q; auto.
  - f_equal. f_equal. clear. revert args. induction ps as [|p ps IH]; intros [|a args]; cbn; auto. rewrite IH. reflexivity.
  - intros k a Hi. apply in_combine_l in Hi. auto.
Qed.
Lemma get_none ps args x : List.length ps = List.length args -> (gm_get x (gm_collect (combine ps args)) = None <-> ~ In x ps).
Proof. apply gm_collect_none. Qed.

Definition look (f : text -> text) (r : res (node * ctx)) (r' : res (node * ctx)) : Prop :=
  match r with
  | Ok (nd, c) => exists g qs c', r' = Ok (ren_node g nd, c') /\ crel g qs c c' /\ ok g qs nd
  | Err e => r' = Err (ren_err R e)
  | Panic => r' = Panic
  end.
Lemma lookup_ren f ps c c' x args : crel f ps c c' -> sees R f ps x -> Forall (ok f ps) args ->
  look f (lookup_rule lk c x args) (lookup_rule lk' c' (f x) (map (ren_node f) args)).
Proof.
  intros Cr Sx Ha. unfold lookup_rule.
  assert (G : (exists g qs p p' nd d, In x ps /\ gm_get x (ctx_map c) = Some nd /\ gm_get (f x) (ctx_map c') = Some (ren_node g nd) /\ c = Ctx (ctx_map c) (Some p) d /\
      c' = Ctx (ctx_map c') (Some p') d /\ crel g qs p p' /\ ok g qs nd) \/
    gm_get x (ctx_map c) = None /\ gm_get (f x) (ctx_map c') = None /\ f x = R x).
  { destruct Cr as [f d|f ps g qs p p' args' d Cr J L Fa].
    - right. destruct Sx as [[]|[E _]]. auto.
    - destruct Sx as [I|[E N]].
      + left. pose proof (get_ren f g ps J args' x I L) as Q. destruct (gm_get x (gm_collect (combine ps args'))) as [nd|] eqn:E.
        * exists g, qs, p, p', nd, d. cbn [ctx_map]. repeat split; auto. apply collect_get in E. apply in_combine_r in E. rewrite Forall_forall in Fa. auto.
        * apply get_none in E; [tauto|auto].
      + right. cbn [ctx_map]. split; [|split; auto].
        * apply get_none; auto. intros I. apply N. apply in_map. auto.
        * apply get_none; auto. rewrite !map_length. auto. }
  destruct G as [(g & qs & p & p' & nd & d & I & E1 & E2 & E3 & E4 & Cp & Ok')|(E1 & E2 & E3)]; rewrite E1, E2.
  - rewrite E3, E4. cbn [ctx_past]. cbn. eauto 10.
  - rewrite E3. specialize (HR x). destruct (lk x) as [def|e]; [|cbn; now rewrite HR]. destruct HR as (def' & -> & g & J & Sd & ->).
    unfold derive, inc_depth. cbn [rd_parms rd_node]. rewrite !map_length, (crel_depth _ _ _ _ Cr).
    destruct (Nat.eqb_spec (List.length (rd_parms def)) (List.length args)) as [L|]; cbn [negb]; [|reflexivity].
    destruct (N.leb max_depth (ctx_depth c)); cbn [bind_res]; [reflexivity|].
    exists g, (rd_parms def). eexists. split; [reflexivity|]. split; auto. eapply cr_frame; eauto.
Qed.

(** * Lock step *)
Definition pure {A} (a : option (res A)) : option (res A) := option_map (ren_res R) a.
Definition stateful {A S} (a : option (res A * S)) : option (res A * S) := option_map (fun p => (ren_res R (fst p), snd p)) a.
Lemma fatal_ren e : is_fatal (ren_err R e) = is_fatal e. Proof. destruct e; reflexivity. Qed.
Lemma mismatch_ren e : is_mismatch (ren_err R e) = is_mismatch e. Proof. destruct e; reflexivity. Qed.
Lemma erase_ren e : erase_mapcut (ren_err R e) = ren_err R (erase_mapcut e). Proof. destruct e; reflexivity. Qed.

Lemma try_ren {St} (h : node -> node) (F G : node -> St -> option (res unit * St)) stop os fin s :
  (forall e, stop (ren_err R e) = stop e) -> ren_err R fin = fin -> (forall o s, In o os -> G (h o) s = stateful (F o s)) ->
  try_loop stop G (map h os) fin s = stateful (try_loop stop F os fin s).
Proof.
  intros Hs Hf. revert s. induction os as [|o os IH]; intros s H; cbn [map try_loop]; [cbn; now rewrite Hf|].
  rewrite H by (left; auto). destruct (F o s) as [[[u|e|] s']|]; cbn; auto. rewrite Hs. destruct (stop e); [reflexivity|]. apply IH. intros; apply H; right; auto.
Qed.
Lemma try_pure_ren (h : node -> node) (F G : node -> option (res unit)) stop os fin :
  (forall e, stop (ren_err R e) = stop e) -> ren_err R fin = fin -> (forall o, In o os -> G (h o) = pure (F o)) ->
  try_loop_pure stop G (map h os) fin = pure (try_loop_pure stop F os fin).
Proof.
  intros Hs Hf. induction os as [|o os IH]; intros H; cbn [map try_loop_pure]; [cbn; now rewrite Hf|].
  rewrite H by (left; auto). destruct (F o) as [[u|e|]|]; cbn; auto. rewrite Hs. destruct (stop e); [reflexivity|]. apply IH. intros; apply H; right; auto.
Qed.
Lemma seq_ren {St} (h : node -> node) (F G : node -> St -> option (res unit * St)) os s :
  (forall o s, In o os -> G (h o) s = stateful (F o s)) -> seq_loop G (map h os) s = stateful (seq_loop F os s).
Proof.
  revert s. induction os as [|o os IH]; intros s H; cbn [map seq_loop]; [reflexivity|].
  rewrite H by (left; auto). destruct (F o s) as [[[u|e|] s']|]; cbn; auto. apply IH. intros; apply H; right; auto.
Qed.
Lemma occur_ren {St} (F G : St -> option (res unit * St)) n up k s : (forall s, G s = stateful (F s)) -> occur_loop n G up k s = stateful (occur_loop n F up k s).
Proof.
  intros H. revert k s. induction n as [|n IH]; intros k s; cbn [occur_loop]; [reflexivity|]. rewrite H. destruct (F s) as [[[u|e|] s']|]; cbn; auto.
  - destruct (N.leb up (k + 1)); [reflexivity|apply IH].
  - rewrite mismatch_ren. destruct (is_mismatch e); reflexivity.
Qed.
Lemma search_ren (F G : value -> option (res unit)) l fin : ren_err R fin = fin -> (forall v, G v = pure (F v)) -> map_search_loop G l fin = pure (map_search_loop F l fin).
Proof.
  intros Hf H. induction l as [|[k v] l IH]; cbn [map_search_loop]; [cbn; now rewrite Hf|]. rewrite H. destruct (F k) as [[u|e|]|]; cbn; auto.
Qed.
Lemma obind_ren {A B} (a a' : option (res A)) (F G : A -> option (res B)) : a' = pure a -> (forall x, G x = pure (F x)) -> obind a' G = pure (obind a F).
Proof. intros -> H. destruct a as [[x|e|]|]; cbn; auto. Qed.

Lemma deref_ren n nd : forall f ps c c', crel f ps c c' -> ok f ps nd ->
  deref_range_rule (lookup_rule lk') n (ren_node f nd) c' = pure (deref_range_rule (lookup_rule lk) n nd c).
Proof.
  revert nd. induction n as [|n IH]; intros nd f ps c c' Cr O; cbn [deref_range_rule]; [reflexivity|]. destruct nd; cbn [ren_node]; try reflexivity.
  assert (L : look f (lookup_rule lk c name args) (lookup_rule lk' c' (f name) (map (ren_node f) args))).
  { eapply lookup_ren; eauto; [eapply ok_name; eauto; reflexivity|]. apply Forall_forall. intros y Hy. eapply ok_child; eauto. }
  destruct (lookup_rule lk c name args) as [[nd c1]|e|]; cbn in L; [|rewrite L; reflexivity..]. destruct L as (g & qs & c1' & -> & Cr' & O'). eauto.
Qed.
Lemma chase_ren {T} n (F : node -> res T) nd : (forall f nd, (forall nm a, nd <> NRule nm a) -> F (ren_node f nd) = ren_res R (F nd)) -> forall f ps c c', crel f ps c c' -> ok f ps nd ->
  chase_rules (lookup_rule lk') n F (ren_node f nd) c' = pure (chase_rules (lookup_rule lk) n F nd c).
Proof.
  intros HF. revert nd. induction n as [|n IH]; intros nd f ps c c' Cr O; cbn [chase_rules]; [reflexivity|].
  assert (D : (exists nm a, nd = NRule nm a) \/ (forall nm a, nd <> NRule nm a)) by (destruct nd; eauto; right; discriminate).
  destruct D as [(name & args & ->)|N].
  - cbn [ren_node]. assert (L : look f (lookup_rule lk c name args) (lookup_rule lk' c' (f name) (map (ren_node f) args))).
    { eapply lookup_ren; eauto; [eapply ok_name; eauto; reflexivity|]. apply Forall_forall. intros y Hy. eapply ok_child; eauto. }
    destruct (lookup_rule lk c name args) as [[nd c1]|e|]; cbn in L; [|rewrite L; reflexivity..]. destruct L as (g & qs & c1' & -> & Cr' & O'). eauto.
  - transitivity (Some (F (ren_node f nd))); [destruct nd; cbn [ren_node]; auto; exfalso; eapply N; eauto|]. rewrite HF by auto.
    destruct nd; cbn; auto. exfalso; eapply N; eauto.
Qed.

(** Leaf functions never report a missing rule. *)
Ltac splits := repeat match goal with
  | |- context [match ?t with _ => _ end] => destruct t; try reflexivity
  end; try reflexivity.
Lemma literal_ren l v : ren_res R (validate_literal X l v) = validate_literal X l v.
Proof. unfold validate_literal. splits. Qed.
Lemma prelude_ren p v : ren_res R (validate_prelude_type p v) = validate_prelude_type p v.
Proof. unfold validate_prelude_type. splits. Qed.
Lemma range_ren sh s e i v : ren_res R (range_compare sh s e i v) = range_compare sh s e i v.
Proof. unfold range_compare. splits. Qed.
Lemma regexp_ren re v : ren_res R (validate_control_regexp X re v) = validate_control_regexp X re v.
Proof. unfold validate_control_regexp. splits. Qed.
Lemma size_limit_ren f nd : (forall nm a, nd <> NRule nm a) -> normalize_size_range X (ren_node f nd) = ren_res R (normalize_size_range X nd).
Proof.
  intros N. destruct nd; cbn [ren_node normalize_size_range]; try reflexivity; try (exfalso; eapply N; reflexivity); try (cbn; rewrite !show_ren; reflexivity).
  - splits.
  - destruct nd1; cbn [ren_node]; try reflexivity; try (cbn; rewrite !show_ren; reflexivity). destruct l; try reflexivity.
    destruct nd2; cbn [ren_node]; try reflexivity; try (cbn; rewrite !show_ren; reflexivity). splits.
Qed.
Lemma bounds_ren ty b e : size_bounds ty b = Err e -> ren_err R e = e.
Proof.
  unfold size_bounds. destruct b as [[s e0] i]. destruct s as [[]| | | | | | | | | | | | |]; try (intros [= <-]; reflexivity).
  destruct e0 as [[]| | | | | | | | | | | | |]; try (intros [= <-]; reflexivity). destruct (to_u64 z); [|intros [= <-]; reflexivity].
  destruct (to_u64 z0); [|intros [= <-]; reflexivity]. destruct (_ || _); [intros [= <-]; reflexivity|discriminate].
Qed.
Lemma uint_ren b v : ren_res R (validate_size_uint b v) = validate_size_uint b v.
Proof. unfold validate_size_uint. destruct (size_bounds _ b) as [[[x y] i]|e|] eqn:E; [|cbn; now rewrite (bounds_ren _ _ _ E)|reflexivity]. splits. Qed.
Lemma tstr_ren b v : ren_res R (validate_size_tstr b v) = validate_size_tstr b v.
Proof. unfold validate_size_tstr. destruct (size_bounds _ b) as [[[x y] i]|e|] eqn:E; [|cbn; now rewrite (bounds_ren _ _ _ E)|reflexivity]. splits. Qed.
Lemma bstr_ren b v : ren_res R (validate_size_bstr b v) = validate_size_bstr b v.
Proof. unfold validate_size_bstr. destruct (size_bounds _ b) as [[[x y] i]|e|] eqn:E; [|cbn; now rewrite (bounds_ren _ _ _ E)|reflexivity]. splits. Qed.
Lemma size_target_ren sz v f nd : size_target X sz v (ren_node f nd) = ren_res R (size_target X sz v nd).
Proof.
  unfold size_target. destruct nd; cbn [ren_node]; try reflexivity; try (cbn; rewrite !show_ren; reflexivity).
  destruct p; try reflexivity; symmetry; auto using uint_ren, tstr_ren, bstr_ren.
Qed.
Lemma limit_ren op f nd : cmp_limit X op (ren_node f nd) = ren_res R (cmp_limit X op nd).
Proof. unfold cmp_limit. destruct nd; cbn [ren_node]; try reflexivity; try (cbn; rewrite !show_ren; reflexivity). destruct l; reflexivity. Qed.
Lemma lt_ren l v f nd : lt_target X l v (ren_node f nd) = ren_res R (lt_target X l v nd).
Proof. unfold lt_target, validate_lt_uint, validate_lt_nint, validate_lt_int. destruct nd; cbn [ren_node]; try reflexivity; try (cbn; rewrite !show_ren; reflexivity). destruct p; try reflexivity; destruct v; try reflexivity; splits. Qed.
Lemma le_ren l v f nd : le_target X l v (ren_node f nd) = ren_res R (le_target X l v nd).
Proof. unfold le_target, validate_le_uint, validate_le_nint, validate_le_int. destruct nd; cbn [ren_node]; try reflexivity; try (cbn; rewrite !show_ren; reflexivity). destruct p; try reflexivity; destruct v; try reflexivity; splits. Qed.
Lemma gt_ren l v f nd : gt_target X l v (ren_node f nd) = ren_res R (gt_target X l v nd).
Proof. unfold gt_target, validate_gt_uint, validate_gt_nint, validate_gt_int. destruct nd; cbn [ren_node]; try reflexivity; try (cbn; rewrite !show_ren; reflexivity). destruct p; try reflexivity; destruct v; try reflexivity; splits. Qed.
Lemma ge_ren l v f nd : ge_target X l v (ren_node f nd) = ren_res R (ge_target X l v nd).
Proof. unfold ge_target, validate_ge_uint, validate_ge_nint, validate_ge_int. destruct nd; cbn [ren_node]; try reflexivity; try (cbn; rewrite !show_ren; reflexivity). destruct p; try reflexivity; destruct v; try reflexivity; splits. Qed.

Notation l1 := (lookup_rule lk).
Notation l2 := (lookup_rule lk').
Lemma len_ren f l : len_text (map (ren_node f) l) = len_text l. Proof. unfold len_text. rewrite map_length. reflexivity. Qed.
Lemma choice_ren f l : choice_error (map (ren_node f) l) = choice_error l. Proof. unfold choice_error. rewrite len_ren. reflexivity. Qed.
Lemma choiceify_ren f l : choiceify_error (map (ren_node f) l) = choiceify_error l. Proof. unfold choiceify_error. rewrite len_ren. reflexivity. Qed.

Theorem ren_lockstep n :
  (forall v nd f ps c c', crel f ps c c' -> ok f ps nd -> validate X l2 n v (ren_node f nd) c' = pure (validate X l1 n v nd c)) /\
  (forall nd w f ps c c', crel f ps c c' -> ok f ps nd -> validate_array_member X l2 n (ren_node f nd) w c' = stateful (validate_array_member X l1 n nd w c)) /\
  (forall nd w f ps c c', crel f ps c c' -> ok f ps nd -> validate_map_member X l2 n (ren_node f nd) w c' = stateful (validate_map_member X l1 n nd w c)) /\
  (forall nm args v f ps c c', crel f ps c c' -> sees R f ps nm -> Forall (ok f ps) args ->
     validate_choiceify X l2 n (f nm) (map (ren_node f) args) v c' = pure (validate_choiceify X l1 n nm args v c)) /\
  (forall nm args w f ps c c', crel f ps c c' -> sees R f ps nm -> Forall (ok f ps) args ->
     validate_map_choiceify X l2 n (f nm) (map (ren_node f) args) w c' = stateful (validate_map_choiceify X l1 n nm args w c)).
Proof.
  induction n as [|n IH].
  { repeat split; intros; reflexivity. }
  destruct IH as (IHv & IHa & IHm & IHc & IHmc).
  assert (AV : forall nd w f ps c c', crel f ps c c' -> ok f ps nd ->
    validate_array_value X (fun v nd => validate X l2 n v nd c') (ren_node f nd) w = stateful (validate_array_value X (fun v nd => validate X l1 n v nd c) nd w)).
  { intros nd w f ps c c' Cr O. unfold validate_array_value. destruct (wa_peek_front w); [|cbn; rewrite show_ren; reflexivity].
    rewrite (IHv v nd f ps c c') by auto. destruct (validate X l1 n v nd c) as [[u|e|]|]; cbn; auto. destruct (wa_pop_front w); reflexivity. }
  assert (Rf : forall nd f ps nm a, ok f ps nd -> refers nd = Some (nm, a) -> sees R f ps nm /\ Forall (ok f ps) a).
  { intros nd f ps nm a O E. split; [eapply ok_name; eauto|]. apply Forall_forall. intros y Hy. eapply ok_child; eauto. destruct nd; inversion E; subst; auto. }
  assert (CM : forall v f ps c c' ms, crel f ps c c' -> (forall m, In m ms -> ok f ps m) ->
    validate_choiceify_members (fun m => validate X l2 n v m c') (fun name args => validate_choiceify X l2 n name args v c') (map (ren_node f) ms) =
    pure (validate_choiceify_members (fun m => validate X l1 n v m c) (fun name args => validate_choiceify X l1 n name args v c) ms)).
  { intros v f ps c c' ms Cr H. unfold validate_choiceify_members. rewrite choiceify_ren. apply try_pure_ren; [apply fatal_ren|reflexivity|]. intros o Ho. apply H in Ho.
    destruct o; try (apply (IHv v _ f ps c c'); auto; fail).
    - cbn [ren_node]. destruct (Rf _ _ _ _ _ Ho eq_refl). eapply IHc; eauto.
    - cbn [ren_node]. eapply IHv; eauto. eapply ok_child; eauto. cbn; auto. }
  repeat split.
  - intros v nd f ps c c' Cr O. rewrite !validate_S. pose proof (fun nd' => ok_child f ps nd nd' O) as HS.
    destruct nd; cbn [ren_node]; try reflexivity; cbn [children] in HS.
    + cbn. rewrite literal_ren. reflexivity.
    + cbn. rewrite prelude_ren. reflexivity.
    + destruct (Rf _ _ _ _ _ O eq_refl) as [Sn Fa]. pose proof (lookup_ren f ps c c' name args Cr Sn Fa) as L.
      destruct (l1 c name args) as [[nd c1]|e|]; cbn in L; [|rewrite L; reflexivity..]. destruct L as (g & qs & c1' & -> & Cr' & O'). eauto.
    + unfold validate_choice. rewrite choice_ren. apply try_pure_ren; [apply fatal_ren|reflexivity|]. intros o Ho. eapply IHv; eauto.
    + unfold validate_map. destruct v; try reflexivity.
      rewrite (seq_ren (ren_node f) (fun m w => validate_map_member X l1 n m w c)) by (intros; eapply IHm; eauto).
      destruct (seq_loop _ members (wm_new m)) as [[[u|e|] w]|]; cbn; auto; [destruct (wm_map w); reflexivity|rewrite erase_ren; reflexivity].
    + unfold validate_array. destruct v; try reflexivity.
      rewrite (seq_ren (ren_node f) (fun m w => validate_array_member X l1 n m w c)) by (intros; eapply IHa; eauto).
      destruct (seq_loop _ members (wa_new l)) as [[[u|e|] w]|]; cbn; auto; destruct (wa_array w); reflexivity.
    + unfold validate_standalone_group. destruct members as [|x [|y l]]; try reflexivity. cbn [map]. eapply IHv; eauto. apply HS. left; auto.
    + unfold validate_range. apply obind_ren; [eapply deref_ren; eauto; apply HS; left; auto|]. intros a.
      apply obind_ren; [eapply deref_ren; eauto; apply HS; right; left; auto|]. intros b. unfold show_range. rewrite !show_ren. cbn. rewrite range_ren. reflexivity.
    + destruct c0 as [t s|t s|t s|t s|t s|re|t]; cbn [validate_control control_children] in *;
        unfold validate_control_size, validate_control_lt, validate_control_le, validate_control_gt, validate_control_ge.
      1-5: apply obind_ren; [eapply chase_ren; eauto; [|apply HS; right; left; auto]|intros; eapply chase_ren; eauto; [|apply HS; left; auto]];
           auto using size_limit_ren, size_target_ren, limit_ren, lt_ren, le_ren, gt_ren, ge_ren.
      * cbn. rewrite regexp_ren. reflexivity.
      * unfold validate_control_cbor. destruct v; try reflexivity. destruct (cbor_decode X b) as [cv|]; [|reflexivity].
        destruct (of_cbor_cases cv) as [(v & -> & _)|[-> _]]; [|reflexivity]. eapply IHv; eauto. apply HS. left; auto.
    + destruct (Rf _ _ _ _ _ O eq_refl). eapply IHc; eauto.
    + eapply CM; eauto.
  - intros nd w f ps c c' Cr O. rewrite !validate_array_member_S. pose proof (fun nd' => ok_child f ps nd nd' O) as HS.
    destruct nd; cbn [ren_node]; cbn [children] in HS; try (apply (AV _ w f ps c c' Cr O); fail).
    + destruct (Rf _ _ _ _ _ O eq_refl) as [Sn Fa]. pose proof (lookup_ren f ps c c' name args Cr Sn Fa) as L.
      destruct (l1 c name args) as [[nd c1]|e|]; cbn in L; [|rewrite L; reflexivity..]. destruct L as (g & qs & c1' & -> & Cr' & O'). eauto.
    + rewrite choice_ren. apply try_ren; [apply fatal_ren|reflexivity|]. intros o s Ho. eapply IHa; eauto.
    + unfold validate_array_group. rewrite (seq_ren (ren_node f) (fun m w => validate_array_member X l1 n m w c)) by (intros; eapply IHa; eauto).
      destruct (seq_loop _ members _) as [[[u|e|] s]|]; cbn; auto; [destruct (wa_commit s)|destruct (wa_rewind s)]; reflexivity.
    + eapply AV; eauto. apply HS. cbn; auto.
    + unfold validate_array_occur, show_occur. rewrite show_ren. destruct (limits limit) as [lo up].
      rewrite (occur_ren (fun w => validate_array_member X l1 n nd w c)) by (intros; eapply IHa; eauto; apply HS; left; auto).
      destruct (occur_loop n _ up 0 w) as [[[k|e|] s]|]; cbn; auto. destruct (N.ltb k lo); reflexivity.
    + destruct (Rf _ _ _ _ _ O eq_refl) as [Sn Fa]. pose proof (lookup_ren f ps c c' name args Cr Sn Fa) as L.
      destruct (l1 c name args) as [[nd c1]|e|]; cbn in L; [|rewrite L; reflexivity..]. destruct L as (g & qs & c1' & -> & Cr' & O').
      unfold validate_array_unwrap. destruct nd; cbn [ren_node]; try reflexivity. apply seq_ren. intros m s Hm. eapply IHa; eauto. eapply ok_child; eauto.
  - intros nd w f ps c c' Cr O. rewrite !validate_map_member_S. pose proof (fun nd' => ok_child f ps nd nd' O) as HS.
    destruct nd; cbn [ren_node]; cbn [children] in HS; try reflexivity.
    + destruct (Rf _ _ _ _ _ O eq_refl) as [Sn Fa]. pose proof (lookup_ren f ps c c' name args Cr Sn Fa) as L.
      destruct (l1 c name args) as [[nd c1]|e|]; cbn in L; [|rewrite L; reflexivity..]. destruct L as (g & qs & c1' & -> & Cr' & O'). eauto.
    + unfold validate_map_choice. rewrite choice_ren. apply try_ren; [intros; rewrite mismatch_ren; reflexivity|reflexivity|]. intros o s Ho. eapply IHm; eauto.
    + unfold validate_map_group. rewrite (seq_ren (ren_node f) (fun m w => validate_map_member X l1 n m w c)) by (intros; eapply IHm; eauto).
      destruct (seq_loop _ members _) as [[[u|e|] s]|]; cbn; auto; [destruct (wm_commit s)|destruct (wm_rewind s)]; try rewrite erase_ren; reflexivity.
    + assert (K : validate_map_key X (fun v nd => validate X l2 n v nd c') (ren_node f nd1) w = pure (validate_map_key X (fun v nd => validate X l1 n v nd c) nd1 w)).
      { assert (Q : map_search X (fun v nd => validate X l2 n v nd c') (ren_node f nd1) w = pure (map_search X (fun v nd => validate X l1 n v nd c) nd1 w)).
        { unfold map_search. rewrite show_ren. apply search_ren; [reflexivity|]. intros. eapply IHv; eauto. apply HS; left; auto. }
        destruct nd1; try exact Q. cbn. unfold map_search_literal. destruct (wm_peek_at _ w); reflexivity. }
      unfold validate_map_keyvalue. rewrite K. destruct (validate_map_key X (fun v nd => validate X l1 n v nd c) nd1 w) as [[[wk wv]|e|]|]; cbn; auto.
      rewrite (IHv wv nd2 f ps c c') by (auto; apply HS; cbn; auto). destruct (validate X l1 n wv nd2 c) as [[u|e|]|]; cbn; auto.
      * destruct (wm_remove wk w); reflexivity.
      * destruct cut, e; reflexivity.
    + unfold validate_map_occur, show_occur. rewrite show_ren. destruct (limits limit) as [lo up].
      rewrite (occur_ren (fun w => validate_map_member X l1 n nd w c)) by (intros; eapply IHm; eauto; apply HS; left; auto).
      destruct (occur_loop n _ up 0 w) as [[[k|e|] s]|]; cbn; auto. destruct (N.ltb k lo); reflexivity.
    + destruct (Rf _ _ _ _ _ O eq_refl) as [Sn Fa]. pose proof (lookup_ren f ps c c' name args Cr Sn Fa) as L.
      destruct (l1 c name args) as [[nd c1]|e|]; cbn in L; [|rewrite L; reflexivity..]. destruct L as (g & qs & c1' & -> & Cr' & O').
      unfold validate_map_unwrap. destruct nd; cbn [ren_node]; try reflexivity. apply seq_ren. intros m s Hm. eapply IHm; eauto. eapply ok_child; eauto.
    + destruct (Rf _ _ _ _ _ O eq_refl). eapply IHmc; eauto.
    + unfold validate_map_choice. rewrite choice_ren. apply try_ren; [intros; rewrite mismatch_ren; reflexivity|reflexivity|]. intros o s Ho. eapply IHm; eauto.
  - intros nm args v f ps c c' Cr Sn Fa. rewrite !validate_choiceify_S. pose proof (lookup_ren f ps c c' nm args Cr Sn Fa) as L.
    destruct (l1 c nm args) as [[nd c1]|e|]; cbn in L; [|rewrite L; reflexivity..]. destruct L as (g & qs & c1' & -> & Cr' & O').
    destruct nd; cbn [ren_node]; try reflexivity.
    + destruct (Rf _ _ _ _ _ O' eq_refl). eapply IHc; eauto.
    + eapply CM; eauto. intros m Hm. eapply ok_child; eauto.
  - intros nm args w f ps c c' Cr Sn Fa. rewrite !validate_map_choiceify_S. pose proof (lookup_ren f ps c c' nm args Cr Sn Fa) as L.
    destruct (l1 c nm args) as [[nd c1]|e|]; cbn in L; [|rewrite L; reflexivity..]. destruct L as (g & qs & c1' & -> & Cr' & O').
    destruct nd; cbn [ren_node]; try reflexivity.
    + destruct (Rf _ _ _ _ _ O' eq_refl). eapply IHmc; eauto.
    + unfold validate_map_choiceify_members. rewrite choiceify_ren. apply try_ren; [intros; rewrite mismatch_ren; reflexivity|reflexivity|].
      intros o s Ho. assert (Ho' : ok g qs o) by (eapply ok_child; eauto). destruct o; try (apply (IHm _ s g qs c1 c1'); auto; fail).
      * cbn [ren_node]. destruct (Rf _ _ _ _ _ Ho' eq_refl). eapply IHmc; eauto.
      * cbn [ren_node]. eapply IHm; eauto. eapply ok_child; eauto. cbn; auto.
Qed.

Theorem run_ren v d d' : renamed_def R d d' -> run_validate X lk' v d' = ren_res R (run_validate X lk v d).
Proof.
  intros (f & J & S & ->). destruct (run_validate_spec X lk v d) as (n & H). apply (run_validate_run X lk' n). unfold do_validate in *. cbn [rd_parms rd_node].
  destruct (rd_parms d) as [|p ps] eqn:E; cbn [map].
  - rewrite (proj1 (ren_lockstep n) v (rd_node d) f [] initial_ctx initial_ctx); [rewrite H; reflexivity|constructor|exact S].
  - inversion H as [H']. reflexivity.
Qed.
End Validator.
