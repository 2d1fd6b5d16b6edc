(** Fatal errors travel from any task reached to the overall result. *)
From Coq Require Import List Bool ZArith NArith String Lia Arith.
From Verif Require Import Base Util Data Value Convert Ivt Scalar Validate Fun SpecBase SpecReach
  ArrayInv MapInv ConvertProofs NoPanic CtxProofs.
Import ListNotations.

Section Loops.
Context {St : Type}.
Variable f : node -> St -> res unit * St.

Lemma seqs_runs pre post s s' : runs f pre s s' -> seqs f (pre ++ post) s = seqs f post s'.
Proof. induction 1; cbn; auto. rewrite H. auto. Qed.
Lemma tries_skips stop pre post fin s s' : (forall m, stop (EMismatch m) = false) ->
  skips f pre s s' -> tries stop f (pre ++ post) fin s = tries stop f post fin s'.
Proof. intros HS. induction 1; cbn; auto. rewrite H, HS. auto. Qed.
Lemma seqs_ok_runs ms s s' : seqs f ms s = (Ok tt, s') -> runs f ms s s'.
Proof.
  revert s; induction ms as [|m ms IH]; cbn; intros s H; [inversion H; constructor|].
  destruct (f m s) as [[[]|e|] s1] eqn:E; try discriminate. econstructor; eauto.
Qed.
End Loops.

Lemma tries_pure_skips f stop pre post fin : (forall m, stop (EMismatch m) = false) ->
  (forall o, In o pre -> rejected (f o)) -> tries_pure stop f (pre ++ post) fin = tries_pure stop f post fin.
Proof.
  intros HS. induction pre as [|o pre IH]; cbn; intros H; auto.
  destruct (H o (or_introl eq_refl)) as (m & ->). rewrite HS. auto.
Qed.

Lemma occ_repeats {St} (f : St -> res unit * St) up k s s' :
  repeats f k s s' -> (k = 0 \/ k < up)%N -> occ f up 0 s = occ f up k s'.
Proof.
  intros R. induction R as [|k s s1 s2 R IH E]; intros H; auto.
  rewrite IH by lia. rewrite occ_eq, E.
  destruct (N.leb_spec up (k + 1)); auto. lia.
Qed.

Section Reach.
Variable X : ext.
Variable lk : lookup_context.

Definition bad (e : verror) (r : res unit) : Prop := r = Err e \/ r = Panic.

Lemma item_outcome v c o : outcome X lk (item_task v c o) = choiceify_item X lk v c o.
Proof. destruct o; reflexivity. Qed.
Lemma map_item_outcome w c o : outcome X lk (map_item_task w c o) = fst (map_choiceify_item X lk c o w).
Proof. destruct o; reflexivity. Qed.

Lemma bad_tries_pure f fin o post e stop : stop e = true -> bad e (f o) ->
  bad e (tries_pure stop f (o :: post) fin).
Proof. intros S [H|H]; cbn; rewrite H; [rewrite S; left|right]; auto. Qed.
Lemma bad_tries {St} (f : node -> St -> res unit * St) fin o post e stop s : stop e = true -> bad e (fst (f o s)) ->
  bad e (fst (tries stop f (o :: post) fin s)).
Proof. intros S H; cbn. destruct (f o s) as [r s']. destruct H as [H|H]; cbn in H; subst; [rewrite S; left|right]; auto. Qed.
Lemma bad_seqs {St} (f : node -> St -> res unit * St) o post e s : bad e (fst (f o s)) ->
  bad e (fst (seqs f (o :: post) s)).
Proof. intros H; cbn. destruct (f o s) as [r s']. destruct H as [H|H]; cbn in H; subst; [left|right]; auto. Qed.
Lemma bad_occ {St} (f : St -> res unit * St) lo up sh k s e : is_mismatch e = false -> bad e (fst (f s)) ->
  bad e (fst (occur_result lo sh (occ f up k s))).
Proof.
  intros M H; rewrite occ_eq. destruct (f s) as [r s'].
  destruct H as [H|H]; cbn in H; subst; [rewrite M; left|right]; auto.
Qed.
Lemma bad_array_value nd w c v a e : wa_array w = v :: a -> bad e (val X lk v nd c) ->
  bad e (fst (array_value X lk nd w c)).
Proof. intros W H. unfold array_value, wa_peek_front. rewrite W. destruct H as [H|H]; rewrite H; [left|right]; auto. Qed.

(** One step; the signal of a cut also travels, except through groups. *)
Lemma next_bad g e t t' : next X lk g t t' ->
  (is_fatal e = true \/ (g = true /\ is_map_task t = true /\ is_map_task t' = true /\ exists m, e = EMapCut m)) ->
  bad e (outcome X lk t') -> bad e (outcome X lk t).
Proof.
  intros N F H.
  assert (M : is_mismatch e = false) by (destruct F as [F|(_ & _ & _ & m & ->)]; [destruct e; auto; discriminate|auto]).
  assert (MN : negb (is_mismatch e) = true) by (rewrite M; auto).
  assert (FT : is_map_task t = false -> is_fatal e = true) by (intros; destruct F as [F|(_ & F & _)]; auto; congruence).
  assert (FT' : is_map_task t' = false -> is_fatal e = true) by (intros; destruct F as [F|(_ & _ & F & _)]; auto; congruence).
  destruct N; cbn [outcome is_map_task] in *; try specialize (FT eq_refl); try specialize (FT' eq_refl);
    first [rewrite val_eq|rewrite aval_eq|rewrite mval_eq|rewrite chval_eq|rewrite mchval_eq].
  - rewrite H0; exact H.
  - rewrite tries_pure_skips; auto. apply bad_tries_pure; auto.
  - auto.
  - unfold array_all. rewrite (seqs_runs (af X lk c) _ _ _ _ H0).
    apply (bad_seqs (af X lk c) m post) in H. destruct (seqs _ _ w) as [r s]. destruct H as [H|H]; cbn in H; subst; [left|right]; auto.
  - unfold map_all. rewrite (seqs_runs (mf X lk c) _ _ _ _ H0).
    assert (EE : erase_mapcut e = e) by (destruct e; auto; discriminate).
    apply (bad_seqs (mf X lk c) m post) in H. destruct (seqs _ _ w) as [r s]. destruct H as [H|H]; cbn in H; subst; [left; rewrite EE|right]; auto.
  - cbn. rewrite H0, H1. cbn. auto.
  - auto.
  - rewrite tries_pure_skips; auto.
    + apply bad_tries_pure; auto. rewrite <- item_outcome; auto.
    + intros o' Ho. rewrite <- item_outcome; auto.
  - rewrite H0; exact H.
  - rewrite H0. rewrite tries_pure_skips; auto.
    + apply bad_tries_pure; auto. rewrite <- item_outcome; auto.
    + intros o' Ho. rewrite <- item_outcome; auto.
  - unfold array_occur. change (fun w => aval X lk m w c) with (af X lk c m). rewrite (occ_repeats _ _ _ _ _ H0 H1). apply bad_occ; auto.
  - eapply bad_array_value; eauto.
  - rewrite H0; exact H.
  - rewrite H0. cbn. rewrite (seqs_runs (af X lk c') _ _ _ _ H1). apply (bad_seqs (af X lk c') m post); auto.
  - change (fun o w => aval X lk o w c) with (af X lk c). rewrite (tries_skips (af X lk c) _ pre _ _ _ w'); auto.
    apply (bad_tries (af X lk c)); auto.
  - unfold array_group. rewrite (seqs_runs (af X lk c) _ _ _ _ H0).
    apply (bad_seqs (af X lk c) m post) in H. destruct (seqs _ _ w') as [r s]. destruct H as [H|H]; cbn in H; subst; [|right; auto].
    destruct (wa_rewind s); [left|right]; auto.
  - destruct m; try contradiction; eapply bad_array_value; eauto.
  - unfold map_occur. change (fun w => mval X lk m w c) with (mf X lk c m). rewrite (occ_repeats _ _ _ _ _ H0 H1). apply bad_occ; auto.
  - unfold map_keyvalue. rewrite H0. destruct H as [H|H]; rewrite H; [|right; auto].
    destruct cut, e; left; auto; discriminate.
  - rewrite H0; exact H.
  - rewrite H0. cbn. rewrite (seqs_runs (mf X lk c') _ _ _ _ H1). apply (bad_seqs (mf X lk c') m post); auto.
  - change (fun o w => mval X lk o w c) with (mf X lk c). rewrite (tries_skips (mf X lk c) _ pre _ _ _ w'); auto.
    apply (bad_tries (mf X lk c)); auto.
  - assert (FE : is_fatal e = true) by (destruct F as [F|(F & _)]; auto; congruence).
    assert (EE : erase_mapcut e = e) by (destruct e; auto; discriminate).
    unfold map_group. rewrite (seqs_runs (mf X lk c) _ _ _ _ H1).
    apply (bad_seqs (mf X lk c) m post) in H. destruct (seqs _ _ w') as [r s]. destruct H as [H|H]; cbn in H; subst; [|right; auto].
    destruct (wm_rewind s); [left; rewrite EE|right]; auto.
  - auto.
  - change (fun o w => mval X lk o w c) with (mf X lk c). rewrite (tries_skips (mf X lk c) _ pre _ _ _ w'); auto.
    apply (bad_tries (mf X lk c)); auto.
  - rewrite H0; exact H.
  - rewrite H0. rewrite (tries_skips (map_choiceify_item X lk c') _ pre _ _ _ w'); auto.
    apply (bad_tries (map_choiceify_item X lk c')); auto. rewrite <- map_item_outcome; auto.
Qed.

Lemma reaches_bad e t t' : reaches X lk t t' -> is_fatal e = true ->
  bad e (outcome X lk t') -> bad e (outcome X lk t).
Proof. intros R F H. induction R; auto. eapply next_bad; eauto. Qed.

(** The result of a validation that reaches a fatal error is that error. *)
Theorem fatal_error_wins v nd c t' e :
  keys_sorted v -> reaches X lk (TV v nd c) t' -> is_fatal e = true ->
  outcome X lk t' = Err e -> val X lk v nd c = Err e.
Proof.
  intros K R F H. destruct (reaches_bad e _ _ R F (or_introl H)) as [E|E]; auto.
  destruct (val_nopanic X lk v nd c K E).
Qed.

Lemma reaches_in_map_bad m t t' : reaches_in_map X lk t t' -> is_map_task t = true ->
  bad (EMapCut m) (outcome X lk t') -> bad (EMapCut m) (outcome X lk t).
Proof.
  intros R. induction R as [t|t t1 t2 [N I] R IH]; intros T H; auto.
  eapply next_bad; [exact N| |apply IH; auto]. right. eauto.
Qed.
End Reach.

(** * Names *)

Section Names.
Variable X : ext.
Variable lk : lookup_context.

Lemma follows_deref c nd name args c' e :
  follows lk c nd name args c' -> lookup_rule lk c' name args = Err e -> deref X lk nd c = Err e.
Proof. induction 1; intros H'; rewrite deref_eq; [rewrite H'|rewrite H]; cbn; auto. Qed.
Lemma follows_chase {R} (f : node -> res R) c nd name args c' e :
  follows lk c nd name args c' -> lookup_rule lk c' name args = Err e -> chase X lk f nd c = Err e.
Proof. induction 1; intros H'; rewrite chase_eq; [rewrite H'|rewrite H]; cbn; auto. Qed.

Lemma chase_lit {R} (f : node -> res R) c nd l c' : named lk c nd (NLiteral l) c' -> chase X lk f nd c = f (NLiteral l).
Proof.
  intros H. remember (NLiteral l) as n. induction H; subst; rewrite chase_eq; auto. rewrite H. cbn. auto.
Qed.
Lemma deref_lit c nd l c' : named lk c nd (NLiteral l) c' -> deref X lk nd c = Ok l.
Proof.
  intros H. remember (NLiteral l) as n. induction H; subst; rewrite deref_eq; auto. rewrite H. cbn. auto.
Qed.

Lemma looks_up_err t name args c' e :
  looks_up lk t name args c' -> lookup_rule lk c' name args = Err e -> outcome X lk t = Err e.
Proof.
  intros L E. destruct L; cbn [outcome];
    first [rewrite val_eq|rewrite aval_eq|rewrite mval_eq|rewrite chval_eq|rewrite mchval_eq];
    try (rewrite E; reflexivity).
  - rewrite (follows_deref _ _ _ _ _ _ H E). reflexivity.
  - rewrite (deref_lit _ _ _ _ H). cbn [bind_res]. rewrite (follows_deref _ _ _ _ _ _ H0 E). reflexivity.
  - destruct H; cbn [control_val]; rewrite (follows_chase _ _ _ _ _ _ _ H0 E); reflexivity.
  - assert (U : to_u64 z = Some (Z.to_N z)).
    { unfold to_u64. destruct (Z.leb_spec 0 z); [|lia]. destruct (Z.leb_spec z 18446744073709551615); [auto|lia]. }
    destruct H; cbn [control_val]; rewrite (chase_lit _ _ _ _ _ H0); cbn [cmp_limit normalize_size_range bind_res];
      rewrite ?U; cbn [bind_res]; rewrite (follows_chase _ _ _ _ _ _ _ H2 E); reflexivity.
Qed.

Theorem missing_rule_reported v nd c t name args c' :
  keys_sorted v -> reaches X lk (TV v nd c) t -> looks_up lk t name args c' ->
  gm_get name (ctx_map c') = None -> lk name = inr (EMissingRule name) ->
  val X lk v nd c = Err (EMissingRule name).
Proof.
  intros K R L G M. eapply fatal_error_wins; eauto. eapply looks_up_err; eauto. apply lookup_missing; auto.
Qed.

Theorem arity_reported v nd c t name args c' def :
  keys_sorted v -> reaches X lk (TV v nd c) t -> looks_up lk t name args c' ->
  gm_get name (ctx_map c') = None -> lk name = inl def -> List.length (rd_parms def) <> List.length args ->
  val X lk v nd c = Err EGenericError.
Proof.
  intros K R L G M A. eapply fatal_error_wins; eauto. eapply looks_up_err; eauto. eapply lookup_arity; eauto.
Qed.

Theorem limit_reported v nd c t name args c' def :
  keys_sorted v -> reaches X lk (TV v nd c) t -> looks_up lk t name args c' ->
  gm_get name (ctx_map c') = None -> lk name = inl def -> List.length (rd_parms def) = List.length args ->
  (max_depth <= ctx_depth c')%N ->
  val X lk v nd c = Err limit_error.
Proof.
  intros K R L G M A D. eapply fatal_error_wins; eauto. eapply looks_up_err; eauto.
  rewrite (lookup_enter _ _ _ _ _ G M A). apply N.leb_le in D. rewrite D. reflexivity.
Qed.

(** A reported missing rule is missing. *)
Theorem missing_rule_true rs v def name :
  keys_sorted v -> run_validate X (basic_context rs) v def = Err (EMissingRule name) -> rules_get rs name = None.
Proof.
  intros K H.
  pose proof (run_clean X (basic_context rs) (fun e => forall n, e = EMissingRule n -> rules_get rs n = None)) as C.
  destruct (C ltac:(discriminate) ltac:(discriminate) ltac:(discriminate) ltac:(discriminate) ltac:(discriminate)) with (v := v) (def := def) as [_ G]; auto.
  - intros n e E m ->. unfold basic_context in E. destruct (rules_get rs n) eqn:R; inversion E; subst; auto.
  - eapply G; eauto.
Qed.

Theorem generic_start_rejected v def : rd_parms def <> [] -> run_validate X lk v def = Err EGenericError.
Proof. apply run_validate_generic. Qed.

(** ** Cycles *)

Theorem cycle_reported (S : text -> Prop) :
  (forall name, S name -> exists def name' args',
     lk name = inl def /\ leads_to (rd_node def) = Some (name', args') /\ S name' /\ ~ In name' (rd_parms def) /\
     forall def', lk name' = inl def' -> List.length (rd_parms def') = List.length args') ->
  forall v nd c t name args c' def,
  keys_sorted v -> reaches X lk (TV v nd c) t ->
  (exists w, t = TV w (NRule name args) c' ) \/ (exists w, t = TA (NRule name args) w c') \/ (exists w, t = TM (NRule name args) w c') ->
  S name -> gm_get name (ctx_map c') = None -> lk name = inl def -> List.length (rd_parms def) = List.length args ->
  val X lk v nd c = Err limit_error.
Proof.
  intros HS v nd c t name args c' def K R T HN G D A.
  destruct (cyclic_all X lk S HS (50 - N.to_nat (ctx_depth c')) c' name args HN G) as (H1 & H2 & H3); auto.
  { intros def' D'. congruence. }
  eapply fatal_error_wins; eauto.
  destruct T as [(w & ->)|[(w & ->)|(w & ->)]]; cbn; [apply H1|apply H2|apply H3].
Qed.

(** ** Choices *)

Theorem choice_exact v os c :
  (forall o, In o os -> val X lk v o c = Ok tt \/ rejected (val X lk v o c)) ->
  (val X lk v (NChoice os) c = Ok tt /\ exists o, In o os /\ val X lk v o c = Ok tt) \/
  (val X lk v (NChoice os) c = Err (EMismatch (txt "choice of " ++ show_N (N.of_nat (List.length os)))) /\
   forall o, In o os -> rejected (val X lk v o c)).
Proof.
  intros H. rewrite val_eq. unfold choice_error, mismatch, len_text.
  generalize (EMismatch (txt "choice of " ++ show_N (N.of_nat (List.length os)))). intros fin.
  induction os as [|o os IH]; cbn; [right; split; auto; contradiction|].
  destruct (H o (or_introl eq_refl)) as [E|(m & E)]; rewrite E.
  - left. split; auto. exists o; auto.
  - cbn. destruct IH as [[I1 (o' & I2 & I3)]|[I1 I2]]; [intros; apply H; right; auto| |].
    + left. split; auto. exists o'; auto.
    + right. split; auto. intros o' [<-|Ho]; auto. eexists; eauto.
Qed.

Theorem choice_first v pre o post c :
  (forall o', In o' pre -> rejected (val X lk v o' c)) -> ~ rejected (val X lk v o c) -> 
  keys_sorted v -> (forall name e, lk name = inr e -> forall m, e <> EMapCut m) ->
  val X lk v (NChoice (pre ++ o :: post)) c = val X lk v o c.
Proof.
  intros H N K G. rewrite val_eq, tries_pure_skips; auto. cbn.
  pose proof (val_clean X lk (fun e => forall m, e <> EMapCut m)) as C.
  destruct (C ltac:(discriminate) ltac:(discriminate) ltac:(discriminate) ltac:(discriminate) ltac:(discriminate) G v o c K) as [C1 C2].
  destruct (val X lk v o c) as [[]|e|]; auto. specialize (C2 e eq_refl).
  destruct e; cbn; auto; [|congruence].
  destruct N. eexists; eauto.
Qed.

(** ** The cut signal *)

Theorem no_cut_escapes v def : keys_sorted v -> (forall name e, lk name = inr e -> forall m, e <> EMapCut m) ->
  forall m, run_validate X lk v def <> Err (EMapCut m).
Proof.
  intros K G m H.
  pose proof (run_clean X lk (fun e => forall m, e <> EMapCut m)) as C.
  destruct (C ltac:(discriminate) ltac:(discriminate) ltac:(discriminate) ltac:(discriminate) ltac:(discriminate) G v def K) as [_ C2].
  eapply C2; eauto.
Qed.
Theorem no_cut_type v nd c : keys_sorted v -> (forall name e, lk name = inr e -> forall m, e <> EMapCut m) ->
  forall m, val X lk v nd c <> Err (EMapCut m).
Proof.
  intros K G m H.
  pose proof (val_clean X lk (fun e => forall m, e <> EMapCut m)) as C.
  destruct (C ltac:(discriminate) ltac:(discriminate) ltac:(discriminate) ltac:(discriminate) ltac:(discriminate) G v nd c K) as [_ C2].
  eapply C2; eauto.
Qed.

(** A cut key-value member whose key is found and whose value mismatches ends
    the whole map with a mismatch of the same text. *)
Theorem cut_is_final mp pre m post c w key vl w' c' k v msg :
  keys_sorted (VMap mp) ->
  runs (mf X lk c) pre (wm_new mp) w ->
  reaches_in_map X lk (TM m w c) (TM (NKeyValue key vl true) w' c') ->
  map_key X lk key w' c' = Ok (k, v) -> val X lk v vl c' = Err (EMismatch msg) ->
  val X lk (VMap mp) (NMap (pre ++ m :: post)) c = Err (EMismatch msg).
Proof.
  intros K R M Hk Hv.
  assert (B : bad (EMapCut msg) (outcome X lk (TM m w c))).
  { eapply reaches_in_map_bad; [exact M|auto|]. left. cbn. rewrite mval_eq. unfold map_keyvalue. rewrite Hk, Hv. auto. }
  pose proof (val_nopanic X lk (VMap mp) (NMap (pre ++ m :: post)) c K) as N.
  rewrite val_eq in N |- *. unfold map_all in *.
  assert (E := seqs_runs (mf X lk c) pre (m :: post) _ _ R).
  change (mf X lk c) with (fun m w => mval X lk m w c) in E. rewrite E in N |- *.
  cbn [seqs] in *. cbn [outcome] in B. unfold mf in *. destruct (mval X lk m w c) as [r s].
  destruct B as [B|B]; cbn in B; subst; auto. destruct N; reflexivity.
Qed.
End Names.
