(** Reading a schema on its syntax tree: correspondence of phrases and nodes, of
    scopes and contexts, of names and of scalars. *)
From Coq Require Import List Bool ZArith NArith String Lia Permutation.
From Verif Require Import Base Util Data Value Convert Ivt Scalar Validate Fun ValueOrder Ast
  SpecBase SpecScalar SpecConvert ConvertExact SpecFlatten FlattenProofs FlattenMap FloatProofs ScalarProofs CtxProofs SpecCtx
  SpecDefect DefectProofs SpecPeg SpecSchema.
Import ListNotations.
Open Scope list_scope.

Lemma Forall2_length {A B} (R : A -> B -> Prop) l l' : Forall2 R l l' -> List.length l = List.length l'.
Proof. induction 1; cbn; auto. Qed.

Section Flat.
Variable X : ext.
Notation rx := (regex_compiles X).

(** The node of a phrase; a group with several choices is also the choice itself. *)
Inductive flat : phrase -> node -> Prop :=
| flat_type ts nd : means_type rx ts nd -> flat (PType ts) nd
| flat_type1 t nd : means1 rx t nd -> flat (PType1 t) nd
| flat_type2 t nd : means2 rx t nd -> flat (PType2 t) nd
| flat_group g ms : means_group rx g ms -> flat (PGroup g) (NGroup ms)
| flat_choices g os : List.length g <> 1 -> Forall2 (means_grpchoice rx) g os -> flat (PGroup g) (NChoice os)
| flat_members es ms : Forall2 (means_entry rx) es ms -> flat (PMembers es) (NGroup ms)
| flat_entry e nd : means_entry rx e nd -> flat (PEntry e) nd
| flat_val v nd : means_entry_val rx v nd -> flat (PEntryVal v) nd.

(** [wraps p q]: [p] is [q] with parentheses around it. *)
Inductive wraps : phrase -> phrase -> Prop :=
| wrap_refl p : wraps p p
| wrap_type t q : wraps (PType1 t) q -> wraps (PType [t]) q
| wrap_type1 t q : wraps (PType2 t) q -> wraps (PType1 (T1Simple t)) q
| wrap_paren ts q : wraps (PType ts) q -> wraps (PType2 (T2Paren ts)) q
| wrap_entry v q : wraps (PEntryVal v) q -> wraps (PEntry (GrpEnt None v)) q
| wrap_member ts q : wraps (PType ts) q -> wraps (PEntryVal (GMember None ts)) q
| wrap_name n q : wraps (PType2 (T2Typename n [])) q -> wraps (PEntryVal (GGroupname n)) q
| wrap_group g q : wraps (PGroup g) q -> wraps (PEntryVal (GParen g)) q.

(** Phrases that are nothing but parentheses around another do not occur here. *)
Inductive core : phrase -> node -> Prop :=
| core_value v : core (PType2 (T2Value v)) (NLiteral (literal_of v))
| core_prelude s nd : In (s, Some nd) prelude_table -> core (PType2 (T2Typename (txt s) [])) nd
| core_name name args args' : user_name name -> Forall2 (means1 rx) args args' ->
    core (PType2 (T2Typename name args)) (NRule name args')
| core_map g ms : means_group rx g ms -> core (PType2 (T2Map g)) (NMap ms)
| core_array g ms : means_group rx g ms -> core (PType2 (T2Array g)) (NArray ms)
| core_inline g ms : means_group rx g ms -> core (PType2 (T2ChoiceifyInline g)) (NChoiceifyInline ms)
| core_unwrap name args args' : user_name name -> Forall2 (means1 rx) args args' ->
    core (PType2 (T2Unwrap name args)) (NUnwrap name args')
| core_choiceify name args args' : user_name name -> Forall2 (means1 rx) args args' ->
    core (PType2 (T2Choiceify name args)) (NChoiceify name args')
| core_range s e incl s' e' : means_point rx s s' -> means_point rx e e' -> core (PType1 (T1Range s e incl)) (NRange s' e' incl)
| core_control target arg op t a c : means2 rx target t -> means2 rx arg a -> control_of rx op t a c ->
    core (PType1 (T1Control target arg (txt op))) (NControl c)
| core_choice ts ns : 2 <= List.length ts -> Forall2 (means1 rx) ts ns -> core (PType ts) (NChoice ns)
| core_group g ms : means_group rx g ms -> core (PGroup g) (NGroup ms)
| core_choices g os : List.length g <> 1 -> Forall2 (means_grpchoice rx) g os -> core (PGroup g) (NChoice os)
| core_members es ms : Forall2 (means_entry rx) es ms -> core (PMembers es) (NGroup ms)
| core_occur o v nd : means_entry_val rx v nd -> core (PEntry (GrpEnt (Some o) v)) (NOccur o nd)
| core_keyed key cut ts kd nd : means1 rx (key_type key) kd -> means_type rx ts nd ->
    core (PEntryVal (GMember (Some (MKey key cut)) ts)) (NKeyValue kd nd cut).

Definition has_core p nd := exists q, wraps p q /\ core q nd.


Ltac inv H := inversion H; subst; clear H.

Lemma type_core ts nd : Forall (fun t => forall nd, means1 rx t nd -> has_core (PType1 t) nd) ts ->
  means_type rx ts nd -> has_core (PType ts) nd.
Proof.
  intros F M. inv M.
  - inv F. destruct (H2 _ H) as (q & W & C). exists q. split; auto. constructor; auto.
  - eexists. split; [apply wrap_refl|]. apply core_choice; [cbn; lia|]. auto.
Qed.
Lemma flat_core_all :
  (forall t nd, means2 rx t nd -> has_core (PType2 t) nd) /\
  (forall t nd, means1 rx t nd -> has_core (PType1 t) nd) /\
  (forall e nd, means_entry rx e nd -> has_core (PEntry e) nd) /\
  (forall v nd, means_entry_val rx v nd -> has_core (PEntryVal v) nd).
Proof.
  apply ast_ind.
  - intros v nd M. inv M. eexists. split; [apply wrap_refl|]. constructor.
  - intros n a _ nd M. inv M; (eexists; split; [apply wrap_refl|]); constructor; auto.
  - intros ts F nd M. inv M. edestruct type_core as (q & W & C); [eassumption|eassumption|]. exists q. split; auto. constructor; auto.
  - intros g _ nd M. inv M. eexists; split; [apply wrap_refl|]; constructor; auto.
  - intros g _ nd M. inv M. eexists; split; [apply wrap_refl|]; constructor; auto.
  - intros n a _ nd M. inv M. eexists; split; [apply wrap_refl|]; constructor; auto.
  - intros g _ nd M. inv M. eexists; split; [apply wrap_refl|]; constructor; auto.
  - intros n a _ nd M. inv M. eexists; split; [apply wrap_refl|]; constructor; auto.
  - intros t IH nd M. inv M. edestruct IH as (q & W & C); [eassumption|]. exists q. split; auto. constructor; auto.
  - intros s e i _ _ nd M. inv M. eexists; split; [apply wrap_refl|]; constructor; auto.
  - intros t a o _ _ nd M. inv M. eexists; split; [apply wrap_refl|]; econstructor; eauto.
  - intros o v IH nd M. inv M.
    + edestruct IH as (q & W & C); [eassumption|]. exists q. split; auto. constructor; auto.
    + eexists; split; [apply wrap_refl|]; constructor; auto.
  - intros ts F nd M. inv M. edestruct type_core as (q & W & C); [eassumption|eassumption|]. exists q. split; auto. constructor; auto.
  - intros s c ts F nd M. inv M. eexists; split; [apply wrap_refl|]. constructor; auto. cbn. constructor. apply (m2_value rx (AText s)).
  - intros v c ts F nd M. inv M. eexists; split; [apply wrap_refl|]. constructor; auto. cbn. constructor. constructor.
  - intros k c ts IH F nd M. inv M. eexists; split; [apply wrap_refl|]. constructor; auto.
  - intros s nd M. inv M; (eexists; split; [apply wrap_name; apply wrap_refl|]); constructor; auto.
  - intros g F nd M. inv M. eexists; split; [apply wrap_group; apply wrap_refl|]; constructor; auto.
Qed.
Lemma flat_core p nd : flat p nd -> has_core p nd.
Proof.
  destruct flat_core_all as (H2 & H1 & He & Hv). destruct 1 as [ts nd H|t nd H|t nd H|g ms H|g os N H|es ms H|e nd H|v nd H]; auto.
  - eapply type_core; eauto. apply Forall_forall. auto.
  - eexists; split; [apply wrap_refl|]; constructor; auto.
  - eexists; split; [apply wrap_refl|]; constructor; auto.
  - eexists; split; [apply wrap_refl|]; constructor; auto.
Qed.

(** * Bare types *)

Definition unwrapped (t : type2) : Prop := forall ts, t <> T2Paren ts.
Lemma wraps_bare2 p q : wraps p q -> forall u, q = PType2 u -> unwrapped u -> bare p (T1Simple u).
Proof.
  induction 1; intros u -> N; try (constructor; auto; fail).
  - constructor. constructor. intros ts E. injection E as ->. eapply N; reflexivity.
  - specialize (IHwraps u eq_refl N). inversion IHwraps; subst. auto.
  - constructor. constructor. auto.
  - specialize (IHwraps u eq_refl N). inversion IHwraps; subst. inversion H1; subst. constructor.
  - exfalso. clear IHwraps. inversion H.
Qed.
Lemma wraps_bare1 p q : wraps p q -> forall t, q = PType1 t -> (forall u, t <> T1Simple u) -> bare p t.
Proof.
  induction 1; intros t' -> N; try (constructor; auto; fail).
  - specialize (IHwraps t' eq_refl N). inversion IHwraps; subst. auto.
  - constructor. constructor. auto.
  - exfalso. inversion H.
  - exfalso. inversion H.
Qed.

(** The node of a bare type is that of the phrase. *)
Lemma bare_flat p t : bare p t -> forall nd, flat p nd -> means1 rx t nd.
Proof.
  induction 1; intros nd F; inv F; auto.
  - inv H1. inv H2. apply IHbare. constructor; auto.
  - apply IHbare. constructor. constructor. auto.
  - inv H1. apply IHbare. constructor; auto.
  - inv H1. apply IHbare. constructor; auto.
  - inv H1. apply IHbare. constructor; auto.
  - constructor. inv H0; constructor; auto.
Qed.
Lemma bare_not_paren p t : bare p t -> forall ts, t <> T1Simple (T2Paren ts).
Proof. induction 1; auto. intros ts E; discriminate. Qed.

(** Conversely, nodes of types are nodes of bare types. *)
Definition bareable (nd : node) : Prop :=
  match nd with NChoice _ | NGroup _ | NOccur _ _ | NKeyValue _ _ _ => False | _ => True end.
Lemma table_bareable s nd : In (s, Some nd) prelude_table -> (exists p, nd = NPrelude p) \/ (exists b, nd = NLiteral (LBool b)).
Proof. intros H. cbn in H. repeat (destruct H as [H|H]; [inversion H; subst; eauto|]). destruct H. Qed.
Lemma flat_bare p nd : flat p nd -> bareable nd -> exists t, bare p t /\ means1 rx t nd.
Proof.
  intros F B. destruct (flat_core _ _ F) as (q & W & C).
  assert (H : (exists u, q = PType2 u /\ unwrapped u) \/ (exists t, q = PType1 t /\ (forall u, t <> T1Simple u))).
  { destruct C; try (left; eexists; split; [reflexivity|]; intros ? [=]; fail); try (right; eexists; split; [reflexivity|]; intros ? [=]; fail);
      destruct B. }
  destruct H as [(u & -> & N)|(t & -> & N)].
  - pose proof (wraps_bare2 _ _ W _ eq_refl N). eexists; split; eauto. eapply bare_flat; eauto.
  - pose proof (wraps_bare1 _ _ W _ eq_refl N). eexists; split; eauto. eapply bare_flat; eauto.
Qed.
Lemma flat_name p name args' : flat p (NRule name args') -> exists args, is_name p name args /\ Forall2 (means1 rx) args args'.
Proof.
  intros F. destruct (flat_core _ _ F) as (q & W & C). inv C.
  - apply table_bareable in H. destruct H as [(? & [=])|(? & [=])].
  - exists args. split; auto. split; auto. eapply wraps_bare2; eauto. intros ? [=].
Qed.
Lemma name_flat p name args nd : is_name p name args -> flat p nd -> exists args', nd = NRule name args' /\ Forall2 (means1 rx) args args'.
Proof.
  intros [B U] F. pose proof (bare_flat _ _ B _ F) as M. inv M. inv H0; eauto. exfalso. eapply table_user; eauto.
Qed.
Lemma not_name_flat p nd : (forall name args, ~ is_name p name args) -> flat p nd -> forall n a, nd <> NRule n a.
Proof. intros H F n a ->. destruct (flat_name _ _ _ F) as (args & I & _). eapply H; eauto. Qed.
Lemma means1_flat_bare p t nd : bare p t -> means1 rx t nd -> forall nd', flat p nd' -> nd' = nd.
Proof.
  intros B M nd' F. pose proof (bare_flat _ _ B _ F) as M'. apply flatten1_exact in M, M'. congruence.
Qed.

(** * Scopes and names *)

Inductive fits : ctx -> scope -> Prop :=
| fits_top : fits (Ctx [] None 0) top
| fits_in c s ps args args' : fits c s -> List.length ps = List.length args -> Forall2 (means1 rx) args args' ->
    fits (Ctx (gm_collect (combine ps args')) (Some c) (nesting s + 1)) (Scope (combine ps args) (Some s)).

Lemma fits_depth c s : fits c s -> ctx_depth c = nesting s.
Proof. destruct 1; reflexivity. Qed.

Lemma collect_last (ps : list text) (args : list node) name a : List.length ps = List.length args ->
  (gm_get name (gm_collect (combine ps args)) = Some a <-> last_entry name a (combine ps args)).
Proof.
  intros _. unfold gm_collect. generalize (combine ps args). intros l. induction l as [|[k b] l IH] using rev_ind.
  - cbn. split; [discriminate|]. intros ([|] & post & E & _); discriminate.
  - rewrite fold_left_app. cbn. rewrite last_entry_snoc. cbn. destruct (list_eq_dec N.eq_dec name k) as [->|Ne].
    + rewrite gm_insert_same. split; [intros [= ->]; auto|]. intros [[_ ->]|[N _]]; [auto|congruence].
    + rewrite gm_insert_other by auto. rewrite IH. intuition congruence.
Qed.
Lemma last_entry_pair {A B} (R : A -> B -> Prop) (ps : list text) (args : list A) (args' : list B) :
  List.length ps = List.length args -> Forall2 R args args' ->
  forall name, (forall a, last_entry name a (combine ps args) -> exists b, last_entry name b (combine ps args') /\ R a b) /\
  (forall b, last_entry name b (combine ps args') -> exists a, last_entry name a (combine ps args) /\ R a b).
Proof.
  intros L F name.
  assert (G : Forall2 (fun p q => fst p = fst q /\ R (snd p) (snd q)) (combine ps args) (combine ps args')).
  { revert ps L. induction F as [|a b args args' H F IH]; intros [|k ps] L; cbn in *; try discriminate; constructor; auto. }
  revert G. generalize (combine ps args') (combine ps args). clear. intros l' l. revert l'.
  induction l as [|[k a] l IH] using rev_ind; intros l' G.
  - inv G. split; intros ? ([|] & post & E & _); discriminate.
  - apply Forall2_app_inv_l in G. destruct G as (m & n & G & G' & ->). inv G'. inv H3. destruct y as [k' b]. cbn in H1. destruct H1 as [<- HR].
    destruct (IH _ G) as [IH1 IH2]. split.
    + intros a' H. apply last_entry_snoc in H. cbn in H. destruct H as [[-> ->]|[N H]].
      * exists b. split; auto. apply last_entry_snoc. auto.
      * destruct (IH1 _ H) as (b' & H' & R'). exists b'. split; auto. apply last_entry_snoc. auto.
    + intros b' H. apply last_entry_snoc in H. cbn in H. destruct H as [[-> ->]|[N H]].
      * exists a. split; auto. apply last_entry_snoc. auto.
      * destruct (IH2 _ H) as (a' & H' & R'). exists a'. split; auto. apply last_entry_snoc. auto.
Qed.
Lemma bound_combine {A} (ps : list text) (args : list A) : List.length ps = List.length args -> map fst (combine ps args) = ps.
Proof. revert args. induction ps as [|p ps IH]; intros [|a args] L; try discriminate; cbn; auto. f_equal. auto. Qed.

Variable rules : list rule.
Variable lk : lookup_context.
(** The rules of the schema are those of the context. *)
Hypothesis defs : forall name def, lk name = inl def -> exists r, last_rule name r rules /\ means_rule rx r def.
Hypothesis defined : forall name r, last_rule name r rules -> exists def, lk name = inl def /\ means_rule rx r def.
Notation stands := (SpecSchema.stands rules 50).

Lemma rule_flat r def : means_rule rx r def -> flat (body r) (rd_node def) /\ rd_parms def = r_parms r.
Proof. destruct 1; cbn; split; auto; constructor; auto. Qed.

Lemma stands_lookup c s name args p s' args' :
  fits c s -> stands s name args p s' -> Forall2 (means1 rx) args args' ->
  exists nd c', lookup_rule lk c name args' = Ok (nd, c') /\ flat p nd /\ fits c' s'.
Proof.
  intros F S A. inv S.
  - inversion F as [|c0 s0 ps bs bs' F0 L M]; subst.
    destruct (proj1 (last_entry_pair _ _ _ _ L M name) _ H) as (b & Hb & Mb).
    apply collect_last in Hb; [|rewrite L; eapply Forall2_length; eauto].
    exists b, c0. unfold lookup_rule. cbn. rewrite Hb. split; auto. split; auto. constructor; auto.
  - assert (N : gm_get name (ctx_map c) = None).
    { inv F; cbn in *; auto. match goal with L : List.length ps = _ |- _ => apply gm_collect_none; [rewrite L; eapply Forall2_length; eauto|];
       rewrite bound_combine in H by auto; auto end. }
    destruct (defined _ _ H0) as (def & E & M). destruct (rule_flat _ _ M) as [Fl P].
    exists (rd_node def). eexists. unfold lookup_rule. rewrite N, E. unfold derive. rewrite P, H1, (Forall2_length _ _ _ A), Nat.eqb_refl. cbn [negb].
    unfold inc_depth. rewrite (fits_depth _ _ F). destruct (N.leb_spec max_depth (nesting s)); [unfold max_depth in *; lia|]. cbn.
    split; [reflexivity|]. split; auto. constructor; auto.
Qed.
Lemma lookup_stands c s name args args' nd c' :
  fits c s -> lookup_rule lk c name args' = Ok (nd, c') -> Forall2 (means1 rx) args args' ->
  exists p s', stands s name args p s' /\ flat p nd /\ fits c' s'.
Proof.
  intros F L A. unfold lookup_rule in L. destruct (gm_get name (ctx_map c)) as [a|] eqn:G.
  - inversion F as [|c0 s0 ps bs bs' F0 Lp M]; subst; [discriminate|]. cbn in *. inv L.
    apply collect_last in G; [|rewrite Lp; eapply Forall2_length; eauto].
    destruct (proj2 (last_entry_pair _ _ _ _ Lp M name) _ G) as (b & Hb & Mb).
    exists (PType1 b), s0. split; [constructor; auto|]. split; auto. constructor; auto.
  - destruct (lk name) as [def|] eqn:E; [|discriminate]. destruct (defs _ _ E) as (r & Lr & M). destruct (rule_flat _ _ M) as [Fl P].
    unfold derive in L. destruct (Nat.eqb_spec (List.length (rd_parms def)) (List.length args')) as [Q|]; [|discriminate]. cbn [negb] in L.
    unfold inc_depth in L. destruct (N.leb_spec max_depth (ctx_depth c)) as [|D]; [discriminate|]. cbn in L. inv L.
    rewrite P in *. exists (body r), (Scope (combine (r_parms r) args) (Some s)).
    assert (Q' : List.length (r_parms r) = List.length args) by (rewrite Q; symmetry; eapply Forall2_length; eauto).
    pose proof (fits_depth _ _ F) as Dp. rewrite Dp in *. split; [|split; auto].
    + apply stands_rule; auto. inv F; cbn in *; auto. apply gm_collect_none in G; [|match goal with L : List.length ps = _ |- _ => rewrite L end; eapply Forall2_length; eauto].
      rewrite bound_combine by auto. auto.
    + constructor; auto.
Qed.

(** * Following names *)
Notation denotes := (SpecSchema.denotes rules 50).
Lemma named_denotes c nd nd' c' : named lk c nd nd' c' -> forall p s, fits c s -> flat p nd -> bareable nd' ->
  exists t, denotes s p t /\ means1 rx t nd'.
Proof.
  induction 1 as [c nd N|c name args nd1 c1 nd2 c2 L _ IH]; intros p s F Fl B.
  - destruct (flat_bare _ _ Fl B) as (t & Bt & M). exists t. split; auto. constructor; auto.
    intros name args I. destruct (name_flat _ _ _ _ I Fl) as (args' & -> & _). eapply N; reflexivity.
  - destruct (flat_name _ _ _ Fl) as (args0 & I & A). destruct (lookup_stands _ _ _ _ _ _ _ F L A) as (p' & s' & S & Fl' & F').
    destruct (IH _ _ F' Fl' B) as (t & D & M). exists t. split; auto. eapply denotes_name; eauto.
Qed.
Lemma denotes_named s p t : denotes s p t -> forall c nd, fits c s -> flat p nd ->
  exists nd' c', named lk c nd nd' c' /\ means1 rx t nd'.
Proof.
  induction 1 as [s p t B N|s p name args p' s' t I S _ IH]; intros c nd F Fl.
  - exists nd, c. split; [|eapply bare_flat; eauto]. apply named_here. eapply not_name_flat; eauto.
  - destruct (name_flat _ _ _ _ I Fl) as (args' & -> & A). destruct (stands_lookup _ _ _ _ _ _ _ F S A) as (nd' & c' & L & Fl' & F').
    destruct (IH _ _ F' Fl') as (nd2 & c2 & Nm & M). exists nd2, c2. split; auto. eapply named_step; eauto.
Qed.

(** * Scalars *)

Lemma literal_means t l : means1 rx t (NLiteral l) -> is_literal t (literal_value l) \/ exists ts, t = T1Simple (T2Paren ts).
Proof.
  intros M. inversion M as [u nd0 M2| |]; subst; clear M. inv M2; eauto.
  - left. destruct v; apply is_plain.
  - left. cbn in H. repeat (destruct H as [H|H]; [inversion H; subst; constructor|]). destruct H.
Qed.
Lemma literal_plain v : literal_value (literal_of v) = plain v.
Proof. destruct v; reflexivity. Qed.
Lemma literal_flat t v nd : is_literal t v -> means1 rx t nd -> exists l, nd = NLiteral l /\ literal_value l = v.
Proof.
  assert (T : forall (b : bool) s, s = (if b then "true" else "false")%string -> means2 rx (T2Typename (txt s) []) nd -> nd = NLiteral (LBool b)).
  { intros b s E M. inversion M as [|s' nd' H Es|? ? ? U| | | | | | ]; subst.
    - apply txt_inj in Es. subst s'. assert (In ((if b then "true" else "false")%string, Some (NLiteral (LBool b))) prelude_table) by (destruct b; cbn; auto 10).
      pose proof (table_fun _ _ _ H H0). congruence.
    - exfalso. destruct b; eapply (table_user); try exact U; cbn; eauto 10. }
  intros L M. inversion M as [u nd0 M2| |]; subst; clear M; [|inv L|inv L]. inv L.
  - inv M2. eexists; split; [reflexivity|]. apply literal_plain.
  - apply (T false) in M2; auto. subst. eexists; split; reflexivity.
  - apply (T true) in M2; auto. subst. eexists; split; reflexivity.
Qed.
Lemma denotes_literal s p t v c nd : denotes s p t -> is_literal t v -> fits c s -> flat p nd ->
  exists l c', named lk c nd (NLiteral l) c' /\ literal_value l = v.
Proof.
  intros D L F Fl. destruct (denotes_named _ _ _ D _ _ F Fl) as (nd' & c' & Nm & M).
  destruct (literal_flat _ _ _ L M) as (l & -> & E). eauto.
Qed.
Lemma denotes_bare s p t : denotes s p t -> forall ts, t <> T1Simple (T2Paren ts).
Proof. induction 1; auto. eapply bare_not_paren; eauto. Qed.
Lemma named_literal c nd l c' p s : named lk c nd (NLiteral l) c' -> fits c s -> flat p nd ->
  exists t, denotes s p t /\ is_literal t (literal_value l).
Proof.
  intros Nm F Fl. destruct (named_denotes _ _ _ _ Nm _ _ F Fl Logic.I) as (t & D & M). exists t. split; auto.
  destruct (literal_means _ _ M) as [|(ts & ->)]; auto. exfalso. eapply denotes_bare; eauto.
Qed.
Lemma class_flat t p nd : of_class t p -> means1 rx t nd -> nd = NPrelude p.
Proof.
  intros (n & -> & I) M. inversion M as [u nd0 M2| |]; subst; clear M. inv M2.
  - match goal with H : txt _ = txt _ |- _ => apply txt_inj in H; subst end. match goal with H : In _ prelude_table |- _ => pose proof (table_fun _ _ _ I H); congruence end.
  - exfalso. eapply table_user; eauto.
Qed.
Lemma class_means t p : means1 rx t (NPrelude p) -> of_class t p \/ exists ts, t = T1Simple (T2Paren ts).
Proof. intros M. inversion M as [u nd0 M2| |]; subst; clear M. inv M2; eauto. left. eexists; split; eauto. Qed.
Lemma named_class c nd q c' p s : named lk c nd (NPrelude q) c' -> fits c s -> flat p nd ->
  exists t, denotes s p t /\ of_class t q.
Proof.
  intros Nm F Fl. destruct (named_denotes _ _ _ _ Nm _ _ F Fl Logic.I) as (t & D & M). exists t. split; auto.
  destruct (class_means _ _ M) as [|(ts & ->)]; auto. exfalso. eapply denotes_bare; eauto.
Qed.
Lemma denotes_class s p t q c nd : denotes s p t -> of_class t q -> fits c s -> flat p nd ->
  exists c', named lk c nd (NPrelude q) c'.
Proof.
  intros D L F Fl. destruct (denotes_named _ _ _ D _ _ F Fl) as (nd' & c' & Nm & M).
  rewrite (class_flat _ _ _ L M) in Nm. eauto.
Qed.
End Flat.
