(** Writing definitions in place of references keeps the verdict. *)
From Coq Require Import List Bool ZArith NArith String Lia Arith.
From Verif Require Import Base Util Data Value Convert Ivt Scalar Validate Unfold Mono ValueOrder
  ArrayInv MapInv ConvertProofs NoPanic SpecCtx Sim Fun CtxProofs SpecVerdict Stutter SpecExpand Expand SpecInline.
Import ListNotations.

Lemma Forall2_impl {A B} (P Q : A -> B -> Prop) l1 l2 :
  (forall a b, P a b -> Q a b) -> Forall2 P l1 l2 -> Forall2 Q l1 l2.
Proof. intros H; induction 1; constructor; auto. Qed.

Section Inlining.
Variable X : ext.
Variables lk lk2 : lookup_context.
Variable targets : text -> Prop.
Hypothesis HR : inlined_rules lk targets lk2.

Inductive E : ctx -> node -> ctx -> node -> Prop :=
| E_intro c1 n1 c2 n2 ps : inl lk targets ps n1 n2 ->
    (forall nm, In nm ps -> exists a1 p1 a2 p2,
       gm_get nm (ctx_map c1) = Some a1 /\ ctx_past c1 = Some p1 /\
       gm_get nm (ctx_map c2) = Some a2 /\ ctx_past c2 = Some p2 /\ E p1 a1 p2 a2) ->
    (forall nm, ~ In nm ps -> gm_get nm (ctx_map c1) = None) ->
    (forall nm, mentions n2 nm -> ~ In nm ps -> gm_get nm (ctx_map c2) = None) ->
    (ctx_depth c2 <= ctx_depth c1)%N ->
    E c1 n1 c2 n2.

Definition scope c1 c2 ps : Prop :=
  (forall nm, In nm ps -> exists a1 p1 a2 p2,
     gm_get nm (ctx_map c1) = Some a1 /\ ctx_past c1 = Some p1 /\
     gm_get nm (ctx_map c2) = Some a2 /\ ctx_past c2 = Some p2 /\ E p1 a1 p2 a2) /\
  (forall nm, ~ In nm ps -> gm_get nm (ctx_map c1) = None) /\
  (ctx_depth c2 <= ctx_depth c1)%N.
Definition unbound c2 ps n2 : Prop := forall nm, mentions n2 nm -> ~ In nm ps -> gm_get nm (ctx_map c2) = None.

Definition T c1 nm1 (a1 : list node) c2 nm2 (a2 : list node) : Prop :=
  nm1 = nm2 /\ targets nm1 /\ gm_get nm1 (ctx_map c1) = None /\ gm_get nm1 (ctx_map c2) = None /\
  (ctx_depth c2 <= ctx_depth c1)%N /\ Forall2 (fun a b => E c1 a c2 b) a1 a2.

Lemma sub_unbound c2 ps n2 m : unbound c2 ps n2 -> In m (children n2) -> unbound c2 ps m.
Proof. intros H Hin nm M. apply H. eapply mentions_child; eauto. Qed.

Lemma E_of c1 c2 ps n1 n2 : scope c1 c2 ps -> inl lk targets ps n1 n2 -> unbound c2 ps n2 -> E c1 n1 c2 n2.
Proof. intros (S1 & S2 & S3) H U. econstructor; eauto. Qed.

Lemma E_list c1 c2 ps n2 l1 l2 : scope c1 c2 ps -> unbound c2 ps n2 -> (forall m, In m l2 -> In m (children n2)) ->
  Forall2 (inl lk targets ps) l1 l2 -> Forall2 (fun a b => E c1 a c2 b) l1 l2.
Proof.
  intros S U Hc F. induction F as [|x y l1 l2 Hxy F IH]; constructor.
  - eapply E_of; eauto. eapply sub_unbound; eauto. apply Hc. left; auto.
  - apply IH. intros m Hm. apply Hc. right; auto.
Qed.

(** Entering a rule on both sides. *)
Lemma entered_scope c1 c2 d1 d2 a1 a2 : rd_parms d1 = rd_parms d2 ->
  List.length (rd_parms d1) = List.length a1 -> (ctx_depth c2 <= ctx_depth c1)%N ->
  Forall2 (fun a b => E c1 a c2 b) a1 a2 ->
  scope (entered c1 d1 a1) (entered c2 d2 a2) (rd_parms d1) /\
  forall n, unbound (entered c2 d2 a2) (rd_parms d1) n.
Proof.
  intros Hp Hl D F. unfold scope, unbound, entered; cbn. rewrite <- Hp.
  assert (Hl2 : List.length (rd_parms d1) = List.length a2) by (rewrite <- (Forall2_length _ _ _ F); auto).
  assert (Gn : forall a nm, ~ In nm (rd_parms d1) -> argument (rd_parms d1) a nm = None).
  { intros a nm Hn. destruct (argument (rd_parms d1) a nm) eqn:A; auto. apply argument_in in A. contradiction. }
  assert (Gs : forall ps a nm, List.length ps = List.length a -> In nm ps -> exists x : node, argument ps a nm = Some x).
  { induction ps as [|p ps IH]; intros [|y a] nm L Hin; cbn in *; try contradiction; try discriminate.
    destruct (argument ps a nm) eqn:A; eauto. destruct (text_eqb p nm) eqn:Tp; eauto.
    destruct Hin as [->|Hin]; [rewrite (proj2 (text_eqb_eq nm nm) eq_refl) in Tp; discriminate|].
    destruct (IH a nm ltac:(lia) Hin). congruence. }
  repeat split.
  - intros nm Hin. rewrite !gm_argument by auto.
    pose proof (argument_forall2 _ (rd_parms d1) a1 a2 nm F) as A.
    destruct (Gs _ a1 nm Hl Hin) as [x Hx]. destruct (Gs _ a2 nm Hl2 Hin) as [y Hy].
    rewrite Hx, Hy in *. exists x, c1, y, c2. auto.
  - intros nm Hn. rewrite gm_argument by auto. auto.
  - lia.
  - intros n nm _ Hn. rewrite gm_argument by auto. auto.
Qed.

Lemma look_entered (Q : ctx -> node -> ctx -> node -> Prop) c1 c2 name a1 a2 :
  gm_get name (ctx_map c1) = None -> gm_get name (ctx_map c2) = None ->
  (ctx_depth c2 <= ctx_depth c1)%N -> Forall2 (fun a b => E c1 a c2 b) a1 a2 ->
  (forall d1 d2 c1' c2', lk name = Datatypes.inl d1 -> lk2 name = Datatypes.inl d2 ->
     scope c1' c2' (rd_parms d1) -> (forall n, unbound c2' (rd_parms d1) n) -> Q c1' (rd_node d1) c2' (rd_node d2)) ->
  look (lookup_strict lk) (lookup_rule lk2) Q c1 name a1 c2 name a2.
Proof.
  intros G1 G2 D F HQ. unfold look, lookup_strict, lookup_rule. rewrite G1, G2.
  pose proof (HR name) as HN. destruct (lk name) as [d1|e1], (lk2 name) as [d2|e2]; try contradiction.
  - destruct HN as (Hp & _). unfold derive, inc_depth. rewrite <- Hp, <- (Forall2_length _ _ _ F).
    destruct (Nat.eqb_spec (List.length (rd_parms d1)) (List.length a1)) as [Hl|Hl]; cbn [negb].
    + destruct (N.leb_spec max_depth (ctx_depth c1)) as [L|L]; auto.
      destruct (N.leb_spec max_depth (ctx_depth c2)) as [L2|L2]; [lia|]. cbn.
      destruct (entered_scope c1 c2 d1 d2 a1 a2 Hp Hl D F) as [Sc U]. unfold entered in *. rewrite <- Hp in *.
      do 2 eexists. split; [reflexivity|]. apply HQ; auto.
    + eexists. split; reflexivity.
  - eauto.
Qed.

Lemma rule_look c1 c2 ps name a1 a2 : scope c1 c2 ps -> unbound c2 ps (NRule name a2) ->
  Forall2 (inl lk targets ps) a1 a2 ->
  look (lookup_strict lk) (lookup_rule lk2) E c1 name a1 c2 name a2.
Proof.
  intros Sc U F. destruct (in_dec (list_eq_dec N.eq_dec) name ps) as [Hin|Hn].
  - destruct Sc as (S1 & _). destruct (S1 _ Hin) as (x & p1 & y & p2 & G1 & P1 & G2 & P2 & HE).
    unfold look, lookup_strict, lookup_rule. rewrite G1, P1, G2, P2. eauto.
  - apply look_entered.
    + apply Sc; auto.
    + eapply U; eauto. eapply mentions_here; reflexivity.
    + apply Sc.
    + eapply E_list; eauto.
    + intros d1 d2 c1' c2' L1 L2 Sc' U'. pose proof (HR name) as HN. rewrite L1, L2 in HN.
      eapply E_of; eauto. apply HN.
Qed.

Lemma kin_end ps a b : kin lk targets ps a b -> same_end a b.
Proof. intros K. inversion K; subst; try (right; split; intros; discriminate). left; eauto. Qed.

Lemma kin_items c1 c2 ps n2 l1 l2 : scope c1 c2 ps -> unbound c2 ps n2 -> (forall m, In m l2 -> In m (children n2)) ->
  Forall2 (kin lk targets ps) l1 l2 ->
  Forall (fun m => forall nm x, m = NRule nm x -> targets nm /\ ~ In nm ps) l1 ->
  Forall2 (item E T c1 c2) l1 l2.
Proof.
  intros Sc U Hc F Fr. induction F as [|x y l1 l2 Hxy F IH]; constructor.
  - assert (Uy : unbound c2 ps y) by (eapply sub_unbound; eauto; apply Hc; left; auto).
    inversion Fr as [|? ? Hx Fr']; subst. inversion Hxy; subst;
      try (apply item_other; try (intros; discriminate); eapply E_of; eauto; apply in_kin; exact Hxy).
    + destruct (Hx _ _ eq_refl) as [Ht Hn]. apply item_rule. unfold T. split; auto. split; auto. split; [apply Sc; auto|].
      split; [eapply Uy; eauto; eapply mentions_here; reflexivity|]. split; [apply Sc|]. eapply E_list; eauto.
    + apply item_kv. eapply E_of; eauto. eapply sub_unbound; eauto. cbn; auto.
  - inversion Fr; subst. apply IH; auto. intros m Hm. apply Hc; right; auto.
Qed.

Lemma T_of c1 c2 ps n2 name a1 a2 : scope c1 c2 ps -> unbound c2 ps n2 -> mentions n2 name ->
  (forall m, In m a2 -> In m (children n2)) ->
  targets name -> ~ In name ps -> Forall2 (inl lk targets ps) a1 a2 -> T c1 name a1 c2 name a2.
Proof.
  intros Sc U M Hc Ht Hn F. unfold T. split; auto. split; auto. split; [apply Sc; auto|].
  split; [eapply U; eauto|]. split; [apply Sc|]. eapply E_list; eauto.
Qed.

Lemma splices_of : forall arr ps l1 l2, mem lk targets arr ps l1 l2 -> forall c1 c2, scope c1 c2 ps ->
  (forall m, In m l2 -> unbound c2 ps m) -> splices (lookup_strict lk) E arr c1 c2 l1 l2.
Proof.
  assert (Fold : forall c1 c2 ps body ms2, scope c1 c2 ps -> (forall m, In m ms2 -> unbound c2 ps m) ->
    (forall m nm, In m ms2 -> mentions m nm -> ~ In nm ps) ->
    scope (entered c1 (RuleDef [] body) []) c2 [] /\ (forall m, In m ms2 -> unbound c2 [] m)).
  { intros c1 c2 ps body ms2 (S1 & S2 & S3) U Hm. split.
    - unfold scope, entered; cbn. repeat split; auto; [intros nm []|lia].
    - intros m Hin nm M _. eapply U; eauto. }
  intros arr0 ps0 k1 k2 H. induction H as [arr ps|arr ps a b r1 r2 He Hr IHr|arr ps ms1 ms2 r1 r2 Hm IHm Hr IHr
    |arr ps name body ms2 r1 r2 Hn L Hm IHm Hf Hr IHr|arr ps name ms1 ms2 r1 r2 Hn L Hm IHm Hf Hr IHr];
    intros c1 c2 Sc U.
  - apply sp_nil.
  - apply sp_cons; [eapply E_of; eauto; apply U; left; auto|]. apply IHr; auto. intros m Hin; apply U; right; auto.
  - apply sp_group; [apply IHm|apply IHr]; auto; intros m Hin; apply U; apply in_or_app; auto.
  - destruct (lookup_strict lk c1 name []) as [[m c1']|e|] eqn:Lk; unfold lookup_strict in Lk;
      rewrite (proj1 (proj2 Sc) _ Hn), L in Lk; cbn in Lk; destruct (N.leb max_depth (ctx_depth c1)) eqn:D; try discriminate.
    + eapply (sp_rule _ _ _ _ _ _ _ body (entered c1 (RuleDef [] body) [])).
      * unfold lookup_strict. rewrite (proj1 (proj2 Sc) _ Hn), L. cbn. rewrite D. reflexivity.
      * destruct (Fold c1 c2 ps body ms2 Sc) as [S' U']; auto. intros m' Hin; apply U; apply in_or_app; auto.
      * apply IHr; auto. intros m' Hin; apply U; apply in_or_app; auto.
    + apply sp_rule_limit. unfold lookup_strict. rewrite (proj1 (proj2 Sc) _ Hn), L. cbn. rewrite D. reflexivity.
  - set (body := if arr then NArray ms1 else NMap ms1) in *.
    destruct (lookup_strict lk c1 name []) as [[m c1']|e|] eqn:Lk; unfold lookup_strict in Lk;
      rewrite (proj1 (proj2 Sc) _ Hn), L in Lk; cbn in Lk; destruct (N.leb max_depth (ctx_depth c1)) eqn:D; try discriminate.
    + eapply (sp_unwrap _ _ _ _ _ _ _ body (entered c1 (RuleDef [] body) [])).
      * unfold lookup_strict. rewrite (proj1 (proj2 Sc) _ Hn), L. cbn. rewrite D. reflexivity.
      * reflexivity.
      * destruct (Fold c1 c2 ps body ms2 Sc) as [S' U']; auto. intros m' Hin; apply U; apply in_or_app; auto.
      * apply IHr; auto. intros m' Hin; apply U; apply in_or_app; auto.
    + apply sp_unwrap_limit. unfold lookup_strict. rewrite (proj1 (proj2 Sc) _ Hn), L. cbn. rewrite D. reflexivity.
Qed.

Lemma E_cases c1 n1 c2 n2 : E c1 n1 c2 n2 ->
  (exists nm a, n1 = NRule nm a /\
     match lookup_strict lk c1 nm a with Ok (m1, c1') => E c1' m1 c2 n2 | Err _ => False | Panic => True end) \/
  shape (lookup_strict lk) (lookup_rule lk2) E E T c1 c2 n1 n2.
Proof.
  intros [c1' n1' c2' n2' ps H S1 S2 U D]; clear c1 n1 c2 n2; rename c1' into c1, n1' into n1, c2' into c2, n2' into n2.
  assert (Sc : scope c1 c2 ps) by (repeat split; auto).
  inversion H as [? name body ? Hn L Hb Hm|? ? ? K]; subst.
  - left. exists name, []. split; auto. unfold lookup_strict. rewrite (S2 _ Hn), L. cbn.
    destruct (N.leb max_depth (ctx_depth c1)); auto.
    apply E_intro with (ps := []); cbn; auto.
    + intros nm [].
    + lia.
  - right. fold (unbound c2 ps n2) in U.
    inversion K; subst; try (constructor; (eapply E_list; eauto) || (eapply E_of; eauto; eapply sub_unbound; eauto; cbn; auto); fail).
    + apply sh_rule. eapply rule_look; eauto.
    + apply sh_map. eapply splices_of; eauto. intros m Hin. eapply sub_unbound; eauto.
    + apply sh_array. eapply splices_of; eauto. intros m Hin. eapply sub_unbound; eauto.
    + apply sh_occur; auto. eapply E_of; eauto; eapply sub_unbound; eauto; cbn; auto.
    + apply sh_unwrap. eapply T_of; eauto. eapply mentions_here; reflexivity.
    + apply sh_range; (eapply E_of; [eauto|apply in_kin; eauto|]; eapply sub_unbound; eauto; cbn; auto).
    + apply sh_control, sc_size; eapply E_of; eauto; eapply sub_unbound; eauto; cbn; auto.
    + apply sh_control, sc_lt; eapply E_of; eauto; eapply sub_unbound; eauto; cbn; auto.
    + apply sh_control, sc_le; eapply E_of; eauto; eapply sub_unbound; eauto; cbn; auto.
    + apply sh_control, sc_gt; eapply E_of; eauto; eapply sub_unbound; eauto; cbn; auto.
    + apply sh_control, sc_ge; eapply E_of; eauto; eapply sub_unbound; eauto; cbn; auto.
    + apply sh_control, sc_regexp.
    + apply sh_control, sc_cbor; eapply E_of; eauto; eapply sub_unbound; eauto; cbn; auto.
    + apply sh_choiceify. eapply T_of; eauto. eapply mentions_here; reflexivity.
    + apply sh_inline; [eapply kin_items; eauto|]. eapply E_list; eauto.
      eapply Forall2_impl; [|eassumption]. intros; apply in_kin; auto.
Qed.

Lemma E_size c1 n1 c2 n2 : E c1 n1 c2 n2 ->
  (exists nm a, n1 = NRule nm a /\
     match lookup_strict lk c1 nm a with Ok (m1, c1') => E c1' m1 c2 n2 | Err _ => False | Panic => True end) \/
  size_shape (lookup_strict lk) (lookup_rule lk2) E c1 c2 n1 n2.
Proof.
  intros H. destruct (E_cases _ _ _ _ H) as [L|S]; auto. right.
  inversion S; subst; try (apply zs_other; intros; discriminate).
  - apply zs_literal.
  - apply zs_rule; auto.
  - inversion H as [? ? ? ? ps Hi]; subst. inversion Hi as [|? ? ? K]; subst. inversion K; subst.
    apply zs_range; eapply kin_end; eauto.
Qed.

Lemma T_look c1 nm1 a1 c2 nm2 a2 : T c1 nm1 a1 c2 nm2 a2 ->
  look (lookup_strict lk) (lookup_rule lk2) (fun c1' m1 c2' m2 => top E T c1' c2' m1 m2) c1 nm1 a1 c2 nm2 a2.
Proof.
  intros (<- & Ht & G1 & G2 & D & F). apply look_entered; auto.
  intros d1 d2 c1' c2' L1 L2 Sc U. pose proof (HR nm1) as HN. rewrite L1, L2 in HN.
  destruct HN as (_ & _ & HT). destruct (HT Ht) as [ps l1 l2 K Fr|ps l1 l2 K|ps l1 l2 K|ps nm x y Hnt Hn K|ps n1 n2 Hg Ha Hm Hr K].
  - apply top_group. eapply (kin_items _ _ _ (NGroup l2)); eauto.
  - apply top_array. eapply (E_list _ _ _ (NArray l2)); eauto.
  - apply top_map. eapply (E_list _ _ _ (NMap l2)); eauto.
  - inversion K; subst. apply top_rule. eapply (T_of _ _ _ (NRule nm y)); eauto. eapply mentions_here; reflexivity.
  - inversion K; subst; try (exfalso; eapply Hg; reflexivity); try (exfalso; eapply Hr; reflexivity);
      try (exfalso; eapply Ha; reflexivity); try (exfalso; eapply Hm; reflexivity);
      apply top_other; intros; discriminate.
Qed.

Theorem inlining_sim n v c1 n1 c2 n2 : keys_sorted v -> E c1 n1 c2 n2 ->
  ve (validate X (lookup_strict lk) n v n1 c1) (validate X (lookup_rule lk2) n v n2 c2).
Proof.
  intros K H. apply (stutter X (lookup_strict lk) (lookup_rule lk2) E E T E_cases E_size T_look n); auto.
Qed.

Theorem inlining v n1 n2 : keys_sorted v -> inl lk targets [] n1 n2 ->
  within_limit X lk v n1 initial_ctx ->
  same_verdict (val X lk v n1 initial_ctx) (val X lk2 v n2 initial_ctx).
Proof.
  intros K H (n & r & S & Np).
  assert (Hv : val X lk v n1 initial_ctx = r).
  { apply (val_run X lk n). eapply lp_nopanic; [apply strict_sim|exact S|exact Np]. }
  assert (He : E initial_ctx n1 initial_ctx n2).
  { apply E_intro with (ps := []); auto; [intros nm []|cbn; lia]. }
  destruct (inlining_sim n v initial_ctx n1 initial_ctx n2 K He) as [H0|[H0|(r1 & r2 & H1 & H2 & V)]]; try congruence.
  rewrite (val_run X lk2 n _ _ _ _ H2), Hv. congruence.
Qed.
End Inlining.

(** Rule sets with the same names, rule by rule. *)
Lemma inlined_basic targets rs1 rs2 :
  Forall2 (fun p q => fst p = fst q /\ rd_parms (snd p) = rd_parms (snd q) /\
     inl (basic_context rs1) targets (rd_parms (snd p)) (rd_node (snd p)) (rd_node (snd q)) /\
     (targets (fst p) -> target_kin (basic_context rs1) targets (rd_parms (snd p)) (rd_node (snd p)) (rd_node (snd q)))) rs1 rs2 ->
  inlined_rules (basic_context rs1) targets (basic_context rs2).
Proof.
  intros F name.
  assert (H : forall lk : lookup_context, lk = basic_context rs1 -> forall r1 r2,
    Forall2 (fun p q => fst p = fst q /\ rd_parms (snd p) = rd_parms (snd q) /\
     inl lk targets (rd_parms (snd p)) (rd_node (snd p)) (rd_node (snd q)) /\
     (targets (fst p) -> target_kin lk targets (rd_parms (snd p)) (rd_node (snd p)) (rd_node (snd q)))) r1 r2 ->
    match basic_context r1 name, basic_context r2 name with
    | Datatypes.inl d1, Datatypes.inl d2 =>
        rd_parms d1 = rd_parms d2 /\ inl lk targets (rd_parms d1) (rd_node d1) (rd_node d2) /\
        (targets name -> target_kin lk targets (rd_parms d1) (rd_node d1) (rd_node d2))
    | inr e1, inr e2 => error_kind e1 = error_kind e2
    | _, _ => False
    end); [|apply H; auto].
  clear F. intros lk _ r1 r2 F. unfold basic_context.
  induction F as [|[k1 d1] [k2 d2] r1 r2 (Hk & Hp & Hi & Ht) F IH]; cbn; auto.
  cbn in Hk. subst k2. destruct (text_eqb k1 name) eqn:T; auto. apply text_eqb_eq in T. subst. auto.
Qed.
