(** Reading a schema on its syntax tree: ranges and control operators. *)
From Coq Require Import List Bool ZArith NArith String Lia Permutation.
From Verif Require Import Base Util Data Value Convert Ivt Scalar Validate Fun ValueOrder Ast
  SpecBase SpecScalar SpecConvert ConvertExact SpecFlatten FlattenProofs FlattenMap FloatProofs ScalarProofs SpecJudge JudgeProofs CtxProofs SpecCtx
  SpecDefect DefectProofs SpecPeg SpecSchema SchemaBase.
Import ListNotations.
Open Scope list_scope.

Ltac inv H := inversion H; subst; clear H.

Section Leaf.
Variable X : ext.

Notation rx := (regex_compiles X).
Variable rules : list rule.
Variable lk : lookup_context.
Hypothesis defs : forall name def, lk name = inl def -> exists r, last_rule name r rules /\ means_rule rx r def.
Hypothesis defined : forall name r, last_rule name r rules -> exists def, lk name = inl def /\ means_rule rx r def.
Notation says := (SpecSchema.says X rules 50).
Notation fits := (fits X).
Notation flat := (flat X).

Lemma chase_inv {R} (f : node -> res R) nd c r : chase X lk f nd c = Ok r -> exists nd' c', named lk c nd nd' c' /\ f nd' = Ok r.
Proof.
  intros H. destruct (chase_spec X lk f nd c) as (n & E). rewrite H in E.
  destruct (chase_res lk _ _ _ _ _ E ltac:(discriminate)) as [(e & [=] & _)|(nd' & (c' & N) & Q)]. eauto.
Qed.
Lemma deref_inv nd c l : deref X lk nd c = Ok l -> exists c', named lk c nd (NLiteral l) c'.
Proof. intros H. destruct (deref_spec X lk nd c) as (n & E). rewrite H in E. apply deref_ok in E. exact E. Qed.

Lemma point_flat t nd : means_point rx t nd -> flat (PType2 t) nd.
Proof. destruct 1; constructor; constructor; auto. Qed.
Lemma literal_int l z : literal_value l = VInteger z -> l = LInt z.
Proof. destruct l; cbn; congruence. Qed.
Lemma literal_float l u : literal_value l = VFloat u -> l = LFloat u.
Proof. destruct l; cbn; congruence. Qed.

(** ** Ranges *)
Lemma range_reading c s t u incl t' u' v : fits c s -> means_point rx t t' -> means_point rx u u' ->
  (val X lk v (NRange t' u' incl) c = Ok tt <-> says s (PType1 (T1Range t u incl)) (One v)).
Proof.
  intros F Mt Mu. apply point_flat in Mt, Mu. split.
  - intros V. rewrite val_eq in V. destruct (deref X lk t' c) as [l|e|] eqn:E; try discriminate.
    destruct (deref X lk u' c) as [l'|e|] eqn:E'; try discriminate. cbn in V.
    apply deref_inv in E, E'. destruct E as (ca & Na), E' as (cb & Nb).
    destruct (named_literal X rules lk defs _ _ _ _ _ _ Na F Mt) as (ta & Da & La).
    destruct (named_literal X rules lk defs _ _ _ _ _ _ Nb F Mu) as (tb & Db & Lb).
    assert (V' : val X lk v (NRange t' u' incl) c = Ok tt).
    { rewrite (range_named X lk _ _ _ _ _ _ _ _ _ Na Nb). exact V. }
    eapply says_range; [exact Da|exact La|exact Db|exact Lb|].
    destruct l, l'; cbn in V |- *; try discriminate; try (destruct v; discriminate).
    + constructor. apply (decides_ok _ _ (int_range_decides X lk _ _ incl _ _ v _ _ _ Na Nb)). exact V'.
    + constructor. apply (decides_ok _ _ (float_range_decides X lk _ _ incl _ _ v _ _ _ Na Nb)). exact V'.
  - intros S. inversion S as [| | | | | | | | | |s0 t0 u0 i0 ta tb a b v0 Da La Db Lb R| | | | | | | | | | | | | | | | | | | | | |]; subst.
    destruct (denotes_literal X rules lk defined _ _ _ _ _ _ Da La F Mt) as (l & ca & Na & El).
    destruct (denotes_literal X rules lk defined _ _ _ _ _ _ Db Lb F Mu) as (l' & cb & Nb & El').
    subst a b. destruct l, l'; cbn in R; inv R.
    + apply (decides_ok _ _ (int_range_decides X lk _ _ incl _ _ v _ _ _ Na Nb)). auto.
    + apply (decides_ok _ _ (float_range_decides X lk _ _ incl _ _ v _ _ _ Na Nb)). auto.
Qed.

(** ** Comparisons *)
Lemma compare_reading c s t l n op t' l' v : fits c s -> In (n, op) cmp_names -> means2 rx t t' -> means2 rx l l' ->
  (val X lk v (NControl (cmp_control op t' l')) c = Ok tt <-> says s (PType1 (T1Control t l (txt n))) (One v)).
Proof.
  intros F I Mt Ml. apply (flat_type2 X) in Mt, Ml. split.
  - intros V. pose proof V as V'. rewrite cmp_control_val in V.
    destruct (chase X lk (limit_fun X op) l' c) as [z|e|] eqn:E; try discriminate. cbn in V.
    apply chase_inv in E, V. destruct E as (nl & cl & Nl & El), V as (nt & ct & Nt & Et).
    assert (nl = NLiteral (LInt z)) as ->.
    { destruct op; cbn in El; unfold cmp_limit in El; destruct nl as [[]| | | | | | | | | | | | |]; congruence. }
    assert (exists p, nt = NPrelude p /\ In p [PInt; PUint; PNint]) as (p & -> & Hp).
    { destruct op; cbn in Et; destruct nt as [|[]| | | | | | | | | | | |]; try discriminate; eexists; (split; [reflexivity|]); cbn; auto. }
    destruct (named_literal X rules lk defs _ _ _ _ _ _ Nl F Ml) as (tl & Dl & Ll).
    destruct (named_class X rules lk defs _ _ _ _ _ _ Nt F Mt) as (tt' & Dt & Lt).
    apply (decides_ok _ _ (cmp_decides X lk op _ _ _ _ v _ _ _ Nl Nt ltac:(cbn in Hp; intuition))) in V'. destruct V' as [V1 V2].
    eapply says_compare; [exact I|exact Dl|exact Ll|reflexivity|exact Dt|exact Lt|exact Hp|exact V1|exact V2].
  - intros S. remember (PType1 (T1Control t l (txt n))) as ph eqn:Eph. remember (One v) as x eqn:Ex.
    destruct S; try discriminate; inversion Eph; subst; inversion Ex; subst; clear Eph Ex;
      match goal with H : txt _ = txt n |- _ => apply txt_inj in H; subst end;
      try (exfalso; cbn in I; repeat (destruct I as [I|I]; [inversion I|]); destruct I; fail).
    assert (op0 = op) as ->.
    { match goal with H : In (n, op0) _ |- _ => cbn in H, I; repeat (destruct H as [H|H]; [inversion H; subst; clear H|]); try destruct H end;
        repeat (destruct I as [I|I]; [inversion I; subst; try reflexivity; clear I|]); try destruct I; reflexivity. }
    match goal with D : SpecSchema.denotes _ _ s (PType2 l) _, L : is_literal _ (VInteger _) |- _ =>
      destruct (denotes_literal X rules lk defined _ _ _ _ _ _ D L F Ml) as (lit & cl & Nl & El); apply literal_int in El; subst lit end.
    match goal with D : SpecSchema.denotes _ _ s (PType2 t) _, L : of_class _ _ |- _ =>
      destruct (denotes_class X rules lk defined _ _ _ _ _ _ D L F Mt) as (ct & Nt) end.
    apply (decides_ok _ _ (cmp_decides X lk op _ _ _ _ v _ _ _ Nl Nt ltac:(match goal with H : In p _ |- _ => cbn in H; intuition end))).
    auto.
Qed.

(** ** Sizes *)
Lemma size_reading c s t l t' l' v : fits c s -> means2 rx t t' -> means2 rx l l' ->
  (val X lk v (NControl (CtlSize t' l')) c = Ok tt <-> says s (PType1 (T1Control t l (txt "size"))) (One v)).
Proof.
  intros F Mt Ml. apply (flat_type2 X) in Mt, Ml. split.
  - intros V. rewrite val_eq in V. cbn [control_val] in V.
    destruct (chase X lk (normalize_size_range X) l' c) as [sz|e|] eqn:E; try discriminate. cbn in V.
    apply chase_inv in E, V. destruct E as (nl & cl & Nl & El), V as (nt & ct & Nt & Et).
    destruct (size_arg_ok _ _ _ El) as (a & b & i & u & u' & -> & Ua & Ub). apply to_u64_some in Ua, Ub.
    assert (Sa : u64 a) by (unfold u64, u64 in *; lia). assert (Sb : u64 b) by (unfold u64, u64 in *; lia).
    assert (exists p, nt = NPrelude p) as (p & ->) by (destruct nt; try discriminate; eauto).
    apply size_exact in Et; auto.
    destruct (named_class X rules lk defs _ _ _ _ _ _ Nt F Mt) as (tt' & Dt & Lt).
    assert (B : bareable nl) by (destruct nl; try discriminate; exact Logic.I).
    destruct (named_denotes X rules lk defs _ _ _ _ Nl _ _ F Ml B) as (tl & Dl & Ll).
    eapply says_size; [exact Dl| |exact Dt|exact Lt|exact Et].
    pose proof (denotes_bare rules _ _ _ Dl) as NP.
    unfold normalize_size_range in El. destruct nl as [lit| | | | | | | | | |ns ne incl| | |]; try discriminate.
    + destruct lit as [|z| | |]; try discriminate. destruct (to_u64 z); inv El.
      inversion Ll as [w nd0 M2| |]; subst. inv M2.
      * match goal with H : _ = literal_of _ |- _ => rename H into Hl | H : literal_of _ = _ |- _ => rename H into Hl end.
        destruct v0; inv Hl; (apply size_number; [reflexivity|auto]).
      * match goal with H : In _ prelude_table |- _ => apply table_bareable in H; destruct H as [(? & [=])|(? & [=])] end.
      * exfalso. eapply NP; reflexivity.
    + destruct ns as [[|za| | |]| | | | | | | | | | | | |]; try discriminate. destruct ne as [[|zb| | |]| | | | | | | | | | | | |]; try discriminate.
      destruct (to_u64 za); try discriminate. destruct (to_u64 zb); inv El.
      inv Ll.
      * match goal with M : means2 _ _ _ |- _ => inv M end.
        -- match goal with H : In _ prelude_table |- _ => apply table_bareable in H; destruct H as [(? & [=])|(? & [=])] end.
        -- exfalso. eapply NP; reflexivity.
      * assert (P : forall t z, means_point rx t (NLiteral (LInt z)) -> exists w, t = T2Value w /\ plain w = VInteger z).
        { intros t0 z M. inv M.
          - exists v0. split; auto. destruct v0; cbn in *; congruence.
          - match goal with H : In _ prelude_table |- _ => apply table_bareable in H; destruct H as [(? & [=])|(? & [=])] end. }
        match goal with H : means_point _ _ (NLiteral (LInt a)), H' : means_point _ _ (NLiteral (LInt b)) |- _ =>
          destruct (P _ _ H) as (w1 & -> & P1); destruct (P _ _ H') as (w2 & -> & P2) end. apply size_range; auto.
  - intros S. remember (PType1 (T1Control t l (txt "size"))) as ph eqn:Eph. remember (One v) as x eqn:Ex.
    destruct S; try discriminate; inversion Eph; subst; inversion Ex; subst; clear Eph Ex.
    { exfalso. match goal with H : txt _ = txt _, I : In _ cmp_names |- _ => change (txt n = txt "size") in H || idtac; cbn in I; repeat (destruct I as [I|I]; [inversion I; subst; discriminate|]); destruct I end. }
    match goal with D : SpecSchema.denotes _ _ s (PType2 l) _ |- _ =>
      destruct (denotes_named X rules lk defined _ _ _ D _ _ F Ml) as (nl & cl & Nl & Mnl) end.
    match goal with D : SpecSchema.denotes _ _ s (PType2 t) _, L : of_class _ _ |- _ =>
      destruct (denotes_class X rules lk defined _ _ _ _ _ _ D L F Mt) as (ct & Nt) end.
    assert (PL : forall w z nd, plain w = VInteger z -> means2 rx (T2Value w) nd -> nd = NLiteral (LInt z)).
    { intros w z nd E M. inv M. destruct w; cbn in *; congruence. }
    match goal with S : size_ok _ _ _ _ |- _ => inv S end.
    + inversion Mnl as [w nd0 M2| |]; subst. match goal with H : plain _ = _ |- _ => pose proof (PL _ _ _ H M2) end. subst nl.
      rewrite (size_val_lit X lk _ _ _ _ _ _ _ _ Nl ltac:(auto) Nt). apply size_exact; auto.
    + inversion Mnl as [|s0 e0 i0 na nb Pa Pb|]; subst.
      assert (na = NLiteral (LInt a)) as -> by (apply (PL v0 a); auto; inv Pa; constructor).
      assert (nb = NLiteral (LInt b)) as -> by (apply (PL w b); auto; inv Pb; constructor).
      rewrite (size_val_range X lk _ _ _ _ _ _ _ _ _ _ Nl ltac:(auto) ltac:(auto) Nt). apply size_exact; auto.
Qed.

(** ** Regular expressions *)
Lemma regexp_reading c s t l re v : fits c s -> flat (PType2 l) (NLiteral (LText re)) ->
  (val X lk v (NControl (CtlRegexp re)) c = Ok tt <-> says s (PType1 (T1Control t l (txt "regexp"))) (One v)).
Proof.
  intros F Ml. rewrite (decides_ok _ _ (regexp_decides X lk re v c)). split.
  - intros (x & -> & R). destruct (flat_bare X _ _ Ml Logic.I) as (l' & B & M).
    eapply says_regexp; [exact B| |exact R]. destruct (literal_means X _ _ M) as [L|(ts & ->)]; auto.
    exfalso. eapply bare_not_paren; eauto.
  - intros S. remember (PType1 (T1Control t l (txt "regexp"))) as ph eqn:Eph. remember (One v) as x eqn:Ex.
    destruct S; try discriminate; inversion Eph; subst; inversion Ex; subst; clear Eph Ex.
    { exfalso. match goal with I : In _ cmp_names |- _ => cbn in I; repeat (destruct I as [I|I]; [inversion I; subst; discriminate|]); destruct I end. }
    eexists; split; [reflexivity|].
    match goal with B : bare _ ?l', L : is_literal ?l' _ |- _ => pose proof (bare_flat X _ _ B _ Ml) as M; destruct (literal_flat X _ _ _ L M) as (lit & [= <-] & E) end.
    cbn in E. congruence.
Qed.
End Leaf.
