(** Steady members restore what they took, so the implementation follows the
    ordered-choice reading on tame schemas. *)
From Coq Require Import List Bool ZArith NArith String Lia Arith Permutation.
From Verif Require Import Base Util Data Value Convert Ivt Scalar Validate Unfold Mono Fun ValueOrder
  ArrayInv MapInv ConvertProofs NoPanic SpecCtx CtxProofs SpecBase SpecData MapProofs SpecPos GroupProofs
  SpecVerdict SpecPeg PegProofs PegExact.
Import ListNotations.

Scheme steady_m_mind := Induction for steady_m Sort Prop
with steady_one_of_mind := Induction for steady_one_of Sort Prop
with steady_item_mind := Induction for steady_item Sort Prop.
Combined Scheme steady_mutind from steady_m_mind, steady_one_of_mind, steady_item_mind.

Lemma tries_keep {St A} (get : St -> A) (I : St -> Prop) stop f fin :
  (forall msg, stop (EMismatch msg) = false) ->
  forall os s msg s',
  (forall m s e s1, In m os -> I s -> f m s = (Err e, s1) -> stop e = false -> I s1 /\ get s1 = get s) ->
  I s -> tries stop f os fin s = (Err (EMismatch msg), s') -> get s' = get s.
Proof.
  intros Hs. induction os as [|m os IH]; intros s msg s' H K E; cbn in E; [inversion E; auto|].
  destruct (f m s) as [[u|e|] s1] eqn:F; try discriminate.
  destruct (stop e) eqn:Se; [inversion E; subst; rewrite Hs in Se; discriminate|].
  destruct (H m s e s1 (or_introl eq_refl) K F Se) as [K1 G1].
  rewrite <- G1. eapply IH; eauto. intros; eapply H; eauto. right; auto.
Qed.

Lemma occ_count {St} (f : St -> res unit * St) up : forall d count s k s', d = N.to_nat (up - count) ->
  occ f up count s = (Ok k, s') -> (k = count /\ exists e, is_mismatch e = true /\ f s = (Err e, s')) \/ (count < k)%N.
Proof.
  induction d as [d IH] using lt_wf_ind. intros count s k s' -> E. rewrite occ_eq in E.
  destruct (f s) as [[u|e|] s1] eqn:F; [| |discriminate].
  - right. destruct (N.leb_spec up (count + 1)); [inversion E; lia|].
    destruct (IH (N.to_nat (up - (count + 1))) ltac:(lia) _ _ _ _ eq_refl E) as [[-> _]|]; lia.
  - destruct (is_mismatch e) eqn:M; inversion E; subst. left. split; auto. eauto.
Qed.
Lemma occ_err_kind {St} (f : St -> res unit * St) up : forall d count s e s', d = N.to_nat (up - count) ->
  occ f up count s = (Err e, s') -> is_mismatch e = false.
Proof.
  induction d as [d IH] using lt_wf_ind. intros count s e s' -> E. rewrite occ_eq in E.
  destruct (f s) as [[u|e'|] s1] eqn:F; [| |discriminate].
  - destruct (N.leb_spec up (count + 1)); [discriminate|].
    exact (IH (N.to_nat (up - (count + 1))) ltac:(lia) _ _ _ _ eq_refl E).
  - destruct (is_mismatch e') eqn:M; inversion E; subst. auto.
Qed.
Lemma occ_keep {St A} (get : St -> A) f up lo short s msg s' : (lo <= 1)%N ->
  (forall msg s', f s = (Err (EMismatch msg), s') -> get s' = get s) ->
  occur_result lo short (occ f up 0 s) = (Err (EMismatch msg), s') -> get s' = get s.
Proof.
  intros Lo H E. destruct (occ f up 0 s) as [[k|e|] s1] eqn:O; cbn in E; [| |discriminate].
  - destruct (N.ltb_spec k lo); inversion E; subst.
    destruct (occ_count f up _ 0 s k s' eq_refl O) as [(_ & e & M & F)|]; [|lia]. destruct e; try discriminate. eauto.
  - inversion E; subst. apply (occ_err_kind f up _ 0 s _ _ eq_refl) in O. discriminate.
Qed.

Section Tame.
Variable X : ext.
Variable lk : lookup_context.
Hypothesis Hlk : forall name e, lk name = inr e -> is_fatal e = true.
Notation L := (lookup_rule lk).

Definition keepsA c m := forall w msg w', arr_ok w -> aval X lk m w c = (Err (EMismatch msg), w') -> wa_array w' = wa_array w.
Definition keepsM (f : wmap -> res unit * wmap) :=
  forall w msg w', map_ok w -> f w = (Err (EMismatch msg), w') -> wm_map w' = wm_map w.

Lemma element_keeps c t w e w' : array_value X lk t w c = (Err e, w') -> w' = w.
Proof.
  unfold array_value. destruct (wa_peek_front w); [|congruence].
  destruct (val X lk v t c); [|congruence|congruence]. destruct (wa_pop_front w); congruence.
Qed.
Lemma aval_ok m w c r w' : arr_ok w -> aval X lk m w c = (r, w') -> arr_ok w'.
Proof.
  intros K E. destruct (aval_spec X lk m w c) as (n & E'). rewrite E in E'.
  pose proof (aval_nopanic X lk m w c K) as Np. rewrite E in Np. eapply arr_step_ok; eauto.
Qed.
Lemma mval_ok m w c r w' : map_ok w -> mval X lk m w c = (r, w') -> map_ok w'.
Proof.
  intros K E. destruct (mval_spec X lk m w c) as (n & E'). rewrite E in E'.
  pose proof (mval_nopanic X lk m w c K) as Np. rewrite E in Np. eapply map_step_ok; eauto.
Qed.
Lemma mchval_ok name args w c r w' : map_ok w -> mchval X lk name args w c = (r, w') -> map_ok w'.
Proof.
  intros K E. destruct (mchval_spec X lk name args w c) as (n & E'). rewrite E in E'.
  destruct (VC X lk Hlk n) as (_ & _ & _ & _ & Np). specialize (Np _ _ _ _ _ _ K E').
  eapply (map_step_ok X L n (NPrelude PAny)); eauto. apply Np.
Qed.

Lemma steady_keeps c m : steady lk c m -> keepsA c m.
Proof.
  induction 1 as [c m t Et|c name args H IH|c ms H IH|c l m Lo H IH|c name args Hl H IH|c ms H]; intros w msg w' K E.
  - rewrite aval_eq in E. assert (array_value X lk t w c = (Err (EMismatch msg), w')) as E'.
    { destruct m; inversion Et; subst; exact E. }
    apply element_keeps in E'. congruence.
  - rewrite aval_eq in E. destruct (L c name args) as [[m' c']|e|] eqn:Lk; [|inversion E; subst; auto; fail|discriminate].
    eapply IH; eauto.
  - rewrite aval_eq in E. eapply (tries_keep wa_array arr_ok) in E; auto.
    intros m s e s1 Hm Ks F Se. split; [eapply aval_ok; eauto|].
    destruct e; try discriminate.
    + eapply IH; eauto.
    + pose proof (aval_clean X lk nocut) as Cl. unfold nocut in Cl.
      assert (clean (fun e => forall m, e <> EMapCut m) (fst (aval X lk m s c))) as [_ Cl'].
      { apply Cl; auto; try discriminate. intros nm e0 Hn m0 ->. specialize (Hlk _ _ Hn). discriminate. }
      cbv beta in F. rewrite F in Cl'. destruct (Cl' _ eq_refl expected). auto.
  - rewrite aval_eq in E. unfold array_occur in E. eapply (occ_keep wa_array) in E; auto.
    intros msg' s' F. eapply IH; eauto.
  - rewrite aval_eq in E. destruct (L c name args) as [[m' c']|e|] eqn:Lk; [|inversion E; subst; auto; fail|discriminate].
    destruct m'; try (inversion E; subst; auto; fail). cbn in E. specialize (Hl _ _ eq_refl).
    destruct members as [|m [|m2 ms]]; [discriminate| |cbn in Hl; lia]. cbn in E.
    destruct (aval X lk m w c') as [[u|e|] w1] eqn:F; [discriminate| |discriminate].
    inversion E; subst. eapply IH; eauto. left; auto.
  - apply flat_group_restores_array in E; [subst; auto|auto].
Qed.

Lemma steady_m_keeps :
  (forall c m, steady_m lk c m -> keepsM (fun w => mval X lk m w c)) /\
  (forall c name args, steady_one_of lk c name args -> keepsM (fun w => mchval X lk name args w c)) /\
  (forall c i, steady_item lk c i -> keepsM (map_choiceify_item X lk c i)).
Proof.
  assert (T : forall c ms fin, (forall m, In m ms -> keepsM (fun w => mval X lk m w c)) ->
    keepsM (fun w => tries (fun e => negb (is_mismatch e)) (fun o w => mval X lk o w c) ms fin w)).
  { intros c ms fin IH w msg w' K E. eapply (tries_keep wm_map map_ok) in E; auto.
    intros m s e s1 Hm Ks F Se. split; [eapply mval_ok; eauto|]. destruct e; try discriminate. eapply IH; eauto. }
  apply steady_mutind.
  - intros c k t cut w msg w' K E. rewrite mval_eq in E. unfold map_keyvalue in E.
    destruct (map_key X lk k w c) as [[wk wv]|e|]; [|congruence|congruence].
    destruct (val X lk wv t c) as [u|e|]; [| |congruence].
    + destruct (wm_remove wk w); congruence.
    + destruct cut, e; congruence.
  - intros c m Ot w msg w' K E. rewrite mval_eq in E. destruct m; try discriminate.
  - intros c name args H IH w msg w' K E. rewrite mval_eq in E.
    destruct (L c name args) as [[m' c']|e|] eqn:Lk; [|inversion E; subst; auto; fail|discriminate]. eapply IH; eauto.
  - intros c ms H IH w msg w' K E. rewrite mval_eq in E. exact (T c ms _ IH w msg w' K E).
  - intros c ms H IH w msg w' K E. rewrite mval_eq in E. exact (T c ms _ IH w msg w' K E).
  - intros c name args H IH w msg w' K E. rewrite mval_eq in E. exact (IH w msg w' K E).
  - intros c l m Lo H IH w msg w' K E. rewrite mval_eq in E. unfold map_occur in E. eapply (occ_keep wm_map) in E; auto.
    intros msg' s' F. eapply IH; eauto.
  - intros c name args Hl H IH w msg w' K E. rewrite mval_eq in E.
    destruct (L c name args) as [[m' c']|e|] eqn:Lk; [|inversion E; subst; auto; fail|discriminate].
    destruct m'; try (inversion E; subst; auto; fail). cbn in E. specialize (Hl _ _ eq_refl).
    destruct members as [|m [|m2 ms]]; [discriminate| |cbn in Hl; lia]. cbn in E.
    destruct (mval X lk m w c') as [[u|e|] w1] eqn:F; [discriminate| |discriminate].
    inversion E; subst. eapply IH; eauto. left; auto.
  - intros c ms H w msg w' K E. apply flat_group_restores_map in E; [subst; auto|apply K|auto].
  - intros c name args H IH H2 IH2 w msg w' K E. rewrite mchval_eq in E.
    destruct (L c name args) as [[m' c']|e|] eqn:Lk; [|inversion E; subst; auto; fail|discriminate].
    destruct m'; try discriminate.
    + eapply IH2; eauto.
    + eapply (tries_keep wm_map map_ok) in E; auto.
      intros m s e s1 Hm Ks F Se. split.
      * destruct m; cbn in F; eauto using mval_ok, mchval_ok.
      * destruct e; try discriminate. eapply IH; eauto.
  - intros c k t cut H IH. exact IH.
  - intros c name args H IH. exact IH.
  - intros c i Hi H IH. destruct i; try contradiction; exact IH.
Qed.

(** The verdict of the implementation is the verdict of the ordered-choice reading. *)
Theorem peg_complete c nd v : tame lk c nd -> keys_sorted v ->
  peg X lk (QType c nd v) (ansV (val X lk v nd c)).
Proof.
  intros T K. destruct (val_spec X lk v nd c) as (n & E).
  assert (KA : forall n c m, steady lk c m -> keepA (fun w => validate_array_member X L n m w c)).
  { intros n' c' m St w msg w' Kw F. apply aval_run in F. eapply steady_keeps; eauto. }
  assert (KM : forall n c m, steady_m lk c m -> keepM (fun w => validate_map_member X L n m w c)).
  { intros n' c' m St w msg w' Kw F. apply mval_run in F. eapply (proj1 steady_m_keeps); eauto. }
  assert (KI : forall n c i, steady_item lk c i -> keepM (fI X lk n c i)).
  { intros n' c' i St w msg w' Kw F. apply (proj2 (proj2 steady_m_keeps) _ _ St w msg w' Kw).
    destruct i; cbn in F |- *; solve [eapply mval_run; eauto|eapply mchval_run; eauto]. }
  refine (proj1 (main X lk Hlk c nd _ _ _ _ _ _ n) c nd v _ (use_start _ _ _) K E).
  - intros; apply KA. eapply tame_choice; eauto.
  - intros n' c' l m Us. destruct (tame_occur _ _ _ T _ _ _ Us). split; auto.
  - intros; apply KM. eapply tame_choice_m; eauto.
  - intros; apply KM. eapply tame_inline_m; eauto.
  - intros n' c' l m Us. destruct (tame_occur_m _ _ _ T _ _ _ Us). split; auto.
  - intros; apply KI. eapply tame_items_m; eauto.
Qed.

Theorem peg_exact c nd v o : tame lk c nd -> keys_sorted v ->
  (peg X lk (QType c nd v) o <-> verdict (val X lk v nd c) = Some o).
Proof.
  intros T K. pose proof (peg_complete c nd v T K) as P. pose proof (val_nopanic X lk v nd c K) as Np.
  rewrite (ansV_verdict _ Np). split.
  - intros P'. f_equal. eapply peg_det; eauto.
  - intros [= <-]. exact P.
Qed.

Theorem tame_sound c nd v : tame lk c nd -> keys_sorted v -> val X lk v nd c = Ok tt -> means X lk c nd (AValue v).
Proof.
  intros T K E. apply peg_sound; auto. pose proof (peg_complete c nd v T K) as P. rewrite E in P. exact P.
Qed.
End Tame.
