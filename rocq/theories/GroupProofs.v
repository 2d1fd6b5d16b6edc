(** Consumption of arrays and maps; failed groups. *)
From Coq Require Import List Bool ZArith NArith String Lia Arith.
From Verif Require Import Base Util Data Value Convert Ivt Scalar Validate Unfold Mono Total Fun
  ValueOrder SpecBase SpecReach SpecData SpecPos ArrayInv MapInv ConvertProofs NoPanic CtxProofs ReachProofs
  ArrayProofs MapProofs.
Import ListNotations.

Lemma seqs_step {St} (R : St -> St -> Prop) (f : node -> St -> res unit * St) ms s r s' :
  (forall s, R s s) -> (forall a b c, R a b -> R b c -> R a c) ->
  (forall m s r s', In m ms -> f m s = (r, s') -> r <> Panic -> R s s') ->
  seqs f ms s = (r, s') -> r <> Panic -> R s s'.
Proof.
  intros Rr Rt H; revert s; induction ms as [|m ms IH]; cbn; intros s E N; [inversion E; subst; auto|].
  destruct (f m s) as [[u|e|] s1] eqn:F.
  - eapply Rt; [eapply H; [left; reflexivity|exact F|discriminate]|]. apply IH; auto.
    intros; eapply H; [right|..]; eauto.
  - inversion E; subst. eapply H; [left; reflexivity|exact F|discriminate].
  - inversion E; subst. congruence.
Qed.

Scheme map_pos_mind := Minimality for map_pos Sort Prop
  with map_choice_pos_mind := Minimality for map_choice_pos Sort Prop.

Section G.
Variable X : ext.
Variable lk : lookup_context.
Variable c : ctx.
Variable ms : list node.

Lemma members_astep (L : value -> Prop) w r w' :
  (forall c' gs x, array_pos lk c ms c' (NGroup gs) -> accepted X (lookup_rule lk) (element_type lk c ms) x -> L x) ->
  seqs (af X lk c) ms w = (r, w') -> r <> Panic ->
  astep (accepted X (lookup_rule lk) (element_type lk c ms)) L w w'.
Proof.
  intros HL. apply seqs_step; [apply astep_refl|intros a b d; apply astep_trans|].
  intros m s r0 s' Hm E N. destruct (aval_spec X lk m s c) as (n & F). unfold af in E. rewrite E in F.
  eapply (array_step X (lookup_rule lk) (array_pos lk c ms) (element_type lk c ms) L); [..|exact F|exact N].
  - intros; eapply apos_rule; eauto.
  - intros; eapply apos_unwrap; eauto.
  - intros; eapply apos_occur; eauto.
  - intros; eapply apos_choice; eauto.
  - intros; eapply apos_group; eauto.
  - intros; eapply etype_kv; eauto.
  - intros; apply etype_plain; auto.
  - exact HL.
  - apply apos_member; auto.
Qed.

Theorem array_consumed a : val X lk (VArray a) (NArray ms) c = Ok tt ->
  forall x, In x a -> exists c' t, element_type lk c ms c' t /\ accepts X lk c' t x.
Proof.
  rewrite val_eq. unfold array_all. change (fun m w => aval X lk m w c) with (af X lk c).
  destruct (seqs (af X lk c) ms (wa_new a)) as [[u|e|] w] eqn:E; try discriminate.
  destruct (wa_array w) eqn:W; [|discriminate]. intros _ x Hx.
  apply (members_astep (accepted X (lookup_rule lk) (element_type lk c ms))) in E; [|auto|discriminate].
  destruct E as (p & Fp & Hp & _). rewrite W, app_nil_r in Hp. cbn in Hp.
  assert (A : accepted X (lookup_rule lk) (element_type lk c ms) x).
  { destruct (lsub_lost _ _ _ _ Hp Hx) as [H|H]; auto. rewrite Forall_forall in Fp. auto. }
  destruct A as (c' & t & n & T & V). exists c', t. split; auto. apply (val_run _ _ n); auto.
Qed.

(** A failing group without parenthesised groups among its members restores the array. *)
Theorem flat_group_restores_array w e w' :
  (forall c' gs, ~ array_pos lk c ms c' (NGroup gs)) ->
  aval X lk (NGroup ms) w c = (Err e, w') -> w' = w.
Proof.
  intros NG E. rewrite aval_eq in E. unfold array_group in E.
  change (fun m w => aval X lk m w c) with (af X lk c) in E.
  destruct (seqs (af X lk c) ms (wa_snapshot w)) as [r w1] eqn:S.
  assert (A : r <> Panic -> astep (accepted X (lookup_rule lk) (element_type lk c ms)) (fun _ => False) (wa_snapshot w) w1).
  { intros N. apply (members_astep (fun _ => False) _ _ _ ltac:(intros c' gs x H _; exact (NG _ _ H)) S N). }
  destruct r as [u|e'|]; [destruct (wa_commit w1); inversion E| |inversion E].
  destruct A as (p & Fp & Hp & Sp); [discriminate|]. cbn in Hp, Sp. apply lsub_false in Hp.
  unfold wa_rewind in E. rewrite Sp in E. inversion E; subst. cbn. rewrite rewind_fold. destruct w; cbn in *. congruence.
Qed.

Lemma members_mstep (L : entry -> Prop) w r w' :
  (forall c' gs x, map_pos lk c ms c' (NGroup gs) -> accepted_entry X (lookup_rule lk) (entry_type lk c ms) x -> L x) ->
  seqs (mf X lk c) ms w = (r, w') -> r <> Panic ->
  mstep (accepted_entry X (lookup_rule lk) (entry_type lk c ms)) L w w'.
Proof.
  intros HL. apply seqs_step; [apply mstep_refl|intros a b d; apply mstep_trans|].
  intros m s r0 s' Hm E N. destruct (mval_spec X lk m s c) as (n & F). unfold mf in E. rewrite E in F.
  refine (proj1 (map_step X (lookup_rule lk) (map_pos lk c ms) (map_choice_pos lk c ms) (entry_type lk c ms) L _ _ _ _ _ _ _ _ _ _ _ n) c m s r0 s' _ F N).
  - intros; eapply mpos_rule; eauto.
  - intros; eapply mpos_unwrap; eauto.
  - intros; eapply mpos_occur; eauto.
  - intros; eapply mpos_choice; eauto.
  - intros; eapply mpos_group; eauto.
  - intros; eapply mpos_inline; eauto.
  - intros; eapply cpos_choiceify; eauto.
  - intros; eapply cpos_alias; eauto.
  - intros c1 name args gs c' m1 H1 H2 H3. destruct m1; try (eapply mpos_item; eauto; exact I).
    + eapply cpos_item; eauto.
    + eapply mpos_item_value; eauto.
  - intros; eexists; eauto.
  - exact HL.
  - apply mpos_member; auto.
Qed.

Theorem map_consumed m : keys_sorted (VMap m) -> val X lk (VMap m) (NMap ms) c = Ok tt ->
  forall x, In x m -> exists c' key t, entry_type lk c ms c' key t /\ accepts X lk c' key (fst x) /\ accepts X lk c' t (snd x).
Proof.
  intros K. apply keys_sorted_map in K. destruct K as (_ & K).
  rewrite val_eq. unfold map_all. change (fun m w => mval X lk m w c) with (mf X lk c).
  destruct (seqs (mf X lk c) ms (wm_new m)) as [[u|e|] w] eqn:E; try discriminate.
  destruct (wm_map w) eqn:W; [|discriminate]. intros _ x Hx.
  apply (members_mstep (accepted_entry X (lookup_rule lk) (entry_type lk c ms))) in E; [|auto|discriminate].
  destruct (E K) as (_ & p & Pp & _ & Lp & _). rewrite W in Lp. cbn in Lp.
  assert (A : accepted_entry X (lookup_rule lk) (entry_type lk c ms) x).
  { destruct (Lp x Hx) as [[]|[H|H]]; auto. apply Pp; auto. }
  destruct A as (c' & key & t & n1 & n2 & T & V1 & V2). exists c', key, t. split; [auto|].
  split; [apply (val_run _ _ n1)|apply (val_run _ _ n2)]; auto.
Qed.

Theorem flat_group_restores_map w e w' : sorted (wm_map w) ->
  (forall c' gs, ~ map_pos lk c ms c' (NGroup gs)) ->
  mval X lk (NGroup ms) w c = (Err e, w') -> w' = w.
Proof.
  intros So NG E. rewrite mval_eq in E. unfold map_group in E.
  change (fun m w => mval X lk m w c) with (mf X lk c) in E.
  destruct (seqs (mf X lk c) ms (wm_snapshot w)) as [r w1] eqn:S.
  assert (A : r <> Panic -> mstep (accepted_entry X (lookup_rule lk) (entry_type lk c ms)) (fun _ => False) (wm_snapshot w) w1).
  { intros N. apply (members_mstep (fun _ => False) _ _ _ ltac:(intros c' gs x H _; exact (NG _ _ H)) S N). }
  destruct r as [u|e'|]; [destruct (wm_commit w1); inversion E| |inversion E].
  destruct (A ltac:(discriminate) So) as (S1 & p & Pp & Ip & Lp & Sp). cbn in Pp, Ip, Lp, Sp.
  unfold wm_rewind in E. rewrite Sp in E. inversion E; subst. destruct w as [m s]. cbn in *. f_equal.
  apply sorted_ext; [apply bt_extend_sorted; auto|auto|]. intros x.
  rewrite (bt_extend_in m) by (auto; intros y Hy; apply Pp; auto). split.
  - intros [H|H]; auto. apply Pp; auto.
  - intros H. destruct (Lp x H) as [?|[?|[]]]; auto.
Qed.
End G.
