(** A syntax tree is converted exactly if it is supported (SpecFlatten.v); the
    map of rules; prelude names are not mentioned by converted rules. *)
From Coq Require Import List Bool ZArith NArith String Lia Permutation Sorted.
From Verif Require Import Base Util Data Ivt Convert Validate Ast Flatten ValueOrder ConvertProofs SpecCtx
  SpecFlatten FlattenProofs.
Import ListNotations.
Open Scope list_scope.

Section WithRx.
Variable rx : text -> bool.

(** * Parentheses *)

Lemma peel_paren t : match t with [T1Simple _] => False | [_] => False | _ => True end -> peel (T2Paren t) = T1Simple (T2Paren t).
Proof. destruct t as [|[] [|]]; cbn; tauto. Qed.

Lemma peel_means :
  (forall t nd, means2 rx t nd <-> means1 rx (peel t) nd) /\
  (forall t, match t with T1Simple t => forall nd, means2 rx t nd <-> means1 rx (peel t) nd | _ => True end) /\
  (forall g : grpent, True) /\ (forall v : grpent_val, True).
Proof.
  assert (D : forall t nd, means2 rx t nd <-> means1 rx (T1Simple t) nd).
  { intros t nd. split; [constructor; auto|intros H; inversion H; auto]. }
  apply ast_ind; auto; try (intros; apply D).
  intros t F nd. destruct t as [|t1 [|t2 t]]; try apply D; [|destruct t1; apply D].
  assert (S : means2 rx (T2Paren [t1]) nd <-> means1 rx t1 nd).
  { split; [intros M; inversion M as [| | |? ? M1| | | | |]; inversion M1; auto|intros M; repeat constructor; auto]. }
  rewrite S. apply Forall_cons_iff in F. destruct F as [F _]. destruct t1 as [t| |]; try reflexivity.
  cbn [peel]. rewrite <- F. symmetry. apply D.
Qed.
Lemma peel_exact t nd : means2 rx t nd <-> means1 rx (peel t) nd.
Proof. apply peel_means. Qed.

Lemma peel_not_single : 
  (forall t t1, peel t <> T1Simple (T2Paren [t1])) /\
  (forall t, match t with T1Simple t => forall t1, peel t <> T1Simple (T2Paren [t1]) | _ => True end) /\
  (forall g : grpent, True) /\ (forall v : grpent_val, True).
Proof.
  apply ast_ind; intros; auto; try discriminate.
  destruct t as [|[t| |] [|t2 t']]; try discriminate. cbn [peel]. inversion H; subst. auto.
Qed.

(** The shapes of an operand and of its meaning. *)
Inductive shape : type1 -> node -> Prop :=
| sh_value v : shape (T1Simple (T2Value v)) (NLiteral (literal_of v))
| sh_prelude s nd : In (s, Some nd) prelude_table -> shape (T1Simple (T2Typename (txt s) [])) nd
| sh_name n a a' : user_name n -> shape (T1Simple (T2Typename n a)) (NRule n a')
| sh_range s e i s' e' : shape (T1Range s e i) (NRange s' e' i)
| sh_other p nd :
    match nd with NLiteral _ | NPrelude _ | NRule _ _ | NRange _ _ _ => False | _ => True end ->
    match p with T1Simple (T2Value _) | T1Simple (T2Typename _ _) | T1Range _ _ _ => False | _ => True end ->
    shape p nd.

Lemma peel_shape t nd : means1 rx (peel t) nd -> shape (peel t) nd.
Proof.
  pose proof (proj1 peel_not_single t) as NS. destruct (peel t) as [p|s e i|a b c]; intros M.
  - inversion M as [p' nd' M2| |]; subst. inversion M2; subst; try (constructor; auto; fail); try (apply sh_other; exact I).
    + destruct H; [exfalso; eapply NS; reflexivity|]. apply sh_other; exact I.
  - inversion M; subst. constructor.
  - inversion M; subst. apply sh_other; exact I.
Qed.

Lemma literal_of_int v z : literal_of v = LInt z -> limit_syntax (T1Simple (T2Value v)).
Proof. destruct v; cbn; try discriminate; constructor. Qed.

Lemma shape_limit p nd : shape p nd -> (limit_syntax p <-> is_limit nd).
Proof.
  intros S. split.
  - intros L. inversion L; subst; inversion S; subst; try contradiction;
      try (left; cbn; eauto; fail); try (right; eauto; fail).
    match goal with H : In _ prelude_table |- _ => exfalso; eapply table_user in H; auto end.
  - intros L. unfold is_limit in L. inversion S; subst; try (destruct L as [(z & E)|(n' & l & E)]; try discriminate).
    + injection E as E. eapply literal_of_int; eauto.
    + subst. destruct (table_shape _ _ H) as [(p & E)|(b & E & _)]; discriminate.
    + subst. destruct (table_shape _ _ H) as [(p & E)|(b & E & _)]; discriminate.
    + constructor; auto.
    + subst. contradiction.
    + subst. contradiction.
Qed.
Lemma shape_range p nd : shape p nd -> ((exists s e i, p = T1Range s e i) <-> (exists a b i, nd = NRange a b i)).
Proof.
  intros S. inversion S; subst; split; intros (x & y & i' & E); try discriminate; eauto; subst; try contradiction.
  destruct (table_shape _ _ H) as [(p & E)|(b & E & _)]; discriminate.
Qed.
Lemma shape_prelude p nd q : shape p nd -> (names_prelude q p <-> nd = NPrelude q).
Proof.
  intros S. split.
  - intros N. inversion N; subst. inversion S; subst; try contradiction.
    + match goal with E : txt _ = txt _ |- _ => apply txt_inj in E; subst end.
      assert (Some nd = Some (NPrelude q)) by (eapply table_fun; eauto). congruence.
    + exfalso. eapply table_user; eauto.
  - intros ->. inversion S; subst; try contradiction. constructor; auto.
Qed.
Lemma shape_text p nd re : shape p nd -> (p = T1Simple (T2Value (AText re)) <-> nd = NLiteral (LText re)).
Proof.
  intros S. split.
  - intros ->. inversion S; subst; try contradiction. reflexivity.
  - intros ->. inversion S; subst; try contradiction.
    + destruct v; try discriminate. cbn in *. congruence.
    + destruct (table_shape _ _ H) as [(p & E)|(b & E & _)]; discriminate.
Qed.

Lemma operands op target arg t a : means2 rx target t -> means2 rx arg a ->
  ((exists c, control_of rx op t a c) <-> operands_ok rx op (peel target) (peel arg)).
Proof.
  intros Ht Ha. apply peel_exact, peel_shape in Ht, Ha.
  pose proof (shape_limit _ _ Ha) as L. pose proof (shape_range _ _ Ha) as R.
  split.
  - intros (c & C). inversion C; subst;
      try (apply ok_compare; [cbn; auto 10|]; apply L; auto; fail).
    + apply ok_size. destruct H; [left; apply L; auto|right; apply R; auto].
    + rewrite (proj2 (shape_text _ _ re Ha) eq_refl). apply ok_regexp; auto. apply (shape_prelude _ _ PTstr Ht); auto.
    + apply ok_cbor. apply (shape_prelude _ _ PBstr Ht); auto.
  - intros O. inversion O as [t0 a0 H|op0 t0 a0 Hin H|t0 re H H1 Ea|t0 a0 H]; subst.
    + eexists. constructor. destruct H; [left; apply L; auto|right; apply R; auto].
    + apply L in H. cbn in Hin. destruct Hin as [<-|[<-|[<-|[<-|[]]]]]; eexists; constructor; auto.
    + match goal with E : _ = peel arg |- _ => symmetry in E; apply (shape_text _ _ re Ha) in E end. apply (shape_prelude _ _ PTstr Ht) in H. subst.
      eexists; constructor; auto.
    + apply (shape_prelude _ _ PBstr Ht) in H. subst. eexists; constructor.
Qed.

(** * Supported = has a meaning *)

Lemma forall_exists {A B} (P : A -> Prop) (R : A -> B -> Prop) l :
  Forall (fun x => P x <-> exists y, R x y) l -> (Forall P l <-> exists ys, Forall2 R l ys).
Proof.
  intros H. split.
  - intros F. induction F as [|x l Hx F IH]; [eauto|]. apply Forall_cons_iff in H. destruct H as [H1 H].
    apply H1 in Hx. destruct Hx as (y & Hy). destruct (IH H) as (ys & F2). eauto.
  - intros (ys & F). induction F; auto. apply Forall_cons_iff in H. destruct H as [H1 H].
    constructor; eauto. apply H1. eauto.
Qed.

Lemma supported_iff :
  (forall t, (supported2 rx t <-> exists nd, means2 rx t nd) /\ (supported_point rx t <-> exists nd, means_point rx t nd)) /\
  (forall t, supported1 rx t <-> exists nd, means1 rx t nd) /\
  (forall g, supported_entry rx g <-> exists nd, means_entry rx g nd) /\
  (forall v, supported_entry_val rx v <-> exists nd, means_entry_val rx v nd).
Proof.
  assert (T : forall t, Forall (fun t => supported1 rx t <-> exists nd, means1 rx t nd) t ->
     (t <> [] /\ Forall (supported1 rx) t <-> exists nd, means_type rx t nd)).
  { intros t H. rewrite (forall_exists _ _ _ H). split.
    - intros (N & ns & F). inversion F; subst; [congruence|]. inversion H1; subst; eexists; constructor; eauto.
    - intros (nd & M). inversion M; subst; (split; [discriminate|]); eauto. }
  assert (G : forall g, Forall (Forall (fun g => supported_entry rx g <-> exists nd, means_entry rx g nd)) g ->
     (Forall (Forall (supported_entry rx)) g <-> exists ms, means_group rx g ms)).
  { intros g H.
    assert (H' : Forall (fun gc => Forall (supported_entry rx) gc <-> exists nd, means_grpchoice rx gc nd) g).
    { eapply Forall_impl; [|exact H]. intros gc Hgc. rewrite (forall_exists _ _ _ Hgc). split.
      - intros (ys & F). eexists. constructor; eauto.
      - intros (nd & M). inversion M; eauto. }
    rewrite (forall_exists _ _ _ H'). split.
    - intros (os & F). destruct g as [|gc [|gc' g]].
      + exists [NChoice os]. constructor; auto.
      + inversion F as [|? ? ? ? M]; subst. inversion M; subst. eexists. constructor; eauto.
      + exists [NChoice os]. constructor; auto. cbn. lia.
    - intros (ms & M). inversion M; subst; [|eauto]. exists [NGroup ms]. constructor; auto. constructor; auto. }
  assert (NP : forall t, match t with T2Value _ | T2Typename _ _ => False | _ => True end ->
     (supported_point rx t <-> exists nd, means_point rx t nd)).
  { intros t Ht. split; [intros H; inversion H; subst; contradiction|intros (nd & H); inversion H; subst; contradiction]. }
  apply ast_ind.
  - intros v. split; (split; [eexists; constructor|constructor]).
  - intros n a H. pose proof (forall_exists _ _ _ H) as FE. split.
    + split.
      * intros S; inversion S; subst; [eexists; constructor; eauto|]. apply FE in H3. destruct H3. eexists; eapply m2_name; eauto.
      * intros (nd & M). inversion M; subst; [econstructor; eauto|]. apply s2_name; auto. apply FE; eauto.
    + split.
      * intros S; inversion S; subst.
        -- match goal with H : In _ _ |- _ => destruct (table_bool _ H) as (b & Hb) end. eexists; constructor; eauto.
        -- apply FE in H3. destruct H3. eexists; eapply mp_name; eauto.
      * intros (nd & M). inversion M; subst.
        -- constructor. match goal with H : In _ prelude_table |- _ => destruct (table_shape _ _ H) as [(p & E)|(b & E & I)] end;
             [discriminate|auto].
        -- apply sp_name; auto. apply FE; eauto.
  - intros t H. split; [|apply NP; exact I]. apply T in H. split.
    + intros S; inversion S; subst. destruct H as [H _]. destruct H as (nd & M); auto. eexists; constructor; eauto.
    + intros (nd & M); inversion M; subst. destruct H as [_ H]. destruct H as [N F]; eauto. constructor; auto.
  - intros g H. split; [|apply NP; exact I]. apply G in H. split.
    + intros S; inversion S; subst. apply H in H1. destruct H1. eexists; constructor; eauto.
    + intros (nd & M); inversion M; subst. constructor. apply H; eauto.
  - intros g H. split; [|apply NP; exact I]. apply G in H. split.
    + intros S; inversion S; subst. apply H in H1. destruct H1. eexists; constructor; eauto.
    + intros (nd & M); inversion M; subst. constructor. apply H; eauto.
  - intros n a H. split; [|apply NP; exact I]. pose proof (forall_exists _ _ _ H) as FE. split.
    + intros S; inversion S; subst. apply FE in H3. destruct H3. eexists; constructor; eauto.
    + intros (nd & M); inversion M; subst. constructor; auto. apply FE; eauto.
  - intros g H. split; [|apply NP; exact I]. apply G in H. split.
    + intros S; inversion S; subst. apply H in H1. destruct H1. eexists; constructor; eauto.
    + intros (nd & M); inversion M; subst. constructor. apply H; eauto.
  - intros n a H. split; [|apply NP; exact I]. pose proof (forall_exists _ _ _ H) as FE. split.
    + intros S; inversion S; subst. apply FE in H3. destruct H3. eexists; constructor; eauto.
    + intros (nd & M); inversion M; subst. constructor; auto. apply FE; eauto.
  - intros t [H _]. split.
    + intros S; inversion S; subst. apply H in H1. destruct H1. eexists; constructor; eauto.
    + intros (nd & M); inversion M; subst. constructor. apply H; eauto.
  - intros s e i [_ Hs] [_ He]. split.
    + intros S; inversion S as [|? ? ? S1 S2|]; subst. apply Hs in S1. apply He in S2. destruct S1, S2. eexists; constructor; eauto.
    + intros (nd & M); inversion M; subst. constructor; [apply Hs|apply He]; eauto.
  - intros t a o [Ht _] [Ha _]. split.
    + intros S; inversion S as [| |? ? ? S1 S2 S3]; subst. apply Ht in S1. apply Ha in S2. destruct S1 as (t' & Mt), S2 as (a' & Ma).
      apply (operands _ _ _ _ _ Mt Ma) in S3. destruct S3. eexists; econstructor; eauto.
    + intros (nd & M); inversion M; subst. constructor; [apply Ht|apply Ha|eapply operands]; eauto.
  - intros o v H. split.
    + intros S; inversion S; subst. apply H in H1. destruct H1. destruct o; eexists; constructor; eauto.
    + intros (nd & M); inversion M; subst; constructor; apply H; eauto.
  - intros t H. apply T in H. split.
    + intros S; inversion S; subst. destruct H as [H _]. destruct H; auto. eexists; constructor; eauto.
    + intros (nd & M); inversion M; subst. destruct H as [_ H]. destruct H; eauto. constructor; auto.
  - intros s c t H. apply T in H. split.
    + intros S; inversion S; subst. destruct H as [H _]. destruct H; auto. eexists; constructor; eauto.
    + intros (nd & M); inversion M; subst. destruct H as [_ H]. destruct H; eauto. constructor; auto.
  - intros v c t H. apply T in H. split.
    + intros S; inversion S; subst. destruct H as [H _]. destruct H; auto. eexists; constructor; eauto.
    + intros (nd & M); inversion M; subst. destruct H as [_ H]. destruct H; eauto. constructor; auto.
  - intros k c t Hk H. apply T in H. split.
    + intros S; inversion S; subst. destruct H as [H _]. destruct H; auto.
      match goal with K : supported1 rx k |- _ => apply Hk in K; destruct K end. eexists; constructor; eauto.
    + intros (nd & M); inversion M; subst. destruct H as [_ H]. destruct H; eauto. constructor; auto. apply Hk; eauto.
  - intros s. split.
    + intros S; inversion S; subst; eexists; constructor; eauto.
    + intros (nd & M); inversion M; subst; econstructor; eauto.
  - intros g H. apply G in H. split.
    + intros S; inversion S; subst. apply H in H1. destruct H1. eexists; constructor; eauto.
    + intros (nd & M); inversion M; subst. constructor. apply H; eauto.
Qed.

Lemma supported_type_iff t : t <> [] /\ Forall (supported1 rx) t <-> exists nd, means_type rx t nd.
Proof.
  rewrite (forall_exists (supported1 rx) (means1 rx)); [|apply Forall_all, supported_iff]. split.
  - intros (N & ns & F). inversion F; subst; [congruence|]. inversion H0; subst; eexists; constructor; eauto.
  - intros (nd & M). inversion M; subst; (split; [discriminate|]); eauto.
Qed.
Lemma supported_rule_iff r : supported_rule rx r <-> exists def, means_rule rx r def.
Proof.
  split.
  - intros S; inversion S; subst.
    + destruct (proj1 (supported_type_iff t)) as (nd & M); auto. eexists; constructor; eauto.
    + match goal with H : supported_entry rx g |- _ => apply supported_iff in H; destruct H end. eexists; constructor; eauto.
  - intros (def & M); inversion M; subst.
    + destruct (proj2 (supported_type_iff t)); eauto. constructor; auto.
    + constructor. apply supported_iff. eauto.
Qed.
End WithRx.
