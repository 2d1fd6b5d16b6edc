(** Spellings of the same type have the same verdicts. *)
From Coq Require Import List Bool ZArith NArith String Lia Permutation.
From Verif Require Import Base Util Data Value Convert Ivt Scalar Validate Total Fun SpecBase SpecScalar ScalarProofs SpecCtx ValueOrder ConvertProofs
  CtxProofs SpecConvert SpecVerdict SpecReach SpecPos SpecJudge JudgeProofs SpecPeg SpecActs ActProofs SpecSwap SwapProofs PropsSwap SpecSpell NoPanic MapProofs PegExact PegTame PropsData PropsMeaning PropsBlame.
Import ListNotations.
Open Scope list_scope.

(** The type accepts the values that satisfy [P] and rejects the others. *)
Definition describes (X : ext) (t : node) (P : value -> Prop) : Prop :=
  closed_type t /\ forall v, keys_sorted v ->
    (P v /\ run_validate X (basic_context []) v (RuleDef [] t) = Ok tt) \/
    (~ P v /\ exists m, run_validate X (basic_context []) v (RuleDef [] t) = Err (EMismatch m)).

Lemma equal_of X t t' P P' : describes X t P -> describes X t' P' -> (forall v, P v <-> P' v) -> equal_types X t t'.
Proof.
  intros [C D] [C' D'] E. split; [auto|split; [auto|]]. intros v K. specialize (E v).
  destruct (D v K) as [[Pv ->]|[Nv (m & ->)]], (D' v K) as [[Pv' ->]|[Nv' (m' & ->)]]; cbn; tauto.
Qed.

Section Leaves.
Variable X : ext.
Notation lk := (basic_context []).
Lemma stands_self c nd nd' : (forall name args, nd <> NRule name args) -> stands lk c nd nd' -> nd' = nd.
Proof. intros N (c' & H). inversion H; subst; auto. exfalso. eapply N; eauto. Qed.
Lemma no_dangling c nd e : (forall name args, nd <> NRule name args) -> ~ dangles lk c nd e.
Proof. intros N (name & args & c' & F & _). inversion F; subst; eapply N; eauto. Qed.
Lemma leaf_describes t P : leaf t = true -> closed_type t ->
  (forall v j, judges X lk initial_ctx t v j -> (j = Good /\ P v) \/ (exists m, j = Poor m /\ ~ P v)) -> describes X t P.
Proof.
  intros L C H. split; auto. intros v K. rewrite run_validate_val by auto. cbn [rd_node].
  destruct (judges_total X lk initial_ctx t v L) as (j & J). destruct (H _ _ J) as [[-> Pv]|(m & -> & Nv)].
  - left. split; auto. exact (judges_sound _ _ _ _ _ _ J).
  - right. split; auto. exists m. exact (judges_sound _ _ _ _ _ _ J).
Qed.
Ltac parts := repeat match goal with
  | S : stands _ _ (NLiteral _) _ |- _ => apply stands_self in S; [|discriminate]; try discriminate S; try (injection S as S; subst)
  | S : stands _ _ (NPrelude _) _ |- _ => apply stands_self in S; [|discriminate]; try discriminate S; try (injection S as S; subst)
  | S : stands _ _ (NRange _ _ _) _ |- _ => apply stands_self in S; [|discriminate]; try discriminate S; try (injection S as S; subst)
  | D : dangles _ _ _ _ |- _ => exfalso; eapply no_dangling; [|exact D]; discriminate
  | S : settles _ _ _ |- _ => inversion S; subst; clear S
  end; subst.
Lemma d_literal l : describes X (NLiteral l) (lit_is l).
Proof.
  apply leaf_describes; [reflexivity|apply closed_b; reflexivity|]. intros v j J. inversion J; subst. parts; eauto.
Qed.
Lemma d_prelude p : describes X (NPrelude p) (in_prelude p).
Proof.
  apply leaf_describes; [reflexivity|apply closed_b; reflexivity|]. intros v j J. inversion J; subst. parts; eauto.
Qed.
Lemma d_range a b incl : describes X (NRange (NLiteral (LInt a)) (NLiteral (LInt b)) incl) (in_int_range a b incl).
Proof.
  apply leaf_describes; [reflexivity|apply closed_b; reflexivity|]. intros v j J. inversion J; subst; parts.
  { left. split; auto. inversion H; auto. }
  { right. eexists. split; [reflexivity|]. intros R. apply H. constructor. auto. }
  all: try subst; exfalso; match goal with H : forall _, ?x <> _ |- _ => eapply H; reflexivity | H : ~ same_kind _ _ |- _ => apply H; constructor end.
Qed.
Lemma d_compare op p n : In p cmp_classes ->
  describes X (NControl (cmp_control op (NPrelude p) (NLiteral (LInt n)))) (fun v => in_prelude p v /\ exists z, v = VInteger z /\ cmp_holds op z n).
Proof.
  intros Hp. apply leaf_describes; [destruct op; reflexivity|destruct op; apply closed_b; reflexivity|]. intros v j J.
  remember (NControl (cmp_control op (NPrelude p) (NLiteral (LInt n)))) as t eqn:E. destruct J; try discriminate;
    injection E as E; try (destruct op; discriminate);
    try (match type of E with cmp_control ?o _ _ = _ => destruct o, op; try discriminate; injection E as -> -> end; parts; eauto).
  all: try (exfalso; match goal with H : forall _, ?x <> _ |- _ => eapply H; reflexivity end).
  all: try (exfalso; match goal with H : forall p, In p cmp_classes -> _ |- _ => eapply H; [exact Hp|reflexivity] end).
  all: subst; match goal with H : control_parts _ _ _ |- _ => destruct op; inversion H; subst; parts end.
Qed.
Lemma d_size p l a b incl : In p size_classes -> size_arg l a b incl -> describes X (NControl (CtlSize (NPrelude p) l)) (sized p a b incl).
Proof.
  intros Hp A. apply leaf_describes; [reflexivity|inversion A; apply closed_b; reflexivity|]. intros v j J.
  assert (F : forall nd, stands lk initial_ctx l nd -> nd = l) by (intros nd S; apply stands_self in S; auto; inversion A; discriminate).
  assert (U : forall a' b' incl', size_arg l a' b' incl' -> a' = a /\ b' = b /\ incl' = incl)
    by (intros a' b' incl' A'; inversion A; subst; inversion A'; subst; auto).
  remember (NControl (CtlSize (NPrelude p) l)) as t eqn:E. destruct J; try discriminate;
    injection E as E; try (destruct op; discriminate); subst;
    try match goal with S : stands _ _ l ?nd |- _ => apply F in S; subst nd end;
    try match goal with A : size_arg l _ _ _ |- _ => apply U in A; destruct A as (-> & -> & ->) end; parts; eauto.
  - exfalso. inversion A; subst; inversion H0; subst; auto; try congruence;
      match goal with H : forall _, _ |- _ => eapply H; reflexivity end.
  - exfalso. eapply H2; [exact Hp|reflexivity].
  - inversion H; subst. exfalso. eapply no_dangling; [|exact H0]. inversion A; discriminate.
Qed.
Lemma d_choices ts Ps : Forall2 (describes X) ts Ps -> describes X (NChoice ts) (fun v => exists P, In P Ps /\ P v).
Proof.
  intros F. split.
  - intros name M. inversion M; subst; [discriminate|]. cbn [children] in *.
    assert (C : Forall closed_type ts) by (clear -F; induction F; constructor; auto; apply H).
    rewrite Forall_forall in C. eapply C; eauto.
  - intros v K. rewrite run_validate_val by auto. cbn [rd_node].
    assert (A : forall none, ((exists P, In P Ps /\ P v) /\ acts X lk (AskAny none (map (fun t => AskType initial_ctx t v) ts)) Accept) \/
                (~ (exists P, In P Ps /\ P v) /\ acts X lk (AskAny none (map (fun t => AskType initial_ctx t v) ts)) (Reject none))).
    { intros none. induction F as [|t P ts Ps [_ D] F IH]; cbn [map].
      - right. split; [intros (? & [] & _)|constructor].
      - specialize (D v K). rewrite run_validate_val in D by auto. cbn [rd_node] in D. destruct D as [[Pv V]|[Nv (m & V)]].
        + left. split; [exists P; split; [left|]; auto|]. apply any_first; [|discriminate].
          apply acts_exact; auto; [apply basic_fatal|]. rewrite V. reflexivity.
        + assert (R : acts X lk (AskType initial_ctx t v) (Reject m)) by (apply acts_exact; auto; [apply basic_fatal|]; rewrite V; reflexivity).
          destruct IH as [[(P' & I & Pv) A]|[N A]].
          * left. split; [exists P'; split; [right|]; auto|]. eapply any_next; eauto.
          * right. split; [intros (P' & [<-|I] & Pv); [auto|apply N; eauto]|]. eapply any_next; eauto. }
    destruct (A (choice_of ts)) as [[Y C]|[N C]]; [left|right]; (split; [assumption|]); apply t_choice, acts_exact in C; try apply basic_fatal; auto.
    + destruct (val X lk v (NChoice ts) initial_ctx) as [[]|[]|]; try discriminate; auto.
    + exists (choice_of ts). destruct (val X lk v (NChoice ts) initial_ctx) as [[]|[]|]; cbn in C; try discriminate; injection C as ->; reflexivity.
Qed.
Lemma d_choice a b P Q : describes X a P -> describes X b Q -> describes X (NChoice [a; b]) (fun v => P v \/ Q v).
Proof.
  intros A B. destruct (d_choices [a; b] [P; Q]) as [C D]; [auto|]. split; auto. intros v K.
  assert (E : (exists R, In R [P; Q] /\ R v) <-> P v \/ Q v).
  { split; [intros (R & [<-|[<-|[]]] & H); auto|intros [H|H]; [exists P|exists Q]; cbn; auto]. }
  destruct (D v K) as [[H V]|[N V]]; [left|right]; split; auto; tauto.
Qed.
End Leaves.

(** * Choices of any types *)
Definition sooner (a b : res unit) : res unit :=
  match a with
  | Err e => if is_fatal e then a else b
  | _ => a
  end.
Definition soonest (rs : list (res unit)) (b : res unit) : res unit := fold_right sooner b rs.
Lemma sooner_assoc a b c : sooner (sooner a b) c = sooner a (sooner b c).
Proof. destruct a as [|e|]; cbn; auto. destruct (is_fatal e) eqn:F; cbn; rewrite ?F; auto. Qed.
Lemma soonest_end rs e b : is_fatal e = false -> sooner (soonest rs (Err e)) b = soonest rs b.
Proof.
  intros F. induction rs as [|r rs IH]; cbn [soonest fold_right].
  - cbn. rewrite F. reflexivity.
  - fold (soonest rs (Err e)). fold (soonest rs b). rewrite sooner_assoc, IH. reflexivity.
Qed.
Lemma soonest_app xs ys b : soonest (xs ++ ys) b = soonest xs (soonest ys b).
Proof. apply fold_right_app. Qed.
Lemma sooner_again t rs b : sooner t (soonest rs (sooner t b)) = sooner t (soonest rs b).
Proof. destruct t as [|e|]; cbn; auto. destruct (is_fatal e); auto. Qed.
Lemma verdict_refl (a : res unit) : a <> Panic -> same_verdict a a.
Proof. destruct a; cbn; congruence. Qed.
Lemma kind_fatal e e' : error_kind e = error_kind e' -> is_fatal e = is_fatal e'.
Proof. destruct e, e'; cbn; congruence. Qed.
Lemma soonest_cong rs b b' : Forall (fun r => r <> Panic) rs -> same_verdict b b' -> same_verdict (soonest rs b) (soonest rs b').
Proof.
  induction 1 as [|r rs H F IH]; intros S; cbn; auto. destruct r as [u|e|]; cbn; auto.
  destruct (is_fatal e); [reflexivity|]. apply IH. exact S.
Qed.
Definition calm (r : res unit) : Prop := r = Ok tt \/ exists m, r = Err (EMismatch m).
Lemma soonest_order rs rs' b : Forall calm rs -> Permutation rs rs' -> soonest rs b = soonest rs' b.
Proof.
  intros F P. induction P as [|r rs rs' P IH|r r' rs|rs1 rs2 rs3 P1 IH1 P2 IH2]; cbn; auto.
  - inversion F; subst. f_equal. auto.
  - inversion F as [|? ? [->|(m & ->)] F']; subst. inversion F' as [|? ? [->|(m' & ->)] F'']; subst; reflexivity.
    inversion F' as [|? ? [->|(m' & ->)] F'']; subst; reflexivity.
  - rewrite IH1 by auto. apply IH2. rewrite <- P1. auto.
Qed.

Section Choices.
Variable X : ext.
Notation lk := (basic_context []).
Definition judged (v : value) (ts : list node) : list (res unit) := map (fun t => val X lk v t initial_ctx) ts.
Lemma choice_soonest ts v : exists m, val X lk v (NChoice ts) initial_ctx = soonest (judged v ts) (Err (EMismatch m)).
Proof.
  rewrite val_eq. unfold choice_error, mismatch. exists (txt "choice of " ++ len_text ts). generalize (txt "choice of " ++ len_text ts). intros m.
  unfold judged. induction ts as [|t ts IH]; cbn; auto. destruct (val X lk v t initial_ctx) as [[]|e|]; cbn; auto. rewrite IH. reflexivity.
Qed.
Lemma judged_nopanic v ts : keys_sorted v -> Forall (fun r => r <> Panic) (judged v ts).
Proof. intros K. unfold judged. induction ts; cbn; constructor; auto. apply val_nopanic. auto. Qed.
Lemma closed_choice ts : Forall closed_type ts -> closed_type (NChoice ts).
Proof.
  intros F name M. inversion M; subst; [discriminate|]. cbn [children] in *. rewrite Forall_forall in F. eapply F; eauto.
Qed.
Lemma equal_by a b : closed_type a -> closed_type b ->
  (forall v, keys_sorted v -> same_verdict (val X lk v a initial_ctx) (val X lk v b initial_ctx)) -> equal_types X a b.
Proof. intros A B H. split; [auto|split; [auto|]]. intros v K. rewrite !run_validate_val by auto. cbn [rd_node]. auto. Qed.
Lemma not_cut v t : keys_sorted v -> val X lk v t initial_ctx = Ok tt \/
  exists e, val X lk v t initial_ctx = Err e /\ (is_fatal e = true \/ exists m, e = EMismatch m).
Proof.
  intros K. destruct (val_spec X lk v t initial_ctx) as (n & E).
  pose proof (proj1 (VC X lk ltac:(apply basic_fatal) n) _ _ _ K _ E) as C.
  destruct (val X lk v t initial_ctx) as [[]|e|]; [auto| |destruct C; congruence].
  right. exists e. split; auto. destruct (is_fatal e) eqn:F; auto. right. apply not_fatal; auto.
Qed.
Lemma eq_one t : closed_type t -> equal_types X (NChoice [t]) t.
Proof.
  intros C. apply equal_by; auto; [apply closed_choice; auto|]. intros v K. destruct (choice_soonest [t] v) as (m & ->). cbn.
  destruct (not_cut v t K) as [->|(e & -> & [F|(m' & ->)])]; cbn; auto. rewrite F. reflexivity.
Qed.
Lemma closed_parens t : closed_type t -> closed_type (NGroup [t]).
Proof. intros C name M. inversion M; subst; [discriminate|]. cbn [children In] in *. destruct H as [<-|[]]. eapply C; eauto. Qed.
Lemma eq_parens t : closed_type t -> equal_types X (NGroup [t]) t.
Proof.
  intros C. apply equal_by; auto; [apply closed_parens; auto|]. intros v K. rewrite val_eq. apply verdict_refl, val_nopanic. auto.
Qed.
Ltac closes := repeat (rewrite ?Forall_app, ?Forall_cons_iff in * |- *; try (progress rewrite ?Forall_app, ?Forall_cons_iff)); intuition auto using closed_choice.
Lemma eq_nested xs ys zs : Forall closed_type (xs ++ ys ++ zs) ->
  equal_types X (NChoice (xs ++ NChoice ys :: zs)) (NChoice (xs ++ ys ++ zs)).
Proof.
  intros C. apply equal_by; [apply closed_choice; closes..|]. intros v K.
  destruct (choice_soonest (xs ++ NChoice ys :: zs) v) as (m1 & ->), (choice_soonest (xs ++ ys ++ zs) v) as (m2 & ->).
  destruct (choice_soonest ys v) as (m3 & E). unfold judged; rewrite !map_app, !soonest_app. cbn [map soonest fold_right]. rewrite E.
  fold (soonest (judged v zs) (Err (EMismatch m1))). rewrite soonest_end by reflexivity.
  repeat (apply soonest_cong; [apply judged_nopanic; auto|]). reflexivity.
Qed.
Lemma eq_again t xs ys zs : Forall closed_type (xs ++ t :: ys ++ zs) ->
  equal_types X (NChoice (xs ++ t :: ys ++ t :: zs)) (NChoice (xs ++ t :: ys ++ zs)).
Proof.
  intros C. apply equal_by; [apply closed_choice; closes..|]. intros v K.
  destruct (choice_soonest (xs ++ t :: ys ++ t :: zs) v) as (m1 & ->), (choice_soonest (xs ++ t :: ys ++ zs) v) as (m2 & ->).
  unfold judged; rewrite !map_app, !soonest_app. apply soonest_cong; [apply judged_nopanic; auto|].
  cbn [map]. change (soonest (?r :: ?rs) ?b) with (sooner r (soonest rs b)). unfold judged; rewrite !map_app, !soonest_app. cbn [map].
  change (soonest (?r :: ?rs) ?b) with (sooner r (soonest rs b)). rewrite sooner_again.
  rewrite <- !soonest_app, <- !map_app. fold (judged v (ys ++ zs)). apply (soonest_cong (judged v (t :: ys ++ zs))); [apply judged_nopanic; auto|reflexivity].
Qed.
Lemma eq_any xs ys : Forall closed_type (xs ++ ys) ->
  equal_types X (NChoice (xs ++ NPrelude PAny :: ys)) (NChoice (xs ++ [NPrelude PAny])).
Proof.
  intros C. assert (closed_type (NPrelude PAny)) by (apply closed_b; reflexivity).
  apply equal_by; [apply closed_choice; closes..|]. intros v K.
  destruct (choice_soonest (xs ++ NPrelude PAny :: ys) v) as (m1 & ->), (choice_soonest (xs ++ [NPrelude PAny]) v) as (m2 & ->).
  unfold judged; rewrite !map_app, !soonest_app. apply soonest_cong; [apply judged_nopanic; auto|]. cbn. rewrite val_eq. reflexivity.
Qed.
Lemma eq_alternative xs a b zs : equal_types X a b -> Forall closed_type (xs ++ zs) ->
  equal_types X (NChoice (xs ++ a :: zs)) (NChoice (xs ++ b :: zs)).
Proof.
  intros (Ca & Cb & E) C. apply equal_by; [apply closed_choice; closes..|]. intros v K. specialize (E v K). rewrite !run_validate_val in E by auto. cbn [rd_node] in E.
  destruct (choice_soonest (xs ++ a :: zs) v) as (m1 & ->), (choice_soonest (xs ++ b :: zs) v) as (m2 & ->).
  unfold judged. rewrite !map_app, !soonest_app. apply soonest_cong; [apply judged_nopanic; auto|]. cbn [map].
  change (soonest (?r :: ?rs) ?b) with (sooner r (soonest rs b)). destruct (val X lk v a initial_ctx) as [[]|e|], (val X lk v b initial_ctx) as [[]|e'|]; cbn in *; auto; try contradiction.
  rewrite (kind_fatal _ _ E). destruct (is_fatal e'); [exact E|]. apply soonest_cong; [apply judged_nopanic; auto|]. reflexivity.
Qed.
Lemma flawless_calm v ts : keys_sorted v -> Forall (flawless X) ts -> Forall calm (judged v ts).
Proof.
  intros K. unfold judged. induction 1 as [|t ts [_ H] F IH]; cbn; constructor; auto. specialize (H v K). rewrite run_validate_val in H by auto. exact H.
Qed.
Lemma flawless_closed ts : Forall (flawless X) ts -> Forall closed_type ts.
Proof. induction 1; constructor; auto. apply H. Qed.
Lemma eq_only_any xs ys : Forall (flawless X) xs -> Forall closed_type ys ->
  equal_types X (NChoice (xs ++ NPrelude PAny :: ys)) (NPrelude PAny).
Proof.
  intros F C. assert (closed_type (NPrelude PAny)) by (apply closed_b; reflexivity). pose proof (flawless_closed _ F).
  apply equal_by; auto; [apply closed_choice; closes|]. intros v K.
  destruct (choice_soonest (xs ++ NPrelude PAny :: ys) v) as (m1 & ->). unfold judged; rewrite map_app, soonest_app. cbn [map].
  change (soonest (?r :: ?rs) ?b) with (sooner r (soonest rs b)).
  assert (E : val X lk v (NPrelude PAny) initial_ctx = Ok tt) by (rewrite val_eq; reflexivity). rewrite E. cbn [sooner].
  pose proof (flawless_calm v xs K F) as Q. unfold judged in Q. induction Q as [|r rs [->|(m & ->)] Q IH]; cbn; auto.
Qed.
Lemma eq_order xs ys : Forall (flawless X) xs -> Permutation xs ys -> equal_types X (NChoice xs) (NChoice ys).
Proof.
  intros F P. pose proof (flawless_closed _ F) as C. assert (Forall closed_type ys) by (rewrite <- P; auto).
  apply equal_by; [apply closed_choice; auto..|]. intros v K.
  destruct (choice_soonest xs v) as (m1 & ->), (choice_soonest ys v) as (m2 & ->).
  rewrite (soonest_order _ _ _ (flawless_calm v xs K F) (Permutation_map _ P)).
  apply soonest_cong; [apply judged_nopanic; auto|reflexivity].
Qed.
End Choices.

(** * The list of spellings *)
Section Spelled.
Variable X : ext.
Lemma flawless_of t P : describes X t P -> flawless X t.
Proof. intros [C D]. split; auto. intros v K. destruct (D v K) as [[_ ->]|[_ H]]; auto. Qed.
Lemma between_top a n x : (0 <= a)%Z -> (exists k, min_bytes x k /\ a <= k <= n)%Z <->
  (0 <= x < 256 ^ n /\ (0 < a -> 256 ^ (a - 1) <= x) /\ a <= n)%Z.
Proof.
  intros A. split.
  - intros (k & (K0 & [X0 X1] & M) & K1 & K2). split; [|split; [|lia]].
    + split; auto. eapply Z.lt_le_trans; [exact X1|]. apply Z.pow_le_mono_r; lia.
    + intros A0. destruct (Z.lt_ge_cases x (256 ^ (a - 1))) as [L|G]; auto. specialize (M (a - 1)%Z ltac:(lia) L). lia.
  - intros ([X0 X1] & L & AN).
    pose proof (needed_min x X0) as M. match type of M with min_bytes _ ?k => generalize dependent k end. intros k M. exists k. split; auto.
    destruct M as (K0 & [_ X2] & M). split.
    + destruct (Z.le_gt_cases a k) as [|G]; auto. specialize (L ltac:(lia)).
      assert (256 ^ k <= 256 ^ (a - 1))%Z by (apply Z.pow_le_mono_r; lia). lia.
    + apply M; auto. lia.
Qed.
Lemma sized_single n v : sized PUint n n true v <-> exists x, v = VInteger x /\ (0 <= x)%Z /\ (x < 256 ^ n \/ 16 <= n)%Z.
Proof.
  split.
  - intros S. inversion S; subst; eauto; [exfalso; auto|]. destruct H; discriminate.
  - intros (x & -> & ? & ?). constructor; auto.
Qed.
Lemma sized_range a b incl v : ~ (a = b /\ incl = true) ->
  (sized PUint a b incl v <-> exists x k, v = VInteger x /\ min_bytes x k /\ between a b incl k).
Proof.
  intros N. split.
  - intros S. inversion S; subst; eauto; [exfalso; auto|]. destruct H; discriminate.
  - intros (x & k & -> & ? & ?). econstructor; eauto.
Qed.
Lemma sized_str p a b incl v : In p strings -> (sized p a b incl v <-> exists k, in_prelude p v /\ in_bytes v k /\ between a b incl k).
Proof.
  intros I. assert (p = PTstr \/ p = PBstr) by (destruct I as [<-|[<-|[]]]; auto). split.
  - intros S. inversion S; subst; eauto; destruct H; discriminate.
  - intros (k & ? & ? & ?). econstructor; eauto.
Qed.
Lemma strings_sized p : In p strings -> In p size_classes.
Proof. intros [<-|[<-|[]]]; cbn; auto. Qed.
Ltac ints := repeat match goal with
  | H : exists _, _ |- _ => destruct H
  | H : _ /\ _ |- _ => destruct H
  | H : VInteger _ = VInteger _ |- _ => injection H as H
  | H : in_prelude PUint _ |- _ => inversion H; subst; clear H
  | H : in_prelude PNint _ |- _ => inversion H; subst; clear H
  | H : in_prelude PInt _ |- _ => inversion H; subst; clear H
  end; subst.
Ltac made := repeat match goal with
  | |- in_prelude _ _ => solve [assumption|constructor; lia|constructor]
  | |- exists _, VInteger ?z = VInteger _ /\ _ => exists z; split; [reflexivity|]
  | |- exists _, _ = VInteger _ /\ _ => eexists; split; [reflexivity|]
  | |- _ /\ _ => split
  end; auto; try lia.
Ltac numeric := intros v; unfold in_int_range, cmp_holds, between; split; intros; ints; made.
Definition num_of (v : value) (P : Z -> Prop) : Prop := exists z, v = VInteger z /\ P z.
Lemma cmp_class p v : In p cmp_classes -> in_prelude p v ->
  exists z, v = VInteger z.
Proof. intros [<-|[<-|[<-|[]]]] H; inversion H; eauto. Qed.
Lemma code_bytes c : (0 < char_bytes c)%Z.
Proof. unfold char_bytes. repeat (destruct (N.ltb _ _); [lia|]). lia. Qed.
Lemma bytes_nonneg t : (0 <= fold_right (fun c n => char_bytes c + n) 0 t)%Z.
Proof. induction t as [|c t IH]; cbn; [lia|]. pose proof (code_bytes c). lia. Qed.

Theorem spelled_equal a b : spelled X a b -> equal_types X a b.
Proof.
  induction 1.
  - (* until *) eapply equal_of; [apply d_range|apply d_range|]. numeric.
  - (* single *) eapply equal_of; [apply d_range|apply d_literal|]. intros v; split.
    + intros (z & -> & ? & ?). assert (z = n) by lia. subst. constructor.
    + intros L. inversion L; subst. unfold in_int_range. made.
  - (* join *) eapply equal_of; [apply d_choice; apply d_range|apply d_range|]. intros v; unfold in_int_range; split.
    + intros [(z & -> & ? & ?)|(z & -> & ? & ?)]; made.
    + intros (z & -> & ? & ?). destruct (Z.le_gt_cases z b); [left|right]; made.
  - eapply equal_of; [apply d_compare; cbn; auto|apply d_range|]. numeric.
  - eapply equal_of; [apply d_compare; cbn; auto|apply d_range|]. numeric.
  - eapply equal_of; [apply d_compare; auto..|]. numeric.
  - eapply equal_of; [apply d_compare; auto..|]. numeric.
  - eapply equal_of; [apply d_compare; cbn; auto|apply d_choice; apply d_compare; cbn; auto|].
    intros v; split.
    + intros (_ & z & -> & ?). destruct (Z.le_gt_cases 0 z); [left|right]; made.
    + intros [(_ & z & -> & ?)|(_ & z & -> & ?)]; made.
  - eapply equal_of; [apply d_compare; cbn; auto|apply d_prelude|]. numeric.
  - eapply equal_of; [apply d_compare; cbn; auto|apply d_prelude|]. numeric.
  - eapply equal_of; [apply d_choice; apply d_compare; auto|apply d_prelude|]. intros v; split.
    + intros [[? _]|[? _]]; auto.
    + intros I. destruct (cmp_class _ _ H I) as (z & ->). cbn. destruct (Z.lt_ge_cases z a); [left|right]; made.
  - (* bytes *) eapply equal_of; [apply d_size; [cbn; auto|constructor; unfold u64; lia]|apply d_range|].
    intros v. rewrite sized_single. unfold in_int_range. split; intros; ints; made.
  - eapply equal_of; [apply d_size; [cbn; auto|constructor; auto]|apply d_prelude|].
    intros v. rewrite sized_single. split; intros; ints; made.
  - eapply equal_of; [apply d_size; [cbn; auto|constructor; unfold u64; lia]|apply d_size; [cbn; auto|constructor; unfold u64; lia]|].
    intros v. destruct (Z.eq_dec n 0) as [->|N]; [reflexivity|]. rewrite sized_single, sized_range by lia. split.
    + intros (x & k & -> & M & B). exists x. split; auto. destruct (proj1 (between_top 0 n x ltac:(lia)) (ex_intro _ k (conj M B))) as ([? ?] & _). auto.
    + intros (x & -> & ? & ?). destruct (proj2 (between_top 0 n x ltac:(lia))) as (k & ? & ?); [split; [lia|split; [intros; lia|lia]]|]. exists x, k. auto.
  - eapply equal_of; [apply d_size; [cbn; auto|constructor; unfold u64 in *; lia]|apply d_range|].
    intros v. rewrite sized_range by lia. unfold in_int_range. split.
    + intros (x & k & -> & M & B). exists x. split; auto.
      destruct (proj1 (between_top a b x ltac:(lia)) (ex_intro _ k (conj M B))) as ([? ?] & L & _). specialize (L ltac:(lia)). lia.
    + intros (x & -> & ? & ?). assert (0 < 256 ^ (a - 1))%Z by (apply Z.pow_pos_nonneg; lia).
      destruct (proj2 (between_top a b x ltac:(lia))) as (k & ? & ?); [split; [lia|split; [auto|lia]]|]. exists x, k. auto.
  - eapply equal_of; [apply d_size; [cbn; auto|constructor; unfold u64 in *; lia]|apply d_range|].
    intros v. rewrite sized_range by (intros [_ ?]; discriminate). unfold in_int_range, between. split.
    + intros (x & k & -> & M & B1 & B2). exists x. split; auto.
      assert (B3 : (k <= b - 1)%Z) by lia. destruct (proj1 (between_top a (b - 1) x ltac:(lia)) (ex_intro _ k (conj M (conj B1 B3)))) as ([? ?] & L & _). specialize (L ltac:(lia)). lia.
    + intros (x & -> & ? & ?). assert (0 < 256 ^ (a - 1))%Z by (apply Z.pow_pos_nonneg; lia).
      destruct (proj2 (between_top a (b - 1) x ltac:(lia))) as (k & ? & ?); [split; [lia|split; [auto|lia]]|]. exists x, k. split; auto. split; auto. lia.
  - eapply equal_of; [apply d_size; [auto|constructor; auto]|apply d_size; [auto|constructor; auto]|]. reflexivity.
  - pose proof (strings_sized _ H). eapply equal_of; [apply d_size; [auto|constructor; auto]|apply d_size; [auto|constructor; auto]|].
    intros v. rewrite !sized_str by auto. unfold between. split; intros (k & ? & ? & ? & ?); exists k; made.
  - pose proof (strings_sized _ H). eapply equal_of; [apply d_choice; (apply d_size; [auto|constructor; auto])|apply d_size; [auto|constructor; auto]|].
    intros v. cbn beta. rewrite !sized_str by auto. unfold between. split.
    + intros [(k & ? & ? & ? & ?)|(k & ? & ? & ? & ?)]; exists k; made.
    + intros (k & ? & ? & ? & ?). destruct (Z.le_gt_cases k b); [left|right]; exists k; made.
  - eapply equal_of; [apply d_size; [cbn; auto|constructor; unfold u64; lia]|apply d_literal|].
    intros v. rewrite sized_str by (cbn; auto). split.
    + intros (k & I & B & L1 & L2). inversion I; subst. inversion B; subst. destruct t as [|c t]; [constructor|].
      cbn [fold_right] in *. pose proof (code_bytes c). pose proof (bytes_nonneg t). lia.
    + intros L. inversion L; subst. exists 0%Z. split; [constructor|]. split; [apply (in_bytes_text [])|]. split; lia.
  - eapply equal_of; [apply d_size; [cbn; auto|constructor; unfold u64; lia]|apply d_literal|].
    intros v. rewrite sized_str by (cbn; auto). split.
    + intros (k & I & B & L1 & L2). inversion I; subst. inversion B; subst. destruct b as [|c t]; [constructor|].
      cbn [List.length] in *. lia.
    + intros L. inversion L; subst. exists 0%Z. split; [constructor|]. split; [apply (in_bytes_bytes [])|]. split; lia.
  - eapply equal_of; [apply d_choice; apply d_prelude|apply d_prelude|]. intros v; split.
    + intros [I|I]; inversion I; constructor.
    + intros I; inversion I; subst. destruct (Z.le_gt_cases 0 z); [left|right]; constructor; lia.
  - eapply equal_of; [apply d_choice; apply d_literal|apply d_prelude|]. intros v; split.
    + intros [I|I]; inversion I; constructor.
    + intros I; inversion I; subst. destruct b; [left|right]; constructor.
  - apply eq_one; auto.
  - apply eq_parens; auto.
  - apply eq_nested; auto.
  - apply eq_again; auto.
  - apply eq_any; auto.
  - apply eq_only_any; auto.
  - apply eq_order; auto.
  - apply eq_alternative; auto.
  - destruct (C76_equivalence X t t t) as (R & _ & _). auto.
  - destruct (C76_equivalence X a b a) as (_ & R & _). auto.
  - destruct (C76_equivalence X a b c) as (_ & _ & R). auto.
Qed.
End Spelled.
