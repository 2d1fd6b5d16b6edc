(** Groups and unwrapped members written in place, repetitions written out. *)
From Coq Require Import List Bool ZArith NArith String Lia Arith Permutation.
From Verif Require Import Base Util Data Value Convert Ivt Scalar Validate Unfold Mono Total Fun
  ArrayInv MapInv ConvertProofs NoPanic SpecBase SpecCtx Sim CtxProofs SpecVerdict Frame.
Import ListNotations.

Lemma seqs_app {St} (f : node -> St -> res unit * St) a b s :
  seqs f (a ++ b) s = match seqs f a s with (Ok _, s') => seqs f b s' | x => x end.
Proof. revert s; induction a as [|x a IH]; intros s; cbn; auto. destruct (f x s) as [[]]; auto. Qed.

(** * Snapshots, fuel-free *)
Section Uni.
Context {D E St : Type}.
Variable mk : D -> list (list E) -> St.
Definition uni (f : St -> res unit * St) : Prop :=
  forall a, (forall S, fst (f (mk a S)) = Panic) \/
            (exists r a' d, r <> Panic /\ forall S, f (mk a S) = (r, mk a' (push d S))).
Lemma uni_seqs f ms : (forall m, uni (f m)) -> uni (seqs f ms).
Proof.
  intros H. induction ms as [|m ms IH]; intros a; cbn.
  - right. exists (Ok tt), a, []. split; [discriminate|]. intros. rewrite push_nil. auto.
  - destruct (H m a) as [P|(r & a' & d & Np & Hr)].
    + left. intros S. specialize (P S). destruct (f m (mk a S)) as [[]]; cbn in *; congruence.
    + destruct r as [u|e|]; [|right; exists (Err e), a', d; split; [discriminate|]; intros; rewrite Hr; auto|congruence].
      destruct (IH a') as [P|(r & a2 & d2 & Np2 & H2)].
      * left. intros S. rewrite Hr. auto.
      * right. exists r, a2, (d ++ d2). split; auto. intros. rewrite Hr, H2, push_push. auto.
Qed.
End Uni.

Section Splice.
Variable X : ext.
Variable lk : lookup_context.

Lemma aval_uni c m : uni WA (fun w => aval X lk m w c).
Proof.
  intros a. destruct (aval_spec X lk m (WA a []) c) as [n Hn].
  destruct (frame_array X (lookup_rule lk) n m c a) as [H|[H|(r & a' & d & Np & H)]].
  - rewrite H in Hn. discriminate.
  - left. intros S. destruct (H S) as [s Hs]. rewrite (aval_run X lk n _ _ _ _ Hs). auto.
  - right. exists r, a', d. split; auto. intros S. apply (aval_run X lk n). auto.
Qed.
Lemma mval_uni c m : uni WM (fun w => mval X lk m w c).
Proof.
  intros a. destruct (mval_spec X lk m (WM a []) c) as [n Hn].
  destruct (proj1 (frame_map X (lookup_rule lk) n) m c a) as [H|[H|(r & a' & d & Np & H)]].
  - rewrite H in Hn. discriminate.
  - left. intros S. destruct (H S) as [s Hs]. rewrite (mval_run X lk n _ _ _ _ Hs). auto.
  - right. exists r, a', d. split; auto. intros S. apply (mval_run X lk n). auto.
Qed.

(** * Groups in place *)
Theorem group_in_array v pre ms post c :
  val X lk v (NArray (pre ++ NGroup ms :: post)) c = val X lk v (NArray (pre ++ ms ++ post)) c.
Proof.
  rewrite !val_eq. unfold array_all. destruct v; auto. rewrite !seqs_app.
  set (f := fun m w => aval X lk m w c). unfold wa_new.
  destruct (uni_seqs WA f pre (aval_uni c) l) as [P|(r & a & d & Np & H)].
  { specialize (P []). destruct (seqs f pre (WA l [])) as [[u|e|] s]; cbn in P; congruence. }
  rewrite H. cbn [push]. destruct r as [u|e|]; auto. cbn [seqs]. unfold f at 1. rewrite aval_eq. unfold array_group. fold f.
  rewrite seqs_app. unfold wa_snapshot. cbn [wa_array wa_snaps].
  destruct (uni_seqs WA f ms (aval_uni c) a) as [P|(r & a' & d' & Np' & H')].
  { pose proof (P [[]]) as P1. specialize (P []). destruct (seqs f ms (WA a [])) as [[u1|e1|] s]; cbn in P; try congruence.
    destruct (seqs f ms (WA a [[]])) as [[u2|e2|] s2]; cbn in P1; congruence. }
  rewrite !H'. destruct r as [u1|e1|]; cbn; congruence || auto.
Qed.
Theorem group_in_map v pre ms post c :
  val X lk v (NMap (pre ++ NGroup ms :: post)) c = val X lk v (NMap (pre ++ ms ++ post)) c.
Proof.
  rewrite !val_eq. unfold map_all. destruct v; auto. rewrite !seqs_app.
  set (f := fun m w => mval X lk m w c). unfold wm_new.
  destruct (uni_seqs WM f pre (mval_uni c) m) as [P|(r & a & d & Np & H)].
  { specialize (P []). destruct (seqs f pre (WM m [])) as [[u|e|] s]; cbn in P; congruence. }
  rewrite H. cbn [push]. destruct r as [u|e|]; auto. cbn [seqs]. unfold f at 1. rewrite mval_eq. unfold map_group. fold f.
  rewrite seqs_app. unfold wm_snapshot. cbn [wm_map wm_snaps].
  destruct (uni_seqs WM f ms (mval_uni c) a) as [P|(r & a' & d' & Np' & H')].
  { pose proof (P [[]]) as P1. specialize (P []). destruct (seqs f ms (WM a [])) as [[u1|e1|] s]; cbn in P; try congruence.
    destruct (seqs f ms (WM a [[]])) as [[u2|e2|] s2]; cbn in P1; congruence. }
  rewrite !H'. destruct r as [u1|e1|]; cbn; [auto| |congruence]. destruct e1; auto.
Qed.

(** * [~] in place *)
Section Unwrap.
Variables (name : text) (c : ctx).
Hypothesis Hfree : gm_get name (ctx_map c) = None.

Lemma seq_lps {St} (f g : node -> St -> option (res unit * St)) ms :
  (forall m, In m ms -> forall s, lps (f m s) (g m s)) -> forall s, lps (seq_loop f ms s) (seq_loop g ms s).
Proof.
  induction ms as [|m ms IH]; intros H s; cbn; [apply lps_refl|].
  destruct (H m (or_introl eq_refl) s) as [->|[(s' & ->)| ->]]; [apply lps_none|apply lps_panic|].
  destruct (g m s) as [[[]]|]; try apply lps_refl. apply IH. intros; apply H; right; auto.
Qed.
Lemma seq_app {St} (f : node -> St -> option (res unit * St)) a b s :
  seq_loop f (a ++ b) s = match seq_loop f a s with Some (Ok _, s') => seq_loop f b s' | x => x end.
Proof. revert s; induction a as [|x a IH]; intros s; cbn; auto. destruct (f x s) as [[[]]|]; auto. Qed.
Lemma lps_mono {A St} (a b b' : option (res A * St)) : lps a b -> le_opt b b' -> lps a b'.
Proof. intros [->|[(s & ->)| ->]] [L|L]; subst; auto using lps_none, lps_panic, lps_refl. Qed.

Lemma seq_lps_splice {St} (f g : node -> St -> option (res unit * St)) pre x ms post :
  (forall m, In m (pre ++ post) -> forall s, lps (f m s) (g m s)) ->
  (forall s, lps (f x s) (seq_loop g ms s)) ->
  forall s, lps (seq_loop f (pre ++ x :: post) s) (seq_loop g (pre ++ ms ++ post) s).
Proof.
  intros H Hx s. rewrite !seq_app.
  destruct (seq_lps f g pre (fun m Hm => H m (in_or_app _ _ _ (or_introl Hm))) s) as [->|[(s' & ->)| ->]];
    [apply lps_none|apply lps_panic|].
  destruct (seq_loop g pre s) as [[[u|e|] s1]|]; try apply lps_refl. cbn. rewrite seq_app.
  destruct (Hx s1) as [->|[(s' & ->)| ->]]; [apply lps_none|apply lps_panic|].
  destruct (seq_loop g ms s1) as [[[u'|e|] s2]|]; try apply lps_refl.
  apply seq_lps. intros m Hm. apply H. apply in_or_app; auto.
Qed.

Theorem unwrap_in_array v pre ms post :
  lk name = inl (RuleDef [] (NArray ms)) ->
  (forall m nm, In m ms -> mentions m nm -> gm_get nm (ctx_map c) = None) ->
  within_limit X lk v (NArray (pre ++ NUnwrap name [] :: post)) c ->
  val X lk v (NArray (pre ++ NUnwrap name [] :: post)) c = val X lk v (NArray (pre ++ ms ++ post)) c.
Proof.
  intros Hdef Hbody (n & r & E & N).
  assert (val X lk v (NArray (pre ++ NUnwrap name [] :: post)) c = r) as ->.
  { apply (val_run X lk n). eapply lp_nopanic; [apply strict_sim|exact E|exact N]. }
  symmetry. apply (val_run X lk n). destruct n as [|n]; [discriminate|]. rewrite validate_S in *.
  unfold validate_array in *. destruct v; auto.
  assert (L : lps (seq_loop (fun m w => validate_array_member X (lookup_strict lk) n m w c) (pre ++ NUnwrap name [] :: post) (wa_new l))
                  (seq_loop (fun m w => validate_array_member X (lookup_rule lk) n m w c) (pre ++ ms ++ post) (wa_new l))).
  { apply seq_lps_splice; [intros; apply strict_sim_a|]. intros s. destruct n as [|n]; [apply lps_none|].
    rewrite validate_array_member_S. unfold lookup_strict at 1. rewrite Hfree, Hdef. cbn.
    destruct (N.leb max_depth (ctx_depth c)); [apply lps_panic|]. cbn.
    eapply lps_mono; [|apply seq_loop_mono].
    - apply seq_lps. intros m Hm s'. apply sim_strict_le. refine (csim_refl_free c m _ (NArray ms)).
      intros nm M. eapply Hbody; eauto.
    - intros m s'. apply (mono X (lookup_rule lk) n (S n)). lia. }
  destruct L as [L|[(s & L)|L]]; rewrite L in E; [discriminate|congruence|exact E].
Qed.
Theorem unwrap_in_map v pre ms post :
  lk name = inl (RuleDef [] (NMap ms)) ->
  (forall m nm, In m ms -> mentions m nm -> gm_get nm (ctx_map c) = None) ->
  within_limit X lk v (NMap (pre ++ NUnwrap name [] :: post)) c ->
  val X lk v (NMap (pre ++ NUnwrap name [] :: post)) c = val X lk v (NMap (pre ++ ms ++ post)) c.
Proof.
  intros Hdef Hbody (n & r & E & N).
  assert (val X lk v (NMap (pre ++ NUnwrap name [] :: post)) c = r) as ->.
  { apply (val_run X lk n). eapply lp_nopanic; [apply strict_sim|exact E|exact N]. }
  symmetry. apply (val_run X lk n). destruct n as [|n]; [discriminate|]. rewrite validate_S in *.
  unfold validate_map in *. destruct v; auto.
  assert (L : lps (seq_loop (fun m w => validate_map_member X (lookup_strict lk) n m w c) (pre ++ NUnwrap name [] :: post) (wm_new m))
                  (seq_loop (fun m w => validate_map_member X (lookup_rule lk) n m w c) (pre ++ ms ++ post) (wm_new m))).
  { apply seq_lps_splice; [intros; apply strict_sim_m|]. intros s. destruct n as [|n]; [apply lps_none|].
    rewrite validate_map_member_S. unfold lookup_strict at 1. rewrite Hfree, Hdef. cbn.
    destruct (N.leb max_depth (ctx_depth c)); [apply lps_panic|]. cbn.
    eapply lps_mono; [|apply seq_loop_mono].
    - apply seq_lps. intros m' Hm s'. apply sim_strict_le. refine (csim_refl_free c m' _ (NMap ms)).
      intros nm M. eapply Hbody; eauto.
    - intros m' s'. apply (mono X (lookup_rule lk) n (S n)). lia. }
  destruct L as [L|[(s & L)|L]]; rewrite L in E; [discriminate|congruence|exact E].
Qed.
End Unwrap.

(** * Repetitions *)

(** Whatever the loop counts, one more repetition is one more member. *)
Lemma occ_copies {St} (f : St -> res unit * St) n : forall k s,
  (0 < n)%nat ->
  let r := seqs (fun (_ : node) s => f s) (repeat (NPrelude PAny) n) s in
  match fst r with
  | Ok _ => occ f (k + N.of_nat n) k s = (Ok (k + N.of_nat n)%N, snd r)
  | Err e =>
      if is_mismatch e
      then exists j, (j < k + N.of_nat n)%N /\ occ f (k + N.of_nat n) k s = (Ok j, snd r)
      else occ f (k + N.of_nat n) k s = (Err e, snd r)
  | Panic => occ f (k + N.of_nat n) k s = (Panic, snd r)
  end.
Proof.
  induction n as [|n IH]; intros k s Hn; [lia|]. cbn [repeat seqs]. rewrite occ_eq.
  destruct (f s) as [[u|e|] s1]; cbn [fst snd]; auto.
  - destruct n as [|n].
    + cbn. rewrite (proj2 (N.leb_le _ _)) by lia. auto.
    + rewrite (proj2 (N.leb_gt _ _)) by lia.
      replace (k + N.of_nat (S (S n)))%N with (k + 1 + N.of_nat (S n))%N by lia.
      exact (IH (k + 1)%N s1 ltac:(lia)).
  - destruct (is_mismatch e) eqn:M; auto. exists k. split; [lia|auto].
Qed.

Lemma seqs_repeat {St} (f : node -> St -> res unit * St) m n s :
  seqs f (repeat m n) s = seqs (fun _ s => f m s) (repeat (NPrelude PAny) n) s.
Proof. revert s; induction n as [|n IH]; intros s; cbn; auto. destruct (f m s) as [[]]; auto. Qed.

Lemma exact_occurs {St} (f : St -> res unit * St) (n : nat) short s : (0 < n)%nat -> is_mismatch short = true ->
  let r := seqs (fun (_ : node) s => f s) (repeat (NPrelude PAny) n) s in
  let o := occur_result (N.of_nat n) short (occ f (N.of_nat n) 0 s) in
  snd o = snd r /\
  match fst r, fst o with
  | Ok _, Ok _ => True
  | Err e1, Err e2 => error_kind e1 = error_kind e2
  | Panic, Panic => True
  | _, _ => False
  end.
Proof.
  intros Hn Hs r o. pose proof (occ_copies f n 0 s Hn) as H. cbv zeta in H. fold r in H.
  rewrite N.add_0_l in H. unfold o. clear o. destruct (fst r) as [u|e|].
  - rewrite H. cbn. rewrite N.ltb_irrefl. cbn. auto.
  - destruct (is_mismatch e) eqn:M.
    + destruct H as (j & Hj & ->). cbn. rewrite (proj2 (N.ltb_lt _ _)) by lia. cbn. split; auto.
      destruct e, short; cbn in *; congruence || discriminate || auto.
    + rewrite H. cbn. auto.
  - rewrite H. cbn. auto.
Qed.

Theorem copies_array (n : nat) m w c : (0 < n)%nat ->
  let o := aval X lk (NOccur (ONumbered (N.of_nat n) (N.of_nat n)) m) w c in
  let r := seqs (fun m w => aval X lk m w c) (repeat m n) w in
  snd o = snd r /\
  match fst r, fst o with
  | Ok _, Ok _ => True
  | Err e1, Err e2 => error_kind e1 = error_kind e2
  | Panic, Panic => True
  | _, _ => False
  end.
Proof.
  intros Hn o r. unfold o, r. rewrite aval_eq, (seqs_repeat (fun m w => aval X lk m w c)). unfold array_occur. cbn [bounds fst snd].
  apply (exact_occurs (fun w => aval X lk m w c)); auto.
Qed.
Theorem copies_map (n : nat) m w c : (0 < n)%nat ->
  let o := mval X lk (NOccur (ONumbered (N.of_nat n) (N.of_nat n)) m) w c in
  let r := seqs (fun m w => mval X lk m w c) (repeat m n) w in
  snd o = snd r /\
  match fst r, fst o with
  | Ok _, Ok _ => True
  | Err e1, Err e2 => error_kind e1 = error_kind e2
  | Panic, Panic => True
  | _, _ => False
  end.
Proof.
  intros Hn o r. unfold o, r. rewrite mval_eq, (seqs_repeat (fun m w => mval X lk m w c)). unfold map_occur. cbn [bounds fst snd].
  apply (exact_occurs (fun w => mval X lk m w c)); auto.
Qed.

Theorem copies_in_array v pre m (n : nat) post c : keys_sorted v -> (0 < n)%nat ->
  same_verdict (val X lk v (NArray (pre ++ NOccur (ONumbered (N.of_nat n) (N.of_nat n)) m :: post)) c)
               (val X lk v (NArray (pre ++ repeat m n ++ post)) c).
Proof.
  intros K Hn.
  pose proof (val_nopanic X lk v (NArray (pre ++ NOccur (ONumbered (N.of_nat n) (N.of_nat n)) m :: post)) c K) as N1.
  rewrite (val_eq X lk v (NArray (pre ++ repeat m n ++ post))).
  rewrite (val_eq X lk v (NArray (pre ++ NOccur _ m :: post))) in *. unfold array_all in *.
  destruct v; try (cbn; auto; fail). rewrite !seqs_app in *.
  destruct (seqs (fun m w => aval X lk m w c) pre (wa_new l)) as [[u|e|] s]; try (cbn in *; auto; congruence).
  rewrite !seqs_app. cbn [seqs] in *. destruct (copies_array n m s c Hn) as [Hs Hr].
  destruct (aval X lk (NOccur _ m) s c) as [o so]; destruct (seqs _ (repeat m n) s) as [r sr]. cbn [fst snd] in *. subst so.
  destruct r as [u1|e1|], o as [u2|e2|]; try contradiction; cbn in *; auto; try congruence.
  destruct (seqs _ post sr) as [[u3|e3|] s3]; cbn in *; auto; try congruence. destruct (wa_array s3); cbn; auto.
Qed.
Theorem copies_in_map v pre m (n : nat) post c : keys_sorted v -> (0 < n)%nat ->
  same_verdict (val X lk v (NMap (pre ++ NOccur (ONumbered (N.of_nat n) (N.of_nat n)) m :: post)) c)
               (val X lk v (NMap (pre ++ repeat m n ++ post)) c).
Proof.
  intros K Hn.
  pose proof (val_nopanic X lk v (NMap (pre ++ NOccur (ONumbered (N.of_nat n) (N.of_nat n)) m :: post)) c K) as N1.
  rewrite (val_eq X lk v (NMap (pre ++ repeat m n ++ post))).
  rewrite (val_eq X lk v (NMap (pre ++ NOccur _ m :: post))) in *. unfold map_all in *.
  destruct v as [| | | | | | |kvs]; try (cbn; auto; fail). rewrite !seqs_app in *.
  destruct (seqs (fun m w => mval X lk m w c) pre (wm_new kvs)) as [[u|e|] s]; try (cbn in *; auto; congruence).
  rewrite !seqs_app. cbn [seqs] in *. destruct (copies_map n m s c Hn) as [Hs Hr].
  destruct (mval X lk (NOccur _ m) s c) as [o so]; destruct (seqs _ (repeat m n) s) as [r sr]. cbn [fst snd] in *. subst so.
  destruct r as [u1|e1|], o as [u2|e2|]; try contradiction; cbn in *; auto; try congruence.
  destruct (seqs _ post sr) as [[u3|e3|] s3]; cbn in *; auto; try congruence. destruct (wm_map s3); cbn; auto.
  destruct e1, e2; cbn in *; congruence.
Qed.

End Splice.
