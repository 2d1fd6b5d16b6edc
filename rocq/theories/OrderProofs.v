(** The comparison function decides the order of SpecOrder.v. *)
From Coq Require Import List Bool ZArith NArith Lia.
From Verif Require Import Base Util Data Value ValueOrder ConvertProofs SpecBase SpecConvert ConvertExact SpecOrder.
Import ListNotations.

Lemma key_pos u : (u < 2 ^ 63)%N -> float_ord_key u = (u + 2 ^ 63)%N.
Proof.
  intros H. rewrite float_key_lxor, land_msb.
  assert (T : N.testbit u 63 = false).
  { destruct (N.eq_dec u 0) as [->|Z]; [reflexivity|]. apply N.bits_above_log2. apply N.log2_lt_pow2; lia. }
  rewrite T. cbn [negb]. symmetry. apply N.add_nocarry_lxor.
  apply N.eqb_eq. change f64_msb with (2 ^ 63)%N in *. pose proof (land_msb u) as L. rewrite T in L. exact L.
Qed.
Lemma key_neg u : (2 ^ 63 <= u < 2 ^ 64)%N -> float_ord_key u = (2 ^ 64 - 1 - u)%N.
Proof.
  intros H. rewrite float_key_lxor, land_msb.
  assert (T : N.testbit u 63 = true).
  {
    assert (E : N.log2 u = 63%N) by (apply N.log2_unique; change (N.succ 63) with 64%N; lia).
    rewrite <- E. apply N.bit_log2. lia. }
  rewrite T. cbn [negb]. change f64_ones with (N.ones 64).
  change (N.lxor u (N.ones 64)) with (N.lnot u 64). 
  pose proof (N.add_lnot_diag_low u 64) as A.
  assert (L : (N.log2 u < 64)%N) by (apply N.log2_lt_pow2; lia). specialize (A L). change (N.ones 64) with (2 ^ 64 - 1)%N in A. lia.
Qed.
Lemma float_before_key u w : (u < 2 ^ 64)%N -> (w < 2 ^ 64)%N -> ((float_ord_key u < float_ord_key w)%N <-> float_before u w).
Proof.
  intros Hu Hw. destruct (N.lt_ge_cases u (2 ^ 63)) as [Pu|Pu], (N.lt_ge_cases w (2 ^ 63)) as [Pw|Pw];
    rewrite ?(key_pos u), ?(key_pos w), ?(key_neg u), ?(key_neg w) by lia; split; intros H; try lia.
  - apply pos_pos; lia.
  - inversion H; subst; lia.
  - inversion H; subst; lia.
  - apply neg_pos; lia.
  - apply neg_neg; lia.
  - inversion H; subst; lia.
Qed.
Lemma lex_before {A} (cmp : A -> A -> comparison) (R : A -> A -> Prop) l :
  (forall x y, cmp x y = Eq <-> x = y) -> forall l', (forall x y, In x l -> In y l' -> (cmp x y = Lt <-> R x y)) ->
  (lex cmp l l' = Lt <-> list_before R l l').
Proof.
  intros E. induction l as [|x l IH]; intros [|y l'] H; cbn [lex].
  - split; [discriminate|inversion 1].
  - split; [constructor|auto].
  - split; [discriminate|inversion 1].
  - assert (H' := H x y (or_introl eq_refl) (or_introl eq_refl)).
    specialize (IH l' (fun a b Ha Hb => H a b (or_intror Ha) (or_intror Hb))).
    destruct (cmp x y) eqn:C.
    + apply E in C. subst y. rewrite IH. split; [apply agrees|]. inversion 1; subst; auto. apply H' in H2. discriminate.
    + split; auto. intros _. apply differs, H'. auto.
    + split; [discriminate|]. inversion 1; subst; [apply H' in H2; discriminate|]. rewrite (proj2 (E y y) eq_refl) in C. discriminate.
Qed.
Definition rank (k : kind) : N :=
  match k with KNull => 0 | KBool => 1 | KInteger => 2 | KFloat => 3 | KBytes => 4 | KText => 5 | KArray => 6 | KMap => 7 end.
Lemma rank_variant v : rank (kind_of v) = variant v.
Proof. destruct v; reflexivity. Qed.
Lemma sorted_apart {A} (R : A -> A -> Prop) l1 x l2 y l3 : Sorted.StronglySorted R (l1 ++ x :: l2 ++ y :: l3) -> R x y.
Proof.
  induction l1 as [|z l1 IH]; cbn; intros H; inversion H; subst; auto.
  apply Forall_app in H3 as [_ H3]. inversion H3; auto.
Qed.
Lemma earlier_rank k k' : earlier k k' <-> (rank k < rank k')%N.
Proof.
  split.
  - intros (l1 & l2 & l3 & H).
    assert (S : Sorted.StronglySorted (fun a b => (rank a < rank b)%N) kinds) by (unfold kinds; repeat constructor; cbn; lia).
    rewrite H in S. apply sorted_apart in S. exact S.
  - intros H. pose (i := N.to_nat (rank k)). pose (j := N.to_nat (rank k')).
    exists (firstn i kinds), (firstn (j - i - 1) (skipn (i + 1) kinds)), (skipn (j + 1) kinds). subst i j.
    destruct k, k'; try reflexivity; cbn in H; lia.
Qed.
Lemma kinds_lt a b : kind_of a <> kind_of b -> (vcompare a b = Lt <-> before a b).
Proof.
  intros N. assert (E : vcompare a b = N.compare (variant a) (variant b)) by (destruct a, b; cbn in N; try congruence; reflexivity).
  rewrite E. rewrite <- !rank_variant. change ((rank (kind_of a) ?= rank (kind_of b))%N = Lt) with (rank (kind_of a) < rank (kind_of b))%N. rewrite <- earlier_rank.
  split; [apply by_kind|]. intros B. destruct B; auto; cbn in N; congruence.
Qed.
Lemma text_before x y : text_compare x y = Lt <-> list_before N.lt x y.
Proof. rewrite text_compare_lex. apply lex_before; [apply N.compare_eq_iff|]. intros a b _ _. apply N.compare_lt_iff. Qed.
Lemma no_earlier k : ~ earlier k k.
Proof. rewrite earlier_rank. lia. Qed.
Ltac same_kind := split; [|intros B; inversion B; subst; auto; match goal with E : earlier _ _ |- _ => destruct (no_earlier _ E) end].

Theorem before_exact a : forall b, wf_value a -> wf_value b -> (vcompare a b = Lt <-> before a b).
Proof.
  induction a using value_ind'; intros v W W'; (destruct v; [..]; try (apply kinds_lt; discriminate)); cbn [vcompare].

  - same_kind. discriminate.
  - destruct b, b0; cbn; split; try discriminate; try constructor; intros B; inversion B; subst; auto;
      match goal with E : earlier _ _ |- _ => destruct (no_earlier _ E) end.
  - rewrite Z.compare_lt_iff. same_kind. apply integers.
  - rewrite N.compare_lt_iff, float_before_key by auto. same_kind. apply floats.
  - rewrite text_before. same_kind. apply byte_strings.
  - rewrite text_before. same_kind. apply texts.
  - rewrite (lex_before vcompare before); [|apply vcompare_eq_iff|].
    + same_kind. apply arrays.
    + apply wf_array in W, W'. rewrite Forall_forall in *. intros x y Hx Hy. apply H; auto.
  - rewrite (lex_before _ (fun p q => before (fst p) (fst q) \/ (fst p = fst q /\ before (snd p) (snd q)))).
    + same_kind. apply maps.
    + intros [k v] [k' v']. cbn [fst snd]. destruct (vcompare k k') eqn:C.
      * apply vcompare_eq_iff in C. subst. rewrite vcompare_eq_iff. split; congruence.
      * split; [discriminate|]. intros [= -> ->]. rewrite vcompare_refl in C. discriminate.
      * split; [discriminate|]. intros [= -> ->]. rewrite vcompare_refl in C. discriminate.
    + apply wf_map in W as [W _], W' as [W' _]. rewrite Forall_forall in *. intros [k v] [k' v'] Hx Hy.
      specialize (W _ Hx). specialize (W' _ Hy). destruct (H _ Hx) as [Hk Hv]. cbn [fst snd] in *.
      assert (Bk := Hk k' ltac:(apply W) ltac:(apply W')). assert (Bv := Hv v' ltac:(apply W) ltac:(apply W')).
      destruct (vcompare k k') eqn:C.
      * apply vcompare_eq_iff in C. subst. rewrite Bv. split; [auto|]. intros [B|[_ B]]; auto. apply Bk in B. discriminate.
      * split; auto. intros _. left. apply Bk; auto.
      * split; [discriminate|]. intros [B|[-> _]]; [apply Bk in B; discriminate|]. rewrite vcompare_refl in C. discriminate.
Qed.
