(** The order on values and the sorted-list model of [BTreeMap]. *)
From Coq Require Import List Bool ZArith NArith Lia Sorted.
From Verif Require Import Base Util Value.
Import ListNotations.

(** * Induction over values *)

Section ValueInd.
Variable P : value -> Prop.
Hypothesis Hnull : P VNull.
Hypothesis Hbool : forall b, P (VBool b).
Hypothesis Hint : forall z, P (VInteger z).
Hypothesis Hfloat : forall u, P (VFloat u).
Hypothesis Hbytes : forall b, P (VBytes b).
Hypothesis Htext : forall t, P (VText t).
Hypothesis Harray : forall l, Forall P l -> P (VArray l).
Hypothesis Hmap : forall m, Forall (fun p => P (fst p) /\ P (snd p)) m -> P (VMap m).

Fixpoint value_rect' (v : value) : P v :=
  match v with
  | VNull => Hnull
  | VBool b => Hbool b
  | VInteger z => Hint z
  | VFloat u => Hfloat u
  | VBytes b => Hbytes b
  | VText t => Htext t
  | VArray l =>
      Harray l ((fix go l : Forall P l :=
                   match l with
                   | [] => Forall_nil _
                   | x :: l' => Forall_cons _ (value_rect' x) (go l')
                   end) l)
  | VMap m =>
      Hmap m ((fix go m : Forall (fun p => P (fst p) /\ P (snd p)) m :=
                 match m with
                 | [] => Forall_nil _
                 | p :: m' =>
                     Forall_cons p (conj (value_rect' (fst p)) (value_rect' (snd p))) (go m')
                 end) m)
  end.
End ValueInd.

Definition value_ind' := value_rect'.

(** * Lexicographic orders *)

Section Lex.
Context {A : Type} (cmp : A -> A -> comparison).

Lemma lex_refl l : Forall (fun x => cmp x x = Eq) l -> lex cmp l l = Eq.
Proof. induction 1; cbn; auto. rewrite H. auto. Qed.

Lemma lex_eq l1 l2 :
  Forall (fun x => forall y, cmp x y = Eq -> x = y) l1 -> lex cmp l1 l2 = Eq -> l1 = l2.
Proof.
  intros H; revert l2; induction H as [|x l Hx Hl IH]; intros [|y l2]; cbn; try congruence.
  destruct (cmp x y) eqn:E; try congruence. intros L. apply Hx in E. apply IH in L. congruence.
Qed.

Lemma lex_antisym l1 l2 :
  Forall (fun x => forall y, cmp y x = CompOpp (cmp x y)) l1 ->
  lex cmp l2 l1 = CompOpp (lex cmp l1 l2).
Proof.
  intros H; revert l2; induction H as [|x l Hx Hl IH]; intros [|y l2]; cbn; auto.
  rewrite Hx. destruct (cmp x y); cbn; auto.
Qed.

Lemma lex_trans l1 l2 l3 :
  Forall (fun x => forall y, cmp x y = Eq -> x = y) l1 ->
  Forall (fun x => forall y, cmp x y = Eq -> x = y) l2 ->
  Forall (fun x => forall y z, cmp x y = Lt -> cmp y z = Lt -> cmp x z = Lt) l1 ->
  lex cmp l1 l2 = Lt -> lex cmp l2 l3 = Lt -> lex cmp l1 l3 = Lt.
Proof.
  intros H1; revert l2 l3; induction H1 as [|x l Hx Hl IH]; intros [|y l2] [|z l3] H2 H3; cbn; try congruence.
  inversion H2; subst. inversion H3; subst.
  destruct (cmp x y) eqn:E1; try congruence.
  - apply Hx in E1; subst y.
    destruct (cmp x z) eqn:E2; try congruence. eauto.
  - intros _. destruct (cmp y z) eqn:E2; try congruence.
    + apply H1 in E2; subst z. rewrite E1. auto.
    + intros _. rewrite (H5 _ _ E1 E2). auto.
Qed.
End Lex.

Lemma text_compare_lex a b : text_compare a b = lex N.compare a b.
Proof. revert b; induction a; intros []; cbn; auto; destruct (N.compare a n); auto. Qed.

Lemma Forall_all {A} (P : A -> Prop) l : (forall x, P x) -> Forall P l.
Proof. intros H; induction l; constructor; auto. Qed.

Lemma text_compare_refl a : text_compare a a = Eq.
Proof. rewrite text_compare_lex. apply lex_refl, Forall_all. apply N.compare_refl. Qed.
Lemma text_compare_eq a b : text_compare a b = Eq -> a = b.
Proof. rewrite text_compare_lex. apply lex_eq, Forall_all. intros x y; apply N.compare_eq. Qed.
Lemma text_compare_antisym a b : text_compare b a = CompOpp (text_compare a b).
Proof. rewrite !text_compare_lex. apply lex_antisym, Forall_all. intros x y; apply N.compare_antisym. Qed.
Lemma text_compare_trans a b c :
  text_compare a b = Lt -> text_compare b c = Lt -> text_compare a c = Lt.
Proof.
  rewrite !text_compare_lex. apply lex_trans; apply Forall_all; intros x y.
  - apply N.compare_eq.
  - apply N.compare_eq.
  - intros z. rewrite !N.compare_lt_iff. lia.
Qed.

Lemma text_eqb_eq a b : text_eqb a b = true <-> a = b.
Proof.
  revert b; induction a; intros []; cbn; try (split; congruence).
  rewrite andb_true_iff, N.eqb_eq, IHa. split; [intros [-> ->]; auto|intros [= -> ->]; auto].
Qed.
Lemma text_eqb_refl a : text_eqb a a = true.
Proof. apply text_eqb_eq; reflexivity. Qed.
Lemma text_eqb_neq a b : text_eqb a b = false <-> a <> b.
Proof. rewrite <- text_eqb_eq. destruct (text_eqb a b); split; congruence. Qed.

(** * Floats *)

Lemma float_key_lxor u :
  float_ord_key u = if N.eqb (N.land u f64_msb) 0 then N.lxor u f64_msb else N.lxor u f64_ones.
Proof.
  unfold float_ord_key. destruct (N.eqb_spec (N.land u f64_msb) 0); auto.
  rewrite N.lxor_lor; auto.
Qed.

Lemma lxor_inj a b o : N.lxor a o = N.lxor b o -> a = b.
Proof.
  intros H. assert (N.lxor (N.lxor a o) o = N.lxor (N.lxor b o) o) as H' by congruence.
  rewrite !N.lxor_assoc, N.lxor_nilpotent, !N.lxor_0_r in H'. exact H'.
Qed.

Lemma msb_bit : f64_msb = N.shiftl 1 63. Proof. reflexivity. Qed.

Lemma land_msb u : N.eqb (N.land u f64_msb) 0 = negb (N.testbit u 63).
Proof.
  destruct (N.testbit u 63) eqn:E; cbn.
  - apply N.eqb_neq. intros H.
    assert (N.testbit (N.land u f64_msb) 63 = false) by (rewrite H; reflexivity).
    rewrite N.land_spec, E in H0. discriminate.
  - apply N.eqb_eq. apply N.bits_inj. intros i. rewrite N.land_spec, N.bits_0.
    destruct (N.eq_dec i 63) as [->|Hi]; [rewrite E; auto|].
    rewrite msb_bit. rewrite N.shiftl_1_l. rewrite N.pow2_bits_false by auto.
    apply andb_false_r.
Qed.

Lemma float_key_inj u w : float_ord_key u = float_ord_key w -> u = w.
Proof.
  rewrite !float_key_lxor, !land_msb.
  destruct (N.testbit u 63) eqn:Eu, (N.testbit w 63) eqn:Ew; cbn [negb]; intros H;
    try (eapply lxor_inj; eassumption).
  - assert (N.testbit (N.lxor u f64_ones) 63 = N.testbit (N.lxor w f64_msb) 63) as B by congruence.
    rewrite !N.lxor_spec, Eu, Ew in B. discriminate.
  - assert (N.testbit (N.lxor u f64_msb) 63 = N.testbit (N.lxor w f64_ones) 63) as B by congruence.
    rewrite !N.lxor_spec, Eu, Ew in B. discriminate.
Qed.

(** * [vcompare] is a total order *)

Definition pair_cmp (p q : value * value) : comparison :=
  match vcompare (fst p) (fst q) with
  | Eq => vcompare (snd p) (snd q)
  | c => c
  end.

Lemma vcompare_map x y : vcompare (VMap x) (VMap y) = lex pair_cmp x y.
Proof. reflexivity. Qed.

Theorem vcompare_refl a : vcompare a a = Eq.
Proof.
  induction a using value_ind'; cbn; auto.
  - destruct b; auto.
  - apply Z.compare_refl.
  - apply N.compare_refl.
  - apply text_compare_refl.
  - apply text_compare_refl.
  - apply lex_refl; auto.
  - apply lex_refl. eapply Forall_impl; [|eassumption]. cbn; intros p [-> ->]; auto.
Qed.

Theorem vcompare_eq a : forall b, vcompare a b = Eq -> a = b.
Proof.
  induction a using value_ind'; intros []; cbn; try congruence.
  - destruct b, b0; cbn; congruence.
  - intros E. apply Z.compare_eq in E. congruence.
  - intros E. apply N.compare_eq, float_key_inj in E. congruence.
  - intros E. apply text_compare_eq in E. congruence.
  - intros E. apply text_compare_eq in E. congruence.
  - intros E. f_equal. eapply lex_eq; eauto.
  - intros E. f_equal. eapply lex_eq; [|exact E].
    eapply Forall_impl; [|eassumption]. cbn; intros [k v] [H1 H2] [k' v']; cbn.
    destruct (vcompare k k') eqn:E1; try congruence. intros E2.
    apply H1 in E1. apply H2 in E2. cbn in *. congruence.
Qed.

Theorem vcompare_antisym a : forall b, vcompare b a = CompOpp (vcompare a b).
Proof.
  induction a using value_ind'; intros []; try reflexivity; cbn [vcompare].
  - destruct b, b0; reflexivity.
  - apply Z.compare_antisym.
  - apply N.compare_antisym.
  - apply text_compare_antisym.
  - apply text_compare_antisym.
  - apply lex_antisym; auto.
  - apply lex_antisym. eapply Forall_impl; [|eassumption]. cbn; intros [k v] [H1 H2] [k' v']; cbn in *.
    rewrite H1. destruct (vcompare k k'); cbn; auto.
Qed.

Theorem vcompare_trans a : forall b c, vcompare a b = Lt -> vcompare b c = Lt -> vcompare a c = Lt.
Proof.
  induction a using value_ind'; intros [] []; cbn [vcompare variant]; try (vm_compute; congruence).
  - destruct b, b0, b1; cbn; congruence.
  - rewrite !Z.compare_lt_iff. lia.
  - rewrite !N.compare_lt_iff. lia.
  - apply text_compare_trans.
  - apply text_compare_trans.
  - apply lex_trans; auto; apply Forall_all; intros; apply vcompare_eq; auto.
  - apply lex_trans; try (apply Forall_all; intros [k v] [k' v']; cbn;
      destruct (vcompare k k') eqn:E; try congruence; intros E2; apply vcompare_eq in E, E2; congruence).
    eapply Forall_impl; [|eassumption]. cbn; intros [k v] [H1 H2] [k2 v2] [k3 v3]; cbn in *.
    destruct (vcompare k k2) eqn:E1; try congruence.
    + apply vcompare_eq in E1; subst k2. destruct (vcompare k k3) eqn:E2; try congruence. eauto.
    + intros _. destruct (vcompare k2 k3) eqn:E2; try congruence.
      * apply vcompare_eq in E2; subst k3. rewrite E1. auto.
      * intros _. rewrite (H1 _ _ E1 E2). auto.
Qed.

Lemma vcompare_gt_lt a b : vcompare a b = Gt <-> vcompare b a = Lt.
Proof. rewrite (vcompare_antisym a b). destruct (vcompare a b); cbn; split; congruence. Qed.

Lemma vcompare_eq_iff a b : vcompare a b = Eq <-> a = b.
Proof. split; [apply vcompare_eq|intros ->; apply vcompare_refl]. Qed.

(** [PartialEq] agrees with equality. *)
Theorem veqb_eq a : forall b, veqb a b = true <-> a = b.
Proof.
  induction a using value_ind'; intros []; cbn; try (split; congruence).
  - rewrite Bool.eqb_true_iff. split; congruence.
  - rewrite Z.eqb_eq. split; congruence.
  - rewrite N.eqb_eq. split; [intros E; apply float_key_inj in E; congruence|congruence].
  - rewrite text_eqb_eq. split; congruence.
  - rewrite text_eqb_eq. split; congruence.
  - transitivity (l = l0); [|split; congruence].
    revert l0; induction H as [|x l Hx Hl IH]; intros [|y l0]; cbn; try (split; congruence).
    rewrite andb_true_iff, Hx, IH. split; [intros [-> ->]; auto|intros [= -> ->]; auto].
  - transitivity (m = m0); [|split; congruence].
    revert m0; induction H as [|[k v] l Hx Hl IH]; intros [|[k' v'] l0]; cbn; try (split; congruence).
    destruct Hx as [H1 H2]; cbn in *.
    rewrite !andb_true_iff, H1, H2, IH. split; [intros [[-> ->] ->]; auto|intros [= -> -> ->]; auto].
Qed.

Lemma veqb_refl a : veqb a a = true.
Proof. apply veqb_eq; reflexivity. Qed.
Lemma veqb_neq a b : veqb a b = false <-> a <> b.
Proof. rewrite <- veqb_eq. destruct (veqb a b); split; congruence. Qed.

Definition value_eq_dec (a b : value) : {a = b} + {a <> b}.
Proof. destruct (veqb a b) eqn:E; [left; apply veqb_eq; auto|right; apply veqb_neq; auto]. Defined.

(** * Maps: sorted association lists *)

Definition klt (p q : value * value) : Prop := vcompare (fst p) (fst q) = Lt.
Definition sorted (m : list (value * value)) : Prop := StronglySorted klt m.

Lemma sorted_nil : sorted [].
Proof. constructor. Qed.

Lemma sorted_cons_inv p m : sorted (p :: m) -> sorted m /\ Forall (klt p) m.
Proof. intros H; inversion H; auto. Qed.

Lemma klt_irrefl p q : klt p q -> fst p <> fst q.
Proof. unfold klt. intros H E. rewrite E, vcompare_refl in H. discriminate. Qed.

(** Keys are unique. *)
Lemma sorted_unique m k v v' : sorted m -> In (k, v) m -> In (k, v') m -> v = v'.
Proof.
  induction m as [|p m IH]; cbn; [tauto|].
  intros S. apply sorted_cons_inv in S. destruct S as [S F]. rewrite Forall_forall in F.
  intros [E|H] [E'|H'].
  - congruence.
  - subst p. apply F in H'. apply klt_irrefl in H'. cbn in H'. congruence.
  - subst p. apply F in H. apply klt_irrefl in H. cbn in H. congruence.
  - eauto.
Qed.

Lemma sorted_nodup m : sorted m -> NoDup (map fst m).
Proof.
  induction 1 as [|p m S IH F]; cbn; constructor; auto.
  intros Hin. apply in_map_iff in Hin. destruct Hin as (q & E & Hq).
  rewrite Forall_forall in F. apply F in Hq. apply klt_irrefl in Hq. congruence.
Qed.

Theorem bt_get_in m k v : sorted m -> (bt_get k m = Some v <-> In (k, v) m).
Proof.
  induction m as [|[k' v'] m IH]; cbn; [split; [congruence|tauto]|].
  intros S. apply sorted_cons_inv in S. destruct S as [S F]. rewrite Forall_forall in F.
  destruct (vcompare k k') eqn:E.
  - apply vcompare_eq in E; subst k'. split.
    + intros [= ->]; auto.
    + intros [[= ->]|H]; auto. apply F in H. apply klt_irrefl in H. cbn in H; congruence.
  - split; [congruence|]. intros [[= -> ->]|H].
    + rewrite vcompare_refl in E; congruence.
    + apply F in H. unfold klt in H; cbn in H.
      pose proof (vcompare_trans _ _ _ E H) as T. rewrite vcompare_refl in T. congruence.
  - rewrite IH by auto. split; auto. intros [[= -> ->]|H]; auto.
    rewrite vcompare_refl in E; congruence.
Qed.

Lemma bt_get_none m k : sorted m -> (bt_get k m = None <-> ~ In k (map fst m)).
Proof.
  intros S. split.
  - intros E Hin. apply in_map_iff in Hin. destruct Hin as ([k' v] & <- & Hin).
    apply bt_get_in in Hin; auto. cbn in E. congruence.
  - intros H. destruct (bt_get k m) eqn:E; auto. apply bt_get_in in E; auto.
    exfalso. apply H. apply in_map_iff. exists (k, v). auto.
Qed.

Lemma bt_insert_in m k v p :
  sorted m -> (In p (bt_insert k v m) <-> p = (k, v) \/ (In p m /\ fst p <> k)).
Proof.
  induction m as [|[k' v'] m IH]; cbn; [intuition|].
  intros S. apply sorted_cons_inv in S. destruct S as [S F]. rewrite Forall_forall in F.
  destruct (vcompare k k') eqn:E; cbn.
  - apply vcompare_eq in E; subst k'. split.
    + intros [<-|H]; auto. right. split; auto. apply F in H. apply klt_irrefl in H. cbn in H. congruence.
    + intros [->|[[<-|H] N]]; auto. cbn in N; congruence.
  - split.
    + intros [<-|[<-|H]]; auto.
      * right. split; auto. cbn. intros ->. rewrite vcompare_refl in E; congruence.
      * right. split; auto. apply F in H. unfold klt in H; cbn in H.
        pose proof (vcompare_trans _ _ _ E H) as T. intros Ek. rewrite Ek, vcompare_refl in T. congruence.
    + intros [->|[[<-|H] N]]; auto.
  - rewrite IH by auto. split.
    + intros [<-|[->|[H N]]]; auto. right; split; auto. cbn. intros ->.
      rewrite vcompare_refl in E; congruence.
    + intros [->|[[<-|H] N]]; auto.
Qed.

Lemma bt_insert_sorted m k v : sorted m -> sorted (bt_insert k v m).
Proof.
  induction m as [|[k' v'] m IH]; cbn; intros S.
  - constructor; constructor.
  - pose proof S as S0. apply sorted_cons_inv in S. destruct S as [S F].
    destruct (vcompare k k') eqn:E.
    + apply vcompare_eq in E; subst k'. constructor; auto.
    + constructor; auto. constructor; auto.
      eapply Forall_impl; [|exact F]. unfold klt; cbn. intros q H. eapply vcompare_trans; eauto.
    + constructor; [apply IH; auto|].
      rewrite Forall_forall in *. intros q H. apply bt_insert_in in H; auto.
      destruct H as [->|[H _]]; auto. unfold klt; cbn. apply vcompare_gt_lt; auto.
Qed.

Theorem bt_get_insert m k v k' :
  sorted m -> bt_get k' (bt_insert k v m) = if veqb k' k then Some v else bt_get k' m.
Proof.
  intros S. destruct (veqb k' k) eqn:E.
  - apply veqb_eq in E; subst k'. apply bt_get_in; [apply bt_insert_sorted; auto|].
    apply bt_insert_in; auto.
  - apply veqb_neq in E. destruct (bt_get k' m) as [v'|] eqn:G.
    + apply bt_get_in; [apply bt_insert_sorted; auto|]. apply bt_insert_in; auto.
      right. split; [apply bt_get_in; auto|auto].
    + apply bt_get_none; [apply bt_insert_sorted; auto|]. apply bt_get_none in G; auto.
      intros Hin. apply in_map_iff in Hin. destruct Hin as ([k2 v2] & Ek & Hin). cbn in Ek; subst k2.
      apply bt_insert_in in Hin; auto. destruct Hin as [[= -> _]|[Hin _]]; [congruence|].
      apply G. apply in_map_iff. exists (k', v2); auto.
Qed.

Theorem bt_remove_get m k : fst (bt_remove k m) = bt_get k m.
Proof.
  induction m as [|[k' v'] m IH]; cbn; auto.
  destruct (vcompare k k'); cbn; auto.
  destruct (bt_remove k m); cbn in *; auto.
Qed.

Theorem bt_remove_in m k p :
  sorted m -> (In p (snd (bt_remove k m)) <-> In p m /\ fst p <> k).
Proof.
  induction m as [|[k' v'] m IH]; cbn; [tauto|].
  intros S. apply sorted_cons_inv in S. destruct S as [S F]. rewrite Forall_forall in F.
  destruct (vcompare k k') eqn:E; cbn.
  - apply vcompare_eq in E; subst k'. split.
    + intros H. split; auto. apply F in H. apply klt_irrefl in H. cbn in H; congruence.
    + intros [[<-|H] N]; auto. cbn in N; congruence.
  - split; [|tauto]. intros H. split; auto. destruct H as [<-|H]; cbn.
    + intros ->. rewrite vcompare_refl in E; congruence.
    + apply F in H. unfold klt in H; cbn in H.
      pose proof (vcompare_trans _ _ _ E H) as T. intros Ek. rewrite Ek, vcompare_refl in T. congruence.
  - specialize (IH S). destruct (bt_remove k m) as [r m'] eqn:R; cbn in *. rewrite IH. split.
    + intros [<-|[H N]]; auto. split; auto. cbn; intros ->. rewrite vcompare_refl in E; congruence.
    + intros [[<-|H] N]; auto.
Qed.

Lemma bt_remove_sorted m k : sorted m -> sorted (snd (bt_remove k m)).
Proof.
  induction m as [|[k' v'] m IH]; cbn; auto.
  intros S. pose proof S as S0. apply sorted_cons_inv in S. destruct S as [S F].
  destruct (vcompare k k'); cbn; auto.
  specialize (IH S). pose proof (fun p => bt_remove_in m k p S) as I.
  destruct (bt_remove k m) as [r m']; cbn in *.
  constructor; auto. rewrite Forall_forall in *. intros q Hq. apply F. apply I in Hq. tauto.
Qed.

(** Two sorted maps with the same entries are equal. *)
Theorem sorted_ext m m' : sorted m -> sorted m' -> (forall p, In p m <-> In p m') -> m = m'.
Proof.
  revert m'; induction m as [|p m IH]; intros [|q m'] S S' H; auto.
  - exfalso. apply (H q). left; auto.
  - exfalso. apply (H p). left; auto.
  - apply sorted_cons_inv in S, S'. destruct S as [S F], S' as [S' F'].
    rewrite Forall_forall in F, F'.
    assert (p = q) as ->.
    { destruct (proj1 (H p) (or_introl eq_refl)) as [E|E]; auto.
      destruct (proj2 (H q) (or_introl eq_refl)) as [E'|E']; auto.
      apply F' in E. apply F in E'. unfold klt in *.
      pose proof (vcompare_trans _ _ _ E E') as T. rewrite vcompare_refl in T. congruence. }
    f_equal. apply IH; auto. intros r. split; intros Hr.
    + destruct (proj1 (H r) (or_intror Hr)) as [E|E]; auto. subst r.
      apply F in Hr. apply klt_irrefl in Hr. congruence.
    + destruct (proj2 (H r) (or_intror Hr)) as [E|E]; auto. subst r.
      apply F' in Hr. apply klt_irrefl in Hr. congruence.
Qed.

Lemma bt_extend_sorted l m : sorted m -> sorted (bt_extend m l).
Proof.
  unfold bt_extend. revert m; induction l; cbn; auto.
  intros m S. apply IHl. apply bt_insert_sorted; auto.
Qed.

(** [bt_extend]: the last binding of a key wins. *)
Fixpoint last_binding (k : value) (l : list (value * value)) : option value :=
  match l with
  | [] => None
  | (k', v) :: l' =>
      match last_binding k l' with
      | Some r => Some r
      | None => if veqb k k' then Some v else None
      end
  end.

Theorem bt_get_extend l m k :
  sorted m ->
  bt_get k (bt_extend m l) = match last_binding k l with Some v => Some v | None => bt_get k m end.
Proof.
  unfold bt_extend. revert m; induction l as [|[k' v] l IH]; cbn; auto.
  intros m S. rewrite IH by (apply bt_insert_sorted; auto).
  destruct (last_binding k l); auto. rewrite bt_get_insert by auto.
  destruct (veqb k k'); auto.
Qed.

(** Putting a removed entry back restores the map. *)
Theorem bt_insert_remove m k v :
  sorted m -> bt_get k m = Some v -> bt_insert k v (snd (bt_remove k m)) = m.
Proof.
  intros S G. pose proof (bt_remove_sorted m k S) as S'.
  apply sorted_ext; auto using bt_insert_sorted.
  intros [k' v']. rewrite bt_insert_in, bt_remove_in by auto. cbn.
  apply bt_get_in in G; auto. split.
  - intros [[= -> ->]|[[H _] _]]; auto.
  - intros H. destruct (value_eq_dec k' k) as [->|N]; auto.
    left. rewrite (sorted_unique m k v' v S H G). reflexivity.
Qed.
