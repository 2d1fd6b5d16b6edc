(** The conversions compute what SpecConvert.v says. *)
From Coq Require Import List Bool ZArith NArith String Lia Sorted Permutation.
From Verif Require Import Base Util Data Value Convert ValueOrder ConvertProofs SpecBase SpecConvert CtxProofs.
Import ListNotations.
Open Scope list_scope.

Lemma last_binding_in k l : (forall v, last_binding k l = Some v -> In (k, v) l) /\
  (last_binding k l = None -> ~ In k (map fst l)).
Proof.
  induction l as [|[k' v'] l [IH1 IH2]]; cbn; [split; [discriminate|tauto]|].
  destruct (last_binding k l) as [r|].
  - split; [intros v [= ->]; auto|discriminate].
  - destruct (veqb k k') eqn:Ek.
    + apply veqb_eq in Ek; subst. split; [intros v [= ->]; auto|discriminate].
    + apply veqb_neq in Ek. split; [discriminate|]. intros _ [H|H]; [congruence|]. apply IH2; auto.
Qed.

Lemma last_entry_unique {K V} k (v v' : V) (l : list (K * V)) : last_entry k v l -> last_entry k v' l -> v = v'.
Proof.
  intros (pre & post & E & N) (pre' & post' & E' & N'). rewrite E in E'. clear E l.
  revert pre' E'. induction pre as [|p pre IH]; intros [|p' pre'] E'; cbn in E'.
  - congruence.
  - injection E' as H1 H2. subst. exfalso. apply N. rewrite map_app. apply in_elt.
  - injection E' as H1 H2. subst. exfalso. apply N'. rewrite map_app. apply in_elt.
  - injection E' as H1 H2. eauto.
Qed.

Lemma last_entry_iff k v l : last_entry k v l <-> last_binding k l = Some v.
Proof.
  assert (F : forall v, last_binding k l = Some v -> last_entry k v l).
  { clear v. induction l as [|[k' v'] l IH]; cbn; [discriminate|]. intros v.
    destruct (last_binding k l) as [r|] eqn:E.
    - intros [= ->]. destruct (IH v eq_refl) as (pre & post & -> & N). exists ((k', v') :: pre), post; auto.
    - destruct (veqb k k') eqn:Ek; [|discriminate]. apply veqb_eq in Ek; subst k'. intros [= ->].
      exists [], l. split; auto. apply last_binding_in; auto. }
  split; auto. intros H. destruct (last_binding k l) as [r|] eqn:E.
  - f_equal. eapply last_entry_unique; eauto.
  - exfalso. apply last_binding_in in E. apply E. destruct H as (pre & post & -> & _).
    rewrite map_app. apply in_elt.
Qed.

Lemma map_of_extend l : map_of l (bt_extend [] l).
Proof.
  assert (S : sorted (bt_extend [] l)) by (apply bt_extend_sorted, sorted_nil).
  split; [exact S|]. intros k v. rewrite <- bt_get_in by auto.
  rewrite bt_get_extend by apply sorted_nil. rewrite last_entry_iff. cbn [bt_get].
  destruct (last_binding k l); split; congruence.
Qed.

Lemma map_of_unique l m m' : map_of l m -> map_of l m' -> m = m'.
Proof.
  intros [S H] [S' H']. apply sorted_ext; auto. intros [k v]. rewrite H, H'. reflexivity.
Qed.

Lemma map_of_extend_eq l m : map_of l m -> m = bt_extend [] l.
Proof. intros H. eapply map_of_unique; eauto using map_of_extend. Qed.

(** With distinct keys the order of the entries does not matter. *)
Lemma last_entry_nodup {K V} k (v : V) (l : list (K * V)) :
  NoDup (map fst l) -> (last_entry k v l <-> In (k, v) l).
Proof.
  intros N. split.
  - intros (pre & post & -> & _). apply in_elt.
  - intros H. apply in_split in H. destruct H as (pre & post & ->). exists pre, post. split; auto.
    rewrite map_app in N. cbn in N. apply NoDup_remove_2 in N. intros H. apply N. apply in_or_app; auto.
Qed.
Lemma map_of_permutation l l' m : NoDup (map fst l) -> Permutation l l' -> map_of l m -> map_of l' m.
Proof.
  intros N P [S H]. split; auto. intros k v. rewrite H.
  assert (N' : NoDup (map fst l')) by (eapply Permutation_NoDup; [apply Permutation_map, P|auto]).
  rewrite !last_entry_nodup by auto. split; apply Permutation_in; auto using Permutation_sym.
Qed.

(** * CBOR *)

Lemma Forall2_forall {A B} (P : A -> Prop) (R R' : A -> B -> Prop) l l' :
  Forall P l -> (forall x y, P x -> R x y -> R' x y) -> Forall2 R l l' -> Forall2 R' l l'.
Proof. intros HP HR. induction 1; inversion HP; subst; auto. Qed.

Lemma of_cbor_exact c : forall v, of_cbor c = Ok v <-> cbor_means c v.
Proof.
  induction c using cbor_ind'; intros w;
    try (split; [intros [= <-]; constructor|intros H; inversion H; subst; reflexivity]);
    try (split; [discriminate|intros H'; inversion H']).
  - cbn [of_cbor]. split.
    + destruct (collect_res of_cbor l) as [ys|e|] eqn:E; intros [= <-].
      apply collect_ok in E. constructor. eapply Forall2_forall; [exact H| |exact E].
      intros x y Hx Hy. apply Hx; auto.
    + intros H'; inversion H'; subst. replace (collect_res of_cbor l) with (Ok l') ; auto.
      symmetry. apply collect_ok. eapply Forall2_forall; [exact H| |exact H1].
      intros x y Hx Hy. apply Hx; auto.
  - rewrite of_cbor_map. split.
    + destruct (collect_res pair_conv m) as [ys|e|] eqn:E; intros [= <-].
      apply collect_ok in E. econstructor; [|apply map_of_extend].
      eapply Forall2_forall; [exact H| |exact E]. intros [k v] [k' v'] [Hk Hv] Hp. cbn in *. unfold pair_conv in Hp; cbn in Hp.
      destruct (of_cbor k) as [k1|e|] eqn:Ek; try discriminate.
      destruct (of_cbor v) as [v1|e|] eqn:Ev; try discriminate.
      injection Hp as <- <-. split; [apply Hk|apply Hv]; auto.
    + intros H'; inversion H'; subst. replace (collect_res pair_conv m) with (Ok ps).
      { rewrite <- (map_of_extend_eq ps m0); auto. }
      symmetry. apply collect_ok. eapply Forall2_forall; [exact H| |exact H1].
      intros [k v] [k' v'] [Hk Hv] [Hk' Hv']. cbn in *. apply Hk in Hk'. apply Hv in Hv'.
      unfold pair_conv; cbn. rewrite Hk', Hv'. reflexivity.
Qed.

(** Every item either has a meaning or contains a tag; a tag makes the
    conversion fail with the one message of the crate. *)
Definition hidden_msg := txt "can't handle hidden cbor Value".
Lemma of_cbor_cases c :
  (exists v, of_cbor c = Ok v /\ ~ has_tag c) \/
  (of_cbor c = Err (EValueError hidden_msg) /\ has_tag c).
Proof.
  induction c using cbor_ind';
    try (left; eexists; split; [reflexivity|intros H; inversion H]; fail).
  - cbn [of_cbor]. destruct (collect_res of_cbor l) as [ys|e|] eqn:E.
    + left. eexists; split; [reflexivity|]. intros H'; inversion H'; subst. apply collect_ok in E.
      apply in_split in H1. destruct H1 as (pre & post & ->).
      apply Forall2_app_inv_l in E. destruct E as (l1 & l2 & _ & E & _). inversion E; subst.
      rewrite Forall_forall in H. destruct (H c) as [(v & _ & NT)|(E1 & _)]; [apply in_elt|auto|congruence].
    + apply collect_err in E. destruct E as (pre' & x & post' & -> & F & Hx).
      rewrite Forall_forall in H. destruct (H x) as [(v & E1 & NT)|(E1 & T)]; [apply in_elt|congruence|].
      right. split; [congruence|]. econstructor; [|exact T]. apply in_elt.
    + exfalso. revert E. apply collect_panic. eapply Forall_impl; [|exact H].
      intros a [(v & -> & _)|(-> & _)]; discriminate.
  - rewrite of_cbor_map.
    assert (Hp : Forall (fun p => (exists q, pair_conv p = Ok q /\ ~ has_tag (fst p) /\ ~ has_tag (snd p)) \/
        (pair_conv p = Err (EValueError hidden_msg) /\ (has_tag (fst p) \/ has_tag (snd p)))) m).
    { eapply Forall_impl; [|exact H]. intros [k v] [Hk Hv]; unfold pair_conv; cbn in *.
      destruct Hk as [(k' & -> & Kk)|(-> & T)]; [|eauto].
      destruct Hv as [(v' & -> & Kv)|(-> & T)]; [|eauto]. left. eauto. }
    clear H. destruct (collect_res pair_conv m) as [ys|e|] eqn:E.
    + left. eexists; split; [reflexivity|]. apply collect_ok in E.
      assert (G : forall k v, In (k, v) m -> ~ has_tag k /\ ~ has_tag v).
      { intros k v Hin. apply in_split in Hin. destruct Hin as (pre & post & ->).
        apply Forall2_app_inv_l in E. destruct E as (l1 & l2 & _ & E & _). inversion E; subst.
        rewrite Forall_forall in Hp.
        destruct (Hp (k, v)) as [(q & _ & NT)|(E1 & _)]; [apply in_elt|auto|congruence]. }
      intros T; inversion T; subst; [destruct (G _ _ H0)|destruct (G _ _ H0)]; auto.
    + apply collect_err in E. destruct E as (pre' & [k v] & post' & -> & F & Hx).
      rewrite Forall_forall in Hp. destruct (Hp (k, v)) as [(q & E1 & NT)|(E1 & T)]; [apply in_elt|congruence|].
      right. split; [congruence|]. cbn in T. destruct T as [T|T]; [eapply ht_key|eapply ht_value]; eauto; apply in_elt.
    + exfalso. revert E. apply collect_panic. eapply Forall_impl; [|exact Hp].
      intros a [(v & -> & _)|(-> & _)]; discriminate.
  - right. split; [reflexivity|constructor].
  - right. split; [reflexivity|constructor].
Qed.

Lemma of_cbor_tag c e : of_cbor c = Err e -> has_tag c.
Proof. intros E. destruct (of_cbor_cases c) as [(v & E' & _)|(_ & T)]; [congruence|auto]. Qed.
Lemma of_cbor_message c e : of_cbor c = Err e -> e = EValueError hidden_msg.
Proof. intros E. destruct (of_cbor_cases c) as [(v & E' & _)|(E' & _)]; congruence. Qed.
Lemma tag_means c v : has_tag c -> ~ cbor_means c v.
Proof. intros T M. apply of_cbor_exact in M. destruct (of_cbor_cases c) as [(v' & _ & N)|(E & _)]; [auto|congruence]. Qed.

Lemma cbor_means_unique c v v' : cbor_means c v -> cbor_means c v' -> v = v'.
Proof. rewrite <- !of_cbor_exact. congruence. Qed.

(** * JSON *)

Definition jpair (p : text * json) : res (value * value) :=
  match of_json (snd p) with
  | Ok v => Ok (VText (fst p), v) | Err e => Err e | Panic => Panic
  end.
Lemma of_json_object m : of_json (JObject m) =
  match collect_res jpair m with Ok l => Ok (VMap (bt_extend [] l)) | Err e => Err e | Panic => Panic end.
Proof. reflexivity. Qed.

Lemma collect_all {A B} (f : A -> res B) (R : A -> B -> Prop) l :
  Forall (fun x => exists y, f x = Ok y /\ R x y) l -> exists ys, collect_res f l = Ok ys /\ Forall2 R l ys.
Proof.
  induction 1 as [|x l (y & E & Hr) _ (ys & E' & F)]; cbn; [eauto|].
  rewrite E, E'. eauto.
Qed.

Lemma of_json_exact j : exists v, of_json j = Ok v /\ json_means j v.
Proof.
  induction j using json_ind'; try (eexists; split; [reflexivity|constructor]; fail).
  - destruct n as [n|z|u]; cbn; eexists; (split; [reflexivity|constructor]).
  - cbn [of_json]. destruct (collect_all _ _ _ H) as (ys & -> & F). eexists; split; [reflexivity|]. constructor; auto.
  - rewrite of_json_object.
    destruct (collect_all jpair (fun e p => fst p = VText (fst e) /\ json_means (snd e) (snd p)) m) as (ys & -> & F).
    { eapply Forall_impl; [|exact H]. intros [k v] (w & E & M). exists (VText k, w). unfold jpair. cbn in *. rewrite E. auto. }
    eexists; split; [reflexivity|]. econstructor; [exact F|apply map_of_extend].
Qed.

Lemma json_means_unique j : forall v v', json_means j v -> json_means j v' -> v = v'.
Proof.
  induction j using json_ind'; intros v v' M1 M2;
    try (inversion M1; subst; inversion M2; subst; congruence).
  - inversion M1 as [| | | | | |? l1 F1|]; inversion M2 as [| | | | | |? l2 F2|]; subst. f_equal. clear M1 M2.
    revert l2 F2. induction F1; intros; inversion F2; subst; auto. inversion H; subst. f_equal; eauto.
  - inversion M1 as [| | | | | | |? p1 m1 F1 O1]; inversion M2 as [| | | | | | |? p2 m2 F2 O2]; subst. clear M1 M2.
    assert (p1 = p2) as ->.
    { clear - H F1 F2. revert p2 F2. induction F1; intros; inversion F2; subst; auto.
      inversion H; subst. f_equal; eauto. destruct H0 as [K1 V1], H3 as [K2 V2], y as [ky vy], y0 as [kz vz].
      cbn in *. f_equal; [congruence|eauto]. }
    f_equal. eapply map_of_unique; eauto.
Qed.

(** Same tree, same value. *)
Lemma same_data_value j : forall c v, same_data j c -> json_means j v -> cbor_means c v.
Proof.
  induction j using json_ind'; intros c v S M; try (inversion S; subst; inversion M; subst; constructor; fail).
  - inversion S as [| | | | | |? l1 F1|]; inversion M as [| | | | | |? l2 F2|]; subst. constructor. clear S M.
    revert l2 F2. induction F1; intros; inversion F2; subst; auto. inversion H; subst. constructor; auto.
  - inversion S as [| | | | | | |? l1 F1]; inversion M as [| | | | | | |? p2 m2 F2 O2]; subst.
    econstructor; [|exact O2]. clear S M O2. revert p2 F2.
    induction F1; intros; inversion F2; subst; auto. inversion H; subst.
    constructor; auto. destruct H0 as [K1 V1], H3 as [K2 V2]. split; [rewrite K1, K2; constructor|eauto].
Qed.

(** Conversions give well-formed data. *)
Lemma wf_array l : wf_value (VArray l) <-> Forall wf_value l.
Proof.
  induction l as [|x l IH]; cbn; [split; auto|]. cbn in IH. rewrite IH.
  split; [intros []; auto|intros F; inversion F; auto].
Qed.
Lemma wf_map m : wf_value (VMap m) <->
  Forall (fun p => wf_value (fst p) /\ wf_value (snd p)) m /\
  StronglySorted (fun p q => vcompare (fst p) (fst q) = Lt) m.
Proof.
  cbn [wf_value]. apply and_iff_compat_r. induction m as [|x m IH]; cbn; [split; auto|]. rewrite IH.
  split; [intros (? & ? & ?); auto|intros F; inversion F; tauto].
Qed.

Lemma wf_map_of ps m : map_of ps m -> Forall (fun p => wf_value (fst p) /\ wf_value (snd p)) ps -> wf_value (VMap m).
Proof.
  intros [S H] F. apply wf_map. split; auto. apply Forall_forall. intros [k v] Hin. apply H in Hin.
  destruct Hin as (pre & post & -> & _). rewrite Forall_forall in F. apply F, in_elt.
Qed.

Lemma wf_of_cbor c : forall v, wf_cbor c -> cbor_means c v -> wf_value v.
Proof.
  induction c using cbor_ind'; intros w W M; try (inversion W; subst; inversion M; subst; cbn [wf_value]; auto; lia).
  - inversion W as [| | | | | |? W1| | |]; inversion M as [| | | | | |? l1 F1|]; subst.
    apply wf_array. clear M W. induction F1; auto. inversion H; inversion W1; subst. constructor; auto.
  - inversion W as [| | | | | | |? W1| |]; inversion M as [| | | | | | |? p1 m1 F1 O1]; subst.
    eapply wf_map_of; eauto. clear M W O1. induction F1; auto. apply Forall_cons_iff in H, W1.
    constructor; [|apply IHF1; tauto]. destruct H0, H as [[A1 A2] _], W1 as [[B1 B2] _]. split; eauto.
Qed.
Lemma wf_of_json c : forall v, wf_json c -> json_means c v -> wf_value v.
Proof.
  induction c using json_ind'; intros w W M; try (inversion W; subst; inversion M; subst; cbn [wf_value]; auto; lia).
  - inversion W as [| | | | | |? W1|]; inversion M as [| | | | | |? l1 F1|]; subst.
    apply wf_array. clear M W. induction F1; auto. inversion H; inversion W1; subst. constructor; auto.
  - inversion W as [| | | | | | |? W1]; inversion M as [| | | | | | |? p1 m1 F1 O1]; subst.
    eapply wf_map_of; eauto. clear M W O1. induction F1; auto. apply Forall_cons_iff in H, W1.
    constructor; [|apply IHF1; tauto]. destruct H0 as [K V], H as [A _], W1 as [[B1 B2] _].
    split; [rewrite K; cbn; auto|eauto].
Qed.
