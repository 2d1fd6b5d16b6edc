(** C33-C35, C51: data conversion and the order of values. *)
From Coq Require Import List Bool ZArith NArith String Lia Sorted Permutation.
From Verif Require Import Base Util Data Value Ivt Convert Validate Fun ApiData
  ValueOrder ConvertProofs SpecBase SpecConvert ConvertExact Demo.
Import ListNotations.
Open Scope list_scope.

(** * C33: CBOR *)

(** The conversion yields [v] exactly if [v] is the meaning of the item. *)
Theorem C33_conversion_exact : forall c v, of_cbor c = Ok v <-> cbor_means c v.
Proof. exact of_cbor_exact. Qed.

(** Every item without tags converts, to well-formed data. *)
Theorem C33_untagged_converts : forall c, ~ has_tag c ->
  exists v, of_cbor c = Ok v /\ cbor_means c v /\ (wf_cbor c -> wf_value v).
Proof.
  intros c N. destruct (of_cbor_cases c) as [(v & E & _)|(_ & T)]; [|contradiction].
  pose proof (proj1 (of_cbor_exact c v) E) as M. exists v. repeat split; auto. intros W. eapply wf_of_cbor; eauto.
Qed.

(** A tag anywhere makes validation fail with a ValueError, whatever the
    schema. *)
Theorem C33_tag_rejected : forall X lk def c, has_tag c ->
  exists m, validate_cbor X lk def c = Err (EValueError m).
Proof.
  intros X lk def c T. destruct (of_cbor_cases c) as [(v & _ & N)|(E & _)]; [contradiction|].
  exists hidden_msg. unfold validate_cbor. rewrite E. reflexivity.
Qed.

(** No two entries have keys with the same meaning. *)
Definition distinct_keys (es : list (cbor * cbor)) : Prop :=
  forall pre e mid e' post k, es = pre ++ e :: mid ++ e' :: post ->
    cbor_means (fst e) k -> cbor_means (fst e') k -> False.

Lemma distinct_nodup es ps : distinct_keys es ->
  Forall2 (fun e p => cbor_means (fst e) (fst p) /\ cbor_means (snd e) (snd p)) es ps -> NoDup (map fst ps).
Proof.
  intros D F. induction F as [|e [k v] es ps [Hk Hv] F IH]; cbn; constructor.
  - intros Hin. apply in_map_iff in Hin. destruct Hin as ([k' v'] & E & Hin). cbn in E; subst k'.
    apply in_split in Hin. destruct Hin as (ps1 & ps2 & ->).
    apply Forall2_app_inv_r in F. destruct F as (es1 & es2 & _ & F & ->). inversion F; subst. destruct H2 as [Hk' _].
    apply (D [] e es1 x l k); auto.
  - apply IH. intros pre e1 mid e2 post k1 E. apply (D (e :: pre) e1 mid e2 post k1). rewrite E. reflexivity.
Qed.

(** The order of the entries of a map does not matter if keys are distinct. *)
Theorem C33_entry_order_irrelevant : forall X lk def es es',
  Permutation es es' -> distinct_keys es ->
  validate_cbor X lk def (CMap es) = validate_cbor X lk def (CMap es').
Proof.
  intros X lk def es es' P D. unfold validate_cbor.
  replace (of_cbor (CMap es')) with (of_cbor (CMap es)); auto.
  destruct (of_cbor_cases (CMap es)) as [(v & E & _)|(E & T)]; rewrite E; symmetry.
  - apply of_cbor_exact in E. inversion E; subst. apply of_cbor_exact.
    destruct (Permutation_Forall2 P H0) as (ps' & P' & F'). econstructor; [exact F'|].
    eapply map_of_permutation; eauto. eapply distinct_nodup; eauto.
  - destruct (of_cbor_cases (CMap es')) as [(v & _ & N)|(E' & _)]; auto. exfalso. apply N.
    inversion T; subst; [eapply ht_key|eapply ht_value]; eauto; eapply Permutation_in; eauto.
Qed.

Lemma last_duplicate_value pre k v mid v' post w :
  (exists k0, cbor_means k k0) -> cbor_means v w ->
  of_cbor (CMap (pre ++ (k, v) :: mid ++ (k, v') :: post)) = of_cbor (CMap (pre ++ mid ++ (k, v') :: post)).
Proof.
  intros (k0 & Hk) Hv. set (A := CMap (pre ++ mid ++ (k, v') :: post)).
  destruct (of_cbor_cases A) as [(x & E & _)|(E & T)]; rewrite E.
  - apply of_cbor_exact in E. inversion E as [| | | | | | |? ps m F O]; subst. apply of_cbor_exact.
    apply Forall2_app_inv_l in F. destruct F as (ps1 & ps23 & F1 & F23 & ->).
    apply Forall2_app_inv_l in F23. destruct F23 as (ps2 & ps3 & F2 & F3 & ->).
    inversion F3 as [|? [k1 v1] ? ps4 [M1 M2] F4]; subst. cbn in M1, M2.
    assert (k1 = k0) as -> by (eapply cbor_means_unique; eauto).
    apply (cm_map _ (ps1 ++ (k0, w) :: ps2 ++ (k0, v1) :: ps4)).
    + apply Forall2_app; auto. constructor; auto. apply Forall2_app; auto.
    + destruct O as [S O]. split; auto. intros a b. rewrite O. rewrite !last_entry_iff.
      clear. assert (G : forall l l', (forall a, last_binding a l = last_binding a l') ->
        forall p a, last_binding a (p ++ l) = last_binding a (p ++ l')).
      { intros l l' H p c. induction p as [|[? ?] p IH]; cbn; auto. rewrite IH. auto. }
      rewrite (G ((k0, w) :: ps2 ++ (k0, v1) :: ps4) (ps2 ++ (k0, v1) :: ps4)); [reflexivity|]. clear. intros a. cbn.
      destruct (last_binding a (ps2 ++ (k0, v1) :: ps4)) eqn:L; auto.
      destruct (veqb a k0) eqn:V; auto. apply veqb_eq in V; subst.
      apply last_binding_in in L. exfalso. apply L. rewrite map_app. apply in_elt.
  - destruct (of_cbor_cases (CMap (pre ++ (k, v) :: mid ++ (k, v') :: post))) as [(x & _ & N)|(E' & _)]; auto.
    exfalso. apply N. inversion T; subst.
    + eapply ht_key; [|exact H1]. apply in_app_or in H0. apply in_or_app. cbn. intuition eauto.
    + eapply ht_value; [|exact H1]. apply in_app_or in H0. apply in_or_app. cbn. intuition eauto.
Qed.

(** Later entries for the same key replace earlier ones. *)
Theorem C33_last_duplicate_wins : forall X lk def pre k v mid v' post w,
  (exists k0, cbor_means k k0) -> cbor_means v w ->
  validate_cbor X lk def (CMap (pre ++ (k, v) :: mid ++ (k, v') :: post)) =
  validate_cbor X lk def (CMap (pre ++ mid ++ (k, v') :: post)).
Proof. intros. unfold validate_cbor. erewrite last_duplicate_value; eauto. Qed.

Definition demo_cbor : cbor :=
  CMap [(CText (txt "b"), CArray [CInteger 1; CNull]); (CInteger (-5), CFloat 0);
        (CText (txt "b"), CBytes [1%N; 2%N])].
Example C33_demo : ~ has_tag demo_cbor /\
  of_cbor demo_cbor = Ok (VMap [(vi (-5), VFloat 0); (vs "b", VBytes [1%N; 2%N])]).
Proof.
  split; [|vm_compute; reflexivity]. destruct (of_cbor_cases demo_cbor) as [(v & _ & N)|(E & _)]; auto.
  vm_compute in E. discriminate.
Qed.
Example C33_demo_tag :
  has_tag (CArray [CInteger 1; CMap [(CNull, CTag 1 (CInteger 0))]]) /\
  validate_cbor demo_ext no_rules (RuleDef [] (NPrelude PAny)) (CArray [CInteger 1; CMap [(CNull, CTag 1 (CInteger 0))]])
    = Err (EValueError (txt "can't handle hidden cbor Value")).
Proof.
  split; [|vm_compute; reflexivity].
  apply (ht_array _ (CMap [(CNull, CTag 1 (CInteger 0))])); [cbn; auto|].
  apply (ht_value _ CNull (CTag 1 (CInteger 0))); [cbn; auto|constructor].
Qed.
Example C33_demo_order :
  distinct_keys [(CInteger 1, CNull); (CText (txt "x"), CInteger 2)] /\
  Permutation [(CInteger 1, CNull); (CText (txt "x"), CInteger 2)] [(CText (txt "x"), CInteger 2); (CInteger 1, CNull)].
Proof.
  split; [|apply perm_swap].
  intros [|? [|? [|? ?]]] e [|? [|? ?]] e' post k H M M'; cbn in H; try discriminate; injection H as; subst; try discriminate.
  cbn in *. inversion M; subst. inversion M'.
Qed.

(** * C34: JSON *)

(** Conversion never fails; its result is the meaning of the item, which is
    unique. *)
Theorem C34_conversion_exact : forall j,
  exists v, of_json j = Ok v /\ (forall w, json_means j w <-> w = v) /\ (wf_json j -> wf_value v).
Proof.
  intros j. destruct (of_json_exact j) as (v & E & M). exists v. split; [exact E|]. split.
  - intros w. split; [intros M'; eapply json_means_unique; eauto|intros ->; exact M].
  - intros W. eapply wf_of_json; eauto.
Qed.

(** Hence validating JSON is validating its meaning. *)
Theorem C34_validation : forall X lk def j v, json_means j v ->
  validate_json X lk def j = run_validate X lk v def.
Proof.
  intros X lk def j v M. destruct (of_json_exact j) as (v' & E & M'). unfold validate_json. rewrite E.
  rewrite (json_means_unique j v v'); auto.
Qed.

Example C34_demo :
  of_json (JObject [(txt "n", JNumber (JPosInt 18446744073709551615)); (txt "m", JNumber (JNegInt (-3)));
                    (txt "f", JArray [JNumber (JFloat 4607182418800017408); JBool true; JNull])])
  = Ok (VMap [(vs "f", VArray [VFloat 4607182418800017408; VBool true; VNull]);
              (vs "m", vi (-3)); (vs "n", vi 18446744073709551615)]).
Proof. vm_compute. reflexivity. Qed.

(** * C35 *)

Theorem C35_json_cbor_agree : forall X lk def j c, same_data j c ->
  validate_json X lk def j = validate_cbor X lk def c.
Proof.
  intros X lk def j c S. destruct (of_json_exact j) as (v & E & M).
  unfold validate_json, validate_cbor. rewrite E.
  pose proof (same_data_value j c v S M) as M'. apply of_cbor_exact in M'. rewrite M'. reflexivity.
Qed.

(** Every JSON item has a corresponding CBOR item. *)
Theorem C35_corresponding_cbor_exists : forall j, exists c, same_data j c /\ ~ has_tag c.
Proof.
  intros j. assert (H : exists c, same_data j c).
  { induction j using json_ind'; try (eexists; constructor; fail).
    - destruct n; eexists; constructor.
    - assert (exists l', Forall2 same_data l l') as (l' & F)
        by (induction H as [|x l (c & Hc) _ (l' & F)]; [exists []|exists (c :: l')]; auto).
      exists (CArray l'). constructor; auto.
    - assert (exists es', Forall2 (fun (e : text * json) (e' : cbor * cbor) => fst e' = CText (fst e) /\ same_data (snd e) (snd e')) m es')
        as (es' & F).
      { induction H as [|x l (c & Hc) _ (l' & F)]; [exists []; auto|exists ((CText (fst x), c) :: l'); auto]. }
      exists (CMap es'). constructor; auto. }
  destruct H as (c & S). exists c. split; auto. destruct (of_json_exact j) as (v & E & M).
  pose proof (same_data_value j c v S M) as M'. apply of_cbor_exact in M'.
  destruct (of_cbor_cases c) as [(w & _ & N)|(E' & _)]; auto. congruence.
Qed.

Example C35_demo :
  same_data (JArray [JNumber (JNegInt (-1)); JObject [(txt "k", JBool true)]])
            (CArray [CInteger (-1); CMap [(CText (txt "k"), CBool true)]]).
Proof. repeat constructor. Qed.

(** * C51: values are totally ordered, maps have unique keys *)

Theorem C51_total_order : 
  (forall a, vcompare a a = Eq) /\
  (forall a b, vcompare a b = Eq <-> a = b) /\
  (forall a b, vcompare a b = Lt <-> vcompare b a = Gt) /\
  (forall a b c, vcompare a b = Lt -> vcompare b c = Lt -> vcompare a c = Lt) /\
  (forall a b, veqb a b = true <-> a = b).
Proof.
  split; [apply vcompare_refl|]. split; [apply vcompare_eq_iff|].
  split; [intros a b; symmetry; apply vcompare_gt_lt|].
  split; [intros a b c; apply vcompare_trans|]. intros a b; apply veqb_eq.
Qed.

(** In a map every key has one entry and lookup finds it; absent keys are not
    found. *)
Theorem C51_lookup_exact : forall m k, wf_value (VMap m) ->
  (forall v, bt_get k m = Some v <-> In (k, v) m) /\
  (bt_get k m = None <-> ~ In k (map fst m)) /\
  (forall v v', In (k, v) m -> In (k, v') m -> v = v').
Proof.
  intros m k W. apply wf_map in W. destruct W as [_ S]. repeat split.
  - apply bt_get_in; auto.
  - apply bt_get_in; auto.
  - apply bt_get_none; auto.
  - apply bt_get_none; auto.
  - intros v v'. apply sorted_unique; auto.
Qed.

(** Maps with the same entries are equal. *)
Theorem C51_map_extensional : forall m m', wf_value (VMap m) -> wf_value (VMap m') ->
  (forall k v, In (k, v) m <-> In (k, v) m') -> VMap m = VMap m'.
Proof.
  intros m m' W W' H. apply wf_map in W, W'. f_equal. apply sorted_ext; [apply W|apply W'|].
  intros [k v]; apply H.
Qed.

(** Inserting and removing entries do what they say. *)
Theorem C51_insert_remove : forall m k v, wf_value (VMap m) ->
  (forall k' v', In (k', v') (bt_insert k v m) <-> (k', v') = (k, v) \/ (In (k', v') m /\ k' <> k)) /\
  (forall k' v', In (k', v') (snd (bt_remove k m)) <-> In (k', v') m /\ k' <> k) /\
  fst (bt_remove k m) = bt_get k m.
Proof.
  intros m k v W. apply wf_map in W. destruct W as [_ S]. split; [|split].
  - intros k' v'. rewrite bt_insert_in by auto. cbn. tauto.
  - intros k' v'. rewrite bt_remove_in by auto. cbn. tauto.
  - apply bt_remove_get.
Qed.

Example C51_demo : wf_value (VMap [(vi 1, VNull); (VFloat 0, VNull); (vs "a", VNull)]) /\
  bt_get (vs "a") [(vi 1, VNull); (VFloat 0, VNull); (vs "a", VNull)] = Some VNull /\
  vcompare (VFloat 9223372036854775808) (VFloat 0) = Lt.
Proof.
  split; [|vm_compute; auto]. apply wf_map. split.
  - repeat constructor; cbn; try lia.
  - repeat constructor.
Qed.

Print Assumptions C33_conversion_exact.
Print Assumptions C33_untagged_converts.
Print Assumptions C33_tag_rejected.
Print Assumptions C33_entry_order_irrelevant.
Print Assumptions C33_last_duplicate_wins.
Print Assumptions C34_conversion_exact.
Print Assumptions C34_validation.
Print Assumptions C35_json_cbor_agree.
Print Assumptions C35_corresponding_cbor_exists.
Print Assumptions C51_total_order.
Print Assumptions C51_lookup_exact.
Print Assumptions C51_map_extensional.
Print Assumptions C51_insert_remove.
