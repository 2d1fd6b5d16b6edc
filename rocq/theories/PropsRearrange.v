(** The order of entries in the encoded data does not matter: C73. *)
From Coq Require Import List Bool ZArith NArith String Lia Sorted Permutation.
From Verif Require Import Base Util Data Value Ivt Convert Validate Fun ApiData Flatten Api
  ValueOrder ConvertProofs SpecBase SpecConvert ConvertExact Demo PropsConvert SpecRearrange.
Import ListNotations.
Open Scope list_scope.

(** Rearranged items have the same meaning. *)
Lemma permuted_means es es' v : Permutation es es' -> keys_apart es -> cbor_means (CMap es) v -> cbor_means (CMap es') v.
Proof.
  intros P D M. inversion M; subst. destruct (Permutation_Forall2 P H0) as (ps' & P' & F'). econstructor; [exact F'|].
  eapply map_of_permutation; eauto. eapply distinct_nodup; eauto.
Qed.
Lemma untagged_means c : ~ has_tag c <-> exists v, cbor_means c v.
Proof.
  destruct (of_cbor_cases c) as [(v & E & N)|(E & T)].
  - split; auto. intros _. exists v. apply of_cbor_exact; auto.
  - split; [contradiction|]. intros (v & M). apply of_cbor_exact in M. congruence.
Qed.
Lemma of_cbor_same c c' : (forall v, cbor_means c v <-> cbor_means c' v) -> of_cbor c = of_cbor c'.
Proof.
  intros H. destruct (of_cbor_cases c) as [(v & E & N)|(E & T)].
  - rewrite E. symmetry. apply of_cbor_exact, H, of_cbor_exact, E.
  - destruct (of_cbor_cases c') as [(v & E' & N)|(E' & T')]; [|congruence].
    apply of_cbor_exact, H, of_cbor_exact in E'. congruence.
Qed.
Lemma keys_apart_permuted es es' : Permutation es es' -> keys_apart es -> keys_apart es'.
Proof.
  intros P D pre e mid e' post k -> M M'.
  apply Permutation_sym in P. 
  assert (Q : Permutation (e :: e' :: pre ++ mid ++ post) es).
  { rewrite <- P. apply Permutation_cons_app. rewrite app_assoc. rewrite (app_assoc pre mid (e' :: post)). apply Permutation_cons_app. reflexivity. }
  clear P. assert (In e es) as I by (eapply Permutation_in; [exact Q|cbn; auto]).
  apply in_split in I as (a & b & ->). apply Permutation_cons_app_inv in Q.
  assert (In e' (a ++ b)) as I by (eapply Permutation_in; [exact Q|cbn; auto]).
  apply in_app_or in I as [I|I]; apply in_split in I as (x & y & ->).
  - rewrite <- app_assoc in D. cbn in D. apply (D x e' y e b k); auto.
  - apply (D a e x e' y k); auto.
Qed.
Theorem C73_same_value : forall c c', rearranged c c' -> forall v, cbor_means c v <-> cbor_means c' v.
Proof.
  induction 1; intros w.
  - reflexivity.
  - symmetry. auto.
  - rewrite IHrearranged1. auto.
  - split; intros M; inversion M as [| | | | | |? l F|]; subst; constructor;
      apply Forall2_app_inv_l in F as (a & b & F1 & F2 & ->); inversion F2; subst;
      (apply Forall2_app; [auto|constructor; auto]); apply IHrearranged; auto.
  - split; intros M; inversion M as [| | | | | | |? ps m F O]; subst; (eapply cm_map; [|exact O]);
      apply Forall2_app_inv_l in F as (a & b & F1 & F2 & ->); inversion F2 as [|? ? ? ? [K V]]; subst;
      (apply Forall2_app; [auto|constructor; auto]); split; auto; apply IHrearranged; auto.
  - split; intros M; inversion M as [| | | | | | |? ps m F O]; subst; (eapply cm_map; [|exact O]);
      apply Forall2_app_inv_l in F as (a & b & F1 & F2 & ->); inversion F2 as [|? ? ? ? [K V]]; subst;
      (apply Forall2_app; [auto|constructor; auto]); split; auto; apply IHrearranged; auto.
  - split; apply permuted_means; auto using Permutation_sym. eapply keys_apart_permuted; eauto.
  - rewrite <- !of_cbor_exact. erewrite last_duplicate_value; eauto. reflexivity.
Qed.
Lemma map_of_replaced p1 k w p2 w1 p4 m : map_of (p1 ++ p2 ++ (k, w1) :: p4) m -> map_of (p1 ++ (k, w) :: p2 ++ (k, w1) :: p4) m.
Proof.
  intros [S O]. split; auto. intros a b. rewrite O. rewrite !last_entry_iff. clear.
  assert (G : forall l l', (forall a, last_binding a l = last_binding a l') ->
    forall p a, last_binding a (p ++ l) = last_binding a (p ++ l')).
  { intros l l' H p c. induction p as [|[? ?] p IH]; cbn; auto. rewrite IH. auto. }
  rewrite (G ((k, w) :: p2 ++ (k, w1) :: p4) (p2 ++ (k, w1) :: p4)); [reflexivity|]. clear. intros a. cbn.
  destruct (last_binding a (p2 ++ (k, w1) :: p4)) eqn:L; auto.
  destruct (veqb a k) eqn:V; auto. apply veqb_eq in V; subst.
  apply last_binding_in in L. exfalso. apply L. rewrite map_app. apply in_elt.
Qed.
Lemma json_replaced pre k v mid v' post :
  of_json (JObject (pre ++ (k, v) :: mid ++ (k, v') :: post)) = of_json (JObject (pre ++ mid ++ (k, v') :: post)).
Proof.
  destruct (of_json_exact (JObject (pre ++ mid ++ (k, v') :: post))) as (w & E & M).
  destruct (of_json_exact (JObject (pre ++ (k, v) :: mid ++ (k, v') :: post))) as (w' & E' & M').
  rewrite E, E'. f_equal. eapply json_means_unique; [exact M'|].
  inversion M as [| | | | | | |? ps m F [S O]]; subst.
  apply Forall2_app_inv_l in F as (p1 & p23 & F1 & F23 & ->). apply Forall2_app_inv_l in F23 as (p2 & p3 & F2 & F3 & ->).
  inversion F3 as [|? [k1 w1] ? p4 [K1 V1] F4]; subst. cbn in K1, V1. subst k1.
  destruct (of_json_exact v) as (w & Ew & Mw).
  apply (jm_object _ (p1 ++ (VText k, w) :: p2 ++ (VText k, w1) :: p4)).
  - apply Forall2_app; auto. constructor; auto. apply Forall2_app; auto.
  - apply map_of_replaced. split; auto.
Qed.
Lemma json_permuted es es' v : Permutation es es' -> NoDup (map fst es) -> json_means (JObject es) v -> json_means (JObject es') v.
Proof.
  intros P D M. inversion M; subst. destruct (Permutation_Forall2 P H0) as (ps' & P' & F'). econstructor; [exact F'|].
  eapply map_of_permutation; eauto. clear - D H0.
  replace (map fst ps) with (map VText (map fst es)).
  - apply FinFun.Injective_map_NoDup; auto. intros x y [= ->]. auto.
  - induction H0 as [|e q es ps [K _] F IH]; cbn; auto. inversion D; subst. rewrite K, IH; auto.
Qed.
Theorem C73_same_value_json : forall j j', rearranged_json j j' -> forall v, json_means j v <-> json_means j' v.
Proof.
  induction 1; intros w.
  - reflexivity.
  - symmetry. auto.
  - rewrite IHrearranged_json1. auto.
  - split; intros M; inversion M as [| | | | | |? l F|]; subst; constructor;
      apply Forall2_app_inv_l in F as (a & b & F1 & F2 & ->); inversion F2; subst;
      (apply Forall2_app; [auto|constructor; auto]); apply IHrearranged_json; auto.
  - split; intros M; inversion M as [| | | | | | |? ps m F O]; subst; (eapply jm_object; [|exact O]);
      apply Forall2_app_inv_l in F as (a & b & F1 & F2 & ->); inversion F2 as [|? ? ? ? [K V]]; subst;
      (apply Forall2_app; [auto|constructor; auto]); split; auto; apply IHrearranged_json; auto.
  - split; apply json_permuted; auto using Permutation_sym. apply (Permutation_map fst) in H. eapply Permutation_NoDup; eauto.
  - destruct (of_json_exact (JObject (pre ++ (k, v) :: mid ++ (k, v') :: post))) as (x & E & M). pose proof E as E'. rewrite json_replaced in E'.
    destruct (of_json_exact (JObject (pre ++ mid ++ (k, v') :: post))) as (x' & Ex & Mx). rewrite Ex in E'. injection E' as ->.
    split; intros Mw; [rewrite (json_means_unique _ _ _ Mw M); auto|rewrite (json_means_unique _ _ _ Mw Mx); auto].
Qed.

(** ** C73.  Data whose maps are encoded in another order, or with entries that later
    ones replace, at any depth, gets the same result: acceptance and the error with
    its text are the same. *)
Theorem C73_cbor : forall X lk def c c', rearranged c c' -> validate_cbor X lk def c = validate_cbor X lk def c'.
Proof. intros X lk def c c' R. unfold validate_cbor. rewrite (of_cbor_same c c'); auto. apply C73_same_value; auto. Qed.
Theorem C73_json : forall X lk def j j', rearranged_json j j' -> validate_json X lk def j = validate_json X lk def j'.
Proof.
  intros X lk def j j' R. unfold validate_json. destruct (of_json_exact j) as (v & E & M), (of_json_exact j') as (v' & E' & M').
  rewrite E, E'. apply (C73_same_value_json j j' R) in M. rewrite (json_means_unique _ _ _ M M'). auto.
Qed.
Theorem C73_cbor_bytes : forall X name schema data data' c c',
  cbor_decode X data = inl c -> cbor_decode X data' = inl c' -> rearranged c c' ->
  validate_cbor_bytes X name schema data = validate_cbor_bytes X name schema data'.
Proof.
  intros X name schema data data' c c' D D' R. unfold validate_cbor_bytes. rewrite D, D'.
  rewrite (of_cbor_same c c'); auto. apply C73_same_value; auto.
Qed.
Theorem C73_json_str : forall X name schema data data' j j',
  json_decode X data = inl j -> json_decode X data' = inl j' -> rearranged_json j j' ->
  validate_json_str X name schema data = validate_json_str X name schema data'.
Proof.
  intros X name schema data data' j j' D D' R. unfold validate_json_str. rewrite D, D'.
  destruct (of_json_exact j) as (v & E & M), (of_json_exact j') as (v' & E' & M').
  rewrite E, E'. apply (C73_same_value_json j j' R) in M. rewrite (json_means_unique _ _ _ M M'). auto.
Qed.

(** ** Non-vacuity: a map inside an array inside a map; without distinct keys the order
    matters. *)
Example ex_C73 :
  rearranged
    (CMap [(CText (txt "a"), CArray [CNull; CMap [(CInteger 1, CNull); (CText (txt "x"), CInteger 2)]]); (CInteger 7, CNull); (CInteger 7, CBool true)])
    (CMap [(CText (txt "a"), CArray [CNull; CMap [(CText (txt "x"), CInteger 2); (CInteger 1, CNull)]]); (CInteger 7, CBool true)]).
Proof.
  eapply re_trans.
  - apply (re_value [] (CText (txt "a"))). apply (re_element [CNull] _ (CMap [(CText (txt "x"), CInteger 2); (CInteger 1, CNull)]) []).
    destruct C33_demo_order as [D P]. apply re_order; auto.
  - apply (re_replaced [(CText (txt "a"), _)] (CInteger 7) CNull [] (CBool true) [] (vi 7) VNull); constructor.
Qed.
Example ex_C73_order_of_duplicates :
  of_cbor (CMap [(CInteger 7, CNull); (CInteger 7, CBool true)]) <> of_cbor (CMap [(CInteger 7, CBool true); (CInteger 7, CNull)]).
Proof. discriminate. Qed.

Print Assumptions C73_same_value.
Print Assumptions C73_same_value_json.
Print Assumptions C73_cbor.
Print Assumptions C73_json.
Print Assumptions C73_cbor_bytes.
Print Assumptions C73_json_str.
