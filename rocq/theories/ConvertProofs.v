(** Facts on the data conversions. *)
From Coq Require Import List Bool ZArith NArith String Lia Sorted.
From Verif Require Import Base Util Data Value Convert ValueOrder.
Import ListNotations.

Section CborInd.
Variable P : cbor -> Prop.
Hypothesis HNull : P CNull.
Hypothesis HBool : forall b, P (CBool b).
Hypothesis HInt : forall z, P (CInteger z).
Hypothesis HFloat : forall u, P (CFloat u).
Hypothesis HBytes : forall b, P (CBytes b).
Hypothesis HText : forall t, P (CText t).
Hypothesis HArray : forall l, Forall P l -> P (CArray l).
Hypothesis HMap : forall m, Forall (fun p => P (fst p) /\ P (snd p)) m -> P (CMap m).
Hypothesis HTag : forall t c, P c -> P (CTag t c).
Hypothesis HHidden : P CHidden.
Fixpoint cbor_ind' (c : cbor) : P c :=
  match c with
  | CNull => HNull | CBool b => HBool b | CInteger z => HInt z | CFloat u => HFloat u
  | CBytes b => HBytes b | CText t => HText t
  | CArray l => HArray l ((fix go l := match l return Forall P l with
      | [] => Forall_nil _ | x :: l' => Forall_cons _ (cbor_ind' x) (go l') end) l)
  | CMap m => HMap m ((fix go m := match m return Forall (fun p => P (fst p) /\ P (snd p)) m with
      | [] => Forall_nil _
      | p :: m' => Forall_cons _ (conj (cbor_ind' (fst p)) (cbor_ind' (snd p))) (go m') end) m)
  | CTag t c => HTag t c (cbor_ind' c)
  | CHidden => HHidden
  end.
End CborInd.

Section JsonInd.
Variable P : json -> Prop.
Hypothesis HNull : P JNull.
Hypothesis HBool : forall b, P (JBool b).
Hypothesis HNum : forall n, P (JNumber n).
Hypothesis HString : forall t, P (JString t).
Hypothesis HArray : forall l, Forall P l -> P (JArray l).
Hypothesis HObject : forall m, Forall (fun p => P (snd p)) m -> P (JObject m).
Fixpoint json_ind' (c : json) : P c :=
  match c with
  | JNull => HNull | JBool b => HBool b | JNumber n => HNum n | JString t => HString t
  | JArray l => HArray l ((fix go l := match l return Forall P l with
      | [] => Forall_nil _ | x :: l' => Forall_cons _ (json_ind' x) (go l') end) l)
  | JObject m => HObject m ((fix go m := match m return Forall (fun p => P (snd p)) m with
      | [] => Forall_nil _
      | p :: m' => Forall_cons _ (json_ind' (snd p)) (go m') end) m)
  end.
End JsonInd.

(** Keys of all nested maps are in strictly increasing order (what the type
    [BTreeMap] guarantees). *)
Fixpoint keys_sorted (v : value) : Prop :=
  match v with
  | VArray l => (fix go l := match l with [] => True | x :: l' => keys_sorted x /\ go l' end) l
  | VMap m =>
      (fix go m := match m with
                   | [] => True
                   | p :: m' => (keys_sorted (fst p) /\ keys_sorted (snd p)) /\ go m'
                   end) m /\ sorted m
  | _ => True
  end.

Lemma keys_sorted_array l : keys_sorted (VArray l) <-> Forall keys_sorted l.
Proof.
  induction l as [|x l IH]; cbn; [split; auto|]. cbn in IH. rewrite IH.
  split; [intros []; auto|intros F; inversion F; auto].
Qed.
Lemma keys_sorted_map m :
  keys_sorted (VMap m) <-> Forall (fun p => keys_sorted (fst p) /\ keys_sorted (snd p)) m /\ sorted m.
Proof.
  cbn. apply and_iff_compat_r. induction m as [|x m IH]; cbn; [split; auto|]. rewrite IH.
  split; [intros []; auto|intros F; inversion F; auto].
Qed.

Section Collect.
Context {A B : Type}.
Variable f : A -> res B.
Lemma collect_ok l ys : collect_res f l = Ok ys <-> Forall2 (fun x y => f x = Ok y) l ys.
Proof.
  revert ys; induction l as [|x l IH]; cbn; intros ys.
  - split; [intros [= <-]; auto|intros H; inversion H; auto].
  - destruct (f x) as [y|e|] eqn:E.
    + destruct (collect_res f l) as [zs|e|].
      * split.
        -- intros [= <-]. constructor; auto. apply IH; auto.
        -- intros H; inversion H; subst. apply IH in H4. rewrite E in H2. congruence.
      * split; [discriminate|]. intros H; inversion H; subst. apply IH in H4. discriminate.
      * split; [discriminate|]. intros H; inversion H; subst. apply IH in H4. discriminate.
    + split; [discriminate|]. intros H; inversion H; subst. congruence.
    + split; [discriminate|]. intros H; inversion H; subst. congruence.
Qed.
(** The first error wins. *)
Lemma collect_err l e : collect_res f l = Err e <->
  exists pre x post, l = pre ++ x :: post /\ Forall (fun x => exists y, f x = Ok y) pre /\ f x = Err e.
Proof.
  induction l as [|x l IH]; cbn.
  - split; [discriminate|]. intros ([|] & y & post & H & _); discriminate.
  - destruct (f x) as [y|e'|] eqn:E.
    + transitivity (collect_res f l = Err e).
      { destruct (collect_res f l); split; congruence. }
      rewrite IH. split.
      * intros (pre & z & post & -> & F & H). exists (x :: pre), z, post. repeat split; auto. constructor; eauto.
      * intros ([|p pre] & z & post & [= <- ->] & F & H); [congruence|].
        inversion F; subst. exists pre, z, post; auto.
    + split.
      * intros [= <-]. exists [], x, l. auto.
      * intros ([|p pre] & z & post & [= <- ->] & F & H); [congruence|].
        inversion F; subst. destruct H2; congruence.
    + split; [discriminate|]. intros ([|p pre] & z & post & [= <- ->] & F & H); [congruence|].
      inversion F; subst. destruct H2; congruence.
Qed.
Lemma collect_panic l : Forall (fun x => f x <> Panic) l -> collect_res f l <> Panic.
Proof.
  induction 1; cbn; [discriminate|]. destruct (f x) eqn:E; try congruence.
  destruct (collect_res f l); congruence.
Qed.
End Collect.

Lemma bt_extend_forall (P : value * value -> Prop) l m :
  Forall P m -> Forall P l -> (forall k k' v v', P (k, v) -> P (k', v') -> P (k, v')) ->
  Forall P (bt_extend m l).
Proof.
  intros Hm Hl HP. revert m Hm. unfold bt_extend. induction Hl as [|[k v] l Hk Hl IH]; cbn; auto.
  intros m Hm. apply IH. clear IH Hl. induction Hm as [|[k' v'] m Hk' Hm IH]; cbn; auto.
  destruct (vcompare k k'); auto. constructor; eauto.
Qed.

Definition pair_conv (p : cbor * cbor) : res (value * value) :=
  match of_cbor (fst p) with
  | Ok k => match of_cbor (snd p) with Ok v => Ok (k, v) | Err e => Err e | Panic => Panic end
  | Err e => Err e
  | Panic => Panic
  end.

Lemma of_cbor_map m : of_cbor (CMap m) =
  match collect_res pair_conv m with Ok l => Ok (VMap (bt_extend [] l)) | Err e => Err e | Panic => Panic end.
Proof. reflexivity. Qed.

(** A conversion succeeds with sorted maps or is a [ValueError]. *)
Lemma of_cbor_spec c :
  (exists v, of_cbor c = Ok v /\ keys_sorted v) \/ (exists m, of_cbor c = Err (EValueError m)).
Proof.
  induction c using cbor_ind'; try (left; eexists; split; [reflexivity|cbn; auto; fail]);
    try (right; eexists; reflexivity).
  - cbn [of_cbor]. assert (N : collect_res of_cbor l <> Panic).
    { apply collect_panic. eapply Forall_impl; [|exact H]. intros a [(v & -> & _)|(m & ->)]; discriminate. }
    destruct (collect_res of_cbor l) as [ys|e|] eqn:E; [|right|congruence].
    + left. eexists; split; [reflexivity|]. apply keys_sorted_array. apply collect_ok in E.
      induction E as [|x y l ys Hx E IH]; auto. inversion H; subst. constructor; [|apply IH; auto; discriminate].
      destruct H2 as [(v & E1 & K)|(m & E1)]; congruence.
    + apply collect_err in E. destruct E as (pre & x & post & -> & F & Hx).
      rewrite Forall_forall in H. destruct (H x) as [(v & E1 & K)|(m & E1)]; [apply in_elt|congruence|].
      exists m. congruence.
  - rewrite of_cbor_map.
    assert (Hp : Forall (fun p => (exists q, pair_conv p = Ok q /\ keys_sorted (fst q) /\ keys_sorted (snd q)) \/
        exists t, pair_conv p = Err (EValueError t)) m).
    { eapply Forall_impl; [|exact H]. intros [k v] [Hk Hv]; unfold pair_conv; cbn in *.
      destruct Hk as [(k' & -> & Kk)|(t & ->)]; [|eauto].
      destruct Hv as [(v' & -> & Kv)|(t & ->)]; [|eauto].
      left. exists (k', v'); auto. }
    assert (N : collect_res pair_conv m <> Panic).
    { apply collect_panic. eapply Forall_impl; [|exact Hp]. intros a [(v & -> & _)|(t & ->)]; discriminate. }
    destruct (collect_res pair_conv m) as [ys|e|] eqn:E; [|right|congruence].
    + left. eexists; split; [reflexivity|]. apply keys_sorted_map. split.
      * apply bt_extend_forall; auto; [|cbn; tauto]. apply collect_ok in E.
        clear H N. induction E as [|x y l ys Hx E IH]; auto. inversion Hp; subst. constructor; auto.
        destruct H1 as [(q & E1 & K)|(t & E1)]; congruence.
      * apply bt_extend_sorted. apply sorted_nil.
    + apply collect_err in E. destruct E as (pre & x & post & -> & F & Hx).
      rewrite Forall_forall in Hp. destruct (Hp x) as [(v & E1 & K)|(t & E1)]; [apply in_elt|congruence|].
      exists t. congruence.
Qed.
