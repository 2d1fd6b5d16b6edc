(** Proofs for scalar types (properties C01-C08). *)
From Coq Require Import List Bool ZArith NArith Lia String.
From Verif Require Import Base Util Data Value Convert Ivt Scalar Validate Fun ValueOrder
  SpecBase SpecScalar FloatProofs.
Import ListNotations.

Section Proofs.
Variable X : ext.
Variable lk : lookup_context.
Notation val := (val X lk).

Lemma literal_decides l v c : decides (lit_is l v) (val v (NLiteral l) c).
Proof.
  rewrite val_eq. unfold validate_literal.
  destruct (veqb v (value_of_literal l)) eqn:E.
  - apply veqb_eq in E. subst v. constructor. destruct l; constructor.
  - apply veqb_neq in E. constructor. intros H. apply E. destruct H; reflexivity.
Qed.

Lemma prelude_decides p v c : decides (in_prelude p v) (val v (NPrelude p) c).
Proof.
  rewrite val_eq. unfold validate_prelude_type.
  destruct p, v; try (constructor; constructor);
    try (constructor; intros H; inversion H; fail).
  - destruct (Z.leb_spec 0 z); constructor; [constructor; auto|intros H'; inversion H'; lia].
  - destruct (Z.ltb_spec z 0); constructor; [constructor; auto|intros H'; inversion H'; lia].
Qed.

(** * Following names *)

Lemma chase_named {R} (f : node -> res R) c nd nd' c' :
  named lk c nd nd' c' -> chase X lk f nd c = f nd'.
Proof.
  induction 1 as [c nd H|c name args nd1 c1 nd2 c2 L N IH]; rewrite chase_eq.
  - destruct nd; auto. exfalso; eapply H; reflexivity.
  - rewrite L. cbn. exact IH.
Qed.

Lemma deref_named c nd nd' c' :
  named lk c nd nd' c' ->
  deref X lk nd c = match nd' with
                    | NLiteral l => Ok l
                    | _ => Err (EStructural (txt "confusing type on range operator"))
                    end.
Proof.
  induction 1 as [c nd H|c name args nd1 c1 nd2 c2 L N IH]; rewrite deref_eq.
  - destruct nd; auto. exfalso; eapply H; reflexivity.
  - rewrite L. cbn. exact IH.
Qed.

(** * Ranges *)

Lemma range_named s e incl ls le v c cs ce :
  named lk c s (NLiteral ls) cs -> named lk c e (NLiteral le) ce ->
  val v (NRange s e incl) c = range_compare (show_range X s e incl) ls le incl v.
Proof.
  intros Hs He. rewrite val_eq, (deref_named _ _ _ _ Hs), (deref_named _ _ _ _ He). reflexivity.
Qed.

Lemma int_range_decides s e incl a b v c cs ce :
  named lk c s (NLiteral (LInt a)) cs -> named lk c e (NLiteral (LInt b)) ce ->
  decides (in_int_range a b incl v) (val v (NRange s e incl) c).
Proof.
  intros Hs He. rewrite (range_named _ _ _ _ _ _ _ _ _ Hs He). unfold in_int_range.
  destruct v; cbn; try (constructor; intros (x & E & _); discriminate).
  unfold check_range.
  destruct (Z.ltb_spec z a).
  - constructor. intros (x & [= ->] & ? & ?). lia.
  - destruct incl.
    + destruct (Z.leb_spec z b); constructor; [eauto|]. intros (x & [= ->] & ? & ?). lia.
    + destruct (Z.ltb_spec z b); constructor; [eauto|]. intros (x & [= ->] & ? & ?). lia.
Qed.

Lemma float_range_decides s e incl a b v c cs ce :
  named lk c s (NLiteral (LFloat a)) cs -> named lk c e (NLiteral (LFloat b)) ce ->
  decides (in_float_range a b incl v) (val v (NRange s e incl) c).
Proof.
  intros Hs He. rewrite (range_named _ _ _ _ _ _ _ _ _ Hs He). unfold in_float_range.
  destruct v; cbn [range_compare literal_discriminant N.eqb Pos.eqb mismatch]; try (constructor; intros (x & E & _); discriminate).
  unfold check_range.
  destruct (f64_lt bits a) eqn:L.
  - apply f64_lt_ieee in L; auto. constructor. intros (x & [= ->] & H & _). auto.
  - assert (~ ieee_lt bits a) as NL by (rewrite <- f64_lt_ieee by auto; congruence).
    destruct incl.
    + destruct (f64_le bits b) eqn:L2.
      * apply f64_le_ieee in L2; auto. constructor. eauto.
      * constructor. intros (x & [= ->] & _ & H). rewrite <- f64_le_ieee in H by auto. congruence.
    + destruct (f64_lt bits b) eqn:L2.
      * apply f64_lt_ieee in L2; auto. constructor. eauto.
      * constructor. intros (x & [= ->] & _ & H). rewrite <- f64_lt_ieee in H by auto. congruence.
Qed.

Lemma range_kinds s e incl ls le v c cs ce :
  named lk c s (NLiteral ls) cs -> named lk c e (NLiteral le) ce ->
  ~ same_kind ls le -> is_structural (val v (NRange s e incl) c).
Proof.
  intros Hs He K. rewrite (range_named _ _ _ _ _ _ _ _ _ Hs He).
  destruct ls, le; try (exfalso; apply K; constructor); cbn; eexists; reflexivity.
Qed.

(** Ranges whose endpoints are of one kind other than numbers accept nothing. *)
Lemma range_no_number s e incl ls le v c cs ce :
  named lk c s (NLiteral ls) cs -> named lk c e (NLiteral le) ce ->
  same_kind ls le -> (forall a, ls <> LInt a) -> (forall a, ls <> LFloat a) ->
  rejected (val v (NRange s e incl) c).
Proof.
  intros Hs He K NI NF. rewrite (range_named _ _ _ _ _ _ _ _ _ Hs He).
  destruct K; try (exfalso; eapply NI; reflexivity); try (exfalso; eapply NF; reflexivity);
    cbn; eexists; reflexivity.
Qed.

(** * Comparison controls *)

Definition limit_fun op := match op with
  | OpLt => cmp_limit X (txt "lt") | OpLe => cmp_limit X (txt "le")
  | OpGt => cmp_limit X (txt "gt") | OpGe => cmp_limit X (txt "ge") end.
Definition target_fun op := match op with
  | OpLt => lt_target X | OpLe => le_target X | OpGt => gt_target X | OpGe => ge_target X end.

Lemma cmp_control_val op t l v c :
  val v (NControl (cmp_control op t l)) c =
  bind_res (chase X lk (limit_fun op) l c) (fun n => chase X lk (target_fun op n v) t c).
Proof. rewrite val_eq. destruct op; reflexivity. Qed.

Lemma cmp_decides op t l p n v c ct cl :
  named lk c l (NLiteral (LInt n)) cl -> named lk c t (NPrelude p) ct ->
  p = PInt \/ p = PUint \/ p = PNint ->
  decides (in_prelude p v /\ exists z, v = VInteger z /\ cmp_holds op z n)
    (val v (NControl (cmp_control op t l)) c).
Proof.
  intros Hl Ht Hp. rewrite cmp_control_val, (chase_named _ _ _ _ _ Hl).
  assert (limit_fun op (NLiteral (LInt n)) = Ok n) as -> by (destruct op; reflexivity).
  cbn. rewrite (chase_named _ _ _ _ _ Ht).
  assert (D : forall P z, (P <-> in_prelude p (VInteger z) /\ cmp_holds op z n) ->
    decides P (target_fun op n (VInteger z) (NPrelude p)) ->
    decides (in_prelude p (VInteger z) /\ exists z', VInteger z = VInteger z' /\ cmp_holds op z' n)
     (target_fun op n (VInteger z) (NPrelude p))).
  { intros P z E H. destruct H as [H|m H]; constructor.
    - apply E in H. destruct H; eauto.
    - intros [H1 (z' & [= <-] & H2)]. apply H, E. auto. }
  destruct v;
    try (destruct Hp as [->|[->| ->]]; destruct op; cbn; constructor; intros [_ (z' & E & _)]; discriminate).
  eapply D; [reflexivity|].
  destruct Hp as [->|[->| ->]]; destruct op; cbn;
    repeat match goal with
           | |- context [(?a <? ?b)%Z] => destruct (Z.ltb_spec a b)
           | |- context [(?a <=? ?b)%Z] => destruct (Z.leb_spec a b)
           end; constructor;
    try (split; [constructor|]; auto; lia);
    intros [H1 H2]; inversion H1; subst; lia.
Qed.

Lemma cmp_bad_limit op t l nd v c cl :
  named lk c l nd cl -> (forall n, nd <> NLiteral (LInt n)) ->
  is_structural (val v (NControl (cmp_control op t l)) c).
Proof.
  intros Hl H. rewrite cmp_control_val, (chase_named _ _ _ _ _ Hl).
  assert (exists m, limit_fun op nd = Err (EStructural m)) as (m & ->).
  { destruct op; cbn; destruct nd; try (eexists; reflexivity);
      destruct l0; try (eexists; reflexivity); exfalso; eapply H; reflexivity. }
  exists m. reflexivity.
Qed.

Lemma cmp_bad_target op t l n nd v c cl ct :
  named lk c l (NLiteral (LInt n)) cl -> named lk c t nd ct ->
  nd <> NPrelude PInt -> nd <> NPrelude PUint -> nd <> NPrelude PNint ->
  is_structural (val v (NControl (cmp_control op t l)) c).
Proof.
  intros Hl Ht H1 H2 H3. rewrite cmp_control_val, (chase_named _ _ _ _ _ Hl).
  assert (limit_fun op (NLiteral (LInt n)) = Ok n) as -> by (destruct op; reflexivity).
  cbn. rewrite (chase_named _ _ _ _ _ Ht).
  destruct op; cbn; destruct nd; try (eexists; reflexivity);
    destruct p; try (eexists; reflexivity); congruence.
Qed.

(** * .size *)

Lemma to_u64_ok a : (0 <= a < 2 ^ 64)%Z -> to_u64 a = Some (Z.to_N a).
Proof.
  intros [H1 H2]. unfold to_u64.
  destruct (Z.leb_spec 0 a), (Z.leb_spec a 18446744073709551615); cbn; auto; lia.
Qed.
Lemma to_u64_bad a : ~ (0 <= a < 2 ^ 64)%Z -> to_u64 a = None.
Proof.
  intros H. unfold to_u64.
  destruct (Z.leb_spec 0 a), (Z.leb_spec a 18446744073709551615); cbn; auto.
  exfalso. apply H. lia.
Qed.

(** The normal form of the size argument. *)
Lemma size_val_lit t s n v c ct cs nd :
  named lk c s (NLiteral (LInt n)) cs -> (0 <= n < 2 ^ 64)%Z -> named lk c t nd ct ->
  val v (NControl (CtlSize t s)) c = size_target X (NLiteral (LInt n), NLiteral (LInt n), true) v nd.
Proof.
  intros Hs Hn Ht. rewrite val_eq. cbn [control_val].
  rewrite (chase_named _ _ _ _ _ Hs). unfold normalize_size_range. rewrite to_u64_ok by auto.
  cbn [bind_res]. apply (chase_named _ _ _ _ _ Ht).
Qed.
Lemma size_val_range t s a b incl v c ct cs nd :
  named lk c s (NRange (NLiteral (LInt a)) (NLiteral (LInt b)) incl) cs ->
  (0 <= a < 2 ^ 64)%Z -> (0 <= b < 2 ^ 64)%Z -> named lk c t nd ct ->
  val v (NControl (CtlSize t s)) c = size_target X (NLiteral (LInt a), NLiteral (LInt b), incl) v nd.
Proof.
  intros Hs Ha Hb Ht. rewrite val_eq. cbn [control_val].
  rewrite (chase_named _ _ _ _ _ Hs). unfold normalize_size_range. rewrite !to_u64_ok by auto.
  cbn [bind_res]. apply (chase_named _ _ _ _ _ Ht).
Qed.

Lemma size_bounds_val ty a b incl :
  (0 <= a < 2 ^ 64)%Z -> (0 <= b < 2 ^ 64)%Z ->
  size_bounds ty (NLiteral (LInt a), NLiteral (LInt b), incl) =
  if (b <? a)%Z || ((a =? b)%Z && negb incl)
  then Err (mismatch (ty ++ txt " over .size limit")) else Ok (Z.to_N a, Z.to_N b, incl).
Proof.
  intros Ha Hb. unfold size_bounds. rewrite !to_u64_ok by auto.
  replace (N.ltb (Z.to_N b) (Z.to_N a)) with (b <? a)%Z.
  - replace (N.eqb (Z.to_N a) (Z.to_N b)) with (a =? b)%Z; auto.
    destruct (Z.eqb_spec a b), (N.eqb_spec (Z.to_N a) (Z.to_N b)); auto; lia.
  - destruct (Z.ltb_spec b a), (N.ltb_spec (Z.to_N b) (Z.to_N a)); auto; lia.
Qed.

Lemma pow256 k : (0 <= k)%Z -> (256 ^ k = 2 ^ (8 * k))%Z.
Proof. intros H. change 256%Z with (2 ^ 8)%Z. rewrite <- Z.pow_mul_r by lia. reflexivity. Qed.

Lemma needed_min x : (0 <= x)%Z ->
  min_bytes x (Z.of_N (if (x =? 0)%Z then 0%N else div_ceil8 (bit_length (Z.to_N x)))).
Proof.
  intros Hx. destruct (Z.eqb_spec x 0) as [->|Nx].
  - split; [cbn; lia|]. split; [cbn; lia|]. intros. cbn. lia.
  - unfold div_ceil8, bit_length. set (n := Z.to_N x). set (s := N.size n).
    assert (Hn : x = Z.of_N n) by (unfold n; lia). assert (0 < n)%N by lia.
    pose proof (N.size_gt n) as G. pose proof (N.size_le n) as L. fold s in G, L.
    assert (Hs : (0 < s)%N).
    { destruct (N.eq_0_gt_0_cases s) as [E|]; auto. rewrite E in G. change (2 ^ 0)%N with 1%N in G. lia. }
    set (k := ((s + 7) / 8)%N).
    assert (K1 : (s <= 8 * k)%N).
    { unfold k. pose proof (N.div_mod (s + 7) 8 ltac:(discriminate)).
      pose proof (N.mod_lt (s + 7) 8 ltac:(discriminate)). lia. }
    assert (K2 : (8 * k < s + 8)%N).
    { unfold k. pose proof (N.mul_div_le (s + 7) 8 ltac:(discriminate)). lia. }
    assert (G' : (x < 2 ^ Z.of_N s)%Z).
    { rewrite Hn. change 2%Z with (Z.of_N 2). rewrite <- N2Z.inj_pow. lia. }
    assert (L' : (2 ^ (Z.of_N s - 1) <= x)%Z).
    { assert (2 ^ Z.of_N s <= 2 * x + 1)%Z.
      { rewrite Hn. change 2%Z with (Z.of_N 2) at 1. rewrite <- N2Z.inj_pow. rewrite N.succ_double_spec in L. lia. }
      assert (2 ^ Z.of_N s = 2 * 2 ^ (Z.of_N s - 1))%Z.
      { rewrite <- Z.pow_succ_r by lia. f_equal. lia. }
      lia. }
    split; [lia|]. split.
    + split; [lia|]. rewrite pow256 by lia. eapply Z.lt_le_trans; [exact G'|].
      apply Z.pow_le_mono_r; lia.
    + intros j Hj HL. rewrite pow256 in HL by auto.
      assert (2 ^ (Z.of_N s - 1) < 2 ^ (8 * j))%Z as HH by lia.
      apply Z.pow_lt_mono_r_iff in HH; lia.
Qed.

Lemma min_bytes_unique x k k' : min_bytes x k -> min_bytes x k' -> k = k'.
Proof.
  intros (H1 & [H2 H2'] & H3) (H4 & [H5 H5'] & H6).
  apply Z.le_antisymm; auto.
Qed.

Lemma size_uint_lit_decides t s n v c ct cs :
  named lk c s (NLiteral (LInt n)) cs -> (0 <= n < 2 ^ 64)%Z -> named lk c t (NPrelude PUint) ct ->
  wf_value v ->
  decides (exists x, v = VInteger x /\ 0 <= x < 256 ^ n)%Z (val v (NControl (CtlSize t s)) c).
Proof.
  intros Hs Hn Ht Hv. rewrite (size_val_lit _ _ _ _ _ _ _ _ Hs Hn Ht).
  cbn [size_target]. unfold validate_size_uint. rewrite size_bounds_val by auto.
  rewrite Z.ltb_irrefl, Z.eqb_refl. cbn [orb andb negb].
  rewrite N.eqb_refl. cbn [andb].
  destruct v; try (constructor; intros (x & E & _); discriminate).
  destruct (Z.ltb_spec z 0).
  { constructor. intros (x & [= ->] & ? & ?). lia. }
  destruct (N.leb_spec 16 (Z.to_N n)).
  - constructor. exists z. split; auto. split; [lia|]. cbn in Hv.
    eapply Z.lt_le_trans; [apply Hv|]. rewrite pow256 by lia. change (2 ^ 127 <= 2 ^ (8 * n))%Z. apply Z.pow_le_mono_r; lia.
  - unfold shl_i128_one. destruct (N.ltb_spec (Z.to_N n * 8) 127); [|lia].
    rewrite Z.shiftl_1_l.
    replace (2 ^ Z.of_N (Z.to_N n * 8))%Z with (256 ^ n)%Z
      by (rewrite pow256 by lia; f_equal; lia).
    destruct (Z.ltb_spec z (256 ^ n)); constructor.
    + exists z. split; [auto|lia].
    + intros (x & [= ->] & ? & ?). lia.
Qed.

Lemma size_uint_range_decides t s a b incl v c ct cs :
  named lk c s (NRange (NLiteral (LInt a)) (NLiteral (LInt b)) incl) cs ->
  (0 <= a < b)%Z -> (b < 2 ^ 64)%Z -> named lk c t (NPrelude PUint) ct ->
  decides (exists x k, v = VInteger x /\ min_bytes x k /\ between a b incl k)
    (val v (NControl (CtlSize t s)) c).
Proof.
  intros Hs Ha Hb Ht. rewrite (size_val_range _ _ _ _ _ _ _ _ _ _ Hs ltac:(lia) ltac:(lia) Ht).
  cbn [size_target]. unfold validate_size_uint. rewrite size_bounds_val by lia.
  destruct (Z.ltb_spec b a); [lia|]. destruct (Z.eqb_spec a b); [lia|]. cbn [orb andb].
  destruct (N.eqb_spec (Z.to_N a) (Z.to_N b)); [lia|]. cbn [andb].
  destruct v; try (constructor; intros (x & k & E & _); discriminate).
  destruct (Z.ltb_spec z 0).
  { constructor. intros (x & k & [= ->] & (_ & ? & _) & _). lia. }
  pose proof (needed_min z ltac:(lia)) as M.
  set (needed := if (z =? 0)%Z then 0%N else div_ceil8 (bit_length (Z.to_N z))) in *.
  assert (D : forall P : Prop, (P <-> between a b incl (Z.of_N needed)) -> forall r, decides P r ->
     decides (exists x k, VInteger z = VInteger x /\ min_bytes x k /\ between a b incl k) r).
  { intros P HP r [Hy|m Hn]; constructor.
    - apply HP in Hy. eauto.
    - intros (x & k & [= <-] & Hk & B). apply Hn, HP.
      rewrite (min_bytes_unique _ _ _ M Hk). auto. }
  eapply D; [reflexivity|]. unfold between.
  destruct (N.ltb_spec needed (Z.to_N a)); [constructor; lia|].
  destruct incl.
  - destruct (N.leb_spec needed (Z.to_N b)); constructor; lia.
  - destruct (N.ltb_spec needed (Z.to_N b)); constructor; lia.
Qed.

Lemma utf8_len_encode t : Z.of_N (utf8_len t) = Z.of_nat (List.length (utf8_encode t)).
Proof.
  induction t as [|c t IH]; auto. cbn [utf8_len utf8_encode flat_map].
  rewrite app_length. fold (utf8_encode t).
  assert (Z.of_N (utf8_len1 c) = Z.of_nat (List.length (utf8_encode1 c))) as E.
  { unfold utf8_len1, utf8_encode1. destruct (N.ltb c 0x80); auto.
    destruct (N.ltb c 0x800); auto. destruct (N.ltb c 0x10000); auto. }
  lia.
Qed.

Definition size_prelude_string (p : prelude) : Prop := p = PTstr \/ p = PBstr.

Lemma size_string_bounds p a b incl v :
  size_prelude_string p -> (0 <= a < 2 ^ 64)%Z -> (0 <= b < 2 ^ 64)%Z ->
  decides (in_prelude p v /\ exists k, byte_length v k /\ between a b incl k)
    (size_target X (NLiteral (LInt a), NLiteral (LInt b), incl) v (NPrelude p)).
Proof.
  intros Hp Ha Hb.
  assert (S : size_target X (NLiteral (LInt a), NLiteral (LInt b), incl) v (NPrelude p) =
    match p with PTstr => validate_size_tstr (NLiteral (LInt a), NLiteral (LInt b), incl) v
    | _ => validate_size_bstr (NLiteral (LInt a), NLiteral (LInt b), incl) v end).
  { destruct Hp as [-> | ->]; reflexivity. }
  rewrite S. clear S. unfold validate_size_tstr, validate_size_bstr. rewrite !size_bounds_val by auto.
  destruct ((b <? a)%Z || ((a =? b)%Z && negb incl)) eqn:E.
  { assert (N : forall k, ~ between a b incl k).
    { intros k B. unfold between in B. destruct incl; cbn in E;
        destruct (Z.ltb_spec b a), (Z.eqb_spec a b); cbn in E; try congruence; lia. }
    destruct p; constructor; intros [_ (k & _ & B)]; eapply N; eauto. }
  assert (D : forall (k : N) under over,
     byte_length v (Z.of_N k) -> in_prelude p v ->
     decides (in_prelude p v /\ exists k, byte_length v k /\ between a b incl k)
      (if N.ltb k (Z.to_N a) then Err (mismatch under)
       else if negb (if incl then N.leb k (Z.to_N b) else N.ltb k (Z.to_N b))
       then Err (mismatch over) else Ok tt)).
  { intros k under over HL HP.
    assert (U : forall k', byte_length v k' -> k' = Z.of_N k).
    { intros k' H'. inversion H'; subst; inversion HL; subst; auto. }
    assert (DD : forall r, decides (between a b incl (Z.of_N k)) r ->
      decides (in_prelude p v /\ exists k, byte_length v k /\ between a b incl k) r).
    { intros r [Hy|m Hn]; constructor; eauto. intros [_ (k' & H' & B)]. apply U in H'. subst k'. auto. }
    apply DD. unfold between.
    destruct (N.ltb_spec k (Z.to_N a)); [constructor; lia|].
    destruct incl.
    - destruct (N.leb_spec k (Z.to_N b)); cbn [negb]; constructor; lia.
    - destruct (N.ltb_spec k (Z.to_N b)); cbn [negb]; constructor; lia. }
  destruct Hp as [-> | ->]; destruct v; try (constructor; intros [H _]; inversion H; fail).
  - apply D; [|constructor]. rewrite utf8_len_encode. constructor.
  - apply D; [|constructor]. rewrite nat_N_Z. constructor.
Qed.

Lemma size_string_lit_decides t s n p v c ct cs :
  named lk c s (NLiteral (LInt n)) cs -> (0 <= n < 2 ^ 64)%Z -> named lk c t (NPrelude p) ct ->
  size_prelude_string p ->
  decides (in_prelude p v /\ byte_length v n) (val v (NControl (CtlSize t s)) c).
Proof.
  intros Hs Hn Ht Hp. rewrite (size_val_lit _ _ _ _ _ _ _ _ Hs Hn Ht).
  destruct (size_string_bounds p n n true v Hp Hn Hn) as [[H1 (k & H2 & H3)]|m H]; constructor.
  - unfold between in H3. replace n with k by lia. auto.
  - intros [H1 H2]. apply H. split; auto. exists n. split; auto. unfold between. lia.
Qed.

Lemma size_string_range_decides t s a b incl p v c ct cs :
  named lk c s (NRange (NLiteral (LInt a)) (NLiteral (LInt b)) incl) cs ->
  (0 <= a < 2 ^ 64)%Z -> (0 <= b < 2 ^ 64)%Z -> named lk c t (NPrelude p) ct ->
  size_prelude_string p ->
  decides (in_prelude p v /\ exists k, byte_length v k /\ between a b incl k)
   (val v (NControl (CtlSize t s)) c).
Proof.
  intros Hs Ha Hb Ht Hp. rewrite (size_val_range _ _ _ _ _ _ _ _ _ _ Hs Ha Hb Ht).
  apply size_string_bounds; auto.
Qed.

(** Inadmissible limits. *)
Lemma size_bad_lit t s n v c cs :
  named lk c s (NLiteral (LInt n)) cs -> ~ (0 <= n < 2 ^ 64)%Z ->
  is_structural (val v (NControl (CtlSize t s)) c).
Proof.
  intros Hs Hn. rewrite val_eq. cbn [control_val]. rewrite (chase_named _ _ _ _ _ Hs).
  unfold normalize_size_range. rewrite to_u64_bad by auto. eexists; reflexivity.
Qed.
Lemma size_bad_range t s a b incl v c cs :
  named lk c s (NRange (NLiteral (LInt a)) (NLiteral (LInt b)) incl) cs ->
  ~ (0 <= a < 2 ^ 64)%Z \/ ~ (0 <= b < 2 ^ 64)%Z ->
  is_structural (val v (NControl (CtlSize t s)) c).
Proof.
  intros Hs H. rewrite val_eq. cbn [control_val]. rewrite (chase_named _ _ _ _ _ Hs).
  unfold normalize_size_range.
  destruct (to_u64 a) eqn:Ea; [|eexists; reflexivity].
  destruct (to_u64 b) eqn:Eb; [|eexists; reflexivity].
  exfalso. destruct H as [H|H]; apply to_u64_bad in H; congruence.
Qed.
Lemma size_bad_arg t s nd v c cs :
  named lk c s nd cs ->
  (forall n, nd <> NLiteral (LInt n)) ->
  (forall a b incl, nd <> NRange (NLiteral (LInt a)) (NLiteral (LInt b)) incl) ->
  is_structural (val v (NControl (CtlSize t s)) c).
Proof.
  intros Hs H1 H2. rewrite val_eq. cbn [control_val]. rewrite (chase_named _ _ _ _ _ Hs).
  unfold normalize_size_range.
  destruct nd; try (eexists; reflexivity).
  - destruct l; try (eexists; reflexivity). exfalso; eapply H1; reflexivity.
  - destruct nd1; try (eexists; reflexivity). destruct l; try (eexists; reflexivity).
    destruct nd2; try (eexists; reflexivity). destruct l; try (eexists; reflexivity).
    exfalso; eapply H2; reflexivity.
Qed.
Lemma size_bad_target t s n nd v c cs ct :
  named lk c s (NLiteral (LInt n)) cs -> (0 <= n < 2 ^ 64)%Z -> named lk c t nd ct ->
  nd <> NPrelude PUint -> nd <> NPrelude PTstr -> nd <> NPrelude PBstr ->
  is_structural (val v (NControl (CtlSize t s)) c).
Proof.
  intros Hs Hn Ht H1 H2 H3. rewrite (size_val_lit _ _ _ _ _ _ _ _ Hs Hn Ht).
  destruct nd; try (eexists; reflexivity). destruct p; try (eexists; reflexivity); congruence.
Qed.

(** An empty or degenerate range. *)
Lemma size_uint_point_range t s a v c ct cs :
  named lk c s (NRange (NLiteral (LInt a)) (NLiteral (LInt a)) true) cs ->
  (0 <= a < 2 ^ 64)%Z -> named lk c t (NPrelude PUint) ct ->
  val v (NControl (CtlSize t s)) c = val v (NControl (CtlSize t (NLiteral (LInt a)))) c.
Proof.
  intros Hs Ha Ht. rewrite (size_val_range _ _ _ _ _ _ _ _ _ _ Hs Ha Ha Ht).
  symmetry. eapply size_val_lit; eauto. constructor. congruence.
Qed.
Lemma size_empty_range t s a b incl v c ct cs p :
  named lk c s (NRange (NLiteral (LInt a)) (NLiteral (LInt b)) incl) cs ->
  (0 <= a < 2 ^ 64)%Z -> (0 <= b < 2 ^ 64)%Z -> named lk c t (NPrelude p) ct ->
  p = PUint \/ p = PTstr \/ p = PBstr -> (forall k, ~ between a b incl k) ->
  rejected (val v (NControl (CtlSize t s)) c).
Proof.
  intros Hs Ha Hb Ht Hp E. rewrite (size_val_range _ _ _ _ _ _ _ _ _ _ Hs Ha Hb Ht).
  assert ((b <? a)%Z || ((a =? b)%Z && negb incl) = true) as EE.
  { destruct (Z.ltb_spec b a); auto. destruct (Z.eqb_spec a b), incl; cbn; auto; exfalso;
      eapply (E a); unfold between; lia. }
  destruct Hp as [->|[->| ->]]; cbn [size_target];
    unfold validate_size_uint, validate_size_tstr, validate_size_bstr;
    rewrite size_bounds_val, EE by auto; eexists; reflexivity.
Qed.

(** * .regexp and .cbor *)

Lemma regexp_decides re v c :
  decides (exists t, v = VText t /\ regex_match X re t = true) (val v (NControl (CtlRegexp re)) c).
Proof.
  rewrite val_eq. cbn. unfold validate_control_regexp.
  destruct v; try (constructor; intros (x & E & _); discriminate).
  destruct (regex_match X re t) eqn:E; constructor; eauto.
  intros (x & [= <-] & H). congruence.
Qed.

Lemma cbor_control_val nd v c :
  val v (NControl (CtlCbor nd)) c =
  match v with
  | VBytes b =>
      match cbor_decode X b with
      | inl cv => match of_cbor cv with Ok x => val x nd c | Err e => Err e | Panic => Panic end
      | inr msg => Err (EValueError msg)
      end
  | _ => Err (EMismatch (txt "Bytes"))
  end.
Proof. rewrite val_eq. reflexivity. Qed.
End Proofs.
