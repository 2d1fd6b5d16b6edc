(** The validator never panics and never returns the internal cut signal. *)
From Coq Require Import List Bool ZArith NArith String Lia Arith.
From Verif Require Import Base Util Data Value Convert Ivt Scalar Validate Unfold Mono ValueOrder
  ArrayInv MapInv ConvertProofs.
Import ListNotations.

Section Good.
(** A property of errors that holds of those the validator creates itself. *)
Variable Good : verror -> Prop.
Hypothesis Good_mismatch : forall t, Good (EMismatch t).
Hypothesis Good_structural : forall t, Good (EStructural t).
Hypothesis Good_unsupported : forall t, Good (EUnsupported t).
Hypothesis Good_value : forall t, Good (EValueError t).

Definition clean {A} (r : res A) : Prop := r <> Panic /\ forall e, r = Err e -> Good e.

Lemma clean_ok {A} (a : A) : clean (Ok a).
Proof. split; discriminate. Qed.
Lemma clean_err {A} (e : verror) : Good e -> clean (A := A) (Err e).
Proof. split; [discriminate|]. intros e' [= <-]. auto. Qed.
Lemma clean_mismatch {A} t : clean (A := A) (Err (mismatch t)).
Proof. apply clean_err, Good_mismatch. Qed.
Lemma clean_structural {A} t : clean (A := A) (Err (EStructural t)).
Proof. apply clean_err, Good_structural. Qed.
Lemma clean_unsupported {A} t : clean (A := A) (Err (EUnsupported t)).
Proof. apply clean_err, Good_unsupported. Qed.
Lemma clean_value {A} t : clean (A := A) (Err (EValueError t)).
Proof. apply clean_err, Good_value. Qed.
Hint Resolve clean_ok clean_mismatch clean_structural clean_unsupported clean_value : clean.

Ltac break := repeat match goal with
  | |- clean (match ?x with _ => _ end) => destruct x
  | |- clean (if ?x then _ else _) => destruct x
  end; auto with clean.

Section Scalars.
Variable X : ext.
Lemma clean_literal l v : clean (validate_literal X l v).
Proof. unfold validate_literal; break. Qed.
Lemma clean_prelude p v : clean (validate_prelude_type p v).
Proof. destruct p, v; cbn; break. Qed.
Lemma clean_range t a b i v : clean (range_compare t a b i v).
Proof. destruct a, b, v; cbn; break. Qed.
Lemma clean_normalize n : clean (normalize_size_range X n).
Proof. unfold normalize_size_range, bad_limit; break. Qed.
Lemma clean_bounds t r : clean (size_bounds t r).
Proof. destruct r as [[a b] i]; unfold size_bounds, bad_limit; break. Qed.
Lemma clean_size_uint r v : clean (validate_size_uint r v).
Proof.
  unfold validate_size_uint. destruct (size_bounds (txt "uint") r) as [[[s e] i]|er|] eqn:B.
  - destruct v; auto with clean. destruct (z <? 0)%Z; auto with clean.
    destruct (N.eqb s e && i).
    + destruct (N.leb_spec 16 e); auto with clean. unfold shl_i128_one.
      assert ((e * 8 <? 127)%N = true) as -> by (apply N.ltb_lt; lia). break.
    + cbn zeta. break.
  - pose proof (clean_bounds (txt "uint") r) as Cl. rewrite B in Cl. destruct Cl as [H1 H2].
    apply clean_err; auto.
  - pose proof (clean_bounds (txt "uint") r) as Cl. rewrite B in Cl. destruct Cl; congruence.
Qed.
Lemma clean_size_string t r v :
  clean (validate_size_tstr r v) /\ clean (validate_size_bstr r v) /\ clean (size_bounds t r).
Proof.
  split; [|split].
  - unfold validate_size_tstr. pose proof (clean_bounds (txt "tstr") r) as Cl.
    destruct (size_bounds (txt "tstr") r) as [[[s e] i]|er|]; [destruct v; cbn zeta; break| |];
      destruct Cl as [H1 H2]; [|congruence].
    apply clean_err; auto.
  - unfold validate_size_bstr. pose proof (clean_bounds (txt "bstr") r) as Cl.
    destruct (size_bounds (txt "bstr") r) as [[[s e] i]|er|]; [destruct v; cbn zeta; break| |];
      destruct Cl as [H1 H2]; [|congruence].
    apply clean_err; auto.
  - apply clean_bounds.
Qed.
Lemma clean_size_target r v n : clean (size_target X r v n).
Proof.
  unfold size_target. destruct n; auto with clean. destruct p; auto with clean.
  - apply clean_size_uint. - apply (clean_size_string []). - apply (clean_size_string []).
Qed.
Lemma clean_cmp_limit t n : clean (cmp_limit X t n).
Proof. unfold cmp_limit; break. Qed.
Lemma clean_lt z v n : clean (lt_target X z v n).
Proof. unfold lt_target, validate_lt_uint, validate_lt_nint, validate_lt_int; break. Qed.
Lemma clean_le z v n : clean (le_target X z v n).
Proof. unfold le_target, validate_le_uint, validate_le_nint, validate_le_int; break. Qed.
Lemma clean_gt z v n : clean (gt_target X z v n).
Proof. unfold gt_target, validate_gt_uint, validate_gt_nint, validate_gt_int; break. Qed.
Lemma clean_ge z v n : clean (ge_target X z v n).
Proof. unfold ge_target, validate_ge_uint, validate_ge_nint, validate_ge_int; break. Qed.
Lemma clean_regexp re v : clean (validate_control_regexp X re v).
Proof. unfold validate_control_regexp; break. Qed.
End Scalars.

Section NoPanic.
Variable X : ext.
Context {C : Type}.
Variable lookup : C -> text -> list node -> res (node * C).
Hypothesis look_clean : forall c name args, clean (lookup c name args).

Definition cleano {A} (o : option (res A)) : Prop := forall r, o = Some r -> clean r.
Lemma cleano_some {A} (r : res A) : clean r -> cleano (Some r).
Proof. intros H r' [= <-]; auto. Qed.
Lemma cleano_none {A} : cleano (A := A) None.
Proof. discriminate. Qed.

Lemma look_err c name args e : lookup c name args = Err e -> forall {A}, clean (A := A) (Err e).
Proof.
  intros E A. pose proof (look_clean c name args) as [_ H]. apply clean_err; eauto.
Qed.
Lemma look_panic c name args : lookup c name args <> Panic.
Proof. apply look_clean. Qed.

Ltac look c name args :=
  let E := fresh "Lk" in
  destruct (lookup c name args) as [[?nd' ?c']|?e|] eqn:E;
  [|apply look_err with (A := unit) in E|exfalso; exact (look_panic _ _ _ E)].

Lemma clean_deref n nd c : cleano (deref_range_rule lookup n nd c).
Proof.
  revert nd c; induction n as [|n IH]; intros nd c; cbn; [apply cleano_none|].
  destruct nd; try (apply cleano_some; auto with clean; fail).
  destruct (lookup c name args) as [[nd' c']|e|] eqn:E; auto.
  - apply cleano_some. eapply look_err; eauto.
  - exfalso; exact (look_panic _ _ _ E).
Qed.
Lemma clean_chase {T} (f : node -> res T) n nd c : (forall nd, clean (f nd)) -> cleano (chase_rules lookup n f nd c).
Proof.
  intros Hf; revert nd c; induction n as [|n IH]; intros nd c; cbn; [apply cleano_none|].
  destruct nd; try (apply cleano_some; auto; fail).
  destruct (lookup c name args) as [[nd' c']|e|] eqn:E; auto.
  - apply cleano_some. eapply look_err; eauto.
  - exfalso; exact (look_panic _ _ _ E).
Qed.
Lemma clean_obind {A B} (a : option (res A)) (f : A -> option (res B)) :
  cleano a -> (forall x, cleano (f x)) -> cleano (obind a f).
Proof.
  intros Ha Hf. destruct a as [[x|e|]|]; cbn; auto using cleano_none.
  - apply cleano_some. destruct (Ha _ eq_refl) as [_ H]. apply clean_err; eauto.
  - destruct (Ha _ eq_refl); congruence.
Qed.
Lemma clean_try_pure stop f os fin :
  (forall o, In o os -> cleano (f o)) -> Good fin -> cleano (try_loop_pure stop f os fin).
Proof.
  intros H Hf; induction os as [|o os IH]; cbn.
  - apply cleano_some, clean_err; auto.
  - pose proof (H o (or_introl eq_refl)) as Ho. destruct (f o) as [[u|e|]|].
    + apply cleano_some; auto with clean.
    + destruct (stop e); [exact Ho|]. apply IH. intros; apply H; right; auto.
    + exact Ho.
    + apply cleano_none.
Qed.

(** State loops under an invariant [I] and a result predicate [G]. *)
Section StateLoops.
Context {St : Type}.
Variable I : St -> Prop.
Variable G : res unit -> Prop.
Hypothesis G_ok : G (Ok tt).
Lemma seq_inv f ms s r s' :
  (forall m s r s', In m ms -> I s -> f m s = Some (r, s') -> G r /\ I s') ->
  I s -> seq_loop f ms s = Some (r, s') -> G r /\ I s'.
Proof.
  revert s; induction ms as [|m ms IH]; cbn; intros s H Hs E; [inversion E; subst; auto|].
  destruct (f m s) as [[[u|e|] s1]|] eqn:F; [|inversion E; subst..|discriminate];
    (destruct (H m s _ _ (or_introl eq_refl) Hs F)); auto.
  eapply IH; eauto 7.
Qed.
Lemma try_inv stop f os fin s r s' :
  (forall m s r s', In m os -> I s -> f m s = Some (r, s') -> G r /\ I s') ->
  G (Err fin) ->
  I s -> try_loop stop f os fin s = Some (r, s') -> G r /\ I s'.
Proof.
  revert s; induction os as [|m ms IH]; cbn; intros s H Hf Hs E; [inversion E; subst; auto|].
  destruct (f m s) as [[[u|e|] s1]|] eqn:F; [inversion E; subst| |inversion E; subst|discriminate];
    (destruct (H m s _ _ (or_introl eq_refl) Hs F)); auto.
  destruct (stop e); [inversion E; subst; auto|].
  eapply IH; eauto 7.
Qed.
Lemma occur_inv f n up count s r s' :
  (forall s r s', I s -> f s = Some (r, s') -> G r /\ I s') ->
  I s -> occur_loop n f up count s = Some (r, s') ->
  match r with Ok _ => True | Err e => G (Err e) | Panic => G Panic end /\ I s'.
Proof.
  intros H; revert count s; induction n as [|n IH]; cbn; intros count s Hs E; [discriminate|].
  destruct (f s) as [[[u|e|] s1]|] eqn:F; [| |inversion E; subst|discriminate];
    destruct (H s _ _ Hs F) as [H1 H2].
  - destruct (N.leb up (count + 1)); [inversion E; subst; auto|]. eauto.
  - destruct (is_mismatch e); inversion E; subst; auto.
  - auto.
Qed.
End StateLoops.

Definition arr_ok (w : warray) : Prop := Forall keys_sorted (wa_array w) /\ Forall (Forall keys_sorted) (wa_snaps w).
Definition ent_ok (p : entry) : Prop := keys_sorted (fst p) /\ keys_sorted (snd p).
Definition map_ok (w : wmap) : Prop :=
  sorted (wm_map w) /\ Forall ent_ok (wm_map w) /\ Forall (Forall ent_ok) (wm_snaps w).
Definition no_panic (r : res unit) : Prop :=
  r <> Panic /\ forall e, r = Err e -> Good e \/ exists m, e = EMapCut m.
Lemma np_clean r : clean r -> no_panic r.
Proof. intros [H1 H2]; split; auto. Qed.
Hint Resolve np_clean : clean.

Lemma arr_step_ok n m w r w' c :
  validate_array_member X lookup n m w c = Some (r, w') -> r <> Panic -> arr_ok w ->
  arr_ok w' /\ exists p, wa_snaps w' = push p (wa_snaps w).
Proof.
  intros E N [Ha Hs].
  destruct (array_step X lookup (fun _ _ => True) (fun _ _ => True) (fun _ => True)
     ltac:(auto) ltac:(auto) ltac:(auto) ltac:(auto) ltac:(auto) ltac:(auto) ltac:(auto) ltac:(auto)
     n c m w r w' I E N) as (p & Fp & Hp & Sp).
  assert (Hall : Forall keys_sorted (p ++ wa_array w')).
  { rewrite Forall_forall in *. intros x Hx. apply Ha. eapply lsub_in; eauto. }
  apply Forall_app in Hall. destruct Hall. split; [split; auto|eauto].
  rewrite Sp. destruct (wa_snaps w); cbn; auto. inversion Hs; subst. constructor; auto.
  apply Forall_app; auto.
Qed.

Lemma map_step_ok n m w r w' c :
  (validate_map_member X lookup n m w c = Some (r, w') \/
   exists name args, validate_map_choiceify X lookup n name args w c = Some (r, w')) ->
  r <> Panic -> map_ok w -> map_ok w' /\ exists p, wm_snaps w' = push p (wm_snaps w).
Proof.
  intros E N (So & Ha & Hs).
  destruct (map_step X lookup (fun _ _ => True) (fun _ _ _ => True) (fun _ _ _ => True) (fun _ => True)
     ltac:(auto) ltac:(auto) ltac:(auto) ltac:(auto) ltac:(auto) ltac:(auto) ltac:(auto) ltac:(auto)
     ltac:(intros ? ? ? ? ? [] ? ? ?; auto) ltac:(auto) ltac:(auto) n) as [S1 S2].
  assert (S : mstep (accepted_entry X lookup (fun _ _ _ => True)) (fun _ => True) w w').
  { destruct E as [E|(name & args & E)]; eauto. }
  destruct (S So) as (So' & p & Pp & Ip & _ & Sp). rewrite Forall_forall in Ha.
  split; [|eauto]. split; [auto|split].
  - apply Forall_forall. auto.
  - rewrite Sp. destruct (wm_snaps w); cbn; auto. inversion Hs; subst. constructor; auto.
    apply Forall_app; split; auto. apply Forall_forall. intros x Hx. apply Ha, Pp; auto.
Qed.

Theorem validate_clean n :
  (forall v nd c, keys_sorted v -> cleano (validate X lookup n v nd c)) /\
  (forall m w c r w', arr_ok w -> validate_array_member X lookup n m w c = Some (r, w') -> clean r) /\
  (forall m w c r w', map_ok w -> validate_map_member X lookup n m w c = Some (r, w') -> no_panic r) /\
  (forall name args v c, keys_sorted v -> cleano (validate_choiceify X lookup n name args v c)) /\
  (forall name args w c r w', map_ok w ->
     validate_map_choiceify X lookup n name args w c = Some (r, w') -> no_panic r).
Proof.
  induction n as [|n (IHv & IHa & IHm & IHc & IHmc)].
  { repeat split; intros; try discriminate; apply cleano_none. }
  assert (IHa' : forall m w c r w', arr_ok w -> validate_array_member X lookup n m w c = Some (r, w') ->
     clean r /\ arr_ok w').
  { intros m w c r w' H E. pose proof (IHa _ _ _ _ _ H E) as G. split; auto.
    eapply arr_step_ok; eauto. apply G. }
  assert (IHm' : forall m w c r w', map_ok w -> validate_map_member X lookup n m w c = Some (r, w') ->
     no_panic r /\ map_ok w').
  { intros m w c r w' H E. pose proof (IHm _ _ _ _ _ H E) as G. split; auto.
    eapply map_step_ok; eauto. apply G. }
  assert (IHmc' : forall name args w c r w', map_ok w ->
     validate_map_choiceify X lookup n name args w c = Some (r, w') -> no_panic r /\ map_ok w').
  { intros name args w c r w' H E. pose proof (IHmc _ _ _ _ _ _ H E) as G. split; auto.
    eapply (map_step_ok n (NPrelude PAny)); eauto. apply G. }
  assert (AV : forall m w c r w', arr_ok w ->
     validate_array_value X (fun v nd => validate X lookup n v nd c) m w = Some (r, w') -> clean r).
  { unfold validate_array_value, wa_peek_front. intros m [a s] c r w' [H _] E; cbn in *.
    destruct a as [|v a]; [inversion E; subst; auto with clean|]. inversion H; subst.
    pose proof (IHv v m c H2) as Hv.
    destruct (validate X lookup n v m c) as [[u|e|]|]; try discriminate.
    - destruct s; inversion E; subst; auto with clean.
    - inversion E; subst. apply Hv; auto.
    - inversion E; subst. apply Hv; auto. }
  assert (CM : forall v c ms, keys_sorted v ->
    cleano (validate_choiceify_members (fun m => validate X lookup n v m c)
          (fun name args => validate_choiceify X lookup n name args v c) ms)).
  { intros v c ms Hv. apply clean_try_pure; [|apply Good_mismatch]. intros [] _; auto. }
  split; [|split; [|split; [|split]]].
  - intros v nd c Hv. rewrite validate_S.
    destruct nd; try (apply cleano_some; auto using clean_literal, clean_prelude with clean; fail); auto.
    + destruct (lookup c name args) as [[nd' c']|e|] eqn:Lk; auto.
      * apply cleano_some. eapply look_err; eauto.
      * exfalso; exact (look_panic _ _ _ Lk).
    + apply clean_try_pure; [auto|apply Good_mismatch].
    + unfold validate_map. destruct v; try (apply cleano_some; auto with clean; fail).
      apply keys_sorted_map in Hv. destruct Hv as [Hv Hs].
      destruct (seq_loop _ _ _) as [[r w']|] eqn:E; [|apply cleano_none].
      apply (seq_inv map_ok no_panic) in E; [|auto with clean| |repeat split; auto; constructor].
      2:{ intros m0 s r0 s' _. apply IHm'. }
      destruct E as [[Np Ne] Hm]. destruct r as [u|e|]; [destruct (wm_map w')| |congruence];
        apply cleano_some; auto with clean.
      apply clean_err. destruct (Ne e eq_refl) as [Hg|(t & ->)]; [|apply Good_mismatch].
      destruct e; cbn; auto.
    + unfold validate_array. destruct v; try (apply cleano_some; auto with clean; fail).
      apply keys_sorted_array in Hv.
      destruct (seq_loop _ _ _) as [[r w']|] eqn:E; [|apply cleano_none].
      apply (seq_inv arr_ok clean) in E; [|auto with clean| |split; auto; constructor].
      2:{ intros m0 s r0 s' _. apply IHa'. }
      destruct E as [Np Hm]. destruct r as [u|e|]; [destruct (wa_array w')| |];
        apply cleano_some; auto with clean.
    + unfold validate_standalone_group.
      destruct members as [|x [|y l]]; auto; apply cleano_some; auto with clean.
    + apply clean_obind; [apply clean_deref|]. intros. apply clean_obind; [apply clean_deref|].
      intros. apply cleano_some, clean_range.
    + destruct c0 as [t s|t s|t s|t s|t s|re|t]; cbn [validate_control];
        unfold validate_control_size, validate_control_lt, validate_control_le,
          validate_control_gt, validate_control_ge;
        try (apply clean_obind; [apply clean_chase; auto using clean_normalize, clean_cmp_limit|];
             intros; apply clean_chase; auto using clean_size_target, clean_lt, clean_le, clean_gt, clean_ge).
      * apply cleano_some, clean_regexp.
      * unfold validate_control_cbor. destruct v; try (apply cleano_some; auto with clean; fail).
        destruct (cbor_decode X b); [|apply cleano_some; auto with clean].
        destruct (of_cbor_spec c0) as [(v & -> & K)|(m & ->)]; auto.
        apply cleano_some; auto with clean.
  - intros m w c r w' Hw E. rewrite validate_array_member_S in E.
    destruct m; try (eapply AV; eauto; fail).
    + destruct (lookup c name args) as [[nd' c']|e|] eqn:Lk; eauto.
      * inversion E; subst. eapply look_err; eauto.
      * exfalso; exact (look_panic _ _ _ Lk).
    + eapply (try_inv arr_ok clean) in E; [apply E|auto with clean| |apply clean_mismatch|auto].
      intros m0 s r0 s' _. apply IHa'.
    + unfold validate_array_group in E.
      destruct (seq_loop _ _ _) as [[r1 w1]|] eqn:S; [|discriminate].
      apply (seq_inv (fun s => arr_ok s /\ exists p, wa_snaps s = push p ([] :: wa_snaps w)) clean) in S;
        [|auto with clean| |].
      * destruct S as [Cl (_ & p & Sp)]. unfold wa_commit, wa_rewind in E. rewrite Sp in E. cbn in E.
        destruct r1; inversion E; subst; auto with clean.
      * intros m s r0 s' _ [Hs (p & Sp)] F.
        pose proof (IHa _ _ _ _ _ Hs F) as Cl. split; auto.
        destruct (arr_step_ok _ _ _ _ _ _ F (proj1 Cl) Hs) as [Hs' (q & Sq)]. split; auto.
        exists (p ++ q). rewrite Sq, Sp. apply push_push.
      * split; [|exists []; rewrite push_nil; auto]. destruct Hw. split; auto. constructor; auto.
    + unfold validate_array_occur in E. destruct (limits limit) as [lo up].
      destruct (occur_loop _ _ _ _ _) as [[r1 w1]|] eqn:S; [|discriminate].
      apply (occur_inv arr_ok clean) in S; [|intros s r0 s'; apply IHa'|auto].
      destruct S as [Cl _]. destruct r1 as [k|e|]; [destruct (N.ltb k lo)| |]; inversion E; subst; auto with clean.
    + destruct (lookup c name args) as [[nd' c']|e|] eqn:Lk.
      * unfold validate_array_unwrap in E. destruct nd'; try (inversion E; subst; auto with clean; fail).
        apply (seq_inv arr_ok clean) in E; [apply E|auto with clean| |auto].
        intros m0 s r0 s' _. apply IHa'.
      * inversion E; subst. eapply look_err; eauto.
      * exfalso; exact (look_panic _ _ _ Lk).
  - intros m w c r w' Hw E. rewrite validate_map_member_S in E.
    destruct m; try (inversion E; subst; auto with clean; fail).
    + destruct (lookup c name args) as [[nd' c']|e|] eqn:Lk; eauto.
      * inversion E; subst. eapply np_clean, look_err; eauto.
      * exfalso; exact (look_panic _ _ _ Lk).
    + eapply (try_inv map_ok no_panic) in E; [apply E|auto with clean| |apply np_clean, clean_mismatch|auto].
      intros m0 s r0 s' _. apply IHm'.
    + unfold validate_map_group in E.
      destruct (seq_loop _ _ _) as [[r1 w1]|] eqn:S; [|discriminate].
      apply (seq_inv (fun s => map_ok s /\ exists p, wm_snaps s = push p ([] :: wm_snaps w)) no_panic) in S;
        [|auto with clean| |].
      * destruct S as [Cl (_ & p & Sp)]. unfold wm_commit, wm_rewind in E. rewrite Sp in E. cbn in E.
        destruct r1; inversion E; subst; auto with clean. destruct Cl as [_ Ne].
        destruct (Ne e eq_refl) as [Hg|(t & ->)]; [|apply np_clean, clean_mismatch].
        apply np_clean, clean_err. destruct e; cbn; auto.
      * intros m s r0 s' _ [Hs (p & Sp)] F.
        pose proof (IHm _ _ _ _ _ Hs F) as Cl. split; auto.
        destruct (map_step_ok _ _ _ _ _ _ (or_introl F) (proj1 Cl) Hs) as [Hs' (q & Sq)]. split; auto.
        exists (p ++ q). rewrite Sq, Sp. apply push_push.
      * split; [|exists []; rewrite push_nil; auto]. destruct Hw as (? & ? & ?). repeat split; auto.
        constructor; auto.
    + unfold validate_map_keyvalue in E. destruct Hw as (So & He & Hs). rewrite Forall_forall in He.
      destruct (validate_map_key _ _ _ _) as [[[k v]|e|]|] eqn:K; [| | |discriminate].
      * apply map_key_found in K; auto. destruct K as [Hin _].
        pose proof (IHv v m2 c (proj2 (He _ Hin))) as Hv.
        destruct (validate X lookup n v m2 c) as [[u|e|]|]; [| | |discriminate].
        -- unfold wm_remove in E. pose proof (bt_remove_get (wm_map w) k) as G.
           apply (bt_get_in _ _ _ So) in Hin. rewrite Hin in G.
           destruct (bt_remove k (wm_map w)); cbn in G; subst.
           destruct (wm_snaps w); inversion E; subst; auto with clean.
        -- destruct (Hv _ eq_refl) as [_ Ne]. specialize (Ne e eq_refl).
           destruct cut, e; inversion E; subst; try (apply np_clean, clean_err; auto; fail).
           split; [discriminate|]. intros e' [= <-]. eauto.
        -- destruct (Hv _ eq_refl); congruence.
      * inversion E; subst. apply np_clean, clean_err.
        assert (Hsearch : forall m l fin, map_search_loop (fun k => validate X lookup n k m c) l fin = Some (Err e) -> e = fin).
        { intros m l fin; induction l as [|[k v] l IHl]; cbn; [congruence|].
          destruct (validate X lookup n k m c) as [[u|e'|]|]; try discriminate. auto. }
        destruct m1; try (apply Hsearch in K; subst; apply Good_mismatch).
        cbn in K. unfold map_search_literal in K. destruct (wm_peek_at _ _); inversion K. apply Good_mismatch.
      * exfalso.
        assert (Hsearch : forall m l fin, (forall x, In x l -> ent_ok x) ->
          map_search_loop (fun k => validate X lookup n k m c) l fin <> Some Panic).
        { intros m l fin; induction l as [|[k v] l IHl]; cbn; intros Hl; [discriminate|].
          pose proof (IHv k m c (proj1 (Hl _ (or_introl eq_refl)))) as Hk.
          destruct (validate X lookup n k m c) as [[u|e|]|]; try discriminate.
          - apply IHl. auto.
          - destruct (Hk _ eq_refl); congruence. }
        destruct m1; try (eapply Hsearch; [|exact K]; auto; fail).
        cbn in K. unfold map_search_literal in K. destruct (wm_peek_at _ _); discriminate.
    + unfold validate_map_occur in E. destruct (limits limit) as [lo up].
      destruct (occur_loop _ _ _ _ _) as [[r1 w1]|] eqn:S; [|discriminate].
      apply (occur_inv map_ok no_panic) in S; [|intros s r0 s'; apply IHm'|auto].
      destruct S as [Cl _]. destruct r1 as [k|e|]; [destruct (N.ltb k lo)| |]; inversion E; subst; auto with clean.
    + destruct (lookup c name args) as [[nd' c']|e|] eqn:Lk.
      * unfold validate_map_unwrap in E. destruct nd'; try (inversion E; subst; auto with clean; fail).
        apply (seq_inv map_ok no_panic) in E; [apply E|auto with clean| |auto].
        intros m0 s r0 s' _. apply IHm'.
      * inversion E; subst. eapply np_clean, look_err; eauto.
      * exfalso; exact (look_panic _ _ _ Lk).
    + eapply IHmc; eauto.
    + eapply (try_inv map_ok no_panic) in E; [apply E|auto with clean| |apply np_clean, clean_mismatch|auto].
      intros m0 s r0 s' _. apply IHm'.
  - intros name args v c Hv. rewrite validate_choiceify_S.
    destruct (lookup c name args) as [[nd' c']|e|] eqn:Lk.
    + destruct nd'; auto; apply cleano_some; auto with clean.
    + apply cleano_some. eapply look_err; eauto.
    + exfalso; exact (look_panic _ _ _ Lk).
  - intros name args w c r w' Hw E. rewrite validate_map_choiceify_S in E.
    destruct (lookup c name args) as [[nd' c']|e|] eqn:Lk.
    + destruct nd'; try (inversion E; subst; auto with clean; fail); eauto.
      apply (try_inv map_ok no_panic) in E; [apply E|auto with clean| |apply np_clean, clean_mismatch|auto].
      intros [] s r0 s' _; try apply IHm'; apply IHmc'.
    + inversion E; subst. eapply np_clean, look_err; eauto.
    + exfalso; exact (look_panic _ _ _ Lk).
Qed.
End NoPanic.
End Good.
