(** Totality of the validator: for every schema, lookup context, context and
    value there is enough fuel. *)
From Coq Require Import List Bool ZArith NArith String Lia Arith.
From Verif Require Import Base Util Data Value Convert Ivt Scalar Validate Unfold Mono.
Import ListNotations.

(** Size of a node, counting every constructor. *)
Fixpoint nsize (nd : node) : nat :=
  let list_size := fix go (l : list node) := match l with [] => 0 | x :: l' => nsize x + go l' end in
  S (match nd with
     | NLiteral _ | NPrelude _ => 0
     | NRule _ l | NChoice l | NMap l | NArray l | NGroup l | NUnwrap _ l
     | NChoiceify _ l | NChoiceifyInline l => list_size l
     | NKeyValue a b _ | NRange a b _ => nsize a + nsize b
     | NOccur _ a => nsize a
     | NControl c =>
         match c with
         | CtlSize a b | CtlLt a b | CtlLe a b | CtlGt a b | CtlGe a b => nsize a + nsize b
         | CtlRegexp _ => 0
         | CtlCbor a => nsize a
         end
     end).

Fixpoint lsize (l : list node) : nat :=
  match l with [] => 0 | x :: l' => nsize x + lsize l' end.

Lemma lsize_in l x : In x l -> nsize x <= lsize l.
Proof. induction l; cbn; [tauto|]. intros [->|H]; [|apply IHl in H]; lia. Qed.

(** Fuelled computations that become defined. *)
Definition monof {A} (F : nat -> option A) := forall n m, n <= m -> le_opt (F n) (F m).
Definition Def {A} (F : nat -> option A) := exists n r, F n = Some r.

Lemma Def_const {A} (r : A) : Def (fun _ => Some r).
Proof. exists 0, r; reflexivity. Qed.

Lemma Def_succ {A} (F : nat -> option A) : Def (fun n => F (S n)) -> Def F.
Proof. intros (n & r & H); exists (S n), r; exact H. Qed.

Lemma Def_ext {A} (F G : nat -> option A) : (forall n, F n = G n) -> Def F -> Def G.
Proof. intros H (n & r & E); exists n, r; rewrite <- H; exact E. Qed.

Lemma Def_match {A B} (F : nat -> option A) (K : nat -> A -> option B) :
  monof F -> Def F -> (forall r, Def (fun n => K n r)) -> (forall r, monof (fun n => K n r)) ->
  Def (fun n => match F n with None => None | Some r => K n r end).
Proof.
  intros MF (n & r & E) DK MK.
  destruct (DK r) as (m & r' & E').
  exists (Nat.max n m), r'.
  assert (F (Nat.max n m) = Some r) as ->.
  { eapply le_opt_some; [apply MF|exact E]; lia. }
  eapply le_opt_some; [apply (MK r)|exact E']; lia.
Qed.

Section Loops.
Context {St : Type}.
Variable F : nat -> node -> St -> option (res unit * St).
Hypothesis MF : forall m s, monof (fun n => F n m s).

Lemma Def_try stop os fin s :
  (forall o s, In o os -> Def (fun n => F n o s)) ->
  Def (fun n => try_loop stop (F n) os fin s).
Proof.
  revert s; induction os as [|o os IH]; intros s H; [apply Def_const|].
  cbn. destruct (H o s (or_introl eq_refl)) as (n & [r s'] & E).
  destruct (IH s' (fun o s Hi => H o s (or_intror Hi))) as (m & r' & E').
  exists (Nat.max n m).
  assert (F (Nat.max n m) o s = Some (r, s')) as ->.
  { eapply le_opt_some; [apply (MF o s n)|exact E]; lia. }
  assert (try_loop stop (F (Nat.max n m)) os fin s' = Some r') as ->.
  { eapply le_opt_some; [apply try_loop_mono|exact E'].
    intros; apply (MF m0 s0 m); lia. }
  destruct r; eauto. destruct (stop e); eauto.
Qed.

Lemma Def_seq ms s :
  (forall o s, In o ms -> Def (fun n => F n o s)) ->
  Def (fun n => seq_loop (F n) ms s).
Proof.
  revert s; induction ms as [|o os IH]; intros s H; [apply Def_const|].
  cbn. destruct (H o s (or_introl eq_refl)) as (n & [r s'] & E).
  destruct (IH s' (fun o s Hi => H o s (or_intror Hi))) as (m & r' & E').
  exists (Nat.max n m).
  assert (F (Nat.max n m) o s = Some (r, s')) as ->.
  { eapply le_opt_some; [apply (MF o s n)|exact E]; lia. }
  assert (seq_loop (F (Nat.max n m)) os s' = Some r') as ->.
  { eapply le_opt_some; [apply seq_loop_mono|exact E'].
    intros; apply (MF m0 s0 m); lia. }
  destruct r; eauto.
Qed.

Lemma monof_seq ms s : monof (fun n => seq_loop (F n) ms s).
Proof. intros n m H. apply seq_loop_mono. intros; apply (MF m0 s0); auto. Qed.

Lemma Def_occur nd upper count s :
  (forall s, Def (fun n => F n nd s)) ->
  Def (fun n => occur_loop n (F n nd) upper count s).
Proof.
  intros H.
  remember (N.to_nat (upper - count)) as k eqn:Hk.
  revert count s Hk; induction k as [k IH] using lt_wf_ind; intros count s Hk.
  destruct (H s) as (n & [r s'] & E).
  destruct (N.leb upper (count + 1)) eqn:L.
  - exists (S n). cbn.
    assert (F (S n) nd s = Some (r, s')) as ->.
    { eapply le_opt_some; [apply (MF nd s n)|exact E]; lia. }
    rewrite L. destruct r; eauto. destruct (is_mismatch e); eauto.
  - apply N.leb_gt in L.
    destruct (IH (N.to_nat (upper - (count + 1))) ltac:(lia) (count + 1)%N s' eq_refl)
      as (m & r' & E').
    exists (S (Nat.max n m)). cbn.
    assert (F (S (Nat.max n m)) nd s = Some (r, s')) as ->.
    { eapply le_opt_some; [apply (MF nd s n)|exact E]; lia. }
    assert (occur_loop (Nat.max n m) (F (S (Nat.max n m)) nd) upper (count + 1) s' = Some r') as ->.
    { eapply le_opt_some; [|exact E']. apply occur_loop_mono; [lia|].
      intros; apply (MF nd s0 m); lia. }
    destruct (N.leb_spec upper (count + 1)) as [L'|L']; [lia|].
    destruct r; eauto. destruct (is_mismatch e); eauto.
Qed.
End Loops.

Lemma Def_try_pure (F : nat -> node -> option (res unit)) stop os fin :
  (forall m, monof (fun n => F n m)) ->
  (forall o, In o os -> Def (fun n => F n o)) ->
  Def (fun n => try_loop_pure stop (F n) os fin).
Proof.
  intros MF; induction os as [|o os IH]; intros H; [apply Def_const|].
  cbn. destruct (H o (or_introl eq_refl)) as (n & r & E).
  destruct (IH (fun o Hi => H o (or_intror Hi))) as (m & r' & E').
  exists (Nat.max n m).
  assert (F (Nat.max n m) o = Some r) as ->.
  { eapply le_opt_some; [apply (MF o n)|exact E]; lia. }
  assert (try_loop_pure stop (F (Nat.max n m)) os fin = Some r') as ->.
  { eapply le_opt_some; [apply try_loop_pure_mono|exact E'].
    intros; apply (MF o0 m); lia. }
  destruct r; eauto. destruct (stop e); eauto.
Qed.

Lemma Def_search (F : nat -> value -> option (res unit)) l fin :
  (forall m, monof (fun n => F n m)) ->
  (forall o, Def (fun n => F n o)) ->
  Def (fun n => map_search_loop (F n) l fin).
Proof.
  intros MF H; induction l as [|[k v] os IH]; [apply Def_const|].
  cbn. destruct (H k) as (n & r & E).
  destruct IH as (m & r' & E').
  exists (Nat.max n m).
  assert (F (Nat.max n m) k = Some r) as ->.
  { eapply le_opt_some; [apply (MF k n)|exact E]; lia. }
  assert (map_search_loop (F (Nat.max n m)) os fin = Some r') as ->.
  { eapply le_opt_some; [apply map_search_loop_mono|exact E'].
    intros; apply (MF o m); lia. }
  destruct r; eauto.
Qed.

Lemma Def_obind {A B} (F : nat -> option (res A)) (K : nat -> A -> option (res B)) :
  monof F -> Def F -> (forall r, Def (fun n => K n r)) -> (forall r, monof (fun n => K n r)) ->
  Def (fun n => obind (F n) (K n)).
Proof.
  intros MF (n & r & E) DK MK.
  destruct r as [r|e|].
  - destruct (DK r) as (m & r' & E').
    exists (Nat.max n m), r'.
    assert (F (Nat.max n m) = Some (Ok r)) as ->.
    { eapply le_opt_some; [apply MF|exact E]; lia. }
    cbn. eapply le_opt_some; [apply (MK r)|exact E']; lia.
  - exists n, (Err e). rewrite E. reflexivity.
  - exists n, Panic. rewrite E. reflexivity.
Qed.

Section Total.
Variable X : ext.
Variable lk : lookup_context.

Notation V := (validate X (lookup_rule lk)).
Notation AM := (validate_array_member X (lookup_rule lk)).
Notation MM := (validate_map_member X (lookup_rule lk)).
Notation CH := (validate_choiceify X (lookup_rule lk)).
Notation MCH := (validate_map_choiceify X (lookup_rule lk)).

Lemma mV v nd c : monof (fun n => V n v nd c).
Proof. intros n m H; apply mono; auto. Qed.
Lemma mA nd w c : monof (fun n => AM n nd w c).
Proof. intros n m H; apply mono; auto. Qed.
Lemma mM nd w c : monof (fun n => MM n nd w c).
Proof. intros n m H; apply mono; auto. Qed.
Lemma mC nm args v c : monof (fun n => CH n nm args v c).
Proof. intros n m H; apply mono; auto. Qed.
Lemma mMC nm args w c : monof (fun n => MCH n nm args w c).
Proof. intros n m H; apply mono; auto. Qed.
Lemma mD nd c : monof (fun n => deref_range_rule (lookup_rule lk) n nd c).
Proof. intros n m H; apply deref_mono; auto. Qed.
Lemma mCR {R} (f : node -> res R) nd c : monof (fun n => chase_rules (lookup_rule lk) n f nd c).
Proof. intros n m H; apply chase_mono; auto. Qed.

(** The part of [validate_choiceify] after the lookup. *)
Definition ch_target n (nd : node) v c : option (res unit) :=
  match nd with
  | NGroup ms =>
      validate_choiceify_members (fun m => V n v m c) (fun name args => CH n name args v c) ms
  | NRule name args => CH n name args v c
  | _ => Some (Err (EStructural (txt "improper choiceify target")))
  end.
Definition mch_target n (nd : node) w c : option (res unit * wmap) :=
  match nd with
  | NGroup ms =>
      validate_map_choiceify_members (fun m w => MM n m w c)
        (fun name args w => MCH n name args w c) ms w
  | NRule name args => MCH n name args w c
  | _ => Some (Err (EStructural (txt "improper map choiceify target")), w)
  end.

Record Term (c : ctx) (nd : node) : Prop := {
  tV : forall v, Def (fun n => V n v nd c);
  tA : forall w, Def (fun n => AM n nd w c);
  tM : forall w, Def (fun n => MM n nd w c);
  tD : Def (fun n => deref_range_rule (lookup_rule lk) n nd c);
  tCR : forall R (f : node -> res R), Def (fun n => chase_rules (lookup_rule lk) n f nd c);
  tAU : forall w, Def (fun n => validate_array_unwrap (fun m w => AM n m w c) nd w);
  tMU : forall w, Def (fun n => validate_map_unwrap (fun m w => MM n m w c) nd w);
  tCT : forall v, Def (fun n => ch_target n nd v c);
  tMCT : forall w, Def (fun n => mch_target n nd w c)
}.

Definition good (c : ctx) : Prop :=
  forall name nd p, gm_get name (ctx_map c) = Some nd -> ctx_past c = Some p -> Term p nd.

Lemma gm_insert_get k v m name nd :
  gm_get name (gm_insert k v m) = Some nd -> nd = v \/ gm_get name m = Some nd.
Proof.
  induction m as [|[k' v'] m IH]; cbn.
  - destruct (text_eqb k name); intros; left; congruence.
  - destruct (text_eqb k' k); cbn; destruct (text_eqb k' name); intros; auto.
    left; congruence.
Qed.

Lemma gm_collect_get l name nd :
  gm_get name (gm_collect l) = Some nd -> In nd (map snd l).
Proof.
  unfold gm_collect.
  assert (G : forall m, gm_get name (fold_left (fun m p => gm_insert (fst p) (snd p) m) l m) = Some nd ->
                        In nd (map snd l) \/ gm_get name m = Some nd).
  { induction l as [|[k v] l IH]; cbn; auto.
    intros m H. apply IH in H. destruct H as [H|H]; auto.
    apply gm_insert_get in H. destruct H as [H|H]; auto. }
  intros H; apply G in H. destruct H as [H|H]; auto. discriminate.
Qed.

Lemma combine_snd_in {A B} (l1 : list A) (l2 : list B) x : In x (map snd (combine l1 l2)) -> In x l2.
Proof.
  revert l2; induction l1; intros [|y l2]; cbn; try tauto.
  intros [H|H]; [left; auto|right; auto].
Qed.

(** Every context reached by a lookup is good again, and its nodes terminate. *)
Section Step.
Variable k : nat.
Hypothesis outer : forall c, good c -> 50 - N.to_nat (ctx_depth c) < k -> forall nd, Term c nd.
Variable c : ctx.
Hypothesis Hgood : good c.
Hypothesis Hdepth : 50 - N.to_nat (ctx_depth c) <= k.

Lemma lookup_term name args nd' c' :
  (forall a, In a args -> Term c a) ->
  lookup_rule lk c name args = Ok (nd', c') -> Term c' nd'.
Proof.
  intros Hargs. unfold lookup_rule.
  assert (Hinc : forall d, inc_depth c = Ok d -> 50 - N.to_nat d < k).
  { unfold inc_depth, max_depth. intros d. destruct (N.leb_spec 50 (ctx_depth c)); [discriminate|].
    intros [= <-]. lia. }
  destruct (gm_get name (ctx_map c)) as [nd|] eqn:G.
  - destruct (ctx_past c) as [p|] eqn:P.
    + intros [= <- <-]. eapply Hgood; eauto.
    + unfold blank. destruct (inc_depth c) as [d| |] eqn:I; cbn; try discriminate.
      intros [= <- <-]. apply outer.
      * intros name' nd0 p0. cbn. discriminate.
      * exact (Hinc _ eq_refl).
  - destruct (lk name) as [def|e]; [|discriminate].
    unfold derive.
    destruct (negb _); cbn; [discriminate|].
    destruct (inc_depth c) as [d| |] eqn:I; cbn; try discriminate.
    intros [= <- <-]. apply outer.
    + intros name' nd0 p0. cbn. intros Hg [= <-].
      apply Hargs. apply gm_collect_get in Hg. eapply combine_snd_in; eauto.
    + exact (Hinc _ eq_refl).
Qed.

Ltac base :=
  constructor; intros; apply Def_succ; cbn -[validate validate_array_member validate_map_member];
  try apply Def_const.

Lemma D_array_value nd w :
  (forall v, Def (fun n => V n v nd c)) ->
  Def (fun n => validate_array_value X (fun v nd => V n v nd c) nd w).
Proof.
  intros H. unfold validate_array_value. destruct (wa_peek_front w); [|apply Def_const].
  destruct (H v) as (n & r & E). exists n. rewrite E.
  destruct r; eauto. destruct (wa_pop_front w); eauto.
Qed.

Lemma D_choiceify name args v :
  (forall nd' c', lookup_rule lk c name args = Ok (nd', c') -> Term c' nd') ->
  Def (fun n => CH n name args v c).
Proof.
  intros L. apply Def_succ. eapply Def_ext; [intros; symmetry; apply validate_choiceify_S|]; cbv beta iota.
  destruct (lookup_rule lk c name args) as [[nd' c']| |]; try apply Def_const.
  apply (tCT _ _ (L _ _ eq_refl) v).
Qed.

Lemma D_map_choiceify name args w :
  (forall nd' c', lookup_rule lk c name args = Ok (nd', c') -> Term c' nd') ->
  Def (fun n => MCH n name args w c).
Proof.
  intros L. apply Def_succ. eapply Def_ext; [intros; symmetry; apply validate_map_choiceify_S|]; cbv beta iota.
  destruct (lookup_rule lk c name args) as [[nd' c']| |]; try apply Def_const.
  apply (tMCT _ _ (L _ _ eq_refl) w).
Qed.

Lemma D_occurA lim nd w : (forall w, Def (fun n => AM n nd w c)) ->
  Def (fun n => validate_array_occur X n (fun w => AM n nd w c) lim nd w).
Proof.
  intros H. unfold validate_array_occur. destruct (limits lim) as [lo up].
  destruct (Def_occur (fun n nd w => AM n nd w c) (fun m s => mA m s c) nd up 0%N w H) as (n & [r s] & E).
  exists n. rewrite E. destruct r; eauto. destruct (N.ltb a lo); eauto.
Qed.
Lemma D_occurM lim nd w : (forall w, Def (fun n => MM n nd w c)) ->
  Def (fun n => validate_map_occur X n (fun w => MM n nd w c) lim nd w).
Proof.
  intros H. unfold validate_map_occur. destruct (limits lim) as [lo up].
  destruct (Def_occur (fun n nd w => MM n nd w c) (fun m s => mM m s c) nd up 0%N w H) as (n & [r s] & E).
  exists n. rewrite E. destruct r; eauto. destruct (N.ltb a lo); eauto.
Qed.

Lemma D_keyvalue key val cut w :
  (forall v, Def (fun n => V n v key c)) -> (forall v, Def (fun n => V n v val c)) ->
  Def (fun n => validate_map_keyvalue X (fun v nd => V n v nd c) key val cut w).
Proof.
  intros Hk Hv.
  assert (D : Def (fun n => validate_map_key X (fun v nd => V n v nd c) key w)).
  { unfold validate_map_key, map_search.
    destruct key; try apply Def_const;
      (apply (Def_search (fun n k => V n k _ c)); [intros; apply mV|auto]). }
  unfold validate_map_keyvalue.
  apply (Def_match (fun n => validate_map_key X (fun v nd => V n v nd c) key w)); auto.
  - intros n m L. unfold validate_map_key, map_search.
    destruct key; auto with mono; apply map_search_loop_mono; intros; apply mV; auto.
  - intros [[wk wv]|e|]; try apply Def_const.
    destruct (Hv wv) as (n & r & E). exists n. rewrite E. destruct r; eauto.
    + destruct (wm_remove wk w); eauto.
    + destruct cut, e; eauto.
  - intros [[wk wv]|e|] n m L; auto with mono.
    destruct (mV wv val c n m L) as [E|E]; rewrite E; auto with mono.
Qed.

Lemma all_terms : forall nd, Term c nd.
Proof.
  intros nd. remember (nsize nd) as s eqn:Hs. revert nd Hs.
  induction s as [s IH] using lt_wf_ind. intros nd Hs.
  assert (sub : forall x, nsize x < nsize nd -> Term c x) by (intros; eapply IH; eauto; lia).
  clear IH Hs s.
  assert (subl : forall l, lsize l < nsize nd -> forall x, In x l -> Term c x).
  { intros l Hl x Hx. apply sub. apply lsize_in in Hx. lia. }
  assert (Hlook : forall name args nd' c', lsize args < nsize nd ->
            lookup_rule lk c name args = Ok (nd', c') -> Term c' nd').
  { intros. eapply lookup_term; eauto. }
  assert (FV : Def (fun n => V n VNull nd c) -> True) by auto. clear FV.
  (* facts used for several constructors *)
  destruct nd.
  - (* literal *)
    constructor; intros; try apply Def_const; apply Def_succ; try apply Def_const.
    + eapply Def_ext; [intros; symmetry; apply validate_array_member_S|]; cbv beta iota.
      apply D_array_value. intros; apply Def_succ; apply Def_const.
  - constructor; intros; try apply Def_const; apply Def_succ; try apply Def_const.
    + eapply Def_ext; [intros; symmetry; apply validate_array_member_S|]; cbv beta iota.
      apply D_array_value. intros; apply Def_succ; apply Def_const.
  - (* rule *)
    assert (L : forall nd' c', lookup_rule lk c name args = Ok (nd', c') -> Term c' nd').
    { intros; eapply Hlook; eauto. cbn. change (lsize args < S (lsize args)). lia. }
    constructor; intros.
    + apply Def_succ. eapply Def_ext; [intros; symmetry; apply validate_S|]; cbv beta iota.
      destruct (lookup_rule lk c name args) as [[nd' c']| |]; try apply Def_const.
      apply (tV _ _ (L _ _ eq_refl)).
    + apply Def_succ. eapply Def_ext; [intros; symmetry; apply validate_array_member_S|]; cbv beta iota.
      destruct (lookup_rule lk c name args) as [[nd' c']| |]; try apply Def_const.
      apply (tA _ _ (L _ _ eq_refl)).
    + apply Def_succ. eapply Def_ext; [intros; symmetry; apply validate_map_member_S|]; cbv beta iota.
      destruct (lookup_rule lk c name args) as [[nd' c']| |]; try apply Def_const.
      apply (tM _ _ (L _ _ eq_refl)).
    + apply Def_succ. cbn.
      destruct (lookup_rule lk c name args) as [[nd' c']| |]; try apply Def_const.
      apply (tD _ _ (L _ _ eq_refl)).
    + apply Def_succ. cbn.
      destruct (lookup_rule lk c name args) as [[nd' c']| |]; try apply Def_const.
      apply (tCR _ _ (L _ _ eq_refl)).
    + apply Def_const.
    + apply Def_const.
    + cbn. apply D_choiceify; auto.
    + cbn. apply D_map_choiceify; auto.
  - (* choice *)
    assert (T : forall x, In x options -> Term c x).
    { apply subl. cbn. change (lsize options < S (lsize options)). lia. }
    constructor; intros; try apply Def_const; apply Def_succ; try apply Def_const.
    + eapply Def_ext; [intros; symmetry; apply validate_S|]; cbv beta iota.
      apply (Def_try_pure (fun n o => V n v o c)); [intros; apply mV|].
      intros; apply T; auto.
    + eapply Def_ext; [intros; symmetry; apply validate_array_member_S|]; cbv beta iota.
      apply (Def_try (fun n o w => AM n o w c)); [intros; apply mA|].
      intros; apply T; auto.
    + eapply Def_ext; [intros; symmetry; apply validate_map_member_S|]; cbv beta iota.
      apply (Def_try (fun n o w => MM n o w c)); [intros; apply mM|].
      intros; apply T; auto.
  - (* map *)
    assert (T : forall x, In x members -> Term c x).
    { apply subl. cbn. change (lsize members < S (lsize members)). lia. }
    assert (TV : forall v, Def (fun n => V n v (NMap members) c)).
    { intros v. apply Def_succ. eapply Def_ext; [intros; symmetry; apply validate_S|]; cbv beta iota.
      unfold validate_map. destruct v; try apply Def_const.
      destruct (Def_seq (fun n o w => MM n o w c) (fun m s => mM m s c) members (wm_new m))
        as (n & [r s] & E).
      { intros; apply T; auto. }
      exists n. rewrite E. destruct r; eauto. destruct (wm_map s); eauto. }
    constructor; intros; auto; try apply Def_const; try solve [apply Def_succ; apply Def_const].
    + apply Def_succ. eapply Def_ext; [intros; symmetry; apply validate_array_member_S|]; cbv beta iota.
      apply D_array_value; auto.
    + cbn. exact (Def_seq (fun n o w => MM n o w c) (fun m s => mM m s c) members w
               (fun o s Hi => tM _ _ (T o Hi) s)).
  - (* array *)
    assert (T : forall x, In x members -> Term c x).
    { apply subl. cbn. change (lsize members < S (lsize members)). lia. }
    assert (TV : forall v, Def (fun n => V n v (NArray members) c)).
    { intros v. apply Def_succ. eapply Def_ext; [intros; symmetry; apply validate_S|]; cbv beta iota.
      unfold validate_array. destruct v; try apply Def_const.
      destruct (Def_seq (fun n o w => AM n o w c) (fun m s => mA m s c) members (wa_new l))
        as (n & [r s] & E).
      { intros; apply T; auto. }
      exists n. rewrite E. destruct r; eauto. destruct (wa_array s); eauto. }
    constructor; intros; auto; try apply Def_const; try solve [apply Def_succ; apply Def_const].
    + apply Def_succ. eapply Def_ext; [intros; symmetry; apply validate_array_member_S|]; cbv beta iota.
      apply D_array_value; auto.
    + cbn. exact (Def_seq (fun n o w => AM n o w c) (fun m s => mA m s c) members w
               (fun o s Hi => tA _ _ (T o Hi) s)).
  - (* group *)
    assert (T : forall x, In x members -> Term c x).
    { apply subl. cbn. change (lsize members < S (lsize members)). lia. }
    assert (LK : forall name args nd' c', In (NRule name args) members ->
              lookup_rule lk c name args = Ok (nd', c') -> Term c' nd').
    { intros name args nd' c' Hin. eapply Hlook.
      apply lsize_in in Hin. cbn in Hin.
      change (S (lsize args) <= lsize members) in Hin.
      change (lsize args < S (lsize members)). lia. }
    constructor; intros; try apply Def_const.
    + apply Def_succ. eapply Def_ext; [intros; symmetry; apply validate_S|]; cbv beta iota.
      unfold validate_standalone_group.
      destruct members as [|x [|y l]]; try apply Def_const. apply T; left; auto.
    + apply Def_succ. eapply Def_ext; [intros; symmetry; apply validate_array_member_S|]; cbv beta iota.
      unfold validate_array_group.
      destruct (Def_seq (fun n o w => AM n o w c) (fun m s => mA m s c) members (wa_snapshot w))
        as (n & [r s] & E).
      { intros; apply T; auto. }
      exists n. rewrite E. destruct r; eauto; [destruct (wa_commit s) | destruct (wa_rewind s)]; eauto.
    + apply Def_succ. eapply Def_ext; [intros; symmetry; apply validate_map_member_S|]; cbv beta iota.
      unfold validate_map_group.
      destruct (Def_seq (fun n o w => MM n o w c) (fun m s => mM m s c) members (wm_snapshot w))
        as (n & [r s] & E).
      { intros; apply T; auto. }
      exists n. rewrite E. destruct r; eauto; [destruct (wm_commit s) | destruct (wm_rewind s)]; eauto.
    + apply Def_succ. apply Def_const.
    + apply Def_succ. apply Def_const.
    + unfold ch_target, validate_choiceify_members.
      apply (Def_try_pure (fun n item => match item with
        | NKeyValue _ v0 _ => V n v v0 c | NRule name args => CH n name args v c
        | _ => V n v item c end)).
      * intros []; try apply mV. apply mC.
      * intros o Ho.
        destruct o; try (apply T; exact Ho).
        -- apply D_choiceify. intros; eapply LK; eauto.
        -- apply sub. apply lsize_in in Ho. cbn in *.
           change (nsize o2 < S (lsize members)). lia.
    + unfold mch_target, validate_map_choiceify_members.
      apply (Def_try (fun n item => match item with
        | NKeyValue _ v0 _ => fun w => MM n v0 w c | NRule name args => fun w => MCH n name args w c
        | _ => fun w => MM n item w c end)).
      * intros [] s; try apply mM. apply mMC.
      * intros o s Ho.
        destruct o; try (apply T; exact Ho).
        -- apply D_map_choiceify. intros; eapply LK; eauto.
        -- apply sub. apply lsize_in in Ho. cbn in *.
           change (nsize o2 < S (lsize members)). lia.
  - (* key value *)
    assert (T1 : Term c nd1) by (apply sub; cbn; lia).
    assert (T2 : Term c nd2) by (apply sub; cbn; lia).
    constructor; intros; try apply Def_const; apply Def_succ; try apply Def_const.
    + eapply Def_ext; [intros; symmetry; apply validate_array_member_S|]; cbv beta iota.
      apply D_array_value. apply T2.
    + eapply Def_ext; [intros; symmetry; apply validate_map_member_S|]; cbv beta iota.
      apply D_keyvalue; [apply T1|apply T2].
  - (* occur *)
    assert (T1 : Term c nd) by (apply sub; cbn; lia).
    constructor; intros; try apply Def_const; apply Def_succ; try apply Def_const.
    + eapply Def_ext; [intros; symmetry; apply validate_array_member_S|]; cbv beta iota.
      apply D_occurA. apply T1.
    + eapply Def_ext; [intros; symmetry; apply validate_map_member_S|]; cbv beta iota.
      apply D_occurM. apply T1.
  - (* unwrap *)
    assert (L : forall nd' c', lookup_rule lk c name args = Ok (nd', c') -> Term c' nd').
    { intros; eapply Hlook; eauto. cbn. change (lsize args < S (lsize args)). lia. }
    constructor; intros; try apply Def_const; apply Def_succ; try apply Def_const.
    + eapply Def_ext; [intros; symmetry; apply validate_array_member_S|]; cbv beta iota.
      destruct (lookup_rule lk c name args) as [[nd' c']| |]; try apply Def_const.
      apply (tAU _ _ (L _ _ eq_refl)).
    + eapply Def_ext; [intros; symmetry; apply validate_map_member_S|]; cbv beta iota.
      destruct (lookup_rule lk c name args) as [[nd' c']| |]; try apply Def_const.
      apply (tMU _ _ (L _ _ eq_refl)).
  - (* range *)
    assert (T1 : Term c nd1) by (apply sub; cbn; lia).
    assert (T2 : Term c nd2) by (apply sub; cbn; lia).
    assert (TV : forall v, Def (fun n => V n v (NRange nd1 nd2 inclusive) c)).
    { intros v. apply Def_succ. eapply Def_ext; [intros; symmetry; apply validate_S|]; cbv beta iota.
      unfold validate_range.
      apply (Def_obind (fun n => deref_range_rule (lookup_rule lk) n nd1 c)); [apply mD|apply T1| |].
      - intros r. apply (Def_obind (fun n => deref_range_rule (lookup_rule lk) n nd2 c)); [apply mD|apply T2| |].
        + intros; apply Def_const.
        + intros r0 n m L; auto with mono.
      - intros r n m L. apply obind_mono; [apply mD; auto|]. intros; auto with mono. }
    constructor; intros; auto; try apply Def_const; apply Def_succ; try apply Def_const.
    + eapply Def_ext; [intros; symmetry; apply validate_array_member_S|]; cbv beta iota.
      apply D_array_value; auto.
  - (* control *)
    assert (TV : forall v, Def (fun n => V n v (NControl c0) c)).
    { intros v. apply Def_succ. eapply Def_ext; [intros; symmetry; apply validate_S|]; cbv beta iota.
      destruct c0 as [t s|t s|t s|t s|t s|re|t]; cbn [validate_control].
      1-5: assert (T1 : Term c t) by (apply sub; cbn; lia);
        assert (T2 : Term c s) by (apply sub; cbn; lia);
        match goal with
        | |- Def (fun n => validate_control_size _ _ _ _ _ _ _) => unfold validate_control_size
        | |- Def (fun n => validate_control_lt _ _ _ _ _ _ _) => unfold validate_control_lt
        | |- Def (fun n => validate_control_le _ _ _ _ _ _ _) => unfold validate_control_le
        | |- Def (fun n => validate_control_gt _ _ _ _ _ _ _) => unfold validate_control_gt
        | |- Def (fun n => validate_control_ge _ _ _ _ _ _ _) => unfold validate_control_ge
        end;
        (apply (Def_obind (fun n => chase_rules (lookup_rule lk) n _ s c) (fun n l => chase_rules (lookup_rule lk) n _ t c));
          [apply mCR | apply T2 | intros; apply T1 | intros; apply mCR]).
      - apply Def_const.
      - assert (T1 : Term c t) by (apply sub; cbn; lia).
        unfold validate_control_cbor.
        destruct v; try apply Def_const.
        destruct (cbor_decode X b); try apply Def_const.
        destruct (of_cbor c0); try apply Def_const. apply T1. }
    constructor; intros; auto; try apply Def_const; apply Def_succ; try apply Def_const.
    + eapply Def_ext; [intros; symmetry; apply validate_array_member_S|]; cbv beta iota.
      apply D_array_value; auto.
  - (* choiceify *)
    assert (L : forall nd' c', lookup_rule lk c name args = Ok (nd', c') -> Term c' nd').
    { intros; eapply Hlook; eauto. cbn. change (lsize args < S (lsize args)). lia. }
    assert (TV : forall v, Def (fun n => V n v (NChoiceify name args) c)).
    { intros v. apply Def_succ. eapply Def_ext; [intros; symmetry; apply validate_S|]; cbv beta iota.
      apply D_choiceify; auto. }
    constructor; intros; auto; try apply Def_const; apply Def_succ; try apply Def_const.
    + eapply Def_ext; [intros; symmetry; apply validate_array_member_S|]; cbv beta iota.
      apply D_array_value; auto.
    + eapply Def_ext; [intros; symmetry; apply validate_map_member_S|]; cbv beta iota.
      apply D_map_choiceify; auto.
  - (* choiceify inline *)
    assert (T : forall x, In x members -> Term c x).
    { apply subl. cbn. change (lsize members < S (lsize members)). lia. }
    assert (LK : forall name args nd' c', In (NRule name args) members ->
              lookup_rule lk c name args = Ok (nd', c') -> Term c' nd').
    { intros name args nd' c' Hin. eapply Hlook.
      apply lsize_in in Hin. cbn in Hin.
      change (S (lsize args) <= lsize members) in Hin.
      change (lsize args < S (lsize members)). lia. }
    assert (TV : forall v, Def (fun n => V n v (NChoiceifyInline members) c)).
    { intros v. apply Def_succ. eapply Def_ext; [intros; symmetry; apply validate_S|]; cbv beta iota.
      unfold validate_choiceify_members.
      apply (Def_try_pure (fun n item => match item with
        | NKeyValue _ v0 _ => V n v v0 c | NRule name args => CH n name args v c
        | _ => V n v item c end)).
      * intros []; try apply mV. apply mC.
      * intros o Ho.
        destruct o; try (apply T; exact Ho).
        -- apply D_choiceify. intros; eapply LK; eauto.
        -- apply sub. apply lsize_in in Ho. cbn in *.
           change (nsize o2 < S (lsize members)). lia. }
    constructor; intros; auto; try apply Def_const; apply Def_succ; try apply Def_const.
    + eapply Def_ext; [intros; symmetry; apply validate_array_member_S|]; cbv beta iota.
      apply D_array_value; auto.
    + eapply Def_ext; [intros; symmetry; apply validate_map_member_S|]; cbv beta iota.
      apply (Def_try (fun n o w => MM n o w c)); [intros; apply mM|].
      intros; apply T; auto.
Qed.
End Step.

Theorem good_terms : forall k c, good c -> 50 - N.to_nat (ctx_depth c) <= k -> forall nd, Term c nd.
Proof.
  induction k as [k IH] using lt_wf_ind; intros c Hg Hd.
  apply (all_terms k); auto.
  intros c' Hg' Hd'. eapply (IH (50 - N.to_nat (ctx_depth c'))); eauto.
Qed.

(** Contexts that the validator can reach from the initial one. *)
Inductive reach : ctx -> Prop :=
| reach_init : reach initial_ctx
| reach_step c name args nd c' :
    reach c -> lookup_rule lk c name args = Ok (nd, c') -> reach c'.

(** Every context is good (by induction on its chain of past contexts). *)
Fixpoint ctx_rank (c : ctx) : nat :=
  match c with
  | Ctx _ None _ => 0
  | Ctx _ (Some p) _ => S (ctx_rank p)
  end.

Theorem all_good : forall c, good c.
Proof.
  intros c. remember (ctx_rank c) as k eqn:Hk. revert c Hk.
  induction k as [k IH] using lt_wf_ind; intros [m p d] ->.
  intros name nd p0 _ Hp. cbn in Hp. subst p.
  apply (good_terms (50 - N.to_nat (ctx_depth p0))); auto.
  eapply IH; [|reflexivity]. cbn. lia.
Qed.

Theorem term_all c nd : Term c nd.
Proof. apply (good_terms (50 - N.to_nat (ctx_depth c))); auto using all_good. Qed.

Theorem validate_total v nd c : exists n r, validate X (lookup_rule lk) n v nd c = Some r.
Proof. apply (tV _ _ (term_all c nd)). Qed.

Theorem do_validate_total v def : exists n r, do_validate X lk n v def = Some r.
Proof.
  unfold do_validate. destruct (rd_parms def); [apply validate_total|].
  exists 0; eauto.
Qed.
End Total.
