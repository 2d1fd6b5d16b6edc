(** How deep calls nest: a bound for every schema, a smaller one without generic
    parameters, and the bound is enough fuel for the model. *)
From Coq Require Import List Bool ZArith NArith String Lia Arith.
From Verif Require Import Base Util Data Value Convert Ivt Scalar Validate Unfold Mono Total Fun
  SpecBase SpecReach ArrayInv CtxProofs LimitProofs SpecNest.
Import ListNotations.

(** * A measure that decreases along calls *)
Section Measure.
Variable lk : lookup_context.
Variable good : ctx -> Prop.
Variable phi : ctx -> node -> nat.
Hypothesis phi_child : forall c nd nd', good c -> nsize nd' < nsize nd -> phi c nd' < phi c nd.
Hypothesis phi_size : forall c nd nd', nsize nd' = nsize nd -> phi c nd' = phi c nd.
Hypothesis phi_lookup : forall c name args nd' c', good c -> lookup_rule lk c name args = Ok (nd', c') ->
  good c' /\ forall nd, nsize nd = nsize (NRule name args) -> phi c' nd' < phi c nd.

Definition weight (k : call) : nat :=
  match c_job k with
  | JType | JChase => 2 * phi (c_ctx k) (c_node k) + 1
  | JArray | JMap => 2 * phi (c_ctx k) (c_node k) + 2
  | JAlt | JMapAlt => 2 * phi (c_ctx k) (c_node k)
  end.

Lemma in_size l m : In m l -> nsize m < S (lsize l).
Proof. intros H. apply lsize_in in H. lia. Qed.

Lemma alt_weight c m nd : good c -> nsize m < nsize nd ->
  weight (alt_call c m) < 2 * phi c nd /\ weight (map_alt_call c m) <= 2 * phi c nd.
Proof.
  intros G L. pose proof (phi_child c nd m G L) as P.
  destruct m; cbn [alt_call map_alt_call]; unfold weight; cbn [c_job c_ctx c_node]; try lia.
  assert (phi c m2 < phi c (NKeyValue m1 m2 cut)) by (apply phi_child; auto; cbn; lia). lia.
Qed.

Lemma calls_weight k k' : good (c_ctx k) -> calls lk k k' -> good (c_ctx k') /\ weight k' < weight k.
Proof.
  assert (IN : forall c l m nd, good c -> In m l -> nsize nd = S (lsize l) -> phi c m < phi c nd).
  { intros c l m nd G I E. apply phi_child; auto. rewrite E. apply in_size; auto. }
  assert (CH : forall c nd m, good c -> nsize m < nsize nd -> phi c m < phi c nd) by (intros; apply phi_child; auto).
  intros G H. destruct H as
    [os o c I|ms m c I|ms m c I|m c|s e i c|s e i c|ctl t l c P|ctl t l c P|nd c|name args c|ms m c I
    |j name args nd' c c' L J|j name args name' args' c c' L J|name args ms m c c' L I|name args ms m c c' L I
    |lim m c|key vl cut c|name args ms m c c' L I|os o c I|ms m c I|m c P
    |lim m c|key vl cut c|key vl cut c|name args ms m c c' L I|os o c I|os o c I|ms m c I|name args c];
    cbn [c_ctx] in G.
  1-3: (split; [exact G|]; unfold weight; cbn [c_job c_node c_ctx];
        match goal with |- 2 * phi _ ?m + _ < 2 * phi _ ?nd + _ => pose proof (IN c _ _ nd G I eq_refl); lia end).
  1: pose proof (CH c (NGroup [m]) m G ltac:(cbn; lia)).
  2: pose proof (CH c (NRange s e i) s G ltac:(cbn; lia)).
  3: pose proof (CH c (NRange s e i) e G ltac:(cbn; lia)).
  4: assert (phi c l < phi c (NControl ctl)) by (apply CH; auto; destruct P; cbn; lia).
  5: assert (phi c t < phi c (NControl ctl)) by (apply CH; auto; destruct P; cbn; lia).
  6: pose proof (CH c (NControl (CtlCbor nd)) nd G ltac:(cbn; lia)).
  7: pose proof (phi_size c (NChoiceify name args) (NRule name args) eq_refl).
  1-7: split; [exact G|unfold weight; cbn [c_job c_node c_ctx]; lia].
  - destruct (alt_weight c m (NChoiceifyInline ms) G (in_size _ _ I)) as (A & _).
    split; [destruct m; exact G|]. unfold weight at 2. cbn [c_job c_node c_ctx]. lia.
  - destruct (phi_lookup c name args nd' c' G L) as (G' & P). specialize (P (NRule name args) eq_refl).
    split; [exact G'|]. unfold weight; destruct j; try contradiction; cbn [c_job c_node c_ctx]; lia.
  - destruct (phi_lookup c name args _ c' G L) as (G' & P). specialize (P (NRule name args) eq_refl).
    split; [exact G'|]. unfold weight; destruct j; try contradiction; cbn [c_job c_node c_ctx]; lia.
  - destruct (phi_lookup c name args _ c' G L) as (G' & P). specialize (P (NRule name args) eq_refl).
    destruct (alt_weight c' m (NGroup ms) G' (in_size _ _ I)) as (A & _).
    split; [destruct m; exact G'|]. unfold weight at 2. cbn [c_job c_node c_ctx]. lia.
  - destruct (phi_lookup c name args _ c' G L) as (G' & P). specialize (P (NRule name args) eq_refl).
    destruct (alt_weight c' m (NGroup ms) G' (in_size _ _ I)) as (_ & A).
    split; [destruct m; exact G'|]. unfold weight at 2. cbn [c_job c_node c_ctx]. lia.
  - pose proof (CH c (NOccur lim m) m G ltac:(cbn; lia)).
    split; [exact G|unfold weight; cbn [c_job c_node c_ctx]; lia].
  - pose proof (CH c (NKeyValue key vl cut) vl G ltac:(cbn; lia)).
    split; [exact G|unfold weight; cbn [c_job c_node c_ctx]; lia].
  - destruct (phi_lookup c name args _ c' G L) as (G' & P). specialize (P (NUnwrap name args) eq_refl).
    pose proof (IN c' _ _ (NArray ms) G' I eq_refl).
    split; [exact G'|unfold weight; cbn [c_job c_node c_ctx]; lia].
  - pose proof (IN c _ _ (NChoice os) G I eq_refl).
    split; [exact G|unfold weight; cbn [c_job c_node c_ctx]; lia].
  - pose proof (IN c _ _ (NGroup ms) G I eq_refl).
    split; [exact G|unfold weight; cbn [c_job c_node c_ctx]; lia].
  - split; [exact G|unfold weight; cbn [c_job c_node c_ctx]; lia].
  - pose proof (CH c (NOccur lim m) m G ltac:(cbn; lia)).
    split; [exact G|unfold weight; cbn [c_job c_node c_ctx]; lia].
  - pose proof (CH c (NKeyValue key vl cut) key G ltac:(cbn; lia)).
    split; [exact G|unfold weight; cbn [c_job c_node c_ctx]; lia].
  - pose proof (CH c (NKeyValue key vl cut) vl G ltac:(cbn; lia)).
    split; [exact G|unfold weight; cbn [c_job c_node c_ctx]; lia].
  - destruct (phi_lookup c name args _ c' G L) as (G' & P). specialize (P (NUnwrap name args) eq_refl).
    pose proof (IN c' _ _ (NMap ms) G' I eq_refl).
    split; [exact G'|unfold weight; cbn [c_job c_node c_ctx]; lia].
  - pose proof (IN c _ _ (NChoice os) G I eq_refl).
    split; [exact G|unfold weight; cbn [c_job c_node c_ctx]; lia].
  - pose proof (IN c _ _ (NChoiceifyInline os) G I eq_refl).
    split; [exact G|unfold weight; cbn [c_job c_node c_ctx]; lia].
  - pose proof (IN c _ _ (NGroup ms) G I eq_refl).
    split; [exact G|unfold weight; cbn [c_job c_node c_ctx]; lia].
  - pose proof (phi_size c (NChoiceify name args) (NRule name args) eq_refl).
    split; [exact G|unfold weight; cbn [c_job c_node c_ctx]; lia].
Qed.

Lemma nested_weight n k k' : good (c_ctx k) -> nested (calls lk) n k k' -> n + weight k' <= weight k.
Proof.
  intros G H. induction H; [lia|]. destruct (calls_weight _ _ G H) as (G' & L). specialize (IHnested G'). lia.
Qed.
End Measure.

(** * With generic parameters *)
Section General.
Variable lk : lookup_context.
Variable s : nat.
Hypothesis sizes : forall name def, lk name = inl def -> nsize (rd_node def) <= s.

Definition unit_at (c : ctx) : nat := S s ^ (50 - N.to_nat (ctx_depth c)).
Fixpoint args_max (m : gmap) : nat := match m with [] => 0 | (_, a) :: m' => Nat.max (nsize a) (args_max m') end.
Fixpoint escape (c : ctx) : nat :=
  match c with
  | Ctx m None _ => 0
  | Ctx m (Some p) _ => args_max m * unit_at p + escape p
  end.
Definition phi (c : ctx) (nd : node) : nat := nsize nd * unit_at c + escape c.
Inductive sound : ctx -> Prop :=
| sound_start d : (d <= 50)%N -> sound (Ctx [] None d)
| sound_in m p d : (d <= 50)%N -> sound p -> sound (Ctx m (Some p) d).

Lemma unit_pos c : 1 <= unit_at c.
Proof. unfold unit_at. pose proof (Nat.pow_nonzero (S s) (50 - N.to_nat (ctx_depth c)) ltac:(lia)). lia. Qed.
Lemma args_max_get m name a : gm_get name m = Some a -> nsize a <= args_max m.
Proof.
  induction m as [|[k b] m IH]; cbn; [discriminate|]. destruct (text_eqb k name); intros E.
  - inversion E; subst. lia.
  - apply IH in E. lia.
Qed.
Lemma args_max_insert k a m : args_max (gm_insert k a m) <= Nat.max (nsize a) (args_max m).
Proof.
  induction m as [|[k' b] m IH]; cbn; [lia|]. destruct (text_eqb k' k); cbn; lia.
Qed.
Lemma args_max_collect ps args : args_max (gm_collect (combine ps args)) <= lsize args.
Proof.
  unfold gm_collect.
  assert (G : forall l m B, (forall p a, In (p, a) l -> nsize a <= B) -> args_max m <= B ->
    args_max (fold_left (fun m p => gm_insert (fst p) (snd p) m) l m) <= B).
  { induction l as [|[p a] l IH]; cbn; intros m B H L; auto. apply IH; eauto.
    pose proof (args_max_insert p a m). pose proof (H p a (or_introl eq_refl)). lia. }
  apply G; [|cbn; lia]. intros p a I. apply in_combine_r in I. apply lsize_in; auto.
Qed.

Lemma phi_rule_lookup c name args nd' c' : sound c -> lookup_rule lk c name args = Ok (nd', c') ->
  sound c' /\ forall nd, nsize nd = nsize (NRule name args) -> phi c' nd' < phi c nd.
Proof.
  intros G L. unfold lookup_rule in L. destruct (gm_get name (ctx_map c)) as [a|] eqn:E.
  - destruct G as [d D|m p d D G]; cbn in *; [discriminate|]. inversion L; subst. split; auto.
    intros nd H. unfold phi at 2. cbn [escape]. unfold phi.
    apply args_max_get in E. pose proof (unit_pos (Ctx m (Some c') d)).
    change (nsize nd = S (lsize args)) in H. rewrite H.
    enough (nsize nd' * unit_at c' <= args_max m * unit_at c') by lia.
    apply Nat.mul_le_mono_r; auto.
  - destruct (lk name) as [def|e] eqn:K; [|discriminate]. unfold derive in L.
    destruct (negb _); [discriminate|]. unfold inc_depth in L. cbn in L.
    destruct (N.leb_spec max_depth (ctx_depth c)) as [|D]; [discriminate|]. cbn in L. inversion L; subst.
    unfold max_depth in D. split; [constructor; auto; lia|]. intros nd H.
    change (nsize nd = S (lsize args)) in H. unfold phi. rewrite H. cbn [escape].
    apply sizes in K. pose proof (args_max_collect (rd_parms def) args) as A.
    assert (U : unit_at c = S s * unit_at (Ctx (gm_collect (combine (rd_parms def) args)) (Some c) (ctx_depth c + 1))).
    { unfold unit_at. cbn [ctx_depth].
      replace (50 - N.to_nat (ctx_depth c)) with (S (50 - N.to_nat (ctx_depth c + 1))) by lia. reflexivity. }
    set (u := unit_at (Ctx _ _ _)) in *.
    pose proof (unit_pos (Ctx (gm_collect (combine (rd_parms def) args)) (Some c) (ctx_depth c + 1))) as P. fold u in P.
    enough (nsize (rd_node def) * u < unit_at c /\ args_max (gm_collect (combine (rd_parms def) args)) * unit_at c <= lsize args * unit_at c) by lia.
    split; [rewrite U; nia|]. apply Nat.mul_le_mono_r; auto.
Qed.

Theorem nesting_bound n nd k : nested (calls lk) n (Call JType nd initial_ctx) k ->
  n <= 2 * (nsize nd * S s ^ 50) + 1.
Proof.
  intros H. pose proof (nested_weight lk sound phi) as W.
  assert (H1 : forall c nd nd', sound c -> nsize nd' < nsize nd -> phi c nd' < phi c nd).
  { intros c a b _ L. unfold phi. pose proof (unit_pos c). nia. }
  assert (H2 : forall c nd nd', nsize nd' = nsize nd -> phi c nd' = phi c nd).
  { intros c a b E. unfold phi. rewrite E. reflexivity. }
  specialize (W H1 H2 phi_rule_lookup n (Call JType nd initial_ctx) k (sound_start 0 ltac:(lia)) H).
  assert (E : weight phi (Call JType nd initial_ctx) = 2 * (nsize nd * unit_at initial_ctx) + 1).
  { unfold weight, phi. cbn [c_job c_ctx c_node]. change (escape initial_ctx) with 0. rewrite Nat.add_0_r. reflexivity. }
  assert (E2 : unit_at initial_ctx = S s ^ 50) by (unfold unit_at; apply (f_equal (Nat.pow (S s))); reflexivity).
  rewrite E2 in E. generalize dependent (S s ^ 50). intros; lia.
Qed.
End General.

(** * Without generic parameters *)
Section Plain.
Variable lk : lookup_context.
Variable s : nat.
Hypothesis sizes : forall name def, lk name = inl def -> nsize (rd_node def) <= s.
Hypothesis plain : forall name def, lk name = inl def -> rd_parms def = [].

Definition phi0 (c : ctx) (nd : node) : nat := nsize nd + (50 - N.to_nat (ctx_depth c)) * S s.
Definition flat (c : ctx) : Prop := ctx_map c = [].

Lemma phi0_lookup c name args nd' c' : flat c -> lookup_rule lk c name args = Ok (nd', c') ->
  flat c' /\ forall nd, nsize nd = nsize (NRule name args) -> phi0 c' nd' < phi0 c nd.
Proof.
  intros G L. unfold lookup_rule in L. rewrite G in L. cbn in L.
  destruct (lk name) as [def|e] eqn:K; [|discriminate]. unfold derive in L.
  destruct (negb _); [discriminate|]. unfold inc_depth in L. cbn in L.
  destruct (N.leb_spec max_depth (ctx_depth c)) as [|D]; [discriminate|]. cbn in L. inversion L; subst.
  unfold max_depth in D. split; [unfold flat; cbn; rewrite (plain _ _ K); reflexivity|]. intros nd H.
  change (nsize nd = S (lsize args)) in H. unfold phi0. rewrite H. cbn [ctx_depth].
  apply sizes in K. replace (50 - N.to_nat (ctx_depth c)) with (S (50 - N.to_nat (ctx_depth c + 1))) by lia. nia.
Qed.
Theorem nesting_bound_plain n nd k : nested (calls lk) n (Call JType nd initial_ctx) k ->
  n <= 2 * (nsize nd + 50 * S s) + 1.
Proof.
  intros H. pose proof (nested_weight lk flat phi0) as W.
  assert (H1 : forall c nd nd', flat c -> nsize nd' < nsize nd -> phi0 c nd' < phi0 c nd) by (unfold phi0; intros; lia).
  assert (H2 : forall c nd nd', nsize nd' = nsize nd -> phi0 c nd' = phi0 c nd) by (unfold phi0; intros; lia).
  specialize (W H1 H2 phi0_lookup n (Call JType nd initial_ctx) k eq_refl H).
  unfold weight at 2 in W. cbn [c_job c_ctx c_node] in W. unfold phi0 in W at 2.
  change (50 - N.to_nat (ctx_depth initial_ctx)) with 50 in W. lia.
Qed.
End Plain.

(** * Enough nesting is enough fuel *)
Section Adequate.
Variable X : ext.
Variable lk : lookup_context.
Variable U : nat.

(** Every chain from [k] is shorter than [n] and meets only limits within [U]. *)
Inductive fits : nat -> call -> Prop :=
| fits_intro n k : limit_within (N.of_nat U) k -> (forall k', calls lk k k' -> fits n k') -> fits (S n) k.

Lemma fits_of n k : (forall m k', nested (calls lk) m k k' -> m <= n /\ limit_within (N.of_nat U) k') -> fits (S n) k.
Proof.
  revert k; induction n as [|n IH]; intros k H; constructor; try (eapply H; constructor).
  - intros k' C. destruct (H 1 k'); [|lia]. econstructor; [exact C|constructor].
  - intros k' C. apply IH. intros m k2 N. destruct (H (S m) k2); [econstructor; eauto|]. split; auto; lia.
Qed.

Definition enough (n : nat) (k : call) : Prop :=
  match k with
  | Call JType nd c => forall v, validate X (lookup_rule lk) n v nd c <> None
  | Call JArray m c => forall w, validate_array_member X (lookup_rule lk) n m w c <> None
  | Call JMap m c => forall w, validate_map_member X (lookup_rule lk) n m w c <> None
  | Call JAlt nd c => match nd with
      | NRule name args => forall v, validate_choiceify X (lookup_rule lk) n name args v c <> None
      | _ => True end
  | Call JMapAlt nd c => match nd with
      | NRule name args => forall w, validate_map_choiceify X (lookup_rule lk) n name args w c <> None
      | _ => True end
  | Call JChase nd c => deref_range_rule (lookup_rule lk) n nd c <> None /\
      forall R (f : node -> res R), chase_rules (lookup_rule lk) n f nd c <> None
  end.

Lemma seq_some {St} (f : node -> St -> option (res unit * St)) ms : (forall m, In m ms -> forall s, f m s <> None) ->
  forall s, seq_loop f ms s <> None.
Proof.
  induction ms as [|m ms IH]; cbn; intros H s; [discriminate|].
  pose proof (H m (or_introl eq_refl) s). destruct (f m s) as [[[u|e|] s1]|]; try congruence. apply IH; auto.
Qed.
Lemma try_some {St} stop (f : node -> St -> option (res unit * St)) ms fin : (forall m, In m ms -> forall s, f m s <> None) ->
  forall s, try_loop stop f ms fin s <> None.
Proof.
  induction ms as [|m ms IH]; cbn; intros H s; [discriminate|].
  pose proof (H m (or_introl eq_refl) s). destruct (f m s) as [[[u|e|] s1]|]; try congruence.
  destruct (stop e); [discriminate|]. apply IH; auto.
Qed.
Lemma try_pure_some stop (f : node -> option (res unit)) ms fin : (forall m, In m ms -> f m <> None) ->
  try_loop_pure stop f ms fin <> None.
Proof.
  induction ms as [|m ms IH]; cbn; intros H; [discriminate|].
  pose proof (H m (or_introl eq_refl)). destruct (f m) as [[u|e|]|]; try congruence.
  destruct (stop e); [discriminate|]. apply IH; auto.
Qed.
Lemma occur_some {St} (step : St -> option (res unit * St)) up : (forall s, step s <> None) ->
  forall n count s, 0 < n -> (up <= count + N.of_nat n)%N -> occur_loop n step up count s <> None.
Proof.
  intros H. induction n as [|n IH]; cbn [occur_loop]; intros count s P L; [lia|].
  pose proof (H s). destruct (step s) as [[[u|e|] s1]|]; try congruence; [|destruct (is_mismatch e); discriminate].
  destruct (N.leb_spec up (count + 1)); [discriminate|]. apply IH; lia.
Qed.
Lemma search_some (rec : value -> option (res unit)) l fin : (forall k, rec k <> None) -> map_search_loop rec l fin <> None.
Proof.
  intros H. induction l as [|[k v] l IH]; cbn; [discriminate|].
  pose proof (H k). destruct (rec k) as [[u|e|]|]; congruence.
Qed.
Lemma obind_some {A B} (r : option (res A)) (f : A -> option (res B)) : r <> None -> (forall a, f a <> None) -> obind r f <> None.
Proof. destruct r as [[a|e|]|]; cbn; intros; congruence || auto. Qed.

Lemma fits_enough n : forall k F, fits n k -> n + U <= F -> enough F k.
Proof.
  induction n as [|n IH]; intros k F H L; inversion H as [n0 k0 HL HC]; subst.
  destruct F as [|F]; [lia|].
  assert (N : forall k', calls lk k k' -> enough F k') by (intros k' C; apply IH; [auto|lia]).
  assert (P : forall k', calls lk k k' -> 0 < n).
  { intros k' C. apply HC in C. inversion C; lia. }
  clear IH H. destruct k as [j nd c]. destruct j.
  - intros v. rewrite validate_S. destruct nd; try discriminate.
    + destruct (lookup_rule lk c name args) as [[nd' c']|e|] eqn:E; try discriminate.
      apply (N (Call JType nd' c')). constructor; cbn; auto.
    + apply try_pure_some. intros m I. apply (N (Call JType m c)). constructor; auto.
    + unfold validate_map. destruct v as [| | | | | | |vm]; try discriminate.
      assert (S : forall w, seq_loop (fun m w => validate_map_member X (lookup_rule lk) F m w c) members w <> None).
      { apply seq_some. intros m I. apply (N (Call JMap m c)). constructor; auto. }
      specialize (S (wm_new vm)). destruct (seq_loop _ _ _) as [[[u|e|] w]|]; try congruence. destruct (wm_map w); discriminate.
    + unfold validate_array. destruct v; try discriminate.
      assert (S : forall w, seq_loop (fun m w => validate_array_member X (lookup_rule lk) F m w c) members w <> None).
      { apply seq_some. intros m I. apply (N (Call JArray m c)). constructor; auto. }
      specialize (S (wa_new l)). destruct (seq_loop _ _ _) as [[[u|e|] w]|]; try congruence. destruct (wa_array w); discriminate.
    + destruct members as [|m [|? ?]]; try discriminate. apply (N (Call JType m c)). constructor.
    + apply obind_some; [apply (N (Call JChase nd1 c)); constructor|]. intros a.
      apply obind_some; [apply (N (Call JChase nd2 c)); constructor|]. discriminate.
    + destruct c0 as [t l|t l|t l|t l|t l|re|nd]; cbn [validate_control]; try discriminate.
      1-5: (apply obind_some; [apply (N (Call JChase l c)); eapply k_limit; constructor|];
            intros a; apply (N (Call JChase t c)); eapply k_target; constructor).
      unfold validate_control_cbor. destruct v as [| | | |by_| | |]; try discriminate.
      destruct (cbor_decode X by_) as [cv|]; try discriminate. destruct (of_cbor cv); try discriminate. apply (N (Call JType nd c)). constructor.
    + apply (N (Call JAlt (NRule name args) c)). constructor.
    + apply try_pure_some. intros m I. pose proof (N _ (k_inline lk members m c I)) as E.
      destruct m; cbn in E |- *; apply E.
  - intros w. rewrite validate_array_member_S.
    assert (AV : forall nd', calls lk (Call JArray nd c) (Call JType nd' c) ->
       validate_array_value X (fun v nd => validate X (lookup_rule lk) F v nd c) nd' w <> None).
    { intros nd' C. unfold validate_array_value. destruct (wa_peek_front w) as [v|]; [|discriminate].
      pose proof (N _ C v) as E. destruct (validate X (lookup_rule lk) F v nd' c) as [[u|e|]|]; try congruence.
      destruct (wa_pop_front w); discriminate. }
    destruct nd; try (apply AV; constructor; exact I).
    + destruct (lookup_rule lk c name args) as [[nd' c']|e|] eqn:E; try discriminate.
      apply (N (Call JArray nd' c')). constructor; cbn; auto.
    + apply try_some. intros m I. apply (N (Call JArray m c)). constructor; auto.
    + unfold validate_array_group.
      assert (S : forall w, seq_loop (fun m w => validate_array_member X (lookup_rule lk) F m w c) members w <> None).
      { apply seq_some. intros m I. apply (N (Call JArray m c)). constructor; auto. }
      specialize (S (wa_snapshot w)). destruct (seq_loop _ _ _) as [[[u|e|] w1]|]; try congruence.
      * destruct (wa_commit w1); discriminate.
      * destruct (wa_rewind w1); discriminate.
    + unfold validate_array_occur. rewrite limits_bounds in *; destruct (bounds limit) as [lo up] eqn:E.
      unfold limit_within in HL. cbn in HL. rewrite E in HL. cbn in HL.
      pose proof (P _ (k_a_occur lk limit nd c)).
      assert (S : occur_loop F (fun w => validate_array_member X (lookup_rule lk) F nd w c) up 0 w <> None).
      { apply occur_some; try lia. apply (N (Call JArray nd c)). constructor. }
      destruct (occur_loop F _ up 0 w) as [[[u|e|] w1]|]; try congruence; try discriminate. destruct (N.ltb u lo); discriminate.
    + destruct (lookup_rule lk c name args) as [[nd' c']|e|] eqn:E; try discriminate.
      destruct nd'; try discriminate. apply seq_some. intros m I. apply (N (Call JArray m c')). econstructor; eauto.
  - intros w. rewrite validate_map_member_S. destruct nd; try discriminate.
    + destruct (lookup_rule lk c name args) as [[nd' c']|e|] eqn:E; try discriminate.
      apply (N (Call JMap nd' c')). constructor; cbn; auto.
    + apply try_some. intros m I. apply (N (Call JMap m c)). constructor; auto.
    + unfold validate_map_group.
      assert (S : forall w, seq_loop (fun m w => validate_map_member X (lookup_rule lk) F m w c) members w <> None).
      { apply seq_some. intros m I. apply (N (Call JMap m c)). constructor; auto. }
      specialize (S (wm_snapshot w)). destruct (seq_loop _ _ _) as [[[u|e|] w1]|]; try congruence.
      * destruct (wm_commit w1); discriminate.
      * destruct (wm_rewind w1); discriminate.
    + unfold validate_map_keyvalue.
      assert (S : validate_map_key X (fun v nd => validate X (lookup_rule lk) F v nd c) nd1 w <> None).
      { unfold validate_map_key, map_search. destruct nd1; try discriminate; apply search_some; intros k;
          apply (N (Call JType _ c)); constructor. }
      destruct (validate_map_key _ _ _ _) as [[[k v]|e|]|]; try congruence.
      pose proof (N _ (k_m_value lk nd1 nd2 cut c) v) as E.
      destruct (validate X (lookup_rule lk) F v nd2 c) as [[u|e|]|]; try congruence.
      * destruct (wm_remove k w); discriminate.
      * destruct cut, e; discriminate.
    + unfold validate_map_occur. rewrite limits_bounds in *; destruct (bounds limit) as [lo up] eqn:E.
      unfold limit_within in HL. cbn in HL. rewrite E in HL. cbn in HL.
      pose proof (P _ (k_m_occur lk limit nd c)).
      assert (S : occur_loop F (fun w => validate_map_member X (lookup_rule lk) F nd w c) up 0 w <> None).
      { apply occur_some; try lia. apply (N (Call JMap nd c)). constructor. }
      destruct (occur_loop F _ up 0 w) as [[[u|e|] w1]|]; try congruence; try discriminate. destruct (N.ltb u lo); discriminate.
    + destruct (lookup_rule lk c name args) as [[nd' c']|e|] eqn:E; try discriminate.
      destruct nd'; try discriminate. apply seq_some. intros m I. apply (N (Call JMap m c')). econstructor; eauto.
    + apply (N (Call JMapAlt (NRule name args) c)). constructor.
    + apply try_some. intros m I. apply (N (Call JMap m c)). constructor; auto.
  - destruct nd; try exact I. intros v. rewrite validate_choiceify_S.
    destruct (lookup_rule lk c name args) as [[nd' c']|e|] eqn:E; try discriminate.
    destruct nd'; try discriminate.
    + apply (N (Call JAlt (NRule name0 args0) c')). apply k_alt_rule; cbn; auto.
    + apply try_pure_some. intros m I. pose proof (N _ (k_alt_group lk _ _ _ m _ _ E I)) as Q.
      destruct m; cbn in Q |- *; apply Q.
  - destruct nd; try exact I. intros w. rewrite validate_map_choiceify_S.
    destruct (lookup_rule lk c name args) as [[nd' c']|e|] eqn:E; try discriminate.
    destruct nd'; try discriminate.
    + apply (N (Call JMapAlt (NRule name0 args0) c')). apply k_alt_rule; cbn; auto.
    + apply try_some. intros m I. pose proof (N _ (k_map_alt_group lk _ _ _ m _ _ E I)) as Q.
      destruct m; cbn in Q |- *; apply Q.
  - split; [|intros R f].
    + cbn. destruct nd; try discriminate. destruct (lookup_rule lk c name args) as [[nd' c']|e|] eqn:E; try discriminate.
      apply (N (Call JChase nd' c')). constructor; cbn; auto.
    + cbn. destruct nd; try discriminate. destruct (lookup_rule lk c name args) as [[nd' c']|e|] eqn:E; try discriminate.
      apply (N (Call JChase nd' c')). constructor; cbn; auto.
Qed.

Theorem nesting_adequate n v nd c :
  (forall m k, nested (calls lk) m (Call JType nd c) k -> m <= n /\ limit_within (N.of_nat U) k) ->
  forall F, n + U < F -> validate X (lookup_rule lk) F v nd c <> None.
Proof. intros H F L. exact (fits_enough (S n) (Call JType nd c) F (fits_of n _ H) L v). Qed.
End Adequate.
