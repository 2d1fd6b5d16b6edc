(** Fuel monotonicity of the validator: more fuel never changes a result. *)
From Coq Require Import List Bool ZArith NArith String Lia Arith.
From Verif Require Import Base Util Data Value Convert Ivt Scalar Validate Unfold.
Import ListNotations.

Definition le_opt {A} (a b : option A) : Prop := a = None \/ a = b.

Lemma le_opt_refl {A} (a : option A) : le_opt a a.
Proof. right; reflexivity. Qed.
Lemma le_opt_none {A} (a : option A) : le_opt None a.
Proof. left; reflexivity. Qed.
Global Hint Resolve le_opt_refl le_opt_none : mono.

Lemma le_opt_some {A} (a b : option A) x : le_opt a b -> a = Some x -> b = Some x.
Proof. intros [-> | ->]; congruence. Qed.

Lemma le_opt_match {A B} (a b : option A) (f g : A -> option B) :
  le_opt a b -> (forall x, le_opt (f x) (g x)) ->
  le_opt (match a with Some x => f x | None => None end)
         (match b with Some x => g x | None => None end).
Proof.
  intros [-> | ->] H; [left; reflexivity|].
  destruct b; [apply H | left; reflexivity].
Qed.

Section Loops.
Context {St : Type}.
Variables f g : node -> St -> option (res unit * St).
Hypothesis H : forall m s, le_opt (f m s) (g m s).

Lemma try_loop_mono stop os fin s : le_opt (try_loop stop f os fin s) (try_loop stop g os fin s).
Proof.
  revert s; induction os as [|o os IH]; intros s; cbn; auto with mono.
  destruct (H o s) as [-> | ->]; auto with mono.
  destruct (g o s) as [[[u|e|] s']|]; auto with mono.
  destruct (stop e); auto with mono.
Qed.

Lemma seq_loop_mono ms s : le_opt (seq_loop f ms s) (seq_loop g ms s).
Proof.
  revert s; induction ms as [|o os IH]; intros s; cbn; auto with mono.
  destruct (H o s) as [-> | ->]; auto with mono.
  destruct (g o s) as [[[u|e|] s']|]; auto with mono.
Qed.
End Loops.

Lemma occur_loop_mono {St} (f g : St -> option (res unit * St)) n m upper count s :
  n <= m -> (forall s, le_opt (f s) (g s)) ->
  le_opt (occur_loop n f upper count s) (occur_loop m g upper count s).
Proof.
  intros Hnm H; revert m Hnm count s; induction n as [|n IH]; intros m Hnm count s; cbn; auto with mono.
  destruct m as [|m]; [lia|]; cbn.
  destruct (H s) as [-> | ->]; auto with mono.
  destruct (g s) as [[[u|e|] s']|]; auto with mono.
  destruct (N.leb upper (count + 1)); auto with mono.
  apply IH; lia.
Qed.

Lemma try_loop_pure_mono (f g : node -> option (res unit)) stop os fin :
  (forall o, le_opt (f o) (g o)) ->
  le_opt (try_loop_pure stop f os fin) (try_loop_pure stop g os fin).
Proof.
  intros H; induction os as [|o os IH]; cbn; auto with mono.
  destruct (H o) as [-> | ->]; auto with mono.
  destruct (g o) as [[u|e|]|]; auto with mono.
  destruct (stop e); auto with mono.
Qed.

Lemma map_search_loop_mono (f g : value -> option (res unit)) l fin :
  (forall o, le_opt (f o) (g o)) ->
  le_opt (map_search_loop f l fin) (map_search_loop g l fin).
Proof.
  intros H; induction l as [|[k v] os IH]; cbn; auto with mono.
  destruct (H k) as [-> | ->]; auto with mono.
  destruct (g k) as [[u|e|]|]; auto with mono.
Qed.

Lemma obind_mono {A B} (a b : option (res A)) (f g : A -> option (res B)) :
  le_opt a b -> (forall x, le_opt (f x) (g x)) -> le_opt (obind a f) (obind b g).
Proof.
  intros [-> | ->] H; [left; reflexivity|].
  destruct b as [[x|e|]|]; cbn; auto with mono.
Qed.

Section Mono.
Variable X : ext.
Context {C : Type}.
Variable lookup : C -> text -> list node -> res (node * C).

Lemma deref_mono n m nd c : n <= m -> le_opt (deref_range_rule lookup n nd c) (deref_range_rule lookup m nd c).
Proof.
  revert m nd c; induction n as [|n IH]; intros m nd c Hnm; cbn; auto with mono.
  destruct m as [|m]; [lia|]; cbn.
  destruct nd; auto with mono.
  destruct (lookup c name args) as [[nd' c']|e|]; auto with mono.
  apply IH; lia.
Qed.

Lemma chase_mono {R} n m (f : node -> res R) nd c :
  n <= m -> le_opt (chase_rules lookup n f nd c) (chase_rules lookup m f nd c).
Proof.
  revert m nd c; induction n as [|n IH]; intros m nd c Hnm; cbn; auto with mono.
  destruct m as [|m]; [lia|]; cbn.
  destruct nd; auto with mono.
  destruct (lookup c name args) as [[nd' c']|e|]; auto with mono.
  apply IH; lia.
Qed.

Lemma control_mono n m (f g : value -> node -> option (res unit)) ctl v c :
  n <= m -> (forall v nd, le_opt (f v nd) (g v nd)) ->
  le_opt (validate_control X lookup n f ctl v c) (validate_control X lookup m g ctl v c).
Proof.
  intros Hnm H; destruct ctl; cbn; auto with mono;
    unfold validate_control_size, validate_control_lt, validate_control_le,
      validate_control_gt, validate_control_ge;
    try (apply obind_mono; [apply chase_mono; lia | intros; apply chase_mono; lia]).
  unfold validate_control_cbor. destruct v; auto with mono.
  destruct (cbor_decode X b); auto with mono.
  destruct (of_cbor c0); auto with mono.
Qed.

Lemma array_value_mono (f g : value -> node -> option (res unit)) nd w :
  (forall v nd, le_opt (f v nd) (g v nd)) ->
  le_opt (validate_array_value X f nd w) (validate_array_value X g nd w).
Proof.
  intros H; unfold validate_array_value.
  destruct (wa_peek_front w); auto with mono.
  destruct (H v nd) as [-> | ->]; auto with mono.
Qed.

Lemma map_keyvalue_mono (f g : value -> node -> option (res unit)) k v cut w :
  (forall v nd, le_opt (f v nd) (g v nd)) ->
  le_opt (validate_map_keyvalue X f k v cut w) (validate_map_keyvalue X g k v cut w).
Proof.
  intros H; unfold validate_map_keyvalue.
  assert (K : le_opt (validate_map_key X f k w) (validate_map_key X g k w)).
  { unfold validate_map_key, map_search.
    destruct k; auto with mono; apply map_search_loop_mono; auto. }
  destruct K as [-> | ->]; auto with mono.
  destruct (validate_map_key X g k w) as [[[wk wv]|e|]|]; auto with mono.
  destruct (H wv v) as [-> | ->]; auto with mono.
Qed.

Lemma group_mono_a (f g : node -> warray -> option (res unit * warray)) ms w :
  (forall m s, le_opt (f m s) (g m s)) ->
  le_opt (validate_array_group f ms w) (validate_array_group g ms w).
Proof.
  intros H; unfold validate_array_group.
  destruct (seq_loop_mono f g H ms (wa_snapshot w)) as [-> | ->]; auto with mono.
Qed.

Lemma group_mono_m (f g : node -> wmap -> option (res unit * wmap)) ms w :
  (forall m s, le_opt (f m s) (g m s)) ->
  le_opt (validate_map_group f ms w) (validate_map_group g ms w).
Proof.
  intros H; unfold validate_map_group.
  destruct (seq_loop_mono f g H ms (wm_snapshot w)) as [-> | ->]; auto with mono.
Qed.

Theorem mono n : forall m, n <= m ->
  (forall v nd c, le_opt (validate X lookup n v nd c) (validate X lookup m v nd c)) /\
  (forall nd w c, le_opt (validate_array_member X lookup n nd w c) (validate_array_member X lookup m nd w c)) /\
  (forall nd w c, le_opt (validate_map_member X lookup n nd w c) (validate_map_member X lookup m nd w c)) /\
  (forall nm args v c, le_opt (validate_choiceify X lookup n nm args v c) (validate_choiceify X lookup m nm args v c)) /\
  (forall nm args w c, le_opt (validate_map_choiceify X lookup n nm args w c) (validate_map_choiceify X lookup m nm args w c)).
Proof.
  induction n as [|n IH]; intros m Hnm.
  { repeat split; intros; cbn; auto with mono. }
  destruct m as [|m]; [lia|].
  destruct (IH m ltac:(lia)) as (IHv & IHa & IHm & IHc & IHmc).
  assert (Hn : n <= m) by lia.
  repeat split; intros;
    rewrite ?validate_S, ?validate_array_member_S, ?validate_map_member_S,
      ?validate_choiceify_S, ?validate_map_choiceify_S.
  - destruct nd; auto with mono.
    + destruct (lookup c name args) as [[nd' c']|e|]; auto with mono.
    + apply try_loop_pure_mono; auto.
    + unfold validate_map. destruct v; auto with mono.
      destruct (seq_loop_mono _ _ (fun m w => IHm m w c) members (wm_new m0)) as [-> | ->];
        auto with mono.
    + unfold validate_array. destruct v; auto with mono.
      destruct (seq_loop_mono _ _ (fun m w => IHa m w c) members (wa_new l)) as [-> | ->];
        auto with mono.
    + unfold validate_standalone_group.
      destruct members as [|x [|y l]]; auto with mono.
    + apply obind_mono; [apply deref_mono; auto|]; intros.
      apply obind_mono; [apply deref_mono; auto|]; intros; auto with mono.
    + apply control_mono; auto.
    + apply try_loop_pure_mono; auto; intros []; auto.
  - destruct nd; auto using array_value_mono with mono.
    + destruct (lookup c name args) as [[nd' c']|e|]; auto with mono.
    + apply try_loop_mono; auto.
    + apply group_mono_a; auto.
    + unfold validate_array_occur. destruct (limits limit) as [lo up].
      destruct (occur_loop_mono _ _ n m up 0%N w Hn (fun w => IHa nd w c)) as [-> | ->];
        auto with mono.
    + destruct (lookup c name args) as [[nd' c']|e|]; auto with mono.
      unfold validate_array_unwrap. destruct nd'; auto with mono.
      apply seq_loop_mono; auto.
  - destruct nd; auto using map_keyvalue_mono with mono.
    + destruct (lookup c name args) as [[nd' c']|e|]; auto with mono.
    + apply try_loop_mono; auto.
    + apply group_mono_m; auto.
    + unfold validate_map_occur. destruct (limits limit) as [lo up].
      destruct (occur_loop_mono _ _ n m up 0%N w Hn (fun w => IHm nd w c)) as [-> | ->];
        auto with mono.
    + destruct (lookup c name args) as [[nd' c']|e|]; auto with mono.
      unfold validate_map_unwrap. destruct nd'; auto with mono.
      apply seq_loop_mono; auto.
    + apply try_loop_mono; auto.
  - destruct (lookup c nm args) as [[nd' c']|e|]; auto with mono.
    destruct nd'; auto with mono.
    apply try_loop_pure_mono; auto; intros []; auto.
  - destruct (lookup c nm args) as [[nd' c']|e|]; auto with mono.
    destruct nd'; auto with mono.
    apply try_loop_mono; auto; intros []; auto.
Qed.

Corollary validate_mono n m v nd c r :
  n <= m -> validate X lookup n v nd c = Some r -> validate X lookup m v nd c = Some r.
Proof. intros H; apply le_opt_some, mono; auto. Qed.
Corollary amember_mono n m nd w c r :
  n <= m -> validate_array_member X lookup n nd w c = Some r -> validate_array_member X lookup m nd w c = Some r.
Proof. intros H; apply le_opt_some, mono; auto. Qed.
Corollary mmember_mono n m nd w c r :
  n <= m -> validate_map_member X lookup n nd w c = Some r -> validate_map_member X lookup m nd w c = Some r.
Proof. intros H; apply le_opt_some, mono; auto. Qed.
Corollary choiceify_mono n m nm args v c r :
  n <= m -> validate_choiceify X lookup n nm args v c = Some r -> validate_choiceify X lookup m nm args v c = Some r.
Proof. intros H; apply le_opt_some, mono; auto. Qed.
Corollary mchoiceify_mono n m nm args w c r :
  n <= m -> validate_map_choiceify X lookup n nm args w c = Some r ->
  validate_map_choiceify X lookup m nm args w c = Some r.
Proof. intros H; apply le_opt_some, mono; auto. Qed.

(** Results do not depend on the amount of fuel. *)
Lemma validate_det n m v nd c r r' :
  validate X lookup n v nd c = Some r -> validate X lookup m v nd c = Some r' -> r = r'.
Proof.
  intros H1 H2. destruct (Nat.le_ge_cases n m) as [L|L].
  - eapply validate_mono in H1; eauto; congruence.
  - eapply validate_mono in H2; eauto; congruence.
Qed.
End Mono.
