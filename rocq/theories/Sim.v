(** Lock-step simulation between two instances of the validator (two kinds of
    contexts with their lookups). *)
From Coq Require Import List Bool ZArith NArith String Lia Arith.
From Verif Require Import Base Util Data Value Convert Ivt Scalar Validate Unfold Mono SpecCtx.
Import ListNotations.

(** [a] is undefined, panics, or equals [b]. *)
Definition lp {A} (a b : option (res A)) : Prop := a = None \/ a = Some Panic \/ a = b.
Definition lps {A S} (a b : option (res A * S)) : Prop :=
  a = None \/ (exists s, a = Some (Panic, s)) \/ a = b.

Lemma lp_refl {A} (a : option (res A)) : lp a a. Proof. right; right; auto. Qed.
Lemma lps_refl {A S} (a : option (res A * S)) : lps a a. Proof. right; right; auto. Qed.
Lemma lp_none {A} (a : option (res A)) : lp None a. Proof. left; auto. Qed.
Lemma lps_none {A S} (a : option (res A * S)) : lps None a. Proof. left; auto. Qed.
Lemma lp_panic {A} (a : option (res A)) : lp (Some Panic) a. Proof. right; left; auto. Qed.
Lemma lps_panic {A S} s (a : option (res A * S)) : lps (Some (Panic, s)) a. Proof. right; left; eauto. Qed.
Global Hint Resolve lp_refl lps_refl lp_none lps_none lp_panic lps_panic : sim.

Ltac simp H := destruct H as [H|[H|H]]; [| |];
  try (match type of H with exists _, _ => let s := fresh "s" in destruct H as [s H] end);
  rewrite H; auto with sim.

Section Loops.
Context {St : Type}.
Variables f g : node -> St -> option (res unit * St).

Lemma try_sim stop os fin s :
  (forall m s, In m os -> lps (f m s) (g m s)) ->
  lps (try_loop stop f os fin s) (try_loop stop g os fin s).
Proof.
  revert s; induction os as [|o os IH]; intros s H; cbn; auto with sim.
  pose proof (H o s (or_introl eq_refl)) as Ho. simp Ho.
  destruct (g o s) as [[[u|e|] s']|]; auto with sim.
  destruct (stop e); auto with sim. apply IH. intros; apply H; right; auto.
Qed.

Lemma seq_sim os s :
  (forall m s, In m os -> lps (f m s) (g m s)) ->
  lps (seq_loop f os s) (seq_loop g os s).
Proof.
  revert s; induction os as [|o os IH]; intros s H; cbn; auto with sim.
  pose proof (H o s (or_introl eq_refl)) as Ho. simp Ho.
  destruct (g o s) as [[[u|e|] s']|]; auto with sim.
  apply IH. intros; apply H; right; auto.
Qed.
End Loops.

Lemma occur_sim {St} (f g : St -> option (res unit * St)) n upper count s :
  (forall s, lps (f s) (g s)) ->
  lps (occur_loop n f upper count s) (occur_loop n g upper count s).
Proof.
  intros H; revert count s; induction n as [|n IH]; intros count s; cbn; auto with sim.
  pose proof (H s) as Ho. simp Ho.
  destruct (g s) as [[[u|e|] s']|]; auto with sim.
  destruct (N.leb upper (count + 1)); auto with sim.
Qed.

Lemma try_pure_sim (f g : node -> option (res unit)) stop os fin :
  (forall o, In o os -> lp (f o) (g o)) ->
  lp (try_loop_pure stop f os fin) (try_loop_pure stop g os fin).
Proof.
  induction os as [|o os IH]; intros H; cbn; auto with sim.
  pose proof (H o (or_introl eq_refl)) as Ho. simp Ho.
  destruct (g o) as [[u|e|]|]; auto with sim.
  destruct (stop e); auto with sim. apply IH. intros; apply H; right; auto.
Qed.

Lemma search_sim (f g : value -> option (res unit)) l fin :
  (forall o, lp (f o) (g o)) ->
  lp (map_search_loop f l fin) (map_search_loop g l fin).
Proof.
  intros H; induction l as [|[k v] os IH]; cbn; auto with sim.
  pose proof (H k) as Ho. simp Ho.
  destruct (g k) as [[u|e|]|]; auto with sim.
Qed.

Lemma obind_sim {A B} (a b : option (res A)) (f g : A -> option (res B)) :
  lp a b -> (forall x, lp (f x) (g x)) -> lp (obind a f) (obind b g).
Proof.
  intros H Hf. simp H; cbn; auto with sim. destruct b as [[x|e|]|]; cbn; auto with sim.
Qed.

Section Sim.
Variable X : ext.
Context {C1 C2 : Type}.
Variable l1 : C1 -> text -> list node -> res (node * C1).
Variable l2 : C2 -> text -> list node -> res (node * C2).
Variable R : C1 -> C2 -> node -> Prop.

Hypothesis R_sub : forall c1 c2 nd nd', R c1 c2 nd -> In nd' (children nd) -> R c1 c2 nd'.

Definition look_rel (c1 : C1) (c2 : C2) (name : text) (args : list node) : Prop :=
  match l1 c1 name args with
  | Ok (nd', c1') => exists c2', l2 c2 name args = Ok (nd', c2') /\ R c1' c2' nd'
  | Err e => l2 c2 name args = Err e
  | Panic => True
  end.

Hypothesis R_look : forall c1 c2 nd name args,
  R c1 c2 nd -> refers nd = Some (name, args) -> look_rel c1 c2 name args.

Lemma deref_sim n c1 c2 nd : R c1 c2 nd ->
  lp (deref_range_rule l1 n nd c1) (deref_range_rule l2 n nd c2).
Proof.
  revert nd c1 c2; induction n as [|n IH]; intros nd c1 c2 H; cbn; auto with sim.
  destruct nd; auto with sim.
  pose proof (R_look _ _ _ _ _ H eq_refl) as L. unfold look_rel in L.
  destruct (l1 c1 name args) as [[nd' c1']|e|]; auto with sim.
  - destruct L as (c2' & -> & H'). auto.
  - rewrite L. auto with sim.
Qed.

Lemma chase_sim {T} n (f : node -> res T) c1 c2 nd : R c1 c2 nd ->
  lp (chase_rules l1 n f nd c1) (chase_rules l2 n f nd c2).
Proof.
  revert nd c1 c2; induction n as [|n IH]; intros nd c1 c2 H; cbn; auto with sim.
  destruct nd; auto with sim.
  pose proof (R_look _ _ _ _ _ H eq_refl) as L. unfold look_rel in L.
  destruct (l1 c1 name args) as [[nd' c1']|e|]; auto with sim.
  - destruct L as (c2' & -> & H'). auto.
  - rewrite L. auto with sim.
Qed.

Theorem sim n :
  (forall v nd c1 c2, R c1 c2 nd -> lp (validate X l1 n v nd c1) (validate X l2 n v nd c2)) /\
  (forall nd w c1 c2, R c1 c2 nd ->
     lps (validate_array_member X l1 n nd w c1) (validate_array_member X l2 n nd w c2)) /\
  (forall nd w c1 c2, R c1 c2 nd ->
     lps (validate_map_member X l1 n nd w c1) (validate_map_member X l2 n nd w c2)) /\
  (forall nm args v c1 c2, look_rel c1 c2 nm args ->
     lp (validate_choiceify X l1 n nm args v c1) (validate_choiceify X l2 n nm args v c2)) /\
  (forall nm args w c1 c2, look_rel c1 c2 nm args ->
     lps (validate_map_choiceify X l1 n nm args w c1) (validate_map_choiceify X l2 n nm args w c2)).
Proof.
  induction n as [|n IH].
  { repeat split; intros; cbn; auto with sim. }
  destruct IH as (IHv & IHa & IHm & IHc & IHmc).
  assert (AV : forall nd w c1 c2, R c1 c2 nd ->
    lps (validate_array_value X (fun v nd => validate X l1 n v nd c1) nd w)
        (validate_array_value X (fun v nd => validate X l2 n v nd c2) nd w)).
  { intros nd w c1 c2 H. unfold validate_array_value. destruct (wa_peek_front w); auto with sim.
    pose proof (IHv v nd c1 c2 H) as Hv. simp Hv. }
  assert (CM : forall v c1 c2 ms, (forall m, In m ms -> R c1 c2 m) ->
    lp (validate_choiceify_members (fun m => validate X l1 n v m c1)
          (fun name args => validate_choiceify X l1 n name args v c1) ms)
       (validate_choiceify_members (fun m => validate X l2 n v m c2)
          (fun name args => validate_choiceify X l2 n name args v c2) ms)).
  { intros v c1 c2 ms H. apply try_pure_sim. intros o Ho. apply H in Ho.
    destruct o; auto.
    - apply IHc. exact (R_look _ _ _ _ _ Ho eq_refl).
    - apply IHv. eapply R_sub; [exact Ho|]. cbn; auto. }
  repeat split.
  - intros v nd c1 c2 H. rewrite !validate_S. pose proof (fun nd' => R_sub c1 c2 nd nd' H) as HS.
    destruct nd; auto with sim; cbn [children] in HS.
    + pose proof (R_look _ _ _ _ _ H eq_refl) as L. unfold look_rel in L.
      destruct (l1 c1 name args) as [[nd' c1']|e|]; auto with sim.
      * destruct L as (c2' & -> & H'). auto.
      * rewrite L. auto with sim.
    + apply try_pure_sim. auto.
    + unfold validate_map. destruct v; auto with sim.
      pose proof (seq_sim (fun m w => validate_map_member X l1 n m w c1)
        (fun m w => validate_map_member X l2 n m w c2) members (wm_new m)
        (fun m s Hm => IHm m s c1 c2 (HS m Hm))) as Hs.
      simp Hs.
    + unfold validate_array. destruct v; auto with sim.
      pose proof (seq_sim (fun m w => validate_array_member X l1 n m w c1)
        (fun m w => validate_array_member X l2 n m w c2) members (wa_new l)
        (fun m s Hm => IHa m s c1 c2 (HS m Hm))) as Hs.
      simp Hs.
    + unfold validate_standalone_group. destruct members as [|x [|y l]]; auto with sim.
      apply IHv. apply HS. left; auto.
    + apply obind_sim; [apply deref_sim; apply HS; left; auto|]. intros.
      apply obind_sim; [apply deref_sim; apply HS; right; left; auto|]. intros; auto with sim.
    + destruct c as [t s|t s|t s|t s|t s|re|t]; cbn [validate_control control_children] in *;
        unfold validate_control_size, validate_control_lt, validate_control_le,
          validate_control_gt, validate_control_ge;
        try (apply obind_sim; [apply chase_sim; apply HS; right; left; auto|
             intros; apply chase_sim; apply HS; left; auto]); auto with sim.
      unfold validate_control_cbor. destruct v; auto with sim.
      destruct (cbor_decode X b); auto with sim. destruct (of_cbor c); auto with sim.
      apply IHv. apply HS. left; auto.
    + apply IHc. exact (R_look _ _ _ _ _ H eq_refl).
  - intros nd w c1 c2 H. rewrite !validate_array_member_S. pose proof (fun nd' => R_sub c1 c2 nd nd' H) as HS.
    destruct nd; auto with sim; cbn [children] in HS.
    + pose proof (R_look _ _ _ _ _ H eq_refl) as L. unfold look_rel in L.
      destruct (l1 c1 name args) as [[nd' c1']|e|]; auto with sim.
      * destruct L as (c2' & -> & H'). auto.
      * rewrite L. auto with sim.
    + apply try_sim. auto.
    + unfold validate_array_group.
      pose proof (seq_sim (fun m w => validate_array_member X l1 n m w c1)
        (fun m w => validate_array_member X l2 n m w c2) members (wa_snapshot w)
        (fun m s Hm => IHa m s c1 c2 (HS m Hm))) as Hs.
      simp Hs.
    + apply AV. apply HS. cbn; auto.
    + unfold validate_array_occur. destruct (limits limit) as [lo up].
      pose proof (occur_sim (fun w => validate_array_member X l1 n nd w c1)
        (fun w => validate_array_member X l2 n nd w c2) n up 0%N w
        (fun w => IHa nd w c1 c2 (HS nd (or_introl eq_refl)))) as Hs.
      simp Hs.
    + pose proof (R_look _ _ _ _ _ H eq_refl) as L. unfold look_rel in L.
      destruct (l1 c1 name args) as [[nd' c1']|e|]; auto with sim.
      * destruct L as (c2' & -> & H'). unfold validate_array_unwrap.
        destruct nd'; auto with sim. apply seq_sim. intros m s Hm. apply IHa.
        eapply R_sub; [exact H'|exact Hm].
      * rewrite L. auto with sim.
  - intros nd w c1 c2 H. rewrite !validate_map_member_S. pose proof (fun nd' => R_sub c1 c2 nd nd' H) as HS.
    destruct nd; auto with sim; cbn [children] in HS.
    + pose proof (R_look _ _ _ _ _ H eq_refl) as L. unfold look_rel in L.
      destruct (l1 c1 name args) as [[nd' c1']|e|]; auto with sim.
      * destruct L as (c2' & -> & H'). auto.
      * rewrite L. auto with sim.
    + apply try_sim. auto.
    + unfold validate_map_group.
      pose proof (seq_sim (fun m w => validate_map_member X l1 n m w c1)
        (fun m w => validate_map_member X l2 n m w c2) members (wm_snapshot w)
        (fun m s Hm => IHm m s c1 c2 (HS m Hm))) as Hs.
      simp Hs.
    + assert (K : lp (validate_map_key X (fun v nd => validate X l1 n v nd c1) nd1 w)
                     (validate_map_key X (fun v nd => validate X l2 n v nd c2) nd1 w)).
      { unfold validate_map_key, map_search.
        destruct nd1; auto with sim; apply search_sim; intros; apply IHv; apply HS; left; auto. }
      unfold validate_map_keyvalue. simp K.
      destruct (validate_map_key X (fun v nd => validate X l2 n v nd c2) nd1 w) as [[[wk wv]|e|]|]; auto with sim.
      pose proof (IHv wv nd2 c1 c2 (HS nd2 (or_intror (or_introl eq_refl)))) as Hv. simp Hv.
    + unfold validate_map_occur. destruct (limits limit) as [lo up].
      pose proof (occur_sim (fun w => validate_map_member X l1 n nd w c1)
        (fun w => validate_map_member X l2 n nd w c2) n up 0%N w
        (fun w => IHm nd w c1 c2 (HS nd (or_introl eq_refl)))) as Hs.
      simp Hs.
    + pose proof (R_look _ _ _ _ _ H eq_refl) as L. unfold look_rel in L.
      destruct (l1 c1 name args) as [[nd' c1']|e|]; auto with sim.
      * destruct L as (c2' & -> & H'). unfold validate_map_unwrap.
        destruct nd'; auto with sim. apply seq_sim. intros m s Hm. apply IHm.
        eapply R_sub; [exact H'|exact Hm].
      * rewrite L. auto with sim.
    + apply IHmc. exact (R_look _ _ _ _ _ H eq_refl).
    + apply try_sim. auto.
  - intros nm args v c1 c2 L. rewrite !validate_choiceify_S. unfold look_rel in L.
    destruct (l1 c1 nm args) as [[nd' c1']|e|]; auto with sim.
    + destruct L as (c2' & -> & H'). destruct nd'; auto with sim.
      * apply IHc. exact (R_look _ _ _ _ _ H' eq_refl).
      * apply CM. intros m Hm. eapply R_sub; [exact H'|exact Hm].
    + rewrite L. auto with sim.
  - intros nm args w c1 c2 L. rewrite !validate_map_choiceify_S. unfold look_rel in L.
    destruct (l1 c1 nm args) as [[nd' c1']|e|]; auto with sim.
    + destruct L as (c2' & -> & H'). destruct nd'; auto with sim.
      * apply IHmc. exact (R_look _ _ _ _ _ H' eq_refl).
      * apply try_sim. intros o s Ho. assert (Ho' : R c1' c2' o) by (eapply R_sub; [exact H'|exact Ho]).
        destruct o; auto.
        -- apply IHmc. exact (R_look _ _ _ _ _ Ho' eq_refl).
        -- apply IHm. eapply R_sub; [exact Ho'|]. cbn; auto.
    + rewrite L. auto with sim.
Qed.
End Sim.
