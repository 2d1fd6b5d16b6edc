(** Proofs about SpecLoss.v: by induction on the fuel, each member pops accepted
    elements off the front and loses only what inner groups took. *)
From Coq Require Import List Bool ZArith NArith String Lia Arith.
From Verif Require Import Base Util Data Value Convert Ivt Scalar Validate Unfold Mono Total Fun
  ValueOrder SpecBase SpecPos SpecReach ArrayInv MapInv GroupProofs SpecLoss.
Import ListNotations.

Lemma thinned_lsub L a b : thinned L a b <-> lsub L a b.
Proof. split; induction 1; constructor; auto. Qed.

Lemma astep_weaken (P P' L L' : value -> Prop) w w' : (forall x, P x -> P' x) -> (forall x, L x -> L' x) ->
  astep P L w w' -> astep P' L' w w'.
Proof.
  intros HP HL (p & F & H & S). exists p. split; [eapply Forall_impl; eauto|]. split; auto. eapply lsub_weaken; eauto.
Qed.
Lemma mstep_weaken (P P' L L' : entry -> Prop) w w' : (forall x, P x -> P' x) -> (forall x, L x -> L' x) ->
  mstep P L w w' -> mstep P' L' w w'.
Proof.
  intros HP HL H S. destruct (H S) as (S' & p & A & B & D & E). split; auto. exists p. split; [|split; [auto|split; [|auto]]].
  - intros x Hx. destruct (A x Hx). auto.
  - intros x Hx. destruct (D x Hx) as [|[|]]; auto.
Qed.

Section Loss.
Variable X : ext.
Variable lk : lookup_context.

Lemma array_pos_through c ms c1 ms1 : (forall m, In m ms1 -> array_pos lk c ms c1 m) ->
  forall c2 m2, array_pos lk c1 ms1 c2 m2 -> array_pos lk c ms c2 m2.
Proof.
  intros H c2 m2 A. induction A; auto.
  - eapply apos_rule; eauto.
  - eapply apos_unwrap; eauto.
  - eapply apos_occur; eauto.
  - eapply apos_choice; eauto.
  - eapply apos_group; eauto.
Qed.
Lemma element_through c ms c1 ms1 : (forall m, In m ms1 -> array_pos lk c ms c1 m) ->
  forall x, element_accepted X lk c1 ms1 x -> element_accepted X lk c ms x.
Proof.
  intros H x (c' & t & T & V). exists c', t. split; auto. destruct T as [c' k t cut A|c' t A Pl].
  - eapply etype_kv. eapply array_pos_through; eauto.
  - apply etype_plain; auto. eapply array_pos_through; eauto.
Qed.
Lemma taken_through c ms c1 ms1 : (forall m, In m ms1 -> array_pos lk c ms c1 m) ->
  forall x, taken_by_group X lk c1 ms1 x -> taken_by_group X lk c ms x.
Proof.
  intros H x (c' & gs & A & T). exists c', gs. split; auto. eapply array_pos_through; eauto.
Qed.

(** [mstep]-like summary of one member or of a list of members. *)
Definition aloss (c : ctx) (ms : list node) : warray -> warray -> Prop :=
  astep (element_accepted X lk c ms) (taken_by_group X lk c ms).
Lemma aloss_through c ms c1 ms1 w w' : (forall m, In m ms1 -> array_pos lk c ms c1 m) ->
  aloss c1 ms1 w w' -> aloss c ms w w'.
Proof. intros H. apply astep_weaken; [eapply element_through|eapply taken_through]; eauto. Qed.

Lemma value_loss n c m t w r w' : element_type lk c [m] c t ->
  validate_array_value X (fun v nd => validate X (lookup_rule lk) n v nd c) t w = Some (r, w') ->
  aloss c [m] w w'.
Proof.
  unfold validate_array_value, wa_peek_front. intros HT E.
  destruct w as [a s]; cbn in *. destruct a as [|v a]; [inversion E; subst; apply astep_refl|].
  destruct (validate X (lookup_rule lk) n v t c) as [[[]|e|]|] eqn:V; inversion E; subst; try apply astep_refl.
  exists [v]. split; [|split].
  - constructor; auto. exists c, t. split; auto. apply (val_run _ _ n); auto.
  - destruct s; cbn in *; inversion E; subst; cbn; apply lsub_refl.
  - destruct s; cbn in *; inversion E; subst; cbn; auto.
Qed.

Theorem array_loss n : forall c m w r w',
  validate_array_member X (lookup_rule lk) n m w c = Some (r, w') -> r <> Panic -> aloss c [m] w w'.
Proof.
  induction n as [|n IH]; intros c m w r w' E N; [discriminate|].
  rewrite validate_array_member_S in E.
  assert (Here : array_pos lk c [m] c m) by (apply apos_member; left; auto).
  destruct m; try (eapply value_loss; [|exact E]; apply etype_plain; [exact Here|exact Logic.I]; fail).
  - destruct (lookup_rule lk c name args) as [[nd' c']|e|] eqn:Lk; try (inversion E; subst; apply astep_refl).
    eapply (aloss_through _ _ c' [nd']); [|eapply IH; eauto].
    intros m [<-|[]]. eapply apos_rule; eauto.
  - eapply (try_step (aloss c _) (astep_refl _ _) (astep_trans _ _)); [|exact E|exact N].
    intros m s r0 s' Hm E1 N1. eapply (aloss_through _ _ c [m]); [|eapply IH; eauto].
    intros m' [<-|[]]. eapply apos_choice; eauto.
  - unfold validate_array_group in E.
    destruct (seq_loop _ members (wa_snapshot w)) as [[r1 w1]|] eqn:S; [|discriminate].
    assert (A : r1 <> Panic -> aloss c members (wa_snapshot w) w1).
    { eapply (seq_step (aloss c members) (astep_refl _ _) (astep_trans _ _)); [|exact S].
      intros m s r0 s' Hm E1 N1. eapply (aloss_through _ _ c [m]); [|eapply IH; eauto].
      intros m' [<-|[]]. apply apos_member; auto. }
    assert (Inner : forall m, In m members -> array_pos lk c [NGroup members] c m) by (intros; eapply apos_group; eauto).
    destruct r1 as [u|e|]; [| |inversion E; subst; congruence];
      (destruct A as (p & Fp & Hp & Sp); [discriminate|]; cbn in Hp, Sp;
       unfold wa_commit, wa_rewind in E; rewrite Sp in E; inversion E; subst; clear E).
    + exists []. split; [auto|split]; cbn; [|rewrite push_nil; auto].
      eapply lsub_app_drop; [|eapply lsub_weaken; [|exact Hp]; apply taken_through; exact Inner].
      eapply Forall_impl; [|exact Fp]. intros x Hx. exists c, members. auto.
    + exists []. split; [auto|split]; cbn; [|rewrite push_nil; auto]. rewrite rewind_fold.
      eapply lsub_weaken; [|exact Hp]. apply taken_through; exact Inner.
  - eapply value_loss; [|exact E]. eapply etype_kv; eauto.
  - unfold validate_array_occur in E. destruct (limits limit) as [lo up].
    destruct (occur_loop n _ up 0 w) as [[r1 w1]|] eqn:S; [|discriminate].
    assert (A : r1 <> Panic -> aloss c [NOccur limit m] w w1).
    { eapply (occur_step (aloss c _) (astep_refl _ _) (astep_trans _ _)); [|exact S].
      intros s r0 s' E1 N1. eapply (aloss_through _ _ c [m]); [|eapply IH; eauto].
      intros m' [<-|[]]. eapply apos_occur; eauto. }
    destruct r1 as [u|e|]; [destruct (N.ltb u lo)| |]; inversion E; subst; try congruence; apply A; discriminate.
  - destruct (lookup_rule lk c name args) as [[nd' c']|e|] eqn:Lk; try (inversion E; subst; apply astep_refl).
    unfold validate_array_unwrap in E. destruct nd'; try (inversion E; subst; apply astep_refl).
    eapply (seq_step (aloss c _) (astep_refl _ _) (astep_trans _ _)); [|exact E|exact N].
    intros m s r0 s' Hm E1 N1. eapply (aloss_through _ _ c' [m]); [|eapply IH; eauto].
    intros m' [<-|[]]. eapply apos_unwrap; eauto.
Qed.

Theorem array_member_loss c m w r w' : aval X lk m w c = (r, w') -> r <> Panic ->
  exists taken, Forall (element_accepted X lk c [m]) taken /\
    thinned (taken_by_group X lk c [m]) (taken ++ wa_array w') (wa_array w).
Proof.
  intros E N. destruct (aval_spec X lk m w c) as (n & H). rewrite E in H.
  destruct (array_loss n _ _ _ _ _ H N) as (p & F & L & _). exists p. split; auto. apply thinned_lsub; auto.
Qed.

Theorem array_group_loss c ms w e w' : aval X lk (NGroup ms) w c = (Err e, w') ->
  thinned (taken_by_group X lk c ms) (wa_array w') (wa_array w).
Proof.
  intros E. rewrite aval_eq in E. unfold array_group in E.
  destruct (seqs (fun m w => aval X lk m w c) ms (wa_snapshot w)) as [r w1] eqn:S.
  assert (A : r <> Panic -> aloss c ms (wa_snapshot w) w1).
  { revert S. apply (seqs_step (aloss c ms) _ _ _ _ _ (astep_refl _ _) (astep_trans _ _)).
    intros m s r0 s' Hm E1 N1. destruct (aval_spec X lk m s c) as (n & H). rewrite E1 in H.
    eapply (aloss_through _ _ c [m]); [|eapply array_loss; eauto].
    intros m' [<-|[]]. apply apos_member; auto. }
  destruct r as [u|e'|]; [destruct (wa_commit w1); inversion E| |inversion E].
  destruct A as (p & Fp & Hp & Sp); [discriminate|]. cbn in Hp, Sp.
  unfold wa_rewind in E. rewrite Sp in E. inversion E; subst. cbn. rewrite rewind_fold. apply thinned_lsub. exact Hp.
Qed.

(** ** Maps *)
Lemma map_pos_through c ms c1 ms1 : (forall m, In m ms1 -> map_pos lk c ms c1 m) ->
  (forall c2 m2, map_pos lk c1 ms1 c2 m2 -> map_pos lk c ms c2 m2) /\
  (forall c2 name args, map_choice_pos lk c1 ms1 c2 name args -> map_choice_pos lk c ms c2 name args).
Proof.
  intros H.
  assert (G : forall c2 m2, map_pos lk c1 ms1 c2 m2 -> map_pos lk c ms c2 m2).
  { apply (map_pos_mind _ _ _ (fun c2 m2 => map_pos lk c ms c2 m2) (fun c2 name args => map_choice_pos lk c ms c2 name args));
      intros; auto; try (eapply mpos_rule; now eauto); try (eapply mpos_unwrap; now eauto); try (eapply mpos_occur; now eauto);
      try (eapply mpos_choice; now eauto); try (eapply mpos_group; now eauto); try (eapply mpos_inline; now eauto);
      try (eapply mpos_item; now eauto); try (eapply mpos_item_value; now eauto);
      try (eapply cpos_choiceify; now eauto); try (eapply cpos_alias; now eauto); try (eapply cpos_item; now eauto). }
  split; [exact G|]. intros c2 name args A. induction A.
  - eapply cpos_choiceify; eauto.
  - eapply cpos_alias; eauto.
  - eapply cpos_item; eauto.
Qed.
Lemma choice_pos_through c ms c1 name1 args1 : map_choice_pos lk c ms c1 name1 args1 ->
  forall c2 m2, map_pos lk c1 [NChoiceify name1 args1] c2 m2 ->
    (c2 = c1 /\ m2 = NChoiceify name1 args1) \/ map_pos lk c ms c2 m2.
Proof.
  intros H.
  apply (map_pos_mind _ _ _ (fun c2 m2 => (c2 = c1 /\ m2 = NChoiceify name1 args1) \/ map_pos lk c ms c2 m2)
    (fun c2 name args => map_choice_pos lk c ms c2 name args)); intros;
    repeat match goal with H : (_ /\ _) \/ _ |- _ => destruct H as [(? & ?)|?]; [subst; try discriminate|] end;
      try (right; eapply mpos_rule; now eauto); try (right; eapply mpos_unwrap; now eauto); try (right; eapply mpos_occur; now eauto);
      try (right; eapply mpos_choice; now eauto); try (right; eapply mpos_group; now eauto); try (right; eapply mpos_inline; now eauto);
      try (right; eapply mpos_item; now eauto); try (right; eapply mpos_item_value; now eauto);
      try (eapply cpos_choiceify; now eauto); try (eapply cpos_alias; now eauto); try (eapply cpos_item; now eauto).
  - left. destruct H0 as [<-|[]]; auto.
  - match goal with Q : NChoiceify _ _ = NChoiceify _ _ |- _ => inversion Q; subst; auto end.
Qed.

Lemma entry_type_accepted c ms c1 ms1 :
  (forall c2 m2, match m2 with NGroup _ | NKeyValue _ _ _ => True | _ => False end ->
     map_pos lk c1 ms1 c2 m2 -> map_pos lk c ms c2 m2) ->
  (forall x, entry_accepted X lk c1 ms1 x -> entry_accepted X lk c ms x) /\
  (forall x, entry_taken_by_group X lk c1 ms1 x -> entry_taken_by_group X lk c ms x).
Proof.
  intros H. split.
  - intros x (c' & k & t & (cut & T) & V). exists c', k, t. split; auto. exists cut. apply H; cbn; auto.
  - intros x (c' & gs & T & V). exists c', gs. split; [apply H; cbn; auto|auto].
Qed.

Definition mloss (c : ctx) (ms : list node) : wmap -> wmap -> Prop :=
  mstep (entry_accepted X lk c ms) (entry_taken_by_group X lk c ms).
Lemma mloss_through c ms c1 ms1 w w' : (forall m, In m ms1 -> map_pos lk c ms c1 m) ->
  mloss c1 ms1 w w' -> mloss c ms w w'.
Proof.
  intros H. destruct (entry_type_accepted c ms c1 ms1) as (A & B).
  - intros c2 m2 _. apply map_pos_through; auto.
  - apply mstep_weaken; auto.
Qed.
Lemma mloss_choice c ms c1 name1 args1 w w' : map_choice_pos lk c ms c1 name1 args1 ->
  mloss c1 [NChoiceify name1 args1] w w' -> mloss c ms w w'.
Proof.
  intros H. destruct (entry_type_accepted c ms c1 [NChoiceify name1 args1]) as (A & B).
  - intros c2 m2 K P. destruct (choice_pos_through _ _ _ _ _ H _ _ P) as [(-> & ->)|Q]; [contradiction|auto].
  - apply mstep_weaken; auto.
Qed.

Lemma keyvalue_loss n c key t cut w r w' :
  validate_map_keyvalue X (fun v nd => validate X (lookup_rule lk) n v nd c) key t cut w = Some (r, w') ->
  mloss c [NKeyValue key t cut] w w'.
Proof.
  intros E. eapply (mstep_weaken (accepted_entry X (lookup_rule lk) (fun c1 k1 t1 => c1 = c /\ k1 = key /\ t1 = t)) _ (fun _ => False)).
  3:{ eapply map_keyvalue_step; [|exact E]. auto. }
  - intros x (c1 & k1 & t1 & n1 & n2 & (-> & -> & ->) & V1 & V2). exists c, key, t. split.
    + exists cut. apply mpos_member. left; auto.
    + split; [apply (val_run _ _ n1)|apply (val_run _ _ n2)]; auto.
  - contradiction.
Qed.

Theorem map_loss n :
  (forall c m w r w', validate_map_member X (lookup_rule lk) n m w c = Some (r, w') -> r <> Panic -> mloss c [m] w w') /\
  (forall c name args w r w', validate_map_choiceify X (lookup_rule lk) n name args w c = Some (r, w') -> r <> Panic ->
     mloss c [NChoiceify name args] w w').
Proof.
  induction n as [|n [IH IHC]]; [split; intros; discriminate|]. split.
  - intros c m w r w' E N. rewrite validate_map_member_S in E.
    assert (Here : map_pos lk c [m] c m) by (apply mpos_member; left; auto).
    destruct m; try (inversion E; subst; apply mstep_refl; fail).
    + destruct (lookup_rule lk c name args) as [[nd' c']|e|] eqn:Lk; try (inversion E; subst; apply mstep_refl).
      eapply (mloss_through _ _ c' [nd']); [|eapply IH; eauto].
      intros m [<-|[]]. eapply mpos_rule; eauto.
    + eapply (try_step (mloss c _) (mstep_refl _ _) (mstep_trans _ _)); [|exact E|exact N].
      intros m s r0 s' Hm E1 N1. eapply (mloss_through _ _ c [m]); [|eapply IH; eauto].
      intros m' [<-|[]]. eapply mpos_choice; eauto.
    + unfold validate_map_group in E.
      destruct (seq_loop _ members (wm_snapshot w)) as [[r1 w1]|] eqn:S; [|discriminate].
      assert (A : r1 <> Panic -> mloss c members (wm_snapshot w) w1).
      { eapply (seq_step (mloss c members) (mstep_refl _ _) (mstep_trans _ _)); [|exact S].
        intros m s r0 s' Hm E1 N1. eapply (mloss_through _ _ c [m]); [|eapply IH; eauto].
        intros m' [<-|[]]. apply mpos_member; auto. }
      assert (Inner : forall x, entry_taken_by_group X lk c members x -> entry_taken_by_group X lk c [NGroup members] x).
      { apply entry_type_accepted. intros c2 m2 _. apply map_pos_through. intros m Hm. eapply mpos_group; eauto. }
      intros SW.
      destruct r1 as [u|e|]; [| |inversion E; subst; congruence];
        (destruct (A ltac:(discriminate) SW) as (S1 & p & Pp & Ip & Lp & Sp); cbn in Pp, Ip, Lp, Sp;
         unfold wm_commit, wm_rewind in E; rewrite Sp in E; inversion E; subst; clear E); cbn.
      * split; auto. exists []. rewrite push_nil. repeat split; auto; try contradiction.
        intros x Hx. apply Lp in Hx. destruct Hx as [Hx|[Hx|Hx]]; auto. right; right.
        exists c, members. split; auto. apply Pp; auto.
      * assert (B : forall kv, In kv (bt_extend (wm_map w1) p) <-> In kv (wm_map w1) \/ In kv p).
        { intros kv. apply (bt_extend_in (wm_map w)); auto. intros x Hx; apply Pp; auto. }
        split; [apply bt_extend_sorted; auto|].
        exists []. rewrite push_nil. repeat split; auto; try contradiction.
        -- intros x Hx. apply B in Hx. destruct Hx as [Hx|Hx]; auto. apply Pp; auto.
        -- intros x Hx. rewrite B. apply Lp in Hx. destruct Hx as [Hx|[Hx|Hx]]; auto.
    + eapply keyvalue_loss; eauto.
    + unfold validate_map_occur in E. destruct (limits limit) as [lo up].
      destruct (occur_loop n _ up 0 w) as [[r1 w1]|] eqn:S; [|discriminate].
      assert (A : r1 <> Panic -> mloss c [NOccur limit m] w w1).
      { eapply (occur_step (mloss c _) (mstep_refl _ _) (mstep_trans _ _)); [|exact S].
        intros s r0 s' E1 N1. eapply (mloss_through _ _ c [m]); [|eapply IH; eauto].
        intros m' [<-|[]]. eapply mpos_occur; eauto. }
      destruct r1 as [u|e|]; [destruct (N.ltb u lo)| |]; inversion E; subst; try congruence; apply A; discriminate.
    + destruct (lookup_rule lk c name args) as [[nd' c']|e|] eqn:Lk; try (inversion E; subst; apply mstep_refl).
      unfold validate_map_unwrap in E. destruct nd'; try (inversion E; subst; apply mstep_refl).
      eapply (seq_step (mloss c _) (mstep_refl _ _) (mstep_trans _ _)); [|exact E|exact N].
      intros m s r0 s' Hm E1 N1. eapply (mloss_through _ _ c' [m]); [|eapply IH; eauto].
      intros m' [<-|[]]. eapply mpos_unwrap; eauto.
    + eapply IHC; eauto.
    + eapply (try_step (mloss c _) (mstep_refl _ _) (mstep_trans _ _)); [|exact E|exact N].
      intros m s r0 s' Hm E1 N1. eapply (mloss_through _ _ c [m]); [|eapply IH; eauto].
      intros m' [<-|[]]. eapply mpos_inline; eauto.
  - intros c name args w r w' E N. rewrite validate_map_choiceify_S in E.
    assert (Here : map_choice_pos lk c [NChoiceify name args] c name args).
    { apply cpos_choiceify, mpos_member. left; auto. }
    destruct (lookup_rule lk c name args) as [[nd' c']|e|] eqn:Lk; try (inversion E; subst; apply mstep_refl).
    destruct nd'; try (inversion E; subst; apply mstep_refl).
    + eapply mloss_choice; [|eapply IHC; eauto]. eapply cpos_alias; eauto.
    + eapply (try_step (mloss c _) (mstep_refl _ _) (mstep_trans _ _)); [|exact E|exact N].
      intros m s r0 s' Hm E1 N1.
      destruct m; try (eapply (mloss_through _ _ c'); [|eapply IH; eauto]; intros m' [<-|[]]; eapply mpos_item; eauto; exact Logic.I).
      * eapply mloss_choice; [|eapply IHC; eauto]. eapply cpos_item; eauto.
      * eapply (mloss_through _ _ c'); [|eapply IH; eauto]. intros m' [<-|[]]. eapply mpos_item_value; eauto.
Qed.

Theorem map_member_loss c m w r w' : sorted (wm_map w) -> mval X lk m w c = (r, w') -> r <> Panic ->
  (forall x, In x (wm_map w') -> In x (wm_map w)) /\
  (forall x, In x (wm_map w) -> In x (wm_map w') \/ entry_accepted X lk c [m] x \/ entry_taken_by_group X lk c [m] x).
Proof.
  intros So E N. destruct (mval_spec X lk m w c) as (n & H). rewrite E in H.
  destruct (proj1 (map_loss n) _ _ _ _ _ H N So) as (_ & p & P & I1 & L & _). split; auto.
  intros x Hx. destruct (L x Hx) as [?|[?|?]]; auto. right; left. apply P; auto.
Qed.

Theorem map_group_loss c ms w e w' : sorted (wm_map w) -> mval X lk (NGroup ms) w c = (Err e, w') ->
  (forall x, In x (wm_map w') -> In x (wm_map w)) /\
  (forall x, In x (wm_map w) -> In x (wm_map w') \/ entry_taken_by_group X lk c ms x).
Proof.
  intros So E. rewrite mval_eq in E. unfold map_group in E.
  destruct (seqs (fun m w => mval X lk m w c) ms (wm_snapshot w)) as [r w1] eqn:S.
  assert (A : r <> Panic -> mloss c ms (wm_snapshot w) w1).
  { revert S. apply (seqs_step (mloss c ms) _ _ _ _ _ (mstep_refl _ _) (mstep_trans _ _)).
    intros m s r0 s' Hm E1 N1. destruct (mval_spec X lk m s c) as (n & H). rewrite E1 in H.
    eapply (mloss_through _ _ c [m]); [|eapply (proj1 (map_loss n)); eauto].
    intros m' [<-|[]]. apply mpos_member; auto. }
  destruct r as [u|e'|]; [destruct (wm_commit w1); inversion E| |inversion E].
  destruct (A ltac:(discriminate) So) as (S1 & p & Pp & Ip & Lp & Sp). cbn in Pp, Ip, Lp, Sp.
  unfold wm_rewind in E. rewrite Sp in E. inversion E; subst. cbn.
  assert (B : forall kv, In kv (bt_extend (wm_map w1) p) <-> In kv (wm_map w1) \/ In kv p).
  { intros kv. apply (bt_extend_in (wm_map w)); auto. intros x Hx; apply Pp; auto. }
  split; intros x Hx; [apply B in Hx|].
  - destruct Hx as [Hx|Hx]; auto. apply Pp; auto.
  - rewrite B. destruct (Lp x Hx) as [?|[?|?]]; auto.
Qed.
End Loss.
