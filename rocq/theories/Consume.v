(** Members of the classes in SpecConsume.v use up something whenever they succeed,
    so the loops over them end early. *)
From Coq Require Import List Bool ZArith NArith String Lia Arith.
From Verif Require Import Base Util Data Value Convert Ivt Scalar Validate Unfold Mono Total Fun
  ValueOrder SpecBase SpecReach ArrayInv MapInv MapProofs LimitProofs SpecConsume.
Import ListNotations.

(** * Lengths over the loops *)
Section Loops.
Context {St : Type}.
Variable size : St -> nat.
Variable inv : St -> Prop.
Variable f : node -> St -> res unit * St.
Definition shorter (g : St -> res unit * St) : Prop := forall s s', inv s -> g s = (Ok tt, s') -> size s' < size s.
Definition not_longer (g : St -> res unit * St) : Prop :=
  forall s r s', inv s -> g s = (r, s') -> r <> Panic -> inv s' /\ size s' <= size s.

Lemma seqs_le ms s s' : (forall m, In m ms -> not_longer (f m)) -> inv s ->
  seqs f ms s = (Ok tt, s') -> inv s' /\ size s' <= size s.
Proof.
  revert s; induction ms as [|m ms IH]; cbn; intros s H I E; [inversion E; subst; auto|].
  destruct (f m s) as [[[]|e|] s1] eqn:F; try discriminate.
  destruct (H m (or_introl eq_refl) _ _ _ I F ltac:(discriminate)) as (I1 & L).
  destruct (IH s1 ltac:(auto) I1 E). split; auto; lia.
Qed.
Lemma seqs_lt ms s s' m0 : (forall m, In m ms -> not_longer (f m)) -> inv s ->
  In m0 ms -> shorter (f m0) -> seqs f ms s = (Ok tt, s') -> size s' < size s.
Proof.
  revert s; induction ms as [|m ms IH]; cbn; intros s H I M S E; [contradiction|].
  destruct (f m s) as [[[]|e|] s1] eqn:F; try discriminate.
  destruct (H m (or_introl eq_refl) _ _ _ I F ltac:(discriminate)) as (I1 & L).
  destruct M as [-> |M].
  - destruct (seqs_le ms s1 s' ltac:(auto) I1 E). apply S in F; auto. lia.
  - enough (size s' < size s1) by lia. apply IH; auto.
Qed.
Lemma tries_lt stop os fin s s' : (forall m, In m os -> not_longer (f m)) ->
  (forall m, In m os -> shorter (f m)) -> inv s ->
  tries stop f os fin s = (Ok tt, s') -> size s' < size s.
Proof.
  revert s; induction os as [|m ms IH]; cbn; intros s H S I E; [discriminate|].
  destruct (f m s) as [[[]|e|] s1] eqn:F; try discriminate.
  - inversion E; subst. apply (S m) in F; auto.
  - destruct (stop e); [discriminate|].
    destruct (H m (or_introl eq_refl) _ _ _ I F ltac:(discriminate)) as (I1 & L).
    enough (size s' < size s1) by lia. apply IH; auto.
Qed.
Lemma repeats_le (g : St -> res unit * St) k s s' : not_longer g -> inv s -> repeats g k s s' -> inv s' /\ size s' <= size s.
Proof.
  intros H I R. induction R; [auto|]. destruct (IHR I) as (I1 & L).
  destruct (H _ _ _ I1 H0 ltac:(discriminate)). split; auto; lia.
Qed.
Lemma repeats_lt (g : St -> res unit * St) k s s' : not_longer g -> shorter g -> inv s -> (0 < k)%N ->
  repeats g k s s' -> size s' < size s.
Proof.
  intros H S I K R. inversion R; subst; [lia|]. destruct (repeats_le g _ _ _ H I H0) as (I1 & L).
  apply S in H1; auto. lia.
Qed.
Lemma occur_lt (g : St -> res unit * St) lo up sh s s' : not_longer g -> shorter g -> inv s -> (0 < lo)%N ->
  occur_result lo sh (occ g up 0 s) = (Ok tt, s') -> size s' < size s.
Proof.
  intros H S I K E. destruct (occ g up 0 s) as [[k|e|] s2] eqn:O; cbn in E; try discriminate.
  destruct (N.ltb_spec k lo); inversion E; subst.
  destruct (occ_spec g up 0 s s k s' ltac:(constructor) ltac:(auto) O) as (s1 & R & B & D).
  pose proof (repeats_lt g k s s1 H S I ltac:(lia) R).
  destruct (repeats_le g k s s1 H I R) as (I1 & _).
  destruct D as [(-> & _)|(msg & F)]; [auto|].
  destruct (H _ _ _ I1 F ltac:(discriminate)). lia.
Qed.
(** With such a body the loop ends after at most [size + 1] calls. *)
Lemma occur_calls (g : St -> res unit * St) up count s : not_longer g -> shorter g -> inv s ->
  occur_loop (S (size s)) (fun s => Some (g s)) up count s <> None.
Proof.
  intros H Sh I. remember (size s) as d eqn:Hd. revert s I count Hd.
  induction d as [d IH] using lt_wf_ind; intros s I count Hd. cbn.
  destruct (g s) as [[[]|e|] s'] eqn:F; try discriminate; [|destruct (is_mismatch e); discriminate].
  destruct (N.leb up (count + 1)); try discriminate.
  destruct (H _ _ _ I F ltac:(discriminate)) as (I1 & _). apply Sh in F; auto. destruct d as [|d]; [lia|].
  pose proof (IH (size s') ltac:(lia) s' I1 (count + 1)%N eq_refl) as E.
  destruct (occur_loop (S (size s')) _ up (count + 1) s') eqn:O; [|congruence].
  rewrite (le_opt_some _ _ _ (occ_mono g up (count + 1)%N s' (S (size s')) (S d) ltac:(lia)) O). discriminate.
Qed.
End Loops.

Section Members.
Variable X : ext.
Variable lk : lookup_context.

Definition asize (w : warray) : nat := List.length (wa_array w).
Definition msize (w : wmap) : nat := List.length (wm_map w).
Definition any (w : warray) : Prop := True.
Definition mok (w : wmap) : Prop := sorted (wm_map w).

Lemma array_not_longer c m : not_longer asize any (fun w => aval X lk m w c).
Proof.
  intros w r w' _ E N. split; [exact I|]. destruct (aval_spec X lk m w c) as (n & H). rewrite E in H.
  destruct (array_step X (lookup_rule lk) (fun _ _ => True) (fun _ _ => True) (fun _ => True)
    ltac:(auto) ltac:(auto) ltac:(auto) ltac:(auto) ltac:(auto) ltac:(auto) ltac:(auto) ltac:(auto)
    n c m w r w' I H N) as (p & _ & Hp & _).
  apply lsub_length in Hp. rewrite app_length in Hp. unfold asize. lia.
Qed.

Lemma incl_length (a b : list entry) : sorted a -> (forall x, In x a -> In x b) -> List.length a <= List.length b.
Proof.
  intros S H. apply NoDup_incl_length; auto. apply sorted_nodup in S. eapply NoDup_map_inv; eauto.
Qed.
Lemma map_steps n :
  (forall c m w r w', validate_map_member X (lookup_rule lk) n m w c = Some (r, w') -> r <> Panic ->
     mstep (accepted_entry X (lookup_rule lk) (fun _ _ _ => True)) (fun _ => True) w w') /\
  (forall c name args w r w', validate_map_choiceify X (lookup_rule lk) n name args w c = Some (r, w') -> r <> Panic ->
     mstep (accepted_entry X (lookup_rule lk) (fun _ _ _ => True)) (fun _ => True) w w').
Proof.
  destruct (map_step X (lookup_rule lk) (fun _ _ => True) (fun _ _ _ => True) (fun _ _ _ => True) (fun _ => True)
    ltac:(auto) ltac:(auto) ltac:(auto) ltac:(auto) ltac:(auto) ltac:(auto) ltac:(auto) ltac:(auto)
    ltac:(intros c name args ms c' []; auto) ltac:(auto) ltac:(auto) n) as (H1 & H2).
  split; intros; eauto.
Qed.
Lemma map_not_longer c m : not_longer msize mok (fun w => mval X lk m w c).
Proof.
  intros w r w' S E N. destruct (mval_spec X lk m w c) as (n & H). rewrite E in H.
  destruct (proj1 (map_steps n) _ _ _ _ _ H N S) as (S' & p & _ & Ip & _).
  split; auto. apply incl_length; auto.
Qed.
Lemma mapc_not_longer c name args : not_longer msize mok (fun w => mchval X lk name args w c).
Proof.
  intros w r w' S E N. destruct (mchval_spec X lk name args w c) as (n & H). rewrite E in H.
  destruct (proj2 (map_steps n) _ _ _ _ _ _ H N S) as (S' & p & _ & Ip & _).
  split; auto. apply incl_length; auto.
Qed.

Theorem eats_array c m : eats_a lk c m -> shorter asize any (fun w => aval X lk m w c).
Proof.
  assert (AV : forall c m w w', array_value X lk m w c = (Ok tt, w') -> asize w' < asize w).
  { intros c0 m0 w w' E. unfold array_value, wa_peek_front, wa_pop_front, asize in *. destruct w as [[|v a] s]; cbn in *; [discriminate|].
    destruct (val X lk v m0 c0) as [[]|e|]; try discriminate. destruct s; inversion E; subst; cbn; lia. }
  induction 1 as [c m P|c key vl cut|c name args H IH|c name args ms c' m Hl Hm _ IH|c lim m Hl _ IH|c os _ IH|c ms m Hm _ IH];
    intros w w' A E; rewrite aval_eq in E.
  - destruct m; try contradiction; eapply AV; exact E.
  - eapply AV; exact E.
  - destruct (lookup_rule lk c name args) as [[nd' c']|e|] eqn:Lk; try discriminate.
    eapply (IH nd' c' eq_refl); eauto.
  - rewrite Hl in E. cbn in E. eapply (seqs_lt asize any (fun m w => aval X lk m w c')); [|exact I|exact Hm|exact IH|exact E].
    intros; apply array_not_longer.
  - eapply (occur_lt asize any); [| |exact I|exact Hl|exact E]; [apply array_not_longer|exact IH].
  - eapply (tries_lt asize any (fun o w => aval X lk o w c)); [| |exact I|exact E]; [intros; apply array_not_longer|exact IH].
  - unfold array_group in E.
    destruct (seqs _ ms (wa_snapshot w)) as [[[]|e|] w1] eqn:S; try discriminate.
    2:{ destruct (wa_rewind w1); discriminate. }
    destruct (wa_commit w1) as [w2|] eqn:Cm; try discriminate. inversion E; subst.
    assert (L : asize w1 < asize (wa_snapshot w)).
    { eapply (seqs_lt asize any (fun m w => aval X lk m w c)); [|exact I|exact Hm|exact IH|exact S]. intros; apply array_not_longer. }
    unfold wa_commit in Cm. destruct (wa_snaps w1); inversion Cm; subst. exact L.
Qed.

Scheme eats_m_ind2 := Induction for eats_m Sort Prop
  with eats_mc_ind2 := Induction for eats_mc Sort Prop.

Lemma kv_shorter key vl cut c w w' : mok w -> map_keyvalue X lk key vl cut w c = (Ok tt, w') -> msize w' < msize w.
Proof.
  unfold map_keyvalue. intros S E. destruct (map_key X lk key w c) as [[k v]|e|]; try discriminate.
  destruct (val X lk v vl c) as [[]|e|]; try discriminate.
  2:{ destruct cut, e; discriminate. }
  destruct (wm_remove k w) as [w1|] eqn:R; inversion E; subst. unfold wm_remove in R.
  destruct (bt_remove k (wm_map w)) as [[v0|] m'] eqn:B; [|discriminate].
  pose proof (bt_remove_get (wm_map w) k) as G. rewrite B in G. cbn in G. symmetry in G.
  apply bt_get_in in G; auto. pose proof (remove_length _ _ _ S G) as L. rewrite B in L. cbn in L.
  unfold msize. destruct (wm_snaps w); inversion R; subst; cbn; lia.
Qed.

Lemma eats_map_both :
  (forall c m, eats_m lk c m -> shorter msize mok (fun w => mval X lk m w c)) /\
  (forall c name args, eats_mc lk c name args -> shorter msize mok (fun w => mchval X lk name args w c)).
Proof.
  assert (H : forall c m (e : eats_m lk c m), shorter msize mok (fun w => mval X lk m w c)).
  { apply (eats_m_ind2 lk (fun c m _ => shorter msize mok (fun w => mval X lk m w c))
      (fun c name args _ => shorter msize mok (fun w => mchval X lk name args w c))).
    - intros c m P w w' A E. rewrite mval_eq in E. destruct m; try contradiction; discriminate.
    - intros c key vl cut w w' A E. rewrite mval_eq in E. eapply kv_shorter; eauto.
    - intros c name args _ IH w w' A E. rewrite mval_eq in E.
      destruct (lookup_rule lk c name args) as [[nd' c']|e|] eqn:Lk; try discriminate.
      eapply (IH nd' c' eq_refl); eauto.
    - intros c name args ms c' m Hl Hm _ IH w w' A E. rewrite mval_eq in E.
      rewrite Hl in E. cbn in E. eapply (seqs_lt msize mok (fun m w => mval X lk m w c')); [|exact A|exact Hm|exact IH|exact E].
      intros; apply map_not_longer.
    - intros c lim m Hl _ IH w w' A E. rewrite mval_eq in E.
      eapply (occur_lt msize mok); [| |exact A|exact Hl|exact E]; [apply map_not_longer|exact IH].
    - intros c os _ IH w w' A E. rewrite mval_eq in E.
      eapply (tries_lt msize mok (fun o w => mval X lk o w c)); [| |exact A|exact E]; [intros; apply map_not_longer|exact IH].
    - intros c os _ IH w w' A E. rewrite mval_eq in E.
      eapply (tries_lt msize mok (fun o w => mval X lk o w c)); [| |exact A|exact E]; [intros; apply map_not_longer|exact IH].
    - intros c ms m Hm _ IH w w' A E. rewrite mval_eq in E. unfold map_group in E.
      destruct (seqs _ ms (wm_snapshot w)) as [[[]|e|] w1] eqn:S; try discriminate.
      2:{ destruct (wm_rewind w1); discriminate. }
      destruct (wm_commit w1) as [w2|] eqn:Cm; try discriminate. inversion E; subst.
      assert (L : msize w1 < msize (wm_snapshot w)).
      { eapply (seqs_lt msize mok (fun m w => mval X lk m w c)); [|exact A|exact Hm|exact IH|exact S]. intros; apply map_not_longer. }
      unfold wm_commit in Cm. destruct (wm_snaps w1); inversion Cm; subst. exact L.
    - intros c name args _ IH w w' A E. rewrite mval_eq in E. eapply IH; eauto.
    - intros c name args _ IH1 _ IH2 _ IH3 _ IH4 w w' A E. rewrite mchval_eq in E.
      destruct (lookup_rule lk c name args) as [[nd' c']|e|] eqn:Lk; try discriminate.
      destruct nd'; try discriminate.
      + eapply (IH1 _ _ _ eq_refl); eauto.
      + eapply (tries_lt msize mok (fun o => map_choiceify_item X lk c' o)); [| |exact A|exact E].
        * intros m Hm. destruct m; cbn; try apply map_not_longer. apply mapc_not_longer.
        * intros m Hm. destruct m; cbn; try (apply (IH4 _ _ _ eq_refl Hm); exact I).
          -- exact (IH2 _ _ _ _ eq_refl Hm).
          -- exact (IH3 _ _ _ _ _ eq_refl Hm). }
  assert (H' : forall c name args, eats_mc lk c name args -> shorter msize mok (fun w => mval X lk (NChoiceify name args) w c)).
  { intros c name args E. apply H. apply em_choiceify; auto. }
  split; [exact H|]. intros c name args E w w' A F. eapply (H' c name args E w w' A). rewrite mval_eq. exact F.
Qed.
Theorem eats_map c m : eats_m lk c m -> shorter msize mok (fun w => mval X lk m w c).
Proof. apply eats_map_both. Qed.
End Members.
