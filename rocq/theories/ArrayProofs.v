(** Arrays of one-element members. *)
From Coq Require Import List Bool ZArith NArith String Lia Arith.
From Verif Require Import Base Util Data Value Convert Ivt Scalar Validate Unfold Mono Total Fun
  ValueOrder SpecBase SpecReach SpecData ArrayInv MapInv ConvertProofs NoPanic CtxProofs ReachProofs LimitProofs.
Import ListNotations.

Lemma Forall2_len {A B} (R : A -> B -> Prop) l l' : Forall2 R l l' -> List.length l = List.length l'.
Proof. induction 1; cbn; auto. Qed.

Section Arrays.
Variable X : ext.
Variable lk : lookup_context.

(** What a one-element member does. *)
Definition takes_one (t : node) (c : ctx) (w : warray) (p : res unit * warray) : Prop :=
  match wa_array w with
  | [] => rejected (fst p) /\ snd p = w
  | v :: a =>
      match val X lk v t c with
      | Ok _ => p = (Ok tt, WA a (push [v] (wa_snaps w)))
      | r => p = (r, w)
      end
  end.

Lemma array_value_one t c w : takes_one t c w (array_value X lk t w c).
Proof.
  unfold takes_one, array_value, wa_peek_front. destruct w as [[|v a] s]; cbn.
  - split; auto. eexists; reflexivity.
  - destruct (val X lk v t c); auto. destruct s; reflexivity.
Qed.

Lemma one_type_takes c m w : one_type lk c m -> takes_one m c w (aval X lk m w c).
Proof.
  intros H; revert w; induction H as [c m P|c name args nd' c' L H IH|c os H IH]; intros w.
  - rewrite aval_eq. destruct m; try contradiction; apply array_value_one.
  - rewrite aval_eq, L. specialize (IH w). unfold takes_one in *. destruct (wa_array w); auto.
    rewrite val_eq, L. auto.
  - rewrite aval_eq. unfold takes_one. rewrite val_eq || idtac.
    assert (G : forall fin, is_mismatch fin = true ->
      match wa_array w with
      | [] => rejected (fst (tries is_fatal (fun o w => aval X lk o w c) os fin w)) /\
              snd (tries is_fatal (fun o w => aval X lk o w c) os fin w) = w
      | v :: a =>
          match tries_pure is_fatal (fun o => val X lk v o c) os fin with
          | Ok _ => tries is_fatal (fun o w => aval X lk o w c) os fin w = (Ok tt, WA a (push [v] (wa_snaps w)))
          | r => tries is_fatal (fun o w => aval X lk o w c) os fin w = (r, w)
          end
      end).
    { intros fin F. clear H. destruct w as [l s]. cbn [wa_array wa_snaps].
      induction os as [|o os IHo]; cbn [tries tries_pure].
      - destruct l; auto. split; auto. destruct fin; try discriminate. eexists; reflexivity.
      - pose proof (IH o (or_introl eq_refl) (WA l s)) as Ho. unfold takes_one in Ho. cbn [wa_array wa_snaps] in Ho.
        specialize (IHo (fun o' Ho' => IH o' (or_intror Ho'))).
        destruct (aval X lk o (WA l s) c) as [r w']. destruct l as [|v a].
        + destruct Ho as [(msg & Hr) Hw]. cbn in Hr, Hw. subst. cbn. exact IHo.
        + destruct (val X lk v o c) as [[]|e|]; inversion Ho; subst; auto.
          destruct (is_fatal e); auto. }
    specialize (G (choice_error os) eq_refl). unfold takes_one. destruct (wa_array w) as [|v a]; auto.
    rewrite val_eq. exact G.
Qed.

Lemma element_takes c m t w : element lk c m t -> takes_one t c w (aval X lk m w c).
Proof.
  intros [t' H|k t' cut]; [apply one_type_takes; auto|]. rewrite aval_eq. apply array_value_one.
Qed.

Lemma elements_run c ms ts : Forall2 (element lk c) ms ts ->
  forall a1 a2 s, Forall2 (accepts X lk c) ts a1 -> runs (af X lk c) ms (WA (a1 ++ a2) s) (WA a2 (push a1 s)).
Proof.
  intros H. induction H as [|m t ms ts E H IH]; intros a1 a2 s A; inversion A; subst; cbn.
  - rewrite push_nil. constructor.
  - pose proof (element_takes c m t (WA (y :: l' ++ a2) s) E) as T. unfold takes_one in T. cbn in T.
    rewrite H2 in T. econstructor; [exact T|]. specialize (IH l' a2 (push [y] s) H4).
    rewrite push_push in IH. exact IH.
Qed.

(** If the members run to the end, the elements were accepted one by one. *)
Lemma elements_ok c ms ts : Forall2 (element lk c) ms ts ->
  forall a s w, seqs (af X lk c) ms (WA a s) = (Ok tt, w) ->
  exists a1 a2, a = a1 ++ a2 /\ Forall2 (accepts X lk c) ts a1 /\ w = WA a2 (push a1 s).
Proof.
  intros H. induction H as [|m t ms ts E H IH]; intros a s w R; cbn in R.
  - inversion R; subst. exists [], a. rewrite push_nil. repeat split; auto.
  - pose proof (element_takes c m t (WA a s) E) as T. unfold takes_one in T. cbn in T.
    change (af X lk c m (WA a s)) with (aval X lk m (WA a s) c) in R.
    destruct (aval X lk m (WA a s) c) as [r w']. destruct a as [|v a].
    { destruct T as [(msg & T) _]. cbn in T. subst. discriminate. }
    destruct (val X lk v t c) as [[]|e|] eqn:V; inversion T; subst; try discriminate.
    apply IH in R. destruct R as (a1 & a2 & -> & F & ->). exists (v :: a1), a2. split; [auto|split].
    + constructor; auto.
    + rewrite push_push. auto.
Qed.

Theorem fixed_array_accepts c ms ts a : Forall2 (element lk c) ms ts ->
  (val X lk (VArray a) (NArray ms) c = Ok tt <-> Forall2 (accepts X lk c) ts a).
Proof.
  intros H. rewrite val_eq. unfold array_all. change (fun m w => aval X lk m w c) with (af X lk c). split.
  - destruct (seqs (af X lk c) ms (wa_new a)) as [[[]|e|] w] eqn:R; try discriminate.
    apply (elements_ok c ms ts H) in R. destruct R as (a1 & a2 & -> & F & ->). cbn.
    destruct a2; try discriminate. rewrite app_nil_r. auto.
  - intros F. pose proof (elements_run c ms ts H a [] [] F) as R. rewrite app_nil_r in R.
    rewrite <- (app_nil_r ms). rewrite (seqs_runs _ _ _ _ _ R). reflexivity.
Qed.

Theorem fixed_array_first_error c ms ts a tp t tq ap v aq e : Forall2 (element lk c) ms ts ->
  ts = tp ++ t :: tq -> a = ap ++ v :: aq -> Forall2 (accepts X lk c) tp ap -> val X lk v t c = Err e ->
  val X lk (VArray a) (NArray ms) c = Err e.
Proof.
  intros H -> -> F V. apply Forall2_app_inv_r in H. destruct H as (mp & mq & Hp & Hq & ->).
  inversion Hq as [|x ? mq' ? H1 Hq']; subst. rewrite val_eq. unfold array_all. change (fun m w => aval X lk m w c) with (af X lk c).
  unfold wa_new. rewrite (seqs_runs _ _ _ _ _ (elements_run c mp tp Hp ap (v :: aq) [] F)). cbn [seqs].
  pose proof (element_takes c x t (WA (v :: aq) (push ap [])) H1) as T. unfold takes_one in T. cbn [wa_array] in T.
  rewrite V in T. unfold af. rewrite T. auto.
Qed.

Theorem fixed_array_short c ms ts a tp t tq : Forall2 (element lk c) ms ts ->
  ts = tp ++ t :: tq -> Forall2 (accepts X lk c) tp a -> rejected (val X lk (VArray a) (NArray ms) c).
Proof.
  intros H -> F. apply Forall2_app_inv_r in H. destruct H as (mp & mq & Hp & Hq & ->).
  inversion Hq as [|x ? mq' ? H1 Hq']; subst. rewrite val_eq. unfold array_all. change (fun m w => aval X lk m w c) with (af X lk c).
  pose proof (elements_run c mp tp Hp a [] [] F) as R. rewrite app_nil_r in R.
  unfold wa_new. rewrite (seqs_runs _ _ _ _ _ R). cbn [seqs].
  pose proof (element_takes c x t (WA [] (push a [])) H1) as T. unfold takes_one in T. cbn [wa_array] in T.
  unfold af. destruct (aval X lk x _ c) as [r w']. destruct T as [(msg & T) _]. cbn in T. subst. eexists; reflexivity.
Qed.

Theorem fixed_array_long c ms ts ap v aq : Forall2 (element lk c) ms ts ->
  Forall2 (accepts X lk c) ts ap ->
  val X lk (VArray (ap ++ v :: aq)) (NArray ms) c = Err (EMismatch (txt "shorter array")).
Proof.
  intros H F. rewrite val_eq. unfold array_all. change (fun m w => aval X lk m w c) with (af X lk c).
  pose proof (elements_run c ms ts H ap (v :: aq) [] F) as R.
  rewrite <- (app_nil_r ms). unfold wa_new. rewrite (seqs_runs _ _ _ _ _ R). reflexivity.
Qed.

Theorem array_needs_array c ms v : (forall a, v <> VArray a) ->
  val X lk v (NArray ms) c = Err (EMismatch (txt "array")).
Proof. intros H. rewrite val_eq. unfold array_all. destruct v; auto. exfalso; eapply H; reflexivity. Qed.

(** ** Occurrences *)

Lemma repeats_front {St} (f : St -> res unit * St) k s s1 s2 :
  f s = (Ok tt, s1) -> repeats f k s1 s2 -> repeats f (k + 1) s s2.
Proof.
  intros F R. revert F. induction R as [s1|k s1 s' s2 R IH E]; intros F.
  - econstructor; [constructor|exact F].
  - econstructor; eauto.
Qed.

Lemma elements_repeat c m t a1 a2 s : element lk c m t -> Forall (accepts X lk c t) a1 ->
  repeats (af X lk c m) (N.of_nat (List.length a1)) (WA (a1 ++ a2) s) (WA a2 (push a1 s)).
Proof.
  intros E F. revert s. induction F as [|v a1 A F IH]; intros s; cbn [app List.length].
  - rewrite push_nil. constructor.
  - rewrite Nat2N.inj_succ, <- N.add_1_r. eapply repeats_front.
    + pose proof (element_takes c m t (WA (v :: a1 ++ a2) s) E) as T. unfold takes_one in T. cbn in T.
      rewrite A in T. exact T.
    + specialize (IH (push [v] s)). rewrite push_push in IH. exact IH.
Qed.
Lemma elements_repeat_inv c m t k w w' : element lk c m t -> repeats (af X lk c m) k w w' ->
  exists a1, wa_array w = a1 ++ wa_array w' /\ k = N.of_nat (List.length a1) /\ Forall (accepts X lk c t) a1 /\
             wa_snaps w' = push a1 (wa_snaps w).
Proof.
  intros E R. induction R as [w|k w w1 w2 R IH F].
  - exists []. rewrite push_nil. cbn. auto.
  - destruct IH as (a1 & Ha & -> & A & Sn). unfold af in F.
    pose proof (element_takes c m t w1 E) as T. unfold takes_one in T. rewrite F in T.
    destruct (wa_array w1) as [|v a] eqn:W; [destruct T as [(msg & T) _]; discriminate|].
    destruct (val X lk v t c) as [[]|e|] eqn:V; inversion T; subst. cbn.
    exists (a1 ++ [v]). split; [rewrite <- app_assoc; auto|]. split; [|split].
    + rewrite app_length. cbn. lia.
    + apply Forall_app. split; auto.
    + rewrite Sn, push_push. auto.
Qed.

(** The longest prefix of accepted elements. *)
Lemma accepted_prefix c t (a : list value) : Forall (settled X lk c t) a ->
  exists a1 a2, a = a1 ++ a2 /\ Forall (accepts X lk c t) a1 /\
    match a2 with [] => True | v :: _ => rejected (val X lk v t c) end.
Proof.
  intros S. induction S as [|v a [A|R] S IH].
  - exists [], []. auto.
  - destruct IH as (a1 & a2 & -> & F & H). exists (v :: a1), a2. auto.
  - exists [], (v :: a). auto.
Qed.

Lemma occur_elements c m t lim a s : element lk c m t -> (1 <= snd (bounds lim))%N ->
  Forall (settled X lk c t) a ->
  exists a1 a2, a = a1 ++ a2 /\ Forall (accepts X lk c t) a1 /\
    (N.of_nat (List.length a1) = snd (bounds lim) \/
     (N.of_nat (List.length a1) < snd (bounds lim))%N /\ match a2 with [] => True | v :: _ => rejected (val X lk v t c) end) /\
    snd (aval X lk (NOccur lim m) (WA a s) c) = WA a2 (push a1 s) /\
    ((fst (bounds lim) <= N.of_nat (List.length a1))%N -> fst (aval X lk (NOccur lim m) (WA a s) c) = Ok tt) /\
    ((N.of_nat (List.length a1) < fst (bounds lim))%N -> rejected (fst (aval X lk (NOccur lim m) (WA a s) c))).
Proof.
  intros E U S. destruct (accepted_prefix c t a S) as (p & q & -> & A & Q).
  destruct (N.leb_spec (snd (bounds lim)) (N.of_nat (List.length p))) as [L|L].
  - set (k := N.to_nat (snd (bounds lim))).
    exists (firstn k p), (skipn k p ++ q).
    assert (Hk : N.of_nat (List.length (firstn k p)) = snd (bounds lim)).
    { rewrite firstn_length. unfold k. lia. }
    assert (A1 : Forall (accepts X lk c t) (firstn k p)).
    { rewrite <- (firstn_skipn k p) in A. apply Forall_app in A. tauto. }
    split; [rewrite app_assoc, firstn_skipn; auto|]. split; [auto|]. split; [auto|].
    pose proof (elements_repeat c m t (firstn k p) (skipn k p ++ q) s E A1) as R.
    rewrite app_assoc, firstn_skipn in R.
    exact (array_occur_greedy X lk lim m _ _ _ _ c U R (or_introl (conj Hk eq_refl))).
  - exists p, q. split; [auto|]. split; [auto|]. split; [auto|].
    apply (array_occur_greedy X lk lim m _ _ _ _ c U (elements_repeat c m t p q s E A)).
    right. split; auto. pose proof (element_takes c m t (WA q (push p s)) E) as T. unfold takes_one in T. cbn in T.
    destruct (aval X lk m _ c) as [r w']. destruct q as [|v q].
    + destruct T as [(msg & T) T']. cbn in T, T'. subst. eauto.
    + destruct Q as (msg & Q). rewrite Q in T. inversion T; subst. eauto.
Qed.

(** [[t1, ..., tn, lim t]]. *)
Theorem prefix_occur_array c ms ts lim m t a :
  Forall2 (element lk c) ms ts -> element lk c m t -> (1 <= snd (bounds lim))%N ->
  (forall v t', In v a -> In t' (t :: ts) -> settled X lk c t' v) ->
  decides (exists a1 a2, a = a1 ++ a2 /\ Forall2 (accepts X lk c) ts a1 /\ Forall (accepts X lk c t) a2 /\
             (fst (bounds lim) <= N.of_nat (List.length a2) <= snd (bounds lim))%N)
    (val X lk (VArray a) (NArray (ms ++ [NOccur lim m])) c).
Proof.
  intros Hms Hm U S. rewrite val_eq. unfold array_all. change (fun m w => aval X lk m w c) with (af X lk c).
  (* either the fixed part matches a prefix, or it is rejected *)
  assert (P : (exists a1 a2, a = a1 ++ a2 /\ Forall2 (accepts X lk c) ts a1) \/
              ((~ exists a1 a2, a = a1 ++ a2 /\ Forall2 (accepts X lk c) ts a1) /\
               forall s rest, exists msg w, seqs (af X lk c) (ms ++ rest) (WA a s) = (Err (EMismatch msg), w))).
  { clear Hm U. assert (S' : forall v t', In v a -> In t' ts -> settled X lk c t' v) by (intros; apply S; cbn; auto).
    clear S. revert a S'. induction Hms as [|m0 t0 ms ts E H IH]; intros a S.
    - left. exists [], a. auto.
    - destruct a as [|v a].
      + right. split.
        * intros (a1 & a2 & Q & F). inversion F; subst. discriminate.
        * intros s rest. cbn. pose proof (element_takes c m0 t0 (WA [] s) E) as T. unfold takes_one in T. cbn in T.
          unfold af. destruct (aval X lk m0 _ c) as [r w']. destruct T as [(msg & T) _]. cbn in T. subst. eauto.
      + destruct (S v t0 ltac:(left; auto) ltac:(left; auto)) as [A|(msg & A)].
        * destruct (IH a) as [(a1 & a2 & -> & F)|(N & R)].
          { intros; apply S; right; auto. }
          -- left. exists (v :: a1), a2. auto.
          -- right. split.
             ++ intros (a1 & a2 & Q & F). inversion F; subst. inversion Q; subst. apply N. eauto.
             ++ intros s rest. cbn. pose proof (element_takes c m0 t0 (WA (v :: a) s) E) as T. unfold takes_one in T. cbn in T.
                rewrite A in T. unfold af at 1. rewrite T. apply R.
        * right. split.
          -- intros (a1 & a2 & Q & F). inversion F; subst. inversion Q; subst. congruence.
          -- intros s rest. cbn. pose proof (element_takes c m0 t0 (WA (v :: a) s) E) as T. unfold takes_one in T. cbn in T.
             rewrite A in T. unfold af at 1. rewrite T. eauto. }
  destruct P as [(a1 & a2 & -> & F)|(N & R)].
  2:{ destruct (R [] [NOccur lim m]) as (msg & w & E). unfold wa_new. rewrite E. constructor.
      intros (a1 & a2 & -> & F & _). apply N. eauto. }
  unfold wa_new. rewrite (seqs_runs _ _ _ _ _ (elements_run c ms ts Hms a1 a2 [] F)). cbn [seqs push].
  destruct (occur_elements c m t lim a2 [] Hm U) as (b1 & b2 & -> & B1 & Bk & Ew & Eok & Erej).
  { apply Forall_forall. intros v Hv. apply S; [apply in_or_app; auto|left; auto]. }
  assert (UN : forall x1 x2, a1 ++ b1 ++ b2 = x1 ++ x2 -> Forall2 (accepts X lk c) ts x1 -> x2 = b1 ++ b2).
  { intros x1 x2 Q F'. assert (List.length x1 = List.length a1).
    { apply Forall2_len in F, F'. congruence. }
    assert (skipn (List.length a1) (a1 ++ b1 ++ b2) = skipn (List.length x1) (x1 ++ x2)) as Q' by congruence.
    rewrite !skipn_app, !skipn_all, !Nat.sub_diag in Q'. cbn in Q'. auto. }
  unfold af. destruct (aval X lk (NOccur lim m) (WA (b1 ++ b2) []) c) as [r w]. cbn [fst snd] in *. subst w. cbn.
  destruct (N.ltb_spec (N.of_nat (List.length b1)) (fst (bounds lim))) as [L|L].
  - destruct (Erej L) as (msg & ->). constructor. intros (x1 & x2 & Q & F' & A2 & Lo & Hi).
    apply UN in Q; auto. subst x2.
    destruct Bk as [Bk|[Bk Bq]].
    + assert (b2 = []). { destruct b2; auto. rewrite app_length in Hi. cbn in Hi. lia. } subst.
      rewrite app_nil_r in Lo. lia.
    + destruct b2 as [|v b2]; [rewrite app_nil_r in Lo; lia|]. destruct Bq as (msg' & Bq).
      apply Forall_app in A2. destruct A2 as [_ A2]. inversion A2; subst. unfold accepts in *. congruence.
  - rewrite (Eok L). destruct b2 as [|v b2].
    + constructor. exists a1, (b1 ++ []). rewrite !app_nil_r. repeat split; auto. lia.
    + apply decides_no. intros (x1 & x2 & Q & F' & A2 & Lo & Hi). apply UN in Q; auto. subst x2.
      destruct Bk as [Bk|[Bk (msg & Bq)]].
      * rewrite app_length in Hi. cbn in Hi. lia.
      * apply Forall_app in A2. destruct A2 as [_ A2]. inversion A2; subst. unfold accepts in *. congruence.
Qed.

Theorem occur_array c lim m t a :
  element lk c m t -> (1 <= snd (bounds lim))%N -> Forall (settled X lk c t) a ->
  decides (Forall (accepts X lk c t) a /\ (fst (bounds lim) <= N.of_nat (List.length a) <= snd (bounds lim))%N)
    (val X lk (VArray a) (NArray [NOccur lim m]) c).
Proof.
  intros Hm U S.
  assert (D := prefix_occur_array c [] [] lim m t a (Forall2_nil _) Hm U).
  rewrite Forall_forall in S.
  assert (D' := D ltac:(intros v t' Hv [<-|[]]; auto)). cbn [app] in D'. inversion D' as [(a1 & a2 & -> & F & A & B)|msg N E]; clear D D'.
  - inversion F; subst. constructor. auto.
  - constructor. intros (A & B). apply N. exists [], a. auto.
Qed.
End Arrays.
