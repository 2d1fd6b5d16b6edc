(** Occurrence counts, and how much nesting and how many iterations there can be. *)
From Coq Require Import List Bool ZArith NArith String Lia Arith.
From Verif Require Import Base Util Data Value Convert Ivt Scalar Validate Unfold Mono Total Fun
  ValueOrder SpecBase SpecReach ArrayInv MapInv ConvertProofs NoPanic CtxProofs ReachProofs.
Import ListNotations.

(** * Occurrences *)

Section Occ.
Context {St : Type}.
Variable f : St -> res unit * St.

Lemma occ_spec up k0 s0 s k s' : repeats f k0 s0 s -> (k0 = 0 \/ k0 < up)%N ->
  occ f up k0 s = (Ok k, s') ->
  exists s1, repeats f k s0 s1 /\ (k <= N.max up 1)%N /\
    ((s' = s1 /\ 0 < k /\ up <= k)%N \/ exists msg, f s1 = (Err (EMismatch msg), s')).
Proof.
  remember (N.to_nat (up - k0)) as d eqn:Hd. revert k0 s Hd.
  induction d as [d IH] using lt_wf_ind; intros k0 s Hd R H E.
  rewrite occ_eq in E. destruct (f s) as [[[]|e|] s1] eqn:F; try discriminate.
  - assert (R1 : repeats f (k0 + 1) s0 s1) by (econstructor; eauto).
    destruct (N.leb_spec up (k0 + 1)).
    + inversion E; subst. exists s'. split; [auto|split; [lia|left; split; auto; lia]].
    + eapply IH in E; eauto; lia.
  - destruct (is_mismatch e) eqn:M; inversion E; subst. destruct e; try discriminate.
    exists s. split; [auto|split; [lia|right; eauto]].
Qed.

Lemma occ_run_to up k s s1 : repeats f k s s1 ->
  (k = up \/ (k < up /\ exists msg s2, f s1 = (Err (EMismatch msg), s2)))%N -> (1 <= up)%N ->
  exists s2, occ f up 0 s = (Ok k, s2) /\ ((k = up -> s2 = s1) /\ ((k < up)%N -> exists msg, f s1 = (Err (EMismatch msg), s2))).
Proof.
  intros R [->|(L & msg & s2 & F)] U.
  - inversion R; subst; [lia|]. rewrite (occ_repeats _ _ _ _ _ H) by lia. rewrite occ_eq, H0.
    destruct (N.leb_spec (k + 1) (k + 1)); [|lia]. eexists; split; [reflexivity|]. split; auto; lia.
  - rewrite (occ_repeats _ _ _ _ _ R) by lia. rewrite occ_eq, F. cbn. eexists; split; [reflexivity|]. split; [lia|eauto].
Qed.

Lemma occ_fatal up k s s1 e s2 : repeats f k s s1 -> (k = 0 \/ k < up)%N ->
  f s1 = (Err e, s2) -> is_mismatch e = false -> occ f up 0 s = (Err e, s2).
Proof. intros R H F M. rewrite (occ_repeats _ _ _ _ _ R H), occ_eq, F, M. auto. Qed.

(** Each call of the body that succeeds makes the measure smaller: at most
    [size s + 1] calls are made (the fuel of [occur_loop] counts calls). *)
Lemma occ_calls (size : St -> nat) up count s :
  (forall s s', f s = (Ok tt, s') -> (size s' < size s)%nat) ->
  occur_loop (S (size s)) (fun s => Some (f s)) up count s <> None.
Proof.
  intros H. remember (size s) as d eqn:Hd. revert s count Hd.
  induction d as [d IH] using lt_wf_ind; intros s count Hd. cbn.
  destruct (f s) as [[[]|e|] s'] eqn:F; try discriminate; [|destruct (is_mismatch e); discriminate].
  destruct (N.leb up (count + 1)); try discriminate.
  apply H in F. destruct d as [|d]; [lia|].
  pose proof (IH (size s') ltac:(lia) s' (count + 1)%N eq_refl) as E.
  destruct (occur_loop (S (size s')) _ up (count + 1) s') eqn:O; [|congruence].
  rewrite (le_opt_some _ _ _ (occ_mono f up (count + 1)%N s' (S (size s')) (S d) ltac:(lia)) O). discriminate.
Qed.
Lemma repeats_size (size : St -> nat) k s s' :
  (forall s s', f s = (Ok tt, s') -> (size s' < size s)%nat) ->
  repeats f k s s' -> (k + N.of_nat (size s') <= N.of_nat (size s))%N.
Proof. intros H R. induction R; [lia|]. apply H in H0. lia. Qed.
End Occ.

Section Members.
Variable X : ext.
Variable lk : lookup_context.

Definition stops_at {St} (f : St -> res unit * St) (k up : N) (s1 s2 : St) : Prop :=
  (k = up /\ s2 = s1)%N \/ ((k < up)%N /\ exists msg, f s1 = (Err (EMismatch msg), s2)).

Lemma occur_result_sound {St} (f : St -> res unit * St) lo up sh s s2 : (1 <= up)%N ->
  occur_result lo sh (occ f up 0 s) = (Ok tt, s2) ->
  exists k s1, (lo <= k <= up)%N /\ repeats f k s s1 /\
    ((k = up /\ s2 = s1) \/ exists msg, f s1 = (Err (EMismatch msg), s2)).
Proof.
  intros U E. destruct (occ f up 0 s) as [[k|e|] s'] eqn:O; cbn in E; try discriminate.
  destruct (N.ltb_spec k lo); inversion E; subst.
  destruct (occ_spec f up 0 s s k s2 ltac:(constructor) ltac:(auto) O) as (s1 & R & B & D).
  exists k, s1. split; [lia|]. split; auto. destruct D as [(-> & D)|D]; auto. left; split; auto; lia.
Qed.

Theorem array_occur_sound lim m w w2 c : (1 <= snd (bounds lim))%N ->
  aval X lk (NOccur lim m) w c = (Ok tt, w2) ->
  exists k w1, (fst (bounds lim) <= k <= snd (bounds lim))%N /\ repeats (af X lk c m) k w w1 /\
    ((k = snd (bounds lim) /\ w2 = w1) \/ exists msg, aval X lk m w1 c = (Err (EMismatch msg), w2)).
Proof. intros U E. rewrite aval_eq in E. exact (occur_result_sound _ _ _ _ _ _ U E). Qed.
Theorem map_occur_sound lim m w w2 c : (1 <= snd (bounds lim))%N ->
  mval X lk (NOccur lim m) w c = (Ok tt, w2) ->
  exists k w1, (fst (bounds lim) <= k <= snd (bounds lim))%N /\ repeats (mf X lk c m) k w w1 /\
    ((k = snd (bounds lim) /\ w2 = w1) \/ exists msg, mval X lk m w1 c = (Err (EMismatch msg), w2)).
Proof. intros U E. rewrite mval_eq in E. exact (occur_result_sound _ _ _ _ _ _ U E). Qed.

Lemma occur_result_greedy {St} (f : St -> res unit * St) lo up sh k s s1 s2 : (1 <= up)%N ->
  repeats f k s s1 -> (k = up /\ s2 = s1 \/ (k < up)%N /\ exists msg, f s1 = (Err (EMismatch msg), s2)) ->
  occur_result lo sh (occ f up 0 s) = (if N.ltb k lo then Err sh else Ok tt, s2).
Proof.
  intros U R D.
  destruct (occ_run_to f up k s s1 R) as (s2' & O & H1 & H2); auto.
  { destruct D as [(-> & _)|(? & ? & ?)]; auto. right; eauto. }
  rewrite O. cbn. assert (s2' = s2) as ->.
  { destruct D as [(K & ->)|(K & m & F)]; auto. destruct (H2 K). congruence. }
  destruct (N.ltb k lo); auto.
Qed.
Theorem array_occur_greedy lim m k w w1 w2 c : (1 <= snd (bounds lim))%N ->
  repeats (af X lk c m) k w w1 ->
  (k = snd (bounds lim) /\ w2 = w1 \/ (k < snd (bounds lim))%N /\ exists msg, aval X lk m w1 c = (Err (EMismatch msg), w2)) ->
  snd (aval X lk (NOccur lim m) w c) = w2 /\
  ((fst (bounds lim) <= k)%N -> fst (aval X lk (NOccur lim m) w c) = Ok tt) /\
  ((k < fst (bounds lim))%N -> rejected (fst (aval X lk (NOccur lim m) w c))).
Proof.
  intros U R D. rewrite aval_eq. unfold array_occur.
  rewrite (occur_result_greedy (af X lk c m) _ _ _ _ _ _ _ U R D). cbn.
  destruct (N.ltb_spec k (fst (bounds lim))); split; auto; split; auto; try lia. intros; eexists; reflexivity.
Qed.
Theorem map_occur_greedy lim m k w w1 w2 c : (1 <= snd (bounds lim))%N ->
  repeats (mf X lk c m) k w w1 ->
  (k = snd (bounds lim) /\ w2 = w1 \/ (k < snd (bounds lim))%N /\ exists msg, mval X lk m w1 c = (Err (EMismatch msg), w2)) ->
  snd (mval X lk (NOccur lim m) w c) = w2 /\
  ((fst (bounds lim) <= k)%N -> fst (mval X lk (NOccur lim m) w c) = Ok tt) /\
  ((k < fst (bounds lim))%N -> rejected (fst (mval X lk (NOccur lim m) w c))).
Proof.
  intros U R D. rewrite mval_eq. unfold map_occur.
  rewrite (occur_result_greedy (mf X lk c m) _ _ _ _ _ _ _ U R D). cbn.
  destruct (N.ltb_spec k (fst (bounds lim))); split; auto; split; auto; try lia. intros; eexists; reflexivity.
Qed.

(** The counter of the loop stays within [usize]. *)
Theorem occur_loop_count {St} (step : St -> option (res unit * St)) n up s k s' :
  occur_loop n step up 0 s = Some (Ok k, s') -> (k <= N.max up 1)%N.
Proof.
  assert (G : forall n count s, (count = 0 \/ count < up)%N -> occur_loop n step up count s = Some (Ok k, s') -> (k <= N.max up 1)%N).
  { induction n0 as [|n0 IH]; cbn; intros count s0 H E; [discriminate|].
    destruct (step s0) as [[[u|e|] s1]|]; try discriminate.
    - destruct (N.leb_spec up (count + 1)); [inversion E; subst; lia|]. eapply IH; [|exact E]. lia.
    - destruct (is_mismatch e); inversion E; subst. lia. }
  apply G; auto.
Qed.
End Members.

(** * An occurrence that does not consume *)

Lemma spin {St} (step : St -> option (res unit * St)) s :
  (forall r, step s = Some r -> r = (Ok tt, s)) ->
  forall n up count r, (count < up)%N -> occur_loop n step up count s = Some r -> (up - count <= N.of_nat n)%N.
Proof.
  intros H. induction n as [|n IH]; cbn [occur_loop]; intros up count r L E; [discriminate|].
  destruct (step s) as [p|] eqn:F; [|discriminate]. rewrite (H p eq_refl) in E.
  destruct (N.leb_spec up (count + 1)); [lia|]. apply IH in E; lia.
Qed.

(** [[* (? t)]] on an empty array. *)
Theorem spin_empty X lk t c n r :
  plain_member t ->
  validate X (lookup_rule lk) n (VArray []) (NArray [NOccur OZeroOrMore (NOccur OOptional t)]) c = Some r ->
  (usize_max <= N.of_nat n)%N.
Proof.
  intros P E. destruct n as [|n]; [discriminate|]. rewrite validate_S in E. unfold validate_array in E.
  destruct (seq_loop _ _ _) as [p|] eqn:Q; [|discriminate]. clear E. cbn [seq_loop] in Q.
  destruct (validate_array_member _ _ _ _ _ _) as [q|] eqn:M; [|discriminate]. clear Q.
  destruct n as [|n]; [discriminate|]. rewrite validate_array_member_S in M.
  unfold validate_array_occur in M. cbn [limits] in M.
  destruct (occur_loop n _ usize_max 0 (wa_new [])) as [o|] eqn:O; [|discriminate].
  apply (spin _ (wa_new [])) in O; [lia| |reflexivity].
  intros r0 E. destruct n as [|n]; [discriminate|]. rewrite validate_array_member_S in E.
  unfold validate_array_occur in E. cbn [limits] in E. destruct n as [|n]; [discriminate|].
  cbn [occur_loop] in E. rewrite validate_array_member_S in E.
  destruct t; try contradiction; cbn in E; inversion E; auto.
Qed.

(** * Nesting *)

(** [d0<t> = t], [d(k+1)<t> = dk<dk<t>>]; rule [dk] is named by the text [[k]]. *)
Definition tname : text := txt "t".
Definition dname (k : nat) : text := txt "d" ++ [N.of_nat k].
Definition dbody (k : nat) : node :=
  match k with
  | O => NRule tname []
  | S k' => NRule (dname k') [NRule (dname k') [NRule tname []]]
  end.
Fixpoint drules (k : nat) : rules :=
  match k with
  | O => [(dname 0, RuleDef [tname] (dbody 0))]
  | S k' => (dname k, RuleDef [tname] (dbody k)) :: drules k'
  end.

Lemma dname_inj a b : dname a = dname b -> a = b.
Proof. unfold dname. cbn. intros H. inversion H. lia. Qed.
Lemma drules_get K k : k <= K -> rules_get (drules K) (dname k) = Some (RuleDef [tname] (dbody k)).
Proof.
  induction K as [|K IH]; intros H; cbn [drules rules_get].
  - assert (k = 0) as -> by lia. rewrite text_eqb_refl. auto.
  - destruct (text_eqb (dname (S K)) (dname k)) eqn:E.
    + apply text_eqb_eq, dname_inj in E. subst. auto.
    + apply IH. assert (S K <> k) by (intros F; subst k; rewrite text_eqb_refl in E; discriminate). lia.
Qed.

Section Deep.
Variable X : ext.
Variable K : nat.
Let lk := basic_context (drules K).

Definition dctx (c : ctx) (a : node) : ctx := Ctx [(tname, a)] (Some c) (ctx_depth c + 1)%N.

Lemma d_lookup c k a : k <= K -> gm_get (dname k) (ctx_map c) = None -> (ctx_depth c < max_depth)%N ->
  lookup_rule lk c (dname k) [a] = Ok (dbody k, dctx c a).
Proof.
  intros H G D. rewrite (lookup_enter lk c (dname k) [a] (RuleDef [tname] (dbody k))); auto.
  - apply N.leb_gt in D. rewrite D. reflexivity.
  - unfold lk, basic_context. rewrite drules_get; auto.
Qed.
Lemma t_lookup c a : lookup_rule lk (dctx c a) tname [] = Ok (a, c).
Proof. apply lookup_param; reflexivity. Qed.

Lemma deep k : forall n v a c r, k <= K -> gm_get (dname k) (ctx_map c) = None ->
  (ctx_depth c + N.of_nat k < max_depth)%N ->
  validate X (lookup_rule lk) n v (NRule (dname k) [a]) c = Some r ->
  exists n', (N.of_nat n' + 2 ^ N.of_nat k < N.of_nat n)%N /\ validate X (lookup_rule lk) n' v a c = Some r.
Proof.
  induction k as [|k IH]; intros n v a c r HK G D E.
  - destruct n as [|n]; [discriminate|]. rewrite validate_S, d_lookup in E by (auto; lia).
    destruct n as [|n]; [discriminate|]. cbn [dbody] in E. rewrite validate_S, t_lookup in E.
    exists n. split; auto. change (2 ^ N.of_nat 0)%N with 1%N. lia.
  - destruct n as [|n]; [discriminate|]. rewrite validate_S, d_lookup in E by (auto; lia). cbn [dbody] in E.
    apply IH in E; [|lia|reflexivity|cbn [ctx_depth dctx]; lia]. destruct E as (n1 & L1 & E).
    apply IH in E; [|lia|reflexivity|cbn [ctx_depth dctx]; lia]. destruct E as (n2 & L2 & E).
    destruct n2 as [|n2]; [discriminate|]. rewrite validate_S, t_lookup in E.
    exists n2. split; auto. rewrite Nat2N.inj_succ, N.pow_succ_r'. lia.
Qed.

Lemma deep_ok k : forall v a c, k <= K -> gm_get (dname k) (ctx_map c) = None ->
  (ctx_depth c + N.of_nat k < max_depth)%N ->
  val X lk v (NRule (dname k) [a]) c = val X lk v a c.
Proof.
  intros v a c HK G D. destruct (val_spec X lk v (NRule (dname k) [a]) c) as (n & E).
  apply deep in E; auto. destruct E as (n' & _ & E). symmetry. eapply val_run; exact E.
Qed.
End Deep.

(** The nesting depth of calls needed to validate an integer against [dK<int>]
    ([validate] with fuel [n] gives up on nesting deeper than [n]). *)
Theorem nesting_exponential X K v : K < 50 ->
  exists def, List.length (drules K) = S K /\
  (forall n r, do_validate X (basic_context (drules K)) n v def = Some r -> (2 ^ N.of_nat K < N.of_nat n)%N) /\
  run_validate X (basic_context (drules K)) v def = val X (basic_context []) v (NPrelude PInt) initial_ctx.
Proof.
  intros HK. exists (RuleDef [] (NRule (dname K) [NPrelude PInt])). split; [|split].
  - clear. induction K; cbn; auto.
  - intros n r E. unfold do_validate in E. cbn [rd_parms rd_node] in E. apply deep in E; auto.
    + destruct E as (n' & L & _). lia.
    + cbn. unfold max_depth. lia.
  - rewrite run_validate_val by reflexivity. cbn [rd_node]. rewrite deep_ok; auto; [|cbn [ctx_depth initial_ctx]; unfold max_depth; lia].
    rewrite !val_eq. reflexivity.
Qed.
