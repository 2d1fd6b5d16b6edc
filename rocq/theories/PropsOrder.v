(** The order of values, and that a member of a map takes the first entry in that
    order whose key it matches: C51. *)
From Coq Require Import List Bool ZArith NArith String Lia Sorted.
From Verif Require Import Base Util Data Value Convert Ivt Scalar Validate Total Fun NoPanic MapProofs SpecBase SpecConvert SpecVerdict SpecPos SpecJudge SpecPeg
  ValueOrder ConvertProofs ConvertExact CtxProofs PegExact SpecActs JudgeProofs ActProofs SpecOrder OrderProofs WorkProofs PropsBlame Demo.
Import ListNotations.
Open Scope list_scope.

(** ** C51.  The order of values is the one spelled out in SpecOrder.v. *)
Theorem C51_order_exact : forall a b, wf_value a -> wf_value b -> (vcompare a b = Lt <-> before a b).
Proof. intros a b. apply before_exact. Qed.
(** The entries of a map are held in that order of their keys. *)
Theorem C51_sorted : forall es, wf_value (VMap es) -> StronglySorted before (map fst es).
Proof.
  intros es W. apply wf_map in W as [W S]. unfold sorted in S. induction S as [|[k v] es S IH F]; cbn; constructor.
  - apply IH. inversion W; auto.
  - inversion W as [|? ? Wk Wr]; subst. rewrite Forall_forall in *. intros k' Hk'. apply in_map_iff in Hk' as ([k2 v2] & <- & Hin).
    apply before_exact; [apply Wk| |apply (F _ Hin)]. apply (Wr _ Hin).
Qed.

Section First.
Variable X : ext.
Variable lk : lookup_context.
Hypothesis Hlk : forall name e, lk name = inr e -> is_fatal e = true.
Notation acts := (acts X lk).
Lemma answered c t v : keys_sorted v -> exists r, acts (AskType c t v) r.
Proof. intros K. destruct (val_spec X lk v t c) as (n & E). eexists. exact (proj1 (main X lk Hlk n) c t v _ K E). Qed.
Lemma accepts c t v : keys_sorted v -> (acts (AskType c t v) Accept <-> val X lk v t c = Ok tt).
Proof.
  intros K. rewrite (acts_exact X lk Hlk c t v _ K). destruct (val X lk v t c) as [[]|[]|]; cbn; split; congruence.
Qed.
Lemma finds c key es k v : acts (AskKey c key es) (Found k v) ->
  exists l1 l2, es = l1 ++ (k, v) :: l2 /\ acts (AskType c key k) Accept /\ forall k' v', In (k', v') l1 -> ~ acts (AskType c key k') Accept.
Proof.
  induction es as [|[k0 v0] es IH]; intros A; inversion A; subst.
  - exists [], es. split; [reflexivity|]. split; [assumption|]. intros ? ? [].
  - destruct (IH ltac:(assumption)) as (l1 & l2 & -> & B & N). exists ((k0, v0) :: l1), l2. split; [reflexivity|]. split; [assumption|].
    intros k' v' [[= <- <-]|Hin] Y; [|eapply N; eauto].
    match goal with H1 : acts (AskType c key k0) ?r', H2 : ?r' <> Accept |- _ => apply H2; eapply acts_det; eauto end.
Qed.
Lemma finds_back c key l1 k v l2 : Forall keys_sorted (map fst l1) -> acts (AskType c key k) Accept ->
  (forall k' v', In (k', v') l1 -> ~ acts (AskType c key k') Accept) -> acts (AskKey c key (l1 ++ (k, v) :: l2)) (Found k v).
Proof.
  induction l1 as [|[k0 v0] l1 IH]; cbn; intros K A N; [apply key_here; auto|]. inversion K; subst.
  destruct (answered c key k0) as (r & B); auto. eapply key_later; [exact B| |apply IH; eauto].
  intros ->. eapply N; [left; reflexivity|exact B].
Qed.
Definition any_t := NPrelude PAny.
Definition the_rest := NOccur OZeroOrMore (NKeyValue any_t any_t false).
Lemma any_ok c v : acts (AskType c any_t v) Accept.
Proof. apply (t_leaf X lk c any_t v Good). apply j_prelude. apply settles_yes. constructor. Qed.
Lemma filter_first k v es : sorted ((k, v) :: es) -> filter (fun e => negb (veqb (fst e) k)) ((k, v) :: es) = es.
Proof.
  intros S. inversion S as [|? ? S' F]; subst. cbn. rewrite (proj2 (veqb_eq k k) eq_refl). cbn.
  clear S S'. induction es as [|[k' v'] es IH]; auto. inversion F as [|? ? F1 F2]; subst. cbn. destruct (veqb k' k) eqn:E.
  - apply veqb_eq in E. subst. exfalso. unfold klt in F1. cbn [fst] in F1. rewrite vcompare_refl in F1. discriminate.
  - cbn. f_equal. auto.
Qed.
Lemma rest_taken c n es : sorted es -> (1 <= n)%N -> (N.of_nat (List.length es) <= n)%N ->
  exists k took, acts (AskRepM c (NKeyValue any_t any_t false) n es) (RoundsM k took []).
Proof.
  revert n. induction es as [|[k v] es IH]; intros n S P L.
  - eexists _, _. eapply repm_miss. apply m_entry_no. apply key_none.
  - assert (A : acts (AskMap c (NKeyValue any_t any_t false) ((k, v) :: es)) (DidM Matched [(k, v)] es)).
    { rewrite <- (filter_first k v es) at 2 by auto. apply (m_entry X lk c any_t any_t false _ k v Accept); [apply key_here|]; apply any_ok. }
    destruct (N.eq_dec n 1) as [->|N1].
    + destruct es; [|cbn in L; lia]. eexists _, _. eapply repm_last; eauto.
    + inversion S; subst. destruct (IH (n - 1)%N) as (k0 & took & B); auto; [lia|cbn in L; lia|].
      eexists _, _. change (RoundsM ?a ?b []) with (RoundsM a b []). eapply (repm_more X lk c _ n _ _ _ (RoundsM k0 took [])); eauto. lia.
Qed.
Lemma map_accepted c ms es : acts (AskType c (NMap ms) (VMap es)) Accept -> exists took, acts (AskSeqM c ms es) (DidM Matched took []).
Proof.
  intros A. inversion A; subst.
  - match goal with J : judges _ _ _ _ _ _ |- _ => apply judges_leaf in J; discriminate end.
  - match goal with E : all_of ?r = Accept |- _ => destruct r as [| | |[] ? []|[] ? []| | | |]; cbn in E; try discriminate end; eauto.
    + exfalso. match goal with AS : acts (AskSeqM _ _ _) _ |- _ => apply acts_leaves in AS; [exact AS|exact I] end.
    + exfalso. match goal with AS : acts (AskSeqM _ _ _) _ |- _ => apply acts_leaves in AS; [exact AS|exact I] end.
Qed.
End First.

(** A member [key => t] takes the entry that comes first in this order among those
    whose key is accepted by [key]; nothing else of the map matters to it. *)
Theorem C51_first_entry : forall X lk es key t cut,
  (forall name e, lk name = inr e -> is_fatal e = true) -> wf_value (VMap es) -> (N.of_nat (List.length es) < 2 ^ 64)%N ->
  (run_validate X lk (VMap es) (RuleDef [] (NMap [NKeyValue key t cut; the_rest])) = Ok tt <->
   exists k v, In (k, v) es /\ run_validate X lk k (RuleDef [] key) = Ok tt /\ run_validate X lk v (RuleDef [] t) = Ok tt /\
     forall k' v', In (k', v') es -> run_validate X lk k' (RuleDef [] key) = Ok tt -> k' = k \/ before k k').
Proof.
  intros X lk es key t cut Hl W L. rewrite run_validate_val by auto. cbn [rd_node].
  rewrite <- (accepts X lk Hl initial_ctx _ (VMap es)) by (apply wf_keys_sorted; auto).
  pose proof (C51_sorted es W) as S. pose proof W as W0. apply wf_map in W0 as [We So]. rewrite Forall_forall in We.
  assert (KK : forall k v, In (k, v) es -> keys_sorted k /\ keys_sorted v).
  { intros k v Hin. destruct (We _ Hin). split; apply wf_keys_sorted; auto. }
  assert (RV : forall w nd, keys_sorted w -> (run_validate X lk w (RuleDef [] nd) = Ok tt <-> acts X lk (AskType initial_ctx nd w) Accept)).
  { intros w nd K. rewrite run_validate_val by auto. cbn [rd_node]. symmetry. apply accepts; auto. }
  split.
  - intros A. apply map_accepted in A as (took & A). inversion A; subst.
    2:{ exfalso. match goal with N : forall took rest, _ <> _ |- _ => eapply N; reflexivity end. }
    match goal with M : acts _ _ (AskMap _ (NKeyValue _ _ _) _) _ |- _ => inversion M; subst end; try discriminate.
    match goal with AK : acts _ _ (AskKey _ _ _) (Found ?k ?v), E : entryM _ _ _ _ ?r = _, AT : acts _ _ (AskType _ t _) ?r |- _ =>
      assert (r = Accept) by (apply acts_leaves in AT; [|exact I]; destruct r; cbn in *; try discriminate; try contradiction; auto; destruct cut; discriminate);
      subst r; destruct (finds X lk _ _ _ _ _ AK) as (l1 & l2 & -> & Ak & N); exists k, v end.
    assert (Hin : In (k, v) (l1 ++ (k, v) :: l2)) by (apply in_or_app; right; left; reflexivity).
    destruct (KK _ _ Hin). split; [auto|]. split; [apply RV; auto|]. split; [apply RV; auto|].
    intros k' v' Hk' R'. apply RV in R'; [|apply (KK _ _ Hk')].
    apply in_app_or in Hk' as [Hk'|[[= <- <-]|Hk']]; [exfalso; eapply N; eauto|auto|right].
    rewrite map_app in S. cbn in S. clear - S Hk'. induction l1 as [|[] l1 IH]; cbn in S; inversion S; subst; auto.
    match goal with F : Forall _ _ |- _ => rewrite Forall_forall in F; apply F end. apply in_map_iff. exists (k', v'). auto.
  - intros (k & v & Hin & Rk & Rv & Least). destruct (KK _ _ Hin) as [Kk Kv]. apply RV in Rk; auto. apply RV in Rv; auto.
    apply in_split in Hin as (l1 & l2 & ->).
    assert (N : forall k' v', In (k', v') l1 -> ~ acts X lk (AskType initial_ctx key k') Accept).
    { intros k' v' Hk' A. assert (Hin : In (k', v') (l1 ++ (k, v) :: l2)) by (apply in_or_app; auto).
      destruct (KK _ _ Hin) as [Kk' _].
      assert (Hb : before k' k).
      { clear - S Hk'. rewrite map_app in S. induction l1 as [|[k0 v0] l1 IH]; [contradiction|]. cbn in S. inversion S; subst.
        destruct Hk' as [[= -> ->]|Hk']; [|auto]. rewrite Forall_forall in H2. apply H2. apply in_or_app. right. left. reflexivity. }
      assert (Wk' : wf_value k') by apply (We _ Hin).
      assert (Wk : wf_value k) by (apply (We (k, v)); apply in_or_app; right; left; reflexivity).
      apply before_exact in Hb; auto. destruct (Least k' v' Hin) as [->|Hb']; [apply RV; auto|rewrite vcompare_refl in Hb; discriminate|].
      apply before_exact in Hb'; auto. pose proof (vcompare_trans _ _ _ Hb Hb') as T. rewrite vcompare_refl in T. discriminate. }
    assert (AK : acts X lk (AskKey initial_ctx key (l1 ++ (k, v) :: l2)) (Found k v)).
    { apply finds_back; auto. apply Forall_forall. intros k' Hk'. apply in_map_iff in Hk' as ([k2 v2] & <- & H2).
      refine (proj1 (KK k2 v2 _)). apply in_or_app. left. exact H2. }
    set (es := l1 ++ (k, v) :: l2) in *. set (rest := filter (fun e => negb (veqb (fst e) k)) es).
    assert (Sr : sorted rest /\ (List.length rest <= List.length es)%nat). {
      split; [|apply part_filter]. subst rest. clear - So. unfold sorted. induction So as [|e l So IH F]; cbn; [constructor|].
      destruct (negb (veqb (fst e) k)); auto. constructor; auto. rewrite Forall_forall in *. intros x Hx. apply F. apply filter_In in Hx. tauto. }
    destruct Sr as [Sr Lr].
    destruct (rest_taken X lk initial_ctx 18446744073709551615 rest Sr ltac:(lia) ltac:(lia)) as (n & took & AR).
    change Accept with (all_of (DidM Matched ([(k, v)] ++ took ++ []) [])). apply t_map.
    change (DidM Matched ([(k, v)] ++ took ++ []) []) with (afterM [(k, v)] (afterM took (DidM Matched [] []))).
    apply seqm_next with (rest := rest); [apply (m_entry X lk initial_ctx key t cut es k v Accept); auto|].
    apply seqm_next with (rest := []); [|apply seqm_end].
    pose proof (m_occur X lk initial_ctx OZeroOrMore _ rest (RoundsM n took []) AR) as AO. cbn [at_least] in AO.
    destruct n; exact AO.
Qed.

(** The member [any => int] takes the entry of [null], not that of the byte string,
    although the document has the byte string first; the rest is for [* any => any]. *)
Example C51_first_entry_example :
  wf_value (VMap [(VNull, vs "x"); (VBytes [1%N], vi 1)]) /\
  run_validate demo_ext no_rules (VMap [(VNull, vs "x"); (VBytes [1%N], vi 1)]) (RuleDef [] (NMap [NKeyValue any_t int_t false; the_rest])) <> Ok tt /\
  run_validate demo_ext no_rules (VMap [(VNull, vi 1); (VBytes [1%N], vs "x")]) (RuleDef [] (NMap [NKeyValue any_t int_t false; the_rest])) = Ok tt.
Proof.
  assert (W : forall a b, wf_value a -> wf_value b -> wf_value (VMap [(VNull, a); (VBytes [1%N], b)])).
  { intros a b Wa Wb. apply wf_map. split; [|repeat constructor]. repeat constructor; cbn; auto. }
  split; [apply W; cbn; [repeat constructor; cbn; lia|lia]|]. split.
  - rewrite run_validate_val by reflexivity. rewrite (val_run _ _ 20 _ _ _ (Err (EMismatch (txt "int")))); [discriminate|vm_compute; reflexivity].
  - rewrite run_validate_val by reflexivity. run 20%nat.
Qed.
Example C51_order_example : before (VFloat 9223372036854775808) (VFloat 0) /\ before (vs "ab") (vs "b") /\ before (VArray [vi 1]) (VArray [vi 1; VNull]) /\
  before (VMap []) (VMap [(VNull, VNull)]) /\ before (VMap [(vi 1, vi 5)]) (VMap [(vi 1, vi 6)]) /\ before (VBytes [2%N]) (vs "a").
Proof.
  split; [apply floats, neg_pos; lia|]. split; [apply texts; vm_compute; apply differs; reflexivity|]. split; [apply arrays, agrees, begins|].
  split; [apply maps, begins|]. split; [apply maps, differs; right; split; [reflexivity|apply integers; lia]|].
  apply by_kind. exists [KNull; KBool; KInteger; KFloat], [], [KArray; KMap]. reflexivity.
Qed.

Print Assumptions C51_order_exact.
Print Assumptions C51_sorted.
Print Assumptions C51_first_entry.
