(** What a member does to the working map: it removes accepted entries,
    remembers them in the innermost snapshot, and may lose entries only when an
    inner group commits. *)
From Coq Require Import List Bool ZArith NArith String Lia Arith.
From Verif Require Import Base Util Data Value Convert Ivt Scalar Validate Unfold Mono ValueOrder ArrayInv.
Import ListNotations.

Definition entry := (value * value)%type.

(** Extending a map with entries that do not contradict it. *)
Lemma bt_extend_in (M : list entry) m l kv :
  sorted M -> sorted m -> (forall x, In x m -> In x M) -> (forall x, In x l -> In x M) ->
  (In kv (bt_extend m l) <-> In kv m \/ In kv l).
Proof.
  intros SM. unfold bt_extend. revert m; induction l as [|[k v] l IH]; cbn; intros m S Hm Hl; [tauto|].
  assert (I : forall x, In x (bt_insert k v m) <-> In x m \/ x = (k, v)).
  { intros [k' v']. rewrite bt_insert_in by auto. cbn. split; [tauto|]. intros [H|H]; auto.
    destruct (value_eq_dec k' k) as [->|N]; [|auto]. left.
    rewrite (sorted_unique M k v' v SM); auto. }
  rewrite IH.
  - rewrite I. intuition congruence.
  - apply bt_insert_sorted; auto.
  - intros x Hx. apply I in Hx. destruct Hx as [Hx|Hx]; [auto|subst x; auto].
  - auto.
Qed.

Definition mstep (P L : entry -> Prop) (w w' : wmap) : Prop :=
  sorted (wm_map w) -> sorted (wm_map w') /\
  exists p,
    (forall x, In x p -> P x /\ In x (wm_map w)) /\
    (forall x, In x (wm_map w') -> In x (wm_map w)) /\
    (forall x, In x (wm_map w) -> In x (wm_map w') \/ In x p \/ L x) /\
    wm_snaps w' = push p (wm_snaps w).

Lemma mstep_refl P L w : mstep P L w w.
Proof. intros S. split; auto. exists []. rewrite push_nil. cbn. intuition. Qed.
Lemma mstep_trans P L a b c : mstep P L a b -> mstep P L b c -> mstep P L a c.
Proof.
  intros H1 H2 S. destruct (H1 S) as (S1 & p & Pp & Ip & Lp & Sp).
  destruct (H2 S1) as (S2 & q & Pq & Iq & Lq & Sq). split; auto. exists (p ++ q). repeat split.
  - apply in_app_or in H. destruct H as [H|H]; [apply Pp|apply Pq]; auto.
  - apply in_app_or in H. destruct H as [H|H]; [apply Pp|apply Ip, Pq]; auto.
  - auto.
  - intros x Hx. rewrite in_app_iff. apply Lp in Hx. destruct Hx as [Hx|[Hx|Hx]]; auto.
    apply Lq in Hx. intuition.
  - rewrite Sq, Sp. apply push_push.
Qed.

Section Inv.
Variable X : ext.
Context {C : Type}.
Variable lookup : C -> text -> list node -> res (node * C).
(** [Q]: nodes used as map members; [QC]: names used as [&name] map members;
    [T c key value cut]: key-value members. *)
Variable Q : C -> node -> Prop.
Variable QC : C -> text -> list node -> Prop.
Variable T : C -> node -> node -> Prop.
Variable L : entry -> Prop.

Definition accepted_entry (x : entry) : Prop :=
  exists c key val n1 n2, T c key val /\
    validate X lookup n1 (fst x) key c = Some (Ok tt) /\
    validate X lookup n2 (snd x) val c = Some (Ok tt).

Hypothesis Q_rule : forall c name args nd' c', Q c (NRule name args) ->
  lookup c name args = Ok (nd', c') -> Q c' nd'.
Hypothesis Q_unwrap : forall c name args ms c' m, Q c (NUnwrap name args) ->
  lookup c name args = Ok (NMap ms, c') -> In m ms -> Q c' m.
Hypothesis Q_occur : forall c lim m, Q c (NOccur lim m) -> Q c m.
Hypothesis Q_choice : forall c os m, Q c (NChoice os) -> In m os -> Q c m.
Hypothesis Q_group : forall c ms m, Q c (NGroup ms) -> In m ms -> Q c m.
Hypothesis Q_inline : forall c ms m, Q c (NChoiceifyInline ms) -> In m ms -> Q c m.
Hypothesis Q_choiceify : forall c name args, Q c (NChoiceify name args) -> QC c name args.
Hypothesis QC_rule : forall c name args name' args' c', QC c name args ->
  lookup c name args = Ok (NRule name' args', c') -> QC c' name' args'.
Hypothesis QC_group : forall c name args ms c' m, QC c name args ->
  lookup c name args = Ok (NGroup ms, c') -> In m ms ->
  match m with
  | NRule name' args' => QC c' name' args'
  | NKeyValue _ v _ => Q c' v
  | _ => Q c' m
  end.
Hypothesis Q_kv : forall c k v cut, Q c (NKeyValue k v cut) -> T c k v.
Hypothesis L_group : forall c ms x, Q c (NGroup ms) -> accepted_entry x -> L x.

Lemma map_search_loop_in (rec : value -> option (res unit)) l fin k v :
  map_search_loop rec l fin = Some (Ok (k, v)) -> In (k, v) l /\ rec k = Some (Ok tt).
Proof.
  induction l as [|[k' v'] l IH]; cbn; [discriminate|].
  destruct (rec k') as [[[]|e|]|] eqn:E; try discriminate; intros H.
  - inversion H; subst; auto.
  - apply IH in H. tauto.
Qed.

Lemma map_key_found n c key w k v : sorted (wm_map w) ->
  validate_map_key X (fun v nd => validate X lookup n v nd c) key w = Some (Ok (k, v)) ->
  In (k, v) (wm_map w) /\ exists n', validate X lookup n' k key c = Some (Ok tt).
Proof.
  intros S H.
  assert (G : (exists l, key = NLiteral l) \/
     map_search X (fun v nd => validate X lookup n v nd c) key w = Some (Ok (k, v))).
  { destruct key; eauto; right; exact H. }
  destruct G as [(l & ->)|G].
  - cbn in H. unfold map_search_literal in H. destruct (wm_peek_at (value_of_literal l) w) eqn:E; inversion H; subst.
    apply bt_get_in in E; auto. split; auto. exists 1. cbn. unfold validate_literal. rewrite veqb_refl. auto.
  - apply map_search_loop_in in G. destruct G. eauto.
Qed.

Lemma map_keyvalue_step n c key val cut w r w' : T c key val ->
  validate_map_keyvalue X (fun v nd => validate X lookup n v nd c) key val cut w = Some (r, w') ->
  mstep accepted_entry L w w'.
Proof.
  unfold validate_map_keyvalue. intros HT E S.
  destruct (validate_map_key _ _ _ _) as [[[k v]|e|]|] eqn:K; try (inversion E; subst; apply (mstep_refl _ _ _ S)).
  apply map_key_found in K; auto. destruct K as (Hin & n' & Hk).
  destruct (validate X lookup n v val c) as [[[]|e|]|] eqn:V; try discriminate.
  2:{ destruct cut, e; inversion E; subst; apply (mstep_refl _ _ _ S). }
  2:{ inversion E; subst; apply (mstep_refl _ _ _ S). }
  unfold wm_remove in E.
  pose proof (bt_remove_get (wm_map w) k) as G. pose proof (bt_remove_sorted (wm_map w) k S) as S'.
  pose proof (fun p => bt_remove_in (wm_map w) k p S) as I.
  pose proof Hin as Hg. apply (bt_get_in _ _ _ S) in Hg. rewrite Hg in G.
  destruct (bt_remove k (wm_map w)) as [o m']; cbn in *. subst o.
  assert (M : wm_map w' = m' /\ wm_snaps w' = push [(k, v)] (wm_snaps w)).
  { destruct (wm_snaps w); inversion E; subst; cbn; auto. }
  destruct M as [-> ->]. split; auto. exists [(k, v)]. repeat split; auto.
  - destruct H as [<-|[]]. exists c, key, val, n', n. auto.
  - destruct H as [<-|[]]. auto.
  - intros x Hx. apply I in Hx. tauto.
  - intros [k' v'] Hx. destruct (value_eq_dec k' k) as [->|N].
    + right; left. left. rewrite (sorted_unique _ _ _ _ S Hin Hx). auto.
    + left. apply I. auto.
Qed.

Theorem map_step n :
  (forall c m w r w', Q c m ->
     validate_map_member X lookup n m w c = Some (r, w') -> r <> Panic -> mstep accepted_entry L w w') /\
  (forall c name args w r w', QC c name args ->
     validate_map_choiceify X lookup n name args w c = Some (r, w') -> r <> Panic -> mstep accepted_entry L w w').
Proof.
  induction n as [|n [IH IHC]]; [split; intros; discriminate|]. split.
  - intros c m w r w' HQ E N. rewrite validate_map_member_S in E.
    destruct m; try (inversion E; subst; apply mstep_refl; fail).
    + destruct (lookup c name args) as [[nd' c']|e|] eqn:Lk; try (inversion E; subst; apply mstep_refl).
      eapply IH; [|exact E|exact N]. eauto.
    + eapply (try_step (mstep accepted_entry L) (mstep_refl _ _) (mstep_trans _ _)); [|exact E|exact N].
      intros m s r0 s' Hm. apply IH. eauto.
    + unfold validate_map_group in E.
      destruct (seq_loop _ members (wm_snapshot w)) as [[r1 w1]|] eqn:S; [|discriminate].
      assert (A : r1 <> Panic -> mstep accepted_entry L (wm_snapshot w) w1).
      { eapply (seq_step (mstep accepted_entry L) (mstep_refl _ _) (mstep_trans _ _)); [|exact S].
        intros m s r0 s' Hm. apply IH. eauto. }
      intros SW.
      destruct r1 as [u|e|]; [| |inversion E; subst; congruence];
        (destruct (A ltac:(discriminate) SW) as (S1 & p & Pp & Ip & Lp & Sp); cbn in Pp, Ip, Lp, Sp;
         unfold wm_commit, wm_rewind in E; rewrite Sp in E; inversion E; subst; clear E); cbn.
      * split; auto. exists []. rewrite push_nil. repeat split; auto; try contradiction.
        intros x Hx. apply Lp in Hx. destruct Hx as [Hx|[Hx|Hx]]; auto. right; right.
        eapply L_group; eauto. apply Pp; auto.
      * assert (B : forall kv, In kv (bt_extend (wm_map w1) p) <-> In kv (wm_map w1) \/ In kv p).
        { intros kv. apply (bt_extend_in (wm_map w)); auto. intros x Hx; apply Pp; auto. }
        split; [apply bt_extend_sorted; auto|].
        exists []. rewrite push_nil. repeat split; auto; try contradiction.
        -- intros x Hx. apply B in Hx. destruct Hx as [Hx|Hx]; auto. apply Pp; auto.
        -- intros x Hx. rewrite B. apply Lp in Hx. tauto.
    + eapply map_keyvalue_step; [|exact E]. eauto.
    + unfold validate_map_occur in E. destruct (limits limit) as [lo up].
      destruct (occur_loop n _ up 0 w) as [[r1 w1]|] eqn:S; [|discriminate].
      assert (A : r1 <> Panic -> mstep accepted_entry L w w1).
      { eapply (occur_step (mstep accepted_entry L) (mstep_refl _ _) (mstep_trans _ _)); [|exact S].
        intros s r0 s'. apply IH. eauto. }
      destruct r1 as [u|e|]; [destruct (N.ltb u lo)| |]; inversion E; subst; try congruence; apply A; discriminate.
    + destruct (lookup c name args) as [[nd' c']|e|] eqn:Lk; try (inversion E; subst; apply mstep_refl).
      unfold validate_map_unwrap in E. destruct nd'; try (inversion E; subst; apply mstep_refl).
      eapply (seq_step (mstep accepted_entry L) (mstep_refl _ _) (mstep_trans _ _)); [|exact E|exact N].
      intros m s r0 s' Hm. apply IH. eauto.
    + eapply IHC; [|exact E|exact N]. eauto.
    + eapply (try_step (mstep accepted_entry L) (mstep_refl _ _) (mstep_trans _ _)); [|exact E|exact N].
      intros m s r0 s' Hm. apply IH. eauto.
  - intros c name args w r w' HQ E N. rewrite validate_map_choiceify_S in E.
    destruct (lookup c name args) as [[nd' c']|e|] eqn:Lk; try (inversion E; subst; apply mstep_refl).
    destruct nd'; try (inversion E; subst; apply mstep_refl).
    + eapply IHC; [|exact E|exact N]. eauto.
    + eapply (try_step (mstep accepted_entry L) (mstep_refl _ _) (mstep_trans _ _)); [|exact E|exact N].
      intros m s r0 s' Hm. pose proof (QC_group _ _ _ _ _ _ HQ Lk Hm) as G.
      destruct m; try (apply IH; exact G). apply IHC; exact G.
Qed.
End Inv.
