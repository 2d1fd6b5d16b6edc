(** The map of rules produced by flattening, and the names its trees mention. *)
From Coq Require Import List Bool ZArith NArith String Lia Permutation Sorted.
From Verif Require Import Base Util Data Ivt Convert Validate Ast Flatten ValueOrder ConvertProofs SpecConvert ConvertExact
  SpecCtx SpecFlatten FlattenProofs.
Import ListNotations.
Open Scope list_scope.

(** * Sorted association lists with text keys *)

Definition tm_sorted {A} (m : list (text * A)) : Prop :=
  StronglySorted (fun p q => text_compare (fst p) (fst q) = Lt) m.

Lemma text_lt_irrefl a : text_compare a a <> Lt.
Proof. rewrite text_compare_refl. discriminate. Qed.
Lemma text_gt_lt a b : text_compare a b = Gt -> text_compare b a = Lt.
Proof. intros H. rewrite text_compare_antisym, H. reflexivity. Qed.

Lemma tm_insert_in {A} k (v : A) m k' v' : tm_sorted m ->
  (In (k', v') (tm_insert k v m) <-> (k' = k /\ v' = v) \/ (k' <> k /\ In (k', v') m)).
Proof.
  induction m as [|[k1 v1] m IH]; cbn; intros S.
  - split; [intros [[= <- <-]|[]]; auto|intros [[-> ->]|[_ []]]; auto].
  - apply StronglySorted_inv in S. destruct S as [S F]. rewrite Forall_forall in F.
    assert (B : In (k', v') m -> text_compare k1 k' = Lt) by (intros H; apply (F _ H)).
    destruct (text_compare k k1) eqn:E; cbn.
    + apply text_compare_eq in E. subst k1. split.
      * intros [[= <- <-]|H]; auto. right. split; auto. intros ->. apply B in H. apply text_lt_irrefl in H. auto.
      * intros [[-> ->]|[N [[= -> ->]|H]]]; auto. congruence.
    + split.
      * intros [[= <- <-]|[[= <- <-]|H]]; auto.
        -- right. split; auto. intros ->. apply text_lt_irrefl in E. auto.
        -- right. split; auto. intros ->. apply B in H. pose proof (text_compare_trans _ _ _ E H) as T.
           apply text_lt_irrefl in T. auto.
      * intros [[-> ->]|[N H]]; auto.
    + rewrite (IH S). apply text_gt_lt in E. split.
      * intros [[= <- <-]|[[-> ->]|[N H]]]; auto. right. split; auto. intros ->. apply text_lt_irrefl in E. auto.
      * intros [[-> ->]|[N [[= <- <-]|H]]]; auto.
Qed.
Lemma tm_insert_sorted {A} k (v : A) m : tm_sorted m -> tm_sorted (tm_insert k v m).
Proof.
  induction m as [|[k1 v1] m IH]; cbn; intros S; [repeat constructor|].
  apply StronglySorted_inv in S. destruct S as [S F]. rewrite Forall_forall in F.
  destruct (text_compare k k1) eqn:E; cbn.
  - constructor; auto. rewrite Forall_forall. intros p Hp. apply F in Hp. auto.
  - constructor; [constructor; auto; rewrite Forall_forall; auto|]. constructor; auto. rewrite Forall_forall. intros p Hp.
    apply F in Hp. cbn in *. eapply text_compare_trans; eauto.
  - apply text_gt_lt in E. constructor; [apply IH; auto|]. rewrite Forall_forall. intros [k' v'] Hp.
    apply (tm_insert_in _ _ _ _ _ S) in Hp. destruct Hp as [[-> ->]|[_ Hp]]; auto.
Qed.

Lemma tm_collect_snoc {A} (l : list (text * A)) p : tm_collect (l ++ [p]) = tm_insert (fst p) (snd p) (tm_collect l).
Proof. unfold tm_collect. rewrite fold_left_app. reflexivity. Qed.
Lemma tm_collect_sorted {A} (l : list (text * A)) : tm_sorted (tm_collect l).
Proof.
  induction l as [|p l IH] using rev_ind; [constructor|]. rewrite tm_collect_snoc. apply tm_insert_sorted; auto.
Qed.
Lemma last_entry_snoc {A} k (v : A) (l : list (text * A)) p :
  last_entry k v (l ++ [p]) <-> (k = fst p /\ v = snd p) \/ (k <> fst p /\ last_entry k v l).
Proof.
  destruct p as [k1 v1]. cbn. split.
  - intros (pre & post & E & N). induction post as [|q post _] using rev_ind.
    + apply app_inj_tail in E. destruct E as [_ [= <- <-]]. auto.
    + right. rewrite app_comm_cons, app_assoc in E. apply app_inj_tail in E. destruct E as [E <-].
      rewrite map_app, in_app_iff in N. cbn in N. split; [intros ->; tauto|]. exists pre, post. split; auto.
  - intros [[-> ->]|[N (pre & post & -> & H)]].
    + exists l, []. auto.
    + exists pre, (post ++ [(k1, v1)]). split; [rewrite <- app_assoc; reflexivity|].
      rewrite map_app, in_app_iff. cbn. intuition.
Qed.
Lemma tm_collect_in {A} (l : list (text * A)) k v : In (k, v) (tm_collect l) <-> last_entry k v l.
Proof.
  induction l as [|p l IH] using rev_ind; [split; [intros []|intros ([|] & post & E & _); discriminate]|].
  rewrite tm_collect_snoc, tm_insert_in by apply tm_collect_sorted. rewrite last_entry_snoc, IH. reflexivity.
Qed.

Lemma tm_sorted_ext {A} (m m' : list (text * A)) : tm_sorted m -> tm_sorted m' ->
  (forall k v, In (k, v) m <-> In (k, v) m') -> m = m'.
Proof.
  revert m'. induction m as [|[k v] m IH]; intros [|[k' v'] m'] S S' H; auto.
  - exfalso. apply (H k' v'). left; auto.
  - exfalso. apply (H k v). left; auto.
  - apply StronglySorted_inv in S, S'. destruct S as [S F], S' as [S' F']. rewrite Forall_forall in F, F'.
    assert (E : (k, v) = (k', v')).
    { destruct (proj1 (H k v)) as [E|E]; [left; auto|auto|]. destruct (proj2 (H k' v')) as [E'|E']; [left; auto|auto|].
      apply F' in E. apply F in E'. cbn in *. pose proof (text_compare_trans _ _ _ E E') as T. apply text_lt_irrefl in T. tauto. }
    injection E as <- <-. f_equal. apply IH; auto. intros k1 v1. split; intros Hin.
    + destruct (proj1 (H k1 v1)) as [E|E]; [right; auto| |auto]. injection E as <- <-. apply F in Hin.
      apply text_lt_irrefl in Hin. tauto.
    + destruct (proj2 (H k1 v1)) as [E|E]; [right; auto| |auto]. injection E as <- <-. apply F' in Hin.
      apply text_lt_irrefl in Hin. tauto.
Qed.

Lemma rules_get_in (rs : rules) n d : tm_sorted rs -> (rules_get rs n = Some d <-> In (n, d) rs).
Proof.
  induction rs as [|[n1 d1] rs IH]; cbn; intros S; [split; [discriminate|tauto]|].
  apply StronglySorted_inv in S. destruct S as [S F]. rewrite Forall_forall in F.
  destruct (text_eqb n1 n) eqn:E.
  - apply text_eqb_eq in E. subst n1. split; [intros [= ->]; auto|intros [[= ->]|H]; auto].
    apply F in H. apply text_lt_irrefl in H. tauto.
  - apply text_eqb_neq in E. rewrite (IH S). split; auto. intros [[= -> ->]|H]; auto. congruence.
Qed.

Lemma tm_collect_map {A B} (f : A -> B) (l : list (text * A)) :
  tm_collect (map (fun p => (fst p, f (snd p))) l) = map (fun p => (fst p, f (snd p))) (tm_collect l).
Proof.
  induction l as [|p l IH] using rev_ind; [reflexivity|]. rewrite map_app. cbn [map]. rewrite !tm_collect_snoc, IH.
  cbn [fst snd]. generalize (tm_collect l). intros m. induction m as [|[k v] m IHm]; cbn; auto.
  destruct (text_compare (fst p) k); cbn; auto. f_equal; auto.
Qed.

(** * Names mentioned by converted trees *)

Definition clean (nd : node) : Prop := forall n, mentions nd n -> user_name n.

Lemma clean_leaf nd : refers nd = None -> children nd = [] -> clean nd.
Proof. intros R C n M. inversion M as [? ? ? R'|? ? ? I]; subst; [congruence|]. rewrite C in I. destruct I. Qed.
Lemma clean_ref nd name args : refers nd = Some (name, args) -> user_name name -> Forall clean (children nd) -> clean nd.
Proof.
  intros R U F n M. inversion M as [? ? ? R'|? ? ? I M']; subst; [congruence|]. rewrite Forall_forall in F. eapply F; eauto.
Qed.
Lemma clean_node nd : refers nd = None -> Forall clean (children nd) -> clean nd.
Proof.
  intros R F n M. inversion M as [? ? ? R'|? ? ? I M']; subst; [congruence|]. rewrite Forall_forall in F. eapply F; eauto.
Qed.
Lemma clean_table s nd : In (s, Some nd) prelude_table -> clean nd.
Proof.
  intros H. destruct (table_shape _ _ H) as [(p & ->)|(b & -> & _)]; apply clean_leaf; reflexivity.
Qed.
Lemma forall2_right {A B} (R : A -> B -> Prop) (P : A -> Prop) (Q : B -> Prop) l l' :
  (forall a b, R a b -> P a -> Q b) -> Forall P l -> Forall2 R l l' -> Forall Q l'.
Proof.
  intros H F F2. induction F2; auto. apply Forall_cons_iff in F. destruct F. constructor; eauto.
Qed.

Section WithRx.
Variable rx : text -> bool.
Lemma means_clean :
  (forall t, (forall nd, means2 rx t nd -> clean nd) /\ (forall nd, means_point rx t nd -> clean nd)) /\
  (forall t nd, means1 rx t nd -> clean nd) /\
  (forall g nd, means_entry rx g nd -> clean nd) /\
  (forall v nd, means_entry_val rx v nd -> clean nd).
Proof.
  assert (L : forall l, clean (NLiteral l)) by (intros; apply clean_leaf; reflexivity).
  assert (A : forall args args', Forall (fun t => forall nd, means1 rx t nd -> clean nd) args ->
     Forall2 (means1 rx) args args' -> Forall clean args').
  { intros args args' F. apply forall2_right with (2 := F); auto. }
  assert (T : forall t, Forall (fun t => forall nd, means1 rx t nd -> clean nd) t -> forall nd, means_type rx t nd -> clean nd).
  { intros t F nd M. inversion M; subst; apply Forall_cons_iff in F; destruct F as [F1 F]; auto.
    apply Forall_cons_iff in F; destruct F as [F2 F]. apply clean_node; auto. repeat constructor; auto. eapply A; eauto. }
  assert (G : forall g, Forall (Forall (fun g => forall nd, means_entry rx g nd -> clean nd)) g ->
     forall ms, means_group rx g ms -> Forall clean ms).
  { assert (E : forall es ms, Forall (fun g => forall nd, means_entry rx g nd -> clean nd) es ->
      Forall2 (means_entry rx) es ms -> Forall clean ms) by (intros es ms F; apply forall2_right with (2 := F); auto).
    intros g F ms M. inversion M; subst.
    - apply Forall_cons_iff in F; destruct F. eauto.
    - repeat constructor. apply clean_node; auto. cbn. 
      match goal with H : Forall2 _ g os |- _ => revert H end.
      apply forall2_right with (2 := F). intros gc nd Mg Fg. inversion Mg; subst. apply clean_node; auto. cbn. eauto. }
  apply ast_ind.
  - intros v. split; intros nd M; inversion M; auto.
  - intros n a H. split; intros nd M; inversion M; subst; auto; try (eapply clean_table; eauto; fail);
      (eapply clean_ref; [reflexivity|auto|cbn; eauto]).
  - intros t H. split; intros nd M; inversion M; subst; eauto.
  - intros g H. split; intros nd M; inversion M; subst. apply clean_node; cbn; eauto.
  - intros g H. split; intros nd M; inversion M; subst. apply clean_node; cbn; eauto.
  - intros n a H. split; intros nd M; inversion M; subst. eapply clean_ref; [reflexivity|auto|cbn; eauto].
  - intros g H. split; intros nd M; inversion M; subst. apply clean_node; cbn; eauto.
  - intros n a H. split; intros nd M; inversion M; subst. eapply clean_ref; [reflexivity|auto|cbn; eauto].
  - intros t [H _] nd M; inversion M; subst. auto.
  - intros s e i [_ Hs] [_ He] nd M; inversion M; subst. apply clean_node; cbn; auto.
  - intros t a o [Ht _] [Ha _] nd M; inversion M as [| |? ? ? t' a' c Mt Ma C]; subst. apply clean_node; auto.
    apply Ht in Mt. apply Ha in Ma. inversion C; subst; cbn; auto.
  - intros o v H nd M; inversion M; subst; auto. apply clean_node; cbn; auto.
  - intros t H nd M; inversion M; subst; eauto.
  - intros s c t H nd M; inversion M; subst. apply clean_node; cbn; eauto.
  - intros v c t H nd M; inversion M; subst. apply clean_node; cbn; eauto.
  - intros k c t Hk H nd M; inversion M; subst. apply clean_node; cbn; eauto.
  - intros s nd M; inversion M; subst; [eapply clean_table; eauto|]. eapply clean_ref; [reflexivity|auto|constructor].
  - intros g H nd M; inversion M; subst. apply clean_node; cbn; eauto.
Qed.
Lemma means_rule_clean r def : means_rule rx r def -> clean (rd_node def).
Proof.
  intros M. destruct means_clean as (_ & M1 & Me & _). inversion M as [? ? ? ? T|? ? ? ? E]; subst; cbn; eauto.
  inversion T; subst; eauto. apply clean_node; auto. cbn. repeat constructor; eauto.
  match goal with H : Forall2 _ ts ns |- _ => revert H end. apply forall2_right with (P := fun _ => True); eauto.
  apply Forall_all. auto.
Qed.
End WithRx.
