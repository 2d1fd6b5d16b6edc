(** A wider schema describes everything the old one describes. *)
From Coq Require Import List Bool ZArith NArith String Lia Permutation.
From Verif Require Import Base Util Data Value Convert Ivt Scalar Validate Fun SpecBase ValueOrder SpecPeg SpecConvert ConvertExact PegProofs Orderly SpecWiden.
Import ListNotations.
Open Scope list_scope.

Lemma length_all2 {A B} (R : A -> B -> Prop) l l' : Forall2 R l l' -> List.length l = List.length l'.
Proof. induction 1; cbn; auto. Qed.

Section Widen.
Variable X : ext.
Variables lk lk' : lookup_context.
Variables old plain amp tilde : text -> Prop.
Notation wider := (wider X lk lk' old plain amp tilde).
Notation core := (core X lk lk' old plain amp tilde).
Notation members := (members X lk lk' old plain amp tilde).
Notation item := (item X lk lk' old plain amp tilde).
Notation unbound := (unbound plain).
Definition known name := old name \/ amp name \/ tilde name.
Hypothesis RW : rules_widened X lk lk' old plain amp tilde.

Definition bound (b b' : text * node) : Prop := fst b = fst b' /\ wider (snd b) (snd b').
Inductive scopes : ctx -> ctx -> Prop :=
| scopes_top m m' d : Forall2 bound m m' -> unbound (Ctx m None d) -> scopes (Ctx m None d) (Ctx m' None d)
| scopes_in m m' p p' d : Forall2 bound m m' -> unbound (Ctx m (Some p) d) -> scopes p p' ->
    scopes (Ctx m (Some p) d) (Ctx m' (Some p') d).

Lemma scopes_depth c c' : scopes c c' -> ctx_depth c = ctx_depth c'.
Proof. destruct 1; auto. Qed.
Lemma scopes_map c c' : scopes c c' -> Forall2 bound (ctx_map c) (ctx_map c').
Proof. destruct 1; auto. Qed.
Lemma scopes_unbound c c' : scopes c c' -> unbound c.
Proof. destruct 1; auto. Qed.
Lemma bound_get n m m' : Forall2 bound m m' ->
  match gm_get n m, gm_get n m' with Some a, Some a' => wider a a' | None, None => True | _, _ => False end.
Proof.
  induction 1 as [|[k a] [k' a'] m m' [Hk Hw] F IH]; cbn in *; auto. subst k'. destruct (text_eqb k n); auto.
Qed.
Lemma bound_insert n a a' m m' : wider a a' -> Forall2 bound m m' -> Forall2 bound (gm_insert n a m) (gm_insert n a' m').
Proof.
  intros W. induction 1 as [|[k b] [k' b'] m m' [Hk Hw] F IH]; cbn in *; [constructor; [split; auto|constructor]|].
  subst k'. destruct (text_eqb k n); constructor; auto; split; auto.
Qed.
Lemma bound_collect ps args args' : Forall2 wider args args' ->
  Forall2 bound (gm_collect (combine ps args)) (gm_collect (combine ps args')).
Proof.
  intros F. unfold gm_collect. assert (Z : Forall2 bound (@nil (text * node)) []) by constructor. revert Z.
  generalize (@nil (text * node)) at 1 3. generalize (@nil (text * node)).
  revert args args' F. induction ps as [|p ps IH]; intros args args' F m' m Z; cbn; auto.
  destruct F as [|a a' args args' W F]; cbn; auto. apply IH; auto. apply bound_insert; auto.
Qed.
Lemma scopes_unbound' c c' : scopes c c' -> unbound c'.
Proof.
  intros S n Hn. pose proof (bound_get n _ _ (scopes_map _ _ S)) as B. rewrite (scopes_unbound _ _ S n Hn) in B.
  destruct (gm_get n (ctx_map c')); auto. contradiction.
Qed.
Lemma get_collect_none n ps args : ~ In n ps -> gm_get n (gm_collect (combine ps args)) = None.
Proof.
  intros N. unfold gm_collect. assert (Z : gm_get n (@nil (text * node)) = None) by reflexivity. revert Z.
  generalize (@nil (text * node)). revert args. induction ps as [|p ps IH]; intros args m Z; cbn; auto.
  destruct args as [|a args]; cbn; auto. apply IH; [intros H; apply N; right; auto|]. clear IH.
  induction m as [|[k b] m IHm]; cbn in *.
  - destruct (text_eqb p n) eqn:E; auto. apply text_eqb_eq in E. destruct N; left; auto.
  - destruct (text_eqb k p) eqn:E; cbn.
    + apply text_eqb_eq in E. subst k. destruct (text_eqb p n) eqn:E; [discriminate|auto].
    + destruct (text_eqb k n); [discriminate|auto].
Qed.

(** ** Looking up names *)
Lemma derive_scopes c c' name d d' args args' c1 :
  scopes c c' -> rule_widened X lk lk' old plain amp tilde name d d' ->
  (lk name = inl d) -> Forall2 wider args args' ->
  (derive c d args = Ok c1 -> exists c1', derive c' d' args' = Ok c1' /\ scopes c1 c1').
Proof.
  intros S (P & _) Ed F E. unfold derive in *. rewrite <- P. rewrite <- (length_all2 _ _ _ F).
  destruct (Nat.eqb _ _); cbn in *; [|discriminate]. unfold inc_depth in *. rewrite <- (scopes_depth _ _ S).
  destruct (N.leb _ _); cbn in *; [discriminate|]. inversion E; subst. eexists; split; [reflexivity|].
  apply scopes_in; auto; [apply bound_collect; auto|].
  intros n Hn. cbn. apply get_collect_none. intros I. exact (rw_params _ _ _ _ _ _ _ RW name d n (or_introl Ed) I Hn).
Qed.
Lemma derive_back c c' name d d' args args' c1' :
  scopes c c' -> rule_widened X lk lk' old plain amp tilde name d d' ->
  lk name = inl d -> Forall2 wider args args' ->
  (derive c' d' args' = Ok c1' -> exists c1, derive c d args = Ok c1 /\ scopes c1 c1').
Proof.
  intros S W Ed F E. pose proof (derive_scopes c c' name d d' args args') as D.
  assert (exists c1, derive c d args = Ok c1) as (c1 & E1).
  { destruct W as (P & _). unfold derive in *. rewrite P. rewrite (length_all2 _ _ _ F).
    destruct (Nat.eqb _ _); cbn in *; [|discriminate]. unfold inc_depth in *. rewrite (scopes_depth _ _ S).
    destruct (N.leb _ _); cbn in *; [discriminate|eauto]. }
  destruct (D c1 S W Ed F E1) as (c2 & E2 & S2). rewrite E in E2. inversion E2; subst. eauto.
Qed.

Lemma blank_scopes c c' : scopes c c' -> forall c1, blank c = Ok c1 -> exists c1', blank c' = Ok c1' /\ scopes c1 c1'.
Proof.
  intros S c1. unfold blank, inc_depth. rewrite <- (scopes_depth _ _ S). destruct (N.leb _ _); cbn; [discriminate|].
  intros [= <-]. eexists; split; [reflexivity|]. apply scopes_top; [constructor|]. intros n _. reflexivity.
Qed.

(** What a name stands for: a binding, or a rule. *)
Lemma lookup_wider c c' name args args' t1 c1 : scopes c c' -> known name -> Forall2 wider args args' ->
  lookup_rule lk c name args = Ok (t1, c1) ->
  exists t1' c1', lookup_rule lk' c' name args' = Ok (t1', c1') /\ (old name -> wider t1 t1') /\ scopes c1 c1' /\
    (plain name -> exists d d', lk name = inl d /\ lk' name = inl d' /\ t1 = rd_node d /\ t1' = rd_node d').
Proof.
  intros S O F E. unfold lookup_rule in *. pose proof (bound_get name _ _ (scopes_map _ _ S)) as B.
  destruct (gm_get name (ctx_map c)) as [a|] eqn:G, (gm_get name (ctx_map c')) as [a'|] eqn:G'; try contradiction.
  - assert (Np : ~ plain name) by (intros P; rewrite (scopes_unbound _ _ S _ P) in G; discriminate).
    destruct S as [m m' d FB U|m m' p p' d FB U S]; cbn in *.
    + destruct (blank (Ctx m None d)) as [cb| |] eqn:Bk; cbn in E; try discriminate. inversion E; subst.
      assert (S : scopes (Ctx m None d) (Ctx m' None d)) by (apply scopes_top; auto).
      destruct (blank_scopes _ _ S _ Bk) as (cb' & Bk' & Sb). rewrite Bk'. cbn. do 2 eexists. split; [reflexivity|]. tauto.
    + inversion E; subst. do 2 eexists. split; [reflexivity|]. tauto.
  - pose proof (rw_rule _ _ _ _ _ _ _ RW name O) as R. destruct (lk name) as [d|e] eqn:Ed; [|discriminate].
    destruct (lk' name) as [d'|e']; [|contradiction].
    destruct (derive c d args) as [cd| |] eqn:D; cbn in E; try discriminate. inversion E; subst.
    destruct (derive_scopes _ _ _ _ _ _ _ _ S R Ed F D) as (cd' & D' & Sd). rewrite D'. cbn. do 2 eexists. split; [reflexivity|].
    split; [intros Ho; apply R; exact Ho|]. split; [auto|]. intros _. exists d, d'. auto.
Qed.
Lemma lookup_back c c' name args args' t1' c1' : scopes c c' -> known name -> Forall2 wider args args' ->
  lookup_rule lk' c' name args' = Ok (t1', c1') ->
  exists t1 c1, lookup_rule lk c name args = Ok (t1, c1) /\ (old name -> wider t1 t1') /\ scopes c1 c1' /\
    (plain name -> exists d d', lk name = inl d /\ lk' name = inl d' /\ t1 = rd_node d /\ t1' = rd_node d').
Proof.
  intros S O F E.
  assert (exists t1 c1, lookup_rule lk c name args = Ok (t1, c1)) as (t1 & c1 & E1).
  { unfold lookup_rule in *. pose proof (bound_get name _ _ (scopes_map _ _ S)) as B.
    destruct (gm_get name (ctx_map c)) as [a|] eqn:G, (gm_get name (ctx_map c')) as [a'|] eqn:G'; try contradiction.
    - destruct S as [m m' d FB U|m m' p p' d FB U S]; cbn in *; [|eauto].
      unfold blank, inc_depth in *. cbn in *. destruct (N.leb _ _); cbn in *; [discriminate|eauto].
    - pose proof (rw_rule _ _ _ _ _ _ _ RW name O) as R. destruct (lk' name) as [d'|e] eqn:Ed'; [|discriminate].
      destruct (lk name) as [d|e'] eqn:Ed; [|contradiction].
      destruct (derive c' d' args') as [cd| |] eqn:D; cbn in E; try discriminate.
      destruct (derive_back _ _ _ _ _ _ _ _ S R Ed F D) as (c1 & D1 & _). rewrite D1. cbn. eauto. }
  destruct (lookup_wider _ _ _ _ _ _ _ S O F E1) as (t2 & c2 & E2 & W & S2 & Pl). rewrite E in E2. inversion E2; subst.
  exists t1, c1. auto.
Qed.
Lemma rule_of name d d' : known name -> lk name = inl d -> lk' name = inl d' -> rule_widened X lk lk' old plain amp tilde name d d'.
Proof. intros O E E'. pose proof (rw_rule _ _ _ _ _ _ _ RW name O) as R. rewrite E, E' in R. exact R. Qed.

(** ** Claims *)
Ltac cores W := inversion W as [? ? K|]; subst; inversion K; subst; try discriminate; clear K.
Lemma once_back c' m' k : claims_once lk' c' m' k -> forall c m, scopes c c' -> wider m m' -> claims_once lk c m k.
Proof.
  induction 1 as [c' l t|c' name args m1 c1 k L C IH]; intros c m S W; cores W.
  - match goal with H : forall _, _ -> _ |- _ => destruct (H l eq_refl eq_refl) as [-> ->] end. constructor.
  - match goal with O : old _, F : Forall2 _ _ _ |- _ => destruct (lookup_back _ _ _ _ _ _ _ S (or_introl O) F L) as (t1 & c2 & L1 & W1 & S1 & _); specialize (W1 O) end.
    econstructor; eauto.
Qed.
Lemma once_claims lk0 c m k : claims_once lk0 c m k -> claims lk0 c m k.
Proof. induction 1; econstructor; eauto. Qed.
Lemma members_claims c c' ms ms' : members InGroup ms ms' -> forall m1 k, In m1 ms' -> scopes c c' -> claims lk' c' m1 k ->
  (forall m, wider m m1 -> claims lk c m k) -> exists m, In m ms /\ claims lk c m k.
Proof.
  remember InGroup as b. intros M. revert Heqb. induction M as [b|b m m' ms ms' W M IH|b m m' l ms ms' L W M IH|b l m' ms ms' L N M IH]; intros -> m1 k I S C D.
  - destruct I.
  - destruct I as [->|I]; [exists m; split; [left; auto|auto]|]. destruct (IH eq_refl _ _ I S C D) as (x & Ix & Cx). exists x; split; [right|]; auto.
  - destruct I as [<-|I]; [|destruct (IH eq_refl _ _ I S C D) as (x & Ix & Cx); exists x; split; [right|]; auto].
    exists m; split; [left; auto|]. inversion C; subst. apply once_claims. eapply once_back; eauto.
  - destruct I as [<-|I]; [destruct (N _ _ C)|]. eauto.
Qed.
Lemma claims_back c' m' k : claims lk' c' m' k -> forall c m, scopes c c' -> wider m m' -> claims lk c m k.
Proof.
  induction 1 as [c' l t|c' name args m1 c1 k L C IH|c' ms' m1 k I C IH|c' name args ms' c1 m1 k L I C IH|c' l m1 k Le C]; intros c m S W.
  - apply once_claims. eapply once_back; eauto. constructor.
  - cores W. match goal with O : old _, F : Forall2 _ _ _ |- _ => destruct (lookup_back _ _ _ _ _ _ _ S (or_introl O) F L) as (t1 & c2 & L1 & W1 & S1 & _); specialize (W1 O) end.
    eapply claims_name; eauto.
  - cores W. match goal with H : members _ _ _ |- _ => destruct (members_claims _ _ _ _ H _ _ I S C (fun m => IH c m S)) as (x & Ix & Cx) end.
    eapply claims_group; eauto.
  - cores W. match goal with T : tilde _, F : Forall2 _ _ _ |- _ => pose proof (or_intror (or_intror T) : known _) as O;
      destruct (lookup_back _ _ _ _ _ _ _ S O F L) as (t1 & c2 & L1 & W1 & S1 & Pl);
      destruct (Pl (rw_tilde _ _ _ _ _ _ _ RW _ T)) as (d & d' & Ed & Ed' & -> & E2);
      destruct (rule_of _ _ _ O Ed Ed') as (_ & _ & _ & TB); specialize (TB T) end.
    rewrite <- E2 in TB. inversion TB; subst; [|congruence].
    match goal with H : members _ _ _ |- _ => destruct (members_claims _ _ _ _ H _ _ I S1 C (fun m => IH c2 m S1)) as (x & Ix & Cx) end.
    eapply claims_unwrap; eauto. congruence.
  - cores W. apply claims_occur; auto. eapply once_back; eauto.
Qed.

(** ** The declarative reading *)
Notation means' := (means X lk').
Lemma lift c' x t t' : wider t t' -> (forall t1, core t t1 -> means' c' t1 x) -> means' c' t' x.
Proof.
  intros W H. induction W as [t t' K|t t' ts' I W IH]; auto. eapply mean_choice; eauto.
Qed.
Lemma leaf_element t : leaf t = true -> element_of t = Some t.
Proof. destruct t; cbn; try discriminate; auto. Qed.
Lemma any_element t : only_type t = true -> element_of t = Some t.
Proof. destruct t; cbn; try discriminate; auto. Qed.
Lemma core_element m m' t : core m m' -> element_of m = Some t -> exists t', element_of m' = Some t' /\ wider t t'.
Proof.
  intros K E. pose proof K as K0. destruct K; cbn in E; try discriminate;
    try (injection E as <-; cbn; eexists; split; [reflexivity|]; first [assumption|apply wide_core; exact K0]; fail).
  - rewrite leaf_element in E by auto. injection E as <-. exists t'. split; [apply leaf_element; auto|apply wide_core; auto].
  - rewrite any_element in E by auto. injection E as <-. eexists. split; [reflexivity|apply wide_core; auto].
Qed.

Lemma members_list c c' b ms ms' parts : members b ms ms' ->
  Forall2 (fun m a => forall m', wider m m' -> means' c' m' (AList a)) ms parts -> scopes c c' ->
  exists parts', Forall2 (fun m a => means' c' m (AList a)) ms' parts' /\ List.concat parts' = List.concat parts.
Proof.
  intros M F S. revert parts F. induction M as [b|b m m' ms ms' W M IH|b m m' l ms ms' L W M IH|b l m' ms ms' L N M IH]; intros parts F.
  - inversion F; subst. exists []. split; [constructor|auto].
  - inversion F as [|? a ? ps Ha Fs]; subst. destruct (IH _ Fs) as (q & Fq & Eq). exists (a :: q). cbn. rewrite Eq. split; [constructor; auto|auto].
  - inversion F as [|? a ? ps Ha Fs]; subst. destruct (IH _ Fs) as (q & Fq & Eq). exists (a :: q). cbn. rewrite Eq. split; [constructor; auto|auto].
    replace a with (List.concat [a]) by (cbn; apply app_nil_r). apply mean_occur; [cbn; lia|]. repeat constructor. auto.
  - destruct (IH _ F) as (q & Fq & Eq). exists ([] :: q). cbn. split; [constructor; auto|auto].
    apply (mean_occur X lk' c' l m' []); [cbn; lia|constructor].
Qed.
Lemma members_set c c' b ms ms' parts : members b ms ms' -> b <> InArray ->
  Forall2 (fun m a => forall m', wider m m' -> means' c' m' (ASet a)) ms parts -> respects lk c ms parts -> scopes c c' ->
  exists parts', Forall2 (fun m a => means' c' m (ASet a)) ms' parts' /\ respects lk' c' ms' parts' /\
    List.concat parts' = List.concat parts.
Proof.
  intros M Nb F Re S. revert parts F Re. induction M as [b|b m m' ms ms' W M IH|b m m' l ms ms' L W M IH|b l m' ms ms' L N M IH]; intros parts F Re.
  - inversion F; subst. exists []. split; [constructor|split; [exact Logic.I|auto]].
  - inversion F as [|? a ? ps Ha Fs]; subst. destruct Re as [R0 Re]. destruct (IH Nb _ Fs Re) as (q & Fq & Rq & Eq). exists (a :: q).
    split; [constructor; auto|]. split; [|cbn; rewrite Eq; auto]. cbn. split; auto. rewrite Eq. intros k C. apply R0. eapply claims_back; eauto.
  - inversion F as [|? a ? ps Ha Fs]; subst. destruct Re as [R0 Re]. destruct (IH Nb _ Fs Re) as (q & Fq & Rq & Eq). exists (a :: q).
    split; [constructor; auto|].
    + eapply (mean_occur_entries X lk' c' l m' [a] a); [cbn; lia|repeat constructor; auto|cbn; rewrite app_nil_r; apply Permutation_refl].
    + split; [|cbn; rewrite Eq; auto]. cbn. split; auto. rewrite Eq. intros k C. apply R0. inversion C; subst. apply once_claims. eapply once_back; eauto.
  - destruct (IH Nb _ F Re) as (q & Fq & Rq & Eq). exists ([] :: q). split; [constructor; auto|].
    + eapply (mean_occur_entries X lk' c' l m' [] []); [cbn; lia|constructor|constructor].
    + split; [|cbn; auto]. cbn. split; auto. intros k C. destruct b; [congruence| |destruct (N _ _ C)].
      destruct N as [->|N]; [|destruct (N _ _ C)]. inversion F; subst. rewrite Eq. cbn. tauto.
Qed.

Definition Pw c t x := forall c' t', scopes c c' -> wider t t' -> means' c' t' x.
Definition Qw c name args x := forall c' args', scopes c c' -> amp name -> Forall2 wider args args' -> one_of X lk' c' name args' x.
Definition Rw c i x := forall c' i', scopes c c' -> item i i' -> item_means X lk' c' i' x.

Lemma val_any c v : val X lk' v (NPrelude PAny) c = Ok tt.
Proof. rewrite val_eq. reflexivity. Qed.

Lemma weaken {A B} (P Q : A -> B -> Prop) l l' : (forall a b, P a b -> Q a b) -> Forall2 P l l' -> Forall2 Q l l'.
Proof. induction 2; constructor; auto. Qed.

Theorem widened c t x : means X lk c t x -> Pw c t x.
Proof.
  apply (means_induct X lk Pw Qw Rw); unfold Pw, Qw, Rw.
  - intros c0 t0 v L E c' t' S W. apply (lift _ _ _ _ W). intros t1 K.
    assert (forall t2, t1 = t2 -> leaf t1 = true -> val X lk' v t1 c' = Ok tt -> means' c' t2 (AValue v)) by (intros ? <- ? ?; apply leaf_means; auto).
    destruct K; cbn in L; try discriminate.
    + apply leaf_means; auto. eapply H2; [apply (scopes_unbound _ _ S)|apply (scopes_unbound' _ _ S)|apply (scopes_depth _ _ S)|exact E].
    + apply leaf_means; auto. apply val_any.
  - intros c0 name args t1 c1 x0 L M IH c' t' S W. apply (lift _ _ _ _ W). intros t2 K. inversion K; subst; try discriminate.
    match goal with O : old _, F : Forall2 _ _ _ |- _ => destruct (lookup_wider _ _ _ _ _ _ _ S (or_introl O) F L) as (t3 & c3 & L1 & W1 & S1 & _); specialize (W1 O) end.
    eapply mean_name; eauto.
  - intros c0 ts t0 x0 I M IH c' t' S W. apply (lift _ _ _ _ W). intros t2 K. inversion K; subst; try discriminate.
    match goal with H : Forall _ ts |- _ => rewrite Forall_forall in H; specialize (H _ I); apply Exists_exists in H; destruct H as (t3 & I3 & W3) end.
    eapply mean_choice; eauto.
  - intros c0 t0 v M IH c' t' S W. apply (lift _ _ _ _ W). intros t2 K. inversion K; subst; try discriminate.
    match goal with H : forall _, [t0] = _ -> _ |- _ => destruct (H _ eq_refl) as (t3 & -> & W3) end. apply mean_parens; auto.
  - intros c0 ms parts F c' t' S W. apply (lift _ _ _ _ W). intros t2 K. inversion K; subst; try discriminate.
    + apply leaf_means; auto. apply val_any.
    + match goal with H : members _ _ _ |- _ => edestruct (members_list c0 c' _ _ _ parts H) as (q & Fq & <-) end; auto;
        [|apply mean_array; auto]. eapply weaken; [|exact F]. cbn. intuition.
  - intros c0 ms parts es F Re Pe c' t' S W. apply (lift _ _ _ _ W). intros t2 K. inversion K; subst; try discriminate.
    + apply leaf_means; auto. apply val_any.
    + match goal with H : members _ _ _ |- _ => edestruct (members_set c0 c' _ _ _ parts H) as (q & Fq & Rq & Eq) end; auto; try congruence;
        [|rewrite <- Eq in Pe; eapply mean_map; eauto]. eapply weaken; [|exact F]. cbn. intuition.
  - intros c0 t0 b y v D V M IH c' t' S W. apply (lift _ _ _ _ W). intros t2 K. inversion K; subst; try discriminate.
    + apply leaf_means; auto. apply val_any.
    + eapply mean_cbor; eauto. apply of_cbor_exact; auto.
  - intros c0 name args v IH c' t' S W. apply (lift _ _ _ _ W). intros t2 K. inversion K; subst; try discriminate. apply mean_one_of; auto.
  - intros c0 name args v IH c' t' S W. apply (lift _ _ _ _ W). intros t2 K. inversion K; subst; try discriminate. apply mean_one_of_entries; auto.
  - intros c0 is i v I IH c' t' S W. apply (lift _ _ _ _ W). intros t2 K. inversion K; subst; try discriminate.
    match goal with H : Forall _ is |- _ => rewrite Forall_forall in H; specialize (H _ I); apply Exists_exists in H; destruct H as (t3 & I3 & W3 & W4) end.
    eapply mean_inline; eauto.
  - intros c0 is i v I IH c' t' S W. apply (lift _ _ _ _ W). intros t2 K. inversion K; subst; try discriminate.
    match goal with H : Forall _ is |- _ => rewrite Forall_forall in H; specialize (H _ I); apply Exists_exists in H; destruct H as (t3 & I3 & W3 & W4) end.
    eapply mean_inline_entries; eauto.
  - intros c0 m t0 v E M IH c' t' S W. apply (lift _ _ _ _ W). intros t2 K. destruct (core_element _ _ _ K E) as (t3 & E3 & W3).
    eapply mean_element; eauto.
  - intros c0 key t0 cut k v M1 IH1 M2 IH2 c' t' S W. apply (lift _ _ _ _ W). intros t2 K. inversion K; subst; try discriminate. apply mean_entry; auto.
  - intros c0 ms parts F c' t' S W. apply (lift _ _ _ _ W). intros t2 K. inversion K; subst; try discriminate.
    match goal with H : members _ _ _ |- _ => edestruct (members_list c0 c' _ _ _ parts H) as (q & Fq & <-) end; auto;
        [|apply mean_group; auto]. eapply weaken; [|exact F]. cbn. intuition.
  - intros c0 ms parts es F Re Pe c' t' S W. apply (lift _ _ _ _ W). intros t2 K. inversion K; subst; try discriminate.
    match goal with H : members _ _ _ |- _ => edestruct (members_set c0 c' _ _ _ parts H) as (q & Fq & Rq & Eq) end; auto; try congruence;
        [|rewrite <- Eq in Pe; eapply mean_group_entries; eauto]. eapply weaken; [|exact F]. cbn. intuition.
  - intros c0 name args ms c1 parts L F c' t' S W. apply (lift _ _ _ _ W). intros t2 K. inversion K; subst; try discriminate.
    match goal with T : tilde _, F : Forall2 _ args _ |- _ => pose proof (or_intror (or_intror T) : known _) as O;
      destruct (lookup_wider _ _ _ _ _ _ _ S O F L) as (t3 & c3 & L1 & W1 & S1 & Pl);
      destruct (Pl (rw_tilde _ _ _ _ _ _ _ RW _ T)) as (d & d' & Ed & Ed' & E2 & ->);
      destruct (rule_of _ _ _ O Ed Ed') as (_ & _ & _ & TB); specialize (TB T) end.
    rewrite <- E2 in TB. inversion TB; subst; [|congruence].
    match goal with H : members _ _ _ |- _ => edestruct (members_list c1 c3 _ _ _ parts H) as (q & Fq & <-) end; auto.
    + eapply weaken; [|exact F]. cbn. intuition.
    + eapply mean_unwrap; eauto. congruence.
  - intros c0 name args ms c1 parts es L F Re Pe c' t' S W. apply (lift _ _ _ _ W). intros t2 K. inversion K; subst; try discriminate.
    match goal with T : tilde _, F : Forall2 _ args _ |- _ => pose proof (or_intror (or_intror T) : known _) as O;
      destruct (lookup_wider _ _ _ _ _ _ _ S O F L) as (t3 & c3 & L1 & W1 & S1 & Pl);
      destruct (Pl (rw_tilde _ _ _ _ _ _ _ RW _ T)) as (d & d' & Ed & Ed' & E2 & ->);
      destruct (rule_of _ _ _ O Ed Ed') as (_ & _ & _ & TB); specialize (TB T) end.
    rewrite <- E2 in TB. inversion TB; subst; [|congruence].
    match goal with H : members _ _ _ |- _ => edestruct (members_set c1 c3 _ _ _ parts H) as (q & Fq & Rq & Eq) end; auto; try congruence.
    + eapply weaken; [|exact F]. cbn. intuition.
    + rewrite <- Eq in Pe. eapply mean_unwrap_entries; eauto. congruence.
  - intros c0 l m parts B F c' t' S W. apply (lift _ _ _ _ W). intros t2 K. inversion K; subst; try discriminate.
    apply mean_occur; [lia|]. eapply Forall_impl; [|exact F]. cbn. intuition.
  - intros c0 l m parts es B F Pe c' t' S W. apply (lift _ _ _ _ W). intros t2 K. inversion K; subst; try discriminate.
    eapply mean_occur_entries; [|eapply Forall_impl; [|exact F]|exact Pe]; [lia|cbn; intuition].
  - intros c0 name args is c1 i x0 L I IH c' args' S A F. pose proof (or_intror (or_introl A) : known _) as O.
    destruct (lookup_wider _ _ _ _ _ _ _ S O F L) as (t3 & c3 & L1 & W1 & S1 & Pl).
    destruct (Pl (rw_amp _ _ _ _ _ _ _ RW _ A)) as (d & d' & Ed & Ed' & E2 & ->).
    destruct (rule_of _ _ _ O Ed Ed') as (_ & _ & AB & _). specialize (AB A). rewrite <- E2 in AB. inversion AB; subst; [|congruence].
    match goal with H : Forall _ is |- _ => rewrite Forall_forall in H; specialize (H _ I); apply Exists_exists in H; destruct H as (t3 & I3 & W3) end.
    eapply one_of_group; eauto. congruence.
  - intros c0 name args name1 args1 c1 x0 L IH c' args' S A F. pose proof (or_intror (or_introl A) : known _) as O.
    destruct (lookup_wider _ _ _ _ _ _ _ S O F L) as (t3 & c3 & L1 & W1 & S1 & Pl).
    destruct (Pl (rw_amp _ _ _ _ _ _ _ RW _ A)) as (d & d' & Ed & Ed' & E2 & ->).
    destruct (rule_of _ _ _ O Ed Ed') as (_ & _ & AB & _). specialize (AB A). rewrite <- E2 in AB. inversion AB; subst; [|congruence].
    eapply one_of_alias; [rewrite L1; f_equal; f_equal; symmetry; eassumption|]. auto.
  - intros c0 k t0 cut x0 M IH c' i' S It. inversion It; subst; [|contradiction]. apply item_value; auto.
  - intros c0 name args x0 IH c' i' S It. inversion It; subst; [|contradiction]. apply item_name; auto.
  - intros c0 i x0 N M IH c' i' S It. inversion It; subst; try contradiction. apply item_plain; auto.
Qed.
End Widen.
