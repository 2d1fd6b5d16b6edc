(** From the checks of [OrderlyCheck] to the class [orderly].

    The procedure takes a certificate: [tab] lists the names (of rules and of
    parameters) with the roles they are used in, [kparams] the parameters used as
    the type of a key.  A wrong certificate only makes the procedure answer [false]. *)
From Coq Require Import List Bool ZArith NArith String Lia Arith Permutation.
From Verif Require Import Base Util Data Value Convert Ivt Scalar Validate Fun ValueOrder NoPanic ConvertProofs SpecCtx CtxProofs
  SpecBase SpecPos SpecPeg JudgeProofs PegProofs TameCheck SpecOrderly Orderly OrderlyCheck.
Import ListNotations.
Open Scope list_scope.

Definition role_eqb (a b : role) : bool :=
  match a, b with
  | AsType, AsType | AsArray, AsArray | AsMap, AsMap | AsOneOf, AsOneOf | AsOneOfM, AsOneOfM => true
  | _, _ => false
  end.
Lemma role_eqb_eq a b : role_eqb a b = true <-> a = b.
Proof. destruct a, b; cbn; split; intros H; try discriminate; auto. Qed.

Section Decide.
Variable X : ext.
Variable rs : rules.
Variable N : nat.
Variable tab : list (text * role).
Variable kparams : list text.
Notation lk := (basic_context rs).
Notation L := (lookup_rule lk).
Notation means := (means X lk).
Notation is_param := (is_param rs).
Notation fine := (good rs (fun p a => single X rs p a)).
Notation triv := (good rs (fun _ _ => True)).

Definition listed (name : text) (r : role) : bool :=
  existsb (fun e => text_eqb name (fst e) && role_eqb r (snd e)) tab.
Definition as_key (name : text) : bool := existsb (text_eqb name) kparams.

(** Types that accept or say no, never anything else. *)
Fixpoint safe (n : nat) (t : node) {struct n} : bool :=
  match n with
  | O => false
  | S n' =>
      match t with
      | NLiteral _ | NPrelude _ => true
      | NChoice ts => forallb (safe n') ts
      | NGroup [t'] => safe n' t'
      | _ => false
      end
  end.
Fixpoint keyb (n : nat) (t : node) {struct n} : bool :=
  match n with
  | O => false
  | S n' =>
      match t with
      | NRule name args =>
          (if is_param name then as_key name && match rules_get rs name with Some _ => false | None => true end else true) &&
          match rules_get rs name with
          | Some def =>
              keyb n' (rd_node def) &&
              forallb (fun p => negb (as_key (fst p)) || keyb n' (snd p)) (combine (rd_parms def) args)
          | None => true
          end
      | NChoice ts =>
          (fix go ts :=
             match ts with
             | [] => true
             | [t'] => keyb n' t'
             | t' :: ts' => safe n' t' && keyb n' t' && go ts'
             end) ts
      | NGroup [t'] => keyb n' t'
      | _ => leaf t
      end
  end.

Definition args_b (chk : role -> node -> bool) (name : text) (args : list node) : bool :=
  forallb (elem rs N) args &&
  match rules_get rs name with
  | Some def =>
      forallb (fun p =>
        forallb (fun e => negb (text_eqb (fst p) (fst e)) || chk (snd e) (snd p)) tab &&
        (negb (as_key (fst p)) || keyb N (snd p))) (combine (rd_parms def) args)
  | None => true
  end.
Definition some {A} (o : option A) : bool := match o with Some _ => true | None => false end.

Fixpoint chk (n : nat) (r : role) (nd : node) {struct n} : bool :=
  match n with
  | O => false
  | S n' =>
      match r, nd with
      | AsOneOfM, _ => false
      | AsOneOf, NRule name args => args_b (chk n') name args && negb (is_param name) && listed name AsOneOf
      | AsOneOf, _ => false
      | _, NRule name args => args_b (chk n') name args && listed name r
      | AsType, NChoice ts | AsType, NGroup ts => forallb (chk n' AsType) ts
      | AsType, NArray ms => forallb (chk n' AsArray) ms && some (seq_sum (summ rs N) ms)
      | AsType, NMap ms => forallb (chk n' AsMap) ms && keys_b rs N ms
      | AsType, NControl (CtlCbor t) => chk n' AsType t
      | AsType, NChoiceify name args => chk n' AsOneOf (NRule name args)
      | AsType, NChoiceifyInline is => forallb (fun i => chk n' (item_role i) (item_node i)) is
      | AsType, _ => true
      | AsArray, NChoice ms => forallb (chk n' AsArray) ms && some (alt_sum (summ rs N) ms)
      | AsArray, NGroup ms => forallb (chk n' AsArray) ms && some (seq_sum (summ rs N) ms)
      | AsArray, NOccur l m =>
          chk n' AsArray m &&
          match summ rs N m with Some s => negb (s_null s) && apart (s_ext s) (s_first s) | None => false end
      | AsArray, NUnwrap name args =>
          args_b (chk n') name args && negb (is_param name) &&
          match rules_get rs name with
          | Some def =>
              match rd_node def with
              | NArray ms => forallb (chk n' AsArray) ms && some (seq_sum (summ rs N) ms)
              | _ => true
              end
          | None => true
          end
      | AsArray, NKeyValue _ t _ => chk n' AsType t
      | AsArray, _ => chk n' AsType nd
      | AsMap, NChoice ms => forallb (chk n' AsMap) ms && alts_b rs N ms
      | AsMap, NGroup ms => forallb (chk n' AsMap) ms && keys_b rs N ms
      | AsMap, NOccur l m => chk n' AsMap m && entry_b rs N m
      | AsMap, NUnwrap name args =>
          args_b (chk n') name args && negb (is_param name) &&
          match rules_get rs name with
          | Some def =>
              match rd_node def with NMap ms => forallb (chk n' AsMap) ms && keys_b rs N ms | _ => true end
          | None => true
          end
      | AsMap, NKeyValue key t _ => chk n' AsType key && chk n' AsType t && keyb N key
      | AsMap, NChoiceify _ _ | AsMap, NChoiceifyInline _ => false
      | AsMap, _ => true
      end
  end.
Definition body_b (n : nat) (r : role) (nd : node) : bool :=
  match r with
  | AsOneOf =>
      match nd with
      | NGroup is => forallb (fun i => chk n (item_role i) (item_node i)) is
      | NRule _ _ => chk n AsOneOf nd
      | _ => true
      end
  | _ => chk n r nd
  end.
Definition orderly_b (nd : node) : bool :=
  tame_b rs N nd && chk N AsType nd &&
  forallb (fun e => match rules_get rs (fst e) with Some def => body_b N (snd e) (rd_node def) | None => true end) tab.

(** * Scopes *)
Inductive held (Q : text -> ctx -> node -> Prop) : ctx -> Prop :=
| held_top d : held Q (Ctx [] None d)
| held_sub m p d : held Q p -> (forall k a, gm_get k m = Some a -> In k (all_params rs) /\ Q k p a) -> held Q (Ctx m (Some p) d).
Lemma held_lookup Q c name args nd' c' : held Q c -> L c name args = Ok (nd', c') ->
  (forall def k a, rules_get rs name = Some def -> In (k, a) (combine (rd_parms def) args) -> Q k c a) ->
  (In name (all_params rs) /\ held Q c' /\ Q name c' nd') \/
  (exists def, rules_get rs name = Some def /\ nd' = rd_node def /\ held Q c').
Proof.
  intros G E H. unfold lookup_rule in E. destruct (gm_get name (ctx_map c)) as [a|] eqn:Gn.
  - left. inversion G; subst; cbn in *; [discriminate|]. inversion E; subst. destruct (H1 _ _ Gn). auto.
  - right. unfold basic_context in E. destruct (rules_get rs name) as [def|] eqn:R; [|discriminate].
    unfold derive in E. destruct (negb _) eqn:Len; [discriminate|]. apply negb_false_iff, Nat.eqb_eq in Len.
    cbn in E. unfold inc_depth in E. destruct (N.leb _ _); [discriminate|]. cbn in E. inversion E; subst.
    exists def. split; auto. split; auto. apply held_sub; auto. intros k a Ha. apply collect_get in Ha.
    split; [eapply get_params; eauto; eapply in_combine_l; eauto|]. eapply H; eauto.
Qed.

(** * Keys *)
Definition kq (c : ctx) (t : node) : Prop := forall k, means c t (AValue k) -> val X lk k t c = Ok tt.
Definition QK (name : text) (p : ctx) (a : node) : Prop := as_key name = true -> kq p a.

Lemma safe_sound n : forall c t v, safe n t = true -> val X lk v t c = Ok tt \/ exists m, val X lk v t c = Err (EMismatch m).
Proof.
  induction n as [|n IH]; intros c t v S; [discriminate|]. cbn [safe] in S. rewrite val_eq. destruct t; try discriminate.
  - unfold validate_literal. destruct (veqb _ _); [auto|right; eexists; reflexivity].
  - destruct p, v; cbn; try (left; reflexivity); try (right; eexists; reflexivity);
      match goal with |- context [if ?b then _ else _] => destruct b end; try (left; reflexivity); right; eexists; reflexivity.
  - rewrite forallb_forall in S. assert (forall ts, (forall t, In t ts -> In t options) ->
      tries_pure is_fatal (fun o => val X lk v o c) ts (choice_error options) = Ok tt \/
      exists m, tries_pure is_fatal (fun o => val X lk v o c) ts (choice_error options) = Err (EMismatch m)) as H.
    { induction ts as [|t ts IHt]; intros Sub; cbn; [right; eexists; reflexivity|].
      destruct (IH c t v (S _ (Sub _ (or_introl eq_refl)))) as [->|(m & ->)]; auto. cbn. apply IHt. intros; apply Sub; right; auto. }
    apply H; auto.
  - destruct members as [|t [|]]; try discriminate. apply IH; auto.
Qed.

Lemma keyb_sound n : forall c t, held QK c -> keyb n t = true -> kq c t.
Proof.
  induction n as [|n IH]; intros c t G K k M; [discriminate|]. cbn [keyb] in K.
  assert (Lf : leaf t = true -> val X lk k t c = Ok tt).
  { intros H. inversion M; subst; try discriminate; apply judges_ok; auto. }
  destruct t; try (apply Lf; exact K); try (apply Lf; reflexivity); try discriminate.
  - inversion M; subst; try discriminate; try no_leaf. match goal with H : L _ _ _ = Ok _ |- _ => rename H into Lk end.
    apply andb_true_iff in K. destruct K as [K1 K2]. rewrite val_eq, Lk. cbn.
    assert (A : forall def k a, rules_get rs name = Some def -> In (k, a) (combine (rd_parms def) args) -> QK k c a).
    { intros def k' a R Hin Ak. rewrite R in K2. apply andb_true_iff in K2. destruct K2 as [_ K2]. rewrite forallb_forall in K2.
      specialize (K2 _ Hin). cbn in K2. rewrite Ak in K2. apply IH; auto. }
    destruct (held_lookup _ _ _ _ _ _ G Lk A) as [(Ip & G' & Q)|(def & R & -> & G')].
    + apply is_param_in in Ip. rewrite Ip in K1. apply andb_true_iff in K1. destruct K1 as [K1 _]. apply Q; auto.
    + rewrite R in K2. apply andb_true_iff in K2. eapply IH; eauto. apply K2.
  - inversion M; subst; try discriminate; try no_leaf. rewrite val_eq. clear M Lf.
    match goal with H : In _ _ |- _ => rename H into Hin end. match goal with H : means _ _ _ |- _ => rename H into M end.
    generalize (choice_error options) as fin. revert K Hin.
    induction options as [|t1 ts IHt]; intros K Hin fin; [contradiction|].
    assert (K1 : keyb n t1 = true) by (destruct ts; [exact K|apply andb_true_iff in K; destruct K as [K _]; apply andb_true_iff in K; apply K]).
    destruct Hin as [->|Hin].
    + cbn. rewrite (IH _ _ G K1 _ M). reflexivity.
    + destruct ts as [|t2 ts]; [contradiction|]. apply andb_true_iff in K. destruct K as [K K']. apply andb_true_iff in K. destruct K as [Sf _].
      cbn [tries_pure]. destruct (safe_sound n c t1 k Sf) as [->|(m & ->)]; auto. cbn [is_fatal]. apply (IHt K' Hin).
  - destruct members as [|t [|]]; try discriminate; try (rewrite <- K; auto; fail).
    inversion M; subst; try discriminate; try no_leaf. rewrite val_eq. eapply IH; eauto.
Qed.

(** * Uses *)
Definition QR (name : text) (_ : ctx) (a : node) : Prop := forall r, In (name, r) tab -> exists n, chk n r a = true.
Lemma listed_in name r : listed name r = true -> In (name, r) tab.
Proof.
  unfold listed. rewrite existsb_exists. intros ([k r'] & H & E). apply andb_true_iff in E. destruct E as [E1 E2]. cbn in *.
  apply text_eqb_eq in E1. apply role_eqb_eq in E2. subst; auto.
Qed.

Section Uses.
Variable nd0 : node.
Hypothesis Hb : orderly_b nd0 = true.
Lemma tab_ok name r def : In (name, r) tab -> rules_get rs name = Some def -> body_b N r (rd_node def) = true.
Proof.
  intros Hin R. unfold orderly_b in Hb. apply andb_true_iff in Hb. destruct Hb as [_ H]. rewrite forallb_forall in H.
  specialize (H _ Hin). cbn in H. rewrite R in H. exact H.
Qed.
Definition inv (c : ctx) : Prop := held QK c /\ fine c /\ held QR c.
Lemma inv_triv c : inv c -> triv c.
Proof. intros (_ & F & _). eapply good_triv; eauto. Qed.

Lemma step n c name args nd' c' : inv c -> args_b (chk n) name args = true -> L c name args = Ok (nd', c') ->
  inv c' /\ ((is_param name = true /\ QR name c' nd') \/ exists def, rules_get rs name = Some def /\ nd' = rd_node def).
Proof.
  intros (GK & GF & GR) A E. unfold args_b in A. apply andb_true_iff in A. destruct A as [Ae A].
  assert (AF : forall a, In a args -> single X rs c a) by (eapply args_single; eauto; apply elem_sound).
  assert (AK : forall def k a, rules_get rs name = Some def -> In (k, a) (combine (rd_parms def) args) -> QK k c a).
  { intros def k a R Hin Ak. rewrite R in A. rewrite forallb_forall in A. specialize (A _ Hin). cbn in A.
    apply andb_true_iff in A. destruct A as [_ A]. rewrite Ak in A. apply (keyb_sound N); [exact GK|exact A]. }
  assert (AR : forall def k a, rules_get rs name = Some def -> In (k, a) (combine (rd_parms def) args) -> QR k c a).
  { intros def k a R Hin r Ht. rewrite R in A. rewrite forallb_forall in A. specialize (A _ Hin). cbn in A.
    apply andb_true_iff in A. destruct A as [A _]. rewrite forallb_forall in A. specialize (A _ Ht). cbn in A.
    assert (text_eqb k k = true) as Q by (apply text_eqb_eq; auto). rewrite Q in A. exists n. exact A. }
  pose proof (good_lookup rs _ _ _ _ _ _ GF E AF) as HF.
  pose proof (held_lookup _ _ _ _ _ _ GK E AK) as HK.
  pose proof (held_lookup _ _ _ _ _ _ GR E AR) as HR.
  split.
  - split; [|split]; [destruct HK as [(_ & ? & _)|(? & _ & _ & ?)]|destruct HF as [(_ & _ & ? & _)|(? & _ & _ & ?)]|destruct HR as [(_ & ? & _)|(? & _ & _ & ?)]]; auto.
  - destruct HR as [(Ip & _ & Q)|(def & R & -> & _)]; [left|right; eauto]. split; auto. apply is_param_in; auto.
Qed.
Lemma step_role n r c name args nd' c' : r = AsType \/ r = AsArray \/ r = AsMap -> inv c ->
  args_b (chk n) name args = true -> listed name r = true -> L c name args = Ok (nd', c') ->
  inv c' /\ exists n', chk n' r nd' = true.
Proof.
  intros Hr I A Ls E. apply listed_in in Ls. destruct (step _ _ _ _ _ _ I A E) as (I' & [(_ & Q)|(def & R & ->)]); split; auto.
  exists N. pose proof (tab_ok _ _ _ Ls R) as B. destruct Hr as [->|[->| ->]]; exact B.
Qed.

Ltac bs := repeat match goal with H : (_ && _) = true |- _ => apply andb_true_iff in H; destruct H end.
Lemma uses_ok r c nd : uses lk initial_ctx nd0 r c nd -> inv c /\ exists n, chk n r nd = true.
Proof.
  induction 1 as [|r c name args t' c' H IH Hr E|r c ts t H IH Hin|r c ts t H IH Hr Hin|c ms m H IH Hin|c ms m H IH Hin
    |c t H IH|c name args H IH|c is i H IH Hin|c name args is c' i H IH E Hin|r c name args name' args' c' H IH Hr E
    |c m t H IH Et|r c l m H IH Hr|c name args ms c' m H IH E Hin|c name args ms c' m H IH E Hin|c key t cut H IH|c key t cut H IH
    |c name args H IH|c is i H IH Hin|c name args is c' i H IH E Hin];
    try (destruct IH as (I & [|n] & C); [discriminate|]; cbn [chk] in C).
  - unfold initial_ctx. split; [repeat split; constructor|]. exists N. unfold orderly_b in Hb. bs. auto.
  - assert (args_b (chk n) name args = true /\ listed name r = true) as [A Ls] by (destruct Hr as [->|[->| ->]]; bs; auto).
    eapply step_role; eauto.
  - split; auto. exists n. destruct r; try discriminate; bs; match goal with H : forallb _ _ = true |- _ => rewrite forallb_forall in H; auto end.
  - split; auto. exists n. destruct Hr as [->|[->| ->]]; bs; match goal with H : forallb _ _ = true |- _ => rewrite forallb_forall in H; auto end.
  - bs. split; auto. exists n. match goal with H : forallb _ _ = true |- _ => rewrite forallb_forall in H; auto end.
  - bs. split; auto. exists n. match goal with H : forallb _ _ = true |- _ => rewrite forallb_forall in H; auto end.
  - split; eauto.
  - split; eauto.
  - split; auto. exists n. rewrite forallb_forall in C. auto.
  - apply andb_true_iff in C. destruct C as [C Ls]. apply andb_true_iff in C. destruct C as [A Np]. apply negb_true_iff in Np.
    destruct (step _ _ _ _ _ _ I A E) as (I' & [(Ip & _)|(def & R & Ed)]); [congruence|]. split; auto.
    pose proof (tab_ok _ _ _ (listed_in _ _ Ls) R) as B. rewrite <- Ed in B. cbn in B. rewrite forallb_forall in B. exists N. auto.
  - destruct Hr as [->| ->]; [|discriminate].
    apply andb_true_iff in C. destruct C as [C Ls]. apply andb_true_iff in C. destruct C as [A Np]. apply negb_true_iff in Np.
    destruct (step _ _ _ _ _ _ I A E) as (I' & [(Ip & _)|(def & R & Ed)]); [congruence|]. split; auto.
    pose proof (tab_ok _ _ _ (listed_in _ _ Ls) R) as B. rewrite <- Ed in B. exists N. exact B.
  - split; auto. exists n. destruct m; inversion Et; subst; auto.
  - split; auto. exists n. destruct Hr as [->| ->]; bs; auto.
  - apply andb_true_iff in C. destruct C as [C Ls]. apply andb_true_iff in C. destruct C as [A Np]. apply negb_true_iff in Np.
    destruct (step _ _ _ _ _ _ I A E) as (I' & [(Ip & _)|(def & R & Ed)]); [congruence|]. split; auto.
    rewrite R, <- Ed in Ls. bs. exists n. match goal with H : forallb _ _ = true |- _ => rewrite forallb_forall in H; auto end.
  - apply andb_true_iff in C. destruct C as [C Ls]. apply andb_true_iff in C. destruct C as [A Np]. apply negb_true_iff in Np.
    destruct (step _ _ _ _ _ _ I A E) as (I' & [(Ip & _)|(def & R & Ed)]); [congruence|]. split; auto.
    rewrite R, <- Ed in Ls. bs. exists n. match goal with H : forallb _ _ = true |- _ => rewrite forallb_forall in H; auto end.
  - bs. split; eauto.
  - bs. split; eauto.
  - discriminate.
  - discriminate.
  - discriminate.
Qed.

Lemma some_ex {A} (o : option A) : some o = true -> exists x, o = Some x.
Proof. destruct o; [eauto|discriminate]. Qed.
Lemma seq_in_order c ms : inv c -> some (seq_sum (summ rs N) ms) = true -> in_order X lk c ms.
Proof.
  intros (_ & F & _) S. apply some_ex in S. destruct S as (s & S).
  eapply (seq_says X rs (summ rs N) c ms s); auto. intros m s' _ Q. eapply summ_sound; eauto.
Qed.

Theorem orderly_b_orderly : orderly X lk initial_ctx nd0.
Proof.
  split.
  - apply tame_b_tame with (N := N). unfold orderly_b in Hb. bs. auto.
  - intros c ms U. destruct (uses_ok _ _ _ U) as (I & [|n] & C); [discriminate|]. cbn [chk] in C. bs. apply seq_in_order; auto.
  - intros c ms U. destruct (uses_ok _ _ _ U) as (I & [|n] & C); [discriminate|]. cbn [chk] in C. bs. apply seq_in_order; auto.
  - intros c name args ms c' U E. destruct (uses_ok _ _ _ U) as (I & [|n] & C); [discriminate|]. cbn [chk] in C.
    apply andb_true_iff in C. destruct C as [C Ls]. apply andb_true_iff in C. destruct C as [A Np]. apply negb_true_iff in Np.
    destruct (step _ _ _ _ _ _ I A E) as (I' & [(Ip & _)|(def & R & Ed)]); [congruence|]. rewrite R, <- Ed in Ls. bs. apply seq_in_order; auto.
  - intros c ms U. destruct (uses_ok _ _ _ U) as ((_ & F & _) & [|n] & C); [discriminate|]. cbn [chk] in C. bs.
    apply some_ex in H0. destruct H0 as (s & S). eapply (alt_says X rs (summ rs N) c ms s); auto. intros m s' _ Q. eapply summ_sound; eauto.
  - intros c l m U. destruct (uses_ok _ _ _ U) as ((_ & F & _) & [|n] & C); [discriminate|]. cbn [chk] in C. bs.
    destruct (summ rs N m) as [s|] eqn:S; [|discriminate]. apply (occur_says X rs c l m s); auto. eapply summ_sound; eauto.
  - intros c ms U. destruct (uses_ok _ _ _ U) as (I & [|n] & C); [discriminate|]. cbn [chk] in C. bs. eapply keys_sound; eauto. apply inv_triv; auto.
  - intros c ms U. destruct (uses_ok _ _ _ U) as (I & [|n] & C); [discriminate|]. cbn [chk] in C. bs. eapply keys_sound; eauto. apply inv_triv; auto.
  - intros c name args ms c' U E. destruct (uses_ok _ _ _ U) as (I & [|n] & C); [discriminate|]. cbn [chk] in C.
    apply andb_true_iff in C. destruct C as [C Ls]. apply andb_true_iff in C. destruct C as [A Np]. apply negb_true_iff in Np.
    destruct (step _ _ _ _ _ _ I A E) as (I' & [(Ip & _)|(def & R & Ed)]); [congruence|]. rewrite R, <- Ed in Ls. bs.
    eapply keys_sound; eauto. apply inv_triv; auto.
  - intros c ms U. destruct (uses_ok _ _ _ U) as (I & [|n] & C); [discriminate|]. cbn [chk] in C. bs. eapply alts_sound; eauto. apply inv_triv; auto.
  - intros c l m U. destruct (uses_ok _ _ _ U) as (I & [|n] & C); [discriminate|]. cbn [chk] in C. bs. eapply entry_sound; eauto. apply inv_triv; auto.
  - intros c name args U. destruct (uses_ok _ _ _ U) as (I & [|n] & C); discriminate.
  - intros c is U. destruct (uses_ok _ _ _ U) as (I & [|n] & C); discriminate.
  - intros c key t cut k U _ M. destruct (uses_ok _ _ _ U) as ((GK & _) & [|n] & C); [discriminate|]. cbn [chk] in C. bs. eapply keyb_sound; eauto.
Qed.
End Uses.
End Decide.
