(** A decision procedure for a large part of the class [tame]. *)
From Coq Require Import List Bool ZArith NArith String Lia Arith.
From Verif Require Import Base Util Data Value Ivt Validate Fun ValueOrder CtxProofs SpecBase SpecCtx SpecPos GroupProofs SpecExpand Expand SpecPeg.
Import ListNotations.

Section Check.
Variable rs : rules.
Notation lk := (basic_context rs).
Notation L := (lookup_rule lk).

Definition all_params : list text := flat_map (fun p => rd_parms (snd p)) rs.
Definition is_param (name : text) : bool := existsb (text_eqb name) all_params.

(** [chk n flat nd]: as a member, [nd] puts back what it took when it does not
    match; if [flat], it also has no group at a member position (but may then keep
    what it took).  Names are followed [n] times at most. *)
Fixpoint chk (n : nat) (flat : bool) (nd : node) {struct n} : bool :=
  match n with
  | O => false
  | S n' =>
      match nd with
      | NRule name args =>
          forallb (fun a => chk n' true a && chk n' false a) args &&
          match rules_get rs name with Some def => chk n' flat (rd_node def) | None => true end
      | NChoice ms | NChoiceifyInline ms => forallb (chk n' flat) ms
      | NOccur l m => (flat || N.leb (fst (bounds l)) 1) && chk n' flat m
      | NUnwrap name args =>
          forallb (fun a => chk n' true a && chk n' false a) args && negb (is_param name) &&
          match rules_get rs name with
          | Some def =>
              match rd_node def with
              | NArray ms | NMap ms => (flat || Nat.leb (List.length ms) 1) && forallb (chk n' flat) ms
              | _ => true
              end
          | None => true
          end
      | NGroup ms => negb flat && forallb (chk n' true) ms
      | NChoiceify name args =>
          forallb (fun a => chk n' true a && chk n' false a) args && negb (is_param name) && chk_one n' flat name
      | _ => true
      end
  end
with chk_one (n : nat) (flat : bool) (name : text) {struct n} : bool :=
  match n with
  | O => false
  | S n' =>
      match rules_get rs name with
      | Some def =>
          match rd_node def with
          | NGroup is =>
              forallb (fun i =>
                match i with
                | NKeyValue _ t _ => chk n' flat t
                | NRule name' args =>
                    forallb (fun a => chk n' true a && chk n' false a) args && negb (is_param name') && chk_one n' flat name'
                | _ => chk n' flat i
                end) is
          | NRule name' args =>
              forallb (fun a => chk n' true a && chk n' false a) args && negb (is_param name') && chk_one n' flat name'
          | _ => true
          end
      | None => true
      end
  end.

Definition arg_ok (n : nat) (a : node) : bool := chk n true a && chk n false a.
Definition local (n : nat) (nd : node) : bool :=
  match nd with
  | NRule _ args | NUnwrap _ args => forallb (arg_ok n) args
  | NChoiceify name args => forallb (arg_ok n) args && negb (is_param name) && chk_one n false name
  | NChoice ms | NChoiceifyInline ms => forallb (chk n false) ms
  | NOccur l m => N.leb 1 (snd (bounds l)) && chk n false m
  | _ => true
  end.
Definition tame_b (n : nat) (nd : node) : bool :=
  forallb (local n) (parts nd) && forallb (fun p => forallb (local n) (parts (rd_node (snd p)))) rs.

(** * Soundness *)
Lemma is_param_in name : is_param name = true <-> In name all_params.
Proof.
  unfold is_param. rewrite existsb_exists. split.
  - intros (x & H & E). apply text_eqb_eq in E. subst; auto.
  - intros H. exists name. split; auto. apply text_eqb_eq; auto.
Qed.
Lemma get_params name def : rules_get rs name = Some def -> incl (rd_parms def) all_params.
Proof.
  unfold all_params. intros G x Hx. apply in_flat_map.
  assert (exists k, In (k, def) rs) as (k & H).
  { clear -G. induction rs as [|[k d] l IH]; cbn in *; [discriminate|]. destruct (text_eqb k name).
    - inversion G; eauto. - destruct (IH G) as (k' & ?); eauto. }
  exists (k, def). auto.
Qed.

Inductive good (Q : ctx -> node -> Prop) : ctx -> Prop :=
| good_top d : good Q (Ctx [] None d)
| good_sub m p d : good Q p -> (forall k a, gm_get k m = Some a -> In k all_params /\ Q p a) -> good Q (Ctx m (Some p) d).

Lemma insert_get k v m k' : gm_get k' (gm_insert k v m) = if text_eqb k k' then Some v else gm_get k' m.
Proof.
  induction m as [|[k1 v1] m IH]; cbn.
  - reflexivity.
  - destruct (text_eqb k1 k) eqn:E; cbn.
    + apply text_eqb_eq in E. subst. destruct (text_eqb k k'); auto.
    + rewrite IH. destruct (text_eqb k1 k') eqn:E1; auto. destruct (text_eqb k k') eqn:E2; auto.
      apply text_eqb_eq in E1, E2. subst. assert (text_eqb k' k' = true) by (apply text_eqb_eq; auto). congruence.
Qed.
Lemma collect_get l : forall k a, gm_get k (gm_collect l) = Some a -> In (k, a) l.
Proof.
  unfold gm_collect. assert (G : forall l m k a, gm_get k (fold_left (fun m p => gm_insert (fst p) (snd p) m) l m) = Some a ->
    In (k, a) l \/ gm_get k m = Some a).
  { clear. induction l as [|[k0 a0] l IH]; cbn; intros m k a H; auto.
    apply IH in H. destruct H as [H|H]; auto. rewrite insert_get in H. cbn in H.
    destruct (text_eqb k0 k) eqn:E; auto. apply text_eqb_eq in E. inversion H; subst. auto. }
  intros k a H. apply G in H. destruct H as [H|H]; auto. discriminate.
Qed.
Lemma good_lookup Q c name args nd' c' : good Q c -> L c name args = Ok (nd', c') -> (forall a, In a args -> Q c a) ->
  (In name all_params /\ gm_get name (ctx_map c) = Some nd' /\ good Q c' /\ Q c' nd') \/
  (exists def, rules_get rs name = Some def /\ nd' = rd_node def /\ good Q c').
Proof.
  intros G E H. unfold lookup_rule in E. destruct (gm_get name (ctx_map c)) as [a|] eqn:Gn.
  - left. inversion G; subst; cbn in *; [discriminate|]. inversion E; subst. destruct (H1 _ _ Gn). auto.
  - right. unfold basic_context in E. destruct (rules_get rs name) as [def|] eqn:R; [|discriminate].
    unfold derive in E. destruct (negb _) eqn:Len; [discriminate|]. apply negb_false_iff, Nat.eqb_eq in Len.
    cbn in E. unfold inc_depth in E. destruct (N.leb _ _); [discriminate|]. cbn in E. inversion E; subst.
    exists def. split; auto. split; auto. apply good_sub; auto. intros k a Ha. apply collect_get in Ha.
    split; [eapply get_params; eauto; eapply in_combine_l; eauto|]. apply H. eapply in_combine_r; eauto.
Qed.

Definition Q0 (_ : ctx) (a : node) : Prop := exists n, chk n true a = true.
Definition Q1 (p : ctx) (a : node) : Prop := steady lk p a /\ steady_m lk p a.

Lemma args_0 n args : forallb (fun a => chk n true a && chk n false a) args = true -> forall c a, In a args -> Q0 c a.
Proof. intros F c a Ha. rewrite forallb_forall in F. apply F in Ha. apply andb_true_iff in Ha. exists n. apply Ha. Qed.

Ltac bools := repeat match goal with
  | H : (_ && _) = true |- _ => apply andb_true_iff in H; destruct H
  | H : forallb _ _ = true |- _ => rewrite forallb_forall in H
  end.

Lemma flat_array c ms : good Q0 c -> (forall m, In m ms -> exists n, chk n true m = true) ->
  forall c' m, array_pos lk c ms c' m -> good Q0 c' /\ exists n, chk n true m = true.
Proof.
  intros G F c' m H. induction H as [m H|c1 name args nd' c' H IH E|c1 name args ms' c' m H IH E Hin|c1 lim m H IH|c1 os m H IH Hin|c1 gs m H IH Hin].
  - auto.
  - destruct IH as (G1 & n & C). destruct n; [discriminate|]. cbn [chk] in C. apply andb_true_iff in C. destruct C as [A C].
    destruct (good_lookup _ _ _ _ _ _ G1 E (args_0 _ _ A c1)) as [(Ip & _ & G' & Q)|(def & R & -> & G')]; auto.
    rewrite R in C. eauto.
  - destruct IH as (G1 & n & C). destruct n; [discriminate|]. cbn [chk] in C. apply andb_true_iff in C. destruct C as [A C].
    apply andb_true_iff in A. destruct A as [A Np]. apply negb_true_iff in Np.
    destruct (good_lookup _ _ _ _ _ _ G1 E (args_0 _ _ A c1)) as [(Ip & _)|(def & R & Ed & G')].
    + apply is_param_in in Ip. congruence.
    + rewrite R, <- Ed in C. bools. split; eauto.
  - destruct IH as (G1 & n & C). destruct n; [discriminate|]. cbn [chk] in C. bools. eauto.
  - destruct IH as (G1 & n & C). destruct n; [discriminate|]. cbn [chk] in C. bools. eauto.
  - destruct IH as (G1 & n & C). destruct n; [discriminate|]. cbn [chk] in C. discriminate.
Qed.
Lemma flat_no_group c ms n : good Q0 c -> forallb (chk n true) ms = true -> forall c' gs, ~ array_pos lk c ms c' (NGroup gs).
Proof.
  intros G F c' gs H. bools. apply flat_array in H; eauto. destruct H as (_ & [|k] & C); cbn in C; discriminate.
Qed.

Lemma flat_map_pos c ms : good Q0 c -> (forall m, In m ms -> exists n, chk n true m = true) ->
  forall c' m, map_pos lk c ms c' m -> good Q0 c' /\ exists n, chk n true m = true.
Proof.
  intros G F.
  apply (map_pos_mind _ _ _ (fun c' m => good Q0 c' /\ exists n, chk n true m = true)
    (fun c' name args => good Q0 c' /\ exists n, (forallb (fun a => chk n true a && chk n false a) args && negb (is_param name) && chk_one n true name) = true)).
  - auto.
  - intros c1 name args nd' c' H (G1 & n & C) E. destruct n; [discriminate|]. cbn [chk] in C. apply andb_true_iff in C. destruct C as [A C].
    destruct (good_lookup _ _ _ _ _ _ G1 E (args_0 _ _ A c1)) as [(Ip & _ & G' & Q)|(def & R & -> & G')]; auto.
    rewrite R in C. eauto.
  - intros c1 name args ms' c' m H (G1 & n & C) E Hin. destruct n; [discriminate|]. cbn [chk] in C. apply andb_true_iff in C. destruct C as [A C].
    apply andb_true_iff in A. destruct A as [A Np]. apply negb_true_iff in Np.
    destruct (good_lookup _ _ _ _ _ _ G1 E (args_0 _ _ A c1)) as [(Ip & _)|(def & R & Ed & G')].
    + apply is_param_in in Ip. congruence.
    + rewrite R, <- Ed in C. bools. split; eauto.
  - intros c1 lim m H (G1 & n & C). destruct n; [discriminate|]. cbn [chk] in C. bools. eauto.
  - intros c1 os m H (G1 & n & C) Hin. destruct n; [discriminate|]. cbn [chk] in C. bools. eauto.
  - intros c1 gs m H (G1 & n & C) Hin. destruct n; [discriminate|]. cbn [chk] in C. discriminate.
  - intros c1 os m H (G1 & n & C) Hin. destruct n; [discriminate|]. cbn [chk] in C. bools. eauto.
  - intros c1 name args ms' c' m H (G1 & n & C) E Hin Hm.
    apply andb_true_iff in C. destruct C as [A C]. apply andb_true_iff in A. destruct A as [A Np]. apply negb_true_iff in Np.
    destruct (good_lookup _ _ _ _ _ _ G1 E (args_0 _ _ A c1)) as [(Ip & _)|(def & R & Ed & G')].
    + apply is_param_in in Ip. congruence.
    + split; auto. destruct n; [discriminate|]. cbn [chk_one] in C. rewrite R, <- Ed in C. rewrite forallb_forall in C. specialize (C _ Hin).
      exists n. destruct m; try contradiction; exact C.
  - intros c1 name args ms' c' k v cut H (G1 & n & C) E Hin.
    apply andb_true_iff in C. destruct C as [A C]. apply andb_true_iff in A. destruct A as [A Np]. apply negb_true_iff in Np.
    destruct (good_lookup _ _ _ _ _ _ G1 E (args_0 _ _ A c1)) as [(Ip & _)|(def & R & Ed & G')].
    + apply is_param_in in Ip. congruence.
    + split; auto. destruct n; [discriminate|]. cbn [chk_one] in C. rewrite R, <- Ed in C. rewrite forallb_forall in C. specialize (C _ Hin).
      exists n. exact C.
  - intros c1 name args H (G1 & n & C). destruct n; [discriminate|]. cbn [chk] in C. split; auto. exists n. exact C.
  - intros c1 name args name' args' c' H (G1 & n & C) E.
    apply andb_true_iff in C. destruct C as [A C]. apply andb_true_iff in A. destruct A as [A Np]. apply negb_true_iff in Np.
    destruct (good_lookup _ _ _ _ _ _ G1 E (args_0 _ _ A c1)) as [(Ip & _)|(def & R & Ed & G')].
    + apply is_param_in in Ip. congruence.
    + split; auto. destruct n; [discriminate|]. cbn [chk_one] in C. rewrite R, <- Ed in C. exists n. exact C.
  - intros c1 name args ms' name' args' c' H (G1 & n & C) E Hin.
    apply andb_true_iff in C. destruct C as [A C]. apply andb_true_iff in A. destruct A as [A Np]. apply negb_true_iff in Np.
    destruct (good_lookup _ _ _ _ _ _ G1 E (args_0 _ _ A c1)) as [(Ip & _)|(def & R & Ed & G')].
    + apply is_param_in in Ip. congruence.
    + split; auto. destruct n; [discriminate|]. cbn [chk_one] in C. rewrite R, <- Ed in C. rewrite forallb_forall in C. specialize (C _ Hin).
      exists n. exact C.
Qed.
Lemma flat_no_group_m c ms n : good Q0 c -> forallb (chk n true) ms = true -> forall c' gs, ~ map_pos lk c ms c' (NGroup gs).
Proof.
  intros G F c' gs H. bools. apply flat_map_pos in H; eauto. destruct H as (_ & [|k] & C); cbn in C; discriminate.
Qed.

Lemma chk_steady : forall n,
  (forall c nd, good Q0 c -> good Q1 c -> chk n false nd = true -> steady lk c nd /\ steady_m lk c nd) /\
  (forall c name args, good Q0 c -> good Q1 c ->
     (forallb (fun a => chk n true a && chk n false a) args && negb (is_param name) && chk_one n false name) = true ->
     steady_one_of lk c name args).
Proof.
  induction n as [|n [IH IHo]].
  { split; [intros; discriminate|]. intros c name args _ _ H. rewrite andb_false_r in H. discriminate. }
  assert (P1 : forall c nd, good Q0 c -> good Q1 c -> chk (S n) false nd = true -> steady lk c nd /\ steady_m lk c nd).
  - intros c nd G0 G1 C. cbn [chk] in C.
    assert (A1 : forall args, forallb (fun a => chk n true a && chk n false a) args = true -> forall a, In a args -> Q1 c a).
    { intros args F a Ha. bools. apply F in Ha. bools. split; eapply IH; eauto. }
    destruct nd; try (split; [eapply steady_element; reflexivity|apply steadym_type; reflexivity]).
    + apply andb_true_iff in C. destruct C as [A C].
      assert (B : forall m' c', L c name args = Ok (m', c') -> steady lk c' m' /\ steady_m lk c' m').
      { intros m' c' E. destruct (good_lookup _ _ _ _ _ _ G1 E (A1 _ A)) as [(_ & _ & _ & Q')|(def' & R' & Ed & G1')]; auto.
        destruct (good_lookup _ _ _ _ _ _ G0 E (args_0 _ _ A c)) as [(Ip & Gm & G' & Q)|(def & R & -> & G')].
        - subst m'. rewrite R' in C. apply IH; auto.
        - rewrite R in C. apply IH; auto. }
      split; [apply steady_name|apply steadym_name]; intros; eapply B; eauto.
    + bools. split; [apply steady_choice|apply steadym_choice]; intros m Hm; apply IH; auto.
    + cbn in C. split; [apply steady_group; eapply flat_no_group; eauto|apply steadym_group; eapply flat_no_group_m; eauto].
    + split; [eapply steady_element; reflexivity|apply steadym_entry].
    + bools. cbn in H. apply N.leb_le in H. split; [apply steady_occur|apply steadym_occur]; auto; apply IH; auto.
    + apply andb_true_iff in C. destruct C as [A C]. apply andb_true_iff in A. destruct A as [A Np]. apply negb_true_iff in Np.
      assert (B : forall m' c', L c name args = Ok (m', c') -> exists def, rules_get rs name = Some def /\ m' = rd_node def /\ good Q0 c' /\ good Q1 c').
      { intros m' c' E. destruct (good_lookup _ _ _ _ _ _ G0 E (args_0 _ _ A c)) as [(Ip & _)|(def & R & -> & G')]; [apply is_param_in in Ip; congruence|].
        destruct (good_lookup _ _ _ _ _ _ G1 E (A1 _ A)) as [(Ip & _)|(def' & R' & _ & G1')]; [apply is_param_in in Ip; congruence|].
        eauto 7. }
      split; [apply steady_unwrap|apply steadym_unwrap].
      * intros ms c' E. destruct (B _ _ E) as (def & R & Ed & _). rewrite R, <- Ed in C. apply andb_true_iff in C. apply Nat.leb_le, C.
      * intros ms c' m E Hm. destruct (B _ _ E) as (def & R & Ed & G' & G''). rewrite R, <- Ed in C. bools. apply IH; auto.
      * intros ms c' E. destruct (B _ _ E) as (def & R & Ed & _). rewrite R, <- Ed in C. apply andb_true_iff in C. apply Nat.leb_le, C.
      * intros ms c' m E Hm. destruct (B _ _ E) as (def & R & Ed & G' & G''). rewrite R, <- Ed in C. bools. apply IH; auto.
    + split; [eapply steady_element; reflexivity|]. apply steadym_one_of. apply IHo; auto.
    + split; [eapply steady_element; reflexivity|]. bools. apply steadym_inline; intros m Hm; apply IH; auto.
  - split; [exact P1|].
    intros c name args G0 G1 C. apply andb_true_iff in C. destruct C as [A C]. apply andb_true_iff in A. destruct A as [A Np]. apply negb_true_iff in Np.
    cbn [chk_one] in C.
    assert (A0 : forall a, In a args -> Q0 c a) by (eapply args_0; eauto).
    assert (A1 : forall a, In a args -> Q1 c a).
    { intros a Ha. rewrite forallb_forall in A. apply A in Ha. apply andb_true_iff in Ha. apply P1; auto. apply Ha. }
    assert (B : forall m' c', L c name args = Ok (m', c') -> exists def, rules_get rs name = Some def /\ m' = rd_node def /\ good Q0 c' /\ good Q1 c').
    { intros m' c' E. destruct (good_lookup _ _ _ _ _ _ G0 E A0) as [(Ip & _)|(def & R & -> & G')]; [apply is_param_in in Ip; congruence|].
      destruct (good_lookup _ _ _ _ _ _ G1 E A1) as [(Ip & _)|(def' & R' & _ & G1')]; [apply is_param_in in Ip; congruence|].
      eauto 7. }
    apply steady_items.
    + intros is c' i E Hi. destruct (B _ _ E) as (def & R & Ed & G' & G''). rewrite R, <- Ed in C. rewrite forallb_forall in C. specialize (C _ Hi).
      destruct i; try (apply steady_item_plain; [exact I|]; apply IH; auto; fail).
      * apply steady_item_name. apply IHo; auto.
      * apply steady_item_value. apply IH; auto.
    + intros name' args' c' E. destruct (B _ _ E) as (def & R & Ed & G' & G''). rewrite R, <- Ed in C. apply IHo; auto.
Qed.

(** * From the check to the class *)
Section Tame.
Variables (N : nat) (nd0 : node).
Hypothesis Hb : tame_b N nd0 = true.
Definition P (nd : node) : Prop := forall p, part nd p -> local N p = true.
Lemma P_start : P nd0.
Proof.
  intros p Hp. unfold tame_b in Hb. apply andb_true_iff in Hb. destruct Hb as [H _]. rewrite forallb_forall in H.
  apply H, part_parts, Hp.
Qed.
Lemma P_rule name def : rules_get rs name = Some def -> P (rd_node def).
Proof.
  intros G p Hp. unfold tame_b in Hb. apply andb_true_iff in Hb. destruct Hb as [_ H]. rewrite forallb_forall in H.
  assert (exists k, In (k, def) rs) as (k & Hk).
  { clear -G. induction rs as [|[k d] l IH]; cbn in *; [discriminate|]. destruct (text_eqb k name).
    - inversion G; eauto. - destruct (IH G) as (k' & ?); eauto. }
  specialize (H _ Hk). cbn in H. rewrite forallb_forall in H. apply H, part_parts, Hp.
Qed.
Lemma P_child nd m : P nd -> In m (children nd) -> P m.
Proof. intros H Hm p Hp. apply H. eapply part_child; eauto. Qed.
Definition QP (_ : ctx) (a : node) : Prop := P a.

Lemma args_P c args : good Q0 c -> good Q1 c -> forallb (arg_ok N) args = true ->
  (forall a, In a args -> Q0 c a) /\ (forall a, In a args -> Q1 c a).
Proof.
  intros G0 G1 F. rewrite forallb_forall in F. split; intros a Ha; apply F in Ha; unfold arg_ok in Ha; apply andb_true_iff in Ha; destruct Ha.
  - exists N; auto.
  - eapply (chk_steady N); eauto.
Qed.
Definition one_ok (r : role) (nd : node) : Prop :=
  r = AsOneOfM -> exists n name args, nd = NRule name args /\ is_param name = false /\ chk_one n false name = true.

Lemma step_lookup c name args nd' c' : good Q0 c -> good Q1 c -> good QP c -> forallb (arg_ok N) args = true ->
  (forall a, In a args -> P a) -> L c name args = Ok (nd', c') -> good Q0 c' /\ good Q1 c' /\ good QP c' /\ P nd'.
Proof.
  intros G0 G1 GP F HP E. destruct (args_P c args G0 G1 F) as [A0 A1].
  assert (good Q0 c') by (destruct (good_lookup _ _ _ _ _ _ G0 E A0) as [(_ & _ & ? & _)|(? & _ & _ & ?)]; auto).
  assert (good Q1 c') by (destruct (good_lookup _ _ _ _ _ _ G1 E A1) as [(_ & _ & ? & _)|(? & _ & _ & ?)]; auto).
  destruct (good_lookup _ _ _ _ _ _ GP E HP) as [(_ & _ & ? & ?)|(def & R & -> & ?)]; auto.
  split; auto. split; auto. split; auto. eapply P_rule; eauto.
Qed.
Lemma P_args name args : P (NRule name args) \/ P (NUnwrap name args) \/ P (NChoiceify name args) ->
  forallb (arg_ok N) args = true /\ forall a, In a args -> P a.
Proof.
  intros [H|[H|H]]; (split; [|intros a Ha; eapply P_child; eauto; cbn; auto]); specialize (H _ (part_self _)); cbn in H; auto.
  apply andb_true_iff in H. destruct H as [H _]. apply andb_true_iff in H. apply H.
Qed.

Lemma uses_inv r c nd : uses lk initial_ctx nd0 r c nd ->
  good Q0 c /\ good Q1 c /\ good QP c /\ P nd /\ one_ok r nd.
Proof.
  assert (OK : forall r nd, r <> AsOneOfM -> one_ok r nd) by (intros r' nd' H Q; contradiction).
  induction 1 as [|r c name args t' c' H IH Hr E|r c ts t H IH Hin|r c ts t H IH Hr Hin|c ms m H IH Hin|c ms m H IH Hin
    |c t H IH|c name args H IH|c is i H IH Hin|c name args is c' i H IH E Hin|r c name args name' args' c' H IH Hr E
    |c m t H IH Et|r c l m H IH Hr|c name args ms c' m H IH E Hin|c name args ms c' m H IH E Hin|c key t cut H IH|c key t cut H IH
    |c name args H IH|c is i H IH Hin|c name args is c' i H IH E Hin].
  - unfold initial_ctx. do 3 (split; [constructor|]). split; [apply P_start|apply OK; discriminate].
  - destruct IH as (G0 & G1 & GP & Pn & _). destruct (P_args name args (or_introl Pn)) as [F Pa].
    destruct (step_lookup _ _ _ _ _ G0 G1 GP F Pa E) as (? & ? & ? & ?). do 4 (split; auto). apply OK. destruct Hr as [->|[->| ->]]; discriminate.
  - destruct IH as (G0 & G1 & GP & Pn & O). do 3 (split; auto). split; [eapply P_child; eauto|]. apply OK. intros ->.
    destruct (O eq_refl) as (n & name & args & Q & _). discriminate.
  - destruct IH as (G0 & G1 & GP & Pn & O). do 3 (split; auto). split; [eapply P_child; eauto|]. apply OK. destruct Hr as [->|[->| ->]]; discriminate.
  - destruct IH as (G0 & G1 & GP & Pn & O). do 3 (split; auto). split; [eapply P_child; eauto|]. apply OK. discriminate.
  - destruct IH as (G0 & G1 & GP & Pn & O). do 3 (split; auto). split; [eapply P_child; eauto|]. apply OK. discriminate.
  - destruct IH as (G0 & G1 & GP & Pn & O). do 3 (split; auto). split; [eapply P_child; eauto; cbn; auto|]. apply OK. discriminate.
  - destruct IH as (G0 & G1 & GP & Pn & O). do 3 (split; auto). destruct (P_args name args (or_intror (or_intror Pn))) as [F Pa].
    split; [|apply OK; discriminate]. intros p Hp. inversion Hp; subst; [exact F|]. eapply Pa; eauto.
  - destruct IH as (G0 & G1 & GP & Pn & O). do 3 (split; auto).
    assert (Pi : P i) by (eapply P_child; eauto). split; [|apply OK; destruct i; discriminate].
    destruct i; cbn; auto. eapply P_child; eauto; cbn; auto.
  - destruct IH as (G0 & G1 & GP & Pn & O). destruct (P_args name args (or_introl Pn)) as [F Pa].
    destruct (step_lookup _ _ _ _ _ G0 G1 GP F Pa E) as (? & ? & ? & Pg). do 3 (split; auto).
    assert (Pi : P i) by (eapply P_child; eauto). split; [|apply OK; destruct i; discriminate].
    destruct i; cbn; auto. eapply P_child; eauto; cbn; auto.
  - destruct IH as (G0 & G1 & GP & Pn & O). destruct (P_args name args (or_introl Pn)) as [F Pa].
    destruct (step_lookup _ _ _ _ _ G0 G1 GP F Pa E) as (? & ? & ? & Pg). do 4 (split; auto).
    intros ->. destruct (O eq_refl) as (n & nm & ar & Q & Np & C). inversion Q; subst.
    destruct (args_P c ar G0 G1 F) as [A0 A1].
    destruct (good_lookup _ _ _ _ _ _ G0 E A0) as [(Ip & _)|(def & R & Ed & _)]; [apply is_param_in in Ip; congruence|].
    destruct n; [discriminate|]. cbn [chk_one] in C. rewrite R, <- Ed in C. apply andb_true_iff in C. destruct C as [A C].
    apply andb_true_iff in A. destruct A as [_ A]. apply negb_true_iff in A. exists n, name', args'. auto.
  - destruct IH as (G0 & G1 & GP & Pn & O). do 3 (split; auto). split; [|apply OK; discriminate].
    destruct m; inversion Et; subst; auto. eapply P_child; eauto; cbn; auto.
  - destruct IH as (G0 & G1 & GP & Pn & O). do 3 (split; auto). split; [eapply P_child; eauto; cbn; auto|]. apply OK. destruct Hr as [->| ->]; discriminate.
  - destruct IH as (G0 & G1 & GP & Pn & O). destruct (P_args name args (or_intror (or_introl Pn))) as [F Pa].
    destruct (step_lookup _ _ _ _ _ G0 G1 GP F Pa E) as (? & ? & ? & Pg). do 3 (split; auto). split; [eapply P_child; eauto|apply OK; discriminate].
  - destruct IH as (G0 & G1 & GP & Pn & O). destruct (P_args name args (or_intror (or_introl Pn))) as [F Pa].
    destruct (step_lookup _ _ _ _ _ G0 G1 GP F Pa E) as (? & ? & ? & Pg). do 3 (split; auto). split; [eapply P_child; eauto|apply OK; discriminate].
  - destruct IH as (G0 & G1 & GP & Pn & O). do 3 (split; auto). split; [eapply P_child; eauto; cbn; auto|]. apply OK. discriminate.
  - destruct IH as (G0 & G1 & GP & Pn & O). do 3 (split; auto). split; [eapply P_child; eauto; cbn; auto|]. apply OK. discriminate.
  - destruct IH as (G0 & G1 & GP & Pn & O). do 3 (split; auto). destruct (P_args name args (or_intror (or_intror Pn))) as [F Pa].
    split; [intros p Hp; inversion Hp; subst; [exact F|]; eapply Pa; eauto|]. intros _.
    specialize (Pn _ (part_self _)). cbn in Pn. apply andb_true_iff in Pn. destruct Pn as [A C].
    apply andb_true_iff in A. destruct A as [_ A]. apply negb_true_iff in A. exists N, name, args. auto.
  - destruct IH as (G0 & G1 & GP & Pn & O). do 3 (split; auto). split; [eapply P_child; eauto|]. apply OK. discriminate.
  - destruct IH as (G0 & G1 & GP & Pn & O). destruct (P_args name args (or_introl Pn)) as [F Pa].
    destruct (step_lookup _ _ _ _ _ G0 G1 GP F Pa E) as (? & ? & ? & Pg). do 3 (split; auto).
    assert (Pi : P i) by (eapply P_child; eauto).
    split; [destruct i; cbn; auto; eapply P_child; eauto; cbn; auto|].
    intros Hr. destruct (O eq_refl) as (n & nm & ar & Q & Np & C). inversion Q; subst.
    destruct (args_P c ar G0 G1 F) as [A0 A1].
    destruct (good_lookup _ _ _ _ _ _ G0 E A0) as [(Ip & _)|(def & R & Ed & _)]; [apply is_param_in in Ip; congruence|].
    destruct n; [discriminate|]. cbn [chk_one] in C. rewrite R, <- Ed in C. rewrite forallb_forall in C. specialize (C _ Hin).
    destruct i; try discriminate. apply andb_true_iff in C. destruct C as [A C].
    apply andb_true_iff in A. destruct A as [_ A]. apply negb_true_iff in A. exists n, name, args. auto.
Qed.

Theorem tame_b_tame : tame lk initial_ctx nd0.
Proof.
  split.
  - intros c ms m U Hm. destruct (uses_inv _ _ _ U) as (G0 & G1 & _ & Pn & _). specialize (Pn _ (part_self _)). cbn in Pn.
    rewrite forallb_forall in Pn. eapply (chk_steady N); eauto.
  - intros c l m U. destruct (uses_inv _ _ _ U) as (G0 & G1 & _ & Pn & _). specialize (Pn _ (part_self _)). cbn in Pn.
    apply andb_true_iff in Pn. destruct Pn as [Pl Pm]. apply N.leb_le in Pl. split; auto. eapply (chk_steady N); eauto.
  - intros c ms m U Hm. destruct (uses_inv _ _ _ U) as (G0 & G1 & _ & Pn & _). specialize (Pn _ (part_self _)). cbn in Pn.
    rewrite forallb_forall in Pn. eapply (chk_steady N); eauto.
  - intros c ms m U Hm. destruct (uses_inv _ _ _ U) as (G0 & G1 & _ & Pn & _). specialize (Pn _ (part_self _)). cbn in Pn.
    rewrite forallb_forall in Pn. eapply (chk_steady N); eauto.
  - intros c l m U. destruct (uses_inv _ _ _ U) as (G0 & G1 & _ & Pn & _). specialize (Pn _ (part_self _)). cbn in Pn.
    apply andb_true_iff in Pn. destruct Pn as [Pl Pm]. apply N.leb_le in Pl. split; auto. eapply (chk_steady N); eauto.
  - intros c name args is c' i U E Hi. destruct (uses_inv _ _ _ U) as (G0 & G1 & GP & Pn & O).
    destruct (O eq_refl) as (n & nm & ar & Q & Np & C). inversion Q; subst.
    destruct (P_args nm ar (or_introl Pn)) as [F Pa].
    destruct (step_lookup _ _ _ _ _ G0 G1 GP F Pa E) as (G0' & G1' & _ & _).
    destruct (args_P c ar G0 G1 F) as [A0 A1].
    destruct (good_lookup _ _ _ _ _ _ G0 E A0) as [(Ip & _)|(def & R & Ed & _)]; [apply is_param_in in Ip; congruence|].
    destruct n; [discriminate|]. cbn [chk_one] in C. rewrite R, <- Ed in C. rewrite forallb_forall in C. specialize (C _ Hi).
    destruct i; try (apply steady_item_plain; [exact I|]; eapply (chk_steady n); eauto; fail).
    + apply steady_item_name. eapply (chk_steady n); eauto.
    + apply steady_item_value. eapply (chk_steady n); eauto.
Qed.
End Tame.
End Check.
