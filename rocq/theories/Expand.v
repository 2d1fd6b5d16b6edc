(** Generic rules behave as macros. *)
From Coq Require Import List Bool ZArith NArith String Lia Arith.
From Verif Require Import Base Util Data Value Convert Ivt Scalar Validate Unfold Mono ValueOrder
  ArrayInv MapInv ConvertProofs NoPanic SpecCtx Sim Fun CtxProofs SpecVerdict Stutter SpecExpand.
Import ListNotations.

(** * Induction on trees *)
Section NodeInd.
Variable P : node -> Prop.
Hypothesis H_lit : forall l, P (NLiteral l).
Hypothesis H_prel : forall p, P (NPrelude p).
Hypothesis H_rule : forall nm l, Forall P l -> P (NRule nm l).
Hypothesis H_choice : forall l, Forall P l -> P (NChoice l).
Hypothesis H_map : forall l, Forall P l -> P (NMap l).
Hypothesis H_array : forall l, Forall P l -> P (NArray l).
Hypothesis H_group : forall l, Forall P l -> P (NGroup l).
Hypothesis H_kv : forall k v b, P k -> P v -> P (NKeyValue k v b).
Hypothesis H_occur : forall o n, P n -> P (NOccur o n).
Hypothesis H_unwrap : forall nm l, Forall P l -> P (NUnwrap nm l).
Hypothesis H_range : forall a b i, P a -> P b -> P (NRange a b i).
Hypothesis H_control : forall c, Forall P (control_children c) -> P (NControl c).
Hypothesis H_choiceify : forall nm l, Forall P l -> P (NChoiceify nm l).
Hypothesis H_inline : forall l, Forall P l -> P (NChoiceifyInline l).
Fixpoint node_ind' (n : node) : P n :=
  let all := fix all (l : list node) : Forall P l :=
    match l with
    | [] => Forall_nil P
    | x :: l' => Forall_cons x (node_ind' x) (all l')
    end in
  match n with
  | NLiteral l => H_lit l
  | NPrelude p => H_prel p
  | NRule nm l => H_rule nm l (all l)
  | NChoice l => H_choice l (all l)
  | NMap l => H_map l (all l)
  | NArray l => H_array l (all l)
  | NGroup l => H_group l (all l)
  | NKeyValue k v b => H_kv k v b (node_ind' k) (node_ind' v)
  | NOccur o x => H_occur o x (node_ind' x)
  | NUnwrap nm l => H_unwrap nm l (all l)
  | NRange a b i => H_range a b i (node_ind' a) (node_ind' b)
  | NControl c =>
      H_control c
        match c with
        | CtlSize a b => Forall_cons _ (node_ind' a) (Forall_cons _ (node_ind' b) (Forall_nil P))
        | CtlLt a b => Forall_cons _ (node_ind' a) (Forall_cons _ (node_ind' b) (Forall_nil P))
        | CtlLe a b => Forall_cons _ (node_ind' a) (Forall_cons _ (node_ind' b) (Forall_nil P))
        | CtlGt a b => Forall_cons _ (node_ind' a) (Forall_cons _ (node_ind' b) (Forall_nil P))
        | CtlGe a b => Forall_cons _ (node_ind' a) (Forall_cons _ (node_ind' b) (Forall_nil P))
        | CtlRegexp _ => Forall_nil P
        | CtlCbor a => Forall_cons _ (node_ind' a) (Forall_nil P)
        end
  | NChoiceify nm l => H_choiceify nm l (all l)
  | NChoiceifyInline l => H_inline l (all l)
  end.
End NodeInd.

(** * Arguments *)

Lemma Forall2_length {A B} (R : A -> B -> Prop) l1 l2 : Forall2 R l1 l2 -> List.length l1 = List.length l2.
Proof. induction 1; cbn; auto. Qed.

Lemma combine_app {A B} (l1 : list A) : forall (m1 : list B) l2 m2, List.length l1 = List.length m1 ->
  combine (l1 ++ l2) (m1 ++ m2) = combine l1 m1 ++ combine l2 m2.
Proof.
  induction l1 as [|x l1 IH]; intros [|y m1] l2 m2 H; try discriminate; cbn; auto.
  rewrite IH by (cbn in H; lia). auto.
Qed.
Lemma gm_collect_snoc ps args p a : List.length ps = List.length args ->
  gm_collect (combine (ps ++ [p]) (args ++ [a])) = gm_insert p a (gm_collect (combine ps args)).
Proof.
  intros H. unfold gm_collect. rewrite combine_app by auto. rewrite fold_left_app. reflexivity.
Qed.
Lemma argument_snoc ps : forall args p a name, List.length ps = List.length args ->
  argument (ps ++ [p]) (args ++ [a]) name =
    if text_eqb p name then Some a else argument ps args name.
Proof.
  induction ps as [|q ps IH]; intros [|b args] p a name H; try discriminate; cbn.
  - destruct (text_eqb p name); auto.
  - rewrite IH by (cbn in H; lia). destruct (text_eqb p name); auto.
Qed.
(** The map of a context agrees with [argument]. *)
Lemma gm_argument ps : forall args name, List.length ps = List.length args ->
  gm_get name (gm_collect (combine ps args)) = argument ps args name.
Proof.
  induction ps as [|p ps IH] using rev_ind; intros args name H.
  - destruct args; [reflexivity|discriminate].
  - rewrite app_length in H; cbn in H. destruct args as [|b args0] using rev_ind; [cbn in H; lia|].
    rewrite app_length in H; cbn in H. assert (L : List.length ps = List.length args0) by lia.
    rewrite gm_collect_snoc, argument_snoc by auto.
    destruct (text_eqb p name) eqn:T.
    + apply text_eqb_eq in T. subst. apply gm_insert_same.
    + apply text_eqb_neq in T. rewrite gm_insert_other by congruence. auto.
Qed.
Lemma argument_forall2 (R : node -> node -> Prop) ps : forall a1 a2 name, Forall2 R a1 a2 ->
  match argument ps a1 name, argument ps a2 name with
  | Some x, Some y => R x y
  | None, None => True
  | _, _ => False
  end.
Proof.
  induction ps as [|p ps IH]; intros a1 a2 name F; cbn; auto.
  destruct F as [|x y a1 a2 Hxy F]; auto. specialize (IH a1 a2 name F).
  destruct (argument ps a1 name), (argument ps a2 name); auto; try contradiction.
  destruct (text_eqb p name); auto.
Qed.
Lemma argument_in ps : forall args name a, argument ps args name = Some a -> In name ps.
Proof.
  induction ps as [|p ps IH]; intros [|b args] name a; cbn; try discriminate.
  destruct (argument ps args name) eqn:E; [intros; right; eapply IH; eauto|].
  destruct (text_eqb p name) eqn:T; [|discriminate]. apply text_eqb_eq in T. auto.
Qed.

(** * The simulation with macro expansion *)
Section Expansion.
Variable X : ext.
Variable lk : lookup_context.
Variable start : node.
Hypothesis Hexp : expandable lk start.

Definition free (c : ctx) (n : node) : Prop :=
  forall name args, n = NRule name args -> gm_get name (ctx_map c) = None.

Inductive exp : ctx -> node -> node -> Prop :=
| ex_param c name args a p n2 :
    gm_get name (ctx_map c) = Some a -> ctx_past c = Some p -> exp p a n2 -> exp c (NRule name args) n2
| ex_rule c name a1 a2 :
    gm_get name (ctx_map c) = None -> Forall2 (exp c) a1 a2 -> exp c (NRule name a1) (NRule name a2)
| ex_lit c l : exp c (NLiteral l) (NLiteral l)
| ex_prel c p : exp c (NPrelude p) (NPrelude p)
| ex_choice c l1 l2 : Forall2 (exp c) l1 l2 -> exp c (NChoice l1) (NChoice l2)
| ex_map c l1 l2 : Forall2 (exp c) l1 l2 -> exp c (NMap l1) (NMap l2)
| ex_array c l1 l2 : Forall2 (exp c) l1 l2 -> exp c (NArray l1) (NArray l2)
| ex_group c l1 l2 : Forall2 (exp c) l1 l2 -> exp c (NGroup l1) (NGroup l2)
| ex_kv c k1 v1 k2 v2 cut : exp c k1 k2 -> exp c v1 v2 -> exp c (NKeyValue k1 v1 cut) (NKeyValue k2 v2 cut)
| ex_occur c o n1 n2 : exp c n1 n2 -> exp c (NOccur o n1) (NOccur o n2)
| ex_unwrap c name a1 a2 : gm_get name (ctx_map c) = None -> target lk start name ->
    Forall2 (exp c) a1 a2 -> exp c (NUnwrap name a1) (NUnwrap name a2)
| ex_range c a1 b1 a2 b2 i : exp c a1 a2 -> exp c b1 b2 ->
    exp c (NRange a1 b1 i) (NRange a2 b2 i)
| ex_size c a1 b1 a2 b2 : exp c a1 a2 -> exp c b1 b2 -> exp c (NControl (CtlSize a1 b1)) (NControl (CtlSize a2 b2))
| ex_lt c a1 b1 a2 b2 : exp c a1 a2 -> exp c b1 b2 -> exp c (NControl (CtlLt a1 b1)) (NControl (CtlLt a2 b2))
| ex_le c a1 b1 a2 b2 : exp c a1 a2 -> exp c b1 b2 -> exp c (NControl (CtlLe a1 b1)) (NControl (CtlLe a2 b2))
| ex_gt c a1 b1 a2 b2 : exp c a1 a2 -> exp c b1 b2 -> exp c (NControl (CtlGt a1 b1)) (NControl (CtlGt a2 b2))
| ex_ge c a1 b1 a2 b2 : exp c a1 a2 -> exp c b1 b2 -> exp c (NControl (CtlGe a1 b1)) (NControl (CtlGe a2 b2))
| ex_regexp c re : exp c (NControl (CtlRegexp re)) (NControl (CtlRegexp re))
| ex_cbor c a1 a2 : exp c a1 a2 -> exp c (NControl (CtlCbor a1)) (NControl (CtlCbor a2))
| ex_choiceify c name a1 a2 : gm_get name (ctx_map c) = None -> target lk start name ->
    Forall2 (exp c) a1 a2 -> exp c (NChoiceify name a1) (NChoiceify name a2)
| ex_inline c l1 l2 : Forall (free c) l1 ->
    (forall name args, In (NRule name args) l1 -> target lk start name) ->
    Forall2 (exp c) l1 l2 -> exp c (NChoiceifyInline l1) (NChoiceifyInline l2).

(** Every part of a tree that is taken from a rule. *)
Definition sourced (n : node) : Prop :=
  forall m name, part n m -> names_target m name -> target lk start name.
Lemma part_trans a b c : part a b -> part b c -> part a c.
Proof. intros H; revert c; induction H; intros c' Hc; auto. eapply part_child; eauto. Qed.
Lemma part_sub n m : In m (children n) -> part n m.
Proof. intros H. eapply part_child; [exact H|apply part_self]. Qed.

Definition placed (c : ctx) (s : text -> option node) (n : node) : Prop :=
  (forall name, mentions n name ->
     (gm_get name (ctx_map c) = None /\ s name = None) \/
     (exists a p a2, gm_get name (ctx_map c) = Some a /\ ctx_past c = Some p /\ s name = Some a2 /\ exp p a a2)) /\
  (forall m, part n m ->
    match m with
    | NUnwrap name _ | NChoiceify name _ => gm_get name (ctx_map c) = None
    | NChoiceifyInline l => forall i, In i l -> free c i
    | _ => True
    end) /\ sourced n.

Lemma placed_sub c s n m : placed c s n -> In m (children n) -> placed c s m.
Proof.
  intros (H1 & H2 & H3) Hin. repeat split.
  - intros name M. apply H1. eapply mentions_child; eauto.
  - intros m' Hm'. apply H2. eapply part_child; eauto.
  - intros m' name Hp. apply H3. eapply part_child; eauto.
Qed.

Lemma placed_list c s n l : placed c s n -> children n = l ->
  Forall (fun n => placed c s n -> exp c n (subst s n)) l -> Forall2 (exp c) l (map (subst s) l).
Proof.
  intros Hp Hc F. assert (Hs : forall m, In m l -> placed c s m) by (intros; eapply placed_sub; subst; eauto).
  clear Hp Hc. induction F as [|x l Hx F IH]; cbn; constructor.
  - apply Hx, Hs. left; auto.
  - apply IH. intros; apply Hs; right; auto.
Qed.

Lemma exp_subst c s n : placed c s n -> exp c n (subst s n).
Proof.
  induction n using node_ind'; intros Hp; pose proof (fun m => placed_sub c s _ m Hp) as Hs;
    destruct Hp as (H1 & H2 & H3) eqn:Ep; cbn [subst children] in *.
  - constructor.
  - constructor.
  - destruct (H1 nm (mentions_here (NRule nm l) nm l eq_refl)) as [(G & S)|(a & p & a2 & G & P & S & Ha)]; rewrite S.
    + apply ex_rule; auto. eapply placed_list; [exact Hp|reflexivity|auto].
    + eapply ex_param; eauto.
  - apply ex_choice. eapply placed_list; [exact Hp|reflexivity|auto].
  - apply ex_map. eapply placed_list; [exact Hp|reflexivity|auto].
  - apply ex_array. eapply placed_list; [exact Hp|reflexivity|auto].
  - apply ex_group. eapply placed_list; [exact Hp|reflexivity|auto].
  - apply ex_kv; [apply IHn1|apply IHn2]; apply Hs; cbn; auto.
  - apply ex_occur. apply IHn. apply Hs; cbn; auto.
  - apply ex_unwrap.
    + exact (H2 _ (part_self _)).
    + eapply H3; [apply part_self|]. exists l. auto.
    + eapply placed_list; [exact Hp|reflexivity|auto].
  - apply ex_range; [apply IHn1|apply IHn2]; apply Hs; cbn; auto.
  - destruct c0 as [a b|a b|a b|a b|a b|re|a]; cbn [control_children] in *;
      repeat match goal with HF : Forall _ (_ :: _) |- _ => inversion HF; clear HF; subst end;
      constructor; match goal with HF : placed _ _ ?x -> exp _ ?x _ |- exp _ ?x _ => apply HF end;
      apply Hs; cbn; auto.
  - apply ex_choiceify.
    + exact (H2 _ (part_self _)).
    + eapply H3; [apply part_self|]. exists l. auto.
    + eapply placed_list; [exact Hp|reflexivity|auto].
  - apply ex_inline.
    + rewrite Forall_forall. exact (H2 _ (part_self _)).
    + intros name args Hin. eapply H3; [apply part_self|]. exists args. right; right. eauto.
    + eapply placed_list; [exact Hp|reflexivity|auto].
Qed.

Lemma entered_body c name def a1 a2 : lk name = inl def ->
  List.length (rd_parms def) = List.length a1 -> Forall2 (exp c) a1 a2 ->
  placed (entered c def a1) (argument (rd_parms def) a2) (rd_node def).
Proof.
  intros L Hl F. destruct Hexp as (Ht & _). specialize (Ht _ _ L). unfold entered, free. cbn.
  assert (G : forall nm, gm_get nm (gm_collect (combine (rd_parms def) a1)) = argument (rd_parms def) a1 nm).
  { intros; apply gm_argument; auto. }
  assert (Gn : forall nm, ~ In nm (rd_parms def) -> argument (rd_parms def) a1 nm = None).
  { intros nm Hn. destruct (argument (rd_parms def) a1 nm) eqn:A; auto. apply argument_in in A. contradiction. }
  split; [|split].
  - intros nm M. rewrite G. pose proof (argument_forall2 (exp c) (rd_parms def) a1 a2 nm F) as A.
    destruct (argument (rd_parms def) a1 nm), (argument (rd_parms def) a2 nm); try contradiction; [right|left; auto].
    exists n, c, n0. auto.
  - intros m Hm. specialize (Ht m Hm). destruct m; auto; unfold param_ref in Ht; unfold free; cbn.
    + rewrite G. auto.
    + rewrite G. auto.
    + intros i Hi nm args ->. rewrite G. apply Gn. intros Hin. apply (Ht _ Hi). eauto.
  - intros m nm Hm Hn. eapply target_rule; eauto.
Qed.

(** * Where a tree was written *)
Lemma written_child ps n m : written lk start ps n -> In m (children n) -> written lk start ps m.
Proof.
  intros [n' Hp|r def n' L Hp] Hin; [apply written_start|eapply written_rule; eauto];
    (eapply part_trans; [exact Hp|apply part_sub; auto]).
Qed.
Lemma argument_arg ps : forall args name a, argument ps args name = Some a -> In a args.
Proof.
  induction ps as [|p ps IH]; intros [|b args] name a; cbn; try discriminate.
  destruct (argument ps args name) eqn:A; [intros [= <-]; right; eapply IH; eauto|].
  destruct (text_eqb p name) eqn:T; [intros [= <-]; auto|discriminate].
Qed.
Lemma passes_written ps qs nm m x : written lk start qs m -> passes lk ps nm m x -> written lk start qs x.
Proof.
  intros W (r & args & def & Hm & _ & _ & A). apply argument_arg in A. eapply written_child; [exact W|].
  destruct Hm as [->|[->| ->]]; auto.
Qed.
Lemma measured_written ps n : measured lk start ps n -> written lk start ps n.
Proof.
  intros [q a b W|q nm args def M Hn L|q nm args q' m x M Hn W P].
  - eapply written_child; [exact W|cbn; auto].
  - eapply written_rule; [exact L|apply part_self].
  - eapply passes_written; eauto.
Qed.

Inductive inscope : ctx -> list text -> Prop :=
| inscope_intro c ps :
    (forall nm, ~ In nm ps -> gm_get nm (ctx_map c) = None) ->
    (forall nm, In nm ps -> gm_get nm (ctx_map c) <> None) ->
    (forall nm a, gm_get nm (ctx_map c) = Some a ->
       exists p qs m, ctx_past c = Some p /\ inscope p qs /\ written lk start qs m /\ passes lk ps nm m a) ->
    inscope c ps.
Definition org c n : Prop := exists ps, inscope c ps /\ written lk start ps n.
Lemma org_child c n m : org c n -> In m (children n) -> org c m.
Proof. intros (ps & S & W) Hin. exists ps. split; auto. eapply written_child; eauto. Qed.

Lemma argument_some ps : forall a nm, List.length ps = List.length a -> In nm ps -> argument ps a nm <> None.
Proof.
  induction ps as [|p ps IH]; intros [|y a] nm L Hin; cbn in *; try contradiction; try discriminate.
  destruct (argument ps a nm) eqn:A; [discriminate|]. destruct (text_eqb p nm) eqn:Tp; [discriminate|].
  destruct Hin as [->|Hin]; [rewrite (proj2 (text_eqb_eq nm nm) eq_refl) in Tp; discriminate|].
  exfalso. apply (IH a nm ltac:(lia) Hin); auto.
Qed.
Lemma entered_inscope c def m name a1 : org c m -> lk name = inl def ->
  (m = NRule name a1 \/ m = NUnwrap name a1 \/ m = NChoiceify name a1) ->
  List.length (rd_parms def) = List.length a1 -> inscope (entered c def a1) (rd_parms def).
Proof.
  intros (qs & Sq & W) L Hm Hl. constructor; unfold entered; cbn; intros nm; rewrite gm_argument by auto.
  - intros Hn. destruct (argument (rd_parms def) a1 nm) eqn:A; auto. apply argument_in in A. contradiction.
  - apply argument_some; auto.
  - intros a A. exists c, qs, m. do 3 (split; auto). exists name, a1, def. auto.
Qed.

Lemma exp_look c m name a1 a2 (Q : ctx -> node -> unit -> node -> Prop) :
  gm_get name (ctx_map c) = None -> Forall2 (exp c) a1 a2 -> org c m ->
  (m = NRule name a1 \/ m = NUnwrap name a1 \/ m = NChoiceify name a1) ->
  (forall def, lk name = inl def -> placed (entered c def a1) (argument (rd_parms def) a2) (rd_node def) ->
     inscope (entered c def a1) (rd_parms def) ->
     Q (entered c def a1) (rd_node def) tt (instance def a2)) ->
  look (lookup_strict lk) (lookup_expand lk) Q c name a1 tt name a2.
Proof.
  intros G F O Hm H. unfold look, lookup_strict, lookup_expand. rewrite G.
  destruct (lk name) as [def|e] eqn:L; [|eauto].
  rewrite (Forall2_length _ _ _ F). destruct (Nat.eqb_spec (List.length (rd_parms def)) (List.length a2)) as [Hl|Hl]; cbn [negb].
  - assert (Hl1 : List.length (rd_parms def) = List.length a1) by (rewrite (Forall2_length _ _ _ F); auto).
    destruct (N.leb max_depth (ctx_depth c)); auto. do 2 eexists. split; [reflexivity|].
    apply H; auto; [eapply entered_body; eauto|eapply entered_inscope; eauto].
  - eauto.
Qed.

Let E c n (_ : unit) n2 := exp c n n2 /\ org c n.
Let Z c n (_ : unit) n2 := exp c n n2 /\ exists ps, inscope c ps /\ measured lk start ps n.
Let T c nm1 a1 (_ : unit) nm2 a2 : Prop :=
  nm1 = nm2 /\ gm_get nm1 (ctx_map c) = None /\ target lk start nm1 /\ Forall2 (exp c) a1 a2 /\
  exists m, org c m /\ (m = NRule nm1 a1 \/ m = NUnwrap nm1 a1 \/ m = NChoiceify nm1 a1).

Lemma E_list c n l1 l2 : org c n -> (forall m, In m l1 -> In m (children n)) -> Forall2 (exp c) l1 l2 ->
  Forall2 (fun a b => E c a tt b) l1 l2.
Proof.
  intros O Hc F. induction F as [|x y l1 l2 Hxy F IH]; constructor.
  - split; auto. eapply org_child; eauto. apply Hc. left; auto.
  - apply IH. intros m Hm. apply Hc. right; auto.
Qed.

Lemma items_of c n l1 l2 : org c n -> (forall m, In m l1 -> In m (children n)) -> Forall (free c) l1 ->
  (forall name args, In (NRule name args) l1 -> target lk start name) ->
  Forall2 (exp c) l1 l2 -> Forall2 (item E T c tt) l1 l2.
Proof.
  intros O Hc Fr Tg F. induction F as [|x y l1 l2 Hxy F IH]; constructor.
  - assert (Ox : org c x) by (eapply org_child; eauto; apply Hc; left; auto).
    inversion Fr as [|? ? Hx Fr']; subst. inversion Hxy; subst;
      try (apply item_other; try (intros; discriminate); split; [exact Hxy|exact Ox]).
    + rewrite (Hx _ _ eq_refl) in H. discriminate.
    + apply item_rule. repeat split; auto; [eapply Tg; left; reflexivity|]. eauto.
    + apply item_kv. split; auto. eapply org_child; eauto. cbn; auto.
  - inversion Fr; subst. apply IH; auto; [intros m Hm; apply Hc; right; auto|]. intros; eapply Tg. right; eauto.
Qed.

Lemma exp_cases c1 n1 (c2 : unit) n2 : E c1 n1 c2 n2 ->
  (exists nm a, n1 = NRule nm a /\
     match lookup_strict lk c1 nm a with Ok (m1, c1') => E c1' m1 c2 n2 | Err _ => False | Panic => True end) \/
  shape (lookup_strict lk) (lookup_expand lk) E Z T c1 c2 n1 n2.
Proof.
  destruct c2. intros [H O].
  assert (C : forall m b, In m (children n1) -> exp c1 m b -> E c1 m tt b).
  { intros m b Hin Hx. split; auto. eapply org_child; eauto. }
  inversion H; subst; try (right; constructor; auto; fail);
    try (right; constructor; [apply C|apply C]; cbn; auto; fail).
  - left. exists name, args. split; auto. unfold lookup_strict. rewrite H0, H1. split; auto.
    destruct O as (ps & Sc & W). inversion Sc as [? ? _ _ Sa]; subst.
    destruct (Sa _ _ H0) as (p' & qs & m & P & Sp & Wm & Am). rewrite H1 in P. inversion P; subst.
    exists qs. split; auto. eapply passes_written; eauto.
  - right. apply sh_rule. eapply exp_look; eauto. intros def L Hp Sc. split; [apply exp_subst; auto|].
    exists (rd_parms def). split; auto. eapply written_rule; [exact L|apply part_self].
  - right. apply sh_choice. eapply E_list; eauto.
  - right. apply sh_map, splices_all. eapply E_list; eauto.
  - right. apply sh_array, splices_all. eapply E_list; eauto.
  - right. apply sh_group. eapply E_list; eauto.
  - right. apply sh_occur; auto. apply C; cbn; auto.
  - right. apply sh_unwrap. repeat split; auto. eauto 8.
  - right. apply sh_control, sc_size; [apply C; cbn; auto|]. split; auto.
    destruct O as (ps & Sc & W). exists ps. split; auto. eapply measured_size; eauto.
  - right. apply sh_control, sc_lt; apply C; cbn; auto.
  - right. apply sh_control, sc_le; apply C; cbn; auto.
  - right. apply sh_control, sc_gt; apply C; cbn; auto.
  - right. apply sh_control, sc_ge; apply C; cbn; auto.
  - right. apply sh_control, sc_regexp.
  - right. apply sh_control, sc_cbor; apply C; cbn; auto.
  - right. apply sh_choiceify. repeat split; auto. eauto 8.
  - right. apply sh_inline; [eapply items_of; eauto|eapply E_list; eauto].
Qed.

Lemma exp_size c1 n1 (c2 : unit) n2 : Z c1 n1 c2 n2 ->
  (exists nm a, n1 = NRule nm a /\
     match lookup_strict lk c1 nm a with Ok (m1, c1') => Z c1' m1 c2 n2 | Err _ => False | Panic => True end) \/
  size_shape (lookup_strict lk) (lookup_expand lk) Z c1 c2 n1 n2.
Proof.
  destruct c2. intros [H (ps & Sc & M)].
  assert (EN : forall a b, ~ param_ref ps a -> exp c1 a b -> same_end a b).
  { intros a b Hp Hx. inversion Hx; subst; try (right; split; intros; discriminate); [|left; eauto].
    exfalso. apply Hp. exists name, args. split; auto.
    destruct (in_dec (list_eq_dec N.eq_dec) name ps) as [Hin|Hn]; auto.
    inversion Sc as [? ? Sn _ _]; subst. rewrite (Sn _ Hn) in H0. discriminate. }
  inversion H; subst; try (right; apply zs_other; intros; discriminate).
  - left. exists name, args. split; auto. unfold lookup_strict. rewrite H0, H1. split; auto.
    inversion Sc as [? ? Sn _ Sa]; subst.
    destruct (Sa _ _ H0) as (p' & qs & m & P & Sp & Wm & Am). rewrite H1 in P. inversion P; subst.
    exists qs. split; auto. eapply measured_param; eauto.
    destruct (in_dec (list_eq_dec N.eq_dec) name ps) as [Hin|Hn]; auto.
    rewrite (Sn _ Hn) in H0. discriminate.
  - right. apply zs_rule. apply (exp_look _ (NRule name a1)); auto.
    + exists ps. split; auto. apply measured_written; auto.
    + intros def L Hp Sc'. split; [apply exp_subst; auto|].
      exists (rd_parms def). split; auto. eapply measured_rule; eauto.
      intros Hin. inversion Sc as [? ? _ Si _]; subst. apply (Si _ Hin); auto.
  - right. apply zs_literal.
  - right. destruct Hexp as (_ & _ & Hz). destruct (Hz _ _ _ _ M). apply zs_range; apply EN; auto.
Qed.

Lemma exp_T c1 nm1 a1 (c2 : unit) nm2 a2 : T c1 nm1 a1 c2 nm2 a2 ->
  look (lookup_strict lk) (lookup_expand lk) (fun c1' m1 c2' m2 => top E T c1' c2' m1 m2) c1 nm1 a1 c2 nm2 a2.
Proof.
  destruct c2. intros (<- & G & Tg & F & om & Om & Hom). eapply exp_look; eauto. intros def L Hp Sc.
  assert (Ob : org (entered c1 def a1) (rd_node def)).
  { exists (rd_parms def). split; auto. eapply written_rule; [exact L|apply part_self]. }
  destruct Hexp as (_ & Ht & _). destruct (Ht _ _ Tg L) as [Pr1 Pr2].
  assert (FR : forall n, (forall name args, n = NRule name args -> ~ In name (rd_parms def)) -> free (entered c1 def a1) n).
  { intros n Hn name args ->. unfold entered; cbn.
    destruct (gm_get name (gm_collect (combine (rd_parms def) a1))) eqn:A; auto. exfalso.
    destruct Hp as (Hm & _).
    apply (Hn _ _ eq_refl). clear - A.
    assert (K : forall l m, (forall x y, gm_get x m = Some y -> In x (rd_parms def)) ->
      (forall p, In p l -> In (fst p) (rd_parms def)) ->
      forall x y, gm_get x (fold_left (fun m p => gm_insert (fst p) (snd p) m) l m) = Some y -> In x (rd_parms def)).
    { induction l as [|[k v] l IH]; intros m Hm Hl x y Hx; cbn in Hx; eauto.
      eapply (IH (gm_insert k v m)); [| |exact Hx].
      - intros x' y' Hx'. destruct (text_eqb x' k) eqn:T'.
        + apply text_eqb_eq in T'. subst. apply (Hl (k, v)). left; auto.
        + apply text_eqb_neq in T'. rewrite gm_insert_other in Hx' by auto. eauto.
      - intros p Hp; apply Hl; right; auto. }
    eapply (K (combine (rd_parms def) a1) []); [discriminate| |exact A].
    intros [k v] Hin. apply in_combine_l in Hin. auto. }
  pose proof (exp_subst _ _ _ Hp) as Hx. unfold instance.
  destruct (rd_node def) eqn:B; cbn [subst] in *; try (apply top_other; intros; discriminate).
  - assert (Hn : ~ In name (rd_parms def)) by (intros Hin; apply Pr1; unfold param_ref; eauto).
    inversion Hx; subst.
    + exfalso. pose proof (FR (NRule name args)) as Fr.
      rewrite (Fr ltac:(intros ? ? [= -> ->]; auto) _ _ eq_refl) in H1. discriminate.
    + destruct (argument (rd_parms def) a2 name) eqn:A; [apply argument_in in A; contradiction|].
      apply top_rule. repeat split; auto; [eapply target_alias; eauto|]. eauto.
  - apply top_map. inversion Hx; subst. eapply E_list; eauto.
  - apply top_array. inversion Hx; subst. eapply E_list; eauto.
  - apply top_group. inversion Hx; subst. eapply items_of; eauto.
    + rewrite Forall_forall. intros i Hi. apply FR. intros nm args ->. intros Hin.
      eapply Pr2; [reflexivity|exact Hi|]. unfold param_ref; eauto.
    + intros nm args Hin. eapply target_member; eauto.
Qed.

Theorem expansion_sim n v c n1 n2 : keys_sorted v -> exp c n1 n2 -> org c n1 ->
  ve (validate X (lookup_strict lk) n v n1 c) (validate X (lookup_expand lk) n v n2 tt).
Proof.
  intros K H O. apply (stutter X (lookup_strict lk) (lookup_expand lk) E Z T exp_cases exp_size exp_T n); auto.
  split; auto.
Qed.

Lemma subst_none n : subst (fun _ => None) n = n.
Proof.
  assert (ML : forall l, Forall (fun n => subst (fun _ => None) n = n) l -> map (subst (fun _ => None)) l = l).
  { induction 1; cbn; congruence. }
  induction n using node_ind'; cbn; rewrite ?ML by auto; congruence || auto.
  destruct c; cbn in *; repeat match goal with HF : Forall _ (_ :: _) |- _ => inversion HF; clear HF; subst end;
    cbn in *; congruence.
Qed.

Theorem expansion v : keys_sorted v -> within_limit X lk v start initial_ctx ->
  exists n r, validate X (lookup_expand lk) n v start tt = Some r /\
    same_verdict (val X lk v start initial_ctx) r.
Proof.
  intros K (n & r & S & Np).
  assert (Hv : val X lk v start initial_ctx = r).
  { apply (val_run X lk n). eapply lp_nopanic; [apply strict_sim|exact S|exact Np]. }
  assert (He : exp initial_ctx start start).
  { pose proof (exp_subst initial_ctx (fun _ => None) start) as H. rewrite subst_none in H. apply H.
    split; [|split].
    - intros name _. left. auto.
    - intros m _. destruct m; auto; unfold free; cbn; auto.
    - intros m name Hp Hn. eapply target_start; eauto. }
  assert (Ho : org initial_ctx start).
  { exists []. split; [|apply written_start, part_self]. constructor; cbn; auto; discriminate. }
  destruct (expansion_sim n v initial_ctx start start K He Ho) as [H|[H|(r1 & r2 & H1 & H2 & V)]]; try congruence.
  exists n, r2. split; auto. rewrite Hv. congruence.
Qed.
End Expansion.

(** * Checking the class *)
Fixpoint parts (n : node) : list node :=
  n :: match n with
       | NLiteral _ | NPrelude _ => []
       | NRule _ l | NChoice l | NMap l | NArray l | NGroup l | NUnwrap _ l
       | NChoiceify _ l | NChoiceifyInline l => flat_map parts l
       | NKeyValue a b _ | NRange a b _ => parts a ++ parts b
       | NOccur _ a => parts a
       | NControl (CtlSize a b) | NControl (CtlLt a b) | NControl (CtlLe a b)
       | NControl (CtlGt a b) | NControl (CtlGe a b) => parts a ++ parts b
       | NControl (CtlRegexp _) => []
       | NControl (CtlCbor a) => parts a
       end.
Lemma parts_child n m : In m (children n) -> incl (parts m) (parts n).
Proof.
  intros H x Hx. destruct n; cbn in *; try contradiction; right;
    try (apply in_flat_map; eauto; fail); try (destruct c; cbn in *);
    repeat match goal with
    | Hm : _ \/ _ |- _ => destruct Hm as [<-|Hm]
    | Hm : False |- _ => contradiction
    | |- In _ (_ ++ _) => apply in_or_app; auto
    end; auto.
Qed.
Lemma part_parts n m : part n m -> In m (parts n).
Proof.
  induction 1.
  - destruct n; cbn; auto.
  - eapply parts_child; eauto.
Qed.
