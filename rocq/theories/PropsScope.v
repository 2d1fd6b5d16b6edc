(** Resolution of names, exactly: C75. *)
From Coq Require Import List Bool ZArith NArith String Lia Arith.
From Verif Require Import Base Util Data Value Convert Ivt Scalar Validate Total Fun SpecBase SpecConvert CtxProofs SpecScope Demo.
Import ListNotations.
Open Scope list_scope.

(** The context of the program that stands for a scope. *)
Fixpoint ctx_of (s : scope) : ctx :=
  match s with
  | Start => initial_ctx
  | Inside s' ps args => Ctx (gm_collect (combine ps args)) (Some (ctx_of s')) (ctx_depth (ctx_of s') + 1)
  end.
Lemma ctx_of_depth s : ctx_depth (ctx_of s) = N.of_nat (entered_rules s).
Proof. induction s; cbn [ctx_of ctx_depth entered_rules]; auto. rewrite IHs. lia. Qed.

Lemma gm_get_collect k n l : gm_get k (gm_collect l) = Some n <-> last_entry k n l.
Proof.
  unfold gm_collect, last_entry.
  assert (G : forall m, gm_get k (fold_left (fun m p => gm_insert (fst p) (snd p) m) l m) = Some n <->
    (exists pre post, l = pre ++ (k, n) :: post /\ ~ In k (map fst post)) \/ (~ In k (map fst l) /\ gm_get k m = Some n)).
  { induction l as [|[k1 n1] l IH]; intros m; cbn.
    - split; [auto|]. intros [(pre & post & Q & _)|[_ H]]; auto. destruct pre; discriminate.
    - rewrite IH. destruct (list_eq_dec N.eq_dec k k1) as [->|N].
      + rewrite gm_insert_same. split.
        * intros [(pre & post & -> & H)|[H [= <-]]]; left; [exists ((k1, n1) :: pre), post|exists [], l]; auto.
        * intros [(pre & post & Q & H)|[H _]]; [|exfalso; apply H; auto].
          destruct pre as [|p pre]; cbn in Q; injection Q as; subst; [right; auto|left; exists pre, post; auto].
      + rewrite gm_insert_other by auto. split.
        * intros [(pre & post & -> & H)|[H E]]; [left; exists ((k1, n1) :: pre), post; auto|right; split; auto].
          intros [E'|E']; [congruence|auto].
        * intros [(pre & post & Q & H)|[H E]]; [|right; split; auto].
          destruct pre as [|p pre]; cbn in Q; injection Q as; subst; [congruence|left; exists pre, post; auto]. }
  rewrite G. cbn. split; [intros [H|[_ H]]; [auto|discriminate]|auto].
Qed.

Lemma param_none lk s name args : proper s -> ~ param_of s name ->
  lookup_rule lk (ctx_of s) name args =
    match lk name with
    | inr e => Err e
    | inl def => bind_res (derive (ctx_of s) def args) (fun c' => Ok (rd_node def, c'))
    end.
Proof.
  intros P N. unfold lookup_rule. replace (gm_get name (ctx_map (ctx_of s))) with (@None node); auto.
  destruct s as [|s' ps bound]; auto. cbn in *. symmetry. apply gm_collect_none; tauto.
Qed.
Lemma derive_at s def args :
  derive (ctx_of s) def args =
    if negb (Nat.eqb (List.length (rd_parms def)) (List.length args)) then Err EGenericError
    else if Nat.leb 50 (entered_rules s) then Err (EStructural (txt "hit recursion limit"))
    else Ok (ctx_of (Inside s (rd_parms def) args)).
Proof.
  unfold derive. destruct (negb _); auto. unfold inc_depth. rewrite ctx_of_depth. cbn [ctx_of]. rewrite ctx_of_depth.
  destruct (Nat.leb_spec 50 (entered_rules s)), (N.leb_spec max_depth (N.of_nat (entered_rules s))); unfold max_depth in *; auto; exfalso; lia.
Qed.

(** ** C75.  Names are looked up as the scopes say; every name has exactly one
    resolution in every scope. *)
Definition found (o : node * scope + verror) : res (node * ctx) :=
  match o with inl (n, s) => Ok (n, ctx_of s) | inr e => Err e end.
Theorem C75_names_exact : forall lk s name args o, proper s ->
  resolves lk s name args o -> lookup_rule lk (ctx_of s) name args = found o.
Proof.
  intros lk s name args o P R. destruct R as [s ps bound name args n L|s name args def N L A D|s name args e N L|s name args def N L A|s name args def N L A D].
  - apply gm_get_collect in L. unfold lookup_rule. cbn [ctx_of ctx_map ctx_past]. rewrite L. reflexivity.
  - rewrite param_none, L, derive_at by auto. apply Nat.eqb_eq in A. rewrite A. cbn [negb].
    destruct (Nat.leb_spec 50 (entered_rules s)); [lia|]. reflexivity.
  - rewrite param_none, L by auto. reflexivity.
  - rewrite param_none, L, derive_at by auto. apply Nat.eqb_neq in A. rewrite A. reflexivity.
  - rewrite param_none, L, derive_at by auto. apply Nat.eqb_eq in A. rewrite A. cbn [negb].
    apply Nat.leb_le in D. rewrite D. reflexivity.
Qed.
Theorem C75_names_total : forall lk s name args, proper s -> exists o, resolves lk s name args o.
Proof.
  intros lk s name args P.
  assert (G : ~ param_of s name -> exists o, resolves lk s name args o).
  { intros N. destruct (lk name) as [def|e] eqn:L; [|eexists; eapply resolves_missing; eauto].
    destruct (Nat.eq_dec (List.length (rd_parms def)) (List.length args)) as [A|A]; [|eexists; eapply resolves_arity; eauto].
    destruct (le_lt_dec 50 (entered_rules s)); eexists; [eapply resolves_deep|eapply resolves_rule]; eauto. }
  destruct s as [|s' ps bound]; [apply G; auto|]. destruct (in_dec (list_eq_dec N.eq_dec) name ps) as [I|I]; [|auto].
  destruct (gm_get name (gm_collect (combine ps bound))) as [n|] eqn:Q.
  - eexists. apply resolves_param, gm_get_collect. eauto.
  - apply gm_collect_none in Q; [contradiction|apply P].
Qed.
Lemma last_entry_fst {K V} (k : K) (v : V) ps (bound : list V) : last_entry k v (combine ps bound) -> In k ps.
Proof. intros (pre & post & Q & _). eapply (in_combine_l ps bound k v). rewrite Q. apply in_elt. Qed.
Lemma last_entry_one {K V} k (v v' : V) (l : list (K * V)) : last_entry k v l -> last_entry k v' l -> v = v'.
Proof.
  intros (pre & post & -> & N) (pre' & post' & Q & N'). revert pre' Q. induction pre as [|p pre IH]; intros [|p' pre'] Q; cbn in Q; injection Q as; subst; auto.
  - exfalso. apply N. rewrite map_app. apply in_elt.
  - exfalso. apply N'. rewrite map_app. apply in_elt.
  - eauto.
Qed.
Theorem C75_names_unique : forall lk s name args o o', resolves lk s name args o -> resolves lk s name args o' -> o = o'.
Proof.
  intros lk s name args o o' R R'.
  destruct R; inversion R'; subst; try congruence; try (repeat f_equal; congruence); try lia;
    try (exfalso; match goal with N : ~ param_of _ _ |- _ => apply N; cbn; eapply last_entry_fst; eauto end).
  - repeat f_equal. eapply last_entry_one; eauto.
Qed.
(** Only proper scopes are entered, and no more than 50 rules deep. *)
Theorem C75_scopes_proper : forall lk s name args n s', resolves lk s name args (inl (n, s')) ->
  proper s -> entered_rules s <= 50 -> proper s' /\ entered_rules s' <= 50.
Proof. intros lk s name args n s' R P D. inversion R; subst; cbn in *; [|split; auto; lia]. split; [tauto|lia]. Qed.

(** ** Non-vacuity: inside [pair<int, tstr>], called from the start, [a] stands for
    [int] read outside, and [pair<a>] has the wrong number of arguments. *)
Example ex_C75 : let def := RuleDef [txt "a"; txt "b"] (NArray [name_ "a"; name_ "b"]) in
  let lk := basic_context [(txt "pair", def)] in let s := Inside Start (rd_parms def) [int_t; tstr_t] in
  proper s /\ resolves lk Start (txt "pair") [int_t; tstr_t] (inl (rd_node def, s)) /\
  resolves lk s (txt "a") [] (inl (int_t, Start)) /\
  resolves lk s (txt "pair") [name_ "a"] (inr EGenericError) /\
  resolves lk s (txt "c") [] (inr (EMissingRule (txt "c"))).
Proof.
  cbn zeta. split; [cbn; auto|]. split; [|split; [|split]].
  - apply (resolves_rule _ Start (txt "pair") [int_t; tstr_t] (RuleDef [txt "a"; txt "b"] (NArray [name_ "a"; name_ "b"]))); cbn; auto; lia.
  - apply resolves_param. exists [], [(txt "b", tstr_t)]. split; auto. cbn. intros [H|[]]. discriminate.
  - eapply resolves_arity; [|reflexivity|cbn; lia]. cbn. intros [H|[H|[]]]; discriminate.
  - apply resolves_missing; [|reflexivity]. cbn. intros [H|[H|[]]]; discriminate.
Qed.

Print Assumptions C75_names_exact.
Print Assumptions C75_names_total.
Print Assumptions C75_names_unique.
Print Assumptions C75_scopes_proper.
