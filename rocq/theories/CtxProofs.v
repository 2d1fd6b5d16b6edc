(** Contexts: what a lookup returns, and which parts of a context matter. *)
From Coq Require Import List Bool ZArith NArith String Lia Arith.
From Verif Require Import Base Util Data Value Convert Ivt Scalar Validate Unfold Mono Total Fun
  ValueOrder SpecBase SpecCtx SpecReach Sim.
Import ListNotations.

Definition limit_error : verror := EStructural (txt "hit recursion limit").

Lemma lookup_missing lk c name args e :
  gm_get name (ctx_map c) = None -> lk name = inr e -> lookup_rule lk c name args = Err e.
Proof. intros H1 H2. unfold lookup_rule. rewrite H1, H2. reflexivity. Qed.

Lemma lookup_arity lk c name args def :
  gm_get name (ctx_map c) = None -> lk name = inl def ->
  List.length (rd_parms def) <> List.length args -> lookup_rule lk c name args = Err EGenericError.
Proof.
  intros H1 H2 H3. unfold lookup_rule, derive. rewrite H1, H2. apply Nat.eqb_neq in H3. rewrite H3. reflexivity.
Qed.

Definition entered (c : ctx) (def : rule_def) (args : list node) : ctx :=
  Ctx (gm_collect (combine (rd_parms def) args)) (Some c) (ctx_depth c + 1)%N.

Lemma lookup_enter lk c name args def :
  gm_get name (ctx_map c) = None -> lk name = inl def ->
  List.length (rd_parms def) = List.length args ->
  lookup_rule lk c name args =
    if N.leb max_depth (ctx_depth c) then Err limit_error else Ok (rd_node def, entered c def args).
Proof.
  intros H1 H2 H3. unfold lookup_rule, derive, inc_depth. rewrite H1, H2. apply Nat.eqb_eq in H3. rewrite H3.
  cbn. destruct (N.leb max_depth (ctx_depth c)); reflexivity.
Qed.

Lemma lookup_param lk c name args a p :
  gm_get name (ctx_map c) = Some a -> ctx_past c = Some p -> lookup_rule lk c name args = Ok (a, p).
Proof. intros H1 H2. unfold lookup_rule. rewrite H1, H2. reflexivity. Qed.

Lemma gm_insert_same k v m : gm_get k (gm_insert k v m) = Some v.
Proof.
  induction m as [|[k' v'] m IH]; cbn; [rewrite text_eqb_refl; auto|].
  destruct (text_eqb k' k) eqn:E; cbn; rewrite E; auto.
Qed.
Lemma gm_insert_other k v m name : name <> k -> gm_get name (gm_insert k v m) = gm_get name m.
Proof.
  intros N. induction m as [|[k' v'] m IH]; cbn.
  - assert (text_eqb k name = false) as -> by (apply text_eqb_neq; congruence). auto.
  - destruct (text_eqb k' k) eqn:E; cbn.
    + apply text_eqb_eq in E; subst k'.
      assert (text_eqb k name = false) as -> by (apply text_eqb_neq; congruence). auto.
    + destruct (text_eqb k' name); auto.
Qed.

(** A name is bound in an entered context iff it is a parameter. *)
Lemma gm_collect_none ps args name : List.length ps = List.length args ->
  (gm_get name (gm_collect (combine ps args)) = None <-> ~ In name ps).
Proof.
  intros Hl. unfold gm_collect.
  assert (G : forall m, gm_get name (fold_left (fun m p => gm_insert (fst p) (snd p) m) (combine ps args) m) = None
     <-> ~ In name ps /\ gm_get name m = None).
  { revert args Hl. induction ps as [|k ps IH]; intros [|a args] Hl m; try discriminate; cbn; [tauto|].
    rewrite IH by auto. destruct (list_eq_dec N.eq_dec name k) as [->|N].
    - rewrite gm_insert_same. split; [intros [_ H]; discriminate|intros [H _]; exfalso; auto].
    - rewrite gm_insert_other by auto. intuition. }
  rewrite G. cbn. tauto.
Qed.

Lemma entered_in c def args name a :
  gm_get name (ctx_map (entered c def args)) = Some a -> In a args.
Proof. intros H. apply gm_collect_get in H. eapply combine_snd_in; eauto. Qed.

(** * Contexts that differ only in depth and in irrelevant parts *)

Section CSim.
Variables lk1 lk2 : lookup_context.
(** Global names on which both lookups agree, closed under dependencies. *)
Variable S : text -> Prop.
Hypothesis S_agree : forall name, S name -> lk1 name = lk2 name.
Hypothesis S_closed : forall name def name', S name -> lk1 name = inl def -> depends def name' -> S name'.
(** Relation required between depths. *)
Variable D : N -> N -> Prop.
Hypothesis D_succ : forall a b, D a b -> D (a + 1)%N (b + 1)%N.

Inductive csim : ctx -> ctx -> node -> Prop :=
| CSim c1 c2 nd :
    D (ctx_depth c1) (ctx_depth c2) ->
    (forall name, mentions nd name ->
       (gm_get name (ctx_map c1) = None /\ gm_get name (ctx_map c2) = None /\ S name) \/
       (exists a p1 p2, gm_get name (ctx_map c1) = Some a /\ gm_get name (ctx_map c2) = Some a /\
          ctx_past c1 = Some p1 /\ ctx_past c2 = Some p2 /\ csim p1 p2 a)) ->
    csim c1 c2 nd.

Lemma csim_sub c1 c2 nd nd' : csim c1 c2 nd -> In nd' (children nd) -> csim c1 c2 nd'.
Proof.
  intros H Hin. inversion H; subst. constructor; auto.
  intros name M. apply H1. eapply mentions_child; eauto.
Qed.

Lemma csim_enter c1 c2 nd name args def :
  csim c1 c2 nd -> refers nd = Some (name, args) -> S name -> lk1 name = inl def ->
  List.length (rd_parms def) = List.length args ->
  csim (entered c1 def args) (entered c2 def args) (rd_node def).
Proof.
  intros H R HS Hd Hl. assert (HD : D (ctx_depth c1) (ctx_depth c2)) by (inversion H; auto).
  constructor; [cbn; auto|].
  intros name' M. cbn [ctx_map ctx_past entered].
  destruct (gm_get name' (gm_collect (combine (rd_parms def) args))) as [a|] eqn:E.
  - right. exists a, c1, c2. do 4 (split; [auto|]). eapply csim_sub; [exact H|].
    assert (In a args) by (apply (entered_in c1 def args name'); exact E).
    destruct nd; cbn in R; inversion R; subst; exact H0.
  - left. repeat split; auto. apply gm_collect_none in E; auto.
    eapply S_closed; eauto. split; auto.
Qed.
End CSim.

(** ** Equal depths: rules outside the reachable ones are irrelevant *)

Lemma csim_look_eq (lk1 lk2 : lookup_context) (S : text -> Prop) :
  (forall name, S name -> lk1 name = lk2 name) ->
  (forall name def name', S name -> lk1 name = inl def -> depends def name' -> S name') ->
  forall c1 c2 nd name args, csim S eq c1 c2 nd -> refers nd = Some (name, args) ->
  look_rel (lookup_rule lk1) (lookup_rule lk2) (csim S eq) c1 c2 name args.
Proof.
  intros Ha Hc c1 c2 nd name args H R. pose proof H as H'.
  inversion H as [? ? ? HD HN]; subst. unfold look_rel.
  destruct (HN name (mentions_here _ _ _ R)) as [(G1 & G2 & HS)|(a & p1 & p2 & G1 & G2 & P1 & P2 & HR)].
  - destruct (lk1 name) as [def|e] eqn:L1.
    + pose proof L1 as L2. rewrite Ha in L2 by auto.
      destruct (Nat.eq_dec (List.length (rd_parms def)) (List.length args)) as [Hl|Hl].
      * rewrite (lookup_enter lk1 c1 name args def), (lookup_enter lk2 c2 name args def) by auto.
        rewrite <- HD. destruct (N.leb max_depth (ctx_depth c1)); auto.
        eexists; split; [reflexivity|]. eapply csim_enter; eauto. intros; subst; auto.
      * rewrite (lookup_arity lk1 c1 name args def), (lookup_arity lk2 c2 name args def) by auto. auto.
    + rewrite (lookup_missing lk1 c1 name args e) by auto. rewrite Ha in L1 by auto.
      apply lookup_missing; auto.
  - rewrite (lookup_param lk1 c1 name args a p1) by auto.
    rewrite (lookup_param lk2 c2 name args a p2) by auto. eauto.
Qed.

Lemma lp_nopanic {A} (a b : option (res A)) r : lp a b -> a = Some r -> r <> Panic -> b = Some r.
Proof. intros [H|[H|H]] E N; congruence. Qed.
Lemma lps_nopanic {A St} (a b : option (res A * St)) r s : lps a b -> a = Some (r, s) -> r <> Panic -> b = Some (r, s).
Proof. intros [H|[(s' & H)|H]] E N; congruence. Qed.

(** ** The right-hand side is at most as deep *)

Lemma csim_look_strict (lk : lookup_context) (S : text -> Prop) :
  (forall name def name', S name -> lk name = inl def -> depends def name' -> S name') ->
  forall c1 c2 nd name args, csim S (fun a b => (b <= a)%N) c1 c2 nd -> refers nd = Some (name, args) ->
  look_rel (lookup_strict lk) (lookup_rule lk) (csim S (fun a b => (b <= a)%N)) c1 c2 name args.
Proof.
  intros Hc c1 c2 nd name args H R. pose proof H as H'.
  inversion H as [? ? ? HD HN]; subst. unfold look_rel, lookup_strict.
  destruct (HN name (mentions_here _ _ _ R)) as [(G1 & G2 & HS)|(a & p1 & p2 & G1 & G2 & P1 & P2 & HR)].
  - rewrite G1. destruct (lk name) as [def|e] eqn:L1.
    + destruct (Nat.eqb_spec (List.length (rd_parms def)) (List.length args)) as [Hl|Hl]; cbn [negb].
      * destruct (N.leb_spec max_depth (ctx_depth c1)); auto.
        rewrite (lookup_enter lk c2 name args def) by auto.
        assert (N.leb max_depth (ctx_depth c2) = false) as -> by (apply N.leb_gt; lia).
        eexists; split; [reflexivity|]. eapply (csim_enter lk S); eauto. intros; lia.
      * apply (lookup_arity lk c2 name args def); auto.
    + apply lookup_missing; auto.
  - rewrite G1, P1. rewrite (lookup_param lk c2 name args a p2) by auto. eauto.
Qed.

(** Strict lookup against the program's own lookup in the same context. *)
Lemma strict_look lk c1 c2 nd name args :
  (c1 = c2) -> refers nd = Some (name, args) ->
  look_rel (lookup_strict lk) (lookup_rule lk) (fun c1 c2 _ => c1 = c2) c1 c2 name args.
Proof.
  intros <- R. unfold look_rel, lookup_strict, lookup_rule, derive, inc_depth, blank.
  destruct (gm_get name (ctx_map c1)).
  - destruct (ctx_past c1); auto. eauto.
  - destruct (lk name); auto.
    destruct (Nat.eqb (List.length (rd_parms r)) (List.length args)); cbn; auto.
    destruct (N.leb max_depth (ctx_depth c1)); cbn; eauto.
Qed.

Section Limit.
Variable X : ext.
Variable lk : lookup_context.

Lemma strict_sim n v nd c : lp (validate X (lookup_strict lk) n v nd c) (validate X (lookup_rule lk) n v nd c).
Proof.
  apply (sim X (lookup_strict lk) (lookup_rule lk) (fun c1 c2 _ => c1 = c2)); auto.
  intros; eapply strict_look; eauto.
Qed.
Lemma strict_sim_a n w nd c : lps (validate_array_member X (lookup_strict lk) n nd w c)
  (validate_array_member X (lookup_rule lk) n nd w c).
Proof.
  apply (sim X (lookup_strict lk) (lookup_rule lk) (fun c1 c2 _ => c1 = c2)); auto.
  intros; eapply strict_look; eauto.
Qed.
Lemma strict_sim_m n w nd c : lps (validate_map_member X (lookup_strict lk) n nd w c)
  (validate_map_member X (lookup_rule lk) n nd w c).
Proof.
  apply (sim X (lookup_strict lk) (lookup_rule lk) (fun c1 c2 _ => c1 = c2)); auto.
  intros; eapply strict_look; eauto.
Qed.
End Limit.

(** * No panic, no cut signal, truthful errors *)
From Verif Require Import ArrayInv MapInv ConvertProofs NoPanic SpecReach.

Lemma lookup_rule_good (Good : verror -> Prop) lk :
  (forall t, Good (EStructural t)) -> Good EGenericError -> (forall name e, lk name = inr e -> Good e) ->
  forall c name args, clean Good (lookup_rule lk c name args).
Proof.
  intros Gs Gg Gl c name args. unfold lookup_rule, derive, blank, inc_depth.
  destruct (gm_get name (ctx_map c)).
  - destruct (ctx_past c); [apply clean_ok|].
    destruct (N.leb max_depth (ctx_depth c)); cbn; [apply clean_err; auto|apply clean_ok].
  - destruct (lk name) eqn:L; [|apply clean_err; eauto].
    destruct (Nat.eqb _ _); cbn; [|apply clean_err; auto].
    destruct (N.leb max_depth (ctx_depth c)); cbn; [apply clean_err; auto|apply clean_ok].
Qed.

Section Clean.
Variable X : ext.
Variable lk : lookup_context.
Variable Good : verror -> Prop.
Hypothesis Gm : forall t, Good (EMismatch t).
Hypothesis Gs : forall t, Good (EStructural t).
Hypothesis Gu : forall t, Good (EUnsupported t).
Hypothesis Gv : forall t, Good (EValueError t).
Hypothesis Gg : Good EGenericError.
Hypothesis Gl : forall name e, lk name = inr e -> Good e.

Lemma val_clean v nd c : keys_sorted v -> clean Good (val X lk v nd c).
Proof.
  intros K. destruct (val_spec X lk v nd c) as (n & E).
  refine (proj1 (validate_clean Good Gm Gs Gu Gv X (lookup_rule lk) _ n) v nd c K _ E).
  apply lookup_rule_good; auto.
Qed.
Lemma aval_clean m w c : arr_ok w -> clean Good (fst (aval X lk m w c)).
Proof.
  intros K. destruct (aval_spec X lk m w c) as (n & E). destruct (aval X lk m w c) as [r w'].
  refine (proj1 (proj2 (validate_clean Good Gm Gs Gu Gv X (lookup_rule lk) _ n)) m w c r w' K E).
  apply lookup_rule_good; auto.
Qed.
Lemma mval_clean m w c : map_ok w -> no_panic Good (fst (mval X lk m w c)).
Proof.
  intros K. destruct (mval_spec X lk m w c) as (n & E). destruct (mval X lk m w c) as [r w'].
  refine (proj1 (proj2 (proj2 (validate_clean Good Gm Gs Gu Gv X (lookup_rule lk) _ n))) m w c r w' K E).
  apply lookup_rule_good; auto.
Qed.
Lemma run_clean v def : keys_sorted v -> clean Good (run_validate X lk v def).
Proof.
  intros K. destruct (run_validate_spec X lk v def) as (n & E). unfold do_validate in E.
  destruct (rd_parms def); [|inversion E; apply clean_err; auto].
  rewrite <- (val_run _ _ _ _ _ _ _ E). apply val_clean; auto.
Qed.
End Clean.

Lemma run_validate_val X lk v def : rd_parms def = [] ->
  run_validate X lk v def = val X lk v (rd_node def) initial_ctx.
Proof.
  intros P. destruct (run_validate_spec X lk v def) as (n & E). unfold do_validate in E. rewrite P in E.
  symmetry. eapply val_run; eauto.
Qed.
Lemma run_validate_generic X lk v def : rd_parms def <> [] -> run_validate X lk v def = Err EGenericError.
Proof.
  intros P. destruct (run_validate_spec X lk v def) as (n & E). unfold do_validate in E.
  destruct (rd_parms def); [congruence|]. inversion E; auto.
Qed.

Lemma val_nopanic X lk v nd c : keys_sorted v -> val X lk v nd c <> Panic.
Proof. intros K. apply (val_clean X lk (fun _ => True)); auto. Qed.
Lemma run_nopanic X lk v def : keys_sorted v -> run_validate X lk v def <> Panic.
Proof. intros K. apply (run_clean X lk (fun _ => True)); auto. Qed.
Lemma aval_nopanic X lk m w c : arr_ok w -> fst (aval X lk m w c) <> Panic.
Proof. intros K. apply (aval_clean X lk (fun _ => True)); auto. Qed.
Lemma mval_nopanic X lk m w c : map_ok w -> fst (mval X lk m w c) <> Panic.
Proof. intros K. apply (mval_clean X lk (fun _ => True)); auto. Qed.

Lemma wf_keys_sorted v : wf_value v -> keys_sorted v.
Proof.
  induction v using value_ind'; cbn; auto.
  - intros W. apply keys_sorted_array. induction H; auto. destruct W. constructor; auto.
  - intros [W S]. apply keys_sorted_map. split; auto. clear S.
    induction H; auto. destruct W as (? & ? & ?). constructor; auto. tauto.
Qed.

(** * Unreachable rules *)

Theorem unreachable_irrelevant X lk1 lk2 v def :
  keys_sorted v ->
  (forall name, reachable lk1 def name -> lk1 name = lk2 name) ->
  run_validate X lk1 v def = run_validate X lk2 v def.
Proof.
  intros K H. destruct (rd_parms def) as [|p ps] eqn:P.
  2:{ rewrite !run_validate_generic by (rewrite P; discriminate). reflexivity. }
  rewrite !run_validate_val by auto.
  destruct (val_spec X lk1 v (rd_node def) initial_ctx) as (n & E).
  symmetry. apply (val_run X lk2 n).
  assert (L : lp (validate X (lookup_rule lk1) n v (rd_node def) initial_ctx)
                 (validate X (lookup_rule lk2) n v (rd_node def) initial_ctx)).
  { apply (sim X (lookup_rule lk1) (lookup_rule lk2) (csim (reachable lk1 def) eq)).
    - intros. eapply csim_sub; eauto.
    - intros. eapply csim_look_eq; eauto. intros. eapply reach_step; eauto.
    - constructor; auto. intros name M. left. repeat split; auto. apply reach_start. split; auto.
      rewrite P. auto. }
  eapply lp_nopanic; eauto. apply val_nopanic; auto.
Qed.

(** * A reference means its definition *)

Section InPlace.
Variable X : ext.
Variable lk : lookup_context.
Let LE := fun a b : N => (b <= a)%N.

Lemma csim_refl_free c nd :
  (forall name, mentions nd name -> gm_get name (ctx_map c) = None) ->
  forall def, csim (fun _ => True) LE (entered c (RuleDef [] def) []) c nd.
Proof.
  intros H def. constructor; [cbn; unfold LE; lia|]. intros name M. left. cbn. auto.
Qed.

Lemma sim_strict_le n : 
  (forall v nd c1 c2, csim (fun _ => True) LE c1 c2 nd ->
     lp (validate X (lookup_strict lk) n v nd c1) (validate X (lookup_rule lk) n v nd c2)) /\
  (forall nd w c1 c2, csim (fun _ => True) LE c1 c2 nd ->
     lps (validate_array_member X (lookup_strict lk) n nd w c1) (validate_array_member X (lookup_rule lk) n nd w c2)) /\
  (forall nd w c1 c2, csim (fun _ => True) LE c1 c2 nd ->
     lps (validate_map_member X (lookup_strict lk) n nd w c1) (validate_map_member X (lookup_rule lk) n nd w c2)).
Proof.
  destruct (sim X (lookup_strict lk) (lookup_rule lk) (csim (fun _ => True) LE)
    (csim_sub (fun _ => True) LE)
    (csim_look_strict lk (fun _ => True) (fun _ _ _ _ _ _ => I)) n) as (H1 & H2 & H3 & _).
  auto.
Qed.

Variables (name : text) (body : node) (c : ctx).
Hypothesis Hfree : gm_get name (ctx_map c) = None.
Hypothesis Hdef : lk name = inl (RuleDef [] body).
Hypothesis Hbody : forall name', mentions body name' -> gm_get name' (ctx_map c) = None.

Lemma strict_enter :
  lookup_strict lk c name [] =
    if N.leb max_depth (ctx_depth c) then Panic else Ok (body, entered c (RuleDef [] body) []).
Proof. unfold lookup_strict. rewrite Hfree, Hdef. reflexivity. Qed.

Theorem in_place_type v :
  within_limit X lk v (NRule name []) c -> val X lk v (NRule name []) c = val X lk v body c.
Proof.
  intros (n & r & E & N).
  assert (val X lk v (NRule name []) c = r) as ->.
  { apply (val_run X lk n). eapply lp_nopanic; [apply strict_sim|exact E|exact N]. }
  destruct n as [|n]; [discriminate|]. rewrite validate_S, strict_enter in E.
  destruct (N.leb max_depth (ctx_depth c)); [congruence|]. symmetry. apply (val_run X lk n).
  eapply lp_nopanic; [apply sim_strict_le|exact E|exact N]. apply csim_refl_free; auto.
Qed.
Theorem in_place_array w :
  within_limit_array X lk (NRule name []) w c -> aval X lk (NRule name []) w c = aval X lk body w c.
Proof.
  intros (n & r & w' & E & N).
  assert (aval X lk (NRule name []) w c = (r, w')) as ->.
  { apply (aval_run X lk n). eapply lps_nopanic; [apply strict_sim_a|exact E|exact N]. }
  destruct n as [|n]; [discriminate|]. rewrite validate_array_member_S, strict_enter in E.
  destruct (N.leb max_depth (ctx_depth c)); [congruence|]. symmetry. apply (aval_run X lk n).
  eapply lps_nopanic; [apply sim_strict_le|exact E|exact N]. apply csim_refl_free; auto.
Qed.
Theorem in_place_map w :
  within_limit_map X lk (NRule name []) w c -> mval X lk (NRule name []) w c = mval X lk body w c.
Proof.
  intros (n & r & w' & E & N).
  assert (mval X lk (NRule name []) w c = (r, w')) as ->.
  { apply (mval_run X lk n). eapply lps_nopanic; [apply strict_sim_m|exact E|exact N]. }
  destruct n as [|n]; [discriminate|]. rewrite validate_map_member_S, strict_enter in E.
  destruct (N.leb max_depth (ctx_depth c)); [congruence|]. symmetry. apply (mval_run X lk n).
  eapply lps_nopanic; [apply sim_strict_le|exact E|exact N]. apply csim_refl_free; auto.
Qed.
End InPlace.

(** * Schemas without recursion never reach the limit *)

Section Acyclic.
Variable lk : lookup_context.
Variable rank : text -> N.
Hypothesis rank_dep : forall name def name', lk name = inl def -> depends def name' -> (rank name' < rank name)%N.

Inductive shallow : ctx -> node -> Prop :=
| Shallow c nd :
    (forall name, mentions nd name ->
       (gm_get name (ctx_map c) = None /\ (ctx_depth c + rank name < max_depth)%N) \/
       (exists a p, gm_get name (ctx_map c) = Some a /\ ctx_past c = Some p /\ shallow p a)) ->
    shallow c nd.

Lemma shallow_sub c nd nd' : shallow c nd -> In nd' (children nd) -> shallow c nd'.
Proof. intros H Hin. inversion H; subst. constructor. intros name M. apply H0. eapply mentions_child; eauto. Qed.

Lemma shallow_look c1 c2 nd name args : c1 = c2 /\ shallow c1 nd -> refers nd = Some (name, args) ->
  look_rel (lookup_rule lk) (lookup_strict lk) (fun c1 c2 nd => c1 = c2 /\ shallow c1 nd) c1 c2 name args.
Proof.
  intros [<- H] R. pose proof H as H0. inversion H as [? ? HN]; subst. unfold look_rel.
  destruct (HN name (mentions_here _ _ _ R)) as [(G & D)|(a & p & G & P & Hp)].
  - unfold lookup_strict. rewrite G. destruct (lk name) as [def|e] eqn:L.
    + destruct (Nat.eqb_spec (List.length (rd_parms def)) (List.length args)) as [Hl|Hl]; cbn [negb].
      * rewrite (lookup_enter lk c1 name args def) by auto.
        assert (N.leb max_depth (ctx_depth c1) = false) as -> by (apply N.leb_gt; lia).
        eexists; split; [reflexivity|]. split; auto. constructor. intros name' M.
        cbn [ctx_map ctx_past ctx_depth entered].
        destruct (gm_get name' (gm_collect (combine (rd_parms def) args))) as [a|] eqn:E.
        -- right. exists a, c1. do 2 (split; [auto|]). eapply shallow_sub; [exact H0|].
           assert (In a args) by (apply (entered_in c1 def args name'); exact E).
           destruct nd; cbn in R; inversion R; subst; auto.
        -- left. split; auto. apply gm_collect_none in E; auto.
           assert (rank name' < rank name)%N by (eapply rank_dep; eauto; split; auto). lia.
      * rewrite (lookup_arity lk c1 name args def) by auto. auto.
    + rewrite (lookup_missing lk c1 name args e) by auto. auto.
  - rewrite (lookup_param lk c1 name args a p) by auto. unfold lookup_strict. rewrite G, P. eauto.
Qed.

Lemma shallow_within X v nd c : shallow c nd -> keys_sorted v -> within_limit X lk v nd c.
Proof.
  intros H K. destruct (val_spec X lk v nd c) as (n & E). exists n, (val X lk v nd c).
  pose proof (val_nopanic X lk v nd c K) as N. split; auto. eapply lp_nopanic; [|exact E|exact N].
  apply (sim X (lookup_rule lk) (lookup_strict lk) (fun c1 c2 nd => c1 = c2 /\ shallow c1 nd)); auto.
  - intros ? ? ? ? [? ?] ?. split; auto. eapply shallow_sub; eauto.
  - intros. eapply shallow_look; eauto.
Qed.
Lemma shallow_within_array X w nd c : shallow c nd -> arr_ok w -> within_limit_array X lk nd w c.
Proof.
  intros H K. destruct (aval_spec X lk nd w c) as (n & E). pose proof (aval_nopanic X lk nd w c K) as N.
  destruct (aval X lk nd w c) as [r w']. exists n, r, w'. split; auto. eapply lps_nopanic; [|exact E|exact N].
  apply (sim X (lookup_rule lk) (lookup_strict lk) (fun c1 c2 nd => c1 = c2 /\ shallow c1 nd)); auto.
  - intros ? ? ? ? [? ?] ?. split; auto. eapply shallow_sub; eauto.
  - intros. eapply shallow_look; eauto.
Qed.
Lemma shallow_within_map X w nd c : shallow c nd -> map_ok w -> within_limit_map X lk nd w c.
Proof.
  intros H K. destruct (mval_spec X lk nd w c) as (n & E). pose proof (mval_nopanic X lk nd w c K) as N.
  destruct (mval X lk nd w c) as [r w']. exists n, r, w'. split; auto. eapply lps_nopanic; [|exact E|exact N].
  apply (sim X (lookup_rule lk) (lookup_strict lk) (fun c1 c2 nd => c1 = c2 /\ shallow c1 nd)); auto.
  - intros ? ? ? ? [? ?] ?. split; auto. eapply shallow_sub; eauto.
  - intros. eapply shallow_look; eauto.
Qed.
Lemma shallow_initial nd : (forall name, mentions nd name -> (rank name < max_depth)%N) -> shallow initial_ctx nd.
Proof. intros H. constructor. intros name M. left. cbn. split; auto. Qed.
End Acyclic.

(** * Cyclic definitions *)

Section Cyclic.
Variable X : ext.
Variable lk : lookup_context.
(** A set of rules each of which leads to another one of the set. *)
Variable S : text -> Prop.
Hypothesis S_step : forall name, S name -> exists def name' args',
  lk name = inl def /\ leads_to (rd_node def) = Some (name', args') /\ S name' /\ ~ In name' (rd_parms def) /\
  forall def', lk name' = inl def' -> List.length (rd_parms def') = List.length args'.

Lemma lead_val c v nd name args e :
  leads_to nd = Some (name, args) -> is_fatal e = true ->
  val X lk v (NRule name args) c = Err e -> val X lk v nd c = Err e.
Proof.
  intros L F H.
  assert (G : forall k nd, nsize nd <= k -> leads_to nd = Some (name, args) -> val X lk v nd c = Err e).
  { clear nd L. induction k as [|k IH]; intros nd Hk L; [destruct nd; cbn in Hk; lia|].
    destruct nd; cbn in L; try discriminate.
    - congruence.
    - destruct options as [|o os]; [discriminate|]. rewrite val_eq. cbn.
      rewrite (IH o); auto; [rewrite F; auto|]. cbn in Hk. lia.
    - destruct members as [|m [|m' ms]]; try discriminate. rewrite val_eq. apply IH; auto. cbn in Hk. lia. }
  eauto.
Qed.
Lemma lead_aval c nd name args e :
  leads_to nd = Some (name, args) -> is_fatal e = true ->
  (forall w, fst (aval X lk (NRule name args) w c) = Err e /\ snd (aval X lk (NRule name args) w c) = w) ->
  forall w, fst (aval X lk nd w c) = Err e /\ snd (aval X lk nd w c) = w.
Proof.
  intros L F H.
  assert (G : forall k nd, nsize nd <= k -> leads_to nd = Some (name, args) ->
    forall w, fst (aval X lk nd w c) = Err e /\ snd (aval X lk nd w c) = w).
  { clear nd L. induction k as [|k IH]; intros nd Hk L w; [destruct nd; cbn in Hk; lia|].
    destruct nd; cbn in L; try discriminate.
    - inversion L; subst; auto.
    - destruct options as [|o os]; [discriminate|]. rewrite aval_eq. cbn.
      destruct (IH o ltac:(cbn in Hk; lia) L w) as [E1 E2].
      destruct (aval X lk o w c) as [r w']; cbn in E1, E2; subst. rewrite F; auto.
    - destruct members as [|m [|m' ms]]; try discriminate. rewrite aval_eq. unfold array_group. cbn.
      destruct (IH m ltac:(cbn in Hk; lia) L (wa_snapshot w)) as [E1 E2].
      destruct (aval X lk m (wa_snapshot w) c) as [r w']; cbn in E1, E2; subst. cbn. destruct w; auto. }
  eauto.
Qed.
Lemma lead_mval c nd name args e :
  leads_to nd = Some (name, args) -> is_fatal e = true ->
  (forall w, fst (mval X lk (NRule name args) w c) = Err e /\ snd (mval X lk (NRule name args) w c) = w) ->
  forall w, fst (mval X lk nd w c) = Err e /\ snd (mval X lk nd w c) = w.
Proof.
  intros L F H. assert (M : is_mismatch e = false /\ erase_mapcut e = e) by (destruct e; auto; discriminate).
  destruct M as [M1 M2].
  assert (G : forall k nd, nsize nd <= k -> leads_to nd = Some (name, args) ->
    forall w, fst (mval X lk nd w c) = Err e /\ snd (mval X lk nd w c) = w).
  { clear nd L. induction k as [|k IH]; intros nd Hk L w; [destruct nd; cbn in Hk; lia|].
    destruct nd; cbn in L; try discriminate.
    - inversion L; subst; auto.
    - destruct options as [|o os]; [discriminate|]. rewrite mval_eq. cbn.
      destruct (IH o ltac:(cbn in Hk; lia) L w) as [E1 E2].
      destruct (mval X lk o w c) as [r w']; cbn in E1, E2; subst. rewrite M1; auto.
    - destruct members as [|m [|m' ms]]; try discriminate. rewrite mval_eq. unfold map_group. cbn.
      destruct (IH m ltac:(cbn in Hk; lia) L (wm_snapshot w)) as [E1 E2].
      destruct (mval X lk m (wm_snapshot w) c) as [r w']; cbn in E1, E2; subst. cbn. rewrite M2. destruct w; auto. }
  eauto.
Qed.

Definition arity_ok (name : text) (args : list node) : Prop :=
  forall def, lk name = inl def -> List.length (rd_parms def) = List.length args.

Lemma cyclic_all k : forall c name args, S name -> gm_get name (ctx_map c) = None -> arity_ok name args ->
  50 - N.to_nat (ctx_depth c) <= k ->
  (forall v, val X lk v (NRule name args) c = Err limit_error) /\
  (forall w, fst (aval X lk (NRule name args) w c) = Err limit_error /\ snd (aval X lk (NRule name args) w c) = w) /\
  (forall w, fst (mval X lk (NRule name args) w c) = Err limit_error /\ snd (mval X lk (NRule name args) w c) = w).
Proof.
  induction k as [|k IH]; intros c name args HS G A Hk;
    destruct (S_step name HS) as (def & name' & args' & Hd & Hl & HS' & Hp & Har);
    pose proof (lookup_enter lk c name args def G Hd (A def Hd)) as E.
  - assert (N.leb max_depth (ctx_depth c) = true) as Hm by (apply N.leb_le; unfold max_depth; lia).
    rewrite Hm in E. repeat split; intros; rewrite ?val_eq, ?aval_eq, ?mval_eq, E; auto.
  - destruct (N.leb max_depth (ctx_depth c)) eqn:Hm.
    { repeat split; intros; rewrite ?val_eq, ?aval_eq, ?mval_eq, E; auto. }
    apply N.leb_gt in Hm. unfold max_depth in Hm.
    destruct (IH (entered c def args) name' args') as (H1 & H2 & H3); auto.
    { apply gm_collect_none; auto. }
    { cbn [ctx_depth entered]. lia. }
    split; [|split]; intros; rewrite ?val_eq, ?aval_eq, ?mval_eq, E.
    + eapply lead_val; eauto.
    + eapply lead_aval; eauto.
    + eapply lead_mval; eauto.
Qed.
End Cyclic.
