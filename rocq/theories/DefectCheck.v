(** A decision procedure for schemas without defects.

    Certificate: [tab] lists the names (of rules and of parameters) with the roles
    they are used in.  A wrong certificate only makes the procedure answer [false]. *)
From Coq Require Import List Bool ZArith NArith String Lia Arith.
From Verif Require Import Base Util Data Value Convert Ivt Scalar Validate Fun ValueOrder NoPanic ConvertProofs SpecCtx CtxProofs
  SpecBase SpecReach SpecPeg Sim TameCheck OrderlyDecide SpecDefect DefectProofs.
Import ListNotations.
Open Scope list_scope.

Definition same_kind_b (l l' : literal) : bool := N.eqb (literal_discriminant l) (literal_discriminant l').
Definition u64_b (z : Z) : bool := (0 <=? z)%Z && (z <? 2 ^ 64)%Z.
Definition limit_b (ctl : control node) (nd : node) : bool :=
  match ctl, nd with
  | CtlSize _ _, NLiteral (LInt z) => u64_b z
  | CtlSize _ _, NRange (NLiteral (LInt a)) (NLiteral (LInt b)) _ => u64_b a && u64_b b
  | CtlLt _ _, NLiteral (LInt _) | CtlLe _ _, NLiteral (LInt _) | CtlGt _ _, NLiteral (LInt _) | CtlGe _ _, NLiteral (LInt _) => true
  | _, _ => false
  end.
Definition target_b (ctl : control node) (nd : node) : bool :=
  match ctl, nd with
  | CtlSize _ _, NPrelude (PUint | PTstr | PBstr) => true
  | (CtlLt _ _ | CtlLe _ _ | CtlGt _ _ | CtlGe _ _), NPrelude (PUint | PNint | PInt) => true
  | _, _ => false
  end.

Section Check.
Variable rs : rules.
Variable N : nat.
Variable tab : list (text * role).
(** Whether [.cbor] may be used: it can fail because of the data. *)
Variable cb : bool.
Notation lk := (basic_context rs).
Notation L := (lookup_rule lk).
Notation is_param := (is_param rs).
Notation listed := (listed tab).

Definition within (name : text) (ps : list text) : bool := existsb (text_eqb name) ps.
Definition arity_b (name : text) (args : list node) : bool :=
  match rules_get rs name with Some def => Nat.eqb (List.length (rd_parms def)) (List.length args) | None => false end.

(** What a chain of names ends at, if no parameter is involved. *)
Fixpoint stand (n : nat) (nd : node) {struct n} : option node :=
  match n with
  | O => None
  | S n' =>
      match nd with
      | NRule name args =>
          if is_param name then None
          else if arity_b name args then
            match rules_get rs name with Some def => stand n' (rd_node def) | None => None end
          else None
      | _ => Some nd
      end
  end.
Definition parts_b (ctl : control node) (t l : node) : bool :=
  match stand N t, stand N l with
  | Some t', Some l' => target_b ctl t' && limit_b ctl l'
  | _, _ => false
  end.
Definition leaf_b (t : node) : bool :=
  match t with
  | NLiteral _ | NPrelude _ => true
  | NRange s e _ =>
      match stand N s, stand N e with
      | Some (NLiteral l), Some (NLiteral l') => same_kind_b l l'
      | _, _ => false
      end
  | NControl (CtlSize t l) => parts_b (CtlSize t l) t l
  | NControl (CtlLt t l) => parts_b (CtlLt t l) t l
  | NControl (CtlLe t l) => parts_b (CtlLe t l) t l
  | NControl (CtlGt t l) => parts_b (CtlGt t l) t l
  | NControl (CtlGe t l) => parts_b (CtlGe t l) t l
  | NControl (CtlRegexp _) => true
  | _ => false
  end.

Definition call_b (fl : role -> node -> bool) (name : text) (args : list node) : bool :=
  negb (is_param name) && arity_b name args &&
  match rules_get rs name with
  | Some def =>
      forallb (fun p => forallb (fun e => negb (text_eqb (fst p) (fst e)) || fl (snd e) (snd p)) tab)
        (combine (rd_parms def) args)
  | None => true
  end.
Fixpoint flaw (n : nat) (ps : list text) (r : role) (nd : node) {struct n} : bool :=
  match n with
  | O => false
  | S n' =>
      match r, nd with
      | (AsOneOf | AsOneOfM), NRule name args =>
          call_b (flaw n' ps) name args && listed name r &&
          match rules_get rs name with
          | Some def => match rd_node def with NGroup _ | NRule _ _ => true | _ => false end
          | None => false
          end
      | (AsOneOf | AsOneOfM), _ => false
      | _, NRule name args => (within name ps || call_b (flaw n' ps) name args) && listed name r
      | AsType, NChoice ts => forallb (flaw n' ps AsType) ts
      | AsType, NGroup [t] => flaw n' ps AsType t
      | AsType, NArray ms => forallb (flaw n' ps AsArray) ms
      | AsType, NMap ms => forallb (flaw n' ps AsMap) ms
      | AsType, NControl (CtlCbor t) => cb && flaw n' ps AsType t
      | AsType, NChoiceify name args => flaw n' ps AsOneOf (NRule name args)
      | AsType, NChoiceifyInline is => forallb (fun i => flaw n' ps (item_role i) (item_node i)) is
      | AsType, _ => leaf_b nd
      | AsArray, (NChoice ms | NGroup ms) => forallb (flaw n' ps AsArray) ms
      | AsArray, NOccur _ m => flaw n' ps AsArray m
      | AsArray, NUnwrap name args =>
          call_b (flaw n' ps) name args &&
          match rules_get rs name with
          | Some def => match rd_node def with NArray ms => forallb (flaw n' (rd_parms def) AsArray) ms | _ => true end
          | None => true
          end
      | AsArray, NKeyValue _ t _ => flaw n' ps AsType t
      | AsArray, _ => flaw n' ps AsType nd
      | AsMap, (NChoice ms | NGroup ms | NChoiceifyInline ms) => forallb (flaw n' ps AsMap) ms
      | AsMap, NOccur _ m => flaw n' ps AsMap m
      | AsMap, NUnwrap name args =>
          call_b (flaw n' ps) name args &&
          match rules_get rs name with
          | Some def => match rd_node def with NMap ms => forallb (flaw n' (rd_parms def) AsMap) ms | _ => true end
          | None => true
          end
      | AsMap, NKeyValue key t _ => flaw n' ps AsType key && flaw n' ps AsType t
      | AsMap, NChoiceify name args => flaw n' ps AsOneOfM (NRule name args)
      | AsMap, _ => false
      end
  end.
Definition body_ok (r : role) (ps : list text) (nd : node) : bool :=
  match r, nd with
  | AsOneOf, NGroup is => forallb (fun i => flaw N ps (item_role i) (item_node i)) is
  | AsOneOfM, NGroup is => forallb (fun i => flaw N ps (item_role_m i) (item_node i)) is
  | _, _ => flaw N ps r nd
  end.
(** No defect can be reached from [nd]. *)
Definition flawless_b (nd : node) : bool :=
  flaw N [] AsType nd &&
  forallb (fun e => match rules_get rs (fst e) with Some def => body_ok (snd e) (rd_parms def) (rd_node def) | None => true end) tab.

(** * Soundness *)
Definition covers (ps : list text) (c : ctx) : Prop := forall p, In p ps -> gm_get p (ctx_map c) <> None.
Definition QF (name : text) (p : ctx) (a : node) : Prop :=
  forall r, In (name, r) tab -> exists n ps, flaw n ps r a = true /\ covers ps p.
Notation scope := (held rs QF).

Lemma within_in name ps : within name ps = true -> In name ps.
Proof. unfold within. rewrite existsb_exists. intros (x & H & E). apply text_eqb_eq in E. subst; auto. Qed.
Lemma scope_not_param c name : scope c -> is_param name = false -> gm_get name (ctx_map c) = None.
Proof.
  intros S Np. destruct (gm_get name (ctx_map c)) as [a|] eqn:G; auto. exfalso.
  inversion S; subst; cbn in G; [discriminate|]. apply H0 in G. destruct G as [G _]. apply is_param_in in G. congruence.
Qed.
Lemma scope_past c name a : scope c -> gm_get name (ctx_map c) = Some a -> exists p, ctx_past c = Some p.
Proof. intros S G. inversion S; subst; cbn in *; [discriminate|eauto]. Qed.
(** The lookups that the procedure allows can only fail at the recursion limit. *)
Lemma arity_lookup c name args : scope c -> is_param name = false -> arity_b name args = true ->
  exists def, rules_get rs name = Some def /\
    (L c name args = Err limit_error \/ L c name args = Ok (rd_node def, entered c def args)).
Proof.
  intros S Np A. unfold arity_b in A. destruct (rules_get rs name) as [def|] eqn:R; [|discriminate]. apply Nat.eqb_eq in A.
  exists def. split; auto. rewrite (lookup_enter lk c name args def); auto.
  - destruct (N.leb _ _); auto.
  - apply scope_not_param; auto.
  - unfold basic_context. rewrite R. reflexivity.
Qed.
Lemma within_lookup c name ps args : scope c -> covers ps c -> within name ps = true -> exists a p,
  gm_get name (ctx_map c) = Some a /\ ctx_past c = Some p /\ L c name args = Ok (a, p).
Proof.
  intros S C W. apply within_in in W. apply C in W. destruct (gm_get name (ctx_map c)) as [a|] eqn:G; [|congruence].
  destruct (scope_past _ _ _ S G) as (p & P). exists a, p. repeat split; auto. unfold lookup_rule. rewrite G, P. reflexivity.
Qed.
Lemma covers_entered c def args : List.length (rd_parms def) = List.length args -> covers (rd_parms def) (entered c def args).
Proof. intros H p Hp G. cbn in G. apply gm_collect_none in G; auto. Qed.
Lemma scope_entered fl c name args def : rules_get rs name = Some def -> scope c ->
  (forall k a, In (k, a) (combine (rd_parms def) args) -> QF k c a) -> fl = tt -> scope (entered c def args).
Proof.
  intros R S H _. unfold entered. apply held_sub; auto. intros k a Ha. apply collect_get in Ha.
  split; [eapply get_params; eauto; eapply in_combine_l; eauto|]. auto.
Qed.
Lemma call_ok n ps c name args : scope c -> covers ps c -> call_b (flaw n ps) name args = true ->
  exists def, rules_get rs name = Some def /\ scope (entered c def args) /\ covers (rd_parms def) (entered c def args) /\
    (L c name args = Err limit_error \/ L c name args = Ok (rd_node def, entered c def args)).
Proof.
  intros S C H. unfold call_b in H. apply andb_true_iff in H. destruct H as [H A]. apply andb_true_iff in H. destruct H as [Np Ar].
  apply negb_true_iff in Np. destruct (arity_lookup c name args S Np Ar) as (def & R & E). exists def. rewrite R in A. split; auto.
  split; [|split; auto].
  - eapply (scope_entered tt); eauto. intros k a Hin r Ht. rewrite forallb_forall in A. specialize (A _ Hin). cbn in A.
    rewrite forallb_forall in A. specialize (A _ Ht). cbn in A.
    assert (text_eqb k k = true) as Q by (apply text_eqb_eq; auto). rewrite Q in A. exists n, ps. auto.
  - unfold arity_b in Ar. rewrite R in Ar. apply Nat.eqb_eq in Ar. apply covers_entered; auto.
Qed.

Lemma stand_sound n : forall c nd t, (forall p, is_param p = false -> gm_get p (ctx_map c) = None) -> stand n nd = Some t ->
  (forall e, dangles lk c nd e -> e = limit_error) /\ (forall t', stands lk c nd t' -> t' = t).
Proof.
  induction n as [|n IH]; intros c nd t S H; [discriminate|]. cbn [stand] in H.
  assert (Pl : match nd with NRule _ _ => False | _ => True end -> Some nd = Some t ->
    (forall e, dangles lk c nd e -> e = limit_error) /\ (forall t', stands lk c nd t' -> t' = t)).
  { intros Hn [= <-]. split.
    - intros e (nm & ar & c' & F & _). inversion F; subst; contradiction.
    - intros t' (c' & M). inversion M; subst; auto; contradiction. }
  destruct nd; try (apply Pl; [exact I|exact H]). clear Pl.
  destruct (is_param name) eqn:Np; [discriminate|]. destruct (arity_b name args) eqn:A; [|discriminate].
  unfold arity_b in A. destruct (rules_get rs name) as [def|] eqn:R; [|discriminate]. apply Nat.eqb_eq in A.
  assert (E : L c name args = if N.leb max_depth (ctx_depth c) then Err limit_error else Ok (rd_node def, entered c def args)).
  { apply lookup_enter; auto. unfold basic_context. rewrite R. reflexivity. }
  assert (S' : forall p, is_param p = false -> gm_get p (ctx_map (entered c def args)) = None).
  { intros p Hp. cbn. apply gm_collect_none; auto. intros Hin. apply (get_params rs name def R) in Hin. apply is_param_in in Hin. congruence. }
  destruct (IH (entered c def args) _ _ S' H) as [D1 D2]. split.
  - intros e (nm & ar & c' & F & G). inversion F; subst.
    + rewrite E in G. destruct (N.leb _ _); congruence.
    + match goal with Q : L c name args = Ok _ |- _ => rewrite E in Q; destruct (N.leb _ _); inversion Q; subst end.
      apply D1. exists nm, ar, c'. auto.
  - intros t' (c' & M). inversion M; subst; [exfalso; eapply H0; eauto|].
    match goal with Q : L c name args = Ok _ |- _ => rewrite E in Q; destruct (N.leb _ _); inversion Q; subst end.
    apply D2. exists c'. auto.
Qed.

Definition inv (r : role) (c : ctx) (nd : node) : Prop := scope c /\ exists n ps, flaw n ps r nd = true /\ covers ps c.
(** A name met in [nd] cannot be resolved because of the recursion limit. *)
Definition strays (c : ctx) (nd : node) : Prop :=
  exists name args c',
    ((c' = c /\ refers nd = Some (name, args)) \/ exists nd', In nd' (children nd) /\ follows lk c nd' name args c') /\
    L c' name args = Err limit_error.

Section Sound.
Hypothesis Tab : forall name r def, In (name, r) tab -> rules_get rs name = Some def ->
  body_ok r (rd_parms def) (rd_node def) = true.

Lemma flaw_rule n ps r name args : flaw n ps r (NRule name args) = true ->
  exists n', n = S n' /\ listed name r = true /\
    ((r = AsType \/ r = AsArray \/ r = AsMap) /\ (within name ps = true \/ call_b (flaw n' ps) name args = true) \/
     (r = AsOneOf \/ r = AsOneOfM) /\ call_b (flaw n' ps) name args = true /\
       exists def, rules_get rs name = Some def /\ match rd_node def with NGroup _ | NRule _ _ => True | _ => False end).
Proof.
  destruct n as [|n]; [discriminate|]. intros H. exists n. split; auto.
  destruct r; cbn [flaw] in H; apply andb_true_iff in H; destruct H as [H H1].
  1-3: apply orb_true_iff in H; split; [assumption|left; split; [intuition|exact H]].
  all: apply andb_true_iff in H; destruct H as [H H2]; split; [assumption|right]; split; [intuition|]; split; [assumption|]; destruct (rules_get rs name) as [def|]; try discriminate;
    exists def; (split; [reflexivity|]); destruct (rd_node def); auto; discriminate.
Qed.
Lemma inv_name_ok r c name args : inv r c (NRule name args) -> L c name args = Err limit_error \/
  exists t' c', L c name args = Ok (t', c') /\ scope c' /\
    ((r = AsType \/ r = AsArray \/ r = AsMap) /\ inv r c' t' \/
     (r = AsOneOf \/ r = AsOneOfM) /\ exists ps, covers ps c' /\ body_ok r ps t' = true /\
        match t' with NGroup _ | NRule _ _ => True | _ => False end).
Proof.
  intros (S & n & ps & F & C). destruct (flaw_rule _ _ _ _ _ F) as (n' & -> & Li & [(Hr & [W|K])|(Hr & K & def & R & Sh)]).
  - destruct (within_lookup _ _ _ args S C W) as (a & p & G & P & E). right. exists a, p. split; auto.
    inversion S; subst; cbn in *; [discriminate|]. inversion P; subst. destruct (H0 _ _ G) as [_ Q]. split; auto. left. split; auto.
    split; auto. apply Q. apply listed_in; auto.
  - destruct (call_ok _ _ _ _ _ S C K) as (def & R & S' & C' & [E|E]); auto. right. do 2 eexists. split; [exact E|]. split; auto.
    left. split; auto. split; auto. exists N, (rd_parms def). split; auto.
    assert (B := Tab _ _ _ (listed_in _ _ _ Li) R). destruct Hr as [->|[->| ->]]; exact B.
  - destruct (call_ok _ _ _ _ _ S C K) as (def' & R' & S' & C' & [E|E]); auto. right. do 2 eexists. split; [exact E|]. split; auto.
    assert (def' = def) by congruence. subst def'. right. split; auto. exists (rd_parms def). split; auto. split; auto.
    apply (Tab _ _ _ (listed_in _ _ _ Li) R).
Qed.

Ltac fb H := rewrite forallb_forall in H.
Lemma uses_inv c0 nd0 : inv AsType c0 nd0 -> forall r c nd, uses lk c0 nd0 r c nd -> inv r c nd.
Proof.
  intros I0 r c nd U. induction U; auto;
    try (destruct IHU as (S & n & ps & F & C); destruct n as [|n]; [discriminate|]).
  - destruct (inv_name_ok _ _ _ _ (conj S (ex_intro _ (Datatypes.S n) (ex_intro _ ps (conj F C))))) as [E|(t1 & c1 & E & _ & [(_ & I)|([->| ->] & _)])];
      [congruence| |intuition discriminate|intuition discriminate]. assert (t1 = t' /\ c1 = c') as [-> ->] by (split; congruence). auto.
  - split; auto. exists n, ps. split; auto. destruct r; cbn [flaw] in F; try discriminate; fb F; auto.
  - split; auto. exists n, ps. split; auto. destruct H as [->|[->| ->]]; cbn [flaw] in F; try (fb F; auto).
    destruct ts as [|t1 [|]]; try discriminate. destruct H0 as [<-|[]]; auto.
  - split; auto. exists n, ps. cbn [flaw] in F. fb F. auto.
  - split; auto. exists n, ps. cbn [flaw] in F. fb F. auto.
  - split; auto. exists n, ps. cbn [flaw] in F. apply andb_true_iff in F. split; auto. apply F.
  - split; auto. exists n, ps. cbn [flaw] in F. auto.
  - split; auto. exists n, ps. cbn [flaw] in F. fb F. auto.
  - destruct (inv_name_ok _ _ _ _ (conj S (ex_intro _ (Datatypes.S n) (ex_intro _ ps (conj F C))))) as [E|(t1 & c1 & E & S' & [([H1|[H1|H1]] & _)|(_ & ps' & C' & B & _)])];
      try congruence; try discriminate. assert (t1 = NGroup is /\ c1 = c') as [-> ->] by (split; congruence).
    split; auto. cbn in B. fb B. exists N, ps'. auto.
  - destruct (inv_name_ok _ _ _ _ (conj S (ex_intro _ (Datatypes.S n) (ex_intro _ ps (conj F C))))) as [E|(t1 & c1 & E & S' & [([H1|[H1|H1]] & _)|(_ & ps' & C' & B & _)])];
      try congruence; try (destruct H; congruence). assert (t1 = NRule name' args' /\ c1 = c') as [-> ->] by (split; congruence).
    split; auto. exists N, ps'. split; auto. destruct H as [->| ->]; exact B.
  - (* element *) split; auto. destruct m; cbn in H; inversion H; subst; cbn [flaw] in F; exists n, ps; auto.
  - split; auto. exists n, ps. split; auto. destruct H as [->| ->]; cbn [flaw] in F; auto.
  - cbn [flaw] in F. apply andb_true_iff in F. destruct F as [K B]. destruct (call_ok _ _ _ _ _ S C K) as (def & R & S' & C' & [E|E]); [congruence|].
    rewrite R in B. assert (rd_node def = NArray ms /\ entered c def args = c') as [E1 <-] by (split; congruence). rewrite E1 in B. fb B.
    split; auto. exists n, (rd_parms def). auto.
  - cbn [flaw] in F. apply andb_true_iff in F. destruct F as [K B]. destruct (call_ok _ _ _ _ _ S C K) as (def & R & S' & C' & [E|E]); [congruence|].
    rewrite R in B. assert (rd_node def = NMap ms /\ entered c def args = c') as [E1 <-] by (split; congruence). rewrite E1 in B. fb B.
    split; auto. exists n, (rd_parms def). auto.
  - cbn [flaw] in F. apply andb_true_iff in F. split; auto. exists n, ps. split; auto. apply F.
  - cbn [flaw] in F. apply andb_true_iff in F. split; auto. exists n, ps. split; auto. apply F.
  - split; auto. exists n, ps. cbn [flaw] in F. auto.
  - split; auto. exists n, ps. cbn [flaw] in F. fb F. auto.
  - destruct (inv_name_ok _ _ _ _ (conj S (ex_intro _ (Datatypes.S n) (ex_intro _ ps (conj F C))))) as [E|(t1 & c1 & E & S' & [([H1|[H1|H1]] & _)|(_ & ps' & C' & B & _)])];
      try congruence; try discriminate. assert (t1 = NGroup is /\ c1 = c') as [-> ->] by (split; congruence).
    split; auto. cbn in B. fb B. exists N, ps'. auto.
Qed.

Lemma scope_names c : scope c -> forall p, is_param p = false -> gm_get p (ctx_map c) = None.
Proof. intros. apply scope_not_param; auto. Qed.
Lemma same_kind_ok l l' : same_kind_b l l' = true -> same_kind l l'.
Proof. unfold same_kind_b. destruct l, l'; cbn; auto; discriminate. Qed.
Lemma u64_ok z : u64_b z = true -> u64 z.
Proof. unfold u64_b, u64. intros H. apply andb_true_iff in H. destruct H. apply Z.leb_le in H. apply Z.ltb_lt in H0. auto. Qed.
Lemma limit_ok ctl nd : limit_b ctl nd = true -> limit_for ctl nd.
Proof.
  destruct ctl; cbn; try discriminate; destruct nd; try discriminate; try (destruct l; try discriminate; constructor; auto; apply u64_ok; auto; fail).
  - destruct nd1; try discriminate. destruct l; try discriminate. destruct nd2; try discriminate. destruct l; try discriminate.
    intros H. apply andb_true_iff in H. destruct H. constructor; apply u64_ok; auto.
Qed.
Lemma target_ok ctl nd : target_b ctl nd = true -> exists p, target_for ctl p /\ nd = NPrelude p.
Proof.
  destruct ctl; cbn; try discriminate; destruct nd; try discriminate; destruct p; try discriminate; intros _; eexists; (split; [|reflexivity]);
    constructor; cbn; auto.
Qed.

Lemma flaw_leaf n ps t : flaw n ps AsType t = true ->
  match t with NRange _ _ _ => True | NControl (CtlCbor _) => False | NControl _ => True | _ => False end -> leaf_b t = true.
Proof. destruct n; [discriminate|]. cbn [flaw]. destruct t; try contradiction; auto. destruct c; try contradiction; auto. Qed.
Lemma leaf_parts ctl t l : control_parts ctl t l -> leaf_b (NControl ctl) = true -> parts_b ctl t l = true.
Proof. intros P H. inversion P; subst; exact H. Qed.
Lemma parts_children ctl t l : control_parts ctl t l -> children (NControl ctl) = [t; l].
Proof. intros P. inversion P; subst; reflexivity. Qed.

Lemma inv_defect X r c nd e : inv r c nd -> defect X lk r c nd e ->
  (cb = true /\ exists m, e = EValueError m) \/ e = limit_error /\ strays c nd.
Proof.
  intros Iv Df. pose proof Iv as I'. destruct I' as (S & n & ps & F & C). pose proof (scope_names _ S) as Sn.
  inversion Df; subst.
  - right. destruct (inv_name_ok _ _ _ _ Iv) as [E|(t1 & c1 & E & _)]; [|congruence].
    split; [congruence|]. exists name, args, c. cbn. auto.
  - right. destruct n as [|n]; [discriminate|].
    assert (K : call_b (flaw n ps) name args = true).
    { destruct H as [->| ->]; cbn [flaw] in F; apply andb_true_iff in F; apply F. }
    destruct (call_ok _ _ _ _ _ S C K) as (def & R & _ & _ & [E|E]); [|congruence].
    split; [congruence|]. exists name, args, c. cbn. auto.
  - exfalso. destruct (inv_name_ok _ _ _ _ Iv) as [E|(t1 & c1 & E & _ & [([H3|[H3|H3]] & _)|(_ & ps' & _ & _ & Sh)])];
      try congruence; try (destruct H; congruence). assert (t1 = t') as -> by congruence.
    destruct t'; try contradiction; [eapply H2|eapply H1]; reflexivity.
  - exfalso. destruct n as [|n]; [discriminate|]. cbn [flaw] in F. destruct nd; discriminate.
  - exfalso. destruct n as [|n]; [discriminate|]. cbn [flaw] in F. destruct ts as [|t1 [|]]; try discriminate. apply H; reflexivity.
  - exfalso. destruct n as [|n]; [discriminate|]. cbn [flaw] in F. destruct nd; discriminate.
  - right. assert (Lf := flaw_leaf _ _ _ F I). cbn in Lf. destruct (stand N s) as [s'|] eqn:E1; [|discriminate].
    destruct (stand N t) as [t'|] eqn:E2; [|destruct s'; discriminate].
    assert (e = limit_error) as ->.
    { destruct H as [->| ->]; [eapply (proj1 (stand_sound _ c s s' Sn E1))|eapply (proj1 (stand_sound _ c t t' Sn E2))]; eauto. }
    split; auto. destruct H0 as (nm & ar & c' & Fo & Er). exists nm, ar, c'. split; auto. right. exists nd0. split; auto. cbn. destruct H; subst; auto.
  - exfalso. assert (Lf := flaw_leaf _ _ _ F I). cbn in Lf. destruct (stand N s) as [s'|] eqn:E1; [|discriminate].
    destruct s'; try discriminate. destruct (stand N t) as [t'|] eqn:E2; [|discriminate]. destruct t'; try discriminate.
    destruct H as [->| ->]; [apply (proj2 (stand_sound _ _ _ _ Sn E1)) in H0|apply (proj2 (stand_sound _ _ _ _ Sn E2)) in H0]; subst; eapply H1; reflexivity.
  - exfalso. assert (Lf := flaw_leaf _ _ _ F I). cbn in Lf. destruct (stand N s) as [s'|] eqn:E1; [|discriminate].
    destruct s'; try discriminate. destruct (stand N t) as [t'|] eqn:E2; [|discriminate]. destruct t'; try discriminate.
    apply (proj2 (stand_sound _ _ _ _ Sn E1)) in H. apply (proj2 (stand_sound _ _ _ _ Sn E2)) in H0. inversion H; inversion H0; subst.
    apply H1. apply same_kind_ok; auto.
  - right. assert (Lf : leaf_b (NControl ctl) = true) by (eapply flaw_leaf; [exact F|inversion H; exact I]).
    apply (leaf_parts _ _ _ H) in Lf. unfold parts_b in Lf. destruct (stand N t) as [t'|] eqn:E1; [|discriminate].
    destruct (stand N l) as [l'|] eqn:E2; [|discriminate].
    assert (e = limit_error) as ->.
    { destruct H0 as [->| ->]; [eapply (proj1 (stand_sound _ c t t' Sn E1))|eapply (proj1 (stand_sound _ c l l' Sn E2))]; eauto. }
    split; auto. destruct H1 as (nm & ar & c' & Fo & Er). exists nm, ar, c'. split; auto. right. exists nd0. split; auto.
    rewrite (parts_children _ _ _ H). cbn. destruct H0; subst; auto.
  - exfalso. assert (Lf : leaf_b (NControl ctl) = true) by (eapply flaw_leaf; [exact F|inversion H; exact I]).
    apply (leaf_parts _ _ _ H) in Lf. unfold parts_b in Lf. destruct (stand N t) as [t'|] eqn:E1; [|discriminate].
    destruct (stand N l) as [l1|] eqn:E2; [|discriminate]. apply andb_true_iff in Lf. destruct Lf as [_ Lf].
    apply (proj2 (stand_sound _ _ _ _ Sn E2)) in H0. subst. apply H1. apply limit_ok; auto.
  - exfalso. assert (Lf : leaf_b (NControl ctl) = true) by (eapply flaw_leaf; [exact F|inversion H; exact I]).
    apply (leaf_parts _ _ _ H) in Lf. unfold parts_b in Lf. destruct (stand N t) as [t1|] eqn:E1; [|discriminate].
    destruct (stand N l) as [l1|] eqn:E2; [|discriminate]. apply andb_true_iff in Lf. destruct Lf as [Lf _].
    apply (proj2 (stand_sound _ _ _ _ Sn E1)) in H0. subst. destruct (target_ok _ _ Lf) as (p & T & E). eapply H1; eauto.
  - left. split; [destruct n as [|n]; [discriminate|]; cbn [flaw] in F; apply andb_true_iff in F; apply F|]. destruct H as [(m & _ & ->)|(x & _ & Ho)]; eauto. destruct (of_cbor_spec x) as [(v & Hv & _)|(m & Hv)]; [congruence|exists m; congruence].
Qed.

(** Acyclic schemas stay within the limit. *)
Section Ranked.
Variable rank : text -> BinNums.N.
Hypothesis rank_dep : forall name def name', lk name = inl def -> depends def name' -> (rank name' < rank name)%N.
Notation shallow := (shallow rank).

Lemma shallow_ok c nd name args t c' : shallow c nd -> refers nd = Some (name, args) -> L c name args = Ok (t, c') -> shallow c' t.
Proof.
  intros S R E. pose proof (shallow_look lk rank rank_dep c c nd name args (conj eq_refl S) R) as H. unfold look_rel in H. rewrite E in H.
  destruct H as (c2 & _ & -> & H). auto.
Qed.
Lemma shallow_limit c nd name args : shallow c nd -> refers nd = Some (name, args) -> L c name args <> Err limit_error.
Proof.
  intros S R E. inversion S as [? ? HN]; subst. destruct (HN name (mentions_here _ _ _ R)) as [(G & Dp)|(a & p & G & P & Hp)].
  - destruct (lk name) as [def|e] eqn:El.
    + destruct (Nat.eq_dec (List.length (rd_parms def)) (List.length args)) as [Hl|Hl].
      * rewrite (lookup_enter lk c name args def) in E by auto.
        assert (N.leb max_depth (ctx_depth c) = false) as Q by (apply N.leb_gt; lia). rewrite Q in E. discriminate.
      * rewrite (lookup_arity lk c name args def) in E by auto. discriminate.
    + rewrite (lookup_missing lk c name args e) in E by auto. unfold basic_context in El. destruct (rules_get rs name); inversion El; subst. discriminate.
  - rewrite (lookup_param lk c name args a p) in E by auto. discriminate.
Qed.
Lemma shallow_follows c nd name args c' : follows lk c nd name args c' -> shallow c nd -> shallow c' (NRule name args).
Proof. induction 1; auto. intros S. apply IHfollows. eapply shallow_ok; eauto. reflexivity. Qed.
Lemma shallow_strays c nd : shallow c nd -> ~ strays c nd.
Proof.
  intros S (name & args & c' & [(-> & R)|(nd' & Hin & Fo)] & E).
  - eapply shallow_limit; eauto.
  - eapply (shallow_limit c' (NRule name args)); eauto; [|reflexivity]. eapply shallow_follows; eauto. eapply shallow_sub; eauto.
Qed.
Lemma uses_shallow c0 nd0 : shallow c0 nd0 -> forall r c nd, uses lk c0 nd0 r c nd -> shallow c nd.
Proof.
  assert (It : forall c is i, shallow c i -> In i is -> shallow c (item_node i)).
  { intros c is i S _. destruct i; auto. eapply shallow_sub; eauto. cbn. auto. }
  intros S0 r c nd U. induction U; auto;
    try (eapply shallow_sub; [eassumption|cbn; auto]; fail);
    try (eapply shallow_ok; [eassumption|reflexivity|eassumption]).
  - inversion IHU as [? ? HN]; subst. constructor. intros nm M. apply HN. inversion M; subst.
    + cbn in H. inversion H; subst. eapply mentions_here; reflexivity.
    + eapply mentions_child; eauto.
  - eapply It; eauto. eapply shallow_sub; eauto.
  - eapply It; eauto. eapply shallow_sub; [eapply shallow_ok; [eassumption|reflexivity|eassumption]|auto].
  - destruct m; cbn in H; inversion H; subst; auto. eapply shallow_sub; eauto. cbn; auto.
  - eapply shallow_sub; [eapply shallow_ok; [eassumption|reflexivity|eassumption]|auto].
  - eapply shallow_sub; [eapply shallow_ok; [eassumption|reflexivity|eassumption]|auto].
  - inversion IHU as [? ? HN]; subst. constructor. intros nm M. apply HN. inversion M; subst.
    + cbn in H. inversion H; subst. eapply mentions_here; reflexivity.
    + eapply mentions_child; eauto.
  - eapply It; eauto. eapply shallow_sub; [eapply shallow_ok; [eassumption|reflexivity|eassumption]|auto].
Qed.
End Ranked.
End Sound.

Lemma flawless_inv nd : flawless_b nd = true -> inv AsType initial_ctx nd /\
  forall name r def, In (name, r) tab -> rules_get rs name = Some def -> body_ok r (rd_parms def) (rd_node def) = true.
Proof.
  unfold flawless_b. intros H. apply andb_true_iff in H. destruct H as [F T]. split.
  - split; [apply held_top|]. exists N, []. split; auto. intros p [].
  - rewrite forallb_forall in T. intros name r def Hin R. specialize (T _ Hin). cbn in T. rewrite R in T. auto.
Qed.
End Check.

(** * Checking that the rules are acyclic and not too deep *)
Fixpoint names_of (n : nat) (nd : node) {struct n} : option (list text) :=
  match n with
  | O => None
  | S n' =>
      match (fix all (l : list node) : option (list text) :=
               match l with
               | [] => Some []
               | x :: xs => match names_of n' x, all xs with Some a, Some b => Some (a ++ b) | _, _ => None end
               end) (children nd) with
      | Some l => Some (match refers nd with Some (name, _) => name :: l | None => l end)
      | None => None
      end
  end.
Lemma names_sound n : forall nd l name, names_of n nd = Some l -> mentions nd name -> In name l.
Proof.
  induction n as [|n IH]; intros nd l name E M; [discriminate|]. cbn [names_of] in E.
  match type of E with match ?f ?x with _ => _ end = _ => set (all := f) in *; destruct (all x) as [l1|] eqn:Al end; [|discriminate].
  assert (H : forall xs l1, all xs = Some l1 -> forall x, In x xs -> mentions x name -> In name l1).
  { induction xs as [|x xs IHx]; intros l2 A y Hy My; [contradiction|]. cbn [all] in A. fold all in A.
    destruct (names_of n x) as [a|] eqn:Ea; [|discriminate]. destruct (all xs) as [b|] eqn:Eb; [|discriminate]. inversion A; subst.
    apply in_or_app. destruct Hy as [<-|Hy]; [left; eapply IH; eauto|right; eapply IHx; eauto]. }
  inversion E; subst. inversion M; subst.
  - rewrite H0. left; auto.
  - specialize (H _ _ Al _ H0 H1). destruct (refers nd) as [[? ?]|]; [right|]; auto.
Qed.
(** The rank of a name is looked up in a table (0 if it is not there). *)
Fixpoint rank_of (ranks : list (text * N)) (name : text) : N :=
  match ranks with
  | [] => 0%N
  | (k, r) :: ranks' => if text_eqb k name then r else rank_of ranks' name
  end.
Definition acyclic_b (rs : rules) (n : nat) (ranks : list (text * N)) (nd : node) : bool :=
  match names_of n nd with Some l => forallb (fun k => N.ltb (rank_of ranks k) 50) l | None => false end &&
  forallb (fun e =>
    match names_of n (rd_node (snd e)) with
    | Some l => forallb (fun k => within k (rd_parms (snd e)) || N.ltb (rank_of ranks k) (rank_of ranks (fst e))) l
    | None => false
    end) rs.
Lemma acyclic_sound rs n ranks nd : acyclic_b rs n ranks nd = true ->
  (forall name def name', basic_context rs name = inl def -> depends def name' -> (rank_of ranks name' < rank_of ranks name)%N) /\
  (forall name, mentions nd name -> (rank_of ranks name < 50)%N).
Proof.
  unfold acyclic_b. intros H. apply andb_true_iff in H. destruct H as [A B]. split.
  - intros name def name' E (M & Np). unfold basic_context in E. destruct (rules_get rs name) as [d|] eqn:R; [|discriminate].
    inversion E; subst. assert (Hin : In (name, def) rs).
    { clear - R. induction rs as [|[k d] rs IH]; [discriminate|]. cbn in R. destruct (text_eqb k name) eqn:K.
      - apply text_eqb_eq in K. inversion R; subst. left; auto.
      - right; auto. }
    rewrite forallb_forall in B. specialize (B _ Hin). cbn in B. destruct (names_of n (rd_node def)) as [l|] eqn:En; [|discriminate].
    rewrite forallb_forall in B. specialize (B _ (names_sound _ _ _ _ En M)). apply orb_true_iff in B. destruct B as [B|B].
    + apply within_in in B. contradiction.
    + apply N.ltb_lt in B. auto.
  - intros name M. destruct (names_of n nd) as [l|] eqn:En; [|discriminate]. rewrite forallb_forall in A.
    apply N.ltb_lt. apply A. eapply names_sound; eauto.
Qed.
