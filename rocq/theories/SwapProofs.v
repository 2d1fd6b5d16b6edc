(** Types with the same verdicts are interchangeable. *)
From Coq Require Import List Bool ZArith NArith String Lia Arith.
From Verif Require Import Base Util Data Value Convert Ivt Scalar Validate Unfold Mono ValueOrder
  ArrayInv MapInv ConvertProofs ConvertExact NoPanic SpecBase SpecCtx SpecReach SpecConvert Sim Fun CtxProofs SpecVerdict
  SpecPos SpecJudge SpecPeg SpecActs JudgeProofs MapProofs PegProofs PegExact ActProofs SpecSwap Expand.
Import ListNotations.

Definition alike (r1 r2 : reply) : Prop :=
  match r1, r2 with
  | Accept, Accept | Reject _, Reject _ | Absent, Absent => True
  | Wrong e1, Wrong e2 => error_kind e1 = error_kind e2
  | DidA h1 p1 r1, DidA h2 p2 r2 => p1 = p2 /\ r1 = r2 /\
      match h1, h2 with Matched, Matched | Missed _, Missed _ | Stopped _, Stopped _ => True | _, _ => False end
  | DidM h1 p1 r1, DidM h2 p2 r2 => p1 = p2 /\ r1 = r2 /\
      match h1, h2 with Matched, Matched | Missed _, Missed _ | Stopped _, Stopped _ => True | _, _ => False end
  | RoundsA k1 p1 r1, RoundsA k2 p2 r2 => k1 = k2 /\ p1 = p2 /\ r1 = r2
  | RoundsM k1 p1 r1, RoundsM k2 p2 r2 => k1 = k2 /\ p1 = p2 /\ r1 = r2
  | Found k1 v1, Found k2 v2 => k1 = k2 /\ v1 = v2
  | _, _ => False
  end.
Lemma alike_refl r : alike r r.
Proof. destruct r; cbn; auto; destruct h; auto. Qed.

Ltac ends := repeat match goal with
  | H : _ /\ _ |- _ => destruct H
  | H : alike ?a ?b |- _ => destruct b; cbn in H; try contradiction; subst
  | H : ?a = ?b |- _ => is_var a; is_var b; subst
  | h : ending |- _ => destruct h; cbn in *; try contradiction
  end.

Section Swap.
Variable X : ext.
Variables lk1 lk2 : lookup_context.
Hypothesis Hlk1 : forall name e, lk1 name = inr e -> is_fatal e = true.
Variable hole : node -> node -> Prop.
Variable inspected : text -> Prop.
Notation swap := (swap hole inspected).
Notation kept := (kept hole inspected).
Notation seen := (seen hole inspected).
Hypothesis HR : swapped_rules hole inspected lk1 lk2.

Definition good (args : list node) : Prop := forall x, In x args -> kept InMember x x /\ plain_arg inspected x.

Inductive ctx_ok : ctx -> Prop :=
| ctx_ok_intro c :
    (forall nm a, gm_get nm (ctx_map c) = Some a ->
       (kept InMember a a /\ plain_arg inspected a) /\ exists p, ctx_past c = Some p /\ ctx_ok p) ->
    ctx_ok c.

Lemma plain_seen a b : plain_arg inspected a -> seen a b.
Proof. destruct a; cbn; auto; contradiction. Qed.
Lemma kept_member a b : kept InMember a b -> kept InType a b.
Proof.
  intros H; inversion H; subst; solve [apply k_leaf; auto | apply k_rule; auto | apply k_choice; auto | apply k_map; auto
    | apply k_array; auto | apply k_group; auto | apply k_kv; auto | apply k_occur; auto | apply k_unwrap; auto
    | apply k_choiceify; auto | eapply k_inline; eauto | apply k_cbor; auto].
Qed.
Lemma swap_member a b : swap InMember a b -> swap InType a b.
Proof. intros H; inversion H; subst; [apply sw_kept, kept_member; auto|apply sw_member; auto]. Qed.
Lemma swap_members l1 l2 : Forall2 (swap InMember) l1 l2 -> Forall2 (swap InType) l1 l2.
Proof. induction 1; constructor; auto using swap_member. Qed.

(** * Lookup *)
Lemma derived_ok c def args c' : ctx_ok c -> good args -> derive c def args = Ok c' -> ctx_ok c'.
Proof.
  intros Hc Ga. unfold derive. destruct (Nat.eqb_spec (List.length (rd_parms def)) (List.length args)) as [Hl|]; cbn [negb]; [|discriminate].
  unfold inc_depth. destruct (N.leb max_depth (ctx_depth c)); cbn; [discriminate|]. intros [= <-]. constructor. cbn.
  intros nm a G. rewrite gm_argument in G by auto. split; [|eauto]. apply Ga. eapply argument_arg; eauto.
Qed.
Lemma look_ok c name args : ctx_ok c -> good args ->
  match lookup_rule lk1 c name args with
  | Ok (b1, c') => exists b2, lookup_rule lk2 c name args = Ok (b2, c') /\ ctx_ok c' /\ swap InMember b1 b2 /\
      (inspected name -> kept InMember b1 b2 /\ seen b1 b2)
  | Err e => lookup_rule lk2 c name args = Err e
  | Panic => True
  end.
Proof.
  intros Hc Ga. inversion Hc as [? Hm]; subst. unfold lookup_rule. destruct (gm_get name (ctx_map c)) as [a|] eqn:G.
  - destruct (Hm _ _ G) as ((K & P) & p & -> & Hp). exists a. split; auto. split; auto. split; [apply sw_kept; auto|].
    split; auto. apply plain_seen; auto.
  - pose proof (HR name) as HN. destruct (lk1 name) as [d1|e1], (lk2 name) as [d2|e2]; try contradiction; [|subst; auto].
    destruct HN as (Hp & Hs & Hi). assert (D : derive c d2 args = derive c d1 args) by (unfold derive; rewrite Hp; auto).
    rewrite D. destruct (derive c d1 args) as [c'|e|] eqn:E; cbn; auto. exists (rd_node d2). split; auto. split; [|auto].
    eapply derived_ok; eauto.
Qed.
Lemma look_some c name args b1 c' : ctx_ok c -> good args -> lookup_rule lk1 c name args = Ok (b1, c') ->
  exists b2, lookup_rule lk2 c name args = Ok (b2, c') /\ ctx_ok c' /\ swap InMember b1 b2 /\
      (inspected name -> kept InMember b1 b2 /\ seen b1 b2).
Proof. intros Hc Ga E. pose proof (look_ok c name args Hc Ga) as H. rewrite E in H. auto. Qed.
Lemma look_err c name args e : ctx_ok c -> good args -> lookup_rule lk1 c name args = Err e ->
  lookup_rule lk2 c name args = Err e.
Proof. intros Hc Ga E. pose proof (look_ok c name args Hc Ga) as H. rewrite E in H. auto. Qed.

(** * Leaves *)
Lemma rule_kept p name args b : kept p (NRule name args) b -> b = NRule name args /\ good args.
Proof. intros H; inversion H; subst; auto. discriminate. Qed.
Lemma named_ok c n1 m1 c' : named lk1 c n1 m1 c' -> forall n2, ctx_ok c -> kept InMember n1 n2 -> seen n1 n2 ->
  exists m2, named lk2 c n2 m2 c' /\ kept InMember m1 m2 /\ (forall nm a, m1 <> NRule nm a).
Proof.
  induction 1 as [c nd Hn|c name args nd1 c1 nd2 c2 L H IH]; intros n2 Hc K S.
  - exists n2. split; [|auto]. apply named_here. intros nm a ->. inversion K; subst; try discriminate.
    exfalso; eapply Hn; reflexivity.
  - destruct (rule_kept _ _ _ _ K) as [-> Ga]. cbn in S.
    destruct (look_some _ _ _ _ _ Hc Ga L) as (b2 & L2 & Hc' & _ & Hi). destruct (Hi S) as [K' S'].
    destruct (IH _ Hc' K' S') as (m2 & N2 & Km & Hm). exists m2. split; auto. eapply named_step; eauto.
Qed.
Lemma follows_ok c n1 name args c' : follows lk1 c n1 name args c' -> ctx_ok c -> forall n2, kept InMember n1 n2 -> seen n1 n2 ->
  follows lk2 c n2 name args c' /\ ctx_ok c' /\ good args.
Proof.
  induction 1 as [c name args|c name args nd1 c1 name' args' c' L H IH]; intros Hc n2 K S;
    destruct (rule_kept _ _ _ _ K) as [-> Ga].
  - split; auto. constructor.
  - cbn in S. destruct (look_some _ _ _ _ _ Hc Ga L) as (b2 & L2 & Hc' & _ & Hi). destruct (Hi S) as [K' S'].
    destruct (IH Hc' _ K' S') as (F & Hx). split; auto. eapply follows_step; eauto.
Qed.

(** Following names from a part of a leaf. *)
Definition same_top (m1 m2 : node) : Prop := m1 = m2 \/ (leaf m1 = false /\ leaf m2 = false).
Lemma kept_top p m1 m2 : kept p m1 m2 -> same_top m1 m2.
Proof. intros K; inversion K; subst; try (left; reflexivity); try (right; auto; fail). Qed.
Lemma stands_ok c s m1 : ctx_ok c -> (forall name args, s = NRule name args -> inspected name /\ good args) ->
  stands lk1 c s m1 -> exists m2, stands lk2 c s m2 /\ same_top m1 m2.
Proof.
  intros Hc Hs (c' & N). inversion N as [? ? Hn|? name args nd1 c1 ? ? L N']; subst.
  - exists m1. split; [exists c'; constructor; auto|left; auto].
  - destruct (Hs _ _ eq_refl) as [I Ga]. destruct (look_some _ _ _ _ _ Hc Ga L) as (b2 & L2 & Hc' & _ & Hi).
    destruct (Hi I) as [K S]. destruct (named_ok _ _ _ _ N' _ Hc' K S) as (m2 & N2 & Km & _).
    exists m2. split; [exists c'; eapply named_step; eauto|]. eapply kept_top; eauto.
Qed.
Lemma dangles_ok c s e : ctx_ok c -> (forall name args, s = NRule name args -> inspected name /\ good args) ->
  dangles lk1 c s e -> dangles lk2 c s e.
Proof.
  intros Hc Hs (name & args & c' & F & L). inversion F as [|? nm ar nd1 c1 ? ? ? L1 F']; subst.
  - destruct (Hs _ _ eq_refl) as [I Ga]. exists name, args, c'. split; [constructor|]. eapply look_err; eauto.
  - destruct (Hs _ _ eq_refl) as [I Ga]. destruct (look_some _ _ _ _ _ Hc Ga L1) as (b2 & L2 & Hc' & _ & Hi).
    destruct (Hi I) as [K S]. destruct (follows_ok _ _ _ _ _ F' Hc' _ K S) as (F2 & Hc2 & Ga2).
    exists name, args, c'. split; [eapply follows_step; eauto|]. eapply look_err; eauto.
Qed.

Definition alike_j (j j' : judgement) : Prop := alike (leaf_reply j) (leaf_reply j').
Lemma alike_j_refl j : alike_j j j. Proof. apply alike_refl. Qed.

Lemma judges_ok c t v j : ctx_ok c -> leaf t = true ->
  (forall s, In s (children t) -> forall name args, s = NRule name args -> inspected name /\ good args) ->
  judges X lk1 c t v j -> exists j', judges X lk2 c t v j' /\ alike_j j j'.
Proof.
  intros Hc Hl Hp J.
  assert (ST : forall s m1, In s (children t) -> stands lk1 c s m1 -> exists m2, stands lk2 c s m2 /\ same_top m1 m2).
  { intros s m1 Hin. apply stands_ok; [exact Hc|exact (Hp s Hin)]. }
  assert (SL : forall s m1, In s (children t) -> leaf m1 = true -> stands lk1 c s m1 -> stands lk2 c s m1).
  { intros s m1 Hin Lm S. destruct (ST _ _ Hin S) as (m2 & S2 & [<-|[Q _]]); [auto|congruence]. }
  assert (DG : forall s e, In s (children t) -> dangles lk1 c s e -> dangles lk2 c s e).
  { intros s e Hin. apply dangles_ok; [exact Hc|exact (Hp s Hin)]. }
  assert (NT : forall m1 m2 x, same_top m1 m2 -> leaf x = true -> m1 <> x -> m2 <> x).
  { intros m1 m2 x [<-|[Q1 Q2]] Lx H E; congruence. }
  destruct J.
  - exists j. split; [constructor; auto|apply alike_j_refl].
  - exists j. split; [constructor; auto|apply alike_j_refl].
  - exists j. split; [|apply alike_j_refl]. eapply j_range; eauto; apply SL; cbn; auto.
  - eexists. split; [|apply alike_j_refl]. apply j_start_dangles. apply DG; cbn; auto.
  - destruct (ST s nd) as (m2 & S2 & T2); [cbn; auto|auto|..]. eexists. split; [eapply j_start_improper; [exact S2|]|apply alike_j_refl].
    intros l. eapply NT; eauto.
  - eexists. split; [|apply alike_j_refl]. eapply j_end_dangles; [apply SL; cbn; eauto|apply DG; cbn; auto].
  - destruct (ST t nd) as (m2 & S2 & T2); [cbn; auto|auto|..]. eexists. split; [eapply j_end_improper; [apply SL; [| |exact H]; cbn; auto|exact S2|]|apply alike_j_refl].
    intros l'. eapply NT; eauto.
  - eexists. split; [|apply alike_j_refl]. eapply j_kinds; [apply SL; cbn; eauto|apply SL; cbn; eauto|auto].
  - exists j. split; [|apply alike_j_refl]. eapply j_compare; eauto; apply SL; auto; destruct op; cbn; auto.
  - destruct (ST l nd) as (m2 & S2 & T2); [destruct op; cbn; auto|auto|]. eexists. split; [eapply j_limit_improper; [exact S2|]|].
    + intros n. eapply NT; eauto.
    + reflexivity.
  - eexists. split; [|apply alike_j_refl]. eapply j_compared_dangles; [apply SL; eauto|apply DG; auto]; destruct op; cbn; auto.
  - destruct (ST t nd) as (m2 & S2 & T2); [destruct op; cbn; auto|auto|]. eexists.
    split; [eapply j_compared_improper; [apply SL; eauto; destruct op; cbn; auto|exact S2|]|].
    + intros p Hin. eapply NT; eauto.
    + reflexivity.
  - exists j. split; [|apply alike_j_refl].
    eapply j_size; eauto; [apply SL; cbn; auto; inversion H0; auto|apply SL; cbn; auto].
  - destruct (ST l nd) as (m2 & S2 & [<-|[L1 L2]]); [cbn; auto|auto|..].
    + eexists. split; [eapply j_size_improper; eauto|apply alike_j_refl].
    + eexists. split; [eapply j_size_improper; [exact S2|apply fault_type; intros; intros ->; discriminate]|reflexivity].
  - eexists. split; [|apply alike_j_refl]. eapply j_sized_dangles; eauto; [apply SL; cbn; auto; inversion H0; auto|apply DG; cbn; auto].
  - destruct (ST t nd') as (m2 & S2 & T2); [cbn; auto|auto|..]. eexists.
    split; [eapply j_sized_improper; [apply SL; [| |eassumption]; cbn; auto; inversion H0; auto|eassumption|exact S2|]|].
    + intros p Hin. eapply NT; eauto.
    + reflexivity.
  - eexists. split; [|apply alike_j_refl]. eapply j_argument_dangles; eauto. apply DG; auto. destruct H; cbn; auto.
  - exists j. split; [constructor; auto|apply alike_j_refl].
Qed.

(** * Data that is left *)
Definition entries_ok (es : entries) : Prop := sorted es /\ Forall ent_ok es.
Lemma arr_rest c m a h took rest : Forall keys_sorted a -> acts X lk1 (AskArr c m a) (DidA h took rest) -> Forall keys_sorted rest.
Proof.
  intros K A. destruct (aval_spec X lk1 m (WA a [[]]) c) as (n & E). destruct (aval X lk1 m (WA a [[]]) c) as [r w'].
  destruct (proj1 (proj2 (main X lk1 Hlk1 n)) c m (WA a [[]]) r w' ltac:(split; cbn; auto) E) as (C & [Ko _] & p & S & P).
  pose proof (acts_det _ _ _ _ A _ P) as Q. destruct r as [|[]|]; cbn in Q; try discriminate; inversion Q; subst; auto.
Qed.
Lemma map_rest c m es h took rest : entries_ok es -> acts X lk1 (AskMap c m es) (DidM h took rest) -> entries_ok rest.
Proof.
  intros [K1 K2] A. destruct (mval_spec X lk1 m (WM es [[]]) c) as (n & E). destruct (mval X lk1 m (WM es [[]]) c) as [r w'].
  destruct (proj1 (proj2 (proj2 (main X lk1 Hlk1 n))) c m (WM es [[]]) r w' ltac:(split; [|split]; cbn; auto) E) as (C & (Ko1 & Ko2 & _) & _ & p & _ & S & P).
  pose proof (acts_det _ _ _ _ A _ P) as Q. destruct r as [|[]|]; cbn in Q; try discriminate; inversion Q; subst; split; auto.
Qed.
Lemma found_in c key es k v : acts X lk1 (AskKey c key es) (Found k v) -> In (k, v) es.
Proof.
  induction es as [|[k' v'] es IH]; intros A; inversion A; subst.
  - left; auto.
  - right; auto.
Qed.

Lemma map_entries es : keys_sorted (VMap es) -> entries_ok es.
Proof. intros K. apply keys_sorted_map in K as [K1 K2]. split; auto. Qed.

(** * Questions *)
Definition member_ask (f g : entries -> question) : Prop :=
  (exists c m1 m2, f = AskMap c m1 /\ g = AskMap c m2 /\ ctx_ok c /\ swap InMember m1 m2) \/
  (exists c name args, f = AskOneOfM c name args /\ g = AskOneOfM c name args /\ ctx_ok c /\ inspected name /\ good args).
Inductive ask : (place -> node -> node -> Prop) -> question -> question -> Prop :=
| q_type (S : place -> node -> node -> Prop) c t1 t2 v : ctx_ok c -> keys_sorted v -> S InType t1 t2 -> ask S (AskType c t1 v) (AskType c t2 v)
| q_oneof S c name args v : ctx_ok c -> keys_sorted v -> inspected name -> good args ->
    ask S (AskOneOf c name args v) (AskOneOf c name args v)
| q_any S n1 n2 l1 l2 : Forall2 (ask swap) l1 l2 -> ask S (AskAny n1 l1) (AskAny n2 l2)
| q_arr (S : place -> node -> node -> Prop) c m1 m2 a : ctx_ok c -> Forall keys_sorted a -> S InMember m1 m2 -> ask S (AskArr c m1 a) (AskArr c m2 a)
| q_seqa S c l1 l2 a : ctx_ok c -> Forall keys_sorted a -> Forall2 (swap InMember) l1 l2 -> ask S (AskSeqA c l1 a) (AskSeqA c l2 a)
| q_alta S n1 n2 c l1 l2 a : ctx_ok c -> Forall keys_sorted a -> Forall2 (swap InMember) l1 l2 ->
    ask S (AskAltA n1 c l1 a) (AskAltA n2 c l2 a)
| q_repa S c m1 m2 n a : ctx_ok c -> Forall keys_sorted a -> swap InMember m1 m2 -> ask S (AskRepA c m1 n a) (AskRepA c m2 n a)
| q_map (S : place -> node -> node -> Prop) c m1 m2 es : ctx_ok c -> entries_ok es -> S InMember m1 m2 -> ask S (AskMap c m1 es) (AskMap c m2 es)
| q_seqm S c l1 l2 es : ctx_ok c -> entries_ok es -> Forall2 (swap InMember) l1 l2 -> ask S (AskSeqM c l1 es) (AskSeqM c l2 es)
| q_altm S n1 n2 l1 l2 es : entries_ok es -> Forall2 member_ask l1 l2 -> ask S (AskAltM n1 l1 es) (AskAltM n2 l2 es)
| q_repm S c m1 m2 n es : ctx_ok c -> entries_ok es -> swap InMember m1 m2 -> ask S (AskRepM c m1 n es) (AskRepM c m2 n es)
| q_key S c k1 k2 es : ctx_ok c -> Forall ent_ok es -> swap InType k1 k2 -> ask S (AskKey c k1 es) (AskKey c k2 es)
| q_oneofm S c name args es : ctx_ok c -> entries_ok es -> inspected name -> good args ->
    ask S (AskOneOfM c name args es) (AskOneOfM c name args es).

Definition answered (q2 : question) (r : reply) : Prop := exists r2, acts X lk2 q2 r2 /\ alike r r2.
Hypothesis Hhole : forall a b c v r, hole a b -> ctx_ok c -> keys_sorted v -> acts X lk1 (AskType c a v) r ->
  answered (AskType c b v) r.

Lemma only_type_element a : only_type a = true -> element_of a = Some a.
Proof. destruct a; cbn; auto; discriminate. Qed.
Lemma type_member_not t : type_member t -> (forall n a, t <> NRule n a) /\ (forall k v b, t <> NKeyValue k v b).
Proof. intros H; destruct H as [t Ht|x l _]; split; intros; try discriminate; intros ->; discriminate. Qed.
Definition plain_reply (r : reply) : Prop := match r with Accept | Reject _ | Wrong _ => True | _ => False end.
Lemma plain_alike r r2 : alike r r2 -> plain_reply r -> plain_reply r2.
Proof. destruct r, r2; cbn; auto. Qed.
Lemma alike_sym r r2 : alike r r2 -> alike r2 r.
Proof. destruct r, r2; cbn; auto; intros H; repeat match goal with H : _ /\ _ |- _ => destruct H end; subst; auto;
  repeat split; auto; destruct h, h0; auto. Qed.
Lemma alike_trans r r2 r3 : alike r r2 -> alike r2 r3 -> alike r r3.
Proof.
  destruct r, r2; cbn; try contradiction; destruct r3; cbn; try contradiction; auto;
    try congruence; intros H H'; repeat match goal with H : _ /\ _ |- _ => destruct H end; subst; repeat split; auto;
    destruct h, h0, h1; auto.
Qed.
Lemma element_alike v a r r2 : alike r r2 -> plain_reply r -> alike (elementA v a r) (elementA v a r2).
Proof. destruct r, r2; cbn; try contradiction; auto. Qed.
(** Among the elements of an array, and among the entries of a map. *)
Lemma member_element lk c t : type_member t -> forall v a r, plain_reply r -> acts X lk (AskType c t v) r ->
  exists r', acts X lk (AskArr c t (v :: a)) r' /\ alike (elementA v a r) r'.
Proof.
  induction 1 as [t Ht|x l _ IH]; intros v a r Hr A.
  - eexists. split; [eapply a_element; [apply only_type_element; auto|exact A]|apply alike_refl].
  - assert (A' : acts X lk (AskAny (choice_of (x :: l)) (map (fun t => AskType c t v) (x :: l))) r).
    { inversion A; subst; try discriminate; auto. match goal with J : judges _ _ _ _ _ _ |- _ => apply judges_leaf in J; discriminate end. }
    enough (G : exists r', acts X lk (AskAltA (choice_of (x :: l)) c (x :: l) (v :: a)) r' /\ alike (elementA v a r) r')
      by (destruct G as (r' & G & K); exists r'; split; auto; apply a_choice; auto).
    revert A' IH. generalize (choice_of (x :: l)) as none. intros none. generalize (x :: l) as ms. clear A. intros ms.
    induction ms as [|m ms IHms]; intros A' IH; cbn in A'; inversion A'; subst.
    + eexists. split; [constructor|cbn; auto].
    + edestruct (IH m (or_introl eq_refl) v a (Reject m0)) as (r1 & A1 & K1); [exact Logic.I|eassumption|]. ends. subst.
      destruct IHms as (r2 & A2 & K2); [auto|intros; eapply IH; eauto; right; auto|].
      eexists. split; [eapply alta_next; eauto|]. destruct r; cbn in Hr; try contradiction; destruct r2; cbn in K2; try contradiction; cbn; auto.
    + edestruct (IH m (or_introl eq_refl) v a r) as (r1 & A1 & K1); [auto|eassumption|].
      exists r1. split; auto. eapply alta_stop; eauto. intros msg took rest ->. destruct r; cbn in K1; try contradiction; try tauto.
      eapply H4; reflexivity.
Qed.
Lemma member_no_element lk c t : type_member t -> exists msg, acts X lk (AskArr c t []) (DidA (Missed msg) [] []).
Proof.
  induction 1 as [t Ht|x l _ IH].
  - eexists. eapply a_element_no, only_type_element; auto.
  - enough (G : exists msg, acts X lk (AskAltA (choice_of (x :: l)) c (x :: l) []) (DidA (Missed msg) [] []))
      by (destruct G as (msg & G); exists msg; apply a_choice; auto).
    revert IH. generalize (choice_of (x :: l)) as none. intros none. generalize (x :: l) as ms. intros ms.
    induction ms as [|m ms IHms]; intros IH.
    + eexists. constructor.
    + destruct (IH m (or_introl eq_refl)) as (m1 & A1). destruct IHms as (m2 & A2). { intros; apply IH; right; auto. }
      exists m2. apply (alta_next X lk none c m ms [] m1 [] [] _ A1 A2).
Qed.
Lemma member_misplaced lk c t : type_member t -> forall es, exists msg, acts X lk (AskMap c t es) (Wrong (EStructural msg)).
Proof.
  induction 1 as [t Ht|x l _ IH]; intros es.
  - eexists. apply m_misplaced; auto.
  - destruct (IH x (or_introl eq_refl) es) as (msg & A). exists msg. apply m_choice. cbn. eapply altm_stop; [exact A|]. discriminate.
Qed.
Lemma type_answered c t v : keys_sorted v -> exists r, acts X lk1 (AskType c t v) r /\ plain_reply r.
Proof.
  intros K. destruct (val_spec X lk1 v t c) as (n & E).
  pose proof (proj1 (VC X lk1 Hlk1 n) _ _ _ K _ E) as C. apply repV_ruling in C.
  eexists. split; [apply acts_exact; eauto|]. destruct (val X lk1 v t c) as [|[]|]; cbn in *; auto; discriminate.
Qed.

Lemma up q1 r : acts X lk1 q1 r -> (forall q, ask kept q1 q -> answered q r) -> forall q2, ask swap q1 q2 -> answered q2 r.
Proof.
  intros A G q2 Q. inversion Q; subst; try (apply G; constructor; auto; fail).
  - match goal with H : swap InType _ _ |- _ => inversion H; subst end; [apply G; constructor; auto|..];
      eapply Hhole; eauto.
  - match goal with H : swap InMember _ _ |- _ => inversion H as [|? ? ? Hh T1 T2|]; subst end; [apply G; constructor; auto|].
    destruct a as [|v a].
    + destruct (member_no_element lk1 c m1 T1) as (msg1 & A1). pose proof (acts_det _ _ _ _ A _ A1); subst.
      destruct (member_no_element lk2 c m2 T2) as (msg2 & A2). eexists. split; [exact A2|cbn; auto].
    + match goal with H : Forall keys_sorted (_ :: _) |- _ => inversion H; subst end.
      destruct (type_answered c m1 v) as (r0 & A0 & P0); auto.
      destruct (member_element lk1 c m1 T1 v a r0 P0 A0) as (r1 & A1 & K1). pose proof (acts_det _ _ _ _ A _ A1); subst.
      edestruct Hhole as (r2 & A2 & K2); [exact Hh|eassumption|eassumption|exact A0|].
      destruct (member_element lk2 c m2 T2 v a r2 (plain_alike _ _ K2 P0) A2) as (r3 & A3 & K3).
      exists r3. split; auto. eapply alike_trans; [apply alike_sym; exact K1|]. eapply alike_trans; [|exact K3]. apply element_alike; auto.
  - match goal with H : swap InMember _ _ |- _ => inversion H as [|? ? ? Hh T1 T2|]; subst end; [apply G; constructor; auto|].
    destruct (member_misplaced lk1 c m1 T1 es) as (msg1 & A1). pose proof (acts_det _ _ _ _ A _ A1); subst.
    destruct (member_misplaced lk2 c m2 T2 es) as (msg2 & A2). eexists. split; [exact A2|reflexivity].
Qed.

Lemma kept_element m1 m2 t1 : kept InMember m1 m2 -> element_of m1 = Some t1 ->
  exists t2, element_of m2 = Some t2 /\ swap InType t1 t2.
Proof.
  intros K E; inversion K; subst; cbn in E; try discriminate; try (injection E as <-; eexists; split; [reflexivity|]; auto;
    apply swap_member, sw_kept; auto; fail).
  destruct m2; cbn in E; try discriminate; injection E as <-; (eexists; split; [reflexivity|]; apply swap_member, sw_kept; auto).
Qed.
Lemma kept_misplaced t1 t2 p : kept p t1 t2 -> only_member t1 = true -> only_member t2 = true.
Proof. intros K; inversion K; subst; auto. Qed.
Lemma kept_only_type t1 t2 p : kept p t1 t2 -> only_type t1 = true -> only_type t2 = true.
Proof. intros K; inversion K; subst; auto. Qed.
Lemma types_asked c v l1 l2 : ctx_ok c -> keys_sorted v -> Forall2 (swap InType) l1 l2 ->
  Forall2 (ask swap) (map (fun t => AskType c t v) l1) (map (fun t => AskType c t v) l2).
Proof. intros Hc Hv. induction 1; cbn; constructor; auto. constructor; auto. Qed.
Lemma members_asked c l1 l2 : ctx_ok c -> Forall2 (swap InMember) l1 l2 ->
  Forall2 member_ask (map (AskMap c) l1) (map (AskMap c) l2).
Proof. intros Hc. induction 1; cbn; constructor; auto. left. eauto 8. Qed.
Lemma items_asked c v l1 l2 : ctx_ok c -> keys_sorted v -> Forall2 (swap InMember) l1 l2 ->
  (forall name args, In (NRule name args) l1 -> inspected name) ->
  Forall2 (ask swap) (map (item_question c v) l1) (map (item_question c v) l2).
Proof.
  intros Hc Hv. induction 1 as [|i j l1 l2 Hs HF IH]; intros Hn; cbn; constructor; [|apply IH; intros; eapply Hn; right; eauto].
  assert (Q : (forall n a, i <> NRule n a) -> (forall k t b, i <> NKeyValue k t b) -> (forall n a, j <> NRule n a) -> (forall k t b, j <> NKeyValue k t b) ->
    ask swap (item_question c v i) (item_question c v j)).
  { intros H1 H2 H3 H4. assert (E1 : item_question c v i = AskType c i v) by (destruct i; cbn; auto; exfalso; [eapply H1|eapply H2]; reflexivity).
    assert (E2 : item_question c v j = AskType c j v) by (destruct j; cbn; auto; exfalso; [eapply H3|eapply H4]; reflexivity).
    rewrite E1, E2. constructor; auto. apply swap_member; auto. }
  inversion Hs as [? ? ? K|? ? ? Hh O1 O2|]; subst.
  - inversion K; subst; try (apply Q; intros; discriminate).
    + apply Q; intros; intros ->; discriminate.
    + cbn. constructor; auto. eapply Hn; left; reflexivity.
    + cbn. constructor; auto.
  - apply type_member_not in O1, O2. apply Q; apply O1 || apply O2.
Qed.
Lemma member_items_asked c l1 l2 : ctx_ok c -> Forall2 (swap InMember) l1 l2 ->
  (forall name args, In (NRule name args) l1 -> inspected name) -> Forall2 (value_pair hole inspected) l1 l2 ->
  Forall2 member_ask (map (member_question c) l1) (map (member_question c) l2).
Proof.
  intros Hc. induction 1 as [|i j l1 l2 Hs HF IH]; intros Hn Hv; cbn; constructor; inversion Hv; subst;
    [|apply IH; auto; intros; eapply Hn; right; eauto].
  assert (Q : (forall n a, i <> NRule n a) -> (forall k t b, i <> NKeyValue k t b) -> (forall n a, j <> NRule n a) -> (forall k t b, j <> NKeyValue k t b) ->
    member_ask (member_question c i) (member_question c j)).
  { intros H1' H2' H3' H4'. left. exists c, i, j. split; [|split; [|auto]].
    - destruct i; cbn; auto; exfalso; [eapply H1'|eapply H2']; reflexivity.
    - destruct j; cbn; auto; exfalso; [eapply H3'|eapply H4']; reflexivity. }
  inversion Hs as [? ? ? K|? ? ? Hh O1 O2|]; subst.
  - inversion K; subst; try (apply Q; intros; discriminate).
    + apply Q; intros; intros ->; discriminate.
    + right. exists c, name, args. split; [reflexivity|]. split; [reflexivity|]. split; [auto|]. split; [eapply Hn; left; reflexivity|auto].
    + left. match goal with H : value_pair _ _ _ _ |- _ => exists c, v1, v2; split; [reflexivity|split; [reflexivity|split; [auto|exact H]]] end.
  - apply type_member_not in O1, O2. apply Q; apply O1 || apply O2.
Qed.
Lemma oneofm_rest c name args es h took rest : entries_ok es -> acts X lk1 (AskOneOfM c name args es) (DidM h took rest) -> entries_ok rest.
Proof. intros K A. eapply map_rest; [exact K|apply m_one_of; exact A]. Qed.
Lemma member_rest f g es h took rest : member_ask f g -> entries_ok es -> acts X lk1 (f es) (DidM h took rest) -> entries_ok rest.
Proof.
  intros [(c & m1 & m2 & -> & -> & _)|(c & name & args & -> & -> & _)] K A; [eapply map_rest|eapply oneofm_rest]; eauto.
Qed.
Lemma member_asked f g es : member_ask f g -> entries_ok es -> ask swap (f es) (g es).
Proof. intros [(c & m1 & m2 & -> & -> & Hc & Hs)|(c & name & args & -> & -> & Hc & Hi & Hg)] K; constructor; auto. Qed.


Ltac kc := match goal with
  | K : kept _ (NRule _ _) _ |- _ => apply rule_kept in K as [-> K]
  | K : kept _ _ _ |- _ => inversion K; subst; clear K; try discriminate end;
  repeat match goal with G : forall x, In x ?args -> kept InMember x x /\ plain_arg inspected x |- _ => change (good args) in G end.
Ltac look := match goal with
  | L : lookup_rule lk1 _ _ _ = Ok _, Hc : ctx_ok _, Ga : good _ |- _ =>
      let b2 := fresh "b2" in let L2 := fresh "L2" in let Hs := fresh "Hs" in let Hi := fresh "Hi" in
      destruct (look_some _ _ _ _ _ Hc Ga L) as (b2 & L2 & ?Hc' & Hs & Hi)
  | L : lookup_rule lk1 _ _ _ = Err _, Hc : ctx_ok _, Ga : good _ |- _ => apply (look_err _ _ _ _ Hc Ga) in L
  end.
Ltac seeing := match goal with Hi : inspected ?n -> _, I : inspected ?n |- _ => destruct (Hi I) as [?K ?S]; clear Hi end.
Ltac fin r := eexists; split; [|]; [idtac|try reflexivity; try (destruct r; ends; cbn; auto; fail)].

Lemma alike_all r r2 : alike r r2 -> alike (all_of r) (all_of r2).
Proof. destruct r, r2; cbn; try tauto; intros (-> & -> & Hh); destruct h, h0; try contradiction; cbn; auto; destruct rest0; cbn; auto. Qed.

Ltac same := match goal with K : alike ?r ?r2 |- alike _ _ => destruct r, r2; cbn in K; try contradiction;
  repeat match goal with H : _ /\ _ |- _ => destruct H end; subst;
  repeat match goal with h : ending |- _ => destruct h; try contradiction end; cbn; auto end.

Theorem swap_main q1 r : acts X lk1 q1 r -> forall q2, ask kept q1 q2 -> answered q2 r.
Proof.
  induction 1; intros q2 Q; inversion Q; subst; clear Q; unfold answered;
    try match goal with H : Forall2 _ [] _ |- _ => inversion H; subst end;
    try match goal with H : Forall2 _ (_ :: _) _ |- _ => inversion H; subst; clear H end;
    try match goal with H : Forall keys_sorted (_ :: _) |- _ => inversion H; subst end.
  - (* any_none *) eexists. split; [constructor|cbn; auto].
  - edestruct (up _ _ H IHacts1) as (r2 & A2 & K2); [eassumption|]. ends. edestruct IHacts2 as (r3 & A3 & K3); [constructor; eassumption|].
    exists r3. split; auto. eapply any_next; eauto.
  - edestruct (up _ _ H IHacts) as (r2 & A2 & K2); [eassumption|]. exists r2. split; auto. eapply any_first; eauto.
    intros m ->. destruct r; cbn in K2; try contradiction. eapply H0; reflexivity.
  - (* t_leaf *) pose proof (judges_leaf _ _ _ _ _ _ H) as Lf. kc.
    edestruct judges_ok as (j' & J' & A); [eassumption|eassumption| |exact H|].
    { intros s Hin name args ->. split; [eauto|]. intros x Hx. eauto. }
    exists (leaf_reply j'). split; [constructor; auto|exact A].
  - (* t_name *) kc. look. edestruct (up _ _ H0 IHacts) as (r2 & A2 & K2); [apply q_type; auto; apply swap_member; eauto|].
    exists r2. split; auto. eapply t_name; eauto.
  - kc. look. eexists. split; [apply t_name_wrong; eauto|apply alike_refl].
  - (* t_choice *) kc;
      (edestruct (up _ _ H IHacts) as (r2 & A2 & K2); [apply q_any, types_asked; eauto using swap_members|];
       exists r2; split; auto; apply t_choice; eauto).
  - (* t_parens *) kc.
    + match goal with H : Forall2 _ [_] _ |- _ => inversion H as [|? t2 ? ? Hs HN]; subst; inversion HN; subst end.
      edestruct (up _ _ H IHacts) as (r2 & A2 & K2); [apply q_type; eauto using swap_member|].
      exists r2. split; auto. apply t_parens; auto.
    + edestruct (up _ _ H IHacts) as (r2 & A2 & K2); [apply q_type; eauto|].
      exists r2. split; auto. apply t_parens; auto.
  - kc; [|exfalso; apply H; reflexivity].
    eexists. split; [apply t_parens_wrong|apply alike_refl].
    match goal with F : Forall2 _ _ _ |- _ => apply Forall2_length in F; congruence end.
  - (* t_misplaced *) eexists. split; [apply t_misplaced; eapply kept_misplaced; eauto|reflexivity].
  - (* t_array *) kc. edestruct (up _ _ H IHacts) as (r2 & A2 & K2); [apply q_seqa; [eauto|apply keys_sorted_array; auto|eauto]|].
    eexists. split; [apply t_array; exact A2|]. apply alike_all; auto.
  - kc. eexists. split; [apply t_array_no; auto|apply alike_refl].
  - kc. edestruct (up _ _ H IHacts) as (r2 & A2 & K2); [apply q_seqm; [eauto|apply map_entries; auto|eauto]|].
    eexists. split; [apply t_map; exact A2|]. apply alike_all; auto.
  - kc. eexists. split; [apply t_map_no; auto|apply alike_refl].
  - (* t_cbor *) kc. edestruct (up _ _ H1 IHacts) as (r2 & A2 & K2).
    { apply q_type; [eauto| |eauto]. apply of_cbor_exact in H0. destruct (of_cbor_spec x) as [(v' & Ev & Kv)|(msg & Ev)]; rewrite H0 in Ev; inversion Ev; subst; auto. }
    exists r2. split; auto. eapply t_cbor; eauto.
  - kc. eexists. split; [apply t_cbor_no; auto|apply alike_refl].
  - kc. eexists. split; [apply t_cbor_wrong; eauto|apply alike_refl].
  - kc. eexists. split; [eapply t_cbor_wrong_value; eauto|apply alike_refl].
  - (* t_one_of *) kc. edestruct (up _ _ H IHacts) as (r2 & A2 & K2); [apply q_oneof; auto|].
    exists r2. split; auto. apply t_one_of; auto.
  - kc. edestruct (up _ _ H IHacts) as (r2 & A2 & K2); [apply q_any, items_asked; eauto|].
    exists r2. split; auto. apply t_inline; eauto.
  - look. eexists. split; [apply o_wrong; eauto|apply alike_refl].
  - look. seeing. kc. destruct S as [Si Sv].
    edestruct (up _ _ H0 IHacts) as (r2 & A2 & K2); [apply q_any, items_asked; eauto|].
    exists r2. split; auto. eapply o_group; eauto.
  - look. seeing. kc. edestruct (up _ _ H0 IHacts) as (r2 & A2 & K2); [apply q_oneof; auto|].
    exists r2. split; auto. eapply o_alias; eauto.
  - look. seeing. eexists. split; [eapply o_improper; [eauto| |]|apply alike_refl].
    + intros is ->. inversion K; subst; try discriminate. eapply H0; reflexivity.
    + intros n l ->. inversion K; subst; try discriminate. eapply H1; reflexivity.
  - (* a_element *) edestruct kept_element as (t2 & E2 & S2); [eassumption|eassumption|].
    edestruct (up _ _ H0 IHacts) as (r2 & A2 & K2); [apply q_type; eauto|].
    eexists. split; [eapply a_element; eauto|]. same.
  - edestruct kept_element as (t2 & E2 & S2); [eassumption|eassumption|].
    eexists. split; [eapply a_element_no; eauto|cbn; auto].
  - kc. look. edestruct (up _ _ H0 IHacts) as (r2 & A2 & K2); [apply q_arr; eauto|].
    exists r2. split; auto. eapply a_name; eauto.
  - kc. look. eexists. split; [apply a_name_wrong; eauto|apply alike_refl].
  - kc. look. seeing. kc. edestruct (up _ _ H0 IHacts) as (r2 & A2 & K2); [apply q_seqa; eauto|].
    exists r2. split; auto. eapply a_unwrap; eauto.
  - kc. look. seeing. eexists. split; [eapply a_unwrap_no; eauto|apply alike_refl].
    intros ms ->. inversion K; subst; try discriminate. eapply H0; reflexivity.
  - kc. look. eexists. split; [apply a_unwrap_wrong; eauto|apply alike_refl].
  - kc. edestruct (up _ _ H IHacts) as (r2 & A2 & K2); [apply q_alta; eauto|].
    exists r2. split; auto. apply a_choice; eauto.
  - kc. edestruct (up _ _ H IHacts) as (r2 & A2 & K2); [apply q_seqa; eauto|].
    eexists. split; [apply a_group; eauto|]. same.
  - kc. edestruct (up _ _ H IHacts) as (r2 & A2 & K2); [apply q_repa; eauto|].
    eexists. split; [apply a_occur; eauto|]. same; destruct (N.leb _ _); cbn; auto.
  - eexists. split; [constructor|cbn; auto].
  - edestruct (up _ _ H IHacts1) as (r2 & A2 & K2); [apply q_arr; eauto|]. ends.
    edestruct (up _ _ H0 IHacts2) as (r3 & A3 & K3); [apply q_seqa; eauto using arr_rest|].
    eexists. split; [eapply seqa_next; eauto|]. same.
  - edestruct (up _ _ H IHacts) as (r2 & A2 & K2); [apply q_arr; eauto|].
    exists r2. split; auto. eapply seqa_stop; eauto. intros took rest ->. destruct r; cbn in K2; try contradiction; ends. eapply H0; reflexivity.
  - eexists. split; [constructor|cbn; auto].
  - edestruct (up _ _ H IHacts1) as (r2 & A2 & K2); [apply q_arr; eauto|]. ends.
    edestruct (up _ _ H0 IHacts2) as (r3 & A3 & K3); [eapply (q_alta _ none); eauto using arr_rest|].
    eexists. split; [eapply alta_next; eauto|]. same.
  - edestruct (up _ _ H IHacts) as (r2 & A2 & K2); [apply q_arr; eauto|].
    exists r2. split; auto. eapply alta_stop; eauto. intros msg took rest ->. destruct r; cbn in K2; try contradiction; ends. eapply H0; reflexivity.
  - edestruct (up _ _ H IHacts) as (r2 & A2 & K2); [apply q_arr; eauto|]. ends.
    eexists. split; [eapply repa_miss; eauto|cbn; auto].
  - edestruct (up _ _ H IHacts) as (r2 & A2 & K2); [apply q_arr; eauto|]. ends.
    eexists. split; [eapply repa_last; eauto|cbn; auto].
  - edestruct (up _ _ H0 IHacts1) as (r2 & A2 & K2); [apply q_arr; eauto|]. ends.
    edestruct (up _ _ H1 IHacts2) as (r3 & A3 & K3); [apply q_repa; eauto using arr_rest|].
    eexists. split; [eapply repa_more; eauto|]. same.
  - edestruct (up _ _ H IHacts) as (r2 & A2 & K2); [apply q_arr; eauto|]. ends.
    eexists. split; [eapply repa_wrong; eauto|cbn; auto].
  - (* m_entry_no *) kc. edestruct (up _ _ H IHacts) as (r2 & A2 & K2); [apply q_key; eauto; match goal with E : entries_ok _ |- _ => apply E end|]. ends.
    eexists. split; [apply m_entry_no; eauto|cbn; auto].
  - kc. assert (Kv : keys_sorted v).
    { apply found_in in H. match goal with E : entries_ok _ |- _ => destruct E as [_ E]; rewrite Forall_forall in E; apply (E _ H) end. }
    edestruct (up _ _ H IHacts1) as (r2 & A2 & K2); [apply q_key; eauto; match goal with E : entries_ok _ |- _ => apply E end|]. ends.
    edestruct (up _ _ H0 IHacts2) as (r3 & A3 & K3); [apply q_type; eauto|].
    eexists. split; [eapply m_entry; eauto|]. same; destruct cut; cbn; auto.
  - eexists. split; [constructor|cbn; auto].
  - match goal with E : Forall ent_ok (_ :: _) |- _ => inversion E as [|? ? [Kk Kv] E']; subst end.
    edestruct (up _ _ H IHacts) as (r2 & A2 & K2); [apply q_type; eauto|]. ends.
    eexists. split; [apply key_here; eauto|cbn; auto].
  - match goal with E : Forall ent_ok (_ :: _) |- _ => inversion E as [|? ? [Kk Kv] E']; subst end.
    edestruct (up _ _ H IHacts1) as (r2 & A2 & K2); [apply q_type; eauto|].
    edestruct (up _ _ H1 IHacts2) as (r3 & A3 & K3); [apply q_key; eauto|].
    exists r3. split; auto. eapply key_later; eauto. intros ->. destruct r'; cbn in K2; try contradiction; apply H0; reflexivity.
  - kc. look. edestruct (up _ _ H0 IHacts) as (r2 & A2 & K2); [apply q_map; eauto|].
    exists r2. split; auto. eapply m_name; eauto.
  - kc. look. eexists. split; [apply m_name_wrong; eauto|apply alike_refl].
  - kc. look. seeing. kc. edestruct (up _ _ H0 IHacts) as (r2 & A2 & K2); [apply q_seqm; eauto|].
    exists r2. split; auto. eapply m_unwrap; eauto.
  - kc. look. seeing. eexists. split; [eapply m_unwrap_no; eauto|apply alike_refl].
    intros ms ->. inversion K; subst; try discriminate. eapply H0; reflexivity.
  - kc. look. eexists. split; [apply m_unwrap_wrong; eauto|apply alike_refl].
  - kc. edestruct (up _ _ H IHacts) as (r2 & A2 & K2); [apply q_altm; eauto using members_asked|].
    exists r2. split; auto. apply m_choice; eauto.
  - kc. edestruct (up _ _ H IHacts) as (r2 & A2 & K2); [apply q_altm; eauto using members_asked|].
    exists r2. split; auto. apply m_inline; eauto.
  - kc. edestruct (up _ _ H IHacts) as (r2 & A2 & K2); [apply q_oneofm; eauto|].
    exists r2. split; auto. apply m_one_of; eauto.
  - kc. edestruct (up _ _ H IHacts) as (r2 & A2 & K2); [apply q_seqm; eauto|].
    eexists. split; [apply m_group; eauto|]. same.
  - kc. edestruct (up _ _ H IHacts) as (r2 & A2 & K2); [apply q_repm; eauto|].
    eexists. split; [apply m_occur; eauto|]. same; destruct (N.leb _ _); cbn; auto.
  - eexists. split; [apply m_misplaced; eapply kept_only_type; eauto|reflexivity].
  - look. eexists. split; [apply mo_wrong; eauto|apply alike_refl].
  - look. seeing. kc. destruct S as [Si Sv].
    edestruct (up _ _ H0 IHacts) as (r2 & A2 & K2); [apply q_altm; eauto using member_items_asked|].
    exists r2. split; auto. eapply mo_group; eauto.
  - look. seeing. kc. edestruct (up _ _ H0 IHacts) as (r2 & A2 & K2); [apply q_oneofm; auto|].
    exists r2. split; auto. eapply mo_alias; eauto.
  - look. seeing. eexists. split; [eapply mo_improper; [eauto| |]|apply alike_refl].
    + intros is ->. inversion K; subst; try discriminate. eapply H0; reflexivity.
    + intros n l ->. inversion K; subst; try discriminate. eapply H1; reflexivity.
  - eexists. split; [constructor|cbn; auto].
  - edestruct (up _ _ H IHacts1) as (r2 & A2 & K2); [apply q_map; eauto|]. ends.
    edestruct (up _ _ H0 IHacts2) as (r3 & A3 & K3); [apply q_seqm; eauto using map_rest|].
    eexists. split; [eapply seqm_next; eauto|]. same.
  - edestruct (up _ _ H IHacts) as (r2 & A2 & K2); [apply q_map; eauto|].
    exists r2. split; auto. eapply seqm_stop; eauto. intros took rest ->. destruct r; cbn in K2; try contradiction; ends. eapply H0; reflexivity.
  - eexists. split; [constructor|cbn; auto].
  - edestruct (up _ _ H IHacts1) as (r2 & A2 & K2); [eapply member_asked; eauto|]. ends.
    edestruct (up _ _ H0 IHacts2) as (r3 & A3 & K3); [eapply (q_altm _ none); eauto using member_rest|].
    eexists. split; [eapply altm_next; eauto|]. same.
  - edestruct (up _ _ H IHacts) as (r2 & A2 & K2); [eapply member_asked; eauto|].
    exists r2. split; auto. eapply altm_stop; eauto. intros msg took rest ->. destruct r; cbn in K2; try contradiction; ends. eapply H0; reflexivity.
  - edestruct (up _ _ H IHacts) as (r2 & A2 & K2); [apply q_map; eauto|]. ends.
    eexists. split; [eapply repm_miss; eauto|cbn; auto].
  - edestruct (up _ _ H IHacts) as (r2 & A2 & K2); [apply q_map; eauto|]. ends.
    eexists. split; [eapply repm_last; eauto|cbn; auto].
  - edestruct (up _ _ H0 IHacts1) as (r2 & A2 & K2); [apply q_map; eauto|]. ends.
    edestruct (up _ _ H1 IHacts2) as (r3 & A3 & K3); [apply q_repm; eauto using map_rest|].
    eexists. split; [eapply repm_more; eauto|]. same.
  - edestruct (up _ _ H IHacts) as (r2 & A2 & K2); [apply q_map; eauto|].
    exists r2. split; auto. eapply repm_stop; eauto. intros h took rest ->. destruct r; cbn in K2; try contradiction.
    destruct (H0 _ _ _ eq_refl) as (msg & ->). destruct K2 as (_ & _ & K2). destruct h; try contradiction. eauto.
Qed.
End Swap.

(** * Verdicts *)
Lemma ruling_alike (a b : res unit) r1 r2 : ruling a = Some r1 -> ruling b = Some r2 -> alike r1 r2 -> same_verdict a b.
Proof.
  destruct a as [[]|[]|], b as [[]|[]|]; cbn; try discriminate; intros [= <-] [= <-]; cbn; auto; try contradiction; discriminate.
Qed.
Lemma verdict_alike (a b : res unit) r1 : ruling a = Some r1 -> ruling b <> None -> same_verdict a b ->
  exists r2, ruling b = Some r2 /\ alike r1 r2.
Proof.
  destruct a as [[]|[]|], b as [[]|[]|]; cbn; try discriminate; try tauto; intros [= <-] Hb S; eexists; (split; [reflexivity|]); cbn; auto; discriminate.
Qed.
Lemma ruled X lk (Hlk : forall name e, lk name = inr e -> is_fatal e = true) v t c : keys_sorted v -> ruling (val X lk v t c) <> None.
Proof.
  intros K. destruct (val_spec X lk v t c) as (n & E). pose proof (proj1 (VC X lk Hlk n) _ _ _ K _ E) as C.
  apply repV_ruling in C. rewrite C. discriminate.
Qed.

Theorem swap_val X lk1 lk2 hole inspected c t1 t2 v :
  (forall name e, lk1 name = inr e -> is_fatal e = true) -> (forall name e, lk2 name = inr e -> is_fatal e = true) ->
  swapped_rules hole inspected lk1 lk2 ->
  (forall a b, hole a b -> forall c v, keys_sorted v -> same_verdict (val X lk1 v a c) (val X lk2 v b c)) ->
  ctx_ok hole inspected c -> swap hole inspected InType t1 t2 -> keys_sorted v ->
  same_verdict (val X lk1 v t1 c) (val X lk2 v t2 c).
Proof.
  intros H1 H2 HR HV Hc S K.
  assert (HH : forall a b c v r, hole a b -> ctx_ok hole inspected c -> keys_sorted v -> acts X lk1 (AskType c a v) r ->
    answered X lk2 (AskType c b v) r).
  { intros a b c' v' r Hab _ K' A. apply acts_exact in A; auto.
    destruct (verdict_alike _ (val X lk2 v' b c') _ A) as (r2 & R2 & K2); [apply ruled; auto|apply HV; auto|].
    exists r2. split; auto. apply acts_exact; auto. }
  destruct (type_answered X lk1 H1 c t1 v K) as (r & A & _).
  destruct (up X lk1 lk2 H1 hole inspected HH _ _ A (swap_main X lk1 lk2 H1 hole inspected HR HH _ _ A) (AskType c t2 v)) as (r2 & A2 & K2).
  { constructor; auto. }
  eapply ruling_alike; [apply acts_exact in A; eauto|apply acts_exact in A2; eauto|exact K2].
Qed.

(** A type without names means the same everywhere. *)
Lemma closed_val X lk1 lk2 v t c1 c2 : closed_type t -> keys_sorted v -> val X lk1 v t c1 = val X lk2 v t c2.
Proof.
  intros Hc K. destruct (val_spec X lk1 v t c1) as (n & E). symmetry. apply (val_run X lk2 n).
  assert (L : lp (validate X (lookup_rule lk1) n v t c1) (validate X (lookup_rule lk2) n v t c2)).
  { apply (sim X (lookup_rule lk1) (lookup_rule lk2) (fun _ _ nd => closed_type nd)); auto.
    - intros a b nd nd' H Hin name M. apply (H name). eapply mentions_child; eauto.
    - intros a b nd name args H R. destruct (H name). eapply mentions_here; eauto. }
  rewrite E in L. destruct L as [L|[L|L]]; [discriminate|injection L as L; destruct (val_nopanic X lk1 v t c1 K L)|congruence].
Qed.
