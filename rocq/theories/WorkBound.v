(** Bounds on the work of a validation. *)
From Coq Require Import List Bool ZArith NArith String Lia Arith.
From Verif Require Import Base Util Data Value Convert Ivt Scalar Validate Unfold Mono Total Fun ValueOrder
  ArrayInv MapInv ConvertProofs ConvertExact NoPanic SpecBase SpecCtx SpecReach SpecConvert CtxProofs SpecVerdict
  SpecPos SpecJudge SpecPeg SpecActs JudgeProofs MapProofs PegProofs PegExact ActProofs SpecNest SpecConsume Consume Nest SpecWork WorkProofs.
Import ListNotations.

(** * Bounds *)
Section Bounds.
Variable X : ext.
Variable lk : lookup_context.
Hypothesis Hlk : forall name e, lk name = inr e -> is_fatal e = true.
Variable B : nat.

Definition dv (v : value) : Prop := fits X B v /\ keys_sorted v.
Definition da (a : list value) : Prop := List.length a <= B /\ forall v, In v a -> dv v.
Definition dm (es : entries) : Prop := List.length es <= B /\ (forall k v, In (k, v) es -> dv k /\ dv v) /\ sorted es.

Lemma da_sorted a : da a -> Forall keys_sorted a.
Proof. intros [_ H]. apply Forall_forall. intros v Hv. apply H; auto. Qed.
Lemma dm_ok es : dm es -> map_ok (WM es [[]]).
Proof.
  intros (_ & H & S). split; [|split]; cbn; auto. apply Forall_forall. intros [k v] Hv. destruct (H k v Hv) as [[] []]. split; auto.
Qed.
Lemma da_part a l : da a -> part a l -> da l.
Proof. intros [L H] [I L']. split; [lia|]. intros v Hv. apply H, I, Hv. Qed.
Lemma da_rest c m a h took rest : da a -> acts X lk (AskArr c m a) (DidA h took rest) -> da rest.
Proof. intros D A. apply acts_leaves in A; [|exact Logic.I]. cbn in A. eapply da_part; eauto. eapply part_rest; eauto. Qed.
Lemma dm_rest c m es h took rest : dm es -> acts X lk (AskMap c m es) (DidM h took rest) -> dm rest.
Proof.
  intros D A. pose proof (acts_leaves X lk _ _ A Logic.I) as P. cbn in P. apply part_rest in P as [I L].
  assert (S : sorted rest).
  { destruct (mval_spec X lk m (WM es [[]]) c) as (n & E). destruct (mval X lk m (WM es [[]]) c) as [r w'].
    destruct (proj1 (proj2 (proj2 (main X lk Hlk n))) c m (WM es [[]]) r w' (dm_ok _ D) E) as (C & Ko & _ & p & _ & S & Q).
    pose proof (acts_det _ _ _ _ A _ Q) as R. destruct Ko as (Ko & _ & _).
    destruct r as [|[]|]; cbn in R; try discriminate; inversion R; subst; auto. }
  destruct D as (L' & H & _). split; [lia|]. split; auto.
Qed.
Lemma dm_rest_one_of c name args es h took rest : dm es -> acts X lk (AskOneOfM c name args es) (DidM h took rest) -> dm rest.
Proof. intros D A. eapply dm_rest; eauto. apply m_one_of. exact A. Qed.
Lemma eaten_a c m a took rest : da a -> eats_a lk c m -> acts X lk (AskArr c m a) (DidA Matched took rest) ->
  List.length rest < List.length a.
Proof.
  intros D Ea A. destruct (acts_array X lk Hlk c m a (da_sorted _ D)) as (r & tk & rs & E & _ & Q).
  pose proof (acts_det _ _ _ _ A _ Q) as R. destruct r as [[]|[]|]; cbn in R; try discriminate. inversion R; subst.
  exact (eats_array X lk c m Ea (WA a [[]]) _ Logic.I E).
Qed.
Lemma eaten_m c m es took rest : dm es -> eats_m lk c m -> acts X lk (AskMap c m es) (DidM Matched took rest) ->
  List.length rest < List.length es.
Proof.
  intros D Ea A. destruct (acts_map X lk Hlk c m es (dm_ok _ D)) as (r & tk & rs & E & _ & Q).
  pose proof (acts_det _ _ _ _ A _ Q) as R. destruct r as [[]|[]|]; cbn in R; try discriminate. inversion R; subst.
  exact (eats_map X lk c m Ea (WM es [[]]) _ (proj2 (proj2 D)) E).
Qed.

Notation cost := (cost X lk). Notation costs := (costs X lk).
Ltac costs_inv := repeat match goal with C : costs _ _ |- _ => inversion C; subst; clear C end.
Ltac cost_inv C := let A := fresh "A" in let D := fresh "D" in inversion C as [? ? ? A D]; subst; clear C; inversion A; subst; clear A; costs_inv.


Lemma any_cost M none qs n : (forall q, In q qs -> forall n, cost q n -> n <= M) -> cost (AskAny none qs) n ->
  n <= List.length qs * (M + 1) + 1.
Proof.
  revert n. induction qs as [|q qs IH]; intros n H C; cost_inv C; cbn [List.length];
    try pose proof (H q (or_introl eq_refl) _ ltac:(eassumption));
    try pose proof (IH _ (fun q Hq => H q (or_intror Hq)) ltac:(eassumption)); lia.
Qed.
Definition cheap_a (M : nat) (c : ctx) (m : node) : Prop := forall a n, da a -> cost (AskArr c m a) n -> n <= M.
Definition cheap_m (M : nat) (f : entries -> question) : Prop := forall es n, dm es -> cost (f es) n -> n <= M.
Lemma seqa_cost M c ms : (forall m, In m ms -> cheap_a M c m) ->
  forall a n, da a -> cost (AskSeqA c ms a) n -> n <= List.length ms * (M + 1) + 1.
Proof.
  induction ms as [|m ms IH]; intros H a n D C; cost_inv C; cbn [List.length];
    try pose proof (H m (or_introl eq_refl) _ _ D ltac:(eassumption));
    try pose proof (IH (fun q Hq => H q (or_intror Hq)) _ _ (da_rest _ _ _ _ _ _ D ltac:(eassumption)) ltac:(eassumption)); lia.
Qed.
Lemma alta_cost M none c ms : (forall m, In m ms -> cheap_a M c m) ->
  forall a n, da a -> cost (AskAltA none c ms a) n -> n <= List.length ms * (M + 1) + 1.
Proof.
  induction ms as [|m ms IH]; intros H a n D C; cost_inv C; cbn [List.length];
    try pose proof (H m (or_introl eq_refl) _ _ D ltac:(eassumption));
    try pose proof (IH (fun q Hq => H q (or_intror Hq)) _ _ (da_rest _ _ _ _ _ _ D ltac:(eassumption)) ltac:(eassumption)); lia.
Qed.
Lemma seqm_cost M c ms : (forall m, In m ms -> cheap_m M (AskMap c m)) ->
  forall es n, dm es -> cost (AskSeqM c ms es) n -> n <= List.length ms * (M + 1) + 1.
Proof.
  induction ms as [|m ms IH]; intros H a n D C; cost_inv C; cbn [List.length];
    try pose proof (H m (or_introl eq_refl) _ _ D ltac:(eassumption));
    try pose proof (IH (fun q Hq => H q (or_intror Hq)) _ _ (dm_rest _ _ _ _ _ _ D ltac:(eassumption)) ltac:(eassumption)); lia.
Qed.
Lemma altm_cost M none qs : (forall f, In f qs -> cheap_m M f) -> (forall es, proper (AskAltM none qs es)) ->
  forall es n, dm es -> cost (AskAltM none qs es) n -> n <= List.length qs * (M + 1) + 1.
Proof.
  induction qs as [|f qs IH]; intros H P es n D C; cost_inv C; cbn [List.length].
  - lia.
  - pose proof (H f (or_introl eq_refl) _ _ D ltac:(eassumption)).
    assert (dm rest). { destruct (P es f (or_introl eq_refl)) as [(c & m & ->)|(c & nm & a & ->)]; [eapply dm_rest|eapply dm_rest_one_of]; eauto. }
    pose proof (IH (fun q Hq => H q (or_intror Hq)) (fun es f Hf => P es f (or_intror Hf)) _ _ ltac:(eassumption) ltac:(eassumption)). lia.
  - pose proof (H f (or_introl eq_refl) _ _ D ltac:(eassumption)). lia.
Qed.
Lemma key_cost M c key : (forall v n, dv v -> cost (AskType c key v) n -> n <= M) ->
  forall es n, (forall k v, In (k, v) es -> dv k) -> cost (AskKey c key es) n -> n <= List.length es * (M + 1) + 1.
Proof.
  intros H. induction es as [|[k v] es IH]; intros n D C; cost_inv C; cbn [List.length];
    try pose proof (H k _ (D k v (or_introl eq_refl)) ltac:(eassumption));
    try pose proof (IH _ (fun k v Hq => D k v (or_intror Hq)) ltac:(eassumption)); lia.
Qed.
Lemma repa_cost M c m : cheap_a M c m -> forall d r a n, (1 <= r)%N ->
  (r <= N.of_nat d)%N \/ (eats_a lk c m /\ List.length a < d) -> da a -> cost (AskRepA c m r a) n -> n <= d * (M + 1).
Proof.
  intros H. induction d as [|d IH]; intros r a n R L D C; [lia|].
  cost_inv C; pose proof (H _ _ D ltac:(eassumption)); try nia.
  match goal with A : acts _ _ _ (DidA Matched ?took ?rest), C : cost (AskRepA _ _ _ ?rest) _ |- _ =>
    assert ((r - 1 <= N.of_nat d)%N \/ (eats_a lk c m /\ List.length rest < d));
      [destruct L as [L|[Ea L]]; [left; lia|right; pose proof (eaten_a _ _ _ _ _ D Ea A); split; [auto|lia]]|];
    pose proof (IH (r - 1)%N rest _ ltac:(lia) ltac:(eassumption) (da_rest _ _ _ _ _ _ D A) C) end. lia.
Qed.
Lemma repm_cost M c m : cheap_m M (AskMap c m) -> forall d r es n, (1 <= r)%N ->
  (r <= N.of_nat d)%N \/ (eats_m lk c m /\ List.length es < d) -> dm es -> cost (AskRepM c m r es) n -> n <= d * (M + 1).
Proof.
  intros H. induction d as [|d IH]; intros r a n R L D C; [lia|].
  cost_inv C; pose proof (H _ _ D ltac:(eassumption)); try nia.
  match goal with A : acts _ _ _ (DidM Matched ?took ?rest), C : cost (AskRepM _ _ _ ?rest) _ |- _ =>
    assert ((r - 1 <= N.of_nat d)%N \/ (eats_m lk c m /\ List.length rest < d));
      [destruct L as [L|[Ea L]]; [left; lia|right; pose proof (eaten_m _ _ _ _ _ D Ea A); split; [auto|lia]]|];
    pose proof (IH (r - 1)%N rest _ ltac:(lia) ltac:(eassumption) (dm_rest _ _ _ _ _ _ D A) C) end. lia.
Qed.

(** ** One call *)
Lemma dv_array a : dv (VArray a) -> da a.
Proof.
  intros [F K]. apply keys_sorted_array in K. rewrite Forall_forall in K. inversion F; subst; [contradiction|].
  split; auto. intros v Hv. split; auto.
Qed.
Lemma dv_map es : dv (VMap es) -> dm es.
Proof.
  intros [F K]. apply keys_sorted_map in K as [K S]. rewrite Forall_forall in K. inversion F; subst; [contradiction|].
  split; auto. split; auto. intros k v Hv. destruct (K _ Hv). destruct (H1 k v Hv). repeat split; auto.
Qed.
Lemma dv_bytes b x w : dv (VBytes b) -> cbor_decode X b = inl x -> cbor_means x w -> dv w.
Proof.
  intros [F _] D M. split; [inversion F; subst; [contradiction|eauto]|].
  apply of_cbor_exact in M. destruct (of_cbor_spec x) as [(v' & Ev & Kv)|(msg & Ev)]; rewrite M in Ev; inversion Ev; subst; auto.
Qed.

Variable s : nat.
Hypothesis Hs : forall name def, lk name = inl def -> nsize (rd_node def) <= s.
Hypothesis HB : s <= B.
(** Generic arguments in force, here or in the contexts to return to, are no larger than [s]. *)
Inductive small : ctx -> Prop :=
| small_ctx m p d : (forall name a, gm_get name m = Some a -> nsize a <= s) -> (forall c, p = Some c -> small c) -> small (Ctx m p d).
Lemma small_initial : small initial_ctx.
Proof. constructor; discriminate. Qed.
Lemma small_lookup c name args nd' c' : small c -> nsize (NRule name args) <= s -> lookup_rule lk c name args = Ok (nd', c') ->
  nsize nd' <= s /\ small c'.
Proof.
  intros S A L. change (Datatypes.S (lsize args) <= s) in A. unfold lookup_rule in L. destruct S as [m p d Hm Hp]; cbn in L. destruct (gm_get name m) as [a|] eqn:G.
  - destruct p as [p|]; [inversion L; subst; eauto|]. unfold blank in L. destruct (inc_depth _); cbn in L; inversion L; subst.
    split; [eauto|constructor; discriminate].
  - destruct (lk name) as [def|e] eqn:K; [|discriminate]. unfold derive in L. destruct (negb _); [discriminate|].
    destruct (inc_depth _); cbn in L; inversion L; subst. split; [eauto|]. constructor.
    + intros n a0 G0. apply args_max_get in G0. pose proof (args_max_collect (rd_parms def) args). lia.
    + intros c [= <-]. constructor; auto.
Qed.

Inductive asked : call -> question -> Prop :=
| asked_type c t v : dv v -> asked (Call JType t c) (AskType c t v)
| asked_array c m a : da a -> asked (Call JArray m c) (AskArr c m a)
| asked_map c m es : dm es -> asked (Call JMap m c) (AskMap c m es)
| asked_alt c name args v : dv v -> asked (Call JAlt (NRule name args) c) (AskOneOf c name args v)
| asked_map_alt c name args es : dm es -> asked (Call JMapAlt (NRule name args) c) (AskOneOfM c name args es).
Definition cheap (M : nat) (k : call) : Prop := forall q n, asked k q -> cost q n -> n <= M.
Lemma len_lsize l : List.length l <= lsize l.
Proof. induction l as [|x l IH]; cbn; [lia|]. destruct x; cbn; lia. Qed.


Lemma alt_item M c v i : cheap M (alt_call c i) -> dv v -> forall n, cost (item_question c v i) n -> n <= M.
Proof. intros H D n C. apply (H _ n) in C; auto. destruct i; constructor; auto. Qed.
Lemma map_alt_item M c i : cheap M (map_alt_call c i) -> cheap_m M (member_question c i).
Proof. intros H es n D C. apply (H _ n) in C; auto. destruct i; constructor; auto. Qed.
Lemma fin1 M n : n <= M -> S (n + 0) <= (B + 1) * (M + 1) + 2.
Proof. nia. Qed.
Lemma fin2 M n l : n <= l * (M + 1) + 1 -> l <= B -> S (n + 0) <= (B + 1) * (M + 1) + 2.
Proof. nia. Qed.
Lemma step M k : (forall k', calls lk k k' -> cheap M k') -> modest lk B k -> nsize (c_node k) <= s -> small (c_ctx k) ->
  cheap ((B + 1) * (M + 1) + 2) k.
Proof.
  assert (LEN : forall l nd, nsize nd = S (lsize l) -> nsize nd <= s -> List.length l <= B).
  { intros l nd E L. pose proof (len_lsize l). lia. }
  intros H Mo Sz Sm q n A C. destruct A; cbn [c_node c_ctx] in *.
  - destruct t; cost_inv C; try nia.
    + eapply fin1, (H (Call JType t' c')); [apply k_rule; eauto| |eassumption]; constructor; auto.
    + eapply fin2; [eapply any_cost; [|eassumption]|rewrite map_length; eapply LEN; [|eauto]; reflexivity].
      intros q Hq m Cq. apply in_map_iff in Hq as (t & <- & Ht). eapply (H (Call JType t c)); [apply k_choice; auto| |eassumption]; constructor; auto.
    + eapply fin2; [eapply seqm_cost; [|apply dv_map; eassumption|eassumption]|eapply LEN; [|eauto]; reflexivity].
      intros m Hm es0 n0 D C. eapply (H (Call JMap m c)); [apply k_map; auto| |eassumption]; constructor; auto.
    + eapply fin2; [eapply seqa_cost; [|apply dv_array; eassumption|eassumption]|eapply LEN; [|eauto]; reflexivity].
      intros m Hm es0 n0 D C. eapply (H (Call JArray m c)); [apply k_array; auto| |eassumption]; constructor; auto.
    + eapply fin1, (H (Call JType t c)); [apply k_group; eauto| |eassumption]; constructor; auto.
    + eapply fin1, (H (Call JType t c)); [apply k_cbor; eauto| |eassumption]; constructor; eauto using dv_bytes.
    + eapply fin1, (H (Call JAlt (NRule name args) c)); [apply k_choiceify; eauto| |eassumption]; constructor; auto.
    + eapply fin2; [eapply any_cost; [|eassumption]|rewrite map_length; eapply LEN; [|eauto]; reflexivity].
      intros q Hq m Cq. apply in_map_iff in Hq as (t & <- & Ht). eapply alt_item; [|eauto|eauto]. apply H. apply k_inline; auto.
  - destruct m; cost_inv C; try nia.

    all: try (match goal with E : element_of _ = Some _ |- _ => cbn in E; try discriminate E; injection E as E; subst end;
      match goal with Cq : cost (AskType ?c0 ?t _) _, H : forall k', calls _ _ k' -> cheap _ k' |- _ =>
        eapply fin1, (H (Call JType t c0)); [solve [apply k_a_type; exact Logic.I|apply k_a_kv]| |exact Cq] end;
      constructor; match goal with D : da _ |- _ => apply D end; left; reflexivity).
    + eapply fin1, (H (Call JArray m' c')); [apply k_rule; eauto| |eassumption]; constructor; auto.
    + eapply fin2; [eapply alta_cost; [|eassumption|eassumption]|eapply LEN; [|eauto]; reflexivity].
      intros m Hm es0 n0 D C. eapply (H (Call JArray m c)); [apply k_a_choice; auto| |eassumption]; constructor; auto.
    + eapply fin2; [eapply seqa_cost; [|eassumption|eassumption]|eapply LEN; [|eauto]; reflexivity].
      intros m Hm es0 n0 D C. eapply (H (Call JArray m c)); [apply k_a_group; auto| |eassumption]; constructor; auto.
    + match goal with Cq : cost _ _ |- _ => apply (repa_cost M) with (d := B + 1) in Cq; [nia| |lia| |auto] end.
      * intros es9 n9 D C. eapply (H (Call JArray m c)); [apply k_a_occur; auto| |eassumption]; constructor; auto.
      * cbn in Mo. destruct Mo as [Mo|Mo]; [right; split; [auto|destruct H0; lia]|left; lia].
    + destruct (small_lookup _ _ _ _ _ Sm Sz ltac:(eassumption)) as (S1 & _).
      eapply fin2; [eapply seqa_cost; [|eassumption|eassumption]|eapply LEN; [|eauto]; reflexivity].
      intros m Hm es0 n0 D C. eapply (H (Call JArray m c')); [eapply k_a_unwrap; eauto| |eassumption]; constructor; auto.
  - destruct m; cost_inv C; try nia.
    + eapply fin1, (H (Call JMap m' c')); [apply k_rule; eauto| |eassumption]; constructor; auto.
    + eapply fin2; [eapply altm_cost; [|intros; apply proper_map|eassumption|eassumption]|rewrite map_length; eapply LEN; [|eauto]; reflexivity].
      intros f Hf es0 n0 D C. apply in_map_iff in Hf as (m & <- & Hm). eapply (H (Call JMap m c)); [apply k_m_choice; auto| |eassumption]; constructor; auto.
    + eapply fin2; [eapply seqm_cost; [|eassumption|eassumption]|eapply LEN; [|eauto]; reflexivity].
      intros m Hm es0 n0 D C. eapply (H (Call JMap m c)); [apply k_m_group; auto| |eassumption]; constructor; auto.
    + match goal with Cq : cost (AskKey _ _ _) _ |- _ => apply (key_cost M) in Cq end.
      * destruct H0. nia.
      * intros v9 n9 D C. eapply (H (Call JType m1 c)); [apply k_m_key| |eassumption]; constructor; auto.
      * intros k9 v9 Hk. apply (proj1 (proj2 H0)) in Hk. tauto.
    + match goal with Cq : cost (AskKey _ _ _) _ |- _ => apply (key_cost M) in Cq end.
      * match goal with Cq : cost (AskType _ ?t ?v) _, A : acts _ _ _ (Found _ _) |- _ => 
          apply found_entry in A; apply (proj1 (proj2 H0)) in A; destruct A;
          apply (H (Call JType t c) (k_m_value _ _ _ _ _) _ _ (asked_type _ _ _ ltac:(eassumption))) in Cq end. destruct H0. nia.
      * intros v9 n9 D C. eapply (H (Call JType m1 c)); [apply k_m_key| |eassumption]; constructor; auto.
      * intros k9 v9 Hk. apply (proj1 (proj2 H0)) in Hk. tauto.
    + match goal with Cq : cost _ _ |- _ => apply (repm_cost M) with (d := B + 1) in Cq; [nia| |lia| |auto] end.
      * intros es9 n9 D C. eapply (H (Call JMap m c)); [apply k_m_occur; auto| |eassumption]; constructor; auto.
      * cbn in Mo. destruct Mo as [Mo|Mo]; [right; split; [auto|destruct H0; lia]|left; lia].
    + destruct (small_lookup _ _ _ _ _ Sm Sz ltac:(eassumption)) as (S1 & _).
      eapply fin2; [eapply seqm_cost; [|eassumption|eassumption]|eapply LEN; [|eauto]; reflexivity].
      intros m Hm es0 n0 D C. eapply (H (Call JMap m c')); [eapply k_m_unwrap; eauto| |eassumption]; constructor; auto.
    + eapply fin1, (H (Call JMapAlt (NRule name args) c)); [apply k_m_choiceify; eauto| |eassumption]; constructor; auto.
    + eapply fin2; [eapply altm_cost; [|intros; apply proper_map|eassumption|eassumption]|rewrite map_length; eapply LEN; [|eauto]; reflexivity].
      intros f Hf es0 n0 D C. apply in_map_iff in Hf as (m & <- & Hm). eapply (H (Call JMap m c)); [apply k_m_inline; auto| |eassumption]; constructor; auto.
  - cost_inv C; try nia.
    + destruct (small_lookup _ _ _ _ _ Sm Sz ltac:(eassumption)) as (S1 & _).
      eapply fin2; [eapply any_cost; [|eassumption]|rewrite map_length; eapply LEN; [|eauto]; reflexivity].
      intros q Hq m Cq. apply in_map_iff in Hq as (t & <- & Ht). eapply alt_item; [|eauto|eauto]. apply H. eapply k_alt_group; eauto.
    + eapply fin1, (H (Call JAlt (NRule name' args') c')); [apply k_alt_rule; eauto| |eassumption]; constructor; auto.
  - cost_inv C; try nia.
    + destruct (small_lookup _ _ _ _ _ Sm Sz ltac:(eassumption)) as (S1 & _).
      eapply fin2; [eapply altm_cost; [|intros; apply proper_items|eassumption|eassumption]|rewrite map_length; eapply LEN; [|eauto]; reflexivity].
      intros f Hf. apply in_map_iff in Hf as (t & <- & Ht). eapply map_alt_item. apply H. eapply k_map_alt_group; eauto.
    + eapply fin1, (H (Call JMapAlt (NRule name' args') c')); [apply k_alt_rule; eauto| |eassumption]; constructor; auto.
Qed.

Lemma in_small l nd m : nsize nd = S (lsize l) -> In m l -> nsize nd <= s -> nsize m <= s.
Proof. intros E H L. apply lsize_in in H. lia. Qed.
Lemma alt_small c m : nsize m <= s -> nsize (c_node (alt_call c m)) <= s /\ c_ctx (alt_call c m) = c.
Proof. intros H. destruct m; cbn [alt_call c_node c_ctx]; split; auto. cbn in H. lia. Qed.
Lemma map_alt_small c m : nsize m <= s -> nsize (c_node (map_alt_call c m)) <= s /\ c_ctx (map_alt_call c m) = c.
Proof. intros H. destruct m; cbn [map_alt_call c_node c_ctx]; split; auto. cbn in H. lia. Qed.
Lemma calls_small k k' : calls lk k k' -> nsize (c_node k) <= s -> small (c_ctx k) -> nsize (c_node k') <= s /\ small (c_ctx k').
Proof.
  intros C Sz Sm. destruct C; cbn [c_node c_ctx] in *;
    try match goal with L : lookup_rule _ _ _ _ = Ok _ |- _ => destruct (small_lookup _ _ _ _ _ Sm Sz L) as (S1 & S2) end;
    try (split; [|solve [auto]]; first [ assumption | solve [cbn in Sz; lia] | solve [eapply in_small; [|eassumption|eassumption]; reflexivity] ]).
  - cbn in Sz. destruct H; cbn in *; split; auto; lia.
  - cbn in Sz. destruct H; cbn in *; split; auto; lia.
  - destruct (alt_small c m) as [? ->]; auto. eapply in_small; [|eassumption|eassumption]; reflexivity.
  - destruct (alt_small c' m) as [? ->]; auto. eapply in_small; [|eassumption|eassumption]; reflexivity.
  - destruct (map_alt_small c' m) as [? ->]; auto. eapply in_small; [|eassumption|eassumption]; reflexivity.
Qed.

Theorem work_bound h : forall k, (forall m k', nested (calls lk) m k k' -> m <= h /\ modest lk B k') ->
  nsize (c_node k) <= s -> small (c_ctx k) -> cheap ((B + 4) ^ (h + 1)) k.
Proof.
  induction h as [|h IH]; intros k N Sz Sm q n A C.
  - eapply Nat.le_trans; [eapply (step 0 k); eauto|cbn; nia].
    + intros k' Ck. destruct (N 1 k'); [econstructor; [eauto|constructor]|lia].
    + eapply (N 0 k). constructor.
  - eapply Nat.le_trans; [eapply (step ((B + 4) ^ (h + 1)) k); eauto|].
    + intros k' Ck. destruct (calls_small _ _ Ck Sz Sm). apply IH; auto. intros m k2 Nk.
      destruct (N (S m) k2); [econstructor; eauto|]. split; [lia|auto].
    + eapply (N 0 k). constructor.
    + replace (S h + 1) with (S (h + 1)) by lia. rewrite Nat.pow_succ_r'.
      assert (B + 4 <= (B + 4) ^ (h + 1)). { replace (h + 1) with (S h) by lia. rewrite Nat.pow_succ_r'. pose proof (Nat.pow_nonzero (B + 4) h ltac:(lia)). nia. }
      nia.
Qed.
End Bounds.
