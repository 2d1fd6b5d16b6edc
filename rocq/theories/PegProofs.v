(** The implementation follows the ordered-choice reading. *)
From Coq Require Import List Bool ZArith NArith String Lia Arith Permutation.
From Verif Require Import Base Util Data Value Convert Ivt Scalar Validate Unfold Mono Fun ValueOrder
  ArrayInv MapInv ConvertProofs NoPanic SpecCtx CtxProofs SpecBase SpecData MapProofs SpecVerdict SpecConvert ConvertExact SpecJudge JudgeProofs SpecPeg.
Import ListNotations.

(** * The ordered-choice reading is deterministic *)
Ltac use_ih := repeat match goal with
  | IH : forall o, peg ?X ?lk ?q o -> ?a = o, H : peg ?X ?lk ?q ?b |- _ => apply IH in H
  | H : RestA _ = RestA _ |- _ => inversion H; clear H; subst
  | H : RestM _ = RestM _ |- _ => inversion H; clear H; subst
  | H : Entry _ _ _ = Entry _ _ _ |- _ => inversion H; clear H; subst
  | H : _ \/ (exists _, _) |- _ => destruct H as [H|(? & H)]; try discriminate H
  end.
Ltac no_leaf := match goal with J : judges _ _ _ _ _ _ |- _ => apply judges_leaf in J; cbn in J; discriminate J end.
Lemma peg_det X lk q o1 : peg X lk q o1 -> forall o2, peg X lk q o2 -> o1 = o2.
Proof.
  induction 1; intros o2 H2; inversion H2; subst; try no_leaf; use_ih; subst; cbn in *; try congruence;
    try discriminate; try (exfalso; congruence); try lia;
    try match goal with
    | J : judges _ _ _ _ _ _, J' : judges _ _ _ _ _ _ |- _ => rewrite (judges_det _ _ _ _ _ _ J _ J'); reflexivity
    end;
    try match goal with
    | H : lookup_rule lk ?c ?n ?a = _, H' : lookup_rule lk ?c ?n ?a = _ |- _ =>
        rewrite H in H'; inversion H'; subst; use_ih; subst; auto; try (exfalso; congruence)
    end.
  - apply judges_leaf in H. destruct t; discriminate.
  - match goal with J : judges _ _ _ _ _ _ |- _ => apply judges_leaf in J end. destruct t; discriminate.
  - match goal with D : cbor_decode X b = inl ?y, D' : cbor_decode X b = inl ?z |- _ => rewrite D in D'; inversion D'; subst end.
    match goal with M : cbor_means _ ?w, M' : cbor_means _ ?u |- _ => pose proof (cbor_means_unique _ _ _ M M'); subst end. use_ih. auto.
  - exfalso. eapply tag_means; [|eassumption]. congruence.
  - exfalso. eapply tag_means; [|eassumption]. congruence.
  - match goal with E : element_of m = Some t, E' : element_of m = Some _ |- _ => rewrite E in E'; inversion E'; subst end. use_ih. subst; auto.
Qed.

(** Leaves, by the results of the validator. *)
Lemma leaf_means X lk c t v : leaf t = true -> val X lk v t c = Ok tt -> means X lk c t (AValue v).
Proof. intros Lf E. apply mean_leaf, judges_good; auto. Qed.
Lemma leaf_yes X lk c t v : leaf t = true -> val X lk v t c = Ok tt -> peg X lk (QType c t v) Yes.
Proof. intros Lf E. apply (t_leaf X lk c t v Good), judges_good; auto. Qed.
Lemma leaf_peg X lk (Hlk : forall name e, lk name = inr e -> is_fatal e = true) c t v o :
  leaf t = true -> verdict (val X lk v t c) = Some o -> peg X lk (QType c t v) o.
Proof.
  intros Lf E. destruct (judges_total X lk c t v Lf) as (j & J). pose proof (judges_sound _ _ _ _ _ _ J) as M.
  replace o with (leaf_answer j); [apply t_leaf; auto|]. destruct j as [|m|e]; cbn in M; rewrite M in E; try (inversion E; reflexivity).
  apply faulty_fatal in J; auto. destruct e; try discriminate J; inversion E; reflexivity.
Qed.

(** * What is left was there before *)
Section Rest.
Variable X : ext.
Variable lk : lookup_context.
Notation peg := (peg X lk).
Lemma keys_app p q : keys (p ++ q) = keys p ++ keys q.
Proof. apply map_app. Qed.
Lemma keys_perm es es' : Permutation es es' -> Permutation (keys es) (keys es').
Proof. apply Permutation_map. Qed.
Lemma keys_in_perm es es' k : Permutation es es' -> In k (keys es) -> In k (keys es').
Proof. intros P H. eapply Permutation_in; [apply keys_perm; eauto|auto]. Qed.
Lemma nodup_app_l {A} (l l' : list A) : NoDup (l ++ l') -> NoDup l.
Proof. induction l as [|x l IH]; cbn; [constructor|]. inversion 1; subst. constructor; auto. rewrite in_app_iff in H2. tauto. Qed.
Lemma nodup_app_r {A} (l l' : list A) : NoDup (l ++ l') -> NoDup l'.
Proof. induction l as [|x l IH]; cbn; auto. inversion 1; subst. auto. Qed.
Lemma nodup_rest es p es' : Permutation es (p ++ es') -> NoDup (keys es) -> NoDup (keys es').
Proof.
  intros P N. eapply Permutation_NoDup in N; [|apply keys_perm; exact P]. rewrite keys_app in N. eapply nodup_app_r; eauto.
Qed.
Definition left0 (q : query) (o : answer) : Prop :=
  match q, o with
  | QMap _ _ es, RestM es' | QSeqM _ _ es, RestM es' | QOneOfM _ _ _ es, RestM es' | QRepM _ _ _ es, CountM _ es' =>
      exists p, Permutation es (p ++ es')
  | QKey _ _ es, Entry k v others => Permutation es ((k, v) :: others)
  | QMap _ _ _, CountM _ _ | QSeqM _ _ _, CountM _ _ | QOneOfM _ _ _ _, CountM _ _ | QRepM _ _ _ _, RestM _
  | QType _ _ _, RestM _ | QOneOf _ _ _ _, RestM _ | QType _ _ _, CountM _ _ | QOneOf _ _ _ _, CountM _ _
  | QArr _ _ _, RestM _ | QSeqA _ _ _, RestM _ | QRepA _ _ _ _, RestM _
  | QArr _ _ _, CountM _ _ | QSeqA _ _ _, CountM _ _ | QRepA _ _ _ _, CountM _ _ => False
  | _, _ => True
  end.
Definition leftq (q : query) (o : answer) : Prop :=
  match q with
  | QAny qs => o = No \/ o = Cut \/ (exists e, o = Bad e) \/ exists q', In q' qs /\ left0 q' o
  | _ => left0 q o
  end.
Lemma leftq_0 q o : leftq q o -> left0 q o.
Proof. destruct q; cbn; auto. Qed.
Lemma peg_left q o : peg q o -> leftq q o.
Proof.
  induction 1; try exact I;
    try (match goal with IH : leftq (QAny _) _ |- _ => cbn [leftq] in IH; destruct IH as [->|[->|[(e & ->)|(q' & Hq & H2)]]]; try exact I;
           apply in_map_iff in Hq; destruct Hq as (i & <- & Hi); destruct o; try exact I; cbn in *; solve [auto|destruct i; auto] end).
  - left; auto.
  - cbn [leftq] in *. destruct IHpeg2 as [->|[->|[(e & ->)|(q' & H1 & H2)]]]; eauto.
    right; right; right. exists q'. split; [right|]; auto.
  - cbn [leftq]. right; right; right. exists q. split; [left; auto|]. apply leftq_0; auto.
  - destruct j; exact I.
  - exact IHpeg.
  - exact IHpeg.
  - cbn in *. destruct o as [|[|? ?]|[|? ?]| | | | | |]; cbn; try exact I; try contradiction.
  - cbn in *. destruct o as [|[|? ?]|[|? ?]| | | | | |]; cbn; try exact I; try contradiction.
  - exact IHpeg.
  - exact IHpeg.
  - exact IHpeg.
  - cbn in *. destruct o; cbn; try exact I; contradiction.
  - exact IHpeg.
  - exact IHpeg.
  - exact IHpeg.
  - cbn in *. destruct o; cbn; try exact I; try contradiction. destruct (N.leb _ _); exact I.
  - exact IHpeg2.
  - exact IHpeg.
  - cbn in *. destruct o; cbn; try exact I; contradiction.
  - cbn in *. destruct o; cbn; try exact I; try contradiction; [|destruct cut; exact I].
    exists [(k, v)]. exact IHpeg1.
  - cbn. apply Permutation_refl.
  - cbn in *. destruct o; cbn in *; try exact I. rewrite IHpeg2. apply perm_swap.
  - exact IHpeg.
  - exact IHpeg.
  - exact IHpeg.
  - cbn in *. destruct o; cbn; try exact I; try contradiction. exact IHpeg.
  - cbn in *. destruct o; cbn; try exact I; try contradiction; destruct (N.leb _ _); cbn; auto.
  - exact IHpeg.
  - exists []. apply Permutation_refl.
  - cbn in *. destruct o as [| |es''| | | | | |]; try exact I; try contradiction.
    destruct IHpeg1 as (p & P1), IHpeg2 as (p2 & P2). exists (p ++ p2). rewrite <- app_assoc, <- P2. exact P1.
  - cbn in *. destruct o as [| |es''| | | | | |]; try exact I; try contradiction. exfalso; eapply H0; eauto.
  - exists []. apply Permutation_refl.
  - exists []. apply Permutation_refl.
  - cbn in *. destruct o as [| | | |k2 es''| | | |]; cbn in *; try exact I; try contradiction.
    destruct IHpeg1 as (p & P1), IHpeg2 as (p2 & P2). exists (p ++ p2). rewrite <- app_assoc, <- P2. exact P1.
  - destruct H1 as [->|(e & ->)]; exact I.
Qed.

(** Claimed keys are not left. *)
Lemma literal_key c l es o : peg (QKey c (NLiteral l) es) o ->
  match o with Entry k _ _ => k = literal_value l | No => ~ In (literal_value l) (keys es) | _ => True end.
Proof.
  assert (V : forall k o, peg (QType c (NLiteral l) k) o -> (k = literal_value l <-> o = Yes)).
  { intros k o' P. inversion P; subst; try discriminate.
    match goal with J : judges _ _ _ _ _ _ |- _ => inversion J; subst end.
    match goal with H : settles _ _ _ |- _ => rename H into Hs end. destruct Hs as [Hs|Hs]; cbn.
    - destruct Hs; split; reflexivity.
    - split; [intros ->; destruct Hs; destruct l; constructor|discriminate]. }
  revert o. induction es as [|[k v] es IH]; intros o P; inversion P; subst.
  - intros [].
  - match goal with H : peg (QType _ _ _) Yes |- _ => apply (V _ _ H); auto end.
  - match goal with H : peg (QType _ _ _) o' |- _ => apply V in H; rename H into Hv end.
    match goal with H : peg (QKey _ _ es) _ |- _ => apply IH in H; rename H into Hr end.
    destruct o0; cbn in *; auto. intros [Q|Q]; [apply Hv in Q; congruence|contradiction].
Qed.
Lemma left_keys (q : query) (es es' : entries) p k : Permutation es (p ++ es') -> In k (keys es') -> In k (keys es).
Proof. intros P H. eapply keys_in_perm; [symmetry; exact P|]. rewrite keys_app. apply in_app_iff; auto. Qed.
Lemma once_no c m k : claims_once lk c m k -> forall es, peg (QMap c m es) No -> ~ In k (keys es).
Proof.
  induction 1 as [c l t|c name args m' c' k E H IH]; intros es P Hk; inversion P; subst; try discriminate.
  - match goal with H : peg (QKey _ _ _) No |- _ => apply literal_key in H; auto end.
  - destruct o; try discriminate.
  - match goal with H1 : lookup_rule lk _ _ _ = _, H2 : lookup_rule lk _ _ _ = _ |- _ => rewrite H1 in H2; inversion H2; subst end. eapply IH; eauto.
Qed.
Lemma entry_rest c l t es es' : peg (QMap c (NKeyValue (NLiteral l) t true) es) (RestM es') -> NoDup (keys es) -> ~ In (literal_value l) (keys es').
Proof.
  intros P N Hk. inversion P; subst; try discriminate. destruct o; try discriminate;
    try (match goal with H : peg (QType _ _ _) (RestM _) |- _ => apply peg_left in H; contradiction end).
  match goal with H : entry_done _ _ _ = _ |- _ => inversion H; subst end.
  match goal with H : peg (QKey _ _ _) _ |- _ => pose proof (literal_key _ _ _ _ H) as Q; pose proof (peg_left _ _ H) as P1 end.
  cbn in Q, P1. subst. eapply Permutation_NoDup in N; [|apply keys_perm; exact P1]. cbn in N. inversion N; subst. contradiction.
Qed.
Lemma once_rest c m k : claims_once lk c m k -> forall es es', peg (QMap c m es) (RestM es') -> NoDup (keys es) -> ~ In k (keys es').
Proof.
  induction 1 as [c l t|c name args m' c' k E H IH]; intros es es' P N; [eapply entry_rest; eauto|].
  inversion P; subst; try discriminate.
  match goal with H1 : lookup_rule lk _ _ _ = _, H2 : lookup_rule lk _ _ _ = _ |- _ => rewrite H1 in H2; inversion H2; subst end. eapply IH; eauto.
Qed.
Lemma seq_rest c ms m k : In m ms ->
  (forall es es', peg (QMap c m es) (RestM es') -> NoDup (keys es) -> ~ In k (keys es')) ->
  forall es es', peg (QSeqM c ms es) (RestM es') -> NoDup (keys es) -> ~ In k (keys es').
Proof.
  intros Hm H. induction ms as [|m1 ms IH]; [contradiction|]. intros es es' P N Hk. inversion P; subst.
  - match goal with H : peg (QMap _ _ _) _ |- _ => pose proof (peg_left _ _ H) as (p1 & P1); rename H into Pm end.
    match goal with H : peg (QSeqM _ _ _) _ |- _ => pose proof (peg_left _ _ H) as (p2 & P2); rename H into Ps end.
    destruct Hm as [->|Hm].
    + eapply H; eauto. eapply left_keys; eauto. exact (QSeqM c ms es'0).
    + eapply IH; eauto. eapply nodup_rest; eauto.
  - match goal with H : forall _, _ <> _ |- _ => eapply H; reflexivity end.
Qed.
Lemma rep_rest c m k : claims_once lk c m k -> forall up es n es', (1 <= up)%N -> peg (QRepM c m up es) (CountM n es') -> NoDup (keys es) ->
  ~ In k (keys es').
Proof.
  intros C up es n es' Hu P N Hk. inversion P; subst; try lia.
  - eapply once_no; eauto.
  - match goal with H : peg (QMap _ _ _) _ |- _ => pose proof (peg_left _ _ H) as (p1 & P1); rename H into Pm end.
    match goal with H : peg (QRepM _ _ _ _) _ |- _ => pose proof (peg_left _ _ H) as P2 end.
    destruct o; try discriminate. match goal with H : one_more _ = _ |- _ => inversion H; subst end. destruct P2 as (p2 & P2).
    eapply once_rest; eauto. eapply left_keys; eauto. exact (QMap c m es).
  - match goal with H : _ \/ _ |- _ => destruct H as [H|(e & H)]; discriminate end.
Qed.
Lemma claims_rest c m k : claims lk c m k -> forall es es', peg (QMap c m es) (RestM es') -> NoDup (keys es) -> ~ In k (keys es').
Proof.
  induction 1 as [c l t|c name args m' c' k E H IH|c ms m k Hm H IH|c name args ms c' m k E Hm H IH|c l m k Hu H]; intros es es' P N.
  - eapply entry_rest; eauto.
  - inversion P; subst; try discriminate.
    match goal with H1 : lookup_rule lk _ _ _ = _, H2 : lookup_rule lk _ _ _ = _ |- _ => rewrite H1 in H2; inversion H2; subst end. eapply IH; eauto.
  - inversion P; subst; try discriminate. destruct o; try discriminate. match goal with H : end_cut _ = _ |- _ => inversion H; subst end.
    eapply seq_rest; eauto.
  - inversion P; subst; try discriminate;
      match goal with H1 : lookup_rule lk _ _ _ = _, H2 : lookup_rule lk _ _ _ = _ |- _ => rewrite H1 in H2; inversion H2; subst end.
    eapply seq_rest; eauto.
  - inversion P; subst; try discriminate.
    destruct o as [| | | |n0 es2| | | |]; try discriminate.
    + match goal with H : peg (QRepM _ _ _ _) _ |- _ => apply peg_left in H; contradiction end.
    + cbn in *. destruct (N.leb _ _); discriminate.
    + cbn in *. destruct (N.leb _ _); try discriminate. match goal with H : RestM _ = RestM _ |- _ => inversion H; subst end. eapply rep_rest; eauto.
Qed.
End Rest.

(** * What the ordered-choice reading accepts is described by the schema *)
Section Sound.
Variable X : ext.
Variable lk : lookup_context.
Notation means := (means X lk).

Definition ok0 (q : query) (o : answer) : Prop :=
  match q with QAny _ => True | _ =>
  match o with
  | No | Cut | Bad _ => True
  | Yes =>
      match q with
      | QType c t v => means c t (AValue v)
      | QOneOf c n a v => one_of X lk c n a (AValue v)
      | _ => False
      end
  | RestA a' =>
      match q with
      | QArr c m a => exists p, a = p ++ a' /\ means c m (AList p)
      | QSeqA c ms a => exists ps, a = List.concat ps ++ a' /\ Forall2 (fun m p => means c m (AList p)) ms ps
      | _ => False
      end
  | RestM es' =>
      match q with
      | QMap c m es => exists p, Permutation es (p ++ es') /\ means c m (ASet p)
      | QSeqM c ms es => exists ps, Permutation es (List.concat ps ++ es') /\ Forall2 (fun m p => means c m (ASet p)) ms ps /\
          respects lk c ms ps
      | QOneOfM c n a es => exists p, Permutation es (p ++ es') /\ one_of X lk c n a (ASet p)
      | _ => False
      end
  | CountA k a' =>
      match q with
      | QRepA c m up a => exists ps, a = List.concat ps ++ a' /\ k = N.of_nat (List.length ps) /\ (k <= up)%N /\
          Forall (fun p => means c m (AList p)) ps
      | _ => False
      end
  | CountM k es' =>
      match q with
      | QRepM c m up es => exists ps, Permutation es (List.concat ps ++ es') /\ k = N.of_nat (List.length ps) /\ (k <= up)%N /\
          Forall (fun p => means c m (ASet p)) ps
      | _ => False
      end
  | Entry k v others =>
      match q with
      | QKey c key es => Permutation es ((k, v) :: others) /\ means c key (AValue k)
      | _ => False
      end
  end end.
Definition okq (q : query) (o : answer) : Prop :=
  match q with
  | QAny qs => o = No \/ o = Cut \/ (exists e, o = Bad e) \/ exists q', In q' qs /\ ok0 q' o
  | _ => ok0 q o
  end.
Lemma okq_ok0 q o : okq q o -> ok0 q o.
Proof. destruct q; cbn; auto. Qed.

Lemma perm_step {A} (es p es' q es'' : list A) : Permutation es (p ++ es') -> Permutation es' (q ++ es'') ->
  Permutation es ((p ++ q) ++ es'').
Proof. intros H1 H2. rewrite <- app_assoc. rewrite <- H2. exact H1. Qed.

Lemma item_any c v i : ok0 (one_of_item c v i) Yes -> item_means X lk c i (AValue v).
Proof.
  destruct i; cbn; intros H; try (apply item_plain; [exact I|exact H]); [apply item_name|apply item_value]; auto.
Qed.
Lemma item_any_m c es i es' :
  ok0 (one_of_member c es i) (RestM es') -> exists p, Permutation es (p ++ es') /\ item_means X lk c i (ASet p).
Proof.
  destruct i; cbn; intros (q & H1 & H2); exists q; (split; [exact H1|]);
    try (apply item_plain; [exact I|exact H2]); [apply item_name|apply item_value]; auto.
Qed.
Lemma any_cases {A} (f : A -> query) l o (P : Prop) : okq (QAny (map f l)) o ->
  (match o with No | Cut | Bad _ => True | _ => False end -> P) -> (forall x, In x l -> ok0 (f x) o -> P) -> P.
Proof.
  intros [->|[->|[(e & ->)|(q' & H1 & H2)]]] Hn Hy; auto.
  apply in_map_iff in H1. destruct H1 as (x & <- & H1). eauto.
Qed.

Lemma item_only_yes c v i o : ok0 (one_of_item c v i) o -> match o with Yes | No | Cut | Bad _ => True | _ => False end.
Proof. destruct i, o; cbn; auto. Qed.
Lemma item_only_rest c es i o : ok0 (one_of_member c es i) o -> match o with RestM _ | No | Cut | Bad _ => True | _ => False end.
Proof. destruct i, o; cbn; auto. Qed.

(** Data without repeated keys. *)
Definition okE (es : entries) : Prop := NoDup (keys es) /\ Forall (fun p => keys_sorted (fst p) /\ keys_sorted (snd p)) es.
Definition okd0 (q : query) : Prop :=
  match q with
  | QType _ _ v | QOneOf _ _ _ v => keys_sorted v
  | QArr _ _ a | QSeqA _ _ a | QRepA _ _ _ a => Forall keys_sorted a
  | QMap _ _ es | QSeqM _ _ es | QRepM _ _ _ es | QKey _ _ es | QOneOfM _ _ _ es => okE es
  | QAny _ => False
  end.
Definition okd (q : query) : Prop :=
  match q with QAny qs => forall q', In q' qs -> okd0 q' | _ => okd0 q end.
Lemma okd_of0 q : okd0 q -> okd q.
Proof. destruct q; cbn; auto. contradiction. Qed.
Lemma okE_rest es p es' : Permutation es (p ++ es') -> okE es -> okE es'.
Proof.
  intros P [N F]. split; [eapply nodup_rest; eauto|]. rewrite Forall_forall in *. intros x Hx. apply F.
  apply (Permutation_in _ (Permutation_sym P)), in_app_iff; auto.
Qed.
Lemma item_okd c v i : keys_sorted v -> okd0 (one_of_item c v i).
Proof. destruct i; auto. Qed.
Lemma member_okd c es i : okE es -> okd0 (one_of_member c es i).
Proof. destruct i; auto. Qed.

Ltac same D := first [exact D
  |let q' := fresh in let Hq := fresh in intros q' Hq; apply in_map_iff in Hq; destruct Hq as (? & <- & ?);
   first [exact D|apply item_okd; exact D|apply member_okd; exact D]].
Lemma peg_sound_q q o : peg X lk q o -> okd q -> okq q o.
Proof.
  induction 1; intros D; try exact I; try (specialize (IHpeg ltac:(same D))).
  - (* any_none *) left; auto.
  - (* any_next *) specialize (IHpeg2 (fun q' Hq => D q' (or_intror Hq))). cbn [okq] in *. destruct IHpeg2 as [->|[->|[(e & ->)|(q' & H1 & H2)]]]; eauto.
    right; right; right. exists q'. split; [right|]; auto.
  - (* any_first *) cbn [okq]. right; right; right. exists q. split; [left; auto|]. apply okq_ok0. apply IHpeg, okd_of0, D. left; auto.
  - (* t_leaf *) destruct j; cbn; auto. apply mean_leaf; auto.
  - cbn in *. destruct o; try exact I; try contradiction. eapply mean_name; eauto.
  - eapply any_cases; [exact IHpeg| |].
    + destruct o; cbn; auto; contradiction.
    + intros t Ht A. cbn in *. destruct o; try exact I; try contradiction. eapply mean_choice; eauto.
  - cbn in *. destruct o; try exact I; try contradiction. apply mean_parens; auto.
  - (* t_array *) specialize (IHpeg (proj1 (keys_sorted_array _) D)). cbn in *. destruct o as [|a'| | | | | | |]; cbn; try exact I; try contradiction.
    destruct a'; cbn; auto. destruct IHpeg as (ps & -> & F). rewrite app_nil_r. apply mean_array; auto.
  - (* t_map *) apply keys_sorted_map in D. destruct D as [Df Ds].
    specialize (IHpeg (conj (sorted_nodup _ Ds) Df)). cbn in *. destruct o as [| |es'| | | | | |]; cbn; try exact I; try contradiction.
    destruct es'; cbn; auto. destruct IHpeg as (ps & Pm & F & Rs). rewrite app_nil_r in Pm. eapply mean_map; eauto.
  - assert (Kv : keys_sorted v) by (apply of_cbor_exact in H0; destruct (of_cbor_spec x) as [(v' & Ev & Kv)|(msg & Ev)]; rewrite H0 in Ev; inversion Ev; subst; auto).
    specialize (IHpeg Kv). cbn in *. destruct o; try exact I; try contradiction. eapply mean_cbor; eauto.
  - cbn in *. destruct o; try exact I; try contradiction. apply mean_one_of; auto.
  - eapply any_cases; [exact IHpeg| |].
    + destruct o; cbn; auto; contradiction.
    + intros i Hi A. pose proof (item_only_yes _ _ _ _ A). destruct o; try exact I; try contradiction.
      cbn. eapply mean_inline; eauto. apply item_any; auto.
  - eapply any_cases; [exact IHpeg| |].
    + destruct o; cbn; auto; contradiction.
    + intros i Hi A. pose proof (item_only_yes _ _ _ _ A). destruct o; try exact I; try contradiction.
      cbn. eapply one_of_group; eauto. apply item_any; auto.
  - cbn in *. destruct o; try exact I; try contradiction. eapply one_of_alias; eauto.
  - (* a_element *) assert (Kv : keys_sorted v) by (inversion D; auto). specialize (IHpeg Kv). cbn in *. destruct o; cbn; try exact I; try contradiction.
    exists [v]. split; auto. eapply mean_element; eauto.
  - cbn in *. destruct o as [|a'| | | | | | |]; try exact I; try contradiction.
    destruct IHpeg as (p & -> & M). exists p. split; auto. eapply mean_name; eauto.
  - cbn in *. destruct o as [|a'| | | | | | |]; try exact I; try contradiction.
    destruct IHpeg as (ps & -> & F). eexists. split; [reflexivity|]. eapply mean_unwrap; eauto.
  - eapply any_cases; [exact IHpeg| |].
    + destruct o; cbn; auto; contradiction.
    + intros t Ht A. cbn in *. destruct o; try exact I; try contradiction.
      destruct A as (p & -> & M). exists p. split; auto. eapply mean_choice; eauto.
  - cbn in *. destruct o as [|a'| | | | | | |]; try exact I; try contradiction.
    destruct IHpeg as (ps & -> & F). eexists. split; [reflexivity|]. apply mean_group; auto.
  - cbn in *. destruct o as [| | |k a'| | | | |]; cbn; try exact I; try contradiction.
    destruct IHpeg as (ps & -> & -> & L & F). destruct (N.leb_spec (fst (bounds l)) (N.of_nat (List.length ps))); cbn; auto.
    eexists. split; [reflexivity|]. apply mean_occur; auto.
  - cbn. exists []. split; auto.
  - specialize (IHpeg1 D). cbn in IHpeg1. destruct IHpeg1 as (p & -> & M). apply Forall_app in D. specialize (IHpeg2 (proj2 D)).
    cbn in *. destruct o as [|a''| | | | | | |]; try exact I; try contradiction.
    destruct IHpeg2 as (ps & -> & F). exists (p :: ps). cbn.
    split; [rewrite app_assoc; auto|constructor; auto].
  - cbn in *. destruct o as [|a''| | | | | | |]; try exact I; try contradiction. exfalso; eapply H0; eauto.
  - cbn. exists []. repeat split; auto. lia.
  - cbn. exists []. repeat split; auto. lia.
  - specialize (IHpeg1 D). cbn in IHpeg1. destruct IHpeg1 as (p & -> & M). apply Forall_app in D. specialize (IHpeg2 (proj2 D)).
    cbn in *. destruct o as [| | |k a''| | | | |]; cbn; try exact I; try contradiction.
    destruct IHpeg2 as (ps & -> & -> & L & F). exists (p :: ps). cbn [List.concat List.length].
    split; [rewrite app_assoc; auto|]. split; [lia|]. split; [lia|constructor; auto].
  - (* m_entry *) specialize (IHpeg1 D). pose proof (peg_left X lk _ _ H) as Pl. cbn in Pl.
    assert (Kv : keys_sorted v) by (destruct D as [_ Df]; rewrite Forall_forall in Df; apply (Df (k, v)), (Permutation_in _ (Permutation_sym Pl)); left; auto).
    specialize (IHpeg2 Kv). cbn in *. destruct o; cbn; try exact I; try contradiction; [|destruct cut; exact I].
    destruct IHpeg1 as [Pm M]. exists [(k, v)]. split; auto. apply mean_entry; auto.
  - cbn in *. split; auto. apply IHpeg. destruct D as [_ Df]. inversion Df; subst. tauto.
  - assert (De : okE es) by (apply (okE_rest _ [(k, v)] es (Permutation_refl _) D)). specialize (IHpeg2 De).
    cbn in *. destruct o as [| | | | |k' v' es'| | |]; cbn; try exact I; try contradiction.
    destruct IHpeg2 as [Pm M]. split; auto. rewrite Pm. apply perm_swap.
  - cbn in *. destruct o as [| |es'| | | | | |]; try exact I; try contradiction.
    destruct IHpeg as (p & Pm & M). exists p. split; auto. eapply mean_name; eauto.
  - cbn in *. destruct o as [| |es'| | | | | |]; try exact I; try contradiction.
    destruct IHpeg as (ps & Pm & F & Rs). eexists. split; [exact Pm|]. eapply mean_unwrap_entries; eauto.
  - eapply any_cases; [exact IHpeg| |].
    + destruct o; cbn; auto; contradiction.
    + intros t Ht A. cbn in *. destruct o; try exact I; try contradiction.
      destruct A as (p & Pm & M). exists p. split; auto. eapply mean_choice; eauto.
  - eapply any_cases; [exact IHpeg| |].
    + destruct o; cbn; auto; contradiction.
    + intros t Ht A. cbn in *. destruct o; try exact I; try contradiction.
      destruct A as (p & Pm & M). exists p. split; auto. eapply mean_inline_entries; eauto.
  - cbn in *. destruct o as [| |es'| | | | | |]; try exact I; try contradiction.
    destruct IHpeg as (p & Pm & M). exists p. split; auto. apply mean_one_of_entries; auto.
  - cbn in *. destruct o as [| |es'| | | | | |]; cbn; try exact I; try contradiction.
    destruct IHpeg as (ps & Pm & F & Rs). eexists. split; [exact Pm|]. eapply mean_group_entries; eauto.
  - cbn in *. destruct o as [| | | |k es'| | | |]; cbn; try exact I; try contradiction.
    destruct IHpeg as (ps & Pm & -> & L & F). destruct (N.leb_spec (fst (bounds l)) (N.of_nat (List.length ps))); cbn; auto.
    eexists. split; [exact Pm|]. eapply mean_occur_entries; eauto.
  - eapply any_cases; [exact IHpeg| |].
    + destruct o; cbn; auto; contradiction.
    + intros i Hi A. pose proof (item_only_rest _ _ _ _ A). destruct o; try exact I; try contradiction.
      apply item_any_m in A. destruct A as (p & Pm & M). cbn. exists p. split; auto. eapply one_of_group; eauto.
  - cbn in *. destruct o as [| |es'| | | | | |]; try exact I; try contradiction.
    destruct IHpeg as (p & Pm & M). exists p. split; auto. eapply one_of_alias; eauto.
  - cbn. exists []. repeat split; auto.
  - specialize (IHpeg1 D). cbn in IHpeg1. destruct IHpeg1 as (p & Pm & M). specialize (IHpeg2 (okE_rest _ _ _ Pm D)).
    cbn in *. destruct o as [| |es''| | | | | |]; try exact I; try contradiction.
    destruct IHpeg2 as (ps & Pm2 & F & Rs). exists (p :: ps). cbn.
    split; [eapply perm_step; eauto|]. split; [constructor; auto|]. split; auto.
    intros k Ck Hk. destruct D as [Dn _]. eapply claims_rest; eauto. eapply keys_in_perm; [symmetry; exact Pm2|].
    rewrite keys_app. apply in_app_iff; auto.
  - cbn in *. destruct o as [| |es''| | | | | |]; try exact I; try contradiction. exfalso; eapply H0; eauto.
  - cbn. exists []. repeat split; auto. lia.
  - cbn. exists []. repeat split; auto. lia.
  - specialize (IHpeg1 D). cbn in IHpeg1. destruct IHpeg1 as (p & Pm & M). specialize (IHpeg2 (okE_rest _ _ _ Pm D)).
    cbn in *. destruct o as [| | | |k es''| | | |]; cbn; try exact I; try contradiction.
    destruct IHpeg2 as (ps & Pm2 & -> & L & F). exists (p :: ps). cbn [List.concat List.length].
    split; [eapply perm_step; eauto|]. split; [lia|]. split; [lia|constructor; auto].
  - cbn. destruct H1 as [->|(e & ->)]; exact I.
Qed.
Theorem peg_sound c t v : keys_sorted v -> peg X lk (QType c t v) Yes -> means c t (AValue v).
Proof. intros K H. exact (peg_sound_q _ _ H K). Qed.
End Sound.
