(** [&] offers exactly the members of a group; laws of choices. *)
From Coq Require Import List Bool ZArith NArith String Lia Arith Permutation.
From Verif Require Import Base Util Data Value Convert Ivt Scalar Validate Unfold Mono Total Fun
  SpecBase SpecCtx SpecVerdict ConvertProofs NoPanic CtxProofs ReachProofs SpecChoose.
Import ListNotations.

(** * Nested choices *)
(** Same verdict, same remaining data. *)
Definition same_outcome {St} (a b : res unit * St) : Prop :=
  snd a = snd b /\
  match fst a, fst b with
  | Ok _, Ok _ | Panic, Panic => True
  | Err e1, Err e2 => error_kind e1 = error_kind e2
  | _, _ => False
  end.
Lemma same_outcome_refl {St} (a : res unit * St) : same_outcome a a.
Proof. split; auto. destruct (fst a); auto. Qed.
Lemma tries_final {St} stop (f : node -> St -> res unit * St) os fin fin' s :
  error_kind fin = error_kind fin' -> same_outcome (tries stop f os fin s) (tries stop f os fin' s).
Proof.
  intros H. revert s; induction os as [|o os IH]; intros s; cbn; [split; auto|].
  destruct (f o s) as [[u|e|] s']; try apply same_outcome_refl. destruct (stop e); auto. apply same_outcome_refl.
Qed.
Lemma tries_nested {St} stop (f : node -> St -> res unit * St) pre x os post fin fin' inner s :
  (forall s, f x s = tries stop f os inner s) -> stop inner = false -> error_kind fin = error_kind fin' ->
  same_outcome (tries stop f (pre ++ x :: post) fin s) (tries stop f (pre ++ os ++ post) fin' s).
Proof.
  intros Hx Hi Hf. revert s; induction pre as [|o pre IH]; intros s; cbn.
  - rewrite Hx. clear Hx. revert s. induction os as [|o os IHo]; intros s; cbn.
    + rewrite Hi. apply tries_final; auto.
    + destruct (f o s) as [[u|e|] s']; try apply same_outcome_refl.
      destruct (stop e) eqn:E; auto. rewrite E. apply same_outcome_refl.
  - destruct (f o s) as [[u|e|] s']; try apply same_outcome_refl. destruct (stop e); auto. apply same_outcome_refl.
Qed.
Lemma tries_pure_nested stop (f : node -> res unit) pre x os post fin fin' inner :
  f x = tries_pure stop f os inner -> stop inner = false -> error_kind fin = error_kind fin' ->
  same_outcome (tries_pure stop f (pre ++ x :: post) fin, tt) (tries_pure stop f (pre ++ os ++ post) fin', tt).
Proof.
  intros Hx Hi Hf. assert (Fin : forall l, same_outcome (tries_pure stop f l fin, tt) (tries_pure stop f l fin', tt)).
  { induction l as [|o l IH]; cbn; [split; auto|]. destruct (f o); try apply same_outcome_refl.
    destruct (stop e); auto. apply same_outcome_refl. }
  induction pre as [|o pre IH]; cbn.
  - rewrite Hx. clear Hx. induction os as [|o os IHo]; cbn.
    + rewrite Hi. auto.
    + destruct (f o) as [u|e|]; try apply same_outcome_refl.
      destruct (stop e) eqn:E; auto. rewrite E. apply same_outcome_refl.
  - destruct (f o) as [u|e|]; try apply same_outcome_refl. destruct (stop e); auto. apply same_outcome_refl.
Qed.

Section Laws.
Variable X : ext.
Variable lk : lookup_context.

Theorem nested_type v pre os post c : keys_sorted v ->
  same_verdict (val X lk v (NChoice (pre ++ NChoice os :: post)) c) (val X lk v (NChoice (pre ++ os ++ post)) c).
Proof.
  intros K. pose proof (val_nopanic X lk v (NChoice (pre ++ NChoice os :: post)) c K) as N1.
  rewrite (val_eq X lk v (NChoice (pre ++ os ++ post))) . rewrite (val_eq X lk v (NChoice (pre ++ NChoice os :: post))) in *.
  destruct (tries_pure_nested is_fatal (fun o => val X lk v o c) pre (NChoice os) os post
    (choice_error (pre ++ NChoice os :: post)) (choice_error (pre ++ os ++ post)) (choice_error os)) as [_ H]; auto.
  { rewrite val_eq. auto. }
  cbn in H. destruct (tries_pure is_fatal _ _ _) as [[]|e|]; destruct (tries_pure is_fatal _ _ _) as [[]|e'|]; cbn; auto; congruence.
Qed.
Theorem nested_array pre os post w c :
  same_outcome (aval X lk (NChoice (pre ++ NChoice os :: post)) w c) (aval X lk (NChoice (pre ++ os ++ post)) w c).
Proof.
  rewrite (aval_eq X lk (NChoice (pre ++ os ++ post))), (aval_eq X lk (NChoice (pre ++ NChoice os :: post))).
  apply (tries_nested is_fatal (fun o w => aval X lk o w c) pre (NChoice os) os post _ _ (choice_error os)); auto.
  intros. rewrite aval_eq. auto.
Qed.
Theorem nested_map pre os post w c :
  same_outcome (mval X lk (NChoice (pre ++ NChoice os :: post)) w c) (mval X lk (NChoice (pre ++ os ++ post)) w c).
Proof.
  rewrite (mval_eq X lk (NChoice (pre ++ os ++ post))), (mval_eq X lk (NChoice (pre ++ NChoice os :: post))).
  apply (tries_nested (fun e => negb (is_mismatch e)) (fun o w => mval X lk o w c) pre (NChoice os) os post _ _ (choice_error os)); auto.
  intros. rewrite mval_eq. auto.
Qed.

(** One option alone. *)
Theorem single_type v o c : keys_sorted v -> (forall name e, lk name = inr e -> is_fatal e = true) ->
  same_verdict (val X lk v (NChoice [o]) c) (val X lk v o c).
Proof.
  intros K Hl. pose proof (val_nopanic X lk v o c K) as N.
  assert (NC : forall t, val X lk v o c <> Err (EMapCut t)).
  { intros t. apply no_cut_type; auto. intros name e L m ->. specialize (Hl _ _ L). discriminate. }
  rewrite (val_eq X lk v (NChoice [o])). cbn. destruct (val X lk v o c) as [[]|e|]; cbn in *; try congruence.
  destruct e; cbn; auto. exfalso; eapply NC; reflexivity.
Qed.

(** Appending options never loses a value. *)
Theorem more_options v os more c : val X lk v (NChoice os) c = Ok tt -> val X lk v (NChoice (os ++ more)) c = Ok tt.
Proof.
  rewrite !val_eq. generalize (choice_error os), (choice_error (os ++ more)). intros f1 f2.
  induction os as [|o os IH]; cbn; [discriminate|]. destruct (val X lk v o c); auto. destruct (is_fatal e); auto.
Qed.
(** The order does not matter as long as no option fails fatally. *)
Theorem reordered v os os' c : Permutation os os' ->
  (forall o, In o os -> val X lk v o c = Ok tt \/ rejected (val X lk v o c)) ->
  same_verdict (val X lk v (NChoice os) c) (val X lk v (NChoice os') c).
Proof.
  intros P H.
  assert (H' : forall o, In o os' -> val X lk v o c = Ok tt \/ rejected (val X lk v o c)).
  { intros o Ho. apply H. eapply Permutation_in; [apply Permutation_sym; exact P|exact Ho]. }
  destruct (choice_exact X lk v os c H) as [[E (o & I & A)]|[E N]]; rewrite E;
    destruct (choice_exact X lk v os' c H') as [[E' (o' & I' & A')]|[E' N']]; rewrite E'; cbn; auto.
  - destruct (N' o) as (m & R); [eapply Permutation_in; eauto|congruence].
  - destruct (N o') as (m & R); [eapply Permutation_in; [apply Permutation_sym|]; eauto|congruence].
Qed.

(** * [&] *)
Lemma leads_chval v c name args c' ms : leads_group lk c name args c' ms ->
  chval X lk name args v c = tries_pure is_fatal (choiceify_item X lk v c') ms (choiceify_error ms).
Proof. induction 1; rewrite chval_eq, H; auto. Qed.

Lemma chval_leads v c name args : chval X lk name args v c = Ok tt -> exists c' ms, leads_group lk c name args c' ms.
Proof.
  destruct (chval_spec X lk name args v c) as [n Hn]. intros E. rewrite E in Hn. clear E.
  revert c name args Hn. induction n as [|n IH]; intros c name args Hn; [discriminate|].
  rewrite validate_choiceify_S in Hn. destruct (lookup_rule lk c name args) as [[nd c1]|e|] eqn:L; try discriminate.
  destruct nd; try discriminate.
  - destruct (IH _ _ _ Hn) as (c' & ms & H). exists c', ms. eapply lg_next; eauto.
  - exists c1, members. apply lg_here; auto.
Qed.

Lemma tries_pure_found (f : node -> res unit) ms fin : tries_pure is_fatal f ms fin = Ok tt -> exists m, In m ms /\ f m = Ok tt.
Proof.
  induction ms as [|m ms IH]; cbn; [discriminate|]. destruct (f m) as [[]|e|] eqn:E; try discriminate.
  - intros _. eauto.
  - destruct (is_fatal e); [discriminate|]. intros H. destruct (IH H) as (m' & Hin & Hm). eauto.
Qed.

(** Soundness, without any assumption: recursion on the fuel of the nested [&]. *)
Lemma choose_sound n : forall v c name args, validate_choiceify X (lookup_rule lk) n name args v c = Some (Ok tt) ->
  exists c1 ms1 c' t, leads_group lk c name args c1 ms1 /\ offers lk c1 ms1 c' t /\ val X lk v t c' = Ok tt.
Proof.
  assert (TL : forall (f : node -> option (res unit)) ms fin, try_loop_pure is_fatal f ms fin = Some (Ok tt) ->
    exists m, In m ms /\ f m = Some (Ok tt)).
  { intros f ms fin. induction ms as [|m ms IH]; cbn; [discriminate|].
    destruct (f m) as [[[]|e|]|] eqn:E; try discriminate; [eauto|].
    destruct (is_fatal e); [discriminate|]. intros H. destruct (IH H) as (m' & Hin & Hm). eauto. }
  induction n as [|n IH]; intros v c name args H; [discriminate|].
  rewrite validate_choiceify_S in H. destruct (lookup_rule lk c name args) as [[nd c1]|e|] eqn:L; try discriminate.
  destruct nd; try discriminate.
  - destruct (IH _ _ _ _ H) as (c2 & ms & c' & t & H1 & H2 & H3). exists c2, ms, c', t. split; auto. eapply lg_next; eauto.
  - destruct (TL _ _ _ H) as (m & Hin & Hm).
    assert (G : leads_group lk c name args c1 members) by (apply lg_here; auto).
    destruct m;
      try (exists c1, members, c1; eexists; split; [exact G|]; split;
           [apply offer_type; [exact Hin|discriminate|discriminate]|eapply val_run; exact Hm]).
    + destruct (IH _ _ _ _ Hm) as (c2 & ms2 & c' & t & H1 & H2 & H3).
      exists c1, members, c', t. split; [exact G|]. split; auto. eapply offer_group; eauto.
    + exists c1, members, c1; eexists; split; [exact G|]; split; [eapply offer_value; exact Hin|eapply val_run; exact Hm].
Qed.

Lemma leads_fun c name args c1 ms1 : leads_group lk c name args c1 ms1 ->
  forall c2 ms2, leads_group lk c name args c2 ms2 -> c1 = c2 /\ ms1 = ms2.
Proof.
  induction 1 as [c name args c1 ms1 L|c name args ca nm ar c1 ms1 L H IH]; intros c2 ms2 H2;
    destruct H2 as [c name args c2 ms2 L2|c name args cb nm' ar' c2 ms2 L2 H2]; rewrite L in L2; inversion L2; subst; auto.
Qed.
Lemma offers_rule c name args c' t : offers lk c [NRule name args] c' t ->
  exists c1 ms1, leads_group lk c name args c1 ms1 /\ offers lk c1 ms1 c' t.
Proof.
  intros O. inversion O as [? ? ? ? ? Hin|? ? ? Hin _ Hn|? ? ? ? ? ? ? ? Hin L O']; subst; destruct Hin as [Hin|[]]; try discriminate.
  - subst. exfalso. eapply Hn; reflexivity.
  - inversion Hin; subst. eauto.
Qed.

(** Exactness when every name leads to a group and no offered type fails fatally. *)
Lemma choose_exact v : forall c ms, groups_only lk c ms ->
  (forall c' t, offers lk c ms c' t -> val X lk v t c' = Ok tt \/ rejected (val X lk v t c')) ->
  forall fin, is_mismatch fin = true ->
  decides (exists c' t, offers lk c ms c' t /\ val X lk v t c' = Ok tt)
    (tries_pure is_fatal (choiceify_item X lk v c) ms fin).
Proof.
  fix IH 3. intros c ms [c0 ms0 H] D fin Hfin.
  (* what one item decides *)
  assert (Item : forall m, In m ms0 -> exists P : Prop, decides P (choiceify_item X lk v c0 m) /\
    (P -> exists c' t, offers lk c0 ms0 c' t /\ val X lk v t c' = Ok tt) /\
    ((exists c' t, offers lk c0 [m] c' t /\ val X lk v t c' = Ok tt) -> P)).
  { intros m Hin.
    assert (Plain : forall t, (forall cc, offers lk c0 [m] cc t -> cc = c0) -> offers lk c0 ms0 c0 t ->
      choiceify_item X lk v c0 m = val X lk v t c0 ->
      (forall cc tt', offers lk c0 [m] cc tt' -> cc = c0 /\ tt' = t) ->
      exists P : Prop, decides P (choiceify_item X lk v c0 m) /\
        (P -> exists c' t, offers lk c0 ms0 c' t /\ val X lk v t c' = Ok tt) /\
        ((exists c' t, offers lk c0 [m] c' t /\ val X lk v t c' = Ok tt) -> P)).
    { intros t _ Ho He Hu. exists (val X lk v t c0 = Ok tt). rewrite He. split; [|split].
      - destruct (D _ _ Ho) as [E|[msg E]]; rewrite E; constructor; congruence.
      - eauto.
      - intros (cc & t' & O & E). destruct (Hu _ _ O) as [-> ->]. auto. }
    destruct m;
      try (eapply Plain; [intros cc O; inversion O; subst; cbn in *; intuition congruence
                         |apply offer_type; [exact Hin|discriminate|discriminate]|reflexivity
                         |intros cc t' O; inversion O; subst; cbn in *; intuition congruence]; fail).
    - destruct (H name args Hin) as (c1 & ms1 & L & G).
      exists (exists c' t, offers lk c1 ms1 c' t /\ val X lk v t c' = Ok tt). split; [|split].
      + cbn. rewrite (leads_chval v c0 name args c1 ms1 L). apply (IH c1 ms1 G); auto.
        intros c' t O. apply D. eapply offer_group; eauto.
      + intros (c' & t & O & E). exists c', t. split; auto. eapply offer_group; eauto.
      + intros (c' & t & O & E). destruct (offers_rule _ _ _ _ _ O) as (c2 & ms2 & L2 & O2).
        destruct (leads_fun _ _ _ _ _ L _ _ L2) as [<- <-]. eauto.
    - eapply Plain; [intros cc O; inversion O; subst; cbn in *; intuition congruence
                         |eapply offer_value; exact Hin|reflexivity
                         |intros cc t' O; inversion O; subst; cbn in *; intuition congruence]. }
  clear IH H D.
  assert (Split : forall c' t, offers lk c0 ms0 c' t -> exists m, In m ms0 /\ offers lk c0 [m] c' t).
  { intros c' t O. inversion O; subst.
    - eexists; split; [eassumption|]. eapply offer_value. left; reflexivity.
    - eexists; split; [eassumption|]. eapply offer_type; auto. left; reflexivity.
    - eexists; split; [eassumption|]. eapply offer_group; eauto. left; reflexivity. }
  assert (Loop : forall l, incl l ms0 ->
    decides (exists m, In m l /\ exists c' t, offers lk c0 [m] c' t /\ val X lk v t c' = Ok tt)
       (tries_pure is_fatal (choiceify_item X lk v c0) l fin) \/
    (tries_pure is_fatal (choiceify_item X lk v c0) l fin = Ok tt /\ exists c' t, offers lk c0 ms0 c' t /\ val X lk v t c' = Ok tt)).
  { induction l as [|m l IHl]; intros Hl; cbn.
    - left. destruct fin; try discriminate. apply decides_no. intros (m & [] & _).
    - destruct (Item m (Hl m (or_introl eq_refl))) as (P & Dp & P1 & P2). inversion Dp as [p Ep|msg p Ep].
      + right. auto.
      + cbn. destruct (IHl (fun x Hx => Hl x (or_intror Hx))) as [Dl|Dl]; [left|right; auto].
        inversion Dl as [q Eq|msg' q Eq]; [constructor|constructor].
        * destruct q as (m' & Hin & Q). exists m'. split; [right; auto|auto].
        * intros (m' & [<-|Hin] & Q); [auto|]. apply q. eauto. }
  destruct (Loop ms0 (incl_refl _)) as [Dl|[E Q]].
  - inversion Dl as [q Eq|msg q Eq]; constructor.
    + destruct q as (m & Hin & Q). destruct (Item m Hin) as (P & _ & P1 & P2). auto.
    + intros (c' & t & O & E). destruct (Split _ _ O) as (m & Hin & O'). apply q. eauto 8.
  - rewrite E. constructor. auto.
Qed.
End Laws.
