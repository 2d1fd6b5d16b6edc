(** The validator does what SpecActs.v says, on every schema. *)
From Coq Require Import List Bool ZArith NArith String Lia Arith.
From Verif Require Import Base Util Data Value Convert Ivt Scalar Validate Unfold Mono Fun ValueOrder
  ArrayInv MapInv ConvertProofs NoPanic SpecCtx CtxProofs SpecBase SpecData MapProofs SpecPos GroupProofs
  SpecVerdict SpecPeg SpecConvert ConvertExact SpecJudge JudgeProofs PegProofs PegExact SpecActs.
Import ListNotations.

(** * One reply per question *)
Ltac use_acts := repeat match goal with
  | IH : forall r, acts ?X ?lk ?q r -> ?a = r, H : acts ?X ?lk ?q ?b |- _ => apply IH in H
  | H : DidA _ _ _ = DidA _ _ _ |- _ => inversion H; clear H; subst
  | H : DidM _ _ _ = DidM _ _ _ |- _ => inversion H; clear H; subst
  | H : Found _ _ = Found _ _ |- _ => inversion H; clear H; subst
  end.
Lemma acts_det X lk q r1 : acts X lk q r1 -> forall r2, acts X lk q r2 -> r1 = r2.
Proof.
  induction 1; intros r2 H2; inversion H2; subst; try no_leaf; use_acts; subst; cbn in *; try congruence;
    try discriminate; try (exfalso; congruence); try lia;
    try match goal with
    | J : judges _ _ _ _ _ _, J' : judges _ _ _ _ _ _ |- _ => rewrite (judges_det _ _ _ _ _ _ J _ J'); reflexivity
    end;
    try match goal with
    | H : lookup_rule lk ?c ?n ?a = _, H' : lookup_rule lk ?c ?n ?a = _ |- _ =>
        rewrite H in H'; inversion H'; subst; use_acts; subst; auto; try (exfalso; congruence)
    end.
  all: try match goal with
    | H : forall h took rest, DidM ?h0 ?t0 ?l0 = DidM h took rest -> exists msg, h = Stopped msg |- _ => destruct (H _ _ _ eq_refl) as (? & ?); discriminate
    end.
  all: try match goal with t : node, J : judges _ _ _ ?t _ _ |- _ => apply judges_leaf in J; destruct t; discriminate end.
  all: try match goal with
    | H : cbor_decode _ ?b = _, H' : cbor_decode _ ?b = _ |- _ => rewrite H in H'; inversion H'; subst end.
  all: try match goal with
    | H : cbor_means ?b _, H' : cbor_means ?b _ |- _ => pose proof (cbor_means_unique _ _ _ H H'); subst
    | H : cbor_means ?b _, H' : has_tag ?b |- _ => destruct (tag_means _ _ H' H) end.
  all: use_acts; auto.
  match goal with H : element_of ?m = Some ?t, H' : element_of ?m = Some ?t' |- _ => assert (t = t') as <- by congruence end.
  use_acts. subst. auto.
Qed.

Definition repV (r : res unit) : reply :=
  match r with
  | Ok _ => Accept
  | Err (EMismatch m) => Reject m
  | Err (EMapCut _) | Panic => Absent
  | Err e => Wrong e
  end.
Definition repA (r : res unit) (p : list value) (w : warray) : reply :=
  match r with
  | Ok _ => DidA Matched p (wa_array w)
  | Err (EMismatch m) => DidA (Missed m) p (wa_array w)
  | Err (EMapCut _) | Panic => Absent
  | Err e => Wrong e
  end.
Definition repM (r : res unit) (p : entries) (w : wmap) : reply :=
  match r with
  | Ok _ => DidM Matched p (wm_map w)
  | Err (EMismatch m) => DidM (Missed m) p (wm_map w)
  | Err (EMapCut m) => DidM (Stopped m) p (wm_map w)
  | Panic => Absent
  | Err e => Wrong e
  end.

Lemma repV_ruling r : clean nocut r -> ruling r = Some (repV r).
Proof.
  intros [N C]. destruct r as [|[]|]; cbn; auto; try congruence. destruct (C _ eq_refl expected). auto.
Qed.
Lemma repV_fatal e : is_fatal e = true -> repV (Err e) = Wrong e.
Proof. destruct e; cbn; auto; discriminate. Qed.
Lemma repA_fatal e p w : is_fatal e = true -> repA (Err e) p w = Wrong e.
Proof. destruct e; cbn; auto; discriminate. Qed.
Lemma repM_fatal e p w : is_fatal e = true -> repM (Err e) p w = Wrong e.
Proof. destruct e; cbn; auto; discriminate. Qed.
Lemma afterA_rep r p q w : afterA p (repA r q w) = repA r (p ++ q) w.
Proof. destruct r as [|[]|]; auto. Qed.
Lemma afterM_rep r p q w : afterM p (repM r q w) = repM r (p ++ q) w.
Proof. destruct r as [|[]|]; auto. Qed.
Lemma not_fatal e : clean nocut (A := unit) (Err e) -> is_fatal e = false -> exists msg, e = EMismatch msg.
Proof. intros [_ C] F. destruct e; try discriminate; eauto. destruct (C _ eq_refl expected). auto. Qed.
Lemma not_mismatch e : clean nocut (A := unit) (Err e) -> is_mismatch e = false -> is_fatal e = true.
Proof. intros [_ C] F. destruct e; try discriminate; auto. destruct (C _ eq_refl expected). auto. Qed.

Section Exact.
Variable X : ext.
Variable lk : lookup_context.
Hypothesis Hlk : forall name e, lk name = inr e -> is_fatal e = true.
Notation L := (lookup_rule lk).
Notation acts := (acts X lk).

(** ** Loops over arrays *)
Definition doesA (q : list value -> question) (f : warray -> option (res unit * warray)) : Prop :=
  forall w r w', arr_ok w -> f w = Some (r, w') ->
    clean nocut r /\ arr_ok w' /\ exists p, wa_snaps w' = push p (wa_snaps w) /\ acts (q (wa_array w)) (repA r p w').

Lemma seq_doesA c f ms : (forall m, In m ms -> doesA (AskArr c m) (f m)) -> doesA (AskSeqA c ms) (seq_loop f ms).
Proof.
  induction ms as [|m ms IH]; intros H w r w' K E; cbn in E.
  - inversion E; subst. split; [apply clean_ok|]. split; auto. exists []. rewrite push_nil. split; auto. apply seqa_end.
  - destruct (f m w) as [[[u|e|] w1]|] eqn:F; [| | |discriminate];
      destruct (H m (or_introl eq_refl) _ _ _ K F) as (C1 & K1 & p & S1 & P1).
    + destruct (IH ltac:(intros; apply H; right; auto) _ _ _ K1 E) as (C2 & K2 & q & S2 & P2).
      split; auto. split; auto. exists (p ++ q). split; [rewrite S2, S1; apply push_push|].
      rewrite <- afterA_rep. eapply seqa_next; eauto.
    + inversion E; subst. split; auto. split; auto. exists p. split; auto. apply seqa_stop; [exact P1|].
      intros t l. destruct e; discriminate.
    + destruct C1 as (Np & _). congruence.
Qed.

Lemma alt_doesA c f os fin : (forall m, In m os -> doesA (AskArr c m) (f m)) ->
  doesA (AskAltA fin c os) (try_loop is_fatal f os (EMismatch fin)).
Proof.
  induction os as [|m os IH]; intros H w r w' K E; cbn in E.
  - inversion E; subst. split; [apply clean_err; unfold nocut; discriminate|]. split; auto. exists []. rewrite push_nil. split; auto.
    apply alta_end.
  - destruct (f m w) as [[[u|e|] w1]|] eqn:F; [| | |discriminate];
      destruct (H m (or_introl eq_refl) _ _ _ K F) as (C1 & K1 & p & S1 & P1).
    + inversion E; subst. split; [apply clean_ok|]. split; auto. exists p. split; auto. apply alta_stop; [exact P1|discriminate].
    + destruct (is_fatal e) eqn:Fe.
      * inversion E; subst. split; auto. split; auto. exists p. split; auto.
        apply alta_stop; [exact P1|]. rewrite repA_fatal by auto. intros; discriminate.
      * destruct (not_fatal _ C1 Fe) as (msg & ->).
        destruct (IH ltac:(intros; apply H; right; auto) _ _ _ K1 E) as (C2 & K2 & q & S2 & P2).
        split; auto. split; auto. exists (p ++ q). split; [rewrite S2, S1; apply push_push|].
        rewrite <- afterA_rep. eapply alta_next; eauto.
    + destruct C1 as (Np & _). congruence.
Qed.

Definition countA (k : N) (r : res N) (p : list value) (w : warray) : reply :=
  match r with Ok n => RoundsA (n - k) p (wa_array w) | Err e => Wrong e | Panic => Absent end.
Lemma rep_doesA c m f n up : doesA (AskArr c m) f ->
  forall count w r w', arr_ok w -> occur_loop n f up count w = Some (r, w') ->
    clean nocut r /\ arr_ok w' /\ (forall e, r = Err e -> is_fatal e = true) /\ (forall k, r = Ok k -> (count <= k)%N) /\
    exists p, wa_snaps w' = push p (wa_snaps w) /\
      acts (AskRepA c m (N.max 1 (up - count)) (wa_array w)) (countA count r p w').
Proof.
  intros H. induction n as [|n IH]; intros count w r w' K E; cbn in E; [discriminate|].
  destruct (f w) as [[[u|e|] w1]|] eqn:F; [| | |discriminate]; destruct (H _ _ _ K F) as (C1 & K1 & p & S1 & P1).
  - destruct (N.leb_spec up (count + 1)).
    + inversion E; subst. split; [apply clean_ok|]. split; auto. split; [discriminate|]. split; [intros k [= <-]; lia|].
      exists p. split; auto. cbn.
      replace (N.max 1 (up - count)) with 1%N by lia. replace (count + 1 - count)%N with 1%N by lia.
      apply repa_last. exact P1.
    + destruct (IH (count + 1)%N _ _ _ K1 E) as (C2 & K2 & F2 & Le & q & S2 & P2). split; auto. split; auto. split; auto.
      split; [intros k Hk; apply Le in Hk; lia|]. exists (p ++ q). split; [rewrite S2, S1; apply push_push|].
      replace (countA count r (p ++ q) w') with (afterA p (countA (count + 1) r q w')).
      * eapply repa_more; [lia|exact P1|]. replace (N.max 1 (up - count) - 1)%N with (N.max 1 (up - (count + 1))) by lia. exact P2.
      * destruct r; cbn; auto. f_equal. specialize (Le _ eq_refl). lia.
  - destruct (is_mismatch e) eqn:Mi.
    + inversion E; subst. destruct e; try discriminate. split; [apply clean_ok|]. split; auto. split; [discriminate|].
      split; [intros k [= <-]; lia|]. exists p. split; auto. cbn. rewrite N.sub_diag. eapply repa_miss. exact P1.
    + inversion E; subst. pose proof (not_mismatch _ C1 Mi) as Fe. rewrite repA_fatal in P1 by auto.
      split; [split; [discriminate|]; intros e' [= <-]; destruct C1; auto|]. split; auto.
      split; [intros e' [= <-]; auto|]. split; [discriminate|]. exists p. split; auto. cbn. apply repa_wrong. exact P1.
  - destruct C1; congruence.
Qed.

(** ** Loops over maps *)
Definition within (es es' : entries) : Prop := forall x, In x es -> In x es'.
Definition doesM (q : entries -> question) (f : wmap -> option (res unit * wmap)) : Prop :=
  forall w r w', map_ok w -> f w = Some (r, w') -> r <> Panic /\ map_ok w' /\ within (wm_map w') (wm_map w) /\
    exists p, within p (wm_map w) /\ wm_snaps w' = push p (wm_snaps w) /\ acts (q (wm_map w)) (repM r p w').
Lemma within_nil es : within [] es.
Proof. intros x []. Qed.
Lemma within_refl es : within es es.
Proof. intros x H; auto. Qed.
Lemma within_trans a b d : within a b -> within b d -> within a d.
Proof. unfold within; auto. Qed.
Lemma within_app p q a b : within p a -> within q b -> within b a -> within (p ++ q) a.
Proof. intros H1 H2 H3 x H. apply in_app_iff in H. destruct H; auto. Qed.
Local Hint Resolve within_nil within_refl : core.

Lemma seq_doesM c f ms : (forall m, In m ms -> doesM (AskMap c m) (f m)) -> doesM (AskSeqM c ms) (seq_loop f ms).
Proof.
  induction ms as [|m ms IH]; intros H w r w' K E; cbn in E.
  - inversion E; subst. split; [discriminate|]. split; auto. split; auto. exists []. rewrite push_nil. split; auto. split; auto.
    apply seqm_end.
  - destruct (f m w) as [[[u|e|] w1]|] eqn:F; [| | |discriminate];
      destruct (H m (or_introl eq_refl) _ _ _ K F) as (C1 & K1 & W1 & p & Wp & S1 & P1).
    + destruct (IH ltac:(intros; apply H; right; auto) _ _ _ K1 E) as (C2 & K2 & W2 & q & Wq & S2 & P2).
      split; auto. split; auto. split; [eapply within_trans; eauto|]. exists (p ++ q).
      split; [eapply within_app; eauto|]. split; [rewrite S2, S1; apply push_push|].
      rewrite <- afterM_rep. eapply seqm_next; eauto.
    + inversion E; subst. split; auto. split; auto. split; auto. exists p. split; auto. split; auto. apply seqm_stop; [exact P1|].
      intros t l. destruct e; discriminate.
    + congruence.
Qed.

Lemma alt_doesM (q : node -> entries -> question) f os fin : (forall m, In m os -> doesM (q m) (f m)) ->
  doesM (AskAltM fin (map q os)) (try_loop (fun e => negb (is_mismatch e)) f os (EMismatch fin)).
Proof.
  induction os as [|m os IH]; intros H w r w' K E; cbn in E.
  - inversion E; subst. split; [discriminate|]. split; auto. split; auto. exists []. rewrite push_nil. split; auto. split; auto.
    apply altm_end.
  - destruct (f m w) as [[[u|e|] w1]|] eqn:F; [| | |discriminate];
      destruct (H m (or_introl eq_refl) _ _ _ K F) as (C1 & K1 & W1 & p & Wp & S1 & P1).
    + inversion E; subst. split; [discriminate|]. split; auto. split; auto. exists p. split; auto. split; auto.
      apply altm_stop; [exact P1|discriminate].
    + destruct (is_mismatch e) eqn:Fe; cbn in E.
      * destruct e; try discriminate.
        destruct (IH ltac:(intros; apply H; right; auto) _ _ _ K1 E) as (C2 & K2 & W2 & p2 & Wq & S2 & P2).
        split; auto. split; auto. split; [eapply within_trans; eauto|]. exists (p ++ p2).
        split; [eapply within_app; eauto|]. split; [rewrite S2, S1; apply push_push|].
        rewrite <- afterM_rep. eapply altm_next; eauto.
      * inversion E; subst. split; auto. split; auto. split; auto. exists p. split; auto. split; auto.
        apply altm_stop; [exact P1|]. intros t l. destruct e; discriminate.
    + congruence.
Qed.

Definition countM (k : N) (r : res N) (p : entries) (w : wmap) : reply :=
  match r with Ok n => RoundsM (n - k) p (wm_map w) | Err e => repM (Err e) p w | Panic => Absent end.
Lemma rep_doesM c m f n up : doesM (AskMap c m) f ->
  forall count w r w', map_ok w -> occur_loop n f up count w = Some (r, w') ->
    r <> Panic /\ map_ok w' /\ (forall e, r = Err e -> is_mismatch e = false) /\ (forall k, r = Ok k -> (count <= k)%N) /\
    within (wm_map w') (wm_map w) /\
    exists p, within p (wm_map w) /\ wm_snaps w' = push p (wm_snaps w) /\
      acts (AskRepM c m (N.max 1 (up - count)) (wm_map w)) (countM count r p w').
Proof.
  intros H. induction n as [|n IH]; intros count w r w' K E; cbn in E; [discriminate|].
  destruct (f w) as [[[u|e|] w1]|] eqn:F; [| | |discriminate]; destruct (H _ _ _ K F) as (C1 & K1 & W1 & p & Wp & S1 & P1).
  - destruct (N.leb_spec up (count + 1)).
    + inversion E; subst. split; [discriminate|]. split; auto. split; [discriminate|]. split; [intros k [= <-]; lia|]. split; auto.
      exists p. split; auto. split; auto. cbn.
      replace (N.max 1 (up - count)) with 1%N by lia. replace (count + 1 - count)%N with 1%N by lia.
      apply repm_last. exact P1.
    + destruct (IH (count + 1)%N _ _ _ K1 E) as (C2 & K2 & F2 & Le & W2 & q & Wq & S2 & P2). split; auto. split; auto. split; auto.
      split; [intros k Hk; apply Le in Hk; lia|]. split; [eapply within_trans; eauto|].
      exists (p ++ q). split; [eapply within_app; eauto|]. split; [rewrite S2, S1; apply push_push|].
      replace (countM count r (p ++ q) w') with (afterM p (countM (count + 1) r q w')).
      * eapply repm_more; [lia|exact P1|]. replace (N.max 1 (up - count) - 1)%N with (N.max 1 (up - (count + 1))) by lia. exact P2.
      * destruct r; [|cbn [countM]|reflexivity].
        -- cbn. f_equal. specialize (Le _ eq_refl). lia.
        -- specialize (F2 _ eq_refl). destruct e; auto.
  - destruct (is_mismatch e) eqn:Mi.
    + inversion E; subst. destruct e; try discriminate. split; [discriminate|]. split; auto. split; [discriminate|].
      split; [intros k [= <-]; lia|]. split; auto. exists p. split; auto. split; auto. cbn. rewrite N.sub_diag. eapply repm_miss. exact P1.
    + inversion E; subst. split; [discriminate|]. split; auto.
      split; [intros e' [= <-]; auto|]. split; [discriminate|]. split; auto. exists p. split; auto. split; auto.
      cbn [countM]. apply repm_stop; [exact P1|]. intros h t l Q. destruct e; inversion Q; eauto; discriminate.
  - congruence.
Qed.

(** ** Pure choices *)
Lemma any_does (q : node -> question) f fin os :
  (forall m r, In m os -> f m = Some r -> clean nocut r /\ acts (q m) (repV r)) ->
  forall r, try_loop_pure is_fatal f os (EMismatch fin) = Some r -> clean nocut r /\ acts (AskAny fin (map q os)) (repV r).
Proof.
  induction os as [|m os IH]; intros H r E; cbn in E.
  - inversion E; subst. split; [apply clean_err; unfold nocut; discriminate|]. apply any_none.
  - destruct (f m) as [[u|e|]|] eqn:F; [| | |discriminate];
      destruct (H m _ (or_introl eq_refl) F) as (C1 & P1); cbn [map].
    + inversion E; subst. split; [apply clean_ok|]. eapply any_first; [exact P1|discriminate].
    + destruct (is_fatal e) eqn:Fe.
      * inversion E; subst. split; auto. eapply any_first; [exact P1|]. rewrite repV_fatal by auto. intros; discriminate.
      * destruct (not_fatal _ C1 Fe) as (msg & ->).
        destruct (IH ltac:(intros; apply H; auto; right; auto) _ E) as (C2 & P2). split; auto. eapply any_next; eauto.
    + destruct C1; congruence.
Qed.

(** ** Keys *)
Lemma key_found c key k v post : forall pre,
  (forall x, In x pre -> exists r, acts (AskType c key (fst x)) r /\ r <> Accept) -> acts (AskType c key k) Accept ->
  acts (AskKey c key (pre ++ (k, v) :: post)) (Found k v).
Proof.
  induction pre as [|[k' v'] pre IH]; intros H P; cbn [app].
  - apply key_here; auto.
  - destruct (H _ (or_introl eq_refl)) as (o & Po & No_). eapply key_later; eauto. apply IH; auto. intros; apply H; right; auto.
Qed.
Lemma key_missing c key : forall es,
  (forall x, In x es -> exists r, acts (AskType c key (fst x)) r /\ r <> Accept) -> acts (AskKey c key es) Absent.
Proof.
  induction es as [|[k' v'] es IH]; intros H.
  - apply key_none.
  - destruct (H _ (or_introl eq_refl)) as (o & Po & No_). eapply key_later; eauto. apply IH; auto. intros; apply H; right; auto.
Qed.
Lemma literal_clean c l k : clean nocut (val X lk k (NLiteral l) c).
Proof.
  rewrite val_eq. unfold validate_literal. match goal with |- context [if ?b then _ else _] => destruct b end.
  - apply clean_ok.
  - apply clean_err. unfold nocut, mismatch. discriminate.
Qed.
Lemma leaf_acts c t v r : leaf t = true -> ruling (val X lk v t c) = Some r -> acts (AskType c t v) r.
Proof.
  intros Lf E. destruct (judges_total X lk c t v Lf) as (j & J). pose proof (judges_sound _ _ _ _ _ _ J) as M.
  replace r with (leaf_reply j); [apply t_leaf; auto|]. destruct j as [|m|e]; cbn in M; rewrite M in E; try (inversion E; reflexivity).
  apply faulty_fatal in J; auto. destruct e; try discriminate J; inversion E; reflexivity.
Qed.
Lemma literal_acts c l k : acts (AskType c (NLiteral l) k) (repV (val X lk k (NLiteral l) c)).
Proof. apply leaf_acts; auto. apply repV_ruling, literal_clean. Qed.
Lemma repV_accept r : repV r = Accept -> exists u, r = Ok u.
Proof. destruct r as [u|[]|]; try discriminate. eauto. Qed.
Lemma key_acts n c key w r :
  (forall k r, keys_sorted k -> validate X L n k key c = Some r -> clean nocut r /\ acts (AskType c key k) (repV r)) ->
  map_ok w -> validate_map_key X (fun v nd => validate X L n v nd c) key w = Some r ->
  (exists k v, r = Ok (k, v) /\ In (k, v) (wm_map w) /\ acts (AskKey c key (wm_map w)) (Found k v)) \/
  (r = Err (EMismatch (txt "map{" ++ part_text X key ++ txt "}")) /\ acts (AskKey c key (wm_map w)) Absent).
Proof.
  intros H K E. destruct w as [m s].
  assert (Lit : forall l, key = NLiteral l -> r = map_key X lk key (WM m s) c).
  { intros l ->. cbn in E. injection E as <-. reflexivity. }
  assert (Sea : (forall l, key <> NLiteral l) -> exists fin, fin = EMismatch (txt "map{" ++ part_text X key ++ txt "}") /\
     map_search_loop (fun k => validate X L n k key c) m fin = Some r).
  { intros N. eexists; split; [reflexivity|]. rewrite <- show_node_text. destruct key; try exact E. destruct (N l); auto. }
  clear E. destruct (match key with NLiteral l => Some l | _ => None end) as [l|] eqn:Ek.
  - destruct key; inversion Ek; subst. specialize (Lit _ eq_refl). subst r.
    assert (Dec : forall x : value * value, ~ accepts X lk c (NLiteral l) (fst x) ->
       exists r, acts (AskType c (NLiteral l) (fst x)) r /\ r <> Accept).
    { intros x Hx. eexists; split; [apply literal_acts|]. intros Q. apply repV_accept in Q. destruct Q as ([] & Q). auto. }
    destruct (map_key_cases X lk c (NLiteral l) m s K) as [(k & v & E & _)|(msg & E & N)].
    + left. pose proof E as E'. apply map_key_first in E'; auto. destruct E' as (pre & post & -> & Ac & Np).
      exists k, v. split; auto. cbn [wm_map]. split; [apply in_elt|]. apply key_found; auto.
      pose proof (literal_acts c l k) as P. unfold accepts in Ac. rewrite Ac in P. exact P.
    + right. split; [|cbn [wm_map]; apply key_missing; auto].
      cbn in E |- *. unfold map_search_literal in *. destruct (wm_peek_at _ _); [discriminate|]. rewrite show_literal_text. reflexivity.
  - destruct (Sea ltac:(intros l ->; discriminate)) as (fin & -> & E). clear Sea Lit Ek.
    destruct K as (_ & En & _). cbn [wm_map] in *. induction m as [|[k v] m IH]; cbn in E.
    + inversion E; subst. right. split; [reflexivity|]. apply key_none.
    + inversion En as [|? ? [K1 K2] En']; subst. cbn in K1, K2.
      destruct (validate X L n k key c) as [[u|e|]|] eqn:V; [| | |discriminate]; destruct (H _ _ K1 V) as [Cl P].
      * inversion E; subst. left. exists k, v. split; auto. split; [left; auto|]. apply key_here. exact P.
      * assert (Na : repV (Err e) <> Accept) by (destruct e; discriminate).
        destruct (IH En' E) as [(k' & v' & -> & I' & P')|(-> & P')].
        -- left. exists k', v'. split; auto. split; [right; auto|]. eapply key_later; eauto.
        -- right. split; auto. eapply key_later; eauto.
      * destruct Cl; congruence.
Qed.

(** ** Putting back *)
Lemma filter_sorted f es : sorted es -> sorted (filter f es).
Proof.
  unfold sorted. induction 1 as [|x es S IH F]; cbn; [constructor|]. destruct (f x); auto. constructor; auto.
  rewrite Forall_forall in *. intros y Hy. apply filter_In in Hy. apply F. tauto.
Qed.
Lemma back_extend es p rest : sorted es -> sorted rest -> within p es -> within rest es ->
  bt_extend rest p = back es p rest.
Proof.
  intros S S' Wp Wr. apply sorted_ext; [apply bt_extend_sorted; auto|apply filter_sorted; auto|]. intros x.
  rewrite (bt_extend_in es) by auto. unfold back. rewrite filter_In, existsb_exists. split.
  - intros H. assert (I : In x es) by (destruct H; auto). split; auto. exists x. split; [apply in_app_iff; tauto|apply veqb_refl].
  - intros (I & y & Hy & Q). apply veqb_eq in Q. assert (Iy : In y es) by (apply in_app_iff in Hy; destruct Hy; auto).
    assert (x = y) as ->.
    { destruct x as [k v], y as [k' v']. cbn in Q. subst k'. f_equal. exact (sorted_unique es k v v' S I Iy). }
    apply in_app_iff in Hy. tauto.
Qed.
Lemma remove_filter es k : sorted es -> snd (bt_remove k es) = filter (fun e => negb (veqb (fst e) k)) es.
Proof.
  intros S. apply sorted_ext; [apply bt_remove_sorted; auto|apply filter_sorted; auto|]. intros x.
  rewrite bt_remove_in by auto. rewrite filter_In. apply and_iff_compat_l.
  destruct (veqb (fst x) k) eqn:Q; cbn.
  - apply veqb_eq in Q. split; [congruence|discriminate].
  - split; auto. intros _ E. rewrite E, veqb_refl in Q. discriminate.
Qed.

(** ** The validator *)
Notation fA n m c := (fun w => validate_array_member X L n m w c).
Notation fM n m c := (fun w => validate_map_member X L n m w c).
Lemma main n :
  (forall c nd v r, keys_sorted v -> validate X L n v nd c = Some r -> acts (AskType c nd v) (repV r)) /\
  (forall c m, doesA (AskArr c m) (fA n m c)) /\
  (forall c m, doesM (AskMap c m) (fM n m c)) /\
  (forall c name args v r, keys_sorted v -> validate_choiceify X L n name args v c = Some r -> acts (AskOneOf c name args v) (repV r)) /\
  (forall c name args, doesM (AskOneOfM c name args) (fun w => validate_map_choiceify X L n name args w c)).
Proof.
  induction n as [|n (IHv & IHa & IHm & IHc & IHmc)]; [repeat split; intros; try red; intros; discriminate|].
  destruct (VC X lk Hlk n) as (Cv & Ca & Cm & Cc & Cmc). destruct (VC X lk Hlk (S n)) as (SCv & SCa & SCm & SCc & SCmc).
  assert (Av : forall c nd v r, keys_sorted v -> validate X L n v nd c = Some r -> clean nocut r /\ acts (AskType c nd v) (repV r)).
  { intros c nd v r K E. split; [exact (Cv _ _ _ K _ E)|eauto]. }
  assert (Items : forall c is v r, keys_sorted v ->
     validate_choiceify_members (fun m => validate X L n v m c) (fun name args => validate_choiceify X L n name args v c) is = Some r ->
     acts (AskAny (one_of_text is) (map (item_question c v) is)) (repV r)).
  { intros c is v r K E. refine (proj2 (any_does (item_question c v) _ _ is _ r E)).
    intros i r' Hi E'. destruct i; cbn [item_question]; try (apply Av; auto; fail).
    split; [exact (Cc _ _ _ _ K _ E')|apply IHc; auto]. }
  assert (ItemsM : forall c is, doesM (AskAltM (one_of_text is) (map (member_question c) is))
     (validate_map_choiceify_members (fun m w => validate_map_member X L n m w c)
       (fun name args w => validate_map_choiceify X L n name args w c) is)).
  { intros c is. unfold validate_map_choiceify_members.
    apply (alt_doesM (member_question c)). intros i Hi. destruct i; first [exact (IHm _ _)|exact (IHmc _ _ _)]. }
  assert (NilM : forall q w e, map_ok w -> is_fatal e = true -> acts (q (wm_map w)) (Wrong e) ->
     within (wm_map w) (wm_map w) /\ exists p, within p (wm_map w) /\ wm_snaps w = push p (wm_snaps w) /\ acts (q (wm_map w)) (repM (Err e) p w)).
  { intros q w e K Fe P. split; auto. exists []. rewrite push_nil, repM_fatal by auto. auto. }
  split; [|split; [|split; [|split]]].
  - intros c nd v r K E. pose proof (SCv v nd c K r E) as Cl.
    destruct (leaf nd) eqn:Lf.
    { apply leaf_acts; auto. rewrite (val_run _ _ _ _ _ _ _ E). apply repV_ruling; auto. }
    rewrite validate_S in E. destruct nd; try discriminate.
    + destruct (L c name args) as [[t' c']|e|] eqn:Lk; [| |destruct (look_np _ Hlk _ _ _ Lk)].
      * eapply t_name; eauto.
      * inversion E; subst. rewrite repV_fatal by eauto using look_fatal. eapply t_name_wrong; eauto.
    + apply t_choice. refine (proj2 (any_does (fun t => AskType c t v) _ _ options _ r E)).
      intros m r' Hm E'. eapply Av; eauto.
    + unfold validate_map in E. destruct v; try (inversion E; subst; apply t_map_no; discriminate).
      destruct (seq_loop _ _ _) as [[r1 w1]|] eqn:S; [|discriminate].
      destruct (seq_doesM c (fun m => fM n m c) members ltac:(intros; apply IHm) _ _ _ (keys_map_ok _ K) S)
        as (Np & K1 & _ & p & _ & _ & P).
      replace (repV r) with (all_of (repM r1 p w1)); [apply t_map; exact P|].
      destruct r1 as [u|e|]; [| |congruence].
      * cbn. destruct (wm_map w1); inversion E; reflexivity.
      * inversion E; subst. destruct e; reflexivity.
    + unfold validate_array in E. destruct v; try (inversion E; subst; apply t_array_no; discriminate).
      destruct (seq_loop _ _ _) as [[r1 w1]|] eqn:S; [|discriminate].
      apply keys_sorted_array in K.
      destruct (seq_doesA c (fun m => fA n m c) members ltac:(intros; apply IHa) (wa_new l) _ _ ltac:(split; auto; constructor) S)
        as (Np & K1 & p & _ & P).
      replace (repV r) with (all_of (repA r1 p w1)); [apply t_array; exact P|].
      destruct r1 as [u|e|]; [| |destruct Np; congruence].
      * cbn. destruct (wa_array w1); inversion E; reflexivity.
      * inversion E; subst. destruct e; try reflexivity.
    + destruct members as [|t [|t2 ts]]; try (inversion E; subst; apply (t_parens_wrong X lk c); discriminate).
      apply t_parens. eapply IHv; eauto.
    + inversion E; subst. apply t_misplaced; auto.
    + inversion E; subst. apply t_misplaced; auto.
    + inversion E; subst. apply t_misplaced; auto.
    + destruct c0; try discriminate. cbn [validate_control] in E. unfold validate_control_cbor in E.
      destruct v; try (inversion E; subst; apply t_cbor_no; discriminate).
      destruct (cbor_decode X b) as [x|msg] eqn:D.
      * destruct (of_cbor_spec x) as [(v & Ev & Kv)|(msg & Ev)]; rewrite Ev in E.
        -- eapply t_cbor; [eassumption|apply of_cbor_exact; eassumption|eauto].
        -- inversion E; subst. rewrite (of_cbor_message _ _ Ev). eapply t_cbor_wrong_value; eauto. apply of_cbor_tag in Ev. auto.
      * inversion E; subst. eapply t_cbor_wrong; eauto.
    + apply t_one_of. eapply IHc; eauto.
    + apply t_inline. eapply Items; eauto.
  - intros c m w r w' K E. pose proof (SCa _ _ _ _ _ K E) as Cl. split; auto.
    split; [eapply arr_step_ok; eauto; apply Cl|].
    rewrite validate_array_member_S in E.
    assert (NilA : forall e, is_fatal e = true -> acts (AskArr c m (wa_array w)) (Wrong e) ->
       exists p, wa_snaps w = push p (wa_snaps w) /\ acts (AskArr c m (wa_array w)) (repA (Err e) p w)).
    { intros e Fe P. exists []. rewrite push_nil, repA_fatal by auto. auto. }
    assert (El : forall t, element_of m = Some t ->
       validate_array_value X (fun v nd => validate X L n v nd c) t w = Some (r, w') ->
       exists p, wa_snaps w' = push p (wa_snaps w) /\ acts (AskArr c m (wa_array w)) (repA r p w')).
    { intros t Et E'. unfold validate_array_value, wa_peek_front in E'. destruct w as [a s]. cbn [wa_array wa_snaps] in *.
      destruct a as [|v a].
      { inversion E'; subst. exists []. rewrite push_nil, show_node_text. split; auto. eapply a_element_no; eauto. }
      destruct K as [K _]. cbn in K. inversion K; subst.
      destruct (validate X L n v t c) as [[u|e|]|] eqn:V; [| | |discriminate];
        (destruct (Av c t v _ H1 V) as [Cl' P]).
      - assert (r = Ok tt /\ wa_array w' = a /\ wa_snaps w' = push [v] s) as (-> & Ea & Es)
          by (unfold wa_pop_front in E'; cbn in E'; destruct s; inversion E'; subst; auto).
        exists [v]. split; auto. cbn [repA]. rewrite Ea. exact (a_element X lk c m t v a Accept Et P).
      - inversion E'; subst. exists []. rewrite push_nil. split; auto.
        replace (repA (Err e) [] _) with (elementA v a (repV (Err e))); [eapply a_element; eauto|].
        destruct e; reflexivity.
      - destruct Cl'; congruence. }
    destruct m; try (eapply El; [reflexivity|exact E]).
    + destruct (L c name args) as [[t' c']|e|] eqn:Lk; [| |destruct (look_np _ Hlk _ _ _ Lk)].
      * destruct (IHa _ _ _ _ _ K E) as (_ & _ & p & S1 & P). exists p. split; auto. eapply a_name; eauto.
      * inversion E; subst. apply NilA; [eauto using look_fatal|]. eapply a_name_wrong; eauto.
    + unfold choice_error, mismatch in E.
      destruct (alt_doesA c (fun m => fA n m c) _ _ ltac:(intros; apply IHa) _ _ _ K E) as (_ & _ & p & S1 & P).
      exists p. split; auto. apply a_choice. auto.
    + unfold validate_array_group in E.
      destruct (seq_loop _ _ _) as [[r1 w1]|] eqn:S; [|discriminate].
      destruct (seq_doesA c (fun m => fA n m c) members ltac:(intros; apply IHa) (wa_snapshot w) _ _
         ltac:(destruct K; split; cbn; auto) S) as (Np & K1 & p & S1 & P). cbn [wa_array wa_snapshot wa_snaps push app] in P, S1.
      exists []. rewrite push_nil. apply a_group in P.
      destruct r1 as [u|e|]; [| |destruct Np; congruence].
      * unfold wa_commit in E. rewrite S1 in E. inversion E; subst. split; [reflexivity|exact P].
      * unfold wa_rewind in E. rewrite S1 in E. inversion E; subst. split; auto. rewrite rewind_fold.
        destruct e; exact P.
    + unfold validate_array_occur in E.
      rewrite limits_bounds in *; destruct (bounds limit) as [lo up] eqn:Li.
      destruct (occur_loop _ _ _ _ _) as [[r1 w1]|] eqn:S; [|discriminate].
      destruct (rep_doesA c m _ n up (IHa c m) 0 w r1 w1 K S) as (Np & K1 & Fe & _ & p & S1 & P).
      assert (w' = w1) as ->.
      { destruct r1; [destruct (N.ltb _ _)| |]; inversion E; auto. }
      exists p. split; auto.
      replace (repA r p w1) with (at_least (fst (bounds limit)) (txt "more array element [" ++ occur_text X limit m ++ txt "]") (countA 0 r1 p w1)).
      * apply a_occur. rewrite Li. cbn [snd]. rewrite N.sub_0_r in P. exact P.
      * rewrite Li. cbn [fst]. destruct r1 as [k|e|]; [| |destruct Np; congruence].
        -- cbn. rewrite N.sub_0_r. destruct (N.ltb_spec k lo); inversion E; subst.
           ++ destruct (N.leb_spec lo k); [lia|]. rewrite show_occur_text. reflexivity.
           ++ destruct (N.leb_spec lo k); [reflexivity|lia].
        -- inversion E; subst. cbn [countA at_least]. rewrite repA_fatal; auto.
    + destruct (L c name args) as [[t' c']|e|] eqn:Lk; [| |destruct (look_np _ Hlk _ _ _ Lk)].
      * destruct (match t' with NArray ms => Some ms | _ => None end) as [ms|] eqn:Et.
        -- destruct t'; inversion Et; subst.
           destruct (seq_doesA c' (fun m => fA n m c') ms ltac:(intros; apply IHa) _ _ _ K E) as (_ & _ & p & S1 & P).
           exists p. split; auto. eapply a_unwrap; eauto.
        -- assert (w' = w /\ r = Err (EMismatch (txt "unwrap array"))) as (-> & ->)
             by (destruct t'; inversion E; subst; try discriminate; split; eauto).
           exists []. rewrite push_nil. split; auto. cbn [repA]. eapply a_unwrap_no; eauto. intros ms ->; discriminate.
      * inversion E; subst. apply NilA; [eauto using look_fatal|]. eapply a_unwrap_wrong; eauto.
  - intros c m w r w' K E.
    assert (Nr : r <> Panic) by exact (proj1 (SCm _ _ _ _ _ K E)). split; auto.
    split; [eapply map_step_ok; eauto|]. rewrite validate_map_member_S in E.
    destruct m; try (inversion E; subst; apply NilM; auto; apply m_misplaced; reflexivity).
    + destruct (L c name args) as [[t' c']|e|] eqn:Lk; [| |destruct (look_np _ Hlk _ _ _ Lk)].
      * destruct (IHm _ _ _ _ _ K E) as (_ & _ & W1 & p & Wp & S1 & P). split; auto. exists p. split; auto. split; auto. eapply m_name; eauto.
      * inversion E; subst. apply NilM; [auto|eauto using look_fatal|]. eapply m_name_wrong; eauto.
    + destruct (alt_doesM (AskMap c) (fun m => fM n m c) options _ ltac:(intros; apply IHm) _ _ _ K E) as (_ & _ & W1 & p & Wp & S1 & P).
      split; auto. exists p. split; auto. split; auto. apply m_choice; auto.
    + unfold validate_map_group in E.
      destruct (seq_loop _ _ _) as [[r1 w1]|] eqn:S; [|discriminate].
      destruct (seq_doesM c (fun m => fM n m c) members ltac:(intros; apply IHm) (wm_snapshot w) _ _
         ltac:(destruct K as (? & ? & ?); repeat split; cbn; auto) S) as (Np & K1 & W1 & p & Wp & S1 & P).
      cbn [wm_map wm_snapshot wm_snaps push app] in P, S1, W1, Wp. apply m_group in P.
      destruct r1 as [u|e|]; [| |congruence].
      * unfold wm_commit in E. rewrite S1 in E. inversion E; subst. split; auto. exists []. rewrite push_nil. split; auto.
      * unfold wm_rewind in E. rewrite S1 in E.
        assert (Bk : bt_extend (wm_map w1) p = back (wm_map w) p (wm_map w1)).
        { apply back_extend; auto; [apply K|apply K1]. }
        inversion E; subst. split.
        { cbn. intros x Hx. rewrite Bk in Hx. unfold back in Hx. apply filter_In in Hx. tauto. }
        exists []. rewrite push_nil. split; auto. split; auto.
        destruct e; try exact P; cbn in P |- *; rewrite Bk; exact P.
    + unfold validate_map_keyvalue in E.
      destruct (validate_map_key _ _ _ _) as [rk|] eqn:Ek; [|discriminate].
      destruct (key_acts n c m1 w rk ltac:(intros; eapply Av; eauto) K Ek)
        as [(k & v & -> & I1 & P)|(-> & P)].
      * destruct w as [es s]. cbn [wm_map wm_snaps] in *. destruct K as (So & En & Sn). cbn in So, En.
        assert (Kv : keys_sorted v). { rewrite Forall_forall in En. apply (En (k, v)). auto. }
        destruct (validate X L n v m2 c) as [[u|e|]|] eqn:V; [| | |discriminate];
          (destruct (Av c m2 v _ Kv V) as [Cl' P']).
        -- pose proof (remove_filter es k So) as Rf.
           rewrite (remove_entry es s k v) in E by auto. inversion E; subst. cbn [wm_map wm_snaps].
           split. { intros x Hx. rewrite Rf in Hx. apply filter_In in Hx. tauto. }
           exists [(k, v)]. split; [intros x [<-|[]]; auto|]. split; [destruct s; auto|].
           cbn [repM wm_map]. rewrite Rf. exact (m_entry X lk c m1 m2 cut _ _ _ _ P P').
        -- pose proof (m_entry X lk c m1 m2 cut _ _ _ _ P P') as Q.
           assert (w' = WM es s) as -> by (destruct cut, e; inversion E; auto).
           split; auto. exists []. rewrite push_nil. split; auto. split; auto.
           destruct cut, e; inversion E; subst; try exact Q; destruct Cl' as [_ Cl']; destruct (Cl' _ eq_refl expected); auto.
        -- destruct Cl'; congruence.
      * inversion E; subst. split; auto. exists []. rewrite push_nil. split; auto. split; auto. apply m_entry_no. auto.
    + unfold validate_map_occur in E.
      rewrite limits_bounds in *; destruct (bounds limit) as [lo up] eqn:Li.
      destruct (occur_loop _ _ _ _ _) as [[r1 w1]|] eqn:S; [|discriminate].
      destruct (rep_doesM c m _ n up (IHm c m) 0 w r1 w1 K S) as (Np & K1 & Fe & _ & W1 & p & Wp & S1 & P).
      assert (w' = w1) as ->.
      { destruct r1; [destruct (N.ltb _ _)| |]; inversion E; auto. }
      split; auto. exists p. split; auto. split; auto.
      replace (repM r p w1) with (at_least (fst (bounds limit)) (txt "map{" ++ occur_text X limit m ++ txt "}]") (countM 0 r1 p w1)).
      * apply m_occur. rewrite Li. cbn [snd]. rewrite N.sub_0_r in P. exact P.
      * rewrite Li. cbn [fst]. destruct r1 as [k|e|]; [| |congruence].
        -- cbn. rewrite N.sub_0_r. destruct (N.ltb_spec k lo); inversion E; subst.
           ++ destruct (N.leb_spec lo k); [lia|]. rewrite show_occur_text. reflexivity.
           ++ destruct (N.leb_spec lo k); [reflexivity|lia].
        -- inversion E; subst. cbn [countM]. destruct e; reflexivity.
    + destruct (L c name args) as [[t' c']|e|] eqn:Lk; [| |destruct (look_np _ Hlk _ _ _ Lk)].
      * destruct (match t' with NMap ms => Some ms | _ => None end) as [ms|] eqn:Et.
        -- destruct t'; inversion Et; subst.
           destruct (seq_doesM c' (fun m => fM n m c') ms ltac:(intros; apply IHm) _ _ _ K E) as (_ & _ & W1 & p & Wp & S1 & P).
           split; auto. exists p. split; auto. split; auto. eapply m_unwrap; eauto.
        -- assert (w' = w /\ r = Err (EMismatch (txt "unwrap map"))) as (-> & ->)
             by (destruct t'; inversion E; subst; try discriminate; split; eauto).
           split; auto. exists []. rewrite push_nil. split; auto. split; auto. cbn [repM]. eapply m_unwrap_no; eauto. intros ms ->; discriminate.
      * inversion E; subst. apply NilM; [auto|eauto using look_fatal|]. eapply m_unwrap_wrong; eauto.
    + destruct (IHmc _ _ _ _ _ _ K E) as (_ & _ & W1 & p & Wp & S1 & P).
      split; auto. exists p. split; auto. split; auto. apply m_one_of; auto.
    + destruct (alt_doesM (AskMap c) (fun m => fM n m c) members _ ltac:(intros; apply IHm) _ _ _ K E) as (_ & _ & W1 & p & Wp & S1 & P).
      split; auto. exists p. split; auto. split; auto. apply m_inline; auto.
  - intros c name args v r K E. rewrite validate_choiceify_S in E.
    destruct (L c name args) as [[t' c']|e|] eqn:Lk; [| |destruct (look_np _ Hlk _ _ _ Lk)].
    + destruct t'; try (inversion E; subst; eapply o_improper; eauto; discriminate).
      * eapply o_alias; eauto.
      * eapply o_group; eauto.
    + inversion E; subst. rewrite repV_fatal by eauto using look_fatal. eapply o_wrong; eauto.
  - intros c name args w r w' K E. pose proof (SCmc _ _ _ _ _ _ K E) as [Np _]. split; auto.
    split; [eapply (map_step_ok X L (S n) (NPrelude PAny)); eauto|]. rewrite validate_map_choiceify_S in E.
    destruct (L c name args) as [[t' c']|e|] eqn:Lk; [| |destruct (look_np _ Hlk _ _ _ Lk)].
    + destruct t'; try (inversion E; subst; apply (NilM (AskOneOfM c name args)); auto; eapply mo_improper; eauto; discriminate).
      * destruct (IHmc _ _ _ _ _ _ K E) as (_ & _ & W1 & p & Wp & S1 & P).
        split; auto. exists p. split; auto. split; auto. eapply mo_alias; eauto.
      * destruct (ItemsM _ _ _ _ _ K E) as (_ & _ & W1 & p & Wp & S1 & P).
        split; auto. exists p. split; auto. split; auto. eapply mo_group; eauto.
    + inversion E; subst. apply (NilM (AskOneOfM c name args)); [auto|eauto using look_fatal|]. eapply mo_wrong; eauto.
Qed.
End Exact.

Section Final.
Variable X : ext.
Variable lk : lookup_context.
Hypothesis Hlk : forall name e, lk name = inr e -> is_fatal e = true.

Theorem acts_exact c t v r : keys_sorted v ->
  (acts X lk (AskType c t v) r <-> ruling (val X lk v t c) = Some r).
Proof.
  intros K. destruct (val_spec X lk v t c) as (n & E). pose proof (proj1 (main X lk Hlk n) c t v _ K E) as P.
  pose proof (proj1 (VC X lk Hlk n) v t c K) as C. specialize (C _ E). rewrite (repV_ruling _ C). split.
  - intros P'. f_equal. eapply acts_det; eauto.
  - intros [= <-]. exact P.
Qed.
Theorem acts_array c m a : Forall keys_sorted a -> exists r took rest,
  aval X lk m (WA a [[]]) c = (r, WA rest [took]) /\ clean nocut r /\ acts X lk (AskArr c m a) (repA r took (WA rest [took])).
Proof.
  intros K. destruct (aval_spec X lk m (WA a [[]]) c) as (n & E). destruct (aval X lk m (WA a [[]]) c) as [r w'].
  destruct (proj1 (proj2 (main X lk Hlk n)) c m (WA a [[]]) r w' ltac:(split; cbn; auto) E) as (C & _ & p & S & P).
  destruct w' as [rest s]. cbn in S. subst s. eauto 6.
Qed.
Theorem acts_map c m es : map_ok (WM es [[]]) -> exists r took rest,
  mval X lk m (WM es [[]]) c = (r, WM rest [took]) /\ r <> Panic /\ acts X lk (AskMap c m es) (repM r took (WM rest [took])).
Proof.
  intros K. destruct (mval_spec X lk m (WM es [[]]) c) as (n & E). destruct (mval X lk m (WM es [[]]) c) as [r w'].
  destruct (proj1 (proj2 (proj2 (main X lk Hlk n))) c m (WM es [[]]) r w' K E) as (C & _ & _ & p & _ & S & P).
  destruct w' as [rest s]. cbn in S. subst s. eauto 6.
Qed.
End Final.
