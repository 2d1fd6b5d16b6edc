(** The implementation follows the ordered-choice reading on tame schemas. *)
From Coq Require Import List Bool ZArith NArith String Lia Arith Permutation.
From Verif Require Import Base Util Data Value Convert Ivt Scalar Validate Unfold Mono Fun ValueOrder
  ArrayInv MapInv ConvertProofs NoPanic SpecCtx CtxProofs SpecBase SpecData MapProofs SpecPos GroupProofs
  SpecVerdict SpecConvert ConvertExact SpecPeg PegProofs.
Import ListNotations.

Definition ansV (r : res unit) : answer :=
  match r with
  | Ok _ => Yes
  | Err (EMismatch _) => No
  | Err (EMapCut _) => Cut
  | Err e => Bad (error_kind e)
  | Panic => Cut
  end.
Definition ansA (r : res unit) (w : warray) : answer :=
  match r with Ok _ => RestA (wa_array w) | _ => ansV r end.
Definition ansM (r : res unit) (w : wmap) : answer :=
  match r with Ok _ => RestM (wm_map w) | _ => ansV r end.

Section Exact.
Variable X : ext.
Variable lk : lookup_context.
Hypothesis Hlk : forall name e, lk name = inr e -> is_fatal e = true.
Notation L := (lookup_rule lk).
Notation peg := (peg X lk).

Definition nocut (e : verror) : Prop := forall m, e <> EMapCut m.
Lemma look_nocut c name args : clean nocut (L c name args).
Proof.
  apply lookup_rule_good; unfold nocut; try discriminate.
  intros nm e H m ->. specialize (Hlk _ _ H). discriminate.
Qed.
Lemma look_fatal c name args e : L c name args = Err e -> is_fatal e = true.
Proof.
  intros H. pose proof (lookup_rule_good (fun e => is_fatal e = true) lk ltac:(reflexivity) ltac:(reflexivity) Hlk c name args) as [_ G].
  apply G; auto.
Qed.
Lemma look_np c name args : L c name args <> Panic.
Proof. apply look_nocut. Qed.
Definition VC n := validate_clean nocut ltac:(unfold nocut; discriminate) ltac:(unfold nocut; discriminate)
  ltac:(unfold nocut; discriminate) ltac:(unfold nocut; discriminate) X L look_nocut n.

Lemma ansV_fatal e : is_fatal e = true -> ansV (Err e) = Bad (error_kind e).
Proof. destruct e; cbn; auto; discriminate. Qed.
Lemma ansV_verdict r : r <> Panic -> verdict r = Some (ansV r).
Proof. destruct r as [|[]|]; cbn; auto; congruence. Qed.

(** ** Loops over arrays *)
Definition stepA (c : ctx) (m : node) (f : warray -> option (res unit * warray)) : Prop :=
  forall w r w', arr_ok w -> f w = Some (r, w') ->
    clean nocut r /\ arr_ok w' /\ peg (QArr c m (wa_array w)) (ansA r w').
Definition keepA (f : warray -> option (res unit * warray)) : Prop :=
  forall w msg w', arr_ok w -> f w = Some (Err (EMismatch msg), w') -> wa_array w' = wa_array w.

Lemma ansA_err e w : clean nocut (A := unit) (Err e) -> ansA (Err e) w = (if is_fatal e then Bad (error_kind e) else No).
Proof. intros [_ H]. destruct e; cbn; auto. destruct (H _ eq_refl expected). auto. Qed.
Lemma ansM_err e w : ansM (Err e) w =
  match e with EMismatch _ => No | EMapCut _ => Cut | _ => Bad (error_kind e) end.
Proof. destruct e; auto. Qed.

Lemma seqA c f ms : (forall m, In m ms -> stepA c m (f m)) ->
  forall w r w', arr_ok w -> seq_loop f ms w = Some (r, w') ->
    clean nocut r /\ arr_ok w' /\ peg (QSeqA c ms (wa_array w)) (ansA r w').
Proof.
  induction ms as [|m ms IH]; intros H w r w' K E; cbn in E.
  - inversion E; subst. split; [apply clean_ok|]. split; auto. apply seqa_nil.
  - destruct (f m w) as [[[u|e|] w1]|] eqn:F; [| | |discriminate].
    + destruct (H m (or_introl eq_refl) _ _ _ K F) as (_ & K1 & P1).
      destruct (IH ltac:(intros; apply H; right; auto) _ _ _ K1 E) as (C2 & K2 & P2).
      split; auto. split; auto. eapply seqa_cons; eauto.
    + inversion E; subst. destruct (H m (or_introl eq_refl) _ _ _ K F) as (C1 & K1 & P1).
      split; auto. split; auto. eapply seqa_stop; [exact P1|]. intros a'. rewrite ansA_err by auto. destruct (is_fatal e); discriminate.
    + destruct (H m (or_introl eq_refl) _ _ _ K F) as ((Np & _) & _). congruence.
Qed.

Lemma anyA c f os fin : (forall m, In m os -> stepA c m (f m)) -> (forall m, In m os -> keepA (f m)) ->
  forall w r w', arr_ok w -> try_loop is_fatal f os (EMismatch fin) w = Some (r, w') ->
    clean nocut r /\ arr_ok w' /\ peg (QAny (map (fun m => QArr c m (wa_array w)) os)) (ansA r w').
Proof.
  induction os as [|m os IH]; intros H Kp w r w' K E; cbn in E.
  - inversion E; subst. split; [apply clean_err; unfold nocut; discriminate|]. split; auto. apply any_none.
  - destruct (f m w) as [[[u|e|] w1]|] eqn:F; [| | |discriminate];
      destruct (H m (or_introl eq_refl) _ _ _ K F) as (C1 & K1 & P1).
    + inversion E; subst. split; [apply clean_ok|]. split; auto. cbn [map]. eapply any_first; [exact P1|discriminate].
    + rewrite ansA_err in P1 by auto. destruct (is_fatal e) eqn:Fe.
      * inversion E; subst. split; auto. split; auto. cbn [map]. rewrite ansA_err, Fe by auto.
        eapply any_first; [exact P1|discriminate].
      * assert (exists msg, e = EMismatch msg) as (msg & ->).
        { destruct e; try discriminate; eauto. destruct C1 as [_ C1]. destruct (C1 _ eq_refl expected). auto. }
        pose proof (Kp m (or_introl eq_refl) _ _ _ K F) as R.
        destruct (IH ltac:(intros; apply H; right; auto) ltac:(intros; apply Kp; right; auto) _ _ _ K1 E) as (C2 & K2 & P2).
        split; auto. split; auto. cbn [map]. apply any_next; auto. rewrite <- R. auto.
    + destruct C1 as (Np & _). congruence.
Qed.

Definition countA (k : N) (r : res N) (w : warray) : answer :=
  match r with Ok n => CountA (n - k) (wa_array w) | Err e => Bad (error_kind e) | Panic => Cut end.
Lemma repA c m f n up : stepA c m f -> keepA f ->
  forall count w r w', arr_ok w -> (count < up)%N -> occur_loop n f up count w = Some (r, w') ->
    clean nocut r /\ arr_ok w' /\ (forall e, r = Err e -> is_fatal e = true) /\ (forall k, r = Ok k -> (count <= k)%N) /\
    peg (QRepA c m (up - count) (wa_array w)) (countA count r w').
Proof.
  intros H Kp. induction n as [|n IH]; intros count w r w' K Lt E; cbn in E; [discriminate|].
  destruct (f w) as [[[u|e|] w1]|] eqn:F; [| | |discriminate]; destruct (H _ _ _ K F) as (C1 & K1 & P1).
  - destruct (N.leb_spec up (count + 1)).
    + inversion E; subst. split; [apply clean_ok|]. split; auto. split; [discriminate|]. split; [intros k [= <-]; lia|]. cbn.
      replace (up - count)%N with 1%N by lia. replace (count + 1 - count)%N with 1%N by lia.
      apply (repa_more X lk c m 1 _ (wa_array w') (CountA 0 (wa_array w'))); [lia|exact P1|]. apply repa_full.
    + destruct (IH (count + 1)%N _ _ _ K1 ltac:(lia) E) as (C2 & K2 & F2 & Le & P2). split; auto. split; auto. split; auto.
      split; [intros k Hk; apply Le in Hk; lia|].
      replace (countA count r w') with (one_more (countA (count + 1) r w')).
      * apply repa_more with (a' := wa_array w1); [lia|exact P1|]. replace (up - count - 1)%N with (up - (count + 1))%N by lia. exact P2.
      * destruct r; cbn; auto. f_equal. specialize (Le _ eq_refl). lia.
  - rewrite ansA_err in P1 by auto. destruct (is_mismatch e) eqn:Mi.
    + inversion E; subst. destruct e; try discriminate. split; [apply clean_ok|]. split; auto. split; [discriminate|].
      split; [intros k [= <-]; lia|]. cbn. rewrite N.sub_diag. rewrite (Kp _ _ _ K F). apply repa_end; [lia|]. exact P1.
    + inversion E; subst. assert (Fe : is_fatal e = true).
      { destruct e; try discriminate; auto. destruct C1 as [_ C1]. destruct (C1 _ eq_refl expected). auto. }
      rewrite Fe in P1. split; [split; [discriminate|]; intros e' [= <-]; destruct C1; auto|]. split; auto.
      split; [intros e' [= <-]; auto|]. split; [discriminate|]. cbn. apply repa_bad; [lia|exact P1].
  - destruct C1; congruence.
Qed.

(** ** Loops over maps *)
Definition stepM (q : entries -> query) (f : wmap -> option (res unit * wmap)) : Prop :=
  forall w r w', map_ok w -> f w = Some (r, w') -> r <> Panic /\ map_ok w' /\ peg (q (wm_map w)) (ansM r w').
Definition keepM (f : wmap -> option (res unit * wmap)) : Prop :=
  forall w msg w', map_ok w -> f w = Some (Err (EMismatch msg), w') -> wm_map w' = wm_map w.

Lemma seqM c f ms : (forall m, In m ms -> stepM (QMap c m) (f m)) ->
  forall w r w', map_ok w -> seq_loop f ms w = Some (r, w') ->
    r <> Panic /\ map_ok w' /\ peg (QSeqM c ms (wm_map w)) (ansM r w').
Proof.
  induction ms as [|m ms IH]; intros H w r w' K E; cbn in E.
  - inversion E; subst. split; [discriminate|]. split; auto. apply seqm_nil.
  - destruct (f m w) as [[[u|e|] w1]|] eqn:F; [| | |discriminate].
    + destruct (H m (or_introl eq_refl) _ _ _ K F) as (_ & K1 & P1).
      destruct (IH ltac:(intros; apply H; right; auto) _ _ _ K1 E) as (C2 & K2 & P2).
      split; auto. split; auto. eapply seqm_cons; eauto.
    + inversion E; subst. destruct (H m (or_introl eq_refl) _ _ _ K F) as (C1 & K1 & P1).
      split; auto. split; auto. eapply seqm_stop; [exact P1|]. intros a'. rewrite ansM_err. destruct e; discriminate.
    + destruct (H m (or_introl eq_refl) _ _ _ K F) as (Np & _). congruence.
Qed.

Lemma anyM {A} (q : A -> entries -> query) f os fin :
  (forall m, In m os -> stepM (q m) (f m)) -> (forall m, In m os -> keepM (f m)) ->
  forall w r w', map_ok w ->
    (fix go os w := match os with
       | [] => Some (Err (EMismatch fin), w)
       | o :: os' => match f o w with
                     | None => None
                     | Some (Ok _, s') => Some (Ok tt, s')
                     | Some (Err e, s') => if negb (is_mismatch e) then Some (Err e, s') else go os' s'
                     | Some (Panic, s') => Some (Panic, s')
                     end end) os w = Some (r, w') ->
    r <> Panic /\ map_ok w' /\ peg (QAny (map (fun m => q m (wm_map w)) os)) (ansM r w').
Proof.
  induction os as [|m os IH]; intros H Kp w r w' K E; cbn in E.
  - inversion E; subst. split; [discriminate|]. split; auto. apply any_none.
  - destruct (f m w) as [[[u|e|] w1]|] eqn:F; [| | |discriminate];
      destruct (H m (or_introl eq_refl) _ _ _ K F) as (C1 & K1 & P1).
    + inversion E; subst. split; [discriminate|]. split; auto. cbn [map]. eapply any_first; [exact P1|discriminate].
    + destruct (is_mismatch e) eqn:Fe; cbn in E.
      * destruct e; try discriminate.
        pose proof (Kp m (or_introl eq_refl) _ _ _ K F) as R.
        destruct (IH ltac:(intros; apply H; right; auto) ltac:(intros; apply Kp; right; auto) _ _ _ K1 E) as (C2 & K2 & P2).
        split; auto. split; auto. cbn [map]. apply any_next; auto. rewrite <- R. auto.
      * inversion E; subst. split; auto. split; auto. cbn [map]. rewrite ansM_err in *.
        eapply any_first; [exact P1|]. destruct e; discriminate.
    + congruence.
Qed.

Definition countM (k : N) (r : res N) (w : wmap) : answer :=
  match r with Ok n => CountM (n - k) (wm_map w) | Err e => ansM (Err e) w | Panic => Cut end.
Lemma repM c m f n up : stepM (QMap c m) f -> keepM f ->
  forall count w r w', map_ok w -> (count < up)%N -> occur_loop n f up count w = Some (r, w') ->
    r <> Panic /\ map_ok w' /\ (forall e, r = Err e -> is_mismatch e = false) /\ (forall k, r = Ok k -> (count <= k)%N) /\
    peg (QRepM c m (up - count) (wm_map w)) (countM count r w').
Proof.
  intros H Kp. induction n as [|n IH]; intros count w r w' K Lt E; cbn in E; [discriminate|].
  destruct (f w) as [[[u|e|] w1]|] eqn:F; [| | |discriminate]; destruct (H _ _ _ K F) as (C1 & K1 & P1).
  - destruct (N.leb_spec up (count + 1)).
    + inversion E; subst. split; [discriminate|]. split; auto. split; [discriminate|]. split; [intros k [= <-]; lia|]. cbn.
      replace (up - count)%N with 1%N by lia. replace (count + 1 - count)%N with 1%N by lia.
      apply (repm_more X lk c m 1 _ (wm_map w') (CountM 0 (wm_map w'))); [lia|exact P1|]. apply repm_full.
    + destruct (IH (count + 1)%N _ _ _ K1 ltac:(lia) E) as (C2 & K2 & F2 & Le & P2). split; auto. split; auto. split; auto.
      split; [intros k Hk; apply Le in Hk; lia|].
      replace (countM count r w') with (one_more (countM (count + 1) r w')).
      * apply repm_more with (es' := wm_map w1); [lia|exact P1|]. replace (up - count - 1)%N with (up - (count + 1))%N by lia. exact P2.
      * destruct r; cbn; auto; [|destruct e; auto]. f_equal. specialize (Le _ eq_refl). lia.
  - destruct (is_mismatch e) eqn:Mi.
    + inversion E; subst. destruct e; try discriminate. split; [discriminate|]. split; auto. split; [discriminate|].
      split; [intros k [= <-]; lia|]. cbn. rewrite N.sub_diag. rewrite (Kp _ _ _ K F). apply repm_end; [lia|]. exact P1.
    + inversion E; subst. split; [discriminate|]. split; auto.
      split; [intros e' [= <-]; auto|]. split; [discriminate|]. cbn [countM]. apply repm_stop; [lia|exact P1|].
      rewrite ansM_err. destruct e; try discriminate; eauto.
  - congruence.
Qed.

(** ** Pure choices *)
Lemma anyV {A} (q : A -> query) (f : A -> option (res unit)) fin os :
  (forall m r, In m os -> f m = Some r -> clean nocut r /\ peg (q m) (ansV r)) ->
  forall r, (fix go os := match os with
       | [] => Some (Err (EMismatch fin))
       | o :: os' => match f o with
                     | None => None
                     | Some (Ok _) => Some (Ok tt)
                     | Some (Err e) => if is_fatal e then Some (Err e) else go os'
                     | Some Panic => Some Panic
                     end end) os = Some r ->
    clean nocut r /\ peg (QAny (map q os)) (ansV r).
Proof.
  induction os as [|m os IH]; intros H r E; cbn in E.
  - inversion E; subst. split; [apply clean_err; unfold nocut; discriminate|]. apply any_none.
  - destruct (f m) as [[u|e|]|] eqn:F; [| | |discriminate];
      destruct (H m _ (or_introl eq_refl) F) as (C1 & P1); cbn [map].
    + inversion E; subst. split; [apply clean_ok|]. eapply any_first; [exact P1|discriminate].
    + destruct (is_fatal e) eqn:Fe.
      * inversion E; subst. split; auto. eapply any_first; [exact P1|]. rewrite ansV_fatal by auto. discriminate.
      * assert (exists msg, e = EMismatch msg) as (msg & ->).
        { destruct e; try discriminate; eauto. destruct C1 as [_ C1]. destruct (C1 _ eq_refl expected). auto. }
        destruct (IH ltac:(intros; apply H; auto; right; auto) _ E) as (C2 & P2). split; auto. apply any_next; auto.
    + destruct C1; congruence.
Qed.

Lemma anyV_loop (q : node -> query) f fin os :
  (forall m r, In m os -> f m = Some r -> clean nocut r /\ peg (q m) (ansV r)) ->
  forall r, try_loop_pure is_fatal f os (EMismatch fin) = Some r -> clean nocut r /\ peg (QAny (map q os)) (ansV r).
Proof.
  intros H r E. apply (anyV q f fin os H). rewrite <- E. clear. induction os as [|m os IH]; cbn; auto.
  destruct (f m) as [[u|e|]|]; auto. rewrite IH. reflexivity.
Qed.
Lemma anyM_loop (q : node -> entries -> query) f os fin :
  (forall m, In m os -> stepM (q m) (f m)) -> (forall m, In m os -> keepM (f m)) ->
  forall w r w', map_ok w -> try_loop (fun e => negb (is_mismatch e)) f os (EMismatch fin) w = Some (r, w') ->
    r <> Panic /\ map_ok w' /\ peg (QAny (map (fun m => q m (wm_map w)) os)) (ansM r w').
Proof.
  intros H Kp w r w' K E. apply (anyM q f os fin H Kp w r w' K). rewrite <- E. clear. revert w. induction os as [|m os IH]; intros w; cbn; auto.
  destruct (f m w) as [[[u|e|] s]|]; auto. rewrite IH. reflexivity.
Qed.

(** ** Keys *)
Lemma key_found c key k v post : forall pre,
  (forall x, In x pre -> exists o, peg (QType c key (fst x)) o /\ o <> Yes) -> peg (QType c key k) Yes ->
  peg (QKey c key (pre ++ (k, v) :: post)) (Entry k v (pre ++ post)).
Proof.
  induction pre as [|[k' v'] pre IH]; intros H P; cbn [app].
  - apply key_here; auto.
  - destruct (H _ (or_introl eq_refl)) as (o & Po & No_).
    apply (key_later X lk c key k' v' _ o (Entry k v (pre ++ post))); auto. apply IH; auto. intros; apply H; right; auto.
Qed.
Lemma key_missing c key : forall es,
  (forall x, In x es -> exists o, peg (QType c key (fst x)) o /\ o <> Yes) -> peg (QKey c key es) No.
Proof.
  induction es as [|[k' v'] es IH]; intros H.
  - apply key_none.
  - destruct (H _ (or_introl eq_refl)) as (o & Po & No_).
    apply (key_later X lk c key k' v' _ o No); auto. apply IH; auto. intros; apply H; right; auto.
Qed.
Lemma remove_split k v post : forall pre, sorted (pre ++ (k, v) :: post) ->
  snd (bt_remove k (pre ++ (k, v) :: post)) = pre ++ post.
Proof.
  induction pre as [|[k' v'] pre IH]; intros So; cbn [app bt_remove].
  - rewrite vcompare_refl. reflexivity.
  - pose proof So as So'. apply sorted_cons_inv in So. destruct So as [So F].
    assert (Lt : vcompare k' k = Lt). { rewrite Forall_forall in F. apply (F (k, v)). apply in_elt. }
    rewrite vcompare_antisym, Lt. cbn. rewrite <- (IH So). destruct (bt_remove k (pre ++ (k, v) :: post)). reflexivity.
Qed.

Lemma literal_peg c l k : peg (QType c (NLiteral l) k) (ansV (val X lk k (NLiteral l) c)).
Proof.
  apply leaf_peg; auto. apply ansV_verdict. rewrite val_eq. unfold validate_literal. match goal with |- context [if ?b then _ else _] => destruct b end; discriminate.
Qed.
Lemma key_search n c key w r :
  (forall k r, keys_sorted k -> validate X L n k key c = Some r -> clean nocut r /\ peg (QType c key k) (ansV r)) ->
  map_ok w -> validate_map_key X (fun v nd => validate X L n v nd c) key w = Some r ->
  (exists k v pre post, r = Ok (k, v) /\ wm_map w = pre ++ (k, v) :: post /\
     peg (QKey c key (wm_map w)) (Entry k v (pre ++ post))) \/
  (exists msg, r = Err (EMismatch msg) /\ peg (QKey c key (wm_map w)) No).
Proof.
  intros H K E. destruct w as [m s].
  assert (Lit : forall l, key = NLiteral l -> r = map_key X lk key (WM m s) c).
  { intros l ->. cbn in E. injection E as <-. reflexivity. }
  assert (Sea : (forall l, key <> NLiteral l) -> exists fin, fin = EMismatch (txt "map{" ++ show_node X key ++ txt "}") /\
     map_search_loop (fun k => validate X L n k key c) m fin = Some r).
  { intros N. eexists; split; [reflexivity|]. destruct key; try exact E. destruct (N l); auto. }
  clear E. destruct (match key with NLiteral l => Some l | _ => None end) as [l|] eqn:Ek.
  - destruct key; inversion Ek; subst. specialize (Lit _ eq_refl). subst r.
    assert (Dec : forall x : value * value, ~ accepts X lk c (NLiteral l) (fst x) -> exists o, peg (QType c (NLiteral l) (fst x)) o /\ o <> Yes).
    { intros x Hx. eexists; split; [apply literal_peg|]. unfold accepts in Hx. destruct (val _ _ _ _ _) as [[]|e0|]; [tauto| |discriminate].
      destruct e0; discriminate. }
    destruct (map_key_cases X lk c (NLiteral l) m s K) as [(k & v & E & _)|(msg & E & N)].
    + left. pose proof E as E'. apply map_key_first in E'; auto. destruct E' as (pre & post & -> & Ac & Np).
      exists k, v, pre, post. split; auto. split; auto. cbn [wm_map]. apply key_found; auto.
      pose proof (literal_peg c l k) as P. unfold accepts in Ac. rewrite Ac in P. exact P.
    + right. exists msg. split; auto. cbn [wm_map]. apply key_missing. auto.
  - destruct (Sea ltac:(intros l ->; discriminate)) as (fin & -> & E). clear Sea Lit Ek.
    destruct K as (_ & En & _). cbn [wm_map] in *. induction m as [|[k v] m IH]; cbn in E.
    + inversion E; subst. right. eexists; split; [reflexivity|]. apply key_none.
    + inversion En as [|? ? [K1 K2] En']; subst. cbn in K1, K2.
      destruct (validate X L n k key c) as [[u|e|]|] eqn:V; [| | |discriminate]; destruct (H _ _ K1 V) as [Cl P].
      * inversion E; subst. left. exists k, v, [], m. split; auto. split; auto. apply key_here. exact P.
      * assert (ansV (Err e) <> Yes) by (destruct e; discriminate).
        destruct (IH En' E) as [(k' & v' & pre & post & -> & -> & P')|(msg & -> & P')].
        -- left. exists k', v', ((k, v) :: pre), post. split; auto. split; auto.
           exact (key_later X lk c key k v _ _ (Entry k' v' (pre ++ post)) P H0 P').
        -- right. exists msg. split; auto. exact (key_later X lk c key k v _ _ No P H0 P').
      * destruct Cl; congruence.
Qed.

(** ** The validator *)
Section Main.
Variables (c0 : ctx) (nd0 : node).
Notation U := (uses lk c0 nd0).
Notation fA n m c := (fun w => validate_array_member X L n m w c).
Notation fM n m c := (fun w => validate_map_member X L n m w c).
Definition fI n (c : ctx) (item : node) : wmap -> option (res unit * wmap) :=
  match item with
  | NKeyValue _ v _ => fM n v c
  | NRule name args => fun w => validate_map_choiceify X L n name args w c
  | _ => fM n item c
  end.
Hypothesis Hchoice : forall n c ms m, U AsArray c (NChoice ms) -> In m ms -> keepA (fA n m c).
Hypothesis Hoccur : forall n c l m, U AsArray c (NOccur l m) -> (1 <= snd (bounds l))%N /\ keepA (fA n m c).
Hypothesis HchoiceM : forall n c ms m, U AsMap c (NChoice ms) -> In m ms -> keepM (fM n m c).
Hypothesis HinlineM : forall n c ms m, U AsMap c (NChoiceifyInline ms) -> In m ms -> keepM (fM n m c).
Hypothesis HoccurM : forall n c l m, U AsMap c (NOccur l m) -> (1 <= snd (bounds l))%N /\ keepM (fM n m c).
Hypothesis HitemsM : forall n c name args is c' i, U AsOneOfM c (NRule name args) ->
  L c name args = Ok (NGroup is, c') -> In i is -> keepM (fI n c' i).

Lemma main n :
  (forall c nd v r, U AsType c nd -> keys_sorted v -> validate X L n v nd c = Some r -> peg (QType c nd v) (ansV r)) /\
  (forall c m w r w', U AsArray c m -> arr_ok w -> validate_array_member X L n m w c = Some (r, w') ->
     peg (QArr c m (wa_array w)) (ansA r w')) /\
  (forall c m w r w', U AsMap c m -> map_ok w -> validate_map_member X L n m w c = Some (r, w') ->
     peg (QMap c m (wm_map w)) (ansM r w')) /\
  (forall c name args v r, U AsOneOf c (NRule name args) -> keys_sorted v ->
     validate_choiceify X L n name args v c = Some r -> peg (QOneOf c name args v) (ansV r)) /\
  (forall c name args w r w', U AsOneOfM c (NRule name args) -> map_ok w ->
     validate_map_choiceify X L n name args w c = Some (r, w') -> peg (QOneOfM c name args (wm_map w)) (ansM r w')).
Proof.
  induction n as [|n (IHv & IHa & IHm & IHc & IHmc)]; [repeat split; intros; discriminate|].
  destruct (VC n) as (Cv & Ca & Cm & Cc & Cmc). destruct (VC (S n)) as (SCv & SCa & _).
  assert (Av : forall c nd v r, U AsType c nd -> keys_sorted v -> validate X L n v nd c = Some r ->
     clean nocut r /\ peg (QType c nd v) (ansV r)).
  { intros c nd v r Us K E. split; [exact (Cv _ _ _ K _ E)|eauto]. }
  assert (Ac : forall c name args v r, U AsOneOf c (NRule name args) -> keys_sorted v ->
     validate_choiceify X L n name args v c = Some r -> clean nocut r /\ peg (QOneOf c name args v) (ansV r)).
  { intros c name args v r Us K E. split; [exact (Cc _ _ _ _ K _ E)|eauto]. }
  assert (Aa : forall c m, U AsArray c m -> stepA c m (fA n m c)).
  { intros c m Us w r w' K E. pose proof (Ca _ _ _ _ _ K E) as Cl. split; auto. split; [|eauto].
    eapply arr_step_ok; eauto. apply Cl. }
  assert (Am : forall c m, U AsMap c m -> stepM (QMap c m) (fM n m c)).
  { intros c m Us w r w' K E. pose proof (Cm _ _ _ _ _ K E) as [Np _]. split; auto. split; [|eauto].
    eapply map_step_ok; eauto. }
  assert (Amc : forall c name args, U AsOneOfM c (NRule name args) ->
     stepM (QOneOfM c name args) (fun w => validate_map_choiceify X L n name args w c)).
  { intros c name args Us w r w' K E. pose proof (Cmc _ _ _ _ _ _ K E) as [Np _]. split; auto. split; [|eauto].
    eapply (map_step_ok X L n (NPrelude PAny)); eauto. }
  assert (Items : forall c is v r, (forall i, In i is -> U (item_role i) c (item_node i)) -> keys_sorted v ->
     validate_choiceify_members (fun m => validate X L n v m c) (fun name args => validate_choiceify X L n name args v c) is = Some r ->
     peg (QAny (map (one_of_item c v) is)) (ansV r)).
  { intros c is v r Us K E. refine (proj2 (anyV_loop (one_of_item c v) _ _ is _ r E)).
    intros i r' Hi E'. specialize (Us i Hi). destruct i; cbn in Us |- *; eauto. }
  assert (ItemsM : forall c is w r w', (forall i, In i is -> U (item_role_m i) c (item_node i)) ->
     (forall i, In i is -> keepM (fI n c i)) -> map_ok w ->
     validate_map_choiceify_members (fun m w => validate_map_member X L n m w c)
       (fun name args w => validate_map_choiceify X L n name args w c) is w = Some (r, w') ->
     peg (QAny (map (one_of_member c (wm_map w)) is)) (ansM r w')).
  { intros c is w r w' Us Ks K E.
    refine (proj2 (proj2 (anyM_loop (fun i es => one_of_member c es i) (fI n c) is _ _ Ks w r w' K E))).
    intros i Hi. specialize (Us i Hi). destruct i; cbn in Us |- *; auto. }
  split; [|split; [|split; [|split]]].
  - intros c nd v r Us K E. pose proof (SCv v nd c K r E) as Cl.
    destruct (leaf nd) eqn:Lf.
    { apply leaf_peg; auto. rewrite (val_run _ _ _ _ _ _ _ E). apply ansV_verdict, Cl. }
    rewrite validate_S in E. destruct nd; try discriminate.
    + destruct (L c name args) as [[t' c']|e|] eqn:Lk; [| |destruct (look_np _ _ _ Lk)].
      * eapply t_rule; eauto. eapply IHv; eauto. eapply use_name; eauto.
      * inversion E; subst. rewrite ansV_fatal by eauto using look_fatal. eapply t_rule_bad; eauto.
    + apply t_choice. refine (proj2 (anyV_loop (fun t => QType c t v) _ _ options _ r E)).
      intros m r' Hm E'. eapply Av; eauto. eapply use_choice; eauto.
    + unfold validate_map in E. destruct v; try (inversion E; subst; apply t_map_no; discriminate).
      destruct (seq_loop _ _ _) as [[r1 w1]|] eqn:S; [|discriminate].
      destruct (seqM c (fun m => fM n m c) members ltac:(intros; apply Am; eapply use_map; eauto) _ _ _ (keys_map_ok _ K) S)
        as (Np & K1 & P).
      replace (ansV r) with (whole (ansM r1 w1)); [apply t_map; exact P|].
      destruct r1 as [u|e|]; [| |congruence].
      * cbn. destruct (wm_map w1); inversion E; reflexivity.
      * inversion E; subst. destruct e; reflexivity.
    + unfold validate_array in E. destruct v; try (inversion E; subst; apply t_array_no; discriminate).
      destruct (seq_loop _ _ _) as [[r1 w1]|] eqn:S; [|discriminate].
      apply keys_sorted_array in K.
      destruct (seqA c (fun m => fA n m c) members ltac:(intros; apply Aa; eapply use_array; eauto) (wa_new l) _ _ ltac:(split; auto; constructor) S)
        as (Np & K1 & P).
      replace (ansV r) with (whole (ansA r1 w1)); [apply t_array; exact P|].
      destruct r1 as [u|e|]; [| |destruct Np; congruence].
      * cbn. destruct (wa_array w1); inversion E; reflexivity.
      * inversion E; subst. destruct e; try reflexivity. destruct Np as [_ Np]. destruct (Np _ eq_refl expected); auto.
    + destruct members as [|t [|t2 ts]]; try (inversion E; subst; apply t_group_bad; discriminate).
      apply t_group. eapply IHv; eauto. eapply use_group; eauto. left; auto.
    + inversion E; subst. apply t_misplaced; auto.
    + inversion E; subst. apply t_misplaced; auto.
    + inversion E; subst. apply t_misplaced; auto.
    + destruct c1; try discriminate. cbn [validate_control] in E. unfold validate_control_cbor in E.
      destruct v; try (inversion E; subst; apply t_cbor_no; discriminate).
      destruct (cbor_decode X b) as [x|msg] eqn:D.
      * destruct (of_cbor_spec x) as [(v & Ev & Kv)|(msg & Ev)]; rewrite Ev in E.
        -- eapply t_cbor; [eassumption|apply of_cbor_exact; eassumption|]. eapply IHv; eauto. apply use_cbor; auto.
        -- inversion E; subst. eapply t_cbor_bad_value; eauto. apply of_cbor_tag in Ev. auto.
      * inversion E; subst. eapply t_cbor_bad; eauto.
    + apply t_one_of. eapply IHc; eauto. apply use_one_of; auto.
    + apply t_inline. eapply Items; eauto. intros; eapply use_inline; eauto.
  - intros c m w r w' Us K E. pose proof (SCa _ _ _ _ _ K E) as Cl.
    rewrite validate_array_member_S in E.
    assert (El : forall t, element_of m = Some t ->
       validate_array_value X (fun v nd => validate X L n v nd c) t w = Some (r, w') -> peg (QArr c m (wa_array w)) (ansA r w')).
    { intros t Et E'. unfold validate_array_value, wa_peek_front in E'. destruct w as [a s]. cbn [wa_array] in *.
      destruct a as [|v a]; [inversion E'; subst; eapply a_element_no; eauto|].
      destruct K as [K _]. cbn in K. inversion K; subst.
      destruct (validate X L n v t c) as [[u|e|]|] eqn:V; [| | |discriminate];
        (destruct (Av c t v _ ltac:(eapply use_element; eauto) H1 V) as [Cl' P]).
      - assert (r = Ok tt /\ wa_array w' = a) as [-> <-] by (unfold wa_pop_front in E'; cbn in E'; destruct s; inversion E'; subst; auto).
        exact (a_element X lk c m t v _ Yes Et P).
      - inversion E'; subst. replace (ansA (Err e) _) with (take a (ansV (Err e))); [eapply a_element; eauto|].
        destruct e; reflexivity.
      - destruct Cl'; congruence. }
    destruct m; try (eapply El; [reflexivity|exact E]).
    + destruct (L c name args) as [[t' c']|e|] eqn:Lk; [| |destruct (look_np _ _ _ Lk)].
      * eapply a_rule; eauto. eapply IHa; eauto. eapply use_name; eauto.
      * inversion E; subst. rewrite ansA_err by auto. rewrite (look_fatal _ _ _ _ Lk). eapply a_rule_bad; eauto.
    + apply a_choice. unfold choice_error, mismatch in E.
      eapply (anyA c (fun m => fA n m c)) in E; auto; [apply E| |]; intros m Hm; [apply Aa; eapply use_choice; eauto|eauto].
    + apply a_group. unfold validate_array_group in E.
      destruct (seq_loop _ _ _) as [[r1 w1]|] eqn:S; [|discriminate].
      destruct (seqA c (fun m => fA n m c) members ltac:(intros; apply Aa; eapply use_group; eauto) (wa_snapshot w) _ _
         ltac:(destruct K; split; cbn; auto) S) as (Np & K1 & P). cbn [wa_array wa_snapshot] in P.
      destruct r1 as [u|e|]; [| |destruct Np; congruence].
      * unfold wa_commit in E. destruct (wa_snaps w1); inversion E; subst; [destruct Cl; congruence|exact P].
      * unfold wa_rewind in E. destruct (wa_snaps w1); inversion E; subst; [destruct Cl; congruence|]. exact P.
    + unfold validate_array_occur in E. destruct (Hoccur n _ _ _ Us) as [Up Kp].
      rewrite limits_bounds in *; destruct (bounds limit) as [lo up] eqn:Li. cbn [snd] in Up.
      destruct (occur_loop _ _ _ _ _) as [[r1 w1]|] eqn:S; [|discriminate].
      destruct (repA c m _ n up (Aa c m ltac:(eapply use_occur; eauto)) Kp 0 w r1 w1 K ltac:(lia) S) as (Np & K1 & Fe & _ & P).
      replace (ansA r w') with (enough (fst (bounds limit)) (countA 0 r1 w1)).
      * apply a_occur. rewrite Li. cbn [snd]. rewrite N.sub_0_r in P. exact P.
      * rewrite Li. cbn [fst]. destruct r1 as [k|e|]; [| |destruct Np; congruence].
        -- cbn. rewrite N.sub_0_r. destruct (N.ltb_spec k lo); inversion E; subst.
           ++ destruct (N.leb_spec lo k); [lia|reflexivity].
           ++ destruct (N.leb_spec lo k); [reflexivity|lia].
        -- inversion E; subst. cbn [countA enough]. rewrite ansA_err by auto. rewrite (Fe _ eq_refl). reflexivity.
    + destruct (L c name args) as [[t' c']|e|] eqn:Lk; [| |destruct (look_np _ _ _ Lk)].
      * destruct (match t' with NArray ms => Some ms | _ => None end) as [ms|] eqn:Et.
        -- destruct t'; inversion Et; subst. eapply a_unwrap; eauto.
           eapply (seqA c' (fun m => fA n m c')) in E; auto; [apply E|]. intros; apply Aa; eapply use_unwrap; eauto.
        -- replace (ansA r w') with No; [eapply a_unwrap_no; eauto; intros ms ->; discriminate|].
           destruct t'; inversion E; subst; auto; discriminate.
      * inversion E; subst. rewrite ansA_err by auto. rewrite (look_fatal _ _ _ _ Lk). eapply a_unwrap_bad; eauto.
  - intros c m w r w' Us K E. rewrite validate_map_member_S in E.
    assert (Fat : forall e, is_fatal e = true -> ansM (Err e) w = Bad (error_kind e)) by (intros [] ?; auto; discriminate).
    destruct m; try (inversion E; subst; apply m_misplaced; reflexivity).
    + destruct (L c name args) as [[t' c']|e|] eqn:Lk; [| |destruct (look_np _ _ _ Lk)].
      * eapply m_rule; eauto. eapply IHm; eauto. eapply use_name; eauto.
      * inversion E; subst. rewrite Fat by eauto using look_fatal. eapply m_rule_bad; eauto.
    + apply m_choice. refine (proj2 (proj2 (anyM_loop (QMap c) (fun m => fM n m c) options _ _ _ w r w' K E)));
        intros m Hm; [apply Am; eapply use_choice; eauto|eauto].
    + unfold validate_map_group in E.
      destruct (seq_loop _ _ _) as [[r1 w1]|] eqn:S; [|discriminate].
      destruct (seqM c (fun m => fM n m c) members ltac:(intros; apply Am; eapply use_group; eauto) (wm_snapshot w) _ _
         ltac:(destruct K as (? & ? & ?); repeat split; cbn; auto) S) as (Np & K1 & P). cbn [wm_map wm_snapshot] in P.
      assert (r <> Panic) as Nr.
      { destruct (VC (Datatypes.S n)) as (_ & _ & SCm & _). refine (proj1 (SCm (NGroup members) w c r w' K _)).
        rewrite validate_map_member_S. unfold validate_map_group. rewrite S. exact E. }
      replace (ansM r w') with (end_cut (ansM r1 w1)); [apply m_group; exact P|].
      destruct r1 as [u|e|]; [| |congruence].
      * unfold wm_commit in E. destruct (wm_snaps w1); inversion E; subst; [congruence|reflexivity].
      * unfold wm_rewind in E. destruct (wm_snaps w1); inversion E; subst; [congruence|]. destruct e; reflexivity.
    + unfold validate_map_keyvalue in E.
      destruct (validate_map_key _ _ _ _) as [rk|] eqn:Ek; [|discriminate].
      destruct (key_search n c m1 w rk ltac:(intros; eapply Av; eauto; eapply use_key; eauto) K Ek)
        as [(k & v & pre & post & -> & Em & P)|(msg & -> & P)].
      * destruct w as [es s]. cbn [wm_map] in *. destruct K as (So & En & Sn). cbn in So, En.
        assert (Kv : keys_sorted v). { rewrite Forall_forall in En. apply (En (k, v)). rewrite Em. apply in_elt. }
        destruct (validate X L n v m2 c) as [[u|e|]|] eqn:V; [| | |discriminate];
          (destruct (Av c m2 v _ ltac:(eapply use_entry; eauto) Kv V) as [Cl' P']).
        -- rewrite (remove_entry es s k v) in E by (auto; rewrite Em; apply in_elt). inversion E; subst.
           cbn [ansM wm_map]. rewrite remove_split by auto.
           exact (m_entry X lk c m1 m2 cut _ _ _ _ _ P P').
        -- pose proof (m_entry X lk c m1 m2 cut _ _ _ _ _ P P') as Q.
           destruct cut, e; inversion E; subst; try exact Q; destruct Cl' as [_ Cl']; destruct (Cl' _ eq_refl expected); auto.
        -- destruct Cl'; congruence.
      * inversion E; subst. cbn. apply m_entry_no. auto.
    + unfold validate_map_occur in E. destruct (HoccurM n _ _ _ Us) as [Up Kp].
      rewrite limits_bounds in *; destruct (bounds limit) as [lo up] eqn:Li. cbn [snd] in Up.
      destruct (occur_loop _ _ _ _ _) as [[r1 w1]|] eqn:S; [|discriminate].
      destruct (repM c m _ n up (Am c m ltac:(eapply use_occur; eauto)) Kp 0 w r1 w1 K ltac:(lia) S) as (Np & K1 & Fe & _ & P).
      replace (ansM r w') with (enough (fst (bounds limit)) (countM 0 r1 w1)).
      * apply m_occur. rewrite Li. cbn [snd]. rewrite N.sub_0_r in P. exact P.
      * rewrite Li. cbn [fst]. destruct r1 as [k|e|]; [| |congruence].
        -- cbn. rewrite N.sub_0_r. destruct (N.ltb_spec k lo); inversion E; subst.
           ++ destruct (N.leb_spec lo k); [lia|reflexivity].
           ++ destruct (N.leb_spec lo k); [reflexivity|lia].
        -- inversion E; subst. cbn [countM]. rewrite !ansM_err. specialize (Fe _ eq_refl). destruct e; try discriminate; reflexivity.
    + destruct (L c name args) as [[t' c']|e|] eqn:Lk; [| |destruct (look_np _ _ _ Lk)].
      * destruct (match t' with NMap ms => Some ms | _ => None end) as [ms|] eqn:Et.
        -- destruct t'; inversion Et; subst. eapply m_unwrap; eauto.
           eapply (seqM c' (fun m => fM n m c')) in E; auto; [apply E|]. intros; apply Am; eapply use_unwrap_m; eauto.
        -- replace (ansM r w') with No; [eapply m_unwrap_no; eauto; intros ms ->; discriminate|].
           destruct t'; inversion E; subst; auto; discriminate.
      * inversion E; subst. rewrite Fat by eauto using look_fatal. eapply m_unwrap_bad; eauto.
    + apply m_one_of. eapply IHmc; eauto. apply use_one_of_m; auto.
    + apply m_inline. refine (proj2 (proj2 (anyM_loop (QMap c) (fun m => fM n m c) members _ _ _ w r w' K E)));
        intros m Hm; [apply Am; eapply use_inline_m; eauto|eauto].
  - intros c name args v r Us K E. rewrite validate_choiceify_S in E.
    destruct (L c name args) as [[t' c']|e|] eqn:Lk; [| |destruct (look_np _ _ _ Lk)].
    + destruct t'; try (inversion E; subst; eapply t_one_of_improper; eauto; discriminate).
      * eapply t_one_of_alias; eauto. eapply IHc; eauto. eapply use_one_of_alias; eauto.
      * eapply t_one_of_group; eauto. eapply Items; eauto. intros; eapply use_one_of_group; eauto.
    + inversion E; subst. rewrite ansV_fatal by eauto using look_fatal. eapply t_one_of_bad; eauto.
  - intros c name args w r w' Us K E. rewrite validate_map_choiceify_S in E.
    destruct (L c name args) as [[t' c']|e|] eqn:Lk; [| |destruct (look_np _ _ _ Lk)].
    + destruct t'; try (inversion E; subst; eapply m_one_of_improper; eauto; discriminate).
      * eapply m_one_of_alias; eauto. eapply IHmc; eauto. eapply use_one_of_alias; eauto.
      * eapply m_one_of_group; eauto. eapply ItemsM; eauto. intros; eapply use_one_of_group_m; eauto.
    + inversion E; subst.
      assert (Fe := look_fatal _ _ _ _ Lk).
      replace (ansM (Err e) w') with (Bad (error_kind e)) by (destruct e; auto; discriminate). eapply m_one_of_bad; eauto.
Qed.
End Main.
End Exact.
