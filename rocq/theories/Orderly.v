(** On orderly schemas everything the schema describes is accepted. *)
From Coq Require Import List Bool ZArith NArith String Lia Arith Permutation.
From Verif Require Import Base Util Data Value Convert Ivt Scalar Validate Unfold Mono Fun ValueOrder
  ArrayInv MapInv ConvertProofs NoPanic SpecCtx CtxProofs SpecBase SpecData MapProofs SpecVerdict SpecConvert ConvertExact SpecJudge JudgeProofs
  SpecPeg PegProofs PegExact PegTame SpecOrderly.
Import ListNotations.
Open Scope list_scope.

(** * Induction on the declarative reading *)
Section MeansInd.
Variable X : ext.
Variable lk : lookup_context.
Notation means := (means X lk).
Variable P : ctx -> node -> thing -> Prop.
Variable Q : ctx -> text -> list node -> thing -> Prop.
Variable R : ctx -> node -> thing -> Prop.
Notation both c m x := (means c m x /\ P c m x).
Hypothesis H_leaf : forall c t v, leaf t = true -> val X lk v t c = Ok tt -> P c t (AValue v).
Hypothesis H_name : forall c name args t' c' x,
    lookup_rule lk c name args = Ok (t', c') -> means c' t' x -> P c' t' x -> P c (NRule name args) x.
Hypothesis H_choice : forall c ts t x, In t ts -> means c t x -> P c t x -> P c (NChoice ts) x.
Hypothesis H_parens : forall c t v, means c t (AValue v) -> P c t (AValue v) -> P c (NGroup [t]) (AValue v).
Hypothesis H_array : forall c ms parts,
    Forall2 (fun m a => both c m (AList a)) ms parts -> P c (NArray ms) (AValue (VArray (List.concat parts))).
Hypothesis H_map : forall c ms parts es,
    Forall2 (fun m p => both c m (ASet p)) ms parts -> respects lk c ms parts -> Permutation es (List.concat parts) ->
    P c (NMap ms) (AValue (VMap es)).
Hypothesis H_cbor : forall c t b x v, cbor_decode X b = inl x -> of_cbor x = Ok v -> means c t (AValue v) -> P c t (AValue v) ->
    P c (NControl (CtlCbor t)) (AValue (VBytes b)).
Hypothesis H_one_of : forall c name args v, Q c name args (AValue v) -> P c (NChoiceify name args) (AValue v).
Hypothesis H_one_of_entries : forall c name args es, Q c name args (ASet es) -> P c (NChoiceify name args) (ASet es).
Hypothesis H_inline : forall c is i v, In i is -> R c i (AValue v) -> P c (NChoiceifyInline is) (AValue v).
Hypothesis H_inline_entries : forall c is i es, In i is -> P c i (ASet es) -> P c (NChoiceifyInline is) (ASet es).
Hypothesis H_element : forall c m t v, element_of m = Some t -> means c t (AValue v) -> P c t (AValue v) -> P c m (AList [v]).
Hypothesis H_entry : forall c key t cut k v, means c key (AValue k) -> P c key (AValue k) -> means c t (AValue v) -> P c t (AValue v) ->
    P c (NKeyValue key t cut) (ASet [(k, v)]).
Hypothesis H_group : forall c ms parts,
    Forall2 (fun m a => both c m (AList a)) ms parts -> P c (NGroup ms) (AList (List.concat parts)).
Hypothesis H_group_entries : forall c ms parts es,
    Forall2 (fun m p => both c m (ASet p)) ms parts -> respects lk c ms parts -> Permutation es (List.concat parts) ->
    P c (NGroup ms) (ASet es).
Hypothesis H_unwrap : forall c name args ms c' parts,
    lookup_rule lk c name args = Ok (NArray ms, c') ->
    Forall2 (fun m a => both c' m (AList a)) ms parts -> P c (NUnwrap name args) (AList (List.concat parts)).
Hypothesis H_unwrap_entries : forall c name args ms c' parts es,
    lookup_rule lk c name args = Ok (NMap ms, c') ->
    Forall2 (fun m p => both c' m (ASet p)) ms parts -> respects lk c' ms parts -> Permutation es (List.concat parts) ->
    P c (NUnwrap name args) (ASet es).
Hypothesis H_occur : forall c l m parts,
    (fst (bounds l) <= N.of_nat (List.length parts) <= snd (bounds l))%N ->
    Forall (fun a => both c m (AList a)) parts -> P c (NOccur l m) (AList (List.concat parts)).
Hypothesis H_occur_entries : forall c l m parts es,
    (fst (bounds l) <= N.of_nat (List.length parts) <= snd (bounds l))%N ->
    Forall (fun p => both c m (ASet p)) parts -> Permutation es (List.concat parts) ->
    P c (NOccur l m) (ASet es).
Hypothesis H_of_group : forall c name args is c' i x,
    lookup_rule lk c name args = Ok (NGroup is, c') -> In i is -> R c' i x -> Q c name args x.
Hypothesis H_of_alias : forall c name args name' args' c' x,
    lookup_rule lk c name args = Ok (NRule name' args', c') -> Q c' name' args' x -> Q c name args x.
Hypothesis H_value : forall c k t cut x, means c t x -> P c t x -> R c (NKeyValue k t cut) x.
Hypothesis H_iname : forall c name args x, Q c name args x -> R c (NRule name args) x.
Hypothesis H_plain : forall c i x, match i with NKeyValue _ _ _ | NRule _ _ => False | _ => True end ->
    means c i x -> P c i x -> R c i x.

Fixpoint means_induct c n x (H : means c n x) {struct H} : P c n x
with one_of_induct c name args x (H : one_of X lk c name args x) {struct H} : Q c name args x
with item_induct c i x (H : item_means X lk c i x) {struct H} : R c i x.
Proof.
  - destruct H.
    + apply H_leaf; [eapply judges_leaf; eauto|apply judges_ok; auto].
    + eapply H_name; eauto.
    + eapply H_choice; eauto.
    + apply H_parens; auto.
    + apply H_array. revert ms parts H. fix G 3. intros ms parts [|m a ms' ps' h t]; constructor; [split; [exact h|apply means_induct; exact h]|apply G; exact t].
    + eapply H_map; [|exact H0|exact H1]. clear H0 H1 es. revert ms parts H. fix G 3. intros ms parts [|m a ms' ps' h t]; constructor; [split; [exact h|apply means_induct; exact h]|apply G; exact t].
    + eapply H_cbor; eauto. apply of_cbor_exact; auto.
    + apply H_one_of. apply one_of_induct; exact H.
    + apply H_one_of_entries. apply one_of_induct; exact H.
    + eapply H_inline; eauto.
    + eapply H_inline_entries; eauto.
    + eapply H_element; eauto.
    + apply H_entry; auto.
    + apply H_group. revert ms parts H. fix G 3. intros ms parts [|m a ms' ps' h t]; constructor; [split; [exact h|apply means_induct; exact h]|apply G; exact t].
    + eapply H_group_entries; [|exact H0|exact H1]. clear H0 H1 es. revert ms parts H. fix G 3. intros ms parts [|m a ms' ps' h t]; constructor; [split; [exact h|apply means_induct; exact h]|apply G; exact t].
    + eapply H_unwrap; [exact H|]. clear H. revert ms parts H0. fix G 3. intros ms parts [|m a ms' ps' h t]; constructor; [split; [exact h|apply means_induct; exact h]|apply G; exact t].
    + eapply H_unwrap_entries; [exact H| |exact H1|exact H2]. clear H H1 H2 es. revert ms parts H0. fix G 3. intros ms parts [|m a ms' ps' h t]; constructor; [split; [exact h|apply means_induct; exact h]|apply G; exact t].
    + apply H_occur; [exact H|]. clear H. revert parts H0. fix G 2. intros parts [|a ps' h t]; constructor; [split; [exact h|apply means_induct; exact h]|apply G; exact t].
    + eapply H_occur_entries; [exact H| |exact H1]. clear H H1 es. revert parts H0. fix G 2. intros parts [|a ps' h t]; constructor; [split; [exact h|apply means_induct; exact h]|apply G; exact t].
  - destruct H.
    + eapply H_of_group; eauto.
    + eapply H_of_alias; eauto.
  - destruct H.
    + apply H_value; auto.
    + apply H_iname; auto.
    + apply H_plain; auto.
Qed.
End MeansInd.

(** * The ordered-choice reading on tame schemas always answers *)
Definition okA (a : list value) : Prop := Forall keys_sorted a.
Definition okM (es : entries) : Prop := sorted es /\ Forall ent_ok es.

Section Total.
Variable X : ext.
Variable lk : lookup_context.
Hypothesis Hlk : forall name e, lk name = inr e -> is_fatal e = true.
Notation L := (lookup_rule lk).
Notation peg := (peg X lk).
Variables (c0 : ctx) (nd0 : node).
Notation U := (uses lk c0 nd0).
Hypothesis T : tame lk c0 nd0.

Lemma tame_main n :
  (forall c nd v r, U AsType c nd -> keys_sorted v -> validate X L n v nd c = Some r -> peg (QType c nd v) (ansV r)) /\
  (forall c m w r w', U AsArray c m -> arr_ok w -> validate_array_member X L n m w c = Some (r, w') ->
     peg (QArr c m (wa_array w)) (ansA r w')) /\
  (forall c m w r w', U AsMap c m -> map_ok w -> validate_map_member X L n m w c = Some (r, w') ->
     peg (QMap c m (wm_map w)) (ansM r w')) /\
  (forall c name args v r, U AsOneOf c (NRule name args) -> keys_sorted v ->
     validate_choiceify X L n name args v c = Some r -> peg (QOneOf c name args v) (ansV r)) /\
  (forall c name args w r w', U AsOneOfM c (NRule name args) -> map_ok w ->
     validate_map_choiceify X L n name args w c = Some (r, w') -> peg (QOneOfM c name args (wm_map w)) (ansM r w')).
Proof.
  assert (KA : forall n c m, steady lk c m -> keepA (fun w => validate_array_member X L n m w c)).
  { intros n' c' m St w msg w' Kw F. apply aval_run in F. eapply steady_keeps; eauto. }
  assert (KM : forall n c m, steady_m lk c m -> keepM (fun w => validate_map_member X L n m w c)).
  { intros n' c' m St w msg w' Kw F. apply mval_run in F. eapply (proj1 (steady_m_keeps X lk Hlk)); eauto. }
  assert (KI : forall n c i, steady_item lk c i -> keepM (fI X lk n c i)).
  { intros n' c' i St w msg w' Kw F. apply (proj2 (proj2 (steady_m_keeps X lk Hlk)) _ _ St w msg w' Kw).
    destruct i; cbn in F |- *; solve [eapply mval_run; eauto|eapply mchval_run; eauto]. }
  refine (main X lk Hlk c0 nd0 _ _ _ _ _ _ n).
  - intros; apply KA. eapply tame_choice; eauto.
  - intros n' c' l m Us. destruct (tame_occur _ _ _ T _ _ _ Us). split; auto.
  - intros; apply KM. eapply tame_choice_m; eauto.
  - intros; apply KM. eapply tame_inline_m; eauto.
  - intros n' c' l m Us. destruct (tame_occur_m _ _ _ T _ _ _ Us). split; auto.
  - intros; apply KI. eapply tame_items_m; eauto.
Qed.

Lemma answer_type c t v : U AsType c t -> keys_sorted v -> peg (QType c t v) (ansV (val X lk v t c)).
Proof.
  intros Us K. destruct (val_spec X lk v t c) as (n & E). eapply (proj1 (tame_main n)); eauto.
Qed.
Lemma total_type c t v : U AsType c t -> keys_sorted v ->
  peg (QType c t v) Yes \/ peg (QType c t v) No \/ exists e, peg (QType c t v) (Bad e).
Proof.
  intros Us K. pose proof (answer_type c t v Us K) as P. destruct (val_spec X lk v t c) as (n & E).
  destruct (VC X lk Hlk n) as (Cv & _). specialize (Cv _ _ _ K _ E). destruct Cv as [Np Nc].
  destruct (val X lk v t c) as [u|e|]; [|destruct e|congruence]; cbn in P; eauto.
  destruct (Nc _ eq_refl expected); auto.
Qed.
Lemma total_one_of c name args v : U AsOneOf c (NRule name args) -> keys_sorted v ->
  peg (QOneOf c name args v) Yes \/ peg (QOneOf c name args v) No \/ exists e, peg (QOneOf c name args v) (Bad e).
Proof.
  intros Us K. destruct (chval_spec X lk name args v c) as (n & E).
  pose proof (proj1 (proj2 (proj2 (proj2 (tame_main n)))) _ _ _ _ _ Us K E) as P.
  destruct (VC X lk Hlk n) as (_ & _ & _ & Cc & _). specialize (Cc _ _ _ _ K _ E). destruct Cc as [Np Nc].
  destruct (chval X lk name args v c) as [u|e|]; [|destruct e|congruence]; cbn in P; eauto.
  destruct (Nc _ eq_refl expected); auto.
Qed.
Lemma total_array c m a : U AsArray c m -> okA a ->
  (exists a', peg (QArr c m a) (RestA a')) \/ peg (QArr c m a) No \/ exists e, peg (QArr c m a) (Bad e).
Proof.
  intros Us K. destruct (aval_spec X lk m (wa_new a) c) as (n & E).
  destruct (aval X lk m (wa_new a) c) as [r w'] eqn:Ea.
  assert (Kw : arr_ok (wa_new a)) by (split; auto; constructor).
  pose proof (proj1 (proj2 (tame_main n)) c m _ _ _ Us Kw E) as P.
  destruct (VC X lk Hlk n) as (_ & Ca & _). specialize (Ca _ _ _ _ _ Kw E). destruct Ca as [Np Nc].
  destruct r as [u|e|]; [|destruct e|congruence]; cbn in P; eauto.
  destruct (Nc _ eq_refl expected); auto.
Qed.
Lemma total_map c m es : U AsMap c m -> okM es ->
  (exists es', peg (QMap c m es) (RestM es') /\ okM es') \/ peg (QMap c m es) No \/ peg (QMap c m es) Cut \/
  exists e, peg (QMap c m es) (Bad e).
Proof.
  intros Us K. destruct (mval_spec X lk m (wm_new es) c) as (n & E).
  destruct (mval X lk m (wm_new es) c) as [r w'] eqn:Ea.
  assert (Kw : map_ok (wm_new es)) by (destruct K; split; [|split]; auto; constructor).
  pose proof (proj1 (proj2 (proj2 (tame_main n))) c m _ _ _ Us Kw E) as P.
  destruct (VC X lk Hlk n) as (_ & _ & Cm & _). specialize (Cm _ _ _ _ _ Kw E). destruct Cm as [Np _].
  pose proof (map_step_ok X L n m _ _ _ _ (or_introl E) Np Kw) as [K' _].
  destruct r as [u|e|]; [|destruct e|congruence]; cbn in P; eauto.
  left. exists (wm_map w'). split; auto. destruct K' as (? & ? & _). split; auto.
Qed.
End Total.

(** * Lists of entries *)
Lemma nodup_part {A} (p p' : list A) : NoDup p' -> incl p' p -> exists r, Permutation p (p' ++ r).
Proof.
  revert p. induction p' as [|x p' IH]; intros p N I; [exists p; auto|].
  inversion N; subst. assert (Hx : In x p) by (apply I; left; auto). apply in_split in Hx. destruct Hx as (l1 & l2 & ->).
  destruct (IH (l1 ++ l2)) as (r & Pr); auto.
  - intros y Hy. assert (In y (l1 ++ x :: l2)) as Hi by (apply I; right; auto).
    apply in_app_iff in Hi. apply in_app_iff. destruct Hi as [|[->|]]; auto. contradiction.
  - exists r. cbn. rewrite <- Permutation_middle. rewrite Pr. auto.
Qed.
Lemma ok_nodup es : okM es -> NoDup (keys es).
Proof. intros [S _]. apply sorted_nodup; auto. Qed.
Lemma ok_okE es : okM es -> okE es.
Proof. intros K. split; [apply ok_nodup; auto|apply K]. Qed.
Lemma ok_perm_nodup es es' : okM es -> Permutation es es' -> NoDup (keys es').
Proof. intros K P. eapply Permutation_NoDup; [apply keys_perm; exact P|apply ok_nodup; auto]. Qed.
Lemma nodup_keys es : NoDup (keys es) -> NoDup es.
Proof. apply NoDup_map_inv. Qed.
Lemma in_keys k v es : In (k, v) es -> In k (keys es).
Proof. intros H. apply in_map_iff. exists (k, v). auto. Qed.
Lemma nodup_same_key k v v' es : NoDup (keys es) -> In (k, v) es -> In (k, v') es -> v = v'.
Proof.
  intros N H1 H2. apply in_split in H1. destruct H1 as (l1 & l2 & ->). unfold keys in N. rewrite map_app in N. cbn in N.
  apply NoDup_remove_2 in N. apply in_app_iff in H2. destruct H2 as [H2|[H2|H2]].
  - destruct N. apply in_app_iff. left. apply (in_keys _ _ _ H2).
  - inversion H2; auto.
  - destruct N. apply in_app_iff. right. apply (in_keys _ _ _ H2).
Qed.
Lemma nodup_app_disjoint {A} (l l' : list A) x : NoDup (l ++ l') -> In x l -> ~ In x l'.
Proof.
  intros N H1 H2. apply in_split in H1. destruct H1 as (a & b & ->). rewrite <- app_assoc in N. cbn in N.
  apply NoDup_remove_2 in N. apply N. rewrite !in_app_iff. auto.
Qed.

(** Keys taken by a member are keys it wants. *)
Section Taken.
Variable X : ext.
Variable lk : lookup_context.
Notation means := (means X lk).
Notation wants := (wants X lk).
Variables (c0 : ctx) (nd0 : node).
Notation U := (uses lk c0 nd0).
Hypothesis H1 : forall c name args, ~ U AsMap c (NChoiceify name args).
Hypothesis H2 : forall c is, ~ U AsMap c (NChoiceifyInline is).
Lemma taken_wanted c m x : means c m x -> match x with ASet p => U AsMap c m -> forall k, In k (keys p) -> wants c m k | _ => True end.
Proof.
  apply (means_induct X lk
    (fun c m x => match x with ASet p => U AsMap c m -> forall k, In k (keys p) -> wants c m k | _ => True end)
    (fun _ _ _ _ => True) (fun _ _ _ => True)); clear c m x; auto.
  - intros c name args t' c' [|a|es] E _ IH; auto. intros Us k Hk. eapply wants_name; eauto. apply IH; auto. eapply use_name; eauto.
  - intros c ts t [|a|es] Ht _ IH; auto. intros Us k Hk. eapply wants_choice; eauto. apply IH; auto. eapply use_choice; eauto.
  - intros c name args es _ Us. destruct (H1 _ _ _ Us).
  - intros c is i es _ _ Us. destruct (H2 _ _ Us).
  - intros c key t cut k v Mk _ _ _ Us k' [<-|[]]. apply wants_entry; auto.
  - intros c ms parts es F _ Pe Us k Hk. apply (Permutation_in _ (keys_perm _ _ Pe)) in Hk. clear Pe.
    assert (exists m, In m ms /\ wants c m k) as (m & Hm & W).
    { assert (Hus : forall m, In m ms -> U AsMap c m) by (intros; eapply use_group; eauto). clear Us.
      induction F as [|m p ms' ps' [_ H] F IH]; cbn in Hk; [contradiction|]. rewrite keys_app in Hk. apply in_app_iff in Hk.
      destruct Hk as [Hk|Hk]; [exists m; split; [left|]; auto; apply H; auto; apply Hus; left; auto|].
      destruct IH as (m' & ? & ?); auto; [intros; apply Hus; right; auto|]. exists m'. split; [right|]; auto. }
    eapply wants_group; eauto.
  - intros c name args ms c' parts es E F _ Pe Us k Hk. apply (Permutation_in _ (keys_perm _ _ Pe)) in Hk. clear Pe.
    assert (exists m, In m ms /\ wants c' m k) as (m & Hm & W).
    { assert (Hus : forall m, In m ms -> U AsMap c' m) by (intros; eapply use_unwrap_m; eauto). clear Us E.
      induction F as [|m p ms' ps' [_ H] F IH]; cbn in Hk; [contradiction|]. rewrite keys_app in Hk. apply in_app_iff in Hk.
      destruct Hk as [Hk|Hk]; [exists m; split; [left|]; auto; apply H; auto; apply Hus; left; auto|].
      destruct IH as (m' & ? & ?); auto; [intros; apply Hus; right; auto|]. exists m'. split; [right|]; auto. }
    eapply wants_unwrap; eauto.
  - intros c l m parts es _ F Pe Us k Hk. apply (Permutation_in _ (keys_perm _ _ Pe)) in Hk. clear Pe.
    apply wants_occur. assert (Um : U AsMap c m) by (eapply use_occur; eauto). clear Us.
    induction F as [|p ps' [_ H] F IH]; cbn in Hk; [contradiction|]. rewrite keys_app in Hk. apply in_app_iff in Hk. destruct Hk; auto.
Qed.
End Taken.

(** * Completeness *)
Section Complete.
Variable X : ext.
Variable lk : lookup_context.
Hypothesis Hlk : forall name e, lk name = inr e -> is_fatal e = true.
Notation L := (lookup_rule lk).
Notation peg := (peg X lk).
Notation means := (means X lk).
Notation extends := (extends X lk).
Notation begins := (begins X lk).
Notation wants := (wants X lk).
Variables (c0 : ctx) (nd0 : node).
Notation U := (uses lk c0 nd0).
Hypothesis O : orderly X lk c0 nd0.
Let T : tame lk c0 nd0 := ord_tame _ _ _ _ O.

Let TW := taken_wanted X lk c0 nd0 (ord_one_of _ _ _ _ O) (ord_inline _ _ _ _ O).
Definition bad (q : query) : Prop := exists e, peg q (Bad e).

Lemma any_at {A} (f : A -> query) pre x post o : o <> No ->
  (forall y, In y pre -> peg (f y) No \/ bad (f y)) -> peg (f x) o \/ bad (f x) ->
  peg (QAny (map f (pre ++ x :: post))) o \/ bad (QAny (map f (pre ++ x :: post))).
Proof.
  intros Ho. induction pre as [|y pre IH]; intros H Hx; cbn [map app].
  - destruct Hx as [Hx|(e & Hx)]; [left; apply any_first; auto|right; exists e; apply any_first; auto; discriminate].
  - destruct (H y (or_introl eq_refl)) as [Hy|(e & Hy)].
    + destruct IH as [IH|(e & IH)]; auto; [intros; apply H; right; auto|left; apply any_next; auto|right; exists e; apply any_next; auto].
    + right. exists e. apply any_first; auto. discriminate.
Qed.
Lemma any_yes {A} (f : A -> query) l x : In x l ->
  (forall y, In y l -> peg (f y) Yes \/ peg (f y) No \/ bad (f y)) -> peg (f x) Yes \/ bad (f x) ->
  peg (QAny (map f l)) Yes \/ bad (QAny (map f l)).
Proof.
  induction l as [|y l IH]; intros Hx H Px; [contradiction|]. cbn [map].
  destruct (H y (or_introl eq_refl)) as [Hy|[Hy|(e & Hy)]].
  - left. apply any_first; auto. discriminate.
  - destruct Hx as [->|Hx].
    + destruct Px as [Px|(e & Px)]; pose proof (peg_det _ _ _ _ Px _ Hy); discriminate.
    + destruct IH as [IH'|(e & IH')]; auto; [intros; apply H; right; auto|left; apply any_next; auto|right; exists e; apply any_next; auto].
  - right. exists e. apply any_first; auto. discriminate.
Qed.

(** What is proved of each description. *)
Definition PA (c : ctx) (n : node) (a : list value) : Prop :=
  forall b, okA (a ++ b) -> (forall v b', b = v :: b' -> ~ extends c n v) ->
    peg (QArr c n (a ++ b)) (RestA b) \/ bad (QArr c n (a ++ b)).
Definition PV (c : ctx) (n : node) (v : value) : Prop :=
  keys_sorted v -> peg (QType c n v) Yes \/ bad (QType c n v).

(** ** Arrays *)
Lemma group_means c ms parts : Forall2 (fun m a => means c m (AList a) /\ (U AsArray c m -> PA c m a)) ms parts ->
  means c (NGroup ms) (AList (List.concat parts)).
Proof. intros F. apply mean_group. induction F as [|m a ms' ps' [M _] F IH]; constructor; auto. Qed.
Lemma in_order_tail c m ms : in_order X lk c (m :: ms) -> in_order X lk c ms.
Proof. intros H pre m' post v -> E. exact (H (m :: pre) m' post v eq_refl E). Qed.

Lemma means_group_cons c m ms a b : means c m (AList a) -> means c (NGroup ms) (AList b) -> means c (NGroup (m :: ms)) (AList (a ++ b)).
Proof.
  intros Ma Mb. inversion Mb; subst; try discriminate. change (a ++ List.concat parts) with (List.concat (a :: parts)).
  apply mean_group. constructor; auto.
Qed.

Lemma seqA_complete c : forall ms parts, Forall2 (fun m a => means c m (AList a) /\ (U AsArray c m -> PA c m a)) ms parts ->
  forall b, (forall m, In m ms -> U AsArray c m) -> in_order X lk c ms -> okA (List.concat parts ++ b) ->
  (forall v b', b = v :: b' -> ~ extends c (NGroup ms) v) ->
  peg (QSeqA c ms (List.concat parts ++ b)) (RestA b) \/ bad (QSeqA c ms (List.concat parts ++ b)).
Proof.
  induction 1 as [|m a ms parts [Mm Pm] F IH]; intros b Us Io K Ex; cbn [List.concat app].
  - left. apply seqa_nil.
  - cbn [List.concat] in K. rewrite <- app_assoc in K |- *.
    pose proof (group_means _ _ _ F) as Mg.
    assert (S : peg (QArr c m (a ++ List.concat parts ++ b)) (RestA (List.concat parts ++ b)) \/ bad (QArr c m (a ++ List.concat parts ++ b))).
    { apply Pm; auto; [apply Us; left; auto|]. intros v b' E Ev. destruct (List.concat parts) as [|v1 cp] eqn:Ec.
      - cbn in E. apply (Ex v b' E). destruct Ev as (x & y & Mx & My). exists x, y. split.
        + rewrite <- (app_nil_r x). apply means_group_cons; auto.
        + rewrite <- (app_nil_r (x ++ v :: y)). apply means_group_cons; auto.
      - inversion E; subst. apply (Io [] m ms v eq_refl Ev). exists cp. exact Mg. }
    destruct S as [S|(e & S)].
    + assert (okA (List.concat parts ++ b)) as K' by (apply Forall_app in K; apply K).
      destruct (IH b ltac:(intros; apply Us; right; auto) (in_order_tail _ _ _ Io) K') as [S2|(e & S2)].
      * intros v b' E (x & y & Mx & My). apply (Ex v b' E). exists (a ++ x), y. split; [apply means_group_cons; auto|].
        rewrite <- app_assoc. apply means_group_cons; auto.
      * left. eapply seqa_cons; eauto.
      * right. exists e. eapply seqa_cons; eauto.
    + right. exists e. apply seqa_stop; auto. discriminate.
Qed.

Lemma repA_complete c m : U AsArray c m -> repeatable X lk c m -> forall parts,
  Forall (fun a => means c m (AList a) /\ (U AsArray c m -> PA c m a)) parts ->
  forall up b, (N.of_nat (List.length parts) <= up)%N -> okA (List.concat parts ++ b) ->
  (forall v b', b = v :: b' -> parts <> [] -> ~ extends c m v) ->
  (forall v b', b = v :: b' -> (N.of_nat (List.length parts) < up)%N -> ~ begins c m v) ->
  peg (QRepA c m up (List.concat parts ++ b)) (CountA (N.of_nat (List.length parts)) b) \/ bad (QRepA c m up (List.concat parts ++ b)).
Proof.
  intros Us [Ne Re]. induction 1 as [|a parts [Ma Pa] F IH]; intros up b Le K Ex Be; cbn [List.concat app List.length].
  - destruct (N.eq_dec up 0) as [->|]; [left; apply repa_full|].
    assert (0 < up)%N by lia. destruct (total_array X lk Hlk c0 nd0 T c m b Us K) as [(b' & S)|[S|(e & S)]].
    + exfalso. pose proof (peg_sound_q _ _ _ _ S K) as (p & -> & Mp). destruct p as [|v p]; [contradiction|].
      apply (Be v (p ++ b') eq_refl); [cbn; lia|]. exists p. exact Mp.
    + left. apply repa_end; auto.
    + right. exists e. apply repa_bad; auto.
  - cbn [List.concat List.length] in *. rewrite <- app_assoc in K |- *. assert (0 < up)%N by lia.
    assert (S : peg (QArr c m (a ++ List.concat parts ++ b)) (RestA (List.concat parts ++ b)) \/ bad (QArr c m (a ++ List.concat parts ++ b))).
    { apply Pa; auto. intros v b' E Ev. destruct parts as [|a2 parts]; cbn in E.
      - apply (Ex v b' E); auto. discriminate.
      - inversion F as [|? ? [M2 _] _]; subst. destruct a2 as [|v2 a2]; [contradiction|]. cbn in E. inversion E; subst.
        apply (Re v Ev). exists a2. exact M2. }
    destruct S as [S|(e & S)]; [|right; exists e; apply repa_bad; auto].
    assert (okA (List.concat parts ++ b)) as K' by (apply Forall_app in K; apply K).
    destruct (IH (up - 1)%N b ltac:(lia) K') as [S2|(e & S2)].
    + intros v b' E N. apply (Ex v b' E). discriminate.
    + intros v b' E Lt. apply (Be v b' E). lia.
    + left. replace (N.of_nat (Datatypes.S (List.length parts))) with (N.of_nat (List.length parts) + 1)%N by lia.
      exact (repa_more X lk c m up _ _ _ H S S2).
    + right. exists e. exact (repa_more X lk c m up _ _ _ H S S2).
Qed.

Lemma occur_means c l m parts : (fst (bounds l) <= N.of_nat (List.length parts) <= snd (bounds l))%N ->
  Forall (fun a => means c m (AList a)) parts -> means c (NOccur l m) (AList (List.concat parts)).
Proof. intros; apply mean_occur; auto. Qed.

Lemma last_part {A} (ps : list (list A)) : ps <> [] -> exists qs a, ps = qs ++ [a].
Proof. intros H. destruct (exists_last H) as (qs & a & ->). eauto. Qed.
Lemma extends_occur c l m parts v : (fst (bounds l) <= N.of_nat (List.length parts) <= snd (bounds l))%N ->
  Forall (fun a => means c m (AList a)) parts -> parts <> [] -> extends c m v -> extends c (NOccur l m) v.
Proof.
  intros Lm F Ne (x & y & Mx & My). destruct (last_part _ Ne) as (qs & a & ->). apply Forall_app in F. destruct F as [F _].
  rewrite app_length in Lm. cbn in Lm.
  exists (List.concat (qs ++ [x])), y. split.
  - apply mean_occur; [rewrite app_length; cbn; lia|]. apply Forall_app; auto.
  - replace (List.concat (qs ++ [x]) ++ v :: y) with (List.concat (qs ++ [x ++ v :: y])).
    + apply mean_occur; [rewrite app_length; cbn; lia|]. apply Forall_app; auto.
    + rewrite !concat_app. cbn. rewrite !app_nil_r, app_assoc. auto.
Qed.
Lemma begins_occur c l m parts v : (fst (bounds l) <= N.of_nat (List.length parts) <= snd (bounds l))%N ->
  Forall (fun a => means c m (AList a)) parts -> (N.of_nat (List.length parts) < snd (bounds l))%N ->
  begins c m v -> extends c (NOccur l m) v.
Proof.
  intros Lm F Lt (x & Mx). exists (List.concat parts), x. split.
  - apply mean_occur; auto.
  - replace (List.concat parts ++ v :: x) with (List.concat (parts ++ [v :: x])) by (rewrite concat_app; cbn; rewrite app_nil_r; auto).
    apply mean_occur; [rewrite app_length; cbn; lia|]. apply Forall_app; auto.
Qed.
Lemma means_group_inv_list c ms a : means c (NGroup ms) (AList a) ->
  exists parts, a = List.concat parts /\ Forall2 (fun m p => means c m (AList p)) ms parts.
Proof. intros M; inversion M; subst; try discriminate; eauto. Qed.

(** ** Maps *)
Definition PM (c : ctx) (n : node) (p : entries) : Prop :=
  forall es r, okM es -> Permutation es (p ++ r) -> (forall k, In k (keys r) -> ~ wants c n k) ->
    (exists es', peg (QMap c n es) (RestM es') /\ okM es' /\ Permutation es' r) \/ bad (QMap c n es).

Lemma rest_ok c m es es' : U AsMap c m -> okM es -> peg (QMap c m es) (RestM es') -> okM es'.
Proof.
  intros Us K P. destruct (total_map X lk Hlk c0 nd0 T c m es Us K) as [(es2 & P2 & K2)|[P2|[P2|(e & P2)]]];
    pose proof (peg_det _ _ _ _ P _ P2) as E; inversion E; subst; auto.
Qed.

(** A cut is about a key that is there. *)
Definition cutq0 (q : query) : Prop :=
  match q with
  | QMap c m es => U AsMap c m -> okE es -> exists k, In k (keys es) /\ wants c m k
  | QSeqM c ms es => (forall m, In m ms -> U AsMap c m) -> okE es -> exists m k, In m ms /\ In k (keys es) /\ wants c m k
  | QRepM c m _ es => U AsMap c m -> okE es -> exists k, In k (keys es) /\ wants c m k
  | _ => True
  end.
Definition cutq (q : query) : Prop := match q with QAny qs => exists q', In q' qs /\ cutq0 q' | _ => cutq0 q end.
Lemma rest_keys c m es es' k : peg (QMap c m es) (RestM es') -> In k (keys es') -> In k (keys es).
Proof.
  intros P H. pose proof (peg_left _ _ _ _ P) as (p & Pe).
  apply (Permutation_in _ (Permutation_sym (keys_perm _ _ Pe))). rewrite keys_app. apply in_app_iff; auto.
Qed.
Lemma cut_wants_q q o : peg q o -> o = Cut -> cutq q.
Proof.
  induction 1; intros Eo; try discriminate; try exact I; subst;
    try (destruct o; cbn in Eo; try discriminate; specialize (IHpeg eq_refl)); cbn [cutq] in *.
  - destruct (IHpeg2 eq_refl) as (q' & H1 & H2). exists q'. split; [right|]; auto.
  - exists q. split; [left; auto|]. specialize (IHpeg eq_refl). destruct q; try exact I; try exact IHpeg.
  - cbn. intros Us De. pose proof (peg_sound_q _ _ _ _ H De) as [Pe Mk]. exists k. split; [|apply wants_entry; auto].
    apply (Permutation_in _ (Permutation_sym (keys_perm _ _ Pe))). left; auto.
  - intros Us De. destruct (IHpeg eq_refl) as (k & Hk & W); [eapply use_name; eauto|exact De|]. exists k. split; auto. eapply wants_name; eauto.
  - intros Us De. destruct (IHpeg eq_refl) as (m & k & Hm & Hk & W); [intros; eapply use_unwrap_m; eauto|exact De|]. exists k. split; auto. eapply wants_unwrap; eauto.
  - intros Us De. destruct (IHpeg eq_refl) as (q' & H1 & H2). apply in_map_iff in H1. destruct H1 as (m & <- & Hm).
    destruct H2 as (k & Hk & W); [eapply use_choice; eauto|exact De|]. exists k. split; auto. eapply wants_choice; eauto.
  - intros Us. destruct (ord_inline _ _ _ _ O _ _ Us).
  - intros Us. destruct (ord_one_of _ _ _ _ O _ _ _ Us).
  - intros Us De. assert (o = Cut) as ->.
    { destruct o; cbn in Eo; try discriminate; auto; destruct (N.leb _ _); discriminate. }
    destruct IHpeg as (k & Hk & W); auto; [eapply use_occur; eauto|]. exists k. split; auto. apply wants_occur; auto.
  - intros Us De. pose proof (peg_left _ _ _ _ H) as (p & Pl).
    destruct (IHpeg2 eq_refl) as (m' & k & Hm & Hk & W); [intros; apply Us; right; auto|eapply okE_rest; eauto|].
    exists m', k. split; [right; auto|]. split; auto. eapply rest_keys; eauto.
  - intros Us De. destruct (IHpeg eq_refl) as (k & Hk & W); [apply Us; left; auto|exact De|]. exists m, k. split; [left|]; auto.
  - destruct o; try discriminate. intros Us De. pose proof (peg_left _ _ _ _ H0) as (p & Pl).
    destruct (IHpeg2 eq_refl) as (k & Hk & W); [auto|eapply okE_rest; eauto|]. exists k. split; auto. eapply rest_keys; eauto.
  - auto.
Qed.
Lemma cut_wants c m es : peg (QMap c m es) Cut -> U AsMap c m -> okE es -> exists k, In k (keys es) /\ wants c m k.
Proof. intros P. exact (cut_wants_q _ _ P eq_refl). Qed.

(** Members without cuts do not cut. *)
Lemma any_cut {A} (f : A -> query) l : peg (QAny (map f l)) Cut -> exists x, In x l /\ peg (f x) Cut.
Proof.
  induction l as [|x l IH]; cbn; intros P; inversion P; subst.
  - destruct IH as (y & ? & ?); auto. exists y; auto.
  - exists x; auto.
Qed.
Lemma entry_in c key es k v others : peg (QKey c key es) (Entry k v others) -> In (k, v) es.
Proof.
  intros P. pose proof (peg_left _ _ _ _ P) as Pe. cbn in Pe. apply (Permutation_in _ (Permutation_sym Pe)). left; auto.
Qed.
Lemma cutless_entry_inv c key t cut : cutless lk c (NKeyValue key t cut) -> cut = false.
Proof. intros H; inversion H; auto. Qed.
Lemma cutless_no_cut c m : cutless lk c m -> U AsMap c m -> forall es, okM es -> ~ peg (QMap c m es) Cut.
Proof.
  induction 1 as [c key t|c ms|c name args H IH|c ms H IH|c l m H IH|c name args H IH]; intros Us es K P.
  - inversion P; subst; try discriminate.
    assert (keys_sorted v) as Kv.
    { destruct K as [_ K]. rewrite Forall_forall in K. apply (K (k, v)). eapply entry_in; eauto. }
    match goal with H : entry_done _ _ ?o = Cut, Q : peg (QType _ _ _) ?o |- _ => destruct o; try discriminate;
      destruct (total_type X lk Hlk c0 nd0 T c t v (use_entry _ _ _ _ _ _ _ Us) Kv) as [Q2|[Q2|(e & Q2)]];
      pose proof (peg_det _ _ _ _ Q _ Q2); discriminate end.
  - inversion P; subst; try discriminate. match goal with H : end_cut ?o = Cut |- _ => destruct o; discriminate end.
  - inversion P; subst; try discriminate. eapply IH; eauto. eapply use_name; eauto.
  - inversion P; subst; try discriminate. match goal with Q : peg (QAny _) Cut |- _ => apply any_cut in Q; destruct Q as (m & Hm & Q) end.
    eapply IH; eauto. eapply use_choice; eauto.
  - inversion P; subst; try discriminate. match goal with Q : peg (QRepM _ _ _ _) ?o, E : enough _ ?o = Cut |- _ => destruct o; cbn in E; try discriminate;
      try (match goal with E : (if ?b then _ else _) = Cut |- _ => destruct b; discriminate end); rename Q into R end.
    assert (Um : U AsMap c m) by (eapply use_occur; eauto). clear -R IH Um K O Hlk T.
    remember (QRepM c m (snd (bounds l)) es) as q eqn:Eq. remember Cut as o eqn:Eo. revert Eq. generalize (snd (bounds l)). revert es K.
    induction R; intros es0 K up0 Eq; try discriminate; inversion Eq; subst.
    + destruct o; try discriminate. exact (IHR2 eq_refl IH _ (rest_ok _ _ _ _ Um K R1) _ eq_refl).
    + eapply IH; eauto.
  - inversion P; subst; try discriminate.
    match goal with Q : L c name args = Ok (NMap ms, c'), R : peg (QSeqM _ _ _) Cut |- _ => rename R into R0, Q into Lk end.
    assert (Hus : forall m, In m ms -> U AsMap c' m) by (intros; eapply use_unwrap_m; eauto).
    assert (Hc : forall m es, In m ms -> okM es -> ~ peg (QMap c' m es) Cut) by (intros; eapply IH; eauto).
    clear -R0 Hus Hc K O Hlk T. revert es K R0. induction ms as [|m ms IHms]; intros es K R; inversion R; subst.
    + eapply IHms; [..|eassumption]; [intros; apply Hus; right; auto|intros; apply Hc; auto; right; auto|]. eapply rest_ok; eauto. apply Hus; left; auto.
    + eapply Hc; eauto. left; auto.
Qed.

(** Searching for a key. *)
Lemma key_yes c key t cut k : U AsMap c (NKeyValue key t cut) -> keys_sorted k ->
  means c key (AValue k) -> peg (QType c key k) Yes.
Proof.
  intros Us K M. pose proof (answer_type X lk Hlk c0 nd0 T c key k (use_key _ _ _ _ _ _ _ Us) K) as A.
  rewrite (ord_key _ _ _ _ O _ _ _ _ _ Us K M) in A. exact A.
Qed.
Lemma key_other c key t cut k : U AsMap c (NKeyValue key t cut) -> keys_sorted k ->
  ~ means c key (AValue k) -> exists o, peg (QType c key k) o /\ o <> Yes.
Proof.
  intros Us K M. eexists. split; [exact (answer_type X lk Hlk c0 nd0 T c key k (use_key _ _ _ _ _ _ _ Us) K)|].
  intros E. apply M. apply peg_sound; auto. rewrite <- E. apply answer_type with (c0 := c0) (nd0 := nd0); auto. eapply use_key; eauto.
Qed.
Lemma key_unwanted c key t cut es : U AsMap c (NKeyValue key t cut) -> okM es ->
  (forall k, In k (keys es) -> ~ means c key (AValue k)) -> peg (QKey c key es) No.
Proof.
  intros Us [_ K] H. apply key_missing. intros [k v] Hx. cbn. rewrite Forall_forall in K.
  eapply key_other; eauto; [apply (K _ Hx)|]. apply H. eapply in_keys; eauto.
Qed.
Lemma okM_sub es es' : okM es -> incl es' es -> sorted es' -> okM es'.
Proof. intros [_ K] I S. split; auto. rewrite Forall_forall in *. auto. Qed.
Lemma sorted_drop pre (x : value * value) post : sorted (pre ++ x :: post) -> sorted (pre ++ post).
Proof.
  induction pre as [|y pre IH]; cbn; intros H; apply sorted_cons_inv in H; destruct H as [H F]; auto.
  constructor; [apply IH; auto|]. apply Forall_app in F. destruct F as [F1 F2]. inversion F2; subst. apply Forall_app; auto.
Qed.
Lemma okM_drop pre x post : okM (pre ++ x :: post) -> okM (pre ++ post).
Proof.
  intros K. apply (okM_sub _ _ K); [|eapply sorted_drop; apply K]. intros y Hy. rewrite in_app_iff in *. cbn. tauto.
Qed.

(** ** Sequences of map members *)
Lemma group_means_m c ms parts : Forall2 (fun m p => means c m (ASet p) /\ (U AsMap c m -> PM c m p)) ms parts ->
  respects lk c ms parts -> means c (NGroup ms) (ASet (List.concat parts)).
Proof. intros F Rs. eapply mean_group_entries; [|exact Rs|apply Permutation_refl]. clear Rs. induction F as [|m a ms' ps' [M _] F IH]; constructor; auto. Qed.
Lemma keys_in_order_tail c m ms : keys_in_order X lk c (m :: ms) -> keys_in_order X lk c ms.
Proof. intros H pre m' post p p' k -> M1 M2 N Cl Hk. exact (H (m :: pre) m' post p p' k eq_refl M1 M2 N Cl Hk). Qed.
Lemma seqM_complete c : forall ms parts, Forall2 (fun m p => means c m (ASet p) /\ (U AsMap c m -> PM c m p)) ms parts ->
  forall es r, (forall m, In m ms -> U AsMap c m) -> keys_in_order X lk c ms -> respects lk c ms parts -> okM es -> Permutation es (List.concat parts ++ r) ->
  (forall k m, In k (keys r) -> In m ms -> ~ wants c m k) ->
  (exists es', peg (QSeqM c ms es) (RestM es') /\ okM es' /\ Permutation es' r) \/ bad (QSeqM c ms es).
Proof.
  induction 1 as [|m p ms parts [Mm Pm] F IH]; intros es r Us Io Rs K Pe W; cbn [List.concat app] in Pe.
  - left. exists es. split; [apply seqm_nil|]. auto.
  - rewrite <- app_assoc in Pe. pose proof (ok_perm_nodup _ _ K Pe) as N.
    destruct (Pm ltac:(apply Us; left; auto) es (List.concat parts ++ r) K Pe) as [(es' & S & K' & P')|(e & S)].
    + intros k Hk. rewrite keys_app in Hk. apply in_app_iff in Hk. destruct Hk as [Hk|Hk].
      * apply (Io [] m ms p (List.concat parts) k eq_refl Mm (group_means_m _ _ _ F (proj2 Rs))); auto; [|apply Rs].
        rewrite !keys_app in N. rewrite app_assoc in N. eapply nodup_app_l; eauto.
      * apply W; auto. left; auto.
    + destruct (IH es' r ltac:(intros; apply Us; right; auto) (keys_in_order_tail _ _ _ Io) (proj2 Rs) K' P') as [(es2 & S2 & K2 & P2)|(e & S2)].
      * intros k m' Hk Hm. apply W; auto. right; auto.
      * left. exists es2. split; auto. eapply seqm_cons; eauto.
      * right. exists e. eapply seqm_cons; eauto.
    + right. exists e. apply seqm_stop; auto. discriminate.
Qed.

(** ** Repeated entries *)
Lemma one_entry_no c m : one_entry lk c m -> U AsMap c m -> forall es, okM es ->
  (forall k, In k (keys es) -> ~ wants c m k) -> peg (QMap c m es) No \/ bad (QMap c m es).
Proof.
  induction 1 as [c key t cut|c name args H IH|c m H IH]; intros Us es K W.
  - left. apply m_entry_no. eapply key_unwanted; eauto. intros k Hk M. apply (W k Hk). apply wants_entry; auto.
  - destruct (L c name args) as [[m' c']|e|] eqn:E; [| |destruct (look_np lk Hlk _ _ _ E)].
    + destruct (IH _ _ eq_refl ltac:(eapply use_name; eauto) es K) as [S|(e & S)].
      * intros k Hk Wk. apply (W k Hk). eapply wants_name; eauto.
      * left. eapply m_rule; eauto.
      * right. exists e. eapply m_rule; eauto.
    + right. eexists. eapply m_rule_bad; eauto.
  - destruct (IH ltac:(eapply use_group; eauto; left; auto) es K) as [S|(e & S)].
    + intros k Hk Wk. apply (W k Hk). eapply wants_group; eauto. left; auto.
    + left. apply (m_group X lk c [m] es No). apply seqm_stop; [auto|discriminate].
    + right. exists e. apply (m_group X lk c [m] es (Bad e)). apply seqm_stop; [auto|discriminate].
Qed.
Lemma one_entry_found c m : one_entry lk c m -> U AsMap c m -> forall pre k v post o,
  okM (pre ++ (k, v) :: post) -> (forall k', In k' (keys pre) -> ~ wants c m k') -> wants c m k ->
  peg (QMap c m [(k, v)]) o -> (o = RestM [] \/ exists e, o = Bad e) ->
  peg (QMap c m (pre ++ (k, v) :: post)) (match o with RestM _ => RestM (pre ++ post) | _ => o end).
Proof.
  induction 1 as [c key t cut|c name args H IH|c m H IH]; intros Us pre k v post o K W Wk P Ho.
  - assert (Mk : means c key (AValue k)) by (inversion Wk; auto). clear Wk.
    destruct K as [_ K]. rewrite Forall_forall in K.
    assert (Kk : keys_sorted k) by (apply (K (k, v)), in_elt). assert (Kv : keys_sorted v) by (apply (K (k, v)), in_elt).
    pose proof (key_yes c key t cut k Us Kk Mk) as Pk.
    assert (Pq : peg (QKey c key (pre ++ (k, v) :: post)) (Entry k v (pre ++ post))).
      { apply key_found; auto. intros [k' v'] Hx. cbn. assert (Kk' : keys_sorted k') by (apply (K (k', v')), in_app_iff; auto).
        eapply key_other; eauto. intros M. destruct (W k' (in_keys _ _ _ Hx)). apply wants_entry; auto. }
      assert (P1 : peg (QKey c key [(k, v)]) (Entry k v [])) by (apply key_here; auto).
      inversion P; subst; try discriminate.
      * match goal with Q : peg (QKey _ _ _) No |- _ => pose proof (peg_det _ _ _ _ P1 _ Q); discriminate end.
      * match goal with Q : peg (QKey _ _ _) (Entry _ _ _) |- _ => pose proof (peg_det _ _ _ _ P1 _ Q) as Q2; inversion Q2; subst end.
        match goal with Q : peg (QType c t _) ?o |- _ => pose proof (m_entry X lk c key t cut _ _ _ _ o Pq Q) as R;
          pose proof (peg_sound_q _ _ _ _ Q Kv) as So; destruct o; cbn in R, Ho, So |- *; try contradiction; try exact R; destruct Ho as [Ho|(e' & Ho)]; try discriminate; destruct cut; try discriminate; exact R end.
  - inversion P; subst; try discriminate.
    + match goal with Q : L _ _ _ = Ok _ |- _ => rename Q into E end.
      eapply m_rule; eauto. apply (IH _ _ E); auto; [eapply use_name; eauto| |].
      * intros k' Hk' Wk'. apply (W k' Hk'). eapply wants_name; eauto.
      * inversion Wk; subst. match goal with Q : L _ _ _ = Ok _ |- _ => rewrite E in Q; inversion Q; subst end. auto.
    + eapply m_rule_bad; eauto.
  - inversion P; subst; try discriminate.
    assert (Um : U AsMap c m) by (eapply use_group; eauto; left; auto).
    assert (Wm : wants c m k) by (inversion Wk; subst; match goal with Hm : In _ [m] |- _ => destruct Hm as [<-|[]] end; auto).
    assert (Wp : forall k', In k' (keys pre) -> ~ wants c m k').
    { intros k' Hk' Wk'. apply (W k' Hk'). eapply wants_group; eauto. left; auto. }
    match goal with Q : peg (QSeqM _ _ _) ?o1 |- _ => inversion Q; subst end.
    + match goal with Q : peg (QSeqM _ [] _) _ |- _ => inversion Q; subst end.
      cbn [end_cut] in Ho. destruct Ho as [Ho|(e' & Ho)]; [|discriminate]. inversion Ho; subst.
      cbn [end_cut]. apply (m_group X lk c [m] _ (RestM (pre ++ post))). eapply seqm_cons; [|apply seqm_nil].
      refine (IH Um pre k v post (RestM []) K Wp Wm _ _); auto.
    + match goal with Q : forall es', ?o1 <> RestM es' |- _ => rename Q into Nr end.
      match goal with Q : peg (QMap c m [(k, v)]) ?o1 |- _ => rename Q into Pm;
        destruct o1; cbn [end_cut] in Ho |- *; destruct Ho as [Ho|(e' & Ho)]; try discriminate end.
      * destruct (Nr _ eq_refl).
      * apply (m_group X lk c [m] _ (Bad e)). apply seqm_stop; [|discriminate].
        refine (IH Um pre k v post (Bad e) K Wp Wm Pm _). right; eauto.
Qed.
Lemma one_entry_single c m : one_entry lk c m -> forall p, means c m (ASet p) -> exists k v, p = [(k, v)].
Proof.
  induction 1 as [c key t cut|c name args H IH|c m H IH]; intros p M; inversion M; subst; try discriminate; eauto.
  - match goal with F : Forall2 _ [m] _ |- _ => inversion F as [|? q ? ? M1 F1]; subst; inversion F1; subst end.
    destruct (IH _ M1) as (k & v & ->). cbn in *. match goal with Q : Permutation _ _ |- _ => apply Permutation_sym, Permutation_length_1_inv in Q end. eauto.
Qed.

Lemma pick {A} (eqb : A -> A -> bool) (Heq : forall x y, eqb x y = true <-> x = y) (l q : list A) :
  (exists pre x post, l = pre ++ x :: post /\ In x q /\ forall y, In y pre -> ~ In y q) \/ (forall y, In y l -> ~ In y q).
Proof.
  induction l as [|x l IH]; [right; intros ? []|].
  destruct (existsb (eqb x) q) eqn:E.
  - left. exists [], x, l. split; auto. apply existsb_exists in E. destruct E as (y & Hy & Q). apply Heq in Q. subst. split; auto.
  - assert (Nx : ~ In x q).
    { intros Hx. assert (existsb (eqb x) q = true) by (apply existsb_exists; exists x; split; auto; apply Heq; auto). congruence. }
    destruct IH as [(pre & y & post & -> & Hy & Hn)|IH].
    + left. exists (x :: pre), y, post. split; auto. split; auto. intros z [<-|Hz]; auto.
    + right. intros z [<-|Hz]; auto.
Qed.
Definition entry_eqb (x y : value * value) : bool := veqb (fst x) (fst y) && veqb (snd x) (snd y).
Lemma entry_eqb_eq x y : entry_eqb x y = true <-> x = y.
Proof.
  unfold entry_eqb. rewrite andb_true_iff, !veqb_eq. destruct x, y; cbn. split; [intros [-> ->]; auto|intros [= -> ->]; auto].
Qed.
Lemma repM_complete c m : one_entry lk c m -> U AsMap c m -> forall n parts, List.length parts = n ->
  Forall (fun p => means c m (ASet p) /\ (U AsMap c m -> PM c m p)) parts ->
  forall up es r, (N.of_nat n <= up)%N -> okM es -> Permutation es (List.concat parts ++ r) ->
  (forall k, In k (keys r) -> ~ wants c m k) ->
  (exists es', peg (QRepM c m up es) (CountM (N.of_nat n) es') /\ okM es' /\ Permutation es' r) \/ bad (QRepM c m up es).
Proof.
  intros Oe Us. induction n as [|n IH]; intros parts Len F up es r Le K Pe W.
  - destruct parts; [|discriminate]. cbn in Pe. destruct (N.eq_dec up 0) as [->|].
    + left. exists es. split; [apply repm_full|]. auto.
    + destruct (one_entry_no c m Oe Us es K) as [S|(e & S)].
      * intros k Hk. apply W. apply (Permutation_in _ (keys_perm _ _ Pe)); auto.
      * left. exists es. split; [|auto]. apply repm_end; [lia|auto].
      * right. exists e. apply repm_stop; [lia|auto|]. right; eauto.
  - assert (Hu : (0 < up)%N) by lia.
    destruct (pick entry_eqb entry_eqb_eq es (List.concat parts)) as [(pre & [k v] & post & Ees & Hx & Hn)|Hn].
    + apply in_concat in Hx. destruct Hx as (p & Hp & Hx). apply in_split in Hp. destruct Hp as (p1 & p2 & ->).
      rewrite Forall_app in F. destruct F as [F1 F2]. inversion F2 as [|? ? [Mp Pp] F3]; subst.
      destruct (one_entry_single _ _ Oe _ Mp) as (k1 & v1 & ->). destruct Hx as [[= -> ->]|[]].
      assert (Wk : wants c m k) by (apply (TW _ _ _ Mp Us); left; auto).
      assert (Perm' : Permutation (pre ++ post) (List.concat (p1 ++ p2) ++ r)).
      { apply (Permutation_cons_inv (a := (k, v))). rewrite Permutation_middle, Pe, !concat_app. cbn. rewrite <- !app_assoc. cbn.
        symmetry. apply (Permutation_middle (List.concat p1) (List.concat p2 ++ r) (k, v)). }
      pose proof (okM_drop _ _ _ K) as K'.
      assert (Wpre : forall k', In k' (keys pre) -> ~ wants c m k').
      { intros k' Hk'. apply in_map_iff in Hk'. destruct Hk' as ([k0 v'] & Q & Hk'). cbn in Q; subst k0. apply W.
        assert (In (k', v') (List.concat (p1 ++ [(k, v)] :: p2) ++ r)) as Hi by (apply (Permutation_in _ Pe); apply in_app_iff; auto).
        apply in_app_iff in Hi. destruct Hi as [Hi|Hi]; [destruct (Hn _ Hk' Hi)|apply (in_keys _ _ _ Hi)]. }
      assert (K1 : okM [(k, v)]).
      { destruct K as [_ K]. rewrite Forall_forall in K. split; [constructor; constructor|]. constructor; [apply K, in_elt|constructor]. }
      destruct (Pp Us [(k, v)] [] K1 ltac:(apply Permutation_refl) ltac:(intros ? [])) as [(es1 & S & _ & P1)|(e & S)].
      * apply Permutation_sym, Permutation_nil in P1. subst es1.
        pose proof (one_entry_found _ _ Oe Us pre k v post _ K Wpre Wk S (or_introl eq_refl)) as S1.
        rewrite app_length in Len. cbn in Len.
        destruct (IH (p1 ++ p2) ltac:(rewrite app_length; lia) ltac:(apply Forall_app; auto) (up - 1)%N _ r ltac:(lia) K' Perm' W)
          as [(es2 & S2 & K2 & P2)|(e & S2)].
        -- left. exists es2. split; [|auto]. replace (N.of_nat (Datatypes.S n)) with (N.of_nat n + 1)%N by lia.
           exact (repm_more X lk c m up _ _ _ Hu S1 S2).
        -- right. exists e. exact (repm_more X lk c m up _ _ _ Hu S1 S2).
      * right. exists e. apply repm_stop; auto; [|right; eauto].
        refine (one_entry_found _ _ Oe Us pre k v post (Bad e) K Wpre Wk S _). right; eauto.
    + exfalso. destruct parts as [|p parts]; [discriminate|]. inversion F as [|? ? [Mp _] _]; subst.
      destruct (one_entry_single _ _ Oe _ Mp) as (k & v & ->).
      apply (Hn (k, v)); [|left; auto]. apply (Permutation_in _ (Permutation_sym Pe)). left; auto.
Qed.

(** ** The main induction *)
Definition PP (c : ctx) (n : node) (x : thing) : Prop :=
  match x with
  | AValue v => U AsType c n -> PV c n v
  | AList a => U AsArray c n -> PA c n a
  | ASet p => U AsMap c n -> PM c n p
  end.
Definition QQ (c : ctx) (name : text) (args : list node) (x : thing) : Prop :=
  match x with
  | AValue v => U AsOneOf c (NRule name args) -> keys_sorted v -> peg (QOneOf c name args v) Yes \/ bad (QOneOf c name args v)
  | _ => True
  end.
Definition RR (c : ctx) (i : node) (x : thing) : Prop :=
  match x with
  | AValue v => U (item_role i) c (item_node i) -> keys_sorted v -> peg (one_of_item c v i) Yes \/ bad (one_of_item c v i)
  | _ => True
  end.
Lemma total_item c v i : U (item_role i) c (item_node i) -> keys_sorted v ->
  peg (one_of_item c v i) Yes \/ peg (one_of_item c v i) No \/ bad (one_of_item c v i).
Proof.
  intros Us K. destruct i; cbn in Us |- *; solve [eapply total_type; eauto|eapply total_one_of; eauto].
Qed.

Lemma complete c n x : means c n x -> PP c n x.
Proof.
  apply (means_induct X lk PP QQ RR); clear c n x.
  - intros c t v Lf E Us K. left. apply leaf_yes; auto.
  - intros c name args t' c' x E _ IH. destruct x as [v|a|p]; cbn in *; intros Us.
    + intros K. destruct (IH ltac:(eapply use_name; eauto) K) as [S|(e & S)]; [left|right; exists e]; eapply t_rule; eauto.
    + intros b K Ex. destruct (IH ltac:(eapply use_name; eauto) b K) as [S|(e & S)]; [|left; eapply a_rule; eauto|right; exists e; eapply a_rule; eauto].
      intros v b' Eb (y & z & My & Mz). apply (Ex v b' Eb). exists y, z. split; eapply mean_name; eauto.
    + intros es r K Pe W. destruct (IH ltac:(eapply use_name; eauto) es r K Pe) as [(es' & S & K' & P')|(e & S)].
      * intros k Hk Wk. apply (W k Hk). eapply wants_name; eauto.
      * left. exists es'. split; auto. eapply m_rule; eauto.
      * right. exists e. eapply m_rule; eauto.
  - intros c ts t x Ht M IH. destruct x as [v|a|p]; cbn in *; intros Us.
    + intros K. destruct (any_yes (fun t => QType c t v) ts t Ht) as [S|(e & S)].
      * intros y Hy. eapply total_type; eauto. eapply use_choice; eauto.
      * apply IH; auto. eapply use_choice; eauto.
      * left. apply t_choice; auto.
      * right. exists e. apply t_choice; auto.
    + intros b K Ex. apply in_split in Ht. destruct Ht as (pre & post & ->).
      destruct (any_at (fun m => QArr c m (a ++ b)) pre t post (RestA b)) as [S|(e & S)]; try discriminate.
      * intros y Hy. assert (Uy : U AsArray c y) by (eapply use_choice; eauto; apply in_app_iff; auto).
        destruct (total_array X lk Hlk c0 nd0 T c y _ Uy K) as [(b' & S)|[S|S]]; auto. exfalso.
        pose proof (peg_sound_q _ _ _ _ S K) as (p & Ep & Mp). apply in_split in Hy. destruct Hy as (q1 & q2 & ->).
        destruct (ord_choice _ _ _ _ O _ _ Us q1 y (q2 ++ t :: post) t ltac:(rewrite <- app_assoc; auto) ltac:(apply in_elt)) as [Ne Df].
        destruct p as [|v p]; [contradiction|]. destruct a as [|v' a].
        -- cbn in Ep. apply (Ex v (p ++ b') Ep). exists [], p. split; eapply mean_choice; eauto; repeat (rewrite in_app_iff; cbn); auto.
        -- inversion Ep; subst. apply (Df v); [exists p|exists a]; auto.
      * apply IH; auto; [eapply use_choice; eauto; apply in_elt|].
        intros v b' Eb (y & z & My & Mz). apply (Ex v b' Eb). exists y, z. split; eapply mean_choice; eauto; apply in_elt.
      * left. apply a_choice; auto.
      * right. exists e. apply a_choice; auto.
    + intros es r K Pe W. apply in_split in Ht. destruct Ht as (pre & post & ->).
      assert (Ut : U AsMap c t) by (eapply use_choice; eauto; apply in_elt).
      assert (Wt : forall k, In k (keys r) -> ~ wants c t k) by (intros k Hk Wk; apply (W k Hk); eapply wants_choice; eauto; apply in_elt).
      assert (N : forall y, In y pre -> peg (QMap c y es) No \/ bad (QMap c y es)).
      { intros y Hy. assert (Uy : U AsMap c y) by (eapply use_choice; eauto; apply in_app_iff; auto).
        assert (Wy : forall k, In k (keys r) -> ~ wants c y k) by (intros k Hk Wk; apply (W k Hk); eapply wants_choice; eauto; apply in_app_iff; auto).
        pose proof (ok_perm_nodup _ _ K Pe) as Nd.
        apply in_split in Hy. destruct Hy as (q1 & q2 & ->).
        destruct (ord_choice_m _ _ _ _ O _ _ Us q1 y (q2 ++ t :: post) t p ltac:(rewrite <- app_assoc; auto) ltac:(apply in_elt) M) as [Ds Dc].
        { rewrite keys_app in Nd. eapply nodup_app_l; eauto. }
        destruct (total_map X lk Hlk c0 nd0 T c y _ Uy K) as [(es' & S & _)|[S|[S|S]]]; auto; exfalso.
        - pose proof (peg_sound_q _ _ _ _ S (ok_okE _ K)) as (p' & Pp & Mp).
          pose proof (TW _ _ _ Mp Uy) as Tw. cbn in Tw.
          assert (Nd' : NoDup p') by (apply nodup_keys; pose proof (ok_perm_nodup _ _ K Pp) as Q; rewrite keys_app in Q; eapply nodup_app_l; eauto).
          destruct (nodup_part p p' Nd') as (r' & Pr).
          + intros [k v] Hx. assert (In (k, v) (p ++ r)) as Hi.
            { apply (Permutation_in _ Pe). apply (Permutation_in _ (Permutation_sym Pp)). apply in_app_iff; auto. }
            apply in_app_iff in Hi. destruct Hi as [|Hi]; auto. destruct (Wy k (in_keys _ _ _ Hi)). apply Tw. eapply in_keys; eauto.
          + exact (Ds _ _ Pr Mp).
        - destruct Dc as [Dc|Dc]; [exact (cutless_no_cut _ _ Dc Uy _ K S)|].
          destruct (cut_wants _ _ _ S Uy (ok_okE _ K)) as (k & Hk & Wk). apply (Permutation_in _ (keys_perm _ _ Pe)) in Hk.
          rewrite keys_app in Hk. apply in_app_iff in Hk. destruct Hk as [Hk|Hk]; [exact (Dc _ Hk Wk)|exact (Wy _ Hk Wk)]. }
      destruct (IH Ut es r K Pe Wt) as [(es' & S & K' & P')|S].
      * destruct (any_at (fun m => QMap c m es) pre t post (RestM es') ltac:(discriminate) N (or_introl S)) as [S2|(e & S2)].
        -- left. exists es'. split; auto. apply m_choice; auto.
        -- right. exists e. apply m_choice; auto.
      * destruct S as (e & S). destruct (any_at (fun m => QMap c m es) pre t post (Bad e) ltac:(discriminate) N (or_introl S)) as [S2|(e2 & S2)].
        -- right. exists e. apply m_choice; auto.
        -- right. exists e2. apply m_choice; auto.
  - intros c t v _ IH Us K. destruct (IH ltac:(eapply use_group; eauto; left; auto) K) as [S|(e & S)]; [left|right; exists e]; apply t_group; auto.
  - intros c ms parts F Us K. apply keys_sorted_array in K.
    destruct (seqA_complete c ms parts F [] ltac:(intros; eapply use_array; eauto) (ord_array _ _ _ _ O _ _ Us)) as [S|(e & S)].
    + rewrite app_nil_r; auto.
    + intros; discriminate.
    + rewrite app_nil_r in S. left. exact (t_array X lk c ms _ _ S).
    + rewrite app_nil_r in S. right. exists e. exact (t_array X lk c ms _ _ S).
  - intros c ms parts es F Rs Pe Us K. apply keys_sorted_map in K.
    destruct (seqM_complete c ms parts F es [] ltac:(intros; eapply use_map; eauto) (ord_map _ _ _ _ O _ _ Us) Rs) as [(es' & S & _ & P')|(e & S)].
    + destruct K; split; auto.
    + rewrite app_nil_r; auto.
    + intros k m [].
    + apply Permutation_sym, Permutation_nil in P'. subst. left. exact (t_map X lk c ms _ _ S).
    + right. exists e. exact (t_map X lk c ms _ _ S).
  - intros c t b x v D E M IH Us K. destruct (of_cbor_spec x) as [(v' & Ev & Kv)|(msg & Ev)]; rewrite E in Ev; inversion Ev; subst.
    destruct (IH ltac:(apply use_cbor; auto) Kv) as [S|(e & S)]; [left|right; exists e]; (eapply t_cbor; [eassumption|apply of_cbor_exact; eassumption|exact S]).
  - intros c name args v IH Us K. destruct (IH ltac:(apply use_one_of; auto) K) as [S|(e & S)]; [left|right; exists e]; apply t_one_of; auto.
  - intros c name args es _ Us. destruct (ord_one_of _ _ _ _ O _ _ _ Us).
  - intros c is i v Hi IH Us K. destruct (any_yes (one_of_item c v) is i Hi) as [S|(e & S)].
    + intros y Hy. apply total_item; auto. eapply use_inline; eauto.
    + apply IH; auto. eapply use_inline; eauto.
    + left. apply t_inline; auto.
    + right. exists e. apply t_inline; auto.
  - intros c is i es Hi _ Us. destruct (ord_inline _ _ _ _ O _ _ Us).
  - intros c m t v Et _ IH Us b K _. cbn in K |- *. inversion K; subst.
    destruct (IH ltac:(eapply use_element; eauto)) as [S|(e & S)]; auto.
    + left. exact (a_element X lk c m t v b _ Et S).
    + right. exists e. exact (a_element X lk c m t v b _ Et S).
  - intros c key t cut k v Mk IHk Mv IHv Us es r K Pe W.
    assert (Hin : In (k, v) es) by (apply (Permutation_in _ (Permutation_sym Pe)); left; auto).
    pose proof Hin as Hs. apply in_split in Hs. destruct Hs as (pre & post & ->).
    pose proof K as [_ Ks]. rewrite Forall_forall in Ks. destruct (Ks _ Hin) as [Kk Kv]. cbn in Kk, Kv.
    assert (Pr : Permutation (pre ++ post) r).
    { apply (Permutation_cons_inv (a := (k, v))). rewrite Permutation_middle. exact Pe. }
    pose proof (key_yes c key t cut k Us Kk Mk) as Pk.
    assert (Pq : peg (QKey c key (pre ++ (k, v) :: post)) (Entry k v (pre ++ post))).
    { apply key_found; auto. intros [k' v'] Hx. cbn. assert (Kk' : keys_sorted k') by (apply (Ks (k', v')), in_app_iff; auto).
      eapply key_other; eauto. intros M. destruct (W k'); [|apply wants_entry; auto]. apply (Permutation_in _ (keys_perm _ _ Pr)). eapply in_keys. apply in_app_iff; eauto. }
    destruct (IHv (use_entry _ _ _ _ _ _ _ Us) Kv) as [S|(e & S)].
    + left. exists (pre ++ post). split; [exact (m_entry X lk c key t cut _ _ _ _ _ Pq S)|]. split; auto. eapply okM_drop; eauto.
    + right. exists e. exact (m_entry X lk c key t cut _ _ _ _ _ Pq S).
  - intros c ms parts F Us b K Ex.
    destruct (seqA_complete c ms parts F b ltac:(intros; eapply use_group; eauto) (ord_group _ _ _ _ O _ _ Us) K Ex) as [S|(e & S)];
      [left|right; exists e]; apply a_group; auto.
  - intros c ms parts es F Rs Pe Us es0 r K Pe0 W.
    destruct (seqM_complete c ms parts F es0 r ltac:(intros; eapply use_group; eauto) (ord_group_m _ _ _ _ O _ _ Us) Rs K) as [(es' & S & K' & P')|(e & S)].
    + rewrite <- Pe. exact Pe0.
    + intros k m Hk Hm Wk. apply (W k Hk). eapply wants_group; eauto.
    + left. exists es'. split; auto. exact (m_group X lk c ms _ _ S).
    + right. exists e. exact (m_group X lk c ms _ _ S).
  - intros c name args ms c' parts E F Us b K Ex.
    destruct (seqA_complete c' ms parts F b ltac:(intros; eapply use_unwrap; eauto) (ord_unwrap _ _ _ _ O _ _ _ _ _ Us E) K) as [S|(e & S)].
    + intros v b' Eb (y & z & My & Mz). apply (Ex v b' Eb). apply means_group_inv_list in My, Mz.
      destruct My as (py & -> & Fy), Mz as (pz & Ez & Fz). exists (List.concat py), z. rewrite Ez. split; eapply mean_unwrap; eauto.
    + left. eapply a_unwrap; eauto.
    + right. exists e. eapply a_unwrap; eauto.
  - intros c name args ms c' parts es E F Rs Pe Us es0 r K Pe0 W.
    destruct (seqM_complete c' ms parts F es0 r ltac:(intros; eapply use_unwrap_m; eauto) (ord_unwrap_m _ _ _ _ O _ _ _ _ _ Us E) Rs K) as [(es' & S & K' & P')|(e & S)].
    + rewrite <- Pe. exact Pe0.
    + intros k m Hk Hm Wk. apply (W k Hk). eapply wants_unwrap; eauto.
    + left. exists es'. split; auto. eapply m_unwrap; eauto.
    + right. exists e. eapply m_unwrap; eauto.
  - intros c l m parts Lm F Us b K Ex.
    assert (Um : U AsArray c m) by (eapply use_occur; eauto).
    assert (Fm : Forall (fun a => means c m (AList a)) parts) by (eapply Forall_impl; [|exact F]; intros ? [? _]; auto).
    destruct (repA_complete c m Um (ord_occur _ _ _ _ O _ _ _ Us) parts F (snd (bounds l)) b ltac:(lia) K) as [S|(e & S)].
    + intros v b' Eb Ne Ev. apply (Ex v b' Eb). eapply extends_occur; eauto.
    + intros v b' Eb Lt Bv. apply (Ex v b' Eb). eapply begins_occur; eauto.
    + left. pose proof (a_occur X lk c l m _ _ S) as R. cbn in R. destruct (N.leb_spec (fst (bounds l)) (N.of_nat (List.length parts))); auto. lia.
    + right. exists e. exact (a_occur X lk c l m _ _ S).
  - intros c l m parts es Lm F Pe Us es0 r K Pe0 W.
    assert (Um : U AsMap c m) by (eapply use_occur; eauto).
    pose proof (ord_occur_m _ _ _ _ O _ _ _ Us) as Oe.
    destruct (repM_complete c m Oe Um _ parts eq_refl F (snd (bounds l)) es0 r ltac:(lia) K) as [(es' & S & K' & P')|(e & S)].
    + rewrite <- Pe. exact Pe0.
    + intros k Hk Wk. apply (W k Hk). apply wants_occur; auto.
    + left. exists es'. split; auto. pose proof (m_occur X lk c l m _ _ S) as R. cbn in R. destruct (N.leb_spec (fst (bounds l)) (N.of_nat (List.length parts))); auto. lia.
    + right. exists e. exact (m_occur X lk c l m _ _ S).
  - intros c name args is c' i x E Hi IH. destruct x as [v| |]; cbn; auto. intros Us K.
    destruct (any_yes (one_of_item c' v) is i Hi) as [S|(e & S)].
    + intros y Hy. apply total_item; auto. eapply use_one_of_group; eauto.
    + apply IH; auto. eapply use_one_of_group; eauto.
    + left. eapply t_one_of_group; eauto.
    + right. exists e. eapply t_one_of_group; eauto.
  - intros c name args name' args' c' x E IH. destruct x as [v| |]; cbn; auto. intros Us K.
    destruct (IH ltac:(eapply use_one_of_alias; eauto) K) as [S|(e & S)]; [left|right; exists e]; eapply t_one_of_alias; eauto.
  - intros c k t cut x M IH. destruct x as [v| |]; cbn; auto.
  - intros c name args x IH. destruct x as [v| |]; cbn; auto.
  - intros c i x Hi M IH. destruct x as [v| |]; cbn; auto. destruct i; cbn; auto; contradiction.
Qed.

Theorem orderly_complete v : keys_sorted v -> means c0 nd0 (AValue v) ->
  val X lk v nd0 c0 = Ok tt \/ exists e, val X lk v nd0 c0 = Err e /\ is_fatal e = true.
Proof.
  intros K M. pose proof (complete _ _ _ M (use_start _ _ _) K) as S.
  pose proof (answer_type X lk Hlk c0 nd0 T c0 nd0 v (use_start _ _ _) K) as A.
  destruct S as [S|(e & S)]; pose proof (peg_det _ _ _ _ S _ A) as Q; destruct (val X lk v nd0 c0) as [[]|e'|]; try discriminate; auto.
  - destruct e'; discriminate.
  - right. exists e'. split; auto. destruct e'; try discriminate; auto.
Qed.
End Complete.
