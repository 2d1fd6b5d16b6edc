(** Reading a schema on its syntax tree agrees with reading its validation tree. *)
From Coq Require Import List Bool ZArith NArith String Lia Permutation.
From Verif Require Import Base Util Data Value Convert Ivt Scalar Validate Fun ValueOrder Ast
  SpecBase SpecScalar SpecConvert ConvertExact SpecFlatten FlattenProofs FlattenMap FloatProofs ScalarProofs CtxProofs SpecCtx
  SpecDefect DefectProofs SpecSchema SpecPeg JudgeProofs PegProofs SchemaBase SchemaLeaf Orderly.
Import ListNotations.
Open Scope list_scope.

(** * Induction on the reading *)
Section SaysInd.
Variable X : ext.
Variable rules : list rule.
Variable limit : N.
Notation says := (SpecSchema.says X rules limit).
Notation stands := (SpecSchema.stands rules limit).
Notation denotes := (SpecSchema.denotes rules limit).
Variable P : scope -> phrase -> what -> Prop.
Variable Q : scope -> text -> list type1 -> what -> Prop.
Variable G : scope -> list (list grpent) -> what -> Prop.
Variable M : scope -> grpent -> what -> Prop.
Hypothesis H_choice : forall s ts t x, In t ts -> P s (PType1 t) x -> P s (PType ts) x.
Hypothesis H_simple : forall s t x, P s (PType2 t) x -> P s (PType1 (T1Simple t)) x.
Hypothesis H_value : forall s v, P s (PType2 (T2Value v)) (One (plain v)).
Hypothesis H_standard : forall s n v, standard n v -> P s (PType2 (T2Typename (txt n) [])) (One v).
Hypothesis H_name : forall s name args p s' x,
    user_name name -> stands s name args p s' -> P s' p x -> P s (PType2 (T2Typename name args)) x.
Hypothesis H_parens : forall s ts x, P s (PType ts) x -> P s (PType2 (T2Paren ts)) x.
Hypothesis H_array : forall s g a, P s (PGroup g) (Elements a) -> P s (PType2 (T2Array g)) (One (VArray a)).
Hypothesis H_map : forall s g es, P s (PGroup g) (Entries es) -> P s (PType2 (T2Map g)) (One (VMap es)).
Hypothesis H_unwrap : forall s name args p s' g a,
    user_name name -> stands s name args p s' -> bare p (T1Simple (T2Array g)) -> P s' (PGroup g) (Elements a) ->
    P s (PType2 (T2Unwrap name args)) (Elements a).
Hypothesis H_unwrap_map : forall s name args p s' g es,
    user_name name -> stands s name args p s' -> bare p (T1Simple (T2Map g)) -> P s' (PGroup g) (Entries es) ->
    P s (PType2 (T2Unwrap name args)) (Entries es).
Hypothesis H_range : forall s t u incl v, says s (PType1 (T1Range t u incl)) (One v) -> P s (PType1 (T1Range t u incl)) (One v).
Hypothesis H_control : forall s t l op v, (forall n, txt n = op -> n <> "cbor"%string) -> says s (PType1 (T1Control t l op)) (One v) ->
    P s (PType1 (T1Control t l op)) (One v).
Hypothesis H_cbor : forall s t l b item v,
    cbor_decode X b = inl item -> cbor_means item v -> P s (PType2 l) (One v) ->
    P s (PType1 (T1Control t l (txt "cbor"))) (One (VBytes b)).
Hypothesis H_choose : forall s name args x, (forall a, x <> Elements a) -> Q s name args x -> P s (PType2 (T2Choiceify name args)) x.
Hypothesis H_choose_among : forall s g v, G s g (One v) -> P s (PType2 (T2ChoiceifyInline g)) (One v).
Hypothesis H_choose_entries : forall s es e m, In e es -> P s (PEntry e) (Entries m) -> P s (PType2 (T2ChoiceifyInline [es])) (Entries m).
Hypothesis H_choose_group : forall s g m, List.length g <> 1 -> P s (PGroup g) (Entries m) -> P s (PType2 (T2ChoiceifyInline g)) (Entries m).
Hypothesis H_element : forall s t v, P s (PType1 t) (One v) -> P s (PType1 t) (Elements [v]).
Hypothesis H_element2 : forall s t v, P s (PType2 t) (One v) -> P s (PType2 t) (Elements [v]).
Hypothesis H_group : forall s g es x, In es g -> P s (PMembers es) x -> P s (PGroup g) x.
Hypothesis H_single : forall s e v, P s (PEntry e) (One v) -> P s (PMembers [e]) (One v).
Hypothesis H_sequence : forall s es parts,
    Forall2 (fun e a => P s (PEntry e) (Elements a)) es parts -> P s (PMembers es) (Elements (List.concat parts)).
Hypothesis H_set : forall s es parts m,
    Forall2 (fun e p => P s (PEntry e) (Entries p)) es parts -> SpecSchema.respects rules limit s es parts ->
    Permutation m (List.concat parts) -> P s (PMembers es) (Entries m).
Hypothesis H_entry : forall s v x, P s (PEntryVal v) x -> P s (PEntry (GrpEnt None v)) x.
Hypothesis H_occur : forall s o v parts,
    allowed o (List.length parts) -> Forall (fun a => P s (PEntryVal v) (Elements a)) parts ->
    P s (PEntry (GrpEnt (Some o) v)) (Elements (List.concat parts)).
Hypothesis H_occur_entries : forall s o v parts m,
    allowed o (List.length parts) -> Forall (fun p => P s (PEntryVal v) (Entries p)) parts ->
    Permutation m (List.concat parts) -> P s (PEntry (GrpEnt (Some o) v)) (Entries m).
Hypothesis H_member : forall s ts x, P s (PType ts) x -> P s (PEntryVal (GMember None ts)) x.
Hypothesis H_labelled : forall s key ts v, P s (PType ts) (One v) -> P s (PEntryVal (GMember (Some key) ts)) (Elements [v]).
Hypothesis H_pair : forall s key cut ts k v, P s (PType1 (key_type key)) (One k) -> P s (PType ts) (One v) ->
    P s (PEntryVal (GMember (Some (MKey key cut)) ts)) (Entries [(k, v)]).
Hypothesis H_groupname : forall s name x, P s (PType2 (T2Typename name [])) x -> P s (PEntryVal (GGroupname name)) x.
Hypothesis H_inner : forall s g x, P s (PGroup g) x -> P s (PEntryVal (GParen g)) x.
Hypothesis H_of_group : forall s name args g s' x,
    stands s name args (PEntry (GrpEnt None (GParen g))) s' -> G s' g x -> Q s name args x.
Hypothesis H_of_alias : forall s name args p s' name' args' x,
    stands s name args p s' -> is_name p name' args' -> Q s' name' args' x -> Q s name args x.
Hypothesis H_of_members : forall s es e x, In e es -> M s e x -> G s [es] x.
Hypothesis H_of_choices : forall s g x, List.length g <> 1 -> P s (PGroup g) x -> G s g x.
Hypothesis H_mvalue : forall s key ts x, P s (PType ts) x -> M s (GrpEnt None (GMember (Some key) ts)) x.
Hypothesis H_mname : forall s e name args x, is_name (PEntry e) name args -> Q s name args x -> M s e x.
Hypothesis H_mplain : forall s e x,
    (forall key ts, e <> GrpEnt None (GMember (Some key) ts)) -> (forall name args, ~ is_name (PEntry e) name args) ->
    P s (PEntry e) x -> M s e x.

Fixpoint says_induct s p x (H : says s p x) {struct H} : P s p x
with chosen_induct s name args x (H : chosen X rules limit s name args x) {struct H} : Q s name args x
with among_induct s g x (H : among X rules limit s g x) {struct H} : G s g x
with member_induct s e x (H : member_of X rules limit s e x) {struct H} : M s e x.
Proof.
  - destruct H.
    + eapply H_choice; eauto.
    + apply H_simple; auto.
    + apply H_value.
    + apply H_standard; auto.
    + eapply H_name; eauto.
    + apply H_parens; auto.
    + apply H_array; auto.
    + apply H_map; auto.
    + eapply H_unwrap; eauto.
    + eapply H_unwrap_map; eauto.
    + apply H_range. eapply says_range; eauto.
    + apply H_control; [|eapply says_compare; eauto]. intros m E ->. apply txt_inj in E. subst n. cbn in H.
      repeat (destruct H as [H|H]; [discriminate H|]). destruct H.
    + apply H_control; [|eapply says_size; eauto]. intros m E ->. apply txt_inj in E. discriminate.
    + apply H_control; [|eapply says_regexp; eauto]. intros m E ->. apply txt_inj in E. discriminate.
    + eapply H_cbor; eauto.
    + apply H_choose; auto.
    + apply H_choose_among; auto.
    + eapply H_choose_entries; eauto.
    + apply H_choose_group; auto.
    + apply H_element; auto.
    + apply H_element2; auto.
    + eapply H_group; eauto.
    + apply H_single; auto.
    + apply H_sequence. revert es parts H. fix F 3. intros es parts [|m a ms' ps' h t]; constructor; [apply says_induct; exact h|apply F; exact t].
    + eapply H_set; [|exact H0|exact H1]. clear H0 H1 m. revert es parts H. fix F 3. intros es parts [|m a ms' ps' h t]; constructor; [apply says_induct; exact h|apply F; exact t].
    + apply H_entry; auto.
    + apply H_occur; [exact H|]. clear H. revert parts H0. fix F 2. intros parts [|a ps' h t]; constructor; [apply says_induct; exact h|apply F; exact t].
    + eapply H_occur_entries; [exact H| |exact H1]. clear H H1 m. revert parts H0. fix F 2. intros parts [|a ps' h t]; constructor; [apply says_induct; exact h|apply F; exact t].
    + apply H_member; auto.
    + apply H_labelled; auto.
    + apply H_pair; auto.
    + apply H_groupname; auto.
    + apply H_inner; auto.
  - destruct H.
    + eapply H_of_group; eauto.
    + eapply H_of_alias; eauto.
  - destruct H.
    + eapply H_of_members; eauto.
    + eapply H_of_choices; eauto.
  - destruct H.
    + apply H_mvalue; auto.
    + eapply H_mname; eauto.
    + eapply H_mplain; eauto.
Qed.
End SaysInd.

Ltac inv H := inversion H; subst; clear H.
Definition image (x : thing) : what := match x with AValue v => One v | AList a => Elements a | ASet es => Entries es end.
Definition source (x : what) : thing := match x with One v => AValue v | Elements a => AList a | Entries es => ASet es end.

Section Reading.
Variable X : ext.
Notation rx := (regex_compiles X).
Variable rules : list rule.
Variable lk : lookup_context.
Hypothesis defs : forall name def, lk name = inl def -> exists r, last_rule name r rules /\ means_rule rx r def.
Hypothesis defined : forall name r, last_rule name r rules -> exists def, lk name = inl def /\ means_rule rx r def.
Notation says := (SpecSchema.says X rules 50).
Notation stands := (SpecSchema.stands rules 50).
Notation fits := (fits X).
Notation flat := (flat X).
Notation means := (SpecPeg.means X lk).

(** * Cuts *)
Definition proper (p : phrase) : Prop := match p with PGroup _ | PMembers _ => False | _ => True end.
Lemma stands_proper s name args p s' : stands s name args p s' -> proper p /\ forall v, p <> PEntryVal v.
Proof. destruct 1; cbn; split; auto; try discriminate; unfold body; destruct (r_val r); cbn; auto; discriminate. Qed.
Lemma wraps_val p v : wraps p (PEntryVal v) -> p = PEntryVal v \/ p = PEntry (GrpEnt None v).
Proof.
  assert (N : forall p q, wraps p q -> q = PEntryVal v -> p = PEntryVal v \/ p = PEntry (GrpEnt None v)).
  { induction 1; intros ->; auto; destruct (IHwraps eq_refl) as [E|E]; inversion E; subst; auto. }
  intros W. eapply N; eauto.
Qed.
Lemma wraps_group p g : wraps p (PGroup g) -> p = PGroup g \/ p = PEntryVal (GParen g) \/ p = PEntry (GrpEnt None (GParen g)).
Proof.
  assert (N : forall p q, wraps p q -> q = PGroup g -> p = PGroup g \/ p = PEntryVal (GParen g) \/ p = PEntry (GrpEnt None (GParen g))).
  { induction 1; intros ->; auto; destruct (IHwraps eq_refl) as [E|[E|E]]; inversion E; subst; auto. }
  intros W. eapply N; eauto.
Qed.
Lemma wraps_members p es : wraps p (PMembers es) -> p = PMembers es.
Proof.
  assert (N : forall p q, wraps p q -> q = PMembers es -> p = PMembers es).
  { induction 1; intros ->; auto; specialize (IHwraps eq_refl); discriminate. }
  intros W. eapply N; eauto.
Qed.
Lemma wraps_occur p o v : wraps p (PEntry (GrpEnt (Some o) v)) -> p = PEntry (GrpEnt (Some o) v).
Proof.
  assert (N : forall p q, wraps p q -> q = PEntry (GrpEnt (Some o) v) -> p = PEntry (GrpEnt (Some o) v)).
  { induction 1; intros ->; auto; specialize (IHwraps eq_refl); discriminate. }
  intros W. eapply N; eauto.
Qed.

Lemma flat_keyed p kd nd cut : flat p (NKeyValue kd nd cut) -> exists key ts,
  (p = PEntryVal (GMember (Some (MKey key cut)) ts) \/ p = PEntry (GrpEnt None (GMember (Some (MKey key cut)) ts))) /\
  means1 rx (key_type key) kd /\ means_type rx ts nd.
Proof.
  intros F. destruct (flat_core X _ _ F) as (q & W & C). inv C.
  - match goal with H : In _ prelude_table |- _ => apply table_bareable in H; destruct H as [(? & [=])|(? & [=])] end.
  - exists key, ts. split; auto. apply wraps_val; auto.
Qed.
Lemma keyed_flat key cut ts nd : means_entry_val rx (GMember (Some (MKey key cut)) ts) nd -> exists kd nd',
  nd = NKeyValue kd nd' cut /\ means1 rx (key_type key) kd /\ means_type rx ts nd'.
Proof.
  intros F. inv F; (eexists; eexists; split; [reflexivity|]; split; auto).
  - constructor. apply (m2_value rx (AText s)).
  - constructor. constructor.
Qed.
Lemma key_literal key l : means1 rx (key_type key) (NLiteral l) -> is_key key (literal_value l).
Proof.
  destruct key as [t|s|v]; cbn; intros Mk.
  - destruct (flat_bare X _ _ (flat_type1 X _ _ Mk) Logic.I) as (u & B & Mu). econstructor; eauto.
    destruct (literal_means X _ _ Mu) as [|(ts & ->)]; auto. exfalso. eapply bare_not_paren; eauto.
  - inv Mk. match goal with H : means2 _ _ _ |- _ => inv H end. constructor.
  - inv Mk. match goal with H : means2 _ _ _ |- _ => inv H end. rewrite literal_plain. constructor.
Qed.
Lemma literal_key key k kd : is_key key k -> means1 rx (key_type key) kd -> exists l, kd = NLiteral l /\ literal_value l = k.
Proof.
  destruct 1 as [t|v|t u k B L]; cbn; intros Mk.
  - inv Mk. match goal with H : means2 _ _ _ |- _ => inv H end. eexists; split; reflexivity.
  - inv Mk. match goal with H : means2 _ _ _ |- _ => inv H end. eexists; split; [reflexivity|]. apply literal_plain.
  - eapply (literal_flat X); [exact L|]. eapply (bare_flat X); [exact B|]. constructor; auto.
Qed.

Lemma once_claims1 c m k : claims_once lk c m k -> forall s p, fits c s -> flat p m -> claims1 rules 50 s p k.
Proof.
  induction 1 as [c l t|c name args m' c' k L _ IH]; intros s p F Fl.
  - destruct (flat_keyed _ _ _ _ Fl) as (key & ts & [->| ->] & Mk & _); [|apply claims1_entry]; apply claims1_member; apply key_literal; auto.
  - destruct (flat_name X _ _ _ Fl) as (args0 & I & A). destruct (lookup_stands X rules lk defs _ _ _ _ _ _ _ F L A) as (p' & s' & S & Fl' & F').
    eapply claims1_name; eauto.
Qed.
Lemma claims1_once s p k : claims1 rules 50 s p k -> forall c nd, fits c s -> flat p nd -> claims_once lk c nd k.
Proof.
  induction 1 as [s key ts k K|s v k _ IH|s p name args p' s' k I S _ IH]; intros c nd F Fl.
  - inv Fl. destruct (keyed_flat _ _ _ _ H0) as (kd & nd' & -> & Mk & _). destruct (literal_key _ _ _ K Mk) as (l & -> & <-). constructor.
  - inv Fl. match goal with H : means_entry _ _ _ |- _ => inv H end. apply IH; auto. constructor; auto.
  - destruct (name_flat X _ _ _ _ I Fl) as (args' & -> & A). destruct (stands_lookup X rules lk defined _ _ _ _ _ _ _ F S A) as (nd' & c' & L & Fl' & F').
    econstructor; eauto.
Qed.
Lemma in_forall2_r {A B} (R : A -> B -> Prop) l l' b : Forall2 R l l' -> In b l' -> exists a, In a l /\ R a b.
Proof. induction 1; cbn; [tauto|]. intros [<-|H']; [eauto|]. destruct (IHForall2 H') as (a & ? & ?). eauto. Qed.
Lemma in_forall2_l {A B} (R : A -> B -> Prop) l l' a : Forall2 R l l' -> In a l -> exists b, In b l' /\ R a b.
Proof. induction 1; cbn; [tauto|]. intros [<-|H']; [eauto|]. destruct (IHForall2 H') as (b & ? & ?). eauto. Qed.

Lemma flat_map_inv p ms : flat p (NMap ms) -> exists g, bare p (T1Simple (T2Map g)) /\ means_group rx g ms.
Proof.
  intros F. destruct (flat_bare X _ _ F Logic.I) as (t & B & Mt). inv Mt. match goal with H : means2 _ _ _ |- _ => inv H end.
  - match goal with H : In _ prelude_table |- _ => apply table_bareable in H; destruct H as [(? & [=])|(? & [=])] end.
  - exfalso. eapply bare_not_paren; eauto.
  - eauto.
Qed.
Lemma flat_array_inv p ms : flat p (NArray ms) -> exists g, bare p (T1Simple (T2Array g)) /\ means_group rx g ms.
Proof.
  intros F. destruct (flat_bare X _ _ F Logic.I) as (t & B & Mt). inv Mt. match goal with H : means2 _ _ _ |- _ => inv H end.
  - match goal with H : In _ prelude_table |- _ => apply table_bareable in H; destruct H as [(? & [=])|(? & [=])] end.
  - exfalso. eapply bare_not_paren; eauto.
  - eauto.
Qed.
Lemma flat_unwrap_inv p name args' : flat p (NUnwrap name args') -> exists args, bare p (T1Simple (T2Unwrap name args)) /\ user_name name /\ Forall2 (means1 rx) args args'.
Proof.
  intros F. destruct (flat_bare X _ _ F Logic.I) as (t & B & Mt). inv Mt. match goal with H : means2 _ _ _ |- _ => inv H end.
  - match goal with H : In _ prelude_table |- _ => apply table_bareable in H; destruct H as [(? & [=])|(? & [=])] end.
  - exfalso. eapply bare_not_paren; eauto.
  - eauto.
Qed.
Lemma flat_group_inv p ms : flat p (NGroup ms) -> proper p -> exists g, (p = PEntryVal (GParen g) \/ p = PEntry (GrpEnt None (GParen g))) /\ means_group rx g ms.
Proof.
  intros F Pr. destruct (flat_core X _ _ F) as (q & W & C). inv C.
  - match goal with H : In _ prelude_table |- _ => apply table_bareable in H; destruct H as [(? & [=])|(? & [=])] end.
  - destruct (wraps_group _ _ W) as [->|[->| ->]]; [destruct Pr| |]; eauto.
  - rewrite (wraps_members _ _ W) in Pr. destruct Pr.
Qed.
Lemma flat_occur_inv p o nd : flat p (NOccur o nd) -> exists v, p = PEntry (GrpEnt (Some o) v) /\ means_entry_val rx v nd.
Proof.
  intros F. destruct (flat_core X _ _ F) as (q & W & C). inv C.
  - match goal with H : In _ prelude_table |- _ => apply table_bareable in H; destruct H as [(? & [=])|(? & [=])] end.
  - rewrite (wraps_occur _ _ _ W). eauto.
Qed.
Lemma claimed_group g ms c m k : means_group rx g ms -> In m ms -> claims lk c m k ->
  exists es e, g = [es] /\ In e es /\ means_entry rx e m.
Proof.
  intros Mg I C. inv Mg.
  - destruct (in_forall2_r _ _ _ _ H I) as (e & ? & ?). eauto.
  - destruct I as [<-|[]]. inv C.
Qed.
Lemma claims_read c m k : claims lk c m k -> forall s p, fits c s -> flat p m -> proper p -> SpecSchema.claims rules 50 s p k.
Proof.
  induction 1 as [c l t|c name args m' c' k L _ IH|c ms m k I C IH|c name args ms c' m k L I C IH|c l m k B O]; intros s p F Fl Pr.
  - destruct (flat_keyed _ _ _ _ Fl) as (key & ts & [->| ->] & Mk & _); [|apply SpecSchema.claims_entry]; apply SpecSchema.claims_member; apply key_literal; auto.
  - destruct (flat_name X _ _ _ Fl) as (args0 & Nm & A). destruct (lookup_stands X rules lk defs _ _ _ _ _ _ _ F L A) as (p' & s' & S & Fl' & F').
    eapply SpecSchema.claims_name; eauto. apply IH; auto. eapply stands_proper; eauto.
  - destruct (flat_group_inv _ _ Fl Pr) as (g & Hp & Mg). destruct (claimed_group _ _ _ _ _ Mg I C) as (es & e & -> & Ie & Me).
    assert (Ce : SpecSchema.claims rules 50 s (PEntry e) k) by (apply IH; cbn; auto; constructor; auto).
    destruct Hp as [->| ->]; [|apply SpecSchema.claims_entry]; eapply SpecSchema.claims_group; eauto.
  - destruct (flat_unwrap_inv _ _ _ Fl) as (args0 & Bp & U & A). destruct (lookup_stands X rules lk defs _ _ _ _ _ _ _ F L A) as (p' & s' & S & Fl' & F').
    destruct (flat_map_inv _ _ Fl') as (g & Bg & Mg). destruct (claimed_group _ _ _ _ _ Mg I C) as (es & e & -> & Ie & Me).
    eapply SpecSchema.claims_unwrap; eauto. apply IH; cbn; auto. constructor; auto.
  - destruct (flat_occur_inv _ _ _ Fl) as (v & -> & Mv). apply SpecSchema.claims_occur; auto. eapply once_claims1; eauto. constructor; auto.
Qed.
Lemma read_claims s p k : SpecSchema.claims rules 50 s p k -> forall c nd, fits c s -> flat p nd -> claims lk c nd k.
Proof.
  induction 1 as [s key ts k K|s v k _ IH|s p name args p' s' k I S _ IH|s es e k I _ IH|s p name args p' s' es e k B S B' I _ IH|s o v k B O];
    intros c nd F Fl.
  - inv Fl. destruct (keyed_flat _ _ _ _ H0) as (kd & nd' & -> & Mk & _). destruct (literal_key _ _ _ K Mk) as (l & -> & <-). constructor.
  - inv Fl. match goal with H : means_entry _ _ _ |- _ => inv H end. apply IH; auto. constructor; auto.
  - destruct (name_flat X _ _ _ _ I Fl) as (args' & -> & A). destruct (stands_lookup X rules lk defined _ _ _ _ _ _ _ F S A) as (nd' & c' & L & Fl' & F').
    econstructor; eauto.
  - inv Fl. match goal with H : means_entry_val _ _ _ |- _ => inv H end. match goal with H : means_group _ _ _ |- _ => inv H; [|cbn in *; lia] end.
    match goal with H : Forall2 _ es _ |- _ => destruct (in_forall2_l _ _ _ _ H I) as (m & Im & Mm) end.
    eapply claims_group; eauto. apply IH; auto. constructor; auto.
  - pose proof (bare_flat X _ _ B _ Fl) as Mt. inv Mt. match goal with H : means2 _ _ _ |- _ => inv H end.
    match goal with A : Forall2 _ args _ |- _ => destruct (stands_lookup X rules lk defined _ _ _ _ _ _ _ F S A) as (nd' & c' & L & Fl' & F') end.
    pose proof (bare_flat X _ _ B' _ Fl') as Mt. inv Mt. match goal with H : means2 _ (T2Map _) _ |- _ => inv H end.
    match goal with H : means_group _ _ _ |- _ => inv H; [|cbn in *; lia] end.
    match goal with H : Forall2 _ es _ |- _ => destruct (in_forall2_l _ _ _ _ H I) as (m & Im & Mm) end.
    eapply claims_unwrap; eauto. apply IH; auto. constructor; auto.
  - inv Fl. match goal with H : means_entry _ _ _ |- _ => inv H end. apply claims_occur; auto. eapply claims1_once; eauto. constructor; auto.
Qed.
Lemma respects_read c s es ms : fits c s -> Forall2 (means_entry rx) es ms -> forall parts,
  respects lk c ms parts <-> SpecSchema.respects rules 50 s es parts.
Proof.
  intros F. induction 1 as [|e m es ms Me _ IH]; intros parts; cbn; [tauto|]. destruct parts as [|p ps]; [tauto|].
  rewrite IH. split; intros [H1 H2]; split; auto; intros k C; apply H1.
  - eapply read_claims; eauto. constructor; auto.
  - eapply claims_read; eauto; [constructor; auto|exact Logic.I].
Qed.

(** * From the tree to the reading *)
Lemma wraps_says s p q x : wraps p q -> says s q x -> says s p x.
Proof.
  induction 1; intros S; auto.
  - eapply says_choice; [left; reflexivity|auto].
  - apply says_simple; auto.
  - apply says_parens; auto.
  - apply says_entry; auto.
  - apply says_member; auto.
  - apply says_groupname; auto.
  - apply says_inner; auto.
Qed.
Lemma core_flat q nd : core X q nd -> flat q nd.
Proof.
  destruct 1; try (constructor; constructor; auto; fail); try (constructor; auto; fail).
  - constructor. econstructor; eauto.
  - constructor. apply means_type_list. exists ns. split; auto. right. split; auto.
    destruct H0 as [|? ? ? ? ? [|]]; cbn in H; try lia; eauto.
  - constructor. destruct key; cbn in *.
    + constructor; auto.
    + match goal with H : means1 _ _ _ |- _ => inv H end. match goal with H : means2 _ _ _ |- _ => inv H end. constructor; auto.
    + match goal with H : means1 _ _ _ |- _ => inv H end. match goal with H : means2 _ _ _ |- _ => inv H end. constructor; auto.
Qed.

Notation both c m x := (means c m x /\ forall s p, fits c s -> flat p m -> says s p (image x)).
Lemma sequence_read c s g ms parts : fits c s -> means_group rx g ms ->
  Forall2 (fun m a => both c m (AList a)) ms parts -> says s (PGroup g) (Elements (List.concat parts)).
Proof.
  intros F Mg FF. inv Mg.
  - eapply says_group; [left; reflexivity|]. apply says_sequence. revert es H. induction FF as [|m a ms parts [_ IHm] FF IH]; intros es H; inv H; constructor.
    + apply (IHm s (PEntry x)); auto. constructor; auto.
    + apply IH; auto.
  - inv FF. match goal with H : Forall2 _ [] _ |- _ => inv H end. cbn. rewrite app_nil_r. match goal with H : both _ _ _ |- _ => apply H; auto end. constructor; auto.
Qed.
Lemma says_group_perm s g m m' : says s (PGroup g) (Entries m) -> Permutation m' m -> says s (PGroup g) (Entries m').
Proof.
  intros S Pm. inversion S; subst. eapply says_group; eauto. match goal with H : says _ (PMembers _) _ |- _ => inversion H; subst end.
  eapply says_set; eauto. etransitivity; eauto.
Qed.
Lemma set_read c s g ms parts es : fits c s -> means_group rx g ms ->
  Forall2 (fun m p => both c m (ASet p)) ms parts -> respects lk c ms parts -> Permutation es (List.concat parts) ->
  says s (PGroup g) (Entries es).
Proof.
  intros F Mg FF R Pm. inv Mg.
  - eapply says_group; [left; reflexivity|]. apply says_set with parts; auto; [|eapply respects_read; eauto].
    clear R Pm. revert es0 H. induction FF as [|m a ms parts [_ IHm] FF IH]; intros es0 H; inv H; constructor.
    + apply (IHm s (PEntry x)); auto. constructor; auto.
    + apply IH; auto.
  - inv FF. match goal with H : Forall2 _ [] _ |- _ => inv H end. cbn in Pm. rewrite app_nil_r in Pm.
    eapply says_group_perm; [|exact Pm]. match goal with H : both _ _ _ |- _ => apply H; auto end. constructor; auto.
Qed.
Lemma group_member g ms m : means_group rx g ms -> In m ms ->
  (exists es e, g = [es] /\ In e es /\ means_entry rx e m) \/ (List.length g <> 1 /\ exists os, m = NChoice os /\ flat (PGroup g) m).
Proof.
  intros Mg I. inv Mg.
  - left. destruct (in_forall2_r _ _ _ _ H I) as (e & ? & ?). eauto.
  - right. split; auto. destruct I as [<-|[]]. eexists; split; [reflexivity|]. constructor; auto.
Qed.
Ltac noprelude := try (match goal with H : In _ prelude_table |- _ => apply table_bareable in H; destruct H as [(? & [=])|(? & [=])] end; fail).

Lemma leaf_read c t v : leaf t = true -> val X lk v t c = Ok tt -> forall s p, fits c s -> flat p t -> says s p (One v).
Proof.
  intros Lf V s p F Fl. destruct (flat_core X _ _ Fl) as (q & W & C). apply (wraps_says _ _ q _ W). clear p Fl W. inv C; try discriminate.
  - apply (decides_ok _ _ (literal_decides X lk _ _ _)) in V. destruct v0; inv V; apply says_value.
  - apply says_standard. destruct (table_bareable _ _ H) as [(p & ->)|(b & ->)].
    + apply (decides_ok _ _ (prelude_decides X lk _ _ _)) in V. econstructor; eauto.
    + apply (decides_ok _ _ (literal_decides X lk _ _ _)) in V. inv V. cbn in H.
      repeat (destruct H as [H|H]; [inversion H; subst; constructor|]). destruct H.
  - eapply range_reading; eauto.
  - match goal with H : control_of _ _ _ _ _ |- _ => inv H end; try discriminate.
    + eapply size_reading; eauto.
    + eapply (compare_reading X rules lk defs defined) with (op := OpLt); eauto. cbn; auto.
    + eapply (compare_reading X rules lk defs defined) with (op := OpLe); eauto. cbn; auto.
    + eapply (compare_reading X rules lk defs defined) with (op := OpGt); eauto. cbn; auto.
    + eapply (compare_reading X rules lk defs defined) with (op := OpGe); eauto. cbn; auto 6.
    + eapply regexp_reading; eauto. constructor; auto.
Qed.

Lemma means_says_all c nd x : means c nd x -> forall s p, fits c s -> flat p nd -> says s p (image x).
Proof.
  intros H.
  pose (P := fun c nd x => forall s p, fits c s -> flat p nd -> says s p (image x)).
  pose (Q := fun c name args x => forall s args0, fits c s -> Forall2 (means1 rx) args0 args -> chosen X rules 50 s name args0 (image x)).
  pose (R := fun c i x => forall s, fits c s -> (forall e, means_entry rx e i -> member_of X rules 50 s e (image x)) /\
       (forall g os, i = NChoice os -> flat (PGroup g) i -> says s (PGroup g) (image x))).
  change (P c nd x). apply (means_induct X lk P Q R); try exact H; clear H c nd x; unfold P, Q, R; clear P Q R.
  - (* leaf *) intros c t v Lf V s p F Fl. eapply leaf_read; eauto.
  - (* name *) intros c name args t' c' x L _ IH s p F Fl. destruct (flat_name X _ _ _ Fl) as (args0 & I & A).
    destruct (lookup_stands X rules lk defs _ _ _ _ _ _ _ F L A) as (p' & s' & S & Fl' & F').
    destruct (flat_core X _ _ Fl) as (q & W & C). apply (wraps_says _ _ q _ W). inv C; noprelude.
    destruct (lookup_stands X rules lk defs _ _ _ _ _ _ _ F L H3) as (p2 & s2 & S2 & Fl2 & F2). eapply says_name; eauto.
  - (* choice *) intros c ts t x I _ IH s p F Fl. destruct (flat_core X _ _ Fl) as (q & W & C). apply (wraps_says _ _ q _ W). inv C; noprelude.
    + match goal with H : Forall2 _ _ ts |- _ => rename H into H1 end. destruct (in_forall2_r _ _ _ _ H1 I) as (t1 & I1 & M1). eapply says_choice; eauto. apply IH; auto. constructor; auto.
    + match goal with H : Forall2 _ _ ts |- _ => rename H into H1 end. destruct (in_forall2_r _ _ _ _ H1 I) as (es & I1 & M1). eapply says_group; eauto. inv M1. apply IH; auto. constructor; auto.
  - (* parens *) intros c t v _ IH s p F Fl. destruct (flat_core X _ _ Fl) as (q & W & C). apply (wraps_says _ _ q _ W). inv C; noprelude.
    + match goal with H : means_group _ _ _ |- _ => inversion H as [es ms FE|g' os Ng FE]; subst; clear H end.
      * inversion FE as [|e m es' ms' Me FE']; subst. inv FE'. eapply says_group; [left; reflexivity|]. apply says_single. apply (IH s (PEntry e)); auto. constructor; auto.
      * apply (IH s (PGroup g)); auto. constructor; auto.
    + match goal with H : Forall2 _ es _ |- _ => inversion H as [|e m es' ms' Me FE']; subst end. inv FE'. apply says_single. apply (IH s (PEntry e)); auto. constructor; auto.
  - (* array *) intros c ms parts FF s p F Fl. destruct (flat_core X _ _ Fl) as (q & W & C). apply (wraps_says _ _ q _ W). inv C; noprelude.
    apply says_array. eapply sequence_read; eauto.
  - (* map *) intros c ms parts es FF R Pm s p F Fl. destruct (flat_core X _ _ Fl) as (q & W & C). apply (wraps_says _ _ q _ W). inv C; noprelude.
    apply says_map. eapply set_read; eauto.
  - (* cbor *) intros c t b x v D O _ IH s p F Fl. destruct (flat_core X _ _ Fl) as (q & W & C). apply (wraps_says _ _ q _ W). inv C; noprelude.
    match goal with H : control_of _ _ _ _ _ |- _ => inv H end. eapply says_cbor; [exact D|apply of_cbor_exact; exact O|]. apply (IH s (PType2 arg)); auto. constructor; auto.
  - (* & *) intros c name args v IH s p F Fl. destruct (flat_core X _ _ Fl) as (q & W & C). apply (wraps_says _ _ q _ W). inv C; noprelude.
    apply says_choose; [discriminate|]. auto.
  - intros c name args v IH s p F Fl. destruct (flat_core X _ _ Fl) as (q & W & C). apply (wraps_says _ _ q _ W). inv C; noprelude.
    apply says_choose; [discriminate|]. auto.
  - (* inline *) intros c is i v I IH s p F Fl. destruct (flat_core X _ _ Fl) as (q & W & C). apply (wraps_says _ _ q _ W). inv C; noprelude.
    apply says_choose_among. destruct (IH s F) as [IH1 IH2]. match goal with H : means_group _ _ is |- _ => rename H into Mg end. destruct (group_member _ _ _ Mg I) as [(es & e & -> & Ie & Me)|(Ng & os & -> & Fg)].
    + eapply among_members; eauto.
    + apply among_choices; eauto.
  - intros c is i es I IH s p F Fl. destruct (flat_core X _ _ Fl) as (q & W & C). apply (wraps_says _ _ q _ W). inv C; noprelude.
    match goal with H : means_group _ _ is |- _ => rename H into Mg end. destruct (group_member _ _ _ Mg I) as [(gs & e & -> & Ie & Me)|(Ng & os & -> & Fg)].
    + eapply says_choose_entries; eauto. apply (IH s (PEntry e)); auto. constructor; auto.
    + apply says_choose_group; auto.
  - (* element *) intros c m t v E _ IH s p F Fl. destruct (flat_core X _ _ Fl) as (q & W & C). apply (wraps_says _ _ q _ W). pose proof (core_flat _ _ C) as Fq.
    inv C; cbn in E; try discriminate;
      try (injection E as <-; first [apply says_element2|apply says_element]; apply (IH s); auto; fail).
    + destruct (table_bareable _ _ H) as [(p' & ->)|(b & ->)]; injection E as <-; apply says_element2; apply (IH s); auto.
    + injection E as <-. apply says_labelled. apply (IH s (PType ts)); auto. constructor; auto.
  - (* entry *) intros c key t cut k v _ IHk _ IHv s p F Fl. destruct (flat_core X _ _ Fl) as (q & W & C). apply (wraps_says _ _ q _ W). inv C; noprelude.
    apply says_pair; [apply (IHk s (PType1 (key_type key0)))|apply (IHv s (PType ts))]; auto; constructor; auto.
  - (* group *) intros c ms parts FF s p F Fl. destruct (flat_core X _ _ Fl) as (q & W & C). apply (wraps_says _ _ q _ W). inv C; noprelude.
    + eapply sequence_read; eauto.
    + match goal with H : Forall2 _ es _ |- _ => pose proof (sequence_read _ _ [es] _ _ F (mg_one _ _ _ H) FF) as S end.
      inversion S; subst. match goal with H : In _ [es] |- _ => destruct H as [<-|[]] end. auto.
  - intros c ms parts es FF R Pm s p F Fl. destruct (flat_core X _ _ Fl) as (q & W & C). apply (wraps_says _ _ q _ W). inv C; noprelude.
    + eapply set_read; eauto.
    + match goal with H : Forall2 _ es0 _ |- _ => pose proof (set_read _ _ [es0] _ _ _ F (mg_one _ _ _ H) FF R Pm) as S end.
      inversion S; subst. match goal with H : In _ [es0] |- _ => destruct H as [<-|[]] end. auto.
  - (* unwrap *) intros c name args ms c' parts L FF s p F Fl. destruct (flat_core X _ _ Fl) as (q & W & C). apply (wraps_says _ _ q _ W). inv C; noprelude.
    destruct (lookup_stands X rules lk defs _ _ _ _ _ _ _ F L H3) as (p2 & s2 & S2 & Fl2 & F2). destruct (flat_array_inv _ _ Fl2) as (g & Bg & Mg).
    eapply says_unwrap; eauto. eapply sequence_read; eauto.
  - intros c name args ms c' parts es L FF R Pm s p F Fl. destruct (flat_core X _ _ Fl) as (q & W & C). apply (wraps_says _ _ q _ W). inv C; noprelude.
    destruct (lookup_stands X rules lk defs _ _ _ _ _ _ _ F L H3) as (p2 & s2 & S2 & Fl2 & F2). destruct (flat_map_inv _ _ Fl2) as (g & Bg & Mg).
    eapply says_unwrap_map; eauto. eapply set_read; eauto.
  - (* occurrence *) intros c l m parts B FF s p F Fl. destruct (flat_occur_inv _ _ _ Fl) as (v & -> & Mv). apply says_occur; [exact B|].
    eapply Forall_impl; [|exact FF]. intros a [_ IH]. apply (IH s (PEntryVal v)); auto. constructor; auto.
  - intros c l m parts es B FF Pm s p F Fl. destruct (flat_occur_inv _ _ _ Fl) as (v & -> & Mv). apply says_occur_entries with parts; [exact B| |exact Pm].
    eapply Forall_impl; [|exact FF]. intros a [_ IH]. apply (IH s (PEntryVal v)); auto. constructor; auto.
  - (* items *) intros c name args is c' i x L I IH s args0 F A. destruct (lookup_stands X rules lk defs _ _ _ _ _ _ _ F L A) as (p2 & s2 & S2 & Fl2 & F2).
    destruct (stands_proper _ _ _ _ _ S2) as [Pr Nv]. destruct (flat_group_inv _ _ Fl2 Pr) as (g & [->| ->] & Mg); [exfalso; eapply Nv; reflexivity|].
    eapply chosen_group; eauto. destruct (IH _ F2) as [IH1 IH2]. destruct (group_member _ _ _ Mg I) as [(es & e & -> & Ie & Me)|(Ng & os & -> & Fg)].
    + eapply among_members; eauto.
    + apply among_choices; eauto.
  - intros c name args name' args' c' x L IH s args0 F A. destruct (lookup_stands X rules lk defs _ _ _ _ _ _ _ F L A) as (p2 & s2 & S2 & Fl2 & F2).
    destruct (flat_name X _ _ _ Fl2) as (args2 & I2 & A2). eapply chosen_alias; eauto.
  - intros c k t cut x _ IH s F. split; [|discriminate]. intros e Me. destruct (flat_keyed _ _ _ _ (flat_entry X _ _ Me)) as (key & ts & [?|E] & Mk & Mt); [discriminate|].
    injection E as ->. apply member_value. apply IH; auto. constructor; auto.
  - intros c name args x IH s F. split; [|discriminate]. intros e Me. destruct (flat_name X _ _ _ (flat_entry X _ _ Me)) as (args2 & I2 & A2).
    eapply member_name; eauto.
  - intros c i x N _ IH s F. split.
    + intros e Me. apply member_plain; [| |apply IH; auto; constructor; auto].
      * intros [key cut] ts ->. inv Me. destruct (keyed_flat _ _ _ _ H0) as (kd & nd' & -> & _). exact N.
      * intros name args I. destruct (name_flat X _ _ _ _ I (flat_entry X _ _ Me)) as (args' & -> & _). exact N.
    + intros g os -> Fg. apply IH; auto.
Qed.

(** * From the reading to the tree *)
Lemma value_element c nd v : means c nd (AValue v) -> means c nd (AList [v]).
Proof.
  intros H. remember (AValue v) as x eqn:E. induction H; try discriminate E; try (eapply mean_element; [reflexivity|]; subst x || injection E as <-; econstructor; eauto; fail).
  - apply (mean_element X lk c t t); [|injection E as <-; apply mean_leaf; auto]. apply judges_leaf in H. destruct t as [| | | | | | | | | | |[]| |]; try discriminate; reflexivity.
  - eapply mean_name; eauto.
  - eapply mean_choice; eauto.
  - apply (mean_group X lk c [t] [[v]]). constructor; auto.
Qed.

Lemma choice_in_group c os x : means c (NChoice os) x -> means c (NGroup [NChoice os]) x.
Proof.
  intros H. destruct x.
  - apply mean_parens; auto.
  - rewrite <- (app_nil_r a). apply (mean_group X lk c [NChoice os] [a]). constructor; auto.
  - apply (mean_group_entries X lk c [NChoice os] [es]); [constructor; auto|cbn; split; [|exact Logic.I]|cbn; rewrite app_nil_r; auto].
    intros k C. inv C.
Qed.

Lemma says_means_all s p x : says s p x -> forall c nd, fits c s -> flat p nd -> means c nd (source x).
Proof.
  intros H.
  pose (P := fun s p x => forall c nd, fits c s -> flat p nd -> means c nd (source x)).
  pose (Q := fun s name args x => forall c args', fits c s -> Forall2 (means1 rx) args args' -> one_of X lk c name args' (source x)).
  pose (G := fun s g x => forall c ms, fits c s -> means_group rx g ms -> exists i, In i ms /\ item_means X lk c i (source x)).
  pose (M := fun s e x => forall c nd, fits c s -> means_entry rx e nd -> item_means X lk c nd (source x)).
  change (P s p x). apply (says_induct X rules 50 P Q G M); try exact H; clear H s p x; unfold P, Q, G, M; clear P Q G M.
  - (* choice *) intros s ts t x I IH c nd F Fl. inversion Fl as [? ? Mt| | | | | | | ]; subst. apply means_type_list in Mt. destruct Mt as (ns & FE & D).
    destruct (in_forall2_l _ _ _ _ FE I) as (m & Im & Mm). destruct D as [->|[_ ->]].
    + destruct Im as [<-|[]]. apply IH; auto. constructor; auto.
    + eapply mean_choice; eauto. apply IH; auto. constructor; auto.
  - intros s t x IH c nd F Fl. inversion Fl as [|? ? Mt| | | | | | ]; subst. inv Mt. apply IH; auto. constructor; auto.
  - intros s v c nd F Fl. inversion Fl as [| |? ? Mt| | | | | ]; subst. inv Mt. apply leaf_means; auto.
    apply (decides_ok _ _ (literal_decides X lk _ _ _)). destruct v; constructor.
  - intros s n v St c nd F Fl. inversion Fl as [| |? ? Mt| | | | | ]; subst. inversion Mt as [|n' nd' I E|? ? ? U| | | | | | ]; subst.
    + apply txt_inj in E. subst n'. apply leaf_means; [destruct (table_bareable _ _ I) as [(? & ->)|(? & ->)]; reflexivity|]. inv St.
      * match goal with J : In _ prelude_table |- _ => pose proof (table_fun _ _ _ I J) as E; injection E as -> end.
        apply (decides_ok _ _ (prelude_decides X lk _ _ _)). auto.
      * assert (J : In ("false"%string, Some (NLiteral (LBool false))) prelude_table) by (cbn; auto 10). pose proof (table_fun _ _ _ I J) as E; injection E as ->.
        apply (decides_ok _ _ (literal_decides X lk _ _ _)). constructor.
      * assert (J : In ("true"%string, Some (NLiteral (LBool true))) prelude_table) by (cbn; auto 10). pose proof (table_fun _ _ _ I J) as E; injection E as ->.
        apply (decides_ok _ _ (literal_decides X lk _ _ _)). constructor.
    + exfalso. inv St; eapply table_user; try exact U; eauto; cbn; eauto 10.
  - (* name *) intros s name args p s' x U S IH c nd F Fl. inversion Fl as [| |? ? Mt| | | | | ]; subst. inv Mt.
    + exfalso. eapply table_user; eauto.
    + match goal with A : Forall2 _ args _ |- _ => destruct (stands_lookup X rules lk defined _ _ _ _ _ _ _ F S A) as (nd' & c' & L & Fl' & F') end.
      eapply mean_name; eauto.
  - intros s ts x IH c nd F Fl. inversion Fl as [| |? ? Mt| | | | | ]; subst. inv Mt. apply IH; auto. constructor; auto.
  - (* array *) intros s g a IH c nd F Fl. inversion Fl as [| |? ? Mt| | | | | ]; subst. inv Mt.
    match goal with Mg : means_group _ _ _ |- _ => specialize (IH _ _ F (flat_group X _ _ Mg)) end. cbn in IH. inv IH; [discriminate|]. apply mean_array; auto.
  - intros s g es IH c nd F Fl. inversion Fl as [| |? ? Mt| | | | | ]; subst. inv Mt.
    match goal with Mg : means_group _ _ _ |- _ => specialize (IH _ _ F (flat_group X _ _ Mg)) end. cbn in IH. inv IH. eapply mean_map; eauto.
  - (* unwrap *) intros s name args p s' g a U S B IH c nd F Fl. inversion Fl as [| |? ? Mt| | | | | ]; subst. inv Mt.
    match goal with A : Forall2 _ args _ |- _ => destruct (stands_lookup X rules lk defined _ _ _ _ _ _ _ F S A) as (nd' & c' & L & Fl' & F') end.
    pose proof (bare_flat X _ _ B _ Fl') as Mt. inv Mt. match goal with Mt : means2 _ (T2Array _) _ |- _ => inv Mt end.
    match goal with Mg : means_group _ _ _ |- _ => specialize (IH _ _ F' (flat_group X _ _ Mg)) end. cbn in IH. inv IH; [discriminate|]. eapply mean_unwrap; eauto.
  - intros s name args p s' g es U S B IH c nd F Fl. inversion Fl as [| |? ? Mt| | | | | ]; subst. inv Mt.
    match goal with A : Forall2 _ args _ |- _ => destruct (stands_lookup X rules lk defined _ _ _ _ _ _ _ F S A) as (nd' & c' & L & Fl' & F') end.
    pose proof (bare_flat X _ _ B _ Fl') as Mt. inv Mt. match goal with Mt : means2 _ (T2Map _) _ |- _ => inv Mt end.
    match goal with Mg : means_group _ _ _ |- _ => specialize (IH _ _ F' (flat_group X _ _ Mg)) end. cbn in IH. inv IH. eapply mean_unwrap_entries; eauto.
  - (* range *) intros s t u incl v S c nd F Fl. inversion Fl as [|? ? Mt| | | | | | ]; subst. inv Mt. apply leaf_means; auto. eapply range_reading; eauto.
  - (* control *) intros s t l op v N S c nd F Fl. inversion Fl as [|? ? Mt| | | | | | ]; subst. inv Mt.
    match goal with H : control_of _ _ _ _ _ |- _ => inv H end; try (apply leaf_means; [reflexivity|]).
    + eapply size_reading; eauto.
    + eapply (compare_reading X rules lk defs defined) with (op := OpLt); eauto. cbn; auto.
    + eapply (compare_reading X rules lk defs defined) with (op := OpLe); eauto. cbn; auto.
    + eapply (compare_reading X rules lk defs defined) with (op := OpGt); eauto. cbn; auto.
    + eapply (compare_reading X rules lk defs defined) with (op := OpGe); eauto. cbn; auto 6.
    + eapply (regexp_reading X rules lk); eauto. constructor; auto.
    + exfalso. eapply N; reflexivity.
  - (* cbor *) intros s t l b item v D Cm IH c nd F Fl. inversion Fl as [|? ? Mt| | | | | | ]; subst. inv Mt.
    match goal with E : txt _ = txt _ |- _ => apply txt_inj in E; subst end. match goal with Co : control_of _ _ _ _ _ |- _ => inv Co end. eapply mean_cbor; [exact D|exact Cm|]. apply IH; auto. constructor; auto.
  - (* & *) intros s name args x N IH c nd F Fl. inversion Fl as [| |? ? Mt| | | | | ]; subst. inv Mt.
    destruct x; [apply mean_one_of|exfalso; eapply N; reflexivity|apply mean_one_of_entries]; eapply IH; eauto.
  - intros s g v IH c nd F Fl. inversion Fl as [| |? ? Mt| | | | | ]; subst. inv Mt.
    match goal with Mg : means_group _ _ _ |- _ => destruct (IH _ _ F Mg) as (i & I & Im) end. eapply mean_inline; eauto.
  - intros s es e m I IH c nd F Fl. inversion Fl as [| |? ? Mt| | | | | ]; subst. inv Mt.
    match goal with Mg : means_group _ _ _ |- _ => inv Mg; [|cbn in *; lia] end.
    match goal with H : Forall2 _ es _ |- _ => destruct (in_forall2_l _ _ _ _ H I) as (i & Ii & Mi) end. eapply mean_inline_entries; eauto. apply (IH c i); auto. constructor; auto.
  - intros s g m N IH c nd F Fl. inversion Fl as [| |? ? Mt| | | | | ]; subst. inv Mt.
    match goal with Mg : means_group _ _ _ |- _ => inv Mg; [cbn in *; lia|] end. eapply mean_inline_entries; [left; reflexivity|]. apply (IH c); auto. constructor; auto.
  - intros s t v IH c nd F Fl. apply value_element. apply (IH c nd); auto.
  - intros s t v IH c nd F Fl. apply value_element. apply (IH c nd); auto.
  - (* group *) intros s g es x I IH c nd F Fl.
    assert (Ch : forall os, Forall2 (means_grpchoice rx) g os -> means c (NChoice os) (source x)).
    { intros os FE. destruct (in_forall2_l _ _ _ _ FE I) as (o & Io & Mo). inv Mo. eapply mean_choice; eauto. apply IH; auto. constructor; auto. }
    inversion Fl as [| | |? ? Mg|? ? Ng FE| | | ]; subst.
    + inv Mg.
      * destruct I as [<-|[]]. apply IH; auto. constructor; auto.
      * apply choice_in_group. auto.
    + auto.
  - intros s e v IH c nd F Fl. inversion Fl as [| | | | |? ? FE| | ]; subst. inversion FE as [|? m ? ? Me FE']; subst. inv FE'. apply mean_parens. apply (IH c m); auto. constructor; auto.
  - intros s es parts FF c nd F Fl. inversion Fl as [| | | | |? ? FE| | ]; subst. cbn [source]. apply mean_group. clear Fl.
    revert ms FE. induction FF as [|e a es parts IHe FF IH]; intros ms FE; inv FE; constructor; auto. apply (IHe c y); auto. constructor; auto.
  - intros s es parts m FF R Pm c nd F Fl. inversion Fl as [| | | | |? ? FE| | ]; subst. cbn [source].
    apply mean_group_entries with parts; auto; [|eapply respects_read; eauto]. clear Fl R Pm.
    revert ms FE. induction FF as [|e a es parts IHe FF IH]; intros ms FE; inv FE; constructor; auto. apply (IHe c y); auto. constructor; auto.
  - intros s v x IH c nd F Fl. inversion Fl as [| | | | | |? ? Me| ]; subst. inv Me. apply IH; auto. constructor; auto.
  - intros s o v parts B FF c nd F Fl. inversion Fl as [| | | | | |? ? Me| ]; subst. inv Me. cbn [source]. apply mean_occur; [exact B|].
    eapply Forall_impl; [|exact FF]. intros a IH. apply (IH c); auto. constructor; auto.
  - intros s o v parts m B FF Pm c nd F Fl. inversion Fl as [| | | | | |? ? Me| ]; subst. inv Me. cbn [source]. apply mean_occur_entries with parts; [exact B| |exact Pm].
    eapply Forall_impl; [|exact FF]. intros a IH. apply (IH c); auto. constructor; auto.
  - intros s ts x IH c nd F Fl. inversion Fl as [| | | | | | |? ? Mv]; subst. inv Mv. apply IH; auto. constructor; auto.
  - intros s [key cut] ts v IH c nd F Fl. inversion Fl as [| | | | | | |? ? Mv]; subst. destruct (keyed_flat _ _ _ _ Mv) as (kd & nd' & -> & Mk & Mt).
    cbn. eapply mean_element; [reflexivity|]. apply (IH c nd'); auto. constructor; auto.
  - intros s key cut ts k v IHk IHv c nd F Fl. inversion Fl as [| | | | | | |? ? Mv]; subst. destruct (keyed_flat _ _ _ _ Mv) as (kd & nd' & -> & Mk & Mt).
    cbn. apply mean_entry; [apply (IHk c kd)|apply (IHv c nd')]; auto; constructor; auto.
  - intros s name x IH c nd F Fl. inversion Fl as [| | | | | | |? ? Mv]; subst. apply IH; auto. constructor. inv Mv; constructor; auto.
  - intros s g x IH c nd F Fl. inversion Fl as [| | | | | | |? ? Mv]; subst. inv Mv. apply IH; auto. constructor; auto.
  - (* chosen *) intros s name args g s' x S IH c args' F A. destruct (stands_lookup X rules lk defined _ _ _ _ _ _ _ F S A) as (nd' & c' & L & Fl' & F').
    inversion Fl' as [| | | | | |? ? Me| ]; subst. inversion Me as [? ? Mv|]; subst. inv Mv.
    match goal with Mg : means_group _ _ _ |- _ => destruct (IH _ _ F' Mg) as (i & I & Im) end. eapply one_of_group; eauto.
  - intros s name args p s' name' args' x S I IH c args2 F A. destruct (stands_lookup X rules lk defined _ _ _ _ _ _ _ F S A) as (nd' & c' & L & Fl' & F').
    destruct (name_flat X _ _ _ _ I Fl') as (args3 & -> & A3). eapply one_of_alias; eauto.
  - intros s es e x I IH c ms F Mg. inv Mg; [|cbn in *; lia]. match goal with H : Forall2 _ es _ |- _ => destruct (in_forall2_l _ _ _ _ H I) as (i & Ii & Mi) end. eauto.
  - intros s g x N IH c ms F Mg. inv Mg; [cbn in *; lia|]. eexists; split; [left; reflexivity|]. apply item_plain; [exact Logic.I|]. apply IH; auto. constructor; auto.
  - intros s [key cut] ts x IH c nd F Me. inversion Me as [? ? Mv|]; subst. destruct (keyed_flat _ _ _ _ Mv) as (kd & nd' & -> & Mk & Mt).
    apply item_value. apply IH; auto. constructor; auto.
  - intros s e name args x I IH c nd F Me. destruct (name_flat X _ _ _ _ I (flat_entry X _ _ Me)) as (args3 & -> & A3). apply item_name. apply IH; auto.
  - intros s e x Nk Nn IH c nd F Me. apply item_plain; [|apply IH; auto; constructor; auto]. destruct nd; auto.
    + exfalso. eapply not_name_flat; [exact Nn|constructor; exact Me|reflexivity].
    + destruct (flat_keyed _ _ _ _ (flat_entry X _ _ Me)) as (key & ts & [E|E] & _); [discriminate|]. injection E as ->. eapply Nk; reflexivity.
Qed.

Theorem reading_exact c s p nd x : fits c s -> flat p nd -> (means c nd x <-> says s p (image x)).
Proof.
  intros F Fl. split; [intros; eapply means_says_all; eauto|]. intros S. apply (says_means_all _ _ _ S) with (nd := nd) in F; auto. destruct x; auto.
Qed.
End Reading.
