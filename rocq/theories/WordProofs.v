(** Every reply of [SpecActs.acts] is worded from the schema. *)
From Coq Require Import List Bool ZArith NArith String Lia.
From Verif Require Import Base Util Data Value Ivt Validate SpecBase SpecScalar SpecConvert SpecVerdict SpecPos SpecReach SpecCtx SpecText SpecJudge SpecPeg SpecActs SpecWords.
Import ListNotations.
Open Scope list_scope.

Lemma pieces_self n : In n (pieces n).
Proof. destruct n; cbn; auto. Qed.
Lemma pieces_child n m : In m (children n) -> incl (pieces m) (pieces n).
Proof.
  intros H x Hx. destruct n; cbn in *; try contradiction; right;
    try (apply in_flat_map; eauto; fail); try (destruct c; cbn in *);
    repeat match goal with
    | Hm : _ \/ _ |- _ => destruct Hm as [<-|Hm]
    | Hm : False |- _ => contradiction
    | |- In _ (_ ++ _) => apply in_or_app; auto
    end; auto.
Qed.
(** [pieces] is closed under taking children. *)
Lemma pieces_trans : forall n x y, In x (pieces n) -> In y (children x) -> In y (pieces n).
Proof.
  fix IH 1. intros n x y Hx Hy.
  assert (L : forall l, (forall m, In m l -> forall x y, In x (pieces m) -> In y (children x) -> In y (pieces m)) ->
    In x (flat_map pieces l) -> In y (flat_map pieces l)).
  { intros l H I. apply in_flat_map in I as (m & I & J). apply in_flat_map. exists m; split; auto. eapply H; eauto. }
  assert (LL : forall l : list node, (forall m, In m l -> forall x y, In x (pieces m) -> In y (children x) -> In y (pieces m)) -> True) by auto.
  assert (S : x = n -> In y (pieces n)). { intros ->. apply (pieces_child n y Hy). apply pieces_self. }
  destruct n; cbn [pieces In] in Hx |- *; destruct Hx as [Hx|Hx];
    try (apply S; auto; fail); try contradiction; right;
    try (revert Hx; apply L; clear - IH;
         match goal with |- forall m, In m ?l -> _ => induction l as [|a l' IHl]; intros m I; cbn [In] in I; [contradiction|] end;
         destruct I as [<-|I]; [apply IH|apply IHl; exact I]; fail);
    try (apply in_app_or in Hx as [Hx|Hx]; apply in_or_app; [left|right]; eapply IH; eauto; fail);
    try (eapply IH; eauto; fail).
  destruct c; try contradiction;
    try (apply in_app_or in Hx as [Hx|Hx]; apply in_or_app; [left|right]; eapply IH; eauto; fail);
    try (eapply IH; eauto; fail).
Qed.

Section Worded.
Variable X : ext.
Variable rs : rules.
Variable t0 : node.
Let lk := basic_context rs.
Let S (n : node) : Prop := In n (schema_pieces rs t0).
Let E (e : verror) : Prop := In e (schema_errors X rs t0) \/ decoder_error X e.
Let M (m : text) : Prop := E (EMismatch m).

Lemma S_child n m : S n -> In m (children n) -> S m.
Proof.
  unfold S, schema_pieces. intros H I. apply in_flat_map in H as (r & R & H). apply in_flat_map. exists r; split; auto.
  eapply pieces_trans; eauto.
Qed.
Lemma S_rule name def : lk name = inl def -> S (rd_node def).
Proof.
  unfold lk, basic_context. destruct (rules_get rs name) as [d|] eqn:G; [|discriminate]. intros [= <-].
  unfold S, schema_pieces. apply in_flat_map. exists (rd_node d). split; [|apply pieces_self]. right.
  revert G. induction rs as [|[k d'] l IH]; cbn; [discriminate|]. destruct (text_eqb k name); [intros [= ->]; auto|auto].
Qed.
Lemma S_start : S t0.
Proof. unfold S, schema_pieces. cbn. apply in_or_app. left. apply pieces_self. Qed.
Lemma E_fixed e : In e fixed_errors -> E e.
Proof. intros H. left. unfold schema_errors. apply in_or_app. auto. Qed.
Lemma E_about n e : S n -> In e (errors_about X n) -> E e.
Proof. intros H I. left. unfold schema_errors. apply in_or_app. right. apply in_flat_map. exists n; auto. Qed.

Lemma fixed_mismatch m : In m ([txt "array"; txt "map"; txt "shorter array"; txt "shorter map"; txt "unwrap array"; txt "unwrap map";
      txt "Bytes"; txt "regex mismatch"; txt ".size on negative integer"] ++
     map type_name all_types ++
     flat_map (fun p => [type_name p ++ txt " under .size limit"; type_name p ++ txt " over .size limit"]) all_types ++
     flat_map (fun op => map (limit_text op) all_types) all_ops) -> M m.
Proof. intros H. apply E_fixed. right. apply in_or_app. left. apply in_map. exact H. Qed.
Lemma fixed_structural m : In m 
    [txt "hit recursion limit"; txt "confusing type on range operator"; txt "mismatched types on range operator";
     txt "improper choiceify target"; txt "improper map choiceify target";
     txt "unexpected KeyValue"; txt "unexpected Occur"; txt "unexpected Unwrap";
     txt "literal map member"; txt "prelude type map member"; txt "map as map member"; txt "array as map member";
     txt "range as map member"; txt "control op as map member"] -> E (EStructural m).
Proof. intros H. apply E_fixed. right. apply in_or_app. right. apply in_or_app. left. apply in_map. exact H. Qed.
Lemma all_types_in p : In p all_types.
Proof. destruct p; cbn; tauto. Qed.
Lemma all_ops_in op : In op all_ops.
Proof. destruct op; cbn; tauto. Qed.
Ltac find := cbn [In app]; repeat first [left; reflexivity|right].

(** Contexts whose arguments are parts of the schema. *)
Definition bound (m : gmap) : Prop := Forall (fun p => S (snd p)) m.
Inductive within : ctx -> Prop :=
| within_top m d : bound m -> within (Ctx m None d)
| within_past m p d : bound m -> within p -> within (Ctx m (Some p) d).
Lemma bound_get k n m : bound m -> gm_get k m = Some n -> S n.
Proof.
  induction 1 as [|[k1 n1] m H _ IH]; cbn; [discriminate|]. destruct (text_eqb k1 k); [intros [= <-]; exact H|auto].
Qed.
Lemma bound_insert k n m : S n -> bound m -> bound (gm_insert k n m).
Proof.
  intros Hn. induction 1 as [|[k1 n1] m H F IH]; cbn; [repeat constructor; auto|].
  destruct (text_eqb k1 k); constructor; auto.
Qed.
Lemma bound_collect ps args : Forall S args -> bound (gm_collect (combine ps args)).
Proof.
  intros F. unfold gm_collect. assert (B : bound []) by constructor. revert B. generalize (@nil (text * node)).
  revert args F. induction ps as [|p ps IH]; intros [|a args] F m B; cbn; auto. inversion F; subst.
  apply IH; auto. apply bound_insert; auto.
Qed.
Lemma look_in c name args n c' : within c -> Forall S args -> lookup_rule lk c name args = Ok (n, c') -> S n /\ within c'.
Proof.
  intros W F. unfold lookup_rule. destruct (gm_get name (ctx_map c)) as [nd|] eqn:G.
  - assert (S nd) by (destruct W; cbn in G; eapply bound_get; eauto).
    destruct (ctx_past c) as [p|] eqn:P.
    + intros [= <- <-]. split; auto. destruct W; cbn in P; inversion P; subst; auto.
    + unfold blank, bind_res. destruct (inc_depth c); intros [= <- <-]. split; auto. constructor. constructor.
  - destruct (lk name) as [def|e] eqn:L; [|discriminate]. unfold derive.
    destruct (negb _); [discriminate|]. unfold bind_res. destruct (inc_depth c); intros [= <- <-].
    split; [eapply S_rule; eauto|]. apply within_past; auto. apply bound_collect; auto.
Qed.
Lemma look_err c name args e : E (EMissingRule name) -> lookup_rule lk c name args = Err e -> E e.
Proof.
  intros H. assert (L : E (EStructural (txt "hit recursion limit"))) by (apply fixed_structural; find).
  assert (G : E EGenericError) by (apply E_fixed; left; reflexivity).
  unfold lookup_rule. destruct (gm_get name (ctx_map c)) as [nd|].
  - destruct (ctx_past c); [discriminate|]. unfold blank, inc_depth, bind_res. destruct (N.leb _ _); intros [= <-]. exact L.
  - unfold lk, basic_context. destruct (rules_get rs name); [|intros [= <-]; exact H]. unfold derive.
    destruct (negb _); [intros [= <-]; exact G|]. unfold inc_depth, bind_res.
    destruct (N.leb _ _); intros [= <-]. exact L.
Qed.
Lemma S_missing n name args : S n -> refers n = Some (name, args) -> E (EMissingRule name) /\ Forall S args.
Proof.
  intros H R. split.
  - eapply E_about; [exact H|]. unfold errors_about. apply in_or_app. right. apply in_or_app. right. apply in_or_app. right.
    destruct n; cbn in R; inversion R; subst; cbn; auto.
  - apply Forall_forall. intros a I. eapply S_child; [exact H|]. destruct n; cbn in R; inversion R; subst; cbn; auto.
Qed.
Lemma named_in c n n' c' : named lk c n n' c' -> within c -> S n -> S n'.
Proof.
  induction 1; intros; auto. destruct (S_missing _ _ _ H2 eq_refl) as [_ F].
  destruct (look_in _ _ _ _ _ H1 F H) as [? ?]. auto.
Qed.
Lemma stands_in c n n' : stands lk c n n' -> within c -> S n -> S n'.
Proof. intros (c' & N). eapply named_in; eauto. Qed.
Lemma dangles_in c n e : dangles lk c n e -> within c -> S n -> E e.
Proof.
  intros (name & args & c' & F & L). revert L. induction F as [c name args|c name args n1 c1 name1 args1 c2 L1 F1 IH]; intros L W H.
  - destruct (S_missing _ _ _ H eq_refl) as [I _]. eapply look_err; eauto.
  - destruct (S_missing _ _ _ H eq_refl) as [_ Fa]. destruct (look_in _ _ _ _ _ W Fa L1) as [? ?]. auto.
Qed.

Lemma M_type p : M (type_name p).
Proof. apply fixed_mismatch. rewrite !in_app_iff. right. left. apply in_map, all_types_in. Qed.
Lemma M_limit op p : M (limit_text op p).
Proof.
  apply fixed_mismatch. rewrite !in_app_iff. right. right. right. apply in_flat_map. exists op. split; [apply all_ops_in|].
  apply in_map, all_types_in.
Qed.
Lemma M_under p : M (type_name p ++ txt " under .size limit").
Proof.
  apply fixed_mismatch. rewrite !in_app_iff. right. right. left. apply in_flat_map. exists p. split; [apply all_types_in|]. find.
Qed.
Lemma M_over p : M (type_name p ++ txt " over .size limit").
Proof.
  apply fixed_mismatch. rewrite !in_app_iff. right. right. left. apply in_flat_map. exists p. split; [apply all_types_in|]. find.
Qed.
Lemma parts_in ctl t l : control_parts ctl t l -> S (NControl ctl) -> S t /\ S l.
Proof. intros P H. split; eapply S_child; eauto; destruct P; cbn; auto. Qed.
Lemma cmp_parts op t l : control_parts (cmp_control op t l) t l.
Proof. destruct op; constructor. Qed.
Lemma settles_in P m j : settles P m j -> M m -> match j with Good => True | Poor m => M m | Faulty e => E e end.
Proof. intros [|]; auto. Qed.

Lemma about_tail n e : S n ->
  In e match n with
  | NLiteral l => EMismatch (literal_text X l) ::
      match l with LInt z => [EStructural (txt "bad .size limit " ++ integer z)] | _ => [] end
  | NRange s e incl => [EMismatch (range_text X s e incl)]
  | NChoice l | NGroup l | NChoiceifyInline l => [EMismatch (choice_of l); EMismatch (one_of_text l)]
  | NOccur l m => [EMismatch (txt "more array element [" ++ occur_text X l m ++ txt "]");
                   EMismatch (txt "map{" ++ occur_text X l m ++ txt "}]")]
  | NKeyValue k _ _ => [EMismatch (txt "map{" ++ part_text X k ++ txt "}")]
  | NRule name _ | NUnwrap name _ | NChoiceify name _ => [EMissingRule name]
  | _ => []
  end -> E e.
Proof. intros H I. eapply (E_about n); [assumption|]. unfold errors_about. rewrite !in_app_iff. auto. Qed.
Lemma about_head n e : S n -> In e [EMismatch (txt "array element " ++ part_text X n);
   EStructural (txt "bad .size argument type (" ++ part_text X n ++ txt ")");
   EStructural (txt "bad .size range start type (" ++ part_text X n ++ txt ")");
   EStructural (txt "bad .size range end type (" ++ part_text X n ++ txt ")");
   EStructural (txt "bad .size target type (" ++ part_text X n ++ txt ")")] -> E e.
Proof. intros H I. eapply (E_about n); [assumption|]. unfold errors_about. rewrite !in_app_iff. auto. Qed.
Lemma about_target n op : S n -> E (EStructural (cmp_target_fault X op n)).
Proof.
  intros H. eapply (E_about n); [assumption|]. unfold errors_about. rewrite !in_app_iff. right. left.
  apply (in_map (fun op => EStructural (cmp_target_fault X op n))), all_ops_in.
Qed.
Lemma about_limit n op : S n -> E (EStructural (txt "bad ." ++ op_name op ++ txt " argument type (" ++ part_text X n ++ txt ")")).
Proof.
  intros H. eapply (E_about n); [assumption|]. unfold errors_about. rewrite !in_app_iff. right. right. left.
  apply (in_map (fun op => EStructural (txt "bad ." ++ op_name op ++ txt " argument type (" ++ part_text X n ++ txt ")"))), all_ops_in.
Qed.
Ltac about n := eapply (about_tail n); [assumption|find].
Ltac abouth n := eapply (about_head n); [assumption|find].

Lemma judges_in c n v j : judges X lk c n v j -> within c -> S n ->
  match j with Good => True | Poor m => M m | Faulty e => E e end.
Proof.
  intros J W H.
  assert (P : forall ctl t l, NControl ctl = n -> control_parts ctl t l -> S t /\ S l) by (intros; subst; eapply parts_in; eauto).
  assert (Pc : forall op t l, NControl (cmp_control op t l) = n -> S t /\ S l) by (intros; eapply P; eauto; apply cmp_parts).
  assert (R : forall s t incl, NRange s t incl = n -> S s /\ S t) by (intros; subst; split; eapply S_child; eauto; cbn; auto).
  assert (D : forall n', S n' -> forall e, dangles lk c n' e -> E e) by (intros; eapply dangles_in; eauto).
  assert (T : forall n' n'', S n' -> stands lk c n' n'' -> S n'') by (intros; eapply stands_in; eauto).
  destruct J;
    try (destruct (Pc _ _ _ eq_refl) as [P1 P2]); try (destruct (R _ _ _ eq_refl) as [P1 P2]);
    try (destruct (P _ _ _ eq_refl ltac:(eauto using parts_size)) as [P1 P2]); clear P Pc R; eauto;
    try (eapply settles_in; [eassumption|]).
  - about (NLiteral l).
  - apply M_type.
  - about (NRange s t incl).
  - apply fixed_structural. find.
  - apply fixed_structural. find.
  - apply fixed_structural. find.
  - match goal with L : limit_said _ _ _ _ |- _ => destruct L end; [apply M_type|apply M_limit].
  - apply about_limit. eauto.
  - apply about_target. eauto.
  - match goal with L : size_said _ _ _ _ _ _ |- _ => destruct L end; auto using M_type, M_under, M_over.
    apply fixed_mismatch. find.
  - assert (S nd) by eauto. match goal with F : size_arg_fault _ _ _ |- _ => destruct F end.
    + about (NLiteral (LInt z)).
    + assert (S s) by (eapply S_child; eauto; cbn; auto). abouth s.
    + assert (S e) by (eapply S_child; eauto; cbn; auto). abouth e.
    + assert (S (NLiteral (LInt a))) by (eapply S_child; eauto; cbn; auto). about (NLiteral (LInt a)).
    + assert (S (NLiteral (LInt b))) by (eapply S_child; eauto; cbn; auto). about (NLiteral (LInt b)).
    + abouth nd.
  - assert (S nd') by eauto. abouth nd'.
  - destruct v; apply fixed_mismatch; cbn [map all_types]; find.
Qed.

Fixpoint okq (q : question) : Prop :=
  match q with
  | AskType c n _ | AskArr c n _ | AskRepA c n _ _ | AskMap c n _ | AskRepM c n _ _ | AskKey c n _ => within c /\ S n
  | AskOneOf c name args _ | AskOneOfM c name args _ => within c /\ Forall S args /\ E (EMissingRule name)
  | AskAny none qs => M none /\ (fix go l := match l with [] => True | q :: l => okq q /\ go l end) qs
  | AskSeqA c ms _ | AskSeqM c ms _ => within c /\ Forall S ms
  | AskAltA none c ms _ => M none /\ within c /\ Forall S ms
  | AskAltM none qs _ => M none /\ (fix go l := match l with [] => True | q :: l => (forall es, okq (q es)) /\ go l end) qs
  end.
Definition okr (r : reply) : Prop :=
  match r with
  | Reject m | DidA (Missed m) _ _ | DidA (Stopped m) _ _ | DidM (Missed m) _ _ | DidM (Stopped m) _ _ => M m
  | Wrong e => E e
  | _ => True
  end.
Lemma okq_any {A} none (f : A -> question) l : M none -> (forall x, In x l -> okq (f x)) -> okq (AskAny none (map f l)).
Proof. intros H F. split; auto. induction l; cbn; auto. split; [apply F; cbn; auto|apply IHl; intros; apply F; cbn; auto]. Qed.
Lemma okq_altm {A} none (f : A -> entries -> question) l es : M none -> (forall x es, In x l -> okq (f x es)) -> okq (AskAltM none (map f l) es).
Proof. intros H F. split; auto. induction l; cbn; auto. split; [intros; apply F; cbn; auto|apply IHl; intros; apply F; cbn; auto]. Qed.
Lemma S_children n l : S n -> children n = l -> Forall S l.
Proof. intros H <-. apply Forall_forall. intros; eapply S_child; eauto. Qed.
Lemma item_ok c v i : within c -> S i -> okq (item_question c v i).
Proof.
  intros W H. destruct i; cbn; auto.
  - destruct (S_missing _ _ _ H eq_refl); auto.
  - split; auto. eapply S_child; eauto; cbn; auto.
Qed.
Lemma member_ok c i es : within c -> S i -> okq (member_question c i es).
Proof.
  intros W H. destruct i; cbn; auto.
  - destruct (S_missing _ _ _ H eq_refl); auto.
  - split; auto. eapply S_child; eauto; cbn; auto.
Qed.
Lemma choice_in n l : S n -> In n [NChoice l; NGroup l; NChoiceifyInline l] -> M (choice_of l) /\ M (one_of_text l) /\ forall x, In x l -> S x.
Proof.
  intros H I. assert (children n = l) by (destruct I as [<-|[<-|[<-|[]]]]; reflexivity).
  split; [|split]; [eapply about_tail; [exact H|]..|intros x Hx; eapply S_child; eauto; congruence];
    destruct I as [<-|[<-|[<-|[]]]]; find.
Qed.
Lemma element_in n t : S n -> element_of n = Some t -> S t.
Proof.
  intros H I. destruct n; cbn in I; try discriminate; inversion I; subst; auto; eapply S_child; eauto; cbn; auto.
Qed.
Lemma okr_afterA took r : okr r -> okr (afterA took r).
Proof. destruct r; auto. Qed.
Lemma okr_afterM took r : okr r -> okr (afterM took r).
Proof. destruct r; auto. Qed.
Lemma okr_groupA r : okr r -> okr (groupA r).
Proof. destruct r as [| | |[]| | | | |]; cbn; auto. Qed.
Lemma okr_groupM es r : okr r -> okr (groupM es r).
Proof. destruct r as [| | | |[]| | | |]; cbn; auto. Qed.
Lemma okr_all r : okr r -> okr (all_of r).
Proof. destruct r as [| | |[] ? []|[] ? []| | | |]; cbn; auto; intros; apply fixed_mismatch; find. Qed.
Lemma okr_least l m r : okr r -> M m -> okr (at_least l m r).
Proof. destruct r; cbn; auto; destruct (N.leb l k); auto. Qed.
Lemma okr_element v a r : okr r -> okr (elementA v a r).
Proof. destruct r; cbn; auto. Qed.
Lemma okr_entry cut k v es r : okr r -> okr (entryM cut k v es r).
Proof. destruct r; cbn; auto. destruct cut; auto. Qed.

Theorem acts_worded q r : acts X lk q r -> okq q -> okr r.
Proof.
  induction 1; intros Q; cbn [okq] in Q;
    try (destruct Q as [W Q]);
    try match goal with
    | H : S (NRule ?name ?args) |- _ => destruct (S_missing _ _ _ H eq_refl) as [Hm Ha]
    | H : S (NUnwrap ?name ?args) |- _ => destruct (S_missing _ _ _ H eq_refl) as [Hm Ha]
    | H : S (NChoiceify ?name ?args) |- _ => destruct (S_missing _ _ _ H eq_refl) as [Hm Ha]
    | H : Forall S ?args /\ E (EMissingRule ?name) |- _ => destruct H as [Ha Hm]
    end;
    try match goal with
    | L : lookup_rule lk _ _ _ = Ok _ |- _ => destruct (look_in _ _ _ _ _ W Ha L) as [Hn Wn]
    | L : lookup_rule lk _ _ _ = Err _ |- _ => exact (look_err _ _ _ _ Hm L)
    end;
    try (match goal with
    | H : S (NChoice ?l) |- _ => destruct (choice_in _ l H ltac:(find)) as (C1 & C2 & C3)
    | H : S (NGroup ?l) |- _ => destruct (choice_in _ l H ltac:(find)) as (C1 & C2 & C3)
    | H : S (NChoiceifyInline ?l) |- _ => destruct (choice_in _ l H ltac:(find)) as (C1 & C2 & C3)
    end);
    try (exact W); try (exact (Logic.I));
    try (apply okr_afterA); try (apply okr_afterM); try (apply okr_groupA); try (apply okr_groupM); try (apply okr_all);
    try (apply okr_element); try (apply okr_entry);
    try (apply IHacts; cbn [okq]; auto; fail);
    try (apply IHacts; apply okq_any; auto using item_ok; intros; cbn [okq]; auto; fail);
    try (apply IHacts; apply okq_altm; auto using member_ok; intros; cbn [okq]; auto; fail);
    try (apply IHacts; cbn [okq]; split; auto; eapply S_children; eauto; fail);
    try (apply IHacts; cbn [okq]; split; auto; apply Forall_forall; auto; fail).
  all: try (apply fixed_mismatch; find; fail).
  all: try (apply fixed_structural; find; fail).
  all: try (match goal with F : Forall S (_ :: _) |- _ => inversion F; subst end).
  all: try (destruct Q as [Q1 Q2]; match goal with F : Forall S (_ :: _) |- _ => inversion F; subst end).
  all: try (destruct Q as [Q1 Q2]).
  all: try (apply IHacts2; cbn [okq]; auto; fail).
  all: try (apply IHacts; cbn [okq]; auto; fail).
  all: try (apply IHacts2; cbn [okq]; split; auto; eapply S_child; [eassumption|cbn; auto; fail]).
  all: try (apply IHacts; cbn [okq]; split; auto; eapply S_child; [eassumption|cbn; auto; fail]).
  all: try (apply IHacts; cbn [okq]; split; auto; eapply element_in; eauto; fail).
  all: try (eapply judges_in in H; eauto; destruct j; exact H).
  - apply E_fixed. right. rewrite !in_app_iff. right. right. left. reflexivity.
  - destruct t; cbn in H; try discriminate; apply fixed_structural; find.
  - right. exists b, msg. auto.
  - apply E_fixed. right. rewrite !in_app_iff. right. right. right. left. reflexivity.
  - destruct (S_missing _ _ _ Hn eq_refl). apply IHacts. cbn [okq]. auto.
  - assert (S t) by (eapply element_in; eauto). abouth t.
  - apply IHacts. cbn [okq]. repeat split; auto. apply Forall_forall; auto.
  - apply okr_least; [apply IHacts; cbn; split; auto; eapply S_child; eauto; cbn; auto|about (NOccur l m)].
  - about (NKeyValue key t cut).
  - apply okr_least; [apply IHacts; cbn; split; auto; eapply S_child; eauto; cbn; auto|about (NOccur l m)].
  - destruct m; cbn in H; try discriminate; apply fixed_structural; find.
  - destruct (S_missing _ _ _ Hn eq_refl). apply IHacts. cbn [okq]. auto.
Qed.
Lemma within_initial : within initial_ctx.
Proof. apply within_top. constructor. Qed.
End Worded.
