(** Lemmas about whole schemas: the text-preserving parser, simple rules. *)
From Coq Require Import List Bool Arith ZArith NArith String Lia.
From Verif Require Import Base Util Data Ivt Ast Nom NomProofs Parser ParserFuel NomDone SpecSyntax ValueOrder TokenProofs LiteralProofs ParserSound.
Import ListNotations.
Open Scope list_scope.

Definition pres_map {A B} (f : A -> B) (x : pres A) : pres B :=
  match x with
  | Done a r => Done (f a) r
  | Soft e => Soft e
  | Hard e => Hard e
  | Crash => Crash
  | NoFuel => NoFuel
  end.
(** [q] is [p] with more detailed results. *)
Definition refines {A B} (f : A -> B) (q : parser A) (p : parser B) : Prop := forall i, pres_map f (q i) = p i.

Lemma refines_bind {A A' B B'} (f : A -> A') (g : B -> B') q p k h :
  refines f q p -> (forall a, refines g (k a) (h (f a))) -> refines g (bindp q k) (bindp p h).
Proof. intros Hp Hk i. unfold bindp. rewrite <- Hp. destruct (q i); cbn; auto. apply Hk. Qed.
Lemma refines_ret {A B} (f : A -> B) a : refines f (ret a) (ret (f a)).
Proof. intros i. reflexivity. Qed.
Lemma refines_id {A} (p : parser A) : refines (fun x => x) p p.
Proof. intros i. destruct (p i); reflexivity. Qed.
Lemma refines_many0_f {A B} (f : A -> B) q p n i : refines f q p -> pres_map (map f) (many0_f n q i) = many0_f n p i.
Proof.
  intros H. revert i. induction n as [|n IH]; intros i; cbn; auto. rewrite <- H. destruct (q i) as [a r|e|e| |]; cbn; auto.
  destruct (Nat.eqb _ _); auto. rewrite <- IH. destruct (many0_f n q r); reflexivity.
Qed.
Lemma refines_many1 {A B} (f : A -> B) q p : refines f q p -> refines (map f) (many1 q) (many1 p).
Proof.
  intros H. unfold many1. apply (refines_bind f (map f)); auto. intros a. apply (refines_bind (map f) (map f)).
  - intros i. apply refines_many0_f; auto.
  - intros l i. reflexivity.
Qed.
Lemma slice_refines X i : pres_map (map fst) (all_consuming (p_cddl_slice (parse_type1 X) (parse_group X)) i) =
  all_consuming (p_cddl (parse_type1 X) (parse_group X)) i.
Proof.
  generalize i. change (refines (map (@fst rule text)) (all_consuming (p_cddl_slice (parse_type1 X) (parse_group X))) (all_consuming (p_cddl (parse_type1 X) (parse_group X)))).
  unfold all_consuming. eapply refines_bind; [|intros l [|c r]; reflexivity].
  unfold p_cddl_slice, p_cddl, preceded. eapply refines_bind; [apply refines_id|]. intros _. apply refines_many1.
  unfold terminated. eapply refines_bind; [|intros [x s]; eapply refines_bind; [apply refines_id|]; intros w ?; reflexivity].
  intros k. unfold mapp, bindp, recognizer. destruct (p_rule _ _ k); reflexivity.
Qed.

(** * The parsers leave a suffix of their input *)
Ltac ct := unfold type_, group, grpchoice, cddl, cddl_slice in *; auto 20 with cut.
Section Cuts.
Variable X : ext.
Lemma cuts_ws : cuts p_ws. Proof. unfold p_ws, p_comment, multispace1. ct. Qed.
Hint Resolve cuts_ws : cut.
Lemma cuts_ident : cuts p_ident. Proof. unfold p_ident, p_ealpha, p_ident_tail, p_ealpha, digit1. ct. Qed.
Lemma cuts_uint : cuts p_uint. Proof. unfold p_uint, p_uint_hex, p_uint_binary, p_uint_decimal, hex_digit1, digit0. ct. Qed.
Hint Resolve cuts_ident cuts_uint : cut.
Lemma cuts_p_value : cuts (p_value X).
Proof.
  unfold p_value, p_float_or_int, p_int, p_dot_fraction, p_e_exponent, digit1, p_text_literal, p_bytestring, p_bytestring_utf8, p_bytestring_hex,
    p_bytestring_base64, p_bchar, p_schar, p_sesc. ct.
Qed.
Lemma cuts_occur : cuts p_occur. Proof. unfold p_occur, p_occur_star, p_uint_u64. ct. Qed.
Hint Resolve cuts_p_value cuts_occur : cut.
Section Bodies.
Variable T1 : parser type1.
Variable G : parser group.
Hypothesis cT : cuts T1.
Hypothesis cG : cuts G.
Lemma cuts_slash : cuts p_slash. Proof. unfold p_slash. ct. Qed.
Hint Resolve cuts_slash : cut.
Lemma cuts_ty : cuts (p_ty T1). Proof. unfold p_ty. ct. Qed.
Lemma cuts_name : cuts (p_name_generic T1). Proof. unfold p_name_generic, p_generic_arg. ct. Qed.
Hint Resolve cuts_ty cuts_name : cut.
Lemma cuts_in {A} o c (p : parser A) : cuts p -> cuts (p_in o c p). Proof. unfold p_in. ct. Qed.
Hint Resolve cuts_in : cut.
Lemma cuts_type2 : cuts (p_type2 X T1 G). Proof. unfold p_type2. ct. Qed.
Hint Resolve cuts_type2 : cut.
Lemma cuts_type1_body : cuts (type1_body X T1 G). Proof. unfold type1_body, p_range_or_control, p_control_op. ct. Qed.
Lemma cuts_plain t : cuts (member_plain T1 t).
Proof.
  intros i v r H. unfold member_plain in H. destruct (p_more_choices T1 i) eqn:E; inversion H; subst.
  assert (C : cuts (p_more_choices T1)) by (unfold p_more_choices; ct). eauto.
Qed.
Lemma cuts_arrow t : cuts (member_arrow T1 t).
Proof.
  intros i v r H. unfold member_arrow in H. assert (C : cuts (p_arrow_tail T1)) by (unfold p_arrow_tail; ct).
  destruct (p_arrow_tail T1 i) eqn:E; try discriminate; [|eapply cuts_plain; eauto..]. inversion H; subst. eauto.
Qed.
Lemma cuts_colon t : cuts (member_colon T1 t).
Proof.
  intros i v r H. unfold member_colon in H. assert (C : cuts (p_memberkey_tail T1)) by (unfold p_memberkey_tail; ct).
  destruct (p_memberkey_tail T1 i) eqn:E; try discriminate; [|eapply cuts_arrow; eauto..].
  destruct (assemble_basic_member t a) as [[]|]; inversion H; subst. eauto.
Qed.
Lemma cuts_member : cuts (p_grpent_member T1).
Proof.
  unfold p_grpent_member. apply cuts_bind; [ct|]. intros [[]| |]; auto using cuts_arrow, cuts_colon.
Qed.
Hint Resolve cuts_member : cut.
Lemma cuts_grpent : cuts (p_grpent T1 G). Proof. unfold p_grpent, p_grpent_val, p_grpent_parens. ct. Qed.
Hint Resolve cuts_grpent : cut.
Lemma cuts_group_body : cuts (group_body T1 G). Proof. unfold group_body, p_grpchoice, p_optcom. ct. Qed.
Lemma cuts_rule : cuts (p_rule T1 G). Proof. unfold p_rule, p_rule_val, p_generic_parm. ct. Qed.
End Bodies.
Lemma cuts_f n : cuts (type1_f X n) /\ cuts (group_f X n).
Proof.
  induction n as [|n [A B]]; [split; intros i a r H; discriminate|]. rewrite type1_f_S, group_f_S. auto using cuts_type1_body, cuts_group_body.
Qed.
Lemma cuts_type1 : cuts (parse_type1 X). Proof. intros i a r H. exact (proj1 (cuts_f _) i a r H). Qed.
Lemma cuts_group : cuts (parse_group X). Proof. intros i a r H. exact (proj2 (cuts_f _) i a r H). Qed.
Lemma cuts_parse_rule : cuts (p_rule (parse_type1 X) (parse_group X)). Proof. apply cuts_rule; [apply cuts_type1|apply cuts_group]. Qed.
End Cuts.

Section WithX.
Variable X : ext.
Notation T1 := (parse_type1 X).
Notation Gr := (parse_group X).

Lemma slice_rule_done i x r : terminated (mapp (fun x => (snd x, fst x)) (recognizer (p_rule T1 Gr))) p_ws i = Done x r ->
  exists j, p_rule T1 Gr i = Done (fst x) j /\ tok i (snd x) j /\ d_ws j r.
Proof.
  intros H. apply terminated_done in H. destruct H as (m & w & H & W). apply ws_sound in W. apply map_done in H.
  destruct H as ([s y] & H & ->). cbn [fst snd]. apply recognizer_done in H. cbn [fst snd] in H. destruct H as [H ->].
  exists m. split; auto. split; auto. apply cuts_parse_rule in H. destruct H as [c ->]. rewrite consumed_app. reflexivity.
Qed.
Lemma slice_covers i l : slice_parse_cddl X i = Some (inl l) -> l <> [] /\ exists j, d_ws i j /\ covers X j l.
Proof.
  unfold slice_parse_cddl. intros H. destruct (all_consuming _ i) as [l' r|e|e| |] eqn:E; inversion H; subst. clear H.
  apply all_done in E. destruct E as [E ->]. apply preceded_done in E. destruct E as (w & j & W & E). apply ws_sound in W.
  assert (Sh : shrinks (terminated (mapp (fun x => (snd x, fst x)) (recognizer (p_rule T1 Gr))) p_ws)).
  { pose proof (eats_rule T1 Gr (eats_shrinks _ (eats_type1 X)) (shrinks_group X)). auto 10 with nom. }
  apply many1_done in E; auto. destruct E as (x & l' & m & -> & E & R). split; [discriminate|]. exists j. split; auto.
  assert (Q : forall m l, reps (terminated (mapp (fun x => (snd x, fst x)) (recognizer (p_rule T1 Gr))) p_ws) m l [] -> covers X m l).
  { clear - X. intros m l R. remember [] as r eqn:Er in R. induction R as [i e E|i [x s] j l r E L R IH]; subst; [constructor|].
    apply slice_rule_done in E. destruct E as (k & E & Tk & W). apply parse_rule_sound in E. econstructor; eauto. }
  apply slice_rule_done in E. destruct x as [x s]. destruct E as (k & E & Tk & W'). apply parse_rule_sound in E. econstructor; eauto.
Qed.

(** * A schema of one rule *)
Lemma not_idchar c : (c < 0x24)%N -> ~ IDCHAR c.
Proof. unfold IDCHAR, EALPHA, ALPHA, DIGIT, between. lia. Qed.
Lemma ws_of_head c i : ~ SPACE c -> c <> 0x3b%N -> p_ws (c :: i) = Done [] (c :: i).
Proof. intros. apply (ws_run [] (c :: i)); [constructor|apply ws_end_head; auto]. Qed.
Lemma ws_of_space c i : ~ SPACE c -> c <> 0x3b%N -> p_ws (32%N :: c :: i) = Done [32%N] (c :: i).
Proof. intros. apply (ws_run [32%N] (c :: i)); [apply dw_space; [left; auto|constructor]|apply ws_end_head; auto]. Qed.
Lemma ws_of_nil : p_ws [] = Done [] []. Proof. reflexivity. Qed.

Lemma rule_prefix n c i : is_ident n -> ~ SPACE c -> c <> 0x3b%N ->
  p_rule T1 Gr (n ++ txt " = " ++ c :: i) =
  match orp (mapp AssignType (p_ty T1)) (mapp AssignGroup (p_grpent T1 Gr)) (c :: i) with
  | Done v r => Done (Rule n [] v) r
  | Soft e => Soft e
  | Hard e => Hard e
  | Crash => Crash
  | NoFuel => NoFuel
  end.
Proof.
  intros I S N.
  assert (St : id_stop (txt " = " ++ c :: i)) by (apply (id_stop_head 32); [apply not_idchar; lia|unfold SEP; lia]).
  assert (O : opt p_generic_parm (txt " = " ++ c :: i) = Done None (txt " = " ++ c :: i)) by reflexivity.
  assert (W : p_ws (txt " = " ++ c :: i) = Done [32%N] (txt "= " ++ c :: i)).
  { apply (ws_of_space 0x3d (32%N :: c :: i)); [unfold SPACE; lia|lia]. }
  assert (Tg : tag "=" (txt "= " ++ c :: i) = Done (txt "=") (32%N :: c :: i)) by reflexivity.
  cbv beta delta [p_rule p_rule_val mapp separated_pair pairp bindp ret].
  rewrite (ident_run _ _ I St), O, W, Tg, ws_of_space by auto.
  destruct (orp _ _ (c :: i)); reflexivity.
Qed.
Lemma assign_ok n c i v : is_ident n -> ~ SPACE c -> c <> 0x3b%N ->
  orp (mapp AssignType (p_ty T1)) (mapp AssignGroup (p_grpent T1 Gr)) (c :: i) = Done v [] ->
  parse_cddl X (n ++ txt " = " ++ c :: i) = Some (inl [Rule n [] v]).
Proof.
  intros I S N H. unfold parse_cddl.
  destruct (id_head _ I) as (h & m & En & Eh).
  assert (W : p_ws (n ++ txt " = " ++ c :: i) = Done [] (n ++ txt " = " ++ c :: i)).
  { rewrite En. apply ws_of_head; unfold EALPHA, ALPHA, between, SPACE in *; lia. }
  cbv beta delta [all_consuming p_cddl preceded many1 terminated bindp]. rewrite W. rewrite rule_prefix by auto. rewrite H, ws_of_nil.
  reflexivity.
Qed.
Lemma assign_hard n c i e : is_ident n -> ~ SPACE c -> c <> 0x3b%N ->
  orp (mapp AssignType (p_ty T1)) (mapp AssignGroup (p_grpent T1 Gr)) (c :: i) = Hard e ->
  parse_cddl X (n ++ txt " = " ++ c :: i) = Some (inr e).
Proof.
  intros I S N H. unfold parse_cddl.
  destruct (id_head _ I) as (h & m & En & Eh).
  assert (W : p_ws (n ++ txt " = " ++ c :: i) = Done [] (n ++ txt " = " ++ c :: i)).
  { rewrite En. apply ws_of_head; unfold EALPHA, ALPHA, between, SPACE in *; lia. }
  cbv beta delta [all_consuming p_cddl preceded many1 terminated bindp]. rewrite W. rewrite rule_prefix by auto. rewrite H.
  reflexivity.
Qed.
Lemma ty_of_type2 i t : p_type2 X T1 Gr i = Done t [] -> p_ty T1 i = Done [T1Simple t] [].
Proof.
  intros H. cbv beta delta [p_ty separated_list1 bindp]. rewrite type1_eq. cbv beta delta [type1_body mapp pairp bindp]. rewrite H.
  reflexivity.
Qed.
Lemma ty_of_type2_hard i e : p_type2 X T1 Gr i = Hard e -> p_ty T1 i = Hard e.
Proof.
  intros H. cbv beta delta [p_ty separated_list1 bindp]. rewrite type1_eq. cbv beta delta [type1_body mapp pairp bindp]. rewrite H.
  reflexivity.
Qed.
Lemma assign_value n c i : is_ident n -> ~ SPACE c -> c <> 0x3b%N ->
  match p_value X (c :: i) with
  | Done v r => r = [] -> parse_cddl X (n ++ txt " = " ++ c :: i) = Some (inl [Rule n [] (AssignType [T1Simple (T2Value v)])])
  | Hard e => parse_cddl X (n ++ txt " = " ++ c :: i) = Some (inr e)
  | _ => True
  end.
Proof.
  intros I S N. destruct (p_value X (c :: i)) as [v r|e|e| |] eqn:E; auto.
  - intros ->. apply assign_ok; auto. cbv beta delta [orp mapp bindp]. rewrite (ty_of_type2 _ (T2Value v)); [reflexivity|].
    cbv beta delta [p_type2 orp mapp bindp]. rewrite E. reflexivity.
  - apply assign_hard; auto. cbv beta delta [orp mapp bindp]. rewrite (ty_of_type2_hard _ e); [reflexivity|].
    cbv beta delta [p_type2 orp mapp bindp]. rewrite E. reflexivity.
Qed.
End WithX.
