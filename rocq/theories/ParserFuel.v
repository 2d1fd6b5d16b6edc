(** The parser's fuel always suffices, the parsers satisfy the equations of the
    source, and there is no panic. *)
From Coq Require Import List Bool Arith ZArith NArith String Lia.
From Verif Require Import Base Util Data Ivt Ast Nom Parser NomProofs.
Import ListNotations.
Open Scope list_scope.

Ltac nm := unfold type_, group, grpchoice, cddl, cddl_slice in *; auto 15 with nom.

(** * Tokens *)

Lemma shrinks_ws : shrinks p_ws. Proof. unfold p_ws, p_comment, multispace1. eauto 10 with nom. Qed.
Lemma safe_ws n : safe n p_ws. Proof. unfold p_ws, p_comment, multispace1. eauto 10 with nom. Qed.
#[export] Hint Resolve shrinks_ws safe_ws : nom.
Lemma shrinks_optcom : shrinks p_optcom. Proof. unfold p_optcom. auto 10 with nom. Qed.
Lemma safe_optcom n : safe n p_optcom. Proof. unfold p_optcom. auto 10 with nom. Qed.
#[export] Hint Resolve shrinks_optcom safe_optcom : nom.
Lemma shrinks_ident_tail : shrinks p_ident_tail. Proof. unfold p_ident_tail, p_ealpha, digit1. auto 10 with nom. Qed.
Lemma safe_ident_tail n : safe n p_ident_tail. Proof. unfold p_ident_tail, p_ealpha, digit1. auto 10 with nom. Qed.
#[export] Hint Resolve shrinks_ident_tail safe_ident_tail : nom.
Lemma eats_ident : eats p_ident. Proof. unfold p_ident, p_ealpha. auto 10 with nom. Qed.
Lemma safe_ident n : safe n p_ident. Proof. unfold p_ident, p_ealpha. auto 10 with nom. Qed.
#[export] Hint Resolve eats_ident safe_ident : nom.
Lemma eats_uint : eats p_uint.
Proof. unfold p_uint, p_uint_hex, p_uint_binary, p_uint_decimal, hex_digit1, digit0. auto 10 with nom. Qed.
Lemma safe_uint n : safe n p_uint.
Proof. unfold p_uint, p_uint_hex, p_uint_binary, p_uint_decimal, hex_digit1, digit0. auto 15 with nom. Qed.
#[export] Hint Resolve eats_uint safe_uint : nom.
Lemma eats_uint_u64 : eats p_uint_u64. Proof. unfold p_uint_u64. auto with nom. Qed.
Lemma safe_uint_u64 n : safe n p_uint_u64. Proof. unfold p_uint_u64. auto with nom. Qed.
#[export] Hint Resolve eats_uint_u64 safe_uint_u64 : nom.
Lemma eats_pair_r {A B} (p : parser A) (q : parser B) : shrinks p -> eats q -> eats (pairp p q).
Proof. intros. apply eats_bind_r; auto. intros. apply eats_bind_l; auto with nom. Qed.
Lemma eats_int : eats p_int. Proof. unfold p_int. auto using eats_pair_r with nom. Qed.
Lemma safe_int n : safe n p_int. Proof. unfold p_int. auto with nom. Qed.
#[export] Hint Resolve eats_int safe_int : nom.
Lemma shrinks_dot : shrinks p_dot_fraction. Proof. unfold p_dot_fraction, digit1. auto 10 with nom. Qed.
Lemma safe_dot n : safe n p_dot_fraction. Proof. unfold p_dot_fraction, digit1. auto 10 with nom. Qed.
Lemma shrinks_exp : shrinks p_e_exponent. Proof. unfold p_e_exponent, digit1. auto 10 with nom. Qed.
Lemma safe_exp n : safe n p_e_exponent. Proof. unfold p_e_exponent, digit1. auto 10 with nom. Qed.
#[export] Hint Resolve shrinks_dot safe_dot shrinks_exp safe_exp : nom.
Lemma shrinks_bchar : shrinks p_bchar. Proof. unfold p_bchar, p_sesc. auto 10 with nom. Qed.
Lemma safe_bchar n : safe n p_bchar. Proof. unfold p_bchar, p_sesc. auto 10 with nom. Qed.
Lemma shrinks_schar : shrinks p_schar. Proof. unfold p_schar, p_sesc. auto 10 with nom. Qed.
Lemma safe_schar n : safe n p_schar. Proof. unfold p_schar, p_sesc. auto 10 with nom. Qed.
#[export] Hint Resolve shrinks_bchar safe_bchar shrinks_schar safe_schar : nom.
Lemma shrinks_slash : shrinks p_slash. Proof. unfold p_slash. auto 10 with nom. Qed.
Lemma safe_slash n : safe n p_slash. Proof. unfold p_slash. auto 10 with nom. Qed.
Lemma eats_slash : eats p_slash. Proof. unfold p_slash. apply eats_delimited_m; auto with nom. Qed.
#[export] Hint Resolve shrinks_slash safe_slash eats_slash : nom.

Section WithX.
Variable X : ext.

Lemma eats_value : eats (p_value X).
Proof.
  unfold p_value, p_float_or_int, p_text_literal, p_bytestring, p_bytestring_utf8, p_bytestring_hex, p_bytestring_base64.
  repeat apply eats_or; auto 10 with nom.
Qed.
Lemma safe_p_value n : safe n (p_value X).
Proof.
  unfold p_value, p_float_or_int, p_text_literal, p_bytestring, p_bytestring_utf8, p_bytestring_hex, p_bytestring_base64.
  repeat apply safe_or; auto 10 with nom.
Qed.
Lemma eats_occur : eats p_occur.
Proof. unfold p_occur, p_occur_star, valuep. repeat apply eats_or; auto with nom. apply eats_map_res, eats_pair_r; auto with nom. Qed.
Lemma safe_occur n : safe n p_occur.
Proof. unfold p_occur, p_occur_star. repeat apply safe_or; auto 10 with nom. Qed.
Hint Resolve eats_value safe_p_value eats_occur safe_occur : nom.

(** * Bodies *)

Section Body.
Variable T1 : parser type1.
Variable G : parser group.
Hypothesis ST : shrinks T1.
Hypothesis SG : shrinks G.

Lemma shrinks_ty : shrinks (p_ty T1). Proof. unfold p_ty. nm. Qed.
Hint Resolve shrinks_ty : nom.
Lemma shrinks_generic_arg : shrinks (p_generic_arg T1). Proof. unfold p_generic_arg. nm. Qed.
Hint Resolve shrinks_generic_arg : nom.
Lemma eats_name_generic : eats (p_name_generic T1). Proof. unfold p_name_generic. nm. Qed.
Hint Resolve eats_name_generic : nom.
Lemma eats_in {A} o c (p : parser A) : shrinks p -> eats (p_in o c p). Proof. intros. unfold p_in. nm. Qed.
Hint Resolve eats_in : nom.
Lemma eats_type2 : eats (p_type2 X T1 G).
Proof. unfold p_type2. repeat apply eats_or; nm. Qed.
Hint Resolve eats_type2 : nom.
Lemma shrinks_roc : shrinks (p_range_or_control X T1 G).
Proof. unfold p_range_or_control, p_control_op. nm. Qed.
Lemma eats_roc : eats (p_range_or_control X T1 G).
Proof. unfold p_range_or_control, p_control_op. nm. Qed.
Hint Resolve shrinks_roc : nom.
Lemma eats_type1_body : eats (type1_body X T1 G).
Proof. unfold type1_body. nm. Qed.

Lemma shrinks_plain f : shrinks (member_plain T1 f).
Proof.
  intros i a r E. unfold member_plain in E. destruct (p_more_choices T1 i) eqn:P; inversion E; subst.
  assert (S : shrinks (p_more_choices T1)) by (unfold p_more_choices; nm). eauto.
Qed.
Lemma shrinks_arrow f : shrinks (member_arrow T1 f).
Proof.
  intros i a r E. unfold member_arrow in E. destruct (p_arrow_tail T1 i) eqn:P; try (eapply shrinks_plain; eauto; fail);
    inversion E; subst.
  assert (S : shrinks (p_arrow_tail T1)) by (unfold p_arrow_tail; nm). eauto.
Qed.
Lemma shrinks_colon f : shrinks (member_colon T1 f).
Proof.
  intros i a r E. unfold member_colon in E. destruct (p_memberkey_tail T1 i) eqn:P; try (eapply shrinks_arrow; eauto; fail);
    try discriminate.
  destruct (assemble_basic_member f a0) as [[]|]; inversion E; subst.
  assert (S : shrinks (p_memberkey_tail T1)) by (unfold p_memberkey_tail; nm). eauto.
Qed.
Lemma shrinks_member : shrinks (p_grpent_member T1).
Proof.
  unfold p_grpent_member. apply shrinks_bind; nm.
  intros [[]| |]; auto using shrinks_colon, shrinks_arrow.
Qed.
Hint Resolve shrinks_member : nom.
Lemma shrinks_grpent_val : shrinks (p_grpent_val T1 G).
Proof. unfold p_grpent_val, p_grpent_parens. nm. Qed.
Hint Resolve shrinks_grpent_val : nom.
Lemma shrinks_grpent : shrinks (p_grpent T1 G).
Proof. unfold p_grpent. nm. Qed.
Hint Resolve shrinks_grpent : nom.
Lemma shrinks_grpchoice : shrinks (p_grpchoice T1 G).
Proof. unfold p_grpchoice. nm. Qed.
Hint Resolve shrinks_grpchoice : nom.
Lemma shrinks_group_body : shrinks (group_body T1 G).
Proof. unfold group_body. nm. Qed.
Lemma shrinks_rule_val : shrinks (p_rule_val T1 G).
Proof. unfold p_rule_val. nm. Qed.
Hint Resolve shrinks_rule_val : nom.
Lemma shrinks_generic_parm : shrinks p_generic_parm.
Proof. unfold p_generic_parm. nm. Qed.
Hint Resolve shrinks_generic_parm : nom.
Lemma eats_rule : eats (p_rule T1 G).
Proof. unfold p_rule. nm. Qed.

(** ** Fuel *)

Variable n : nat.
Hypothesis FG : safe n G.

Section Small.
Hypothesis FT : safe n T1.
Lemma safe_ty : safe n (p_ty T1). Proof. unfold p_ty. nm. Qed.
Lemma safe_generic_arg : safe (S n) (p_generic_arg T1).
Proof. unfold p_generic_arg. apply safe_delimited_eat; nm. Qed.
Lemma safe_name_generic m : safe (S n) (p_name_generic T1) -> m <= S n -> safe m (p_name_generic T1).
Proof. intros H L. eapply safe_le; eauto. Qed.
Lemma safe_name_generic_S : safe (S n) (p_name_generic T1).
Proof. unfold p_name_generic. apply safe_map, safe_pair; auto using safe_generic_arg with nom. Qed.
Lemma safe_in {A} o c (p : parser A) : safe n p -> shrinks p -> safe (S n) (p_in o c p).
Proof. intros. unfold p_in. apply safe_delimited_eat; nm. Qed.
Hint Resolve safe_ty safe_name_generic_S safe_in : nom.
Lemma safe_type2 : safe (S n) (p_type2 X T1 G).
Proof. unfold p_type2. repeat apply safe_or; nm. Qed.
Hint Resolve safe_type2 : nom.
Lemma safe_roc : safe (S n) (p_range_or_control X T1 G).
Proof. unfold p_range_or_control, p_control_op. nm. Qed.
Hint Resolve safe_roc : nom.
Lemma safe_type1_body : safe (S n) (type1_body X T1 G).
Proof. unfold type1_body. nm. Qed.
End Small.

Hypothesis FT : safe (S n) T1.
Lemma safe_ty_S : safe (S n) (p_ty T1). Proof. unfold p_ty. nm. Qed.
Hint Resolve safe_ty_S : nom.
Lemma safe_plain f : safe (S n) (member_plain T1 f).
Proof.
  intros i Hi. unfold member_plain. assert (S : safe (S n) (p_more_choices T1)) by (unfold p_more_choices; nm).
  apply S in Hi. destruct (p_more_choices T1 i); auto.
Qed.
Lemma safe_arrow f : safe (S n) (member_arrow T1 f).
Proof.
  intros i Hi. unfold member_arrow. assert (S : safe (S n) (p_arrow_tail T1)) by (unfold p_arrow_tail; nm).
  apply S in Hi as H'. destruct (p_arrow_tail T1 i); auto; apply safe_plain; auto.
Qed.
Lemma safe_colon f : match f with T1Simple (T2Value _) | T1Simple (T2Typename _ _) => True | _ => False end ->
  safe (S n) (member_colon T1 f).
Proof.
  intros K i Hi. unfold member_colon. assert (S : safe (S n) (p_memberkey_tail T1)) by (unfold p_memberkey_tail; nm).
  apply S in Hi as H'. destruct (p_memberkey_tail T1 i); auto; try (apply safe_arrow; auto; fail).
  destruct f as [[|? []| | | | | | ]| |]; try contradiction K; exact I.
Qed.
Lemma safe_member : safe (S n) (p_grpent_member T1).
Proof.
  unfold p_grpent_member. apply safe_bind; nm.
  intros [[]| |]; auto using safe_arrow; apply safe_colon; exact I.
Qed.
Hint Resolve safe_member safe_in : nom.
Lemma safe_grpent_val : safe (S n) (p_grpent_val T1 G).
Proof. unfold p_grpent_val, p_grpent_parens. nm. Qed.
Hint Resolve safe_grpent_val : nom.
Lemma safe_grpent : safe (S n) (p_grpent T1 G).
Proof. unfold p_grpent. nm. Qed.
Hint Resolve safe_grpent : nom.
Lemma safe_grpchoice : safe (S n) (p_grpchoice T1 G).
Proof. unfold p_grpchoice. nm. Qed.
Hint Resolve safe_grpchoice : nom.
Lemma safe_group_body : safe (S n) (group_body T1 G).
Proof. unfold group_body. nm. Qed.
Lemma safe_generic_parm : safe (S n) p_generic_parm.
Proof. unfold p_generic_parm. nm. Qed.
Hint Resolve safe_generic_parm : nom.
Lemma safe_rule_val : safe (S n) (p_rule_val T1 G).
Proof. unfold p_rule_val. nm. Qed.
Hint Resolve safe_rule_val : nom.
Lemma safe_rule : safe (S n) (p_rule T1 G).
Proof. unfold p_rule. nm. Qed.
Hint Resolve safe_rule eats_rule : nom.
Lemma safe_cddl : safe (S n) (p_cddl T1 G).
Proof. unfold p_cddl. nm. Qed.
Lemma safe_cddl_slice : safe (S n) (p_cddl_slice T1 G).
Proof. unfold p_cddl_slice. nm. Qed.
End Body.

Section Below.
Variables (T1 T1' : parser type1) (G G' : parser group).
Hypothesis BT : below T1 T1'.
Hypothesis BG : below G G'.
Lemma below_ty : below (p_ty T1) (p_ty T1'). Proof. unfold p_ty. nm. Qed.
Hint Resolve below_ty : nom.
Lemma below_name_generic : below (p_name_generic T1) (p_name_generic T1').
Proof. unfold p_name_generic, p_generic_arg. nm. Qed.
Hint Resolve below_name_generic : nom.
Lemma below_in {A} o c (p p' : parser A) : below p p' -> below (p_in o c p) (p_in o c p').
Proof. intros. unfold p_in. nm. Qed.
Hint Resolve below_in : nom.
Lemma below_type2 : below (p_type2 X T1 G) (p_type2 X T1' G').
Proof. unfold p_type2. repeat apply below_or; nm. Qed.
Hint Resolve below_type2 : nom.
Lemma below_type1_body : below (type1_body X T1 G) (type1_body X T1' G').
Proof. unfold type1_body, p_range_or_control. nm. Qed.
Lemma below_plain f : below (member_plain T1 f) (member_plain T1' f).
Proof.
  intros i N. unfold member_plain in *. assert (S : below (p_more_choices T1) (p_more_choices T1')) by (unfold p_more_choices; nm).
  destruct (p_more_choices T1 i) eqn:E; try congruence; rewrite (S i), E; congruence.
Qed.
Lemma below_arrow f : below (member_arrow T1 f) (member_arrow T1' f).
Proof.
  intros i N. unfold member_arrow in *. assert (S : below (p_arrow_tail T1) (p_arrow_tail T1')) by (unfold p_arrow_tail; nm).
  destruct (p_arrow_tail T1 i) eqn:E; try congruence; (rewrite (S i), E; [|congruence]); auto; apply below_plain; auto.
Qed.
Lemma below_colon f : below (member_colon T1 f) (member_colon T1' f).
Proof.
  intros i N. unfold member_colon in *. assert (S : below (p_memberkey_tail T1) (p_memberkey_tail T1')) by (unfold p_memberkey_tail; nm).
  destruct (p_memberkey_tail T1 i) eqn:E; try congruence; (rewrite (S i), E; [|congruence]); auto; apply below_arrow; auto.
Qed.
Lemma below_member : below (p_grpent_member T1) (p_grpent_member T1').
Proof. unfold p_grpent_member. apply below_bind; nm. intros [[]| |]; auto using below_colon, below_arrow. Qed.
Hint Resolve below_member : nom.
Lemma below_grpent : below (p_grpent T1 G) (p_grpent T1' G').
Proof. unfold p_grpent, p_grpent_val, p_grpent_parens. nm. Qed.
Hint Resolve below_grpent : nom.
Lemma below_group_body : below (group_body T1 G) (group_body T1' G').
Proof. unfold group_body, p_grpchoice. nm. Qed.
End Below.

(** * The knot *)

Lemma type1_f_S n : type1_f X (S n) = type1_body X (type1_f X n) (group_f X n). Proof. reflexivity. Qed.
Lemma group_f_S n : group_f X (S n) = group_body (type1_f X n) (group_f X n). Proof. reflexivity. Qed.

Lemma shrinks_f n : shrinks (type1_f X n) /\ shrinks (group_f X n).
Proof.
  induction n as [|n [IH1 IH2]]; [split; intros i a r E; discriminate|]. rewrite type1_f_S, group_f_S. split.
  - apply eats_shrinks, eats_type1_body; auto.
  - apply shrinks_group_body; auto.
Qed.
Lemma safe_f n : (forall m, 2 * n + 1 <= m -> safe (S n) (type1_f X m)) /\
  (forall m, 2 * n + 2 <= m -> safe (S n) (group_f X m)).
Proof.
  assert (St : forall n, (forall m, 2 * n <= m -> safe n (type1_f X m) /\ safe n (group_f X m)) ->
    (forall m, 2 * n + 1 <= m -> safe (S n) (type1_f X m)) /\ (forall m, 2 * n + 2 <= m -> safe (S n) (group_f X m))).
  { clear n. intros n H.
    assert (A : forall m, 2 * n + 1 <= m -> safe (S n) (type1_f X m)).
    { intros [|m] L; [lia|]. rewrite type1_f_S. destruct (shrinks_f m). apply safe_type1_body; auto; apply H; lia. }
    split; auto. intros [|m] L; [lia|]. rewrite group_f_S. destruct (shrinks_f m). apply safe_group_body; auto; [apply H; lia|apply A; lia]. }
  apply St. induction n as [|n IH].
  - intros; split; apply safe_0.
  - destruct (St n) as [A B]; [exact IH|]. intros m L. split; [apply A; lia|apply B; lia].
Qed.
Lemma below_f n m : n <= m -> below (type1_f X n) (type1_f X m) /\ below (group_f X n) (group_f X m).
Proof.
  revert m. induction n as [|n IH]; intros m L; [split; intros i N; exfalso; apply N; reflexivity|].
  destruct m as [|m]; [lia|]. destruct (IH m) as [A B]; [lia|]. rewrite !type1_f_S, !group_f_S. split.
  - apply below_type1_body; auto.
  - apply below_group_body; auto.
Qed.

Lemma good_not_fuel {A} (r : pres A) : good r -> r <> NoFuel.
Proof. intros H ->. exact H. Qed.
Lemma type1_good i : good (parse_type1 X i).
Proof. unfold parse_type1, enough. apply (proj1 (safe_f (List.length i))); lia. Qed.
Lemma group_good i : good (parse_group X i).
Proof. unfold parse_group, enough. apply (proj2 (safe_f (List.length i))); lia. Qed.

Lemma type1_limit n i : type1_f X n i <> NoFuel -> parse_type1 X i = type1_f X n i.
Proof.
  intros N. unfold parse_type1. transitivity (type1_f X (n + enough i) i).
  - symmetry. apply (proj1 (below_f _ _ (Nat.le_add_l (enough i) n))). apply good_not_fuel, type1_good.
  - apply (proj1 (below_f _ _ (Nat.le_add_r n (enough i)))). auto.
Qed.
Lemma group_limit n i : group_f X n i <> NoFuel -> parse_group X i = group_f X n i.
Proof.
  intros N. unfold parse_group. transitivity (group_f X (n + enough i) i).
  - symmetry. apply (proj2 (below_f _ _ (Nat.le_add_l (enough i) n))). apply good_not_fuel, group_good.
  - apply (proj2 (below_f _ _ (Nat.le_add_r n (enough i)))). auto.
Qed.

(** The equations of the source. *)
Theorem type1_eq i : parse_type1 X i = type1_body X (parse_type1 X) (parse_group X) i.
Proof.
  symmetry. unfold parse_type1 at 2. replace (enough i) with (S (2 * List.length i + 1)) by (unfold enough; lia).
  rewrite type1_f_S. apply below_type1_body.
  - intros j. apply type1_limit.
  - intros j. apply group_limit.
  - rewrite <- type1_f_S. apply good_not_fuel. apply (proj1 (safe_f (List.length i))); lia.
Qed.
Theorem group_eq i : parse_group X i = group_body (parse_type1 X) (parse_group X) i.
Proof.
  symmetry. unfold parse_group at 2. replace (enough i) with (S (2 * List.length i + 1)) by (unfold enough; lia).
  rewrite group_f_S. apply below_group_body.
  - intros j. apply type1_limit.
  - intros j. apply group_limit.
  - rewrite <- group_f_S. apply good_not_fuel. apply (proj2 (safe_f (List.length i))); lia.
Qed.

Lemma eats_type1 : eats (parse_type1 X).
Proof.
  intros i a r. unfold parse_type1. replace (enough i) with (S (2 * List.length i + 1)) by (unfold enough; lia).
  rewrite type1_f_S. apply eats_type1_body; apply shrinks_f.
Qed.
Lemma shrinks_group : shrinks (parse_group X).
Proof. intros i a r. unfold parse_group. apply shrinks_f. Qed.
Lemma safe_parse_type1 n : safe n (parse_type1 X).
Proof. intros i _. apply type1_good. Qed.
Lemma safe_parse_group n : safe n (parse_group X).
Proof. intros i _. apply group_good. Qed.

Lemma finish_good {A} (r : pres A) : good r -> finish r <> None.
Proof. destruct r; cbn; try discriminate; tauto. Qed.
Lemma parse_total i : parse_cddl X i <> None.
Proof.
  apply finish_good. apply (safe_all_consuming (S (List.length i))); [|lia].
  apply safe_cddl; auto using eats_shrinks, eats_type1, shrinks_group, safe_parse_type1, safe_parse_group.
Qed.
Lemma slice_parse_total i : slice_parse_cddl X i <> None.
Proof.
  apply finish_good. apply (safe_all_consuming (S (List.length i))); [|lia].
  apply safe_cddl_slice; auto using eats_shrinks, eats_type1, shrinks_group, safe_parse_type1, safe_parse_group.
Qed.
End WithX.
