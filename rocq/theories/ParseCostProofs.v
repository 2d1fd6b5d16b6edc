(** The counted parser is the parser; bounds on the count. *)
From Coq Require Import List Bool Arith NArith String Lia.
From Verif Require Import Base Util Data Ivt Ast Nom Parser NomProofs ParserFuel ParseCost.
Import ListNotations.
Open Scope list_scope.

(** * Without the counter *)
Definition erases {A} (c : cparser A) (p : parser A) : Prop := forall i, fst (c i) = p i.
Lemma e_call {A} (p : parser A) : erases (call p) p. Proof. intros i. reflexivity. Qed.
Lemma e_ret {A} (a : A) : erases (cret a) (ret a). Proof. intros i. reflexivity. Qed.
Lemma e_bind {A B} (c : cparser A) p (f : A -> cparser B) g : erases c p -> (forall a, erases (f a) (g a)) -> erases (cbind c f) (bindp p g).
Proof. intros H F i. unfold cbind, bindp. rewrite <- H. destruct (c i) as [[] k]; cbn; auto. apply F. Qed.
Lemma e_or {A} (c d : cparser A) p q : erases c p -> erases d q -> erases (cor c d) (orp p q).
Proof. intros H F i. unfold cor, orp. rewrite <- H. destruct (c i) as [[] k]; cbn; auto. Qed.
Lemma e_opt {A} (c : cparser A) p : erases c p -> erases (copt c) (opt p).
Proof. intros H i. unfold copt, opt. rewrite <- H. destruct (c i) as [[] k]; cbn; auto. Qed.
Lemma e_many0 {A} (c : cparser A) p : erases c p -> erases (cmany0 c) (many0 p).
Proof.
  intros H i. unfold cmany0, many0. generalize (S (List.length i)). intros n. revert i. induction n as [|n IH]; intros i; cbn; auto.
  rewrite <- H. destruct (c i) as [[a r|e|e| |] k]; cbn; auto. destruct (Nat.eqb _ _); auto. rewrite <- IH. cbn.
  destruct (cmany0_f n c r) as [[] ?]; reflexivity.
Qed.
Lemma e_sep {A B} (s : cparser B) q (c : cparser A) p : erases s q -> erases c p ->
  erases (fun i => csep_loop_f (S (List.length i)) s c i) (fun i => sep_loop_f (S (List.length i)) q p i).
Proof.
  intros H F i. generalize (S (List.length i)). intros n. revert i. induction n as [|n IH]; intros i; cbn; auto.
  rewrite <- H. destruct (s i) as [[a r|e|e| |] k]; cbn; auto. destruct (Nat.eqb _ _); auto. cbn. rewrite <- F.
  destruct (c r) as [[a' r'|e|e| |] k']; cbn; auto. rewrite <- IH. destruct (csep_loop_f n s c r') as [[] ?]; reflexivity.
Qed.
Create HintDb erase.
#[export] Hint Resolve e_call e_ret e_bind e_or e_opt e_many0 e_sep : erase.
Ltac er := repeat first
  [ assumption | apply e_call | apply e_ret | apply e_opt | apply e_or | apply e_many0 | apply e_sep
  | (apply e_bind; [|intros ?]) ].
Ltac eu := unfold cmap, mapp, cpair, pairp, cpreceded, preceded, cterminated, terminated, cdelimited, delimited, cseparated_pair, separated_pair,
  cseparated_list1, separated_list1, cmany1, many1 in *.
Section Erase.
Variable X : ext.
Section Body.
Variables (ct : cparser type1) (t : parser type1) (cg : cparser group) (g : parser group).
Hypotheses (ET : erases ct t) (EG : erases cg g).
Lemma e_slash : erases c_slash p_slash. Proof. unfold c_slash, p_slash. eu. er. Qed.
Lemma e_ty : erases (c_ty ct) (p_ty t). Proof. unfold c_ty, p_ty. pose proof e_slash. eu. er. Qed.
Lemma e_generic_arg : erases (c_generic_arg ct) (p_generic_arg t). Proof. unfold c_generic_arg, p_generic_arg. eu. er. Qed.
Lemma e_name_generic : erases (c_name_generic ct) (p_name_generic t). Proof. unfold c_name_generic, p_name_generic. pose proof e_generic_arg. eu. er. Qed.
Lemma e_memberkey_tail : erases (c_memberkey_tail ct) (p_memberkey_tail t). Proof. unfold c_memberkey_tail, p_memberkey_tail. pose proof e_ty. eu. er. Qed.
Lemma e_arrow_tail : erases (c_arrow_tail ct) (p_arrow_tail t). Proof. unfold c_arrow_tail, p_arrow_tail. pose proof e_ty. eu. er. Qed.
Lemma e_more_choices : erases (c_more_choices ct) (p_more_choices t). Proof. unfold c_more_choices, p_more_choices. pose proof e_slash. eu. er. Qed.
Lemma e_plain f : erases (cmember_plain ct f) (member_plain t f).
Proof. intros i. unfold cmember_plain, member_plain. rewrite <- e_more_choices. destruct (c_more_choices ct i) as [[] k]; reflexivity. Qed.
Lemma e_arrow f : erases (cmember_arrow ct f) (member_arrow t f).
Proof. intros i. unfold cmember_arrow, member_arrow. rewrite <- e_arrow_tail. destruct (c_arrow_tail ct i) as [[] k]; cbn; auto; apply e_plain. Qed.
Lemma e_colon f : erases (cmember_colon ct f) (member_colon t f).
Proof. intros i. unfold cmember_colon, member_colon. rewrite <- e_memberkey_tail. destruct (c_memberkey_tail ct i) as [[] k]; cbn; auto; apply e_arrow. Qed.
Lemma e_member : erases (c_grpent_member ct) (p_grpent_member t).
Proof. unfold c_grpent_member, p_grpent_member. eu. apply e_bind; [er|]. intros [[]| |]; auto using e_colon, e_arrow. Qed.
Lemma e_in {A} o c (cp : cparser A) p : erases cp p -> erases (c_in o c cp) (p_in o c p). Proof. intros. unfold c_in, p_in. eu. er. Qed.
Lemma e_grpent_val : erases (c_grpent_val ct cg) (p_grpent_val t g).
Proof. unfold c_grpent_val, p_grpent_val, p_grpent_parens. pose proof e_member. pose proof (e_in 0x28 0x29 _ _ EG). eu. er. Qed.
Lemma e_grpent : erases (c_grpent ct cg) (p_grpent t g). Proof. unfold c_grpent, p_grpent. pose proof e_grpent_val. eu. er. Qed.
Lemma e_grpchoice : erases (c_grpchoice ct cg) (p_grpchoice t g). Proof. unfold c_grpchoice, p_grpchoice. pose proof e_grpent. eu. er. Qed.
Lemma e_group_body : erases (cgroup_body ct cg) (group_body t g). Proof. unfold cgroup_body, group_body. pose proof e_grpchoice. eu. er. Qed.
Lemma e_type2 : erases (c_type2 X ct cg) (p_type2 X t g).
Proof.
  unfold c_type2, p_type2. pose proof e_name_generic. pose proof (e_in 0x28 0x29 _ _ e_ty). pose proof (e_in 0x28 0x29 _ _ EG).
  pose proof (e_in 0x7b 0x7d _ _ EG). pose proof (e_in 0x5b 0x5d _ _ EG). eu. er.
Qed.
Lemma e_roc : erases (c_range_or_control X ct cg) (p_range_or_control X t g). Proof. unfold c_range_or_control, p_range_or_control. pose proof e_type2. eu. er. Qed.
Lemma e_type1_body : erases (ctype1_body X ct cg) (type1_body X t g). Proof. unfold ctype1_body, type1_body. pose proof e_type2. pose proof e_roc. eu. er. Qed.
Lemma e_rule_val : erases (c_rule_val ct cg) (p_rule_val t g). Proof. unfold c_rule_val, p_rule_val. pose proof e_ty. pose proof e_grpent. eu. er. Qed.
Lemma e_generic_parm : erases c_generic_parm p_generic_parm. Proof. unfold c_generic_parm, p_generic_parm. eu. er. Qed.
Lemma e_rule : erases (c_rule ct cg) (p_rule t g). Proof. unfold c_rule, p_rule. pose proof e_rule_val. pose proof e_generic_parm. eu. er. Qed.
Lemma e_cddl : erases (c_cddl ct cg) (p_cddl t g). Proof. unfold c_cddl, p_cddl. pose proof e_rule. eu. er. Qed.
End Body.
Lemma e_knot n : erases (ctype1_f X n) (type1_f X n) /\ erases (cgroup_f X n) (group_f X n).
Proof.
  induction n as [|n [IT IG]]; [split; intros i; reflexivity|].
  split; intros i; cbn [ctype1_f type1_f cgroup_f group_f]; [apply e_type1_body|apply e_group_body]; auto.
Qed.
Lemma e_consuming {A} (c : cparser A) p : erases c p -> erases (call_consuming c) (all_consuming p).
Proof. intros E. unfold call_consuming, all_consuming. apply e_bind; auto. intros a i. reflexivity. Qed.
Theorem counted_parser i : cparse_cddl X i = parse_cddl X i.
Proof.
  unfold cparse_cddl, parse_cddl. f_equal. apply e_consuming. apply e_cddl; intros j; [apply (e_knot (enough j))|apply (e_knot (enough j))].
Qed.
End Erase.

(** * Upper bounds *)
(** On texts of at most [L] characters: at most [b] steps, and the rest has at most [L] characters. *)
Definition bnd {A} (L b : nat) (c : cparser A) : Prop :=
  forall i, List.length i <= L -> snd (c i) <= b /\ forall a r, fst (c i) = Done a r -> List.length r <= L.
Lemma b_le {A} L b b' (c : cparser A) : bnd L b c -> b <= b' -> bnd L b' c.
Proof. intros H M i I. destruct (H i I). split; auto. lia. Qed.
Lemma b_call {A} L (p : parser A) : shrinks p -> bnd L 1 (call p).
Proof. intros S i I. split; auto. cbn. intros a r E. apply S in E. lia. Qed.
Lemma b_ret {A} L (a : A) : bnd L 0 (cret a).
Proof. intros i I. split; auto. cbn. intros ? ? [= <- <-]. auto. Qed.
Lemma b_bind {A B} L b b' (c : cparser A) (f : A -> cparser B) : bnd L b c -> (forall a, bnd L b' (f a)) -> bnd L (b + b') (cbind c f).
Proof.
  intros H F i I. destruct (H i I) as [P Q]. unfold cbind. destruct (c i) as [[a r|e|e| |] k]; cbn in *; try (split; [lia|discriminate]).
  destruct (F a r (Q _ _ eq_refl)). split; auto. lia.
Qed.
Lemma b_or {A} L b b' (c d : cparser A) : bnd L b c -> bnd L b' d -> bnd L (b + b') (cor c d).
Proof.
  intros H F i I. destruct (H i I) as [P Q]. destruct (F i I). unfold cor. destruct (c i) as [[a r|e|e| |] k]; cbn in *; try (split; [lia|auto; discriminate]).
Qed.
Lemma b_opt {A} L b (c : cparser A) : bnd L b c -> bnd L b (copt c).
Proof.
  intros H i I. destruct (H i I) as [P Q]. unfold copt. destruct (c i) as [[a r|e|e| |] k]; cbn in *; split; try lia; try discriminate.
  - intros ? ? [= <- <-]. eauto.
  - intros ? ? [= <- <-]. auto.
Qed.
Lemma b_many0 {A} L b (c : cparser A) : bnd L b c -> bnd L (S L * b) (cmany0 c).
Proof.
  intros H i I. unfold cmany0.
  assert (G : forall n i, List.length i <= L -> snd (cmany0_f n c i) <= n * b /\ forall a r, fst (cmany0_f n c i) = Done a r -> List.length r <= L).
  { clear i I. induction n as [|n IH]; intros i I; [split; [auto|discriminate]|]. cbn [cmany0_f]. destruct (H i I) as [P Q].
    destruct (c i) as [[a r|e|e| |] k]; cbn in P, Q |- *; try (split; [lia|discriminate]).
    - destruct (Nat.eqb _ _); [split; [cbn; lia|discriminate]|]. destruct (IH r (Q _ _ eq_refl)) as [P' Q'].
      destruct (cmany0_f n c r) as [[] k']; cbn in *; split; try lia; try discriminate. intros ? ? [= <- <-]. eauto.
    - split; [lia|]. intros ? ? [= <- <-]. auto. }
  destruct (G (S (List.length i)) i I) as [P Q]. split; auto. etransitivity; [exact P|]. apply Nat.mul_le_mono_r. lia.
Qed.
Lemma b_sep {A B} L b b' (s : cparser B) (c : cparser A) : bnd L b s -> bnd L b' c ->
  bnd L (S L * (b + b')) (fun i => csep_loop_f (S (List.length i)) s c i).
Proof.
  intros H F i I.
  assert (G : forall n i, List.length i <= L -> snd (csep_loop_f n s c i) <= n * (b + b') /\ forall a r, fst (csep_loop_f n s c i) = Done a r -> List.length r <= L).
  { clear i I. induction n as [|n IH]; intros i I; [split; [auto|discriminate]|]. cbn [csep_loop_f]. destruct (H i I) as [P Q].
    destruct (s i) as [[x j|e|e| |] k]; cbn in P, Q |- *; try (split; [lia|discriminate]).
    - destruct (Nat.eqb _ _); [split; [cbn; lia|discriminate]|]. destruct (F j (Q _ _ eq_refl)) as [P' Q'].
      destruct (c j) as [[a r|e|e| |] k']; cbn in P', Q' |- *; try (split; [lia|discriminate]).
      + destruct (IH r (Q' _ _ eq_refl)) as [P2 Q2]. destruct (csep_loop_f n s c r) as [[] k2]; cbn in *; split; try lia; try discriminate.
        intros ? ? [= <- <-]. eauto.
      + split; [lia|]. intros ? ? [= <- <-]. auto.
    - split; [lia|]. intros ? ? [= <- <-]. auto. }
  destruct (G (S (List.length i)) i I) as [P Q]. split; auto. etransitivity; [exact P|]. apply Nat.mul_le_mono_r. lia.
Qed.
Lemma shrinks_control : shrinks p_control_op.
Proof. unfold p_control_op. apply shrinks_preceded; [apply shrinks_tag|apply eats_shrinks, eats_ident]. Qed.
Ltac bs := repeat first
  [ eassumption | (apply b_call; first [apply shrinks_ws | apply shrinks_optcom | apply shrinks_tag | apply eats_shrinks, eats_satisfy
      | apply eats_shrinks, eats_ident | apply eats_shrinks, eats_value | apply eats_shrinks, eats_occur | solve [auto 10 using eats_shrinks, eats_ident with nom]])
  | apply b_ret | apply b_opt | apply b_or | apply b_many0 | apply b_sep | (apply b_bind; [|intros ?]) ].
Ltac bu := eapply b_le; [eu; bs|].
Section Bound.
Variable X : ext.
Variables (L T : nat) (ct : cparser type1) (cg : cparser group).
Hypotheses (T1 : 1 <= T) (BT : bnd L T ct) (BG : bnd L T cg).
Notation a := (S L).
Lemma b_slash : bnd L 3 c_slash. Proof. unfold c_slash. bu. lia. Qed.
Lemma b_ty : bnd L (5 * (a * T)) (c_ty ct). Proof. pose proof b_slash. unfold c_ty. bu. nia. Qed.
Lemma b_generic_arg : bnd L (9 * (a * T)) (c_generic_arg ct). Proof. unfold c_generic_arg. bu. nia. Qed.
Lemma b_name_generic : bnd L (10 * (a * T)) (c_name_generic ct). Proof. pose proof b_generic_arg. unfold c_name_generic. bu. nia. Qed.
Lemma b_memberkey_tail : bnd L (7 * (a * T)) (c_memberkey_tail ct). Proof. pose proof b_ty. unfold c_memberkey_tail. bu. nia. Qed.
Lemma b_arrow_tail : bnd L (9 * (a * T)) (c_arrow_tail ct). Proof. pose proof b_ty. unfold c_arrow_tail. bu. nia. Qed.
Lemma b_more_choices : bnd L (4 * (a * T)) (c_more_choices ct). Proof. pose proof b_slash. unfold c_more_choices. bu. nia. Qed.
Lemma b_plain f : bnd L (4 * (a * T)) (cmember_plain ct f).
Proof.
  intros i I. destruct (b_more_choices i I) as [P Q]. unfold cmember_plain. destruct (c_more_choices ct i) as [[] k]; cbn in *; split; auto; try discriminate.
  intros ? ? [= <- <-]. eauto.
Qed.
Lemma b_arrow f : bnd L (13 * (a * T)) (cmember_arrow ct f).
Proof.
  intros i I. destruct (b_arrow_tail i I) as [P Q]. destruct (b_plain f i I) as [P' Q']. unfold cmember_arrow.
  destruct (c_arrow_tail ct i) as [[] k]; cbn [fst snd plus] in *; split; auto; try discriminate; try lia. intros ? ? [= <- <-]. eauto.
Qed.
Lemma b_colon f : bnd L (20 * (a * T)) (cmember_colon ct f).
Proof.
  intros i I. destruct (b_memberkey_tail i I) as [P Q]. destruct (b_arrow f i I) as [P' Q']. unfold cmember_colon.
  destruct (c_memberkey_tail ct i) as [[] k]; cbn [fst snd plus] in *; split; auto; try discriminate; try lia.
  destruct (assemble_basic_member f _) as [[]|]; try discriminate. intros ? ? [= <- <-]. eauto.
Qed.
Lemma b_member : bnd L (22 * (a * T)) (c_grpent_member ct).
Proof.
  unfold c_grpent_member. eapply b_le; [apply b_bind; [eu; bs|]|].
  - instantiate (1 := 20 * (a * T)). assert (forall f, bnd L (20 * (a * T)) (cmember_arrow ct f)) by (intros f; eapply b_le; [apply b_arrow|lia]).
    intros [[]| |]; auto using b_colon.
  - nia.
Qed.
Lemma b_in {A} o c b (p : cparser A) : bnd L b p -> bnd L (4 + b) (c_in o c p). Proof. intros. unfold c_in. bu. lia. Qed.
Lemma b_grpent_val : bnd L (28 * (a * T)) (c_grpent_val ct cg).
Proof. pose proof b_member. pose proof (b_in 0x28 0x29 _ _ BG). unfold c_grpent_val. bu. nia. Qed.
Lemma b_grpent : bnd L (30 * (a * T)) (c_grpent ct cg). Proof. pose proof b_grpent_val. unfold c_grpent. bu. nia. Qed.
Lemma b_grpchoice : bnd L (31 * (a * (a * T))) (c_grpchoice ct cg). Proof. pose proof b_grpent. unfold c_grpchoice. bu. nia. Qed.
Lemma b_group_body : bnd L (150 * (a * (a * (a * T)))) (cgroup_body ct cg).
Proof. pose proof b_grpchoice. unfold cgroup_body. bu. assert (1 <= a * (a * T)) by nia. set (u := a * (a * T)) in *. nia. Qed.
Lemma b_type2 : bnd L (65 * (a * T)) (c_type2 X ct cg).
Proof.
  pose proof b_name_generic. pose proof (b_in 0x28 0x29 _ _ b_ty). pose proof (b_in 0x28 0x29 _ _ BG).
  pose proof (b_in 0x7b 0x7d _ _ BG). pose proof (b_in 0x5b 0x5d _ _ BG). unfold c_type2. bu. assert (T <= a * T) by nia. lia.
Qed.
Lemma b_roc : bnd L (70 * (a * T)) (c_range_or_control X ct cg).
Proof.
  pose proof b_type2. pose proof (b_call L p_control_op shrinks_control). unfold c_range_or_control. bu. assert (1 <= a * T) by nia. lia.
Qed.
Lemma b_type1_body : bnd L (150 * (a * (a * (a * T)))) (ctype1_body X ct cg).
Proof. pose proof b_type2. pose proof b_roc. unfold ctype1_body. bu. assert (1 <= a * T) by nia. set (u := a * T) in *. nia. Qed.
Lemma b_rule_val : bnd L (37 * (a * T)) (c_rule_val ct cg). Proof. pose proof b_ty. pose proof b_grpent. unfold c_rule_val. bu. nia. Qed.
Lemma b_generic_parm : bnd L (9 * a) c_generic_parm. Proof. unfold c_generic_parm. bu. lia. Qed.
Lemma b_rule : bnd L (48 * (a * T)) (c_rule ct cg). Proof. pose proof b_rule_val. pose proof b_generic_parm. unfold c_rule. bu. nia. Qed.
Lemma b_cddl : bnd L (150 * (a * (a * (a * T)))) (c_cddl ct cg).
Proof. pose proof b_rule. unfold c_cddl. bu. assert (1 <= a * T) by nia. set (u := a * T) in *. nia. Qed.
End Bound.
Lemma b_knot X L n : bnd L ((150 * S L ^ 3) ^ n) (ctype1_f X n) /\ bnd L ((150 * S L ^ 3) ^ n) (cgroup_f X n).
Proof.
  induction n as [|n [IT IG]]; [split; intros i I; split; cbn; auto; discriminate|].
  assert (P : 1 <= (150 * S L ^ 3) ^ n). { change 1 with ((150 * S L ^ 3) ^ 0). apply Nat.pow_le_mono_r; [|lia]. cbn [Nat.pow]. nia. }
  replace ((150 * S L ^ 3) ^ S n) with (150 * (S L * (S L * (S L * (150 * S L ^ 3) ^ n)))) by (cbn [Nat.pow]; ring).
  split; [apply b_type1_body|apply b_group_body]; auto.
Qed.
