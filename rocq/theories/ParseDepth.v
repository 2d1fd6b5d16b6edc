(** How deep the parser recurses, and what that says about its work. *)
From Coq Require Import List Bool Arith NArith String Lia.
From Verif Require Import Base Util Data Ivt Ast Nom Parser NomProofs ParserFuel NomDone ParserApi ParseCost ParseCostProofs.
Import ListNotations.
Open Scope list_scope.

(** * A limit that is not reached does not change the count *)
Definition cbelow {A} (c c' : cparser A) : Prop := forall i, fst (c i) <> NoFuel -> c' i = c i.
Lemma w_refl {A} (c : cparser A) : cbelow c c. Proof. intros i _. reflexivity. Qed.
Lemma w_bind {A B} (c c' : cparser A) (f f' : A -> cparser B) : cbelow c c' -> (forall a, cbelow (f a) (f' a)) -> cbelow (cbind c f) (cbind c' f').
Proof.
  intros H F i N. unfold cbind in *. destruct (c i) as [[a r|e|e| |] k] eqn:E; cbn in N; try congruence; rewrite H, E; rewrite ?E; cbn; try congruence.
  rewrite F; auto.
Qed.
Lemma w_or {A} (c c' d d' : cparser A) : cbelow c c' -> cbelow d d' -> cbelow (cor c d) (cor c' d').
Proof.
  intros H F i N. unfold cor in *. destruct (c i) as [[a r|e|e| |] k] eqn:E; cbn in N; try congruence; rewrite H, E; rewrite ?E; cbn; try congruence.
  rewrite F; auto.
Qed.
Lemma w_opt {A} (c c' : cparser A) : cbelow c c' -> cbelow (copt c) (copt c').
Proof. intros H i N. unfold copt in *. destruct (c i) as [[a r|e|e| |] k] eqn:E; cbn in N; try congruence; rewrite H, E; rewrite ?E; cbn; congruence. Qed.
Lemma w_many0 {A} (c c' : cparser A) : cbelow c c' -> cbelow (cmany0 c) (cmany0 c').
Proof.
  intros H i. unfold cmany0. generalize (S (List.length i)). intros n. revert i. induction n as [|n IH]; intros i N; [reflexivity|]. cbn [cmany0_f] in *.
  destruct (c i) as [[a r|e|e| |] k] eqn:E; cbn in N; try congruence; rewrite H, E; rewrite ?E; cbn; try congruence.
  destruct (Nat.eqb _ _); auto. rewrite IH; auto. intros Z. apply N. cbn. destruct (cmany0_f n c r) as [? ?]. cbn in Z. subst. reflexivity.
Qed.
Lemma w_sep {A B} (s s' : cparser B) (c c' : cparser A) : cbelow s s' -> cbelow c c' ->
  cbelow (fun i => csep_loop_f (S (List.length i)) s c i) (fun i => csep_loop_f (S (List.length i)) s' c' i).
Proof.
  intros HS H i. generalize (S (List.length i)). intros n. revert i. induction n as [|n IH]; intros i N; [reflexivity|]. cbn [csep_loop_f] in *.
  destruct (s i) as [[b j|e|e| |] k] eqn:E; cbn in N; try congruence; rewrite HS, E; rewrite ?E; cbn; try congruence.
  destruct (Nat.eqb _ _); auto. cbn in N. destruct (c j) as [[a r|e|e| |] k'] eqn:E'; cbn in N; try congruence; rewrite H, E'; rewrite ?E'; cbn; try congruence.
  rewrite IH; auto. intros Z. apply N. destruct (csep_loop_f n s c r) as [? ?]. cbn in Z. subst. reflexivity.
Qed.
Ltac wl := repeat first
  [ lazymatch goal with |- cbelow ?c ?c => apply w_refl end | lazymatch goal with H : cbelow ?c ?d |- cbelow ?c ?d => exact H end | apply w_opt | apply w_or | apply w_many0 | apply w_sep | (apply w_bind; [|intros ?]) ].
Section Below.
Variable X : ext.
Section Body.
Variables (t t' : cparser type1) (g g' : cparser group).
Hypotheses (BT : cbelow t t') (BG : cbelow g g').
Lemma w_ty : cbelow (c_ty t) (c_ty t'). Proof. unfold c_ty. eu. wl. Qed.
Lemma w_name_generic : cbelow (c_name_generic t) (c_name_generic t'). Proof. unfold c_name_generic, c_generic_arg. eu. wl. Qed.
Lemma w_memberkey_tail : cbelow (c_memberkey_tail t) (c_memberkey_tail t'). Proof. pose proof w_ty. unfold c_memberkey_tail. eu. wl. Qed.
Lemma w_arrow_tail : cbelow (c_arrow_tail t) (c_arrow_tail t'). Proof. pose proof w_ty. unfold c_arrow_tail. eu. wl. Qed.
Lemma w_more : cbelow (c_more_choices t) (c_more_choices t'). Proof. unfold c_more_choices. eu. wl. Qed.
Lemma w_plain f : cbelow (cmember_plain t f) (cmember_plain t' f).
Proof.
  intros i N. unfold cmember_plain in *. destruct (c_more_choices t i) as [[a r|e|e| |] k] eqn:E; cbn in N; try congruence; rewrite w_more, E; rewrite ?E; cbn; congruence.
Qed.
Lemma w_arrow f : cbelow (cmember_arrow t f) (cmember_arrow t' f).
Proof.
  intros i N. unfold cmember_arrow in *. destruct (c_arrow_tail t i) as [[a r|e|e| |] k] eqn:E; cbn in N; try congruence; rewrite w_arrow_tail, E; rewrite ?E; cbn; try congruence; rewrite w_plain; auto.
Qed.
Lemma w_colon f : cbelow (cmember_colon t f) (cmember_colon t' f).
Proof.
  intros i N. unfold cmember_colon in *. destruct (c_memberkey_tail t i) as [[a r|e|e| |] k] eqn:E; cbn in N; try congruence; rewrite w_memberkey_tail, E; rewrite ?E; cbn; try congruence; rewrite w_arrow; auto.
Qed.
Lemma w_member : cbelow (c_grpent_member t) (c_grpent_member t').
Proof. unfold c_grpent_member. apply w_bind; [eu; wl|]. intros [[]| |]; auto using w_colon, w_arrow. Qed.
Lemma w_in {A} o c (p p' : cparser A) : cbelow p p' -> cbelow (c_in o c p) (c_in o c p'). Proof. intros. unfold c_in. eu. wl. Qed.
Lemma w_grpent : cbelow (c_grpent t g) (c_grpent t' g').
Proof. pose proof w_member. pose proof (w_in 0x28 0x29 _ _ BG). unfold c_grpent, c_grpent_val. eu. wl. Qed.
Lemma w_group_body : cbelow (cgroup_body t g) (cgroup_body t' g'). Proof. pose proof w_grpent. unfold cgroup_body, c_grpchoice. eu. wl. Qed.
Lemma w_type2 : cbelow (c_type2 X t g) (c_type2 X t' g').
Proof.
  pose proof w_name_generic. pose proof (w_in 0x28 0x29 _ _ w_ty). pose proof (w_in 0x28 0x29 _ _ BG).
  pose proof (w_in 0x7b 0x7d _ _ BG). pose proof (w_in 0x5b 0x5d _ _ BG). unfold c_type2. eu. wl.
Qed.
Lemma w_type1_body : cbelow (ctype1_body X t g) (ctype1_body X t' g'). Proof. pose proof w_type2. unfold ctype1_body, c_range_or_control. eu. wl. Qed.
Lemma w_cddl : cbelow (call_consuming (c_cddl t g)) (call_consuming (c_cddl t' g')).
Proof. pose proof w_ty. pose proof w_grpent. unfold call_consuming, c_cddl, c_rule, c_rule_val. eu. wl. Qed.
End Body.
Lemma w_knot n m : n <= m -> cbelow (ctype1_f X n) (ctype1_f X m) /\ cbelow (cgroup_f X n) (cgroup_f X m).
Proof.
  revert m. induction n as [|n IH]; intros m L; [split; intros i N; exfalso; apply N; reflexivity|].
  destruct m as [|m]; [lia|]. destruct (IH m); [lia|]. split; [apply w_type1_body|apply w_group_body]; auto.
Qed.
Lemma w_type1 n : cbelow (ctype1_f X n) (cparse_type1 X).
Proof.
  intros i N. unfold cparse_type1. transitivity (ctype1_f X (n + enough i) i).
  - symmetry. apply (proj1 (w_knot _ _ (Nat.le_add_l (enough i) n))). rewrite (proj1 (e_knot X _)). apply good_not_fuel, type1_good.
  - apply (proj1 (w_knot _ _ (Nat.le_add_r n (enough i)))). auto.
Qed.
Lemma w_group n : cbelow (cgroup_f X n) (cparse_group X).
Proof.
  intros i N. unfold cparse_group. transitivity (cgroup_f X (n + enough i) i).
  - symmetry. apply (proj2 (w_knot _ _ (Nat.le_add_l (enough i) n))). rewrite (proj2 (e_knot X _)). apply good_not_fuel, group_good.
  - apply (proj2 (w_knot _ _ (Nat.le_add_r n (enough i)))). auto.
Qed.
(** With at most [d] nested calls of [type1] and [group]. *)
Definition limited (d : nat) : parser cddl := all_consuming (p_cddl (type1_f X d) (group_f X d)).
Theorem steps_limited d i : limited d i <> NoFuel -> parse_steps X i <= (150 * S (List.length i) ^ 3) ^ S d.
Proof.
  intros N. unfold parse_steps, ccddl. destruct (b_knot X (List.length i) d) as [BT BG].
  assert (Q : call_consuming (c_cddl (cparse_type1 X) (cparse_group X)) i = call_consuming (c_cddl (ctype1_f X d) (cgroup_f X d)) i).
  { apply (w_cddl _ _ _ _ (w_type1 d) (w_group d)). rewrite (e_consuming _ _ (e_cddl _ _ _ _ (proj1 (e_knot X d)) (proj2 (e_knot X d)))). exact N. }
  rewrite Q.
  - assert (P : 1 <= (150 * S (List.length i) ^ 3) ^ d).
    { change 1 with ((150 * S (List.length i) ^ 3) ^ 0). apply Nat.pow_le_mono_r; [|lia]. cbn [Nat.pow]. nia. }
    pose proof (b_cddl _ _ _ _ P BT BG) as B.
    assert (B' : bnd (List.length i) ((150 * (S (List.length i) * (S (List.length i) * (S (List.length i) * (150 * S (List.length i) ^ 3) ^ d)))) + 0)
      (call_consuming (c_cddl (ctype1_f X d) (cgroup_f X d)))).
    { apply b_bind; auto. intros a j J. split; [apply le_n|]. cbn. destruct j; [|discriminate]. intros ? ? [= <- <-]. auto. }
    etransitivity; [apply (proj1 (B' i (le_n _)))|]. cbn [Nat.pow]. nia.
Qed.
End Below.

(** * Opening brackets *)
Definition is_open (c : N) : bool := N.eqb c 0x28 || N.eqb c 0x5b || N.eqb c 0x7b || N.eqb c 0x3c.
Definition opens (i : text) : nat := List.length (filter is_open i).
Lemma opens_app i j : opens (i ++ j) = opens i + opens j. Proof. unfold opens. now rewrite filter_app, app_length. Qed.
(** Below [n] opening brackets, the limit is not reached. *)
Definition fits {A} (n : nat) (p : parser A) : Prop := forall i, opens i < n -> p i <> NoFuel.
Lemma cuts_opens {A} (p : parser A) i a r : cuts p -> p i = Done a r -> opens r <= opens i.
Proof. intros C E. apply C in E. destruct E as [c ->]. rewrite opens_app. lia. Qed.
Lemma cuts_length {A} (p : parser A) i a r : cuts p -> p i = Done a r -> List.length r <= List.length i.
Proof. intros C E. apply C in E. destruct E as [c ->]. rewrite app_length. lia. Qed.
Lemma f_safe {A} n (p : parser A) : (forall m, safe m p) -> fits n p.
Proof. intros S i _. apply good_not_fuel, (S (Datatypes.S (List.length i))). lia. Qed.
Lemma f_ret {A} n (a : A) : fits n (ret a). Proof. intros i _. discriminate. Qed.
Lemma f_le {A} n m (p : parser A) : fits m p -> n <= m -> fits n p. Proof. intros H L i I. apply H. lia. Qed.
Lemma f_bind {A B} n (p : parser A) (f : A -> parser B) : cuts p -> fits n p -> (forall a, fits n (f a)) -> fits n (bindp p f).
Proof.
  intros C H F i I. unfold bindp. specialize (H i I). destruct (p i) as [a r|e|e| |] eqn:E; try congruence. apply F. apply (cuts_opens _ _ _ _ C) in E. lia.
Qed.
Lemma f_or {A} n (p q : parser A) : fits n p -> fits n q -> fits n (orp p q).
Proof. intros H F i I. unfold orp. specialize (H i I). destruct (p i); try congruence. auto. Qed.
Lemma f_opt {A} n (p : parser A) : fits n p -> fits n (opt p).
Proof. intros H i I. unfold opt. specialize (H i I). destruct (p i); congruence. Qed.
Lemma f_many0 {A} n (p : parser A) : cuts p -> fits n p -> fits n (many0 p).
Proof.
  intros C H i I. unfold many0. assert (G : forall m i, opens i < n -> List.length i < m -> many0_f m p i <> NoFuel).
  { clear i I. induction m as [|m IH]; intros i I L; [lia|]. cbn. specialize (H i I). destruct (p i) as [a r|e|e| |] eqn:E; try congruence.
    destruct (Nat.eqb_spec (List.length r) (List.length i)); [discriminate|].
    pose proof (cuts_opens _ _ _ _ C E). pose proof (cuts_length _ _ _ _ C E). specialize (IH r ltac:(lia) ltac:(lia)).
    destruct (many0_f m p r); congruence. }
  apply G; auto.
Qed.
Lemma f_sep {A B} n (s : parser B) (p : parser A) : cuts s -> cuts p -> fits n s -> fits n p -> fits n (fun i => sep_loop_f (S (List.length i)) s p i).
Proof.
  intros CS C HS H i I. assert (G : forall m i, opens i < n -> List.length i < m -> sep_loop_f m s p i <> NoFuel).
  { clear i I. induction m as [|m IH]; intros i I L; [lia|]. cbn. specialize (HS i I). destruct (s i) as [a j|e|e| |] eqn:E; try congruence.
    destruct (Nat.eqb_spec (List.length j) (List.length i)); [discriminate|].
    pose proof (cuts_opens _ _ _ _ CS E). pose proof (cuts_length _ _ _ _ CS E). specialize (H j ltac:(lia)).
    destruct (p j) as [b r|e|e| |] eqn:E'; try congruence. pose proof (cuts_opens _ _ _ _ C E'). pose proof (cuts_length _ _ _ _ C E').
    specialize (IH r ltac:(lia) ltac:(lia)). destruct (sep_loop_f m s p r); congruence. }
  apply G; auto.
Qed.
Lemma f_map {A B} n (f : A -> B) p : cuts p -> fits n p -> fits n (mapp f p).
Proof. intros. apply f_bind; auto using f_ret. Qed.
Lemma f_pair {A B} n (p : parser A) (q : parser B) : cuts p -> cuts q -> fits n p -> fits n q -> fits n (pairp p q).
Proof. intros. apply f_bind; auto. intros. apply f_bind; auto using f_ret. Qed.
Lemma f_preceded {A B} n (p : parser A) (q : parser B) : cuts p -> fits n p -> fits n q -> fits n (preceded p q).
Proof. intros. apply f_bind; auto. Qed.
Lemma f_terminated {A B} n (p : parser A) (q : parser B) : cuts p -> cuts q -> fits n p -> fits n q -> fits n (terminated p q).
Proof. intros. apply f_bind; auto. intros. apply f_bind; auto using f_ret. Qed.
Lemma f_delimited {A B C} n (p : parser A) (q : parser B) (s : parser C) : cuts p -> cuts q -> cuts s ->
  fits n p -> fits n q -> fits n s -> fits n (delimited p q s).
Proof. intros. apply f_bind; auto. intros. apply f_bind; auto. intros. apply f_bind; auto using f_ret. Qed.
Lemma f_separated_pair {A B C} n (p : parser A) (q : parser B) (s : parser C) : cuts p -> cuts q -> cuts s ->
  fits n p -> fits n q -> fits n s -> fits n (separated_pair p q s).
Proof. intros. apply f_bind; auto. intros. apply f_bind; auto. intros. apply f_bind; auto using f_ret. Qed.
Lemma f_separated_list1 {A B} n (s : parser B) (p : parser A) : cuts s -> cuts p -> fits n s -> fits n p -> fits n (separated_list1 s p).
Proof.
  intros CS C S F. apply f_bind; auto. intros a i I. unfold bindp. pose proof (f_sep n s p CS C S F i I) as N. cbv beta in N.
  destruct (sep_loop_f (Datatypes.S (List.length i)) s p i) eqn:E; [discriminate|discriminate|discriminate|discriminate|contradiction].
Qed.
Lemma f_many1 {A} n (p : parser A) : cuts p -> fits n p -> fits n (many1 p).
Proof. intros. apply f_bind; auto. intros. apply f_bind; auto using cuts_many0, f_many0, f_ret. Qed.
(** One that starts with an opening bracket. *)
Definition drops {A} (p : parser A) : Prop := forall i a r, p i = Done a r -> opens r < opens i.
Lemma f_open {A B C} n (p : parser A) (q : parser B) (s : parser C) : drops p -> cuts q -> cuts s ->
  fits (S n) p -> fits n q -> fits n s -> fits (S n) (delimited p q s).
Proof.
  intros D C1 C2 P Q R i I. unfold delimited, bindp. specialize (P i I). destruct (p i) as [a j|e|e| |] eqn:E; try congruence. apply D in E.
  specialize (Q j ltac:(lia)). destruct (q j) as [b k|e|e| |] eqn:E'; try congruence. pose proof (cuts_opens _ _ _ _ C1 E').
  specialize (R k ltac:(lia)). destruct (s k); try congruence. discriminate.
Qed.
Lemma d_char o : is_open o = true -> drops (charp o).
Proof. intros O i a r H. apply char_done in H. destruct H as [_ ->]. unfold opens. cbn. rewrite O. cbn. lia. Qed.
Lemma d_less : drops (pairp (tag "<") p_ws).
Proof.
  intros i a r H. apply bind_done in H. destruct H as (x & m & H & K). apply bind_done in K. destruct K as (y & m' & K & [= _ <-]).
  apply tag_done in H. destruct H as [_ ->]. apply (cuts_opens _ _ _ _ cuts_ws) in K. rewrite opens_app. cbn. unfold opens in *. cbn. lia.
Qed.
Lemma f_ws n : fits n p_ws. Proof. apply f_safe. intros. apply safe_ws. Qed.
Lemma f_optcom n : fits n p_optcom. Proof. apply f_safe. intros. apply safe_optcom. Qed.
Lemma f_ident n : fits n p_ident. Proof. apply f_safe. intros. apply safe_ident. Qed.
Lemma f_tag n s : fits n (tag s). Proof. intros i _. unfold tag. destruct (strip _ _); discriminate. Qed.
Lemma f_char n c : fits n (charp c). Proof. intros i _. unfold charp, satisfy. destruct i as [|d i]; [|destruct (N.eqb c d)]; discriminate. Qed.
Lemma f_value X n : fits n (p_value X). Proof. apply f_safe. intros. apply safe_p_value. Qed.
Lemma f_occur n : fits n p_occur. Proof. apply f_safe. intros. apply safe_occur. Qed.
Lemma f_slash n : fits n p_slash. Proof. apply f_safe. intros. apply safe_slash. Qed.
Lemma cuts_optcom : cuts p_optcom. Proof. unfold p_optcom. auto 10 using cuts_ws with cut. Qed.
Section Fits.
Variable X : ext.
Hint Resolve cuts_ws cuts_ident cuts_p_value cuts_occur cuts_slash cuts_ty cuts_name cuts_in cuts_type2 cuts_member cuts_grpent cuts_optcom : cut.
Ltac fi := unfold type_, group, grpchoice, cddl in *; repeat first
  [ assumption | apply f_ws | apply f_optcom | apply f_ident | apply f_tag | apply f_char | apply f_value | apply f_occur | apply f_slash
  | lazymatch goal with |- cuts _ => solve [ct] end
  | apply f_map | apply f_pair | apply f_preceded | apply f_terminated | apply f_delimited | apply f_separated_pair | apply f_separated_list1
  | apply f_many1 | apply f_many0 | apply f_or | apply f_opt | apply f_ret ].
Section Body.
Variables (T1 : parser type1) (G : parser group) (n : nat).
Hypotheses (cT : cuts T1) (cG : cuts G) (FG : fits n G).
Lemma f_in {A} o c (p : parser A) : is_open o = true -> cuts p -> fits n p -> fits (S n) (p_in o c p).
Proof. intros O C F. unfold p_in. apply f_open; [apply d_char; auto|..]; fi. Qed.
Lemma f_ty m : fits m T1 -> fits m (p_ty T1). Proof. intros. unfold p_ty. fi. Qed.
Section Small.
Hypothesis FT : fits n T1.
Lemma f_name_generic : fits (S n) (p_name_generic T1).
Proof.
  assert (fits (S n) (p_generic_arg T1)). { unfold p_generic_arg. apply f_open; [apply d_less|..]; fi. }
  unfold p_name_generic. assert (cuts (p_generic_arg T1)) by (unfold p_generic_arg; ct). fi.
Qed.
Lemma f_type2 : fits (S n) (p_type2 X T1 G).
Proof.
  pose proof f_name_generic. pose proof (f_ty n FT). pose proof (f_in 0x28 0x29 (p_ty T1) eq_refl ltac:(ct) ltac:(auto)).
  pose proof (f_in 0x28 0x29 G eq_refl cG FG). pose proof (f_in 0x7b 0x7d G eq_refl cG FG). pose proof (f_in 0x5b 0x5d G eq_refl cG FG).
  unfold p_type2. fi.
Qed.
Lemma f_type1_body : fits (S n) (type1_body X T1 G).
Proof. pose proof f_type2. unfold type1_body, p_range_or_control, p_control_op. fi. Qed.
End Small.
Hypothesis FT : fits (S n) T1.
Lemma f_plain f : fits (S n) (member_plain T1 f).
Proof.
  assert (F : fits (S n) (p_more_choices T1)) by (unfold p_more_choices; fi).
  intros i I. specialize (F i I). unfold member_plain. destruct (p_more_choices T1 i); congruence.
Qed.
Lemma f_arrow f : fits (S n) (member_arrow T1 f).
Proof.
  pose proof (f_ty _ FT). assert (F : fits (S n) (p_arrow_tail T1)) by (unfold p_arrow_tail; fi).
  intros i I. specialize (F i I). unfold member_arrow. destruct (p_arrow_tail T1 i); try congruence; apply f_plain; auto.
Qed.
Lemma f_colon f : fits (S n) (member_colon T1 f).
Proof.
  pose proof (f_ty _ FT). assert (F : fits (S n) (p_memberkey_tail T1)) by (unfold p_memberkey_tail; fi).
  intros i I. specialize (F i I). unfold member_colon. destruct (p_memberkey_tail T1 i); try congruence; try (apply f_arrow; auto).
  destruct (assemble_basic_member _ _) as [[]|]; congruence.
Qed.
Lemma f_member : fits (S n) (p_grpent_member T1).
Proof. unfold p_grpent_member. apply f_bind; [ct|fi|]. intros [[]| |]; auto using f_colon, f_arrow. Qed.
Lemma f_grpent : fits (S n) (p_grpent T1 G).
Proof. pose proof f_member. pose proof (f_in 0x28 0x29 G eq_refl cG FG). unfold p_grpent, p_grpent_val, p_grpent_parens. fi. Qed.
Lemma f_group_body : fits (S n) (group_body T1 G).
Proof. pose proof f_grpent. unfold group_body, p_grpchoice. fi. Qed.
Lemma f_cddl : fits (S n) (all_consuming (p_cddl T1 G)).
Proof.
  pose proof f_grpent. pose proof (f_ty _ FT). assert (fits (S n) (p_rule T1 G)) by (unfold p_rule, p_rule_val, p_generic_parm; fi).
  pose proof (cuts_rule T1 G cT cG). unfold all_consuming, p_cddl. apply f_bind; [ct|fi|]. intros a [|] _; discriminate.
Qed.
End Body.
Lemma f_knot n : (forall m, 2 * n + 1 <= m -> fits (S n) (type1_f X m)) /\ (forall m, 2 * n + 2 <= m -> fits (S n) (group_f X m)).
Proof.
  assert (St : forall n, (forall m, 2 * n <= m -> fits n (type1_f X m) /\ fits n (group_f X m)) ->
    (forall m, 2 * n + 1 <= m -> fits (S n) (type1_f X m)) /\ (forall m, 2 * n + 2 <= m -> fits (S n) (group_f X m))).
  { clear n. intros n H.
    assert (A : forall m, 2 * n + 1 <= m -> fits (S n) (type1_f X m)).
    { intros [|m] L; [lia|]. rewrite type1_f_S. destruct (cuts_f X m). apply f_type1_body; auto; apply H; lia. }
    split; auto. intros [|m] L; [lia|]. rewrite group_f_S. destruct (cuts_f X m). apply f_group_body; auto; [apply H; lia|apply A; lia]. }
  apply St. induction n as [|n IH].
  - intros; split; intros i I; lia.
  - destruct (St n) as [A B]; [exact IH|]. intros m L. split; [apply A; lia|apply B; lia].
Qed.
Theorem limit_brackets i d : 2 * opens i + 1 <= d -> limited X d i <> NoFuel.
Proof.
  intros L. destruct (f_knot (opens i)) as [A _]. unfold limited. destruct (cuts_f X d). apply (f_cddl _ _ (opens i)); auto.
  destruct (opens i) as [|n]; [intros j J; lia|]. destruct (f_knot n) as [_ B]. apply B. lia.
Qed.
End Fits.
Theorem steps_brackets X i : parse_steps X i <= (150 * S (List.length i) ^ 3) ^ (2 * opens i + 2).
Proof. replace (2 * opens i + 2) with (S (2 * opens i + 1)) by lia. apply steps_limited. apply limit_brackets. lia. Qed.
