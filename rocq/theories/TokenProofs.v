(** Tokens: whitespace, identifiers, numbers and strings against SpecSyntax.v. *)
From Coq Require Import List Bool Arith ZArith NArith String Lia.
From Verif Require Import Base Util Data Ivt Ast Nom NomProofs Parser ParserFuel NomDone SpecSyntax.
Import ListNotations.
Open Scope list_scope.

(** * Characters *)
Lemma in_range_iff a b c : in_range a b c = true <-> between a b c.
Proof. unfold in_range, between. rewrite andb_true_iff, !N.leb_le. tauto. Qed.
Lemma is_digit_iff c : is_digit c = true <-> DIGIT c. Proof. apply in_range_iff. Qed.
Lemma ealpha_iff c : ealpha_char c = true <-> EALPHA c.
Proof.
  unfold ealpha_char, is_alpha, EALPHA, ALPHA. rewrite !orb_true_iff, !in_range_iff, !N.eqb_eq. tauto.
Qed.
Lemma space_iff c : is_multispace c = true <-> SPACE c.
Proof. unfold is_multispace, SPACE. rewrite !orb_true_iff, !N.eqb_eq. tauto. Qed.
Lemma not_eol_iff c : is_not_eol c = true <-> NOT_EOL c.
Proof.
  unfold is_not_eol, NOT_EOL. rewrite negb_true_iff, orb_false_iff, !N.eqb_neq. tauto.
Qed.
Lemma schar_iff c : is_unescaped_schar c = true <-> SCHAR c.
Proof. unfold is_unescaped_schar, SCHAR. rewrite !orb_true_iff, !in_range_iff. tauto. Qed.
Lemma bchar_iff c : is_unescaped_bchar c = true <-> BCHAR c.
Proof. unfold is_unescaped_bchar, BCHAR. rewrite !orb_true_iff, !in_range_iff. tauto. Qed.
Lemma forall_iff {A} (P Q : A -> Prop) l : (forall a, P a <-> Q a) -> Forall P l <-> Forall Q l.
Proof. intros H. split; apply Forall_impl; firstorder. Qed.

(** * Whitespace *)
Lemma ws_trans i j r : d_ws i j -> d_ws j r -> d_ws i r.
Proof. induction 1; intros; auto using dw_space, dw_comment. Qed.
Lemma ws_spaces a r : Forall SPACE a -> d_ws (a ++ r) r.
Proof. induction 1; cbn; auto using dw_end, dw_space. Qed.
Lemma ws_cuts i r : d_ws i r -> exists c, i = c ++ r.
Proof.
  induction 1 as [i|c i r S H [w ->]|b i r F E H [w ->]]; [exists []|exists (c :: w)|exists (0x3b%N :: b ++ w)]; cbn; auto.
  now rewrite app_assoc.
Qed.
Lemma ws_length i r : d_ws i r -> List.length r <= List.length i.
Proof. intros H. apply ws_cuts in H. destruct H as [c ->]. rewrite app_length. lia. Qed.

Definition ws_item : parser text := orp multispace1 p_comment.
Lemma ws_item_done i a r : ws_item i = Done a r -> d_ws i r /\ List.length r < List.length i.
Proof.
  unfold ws_item. intros H. apply or_done in H. destruct H as [H|[_ H]].
  - apply take_while1_done in H. destruct H as (N & -> & F & _). split.
    + apply ws_spaces. eapply Forall_impl; [|exact F]. intros c. apply space_iff.
    + rewrite app_length. destruct a; [congruence|cbn; lia].
  - apply preceded_done in H. destruct H as (c & m & H & E). apply char_done in H. destruct H as [-> ->].
    apply not_eol_done in E. destruct E as (-> & F & E). split; [|cbn; rewrite app_length; lia].
    apply dw_comment; auto using dw_end. eapply Forall_impl; [|exact F]. intros c. apply not_eol_iff.
Qed.
Lemma shrinks_ws_item : shrinks ws_item.
Proof. intros i a r H. apply ws_item_done in H. lia. Qed.


Lemma span_all f a b : Forall (fun c => f c = true) a -> span f (a ++ b) = (a ++ fst (span f b), snd (span f b)).
Proof.
  induction 1 as [|c a Hc Ha IH]; cbn; [destruct (span f b); reflexivity|]. rewrite Hc, IH. reflexivity.
Qed.
Lemma not_eol_run a b : Forall NOT_EOL a -> at_eol b -> not_line_ending (a ++ b) = Done a b.
Proof. intros F E. apply not_eol_done. split; auto. split; auto. eapply Forall_impl; [|exact F]. intros c. apply not_eol_iff. Qed.

Lemma ws_item_soft i e : ws_item i = Soft e -> ws_end i.
Proof.
  unfold ws_item, orp. intros H r' D. inversion D as [|c j r S D'|b j r F E D']; subst; auto.
  - exfalso. unfold multispace1, take_while1 in H. cbn in H. apply space_iff in S. rewrite S in H.
    destruct (span is_multispace j); discriminate.
  - exfalso. cbn in H. unfold p_comment, preceded, bindp, charp, satisfy in H. cbn in H.
    rewrite not_eol_run in H by auto. discriminate.
Qed.
Lemma ws_item_good i : good (ws_item i).
Proof.
  assert (H : safe (S (List.length i)) ws_item) by (unfold ws_item, p_comment, multispace1; auto 10 with nom). apply H. lia.
Qed.
Lemma ws_item_not_hard i e : ws_item i <> Hard e.
Proof.
  unfold ws_item, orp, multispace1, take_while1, p_comment, preceded, bindp, charp, satisfy, not_line_ending. intros E.
  destruct (span is_multispace i) as [[|] ?]; [|discriminate]. destruct i as [|c i]; [discriminate|].
  destruct (N.eqb _ c); [|discriminate]. destruct (span is_not_eol i) as [? [|d b]]; [discriminate|].
  destruct (N.eqb d 13); [|discriminate]. destruct b as [|x b]; [discriminate|]. destruct (N.eqb x 10); discriminate.
Qed.
Lemma ws_item_soft_iff i : ws_end i -> exists e, ws_item i = Soft e.
Proof.
  intros H. destruct (ws_item i) as [a r|e|e| |] eqn:E; eauto; exfalso.
  - apply ws_item_done in E. destruct E as [D L]. apply H in D. subst. lia.
  - apply (ws_item_not_hard _ _ E).
  - pose proof (ws_item_good i) as G. rewrite E in G. contradiction.
  - pose proof (ws_item_good i) as G. rewrite E in G. contradiction.
Qed.
Lemma ws_item_end_no_done i a r : ws_end i -> ws_item i <> Done a r.
Proof. intros H. apply ws_item_soft_iff in H. destruct H as [e ->]. discriminate. Qed.

Lemma ws_done i w r : p_ws i = Done w r <-> i = w ++ r /\ d_ws i r /\ ws_end r.
Proof.
  unfold p_ws. fold ws_item. rewrite recognize_done. split.
  - intros (l & H & ->). apply many0_done in H; [|apply shrinks_ws_item].
    assert (D : d_ws i r /\ ws_end r).
    { induction H as [i e E|i a m l r E L R [D W]]; [split; [constructor|eapply ws_item_soft; eauto]|].
      split; auto. apply ws_item_done in E. eapply ws_trans; [apply E|auto]. }
    destruct D as [D W]. split; auto. apply ws_cuts in D. destruct D as [c ->]. now rewrite consumed_app.
  - intros (-> & D & W).
    assert (R : exists l, many0 ws_item (w ++ r) = Done l r).
    { enough (R : exists l, reps ws_item (w ++ r) l r).
      { destruct R as [l R]. exists l. apply many0_done; auto using shrinks_ws_item. }
      remember (w ++ r) as i eqn:Ei. clear Ei w.
      assert (P : forall n i, List.length i < n -> d_ws i r -> exists l, reps ws_item i l r);
        [|apply (P (S (List.length i))); auto].
      clear i D. intros n. induction n as [|n IH]; intros i Ln D; [lia|].
      destruct (ws_item i) as [a m|e|e| |] eqn:E.
      2: { pose proof (ws_item_soft _ _ E _ D) as ->. exists []. econstructor; eauto. }
      { pose proof (ws_item_done _ _ _ E) as [Dm Lm]. assert (d_ws m r) as D'.
        { revert E Dm Lm. clear - D W. intros E Dm Lm.
          (* the item is a maximal run of spaces or one comment *)
          unfold ws_item in E. apply or_done in E. destruct E as [E|[_ E]].
          - apply take_while1_done in E. destruct E as (_ & -> & F & _). clear Dm Lm.
            induction F as [|c a Hc F IH]; cbn in *; auto. apply IH. inversion D; subst; auto.
            + exfalso. apply (W (a ++ m)) in Lm || idtac.
              assert (d_ws (c :: a ++ m) (a ++ m)) as Q by (constructor; [apply space_iff; auto|constructor]).
              apply W in Q. apply (f_equal (@List.length N)) in Q. cbn in Q. lia.
            + exfalso. cbv in Hc. discriminate.
          - apply preceded_done in E. destruct E as (c & j & H & E). apply char_done in H. destruct H as [-> ->].
            apply not_eol_done in E. destruct E as (-> & F & E). inversion D as [|c j' r' S D'|b j' r' F' E' D']; subst.
            + exfalso. apply W in Dm. apply (f_equal (@List.length N)) in Dm. cbn in Dm, Lm. lia.
            + exfalso. unfold SPACE in S. lia.
            + assert (Q : b = a /\ j' = m); [|destruct Q as [-> ->]; auto].
              assert (Q : not_line_ending (b ++ j') = Done b j') by (apply not_eol_run; auto).
              assert (Q' : not_line_ending (a ++ m) = Done a m).
              { apply not_eol_done. auto. }
              match goal with H : b ++ j' = a ++ m |- _ => rewrite H in Q end. rewrite Q in Q'. inversion Q'; auto. }
        destruct (IH m) as [l Hl]; [lia|auto|]. exists (a :: l). econstructor; eauto. lia. }
      { exfalso. apply (ws_item_not_hard _ _ E). }
      all: exfalso; pose proof (ws_item_good i) as G; rewrite E in G; contradiction. }
    destruct R as [l R]. exists l. split; auto. now rewrite consumed_app.
Qed.

Lemma ws_total i : exists w r, p_ws i = Done w r.
Proof.
  assert (P : forall n i, List.length i < n -> exists r, d_ws i r /\ ws_end r).
  { clear i. intros n. induction n as [|n IH]; intros i L; [lia|]. destruct (ws_item i) as [a m|e|e| |] eqn:E.
    - apply ws_item_done in E. destruct E as [D Lm]. destruct (IH m) as (r & D' & W); [lia|].
      exists r. split; auto. eapply ws_trans; eauto.
    - exists i. split; [constructor|eapply ws_item_soft; eauto].
    - exfalso. apply (ws_item_not_hard _ _ E).
    - pose proof (ws_item_good i) as G. rewrite E in G. contradiction.
    - pose proof (ws_item_good i) as G. rewrite E in G. contradiction. }
  destruct (P (S (List.length i)) i) as (r & D & W); [lia|]. pose proof (ws_cuts _ _ D) as [w Ew].
  exists w, r. apply ws_done. auto.
Qed.
Lemma ws_sound i w r : p_ws i = Done w r -> d_ws i r.
Proof. intros H. apply ws_done in H. tauto. Qed.

(** * Identifiers *)
Definition SEP (c : N) : Prop := c = 0x2d%N \/ c = 0x2e%N.
Definition IDCHAR (c : N) : Prop := EALPHA c \/ DIGIT c.

Lemma sep_char_iff c : existsb (N.eqb c) (txt "-.") = true <-> SEP c.
Proof. cbn. unfold SEP. rewrite !orb_true_iff, !N.eqb_eq. intuition discriminate. Qed.
Lemma sep_not_id c : SEP c -> IDCHAR c -> False.
Proof.
  unfold SEP, IDCHAR, EALPHA, ALPHA, DIGIT, between. lia.
Qed.

Lemma id_run n s a : is_ident n -> Forall SEP s -> a <> [] -> Forall IDCHAR a -> is_ident (n ++ s ++ a).
Proof.
  intros Hn Hs Ha F. destruct a as [|c a]; [congruence|]. clear Ha. inversion F as [|? ? Hc Fa]; subst.
  assert (G : is_ident (n ++ s ++ [c])) by (apply id_more; auto). clear Hn Hs F.
  replace (n ++ s ++ c :: a) with ((n ++ s ++ [c]) ++ a) by (now rewrite <- !app_assoc).
  revert G. generalize (n ++ s ++ [c]) as m. clear n s c Hc. induction Fa as [|c a Hc Fa IH]; intros m G; [now rewrite app_nil_r|].
  replace (m ++ c :: a) with ((m ++ [] ++ [c]) ++ a) by (now rewrite <- app_assoc). apply IH. apply id_more; auto.
Qed.
Lemma id_chars n : is_ident n -> Forall (fun c => SEP c \/ IDCHAR c) n /\ exists m c, n = m ++ [c] /\ IDCHAR c.
Proof.
  induction 1 as [c Hc|n s c Hn [IH _] Hs Hc].
  - split; [constructor; auto; right; left; auto|]. exists [], c. split; auto. left; auto.
  - split.
    + apply Forall_app. split; auto. apply Forall_app. split; [|constructor; auto; right; auto].
      eapply Forall_impl; [|exact Hs]. cbn. unfold SEP. tauto.
    + exists (n ++ s), c. split; [now rewrite app_assoc|auto].
Qed.
Lemma id_head n : is_ident n -> exists c m, n = c :: m /\ EALPHA c.
Proof. induction 1 as [c Hc|n s c Hn (d & m & -> & Hd) Hs Hc]; [eauto|]. exists d, (m ++ s ++ [c]). auto. Qed.

Lemma ealnum_iff c : IDCHAR c <-> ealpha_char c = true \/ is_digit c = true.
Proof. unfold IDCHAR. rewrite ealpha_iff, is_digit_iff. tauto. Qed.

Lemma reps_one_of s i l r : reps (one_of_chars s) i l r -> i = l ++ r /\ Forall (fun c => existsb (N.eqb c) (txt s) = true) l.
Proof.
  induction 1 as [i e E|i a m l r E L R [-> F]]; auto.
  apply satisfy_done in E. destruct E as [-> Ha]. split; auto.
Qed.

Lemma ident_tail_done i t r : p_ident_tail i = Done t r ->
  exists s a, t = s ++ a /\ i = t ++ r /\ Forall SEP s /\ a <> [] /\ Forall IDCHAR a.
Proof.
  intros H. apply recognize_done in H. destruct H as (x & H & ->). apply preceded_done in H. destruct H as (o & m & H & E).
  assert (Hs : exists s, i = s ++ m /\ Forall SEP s).
  { apply opt_done in H. destruct o as [l|]; [|destruct H as [-> _]; exists []; auto].
    apply many1_done in H; [|auto with nom]. destruct H as (c & l' & m' & -> & Hc & R). apply satisfy_done in Hc. destruct Hc as [-> Hc].
    apply reps_one_of in R. destruct R as [-> F]. exists (c :: l'). split; auto. constructor; [now apply sep_char_iff|].
    eapply Forall_impl; [|exact F]. intros d. apply sep_char_iff. }
  destruct Hs as (s & -> & Hs). apply or_done in E.
  assert (Ea : x <> [] /\ m = x ++ r /\ Forall IDCHAR x).
  { destruct E as [E|[_ E]]; apply take_while1_done in E; destruct E as (N & -> & F & _); split; auto; split; auto;
      (eapply Forall_impl; [|exact F]); intros c Hc; apply ealnum_iff; auto. }
  destruct Ea as (N & -> & F). exists s, x. rewrite app_assoc, consumed_app. auto.
Qed.
Lemma ident_tail_soft s c r : Forall SEP s -> IDCHAR c -> exists t m, p_ident_tail (s ++ c :: r) = Done t m.
Proof.
  intros Hs Hc.
  assert (Q : exists o, opt (many1 (one_of_chars "-.")) (s ++ c :: r) = Done o (c :: r)).
  { assert (Nc : one_of_chars "-." (c :: r) = Soft (nom_err (c :: r))).
    { unfold one_of_chars, satisfy. destruct (existsb (N.eqb c) (txt "-.")) eqn:E; auto. apply sep_char_iff in E.
      exfalso; eapply sep_not_id; eauto. }
    destruct s as [|d s].
    - exists None. apply opt_done. split; auto. unfold many1, bindp. cbn [app]. rewrite Nc. eauto.
    - exists (Some (d :: s)). apply opt_done. apply many1_done; [auto with nom|]. inversion Hs as [|? ? Hd Hs']; subst.
      exists d, s, (s ++ c :: r). split; auto. split; [apply satisfy_done; split; auto; now apply sep_char_iff|].
      clear Hs Hd d. induction Hs' as [|d s Hd Hs IH]; cbn; [econstructor; eauto|].
      apply reps_cons with (m := s ++ c :: r); auto; [apply satisfy_done; split; auto; now apply sep_char_iff|cbn; lia]. }
  destruct Q as [o Q].
  assert (E : exists a m, orp p_ealpha digit1 (c :: r) = Done a m).
  { unfold orp, p_ealpha, digit1, take_while1. cbn. apply ealnum_iff in Hc.
    destruct (ealpha_char c) eqn:Ec; [destruct (span ealpha_char r); eauto|]. destruct Hc as [Hc|Hc]; [congruence|].
    rewrite Hc. destruct (span is_digit r); eauto. }
  destruct E as (a & m & E). exists (consumed (s ++ c :: r) m), m. unfold p_ident_tail, recognize, preceded, bindp. rewrite Q, E. reflexivity.
Qed.

Lemma ident_sound i n r : p_ident i = Done n r -> longest_ident i n r.
Proof.
  intros H. apply recognize_done in H. destruct H as (l & H & ->). apply preceded_done in H. destruct H as (a & m & H & E).
    apply take_while1_done in H. destruct H as (N & -> & F & _). apply many0_done in E; [|auto with nom].
    assert (Ia : is_ident a).
    { destruct a as [|c a]; [congruence|]. inversion F as [|? ? Hc Fa]; subst. apply ealpha_iff in Hc.
      destruct a as [|d a]; [constructor; auto|]. apply (id_run [c] [] (d :: a)); auto; [constructor; auto|discriminate|].
      eapply Forall_impl; [|exact Fa]. intros x Hx. apply ealnum_iff. auto. }
    assert (G : exists k, a ++ m = k ++ r /\ is_ident k /\ exists e, p_ident_tail r = Soft e).
    { clear N F. revert a Ia. induction E as [i e E|i t j l r E L R IH]; intros a Ia; [eauto 10|].
      apply ident_tail_done in E. destruct E as (s & b & -> & -> & Hs & Hb & Fb).
      destruct (IH (a ++ s ++ b)) as (k & Hk & Ik & So); [apply id_run; auto|]. exists k. split; auto.
      rewrite <- Hk. now rewrite <- !app_assoc. }
    destruct G as (k & Hk & Ik & (e & So)). rewrite Hk, consumed_app. split; [auto|split; [auto|]].
    intros n' r' E' I'. destruct (le_lt_dec (List.length n') (List.length k)) as [|Lt]; auto. exfalso.
    assert (exists x, n' = k ++ x /\ r = x ++ r') as (x & -> & ->).
    { clear - E' Lt. revert n' E' Lt. induction k as [|c k IH]; intros n' E' Lt; [exists n'; auto|].
      destruct n' as [|c' n']; [cbn in Lt; lia|]. cbn in E', Lt. inversion E'; subst. destruct (IH n') as (x & -> & ->); auto; [lia|].
      exists x. auto. }
    assert (Hx : exists s c y, x = s ++ c :: y /\ Forall SEP s /\ IDCHAR c).
    { apply id_chars in I'. destruct I' as [Fc (m' & c & Ec & Hc)]. apply Forall_app in Fc. destruct Fc as [_ Fc].
      assert (Hl : exists y, x = y ++ [c]).
      { destruct x as [|z x _] using rev_ind; [rewrite app_nil_r in Lt; lia|]. rewrite app_assoc in Ec.
        apply app_inj_tail in Ec. destruct Ec as [_ ->]. eauto. }
      destruct Hl as [y ->]. clear - Fc Hc. induction y as [|d y IH]; [exists [], c, []; auto|].
      inversion Fc as [|? ? Hd Fy]; subst. destruct Hd as [Hd|Hd]; [|exists [], d, (y ++ [c]); auto].
      destruct (IH Fy) as (s & e & z & E & Hs & He). exists (d :: s), e, z. cbn. rewrite E. auto. }
    destruct Hx as (s & c & y & -> & Hs & Hc). rewrite <- app_assoc in So. cbn in So.
    destruct (ident_tail_soft s c (y ++ r') Hs Hc) as (t & z & T). congruence.
Qed.
Lemma ident_starts c i : EALPHA c -> exists n r, p_ident (c :: i) = Done n r.
Proof.
  intros Hc. apply ealpha_iff in Hc. assert (T : exists m r, p_ealpha (c :: i) = Done m r).
  { unfold p_ealpha, take_while1. cbn. rewrite Hc. destruct (span ealpha_char i); eauto. }
  destruct T as (m & r & T).
  assert (P : forall n i, List.length i < n -> exists l r, reps p_ident_tail i l r).
  { intros n. induction n as [|n IH]; intros j L; [lia|]. destruct (p_ident_tail j) as [t k|e|e| |] eqn:E.
    - pose proof (ident_tail_done _ _ _ E) as (s & a & -> & -> & _ & N & _). destruct (IH k) as (l & r' & R).
      { rewrite !app_length in L. destruct a; [congruence|cbn in L; lia]. }
      exists ((s ++ a) :: l), r'. econstructor; eauto. rewrite !app_length. destruct a; [congruence|cbn; lia].
    - eexists _, _. eapply reps_nil; eauto.
    - exfalso. unfold p_ident_tail, recognize, preceded, bindp, opt, many1 in E.
      destruct (one_of_chars "-." j) as [d k|e'|e'| |] eqn:O; try (unfold bindp in E; rewrite O in E);
        try (unfold one_of_chars, satisfy in O; destruct j; [|destruct (existsb _ _)]; discriminate).
      + destruct (many0 (one_of_chars "-.") k) as [l k'|e''|e''| |] eqn:Mn; cbn in E.
        * unfold orp, p_ealpha, digit1, take_while1 in E. destruct (span ealpha_char k') as [[|] ?]; [destruct (span is_digit k') as [[|] ?]|]; discriminate.
        * unfold orp, p_ealpha, digit1, take_while1 in E. destruct (span ealpha_char j) as [[|] ?]; [destruct (span is_digit j) as [[|] ?]|]; discriminate.
        * clear - Mn. unfold many0 in Mn. revert Mn. generalize (S (List.length k)) as n. intros n. revert k.
          induction n as [|n IH]; intros k; cbn; [discriminate|]. unfold one_of_chars at 1, satisfy. destruct k as [|c k]; [discriminate|].
          destruct (existsb _ _); [|discriminate]. destruct (Nat.eqb _ _); [discriminate|].
          destruct (many0_f n (one_of_chars "-.") k) eqn:F; try discriminate. intros [= ->]. eapply IH; eauto.
        * discriminate.
        * discriminate.
      + unfold orp, p_ealpha, digit1, take_while1 in E. destruct (span ealpha_char j) as [[|] ?]; [destruct (span is_digit j) as [[|] ?]|]; discriminate.
    - assert (G : safe (S (List.length j)) p_ident_tail) by auto with nom. specialize (G j (Nat.lt_succ_diag_r _)). rewrite E in G. contradiction.
    - assert (G : safe (S (List.length j)) p_ident_tail) by auto with nom. specialize (G j (Nat.lt_succ_diag_r _)). rewrite E in G. contradiction. }
  destruct (P (S (List.length r)) r) as (l & r' & R); [lia|].
  exists (consumed (c :: i) r'), r'. apply recognize_done. exists l. split; auto. apply preceded_done. exists m, r. split; auto.
  apply many0_done; auto with nom.
Qed.
Lemma ident_not_start i : (forall c j, i = c :: j -> ~ EALPHA c) -> exists e, p_ident i = Soft e.
Proof.
  intros H. unfold p_ident, recognize, preceded, bindp, p_ealpha, take_while1. destruct i as [|c i]; [cbn; eauto|]. cbn.
  destruct (ealpha_char c) eqn:E; [|cbn; eauto]. apply ealpha_iff in E. exfalso. eapply H; eauto.
Qed.
Lemma ident_done i n r : p_ident i = Done n r <-> longest_ident i n r.
Proof.
  split; [apply ident_sound|]. intros (In & Ei & Mx).
  pose proof (id_head _ In) as (c & m & -> & Hc). destruct (ident_starts c (m ++ r) Hc) as (n' & r' & E).
  subst i. cbn [app]. rewrite E. pose proof (ident_sound _ _ _ E) as (In' & Ei' & Mx'). 
  assert (List.length n' = List.length (c :: m)) as L.
  { apply Nat.le_antisymm; [eapply Mx; eauto|eapply Mx'; eauto; reflexivity]. }
  change (c :: m ++ r) with ((c :: m) ++ r) in Ei'.
  assert (P : forall (a b x y : text), List.length a = List.length b -> a ++ x = b ++ y -> a = b /\ x = y).
  { clear. induction a as [|p a IH]; destruct b as [|q b]; cbn; intros x y L E; try discriminate; auto.
    inversion E; subst. destruct (IH b x y) as [-> ->]; auto. }
  destruct (P _ _ _ _ (eq_sym L) Ei') as [-> ->]. reflexivity.
Qed.

(** What may follow an identifier. *)
Definition id_stop (r : text) : Prop := forall s c j, r = s ++ c :: j -> Forall SEP s -> ~ IDCHAR c.
Lemma id_stop_head c r : ~ IDCHAR c -> ~ SEP c -> id_stop (c :: r).
Proof.
  intros H S s d j E F. destruct s as [|x s]; cbn in E; inversion E; subst; auto. inversion F; contradiction.
Qed.
Lemma id_stop_nil : id_stop []. Proof. intros s c j E. now destruct s. Qed.
Lemma prefix_longer (k n r r' : text) : k ++ r = n ++ r' -> List.length k < List.length n -> exists x, n = k ++ x /\ r = x ++ r' /\ x <> [].
Proof.
  revert n. induction k as [|c k IH]; intros n E L.
  - exists n. cbn in *. split; auto. split; auto. intros ->. cbn in L. lia.
  - destruct n as [|c' n]; [cbn in L; lia|]. cbn in E, L. inversion E; subst. destruct (IH n) as (x & -> & -> & N); auto; [lia|]. exists x. auto.
Qed.
Lemma id_suffix k x : is_ident (k ++ x) -> x <> [] -> exists s c y, x = s ++ c :: y /\ Forall SEP s /\ IDCHAR c.
Proof.
  intros I N. apply id_chars in I. destruct I as [Fc (m' & c & Ec & Hc)]. apply Forall_app in Fc. destruct Fc as [_ Fc].
  assert (Hl : exists y, x = y ++ [c]).
  { destruct x as [|z x _] using rev_ind; [congruence|]. rewrite app_assoc in Ec. apply app_inj_tail in Ec. destruct Ec as [_ ->]. eauto. }
  destruct Hl as [y ->]. clear - Fc Hc. induction y as [|d y IH]; [exists [], c, []; auto|].
  inversion Fc as [|? ? Hd Fy]; subst. destruct Hd as [Hd|Hd]; [|exists [], d, (y ++ [c]); auto].
  destruct (IH Fy) as (s & e & z & E & Hs & He). exists (d :: s), e, z. cbn. rewrite E. auto.
Qed.
Lemma ident_run n r : is_ident n -> id_stop r -> p_ident (n ++ r) = Done n r.
Proof.
  intros I St. apply ident_done. split; auto. split; auto. intros n' r' E I'.
  destruct (le_lt_dec (List.length n') (List.length n)) as [|Lt]; auto. exfalso.
  destruct (prefix_longer _ _ _ _ E Lt) as (x & -> & -> & N). destruct (id_suffix _ _ I' N) as (s & c & y & -> & Hs & Hc).
  apply (St s c (y ++ r')); auto. now rewrite <- app_assoc.
Qed.
Lemma ws_end_head c r : ~ SPACE c -> c <> 0x3b%N -> ws_end (c :: r).
Proof. intros S N r' D. inversion D; subst; auto; contradiction. Qed.
Lemma ws_end_nil : ws_end [].
Proof. intros r' D. inversion D; auto. Qed.
Lemma ws_run w r : (d_ws (w ++ r) r) -> ws_end r -> p_ws (w ++ r) = Done w r.
Proof. intros. apply ws_done. auto. Qed.
