(** Literals: numbers and strings against SpecSyntax.v. *)
From Coq Require Import List Bool Arith ZArith NArith String Lia.
From Verif Require Import Base Util Data Ivt Ast Nom NomProofs Parser ParserFuel NomDone SpecSyntax TokenProofs.
Import ListNotations.
Open Scope list_scope.

(** * Digits *)
Lemma digit_value_iff b c d : (b <= 16)%N -> digit_value b c = Some d <-> digit_is c d /\ (d < b)%N.
Proof.
  intros Hb. unfold digit_value, is_digit, in_range. split.
  - repeat match goal with |- context [N.leb ?x ?y] => destruct (N.leb_spec x y) end; cbn; try discriminate;
      match goal with |- context [N.ltb ?x ?y] => destruct (N.ltb_spec x y) end; try discriminate; intros [= <-];
      split; auto; first [apply di_dec; unfold DIGIT, between; lia|apply di_upper; unfold between; lia|apply di_lower; unfold between; lia].
  - intros [H L]. inversion H as [? D|? D|? D]; subst; unfold DIGIT, between in D;
      repeat match goal with |- context [N.leb ?x ?y] => destruct (N.leb_spec x y) end; cbn; try lia;
      match goal with |- context [N.ltb ?x ?y] => destruct (N.ltb_spec x y) end; auto; lia.
Qed.
Lemma digit_is_fun c d d' : digit_is c d -> digit_is c d' -> d = d'.
Proof. intros H H'. inversion H; inversion H'; subst; unfold DIGIT, between in *; lia. Qed.

Lemma digits_value_snoc b s c acc : digits_value b acc (s ++ [c]) =
  match digits_value b acc s with
  | Some n => match digit_value b c with Some d => Some (n * b + d)%N | None => None end
  | None => None
  end.
Proof.
  revert acc. induction s as [|x s IH]; intros acc; cbn; [destruct (digit_value b c); reflexivity|].
  destruct (digit_value b x); auto.
Qed.
Lemma digits_value_iff b s v : (b <= 16)%N -> s <> [] -> digits_value b 0 s = Some v <-> spells b s v.
Proof.
  intros Hb. revert v. induction s as [|c s IH] using rev_ind; intros v N; [congruence|]. rewrite digits_value_snoc.
  destruct s as [|x s'].
  - cbn. split.
    + destruct (digit_value b c) as [d|] eqn:E; [|discriminate]. intros [= <-]. apply digit_value_iff in E; auto.
      destruct E. apply sp_one; auto.
    + intros H. inversion H as [c' d D L E|s n c' d S D L E]; subst.
      * assert (E : digit_value b c = Some v) by (apply digit_value_iff; auto). now rewrite E.
      * exfalso. destruct s as [|? [|]]; try discriminate. inversion S.
        match goal with X : _ ++ [_] = [] |- _ => destruct (app_cons_not_nil _ _ _ (eq_sym X)) end.
  - set (s := x :: s') in *. assert (Ns : s <> []) by discriminate. split.
    + destruct (digits_value b 0 s) as [n|] eqn:E; [|discriminate]. destruct (digit_value b c) as [d|] eqn:F; [|discriminate].
      intros [= <-]. apply digit_value_iff in F; auto. destruct F. apply sp_more; auto. apply IH; auto.
    + intros H. inversion H as [c' d D L E|s0 n c' d S D L E]; subst.
      * exfalso. destruct s'; discriminate.
      * change (x :: s' ++ [c]) with (s ++ [c]) in E. apply app_inj_tail in E. destruct E as [-> ->]. apply IH in S; auto. rewrite S.
        assert (F : digit_value b c = Some d) by (apply digit_value_iff; auto). now rewrite F.
Qed.
Lemma spells_nonempty b s v : spells b s v -> s <> [].
Proof. intros H. inversion H; subst; [discriminate|]. intros E. now destruct s0. Qed.
Lemma spells_fun b s v v' : (b <= 16)%N -> spells b s v -> spells b s v' -> v = v'.
Proof.
  intros Hb H H'. pose proof (spells_nonempty _ _ _ H) as N. apply digits_value_iff in H; auto. apply digits_value_iff in H'; auto. congruence.
Qed.
Lemma spells_total b s : (b <= 16)%N -> s <> [] -> Forall (fun c => digit_value b c <> None) s -> exists v, spells b s v.
Proof.
  intros Hb N F.
  assert (P : forall acc, exists v, digits_value b acc s = Some v).
  { clear N. induction F as [|c s Hc F IH]; intros acc; cbn; [eauto|]. destruct (digit_value b c); [auto|congruence]. }
  destruct (P 0%N) as [v E]. exists v. apply digits_value_iff; auto.
Qed.
Lemma spells_digits b s v : spells b s v -> Forall (fun c => exists d, digit_is c d /\ (d < b)%N) s.
Proof. induction 1; [constructor; eauto|]. apply Forall_app. split; auto. constructor; eauto. Qed.

(** * Unsigned integers *)

(** The text of an unsigned integer, the digits passed on and the base. *)
Inductive raw_uint : text -> text -> N -> Prop :=
| raw_dec s n : uint_lit s n -> spells 10 s n -> raw_uint s s 10
| raw_hex s n : spells 16 s n -> raw_uint (txt "0x" ++ s) s 16
| raw_bin s n : spells 2 s n -> raw_uint (txt "0b" ++ s) s 2.

Lemma hex_digit_iff c : is_hex_digit c = true <-> exists d, digit_is c d.
Proof.
  unfold is_hex_digit, is_digit. rewrite !orb_true_iff, !in_range_iff. split.
  - intros [[H|H]|H]; eexists; [apply di_dec|apply di_upper|apply di_lower]; auto.
  - intros [d H]. inversion H; subst; unfold DIGIT in *; auto.
Qed.
Lemma digit_is_lt c d : digit_is c d -> (d < 16)%N.
Proof. intros H. inversion H; subst; unfold DIGIT, between in *; lia. Qed.
Lemma dec_digit c : is_digit c = true -> digit_value 10 c <> None.
Proof.
  intros H. apply is_digit_iff in H. intros E. enough (digit_value 10 c = Some (c - 0x30)%N) by congruence.
  apply digit_value_iff; [lia|]. split; [apply di_dec; auto|]. unfold DIGIT, between in H. lia.
Qed.
Lemma hex_digit c : is_hex_digit c = true -> digit_value 16 c <> None.
Proof.
  intros H. apply hex_digit_iff in H. destruct H as [d H]. intros E. enough (digit_value 16 c = Some d) by congruence.
  apply digit_value_iff; [lia|]. split; auto. eapply digit_is_lt; eauto.
Qed.
Lemma bin_digit c : existsb (N.eqb c) (txt "01") = true -> digit_value 2 c <> None.
Proof. cbn. rewrite !orb_true_iff, !N.eqb_eq. intros [->|[->|H]]; [discriminate|discriminate|discriminate]. Qed.

Lemma uint_lit_iff c n : uint_lit c n <-> exists s b, raw_uint c s b /\ spells b s n.
Proof.
  split.
  - intros H. inversion H as [|c' s n' N S|s n' S|s n' S]; subst.
    + exists [0x30%N], 10%N. assert (S : spells 10 [0x30%N] 0) by (apply sp_one; [apply (di_dec 0x30); unfold DIGIT, between; lia|lia]).
      split; [eapply raw_dec; eauto|auto].
    + eexists _, 10%N. split; [eapply raw_dec; eauto|auto].
    + exists s, 16%N. split; [eapply raw_hex; eauto|auto].
    + exists s, 2%N. split; [eapply raw_bin; eauto|auto].
  - intros (s & b & R & S). inversion R as [s' n' U S'|s' n' S'|s' n' S']; subst.
    + assert (n = n') as -> by (eapply spells_fun; [|eauto..]; lia). auto.
    + apply ul_hex; auto.
    + apply ul_bin; auto.
Qed.
Lemma raw_uint_total c s b : raw_uint c s b -> exists n, uint_lit c n /\ spells b s n /\ (b <= 16)%N /\ s <> [].
Proof.
  intros R. inversion R as [s' n' U S'|s' n' S'|s' n' S']; subst; exists n'; (split; [|split; [auto|split; [lia|eapply spells_nonempty; eauto]]]); auto;
    [apply ul_hex|apply ul_bin]; auto.
Qed.
Lemma from_str_radix_iff s b n : (b <= 16)%N -> spells b s n ->
  from_str_radix s b = if N.ltb n (2 ^ 64) then Some n else None.
Proof.
  intros Hb S. pose proof (spells_nonempty _ _ _ S) as N. apply digits_value_iff in S; auto. unfold from_str_radix.
  destruct s; [congruence|]. now rewrite S.
Qed.

Lemma uint_sound i s b r : p_uint i = Done (s, b) r -> exists c, i = c ++ r /\ raw_uint c s b.
Proof.
  unfold p_uint. intros H. apply or_done in H. destruct H as [H|[_ H]].
  - apply map_done in H. destruct H as (s' & H & [= -> ->]). apply preceded_done in H. destruct H as (a & m & H & E).
    apply tag_done in H. destruct H as [-> ->]. apply take_while1_done in E. destruct E as (N & -> & F & _).
    destruct (spells_total 16 s') as [v V]; [lia|auto|eapply Forall_impl; [|exact F]; apply hex_digit|].
    exists (txt "0x" ++ s'). split; [now rewrite app_assoc|eapply raw_hex; eauto].
  - apply or_done in H. destruct H as [H|[_ H]].
    + apply map_done in H. destruct H as (s' & H & [= -> ->]). apply preceded_done in H. destruct H as (a & m & H & E).
      apply tag_done in H. destruct H as [-> ->]. apply recognize_done in E. destruct E as (l & E & ->).
      apply many1_done in E; [|auto with nom]. destruct E as (x & l' & m' & -> & Ex & R). apply satisfy_done in Ex. destruct Ex as [-> Ex].
      apply reps_one_of in R. destruct R as [-> F]. change (x :: l' ++ r) with ((x :: l') ++ r). rewrite consumed_app.
      destruct (spells_total 2 (x :: l')) as [v V]; [lia|discriminate| |].
      { constructor; [apply bin_digit; auto|]. eapply Forall_impl; [|exact F]. apply bin_digit. }
      exists (txt "0b" ++ x :: l'). split; [now rewrite app_assoc|eapply raw_bin; eauto].
    + apply map_done in H. destruct H as (s' & H & [= -> ->]). apply or_done in H. destruct H as [H|[_ H]].
      * apply tag_done in H. destruct H as [-> ->]. exists (txt "0"). split; auto. eapply raw_dec; [apply ul_zero|].
        apply sp_one; [apply (di_dec 0x30); unfold DIGIT, between; lia|lia].
      * apply recognize_done in H. destruct H as (l & H & ->). destruct l as [x a]. apply pair_done in H. destruct H as (m & H & E). cbn [fst snd] in *.
        apply satisfy_done in H. destruct H as [-> Hx]. unfold digit0, take_while0 in E.
        destruct (span is_digit m) as [a' m'] eqn:Sp. inversion E; subst. apply span_spec in Sp. destruct Sp as (-> & F & _).
        change (x :: a ++ r) with ((x :: a) ++ r). rewrite consumed_app. exists (x :: a). split; auto.
        assert (Hx' : is_digit x = true /\ x <> 0x30%N).
        { clear - Hx. cbn in Hx. rewrite !orb_true_iff, !N.eqb_eq in Hx. unfold is_digit. rewrite in_range_iff. unfold between. lia. }
        destruct Hx' as [Hd Hz].
        destruct (spells_total 10 (x :: a)) as [v V]; [lia|discriminate|constructor; [now apply dec_digit|eapply Forall_impl; [|exact F]; apply dec_digit]|].
        eapply raw_dec; [apply ul_dec; eauto|eauto].
Qed.

(** What may follow a number: no further alphanumeric character, no fraction. *)
Definition num_stop (r : text) : Prop :=
  (forall c j, r = c :: j -> ~ IDCHAR c) /\ (forall c j, r = 0x2e%N :: c :: j -> ~ DIGIT c).
Lemma num_stop_nil : num_stop []. Proof. split; discriminate. Qed.

Lemma stop_not_hex r c j : num_stop r -> r = c :: j -> is_hex_digit c = false.
Proof.
  intros [H _] ->. specialize (H c j eq_refl). destruct (is_hex_digit c) eqn:E; auto. exfalso. apply H.
  unfold is_hex_digit in E. rewrite !orb_true_iff, !in_range_iff in E. unfold is_digit in E. rewrite in_range_iff in E.
  unfold IDCHAR, EALPHA, ALPHA, DIGIT, between in *. lia.
Qed.
Lemma stop_not_digit r c j : num_stop r -> r = c :: j -> is_digit c = false.
Proof.
  intros H E. pose proof (stop_not_hex _ _ _ H E) as X. unfold is_hex_digit in X. apply orb_false_elim in X. destruct X as [X _].
  apply orb_false_elim in X. tauto.
Qed.
Lemma tag_run s r : tag s (txt s ++ r) = Done (txt s) r.
Proof. apply tag_done; auto. Qed.
Lemma tag_soft s i : (forall r, i <> txt s ++ r) -> tag s i = Soft (nom_err i).
Proof. unfold tag. intros H. destruct (strip (txt s) i) as [r|] eqn:E; auto. apply strip_app in E. exfalso. eapply H; eauto. Qed.
Lemma bind_soft {A B} (p : parser A) (f : A -> parser B) i e : p i = Soft e -> bindp p f i = Soft e.
Proof. unfold bindp. intros ->. reflexivity. Qed.
Lemma map_tag_soft {A B} (g : A -> B) s (q : parser A) i : (forall r, i <> txt s ++ r) -> exists e, mapp g (preceded (tag s) q) i = Soft e.
Proof. intros H. eexists. apply bind_soft, bind_soft, tag_soft, H. Qed.
Lemma take_while1_run f a r : a <> [] -> Forall (fun c => f c = true) a -> match r with [] => True | c :: _ => f c = false end ->
  take_while1 f (a ++ r) = Done a r.
Proof. intros. apply take_while1_done. auto. Qed.
Lemma stop_span (f : N -> bool) r : (forall c j, r = c :: j -> f c = false) -> match r with [] => True | c :: _ => f c = false end.
Proof. destruct r; auto. intros H. eapply H; eauto. Qed.

Lemma bin_digit_char c d : digit_is c d -> (d < 2)%N -> existsb (N.eqb c) (txt "01") = true.
Proof.
  intros H L. cbn. rewrite !orb_true_iff, !N.eqb_eq. inversion H; subst; unfold DIGIT, between in *; lia.
Qed.
Lemma dec_digit_char c d : digit_is c d -> (d < 10)%N -> is_digit c = true.
Proof. intros H L. apply is_digit_iff. inversion H; subst; unfold DIGIT, between in *; lia. Qed.
Lemma one_of_run s a r : Forall (fun c => existsb (N.eqb c) (txt s) = true) a ->
  match r with [] => True | c :: _ => existsb (N.eqb c) (txt s) = false end -> reps (one_of_chars s) (a ++ r) a r.
Proof.
  intros F H. induction F as [|c a Hc F IH]; cbn.
  - apply reps_nil with (e := nom_err r). unfold one_of_chars, satisfy. destruct r; auto. now rewrite H.
  - apply reps_cons with (m := a ++ r); auto; [apply satisfy_done; auto|cbn; lia].
Qed.

(** What may follow a decimal number's integer part. *)
Definition dec_stop (r : text) : Prop := forall c j, r = c :: j -> ~ DIGIT c /\ c <> 0x78%N /\ c <> 0x62%N.
Lemma num_dec_stop r : num_stop r -> dec_stop r.
Proof.
  intros [H _] c j E. specialize (H c j E). unfold IDCHAR, EALPHA, ALPHA, DIGIT, between in *. lia.
Qed.
Lemma dec_run s n r : uint_lit s n -> spells 10 s n -> dec_stop r -> p_uint (s ++ r) = Done (s, 10%N) r.
Proof.
  intros U S St. unfold p_uint. inversion U as [|c s' n' N S'|s' n' S'|s' n' S']; subst.
    + apply or_done. right. split.
      { apply map_tag_soft. intros r' E. inversion E; subst. destruct (St _ _ eq_refl) as (_ & A & B). congruence. }
      apply or_done. right. split.
      { apply map_tag_soft. intros r' E. inversion E; subst. destruct (St _ _ eq_refl) as (_ & A & B). congruence. }
      apply map_done. eexists. split; [|reflexivity]. apply or_done. left. apply (tag_run "0").
    + assert (Fd : Forall (fun c => is_digit c = true) (c :: s')).
      { apply spells_digits in S'. eapply Forall_impl; [|exact S']. intros x (d & D & L). eapply dec_digit_char; eauto. }
      inversion Fd as [|? ? Hc Fs]; subst.
      apply or_done. right. split; [apply map_tag_soft; intros r' E; inversion E; congruence|].
      apply or_done. right. split; [apply map_tag_soft; intros r' E; inversion E; congruence|].
      apply map_done. eexists. split; [|reflexivity]. apply or_done. right. split.
      { eexists. apply tag_soft. intros r' E. inversion E; congruence. }
      apply recognize_done. exists (c, s'). split; [|now rewrite consumed_app].
      apply pair_done. exists (s' ++ r). split.
      * apply satisfy_done. split; auto. cbn. rewrite !orb_true_iff, !N.eqb_eq. apply is_digit_iff in Hc. unfold DIGIT, between in Hc. lia.
      * unfold digit0, take_while0. cbn [snd]. assert (Sp : span is_digit (s' ++ r) = (s', r)).
        { apply span_spec. split; auto. split; auto. apply stop_span. intros x j E. destruct (St _ _ E) as (A & _). destruct (is_digit x) eqn:Dx; auto. apply is_digit_iff in Dx. contradiction. }
        now rewrite Sp.
    + exfalso. apply spells_digits in S. apply Forall_app in S. destruct S as [S _]. inversion S as [|? ? _ S2]; subst.
      inversion S2 as [|? ? (d & D & L) _]; subst. inversion D; subst; unfold DIGIT, between in *; lia.
    + exfalso. apply spells_digits in S. apply Forall_app in S. destruct S as [S _]. inversion S as [|? ? _ S2]; subst.
      inversion S2 as [|? ? (d & D & L) _]; subst. inversion D; subst; unfold DIGIT, between in *; lia.
Qed.
Lemma uint_run c s b r : raw_uint c s b -> num_stop r -> p_uint (c ++ r) = Done (s, b) r.
Proof.
  intros R St. destruct R as [s n U S|s n S|s n S]; [eapply dec_run; eauto using num_dec_stop| |]; unfold p_uint.
  - apply or_done. left. apply map_done. exists s. split; auto. apply preceded_done. exists (txt "0x"), (s ++ r).
    rewrite <- app_assoc. split; [apply tag_run|]. apply take_while1_run; [eapply spells_nonempty; eauto| |].
    + apply spells_digits in S. eapply Forall_impl; [|exact S]. intros x (d & D & _). apply hex_digit_iff. eauto.
    + apply stop_span. intros; eapply stop_not_hex; eauto.
  - apply or_done. right. split.
    { apply map_tag_soft. intros r' E. inversion E. }
    apply or_done. left. apply map_done. exists s. split; auto. apply preceded_done. exists (txt "0b"), (s ++ r).
    rewrite <- app_assoc. split; [apply tag_run|]. pose proof (spells_nonempty _ _ _ S) as N. apply spells_digits in S.
    apply recognize_done. exists s. split; [|now rewrite consumed_app].
    assert (F : Forall (fun c => existsb (N.eqb c) (txt "01") = true) s).
    { eapply Forall_impl; [|exact S]. intros x (d & D & L). eapply bin_digit_char; eauto. }
    destruct s as [|x s]; [congruence|]. inversion F as [|? ? Fx Fs]; subst.
    apply many1_done; [auto with nom|]. exists x, s, (s ++ r). split; auto. split; [apply satisfy_done; auto|].
    apply one_of_run; auto. apply stop_span. intros y j E. pose proof (stop_not_digit _ _ _ St E) as Hd.
    destruct (existsb (N.eqb y) (txt "01")) eqn:Ex; auto. exfalso. revert Hd. cbn in Ex. rewrite !orb_true_iff, !N.eqb_eq in Ex.
    destruct Ex as [->|[->|Ex]]; discriminate.
Qed.

(** * Strings *)
Section Content.
Variable f : N -> bool.
Variable P : N -> Prop.
Hypothesis fP : forall c, f c = true <-> P c.
Hypothesis no_bs : f 0x5c = false.
Let item : parser text := orp (take_while1 f) p_sesc.

Lemma content_app s t : content P s -> content P t -> content P (s ++ t).
Proof. induction 1; intros; cbn; auto using content. Qed.
Lemma content_run s : Forall P s -> content P s.
Proof. induction 1; auto using content. Qed.
Lemma item_done i a r : item i = Done a r -> exists c, i = c ++ r /\ content P c /\ c <> [].
Proof.
  unfold item. intros H. apply or_done in H. destruct H as [H|[_ H]].
  - apply take_while1_done in H. destruct H as (N & -> & F & _). exists a. split; auto. split; auto. apply content_run.
    eapply Forall_impl; [|exact F]. intros c. apply fP.
  - apply preceded_done in H. destruct H as (c & m & H & E). apply char_done in H. destruct H as [-> ->].
    apply recognize_done in E. destruct E as (x & E & ->). apply satisfy_done in E. destruct E as [-> _].
    exists [0x5c%N; x]. split; auto. split; [apply co_escape; constructor|discriminate].
Qed.
Lemma shrinks_item : shrinks item.
Proof. intros i a r H. apply item_done in H. destruct H as (c & -> & _). rewrite app_length. lia. Qed.
Lemma content_sound i s r : recognize (many0 item) i = Done s r -> i = s ++ r /\ content P s.
Proof.
  intros H. apply recognize_done in H. destruct H as (l & H & ->). apply many0_done in H; [|apply shrinks_item].
  assert (G : exists c, i = c ++ r /\ content P c).
  { induction H as [i e E|i a m l r E L R (c & -> & C)]; [exists []; split; [auto|constructor]|].
    apply item_done in E. destruct E as (d & -> & D & _). exists (d ++ c). split; [now rewrite app_assoc|]. apply content_app; auto. }
  destruct G as (c & -> & C). now rewrite consumed_app.
Qed.
(** A character that ends the content. *)
Lemma content_complete s q r : content P s -> f q = false -> q <> 0x5c%N -> recognize (many0 item) (s ++ q :: r) = Done s (q :: r).
Proof.
  intros C Fq Nq. apply recognize_done.
  enough (R : exists l, reps item (s ++ q :: r) l (q :: r)).
  { destruct R as [l R]. exists l. split; [apply many0_done; auto using shrinks_item|now rewrite consumed_app]. }
  assert (G : forall n s, List.length s < n -> content P s -> exists l, reps item (s ++ q :: r) l (q :: r)); [|apply (G (S (List.length s))); auto].
  clear s C. intros n. induction n as [|n IH]; intros s L C; [lia|].
  destruct C as [|c s Pc C|c s C]; cbn [app].
  - exists []. apply reps_nil with (e := nom_err (q :: r)). unfold item, orp, take_while1. cbn. rewrite Fq.
    unfold p_sesc, preceded, bindp, charp, satisfy. destruct (N.eqb_spec 92 q); [congruence|reflexivity].
  - assert (H : exists a t, s = a ++ t /\ content P t /\ Forall P a /\ match t ++ q :: r with [] => True | c :: _ => f c = false end).
    { clear - C Fq no_bs fP. induction C as [|d s Pd C (a & t & -> & Ct & Fa & E)|d s C _].
      - exists [], []. cbn. auto using content.
      - exists (d :: a), t. auto.
      - exists [], (0x5c%N :: d :: s). cbn. split; auto. split; auto using content. }
    destruct H as (a & t & -> & Ct & Fa & E). destruct (IH t) as [l R]; [cbn in L; rewrite app_length in L; lia|auto|].
    exists ((c :: a) :: l). apply reps_cons with (m := t ++ q :: r); auto.
    + unfold item. apply or_done. left. rewrite <- app_assoc. change (c :: a ++ t ++ q :: r) with ((c :: a) ++ t ++ q :: r).
      apply take_while1_run; auto; [discriminate|]. constructor; [now apply fP|]. eapply Forall_impl; [|exact Fa]. intros; now apply fP.
    + cbn. rewrite !app_length. cbn. lia.
  - destruct (IH s) as [l R]; [cbn in L; lia|auto|]. exists ([c] :: l). apply reps_cons with (m := s ++ q :: r); auto; [|cbn; rewrite app_length; lia].
    unfold item. apply or_done. right. split; [unfold take_while1; cbn; rewrite no_bs; eauto|].
    apply preceded_done. exists 0x5c%N, (c :: s ++ q :: r). split; [apply char_done; auto|].
    apply recognize_done. exists c. split; [apply satisfy_done; auto|]. symmetry. apply (consumed_app [c]).
Qed.
End Content.

Lemma schar_sound i s r : p_schar i = Done s r -> i = s ++ r /\ content SCHAR s.
Proof. apply content_sound. apply schar_iff. Qed.
Lemma bchar_sound i s r : p_bchar i = Done s r -> i = s ++ r /\ content BCHAR s.
Proof. apply content_sound. apply bchar_iff. Qed.
Lemma schar_run s r : content SCHAR s -> p_schar (s ++ 0x22%N :: r) = Done s (0x22%N :: r).
Proof. intros. apply (content_complete _ SCHAR); auto; [apply schar_iff|discriminate]. Qed.
Lemma bchar_run s r : content BCHAR s -> p_bchar (s ++ 0x27%N :: r) = Done s (0x27%N :: r).
Proof. intros. apply (content_complete _ BCHAR); auto; [apply bchar_iff|discriminate]. Qed.

(** Hexadecimal bytes. *)
Lemma hex_decode_iff s b : hex_decode s = Some b <-> hex_bytes s b.
Proof.
  split.
  - assert (G : forall n s b, List.length s < n -> hex_decode s = Some b -> hex_bytes s b); [|intros H; eapply (G (S (List.length s))); eauto].
    clear. intros n. induction n as [|n IH]; intros s b L H; [lia|].
    destruct s as [|x [|y s]]; cbn [hex_decode] in H; [inversion H; constructor|discriminate|].
    destruct (digit_value 16 x) as [u|] eqn:Ex; [|discriminate]. destruct (digit_value 16 y) as [v|] eqn:Ey; [|discriminate].
    destruct (hex_decode s) as [l|] eqn:El; [|discriminate]. inversion H; subst.
    apply digit_value_iff in Ex; [|lia]. apply digit_value_iff in Ey; [|lia]. constructor; [tauto|tauto|apply IH; auto; cbn in L; lia].
  - induction 1 as [|x y u v s l Hx Hy H IH]; cbn [hex_decode]; auto.
    assert (Ex : digit_value 16 x = Some u) by (apply digit_value_iff; [lia|split; eauto using digit_is_lt]).
    assert (Ey : digit_value 16 y = Some v) by (apply digit_value_iff; [lia|split; eauto using digit_is_lt]).
    now rewrite Ex, Ey, IH.
Qed.
Lemma ascii_ws_iff c : is_ascii_whitespace c = true <-> In c [32; 9; 10; 12; 13]%N.
Proof. unfold is_ascii_whitespace. rewrite !orb_true_iff, !N.eqb_eq. cbn. intuition. Qed.
Lemma without_spaces_iff s t : filter (fun c => negb (is_ascii_whitespace c)) s = t <-> without_spaces s t.
Proof.
  split.
  - intros <-. induction s as [|c s IH]; cbn; [constructor|]. destruct (is_ascii_whitespace c) eqn:E; cbn.
    + apply wo_space; auto. now apply ascii_ws_iff.
    + apply wo_char; auto. intros H. apply ascii_ws_iff in H. congruence.
  - induction 1 as [|c s t H W IH|c s t H W IH]; cbn; auto.
    + apply ascii_ws_iff in H. now rewrite H.
    + destruct (is_ascii_whitespace c) eqn:E; [apply ascii_ws_iff in E; contradiction|]. cbn. congruence.
Qed.

(** * Values *)
Lemma int_sound i s b neg r : p_int i = Done (s, b, neg) r ->
  exists c, i = (if neg then txt "-" else []) ++ c ++ r /\ raw_uint c s b.
Proof.
  intros H. apply map_done in H. destruct H as ([o [s' b']] & H & [= -> -> ->]). apply pair_done in H. destruct H as (m & H & E). cbn in *.
  apply uint_sound in E. destruct E as (c & -> & R). exists c. split; auto. apply opt_done in H. destruct o as [x|]; cbn.
  - apply char_done in H. tauto.
  - destruct H as [-> _]. reflexivity.
Qed.
Lemma digit1_done i a r : digit1 i = Done a r -> i = a ++ r /\ digits a.
Proof.
  intros H. apply take_while1_done in H. destruct H as (N & -> & F & _). split; auto. split; auto.
  eapply Forall_impl; [|exact F]. intros c. apply is_digit_iff.
Qed.
Lemma dot_sound i c r : p_dot_fraction i = Done c r -> i = c ++ r /\ fraction c.
Proof.
  intros H. apply recognize_done in H. destruct H as ([x d] & H & ->). apply pair_done in H. destruct H as (m & H & E). cbn [fst snd] in *.
  apply char_done in H. destruct H as [-> ->]. apply digit1_done in E. destruct E as [-> D].
  change (46%N :: d ++ r) with ((46%N :: d) ++ r). rewrite consumed_app. split; auto. exists d. auto.
Qed.
Lemma exp_sound i c r : p_e_exponent i = Done c r -> i = c ++ r /\ exponent c.
Proof.
  intros H. apply recognize_done in H. destruct H as ([x [o d]] & H & ->). apply pair_done in H. destruct H as (m & H & E). cbn [fst snd] in *.
  apply char_done in H. destruct H as [-> ->]. apply pair_done in E. destruct E as (m' & H & E). cbn [fst snd] in *.
  apply digit1_done in E. destruct E as [-> D]. apply opt_done in H.
  assert (S : exists sg, m = sg ++ d ++ r /\ In sg [[]; txt "+"; txt "-"]).
  { destruct o as [y|].
    - apply satisfy_done in H. destruct H as [-> H]. exists [y]. split; auto. cbn in H. rewrite !orb_true_iff, !N.eqb_eq in H.
      cbn. intuition congruence.
    - destruct H as [-> _]. exists []. cbn. auto. }
  destruct S as (sg & -> & S). replace (101%N :: sg ++ d ++ r) with ((101%N :: sg ++ d) ++ r) by (cbn; now rewrite <- app_assoc).
  rewrite consumed_app. split; auto. exists sg, d. auto.
Qed.

Section WithX.
Variable X : ext.

Lemma number_sound i v r : p_float_or_int X i = Done v r -> exists c, i = c ++ r /\ value_lit X c v.
Proof.
  intros H. apply map_res_fail_done in H. destruct H as ([w [[[s b] neg] [fr ex]]] & H & E).
  apply recognizer_done in H. cbn [fst snd] in H. destruct H as [H ->]. apply pair_done in H. destruct H as (m & H & F). cbn [fst snd] in *.
  apply int_sound in H. destruct H as (c & -> & R). apply pair_done in F. destruct F as (m' & F & G). cbn [fst snd] in *.
  pose proof (raw_uint_total _ _ _ R) as (n & U & S & B & _).
  apply opt_done in F. apply opt_done in G.
  assert (Ff : exists f, m = f ++ m' /\ optional fraction f /\ (f = [] <-> fr = None)).
  { destruct fr as [f|].
    - apply dot_sound in F. destruct F as [-> F]. exists f. split; auto. split; [right; auto|]. destruct F as (d & -> & _). split; discriminate.
    - destruct F as [-> _]. exists []. split; auto. split; [left; auto|tauto]. }
  assert (Fe : exists e, m' = e ++ r /\ optional exponent e /\ (e = [] <-> ex = None)).
  { destruct ex as [e|].
    - apply exp_sound in G. destruct G as [-> G]. exists e. split; auto. split; [right; auto|]. destruct G as (sg & d & -> & _). split; discriminate.
    - destruct G as [-> _]. exists []. split; auto. split; [left; auto|tauto]. }
  clear F G. destruct Ff as (f & -> & Ff & If). destruct Fe as (e & -> & Fe & Ie).
  set (sg := if neg then txt "-" else []) in *.
  assert (Fl : forall v, parse_float X (consumed (sg ++ c ++ f ++ e ++ r) r) = inl v -> f ++ e <> [] ->
     exists c0, sg ++ c ++ f ++ e ++ r = c0 ++ r /\ value_lit X c0 v).
  { intros v' Hv N. replace (sg ++ c ++ f ++ e ++ r) with ((sg ++ c ++ f ++ e) ++ r) in * by (now rewrite <- !app_assoc).
    rewrite consumed_app in Hv. unfold parse_float in Hv. destruct (f64_parse X _) as [bits|] eqn:P; [|discriminate].
    inversion Hv; subst v'. exists (sg ++ c ++ f ++ e). split; auto. eapply vl_float; eauto. unfold sg. destruct neg; [right|left]; auto. }
  destruct fr as [f'|]; [apply Fl; auto; intros N; apply app_eq_nil in N; destruct N as [N _]; apply If in N; discriminate|].
  destruct ex as [e'|]; [apply Fl; auto; intros N; apply app_eq_nil in N; destruct N as [_ N]; apply Ie in N; discriminate|].
  assert (f = []) as -> by tauto. assert (e = []) as -> by tauto. unfold parse_int in E.
  rewrite (from_str_radix_iff _ _ _ B S) in E. destruct (N.ltb_spec n (2 ^ 64)) as [L|L]; [|discriminate].
  subst sg. destruct neg.
  - destruct (N.ltb_spec n (2 ^ 63)); [|discriminate]. inversion E; subst. exists (txt "-" ++ c). split; [now rewrite <- app_assoc|].
    apply vl_nint; auto.
  - inversion E; subst. exists c. split; auto. apply vl_uint; auto.
Qed.
Lemma unescape_ok s t : unescape_text X s = inl t -> unescape X s = Some t.
Proof. unfold unescape_text. destruct (unescape X s); [intros [= ->]; auto|discriminate]. Qed.
Lemma value_sound i v r : p_value X i = Done v r -> exists c, i = c ++ r /\ value_lit X c v.
Proof.
  intros H. apply or_done in H. destruct H as [H|[_ H]]; [apply number_sound; auto|]. apply or_done in H. destruct H as [H|[_ H]].
  - apply map_done in H. destruct H as (t & H & ->). apply map_res_fail_done in H. destruct H as (s & H & E). apply unescape_ok in E.
    apply delimited_done in H. destruct H as (a & m & m' & c & H & F & G). apply char_done in H. apply char_done in G.
    destruct H as [-> ->]. destruct G as [-> ->]. apply schar_sound in F. destruct F as [-> C].
    exists (txt """" ++ s ++ txt """"). split; [cbn; now rewrite <- app_assoc|]. apply vl_text; auto.
  - apply map_done in H. destruct H as (b & H & ->). apply or_done in H. destruct H as [H|[_ H]].
    + apply map_done in H. destruct H as (t & H & ->). apply map_res_fail_done in H. destruct H as (s & H & E). apply unescape_ok in E.
      apply delimited_done in H. destruct H as (a & m & m' & c & H & F & G). apply tag_done in H. apply tag_done in G.
      destruct H as [-> ->]. destruct G as [-> ->]. apply bchar_sound in F. destruct F as [-> C].
      exists (txt "'" ++ s ++ txt "'"). split; [now rewrite <- !app_assoc|]. apply vl_bytes; auto.
    + apply or_done in H. destruct H as [H|[_ H]].
      * apply map_res_fail_done in H. destruct H as (s & H & E). unfold parse_hex in E.
        destruct (hex_decode _) as [b'|] eqn:D; [|discriminate]. inversion E; subst.
        apply delimited_done in H. destruct H as (a & m & m' & c & H & F & G). apply tag_done in H. apply tag_done in G.
        destruct H as [-> ->]. destruct G as [-> ->]. apply bchar_sound in F. destruct F as [-> C].
        exists (txt "h'" ++ s ++ txt "'"). split; [now rewrite <- !app_assoc|]. eapply vl_hex; [auto| |apply hex_decode_iff; eauto].
        apply without_spaces_iff. reflexivity.
      * apply map_res_fail_done in H. destruct H as (s & H & E). destruct (base64_decode X s) as [b'|] eqn:D; [|discriminate]. inversion E; subst.
        apply delimited_done in H. destruct H as (a & m & m' & c & H & F & G). apply tag_done in H. apply char_done in G.
        destruct H as [-> ->]. destruct G as [-> ->]. apply bchar_sound in F. destruct F as [-> C].
        exists (txt "b64'" ++ s ++ txt "'"). split; [now rewrite <- !app_assoc|]. apply vl_base64; auto.
Qed.

(** Completeness for numbers. *)
Lemma raw_uint_head c s b x l : raw_uint c s b -> c = x :: l -> DIGIT x.
Proof.
  intros R E. inversion R as [s' n U S|s' n S|s' n S]; subst; cbn in *; try (inversion H; unfold DIGIT, between; lia); try (inversion E; unfold DIGIT, between; lia).
  apply spells_digits in S. inversion S as [|? ? (d & D & L) _]; subst. apply is_digit_iff. eapply dec_digit_char; eauto.
Qed.
Lemma raw_uint_cons c s b : raw_uint c s b -> exists x l, c = x :: l.
Proof.
  intros R. inversion R as [s' n U S|s' n S|s' n S]; subst; cbn; eauto. apply spells_nonempty in S. destruct s; [congruence|eauto].
Qed.
Lemma int_run' (neg : bool) c s b r r' : raw_uint c s b -> p_uint (c ++ r) = Done (s, b) r' ->
  p_int ((if neg then txt "-" else []) ++ c ++ r) = Done (s, b, neg) r'.
Proof.
  intros R U. apply map_done. exists ((if neg then Some 0x2d%N else None), (s, b)). split; [|destruct neg; reflexivity].
  apply pair_done. exists (c ++ r). split; [|auto]. apply opt_done. cbn [fst snd]. destruct neg; [apply char_done; auto|].
  split; auto. unfold charp, satisfy. cbn [app]. destruct (raw_uint_cons _ _ _ R) as (x & l & ->). cbn [app].
  destruct (N.eqb_spec 45 x) as [<-|]; [|eauto]. exfalso. pose proof (raw_uint_head _ _ _ _ _ R eq_refl) as D. unfold DIGIT, between in D. lia.
Qed.
Lemma no_dot r : num_stop r -> exists e, p_dot_fraction r = Soft e.
Proof.
  intros [_ H]. unfold p_dot_fraction, recognize, pairp, bindp, charp, satisfy. destruct r as [|c r]; [cbn; eauto|].
  destruct (N.eqb_spec 46 c) as [<-|]; [|eauto]. unfold digit1, take_while1. destruct r as [|d r]; [cbn; eauto|]. cbn [span].
  destruct (is_digit d) eqn:E; [|cbn; eauto]. apply is_digit_iff in E. exfalso. eapply H; eauto.
Qed.
Lemma no_exp r : (forall j, r <> 0x65%N :: j) -> exists e, p_e_exponent r = Soft e.
Proof.
  intros H. unfold p_e_exponent, recognize, pairp, bindp, charp, satisfy. destruct r as [|c r]; [cbn; eauto|].
  destruct (N.eqb_spec 101 c) as [<-|]; [|eauto]. exfalso. eapply H; eauto.
Qed.
Lemma num_stop_e r : num_stop r -> forall j, r <> 0x65%N :: j.
Proof. intros [H _] j ->. apply (H _ _ eq_refl). left. left. unfold ALPHA, between. lia. Qed.
Lemma int_value_run (neg : bool) c s b r : raw_uint c s b -> num_stop r ->
  p_float_or_int X ((if neg then txt "-" else []) ++ c ++ r) = match parse_int s b neg with inl v => Done v r | inr e => Hard e end.
Proof.
  intros R St. unfold p_float_or_int, map_res_fail, bindp.
  assert (E : recognizer (pairp p_int (pairp (opt p_dot_fraction) (opt p_e_exponent))) ((if neg then txt "-" else []) ++ c ++ r) =
     Done ((if neg then txt "-" else []) ++ c, (s, b, neg, (None, None))) r).
  { apply recognizer_done. cbn [fst snd]. split; [|rewrite app_assoc, consumed_app; reflexivity].
    apply pair_done. exists r. split; [apply int_run'; auto using uint_run|]. apply pair_done. exists r. cbn [fst snd].
    split; apply opt_done; (split; [auto|]); [apply no_dot; auto|apply no_exp; apply num_stop_e; auto]. }
  rewrite E. reflexivity.
Qed.

(** Floats: a decimal integer part, then a fraction or an exponent. *)
Lemma digits_run d r : digits d -> (forall c j, r = c :: j -> ~ DIGIT c) -> digit1 (d ++ r) = Done d r.
Proof.
  intros [N F] H. apply take_while1_run; auto; [eapply Forall_impl; [|exact F]; intros; now apply is_digit_iff|].
  apply stop_span. intros c j E. destruct (is_digit c) eqn:D; auto. apply is_digit_iff in D. exfalso. eapply H; eauto.
Qed.
Lemma exp_run e r : exponent e -> num_stop r -> p_e_exponent (e ++ r) = Done e r.
Proof.
  intros (sg & d & -> & Hs & D) [St _].
  assert (Dr : digit1 (d ++ r) = Done d r).
  { apply digits_run; auto. intros c j E Hc. apply (St c j E). right; auto. }
  apply recognize_done. exists (0x65%N, (match sg with [] => None | x :: _ => Some x end, d)). split.
  - apply pair_done. exists (sg ++ d ++ r). cbn [fst snd]. split; [apply char_done; cbn; now rewrite <- app_assoc|].
    apply pair_done. exists (d ++ r). cbn [fst snd]. split; [|auto]. apply opt_done.
    destruct Hs as [<-|[<-|[<-|[]]]]; [|reflexivity|reflexivity]. split; auto. unfold one_of_chars, satisfy. cbn [app].
    destruct D as [N F]. destruct d as [|c d]; [congruence|]. inversion F as [|? ? Dc _]; subst. cbn [app].
    destruct (existsb (N.eqb c) (txt "+-")) eqn:E; [|eauto]. exfalso. cbn in E. rewrite !orb_true_iff, !N.eqb_eq in E.
    unfold DIGIT, between in Dc. destruct E as [->|[->|E]]; try discriminate; lia.
  - now rewrite consumed_app.
Qed.
Lemma opt_exp_run e r : optional exponent e -> num_stop r -> exists o, opt p_e_exponent (e ++ r) = Done o r /\ (o = None <-> e = []).
Proof.
  intros [->|H] St.
  - exists None. split; [|tauto]. apply opt_done. split; auto. apply no_exp. apply num_stop_e; auto.
  - exists (Some e). split; [apply opt_done; apply exp_run; auto|]. destruct H as (sg & d & -> & _). split; discriminate.
Qed.
Lemma opt_dot_run f e r : optional fraction f -> optional exponent e -> num_stop r ->
  exists o, opt p_dot_fraction (f ++ e ++ r) = Done o (e ++ r) /\ (o = None <-> f = []).
Proof.
  intros [->|H] He St.
  - exists None. split; [|tauto]. apply opt_done. split; auto. destruct He as [->|(sg & d & -> & _)]; [apply no_dot; auto|]. cbn. eauto.
  - exists (Some f). destruct H as (d & -> & D). split; [|split; discriminate]. apply opt_done. apply recognize_done. exists (0x2e%N, d). split.
    + apply pair_done. exists (d ++ e ++ r). cbn [fst snd]. split; [apply char_done; cbn; auto|]. apply digits_run; auto.
      intros c j E Hc. destruct He as [->|(sg & d' & -> & _)].
      * destruct St as [St _]. apply (St c j E). right; auto.
      * inversion E; subst. unfold DIGIT, between in Hc. lia.
    + now rewrite consumed_app.
Qed.
Lemma float_run (neg : bool) s n f e r : uint_lit s n -> spells 10 s n -> optional fraction f -> optional exponent e -> f ++ e <> [] -> num_stop r ->
  p_float_or_int X ((if neg then txt "-" else []) ++ s ++ f ++ e ++ r) =
  match parse_float X ((if neg then txt "-" else []) ++ s ++ f ++ e) with inl v => Done v r | inr e => Hard e end.
Proof.
  intros U S Hf He N St.
  assert (Sd : dec_stop (f ++ e ++ r)).
  { intros c j E. destruct Hf as [->|(d & -> & _)].
    - destruct He as [->|(sg' & d & -> & _)]; [cbn in N; congruence|]. inversion E; subst. unfold DIGIT, between. lia.
    - inversion E; subst. unfold DIGIT, between. lia. }
  destruct (opt_dot_run f e r Hf He St) as (o & Eo & Io). destruct (opt_exp_run e r He St) as (o' & Eo' & Io').
  unfold p_float_or_int, map_res_fail, bindp.
  assert (E : recognizer (pairp p_int (pairp (opt p_dot_fraction) (opt p_e_exponent))) ((if neg then txt "-" else []) ++ s ++ f ++ e ++ r) =
     Done ((if neg then txt "-" else []) ++ s ++ f ++ e, (s, 10%N, neg, (o, o'))) r).
  { apply recognizer_done. cbn [fst snd]. split.
    - apply pair_done. exists (f ++ e ++ r). cbn [fst snd]. split; [apply int_run'; eauto using raw_dec, dec_run|].
      apply pair_done. exists (e ++ r). auto.
    - replace ((if neg then txt "-" else []) ++ s ++ f ++ e ++ r) with (((if neg then txt "-" else []) ++ s ++ f ++ e) ++ r) by (now rewrite <- !app_assoc). now rewrite consumed_app. }
  rewrite E. destruct o, o'; auto. exfalso. apply N. rewrite (proj1 Io), (proj1 Io'); auto.
Qed.

(** Strings: none of these starts a number. *)
Lemma not_number q i : ~ DIGIT q -> q <> 0x2d%N -> exists e, p_float_or_int X (q :: i) = Soft e.
Proof.
  intros D M. eexists. unfold p_float_or_int, map_res_fail. apply bind_soft. unfold recognizer, pairp at 1, bindp at 1.
  assert (E : p_int (q :: i) = Soft (nom_err (q :: i))).
  { apply bind_soft. unfold pairp, bindp, opt, charp, satisfy. destruct (N.eqb_spec 45 q); [congruence|].
    unfold p_uint, orp. cbv [mapp].
    assert (T : forall s t, txt s = 0x30%N :: t -> tag s (q :: i) = Soft (nom_err (q :: i))).
    { intros s t Hs. apply tag_soft. intros r E. rewrite Hs in E. inversion E as [Q]. apply D. subst q. cbv. split; discriminate. }
    unfold p_uint_hex, p_uint_binary, p_uint_decimal, preceded, orp, bindp.
    rewrite (T "0x"%string _ eq_refl), (T "0b"%string _ eq_refl), (T "0"%string _ eq_refl).
    unfold recognize, pairp, bindp, one_of_chars, satisfy.
    destruct (existsb (N.eqb q) (txt "123456789")) eqn:Ex; [|reflexivity].
    exfalso. apply D. cbn in Ex. rewrite !orb_true_iff, !N.eqb_eq in Ex. unfold DIGIT, between. lia. }
  rewrite E. reflexivity.
Qed.
Lemma text_run s r : content SCHAR s ->
  p_value X (txt """" ++ s ++ txt """" ++ r) = match unescape X s with Some t => Done (AText t) r | None => Hard (PErr MalformedText s) end.
Proof.
  intros C. unfold p_value, orp. destruct (not_number 0x22 (s ++ txt """" ++ r)) as [e E]; [unfold DIGIT, between; lia|discriminate|].
  change (txt """" ++ s ++ txt """" ++ r) with (0x22%N :: s ++ txt """" ++ r). rewrite E.
  unfold p_text_literal, mapp, map_res_fail, bindp.
  assert (Q : delimited (charp 34) p_schar (charp 34) (34%N :: s ++ txt """" ++ r) = Done s r).
  { apply delimited_done. exists 0x22%N, (s ++ 0x22%N :: r), (0x22%N :: r), 0x22%N. rewrite !char_done. auto using schar_run. }
  rewrite Q. unfold unescape_text. destruct (unescape X s); reflexivity.
Qed.
Lemma not_text q i : q <> 0x22%N -> exists e, mapp AText (p_text_literal X) (q :: i) = Soft e.
Proof.
  intros N. eexists. apply bind_soft, bind_soft, bind_soft. unfold charp, satisfy. destruct (N.eqb_spec 34 q); [congruence|reflexivity].
Qed.
Lemma bytes_run s r : content BCHAR s ->
  p_value X (txt "'" ++ s ++ txt "'" ++ r) =
  match unescape X s with Some t => Done (ABytes (utf8_encode t)) r | None => Hard (PErr MalformedText s) end.
Proof.
  intros C. unfold p_value, orp. change (txt "'" ++ s ++ txt "'" ++ r) with (0x27%N :: s ++ txt "'" ++ r).
  destruct (not_number 0x27 (s ++ txt "'" ++ r)) as [e E]; [unfold DIGIT, between; lia|discriminate|]. rewrite E.
  destruct (not_text 0x27 (s ++ txt "'" ++ r)) as [e' E']; [discriminate|]. rewrite E'.
  assert (Q : delimited (tag "'") p_bchar (tag "'") (39%N :: s ++ txt "'" ++ r) = Done s r).
  { apply delimited_done. exists (txt "'"), (s ++ 0x27%N :: r), (0x27%N :: r), (txt "'"). rewrite !tag_done. auto using bchar_run. }
  unfold p_bytestring, p_bytestring_utf8, orp, mapp, map_res_fail, bindp. rewrite Q.
  unfold unescape_text. destruct (unescape X s); reflexivity.
Qed.
Lemma hex_run s t r : content BCHAR s -> without_spaces s t ->
  p_value X (txt "h'" ++ s ++ txt "'" ++ r) = match hex_decode t with Some b => Done (ABytes b) r | None => Hard (PErr MalformedHex t) end.
Proof.
  intros C W. apply without_spaces_iff in W. unfold p_value, orp. set (i := txt "'" ++ s ++ txt "'" ++ r).
  change (txt "h'" ++ s ++ txt "'" ++ r) with (0x68%N :: i).
  destruct (not_number 0x68 i) as [e E]; [unfold DIGIT, between; lia|discriminate|]. rewrite E.
  destruct (not_text 0x68 i) as [e' E']; [discriminate|]. rewrite E'.
  assert (Q : p_bytestring_hex (0x68%N :: i) = Done s r).
  { apply delimited_done. exists (txt "h'"), (s ++ 0x27%N :: r), (0x27%N :: r), (txt "'"). rewrite !tag_done. auto using bchar_run. }
  unfold p_bytestring, p_bytestring_utf8, orp, mapp, map_res_fail, bindp. rewrite Q. cbn [delimited bindp tag strip txt N.eqb].
  change (delimited (tag "'") p_bchar (tag "'") (104%N :: i)) with (@Soft text (nom_err (104%N :: i))). cbv iota.
  unfold parse_hex. rewrite W. destruct (hex_decode t); reflexivity.
Qed.
Lemma base64_run s r : content BCHAR s ->
  p_value X (txt "b64'" ++ s ++ txt "'" ++ r) =
  match base64_decode X s with Some b => Done (ABytes b) r | None => Hard (PErr MalformedBase64 s) end.
Proof.
  intros C. unfold p_value, orp. set (i := txt "64'" ++ s ++ txt "'" ++ r).
  change (txt "b64'" ++ s ++ txt "'" ++ r) with (0x62%N :: i).
  destruct (not_number 0x62 i) as [e E]; [unfold DIGIT, between; lia|discriminate|]. rewrite E.
  destruct (not_text 0x62 i) as [e' E']; [discriminate|]. rewrite E'.
  assert (Q : p_bytestring_base64 (0x62%N :: i) = Done s r).
  { apply delimited_done. exists (txt "b64'"), (s ++ 0x27%N :: r), (0x27%N :: r), 0x27%N. rewrite !tag_done, !char_done. auto using bchar_run. }
  unfold p_bytestring, p_bytestring_utf8, orp, mapp, map_res_fail, bindp. rewrite Q.
  change (delimited (tag "'") p_bchar (tag "'") (98%N :: i)) with (@Soft text (nom_err (98%N :: i))).
  change (p_bytestring_hex (98%N :: i)) with (@Soft text (nom_err (98%N :: i))). cbv iota.
  destruct (base64_decode X s); reflexivity.
Qed.
End WithX.
