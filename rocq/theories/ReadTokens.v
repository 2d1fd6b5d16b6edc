(** The parsers of tokens read as SpecReading.v says, and only so. *)
From Coq Require Import List Bool Arith ZArith NArith String Lia.
From Verif Require Import Base Util Data Ivt Ast Nom NomProofs Parser ParserFuel NomDone SpecSyntax ValueOrder TokenProofs LiteralProofs
  ParserSound ParserApi ParserSoft SpecPrint FlattenProofs PrintProofs SpecReading.
Import ListNotations.
Open Scope list_scope.

Lemma same_prefix (a b x y : text) : List.length a = List.length b -> a ++ x = b ++ y -> a = b /\ x = y.
Proof.
  revert b. induction a as [|p a IH]; intros [|q b]; cbn; intros L E; try discriminate; auto. inversion E; subst. destruct (IH b) as [-> ->]; auto.
Qed.
Lemma longest_fun P i s r s' r' : longest P i s r -> longest P i s' r' -> s' = s /\ r' = r.
Proof.
  intros (H & E & M) (H' & E' & M'). apply same_prefix; [|congruence]. apply Nat.le_antisymm; [eapply M; eauto|eapply M'; eauto].
Qed.
Lemma skip_iff i r : skip i r <-> exists w, p_ws i = Done w r.
Proof.
  split; [|intros (w & H); apply ws_done in H; split; tauto]. intros [D E]. destruct (ws_cuts _ _ D) as [w ->]. exists w. apply ws_run; auto.
Qed.
Lemma skip_total i : exists r, skip i r.
Proof. destruct (ws_total i) as (w & r & E). exists r. apply skip_iff. eauto. Qed.
Lemma skip_fun i r r' : skip i r -> skip i r' -> r' = r.
Proof. rewrite !skip_iff. intros (w & E) (w' & E'). congruence. Qed.
Lemma skip_idem i r : skip i r -> skip r r.
Proof. intros [_ E]. split; auto. constructor. Qed.
Lemma skip_solid i : is_head solidc i -> skip i i.
Proof. intros H. apply skip_iff. exists []. apply ws_solid; auto. Qed.
Lemma skip_back i j r : skip i j -> skip j r -> j = r.
Proof. intros H H'. eapply skip_fun; [exact H'|eapply skip_idem; eauto]. Qed.

(** * Parsers without unrecoverable errors *)
Definition mild {A} (p : parser A) : Prop := forall i, match p i with Done _ _ | Soft _ => True | _ => False end.
Lemma mild_bind {A B} (p : parser A) (f : A -> parser B) : mild p -> (forall a, mild (f a)) -> mild (bindp p f).
Proof. intros M F i. unfold bindp. specialize (M i). destruct (p i); auto. apply F. Qed.
Lemma mild_ret {A} (a : A) : mild (ret a). Proof. intros i. exact I. Qed.
Lemma mild_map {A B} (f : A -> B) p : mild p -> mild (mapp f p). Proof. intros M. apply mild_bind; auto. intros. apply mild_ret. Qed.
Lemma mild_pair {A B} (p : parser A) (q : parser B) : mild p -> mild q -> mild (pairp p q).
Proof. intros M M'. apply mild_bind; auto. intros. apply mild_bind; auto. intros. apply mild_ret. Qed.
Lemma mild_pre {A B} (p : parser A) (q : parser B) : mild p -> mild q -> mild (preceded p q).
Proof. intros M M'. apply mild_bind; auto. Qed.
Lemma mild_or {A} (p q : parser A) : mild p -> mild q -> mild (orp p q).
Proof. intros M M' i. unfold orp. specialize (M i). destruct (p i); auto. apply M'. Qed.
Lemma mild_opt {A} (p : parser A) : mild p -> mild (opt p).
Proof. intros M i. unfold opt. specialize (M i). destruct (p i); auto. Qed.
Lemma mild_recognize {A} (p : parser A) : mild p -> mild (recognize p).
Proof. intros M i. unfold recognize. specialize (M i). destruct (p i); auto. Qed.
Lemma mild_tag s : mild (tag s). Proof. intros i. unfold tag. destruct (strip _ _); exact I. Qed.
Lemma mild_satisfy f : mild (satisfy f). Proof. intros i. unfold satisfy. destruct i; auto. destruct (f n); exact I. Qed.
Lemma mild_take f : mild (take_while1 f). Proof. intros i. unfold take_while1. destruct (span f i) as [[|]]; exact I. Qed.
Lemma mild_take0 f : mild (take_while0 f). Proof. intros i. unfold take_while0. destruct (span f i); exact I. Qed.
Lemma mild_many0 {A} (p : parser A) : mild p -> shrinks p -> mild (many0 p).
Proof.
  intros M S i. unfold many0. assert (L : List.length i < Datatypes.S (List.length i)) by lia. revert L. generalize (Datatypes.S (List.length i)) as n. intros n. revert i.
  induction n as [|n IH]; intros i L; [lia|]. cbn [many0_f]. specialize (M i). destruct (p i) as [a m| | | |] eqn:E; auto.
  destruct (Nat.eqb_spec (List.length m) (List.length i)); auto. apply S in E. assert (L' : List.length m < n) by lia. specialize (IH m L').
  destruct (many0_f n p m); auto.
Qed.
Lemma mild_many1 {A} (p : parser A) : mild p -> shrinks p -> mild (many1 p).
Proof. intros M S. apply mild_bind; auto. intros. apply mild_bind; [apply mild_many0; auto|intros; apply mild_ret]. Qed.
#[local] Hint Resolve mild_bind mild_ret mild_map mild_pair mild_pre mild_or mild_opt mild_recognize mild_tag mild_satisfy mild_take mild_take0 mild_many0 mild_many1 : mild.
Lemma mild_uint : mild p_uint.
Proof.
  unfold p_uint, p_uint_hex, p_uint_binary, p_uint_decimal, hex_digit1, one_of_chars, digit0.
  repeat first [apply mild_or|apply mild_map|apply mild_pre|apply mild_recognize|apply mild_pair|apply mild_tag|apply mild_take|apply mild_take0|apply mild_satisfy].
  apply mild_many1; [apply mild_satisfy|auto with nom].
Qed.
Lemma mild_frac : mild p_dot_fraction.
Proof. unfold p_dot_fraction. apply mild_recognize, mild_pair; [apply mild_satisfy|apply mild_take]. Qed.
Lemma mild_expo : mild p_e_exponent.
Proof. unfold p_e_exponent. apply mild_recognize, mild_pair; [apply mild_satisfy|]. apply mild_pair; [apply mild_opt, mild_satisfy|apply mild_take]. Qed.
Lemma mild_total {A} (p : parser A) i : mild p -> exists o r, opt p i = Done o r.
Proof. intros M. specialize (M i). unfold opt. destruct (p i); try destruct M; eauto. Qed.

(** * Unsigned integers *)
Lemma soft_uint0 i : ~ is_head DIGIT i -> soft (p_uint i).
Proof.
  intros H. unfold p_uint.
  assert (Z0 : ~ is_head (eq 0x30%N) i) by (destruct i; cbn in *; auto; unfold DIGIT, between in *; lia).
  repeat apply soft_or; apply soft_map.
  - apply soft_bind. eapply soft_tag_head; [reflexivity|auto].
  - apply soft_bind. eapply soft_tag_head; [reflexivity|auto].
  - apply soft_or; [eapply soft_tag_head; [reflexivity|auto]|]. apply soft_recognize, soft_bind.
    unfold one_of_chars, satisfy. destruct i as [|c i]; [eexists; reflexivity|].
    destruct (existsb (N.eqb c) (txt "123456789")) eqn:E; [|eexists; reflexivity]. exfalso. apply H. cbn in *.
    rewrite !orb_true_iff, !N.eqb_eq in E. unfold DIGIT, between. lia.
Qed.
Lemma span_longest (f : N -> bool) a r s r' : (match r with [] => True | c :: _ => f c = false end) ->
  Forall (fun c => f c = true) s -> a ++ r = s ++ r' -> List.length s <= List.length a.
Proof.
  intros H F E. destruct (le_lt_dec (List.length s) (List.length a)) as [|L]; auto. exfalso.
  destruct (prefix_longer _ _ _ _ E L) as (x & -> & -> & N). destruct x as [|c x]; [congruence|]. apply Forall_app in F. destruct F as [_ F].
  inversion F; subst. cbn in H. congruence.
Qed.
Lemma hex_all s n : spells 16 s n -> Forall (fun c => is_hex_digit c = true) s.
Proof. intros S. apply spells_digits in S. eapply Forall_impl; [|exact S]. intros x (d & D & _). apply hex_digit_iff. eauto. Qed.
Lemma bin_all s n : spells 2 s n -> Forall (fun c => existsb (N.eqb c) (txt "01") = true) s.
Proof. intros S. apply spells_digits in S. eapply Forall_impl; [|exact S]. intros x (d & D & L). eapply bin_digit_char; eauto. Qed.
Lemma dec_all s n : spells 10 s n -> Forall (fun c => is_digit c = true) s.
Proof. intros S. apply spells_digits in S. eapply Forall_impl; [|exact S]. intros x (d & D & L). eapply dec_digit_char; eauto. Qed.
Lemma reps_satisfy f i l r : reps (satisfy f) i l r -> i = l ++ r /\ Forall (fun c => f c = true) l /\ match r with [] => True | c :: _ => f c = false end.
Proof.
  induction 1 as [i e E|i a m l r E L R IH].
  - split; auto. split; auto. destruct i as [|c i]; auto. cbn in E. destruct (f c); [discriminate|auto].
  - destruct IH as (-> & F & H). apply satisfy_done in E. destruct E as [-> E]. cbn. auto.
Qed.
Lemma hex_soft i : (exists e, mapp (fun s => (s, 16%N)) p_uint_hex i = Soft e) -> forall s r n, i = (txt "0x" ++ s) ++ r -> ~ spells 16 s n.
Proof.
  intros [e E] s r n -> S. unfold p_uint_hex, mapp, preceded, bindp in E. rewrite <- app_assoc, (tag_run "0x") in E.
  unfold hex_digit1, take_while1 in E. pose proof (spells_nonempty _ _ _ S) as N. apply hex_all in S.
  rewrite (span_all _ s r S) in E. destruct s; [congruence|]. cbn in E. discriminate.
Qed.
Lemma bin_soft i : (exists e, mapp (fun s => (s, 2%N)) p_uint_binary i = Soft e) -> forall s r n, i = (txt "0b" ++ s) ++ r -> ~ spells 2 s n.
Proof.
  intros [e E] s r n -> S. unfold p_uint_binary, mapp, preceded, bindp in E. rewrite <- app_assoc, (tag_run "0b") in E.
  pose proof (spells_nonempty _ _ _ S) as N. apply bin_all in S. unfold recognize, many1, bindp in E.
  destruct s as [|c s]; [congruence|]. inversion S as [|? ? Sc Ss]; subst. unfold one_of_chars at 1, satisfy in E. cbn [app] in E. rewrite Sc in E.
  assert (Q : exists l r', many0 (one_of_chars "01") (s ++ r) = Done l r').
  { clear - Ss. exists (fst (span (fun c => existsb (N.eqb c) (txt "01")) (s ++ r))), (snd (span (fun c => existsb (N.eqb c) (txt "01")) (s ++ r))).
    apply many0_done; [auto with nom|]. generalize (s ++ r). intros i. induction i as [|c i IH]; cbn [span].
    - cbn. eapply reps_nil. reflexivity.
    - destruct (existsb (N.eqb c) (txt "01")) eqn:Ec.
      + destruct (span _ i) as [a b] eqn:Es. cbn [fst snd] in *. eapply reps_cons; [apply satisfy_done; eauto|cbn; lia|auto].
      + cbn [fst snd]. eapply reps_nil. unfold one_of_chars, satisfy. rewrite Ec. reflexivity. }
  destruct Q as (l & r' & Q). rewrite Q in E. discriminate.
Qed.
Lemma uint_longest i d b r : p_uint i = Done (d, b) r -> exists c, longest uint_text i c r /\ raw_uint c d b.
Proof.
  intros H. pose proof (uint_sound _ _ _ _ H) as (c & -> & R). exists c. split; auto.
  split; [|split; [auto|]].
  { pose proof (raw_uint_total _ _ _ R) as (n & U & _). exists n; auto. }
  unfold p_uint in H. apply or_done in H. destruct H as [H|[SH H]].
  { apply map_done in H. destruct H as (s & H & [= -> ->]). apply preceded_done in H. destruct H as (a & m & H & E).
    apply tag_done in H. destruct H as [-> Ec]. apply take_while1_done in E. destruct E as (N & -> & F & St).
    rewrite app_assoc in Ec. apply app_inv_tail in Ec. subst c. intros s' r' E [n U]. destruct U as [|c0 s0 n N0 S|s0 n S|s0 n S]; cbn in *.
    - lia.
    - inversion E; subst. congruence.
    - inversion E as [Q]. pose proof (span_longest is_hex_digit s r s0 r' St (hex_all _ _ S) Q). lia.
    - inversion E. }
  apply or_done in H. destruct H as [H|[SB H]].
  { apply map_done in H. destruct H as (s & H & [= -> ->]). apply preceded_done in H. destruct H as (a & m & H & E).
    apply tag_done in H. destruct H as [-> Ec]. apply recognize_done in E. destruct E as (l & E & ->).
    apply many1_done in E; [|auto with nom]. destruct E as (x & l' & m' & -> & E & F). apply satisfy_done in E. destruct E as [-> Ex].
    apply reps_satisfy in F. destruct F as (-> & F & St). 
    replace (txt "0b" ++ x :: l' ++ r) with ((txt "0b" ++ x :: l') ++ r) in Ec by (now rewrite <- app_assoc).
    apply app_inv_tail in Ec. subst c. intros s' r' E [n U]. destruct U as [|c0 s0 n N0 S|s0 n S|s0 n S]; cbn in *.
    - lia.
    - inversion E; subst. congruence.
    - inversion E.
    - inversion E as [Q]. pose proof (span_longest (fun c => existsb (N.eqb c) (txt "01")) (x :: l') r s0 r' St (bin_all _ _ S) Q). cbn in *. lia. }
  apply map_done in H. destruct H as (s & H & [= -> ->]). apply or_done in H. destruct H as [H|[SZ H]].
  - apply tag_done in H. destruct H as [-> Ec]. apply app_inv_tail in Ec. subst c. intros s' r' E [n U]. destruct U as [|c0 s0 n N0 S|s0 n S|s0 n S].
    + cbn; lia.
    + inversion E; subst. congruence.
    + exfalso. eapply hex_soft; [exact SH|exact E|exact S].
    + exfalso. eapply bin_soft; [exact SB|exact E|exact S].
  - apply recognize_done in H. destruct H as ([x l] & H & ->). apply pair_done in H. destruct H as (m & H & E). cbn [fst snd] in *.
    apply satisfy_done in H. destruct H as [Ec Ex]. unfold digit0, take_while0 in E. destruct (span is_digit m) as [a q] eqn:Es. inversion E; subst a q.
    apply span_spec in Es. destruct Es as (-> & F & St). replace (x :: l ++ r) with ((x :: l) ++ r) in Ec by reflexivity. apply app_inv_tail in Ec. subst c.
    assert (Nx : x <> 0x30%N) by (intros ->; discriminate).
    intros s' r' E' [n U]. destruct U as [|c0 s0 n N0 S|s0 n S|s0 n S]; try (inversion E'; subst; congruence).
    pose proof (span_longest is_digit (x :: l) r (c0 :: s0) r' St (dec_all _ _ S) E'). auto.
Qed.
Lemma uint_digit i : is_head DIGIT i -> exists d b r, p_uint i = Done (d, b) r.
Proof.
  destruct i as [|c i]; [intros []|]. cbn. intros D.
  assert (K : exists s r, p_uint_decimal (c :: i) = Done s r).
  { destruct (N.eq_dec c 0x30) as [->|N]; [exists [0x30%N], i; reflexivity|].
    unfold p_uint_decimal. rewrite or_soft by (eapply soft_tag_head; [reflexivity|cbn; congruence]). unfold recognize, pairp, bindp, one_of_chars, satisfy.
    assert (Ex : existsb (N.eqb c) (txt "123456789") = true) by (cbn; rewrite !orb_true_iff, !N.eqb_eq; unfold DIGIT, between in D; lia).
    rewrite Ex. unfold digit0, take_while0. destruct (span is_digit i). cbn [ret]. eauto. }
  destruct K as (s & r & K). pose proof (mild_uint (c :: i)) as M. destruct (p_uint (c :: i)) as [[d b] q|e|e| |] eqn:E; eauto; try destruct M.
  exfalso. unfold p_uint, orp in E. destruct (mapp (fun s => (s, 16%N)) p_uint_hex (c :: i)); try discriminate.
  destruct (mapp (fun s => (s, 2%N)) p_uint_binary (c :: i)); try discriminate. unfold mapp, bindp in E. rewrite K in E. discriminate.
Qed.
Lemma uint_text_head s : uint_text s -> is_head DIGIT s.
Proof. intros [n U]. eapply uint_head; eauto. Qed.
Lemma uint_iff i c r : longest uint_text i c r <-> exists d b, p_uint i = Done (d, b) r /\ raw_uint c d b.
Proof.
  split.
  - intros L. pose proof L as (U & -> & _). apply uint_text_head in U. destruct (uint_digit (c ++ r)) as (d & b & r' & E); [apply head_app; auto|].
    destruct (uint_longest _ _ _ _ E) as (c' & L' & R). destruct (longest_fun _ _ _ _ _ _ L L') as [-> ->]. eauto.
  - intros (d & b & E & R). destruct (uint_longest _ _ _ _ E) as (c' & L' & R').
    assert (c' = c) as <-; auto. pose proof L' as (_ & -> & _). clear - R R'. 
    destruct R as [s n U S|s n S|s n S]; inversion R'; subst; auto.
Qed.

(** * Fractions and exponents *)
Definition text_of_opt (o : option text) : text := match o with Some s => s | None => [] end.
Lemma digit1_longest i a r : digit1 i = Done a r -> i = a ++ r /\ digits a /\ match r with [] => True | c :: _ => is_digit c = false end.
Proof.
  intros H. pose proof (digit1_done _ _ _ H) as [E D]. unfold digit1 in H. apply take_while1_done in H. tauto.
Qed.
Lemma digits_all d : digits d -> Forall (fun c => is_digit c = true) d.
Proof. intros [_ F]. eapply Forall_impl; [|exact F]. intros; now apply is_digit_iff. Qed.
Lemma digits_soft i d r : soft (digit1 i) -> digits d -> i <> d ++ r.
Proof.
  intros [e E] D ->. pose proof (digits_all _ D) as F. destruct D as [N _]. unfold digit1, take_while1 in E. rewrite (span_all _ d r F) in E. destruct d; [congruence|]. discriminate.
Qed.
Lemma frac_run i o r : opt p_dot_fraction i = Done o r -> longest (optional fraction) i (text_of_opt o) r /\ (o = None <-> text_of_opt o = []).
Proof.
  intros H. apply opt_done in H. destruct o as [f|]; cbn [text_of_opt].
  - pose proof (dot_sound _ _ _ H) as [-> F]. split; [|destruct F as (d & -> & _); split; discriminate]. split; [right; auto|]. split; auto.
    apply recognize_done in H. destruct H as ([x d] & H & Ef). apply pair_done in H. destruct H as (m & H & D). cbn [fst snd] in *.
    apply char_done in H. destruct H as [-> Em]. apply digit1_longest in D. destruct D as (-> & D & St).
    assert (f = 0x2e%N :: d) as ->. { apply (app_inv_tail r). exact Em. }
    intros s' r' E [->|(d' & -> & D')]; [cbn; lia|]. inversion E as [Q]. pose proof (span_longest is_digit d r d' r' St (digits_all _ D') Q). cbn. lia.
  - destruct H as [-> [e H]]. split; [|tauto]. split; [left; auto|]. split; auto. intros s' r' E [->|(d & -> & D)]; [auto|]. exfalso.
    subst i. unfold p_dot_fraction, recognize, pairp, bindp in H. change ((txt "." ++ d) ++ r') with (0x2e%N :: d ++ r') in H. rewrite charp_run in H.
    destruct (digit1 (d ++ r')) as [a q| | | |] eqn:Q; try discriminate. eapply digits_soft; [eexists; exact Q|exact D|reflexivity].
Qed.
Lemma frac_iff i f r : longest (optional fraction) i f r <-> exists o, opt p_dot_fraction i = Done o r /\ f = text_of_opt o /\ (o = None <-> f = []).
Proof.
  split.
  - intros L. destruct (mild_total p_dot_fraction i mild_frac) as (o & r' & E). destruct (frac_run _ _ _ E) as [L' I].
    destruct (longest_fun _ _ _ _ _ _ L L') as [<- <-]. eauto.
  - intros (o & E & -> & _). apply frac_run; auto.
Qed.
Lemma sign_run (sg : text) i c l : In sg [[]; txt "+"; txt "-"] -> DIGIT c -> i = c :: l ->
  opt (one_of_chars "+-") (sg ++ i) = Done (match sg with [] => None | x :: _ => Some x end) i.
Proof.
  intros [<-|[<-|[<-|[]]]] D ->; try reflexivity. cbn [app]. apply opt_soft. unfold one_of_chars, satisfy.
  destruct (existsb (N.eqb c) (txt "+-")) eqn:E; [|eexists; reflexivity]. exfalso. cbn in E. rewrite !orb_true_iff, !N.eqb_eq in E.
  unfold DIGIT, between in D. destruct E as [->|[->|E]]; try discriminate; lia.
Qed.
Lemma expo_run i o r : opt p_e_exponent i = Done o r -> longest (optional exponent) i (text_of_opt o) r /\ (o = None <-> text_of_opt o = []).
Proof.
  intros H. apply opt_done in H. destruct o as [f|]; cbn [text_of_opt].
  - pose proof (exp_sound _ _ _ H) as [-> F]. split; [|destruct F as (sg & d & -> & _); split; discriminate]. split; [right; auto|]. split; auto.
    apply recognize_done in H. destruct H as ([x [so d]] & H & Ef). apply pair_done in H. destruct H as (m & H & D). cbn [fst snd] in *.
    apply char_done in H. destruct H as [-> Em]. apply pair_done in D. destruct D as (m' & S & D). cbn [fst snd] in *.
    apply digit1_longest in D. destruct D as (-> & D & St).
    intros s' r' E [->|(sg' & d' & -> & Hs & D')]; [cbn; lia|]. rewrite Em in E. cbn [app txt] in E. inversion E as [Q]. clear E.
    assert (C : exists c l, d' = c :: l /\ DIGIT c).
    { destruct D' as [N F']. destruct d' as [|c l]; [congruence|]. inversion F'; subst. eauto. }
    destruct C as (c & l & Ed & Hc). rewrite <- app_assoc in Q. subst m.
    rewrite (sign_run sg' (d' ++ r') c (l ++ r')) in S; auto; [|subst d'; reflexivity]. inversion S as [[S1 S2]].
    pose proof (span_longest is_digit d r d' r' St (digits_all _ D') (eq_sym S2)) as L.
    assert (Lf : List.length f + List.length r = 1 + List.length sg' + List.length d + List.length r).
    { apply (f_equal (@List.length _)) in Em, S2. rewrite !app_length in *. cbn in Em. rewrite !app_length in Em. lia. }
    cbn. rewrite app_length. lia.
  - destruct H as [-> [e H]]. split; [|tauto]. split; [left; auto|]. split; auto. intros s' r' E [->|(sg & d & -> & Hs & D)]; [auto|]. exfalso.
    subst i. unfold p_e_exponent, recognize, pairp at 1, bindp in H. change ((txt "e" ++ sg ++ d) ++ r') with (0x65%N :: (sg ++ d) ++ r') in H. rewrite charp_run in H.
    assert (C : exists c l, d = c :: l /\ DIGIT c).
    { destruct D as [N F']. destruct d as [|c l]; [congruence|]. inversion F'; subst. eauto. }
    destruct C as (c & l & Ed & Hc). rewrite <- app_assoc in H. unfold pairp, bindp in H.
    rewrite (sign_run sg (d ++ r') c (l ++ r')) in H; auto; [|subst d; reflexivity].
    destruct (digit1 (d ++ r')) as [a q| | | |] eqn:Q; try discriminate. eapply digits_soft; [eexists; exact Q|exact D|reflexivity].
Qed.
Lemma expo_iff i f r : longest (optional exponent) i f r <-> exists o, opt p_e_exponent i = Done o r /\ f = text_of_opt o /\ (o = None <-> f = []).
Proof.
  split.
  - intros L. destruct (mild_total p_e_exponent i mild_expo) as (o & r' & E). destruct (expo_run _ _ _ E) as [L' I].
    destruct (longest_fun _ _ _ _ _ _ L L') as [<- <-]. eauto.
  - intros (o & E & -> & _). apply expo_run; auto.
Qed.

(** * Numbers *)
Lemma numeral_run i sg s f e r : numeral i sg s f e r ->
  exists d b o o', raw_uint s d b /\ (o = None <-> f = []) /\ (o' = None <-> e = []) /\
    recognizer (pairp p_int (pairp (opt p_dot_fraction) (opt p_e_exponent))) i =
      Done (sg ++ s ++ f ++ e, (d, b, match sg with [] => false | _ => true end, (o, o'))) r.
Proof.
  intros (Sg & j & k & m & -> & U & F & E). pose proof U as (_ & -> & _). pose proof F as (_ & -> & _). pose proof E as (_ & -> & _).
  apply uint_iff in U. destruct U as (d & b & U & R). apply frac_iff in F. destruct F as (o & F & _ & If). apply expo_iff in E. destruct E as (o' & E & _ & Ie).
  exists d, b, o, o'. split; auto. split; auto. split; auto. apply recognizer_done. cbn [fst snd]. split.
  - apply pair_done. exists (f ++ e ++ r). cbn [fst snd]. split.
    + destruct Sg as [-> | ->]; [apply (int_run' false); auto|apply (int_run' true); auto].
    + apply pair_done. exists (e ++ r). auto.
  - replace (sg ++ s ++ f ++ e ++ r) with ((sg ++ s ++ f ++ e) ++ r) by now rewrite <- !app_assoc. now rewrite consumed_app.
Qed.
Lemma numeral_done i x r : recognizer (pairp p_int (pairp (opt p_dot_fraction) (opt p_e_exponent))) i = Done x r ->
  exists sg s f e d b o o', numeral i sg s f e r /\ raw_uint s d b /\ (o = None <-> f = []) /\ (o' = None <-> e = []) /\
    x = (sg ++ s ++ f ++ e, (d, b, match sg with [] => false | _ => true end, (o, o'))).
Proof.
  intros H. destruct x as [w [[[d b] neg] [o o']]]. pose proof H as H0. apply recognizer_done in H. cbn [fst snd] in H. destruct H as [H _].
  apply pair_done in H. destruct H as (m & H & F). cbn [fst snd] in *.
  apply pair_done in F. destruct F as (m' & F & G). cbn [fst snd] in *.
  apply map_done in H. destruct H as ([so [d' b']] & H & [= -> -> ->]). apply pair_done in H. destruct H as (q & S & U). cbn [fst snd] in *.
  destruct (uint_longest _ _ _ _ U) as (s & L & R). destruct (frac_run _ _ _ F) as [Lf If]. destruct (expo_run _ _ _ G) as [Le Ie].
  assert (Q : exists sg, sign sg /\ i = sg ++ q /\ match so with Some _ => true | None => false end = match sg with [] => false | _ => true end).
  { apply opt_done in S. destruct so as [c|].
    - apply char_done in S. destruct S as [-> ->]. exists (txt "-"). split; [right; auto|]. auto.
    - destruct S as [-> _]. exists []. split; [left; auto|]. auto. }
  destruct Q as (sg & Sg & Ei & ->). exists sg, s, (text_of_opt o), (text_of_opt o'), d', b', o, o'.
  assert (Nm : numeral i sg s (text_of_opt o) (text_of_opt o') r) by (split; auto; exists q, m, m'; auto).
  split; auto. split; auto. split; auto. split; auto.
  destruct (numeral_run _ _ _ _ _ _ Nm) as (d2 & b2 & o2 & o2' & _ & _ & _ & E2). rewrite H0 in E2. inversion E2; subst. reflexivity.
Qed.
Section WithX.
Variable X : ext.
Definition number_at (i : text) (v : ast_value) (r : text) : Prop :=
  exists sg s f e, numeral i sg s f e r /\
  match v with
  | AUint n => sg = [] /\ f ++ e = [] /\ uint_lit s n /\ (n < 2 ^ 64)%N
  | ANint z => sg <> [] /\ f ++ e = [] /\ exists n, uint_lit s n /\ (n < 2 ^ 63)%N /\ z = (- Z.of_N n)%Z
  | AFloat bits => f ++ e <> [] /\ f64_parse X (sg ++ s ++ f ++ e) = Some bits
  | _ => False
  end.
Lemma lit_value s d b n n' : raw_uint s d b -> spells b d n -> uint_lit s n' -> n' = n.
Proof.
  intros R S U. apply uint_lit_iff in U. destruct U as (d' & b' & R' & S').
  assert (d' = d /\ b' = b) as [-> ->].
  { destruct R as [s m U M|s m M|s m M]; inversion R' as [s' m' U' M' E|s' m' M' E|s' m' M' E]; subst; auto; exfalso.
    - apply dec_all in M. inversion M as [|? ? _ M2]; subst. inversion M2; subst. discriminate.
    - apply dec_all in M. inversion M as [|? ? _ M2]; subst. inversion M2; subst. discriminate.
    - apply dec_all in M'. inversion M' as [|? ? _ M2]; subst. inversion M2; subst. discriminate.
    - apply dec_all in M'. inversion M' as [|? ? _ M2]; subst. inversion M2; subst. discriminate. }
  pose proof (raw_uint_total _ _ _ R) as (m & _ & _ & B & _). eapply spells_fun; eauto.
Qed.
Lemma number_iff i v r : p_float_or_int X i = Done v r <-> number_at i v r.
Proof.
  unfold p_float_or_int. rewrite map_res_fail_done. split.
  - intros (x & H & E). destruct (numeral_done _ _ _ H) as (sg & s & f & e & d & b & o & o' & N & R & If & Ie & ->).
    exists sg, s, f, e. split; auto. pose proof (raw_uint_total _ _ _ R) as (n & U & S & B & _). cbn [fst snd] in E.
    assert (Fl : parse_float X (sg ++ s ++ f ++ e) = inl v -> f ++ e <> [] -> 
      match v with AUint n => sg = [] /\ f ++ e = [] /\ uint_lit s n /\ (n < 2 ^ 64)%N
      | ANint z => sg <> [] /\ f ++ e = [] /\ exists n, uint_lit s n /\ (n < 2 ^ 63)%N /\ z = (- Z.of_N n)%Z
      | AFloat bits => f ++ e <> [] /\ f64_parse X (sg ++ s ++ f ++ e) = Some bits | _ => False end).
    { unfold parse_float. intros Q Ne. destruct (f64_parse X _) as [bits|] eqn:P; inversion Q; subst. auto. }
    destruct o as [o|]; [apply Fl; auto; intros Q; apply app_eq_nil in Q; destruct Q as [Q _]; apply If in Q; discriminate|].
    destruct o' as [o'|]; [apply Fl; auto; intros Q; apply app_eq_nil in Q; destruct Q as [_ Q]; apply Ie in Q; discriminate|].
    rewrite (proj1 If eq_refl), (proj1 Ie eq_refl). unfold parse_int in E. rewrite (from_str_radix_iff _ _ _ B S) in E.
    destruct (N.ltb_spec n (2 ^ 64)); [|discriminate]. destruct sg as [|c sg].
    + inversion E; subst. auto.
    + destruct (N.ltb_spec n (2 ^ 63)); [|discriminate]. inversion E; subst. split; [discriminate|]. split; auto. exists n; auto.
  - intros (sg & s & f & e & N & V). destruct (numeral_run _ _ _ _ _ _ N) as (d & b & o & o' & R & If & Ie & E). eexists. split; [exact E|]. cbn [fst snd].
    pose proof (raw_uint_total _ _ _ R) as (n & U & S & B & _).
    destruct v as [n'|z|bits| |]; try contradiction.
    + destruct V as (-> & Fe & U' & L). pose proof (lit_value _ _ _ _ _ R S U') as ->. apply app_eq_nil in Fe. destruct Fe as [-> ->].
      rewrite (proj2 If eq_refl), (proj2 Ie eq_refl). unfold parse_int. rewrite (from_str_radix_iff _ _ _ B S). apply N.ltb_lt in L. rewrite L. reflexivity.
    + destruct V as (Sn & Fe & n' & U' & L & ->). pose proof (lit_value _ _ _ _ _ R S U') as ->. apply app_eq_nil in Fe. destruct Fe as [-> ->].
      rewrite (proj2 If eq_refl), (proj2 Ie eq_refl). unfold parse_int. rewrite (from_str_radix_iff _ _ _ B S).
      assert (L' : (n <? 2 ^ 64)%N = true) by (apply N.ltb_lt; lia). apply N.ltb_lt in L. rewrite L'. destruct sg; [congruence|]. cbn match. rewrite L. reflexivity.
    + destruct V as [Ne P]. unfold parse_float. rewrite P. destruct o, o'; auto. exfalso. rewrite (proj1 If), (proj1 Ie) in Ne by auto. auto.
Qed.
Lemma number_value i v r : number_at i v r <-> p_float_or_int X i = Done v r.
Proof. symmetry. apply number_iff. Qed.

(** * Values *)
Lemma value_run i v r : u_value X i v r -> p_value X i = Done v r.
Proof.
  assert (Nm : number_at i v r -> p_value X i = Done v r) by (intros H; apply or_run, number_iff; auto).
  intros H. destruct H as [i s n r N U L|i s n r N U L|i sg s f e bits r N Ne P|s t r C U|s t r C U|s t b r C W H|s b r C H].
  - apply Nm. exists [], s, [], []. auto.
  - apply Nm. exists (txt "-"), s, [], []. split; auto. split; [discriminate|]. eauto.
  - apply Nm. exists sg, s, f, e. auto.
  - rewrite text_run, U; auto.
  - rewrite bytes_run, U; auto.
  - rewrite (hex_run X s t) by auto. apply hex_decode_iff in H. rewrite H. reflexivity.
  - rewrite base64_run, H; auto.
Qed.
Lemma value_reads i v r : p_value X i = Done v r -> u_value X i v r.
Proof.
  intros H. apply or_done in H. destruct H as [H|[_ H]].
  { apply number_iff in H. destruct H as (sg & s & f & e & N & V). destruct v as [n|z|bits| |]; try contradiction.
    - destruct V as (-> & Fe & U & L). apply app_eq_nil in Fe. destruct Fe as [-> ->]. eapply ux_uint; eauto.
    - destruct V as (Sn & Fe & n & U & L & ->). apply app_eq_nil in Fe. destruct Fe as [-> ->]. pose proof N as ([-> | ->] & _); [congruence|]. eapply ux_nint; eauto.
    - destruct V. eapply ux_float; eauto. }
  apply or_done in H. destruct H as [H|[_ H]].
  - apply map_done in H. destruct H as (t & H & ->). apply map_res_fail_done in H. destruct H as (s & H & E). apply unescape_ok in E.
    apply delimited_done in H. destruct H as (a & m & m' & c & H & F & G). apply char_done in H. apply char_done in G.
    destruct H as [-> ->]. destruct G as [-> ->]. apply schar_sound in F. destruct F as [-> C]. apply (ux_text X s t r); auto.
  - apply map_done in H. destruct H as (b & H & ->). apply or_done in H. destruct H as [H|[_ H]].
    + apply map_done in H. destruct H as (t & H & ->). apply map_res_fail_done in H. destruct H as (s & H & E). apply unescape_ok in E.
      apply delimited_done in H. destruct H as (a & m & m' & c & H & F & G). apply tag_done in H. apply tag_done in G.
      destruct H as [-> ->]. destruct G as [-> ->]. apply bchar_sound in F. destruct F as [-> C]. apply ux_bytes; auto.
    + apply or_done in H. destruct H as [H|[_ H]].
      * apply map_res_fail_done in H. destruct H as (s & H & E). unfold parse_hex in E.
        destruct (hex_decode _) as [b'|] eqn:D; [|discriminate]. inversion E; subst.
        apply delimited_done in H. destruct H as (a & m & m' & c & H & F & G). apply tag_done in H. apply tag_done in G.
        destruct H as [-> ->]. destruct G as [-> ->]. apply bchar_sound in F. destruct F as [-> C].
        eapply ux_hex; [auto| |apply hex_decode_iff; eauto]. apply without_spaces_iff. reflexivity.
      * apply map_res_fail_done in H. destruct H as (s & H & E). destruct (base64_decode X s) as [b'|] eqn:D; [|discriminate]. inversion E; subst.
        apply delimited_done in H. destruct H as (a & m & m' & c & H & F & G). apply tag_done in H. apply char_done in G.
        destruct H as [-> ->]. destruct G as [-> ->]. apply bchar_sound in F. destruct F as [-> C]. apply (ux_base64 X s b r); auto.
Qed.
Lemma value_iff i v r : p_value X i = Done v r <-> u_value X i v r.
Proof. split; [apply value_reads|apply value_run]. Qed.
End WithX.

(** * Names *)
Lemma name_iff i n r : p_ident i = Done n r <-> longest is_ident i n r.
Proof. apply ident_done. Qed.

(** * Occurrence indicators *)
Lemma u64_iff i n r : p_uint_u64 i = Done n r <-> u_uint i n r /\ (n < 2 ^ 64)%N.
Proof.
  unfold p_uint_u64. rewrite map_res_fail_done. split.
  - intros ([d b] & H & E). destruct (uint_longest _ _ _ _ H) as (c & L & R). pose proof (raw_uint_total _ _ _ R) as (m & U & S & B & _).
    cbn [fst snd] in E. rewrite (from_str_radix_iff _ _ _ B S) in E. destruct (N.ltb_spec m (2 ^ 64)); [|discriminate]. inversion E; subst.
    split; auto. exists c; auto.
  - intros [(s & L & U) B]. apply uint_iff in L. destruct L as (d & b & H & R). exists (d, b). split; auto. cbn [fst snd].
    pose proof (raw_uint_total _ _ _ R) as (m & _ & S & B' & _). rewrite (from_str_radix_iff _ _ _ B' S). rewrite <- (lit_value _ _ _ _ _ R S U).
    apply N.ltb_lt in B. rewrite B. reflexivity.
Qed.
Lemma u64_soft i : soft (p_uint_u64 i) <-> ~ is_head DIGIT i.
Proof.
  split; [|apply soft_uint]. intros [e E] D. destruct (uint_digit i D) as (d & b & r & H). unfold p_uint_u64, map_res_fail, bindp in E. rewrite H in E.
  destruct (from_str_radix _ _); discriminate.
Qed.
Lemma bound_iff i o r : opt p_uint_u64 i = Done o r <-> u_bound i o r.
Proof.
  rewrite opt_done. split.
  - destruct o as [n|].
    + intros H. apply u64_iff in H. destruct H. constructor; auto.
    + intros [-> H]. constructor. apply u64_soft. auto.
  - intros H. destruct H as [i H|i n r H L]; [split; auto; apply u64_soft in H; auto|]. apply u64_iff; auto.
Qed.
Definition limits (lo hi : option N) : occur_limit :=
  match lo, hi with
  | None, None => OZeroOrMore
  | _, _ => ONumbered (match lo with Some n => n | None => 0%N end) (match hi with Some n => n | None => usize_max end)
  end.
Lemma star_iff i o r : p_occur_star i = Done o r <-> exists lo j hi, u_bound i lo (txt "*" ++ j) /\ u_bound j hi r /\ o = limits lo hi.
Proof.
  unfold p_occur_star. rewrite map_res_done. split.
  - intros ([lo [x hi]] & H & E). apply pair_done in H. destruct H as (m & H & F). apply pair_done in F. destruct F as (m' & F & K). cbn [fst snd] in *.
    apply tag_done in F. destruct F as [_ ->]. exists lo, m', hi. split; [apply bound_iff; auto|]. split; [apply bound_iff; auto|].
    destruct lo, hi; inversion E; reflexivity.
  - intros (lo & j & hi & A & B & ->). apply bound_iff in A, B. exists (lo, (txt "*", hi)). split; [|destruct lo, hi; reflexivity].
    eapply pair_run; [exact A|]. eapply pair_run; [apply tag_run|exact B].
Qed.
Lemma occur_done i o r : p_occur i = Done o r -> u_occur i o r.
Proof.
  intros H. apply or_done in H. destruct H as [H|[_ H]].
  - apply star_iff in H. destruct H as (lo & j & hi & A & B & ->).
    destruct lo as [lo|], hi as [hi|]; try (apply (uo_bounds i _ j _ r A B); discriminate).
    inversion B; subst. apply uo_star; auto.
  - apply or_done in H. destruct H as [H|[_ H]]; apply value_done in H; destruct H as (-> & a & H); apply tag_done in H; destruct H as [_ ->]; constructor.
Qed.
Lemma soft_head i c : is_head (eq c) i <-> starts [c] i.
Proof. unfold starts, first_is, is_head. destruct i as [|x i]; [tauto|]. cbn [In]. intuition congruence. Qed.
Lemma bind_soft {A B} (p : parser A) (f : A -> parser B) i : soft (bindp p f i) -> soft (p i) \/ exists a r, p i = Done a r /\ soft (f a r).
Proof. unfold bindp. intros [e E]. destruct (p i) as [a r| | | |]; try discriminate; [right; exists a, r; split; auto; exists e; auto|left; eexists; reflexivity]. Qed.
Lemma opt_never {A} (p : parser A) i : ~ soft (opt p i).
Proof. intros [e E]. unfold opt in E. destruct (p i); discriminate. Qed.
Lemma star_shape i : soft (p_occur_star i) -> exists o m, u_bound i o m /\ ~ is_head (eq 0x2a%N) m.
Proof.
  intros H. apply bind_soft in H. destruct H as [H|([lo [x hi]] & r & H & E)].
  - apply bind_soft in H. destruct H as [H|(o & m & H & E)]; [destruct (opt_never _ _ H)|]. exists o, m. split; [apply bound_iff; auto|].
    intros S. apply bind_soft in E. destruct E as [E|(b & r & _ & [e E])]; [|discriminate].
    apply bind_soft in E. destruct E as [[e E]|(b & r & F & E)].
    + destruct m as [|c m]; [destruct S|]. cbn in S. subst c. change (0x2a%N :: m) with (txt "*" ++ m) in E. rewrite tag_run in E. discriminate.
    + apply bind_soft in E. destruct E as [E|(b' & r' & _ & [e E])]; [destruct (opt_never _ _ E)|discriminate].
  - exfalso. destruct E as [e E]. cbn [fst snd] in E. destruct lo, hi; discriminate.
Qed.
Lemma star_soft' i o m : u_bound i o m -> ~ is_head (eq 0x2a%N) m -> soft (p_occur_star i).
Proof.
  intros B H. apply bound_iff in B. apply soft_bind. unfold pairp at 1, bindp at 1. rewrite B. apply soft_bind, soft_bind.
  eapply soft_tag_head; [reflexivity|auto].
Qed.
Lemma or_soft_inv {A} (p q : parser A) i : soft (orp p q i) -> soft (p i) /\ soft (q i).
Proof. unfold orp. intros [e E]. destruct (p i) eqn:P; try discriminate. split; eexists; eauto. Qed.
Lemma tag_soft_inv s c i : txt s = [c] -> soft (tag s i) -> ~ is_head (eq c) i.
Proof. intros T [e E] H. destruct i as [|d i]; [destruct H|]. cbn in H. subst d. change (c :: i) with ([c] ++ i) in E. rewrite <- T, tag_run in E. discriminate. Qed.
Lemma value_soft_inv {A B} (b : B) (p : parser A) i : soft (valuep b p i) -> soft (p i).
Proof. intros H. apply bind_soft in H. destruct H as [H|(a & r & _ & [e E])]; [auto|discriminate]. Qed.
Lemma lit_fun s n n' : uint_lit s n -> uint_lit s n' -> n' = n.
Proof. intros U U'. pose proof U as V. apply uint_lit_iff in V. destruct V as (d & b & R & S). eapply lit_value; eauto. Qed.
Lemma u_uint_digit i n r : u_uint i n r -> is_head DIGIT i.
Proof. intros (s & (U & -> & _) & _). apply head_app, uint_text_head. auto. Qed.
Lemma u_uint_fun i n r n' r' : u_uint i n r -> u_uint i n' r' -> n' = n /\ r' = r.
Proof.
  intros (s & L & U) (s' & L' & U'). destruct (longest_fun _ _ _ _ _ _ L L') as [-> ->]. split; auto. eapply lit_fun; eauto.
Qed.
Lemma u_uint_total i : is_head DIGIT i -> exists n r, u_uint i n r.
Proof.
  intros H. destruct (uint_digit i H) as (d & b & r & E). destruct (uint_longest _ _ _ _ E) as (c & L & R).
  pose proof (raw_uint_total _ _ _ R) as (n & U & _). exists n, r, c. auto.
Qed.
Lemma not_starts l i : ~ starts l i -> forall c, In c l -> ~ is_head (eq c) i.
Proof. intros H c C S. apply H. destruct i as [|d i]; [destruct S|]. cbn in *. subst. auto. Qed.
Lemma no_occur_iff i : soft (p_occur i) <-> no_occur i.
Proof.
  split.
  - intros H. apply or_soft_inv in H. destruct H as [S H]. apply or_soft_inv in H. destruct H as [P Q].
    apply value_soft_inv in P, Q. apply (tag_soft_inv "+" 0x2b%N) in P; auto. apply (tag_soft_inv "?" 0x3f%N) in Q; auto.
    apply star_shape in S. destruct S as (o & m & B & H).
    split.
    + intros Si. destruct i as [|c i]; [destruct Si|]. cbn in Si, P, Q. destruct Si as [<-|[<-|[<-|[]]]]; auto.
      inversion B; subst; [apply H; reflexivity|].
      match goal with U : u_uint _ _ _ |- _ => apply u_uint_digit in U; cbn in U; unfold DIGIT, between in U; lia end.
    + intros n r U. destruct B as [i B|i n' r' B L].
      * exfalso. apply B. eapply u_uint_digit in U. destruct i; exact U.
      * destruct (u_uint_fun _ _ _ _ _ U B) as [-> ->]. split; auto. rewrite <- soft_head. auto.
  - intros [S U]. pose proof (not_starts _ _ S) as S'. apply soft_or.
    + assert (D : is_head DIGIT i \/ ~ is_head DIGIT i).
      { destruct i as [|c i]; [right; intros []|]. cbn. unfold DIGIT, between. lia. }
      destruct D as [D|D].
      * destruct (u_uint_total _ D) as (n & r & E). destruct (U _ _ E) as [L T]. apply (star_soft' i (Some n) r); [constructor; auto|].
        rewrite soft_head. auto.
      * apply (star_soft' i None i); [constructor; auto|]. apply S'. cbn; auto.
    + apply soft_or; apply soft_map; eapply soft_tag_head; try reflexivity; apply S'; cbn; auto.
Qed.
Lemma occur_reads i o r : u_occur i o r -> p_occur i = Done o r.
Proof.
  intros H. destruct H as [r|r|i r A D|i lo j hi r A B N].
  - reflexivity.
  - reflexivity.
  - apply or_run, star_iff. exists None, r, None. split; auto. split; auto. constructor; auto.
  - apply or_run, star_iff. exists lo, j, hi. split; auto. split; auto. destruct lo, hi; auto. congruence.
Qed.
Lemma occur_iff i o r : p_occur i = Done o r <-> u_occur i o r.
Proof. split; [apply occur_done|apply occur_reads]. Qed.
(** A numeral where an occurrence indicator may stand can be outside the range. *)
Lemma occur_total i : (forall n r, u_uint i n r -> (n < 2 ^ 64)%N) -> no_occur i \/ is_head (fun c => DIGIT c \/ c = 0x2a \/ c = 0x2b \/ c = 0x3f)%N i.
Proof.
  intros U. destruct i as [|c i]; [left; split; [intros []|]|]. { intros n r H. apply u_uint_digit in H. destruct H. }
  assert (D : DIGIT c \/ c = 0x2a%N \/ c = 0x2b%N \/ c = 0x3f%N \/ ~ (DIGIT c \/ c = 0x2a \/ c = 0x2b \/ c = 0x3f)%N) by (unfold DIGIT, between; lia).
  destruct D as [D|[D|[D|[D|D]]]]; try (right; cbn; tauto). left. apply no_occur_iff, soft_occur. exact D.
Qed.
