(** What the errors of the parser say: every recoverable error is about a
    suffix of the input, every failure names a fault. *)
From Coq Require Import List Bool Arith ZArith NArith String Lia.
From Verif Require Import Base Util Data Ivt Ast Nom NomProofs Parser ParserFuel NomDone SpecSyntax ValueOrder TokenProofs LiteralProofs ParserSound ParserApi SpecReading ReadTokens ReadComplete ReadExact SpecErrors.
Import ListNotations.
Open Scope list_scope.

Definition about (i : text) (e : parse_error) : Prop := pe_kind e = Unparseable /\ exists q, i = q ++ pe_ctx e.

Section WithX.
Variable X : ext.

(** The clauses for a success and for a failure. *)
Definition half {A} (p : parser A) : Prop := forall i,
  match p i with
  | Done _ r => exists c, i = c ++ r
  | Hard e => fault X i e
  | _ => True
  end.
Definition fair {A} (p : parser A) : Prop := half p /\ forall i e, p i = Soft e -> about i e.

Lemma fault_app q i e : fault X i e -> fault X (q ++ i) e.
Proof. intros [q' s r e' M|q' j n a k m D N W]; rewrite app_assoc; econstructor; eauto. Qed.
Lemma about_app q i e : about i e -> about (q ++ i) e.
Proof. intros [K [q' E]]. split; auto. exists (q ++ q'). rewrite <- app_assoc. congruence. Qed.
Lemma about_nom i : about i (nom_err i). Proof. split; auto. exists []. reflexivity. Qed.

Lemma half_bind {A B} (p : parser A) (f : A -> parser B) : half p -> (forall a, half (f a)) -> half (bindp p f).
Proof.
  intros P F i. unfold bindp. specialize (P i). destruct (p i) as [a r|e|e| |] eqn:E; auto. destruct P as [c ->]. specialize (F a r).
  destruct (f a r) as [b r'|e|e| |]; auto; [destruct F as [c' ->]; exists (c ++ c'); now rewrite app_assoc|apply fault_app; auto].
Qed.
Lemma fair_bind {A B} (p : parser A) (f : A -> parser B) : fair p -> (forall a, fair (f a)) -> fair (bindp p f).
Proof.
  intros [P S] F. split; [apply half_bind; auto; intros a; apply F|]. intros i e H. unfold bindp in H. specialize (P i). specialize (S i).
  destruct (p i) as [a r|e'|e'| |] eqn:E; try discriminate; [|inversion H; subst; auto]. destruct P as [c ->]. apply about_app. apply (proj2 (F a)); auto.
Qed.
Lemma fair_ret {A} (a : A) : fair (ret a). Proof. split; [intros i; exists []; reflexivity|discriminate]. Qed.
Lemma fair_map {A B} (f : A -> B) p : fair p -> fair (mapp f p). Proof. intros. apply fair_bind; auto using @fair_ret. Qed.
Lemma fair_value {A B} (b : B) (p : parser A) : fair p -> fair (valuep b p). Proof. apply fair_map. Qed.
Lemma fair_pair {A B} (p : parser A) (q : parser B) : fair p -> fair q -> fair (pairp p q).
Proof. intros. repeat (apply fair_bind; intros; auto using @fair_ret). Qed.
Lemma fair_preceded {A B} (p : parser A) (q : parser B) : fair p -> fair q -> fair (preceded p q).
Proof. intros. repeat (apply fair_bind; intros; auto using @fair_ret). Qed.
Lemma fair_terminated {A B} (p : parser A) (q : parser B) : fair p -> fair q -> fair (terminated p q).
Proof. intros. repeat (apply fair_bind; intros; auto using @fair_ret). Qed.
Lemma fair_delimited {A B C} (p : parser A) (q : parser B) (s : parser C) : fair p -> fair q -> fair s -> fair (delimited p q s).
Proof. intros. repeat (apply fair_bind; intros; auto using @fair_ret). Qed.
Lemma fair_separated_pair {A B C} (p : parser A) (q : parser B) (s : parser C) : fair p -> fair q -> fair s -> fair (separated_pair p q s).
Proof. intros. repeat (apply fair_bind; intros; auto using @fair_ret). Qed.
Lemma fair_opt {A} (p : parser A) : fair p -> fair (opt p).
Proof.
  intros [P _]. split.
  - intros i. specialize (P i). unfold opt. destruct (p i); auto. exists []. reflexivity.
  - intros i e. unfold opt. destruct (p i); discriminate.
Qed.
(** Only the error of the last alternative survives. *)
Lemma fair_or_half {A} (p q : parser A) : half p -> fair q -> fair (orp p q).
Proof.
  intros P [Q S]. split.
  - intros i. specialize (P i). specialize (Q i). unfold orp. destruct (p i) eqn:E; auto.
  - intros i e H. unfold orp in H. destruct (p i) eqn:E; try discriminate. auto.
Qed.
Lemma fair_or {A} (p q : parser A) : fair p -> fair q -> fair (orp p q).
Proof. intros [P _]. apply fair_or_half. auto. Qed.
Lemma fair_recognize {A} (p : parser A) : fair p -> fair (recognize p).
Proof.
  intros [P S]. split.
  - intros i. specialize (P i). unfold recognize. destruct (p i); auto.
  - intros i e H. specialize (S i). unfold recognize in H. destruct (p i); try discriminate. inversion H; subst. auto.
Qed.
Lemma fair_recognizer {A} (p : parser A) : fair p -> fair (recognizer p).
Proof.
  intros [P S]. split.
  - intros i. specialize (P i). unfold recognizer. destruct (p i); auto.
  - intros i e H. specialize (S i). unfold recognizer in H. destruct (p i); try discriminate. inversion H; subst. auto.
Qed.
Lemma fair_many0_f {A} (p : parser A) n : fair p -> fair (many0_f n p).
Proof.
  intros F. induction n as [|n [IH IS]]; [split; [intros i; exact Logic.I|discriminate]|]. destruct F as [P S]. split.
  - intros i. specialize (P i). cbn. destruct (p i) as [a r|e|e| |] eqn:E; auto; [|exists []; reflexivity].
    destruct (Nat.eqb _ _); auto. destruct P as [c ->]. specialize (IH r). destruct (many0_f n p r) as [l r'|e|e| |]; auto.
    + destruct IH as [c' ->]. exists (c ++ c'). now rewrite app_assoc.
    + apply fault_app; auto.
  - intros i e H. specialize (P i). cbn in H. destruct (p i) as [a r|e'|e'| |] eqn:E; try discriminate.
    destruct (Nat.eqb _ _); [inversion H; subst; apply about_nom|]. destruct P as [c ->].
    destruct (many0_f n p r) as [l r'|e'|e'| |] eqn:E'; try discriminate. inversion H; subst. apply about_app. auto.
Qed.
Lemma fair_many0 {A} (p : parser A) : fair p -> fair (many0 p).
Proof. intros F. split; [intros i; apply (proj1 (fair_many0_f p _ F))|intros i e H; exact (proj2 (fair_many0_f p _ F) i e H)]. Qed.
Lemma fair_many1 {A} (p : parser A) : fair p -> fair (many1 p).
Proof. intros. repeat (apply fair_bind; intros; auto using @fair_ret, @fair_many0). Qed.
Lemma fair_sep_f {A B} (s : parser B) (p : parser A) n : fair s -> fair p -> fair (sep_loop_f n s p).
Proof.
  intros F F'. induction n as [|n [IH IS]]; [split; [intros i; exact Logic.I|discriminate]|]. destruct F as [P S]. destruct F' as [P' S']. split.
  - intros i. specialize (P i). cbn. destruct (s i) as [b i1|e|e| |] eqn:E; auto; [|exists []; reflexivity].
    destruct (Nat.eqb _ _); auto. destruct P as [c ->]. specialize (P' i1). destruct (p i1) as [a i2|e|e| |] eqn:E1; auto; [|exists []; reflexivity|apply fault_app; auto].
    destruct P' as [c' ->]. specialize (IH i2). destruct (sep_loop_f n s p i2) as [l r'|e|e| |]; auto.
    + destruct IH as [c2 ->]. exists (c ++ c' ++ c2). now rewrite <- !app_assoc.
    + apply fault_app, fault_app; auto.
  - intros i e H. specialize (P i). cbn in H. destruct (s i) as [b i1|e'|e'| |] eqn:E; try discriminate. destruct P as [c ->].
    destruct (Nat.eqb _ _); [inversion H; subst; apply about_app, about_nom|]. specialize (P' i1).
    destruct (p i1) as [a i2|e'|e'| |] eqn:E1; try discriminate. destruct P' as [c' ->].
    destruct (sep_loop_f n s p i2) as [l r'|e'|e'| |] eqn:E'; try discriminate. inversion H; subst. apply about_app, about_app. auto.
Qed.
Lemma fair_sep {A B} (s : parser B) (p : parser A) : fair s -> fair p -> fair (separated_list1 s p).
Proof.
  intros F F'. apply fair_bind; auto. intros a. apply fair_bind; [|intros; apply fair_ret].
  split; [intros i; apply (proj1 (fair_sep_f s p _ F F'))|intros i e H; exact (proj2 (fair_sep_f s p _ F F') i e H)].
Qed.
Lemma fair_tag s : fair (tag s).
Proof.
  split.
  - intros i. destruct (tag s i) as [a r|e|e| |] eqn:E; auto; [|unfold tag in E; destruct (strip _ _); discriminate].
    apply tag_done in E. destruct E as [_ ->]. eauto.
  - intros i e H. unfold tag in H. destruct (strip _ _); inversion H. apply about_nom.
Qed.
Lemma fair_satisfy f : fair (satisfy f).
Proof.
  split.
  - intros [|c i]; cbn; auto. destruct (f c); auto. exists [c]. reflexivity.
  - intros [|c i] e; cbn; [|destruct (f c)]; intros H; inversion H; apply about_nom.
Qed.
Lemma fair_while1 f : fair (take_while1 f).
Proof.
  split.
  - intros i. pose proof (cuts_take_while1 f i) as C. destruct (take_while1 f i) eqn:E; eauto.
    unfold take_while1 in E. destruct (span f i) as [[|]]; discriminate.
  - intros i e H. unfold take_while1 in H. destruct (span f i) as [[|]]; inversion H. apply about_nom.
Qed.
Lemma fair_while0 f : fair (take_while0 f).
Proof.
  split.
  - intros i. pose proof (cuts_take_while0 f i) as C. destruct (take_while0 f i) eqn:E; eauto.
    unfold take_while0 in E. destruct (span f i); discriminate.
  - intros i e H. unfold take_while0 in H. destruct (span f i); discriminate.
Qed.
Lemma not_eol_cases i : (exists a r, not_line_ending i = Done a r) \/ not_line_ending i = Soft (nom_err i).
Proof.
  unfold not_line_ending. destruct (span is_not_eol i) as [a [|c b]]; eauto. destruct (N.eqb c 13); eauto.
  destruct b as [|c' b]; eauto. destruct (N.eqb c' 10); eauto.
Qed.
Lemma fair_not_eol : fair not_line_ending.
Proof.
  split.
  - intros i. pose proof (cuts_not_eol i) as C. destruct (not_eol_cases i) as [(a & r & E)|E]; rewrite E in *; eauto.
  - intros i e H. destruct (not_eol_cases i) as [(a & r & E)|E]; rewrite E in H; inversion H. apply about_nom.
Qed.
Lemma fair_fail {A B} (p : parser A) (f : A -> B + parse_error) : fair p ->
  (forall i a r e, p i = Done a r -> f a = inr e -> fault X i e) -> fair (map_res_fail p f).
Proof.
  intros [P S] F. split.
  - intros i. unfold map_res_fail, bindp. specialize (P i). destruct (p i) as [a r|e|e| |] eqn:E; auto. destruct (f a) eqn:Q; eauto.
  - intros i e. unfold map_res_fail, bindp. specialize (S i). destruct (p i) as [a r|e'|e'| |] eqn:E; try discriminate; [destruct (f a); discriminate|].
    intros [= <-]. auto.
Qed.
Lemma fair_res {A B} (p : parser A) (f : A -> B + parse_error) : fair p -> (forall a, exists b, f a = inl b) -> fair (map_res p f).
Proof.
  intros [P S] F. split.
  - intros i. unfold map_res, bindp. specialize (P i). destruct (p i) as [a r|e|e| |] eqn:E; auto. destruct (F a) as [b ->]. auto.
  - intros i e. unfold map_res, bindp. specialize (S i). destruct (p i) as [a r|e'|e'| |] eqn:E; try discriminate; [destruct (F a) as [b ->]; discriminate|].
    intros [= <-]. auto.
Qed.
Hint Resolve fair_ret fair_map fair_value fair_pair fair_preceded fair_terminated fair_delimited fair_separated_pair fair_opt fair_or
  fair_recognize fair_recognizer fair_many0 fair_many1 fair_sep fair_tag fair_satisfy fair_while1 fair_while0 fair_not_eol : fair.
Lemma fair_char c : fair (charp c). Proof. apply fair_satisfy. Qed.
Lemma fair_one_of c : fair (one_of_chars c). Proof. apply fair_satisfy. Qed.
Lemma fair_any : fair anychar. Proof. apply fair_satisfy. Qed.
Hint Resolve fair_char fair_one_of fair_any : fair.
Ltac fr := unfold type_, group, grpchoice, cddl, cddl_slice in *; auto 20 with fair.

(** * Tokens *)
Lemma fair_ws : fair p_ws. Proof. unfold p_ws, p_comment, multispace1. fr. Qed.
Lemma fair_ident : fair p_ident. Proof. unfold p_ident, p_ealpha, p_ident_tail, p_ealpha, digit1. fr. Qed.
Lemma fair_uint : fair p_uint. Proof. unfold p_uint, p_uint_hex, p_uint_binary, p_uint_decimal, hex_digit1, digit0. fr. Qed.
Hint Resolve fair_ws fair_ident fair_uint : fair.

Lemma raw_digits c s b : raw_uint c s b -> digits_of c s.
Proof.
  intros [s' n U S|s' n S|s' n S]; constructor. apply spells_digits in S. eapply Forall_impl; [|exact S]. intros x (d & D & L).
  apply is_digit_iff. eapply dec_digit_char; eauto.
Qed.
Lemma fault_here s r e : malformed X s e -> fault X (s ++ r) e. Proof. apply (fa_literal X []). Qed.
Lemma fair_uint_u64 : fair p_uint_u64.
Proof.
  unfold p_uint_u64. apply fair_fail; [fr|]. intros i [s b] r e H E. apply uint_sound in H. destruct H as (c & -> & R). cbn [fst snd] in E.
  pose proof (raw_digits _ _ _ R) as D. pose proof (raw_uint_total _ _ _ R) as (n & U & S & B & _). rewrite (from_str_radix_iff _ _ _ B S) in E.
  destruct (N.ltb_spec n (2 ^ 64)) as [|L]; inversion E; subst. apply fault_here. eapply mf_uint; eauto.
Qed.
Hint Resolve fair_uint_u64 : fair.
Lemma fair_occur : fair p_occur.
Proof.
  unfold p_occur. apply fair_or; [|fr]. unfold p_occur_star. apply fair_res; [fr|]. intros [[lo|] [st [hi|]]]; cbn; eauto.
Qed.
Hint Resolve fair_occur : fair.
Lemma fair_number : fair (p_float_or_int X).
Proof.
  unfold p_float_or_int. apply fair_fail; [unfold p_int, p_dot_fraction, p_e_exponent, digit1; fr|].
  intros i [rec [[[s b] neg] [f e]]] r err H E. apply recognizer_done in H. cbn [fst snd] in H. destruct H as [H Hrec].
  apply pair_done in H. destruct H as (m & H & F). cbn [fst snd] in *. apply pair_done in F. destruct F as (m' & F & G). cbn [fst snd] in *.
  apply int_sound in H. destruct H as (c & -> & R).
  pose proof (raw_digits _ _ _ R) as D. pose proof (raw_uint_total _ _ _ R) as (n & U & S & B & _).
  assert (Ff : exists cf, m = cf ++ m' /\ optional fraction cf /\ (f = None <-> cf = [])).
  { apply opt_done in F. destruct f as [f|]; [apply dot_sound in F; destruct F as [-> F]; exists f; split; auto; split; [right; auto|]|destruct F as [-> _]; exists []; split; auto; split; [left; auto|tauto]].
    split; [discriminate|intros ->]. destruct F as (d & F & _). discriminate. }
  destruct Ff as (cf & -> & Of & Nf).
  assert (Fe : exists ce, m' = ce ++ r /\ optional exponent ce /\ (e = None <-> ce = [])).
  { apply opt_done in G. destruct e as [e|]; [apply exp_sound in G; destruct G as [-> G]; exists e; split; auto; split; [right; auto|]|destruct G as [-> _]; exists []; split; auto; split; [left; auto|tauto]].
    split; [discriminate|intros ->]. destruct G as (sg & d & G & _). discriminate. }
  destruct Fe as (ce & -> & Oe & Ne).
  assert (Fl : f <> None \/ e <> None -> parse_float X rec = inr err -> fault X ((if neg then txt "-" else []) ++ c ++ cf ++ ce ++ r) err).
  { intros NN Q. unfold parse_float in Q. replace ((if neg then txt "-" else []) ++ c ++ cf ++ ce ++ r) with (((if neg then txt "-" else []) ++ c ++ cf ++ ce) ++ r) in * by now rewrite <- !app_assoc.
    rewrite consumed_app in Hrec. subst rec. destruct (f64_parse X _) eqn:Q'; inversion Q; subst. apply fault_here.
    eapply mf_float; eauto; [destruct neg; [right|left]; auto|]. intros Z. apply app_eq_nil in Z. destruct Z as [Z1 Z2]. apply Nf in Z1. apply Ne in Z2. tauto. }
  destruct f as [f|]; [apply Fl; auto; left; discriminate|]. destruct e as [e|]; [apply Fl; auto; right; discriminate|].
  destruct Nf as [Nf _]. destruct Ne as [Ne _]. rewrite (Nf eq_refl), (Ne eq_refl) in *. cbn [app].
  unfold parse_int in E. rewrite (from_str_radix_iff _ _ _ B S) in E.
  destruct (N.ltb_spec n (2 ^ 64)) as [|L].
  - destruct neg; [|discriminate]. destruct (N.ltb_spec n (2 ^ 63)) as [|L']; inversion E; subst. rewrite app_assoc. apply fault_here. eapply mf_nint; eauto.
  - inversion E; subst. destruct neg.
    + rewrite app_assoc. apply fault_here. eapply mf_nint; eauto. eapply N.le_trans; [|exact L]. apply N.pow_le_mono_r; lia.
    + cbn [app]. apply fault_here. eapply mf_uint; eauto.
Qed.
Lemma unescape_err s e : unescape_text X s = inr e -> unescape X s = None /\ e = PErr MalformedText s.
Proof. unfold unescape_text. destruct (unescape X s); intros [= <-]. auto. Qed.
Lemma fair_pvalue : fair (p_value X).
Proof.
  unfold p_value. apply fair_or; [apply fair_number|]. apply fair_or; apply fair_map.
  - unfold p_text_literal. apply fair_fail; [unfold p_schar, p_sesc; fr|]. intros i s r e H E. apply unescape_err in E. destruct E as [E ->].
    apply delimited_done in H. destruct H as (a & m & m' & c & H & F & G). apply char_done in H. apply char_done in G.
    destruct H as [-> ->]. destruct G as [-> ->]. apply schar_sound in F. destruct F as [-> C].
    replace (34%N :: s ++ 34%N :: r) with ((txt """" ++ s ++ txt """") ++ r) by (cbn; now rewrite <- app_assoc). apply fault_here. apply mf_text; auto.
  - unfold p_bytestring. apply fair_or; [apply fair_map|apply fair_or].
    + unfold p_bytestring_utf8. apply fair_fail; [unfold p_bchar, p_sesc; fr|]. intros i s r e H E. apply unescape_err in E. destruct E as [E ->].
      apply delimited_done in H. destruct H as (a & m & m' & c & H & F & G). apply tag_done in H. apply tag_done in G.
      destruct H as [-> ->]. destruct G as [-> ->]. apply bchar_sound in F. destruct F as [-> C].
      replace (txt "'" ++ s ++ txt "'" ++ r) with ((txt "'" ++ s ++ txt "'") ++ r) by now rewrite <- !app_assoc. apply fault_here. apply mf_bytes; auto.
    + apply fair_fail; [unfold p_bytestring_hex, p_bchar, p_sesc; fr|]. intros i s r e H E. unfold parse_hex in E.
      destruct (hex_decode _) as [b'|] eqn:D; inversion E; subst.
      apply delimited_done in H. destruct H as (a & m & m' & c & H & F & G). apply tag_done in H. apply tag_done in G.
      destruct H as [-> ->]. destruct G as [-> ->]. apply bchar_sound in F. destruct F as [-> C].
      replace (txt "h'" ++ s ++ txt "'" ++ r) with ((txt "h'" ++ s ++ txt "'") ++ r) by now rewrite <- !app_assoc. apply fault_here.
      apply mf_hex; auto; [apply without_spaces_iff; reflexivity|]. intros b Hb. apply hex_decode_iff in Hb. congruence.
    + apply fair_fail; [unfold p_bytestring_base64, p_bchar, p_sesc; fr|]. intros i s r e H E. destruct (base64_decode X s) eqn:D; inversion E; subst.
      apply delimited_done in H. destruct H as (a & m & m' & c & H & F & G). apply tag_done in H. apply char_done in G.
      destruct H as [-> ->]. destruct G as [-> ->]. apply bchar_sound in F. destruct F as [-> C].
      replace (txt "b64'" ++ s ++ 39%N :: r) with ((txt "b64'" ++ s ++ txt "'") ++ r) by now rewrite <- !app_assoc. apply fault_here. apply mf_base64; auto.
Qed.
Hint Resolve fair_pvalue : fair.

(** * Phrases *)
Section Bodies.
Variable T1 : parser type1.
Variable G : parser group.
Hypothesis fT : fair T1.
Hypothesis fG : fair G.
Hypothesis soT : sound T1 (d_type1 X).
Lemma fair_slash : fair p_slash. Proof. unfold p_slash. fr. Qed.
Hint Resolve fair_slash : fair.
Lemma fair_ty : fair (p_ty T1). Proof. unfold p_ty. fr. Qed.
Lemma fair_name : fair (p_name_generic T1). Proof. unfold p_name_generic, p_generic_arg. fr. Qed.
Hint Resolve fair_ty fair_name : fair.
Lemma fair_in {A} o c (p : parser A) : fair p -> fair (p_in o c p). Proof. unfold p_in. fr. Qed.
Hint Resolve fair_in : fair.
Lemma fair_type2 : fair (p_type2 X T1 G). Proof. unfold p_type2. fr. Qed.
Hint Resolve fair_type2 : fair.
Lemma fair_type1_body : fair (type1_body X T1 G). Proof. unfold type1_body, p_range_or_control, p_control_op. fr. Qed.
Lemma half_plain t : half (member_plain T1 t).
Proof.
  intros i. unfold member_plain. assert (C : fair (p_more_choices T1)) by (unfold p_more_choices; fr). destruct C as [C _]. specialize (C i).
  destruct (p_more_choices T1 i); auto.
Qed.
Lemma half_arrow t : half (member_arrow T1 t).
Proof.
  intros i. unfold member_arrow. assert (C : fair (p_arrow_tail T1)) by (unfold p_arrow_tail; fr). destruct C as [C _]. specialize (C i).
  destruct (p_arrow_tail T1 i); auto; apply half_plain.
Qed.
Lemma half_member : half (p_grpent_member T1).
Proof.
  intros i. unfold p_grpent_member. assert (C : fair (terminated T1 p_ws)) by fr. destruct C as [C _]. specialize (C i). unfold bindp at 1.
  destruct (terminated T1 p_ws i) as [t k|e|e| |] eqn:E; auto. destruct C as [c ->].
  assert (Ar : match member_arrow T1 t k with Done _ r => exists c0, c ++ k = c0 ++ r | Hard e => fault X (c ++ k) e | _ => True end).
  { pose proof (half_arrow t k) as Ha. destruct (member_arrow T1 t k); auto; [destruct Ha as [c' ->]; exists (c ++ c'); now rewrite app_assoc|apply fault_app; auto]. }
  assert (Co : (exists t2, t = T1Simple t2) -> match member_colon T1 t k with Done _ r => exists c0, c ++ k = c0 ++ r | Hard e => fault X (c ++ k) e | _ => True end).
  { intros (t2 & ->). unfold member_colon. assert (Ct : fair (p_memberkey_tail T1)) by (unfold p_memberkey_tail; fr). destruct Ct as [Ct _]. specialize (Ct k).
    destruct (p_memberkey_tail T1 k) as [ty m|e|e| |] eqn:M; auto. destruct Ct as [c' ->].
    apply terminated_done in E. destruct E as (j & w & H & W). apply soT in H. apply ws_sound in W.
    apply preceded_done in M. destruct M as (x & m' & M & F). apply then_ws_sound in M. destruct M as (q & Eq & W').
    destruct t2 as [v2|n [|a0 a]| | | | | |]; cbn; auto; try (exists (c ++ c'); now rewrite app_assoc).
    inversion H as [i' t' r' H2| |]; subst. inversion H2 as [|i' n' a' r' Hn| | | | | |]; subst.
    apply (fa_key X [] (c ++ c' ++ m) n (a0 :: a) j q); auto; [discriminate|]. unfold tok in Eq. rewrite <- Eq. auto. }
  destruct t as [t2| |]; auto. destruct t2; auto; apply Co; eauto.
Qed.
Lemma fair_grpent : fair (p_grpent T1 G).
Proof.
  unfold p_grpent, p_grpent_val, p_grpent_parens. apply fair_map, fair_pair; [fr|]. apply fair_or_half; [apply half_member|fr].
Qed.
Hint Resolve fair_grpent : fair.
Lemma fair_group_body : fair (group_body T1 G). Proof. unfold group_body, p_grpchoice, p_optcom. fr. Qed.
Lemma fair_rule : fair (p_rule T1 G). Proof. unfold p_rule, p_rule_val, p_generic_parm. fr. Qed.
End Bodies.
Lemma fair_f n : fair (type1_f X n) /\ fair (group_f X n).
Proof.
  induction n as [|n [A B]]; [split; (split; [intros i; exact Logic.I|discriminate])|]. rewrite type1_f_S, group_f_S.
  pose proof (proj1 (f_sound X n)). auto using fair_type1_body, fair_group_body.
Qed.
Lemma fair_type1 : fair (parse_type1 X).
Proof. split; [intros i; apply (proj1 (proj1 (fair_f _)))|intros i e H; exact (proj2 (proj1 (fair_f _)) i e H)]. Qed.
Lemma fair_group : fair (parse_group X).
Proof. split; [intros i; apply (proj1 (proj2 (fair_f _)))|intros i e H; exact (proj2 (proj2 (fair_f _)) i e H)]. Qed.
Lemma fair_parse_rule : fair (p_rule (parse_type1 X) (parse_group X)).
Proof. apply fair_rule; auto using fair_type1, fair_group, type1_sound. Qed.

(** * The whole schema *)
Let R := terminated (p_rule (parse_type1 X) (parse_group X)) p_ws.
Lemma rule_soft i e : R i = Soft e -> no_rule X i /\ about i e.
Proof.
  intros H. assert (P : p_rule (parse_type1 X) (parse_group X) i = Soft e).
  { unfold R, terminated, bindp in H. destruct (p_rule _ _ i) as [x m|e'|e'| |] eqn:E; try discriminate; auto.
    destruct (ws_total m) as (u & r & W). rewrite W in H. discriminate. }
  split; [|apply (proj2 fair_parse_rule); auto]. intros x r U. apply rule_reads in U. destruct U as (r' & U & _). congruence.
Qed.
Lemma eats_R : eats R.
Proof. apply eats_bind_l; [apply eats_rule; [apply eats_shrinks, eats_type1|apply shrinks_group]|intros; apply shrinks_bind; auto with nom]. Qed.
Lemma many0_R_soft n i e : many0_f n R i = Soft e -> False.
Proof.
  revert i e. induction n as [|n IH]; intros i e H; [discriminate|]. cbn in H. destruct (R i) as [x r|e'|e'| |] eqn:E; try discriminate.
  apply eats_R in E. destruct (Nat.eqb_spec (List.length r) (List.length i)); [lia|].
  destruct (many0_f n R r) as [l k|e'|e'| |] eqn:F; try discriminate. eauto.
Qed.
Lemma R_rule i x r : R i = Done x r -> exists m, d_rule X i x m /\ skip m r.
Proof. intros H. apply terminated_done in H. destruct H as (m & w & H & W). apply ws_skip in W. apply parse_rule_sound in H. eauto. Qed.
Lemma reps_R i l r : reps R i l r -> many (fun i x r => exists m, d_rule X i x m /\ skip m r) i l r /\ no_rule X r.
Proof.
  induction 1 as [i e E|i x m l r E L Rr [A B]]; [split; [constructor|eapply rule_soft; eauto]|]. split; auto. econstructor; eauto. apply R_rule; auto.
Qed.
Theorem parse_error_meaning i e : parse_cddl X i = Some (inr e) ->
  fault X i e \/ pe_kind e = Unparseable /\ stuck X i (pe_ctx e).
Proof.
  unfold parse_cddl, p_cddl. change (terminated (p_rule (parse_type1 X) (parse_group X)) p_ws) with R. intros H.
  assert (FR : fair R) by (apply fair_terminated; [apply fair_parse_rule|apply fair_ws]).
  destruct (all_consuming _ i) as [c r|e'|e'| |] eqn:E; inversion H; subst; clear H.
  - right. unfold all_consuming, bindp at 1 in E. destruct (preceded _ _ i) as [c r|e'|e'| |] eqn:E1; try discriminate.
    + destruct r as [|x r]; inversion E; subst. clear E. apply preceded_done in E1. destruct E1 as (w & j & W & E1). apply ws_skip in W.
      assert (Q : exists q, j = q ++ x :: r) by (pose proof (proj1 (fair_many1 R FR) j) as Q; rewrite E1 in Q; auto). destruct Q as [q Q].
      apply many1_done in E1; [|apply eats_shrinks, eats_R]. destruct E1 as (y & l & m & -> & E1 & Rr). apply reps_R in Rr. destruct Rr as [M N].
      split; auto. cbn. eapply (st_later X i j (y :: l)); eauto; try discriminate. econstructor; eauto. apply R_rule; auto.
    + inversion E; subst. clear E. unfold preceded, bindp at 1 in E1. destruct (ws_total i) as (u & j & W). rewrite W in E1. apply ws_skip in W.
      unfold many1, bindp at 1 in E1. destruct (R j) as [x r|e'|e'| |] eqn:E2; try discriminate.
      * unfold bindp at 1 in E1. destruct (many0 R r) as [l k|e'|e'| |] eqn:E3; try discriminate. apply many0_R_soft in E3. destruct E3.
      * inversion E1; subst. apply rule_soft in E2. destruct E2 as [N [K [q Q]]]. split; auto. eapply st_first; eauto.
  - left. assert (F : fair (preceded p_ws (many1 R))) by (apply fair_preceded; [apply fair_ws|apply fair_many1; auto]). destruct F as [F _].
    unfold all_consuming, bindp in E. specialize (F i). destruct (preceded _ _ i) as [c r|e'|e'| |] eqn:E1; try discriminate; [destruct r; discriminate|].
    inversion E; subst. auto.
Qed.
End WithX.
