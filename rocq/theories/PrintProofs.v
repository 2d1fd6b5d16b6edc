(** The canonical rendering of a syntax tree (SpecPrint.v) parses to the tree. *)
From Coq Require Import List Bool Arith ZArith NArith String Lia.
From Coq Require DecimalString DecimalN DecimalFacts.
From Verif Require Import Base Util Data Ivt Ast Nom NomProofs Parser ParserFuel NomDone SpecSyntax ValueOrder TokenProofs LiteralProofs
  ParserSound ParserApi ParserSoft SpecPrint FlattenProofs.
Import ListNotations.
Open Scope list_scope.

(** * Decimal numbers *)
Section Decimal.
Import DecimalString.
Definition dchar (d : N) : N := (0x30 + d)%N.
Fixpoint ddigits (d : Decimal.uint) : list N :=
  match d with
  | Decimal.Nil => []
  | Decimal.D0 d => 0%N :: ddigits d | Decimal.D1 d => 1%N :: ddigits d | Decimal.D2 d => 2%N :: ddigits d
  | Decimal.D3 d => 3%N :: ddigits d | Decimal.D4 d => 4%N :: ddigits d | Decimal.D5 d => 5%N :: ddigits d
  | Decimal.D6 d => 6%N :: ddigits d | Decimal.D7 d => 7%N :: ddigits d | Decimal.D8 d => 8%N :: ddigits d
  | Decimal.D9 d => 9%N :: ddigits d
  end.
Lemma empty_string_digits d : txt (NilEmpty.string_of_uint d) = map dchar (ddigits d).
Proof. induction d; [reflexivity|..]; cbn [NilEmpty.string_of_uint ddigits map]; unfold txt in *; cbn; f_equal; exact IHd. Qed.
Lemma ddigits_small d : Forall (fun x => x < 10)%N (ddigits d).
Proof. induction d; cbn; constructor; auto; lia. Qed.
Lemma dchar_value x : (x < 10)%N -> digit_value 10 (dchar x) = Some x.
Proof. intros H. apply digit_value_iff; [lia|]. split; auto. unfold dchar. replace x with (0x30 + x - 0x30)%N at 2 by lia. apply di_dec. unfold DIGIT, between. lia. Qed.
Lemma of_uint_digits d acc : digits_value 10 (Npos acc) (map dchar (ddigits d)) = Some (Npos (Pos.of_uint_acc d acc)).
Proof.
  revert acc. induction d; intros acc; [reflexivity|..]; cbn [ddigits map digits_value Pos.of_uint_acc]; rewrite dchar_value by lia;
    rewrite <- IHd; f_equal; lia.
Qed.
Lemma value_of_uint d : digits_value 10 0 (map dchar (ddigits d)) = Some (N.of_uint d).
Proof.
  unfold N.of_uint. induction d; [reflexivity|..]; cbn [ddigits map digits_value Pos.of_uint]; rewrite dchar_value by lia;
    cbn [N.mul N.add]; auto; apply of_uint_digits.
Qed.
Lemma show_N_lit n : uint_lit (show_N n) n /\ spells 10 (show_N n) n.
Proof.
  assert (S : show_N n <> [] /\ digits_value 10 0 (show_N n) = Some n).
  { unfold show_N. pose proof (value_of_uint (N.to_uint n)) as V. rewrite DecimalN.Unsigned.of_to in V. rewrite <- empty_string_digits in V.
    unfold NilZero.string_of_uint. destruct (N.to_uint n) eqn:E; [|split; [discriminate|exact V]..].
    exfalso. destruct n as [|p]; [discriminate|]. assert (Q : N.of_uint (N.to_uint (Npos p)) = Npos p) by apply DecimalN.Unsigned.of_to.
    rewrite E in Q. discriminate. }
  destruct S as [Ne V]. assert (Sp : spells 10 (show_N n) n) by (apply digits_value_iff; auto; lia).
  split; auto. destruct (N.eq_dec n 0) as [->|Nz]; [apply ul_zero|].
  assert (H : exists c s, show_N n = c :: s /\ c <> 0x30%N).
  { clear V Sp Ne. unfold show_N. pose proof (DecimalN.Unsigned.to_of (N.to_uint n)) as U. rewrite DecimalN.Unsigned.of_to in U.
    unfold Decimal.unorm in U. pose proof (DecimalFacts.nzhead_nonzero (N.to_uint n)) as Z.
    destruct (Decimal.nzhead (N.to_uint n)) eqn:E; rewrite U in *; try (eexists _, _; split; [reflexivity|discriminate]).
    - exfalso. apply Nz. rewrite <- (DecimalN.Unsigned.of_to n), U. reflexivity.
    - exfalso. eapply Z. reflexivity. }
  destruct H as (c & s & E & Hc). rewrite E in *. apply ul_dec; auto.
Qed.
End Decimal.

(** * What may follow *)
Notation one := (fun (l : list N) (c : N) => In c l).
Definition stopc : N -> Prop := one [32; 10; 0x2c; 0x3e; 0x29; 0x5d; 0x7d; 0x2f; 0x3a]%N.
Definition stop (r : text) : Prop := match r with [] => True | c :: _ => stopc c end.
Definition follow (bad : list N) (r : text) : Prop :=
  stop r /\ exists w r', p_ws r = Done w r' /\ ~ is_head (one bad) r'.
Definition startc (c : N) : Prop := (EALPHA c \/ opener c \/ DIGIT c \/ c = 0x2d \/ c = 0x22 \/ c = 0x27)%N.
Definition entryc (c : N) : Prop := startc c \/ c = 0x3f%N \/ c = 0x2a%N \/ c = 0x2b%N.
Definition solidc (c : N) : Prop := ~ SPACE c /\ c <> 0x3b%N.

Ltac chars := unfold entryc, startc, opener, stopc, solidc, SPACE, SEP, IDCHAR, EALPHA, ALPHA, DIGIT, between in *; cbn [In] in *; lia.

Lemma stop_id r : stop r -> id_stop r.
Proof. destruct r as [|c r]; [intros; apply id_stop_nil|]. cbn. intros H. apply id_stop_head; chars. Qed.
Lemma stop_num r : stop r -> num_stop r.
Proof. destruct r as [|c r]; [intros; apply num_stop_nil|]. cbn. intros H. split; intros d j E; inversion E; subst; [chars|exfalso; chars]. Qed.
Lemma head_app P (i r : text) : is_head P i -> is_head P (i ++ r).
Proof. destruct i; cbn; tauto. Qed.
Lemma head_weak (P Q : N -> Prop) i : (forall c, P c -> Q c) -> is_head P i -> is_head Q i.
Proof. destruct i; cbn; auto. Qed.
Lemma start_solid c : startc c -> solidc c. Proof. intros H. chars. Qed.
Lemma entry_solid c : entryc c -> solidc c. Proof. intros H. chars. Qed.
Lemma ws_solid i : is_head solidc i -> p_ws i = Done [] i.
Proof. destruct i as [|c i]; [intros []|]. cbn. intros []. apply ws_of_head; auto. Qed.
Lemma ws_space i : is_head solidc i -> p_ws (32%N :: i) = Done [32%N] i.
Proof. destruct i as [|c i]; [intros []|]. cbn. intros []. apply ws_of_space; auto. Qed.
Lemma ws_idem r w r' : p_ws r = Done w r' -> p_ws r' = Done [] r'.
Proof. intros H. apply ws_done in H. destruct H as (_ & _ & E). apply (ws_run [] r'); auto. constructor. Qed.
Lemma follow_weak bad bad' r : incl bad' bad -> follow bad r -> follow bad' r.
Proof.
  intros I (S & w & r' & E & H). split; auto. exists w, r'. split; auto. intros Q. apply H. destruct r'; cbn in *; auto.
Qed.
Lemma follow_solid bad c r : stopc c -> solidc c -> ~ In c bad -> follow bad (c :: r).
Proof. intros S D H. split; auto. exists [], (c :: r). split; auto. apply ws_solid; auto. Qed.
Lemma follow_space bad c r : solidc c -> ~ In c bad -> follow bad (32%N :: c :: r).
Proof. intros D H. split; [left; auto|]. exists [32%N], (c :: r). split; auto. apply ws_space; auto. Qed.
Ltac nfol := first [apply follow_solid | apply follow_space]; [chars..|cbn; lia].

Lemma soft_pair {A B} (p : parser A) (q : parser B) i : soft (p i) -> soft (pairp p q i). Proof. apply soft_bind. Qed.
Lemma pre_run {A B} (p : parser A) (q : parser B) i a m x : p i = Done a m -> q m = x -> preceded p q i = x.
Proof. unfold preceded, bindp. intros -> ->. reflexivity. Qed.
Lemma ter_run {A B} (p : parser A) (q : parser B) i a m b r : p i = Done a m -> q m = Done b r -> terminated p q i = Done a r.
Proof. unfold terminated, bindp. intros -> ->. reflexivity. Qed.
Lemma pair_run {A B} (p : parser A) (q : parser B) i a m b r : p i = Done a m -> q m = Done b r -> pairp p q i = Done (a, b) r.
Proof. unfold pairp, bindp. intros -> ->. reflexivity. Qed.
Lemma map_run {A B} (f : A -> B) p i a b r : p i = Done a r -> f a = b -> mapp f p i = Done b r.
Proof. unfold mapp, bindp. intros -> <-. reflexivity. Qed.
Lemma opt_run {A} (p : parser A) i a r : p i = Done a r -> opt p i = Done (Some a) r.
Proof. unfold opt. intros ->. reflexivity. Qed.
Lemma or_run {A} (p q : parser A) i a r : p i = Done a r -> orp p q i = Done a r.
Proof. unfold orp. intros ->. reflexivity. Qed.
Lemma del_run {A B C} (p : parser A) (q : parser B) (s : parser C) i a m b m' c r :
  p i = Done a m -> q m = Done b m' -> s m' = Done c r -> delimited p q s i = Done b r.
Proof. unfold delimited, bindp. intros -> -> ->. reflexivity. Qed.
Lemma charp_run c r : charp c (c :: r) = Done c r. Proof. apply char_done. auto. Qed.

(** Separated items. *)
Definition jt (sep : text) (l : list text) : text := List.concat (map (fun x => sep ++ x) l).
Lemma join_cons sep a l : join sep (a :: l) = a ++ jt sep l.
Proof.
  revert a. induction l as [|b l IH]; intros a; cbn; [now rewrite app_nil_r|]. f_equal. unfold jt in IH. change (join sep (b :: l)) with (join sep (b :: l)) in IH.
  cbn in IH. rewrite <- app_assoc. f_equal. apply IH.
Qed.
Lemma jt_cons sep a l r : jt sep (a :: l) ++ r = sep ++ a ++ jt sep l ++ r.
Proof. unfold jt. cbn. now rewrite <- !app_assoc. Qed.
Lemma len_app_lt (a b : text) : a <> [] -> List.length b <> List.length (a ++ b).
Proof. rewrite app_length. destruct a; [congruence|]. cbn. lia. Qed.
Lemma shorter c (s i : text) : List.length i <> List.length ((c :: s) ++ i).
Proof. apply len_app_lt. discriminate. Qed.

Lemma sreps_run {A B} (s : parser B) (p : parser A) (pr : A -> text) sep (Fin : text -> Prop) l r :
  sep <> [] -> Fin r -> soft (s r) -> (forall a m, Fin (sep ++ pr a ++ m)) ->
  Forall (fun a => forall m, Fin m -> (exists b, s (sep ++ pr a ++ m) = Done b (pr a ++ m)) /\ p (pr a ++ m) = Done a m) l ->
  sreps s p (jt sep (map pr l) ++ r) l r.
Proof.
  intros Ns Fr [e Sr] Fs Fl. induction Fl as [|a l Ha Fl IH]; [cbn; eapply sreps_nil; eauto|]. cbn [map]. rewrite jt_cons.
  assert (Fm : Fin (jt sep (map pr l) ++ r)) by (destruct l; cbn [map]; [auto|rewrite jt_cons; auto]).
  destruct (Ha _ Fm) as [[b Hb] Hp]. eapply sreps_cons; eauto. apply len_app_lt; auto.
Qed.
Lemma reps_run {A B} (s : parser B) (p : parser A) (pr : A -> text) sep (Fin : text -> Prop) l r :
  sep <> [] -> Fin r -> soft (s r) -> (forall a m, Fin (sep ++ pr a ++ m)) ->
  Forall (fun a => forall m, Fin m -> (exists b, s (sep ++ pr a ++ m) = Done b (pr a ++ m)) /\ p (pr a ++ m) = Done a m) l ->
  reps (preceded s p) (jt sep (map pr l) ++ r) l r.
Proof.
  intros Ns Fr Sr Fs Fl. induction Fl as [|a l Ha Fl IH].
  - cbn. destruct (soft_bind s (fun _ => p) r Sr) as [e E]. eapply reps_nil; eauto.
  - cbn [map]. rewrite jt_cons.
    assert (Fm : Fin (jt sep (map pr l) ++ r)) by (destruct l; cbn [map]; [auto|rewrite jt_cons; auto]).
    destruct (Ha _ Fm) as [[b Hb] Hp]. eapply reps_cons; [eapply pre_run; eauto| |apply IH].
    replace (sep ++ pr a ++ jt sep (map pr l) ++ r) with ((sep ++ pr a) ++ jt sep (map pr l) ++ r) by now rewrite <- app_assoc.
    apply len_app_lt. intros E. apply app_eq_nil in E. tauto.
Qed.
Lemma all_Forall {A} (P : A -> Prop) l : all P l <-> Forall P l.
Proof. induction l as [|a l IH]; cbn; [split; auto|]. rewrite IH. split; [intros []; auto|intros H; inversion H; auto]. Qed.
Lemma Forall_mp {A} (P Q : A -> Prop) l : Forall (fun a => P a -> Q a) l -> Forall P l -> Forall Q l.
Proof. induction 1; intros H'; inversion H'; auto. Qed.

Section WithX.
Variable X : ext.
Variable lit : ast_value -> text.
Variable occ : occur_limit -> text.
Notation T1 := (parse_type1 X).
Notation G := (parse_group X).
Notation pr1 := (print_type1 lit occ).
Notation pr2 := (print_type2 lit occ).
Notation pre := (print_grpent lit occ).
Notation prv := (print_grpent_val lit occ).
Notation w1 := (w_type1 (w_value X lit) (w_occur occ)).
Notation w2 := (w_type2 (w_value X lit) (w_occur occ)).
Notation we := (w_grpent (w_value X lit) (w_occur occ)).
Notation wv := (w_grpent_val (w_value X lit) (w_occur occ)).

(** * Literals *)
Definition litc (c : N) : Prop := (DIGIT c \/ c = 0x2d \/ c = 0x22 \/ c = 0x27 \/ c = 0x68 \/ c = 0x62)%N.
Lemma lit_start c : litc c -> startc c. Proof. unfold litc. intros H. chars. Qed.
Lemma uint_head s n : uint_lit s n -> is_head DIGIT s.
Proof.
  intros U. apply uint_lit_iff in U. destruct U as (s' & b & R & _). destruct (raw_uint_cons _ _ _ R) as (x & l & ->). cbn.
  eapply raw_uint_head; eauto.
Qed.
Lemma lit_head s v : spelling X s v -> is_head litc s.
Proof.
  assert (D : forall c, DIGIT c -> litc c) by (unfold litc; auto).
  intros H. destruct H as [s n U L|s n U L|sg s n f e bits Sg U S L F E N P|s t C U|s t C U|s t b C W H|s b C H];
    try (cbn; unfold litc; tauto).
  - eapply head_weak; [apply D|]. eapply uint_head; eauto.
  - destruct Sg as [-> | ->]; [|cbn; unfold litc; tauto]. cbn [app]. apply head_app. eapply head_weak; [apply D|]. eapply uint_head; eauto.
Qed.
Lemma lit_run' s v r : spelling X s v -> num_stop r -> p_value X (s ++ r) = Done v r.
Proof.
  intros H St.
  destruct H as [s n U L|s n U L|sg s n f e bits Sg U S L F E N P|s t C U|s t C U|s t b C W H|s b C H].
  - unfold p_value. apply or_run. apply uint_lit_iff in U. destruct U as (d & b & R & Sp). pose proof (raw_uint_total _ _ _ R) as (_ & _ & _ & B & _).
    pose proof (int_value_run X false s d b r R St) as Q. cbn [app] in Q. rewrite Q. unfold parse_int. rewrite (from_str_radix_iff _ _ _ B Sp).
    apply N.ltb_lt in L. rewrite L. reflexivity.
  - unfold p_value. apply or_run. apply uint_lit_iff in U. destruct U as (d & b & R & Sp). pose proof (raw_uint_total _ _ _ R) as (_ & _ & _ & B & _).
    pose proof (int_value_run X true s d b r R St) as Q. cbn [app] in Q. rewrite <- app_assoc. cbn [app]. change (txt "-" ++ s ++ r) with ((txt "-") ++ s ++ r). 
    rewrite Q. unfold parse_int. rewrite (from_str_radix_iff _ _ _ B Sp).
    assert (L64 : (n <? 2 ^ 64)%N = true) by (apply N.ltb_lt; lia). apply N.ltb_lt in L. rewrite L64, L. reflexivity.
  - unfold p_value. apply or_run. rewrite <- !app_assoc.
    assert (Q := fun neg : bool => float_run X neg s n f e r U S F E N St).
    destruct Sg as [-> | ->]; [specialize (Q false)|specialize (Q true)]; cbn [app] in *; (etransitivity; [exact Q|]); unfold parse_float; cbn [app]; rewrite P; reflexivity.
  - pose proof (text_run X s r C) as Q. rewrite U in Q. rewrite <- !app_assoc. exact Q.
  - pose proof (bytes_run X s r C) as Q. rewrite U in Q. rewrite <- !app_assoc. exact Q.
  - pose proof (hex_run X s t r C W) as Q. apply hex_decode_iff in H. rewrite H in Q. rewrite <- !app_assoc. exact Q.
  - pose proof (base64_run X s r C) as Q. rewrite H in Q. rewrite <- !app_assoc. exact Q.
Qed.
Lemma lit_run s v r : spelling X s v -> stop r -> p_value X (s ++ r) = Done v r.
Proof. intros H St. apply lit_run'; auto. apply stop_num; auto. Qed.
Lemma uint_u64_run c s b n r : raw_uint c s b -> spells b s n -> (n < 2 ^ 64)%N -> p_uint (c ++ r) = Done (s, b) r -> p_uint_u64 (c ++ r) = Done n r.
Proof.
  intros R Sp L U. unfold p_uint_u64, map_res_fail, bindp. rewrite U.
  pose proof (raw_uint_total _ _ _ R) as (_ & _ & _ & B & _). cbn [fst snd].
  rewrite (from_str_radix_iff _ _ _ B Sp). apply N.ltb_lt in L. rewrite L. reflexivity.
Qed.

(** A literal is not an occurrence indicator. *)
Lemma star_soft n i m : p_uint_u64 i = Done n m -> ~ is_head (eq 0x2a%N) m -> ~ is_head (fun c => c = 0x2b \/ c = 0x3f)%N i -> soft (p_occur i).
Proof.
  intros E H H'. repeat apply soft_or.
  - apply soft_bind. unfold pairp at 1, bindp at 1. rewrite (opt_run _ _ _ _ E). apply soft_bind, soft_bind.
    eapply soft_tag_head; [reflexivity|auto].
  - apply soft_map. eapply soft_tag_head; [reflexivity|]. destruct i; cbn in *; auto.
  - apply soft_map. eapply soft_tag_head; [reflexivity|]. destruct i; cbn in *; auto.
Qed.
Lemma digit_not_plus i : is_head DIGIT i -> ~ is_head (fun c => c = 0x2b \/ c = 0x3f)%N i.
Proof. destruct i; cbn; auto. intros H. chars. Qed.
Lemma lit_no_occur s v r : spelling X s v -> stop r -> soft (p_occur (s ++ r)).
Proof.
  intros H St.
  assert (O : is_head (fun c => litc c /\ ~ DIGIT c) (s ++ r) -> soft (p_occur (s ++ r))).
  { intros Q. apply soft_occur. destruct (s ++ r); cbn in *; auto. unfold litc in Q. chars. }
  destruct H as [s n U L|s n U L|sg s n f e bits Sg U S L F E N P|s t C U|s t C U|s t b C W H|s b C H];
    try (apply O; cbn; unfold litc; chars).
  - pose proof (uint_head _ _ U) as Hd. apply uint_lit_iff in U. destruct U as (d & b & R & Sp).
    eapply star_soft; [eapply uint_u64_run; eauto; apply uint_run; auto; apply stop_num; auto| |].
    + destruct r; cbn in *; auto. intros <-. chars.
    + apply digit_not_plus, head_app; auto.
  - destruct Sg as [-> | ->]; [|apply O; cbn; unfold litc; chars]. cbn [app] in *. pose proof (uint_head _ _ U) as Hd. rewrite <- !app_assoc.
    assert (Hf : is_head (fun c => c = 0x2e \/ c = 0x65)%N (f ++ e ++ r)).
    { destruct F as [-> | (d & -> & _)]; [|cbn; auto]. destruct E as [-> | (sg & d & -> & _)]; [now destruct N|cbn; auto]. }
    eapply star_soft; [eapply uint_u64_run; [eapply raw_dec; eauto|eauto|auto|]| |].
    + eapply dec_run; eauto. intros c j Q. rewrite Q in Hf. cbn in Hf. chars.
    + destruct (f ++ e ++ r); cbn in *; auto. intros <-. chars.
    + apply digit_not_plus, head_app; auto.
Qed.

(** Occurrence indicators. *)
Lemma bound_run s o r : bound_lit s o -> num_stop r -> ~ is_head DIGIT r -> opt p_uint_u64 (s ++ r) = Done o r.
Proof.
  intros B St Hr. destruct B as [|s n U L]; [apply opt_soft, soft_uint; auto|]. apply opt_run.
  apply uint_lit_iff in U. destruct U as (d & b & R & Sp). eapply uint_u64_run; eauto. apply uint_run; auto.
Qed.
Lemma star_stop r : num_stop (0x2a%N :: r).
Proof. split; intros c j E; inversion E; subst; chars. Qed.
Lemma stars_run s lo t hi r : bound_lit s lo -> bound_lit t hi -> num_stop r -> ~ is_head DIGIT r ->
  p_occur (s ++ txt "*" ++ t ++ r) =
  Done (match lo, hi with
        | None, None => OZeroOrMore
        | _, _ => ONumbered (match lo with Some n => n | None => 0%N end) (match hi with Some n => n | None => usize_max end)
        end) r.
Proof.
  intros Hlo Hhi St Hr. unfold p_occur. apply or_run. unfold p_occur_star, map_res, bindp.
  assert (E : pairp (opt p_uint_u64) (pairp (tag "*") (opt p_uint_u64)) (s ++ txt "*" ++ t ++ r) = Done (lo, (txt "*", hi)) r).
  { eapply pair_run; [|eapply pair_run; [apply tag_run|]]; apply bound_run; auto; [apply star_stop|cbn; chars]. }
  rewrite E. cbn [fst snd]. destruct lo, hi; reflexivity.
Qed.
Lemma occur_run s o r : occur_lit s o -> num_stop r -> ~ is_head DIGIT r -> p_occur (s ++ r) = Done o r.
Proof.
  intros W St Hr. destruct W as [| | |s lo t hi Bs Bt N].
  - unfold p_occur. rewrite or_soft; [rewrite or_soft; [reflexivity|eexists; reflexivity]|].
    apply soft_bind. unfold pairp at 1, bindp at 1. rewrite opt_soft by (apply soft_uint; cbn; chars). eexists; reflexivity.
  - unfold p_occur. rewrite or_soft; [apply or_run; reflexivity|].
    apply soft_bind. unfold pairp at 1, bindp at 1. rewrite opt_soft by (apply soft_uint; cbn; chars). eexists; reflexivity.
  - apply (stars_run [] None [] None r); auto; constructor.
  - rewrite <- !app_assoc. erewrite stars_run; eauto. destruct lo, hi; congruence.
Qed.

(** * The beginning of phrases *)
Lemma ident_head n : is_ident n -> is_head EALPHA n.
Proof. intros I. destruct (id_head _ I) as (c & m & -> & H). exact H. Qed.
Lemma start_id c : EALPHA c -> startc c. Proof. unfold startc. auto. Qed.
Lemma pr2_head t : w2 t -> is_head startc (pr2 t).
Proof.
  destruct t; cbn [print_type2 w_type2]; intros W; try (cbn; chars).
  - eapply head_weak; [apply lit_start|]. eapply lit_head; eauto.
  - apply head_app. eapply head_weak; [apply start_id|]. apply ident_head; tauto.
Qed.
Lemma pr1_head t : w1 t -> is_head startc (pr1 t).
Proof.
  destruct t; cbn [print_type1 w_type1]; intros W; [apply pr2_head; auto|apply head_app, pr2_head; tauto..].
Qed.
Lemma choices_head t : t <> [] -> all w1 t -> is_head startc (print_choices (map pr1 t)).
Proof.
  destruct t as [|a t]; [congruence|]. intros _ [W _]. cbn [map]. unfold print_choices. rewrite join_cons. apply head_app, pr1_head; auto.
Qed.
Lemma prv_head v : wv v -> is_head startc (prv v).
Proof.
  destruct v as [[[[k|n|v] cut]|] t|n|g]; cbn [print_grpent_val w_grpent_val]; intros W.
  - apply head_app, pr1_head; tauto.
  - apply head_app. eapply head_weak; [apply start_id|]. apply ident_head; tauto.
  - apply head_app. eapply head_weak; [apply lit_start|]. eapply lit_head; apply W.
  - apply choices_head; tauto.
  - tauto.
  - cbn. chars.
Qed.
Lemma occur_head s o : occur_lit s o -> is_head (fun c => DIGIT c \/ c = 0x3f \/ c = 0x2a \/ c = 0x2b)%N s.
Proof.
  intros [| | |s' lo t hi [|u n U L] _ _]; try (cbn; auto; fail). apply head_app. eapply head_weak; [|eapply uint_head; eauto]. auto.
Qed.
Lemma pre_head e : we e -> is_head entryc (pre e).
Proof.
  destruct e as [[o|] v]; cbn [print_grpent w_grpent]; intros [Wo W].
  - apply head_app. eapply head_weak; [|eapply occur_head; apply Wo]. intros c H. chars.
  - eapply head_weak; [|apply prv_head; auto]. unfold entryc; auto.
Qed.
Lemma solid_start i r : is_head startc i -> is_head solidc (i ++ r).
Proof. intros H. apply head_app. eapply head_weak; [apply start_solid|auto]. Qed.
Lemma solid_entry i r : is_head entryc i -> is_head solidc (i ++ r).
Proof. intros H. apply head_app. eapply head_weak; [apply entry_solid|auto]. Qed.

(** The first token of a phrase is not an occurrence indicator. *)
Lemma no_occur_head i : is_head (fun c => EALPHA c \/ opener c) i -> soft (p_occur i).
Proof. intros H. apply soft_occur. destruct i; cbn in *; auto. chars. Qed.
Lemma no_occur2 t r : w2 t -> stop r -> soft (p_occur (pr2 t ++ r)).
Proof.
  destruct t; cbn [print_type2 w_type2]; intros W St; try (apply no_occur_head; cbn; chars).
  - eapply lit_no_occur; eauto.
  - apply no_occur_head. apply head_app, head_app. eapply head_weak; [|apply ident_head; apply W]. auto.
Qed.
Lemma no_occur1 t r : w1 t -> stop r -> soft (p_occur (pr1 t ++ r)).
Proof.
  destruct t; cbn [print_type1 w_type1]; intros W St; [apply no_occur2; auto| |]; rewrite <- !app_assoc; apply no_occur2; try tauto.
  - destruct inclusive; left; reflexivity.
  - left; reflexivity.
Qed.
Lemma no_occurv v r : wv v -> stop r -> soft (p_occur (prv v ++ r)).
Proof.
  destruct v as [[[[k|n|v] cut]|] t|n|g]; cbn [print_grpent_val w_grpent_val]; intros W St; rewrite <- ?app_assoc.
  - apply no_occur1; [tauto|]. destruct cut; left; reflexivity.
  - apply no_occur_head. apply head_app. eapply head_weak; [|apply ident_head; apply W]. auto.
  - eapply lit_no_occur; [apply W|]. cbn. chars.
  - destruct t as [|a t]; [tauto|]. destruct W as [_ [W _]]. cbn [map]. unfold print_choices. rewrite join_cons, <- app_assoc. apply no_occur1; auto.
    destruct t; cbn [map]; [auto|]. rewrite jt_cons. left; reflexivity.
  - tauto.
  - apply no_occur_head. cbn. chars.
Qed.
End WithX.
