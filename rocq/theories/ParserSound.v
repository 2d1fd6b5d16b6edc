(** Soundness of the parser for the grammar of SpecSyntax.v. *)
From Coq Require Import List Bool Arith ZArith NArith String Lia.
From Verif Require Import Base Util Data Ivt Ast Nom NomProofs Parser ParserFuel NomDone SpecSyntax ValueOrder TokenProofs LiteralProofs.
Import ListNotations.
Open Scope list_scope.

(** Whenever [p] succeeds, it has parsed what [R] describes. *)
Definition sound {A} (p : parser A) (R : text -> A -> text -> Prop) : Prop := forall i a r, p i = Done a r -> R i a r.

Lemma reps_many {A} (p : parser A) R i l r : sound p R -> reps p i l r -> many R i l r.
Proof. intros H. induction 1; econstructor; eauto. Qed.
Lemma sreps_sep {A B} (s : parser B) (p : parser A) (S : text -> text -> Prop) R i a j l r :
  sound s (fun i _ r => S i r) -> sound p R -> R i a j -> sreps s p j l r -> sep_by S R i (a :: l) r.
Proof.
  intros Hs Hp H Q. revert i a H. induction Q; intros; [apply sb_one; auto|apply sb_one; auto|].
  eapply sb_more; eauto.
Qed.
Lemma sep_sound {A B} (s : parser B) (p : parser A) (S : text -> text -> Prop) R :
  shrinks s -> shrinks p -> sound s (fun i _ r => S i r) -> sound p R -> sound (separated_list1 s p) (sep_by S R).
Proof.
  intros Sh Sh' Hs Hp i l r H. apply sep_done in H; auto. destruct H as (a & l' & m & -> & E & Q).
  eapply sreps_sep; eauto.
Qed.

Lemma sound_ws : sound p_ws (fun i _ r => d_ws i r).
Proof. intros i w r H. eapply ws_sound; eauto. Qed.
Lemma spaced_sound s : sound (delimited p_ws (tag s) p_ws) (fun i _ r => d_spaced s i r).
Proof.
  intros i b r H. apply delimited_done in H. destruct H as (a & m & m' & c & H & E & F). apply tag_done in E. destruct E as [-> ->].
  apply ws_sound in H. apply ws_sound in F. exists (txt s ++ m'), m'. repeat split; auto.
Qed.
Lemma then_ws_sound s : sound (pairp (tag s) p_ws) (fun i _ r => d_then_ws s i r).
Proof.
  intros i b r H. apply pair_done in H. destruct H as (m & H & E). apply tag_done in H. destruct H as [_ ->]. apply ws_sound in E.
  exists m. split; auto. reflexivity.
Qed.
Lemma optcom_sound : sound p_optcom (fun i _ r => d_optcom i r).
Proof.
  intros i b r H. apply value_done in H. destruct H as [_ [a H]]. apply pair_done in H. destruct H as (m & H & E). apply ws_sound in H.
  apply opt_done in E. destruct (snd a) as [x|].
  - right. apply pair_done in E. destruct E as (m' & E & F). apply tag_done in E. destruct E as [_ ->]. apply ws_sound in F.
    exists (txt "," ++ m'), m'. repeat split; auto.
  - destruct E as [-> _]. left; auto.
Qed.
Lemma ident_tok i n r : p_ident i = Done n r -> is_ident n /\ tok i n r.
Proof. intros H. apply ident_sound in H. destruct H as (A & B & _). auto. Qed.

Lemma in_done {A} (o c : N) (p : parser A) i a r : p_in o c p i = Done a r ->
  exists j k m, i = o :: j /\ d_ws j k /\ p k = Done a m /\ exists m', d_ws m m' /\ m' = c :: r.
Proof.
  intros H. apply delimited_done in H. destruct H as (x & m & m' & y & H & E & F). apply char_done in H. apply char_done in F.
  destruct H as [-> ->]. destruct F as [-> ->]. apply delimited_done in E. destruct E as (w & k & k' & w' & H & E & F).
  apply ws_sound in H. apply ws_sound in F. exists m, k, k'. eauto 10.
Qed.

(** * Occurrences *)
Lemma uint_u64_sound i n r : p_uint_u64 i = Done n r -> exists c, i = c ++ r /\ uint_lit c n /\ (n < 2 ^ 64)%N.
Proof.
  intros H. apply map_res_fail_done in H. destruct H as ([s b] & H & E). apply uint_sound in H. destruct H as (c & -> & R).
  pose proof (raw_uint_total _ _ _ R) as (n' & U & S & B & _). cbn [fst snd] in E. rewrite (from_str_radix_iff _ _ _ B S) in E.
  destruct (N.ltb_spec n' (2 ^ 64)); [|discriminate]. inversion E; subst. eauto.
Qed.
Lemma bound_sound i o r : opt p_uint_u64 i = Done o r -> exists c, i = c ++ r /\ bound_lit c o.
Proof.
  intros H. apply opt_done in H. destruct o as [n|].
  - apply uint_u64_sound in H. destruct H as (c & -> & U & L). exists c. split; auto. constructor; auto.
  - destruct H as [-> _]. exists []. split; auto. constructor.
Qed.
Lemma occur_sound i o r : p_occur i = Done o r -> exists c, i = c ++ r /\ occur_lit c o.
Proof.
  intros H. apply or_done in H. destruct H as [H|[_ H]].
  - apply map_res_done in H. destruct H as ([lo [st hi]] & H & E). cbn [fst snd] in E.
    apply pair_done in H. destruct H as (m & H & F). cbn [fst snd] in *. apply pair_done in F. destruct F as (m' & F & G). cbn [fst snd] in *.
    apply tag_done in F. destruct F as [-> ->]. apply bound_sound in H. destruct H as (c & -> & Hc). apply bound_sound in G. destruct G as (d & -> & Hd).
    exists (c ++ txt "*" ++ d). split; [now rewrite <- !app_assoc|].
    destruct lo as [lo|].
    + inversion E; subst. apply (ol_bounds c (Some lo) d hi); auto. discriminate.
    + destruct hi as [hi|].
      * inversion E; subst. apply (ol_bounds c None d (Some hi)); auto. discriminate.
      * inversion E; subst. inversion Hc; inversion Hd; subst. apply ol_star.
  - apply or_done in H. destruct H as [H|[_ H]]; apply value_done in H; destruct H as [-> [a H]]; apply tag_done in H; destruct H as [_ ->].
    + exists (txt "+"). split; auto. constructor.
    + exists (txt "?"). split; auto. constructor.
Qed.

Section WithX.
Variable X : ext.

(** * Phrases, given the parsers for [type1] and [group] *)
Section Bodies.
Variable T1 : parser type1.
Variable G : parser group.
Hypothesis shT : shrinks T1.
Hypothesis shG : shrinks G.
Hypothesis soT : sound T1 (d_type1 X).
Hypothesis soG : sound G (d_group X).

Lemma ty_sound : sound (p_ty T1) (d_type X).
Proof.
  intros i l r H. constructor. revert H. apply (sep_sound _ _ (d_spaced "/") (d_type1 X)); auto with nom.
  apply spaced_sound.
Qed.
Lemma name_sound i n a r : p_name_generic T1 i = Done (n, a) r -> d_name X i n a r.
Proof.
  intros H. apply map_done in H. destruct H as ([n' o] & H & [= -> ->]). apply pair_done in H. destruct H as (m & H & E). cbn [fst snd] in *.
  apply ident_tok in H. destruct H as [I Tk]. apply opt_done in E. destruct o as [l|]; [|destruct E as [-> _]; apply dn_plain; auto].
  apply delimited_done in E. destruct E as (x & j & k & y & E & F & K). apply then_ws_sound in E. apply tag_done in K. destruct K as [-> ->].
  eapply dn_args; eauto; [|reflexivity]. revert F. apply sep_sound; auto with nom.
  - apply then_ws_sound.
  - intros a b c H. apply terminated_done in H. destruct H as (m' & w & H & H'). apply soT in H. apply ws_sound in H'. eauto.
Qed.
Lemma type2_sound : sound (p_type2 X T1 G) (d_type2 X).
Proof.
  intros i t r H. unfold p_type2 in H.
  apply or_done in H. destruct H as [H|[_ H]].
  { apply map_done in H. destruct H as (v & H & ->). apply value_sound in H. destruct H as (c & -> & V). eapply d2_value; eauto. reflexivity. }
  apply or_done in H. destruct H as [H|[_ H]].
  { apply map_done in H. destruct H as ([n a] & H & ->). apply name_sound in H. apply d2_name; auto. }
  apply or_done in H. destruct H as [H|[_ H]].
  { apply map_done in H. destruct H as (l & H & ->). apply in_done in H. destruct H as (j & k & m & -> & W & E & (m' & W' & ->)).
    apply ty_sound in E. eapply d2_paren; [exists j; split; [reflexivity|eauto]|eauto|eexists; split; [eauto|reflexivity]]. }
  apply or_done in H. destruct H as [H|[_ H]].
  { apply map_done in H. destruct H as (l & H & ->). apply in_done in H. destruct H as (j & k & m & -> & W & E & (m' & W' & ->)).
    apply soG in E. eapply d2_map; [exists j; split; [reflexivity|eauto]|eauto|eexists; split; [eauto|reflexivity]]. }
  apply or_done in H. destruct H as [H|[_ H]].
  { apply map_done in H. destruct H as (l & H & ->). apply in_done in H. destruct H as (j & k & m & -> & W & E & (m' & W' & ->)).
    apply soG in E. eapply d2_array; [exists j; split; [reflexivity|eauto]|eauto|eexists; split; [eauto|reflexivity]]. }
  apply or_done in H. destruct H as [H|[_ H]].
  { apply map_done in H. destruct H as ([n a] & H & ->). apply preceded_done in H. destruct H as (x & m & H & E). apply tag_done in H. destruct H as [_ ->].
    apply preceded_done in E. destruct E as (w & k & W & E). apply ws_sound in W. apply name_sound in E. eapply d2_unwrap; eauto. exists m. split; [reflexivity|auto]. }
  apply or_done in H. destruct H as [H|[_ H]].
  { apply map_done in H. destruct H as (l & H & ->). apply preceded_done in H. destruct H as (x & m & H & E). apply tag_done in H. destruct H as [_ ->].
    apply preceded_done in E. destruct E as (w & k & W & E). apply ws_sound in W. apply in_done in E. destruct E as (j & k' & n & -> & W' & E & (m' & W'' & ->)).
    apply soG in E. eapply d2_choice_inline; [exists m; split; [reflexivity|eauto]|exists j; split; [reflexivity|eauto]|eauto|eexists; split; [eauto|reflexivity]]. }
  apply map_done in H. destruct H as ([n a] & H & ->). apply preceded_done in H. destruct H as (x & m & H & E). apply tag_done in H. destruct H as [_ ->].
  apply preceded_done in E. destruct E as (w & k & W & E). apply ws_sound in W. apply name_sound in E. eapply d2_choice; eauto. exists m. split; [reflexivity|auto].
Qed.
Lemma ident_not_dots n : is_ident n -> n <> txt ".." /\ n <> txt "...".
Proof.
  intros I. apply id_head in I. destruct I as (c & m & -> & E).
  split; intros [= -> _]; unfold EALPHA, ALPHA, between in E; lia.
Qed.
Lemma type1_body_sound : sound (type1_body X T1 G) (d_type1 X).
Proof.
  intros i t r H. apply map_done in H. destruct H as ([t2 o] & H & ->). apply pair_done in H. destruct H as (m & H & E). cbn [fst snd] in *.
  apply type2_sound in H. apply opt_done in E. destruct o as [[op u]|]; [|destruct E as [-> _]; apply d1_simple; auto].
  apply preceded_done in E. destruct E as (w & k & W & E). apply ws_sound in W. apply pair_done in E. destruct E as (k' & E & F). cbn [fst snd] in *.
  apply preceded_done in F. destruct F as (w' & q & W' & F). apply ws_sound in W'. apply type2_sound in F.
  apply or_done in E. destruct E as [E|[_ E]].
  { apply tag_done in E. destruct E as [-> ->]. eapply (d1_range X _ _ _ _ _ _ _ false); eauto. eexists. split; [reflexivity|auto]. }
  apply or_done in E. destruct E as [E|[_ E]].
  { apply tag_done in E. destruct E as [-> ->]. eapply (d1_range X _ _ _ _ _ _ _ true); eauto. eexists. split; [reflexivity|auto]. }
  apply preceded_done in E. destruct E as (x & k2 & E & E'). apply tag_done in E. destruct E as [_ ->]. apply ident_tok in E'. destruct E' as [I ->].
  destruct (ident_not_dots _ I) as [N1 N2].
  destruct (text_eqb op (txt "..")) eqn:Q1; [apply text_eqb_eq in Q1; congruence|].
  destruct (text_eqb op (txt "...")) eqn:Q2; [apply text_eqb_eq in Q2; congruence|].
  eapply d1_control; eauto. eexists. split; [unfold tok; now rewrite <- app_assoc|auto].
Qed.

(** Members. *)
Lemma type_of_more i a j k l r : d_type1 X i a j -> d_ws j k -> p_more_choices T1 k = Done l r -> 
  exists m, d_type X i (a :: l) m /\ d_ws m r.
Proof.
  intros H W E. apply many0_done in E; [|auto with nom].
  destruct l as [|b l]; [inversion E; subst; exists j; split; [constructor; apply sb_one; auto|auto]|].
  exists r. split; [|constructor]. constructor.
  assert (Q : forall i a j k l r, d_type1 X i a j -> d_ws j k -> reps (preceded p_slash T1) k l r -> l <> [] -> sep_by (d_spaced "/") (d_type1 X) i (a :: l) r).
  { clear - soT. intros i a j k l r H W E. revert i a j H W. induction E as [i0 e E|k b m l r E L R IH]; intros i a j H W N; [congruence|].
    apply preceded_done in E. destruct E as (x & q & E & F). apply spaced_sound in E. apply soT in F.
    apply sb_more with (j := j) (k := q); auto.
    - destruct E as (u & v & W1 & Tk & W2). exists u, v. split; [eapply ws_trans; eauto|auto].
    - destruct l as [|c l]; [inversion R; subst; apply sb_one; auto|]. eapply IH; eauto; [constructor|discriminate]. }
  eapply Q; eauto. discriminate.
Qed.
Lemma plain_sound i t j k v r : d_type1 X i t j -> d_ws j k -> member_plain T1 t k = Done v r -> d_grpent_val X i v r.
Proof.
  intros H W E. unfold member_plain in E. destruct (p_more_choices T1 k) as [l m|e|e| |] eqn:M; inversion E; subst.
  destruct (type_of_more _ _ _ _ _ _ H W M) as (q & D & W'). eapply dv_type; eauto.
Qed.
Lemma arrow_sound i t j k v r : d_type1 X i t j -> d_ws j k -> member_arrow T1 t k = Done v r -> d_grpent_val X i v r.
Proof.
  intros H W E. unfold member_arrow in E. destruct (p_arrow_tail T1 k) as [[cut ty] m|e|e| |] eqn:M; try discriminate; [|eapply plain_sound; eauto..].
  inversion E; subst. apply map_done in M. destruct M as ([o ty'] & M & [= -> ->]). apply pair_done in M. destruct M as (m & M & F). cbn [fst snd] in *.
  apply preceded_done in F. destruct F as (x & m' & F & F'). apply tag_done in F. destruct F as [_ ->].
  apply preceded_done in F'. destruct F' as (w & m2 & W' & F'). apply ws_sound in W'. apply ty_sound in F'. apply opt_done in M. destruct o as [y|].
  - apply terminated_done in M. destruct M as (q & w' & M & W2). apply tag_done in M. destruct M as [-> ->]. apply ws_sound in W2.
    eapply dv_key_cut; [eauto| | |eauto].
    + exists (txt "^" ++ q), q. split; [eauto|split; [reflexivity|eauto]].
    + exists m'. split; [reflexivity|auto].
  - destruct M as [<- _]. eapply dv_key; [eauto| |eauto]. exists (txt "=>" ++ m'), m'. split; [auto|split; [reflexivity|auto]].
Qed.
Lemma colon_sound i t j k v r : d_type1 X i t j -> d_ws j k -> (exists t2, t = T1Simple t2) ->
  member_colon T1 t k = Done v r -> d_grpent_val X i v r.
Proof.
  intros H W (t2 & ->) E. unfold member_colon in E. destruct (p_memberkey_tail T1 k) as [ty m|e|e| |] eqn:M; try discriminate; [|eapply arrow_sound; eauto..].
  apply preceded_done in M. destruct M as (x & m' & M & F). apply then_ws_sound in M. apply ty_sound in F. destruct M as (q & -> & W').
  assert (D : d_spaced ":" j m') by (exists (txt ":" ++ q), q; split; [auto|split; [reflexivity|auto]]).
  inversion H as [i' t' r' H2| |]; subst.
  destruct t2 as [v2|n [|a0 a]| | | | | |]; cbn in E; inversion E; subst.
  - inversion H2; subst. eapply dv_value; eauto.
  - inversion H2 as [|i' n' a' r' Hn| | | | | |]; subst. inversion Hn as [|? ? ? ? ? ? ? I Tk A S Tk']; subst; [eapply dv_bareword; eauto|].
    inversion S.
Qed.
Lemma member_sound : sound (p_grpent_member T1) (d_grpent_val X).
Proof.
  intros i v r H. apply bind_done in H. destruct H as (t & k & H & E). apply terminated_done in H. destruct H as (j & w & H & W).
  apply soT in H. apply ws_sound in W.
  destruct t as [t2| |]; try (eapply arrow_sound; eauto; fail). destruct t2; try (eapply arrow_sound; eauto; fail); eapply colon_sound; eauto.
Qed.
Lemma grpent_val_sound : sound (p_grpent_val T1 G) (d_grpent_val X).
Proof.
  intros i v r H. apply or_done in H. destruct H as [H|[_ H]]; [apply member_sound; auto|]. apply or_done in H. destruct H as [H|[_ H]].
  - apply map_done in H. destruct H as (n & H & ->). apply ident_tok in H. destruct H. apply dv_name; auto.
  - apply map_done in H. destruct H as (g & H & ->). apply in_done in H. destruct H as (j & k & m & -> & W & E & (m' & W' & ->)).
    apply soG in E. eapply dv_paren; [exists j; split; [reflexivity|eauto]|eauto|eexists; split; [eauto|reflexivity]].
Qed.
Lemma grpent_sound : sound (p_grpent T1 G) (d_grpent X).
Proof.
  intros i e r H. apply map_done in H. destruct H as ([o v] & H & ->). apply pair_done in H. destruct H as (m & H & E). cbn [fst snd] in *.
  apply grpent_val_sound in E. apply opt_done in H. destruct o as [o|]; [|destruct H as [-> _]; apply dge_plain; auto].
  apply terminated_done in H. destruct H as (j & w & H & W). apply occur_sound in H. destruct H as (c & -> & O). apply ws_sound in W.
  eapply dge_occur; eauto. reflexivity.
Qed.
Lemma grpchoice_sound : sound (p_grpchoice T1 G) (many (fun i e r => exists j, d_grpent X i e j /\ d_optcom j r)).
Proof.
  intros i l r H. apply many0_done in H; [|auto using shrinks_grpent with nom]. revert H. apply reps_many.
  intros a b c H. apply terminated_done in H. destruct H as (m & w & H & E). apply grpent_sound in H. apply optcom_sound in E. eauto.
Qed.
Lemma group_body_sound : sound (group_body T1 G) (d_group X).
Proof.
  intros i g r H. apply map_done in H. destruct H as ([c l] & H & ->). apply pair_done in H. destruct H as (m & H & E). cbn [fst snd] in *.
  constructor. apply grpchoice_sound in H. apply many0_done in E; [|auto 10 using shrinks_grpchoice with nom].
  revert i c H. induction E as [i e E|i a j l r E L R IH]; intros i0 c H; [apply sb_one; auto|].
  apply preceded_done in E. destruct E as (x & q & E & F). apply spaced_sound in E. apply grpchoice_sound in F. eapply sb_more; eauto.
Qed.

(** Rules. *)
Lemma rule_sound : sound (p_rule T1 G) (d_rule X).
Proof.
  intros i x r H. apply map_done in H. destruct H as ([[n o] v] & H & ->). apply separated_pair_done in H.
  destruct H as (m & m' & w & H & W & E). cbn [fst snd] in *. apply pair_done in H. destruct H as (j & H & P). cbn [fst snd] in *.
  apply ident_tok in H. destruct H as [I Tk]. apply ws_sound in W.
  assert (Ps : d_parms j (match o with Some l => l | None => [] end) m).
  { apply opt_done in P. destruct o as [l|]; [|destruct P as [-> _]; constructor]. apply delimited_done in P.
    destruct P as (a & k & k' & b & P & Q & K). apply then_ws_sound in P. apply tag_done in K. destruct K as [-> ->].
    eapply dp_some; eauto; [|reflexivity]. revert Q. apply sep_sound; auto with nom.
    - apply then_ws_sound.
    - intros u s z H. apply terminated_done in H. destruct H as (q & w' & H & W'). apply ident_tok in H. apply ws_sound in W'. destruct H. eauto. }
  apply map_done in E. destruct E as ([eq v'] & E & ->). apply separated_pair_done in E. destruct E as (k & k' & w' & E & W' & F). cbn [fst snd] in *.
  apply tag_done in E. destruct E as [-> ->]. apply ws_sound in W'.
  assert (D : d_spaced "=" m k') by (exists (txt "=" ++ k), k; split; [auto|split; [reflexivity|auto]]).
  apply or_done in F. destruct F as [F|[_ F]]; apply map_done in F; destruct F as (t & F & ->).
  - apply ty_sound in F. eapply dr_type; eauto.
  - apply grpent_sound in F. eapply dr_group; eauto.
Qed.
End Bodies.

Lemma f_sound n : sound (type1_f X n) (d_type1 X) /\ sound (group_f X n) (d_group X).
Proof.
  induction n as [|n [IH1 IH2]]; [split; intros i a r H; discriminate|].
  pose proof (shrinks_f X n) as [S1 S2]. rewrite type1_f_S, group_f_S. split; [apply type1_body_sound|apply group_body_sound]; auto.
Qed.
Lemma type1_sound : sound (parse_type1 X) (d_type1 X).
Proof. intros i a r H. eapply f_sound; eauto. Qed.
Lemma group_sound : sound (parse_group X) (d_group X).
Proof. intros i a r H. eapply f_sound; eauto. Qed.
Lemma parse_rule_sound : sound (p_rule (parse_type1 X) (parse_group X)) (d_rule X).
Proof. apply rule_sound; auto using type1_sound, group_sound, shrinks_group, eats_type1 with nom. Qed.
End WithX.
