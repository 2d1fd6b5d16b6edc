(** Every tree the parser returns can be written canonically: the converse of
    PrintExact.v.  A bare name is never kept as a group name: where it is
    recognised as one, what follows cannot be parsed. *)
From Coq Require Import List Bool Arith ZArith NArith String Lia.
From Verif Require Import Base Util Data Ivt Ast Nom NomProofs Parser ParserFuel NomDone SpecSyntax ValueOrder TokenProofs LiteralProofs
  ParserSound ParserApi ParserSoft SpecPrint PrintProofs PrintExact.
Import ListNotations.
Open Scope list_scope.

Section WithX.
Variable X : ext.
Variable wval : ast_value -> Prop.
Variable wocc : occur_limit -> Prop.
Variable wfirst : occur_limit -> Prop.
Notation w1 := (w_type1 wval wocc).
Notation w2 := (w_type2 wval wocc).
Notation we := (w_grpent wval wocc).
Notation wv := (w_grpent_val wval wocc).
Hypothesis spell : forall s v, value_lit X s v -> wval v.
Hypothesis limit : forall s o, occur_lit s o -> wocc o.
Hypothesis lead : forall s o, occur_lit s o -> no_digit s -> wfirst o.

Definition blocked (r : text) : Prop := exists c j, r = c :: j /\ p_ws r = Done [] r /\ ~ In c [0x29; 0x5d; 0x7d]%N /\ ~ EALPHA c.
Definition cleang (g : list (list grpent)) : Prop := g <> [] /\ all (all we) g.

Section Bodies.
Variable T1 : parser type1.
Variable G : parser group.
Hypothesis shT : shrinks T1.
Hypothesis shG : shrinks G.
Hypothesis cT : forall i t r, T1 i = Done t r -> w1 t.
Hypothesis cG : forall i g r, G i = Done g r -> cleang g \/ blocked r.

Lemma sep_all {A B} (s : parser B) (p : parser A) (P : A -> Prop) i l r :
  shrinks s -> shrinks p -> (forall i a r, p i = Done a r -> P a) -> separated_list1 s p i = Done l r -> l <> [] /\ all P l.
Proof.
  intros S1 S2 H E. apply sep_done in E; auto. destruct E as (a & l' & m & -> & E & Q). split; [discriminate|].
  split; [eauto|]. clear E. induction Q; cbn; auto. split; eauto.
Qed.
Lemma ty_clean i t r : p_ty T1 i = Done t r -> t <> [] /\ all w1 t.
Proof. apply sep_all; auto with nom. Qed.
Lemma args_clean i n a r : p_name_generic T1 i = Done (n, a) r -> is_ident n /\ all w1 a.
Proof.
  intros H. apply map_done in H. destruct H as ([n' o] & H & [= -> ->]). apply pair_done in H. destruct H as (m & H & E). cbn [fst snd] in *.
  apply ident_tok in H. destruct H as [I _]. split; auto. apply opt_done in E. destruct o as [l|]; [|exact Logic.I].
  apply delimited_done in E. destruct E as (x & j & k & y & E & F & K). eapply sep_all in F; auto with nom; [apply F|].
  intros i' a r' H. apply terminated_done in H. destruct H as (m' & w & H & _). eauto.
Qed.
Lemma in_clean o c i g r : In c [0x29; 0x5d; 0x7d]%N -> p_in o c G i = Done g r -> cleang g.
Proof.
  intros I H. apply delimited_done in H. destruct H as (x & m & m' & y & _ & E & F). apply char_done in F. destruct F as [_ ->].
  apply delimited_done in E. destruct E as (w & k & k' & w' & _ & E & F). apply cG in E. destruct E as [E|(d & j & -> & W & N & _)]; auto.
  rewrite W in F. inversion F; subst. contradiction.
Qed.
Lemma type2_clean i t r : p_type2 X T1 G i = Done t r -> w2 t.
Proof.
  intros H. unfold p_type2 in H.
  apply or_done in H. destruct H as [H|[_ H]].
  { apply map_done in H. destruct H as (v & H & ->). apply value_sound in H. destruct H as (c & -> & V). eapply spell; eauto. }
  apply or_done in H. destruct H as [H|[_ H]].
  { apply map_done in H. destruct H as ([n a] & H & ->). eapply args_clean; eauto. }
  apply or_done in H. destruct H as [H|[_ H]].
  { apply map_done in H. destruct H as (l & H & ->). apply in_done in H. destruct H as (j & k & m & -> & W & E & (m' & W' & ->)).
    eapply ty_clean; eauto. }
  apply or_done in H. destruct H as [H|[_ H]].
  { apply map_done in H. destruct H as (l & H & ->). eapply in_clean; [|eauto]; cbn; auto. }
  apply or_done in H. destruct H as [H|[_ H]].
  { apply map_done in H. destruct H as (l & H & ->). eapply in_clean; [|eauto]; cbn; auto. }
  apply or_done in H. destruct H as [H|[_ H]].
  { apply map_done in H. destruct H as ([n a] & H & ->). apply preceded_done in H. destruct H as (x & m & H & E).
    apply preceded_done in E. destruct E as (w & k & W & E). eapply args_clean; eauto. }
  apply or_done in H. destruct H as [H|[_ H]].
  { apply map_done in H. destruct H as (l & H & ->). apply preceded_done in H. destruct H as (x & m & H & E).
    apply preceded_done in E. destruct E as (w & k & W & E). eapply in_clean; [|eauto]; cbn; auto. }
  apply map_done in H. destruct H as ([n a] & H & ->). apply preceded_done in H. destruct H as (x & m & H & E).
  apply preceded_done in E. destruct E as (w & k & W & E). eapply args_clean; eauto.
Qed.
Lemma type1_clean i t r : type1_body X T1 G i = Done t r -> w1 t.
Proof.
  intros H. apply map_done in H. destruct H as ([t2 o] & H & ->). apply pair_done in H. destruct H as (m & H & E). cbn [fst snd] in *.
  apply type2_clean in H. apply opt_done in E. destruct o as [[op u]|]; [|exact H].
  apply preceded_done in E. destruct E as (w & k & W & E). apply pair_done in E. destruct E as (k' & E & F). cbn [fst snd] in *.
  apply preceded_done in F. destruct F as (w' & q & W' & F). apply type2_clean in F.
  destruct (text_eqb op (txt "..")) eqn:Q1; [split; auto|]. destruct (text_eqb op (txt "...")) eqn:Q2; [split; auto|].
  split; [auto|split; [auto|]].
  apply or_done in E. destruct E as [E|[_ E]]; [apply tag_done in E; destruct E as [-> _]; discriminate|].
  apply or_done in E. destruct E as [E|[_ E]]; [apply tag_done in E; destruct E as [-> _]; discriminate|].
  apply preceded_done in E. destruct E as (x & k2 & E & E'). apply ident_tok in E'. tauto.
Qed.

(** Members. *)
Notation kind k := (match k with T1Simple (T2Value _) | T1Simple (T2Typename _ _) => member_colon T1 k | _ => member_arrow T1 k end).
Lemma sh_more : shrinks (preceded p_slash T1). Proof. apply shrinks_bind; [auto with nom|intros; apply shT]. Qed.
Lemma plain_clean t k v r : w1 t -> member_plain T1 t k = Done v r -> wv v.
Proof.
  intros W E. unfold member_plain in E. destruct (p_more_choices T1 k) as [l m|e|e| |] eqn:M; inversion E; subst.
  split; [discriminate|]. split; auto. apply many0_done in M; [|apply sh_more]. clear E. induction M as [|i a j l r E L R IH]; [exact I|].
  apply preceded_done in E. destruct E as (x & q & E & F). split; [exact (cT _ _ _ F)|exact IH].
Qed.
Lemma arrow_clean t k v r : w1 t -> member_arrow T1 t k = Done v r -> wv v.
Proof.
  intros W E. unfold member_arrow in E. destruct (p_arrow_tail T1 k) as [[cut ty] m|e|e| |] eqn:M; try discriminate; [|eapply plain_clean; eauto..].
  inversion E; subst. split; auto. apply map_done in M. destruct M as ([o ty'] & M & [= -> ->]). apply pair_done in M. destruct M as (m & M & F). cbn [fst snd] in *.
  apply preceded_done in F. destruct F as (x & m' & F & F'). apply preceded_done in F'. destruct F' as (w & m2 & W' & F'). eapply ty_clean; eauto.
Qed.
Lemma member_clean i v r : p_grpent_member T1 i = Done v r -> wv v.
Proof.
  intros H. apply bind_done in H. destruct H as (t & k & H & E). apply terminated_done in H. destruct H as (j & w & H & W).
  apply cT in H.
  assert (C : member_colon T1 t k = Done v r -> wv v).
  { clear E. intros E. unfold member_colon in E. destruct (p_memberkey_tail T1 k) as [ty m|e|e| |] eqn:M; try discriminate; [|eapply arrow_clean; eauto..].
    apply preceded_done in M. destruct M as (x & m' & M & F). apply ty_clean in F.
    destruct t as [[v2|n [|a0 a]| | | | | |]| |]; cbn in E; inversion E; subst; cbn; repeat split; try apply F; apply H. }
  destruct t as [[]| |]; try (eapply arrow_clean; eauto; fail); auto.
Qed.

(** What follows a name read as a group name. *)
Lemma soft_type2_any (T : parser type1) (Gr : parser group) i : soft (p_value X i) -> ~ is_head (fun c => EALPHA c \/ opener c) i -> soft (p_type2 X T Gr i).
Proof.
  intros V H. assert (O : forall c, opener c -> ~ is_head (eq c) i).
  { intros c Hc. destruct i as [|d i]; auto. cbn in *. intros <-. auto. }
  unfold opener in O. repeat apply soft_or; apply soft_map; auto; apply soft_bind;
    try (apply soft_char; apply O; auto; fail); try (eapply soft_tag_head; [reflexivity|apply O; cbn; auto 10]; fail).
  apply soft_bind, soft_ident. destruct i; cbn in *; auto.
Qed.
Definition dead (r : text) : Prop :=
  blocked r /\ ~ is_head (eq 0x2c%N) r /\ (forall j, r <> txt "//" ++ j) /\ forall e m, p_grpent T1 G r <> Done e m.

Hypothesis body : (exists T' G', forall j, T1 j = type1_body X T' G' j) \/ forall j, T1 j = NoFuel.

Section Dead.
Variable T' : parser type1.
Variable G' : parser group.
Hypothesis ET : forall j, T1 j = type1_body X T' G' j.
Lemma soft_t1_any i : soft (p_type2 X T' G' i) -> soft (T1 i).
Proof. intros H. rewrite ET. apply soft_map, soft_bind. auto. Qed.
Lemma soft_grpent_any i : soft (p_occur i) -> soft (T1 i) -> ~ is_head (fun c => EALPHA c \/ c = 0x28%N) i -> soft (p_grpent T1 G i).
Proof.
  intros O H Hi. apply soft_map. unfold pairp, bindp at 1. rewrite (opt_soft (terminated p_occur p_ws)) by (apply soft_bind; auto).
  apply soft_bind. repeat apply soft_or.
  - apply soft_bind, soft_bind. auto.
  - apply soft_map, soft_ident. destruct i; cbn in *; auto.
  - apply soft_map, soft_bind, soft_char. destruct i; cbn in *; auto.
Qed.
Definition markc (c : N) : Prop := (c = 0x3c \/ c = 0x2e \/ c = 0x2f)%N.
Lemma mark_soft_t1 c j : markc c -> soft (T1 (c :: j)).
Proof.
  intros H. unfold markc in H. apply soft_t1_any, soft_type2_any; [apply soft_value; [cbn; chars| |]; intros q E; inversion E; subst; chars|cbn; chars].
Qed.
Lemma mark_dead c j : markc c -> (forall k, c :: j <> txt "//" ++ k) -> dead (c :: j).
Proof.
  intros H N. pose proof (mark_soft_t1 c j H) as T. unfold markc in H. split; [|split; [cbn; chars|split; [auto|]]].
  - exists c, j. split; auto. split; [apply ws_solid; cbn; chars|]. split; cbn; chars.
  - intros e m E. assert (S : soft (p_grpent T1 G (c :: j))).
    { apply soft_grpent_any; auto; [apply soft_occur|]; cbn; chars. }
    destruct S as [x S]. congruence.
Qed.
(** The key, value and further choices after the first type of a member. *)
Definition stuck (k : text) : Prop :=
  (exists j, k = 0x2f%N :: j) /\ (forall j, k <> txt "//" ++ j) /\ forall l r, p_more_choices T1 k <> Done l r.
Lemma slash_inv k x m : p_ws k = Done [] k -> p_slash k = Done x m -> exists j w, k = 0x2f%N :: j /\ p_ws j = Done w m.
Proof.
  intros W E. apply delimited_done in E. destruct E as (a & q & q' & b & E & F & K). rewrite W in E. inversion E; subst.
  apply tag_done in F. destruct F as [-> ->]. exists q', b. split; [reflexivity|auto].
Qed.
Lemma more_stuck k : p_ws k = Done [] k -> (exists e, p_more_choices T1 k = Soft e \/ p_more_choices T1 k = Hard e) -> stuck k.
Proof.
  intros W H.
  assert (Q : exists x m, p_slash k = Done x m /\ ~ soft (T1 m)).
  { destruct (p_slash k) as [x m|e|e| |] eqn:E.
    - exists x, m. split; auto. intros [e S].
      assert (Q : p_more_choices T1 k = Done [] k).
      { unfold p_more_choices, many0. cbn [many0_f]. unfold preceded at 1, bindp at 1. rewrite E, S. reflexivity. }
      rewrite Q in H. destruct H as [e' [H|H]]; discriminate.
    - assert (Q : p_more_choices T1 k = Done [] k).
      { unfold p_more_choices, many0. cbn [many0_f]. unfold preceded at 1, bindp at 1. rewrite E. reflexivity. }
      rewrite Q in H. destruct H as [e' [H|H]]; discriminate.
    - exfalso. unfold p_slash, delimited, bindp at 1 in E. rewrite W in E. unfold bindp, tag in E.
      destruct (strip (txt "/") k) as [q|]; [|discriminate]. destruct (ws_total q) as (u & v & Q). rewrite Q in E. discriminate.
    - assert (Q : p_more_choices T1 k = Crash).
      { unfold p_more_choices, many0. cbn [many0_f]. unfold preceded at 1, bindp at 1. rewrite E. reflexivity. }
      rewrite Q in H. destruct H as [e' [H|H]]; discriminate.
    - assert (Q : p_more_choices T1 k = NoFuel).
      { unfold p_more_choices, many0. cbn [many0_f]. unfold preceded at 1, bindp at 1. rewrite E. reflexivity. }
      rewrite Q in H. destruct H as [e' [H|H]]; discriminate. }
  destruct Q as (x & m & E & N). destruct (slash_inv k x m W E) as (j & w & -> & Wj). split; [eauto|]. split.
  - intros q Q. inversion Q; subst. rewrite ws_solid in Wj by (cbn; chars). inversion Wj; subst. apply N. apply mark_soft_t1. unfold markc. auto.
  - intros l r D. rewrite D in H. destruct H as [e [H|H]]; discriminate.
Qed.
Lemma stuck_dead k : stuck k -> dead k.
Proof. intros ((j & ->) & N & _). apply mark_dead; auto. unfold markc. auto. Qed.
Lemma stuck_tails k : stuck k -> soft (p_memberkey_tail T1 k) /\ soft (p_arrow_tail T1 k).
Proof.
  intros ((j & ->) & _). split; [apply soft_bind, soft_bind; eapply soft_tag_head; [reflexivity|cbn; discriminate]|].
  apply soft_map. unfold pairp, bindp at 1. rewrite opt_soft by (apply soft_bind; eapply soft_tag_head; [reflexivity|cbn; discriminate]).
  apply soft_bind, soft_bind. eapply soft_tag_head; [reflexivity|cbn; discriminate].
Qed.
Lemma stuck_member first k v r : stuck k -> kind first k <> Done v r.
Proof.
  intros S. destruct (stuck_tails k S) as [[e1 E1] [e2 E2]]. destruct S as (_ & _ & N).
  assert (P : member_plain T1 first k <> Done v r).
  { unfold member_plain. destruct (p_more_choices T1 k) eqn:M; try discriminate. exfalso. eapply N; eauto. }
  assert (A : member_arrow T1 first k <> Done v r) by (unfold member_arrow; rewrite E2; auto).
  assert (C : member_colon T1 first k <> Done v r) by (unfold member_colon; rewrite E1; auto).
  destruct first as [[]| |]; auto.
Qed.
Lemma member_stuck first k e : p_ws k = Done [] k -> kind first k = Soft e -> stuck k.
Proof.
  intros W H. apply more_stuck; auto.
  assert (P : member_plain T1 first k = Soft e -> exists e, p_more_choices T1 k = Soft e \/ p_more_choices T1 k = Hard e).
  { unfold member_plain. destruct (p_more_choices T1 k); intros Q; try discriminate; eauto. }
  assert (A : member_arrow T1 first k = Soft e -> exists e, p_more_choices T1 k = Soft e \/ p_more_choices T1 k = Hard e).
  { unfold member_arrow. destruct (p_arrow_tail T1 k); intros Q; try discriminate; auto. }
  assert (C : member_colon T1 first k = Soft e -> exists e, p_more_choices T1 k = Soft e \/ p_more_choices T1 k = Hard e).
  { unfold member_colon. destruct (p_memberkey_tail T1 k) as [t r| | | |]; intros Q; try discriminate; auto.
    destruct (assemble_basic_member first t) as [[]|]; discriminate. }
  destruct first as [[]| |]; auto.
Qed.
Lemma alpha_value i c n r v j : p_ident i = Done n r -> i = c ++ j -> value_lit X c v ->
  exists s, content BCHAR s /\ r = txt "'" ++ s ++ txt "'" ++ j.
Proof.
  intros I E V. assert (H : is_head EALPHA i).
  { apply ident_tok in I. destruct I as [I ->]. apply head_app, ident_head; auto. }
  subst i. destruct V as [s m U L|s m U L|sg s m f e bits Sg U F E N P|s t C U|s t C U|s t b C W B|s b C B].
  - apply (uint_head) in U. destruct s; [destruct U|]. cbn in *. chars.
  - cbn in H. chars.
  - exfalso. destruct Sg as [-> | ->]; cbn in H; [|chars]. apply uint_head in U. destruct s; [destruct U|]. cbn in *. chars.
  - cbn in H. chars.
  - cbn in H. chars.
  - exists s. split; auto. assert (Q : p_ident (txt "h" ++ txt "'" ++ s ++ txt "'" ++ j) = Done (txt "h") (txt "'" ++ s ++ txt "'" ++ j)).
    { apply ident_run; [apply (id_start 0x68); chars|]. apply (id_stop_head 0x27); chars. }
    rewrite <- !app_assoc in I. change (txt "h'" ++ s ++ txt "'" ++ j) with (txt "h" ++ txt "'" ++ s ++ txt "'" ++ j) in I. congruence.
  - exists s. split; auto. assert (Q : p_ident (txt "b64" ++ txt "'" ++ s ++ txt "'" ++ j) = Done (txt "b64") (txt "'" ++ s ++ txt "'" ++ j)).
    { apply ident_run; [|apply (id_stop_head 0x27); chars].
      apply (id_more (txt "b6") [] 0x34); [apply (id_more (txt "b") [] 0x36); [apply (id_start 0x62)| |]| |]; auto; chars. }
    rewrite <- !app_assoc in I. change (txt "b64'" ++ s ++ txt "'" ++ j) with (txt "b64" ++ txt "'" ++ s ++ txt "'" ++ j) in I. congruence.
Qed.
Lemma t1_ident i n r : p_ident i = Done n r -> ~ soft (T1 i).
Proof.
  intros I [e2 E1]. rewrite ET in E1. unfold type1_body, mapp, bindp at 1 in E1. 
  assert (S : soft (p_type2 X T' G' i)).
  { destruct (p_type2 X T' G' i) as [t j| | | |] eqn:E2; unfold pairp, bindp in E1; rewrite E2 in E1; try discriminate; [|eexists; reflexivity].
    exfalso. unfold opt in E1. destruct (preceded p_ws (p_range_or_control X T' G') j); discriminate. }
  destruct S as [e3 S]. unfold p_type2 at 1, orp in S.
  destruct (mapp T2Value (p_value X) i); try discriminate.
  assert (Nm : ~ soft (p_name_generic T' i)).
  { intros [e4 Q]. unfold p_name_generic, mapp, bindp at 1 in Q. unfold pairp, bindp in Q. rewrite I in Q. unfold opt in Q.
    destruct (p_generic_arg T' r); discriminate. }
  unfold mapp at 1, bindp at 1 in S. destruct (p_name_generic T' i) eqn:Q; try discriminate. apply Nm. eexists; reflexivity.
Qed.
Lemma groupname_dead i n r e : p_grpent_member T1 i = Soft e -> p_ident i = Done n r -> exists w r', p_ws r = Done w r' /\ dead r'.
Proof.
  intros M I.
  assert (Hi : is_head EALPHA i).
  { pose proof (ident_tok _ _ _ I) as [I' Ei]. rewrite Ei. apply head_app, ident_head; auto. }
  unfold p_grpent_member, bindp at 1 in M. destruct (terminated T1 p_ws i) as [first k|e'|e'| |] eqn:T; try discriminate.
  - apply terminated_done in T. destruct T as (j & w & T & W).
    assert (St : stuck k).
    { eapply (member_stuck first); [eapply ws_idem; eauto|]. destruct first as [[]| |]; exact M. }
    rewrite ET in T. apply map_done in T. destruct T as ([t2 o] & T & Ef). apply pair_done in T. destruct T as (j0 & T & O). cbn [fst snd] in *.
    unfold p_type2 in T. apply or_done in T. destruct T as [T|[_ T]].
    { (* a byte string *)
      apply map_done in T. destruct T as (v & T & ->). pose proof (value_sound _ _ _ _ T) as (c & Ec & V).
      destruct (alpha_value _ _ _ _ _ _ I Ec V) as (s & C & ->). set (r := txt "'" ++ s ++ txt "'" ++ j0).
      exists [], r. assert (Wr : p_ws r = Done [] r) by (apply ws_solid; cbn; chars). split; auto. split; [|split; [cbn; discriminate|split; [discriminate|]]].
      - exists 0x27%N, (s ++ txt "'" ++ j0). split; [reflexivity|]. split; auto. split; cbn; chars.
      - intros e1 m1 Q. apply map_done in Q. destruct Q as ([o' v'] & Q & _). apply pair_done in Q. destruct Q as (m & Q & Q'). cbn [fst snd] in *.
        rewrite opt_soft in Q by (apply soft_bind, soft_occur; cbn; chars). inversion Q; subst o' m. clear Q.
        apply or_done in Q'. destruct Q' as [Q'|[_ Q']].
        + apply bind_done in Q'. destruct Q' as (f2 & k2 & Q1 & Q2). apply terminated_done in Q1. destruct Q1 as (j2 & w2 & Q1 & W2).
          assert (j2 = j); [|subst j2; rewrite W in W2; inversion W2; subst; pose proof (stuck_member f2 k2 v' m1 St) as Q3; destruct f2 as [[]| |]; exact (Q3 Q2)].
          rewrite ET in Q1. apply map_done in Q1. destruct Q1 as ([t3 o3] & Q1 & _). apply pair_done in Q1. destruct Q1 as (j3 & Q1 & O3). cbn [fst snd] in *.
          assert (j3 = j0); [|subst; rewrite O in O3; congruence].
          unfold p_type2, orp at 1, mapp at 1, bindp at 1 in Q1. pose proof (bytes_run X s j0 C) as B. fold r in B. rewrite B in Q1.
          destruct (unescape X s); [|discriminate]. inversion Q1. reflexivity.
        + apply or_done in Q'. destruct Q' as [Q'|[_ Q']]; apply map_done in Q'; destruct Q' as (x & Q' & _).
          * apply ident_tok in Q'. destruct Q' as [J Ej]. apply ident_head in J. destruct x; [destruct J|]. inversion Ej; subst. cbn in J. chars.
          * apply in_done in Q'. destruct Q' as (? & ? & ? & Ej & _). discriminate. }
    apply or_done in T. destruct T as [T|[_ T]].
    { (* a name *)
      apply map_done in T. destruct T as ([n' a] & T & ->). apply map_done in T. destruct T as ([n2 o2] & T & _).
      apply pair_done in T. destruct T as (m & T & O2). cbn [fst snd] in *. rewrite I in T. inversion T; subst n2 m.
      apply opt_done in O2. destruct o2 as [l|].
      - apply delimited_done in O2. destruct O2 as (x & q & q' & y & O2 & _ & _). apply pair_done in O2. destruct O2 as (q2 & O2 & _).
        apply tag_done in O2. destruct O2 as [_ ->]. exists [], (txt "<" ++ q2). split; [apply ws_solid; cbn; chars|].
        apply mark_dead; [unfold markc; auto|discriminate].
      - destruct O2 as [-> _]. apply opt_done in O. destruct o as [[op u]|].
        + apply preceded_done in O. destruct O as (x & q & Wq & O). exists x, q. split; auto. apply pair_done in O. destruct O as (q2 & O & _).
          assert (Q : exists q3, q = 0x2e%N :: q3).
          { apply or_done in O. destruct O as [O|[_ O]]; [apply tag_done in O; destruct O as [_ ->]; eexists; reflexivity|].
            apply or_done in O. destruct O as [O|[_ O]]; [apply tag_done in O; destruct O as [_ ->]; eexists; reflexivity|].
            apply preceded_done in O. destruct O as (? & ? & O & _). apply tag_done in O; destruct O as [_ ->]; eexists; reflexivity. }
          destruct Q as [q3 ->]. apply mark_dead; [unfold markc; auto|discriminate].
        + destruct O as [-> _]. exists w, k. split; auto. apply stuck_dead; auto. }
    (* anything else begins with another character *)
    exfalso. repeat (apply or_done in T; destruct T as [T|[_ T]]); apply map_done in T; destruct T as (x & T & _);
      first [apply in_done in T; destruct T as (? & ? & ? & -> & _) | apply preceded_done in T; destruct T as (? & ? & T & _); apply tag_done in T; destruct T as [_ ->]];
      cbn in Hi; chars.
  - (* the first type cannot fail softly *)
    exfalso. unfold terminated, bindp at 1 in T. destruct (T1 i) as [t j|e2|e2| |] eqn:E1; try discriminate.
    + destruct (ws_total j) as (w & q & W). unfold bindp in T. rewrite W in T. discriminate.
    + eapply t1_ident; eauto. eexists; eauto.
Qed.
End Dead.

(** Group entries, choices and groups. *)
Definition left_dead (r : text) : Prop := exists w r', p_ws r = Done w r' /\ dead r'.
Lemma val_clean i v r : p_grpent_val T1 G i = Done v r -> wv v \/ left_dead r.
Proof.
  intros H. apply or_done in H. destruct H as [H|[[e M] H]]; [left; eapply member_clean; eauto|].
  apply or_done in H. destruct H as [H|[_ H]]; apply map_done in H; destruct H as (x & H & ->).
  - right. destruct body as [(T' & G' & ET)|N].
    + eapply groupname_dead; eauto.
    + unfold p_grpent_member, bindp at 1, terminated, bindp at 1 in M. rewrite N in M. discriminate.
  - left. eapply in_clean in H; [|cbn; auto]. exact H.
Qed.
Lemma grpent_clean i e r : p_grpent T1 G i = Done e r -> we e \/ left_dead r.
Proof.
  intros H. apply map_done in H. destruct H as ([o v] & H & ->). apply pair_done in H. destruct H as (m & H & E). cbn [fst snd] in *.
  apply val_clean in E. destruct E as [E|E]; auto. left. split; auto. apply opt_done in H. destruct o as [o|]; auto.
  apply terminated_done in H. destruct H as (k & w & H & _). apply occur_sound in H. destruct H as (c & -> & O). eapply limit; eauto.
Qed.
Lemma optcom_dead r u r' : left_dead r -> p_optcom r = Done u r' -> dead r'.
Proof.
  intros (w & q & W & D) E. apply map_done in E. destruct E as ([w' o] & E & _). apply pair_done in E. destruct E as (m & E & F). cbn [fst snd] in *.
  rewrite W in E. inversion E; subst. apply opt_done in F. destruct o as [o|]; [|destruct F as [-> _]; auto].
  exfalso. apply pair_done in F. destruct F as (k & F & _). apply tag_done in F. destruct F as [_ ->]. destruct D as (_ & N & _). apply N. reflexivity.
Qed.
Lemma choice_clean i c r : p_grpchoice T1 G i = Done c r -> all we c \/ dead r.
Proof.
  intros H. apply many0_done in H; [|apply shrinks_terminated; [apply shrinks_grpent; auto|auto with nom]].
  induction H as [i e E|i a m l r E L R IH]; [left; exact I|].
  apply terminated_done in E. destruct E as (k & u & E & O). apply grpent_clean in E. destruct E as [E|E].
  - destruct IH as [IH|IH]; auto. left. split; auto.
  - right. pose proof (optcom_dead _ _ _ E O) as D. inversion R; subst; auto. exfalso.
    apply terminated_done in H. destruct H as (k' & u' & H & _). destruct D as (_ & _ & _ & D). exact (D _ _ H).
Qed.
Lemma group_clean i g r : group_body T1 G i = Done g r -> cleang g \/ blocked r.
Proof.
  intros H. apply map_done in H. destruct H as ([c l] & H & ->). apply pair_done in H. destruct H as (m & H & E). cbn [fst snd] in *.
  apply many0_done in E; [|apply shrinks_preceded; [auto with nom|apply shrinks_grpchoice; auto]].
  assert (Q : all we c \/ dead m) by (eapply choice_clean; eauto). clear H.
  assert (Q2 : all (all we) (c :: l) \/ dead r).
  { revert c Q. induction E as [i' e E|i' a k l r E L R IH]; intros c Q; [destruct Q; [left; split; [auto|exact I]|auto]|].
    apply preceded_done in E. destruct E as (x & q & E & F). destruct Q as [Q|D].
    - destruct (IH a (choice_clean _ _ _ F)) as [IH'|IH']; auto. left. split; auto.
    - exfalso. apply delimited_done in E. destruct E as (w & q1 & q2 & w' & W & E & _). apply tag_done in E. destruct E as [_ ->].
      destruct D as ((c0 & j & -> & Wd & _) & _ & N & _). rewrite Wd in W. apply (N q2). congruence. }
  destruct Q2 as [Q2|D]; [left; split; [discriminate|auto]|right; apply D].
Qed.
End Bodies.

Lemma f_clean n : (forall i t r, type1_f X n i = Done t r -> w1 t) /\ (forall i g r, group_f X n i = Done g r -> cleang g \/ blocked r).
Proof.
  induction n as [|n [IT IG]]; [split; discriminate|]. split; intros i x r H.
  - rewrite type1_f_S in H. eapply type1_clean; [..|exact H]; auto; apply shrinks_f.
  - rewrite group_f_S in H. eapply group_clean; [..|exact H]; auto; try apply shrinks_f.
    destruct n as [|n]; [right; reflexivity|left]. exists (type1_f X n), (group_f X n). intros j. rewrite type1_f_S. reflexivity.
Qed.
Notation T1 := (parse_type1 X).
Notation G := (parse_group X).
Lemma t1_clean i t r : T1 i = Done t r -> w1 t. Proof. apply f_clean. Qed.
Lemma g_clean i g r : G i = Done g r -> cleang g \/ blocked r. Proof. apply f_clean. Qed.
Lemma t1_body : (exists T' G', forall j, T1 j = type1_body X T' G' j) \/ forall j, T1 j = NoFuel.
Proof. left. exists T1, G. apply type1_eq. Qed.

(** Rules. *)
Lemma sep_f_soft {A B} (s : parser B) (p : parser A) n i e : eats s -> sep_loop_f n s p i <> Soft e.
Proof.
  intros Es. revert i. induction n as [|n IH]; intros i; [discriminate|]. cbn. destruct (s i) as [b m| | | |] eqn:E; try discriminate.
  apply Es in E. destruct (Nat.eqb_spec (List.length m) (List.length i)); [lia|]. destruct (p m) as [a j| | | |]; try discriminate.
  specialize (IH j). destruct (sep_loop_f n s p j); congruence.
Qed.
Lemma ty_soft i : soft (p_ty T1 i) -> soft (T1 i).
Proof.
  intros [e H]. unfold p_ty, separated_list1, bindp in H. destruct (T1 i) as [a r| | | |] eqn:E; try discriminate; [|eexists; reflexivity].
  exfalso. destruct (sep_loop_f _ _ _ _) eqn:Q; try discriminate. eapply sep_f_soft; [|exact Q]. auto with nom.
Qed.
Lemma val_not_soft i v r : p_grpent_val T1 G i = Done v r -> soft (T1 i) -> exists g, v = GParen g.
Proof.
  intros H [e S]. apply or_done in H. destruct H as [H|[_ H]].
  { exfalso. apply bind_done in H. destruct H as (t & k & H & _). apply terminated_done in H. destruct H as (j & w & H & _). congruence. }
  apply or_done in H. destruct H as [H|[_ H]]; apply map_done in H; destruct H as (x & H & ->); eauto.
  exfalso. eapply (t1_ident T1 T1 G); [apply type1_eq|exact H|eexists; eauto].
Qed.
Lemma rule_clean i x r : p_rule T1 G i = Done x r -> s_rule wval wocc wfirst x \/ exists w r', p_ws r = Done w r' /\ blocked r'.
Proof.
  intros H. apply map_done in H. destruct H as ([[n o] v] & H & ->). apply separated_pair_done in H. destruct H as (j & k & w & H & W & E). cbn [fst snd] in *.
  apply pair_done in H. destruct H as (m & H & F). cbn [fst snd] in *. apply ident_tok in H. destruct H as [I _].
  assert (P : all is_ident (match o with Some l => l | None => [] end)).
  { apply opt_done in F. destruct o as [l|]; [|exact Logic.I]. apply delimited_done in F. destruct F as (y & q & q' & z & _ & F & _).
    eapply sep_all in F; auto with nom; [apply F|]. intros i' a r' H. apply terminated_done in H. destruct H as (m' & w' & H & _). apply ident_tok in H. tauto. }
  apply map_done in E. destruct E as ([y v'] & E & ->). apply separated_pair_done in E. destruct E as (q & q' & w' & E & W' & K). cbn [fst snd] in *.
  apply or_done in K. destruct K as [K|[S K]]; apply map_done in K; destruct K as (t & K & ->).
  - left. split; auto. split; auto. eapply ty_clean; [..|exact K]; [apply shrinks_t1|apply t1_clean].
  - assert (S1 : soft (T1 q')).
    { apply ty_soft. destruct S as [e S]. unfold mapp, bindp in S. destruct (p_ty T1 q') eqn:Q; try discriminate. eexists; reflexivity. }
    pose proof (grpent_clean T1 G (shrinks_t1 X) t1_clean g_clean t1_body _ _ _ K) as C.
    destruct C as [C|(w2 & r' & W2 & D)]; [left|right; exists w2, r'; split; [auto|apply D]].
    split; auto. split; auto. cbn [r_val]. split; auto.
    apply map_done in K. destruct K as ([oo vv] & K & ->). apply pair_done in K. destruct K as (q2 & K & K2). cbn [fst snd] in *.
    apply opt_done in K. destruct oo as [oo|].
    + cbn. apply terminated_done in K. destruct K as (q3 & w3 & K & _). apply occur_sound in K. destruct K as (c & -> & O).
      eapply lead; [exact O|]. destruct O as [| | |s lo t2 hi Bs Bt N]; try (cbn; chars).
      destruct Bs as [|s n0 U L]; [cbn; chars|]. exfalso. destruct S1 as [e S1]. rewrite <- !app_assoc in S1. cbn [app] in S1.
      change (txt "*" ++ t2 ++ q3) with (0x2a%N :: t2 ++ q3) in S1. rewrite (number_t1 X s n0) in S1 by auto. discriminate.
    + destruct K as [-> _]. destruct (val_not_soft _ _ _ K2 S1) as [g ->]. exact Logic.I.
Qed.
Theorem parse_shape i c : parse_cddl X i = Some (inl c) -> s_cddl wval wocc wfirst c.
Proof.
  unfold parse_cddl. intros H. destruct (all_consuming _ i) as [c' r|e|e| |] eqn:E; inversion H; subst. clear H.
  apply all_done in E. destruct E as [E ->]. apply preceded_done in E. destruct E as (w & j & W & E).
  assert (Sh : shrinks (terminated (p_rule T1 G) p_ws)).
  { pose proof (eats_rule T1 G (eats_shrinks _ (eats_type1 X)) (shrinks_group X)). auto 10 with nom. }
  apply many1_done in E; auto. destruct E as (x & l & m & -> & E & R). split; [discriminate|].
  assert (Q : forall x i m, terminated (p_rule T1 G) p_ws i = Done x m -> forall l, reps (terminated (p_rule T1 G) p_ws) m l [] -> s_rule wval wocc wfirst x).
  { clear - limit lead spell. intros x i m H l R. apply terminated_done in H. destruct H as (j & w & H & W). apply rule_clean in H.
    destruct H as [H|(w' & r' & W' & (c & q & -> & _ & _ & N))]; auto. rewrite W in W'. inversion W'; subst. inversion R; subst. exfalso.
    apply terminated_done in H. destruct H as (k & u & H & _). apply map_done in H. destruct H as ([[n o] v] & H & _). apply separated_pair_done in H.
    destruct H as (a1 & a2 & a3 & H & _). apply pair_done in H. destruct H as (a4 & H & _). apply ident_tok in H. destruct H as [J Ej].
    apply ident_head in J. cbn [fst] in *. destruct n as [|c' n]; [destruct J|]. inversion Ej; subst. cbn in J. contradiction. }
  cbn [all]. split; [eapply Q; eauto|]. clear E W. remember [] as r eqn:Er in R. induction R as [i' e E|i' a k l r E L R IH]; [exact I|]. subst r.
  split; [eapply Q; eauto|auto].
Qed.
End WithX.
