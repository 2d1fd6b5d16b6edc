(** Malformed literals in the values of members: what the parser does. *)
From Coq Require Import List Bool Arith ZArith NArith String Lia.
From Verif Require Import Base Util Data Ivt Ast Nom NomProofs Parser ParserFuel NomDone SpecSyntax ValueOrder TokenProofs LiteralProofs
  ParserSound ParserApi ParserSoft SpecPrint FlattenProofs PrintProofs PrintExact SpecErrors ErrProofs.
Import ListNotations.
Open Scope list_scope.

Section WithX.
Variable X : ext.
Notation T1 := (parse_type1 X).
Notation G := (parse_group X).

Lemma key_run k r : is_ident k -> F1 r -> T1 (k ++ r) = Done (T1Simple (T2Typename k [])) r.
Proof.
  intros I H. pose proof (proj1 (proj2 (phrases X (fun _ => []) (fun _ => []))) (T1Simple (T2Typename k [])) (conj I Logic.I) r H) as E.
  cbn in E. rewrite app_nil_r in E. exact E.
Qed.

(** Characters at which neither an entry nor the end of a group is found. *)
Definition oddc (c : N) : Prop := In c [0x3a; 0x3d; 0x5e; 0x2f]%N.
Definition odd (m : text) : Prop := is_head oddc m /\ ~ exists r, m = txt "//" ++ r.
Lemma odd_solid m : odd m -> is_head solidc m.
Proof. intros [H _]. revert H. apply head_weak. unfold oddc. intros c H. chars. Qed.
Lemma odd_grpent m : odd m -> soft (p_grpent T1 G m).
Proof.
  intros [H _]. destruct m as [|c m]; [destruct H|]. cbn in H. unfold oddc in H.
  assert (T : soft (T1 (c :: m))).
  { apply soft_type1, soft_type2; [|cbn; chars]. apply soft_value; [cbn; chars| |]; intros q E; inversion E; subst; chars. }
  apply soft_grpent; [apply soft_occur|apply soft_grpent_val; auto]; cbn; chars.
Qed.
Lemma odd_group e i m0 m : p_grpent T1 G i = Done e m0 -> List.length m0 < List.length i -> p_optcom m0 = Done tt m -> odd m -> G i = Done [[e]] m.
Proof.
  intros E L O H. rewrite group_eq. unfold group_body. apply (map_run _ _ _ ([e], [])); [|reflexivity].
  assert (M : List.length m <= List.length m0) by (assert (S : shrinks p_optcom) by auto with nom; apply S in O; lia).
  eapply pair_run.
  - apply many0_done.
    { apply shrinks_bind; [apply shrinks_grpent; [apply shrinks_t1|apply shrinks_group]|]. intros; apply shrinks_bind; auto with nom. }
    eapply reps_cons; [eapply ter_run; eauto|lia|].
    destruct (soft_bind (p_grpent T1 G) (fun a => bindp p_optcom (fun _ => ret a)) m (odd_grpent m H)) as [x Q]. eapply reps_nil; eauto.
  - apply many0_done.
    { apply shrinks_bind; [auto 10 with nom|]. intros. apply shrinks_grpchoice; [apply shrinks_t1|apply shrinks_group]. }
    assert (S : soft (preceded (delimited p_ws (tag "//") p_ws) (p_grpchoice T1 G) m)).
    { apply soft_bind. unfold delimited, bindp at 1. rewrite ws_solid by (apply odd_solid; auto). apply soft_bind.
      unfold tag. destruct (strip (txt "//") m) as [j|] eqn:Q; [|eexists; reflexivity]. apply strip_app in Q. exfalso. apply (proj2 H). eauto. }
    destruct S as [x S]. eapply reps_nil; eauto.
Qed.

(** How the value of a member is introduced. *)
Definition leads (sep : text) : Prop := In sep [txt ": "; txt " => "; txt " ^ => "; txt " / "].
Definition bad (s : text) : Prop := is_head solidc s /\ exists e, T1 s = Hard e.

Lemma bad_ty s : bad s -> exists e, p_ty T1 s = Hard e.
Proof. intros [_ [e E]]. exists e. unfold p_ty, separated_list1, bindp. rewrite E. reflexivity. Qed.
Lemma odd_more m : odd m -> ~ is_head (eq 0x2f%N) m -> p_more_choices T1 m = Done [] m.
Proof.
  intros H N. apply many0_done; [apply shrinks_bind; [auto 10 with nom|intros; apply shrinks_t1]|].
  destruct (soft_bind p_slash (fun _ => T1) m) as [e E]; [eapply slash_soft'; [apply ws_solid, odd_solid; auto|auto]|]. eapply reps_nil; eauto.
Qed.

Lemma optcom_odd m : odd m -> p_optcom m = Done tt m /\ p_optcom (32%N :: m) = Done tt m.
Proof.
  intros H. pose proof (odd_solid m H) as S. assert (T : soft (pairp (tag ",") p_ws m)).
  { apply soft_bind. eapply soft_tag_head; [reflexivity|]. destruct H as [H _]. destruct m as [|c m]; cbn in *; auto. unfold oddc in H. intros <-. chars. }
  split; unfold p_optcom, valuep; (eapply (map_run (fun _ => tt)); [|reflexivity]); (eapply pair_run; [first [apply ws_space; exact S|apply ws_solid; exact S]|]); apply opt_soft; auto.
Qed.
Lemma hard_tail s : bad s ->
  (exists e, p_memberkey_tail T1 (txt ": " ++ s) = Hard e) /\ (exists e, p_arrow_tail T1 (txt "=> " ++ s) = Hard e) /\
  (exists e, p_arrow_tail T1 (txt "^ => " ++ s) = Hard e) /\ (exists e, p_more_choices T1 (txt "/ " ++ s) = Hard e).
Proof.
  intros B. destruct (bad_ty s B) as [e E]. destruct B as [H [e' E']].
  assert (A : preceded (tag "=>") (preceded p_ws (p_ty T1)) (txt "=> " ++ s) = Hard e).
  { change (txt "=> " ++ s) with (txt "=>" ++ 32%N :: s). unfold preceded, bindp. rewrite tag_run. rewrite ws_space by auto. exact E. }
  repeat split; [exists e|exists e|exists e|exists e'].
  - change (txt ": " ++ s) with (txt ":" ++ 32%N :: s). unfold p_memberkey_tail, preceded, pairp, bindp, ret. rewrite tag_run. rewrite ws_space by auto. exact E.
  - unfold p_arrow_tail, mapp, pairp, bindp at 1 2. rewrite opt_soft by (apply soft_bind; eapply soft_tag_head; [reflexivity|cbn; discriminate]).
    unfold bindp. rewrite A. reflexivity.
  - unfold p_arrow_tail, mapp, pairp, bindp at 1 2.
    assert (O : opt (terminated (tag "^") p_ws) (txt "^ => " ++ s) = Done (Some (txt "^")) (txt "=> " ++ s)).
    { apply opt_run. eapply ter_run; [apply (tag_run "^")|apply ws_space; cbn; chars]. }
    rewrite O. unfold bindp. rewrite A. reflexivity.
  - unfold p_more_choices, many0. cbn [many0_f List.length]. unfold preceded, bindp.
    assert (Sl : p_slash (txt "/ " ++ s) = Done (txt "/") s) by (apply (slash_run [] s); auto). rewrite Sl, E'. reflexivity.
Qed.

Lemma hidden_entry k sep s : is_ident k -> leads sep -> bad s ->
  exists v m0 m, p_grpent_val T1 G (k ++ sep ++ s) = Done v m0 /\ List.length m0 < List.length (k ++ sep ++ s) /\ p_optcom m0 = Done tt m /\ odd m.
Proof.
  intros I Hs B. destruct (hard_tail s B) as ([e1 E1] & [e2 E2] & [e3 E3] & [e4 E4]).
  assert (Nk : 0 < List.length k) by (destruct (id_head _ I) as (h & l & -> & _); cbn; lia).
  assert (O : forall c r, oddc c -> c <> 0x2f%N -> odd (c :: r)).
  { intros c r Hc Nc. split; auto. intros [q Q]. inversion Q. contradiction. }
  destruct Hs as [<-|[<-|[<-|[<-|[]]]]].
  - assert (Om : odd (txt ": " ++ s)) by (apply (O 0x3a%N); [cbn; auto|discriminate]).
    eexists _, (txt ": " ++ s), (txt ": " ++ s). split; [|split; [rewrite (app_length k); lia|split; [apply optcom_odd; auto|auto]]].
    apply or_run. rewrite (member_start X (T1Simple (T2Typename k [])) _ (txt ": " ++ s) (txt ": " ++ s));
      [|apply key_run; auto; apply FT_F1, colon_F1|left; apply ws_solid; cbn; chars].
    unfold member_colon. rewrite E1. destruct (arrow_soft X (txt ": " ++ s)) as [e Q]; [cbn; discriminate..|].
    unfold member_arrow. rewrite Q. unfold member_plain. rewrite odd_more by (auto; cbn; discriminate). reflexivity.
  - assert (Om : odd (txt "=> " ++ s)) by (apply (O 0x3d%N); [cbn; auto|discriminate]).
    eexists _, (txt "=> " ++ s), (txt "=> " ++ s). split; [|split; [rewrite !app_length; cbn; lia|split; [apply optcom_odd; auto|auto]]].
    apply or_run. rewrite (member_start X (T1Simple (T2Typename k [])) _ (txt " => " ++ s) (txt "=> " ++ s));
      [|apply key_run; auto; apply FT_F1, (arrow_FT false)|right; apply (ws_space (txt "=> " ++ s)); cbn; chars].
    destruct (colon_soft X (txt "=> " ++ s)) as [x Qx]; [cbn; discriminate|]. unfold member_colon. rewrite Qx.
    unfold member_arrow. rewrite E2. unfold member_plain. rewrite odd_more by (auto; cbn; discriminate). reflexivity.
  - assert (Om : odd (txt "^ => " ++ s)) by (apply (O 0x5e%N); [cbn; auto|discriminate]).
    eexists _, (txt "^ => " ++ s), (txt "^ => " ++ s). split; [|split; [rewrite !app_length; cbn; lia|split; [apply optcom_odd; auto|auto]]].
    apply or_run. rewrite (member_start X (T1Simple (T2Typename k [])) _ (txt " ^ => " ++ s) (txt "^ => " ++ s));
      [|apply key_run; auto; apply FT_F1, (arrow_FT true)|right; apply (ws_space (txt "^ => " ++ s)); cbn; chars].
    destruct (colon_soft X (txt "^ => " ++ s)) as [x Qx]; [cbn; discriminate|]. unfold member_colon. rewrite Qx.
    unfold member_arrow. rewrite E3. unfold member_plain. rewrite odd_more by (auto; cbn; discriminate). reflexivity.
  - assert (Om : odd (txt "/ " ++ s)) by (split; [cbn; unfold oddc; cbn; auto|intros [q Q]; inversion Q]).
    exists (GGroupname k), (txt " / " ++ s), (txt "/ " ++ s).
    split; [|split; [rewrite (app_length k); lia|split; [apply (optcom_odd (txt "/ " ++ s)); auto|auto]]].
    unfold p_grpent_val. rewrite or_soft.
    + apply or_run. eapply map_run; [|reflexivity]. apply ident_run; auto. apply (id_stop_head 32); chars.
    + rewrite (member_start X (T1Simple (T2Typename k [])) _ (txt " / " ++ s) (txt "/ " ++ s));
        [|apply key_run; auto; apply slash_F1, B|right; apply (ws_space (txt "/ " ++ s)); cbn; chars].
      destruct (colon_soft X (txt "/ " ++ s)) as [x Qx]; [cbn; discriminate|]. unfold member_colon. rewrite Qx.
      unfold member_arrow. destruct (arrow_soft X (txt "/ " ++ s)) as [e Q]; [cbn; discriminate..|]. rewrite Q.
      unfold member_plain. rewrite E4. eexists; reflexivity.
Qed.

Definition opens_group (o c : N) : Prop := (o = 0x7b /\ c = 0x7d)%N \/ (o = 0x5b /\ c = 0x5d)%N.
Lemma hidden_group k sep s : is_ident k -> leads sep -> bad s -> exists g m, G (k ++ sep ++ s) = Done g m /\ odd m.
Proof.
  intros I Hs B. destruct (hidden_entry k sep s I Hs B) as (v & m0 & m & E & L & Oc & Om).
  exists [[GrpEnt None v]], m. split; auto. apply (odd_group _ _ m0); auto.
  unfold p_grpent. apply (map_run _ _ _ (None, v)); [|reflexivity]. eapply pair_run; [|exact E]. apply opt_soft, soft_bind, soft_occur.
  destruct (id_head _ I) as (h & l & -> & Hh). cbn. chars.
Qed.
Lemma hidden_type o c k sep s : opens_group o c -> is_ident k -> leads sep -> bad s -> soft (T1 (o :: k ++ sep ++ s)).
Proof.
  intros Ho I Hs B. destruct (hidden_group k sep s I Hs B) as (g & m & E & Om).
  assert (Hk : is_head solidc (k ++ sep ++ s)) by (destruct (id_head _ I) as (h & l & -> & Hh); cbn; chars).
  destruct (head_soft2 X (o :: k ++ sep ++ s) o) as [V Nm]; [reflexivity|destruct Ho as [[-> ->]|[-> ->]]; chars|].
  apply soft_type1. unfold p_type2.
  assert (Q : soft (p_in o c G (o :: k ++ sep ++ s))).
  { apply in_soft; auto. right. exists g, m, [], m. split; auto. split; [apply ws_solid, odd_solid; auto|].
    destruct Om as [Om _]. destruct m as [|d m]; cbn in *; auto. unfold oddc in Om. intros <-. destruct Ho as [[-> ->]|[-> ->]]; chars. }
  destruct Ho as [[-> ->]|[-> ->]]; repeat apply soft_or; apply soft_map; auto; apply soft_bind; first [apply soft_char|eapply soft_tag_head; [reflexivity|]]; cbn; discriminate.
Qed.
Lemma hidden_rule n o c k sep s : is_ident n -> opens_group o c -> is_ident k -> leads sep -> bad s ->
  exists e, p_rule T1 G (n ++ txt " = " ++ o :: k ++ sep ++ s) = Soft e /\ parse_cddl X (n ++ txt " = " ++ o :: k ++ sep ++ s) = Some (inr e).
Proof.
  intros In Ho I Hs B. pose proof (hidden_type o c k sep s Ho I Hs B) as T. set (i := k ++ sep ++ s) in *. unfold parse_cddl.
  assert (S : ~ SPACE o) by (destruct Ho as [[-> ->]|[-> ->]]; chars). assert (N : o <> 0x3b%N) by (destruct Ho as [[-> ->]|[-> ->]]; discriminate).
  destruct (id_head _ In) as (h & m & En & Eh).
  assert (W : p_ws (n ++ txt " = " ++ o :: i) = Done [] (n ++ txt " = " ++ o :: i)).
  { rewrite En. apply ws_of_head; unfold EALPHA, ALPHA, between, SPACE in *; lia. }
  cbv beta delta [all_consuming p_cddl preceded many1 terminated bindp]. rewrite W. rewrite rule_prefix by auto.
  assert (Q : soft (orp (mapp AssignType (p_ty T1)) (mapp AssignGroup (p_grpent T1 G)) (o :: i))).
  { apply soft_or; [apply soft_map, soft_ty; auto|]. apply soft_map, soft_grpent; [apply soft_occur|apply soft_grpent_val; auto];
      destruct Ho as [[-> ->]|[-> ->]]; cbn; chars. }
  destruct Q as [e ->]. eexists. split; reflexivity.
Qed.

(** Where a literal is the first thing of an entry, it is reported. *)
Lemma shown_group n o c s e : is_ident n -> opens_group o c -> is_head solidc s -> G s = Hard e ->
  parse_cddl X (n ++ txt " = " ++ o :: s) = Some (inr e).
Proof.
  intros In Ho Hd Eg.
  assert (S : ~ SPACE o) by (destruct Ho as [[-> ->]|[-> ->]]; chars). assert (N : o <> 0x3b%N) by (destruct Ho as [[-> ->]|[-> ->]]; discriminate).
  apply assign_hard; auto. unfold orp at 1, mapp at 1, bindp at 1. erewrite ty_of_type2_hard; [reflexivity|].
  assert (Q : p_in o c G (o :: s) = Hard e).
  { unfold p_in, delimited at 1, bindp at 1. rewrite charp_run. unfold delimited, bindp. rewrite ws_solid by auto. rewrite Eg. reflexivity. }
  destruct (head_soft2 X (o :: s) o) as [V Nm]; [reflexivity|destruct Ho as [[-> ->]|[-> ->]]; chars|].
  unfold p_type2. destruct Ho as [[-> ->]|[-> ->]]; repeat (rewrite or_soft; [|first [apply soft_map; assumption
    | apply soft_map, soft_bind; first [apply soft_char|eapply soft_tag_head; [reflexivity|]]; cbn; discriminate]]);
    unfold orp at 1, mapp at 1, bindp at 1; rewrite Q; reflexivity.
Qed.
Lemma group_of_entry s e : p_grpent T1 G s = Hard e -> G s = Hard e.
Proof.
  intros E. rewrite group_eq. unfold group_body, mapp, pairp, bindp, p_grpchoice, many0. cbn [many0_f]. unfold terminated, bindp. rewrite E. reflexivity.
Qed.
(** A number is met when a number of occurrences is looked for. *)
Lemma shown_rule n o c s e : is_ident n -> opens_group o c -> is_head DIGIT s -> p_occur s = Hard e ->
  parse_cddl X (n ++ txt " = " ++ o :: s) = Some (inr e).
Proof.
  intros In Ho Hd E. apply (shown_group n o c); auto; [revert Hd; apply head_weak; intros; chars|].
  apply group_of_entry. unfold p_grpent, mapp, pairp, opt, terminated, bindp. rewrite E. reflexivity.
Qed.
(** Other literals are met as the type of the member. *)
Lemma shown_literal n o c s e : is_ident n -> opens_group o c -> is_head solidc s ->
  ~ is_head (fun c => DIGIT c \/ c = 0x2a \/ c = 0x2b \/ c = 0x3f)%N s -> T1 s = Hard e ->
  parse_cddl X (n ++ txt " = " ++ o :: s) = Some (inr e).
Proof.
  intros In Ho Hd No E. apply (shown_group n o c); auto. apply group_of_entry.
  unfold p_grpent, mapp at 1, bindp at 1, pairp, bindp at 1. rewrite opt_soft by (apply soft_bind, soft_occur; auto).
  unfold bindp at 1, p_grpent_val, orp at 1, p_grpent_member, bindp at 1, terminated, bindp. rewrite E. reflexivity.
Qed.
Lemma type1_value s e : p_value X s = Hard e -> T1 s = Hard e.
Proof. intros E. rewrite type1_eq. unfold type1_body, mapp, pairp, bindp, p_type2, orp, mapp, bindp. rewrite E. reflexivity. Qed.
Lemma value_number s e : p_float_or_int X s = Hard e -> p_value X s = Hard e.
Proof. intros E. unfold p_value, orp. rewrite E. reflexivity. Qed.

Lemma digits_same c d d' : digits_of c d -> digits_of c d' -> d = d'.
Proof.
  assert (D : forall x l, ~ DIGIT x -> ~ Forall DIGIT (0x30%N :: x :: l)).
  { intros x l N F. inversion F as [|? ? _ F']; subst. inversion F'; subst. auto. }
  assert (Nx : ~ DIGIT 0x78) by (unfold DIGIT, between; lia). assert (Nb : ~ DIGIT 0x62) by (unfold DIGIT, between; lia).
  intros H H'. inversion H as [q Q|q Q|q F Q]; inversion H' as [q' Q'|q' Q'|q' F' Q']; subst; try (cbn in *; congruence); exfalso.
  - exact (D _ _ Nx F').
  - exact (D _ _ Nb F').
  - exact (D _ _ Nx F).
  - exact (D _ _ Nb F).
Qed.

(** Literals without a value: those of [malformed], except that the whole part of
    a number with a fraction or an exponent has to be decimal. *)
Inductive unreadable : text -> parse_error -> Prop :=
| un_literal s e : malformed X s e -> pe_kind e <> MalformedFloat -> unreadable s e
| un_float sg c n f x : sign sg -> uint_lit c n -> spells 10 c n -> optional fraction f -> optional exponent x -> f ++ x <> [] ->
    f64_parse X (sg ++ c ++ f ++ x) = None -> unreadable (sg ++ c ++ f ++ x) (PErr MalformedFloat (sg ++ c ++ f ++ x)).

Lemma unreadable_value s e r : unreadable s e -> num_stop r -> p_value X (s ++ r) = Hard e.
Proof.
  intros [s' e' M K|sg c n f x Sg U S Hf Hx Nn P] St.
  - clear s e. destruct M as [s n d U L D|s n d U L D|sg s n f x Sg U Hf Hx Nn P|s C E|s C E|s t C W E|s C E]; try (cbn in K; congruence).
    + apply uint_lit_iff in U. destruct U as (d' & b & R & S). rewrite (digits_same _ _ _ D (raw_digits _ _ _ R)).
      pose proof (raw_uint_total _ _ _ R) as (v' & _ & _ & B & _). apply value_number. pose proof (int_value_run X false _ _ _ r R St) as E. cbn [app] in E.
      rewrite E. unfold parse_int. rewrite (from_str_radix_iff _ _ _ B S). apply N.ltb_ge in L. rewrite L. reflexivity.
    + apply uint_lit_iff in U. destruct U as (d' & b & R & S). rewrite (digits_same _ _ _ D (raw_digits _ _ _ R)).
      pose proof (raw_uint_total _ _ _ R) as (v' & _ & _ & B & _). apply value_number. pose proof (int_value_run X true _ _ _ r R St) as E.
      rewrite <- app_assoc, E. unfold parse_int. rewrite (from_str_radix_iff _ _ _ B S). destruct (N.ltb n (2 ^ 64)); auto. apply N.ltb_ge in L. rewrite L. reflexivity.
    + rewrite <- !app_assoc, text_run, E by auto. reflexivity.
    + rewrite <- !app_assoc, bytes_run, E by auto. reflexivity.
    + rewrite <- !app_assoc, (hex_run X s t) by auto. destruct (hex_decode t) as [b|] eqn:Q; auto. apply hex_decode_iff in Q. destruct (E _ Q).
    + rewrite <- !app_assoc, base64_run, E by auto. reflexivity.
  - apply value_number. rewrite <- !app_assoc.
    destruct Sg as [-> | ->]; [pose proof (float_run X false c n f x r U S Hf Hx Nn St) as E|pose proof (float_run X true c n f x r U S Hf Hx Nn St) as E];
      cbv iota in E; rewrite E; unfold parse_float; rewrite P; reflexivity.
Qed.
Lemma unreadable_head s e : unreadable s e -> is_head (fun c => DIGIT c \/ In c [0x2d; 0x22; 0x27; 0x68; 0x62])%N s.
Proof.
  assert (D : forall c n, uint_lit c n -> forall r, is_head (fun c => DIGIT c \/ In c [0x2d; 0x22; 0x27; 0x68; 0x62])%N (c ++ r)).
  { intros c n U r. apply uint_lit_iff in U. destruct U as (d & b & R & _). destruct (raw_uint_cons _ _ _ R) as (x & l & ->).
    cbn [app is_head]. left. exact (raw_uint_head _ _ _ _ _ R eq_refl). }
  intros [s' e' M K|sg c n f x Sg U S Hf Hx Nn P].
  - clear s e. destruct M as [s n d U L Q|s n d U L Q|sg s n f x Sg U Hf Hx Nn P|s C E|s C E|s t C W E|s C E]; try (cbn; intuition; fail).
    rewrite <- (app_nil_r s). eauto.
  - destruct Sg as [-> | ->]; [cbn [app]; eauto|cbn; intuition].
Qed.
(** A number that does not fit. *)
Lemma too_large c v r : uint_lit c v -> (2 ^ 64 <= v)%N -> num_stop r ->
  exists d b, spells b d v /\ T1 (c ++ r) = Hard (PErr MalformedInteger d) /\ p_occur (c ++ r) = Hard (PErr MalformedInteger d) /\ is_head DIGIT (c ++ r).
Proof.
  intros U L St. apply uint_lit_iff in U. destruct U as (d & b & R & S). exists d, b. split; auto.
  pose proof (raw_uint_total _ _ _ R) as (v' & _ & _ & B & _).
  assert (Q : from_str_radix d b = None) by (rewrite (from_str_radix_iff _ _ _ B S); apply N.ltb_ge in L; rewrite L; reflexivity).
  split; [|split].
  - pose proof (int_value_run X false _ _ _ r R St) as E. cbn [app] in E. unfold parse_int in E. rewrite Q in E.
    rewrite type1_eq. unfold type1_body, mapp, pairp, bindp, p_type2, orp, mapp, bindp, p_value, orp. rewrite E. reflexivity.
  - unfold p_occur, orp, p_occur_star, map_res, pairp, bindp, opt, p_uint_u64, map_res_fail, bindp. rewrite (uint_run _ _ _ _ R St). cbn [fst snd]. rewrite Q. reflexivity.
  - destruct (raw_uint_cons _ _ _ R) as (x & l & ->). exact (raw_uint_head _ _ _ _ _ R eq_refl).
Qed.
End WithX.
