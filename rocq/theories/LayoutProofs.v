(** Whitespace between tokens does not matter: every parser gives related
    results on texts that differ only in their layout. *)
From Coq Require Import List Bool Arith ZArith NArith String Lia.
From Verif Require Import Base Util Data Ivt Ast Nom NomProofs Parser ParserFuel NomDone SpecSyntax SpecLayout ValueOrder TokenProofs LiteralProofs ParserSound.
Import ListNotations.
Open Scope list_scope.

Notation ekind := pe_kind (only parsing).

(** * Heads of related texts *)
Definition gap_char (c : N) : Prop := SPACE c \/ c = 0x3b%N.
Definition quote (c : N) : Prop := c = 0x22%N \/ c = 0x27%N.
Lemma ws_head i r : d_ws i r -> i = r \/ exists c j, i = c :: j /\ gap_char c.
Proof. unfold gap_char. destruct 1; eauto 8. Qed.
Lemma gap_head w i : gap w i -> exists c j, w = c :: j /\ gap_char c.
Proof.
  intros (Nw & D & E). destruct w as [|c w]; [congruence|]. exists c, w. split; auto.
  destruct (ws_head _ _ D) as [Q|(d & j & Q & G)]; [|cbn in Q; inversion Q; subst; auto].
  exfalso. apply (f_equal (@List.length N)) in Q. rewrite app_length in Q. cbn in Q. lia.
Qed.
Lemma rl_view i i' : relayout i i' ->
  (i = [] /\ i' = []) \/
  (exists c j j', plain c /\ i = c :: j /\ i' = c :: j' /\ relayout j j') \/
  (exists c j j', quote c /\ i = c :: j /\ i' = c :: j') \/
  (exists c c' j j', gap_char c /\ gap_char c' /\ i = c :: j /\ i' = c' :: j').
Proof.
  intros H. destruct H as [|c i i' P H|s i i' Q H|w w' i i' G G' H].
  - auto.
  - right. left. eauto 10.
  - right. right. left. destruct Q as [(t & _ & ->)|(t & _ & ->)]; cbn; [exists 0x22%N|exists 0x27%N]; eexists _, _; unfold quote; split; [auto|split; reflexivity|auto|split; reflexivity].
  - right. right. right. destruct (gap_head _ _ G) as (c & j & -> & Hc). destruct (gap_head _ _ G') as (c' & j' & -> & Hc').
    cbn. eexists _, _, _, _. split; [exact Hc|split; [exact Hc'|split; reflexivity]].
Qed.

(** * Tokens: the same text is consumed on both sides. *)
Inductive trel {A} (i i' : text) : pres A -> pres A -> Prop :=
| tr_done a c r r' : i = c ++ r -> i' = c ++ r' -> relayout r r' -> trel i i' (Done a r) (Done a r')
| tr_soft e e' : ekind e = ekind e' -> trel i i' (Soft e) (Soft e')
| tr_hard e e' : ekind e = ekind e' -> trel i i' (Hard e) (Hard e').
Definition tresp {A} (p : parser A) : Prop := forall i i', relayout i i' -> trel i i' (p i) (p i').
Create HintDb lay.

Lemma trel_more {A} c j j' (x y : pres A) : trel j j' x y -> trel (c ++ j) (c ++ j') x y.
Proof.
  intros H. destruct H as [a d r r' -> -> R|e e' E|e e' E]; try (constructor; auto; fail).
  apply (tr_done _ _ a (c ++ d)); auto; now rewrite app_assoc.
Qed.
Lemma tresp_bind {A B} (p : parser A) (f : A -> parser B) : tresp p -> (forall a, tresp (f a)) -> tresp (bindp p f).
Proof.
  intros Hp Hf i i' H. unfold bindp. destruct (Hp i i' H) as [a c r r' -> -> R|e e' E|e e' E]; try (constructor; auto; fail).
  apply trel_more. apply Hf; auto.
Qed.
Lemma tresp_ret {A} (a : A) : tresp (ret a).
Proof. intros i i' H. apply (tr_done _ _ a []); auto. Qed.
#[export] Hint Resolve tresp_ret : lay.
Lemma tresp_map {A B} (f : A -> B) p : tresp p -> tresp (mapp f p).
Proof. intros. apply tresp_bind; auto with lay. Qed.
Lemma tresp_value {A B} (b : B) (p : parser A) : tresp p -> tresp (valuep b p).
Proof. apply tresp_map. Qed.
Lemma tresp_pair {A B} (p : parser A) (q : parser B) : tresp p -> tresp q -> tresp (pairp p q).
Proof. intros. repeat (apply tresp_bind; intros; auto with lay). Qed.
Lemma tresp_preceded {A B} (p : parser A) (q : parser B) : tresp p -> tresp q -> tresp (preceded p q).
Proof. intros. repeat (apply tresp_bind; intros; auto with lay). Qed.
Lemma tresp_opt {A} (p : parser A) : tresp p -> tresp (opt p).
Proof.
  intros Hp i i' H. unfold opt. destruct (Hp i i' H) as [a c r r' -> -> R|e e' E|e e' E]; try (constructor; auto; fail).
  - apply (tr_done _ _ (Some a) c); auto.
  - apply (tr_done _ _ None []); auto.
Qed.
Lemma tresp_or {A} (p q : parser A) : tresp p -> tresp q -> tresp (orp p q).
Proof.
  intros Hp Hq i i' H. unfold orp. destruct (Hp i i' H) as [a c r r' -> -> R|e e' E|e e' E]; [econstructor; eauto|apply Hq; auto|constructor; auto].
Qed.
Lemma tresp_recognize {A} (p : parser A) : tresp p -> tresp (recognize p).
Proof.
  intros Hp i i' H. unfold recognize. destruct (Hp i i' H) as [a c r r' -> -> R|e e' E|e e' E]; try (constructor; auto; fail).
  rewrite !consumed_app. econstructor; eauto.
Qed.
Lemma tresp_recognizer {A} (p : parser A) : tresp p -> tresp (recognizer p).
Proof.
  intros Hp i i' H. unfold recognizer. destruct (Hp i i' H) as [a c r r' -> -> R|e e' E|e e' E]; try (constructor; auto; fail).
  rewrite !consumed_app. econstructor; eauto.
Qed.
Lemma tresp_map_res_fail {A B} (p : parser A) (f : A -> B + parse_error) : tresp p -> tresp (map_res_fail p f).
Proof.
  intros Hp. apply tresp_bind; auto. intros a i i' H. destruct (f a); [apply (tr_done _ _ _ []); auto|constructor; auto].
Qed.
Lemma tresp_map_res {A B} (p : parser A) (f : A -> B + parse_error) : tresp p -> tresp (map_res p f).
Proof.
  intros Hp. apply tresp_bind; auto. intros a i i' H. destruct (f a); [apply (tr_done _ _ _ []); auto|constructor; auto].
Qed.
Lemma tresp_many0 {A} (p : parser A) : tresp p -> tresp (many0 p).
Proof.
  intros Hp.
  assert (G : forall n m i i', List.length i < n -> List.length i' < m -> relayout i i' -> trel i i' (many0_f n p i) (many0_f m p i'));
    [|intros i i' H; apply G; auto].
  intros n. induction n as [|n IH]; intros m i i' L L' H; [lia|]. destruct m as [|m]; [lia|]. cbn.
  destruct (Hp i i' H) as [a c r r' -> -> R|e e' E|e e' E]; [|apply (tr_done _ _ [] []); auto|constructor; auto].
  rewrite !app_length in *. destruct (Nat.eqb_spec (List.length r) (List.length c + List.length r)) as [Q|Q].
  - destruct (Nat.eqb_spec (List.length r') (List.length c + List.length r')); [|lia]. constructor; reflexivity.
  - destruct (Nat.eqb_spec (List.length r') (List.length c + List.length r')); [lia|].
    assert (T : trel r r' (many0_f n p r) (many0_f m p r')) by (apply IH; auto; lia).
    destruct T as [l d s s' -> -> R'|e e' E|e e' E]; try (constructor; auto; fail).
    apply (tr_done _ _ (a :: l) (c ++ d)); auto; now rewrite app_assoc.
Qed.
Lemma tresp_many1 {A} (p : parser A) : tresp p -> tresp (many1 p).
Proof. intros. repeat (apply tresp_bind; intros; auto using tresp_many0 with lay). Qed.

(** Predicates on characters of tokens. *)
Definition token_pred (f : N -> bool) : Prop := forall c, f c = true -> plain c.
Lemma tp_gap f c : token_pred f -> gap_char c -> f c = false.
Proof. intros H G. destruct (f c) eqn:E; auto. apply H in E. unfold plain, gap_char in *. tauto. Qed.
Lemma tp_quote f c : token_pred f -> quote c -> f c = false.
Proof. intros H G. destruct (f c) eqn:E; auto. apply H in E. unfold plain, quote in *. tauto. Qed.
Lemma tresp_satisfy f : token_pred f -> tresp (satisfy f).
Proof.
  intros Hf i i' H. unfold satisfy. destruct (rl_view _ _ H) as [(-> & ->)|[(c & j & j' & P & -> & -> & R)|[(c & j & j' & Q & -> & ->)|(c & c' & j & j' & G & G' & -> & ->)]]].
  - constructor; reflexivity.
  - destruct (f c); [apply (tr_done _ _ c [c]); auto|constructor; reflexivity].
  - rewrite (tp_quote f c) by auto. constructor; reflexivity.
  - rewrite (tp_gap f c), (tp_gap f c') by auto. constructor; reflexivity.
Qed.
Lemma rl_span f i i' : token_pred f -> relayout i i' -> exists a b b', span f i = (a, b) /\ span f i' = (a, b') /\ relayout b b'.
Proof.
  intros Hf H. induction H as [|c i i' P H IH|s i i' Q H IH|w w' i i' G G' H IH].
  - exists [], [], []. auto using rl_nil.
  - destruct IH as (a & b & b' & E & E' & R). cbn. rewrite E, E'. destruct (f c); [eauto 10|]. exists [], (c :: i), (c :: i'). auto using rl_char.
  - exists [], (s ++ i), (s ++ i'). destruct (rl_view _ _ (rl_string s i i' Q H)) as [(-> & ->)|V]; [auto using rl_nil|].
    assert (exists c j j', quote c /\ s ++ i = c :: j /\ s ++ i' = c :: j') as (c & j & j' & Hq & E & E').
    { destruct Q as [(t & _ & ->)|(t & _ & ->)]; cbn; [exists 0x22%N|exists 0x27%N]; eexists _, _; unfold quote; split; [auto|split; reflexivity|auto|split; reflexivity]. }
    split; [|split; [|apply rl_string; auto]]; [rewrite E|rewrite E']; cbn; rewrite (tp_quote f c) by auto; reflexivity.
  - exists [], (w ++ i), (w' ++ i'). split; [|split; [|apply rl_gap; auto]].
    + destruct (gap_head _ _ G) as (c & j & -> & Hc). cbn. rewrite (tp_gap f c) by auto. reflexivity.
    + destruct (gap_head _ _ G') as (c & j & -> & Hc). cbn. rewrite (tp_gap f c) by auto. reflexivity.
Qed.
Lemma span_app f i a b : span f i = (a, b) -> i = a ++ b.
Proof. intros H. apply span_spec in H. tauto. Qed.
Lemma tresp_take_while1 f : token_pred f -> tresp (take_while1 f).
Proof.
  intros Hf i i' H. destruct (rl_span f i i' Hf H) as (a & b & b' & E & E' & R). unfold take_while1. rewrite E, E'.
  apply span_app in E. apply span_app in E'. destruct a; [constructor; reflexivity|]. eapply tr_done; eauto.
Qed.
Lemma tresp_take_while0 f : token_pred f -> tresp (take_while0 f).
Proof.
  intros Hf i i' H. destruct (rl_span f i i' Hf H) as (a & b & b' & E & E' & R). unfold take_while0. rewrite E, E'.
  apply span_app in E. apply span_app in E'. eapply tr_done; eauto.
Qed.
Lemma tresp_tag s : Forall plain (txt s) -> tresp (tag s).
Proof.
  intros F i i' H. unfold tag.
  assert (G : forall p i i', Forall plain p -> relayout i i' ->
     (exists r r', strip p i = Some r /\ strip p i' = Some r' /\ relayout r r') \/ (strip p i = None /\ strip p i' = None)).
  { clear. intros p i i' F H. revert i i' H. induction F as [|c p Pc F IH]; intros i i' H; cbn; [left; eauto 10|].
    destruct (rl_view _ _ H) as [(-> & ->)|[(d & j & j' & P & -> & -> & R)|[(d & j & j' & Q & -> & ->)|(d & d' & j & j' & G & G' & -> & ->)]]]; auto.
    - destruct (N.eqb c d); auto.
    - destruct (N.eqb_spec c d); auto. exfalso. subst d. unfold plain, quote in *. tauto.
    - destruct (N.eqb_spec c d); [exfalso; subst d; unfold plain, gap_char in *; tauto|].
      destruct (N.eqb_spec c d'); [exfalso; subst d'; unfold plain, gap_char in *; tauto|]. auto. }
  destruct (G (txt s) i i' F H) as [(r & r' & E & E' & R)|(E & E')]; rewrite E, E'; [|constructor; reflexivity].
  apply strip_app in E. apply strip_app in E'. eapply tr_done; eauto.
Qed.
Lemma tresp_char c : plain c -> tresp (charp c).
Proof. intros P. apply tresp_satisfy. intros d E. apply N.eqb_eq in E. now subst d. Qed.
Lemma tresp_one_of s : Forall plain (txt s) -> tresp (one_of_chars s).
Proof.
  intros F. apply tresp_satisfy. intros d E. apply existsb_exists in E. destruct E as (x & I & E). apply N.eqb_eq in E. subst x.
  rewrite Forall_forall in F. auto.
Qed.
Ltac plain_tac := repeat constructor; unfold SPACE; try lia.
#[export] Hint Extern 1 (Forall plain _) => (cbn; plain_tac) : lay.
#[export] Hint Extern 1 (plain _) => plain_tac : lay.
#[export] Hint Resolve tresp_map tresp_value tresp_pair tresp_preceded tresp_opt tresp_or tresp_recognize tresp_recognizer tresp_map_res_fail tresp_map_res
  tresp_many0 tresp_many1 tresp_tag tresp_char tresp_one_of tresp_take_while1 tresp_take_while0 : lay.

Lemma tp_ealpha : token_pred ealpha_char.
Proof. intros c H. apply ealpha_iff in H. unfold EALPHA, ALPHA, between, plain, SPACE in *. lia. Qed.
Lemma tp_digit : token_pred is_digit.
Proof. intros c H. apply is_digit_iff in H. unfold DIGIT, between, plain, SPACE in *. lia. Qed.
Lemma tp_hex : token_pred is_hex_digit.
Proof.
  intros c H. unfold is_hex_digit in H. rewrite !orb_true_iff in H. unfold is_digit in H. rewrite !in_range_iff in H. unfold between, plain, SPACE in *. lia.
Qed.
#[export] Hint Resolve tp_ealpha tp_digit tp_hex : lay.

Lemma tresp_ident : tresp p_ident.
Proof. unfold p_ident, p_ident_tail, p_ealpha, digit1. auto 15 with lay. Qed.
Lemma tresp_uint : tresp p_uint.
Proof. unfold p_uint, p_uint_hex, p_uint_binary, p_uint_decimal, hex_digit1, digit0. auto 15 with lay. Qed.
#[export] Hint Resolve tresp_ident tresp_uint : lay.
Lemma tresp_uint_u64 : tresp p_uint_u64. Proof. unfold p_uint_u64. auto with lay. Qed.
#[export] Hint Resolve tresp_uint_u64 : lay.
Lemma tresp_number X : tresp (p_float_or_int X).
Proof. unfold p_float_or_int, p_int, p_dot_fraction, p_e_exponent, digit1. auto 15 with lay. Qed.
Lemma tresp_occur : tresp p_occur.
Proof. unfold p_occur, p_occur_star. auto 15 with lay. Qed.
#[export] Hint Resolve tresp_number tresp_occur : lay.

(** ** Strings *)
Lemma rl_dquote j i' : relayout (0x22%N :: j) i' ->
  exists t r r', content SCHAR t /\ j = t ++ 0x22%N :: r /\ i' = 0x22%N :: t ++ 0x22%N :: r' /\ relayout r r'.
Proof.
  intros H. remember (0x22%N :: j) as i eqn:E. destruct H as [|c i i' P H|s i i' Q H|w w' i i' G G' H].
  - discriminate.
  - inversion E; subst. unfold plain in P. tauto.
  - destruct Q as [(t & C & ->)|(t & C & ->)]; cbn in E; inversion E; subst. exists t, i, i'. cbn. rewrite <- !app_assoc. auto.
  - destruct (gap_head _ _ G) as (c & k & -> & Hc). inversion E; subst. exfalso. unfold gap_char, SPACE in Hc. lia.
Qed.
Lemma rl_squote j i' : relayout (0x27%N :: j) i' ->
  exists t r r', content BCHAR t /\ j = t ++ 0x27%N :: r /\ i' = 0x27%N :: t ++ 0x27%N :: r' /\ relayout r r'.
Proof.
  intros H. remember (0x27%N :: j) as i eqn:E. destruct H as [|c i i' P H|s i i' Q H|w w' i i' G G' H].
  - discriminate.
  - inversion E; subst. unfold plain in P. tauto.
  - destruct Q as [(t & C & ->)|(t & C & ->)]; cbn in E; inversion E; subst. exists t, i, i'. cbn. rewrite <- !app_assoc. auto.
  - destruct (gap_head _ _ G) as (c & k & -> & Hc). inversion E; subst. exfalso. unfold gap_char, SPACE in Hc. lia.
Qed.
Lemma rl_strip p i i' : Forall plain p -> relayout i i' ->
  (exists r r', strip p i = Some r /\ strip p i' = Some r' /\ relayout r r') \/ (strip p i = None /\ strip p i' = None).
Proof.
  intros F H. revert i i' H. induction F as [|c p Pc F IH]; intros i i' H; cbn; [left; eauto 10|].
  destruct (rl_view _ _ H) as [(-> & ->)|[(d & j & j' & P & -> & -> & R)|[(d & j & j' & Q & -> & ->)|(d & d' & j & j' & G & G' & -> & ->)]]]; auto.
  - destruct (N.eqb c d); auto.
  - destruct (N.eqb_spec c d); auto. exfalso. subst d. unfold plain, quote in *. tauto.
  - destruct (N.eqb_spec c d); [exfalso; subst d; unfold plain, gap_char in *; tauto|].
    destruct (N.eqb_spec c d'); [exfalso; subst d'; unfold plain, gap_char in *; tauto|]. auto.
Qed.
Lemma strip_more p q i : strip (p ++ q) i = match strip p i with Some r => strip q r | None => None end.
Proof.
  revert i. induction p as [|c p IH]; intros i; cbn; [reflexivity|]. destruct i as [|d i]; auto. destruct (N.eqb c d); auto.
Qed.
Lemma rl_not_head q i i' : quote q -> relayout i i' -> (exists j, i = q :: j) \/ (forall j, i <> q :: j) /\ (forall j, i' <> q :: j).
Proof.
  intros Hq H. destruct (rl_view _ _ H) as [(-> & ->)|[(d & j & j' & P & -> & -> & R)|[(d & j & j' & Q & -> & ->)|(d & d' & j & j' & G & G' & -> & ->)]]].
  - right. split; discriminate.
  - right. split; intros k E; inversion E; subst; unfold plain, quote in *; tauto.
  - destruct (N.eq_dec d q) as [->|N]; [left; eauto|]. right. split; intros k E; inversion E; congruence.
  - right. split; intros k E; inversion E; subst; unfold gap_char, quote, SPACE in *; lia.
Qed.
Lemma tresp_bquoted s : Forall plain (txt s) -> tresp (delimited (tag (s ++ "'")) p_bchar (tag "'")).
Proof.
  intros F i i' H. unfold delimited, bindp, tag at 1 3.
  assert (Es : txt (s ++ "'") = txt s ++ [0x27%N]) by (clear; induction s as [|a s IH]; [reflexivity|]; cbn; f_equal; exact IH).
  rewrite Es, !strip_more. destruct (rl_strip (txt s) i i' F H) as [(r & r' & E & E' & R)|(E & E')]; rewrite E, E'; [|constructor; reflexivity].
  destruct (rl_not_head 0x27 r r') as [(j & ->)|[N N']]; [right; reflexivity|auto| |].
  - destruct (rl_squote _ _ R) as (t & k & k' & C & -> & -> & R'). cbn [strip N.eqb Pos.eqb]. rewrite !bchar_run by auto.
    unfold tag. cbn. apply strip_app in E. apply strip_app in E'. apply (tr_done _ _ t (txt s ++ 0x27%N :: t ++ [0x27%N])); auto.
    + rewrite E, <- !app_assoc. cbn. now rewrite <- app_assoc.
    + rewrite E', <- !app_assoc. cbn. now rewrite <- app_assoc.
  - assert (G : forall l, (forall j, l <> 0x27%N :: j) -> strip [0x27%N] l = None).
    { intros [|c l] G; [reflexivity|]. cbn [strip]. destruct (N.eqb_spec 0x27 c); auto. subst c. edestruct G; eauto. }
    rewrite (G r), (G r') by auto. constructor; reflexivity.
Qed.
Lemma tag_char s c i : txt s = [c] -> charp c i = match tag s i with Done _ r => Done c r | Soft e => Soft e | Hard e => Hard e | Crash => Crash | NoFuel => NoFuel end.
Proof. intros E. unfold charp, satisfy, tag. rewrite E. destruct i as [|d i]; cbn; [reflexivity|]. destruct (N.eqb_spec c d); [subst|]; reflexivity. Qed.
Lemma tresp_ext {A} (p q : parser A) : (forall i, p i = q i) -> tresp p -> tresp q.
Proof. intros E H i i' R. rewrite <- !E. auto. Qed.
Lemma tresp_dquoted : tresp (delimited (charp 0x22) p_schar (charp 0x22)).
Proof.
  intros i i' H. unfold delimited, bindp. destruct (rl_not_head 0x22 i i') as [(j & ->)|[N N']]; [left; reflexivity|auto| |].
  - destruct (rl_dquote _ _ H) as (t & k & k' & C & -> & -> & R'). 
    assert (G : forall l, charp 0x22 (0x22%N :: l) = Done 0x22%N l) by reflexivity. rewrite !G, !schar_run, !G by auto.
    apply (tr_done _ _ t (0x22%N :: t ++ [0x22%N])); auto; cbn; now rewrite <- app_assoc.
  - assert (G : forall l, (forall j, l <> 0x22%N :: j) -> charp 0x22 l = Soft (nom_err l)).
    { intros [|c l] G; [reflexivity|]. unfold charp, satisfy. destruct (N.eqb_spec 0x22 c); auto. subst c. edestruct G; eauto. }
    rewrite (G i), (G i') by auto. constructor; reflexivity.
Qed.
Lemma tresp_value_ X : tresp (p_value X).
Proof.
  unfold p_value, p_text_literal, p_bytestring, p_bytestring_utf8, p_bytestring_hex, p_bytestring_base64.
  repeat apply tresp_or; auto using tresp_dquoted with lay.
  - apply tresp_map. repeat apply tresp_or; auto using (tresp_bquoted "") with lay.
    + apply tresp_map_res_fail. apply (tresp_bquoted "h"). auto with lay.
    + apply tresp_map_res_fail. eapply tresp_ext; [|apply (tresp_bquoted "b64"); auto with lay].
      intros i. unfold delimited, bindp. destruct (tag _ i); auto. destruct (p_bchar rest); auto. rewrite (tag_char "'" 0x27) by reflexivity. destruct (tag "'" rest0); reflexivity.
Qed.
#[export] Hint Resolve tresp_value_ : lay.

(** * Phrases: related results, and progress on both sides or on none. *)
Inductive wrel {A B} (R : A -> B -> Prop) (i i' : text) : pres A -> pres B -> Prop :=
| wr_done a b c c' r r' : R a b -> i = c ++ r -> i' = c' ++ r' -> (c = [] <-> c' = []) -> relayout r r' -> wrel R i i' (Done a r) (Done b r')
| wr_soft e e' : ekind e = ekind e' -> wrel R i i' (Soft e) (Soft e')
| wr_hard e e' : ekind e = ekind e' -> wrel R i i' (Hard e) (Hard e')
| wr_crash : wrel R i i' Crash Crash
| wr_fuel y : wrel R i i' NoFuel y.
Definition wresp {A B} (R : A -> B -> Prop) (p : parser A) (q : parser B) : Prop := forall i i', relayout i i' -> wrel R i i' (p i) (q i').
Definition any {A B} : A -> B -> Prop := fun _ _ => True.
Create HintDb lw.

Lemma w_tresp {A} (p : parser A) : tresp p -> wresp eq p p.
Proof. intros Hp i i' H. destruct (Hp i i' H); [econstructor; eauto; tauto|constructor; auto..]. Qed.
Lemma w_impl {A B} (R S : A -> B -> Prop) p q : (forall a b, R a b -> S a b) -> wresp R p q -> wresp S p q.
Proof. intros I Hp i i' H. destruct (Hp i i' H); econstructor; eauto. Qed.
Lemma w_any {A B} (R : A -> B -> Prop) p q : wresp R p q -> wresp any p q.
Proof. apply w_impl. intros; exact I. Qed.
Lemma nil_both {A} (a b c d : list A) : (a = [] <-> b = []) -> (c = [] <-> d = []) -> (a ++ c = [] <-> b ++ d = []).
Proof. intros. split; intros E; apply app_eq_nil in E; destruct E as [-> ->]; [replace b with (@nil A) by (symmetry; tauto)|replace a with (@nil A) by (symmetry; tauto)]; cbn; tauto. Qed.
Lemma w_more {A B} (R : A -> B -> Prop) c c' j j' x y : (c = [] <-> c' = []) -> wrel R j j' x y -> wrel R (c ++ j) (c' ++ j') x y.
Proof.
  intros N H. destruct H as [a b d d' r r' Ra -> -> N' L|e e' E|e e' E| |y]; try (constructor; auto; fail).
  apply (wr_done _ _ _ a b (c ++ d) (c' ++ d')); auto using nil_both; now rewrite app_assoc.
Qed.
Lemma w_bind {A A' B B'} (R : A -> A' -> Prop) (S : B -> B' -> Prop) p q f g :
  wresp R p q -> (forall a a', R a a' -> wresp S (f a) (g a')) -> wresp S (bindp p f) (bindp q g).
Proof.
  intros Hp Hf i i' H. unfold bindp. destruct (Hp i i' H) as [a b c c' r r' Ra -> -> N L|e e' E|e e' E| |y]; try (constructor; auto; fail).
  apply w_more; auto. apply Hf; auto.
Qed.
Lemma w_ret {A B} (R : A -> B -> Prop) a b : R a b -> wresp R (ret a) (ret b).
Proof. intros Ra i i' H. apply (wr_done _ _ _ a b [] []); auto; tauto. Qed.
Lemma w_map {A A' B B'} (R : A -> A' -> Prop) (S : B -> B' -> Prop) (f : A -> B) (g : A' -> B') p q :
  (forall a a', R a a' -> S (f a) (g a')) -> wresp R p q -> wresp S (mapp f p) (mapp g q).
Proof. intros Hf Hp. eapply w_bind; eauto. intros. apply w_ret. auto. Qed.
Lemma w_map_eq {A B} (f : A -> B) p q : wresp eq p q -> wresp eq (mapp f p) (mapp f q).
Proof. apply w_map. now intros a a' ->. Qed.
Lemma w_pair {A A' B B'} (R : A -> A' -> Prop) (S : B -> B' -> Prop) p q p' q' :
  wresp R p p' -> wresp S q q' -> wresp (fun x y => R (fst x) (fst y) /\ S (snd x) (snd y)) (pairp p q) (pairp p' q').
Proof. intros. repeat (eapply w_bind; eauto; intros). apply w_ret. auto. Qed.
Lemma w_pair_eq {A B} (p p' : parser A) (q q' : parser B) : wresp eq p p' -> wresp eq q q' -> wresp eq (pairp p q) (pairp p' q').
Proof. intros. repeat (eapply w_bind; eauto; intros). apply w_ret. congruence. Qed.
Lemma w_preceded {A A' B B'} (R : A -> A' -> Prop) (S : B -> B' -> Prop) p q p' q' :
  wresp R p p' -> wresp S q q' -> wresp S (preceded p q) (preceded p' q').
Proof. intros. repeat (eapply w_bind; eauto; intros). Qed.
Lemma w_terminated {A A' B B'} (R : A -> A' -> Prop) (S : B -> B' -> Prop) p q p' q' :
  wresp R p p' -> wresp S q q' -> wresp R (terminated p q) (terminated p' q').
Proof. intros. repeat (eapply w_bind; eauto; intros). apply w_ret. auto. Qed.
Lemma w_delimited {A A' B B' C C'} (R : A -> A' -> Prop) (S : B -> B' -> Prop) (T : C -> C' -> Prop) p q r p' q' r' :
  wresp R p p' -> wresp S q q' -> wresp T r r' -> wresp S (delimited p q r) (delimited p' q' r').
Proof. intros. repeat (eapply w_bind; eauto; intros). apply w_ret. auto. Qed.
Lemma w_separated_pair {A B B' C} (S : B -> B' -> Prop) (p p' : parser A) q (r r' : parser C) q' :
  wresp eq p p' -> wresp S q q' -> wresp eq r r' -> wresp eq (separated_pair p q r) (separated_pair p' q' r').
Proof. intros. repeat (eapply w_bind; eauto; intros). apply w_ret. congruence. Qed.
Lemma w_opt {A B} (R : A -> B -> Prop) p q : wresp R p q ->
  wresp (fun x y => match x, y with Some a, Some b => R a b | None, None => True | _, _ => False end) (opt p) (opt q).
Proof.
  intros Hp i i' H. unfold opt. destruct (Hp i i' H) as [a b c c' r r' Ra E E' N L|e e' E|e e' E| |y]; try (constructor; auto; fail).
  - econstructor; eauto.
  - apply (wr_done _ _ _ None None [] []); auto; tauto.
Qed.
Lemma w_opt_eq {A} (p q : parser A) : wresp eq p q -> wresp eq (opt p) (opt q).
Proof. intros H. eapply w_impl; [|apply w_opt; exact H]. cbn. intros [a|] [b|] E; try tauto. congruence. Qed.
Lemma w_or {A B} (R : A -> B -> Prop) p q p' q' : wresp R p p' -> wresp R q q' -> wresp R (orp p q) (orp p' q').
Proof.
  intros Hp Hq i i' H. unfold orp. destruct (Hp i i' H) as [a b c c' r r' Ra E E' N L|e e' E|e e' E| |y]; try (constructor; auto; fail); [|apply Hq; auto].
  econstructor; eauto.
Qed.
Lemma len_nil {A} (c r : list A) : List.length r = List.length (c ++ r) <-> c = [].
Proof. rewrite app_length. split; [|intros ->; reflexivity]. destruct c; cbn; [auto|lia]. Qed.
Lemma w_many0_eq {A} (p q : parser A) : wresp eq p q -> wresp eq (many0 p) (many0 q).
Proof.
  intros Hp.
  assert (G : forall n m i i', List.length i' < m -> relayout i i' -> wrel eq i i' (many0_f n p i) (many0_f m q i'));
    [|intros i i' H; apply G; auto].
  intros n. induction n as [|n IH]; intros m i i' L' H; [constructor|]. destruct m as [|m]; [lia|]. cbn.
  destruct (Hp i i' H) as [a b c c' r r' Ra E E' N L|e e' E|e e' E| |y]; try (constructor; auto; fail).
  2:{ apply (wr_done _ _ _ [] [] [] []); auto; tauto. }
  subst i i'. destruct (Nat.eqb_spec (List.length r) (List.length (c ++ r))) as [Q|Q]; rewrite len_nil in Q;
    destruct (Nat.eqb_spec (List.length r') (List.length (c' ++ r'))) as [Q'|Q']; pose proof Q' as Q''; rewrite len_nil in Q''; try tauto; [constructor; reflexivity|].
  assert (T : wrel eq r r' (many0_f n p r) (many0_f m q r')) by (apply IH; auto; rewrite !app_length in *; lia).
  destruct T as [l l' d d' s s' El -> -> N' R'|e e' E|e e' E| |y]; try (constructor; auto; fail).
  apply (wr_done _ _ _ _ _ (c ++ d) (c' ++ d')); auto using nil_both; [congruence|now rewrite app_assoc..].
Qed.
Lemma w_many1_eq {A} (p q : parser A) : wresp eq p q -> wresp eq (many1 p) (many1 q).
Proof. intros. eapply w_bind; [eauto|]. intros a a' ->. eapply w_bind; [apply w_many0_eq; eauto|]. intros l l' ->. now apply w_ret. Qed.
Lemma w_sep_eq {A B} (S : B -> B -> Prop) (p p' : parser A) q q' : wresp S q q' -> wresp eq p p' -> wresp eq (separated_list1 q p) (separated_list1 q' p').
Proof.
  intros Hq Hp.
  assert (G : forall n m i i', List.length i' < m -> relayout i i' -> wrel eq i i' (sep_loop_f n q p i) (sep_loop_f m q' p' i')).
  { intros n. induction n as [|n IH]; intros m i i' L' H; [constructor|]. destruct m as [|m]; [lia|]. cbn.
    destruct (Hq i i' H) as [a b c c' r r' Ra E E' N L|e e' E|e e' E| |y]; try (constructor; auto; fail).
    2:{ apply (wr_done _ _ _ [] [] [] []); auto; tauto. }
    subst i i'. destruct (Nat.eqb_spec (List.length r) (List.length (c ++ r))) as [Q|Q]; rewrite len_nil in Q;
      destruct (Nat.eqb_spec (List.length r') (List.length (c' ++ r'))) as [Q'|Q']; pose proof Q' as Q''; rewrite len_nil in Q''; try tauto; [constructor; reflexivity|].
    destruct (Hp r r' L) as [x x' f f' s s' -> -> -> N' L2|e e' E|e e' E| |y]; try (constructor; auto; fail).
    2:{ apply (wr_done _ _ _ [] [] [] []); auto; tauto. }
    assert (T : wrel eq s s' (sep_loop_f n q p s) (sep_loop_f m q' p' s')) by (apply IH; auto; rewrite !app_length in *; lia).
    destruct T as [l l' d d' t t' El -> -> N2 R'|e e' E|e e' E| |y]; try (constructor; auto; fail).
    apply (wr_done _ _ _ _ _ (c ++ f ++ d) (c' ++ f' ++ d')); auto using nil_both; [congruence|now rewrite !app_assoc..]. }
  unfold separated_list1. eapply w_bind; [exact Hp|]. intros a a' ->. eapply w_bind; [|intros l l' ->; apply w_ret; reflexivity].
  intros i i' H. apply G; auto.
Qed.

(** ** Whitespace *)
Lemma rl_ws i i' : relayout i i' ->
  exists w w' r r', i = w ++ r /\ i' = w' ++ r' /\ (w = [] <-> w' = []) /\ relayout r r' /\
    d_ws i r /\ ws_end r /\ d_ws i' r' /\ ws_end r'.
Proof.
  intros H. destruct H as [|c i i' P H|s i i' Q H|w w' i i' G G' H].
  - exists [], [], [], []. repeat split; auto using rl_nil, dw_end, ws_end_nil.
  - exists [], [], (c :: i), (c :: i'). destruct P as (S & C & P). repeat split; auto using dw_end, ws_end_head.
    apply rl_char; auto. unfold plain. auto.
  - assert (E : forall j, ws_end (s ++ j)).
    { intros j. destruct Q as [(t & _ & ->)|(t & _ & ->)]; cbn; apply ws_end_head; try discriminate; unfold SPACE; lia. }
    exists [], [], (s ++ i), (s ++ i'). repeat split; auto using dw_end, rl_string.
  - exists w, w', i, i'. destruct G as (N & D & E). destruct G' as (N' & D' & E'). repeat split; auto; intros; congruence.
Qed.
Lemma w_ws : wresp any p_ws p_ws.
Proof.
  intros i i' H. destruct (rl_ws i i' H) as (w & w' & r & r' & -> & -> & N & R & D & E & D' & E').
  rewrite !ws_run by auto. econstructor; eauto. exact I.
Qed.
#[export] Hint Resolve w_ws w_tresp : lw.
#[export] Hint Extern 1 (tresp _) => solve [auto with lay] : lw.
Lemma w_optcom : wresp eq p_optcom p_optcom.
Proof.
  eapply (w_map any); [now intros|]. eapply w_any. eapply w_pair; [apply w_ws|]. eapply w_opt. eapply w_pair; [auto with lw|apply w_ws].
Qed.
#[export] Hint Resolve w_optcom : lw.

Section Bodies.
Variable X : ext.
Variables (p q : parser type1) (g h : parser group).
Hypothesis Hp : wresp eq p q.
Hypothesis Hg : wresp eq g h.
Lemma w_spaced s : Forall plain (txt s) -> wresp eq (delimited p_ws (tag s) p_ws) (delimited p_ws (tag s) p_ws).
Proof. intros. eapply w_delimited; [apply w_ws|auto with lw|apply w_ws]. Qed.
Lemma w_then s : Forall plain (txt s) -> wresp any (pairp (tag s) p_ws) (pairp (tag s) p_ws).
Proof. intros. eapply w_any. eapply w_pair; [apply w_tresp; auto with lay|apply w_ws]. Qed.
Lemma w_slash : wresp eq p_slash p_slash.
Proof. apply w_spaced. auto with lay. Qed.
Lemma w_ty : wresp eq (p_ty p) (p_ty q).
Proof. eapply w_sep_eq; [apply w_slash|auto]. Qed.
Lemma w_generic_arg : wresp eq (p_generic_arg p) (p_generic_arg q).
Proof.
  eapply w_delimited; [apply w_then; auto with lay| |apply w_tresp; auto with lay]. eapply w_sep_eq; [apply w_then; auto with lay|].
  eapply w_terminated; [eauto|apply w_ws].
Qed.
Lemma w_name : wresp eq (p_name_generic p) (p_name_generic q).
Proof. apply w_map_eq. apply w_pair_eq; [auto with lw|]. apply w_opt_eq, w_generic_arg. Qed.
Lemma w_memberkey_tail : wresp eq (p_memberkey_tail p) (p_memberkey_tail q).
Proof. eapply w_preceded; [apply w_then; auto with lay|apply w_ty]. Qed.
Lemma w_arrow_tail : wresp eq (p_arrow_tail p) (p_arrow_tail q).
Proof.
  apply w_map_eq. apply w_pair_eq.
  - apply w_opt_eq. eapply w_terminated; [auto with lw|apply w_ws].
  - eapply w_preceded; [apply w_tresp; auto with lay|]. eapply w_preceded; [apply w_ws|apply w_ty].
Qed.
Lemma w_more_choices : wresp eq (p_more_choices p) (p_more_choices q).
Proof. apply w_many0_eq. eapply w_preceded; [apply w_slash|auto]. Qed.
Lemma w_member_plain t : wresp eq (member_plain p t) (member_plain q t).
Proof.
  intros i i' H. unfold member_plain. destruct (w_more_choices i i' H) as [a b c c' r r' -> E E' N L|e e' E|e e' E| |y]; try (constructor; auto; fail).
  econstructor; eauto.
Qed.
Lemma w_member_arrow t : wresp eq (member_arrow p t) (member_arrow q t).
Proof.
  intros i i' H. unfold member_arrow. destruct (w_arrow_tail i i' H) as [a b c c' r r' -> E E' N L|e e' E|e e' E| |y]; try (constructor; auto; fail);
    [econstructor; eauto|apply w_member_plain; auto..].
Qed.
Lemma w_member_colon t : wresp eq (member_colon p t) (member_colon q t).
Proof.
  intros i i' H. unfold member_colon. destruct (w_memberkey_tail i i' H) as [a b c c' r r' -> E E' N L|e e' E|e e' E| |y]; try (constructor; auto; fail);
    [|apply w_member_arrow; auto..].
  destruct (assemble_basic_member t b) as [[m|e]|]; [econstructor; eauto|constructor; auto..].
Qed.
Lemma w_grpent_member : wresp eq (p_grpent_member p) (p_grpent_member q).
Proof.
  eapply w_bind; [eapply w_terminated; [apply Hp|apply w_ws]|]. intros t t' ->.
  destruct t' as [[]| |]; first [apply w_member_colon|apply w_member_arrow].
Qed.
Lemma w_in o c {A} (a b : parser A) : plain o -> plain c -> wresp eq a b -> wresp eq (p_in o c a) (p_in o c b).
Proof.
  intros. eapply w_delimited; [apply w_tresp; auto with lay| |apply w_tresp; auto with lay]. eapply w_delimited; [apply w_ws|auto|apply w_ws].
Qed.
Lemma w_grpent_val : wresp eq (p_grpent_val p g) (p_grpent_val q h).
Proof.
  repeat apply w_or; [apply w_grpent_member|auto with lw|]. apply w_map_eq. apply w_in; auto with lay.
Qed.
Lemma w_grpent : wresp eq (p_grpent p g) (p_grpent q h).
Proof. apply w_map_eq. apply w_pair_eq; [|apply w_grpent_val]. apply w_opt_eq. eapply w_terminated; [auto with lw|apply w_ws]. Qed.
Lemma w_grpchoice : wresp eq (p_grpchoice p g) (p_grpchoice q h).
Proof. apply w_many0_eq. eapply w_terminated; [apply w_grpent|apply w_optcom]. Qed.
Lemma w_group_body : wresp eq (group_body p g) (group_body q h).
Proof.
  apply w_map_eq. apply w_pair_eq; [apply w_grpchoice|]. apply w_many0_eq.
  eapply w_preceded; [apply w_spaced; auto with lay|apply w_grpchoice].
Qed.
Lemma w_type2 : wresp eq (p_type2 X p g) (p_type2 X q h).
Proof.
  repeat apply w_or; apply w_map_eq; auto using w_name, w_ty, w_in with lay lw.
  - eapply w_preceded; [apply w_tresp; auto with lay|]. eapply w_preceded; [apply w_ws|apply w_name].
  - eapply w_preceded; [apply w_tresp; auto with lay|]. eapply w_preceded; [apply w_ws|apply w_in; auto with lay].
  - eapply w_preceded; [apply w_tresp; auto with lay|]. eapply w_preceded; [apply w_ws|apply w_name].
Qed.
Lemma w_type1_body : wresp eq (type1_body X p g) (type1_body X q h).
Proof.
  apply w_map_eq. apply w_pair_eq; [apply w_type2|]. apply w_opt_eq. eapply w_preceded; [apply w_ws|].
  apply w_pair_eq; [unfold p_control_op; repeat apply w_or; auto with lw|]. eapply w_preceded; [apply w_ws|apply w_type2].
Qed.
Lemma w_rule_val : wresp eq (p_rule_val p g) (p_rule_val q h).
Proof.
  apply w_map_eq. eapply w_separated_pair; [auto with lw|apply w_ws|]. apply w_or; apply w_map_eq; [apply w_ty|apply w_grpent].
Qed.
Lemma w_generic_parm : wresp eq p_generic_parm p_generic_parm.
Proof.
  eapply w_delimited; [apply w_then; auto with lay| |apply w_tresp; auto with lay]. eapply w_sep_eq; [apply w_then; auto with lay|].
  eapply w_terminated; [auto with lw|apply w_ws].
Qed.
Lemma w_rule : wresp eq (p_rule p g) (p_rule q h).
Proof.
  apply w_map_eq. eapply w_separated_pair; [|apply w_ws|apply w_rule_val]. apply w_pair_eq; [auto with lw|]. apply w_opt_eq, w_generic_parm.
Qed.
Lemma w_cddl : wresp eq (p_cddl p g) (p_cddl q h).
Proof. eapply w_preceded; [apply w_ws|]. apply w_many1_eq. eapply w_terminated; [apply w_rule|apply w_ws]. Qed.
End Bodies.

Section Knot.
Variable X : ext.
Lemma w_ext {A B} (R : A -> B -> Prop) p q q' : (forall i, q' i = q i) -> wresp R p q -> wresp R p q'.
Proof. intros E H i i' L. rewrite E. auto. Qed.
Lemma w_fuel n : wresp eq (type1_f X n) (parse_type1 X) /\ wresp eq (group_f X n) (parse_group X).
Proof.
  induction n as [|n [IH1 IH2]]; [split; intros i i' H; constructor|].
  split; intros i i' H; [rewrite type1_f_S, type1_eq; apply w_type1_body; auto|rewrite group_f_S, group_eq; apply w_group_body; auto].
Qed.
Lemma w_type1 : wresp eq (parse_type1 X) (parse_type1 X).
Proof. intros i i' H. apply w_fuel; auto. Qed.
Lemma w_group : wresp eq (parse_group X) (parse_group X).
Proof. intros i i' H. apply w_fuel; auto. Qed.

Lemma relayout_sym i i' : relayout i i' -> relayout i' i.
Proof. induction 1; auto using relayout. Qed.
Lemma relayout_nil i' : relayout [] i' -> i' = [].
Proof.
  intros H. destruct (rl_view _ _ H) as [(_ & E)|[(c & j & j' & P & E & E' & R)|[(c & j & j' & Q & E & E')|(c & c' & j & j' & G & G' & E & E')]]]; auto; discriminate.
Qed.
(** The results of [parse_cddl]: the same syntax tree, or the same kind of
    error. *)
Theorem relayout_parse i i' : relayout i i' ->
  match parse_cddl X i, parse_cddl X i' with
  | Some (inl c), Some (inl c') => c = c'
  | Some (inr e), Some (inr e') => pe_kind e = pe_kind e'
  | _, _ => False
  end.
Proof.
  intros H. pose proof (parse_total X i) as T. pose proof (parse_total X i') as T'. unfold parse_cddl in *.
  assert (W : wrel eq i i' (all_consuming (p_cddl (parse_type1 X) (parse_group X)) i) (all_consuming (p_cddl (parse_type1 X) (parse_group X)) i')).
  { unfold all_consuming. eapply (w_bind eq eq); [apply w_cddl; auto using w_type1, w_group| |auto]. intros a a' -> r r' R.
    destruct r as [|c r]; [apply relayout_nil in R as ->; apply (wr_done _ _ _ _ _ [] []); auto using rl_nil; tauto|].
    destruct r' as [|c' r']; [apply relayout_sym, relayout_nil in R; discriminate|]. constructor; reflexivity. }
  destruct W as [a b c c' r r' -> E E' N L|e e' E|e e' E| |y]; cbn [finish] in *; auto.
Qed.
End Knot.
