(** When the parsers of phrases fail (recoverably), by the characters at the
    beginning of the input. *)
From Coq Require Import List Bool Arith ZArith NArith String Lia.
From Verif Require Import Base Util Data Ivt Ast Nom NomProofs Parser ParserFuel NomDone SpecSyntax ValueOrder TokenProofs LiteralProofs ParserSound ParserApi.
Import ListNotations.
Open Scope list_scope.

Definition soft {A} (x : pres A) : Prop := exists e, x = Soft e.
Definition is_head (P : N -> Prop) (i : text) : Prop := match i with [] => False | c :: _ => P c end.

Lemma soft_bind {A B} (p : parser A) (f : A -> parser B) i : soft (p i) -> soft (bindp p f i).
Proof. unfold bindp. intros [e ->]. eexists; reflexivity. Qed.
Lemma soft_map {A B} (f : A -> B) p i : soft (p i) -> soft (mapp f p i). Proof. apply soft_bind. Qed.
Lemma soft_or {A} (p q : parser A) i : soft (p i) -> soft (q i) -> soft (orp p q i).
Proof. unfold orp. intros [e ->]. auto. Qed.
Lemma soft_recognize {A} (p : parser A) i : soft (p i) -> soft (recognize p i).
Proof. unfold recognize. intros [e ->]. eexists; reflexivity. Qed.
Lemma soft_recognizer {A} (p : parser A) i : soft (p i) -> soft (recognizer p i).
Proof. unfold recognizer. intros [e ->]. eexists; reflexivity. Qed.
Lemma opt_soft {A} (p : parser A) i : soft (p i) -> opt p i = Done None i.
Proof. unfold opt. intros [e ->]. reflexivity. Qed.
Lemma or_soft {A} (p q : parser A) i : soft (p i) -> orp p q i = q i.
Proof. unfold orp. intros [e ->]. reflexivity. Qed.
Lemma soft_char c i : ~ is_head (eq c) i -> soft (charp c i).
Proof. intros H. unfold charp, satisfy. destruct i as [|d i]; [eexists; reflexivity|]. destruct (N.eqb_spec c d); [exfalso; auto|eexists; reflexivity]. Qed.
Lemma soft_tag_head s c l i : txt s = c :: l -> ~ is_head (eq c) i -> soft (tag s i).
Proof. intros E H. unfold tag. rewrite E. destruct i as [|d i]; [eexists; reflexivity|]. cbn. destruct (N.eqb_spec c d); [exfalso; auto|eexists; reflexivity]. Qed.
Lemma soft_tag s i : (forall r, i <> txt s ++ r) -> soft (tag s i).
Proof. intros H. eexists. apply tag_soft. auto. Qed.
Lemma soft_ident i : ~ is_head EALPHA i -> soft (p_ident i).
Proof. intros H. apply ident_not_start. intros c j ->. exact H. Qed.

Section WithX.
Variable X : ext.
Notation T1 := (parse_type1 X).
Notation G := (parse_group X).

Lemma soft_value i : ~ is_head (fun c => DIGIT c \/ c = 0x2d \/ c = 0x22 \/ c = 0x27)%N i ->
  (forall r, i <> txt "h'" ++ r) -> (forall r, i <> txt "b64'" ++ r) -> soft (p_value X i).
Proof.
  intros H Hh Hb. destruct i as [|c i]; [eexists; reflexivity|]. cbn in H.
  apply soft_or; [apply not_number; tauto|]. apply soft_or; [apply not_text; tauto|]. apply soft_map.
  repeat apply soft_or.
  - apply soft_map. apply soft_bind, soft_bind. eapply soft_tag_head; [reflexivity|]. cbn. intros E. subst c. apply H. auto.
  - apply soft_bind, soft_bind. apply soft_tag. auto.
  - apply soft_bind, soft_bind. apply soft_tag. auto.
Qed.
Definition opener (c : N) : Prop := (c = 0x28 \/ c = 0x7b \/ c = 0x5b \/ c = 0x7e \/ c = 0x26)%N.
Lemma soft_type2 i : soft (p_value X i) -> ~ is_head (fun c => EALPHA c \/ opener c) i -> soft (p_type2 X T1 G i).
Proof.
  intros V H. assert (O : forall c, opener c -> ~ is_head (eq c) i).
  { intros c Hc. destruct i as [|d i]; auto. cbn in *. intros <-. auto. }
  unfold opener in O. repeat apply soft_or; apply soft_map; auto; apply soft_bind;
    try (apply soft_char; apply O; auto; fail); try (eapply soft_tag_head; [reflexivity|apply O; cbn; auto 10]; fail).
  apply soft_bind, soft_ident. destruct i; cbn in *; auto.
Qed.
Lemma soft_type1 i : soft (p_type2 X T1 G i) -> soft (T1 i).
Proof. intros H. rewrite type1_eq. apply soft_map, soft_bind. auto. Qed.
Lemma soft_ty i : soft (T1 i) -> soft (p_ty T1 i).
Proof. intros H. apply soft_bind. auto. Qed.
Lemma soft_uint i : ~ is_head DIGIT i -> soft (p_uint_u64 i).
Proof.
  intros H. apply soft_bind. unfold p_uint.
  assert (Z0 : ~ is_head (eq 0x30%N) i) by (destruct i; cbn in *; auto; unfold DIGIT, between in *; lia).
  repeat apply soft_or; apply soft_map.
  - apply soft_bind. eapply soft_tag_head; [reflexivity|auto].
  - apply soft_bind. eapply soft_tag_head; [reflexivity|auto].
  - apply soft_or; [eapply soft_tag_head; [reflexivity|auto]|]. apply soft_recognize, soft_bind.
    unfold one_of_chars, satisfy. destruct i as [|c i]; [eexists; reflexivity|].
    destruct (existsb (N.eqb c) (txt "123456789")) eqn:E; [|eexists; reflexivity]. exfalso. apply H. cbn in *.
    rewrite !orb_true_iff, !N.eqb_eq in E. unfold DIGIT, between. lia.
Qed.
Lemma soft_occur i : ~ is_head (fun c => DIGIT c \/ c = 0x2a \/ c = 0x2b \/ c = 0x3f)%N i -> soft (p_occur i).
Proof.
  intros H. assert (O : forall c, (c = 0x2a \/ c = 0x2b \/ c = 0x3f)%N -> ~ is_head (eq c) i).
  { intros c Hc. destruct i as [|d i]; auto. cbn in *. intros <-. auto. }
  assert (D : ~ is_head DIGIT i) by (destruct i; cbn in *; auto).
  repeat apply soft_or.
  - apply soft_bind. unfold pairp at 1, bindp at 1. rewrite (opt_soft p_uint_u64) by (apply soft_uint; auto).
    apply soft_bind. apply soft_bind. eapply soft_tag_head; [reflexivity|apply O; cbn; auto].
  - apply soft_map. eapply soft_tag_head; [reflexivity|apply O; cbn; auto].
  - apply soft_map. eapply soft_tag_head; [reflexivity|apply O; cbn; auto].
Qed.
Lemma soft_grpent_val i : soft (T1 i) -> ~ is_head (fun c => EALPHA c \/ c = 0x28%N) i -> soft (p_grpent_val T1 G i).
Proof.
  intros H Hi. repeat apply soft_or.
  - apply soft_bind, soft_bind. auto.
  - apply soft_map, soft_ident. destruct i; cbn in *; auto.
  - apply soft_map, soft_bind, soft_char. destruct i; cbn in *; auto.
Qed.
Lemma soft_grpent i : soft (p_occur i) -> soft (p_grpent_val T1 G i) -> soft (p_grpent T1 G i).
Proof.
  intros O H. apply soft_map. unfold pairp, bindp at 1. rewrite (opt_soft (terminated p_occur p_ws)) by (apply soft_bind; auto).
  apply soft_bind. auto.
Qed.
(** A rule with an unparseable right-hand side. *)
Lemma assign_soft n c i : is_ident n -> ~ SPACE c -> c <> 0x3b%N -> soft (p_value X (c :: i)) -> ~ (EALPHA c \/ opener c) ->
  ~ (DIGIT c \/ c = 0x2a \/ c = 0x2b \/ c = 0x3f)%N ->
  exists e, parse_cddl X (n ++ txt " = " ++ c :: i) = Some (inr e).
Proof.
  intros I S N V H O. unfold parse_cddl.
  destruct (id_head _ I) as (h & m & En & Eh).
  assert (W : p_ws (n ++ txt " = " ++ c :: i) = Done [] (n ++ txt " = " ++ c :: i)).
  { rewrite En. apply ws_of_head; unfold EALPHA, ALPHA, between, SPACE in *; lia. }
  cbv beta delta [all_consuming p_cddl preceded many1 terminated bindp]. rewrite W. rewrite rule_prefix by auto.
  assert (T : soft (T1 (c :: i))) by (apply soft_type1, soft_type2; auto).
  assert (Q : soft (orp (mapp AssignType (p_ty T1)) (mapp AssignGroup (p_grpent T1 G)) (c :: i))).
  { apply soft_or; [apply soft_map, soft_ty; auto|]. apply soft_map, soft_grpent; [apply soft_occur; auto|]. apply soft_grpent_val; auto.
    cbn. unfold opener in H. tauto. }
  destruct Q as [e ->]. eexists. reflexivity.
Qed.

(** An identifier is never a value. *)
Lemma ident_no_value n r : is_ident n -> id_stop r -> ~ is_head (eq 0x27%N) r -> soft (p_value X (n ++ r)).
Proof.
  intros I St Hr. destruct (id_head _ I) as (c & m & -> & Hc).
  assert (F : Forall (fun c => c <> 0x27%N) (c :: m)).
  { eapply Forall_impl; [|apply (id_chars _ I)]. intros a [S|S]; unfold SEP, IDCHAR, EALPHA, ALPHA, DIGIT, between in S; lia. }
  assert (D : forall d q, r = d :: q -> ~ DIGIT d).
  { intros d q E Hd. apply (St [] d q E); [constructor|]. right. auto. }
  apply soft_value.
  - cbn. unfold EALPHA, ALPHA, DIGIT, between in *. lia.
  - intros q E. destruct m as [|d m]; cbn in E; inversion E; subst; [apply Hr; reflexivity|].
    inversion F as [|? ? _ F']; subst. inversion F'; subst. congruence.
  - intros q E. destruct m as [|d [|d2 [|d3 m]]]; cbn in E; inversion E; subst.
    + eapply D; [reflexivity|]. unfold DIGIT, between. lia.
    + eapply D; [reflexivity|]. unfold DIGIT, between. lia.
    + apply Hr; reflexivity.
    + repeat match goal with H : Forall _ (_ :: _) |- _ => inversion H; clear H; subst end. congruence.
Qed.
(** A reference to a rule without generic arguments. *)
Lemma type2_name n r : is_ident n -> id_stop r -> ~ is_head (fun c => c = 0x27 \/ c = 0x3c)%N r ->
  p_type2 X T1 G (n ++ r) = Done (T2Typename n []) r.
Proof.
  intros I St Hr. unfold p_type2. rewrite or_soft by (apply soft_map, ident_no_value; auto; destruct r; cbn in *; auto).
  unfold orp. assert (E : mapp (fun x => T2Typename (fst x) (snd x)) (p_name_generic T1) (n ++ r) = Done (T2Typename n []) r); [|now rewrite E].
  apply map_done. exists (n, []). split; auto. apply map_done. exists (n, None). split; auto. apply pair_done. exists r. cbn [fst snd].
  split; [apply ident_run; auto|]. apply opt_soft. apply soft_bind, soft_bind. eapply soft_tag_head; [reflexivity|]. destruct r; cbn in *; auto.
Qed.
End WithX.
