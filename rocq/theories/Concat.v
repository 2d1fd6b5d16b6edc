(** Reading a text followed by a line break and a further schema. *)
From Coq Require Import List Bool Arith ZArith NArith String Lia.
From Verif Require Import Base Util Data Ivt Ast Nom NomProofs Parser NomDone SpecSyntax TokenProofs LiteralProofs ParserSound ParserSoft FlattenProofs
  PrintProofs PrintExact SpecReading ReadTokens ReadComplete ReadExact.
Import ListNotations.
Open Scope list_scope.
Notation choice_end := SpecReading.choice_end.

Section Cat.
Variable z : text.
Notation Z := (10%N :: z).

(** * Tokens *)
Definition nonl (s : text) : Prop := ~ In 10%N s.
Lemma prefix_cat s j i : nonl s -> s ++ j = i ++ Z -> exists j', i = s ++ j' /\ j = j' ++ Z.
Proof.
  revert i. induction s as [|c s IH]; intros i N E; [exists i; auto|]. destruct i as [|d i]; cbn in E.
  - inversion E; subst. destruct N. left. reflexivity.
  - inversion E; subst. destruct (IH i) as (j' & -> & ->); [intros H; apply N; right; auto|auto|]. exists j'. auto.
Qed.
Lemma longest_cat (P : text -> Prop) i s r : (forall s, P s -> nonl s) -> longest P i s r -> longest P (i ++ Z) s (r ++ Z).
Proof.
  intros N (H & -> & M). split; auto. split; [rewrite app_assoc; auto|]. intros s' r' E H'. symmetry in E. apply prefix_cat in E; auto.
  destruct E as (j' & E & _). eapply M; eauto.
Qed.
Lemma starts_cat l i : starts l (i ++ Z) -> starts l i \/ i = [] /\ In 10%N l.
Proof. destruct i; auto. Qed.
Lemma not_starts_cat l i : ~ In 10%N l -> ~ starts l i -> ~ starts l (i ++ Z).
Proof. intros N H S. apply starts_cat in S. tauto. Qed.
Lemma head_cat (P : N -> Prop) i : first_is P i -> first_is P (i ++ Z). Proof. destruct i; cbn; tauto. Qed.
Lemma nonl_forall (P : N -> Prop) s : (~ P 10%N) -> Forall P s -> nonl s.
Proof. intros N F H. rewrite Forall_forall in F. apply N, F; auto. Qed.
Lemma nonl_app s t : nonl s -> nonl t -> nonl (s ++ t). Proof. intros H H' I. apply in_app_or in I. destruct I; auto. Qed.
Lemma ident_nonl s : is_ident s -> nonl s.
Proof.
  induction 1 as [c H|n sep c _ IH F H]; [intros [E|[]]; subst; chars|]. apply nonl_app; auto. apply nonl_app.
  - eapply nonl_forall; [|exact F]. cbn. lia.
  - intros [E|[]]; subst. chars.
Qed.
Lemma spells_nonl b s n : spells b s n -> nonl s.
Proof.
  induction 1 as [c d D|s n c d S IH D]; [|apply nonl_app; auto]; intros [E|[]]; subst; inversion D; subst; chars.
Qed.
Lemma uint_nonl s : uint_text s -> nonl s.
Proof.
  intros [n [|c s' n' _ S|s' n' S|s' n' S]]; [intros [E|[]]; discriminate|eapply spells_nonl; eauto|..]; apply nonl_app; try (eapply spells_nonl; eauto; fail); 
    intros [E|[E|[]]]; discriminate.
Qed.
Lemma digits_nonl s : digits s -> nonl s. Proof. intros [_ F]. eapply nonl_forall; [|exact F]. chars. Qed.
Lemma fraction_nonl s : optional fraction s -> nonl s.
Proof. intros [-> |(d & -> & D)]; [intros []|]. apply nonl_app; [intros [E|[]]; discriminate|apply digits_nonl; auto]. Qed.
Lemma exponent_nonl s : optional exponent s -> nonl s.
Proof.
  intros [-> |(sg & d & -> & I & D)]; [intros []|]. apply nonl_app; [intros [E|[]]; discriminate|]. apply nonl_app; [|apply digits_nonl; auto].
  destruct I as [<-|[<-|[<-|[]]]]; [intros []| |]; intros [E|[]]; discriminate.
Qed.

(** * Whitespace *)
Lemma ws_cat i k : d_ws i k -> d_ws (i ++ Z) (k ++ Z).
Proof.
  induction 1 as [i|c i r H _ IH|body i r F A _ IH]; [constructor|constructor; auto|]. cbn. rewrite <- app_assoc. apply dw_comment; auto.
  destruct A as [-> |[(j & ->)|(j & ->)]]; right; [left; exists z|left; exists (j ++ Z)|right; exists (j ++ Z)]; auto.
Qed.
Notation solid := (first_is solidc).
Lemma skip_cat i k : skip i k -> solid k -> skip (i ++ Z) (k ++ Z).
Proof. intros [D _] H. split; [apply ws_cat; auto|]. apply (skip_solid (k ++ Z)), head_cat. auto. Qed.
Lemma start_solid k : solid k -> skip k k. Proof. apply skip_solid. Qed.
Lemma opens_cat s i j : opens s i j -> solid j -> opens s (i ++ Z) (j ++ Z).
Proof. intros (k & -> & S) H. exists (k ++ Z). split; [rewrite app_assoc; auto|apply skip_cat; auto]. Qed.
Lemma tok_solid s r : first_is solidc (txt s) -> solid (txt s ++ r). Proof. destruct (txt s); cbn; tauto. Qed.
Lemma closes_cat s i r : first_is solidc (txt s) -> closes s i r -> closes s (i ++ Z) (r ++ Z).
Proof.
  intros H (k & S & ->). exists ((txt s ++ r) ++ Z). split; [|symmetry; apply app_assoc]. apply skip_cat; auto. apply tok_solid; auto.
Qed.
Lemma opens_solid s i j : first_is solidc (txt s) -> opens s i j -> solid i.
Proof. intros H (k & -> & _). apply tok_solid; auto. Qed.
Lemma spaced_cat s i r : first_is solidc (txt s) -> spaced s i r -> solid r -> spaced s (i ++ Z) (r ++ Z).
Proof.
  intros H (k & S & O) Hr. exists (k ++ Z). split; [apply skip_cat; auto; eapply opens_solid; eauto|apply opens_cat; auto].
Qed.

(** The text [r] ends there or goes on after whitespace. *)
Definition fin (r : text) : Prop := exists k, skip r k /\ (k = [] \/ solid k).
Lemma closes_fin s i r : first_is solidc (txt s) -> closes s i r -> fin i.
Proof. intros H (k & S & ->). exists (txt s ++ r). split; auto. right. apply tok_solid; auto. Qed.
Lemma spaced_fin s i r : first_is solidc (txt s) -> spaced s i r -> fin i.
Proof. intros H (k & S & O). exists k. split; auto. right. eapply opens_solid; eauto. Qed.

Variable k0 : text.
Hypothesis sk : skip Z k0.
Hypothesis hd : first_is EALPHA k0.
Lemma ws_trans i j k : d_ws i j -> d_ws j k -> d_ws i k.
Proof. induction 1; intros; auto; [apply dw_space|apply dw_comment]; auto. Qed.
Lemma skip_end r : skip r [] -> skip (r ++ Z) k0.
Proof. intros [D _]. split; [|apply sk]. eapply ws_trans; [apply ws_cat; exact D|]. apply sk. Qed.
Lemma fin_cat r : fin r -> exists k, skip r k /\ (k = [] /\ skip (r ++ Z) k0 \/ solid k /\ skip (r ++ Z) (k ++ Z)).
Proof. intros (k & S & [-> |H]); [exists []; auto using skip_end|exists k; auto using skip_cat]. Qed.
Lemma beyond_cat l r : (forall c, In c l -> ~ EALPHA c) -> fin r -> beyond l r -> beyond l (r ++ Z).
Proof.
  intros N F (k & S & H). apply fin_cat in F. destruct F as (k' & S' & F). rewrite (skip_fun _ _ _ S S') in *. destruct F as [[-> F]|[Hk F]].
  - exists k0. split; auto. intros Q. destruct k0 as [|c k0']; [destruct hd|]. exact (N _ Q hd).
  - exists (k ++ Z). split; auto. intros Q. destruct k as [|c k]; [destruct Hk|]. exact (H Q).
Qed.
Lemma slashes_cat k : solid k -> (~ starts [0x2f%N] k \/ exists j, k = txt "//" ++ j) -> ~ starts [0x2f%N] (k ++ Z) \/ exists j, k ++ Z = txt "//" ++ j.
Proof.
  intros S [H|(j & ->)]; [left|right; exists (j ++ Z); reflexivity]. destruct k; [destruct S|exact H].
Qed.
Lemma type_end_cat r : fin r -> type_end r -> type_end (r ++ Z).
Proof.
  intros F (k & S & H). apply fin_cat in F. destruct F as (k' & S' & F). rewrite (skip_fun _ _ _ S S') in *. destruct F as [[-> F]|[Hk F]].
  - exists k0. split; auto. left. intros Q. destruct k0 as [|c k0']; [destruct hd|]. destruct Q as [<-|[]]. cbn in hd. chars.
  - exists (k ++ Z). split; auto. apply slashes_cat; auto.
Qed.
Lemma choice_end_solid r : choice_end r -> solid r.
Proof. intros [H|(j & ->)]; [|cbn; chars]. destruct r as [|c r]; [destruct H|]. cbn in *. chars. Qed.
Lemma choice_end_cat r : choice_end r -> choice_end (r ++ Z).
Proof. intros [H|(j & ->)]; [left; destruct r; [destruct H|exact H]|right; exists (j ++ Z); reflexivity]. Qed.
Lemma optcom_cat j k : u_optcom j k -> solid k -> u_optcom (j ++ Z) (k ++ Z) /\ fin j.
Proof.
  intros [H|[S N]] Hk.
  - split; [left; apply spaced_cat; auto; cbn; chars|eapply spaced_fin; eauto; cbn; chars].
  - split; [right; split; [apply skip_cat; auto|]|exists k; auto]. destruct k; [destruct Hk|exact N].
Qed.

(** * Literals and occurrences *)
Lemma uint_cat i n r : u_uint i n r -> u_uint (i ++ Z) n (r ++ Z).
Proof. intros (s & L & U). exists s. split; auto. apply longest_cat; auto. apply uint_nonl. Qed.
Lemma numeral_cat i sg s f e r : numeral i sg s f e r -> numeral (i ++ Z) sg s f e (r ++ Z).
Proof.
  intros (Sg & j & k & m & -> & L1 & L2 & L3). split; auto. exists (j ++ Z), (k ++ Z), (m ++ Z). split; [rewrite app_assoc; auto|].
  split; [apply longest_cat; auto; apply uint_nonl|]. split; apply longest_cat; auto; [apply fraction_nonl|apply exponent_nonl].
Qed.
Lemma bound_cat i o r : u_bound i o r -> u_bound (i ++ Z) o (r ++ Z).
Proof.
  intros [j H|j n r' U L]; constructor; auto using uint_cat. destruct j; cbn in *; auto. chars.
Qed.
Lemma occur_cat i o r : u_occur i o r -> u_occur (i ++ Z) o (r ++ Z).
Proof.
  intros [r'|r'|j r' B N|j lo k hi r' B B' N]; [apply uo_opt|apply uo_plus|apply uo_star; [apply (bound_cat _ _ _ B)|destruct r'; cbn in *; auto; chars]|].
  apply (uo_bounds (j ++ Z) lo (k ++ Z) hi); auto; [apply (bound_cat _ _ _ B)|apply bound_cat; auto].
Qed.
Lemma no_occur_cat i : i <> [] -> no_occur i -> no_occur (i ++ Z).
Proof.
  intros Ne [H U]. split; [apply not_starts_cat; auto; cbn; lia|]. intros n r Q.
  assert (D : is_head DIGIT i) by (apply u_uint_digit in Q; destruct i; [congruence|exact Q]).
  destruct (u_uint_total i D) as (n' & r' & Q'). destruct (u_uint_fun _ _ _ _ _ (uint_cat _ _ _ Q') Q) as [-> ->]. apply U in Q'. destruct Q' as [L S]. split; auto.
  apply not_starts_cat; auto. cbn. lia.
Qed.
Lemma not_bytes_cat i : ~ starts_bytes i -> ~ starts_bytes (i ++ Z).
Proof.
  intros N (j & [E|E]); symmetry in E; apply prefix_cat in E; try (intros H; cbn in H; lia); destruct E as (j' & -> & _); apply N; exists j'; auto.
Qed.
Lemma range_op_cat incl i r : range_op incl i r -> range_op incl (i ++ Z) (r ++ Z).
Proof. destruct incl; cbn; [intros [-> N]; split; auto; apply not_starts_cat; auto; cbn; lia|intros ->; auto]. Qed.
Lemma range_op_solid incl i r : range_op incl i r -> solid i.
Proof. destruct incl; cbn; [intros [-> _]|intros ->]; cbn; chars. Qed.

Section WithX.
Variable X : ext.
Lemma value_cat i v r : u_value X i v r -> u_value X (i ++ Z) v (r ++ Z).
Proof.
  intros [i' s n r' N U L|i' s n r' N U L|i' sg s f e bits r' N Ne P|s t r' C U|s t r' C U|s t b r' C W B|s b r' C B].
  - eapply ux_uint; eauto using numeral_cat.
  - eapply ux_nint; eauto using numeral_cat.
  - eapply ux_float; eauto using numeral_cat.
  - rewrite <- !app_assoc. eapply ux_text; eauto.
  - rewrite <- !app_assoc. eapply ux_bytes; eauto.
  - rewrite <- !app_assoc. eapply ux_hex; eauto.
  - rewrite <- !app_assoc. eapply ux_base64; eauto.
Qed.
Lemma value_solid i v r : u_value X i v r -> solid i.
Proof.
  assert (D : forall s r, uint_text s -> solid (s ++ r)).
  { intros s r' H. apply uint_text_head in H. destruct s; [destruct H|]. cbn in *. chars. }
  assert (N : forall i sg s f e r, numeral i sg s f e r -> solid i).
  { intros j sg s f e r' (Sg & j' & k & m & -> & (U & -> & _) & _). destruct Sg as [-> | ->]; [apply (D s k); auto|]. cbn. chars. }
  intros [i' s n r' Nu U L|i' s n r' Nu U L|i' sg s f e bits r' Nu Ne P|s t r' C U|s t r' C U|s t b r' C W B|s b r' C B]; eauto; cbn; chars.
Qed.
Lemma name_solid i s r : longest is_ident i s r -> solid i.
Proof. intros (H & -> & _). apply ident_head in H. destruct s; [destruct H|]. cbn in *. chars. Qed.
Lemma occur_solid i o r : u_occur i o r -> solid i.
Proof.
  assert (B : forall i o r, u_bound i o (txt "*" ++ r) -> solid i).
  { intros j o' r' H. inversion H; subst; [cbn; chars|]. apply u_uint_digit in H0. destruct j; [destruct H0|]. cbn in *. chars. }
  intros [r'|r'|j r' Hb N|j lo k hi r' Hb B' N]; eauto; cbn; chars.
Qed.
Ltac op := eapply opens_solid; [|eassumption]; cbn; chars.
Theorem solids :
  (forall i t r, u_type2 X i t r -> solid i) /\ (forall i n a r, u_name X i n a r -> solid i) /\ (forall i a r, u_args X i a r -> solid i) /\
  (forall i t r, u_type1 X i t r -> solid i) /\ (forall i t r, u_type X i t r -> solid i) /\ (forall i g r, u_group X i g r -> solid i) /\
  (forall i c r, u_choice X i c r -> solid i) /\ (forall i e r, u_grpent X i e r -> solid i) /\ (forall i v r, u_val X i v r -> solid i).
Proof.
  apply (u_mind X (fun i t r _ => solid i) (fun i n a r _ => solid i) (fun i a r _ => solid i) (fun i t r _ => solid i) (fun i t r _ => solid i)
    (fun i t r _ => solid i) (fun i t r _ => solid i) (fun i t r _ => solid i) (fun i t r _ => solid i)); intros; auto; try (op; fail);
    eauto using value_solid, name_solid, occur_solid, choice_end_solid.
Qed.
Ltac sc := cbn; chars.
Ltac ne := intros ?; cbn; intros; chars.
Ltac so := first
  [eapply (proj1 solids); eassumption
  |eapply (proj1 (proj2 solids)); eassumption
  |eapply (proj1 (proj2 (proj2 solids))); eassumption
  |eapply (proj1 (proj2 (proj2 (proj2 solids)))); eassumption
  |eapply (proj1 (proj2 (proj2 (proj2 (proj2 solids))))); eassumption
  |eapply (proj1 (proj2 (proj2 (proj2 (proj2 (proj2 solids)))))); eassumption
  |eapply (proj1 (proj2 (proj2 (proj2 (proj2 (proj2 (proj2 solids))))))); eassumption
  |eapply (proj1 (proj2 (proj2 (proj2 (proj2 (proj2 (proj2 (proj2 solids)))))))); eassumption
  |eapply (proj2 (proj2 (proj2 (proj2 (proj2 (proj2 (proj2 (proj2 solids)))))))); eassumption].
Theorem cats :
  (forall i t r, u_type2 X i t r -> u_type2 X (i ++ Z) t (r ++ Z)) /\
  (forall i n a r, u_name X i n a r -> u_name X (i ++ Z) n a (r ++ Z)) /\
  (forall i a r, u_args X i a r -> u_args X (i ++ Z) a (r ++ Z)) /\
  (forall i t r, u_type1 X i t r -> fin r -> u_type1 X (i ++ Z) t (r ++ Z)) /\
  (forall i t r, u_type X i t r -> fin r -> u_type X (i ++ Z) t (r ++ Z)) /\
  (forall i g r, u_group X i g r -> u_group X (i ++ Z) g (r ++ Z)) /\
  (forall i c r, u_choice X i c r -> u_choice X (i ++ Z) c (r ++ Z)) /\
  (forall i e r, u_grpent X i e r -> fin r -> u_grpent X (i ++ Z) e (r ++ Z)) /\
  (forall i v r, u_val X i v r -> fin r -> u_val X (i ++ Z) v (r ++ Z)).
Proof.
  apply (u_mind X (fun i t r _ => u_type2 X (i ++ Z) t (r ++ Z)) (fun i n a r _ => u_name X (i ++ Z) n a (r ++ Z)) (fun i a r _ => u_args X (i ++ Z) a (r ++ Z))
    (fun i t r _ => fin r -> u_type1 X (i ++ Z) t (r ++ Z)) (fun i t r _ => fin r -> u_type X (i ++ Z) t (r ++ Z))
    (fun i g r _ => u_group X (i ++ Z) g (r ++ Z)) (fun i c r _ => u_choice X (i ++ Z) c (r ++ Z))
    (fun i e r _ => fin r -> u_grpent X (i ++ Z) e (r ++ Z)) (fun i v r _ => fin r -> u_val X (i ++ Z) v (r ++ Z))).
  - intros i v r V. constructor. apply value_cat; auto.
  - intros i n a r N _ IH. constructor; auto. apply not_bytes_cat; auto.
  - intros i j t k r O U IH C. eapply u2_paren; [apply opens_cat; eauto; so|apply IH; eapply closes_fin; eauto; sc|apply closes_cat; auto; sc].
  - intros i j g r O U IH. eapply u2_map; [apply opens_cat; eauto; so|exact IH].
  - intros i j g r O U IH. eapply u2_array; [apply opens_cat; eauto; so|exact IH].
  - intros i j n a r O U IH. eapply u2_unwrap; [apply opens_cat; eauto; so|exact IH].
  - intros i j k g r O O' U IH. eapply u2_choice_inline; [apply opens_cat; eauto; op|apply opens_cat; eauto; so|exact IH].
  - intros i j n a r O U IH. eapply u2_choice; [apply opens_cat; eauto; so|exact IH].
  - intros i n r L N. apply un_plain; [apply longest_cat; auto; apply ident_nonl|apply not_starts_cat; auto; cbn; lia].
  - intros i n j k a r L O U IH. eapply un_args; [apply longest_cat; eauto; apply ident_nonl|apply opens_cat; eauto; so|exact IH].
  - intros i t j r U IH C. eapply ua_last; [apply IH; eapply closes_fin; eauto; sc|apply closes_cat; auto; sc].
  - intros i t j k a r U IH S U' IH'. eapply ua_more; [apply IH; eapply spaced_fin; eauto; sc|apply spaced_cat; eauto; [sc|so]|exact IH'].
  - intros i t r U IH B F. apply u1_simple; auto. apply beyond_cat; auto. intros c [<-|[]]. chars.
  - intros i s j k l m e r incl U IH S O S' U' IH' F.
    eapply u1_range; [exact IH|eapply skip_cat; [exact S|eapply range_op_solid; eauto]|apply range_op_cat; eauto|eapply skip_cat; [exact S'|so]|exact IH'].
  - intros i t j k op l m a r U IH S L S' U' IH' F.
    eapply u1_control; [exact IH|apply (skip_cat _ _ S); sc|apply longest_cat; [apply ident_nonl|exact L]|eapply skip_cat; [exact S'|so]|exact IH'].
  - intros i t r U IH E F. apply ut_last; auto. apply type_end_cat; auto.
  - intros i t j k l r U IH S U' IH' F. eapply ut_more; [apply IH; eapply spaced_fin; eauto; sc|apply spaced_cat; eauto; [sc|so]|auto].
  - intros i c r U IH. constructor. auto.
  - intros i c j k g r U IH O U' IH'. eapply ug_more; [exact IH|apply opens_cat; eauto; so|exact IH'].
  - intros i E. constructor. apply choice_end_cat; auto.
  - intros i e j k c r U IH O U' IH'. destruct (optcom_cat _ _ O) as [O' F]; [so|]. eapply uc_cons; [apply IH; auto|exact O'|exact IH'].
  - intros i v r N U IH F. apply ue_plain; auto. apply no_occur_cat; auto. apply solids in U. destruct i; [destruct U|discriminate].
  - intros i o j k v r O S U IH F. eapply ue_occur; [apply occur_cat; eauto|apply skip_cat; eauto; so|auto].
  - intros i t r U IH B F. apply uv_type; auto. apply beyond_cat; auto. intros c C. chars.
  - intros i n j k t r N L S U IH F. eapply uv_bareword; [apply not_bytes_cat; auto|apply longest_cat; [apply ident_nonl|exact L]|apply spaced_cat; eauto; [sc|so]|auto].
  - intros i v j k t r V S U IH F. eapply uv_value; [apply value_cat; eauto|apply spaced_cat; eauto; [sc|so]|auto].
  - intros i kt j k t r U1 IH1 S U IH F. eapply uv_key; [apply IH1; eapply spaced_fin; eauto; sc|apply spaced_cat; eauto; [sc|so]|auto].
  - intros i kt j k m t r U1 IH1 S O U IH F. eapply uv_key_cut; [apply IH1; eapply spaced_fin; eauto; sc|apply spaced_cat; eauto; [sc|op]|apply opens_cat; eauto; so|auto].
  - intros i j g r O U IH N F. eapply uv_paren; [apply opens_cat; eauto; so|exact IH|auto].
  - intros i j t k r O N U IH S F. eapply uv_paren_type; [apply opens_cat; eauto; so| |apply IH; eapply spaced_fin; eauto; sc|refine (spaced_cat "," _ _ _ S _); sc].
    apply no_occur_cat; auto. apply solids in U. destruct j; [destruct U|discriminate].
Qed.
Lemma idents_cat i l r : u_idents i l r -> u_idents (i ++ Z) l (r ++ Z) /\ solid i.
Proof.
  induction 1 as [i n j r L C|i n j k l r L S _ [IH Hk]]; (split; [|eapply name_solid; eauto]).
  - eapply ui_last; [apply longest_cat; [apply ident_nonl|exact L]|apply closes_cat; auto; sc].
  - eapply ui_more; [apply longest_cat; [apply ident_nonl|exact L]|apply spaced_cat; eauto; sc|auto].
Qed.
Lemma parms_cat i l r : u_parms i l r -> u_parms (i ++ Z) l (r ++ Z).
Proof.
  intros [j N|j k l' r' O H]; [constructor; apply not_starts_cat; auto; cbn; lia|]. apply idents_cat in H. destruct H. eapply up_some; eauto. apply opens_cat; auto.
Qed.
Lemma rule_cat i x r : u_rule X i x r -> fin r -> u_rule X (i ++ Z) x (r ++ Z).
Proof.
  intros [i' n j ps k m t r' L P S U|i' n j ps k m e r' L P S U N] F.
  - eapply ur_type; [apply longest_cat; [apply ident_nonl|exact L]|apply parms_cat; eauto|apply spaced_cat; eauto; [sc|so]|apply cats; auto].
  - eapply ur_group; [apply longest_cat; [apply ident_nonl|exact L]|apply parms_cat; eauto|apply spaced_cat; eauto; [sc|so]|apply cats; auto|].
    apply solids in U. destruct m as [|c m]; [destruct U|]. destruct e as [[o|] v]; exact N.
Qed.
Lemma rule_solid i x r : u_rule X i x r -> solid i.
Proof. intros [i' n j ps k m t r' L P S U|i' n j ps k m e r' L P S U N]; eapply name_solid; eauto. Qed.
Lemma rules_cat i l c' : u_rules X i l -> u_rules X k0 c' -> l <> [] -> u_rules X (i ++ Z) (l ++ c').
Proof.
  intros H R. induction H as [|i x j k l H S U IH]; intros N; [congruence|].
  destruct l as [|y l].
  - inversion U; subst. eapply us_rule; [apply rule_cat; eauto; exists []; auto|apply skip_end; auto|auto].
  - assert (Hk : solid k) by (inversion U; subst; eapply rule_solid; eauto).
    eapply us_rule; [apply rule_cat; eauto; exists k; auto|apply skip_cat; eauto|apply IH; discriminate].
Qed.
End WithX.
End Cat.

Lemma rule_first X i x r : u_rule X i x r -> first_is EALPHA i.
Proof.
  assert (N : forall i s r, longest is_ident i s r -> first_is EALPHA i).
  { intros j s r' (H & -> & _). apply ident_head in H. destruct s; [destruct H|exact H]. }
  intros [i' n j ps k m t r' L P S U|i' n j ps k m e r' L P S U Nt]; eauto.
Qed.
Theorem cddl_cat X i c j c' : u_cddl X i c -> u_cddl X j c' -> u_cddl X (i ++ 10%N :: j) (c ++ c').
Proof.
  intros (N & i' & S & R) (N' & k0 & S' & R').
  assert (Sk : skip (10%N :: j) k0) by (destruct S' as [D E]; split; auto; constructor; auto; right; right; right; auto).
  assert (Hd : first_is EALPHA k0) by (inversion R'; subst; [congruence|eapply rule_first; eauto]).
  split; [destruct c; [congruence|discriminate]|]. exists (i' ++ 10%N :: j). split; [|eapply rules_cat; eauto].
  apply skip_cat; auto. inversion R; subst; [congruence|]. eapply rule_solid; eauto.
Qed.
