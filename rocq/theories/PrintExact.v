(** The canonical rendering of a syntax tree parses to the tree: phrases. *)
From Coq Require Import List Bool Arith ZArith NArith String Lia.
From Verif Require Import Base Util Data Ivt Ast Nom NomProofs Parser ParserFuel NomDone SpecSyntax ValueOrder TokenProofs LiteralProofs
  ParserSound ParserApi ParserSoft SpecPrint FlattenProofs PrintProofs.
Import ListNotations.
Open Scope list_scope.

Section WithX.
Variable X : ext.
Variable lit : ast_value -> text.
Variable occ : occur_limit -> text.
Notation T1 := (parse_type1 X).
Notation G := (parse_group X).
Notation pr1 := (print_type1 lit occ).
Notation pr2 := (print_type2 lit occ).
Notation pre := (print_grpent lit occ).
Notation prv := (print_grpent_val lit occ).
Notation w1 := (w_type1 (w_value X lit) (w_occur occ)).
Notation w2 := (w_type2 (w_value X lit) (w_occur occ)).
Notation we := (w_grpent (w_value X lit) (w_occur occ)).
Notation wv := (w_grpent_val (w_value X lit) (w_occur occ)).

Definition F1 := follow [0x2e%N].
Definition FT := follow [0x2e; 0x2f]%N.
Definition FE := follow [0x2e; 0x2f; 0x3a; 0x3d; 0x5e]%N.
Definition P2 (t : type2) : Prop := w2 t -> forall r, stop r -> p_type2 X T1 G (pr2 t ++ r) = Done t r.
Definition P1 (t : type1) : Prop := w1 t -> forall r, F1 r -> T1 (pr1 t ++ r) = Done t r.
Definition left_of (r r' : text) : Prop := r' = r \/ exists w, p_ws r = Done w r'.
(** [i] does not begin with a type in front of a closing parenthesis. *)
Definition untype (i : text) : Prop :=
  soft (p_ty T1 i) \/ exists t r' w r'', p_ty T1 i = Done t r' /\ p_ws r' = Done w r'' /\ ~ is_head (eq 0x29%N) r''.
Definition Pv (v : grpent_val) : Prop := wv v ->
  (forall r, FE r -> exists r', p_grpent_val T1 G (prv v ++ r) = Done v r' /\ left_of r r') /\
  (forall r, untype (prv v ++ 0x2c%N :: r)).
Definition Pe (e : grpent) : Prop := we e ->
  (forall r, FE r -> exists r', p_grpent T1 G (pre e ++ r) = Done e r' /\ left_of r r') /\
  (forall r, untype (pre e ++ 0x2c%N :: r)).

Lemma F1_stop r : F1 r -> stop r. Proof. intros []; auto. Qed.
Lemma FT_F1 r : FT r -> F1 r. Proof. apply follow_weak. intros c. cbn. tauto. Qed.
Lemma FE_FT r : FE r -> FT r. Proof. apply follow_weak. intros c. cbn. tauto. Qed.

(** * Separators *)
Lemma slash_run w i : (w = [] \/ w = [32%N]) -> is_head solidc i -> p_slash (w ++ 0x2f%N :: 32%N :: i) = Done (txt "/") i.
Proof.
  intros Hw Hi. unfold p_slash. eapply del_run with (a := w) (m := 0x2f%N :: 32%N :: i).
  - destruct Hw as [-> | ->]; [apply ws_solid|apply ws_space]; cbn; chars.
  - apply (tag_run "/").
  - apply ws_space; auto.
Qed.
Lemma slash_soft' r w r' : p_ws r = Done w r' -> ~ is_head (eq 0x2f%N) r' -> soft (p_slash r).
Proof.
  intros E H. unfold p_slash, delimited, bindp at 1. rewrite E. apply soft_bind. eapply soft_tag_head; [reflexivity|auto].
Qed.
Lemma slash_soft r : FT r -> soft (p_slash r).
Proof.
  intros (_ & w & r' & E & H). eapply slash_soft'; eauto. destruct r'; cbn in *; try tauto; intros <-; auto.
Qed.
Lemma slash_F1 i : is_head solidc i -> F1 (txt " / " ++ i).
Proof. intros H. change (F1 (32 :: 0x2f :: 32 :: i)%N). apply follow_space; [chars|cbn; lia]. Qed.
Lemma shrinks_t1 : shrinks T1. Proof. apply eats_shrinks, eats_type1. Qed.

Lemma tail_F1 t r : all w1 t -> F1 r -> F1 (jt (txt " / ") (map pr1 t) ++ r).
Proof.
  destruct t as [|a t]; cbn [map]; [auto|]. intros [W _] _. rewrite jt_cons. apply slash_F1. apply solid_start; eapply pr1_head; eauto.
Qed.
Lemma items l : Forall P1 l -> all w1 l ->
  Forall (fun a => forall m, F1 m -> (exists b, p_slash (txt " / " ++ pr1 a ++ m) = Done b (pr1 a ++ m)) /\ T1 (pr1 a ++ m) = Done a m) l.
Proof.
  intros F W. apply all_Forall in W. apply (Forall_mp w1); [|auto]. eapply Forall_impl; [|exact F]. intros a H Wa m Fm. split; [|apply H; auto].
  eexists. apply (slash_run [32%N]); auto. apply solid_start. eapply pr1_head; eauto.
Qed.

Lemma ty_run t r : t <> [] -> Forall P1 t -> all w1 t -> FT r -> p_ty T1 (print_choices (map pr1 t) ++ r) = Done t r.
Proof.
  intros N F W Fr. destruct t as [|a t]; [congruence|]. inversion F as [|? ? Ha Ft]; subst. destruct W as [Wa Wt].
  unfold print_choices. cbn [map]. rewrite join_cons, <- app_assoc. apply sep_done; [auto with nom|apply shrinks_t1|].
  exists a, t, (jt (txt " / ") (map pr1 t) ++ r). split; auto. split; [apply Ha; auto; apply tail_F1; auto using FT_F1|].
  clear Ha Wa F N. revert Wt. induction Ft as [|b t Hb Ft IH]; intros Wt.
  - cbn. destruct (slash_soft r Fr) as [e E]. eapply sreps_nil; eauto.
  - destruct Wt as [Wb Wt]. cbn [map]. rewrite jt_cons. eapply sreps_cons; [apply (slash_run [32%N]); auto; apply solid_start; eapply pr1_head; eauto| | |apply IH; auto].
    + cbn [app txt]. apply (shorter 32%N [47; 32]%N).
    + apply Hb; auto. apply tail_F1; auto using FT_F1.
Qed.
Lemma more_run l r : Forall P1 l -> all w1 l -> FT r ->
  exists w m r', p_ws (jt (txt " / ") (map pr1 l) ++ r) = Done w m /\ p_more_choices T1 m = Done l r' /\ left_of r r'.
Proof.
  intros F W Fr.
  assert (Sh : shrinks (preceded p_slash T1)) by (apply shrinks_bind; [auto with nom|intros; apply shrinks_t1]).
  assert (R : forall l, Forall P1 l -> all w1 l -> reps (preceded p_slash T1) (jt (txt " / ") (map pr1 l) ++ r) l r).
  { clear l F W. intros l F. induction F as [|b t Hb Ft IH]; intros Wt.
    - cbn. destruct (soft_bind p_slash (fun _ => T1) r (slash_soft r Fr)) as [e E]. eapply reps_nil; eauto.
    - destruct Wt as [Wb Wt]. cbn [map]. rewrite jt_cons. eapply reps_cons; [|shelve|apply IH; auto].
      eapply pre_run; [apply (slash_run [32%N]); auto; apply solid_start; eapply pr1_head; eauto|]. apply Hb; auto. apply tail_F1; auto using FT_F1.
      Unshelve. rewrite app_assoc. apply len_app_lt. discriminate. }
  destruct l as [|a l].
  - destruct Fr as (St & w & r' & E & H). exists w, r', r'. split; [exact E|]. split; [|right; eauto].
    apply many0_done; auto. assert (S : soft (p_slash r')).
    { eapply slash_soft'; [eapply ws_idem; eauto|]. destruct r'; cbn in *; try tauto; intros <-; auto. }
    destruct (soft_bind p_slash (fun _ => T1) r' S) as [e Q]. eapply reps_nil; eauto.
  - inversion F as [|? ? Ha Fl]; subst. destruct W as [Wa Wl]. cbn [map]. rewrite jt_cons.
    exists [32%N], (0x2f%N :: 32%N :: pr1 a ++ jt (txt " / ") (map pr1 l) ++ r), r.
    split; [apply ws_space; cbn; chars|]. split; [|left; auto].
    apply many0_done; auto. eapply reps_cons; [|shelve|apply R; auto].
    eapply pre_run; [apply (slash_run []); auto; apply solid_start; eapply pr1_head; eauto|]. apply Ha; auto. apply tail_F1; auto using FT_F1.
    Unshelve. rewrite !app_comm_cons. apply len_app_lt. discriminate.
Qed.

(** * Names with arguments *)
Lemma stop_not r : stop r -> ~ is_head (fun c => c = 0x27 \/ c = 0x3c)%N r.
Proof. destruct r as [|c r]; cbn; auto. intros H. chars. Qed.
Lemma args_run a r : a <> [] -> Forall P1 a -> all w1 a -> p_generic_arg T1 (print_args (map pr1 a) ++ r) = Done a r.
Proof.
  intros N F W. destruct a as [|a l]; [congruence|]. inversion F as [|? ? Ha Fl]; subst. destruct W as [Wa Wl].
  unfold print_args. cbn [map]. change (match pr1 a :: map pr1 l with [] => [] | _ :: _ => txt "<" ++ join (txt ", ") (pr1 a :: map pr1 l) ++ txt ">" end)
    with (txt "<" ++ join (txt ", ") (pr1 a :: map pr1 l) ++ txt ">").
  rewrite join_cons, <- !app_assoc. set (fin := txt ">" ++ r).
  assert (Hfin : forall l, all w1 l -> is_head (fun c => c = 0x3e \/ c = 0x2c)%N (jt (txt ", ") (map pr1 l) ++ fin)).
  { intros [|b k] Wk; cbn [map]; [cbn; auto|rewrite jt_cons; cbn; auto]. }
  assert (Ff : forall m, is_head (fun c => c = 0x3e \/ c = 0x2c)%N m -> F1 m /\ is_head solidc m).
  { intros [|c m]; [intros []|]. cbn. intros H. split; [apply follow_solid; [chars|chars|cbn; lia]|chars]. }
  assert (It : forall b, P1 b -> w1 b -> forall m, is_head (fun c => c = 0x3e \/ c = 0x2c)%N m -> terminated T1 p_ws (pr1 b ++ m) = Done b m).
  { intros b Hb Wb m Hm. destruct (Ff m Hm). eapply ter_run; [apply Hb; auto|apply ws_solid; auto]. }
  unfold p_generic_arg. eapply del_run.
  - eapply pair_run; [apply (tag_run "<")|]. apply ws_solid. apply solid_start. eapply pr1_head; eauto.
  - apply sep_done; [auto with nom|apply shrinks_terminated; [apply shrinks_t1|auto with nom]|].
    exists a, l, (jt (txt ", ") (map pr1 l) ++ fin). split; auto. split; [apply It; auto|]. clear Ha Wa F N.
    revert Wl. induction Fl as [|b t Hb Ft IH]; intros Wl.
    + cbn. eapply sreps_nil. reflexivity.
    + destruct Wl as [Wb Wt]. cbn [map]. rewrite jt_cons. eapply sreps_cons; [| | |apply IH; auto].
      * eapply pair_run; [apply (tag_run ",")|]. apply ws_space. apply solid_start. eapply pr1_head; eauto.
      * apply (shorter 0x2c%N [32]%N).
      * apply It; auto.
  - apply (tag_run ">").
Qed.
Lemma name_run n a r : is_ident n -> Forall P1 a -> all w1 a -> stop r ->
  p_name_generic T1 (n ++ print_args (map pr1 a) ++ r) = Done (n, a) r.
Proof.
  intros I F W St. unfold p_name_generic. destruct a as [|a l].
  - cbn [map print_args app]. apply (map_run _ _ _ (n, None)); [|reflexivity]. eapply pair_run; [apply ident_run; auto; apply stop_id; auto|].
    apply opt_soft. apply soft_bind, soft_bind. eapply soft_tag_head; [reflexivity|]. apply stop_not in St. destruct r; cbn in *; auto.
  - apply (map_run _ _ _ (n, Some (a :: l))); [|reflexivity]. eapply pair_run; [apply ident_run; auto|apply opt_run, args_run; auto; discriminate].
    unfold print_args. cbn [map]. apply (id_stop_head 0x3c); chars.
Qed.
Lemma name_not_value n a r : is_ident n -> stop r -> soft (p_value X (n ++ print_args (map pr1 a) ++ r)).
Proof.
  intros I St. destruct a as [|a l].
  - cbn [map print_args app]. apply ident_no_value; auto; [apply stop_id; auto|]. apply stop_not in St. destruct r; cbn in *; auto.
  - apply ident_no_value; auto; [apply (id_stop_head 0x3c); chars|]. cbn. discriminate.
Qed.

(** * Groups *)
Definition closer (r : text) : Prop := is_head (one [0x29; 0x5d; 0x7d]%N) r.
Definition choice_end (r : text) : Prop := is_head (one [0x29; 0x5d; 0x7d; 0x2f]%N) r.
Notation prc := (fun c => List.concat (map (fun e => e ++ txt ", ") c)).
Lemma end_soft_t1 r : choice_end r -> soft (T1 r).
Proof.
  intros H. apply soft_type1, soft_type2.
  - destruct r as [|c r]; [destruct H|]. cbn in H. apply soft_value; [cbn; chars| |]; intros q E; inversion E; subst; chars.
  - destruct r as [|c r]; [destruct H|]. cbn in *. chars.
Qed.
Lemma end_soft r : choice_end r -> soft (p_grpent T1 G r).
Proof.
  intros H. pose proof (end_soft_t1 r H) as T. apply soft_grpent; [apply soft_occur|apply soft_grpent_val; auto];
    (destruct r as [|c r]; [destruct H|]; cbn in *; chars).
Qed.
Lemma end_untype r : choice_end r -> untype r.
Proof. intros H. left. apply soft_ty, end_soft_t1; auto. Qed.
Lemma end_solid r : choice_end r -> is_head solidc r.
Proof. apply head_weak. intros c H. chars. Qed.
Lemma choice_solid c r : all we c -> choice_end r -> is_head solidc (prc (map pre c) ++ r).
Proof.
  destruct c as [|e c]; [intros; apply end_solid; auto|]. intros [W _] _. cbn. rewrite <- !app_assoc. apply solid_entry. eapply pre_head; eauto.
Qed.
Lemma choice_run c r : Forall Pe c -> all we c -> choice_end r -> p_grpchoice T1 G (prc (map pre c) ++ r) = Done c r.
Proof.
  intros F W H. apply many0_done.
  { apply shrinks_bind; [apply shrinks_grpent; [apply shrinks_t1|apply shrinks_group]|]. intros; apply shrinks_bind; auto with nom. }
  revert W. induction F as [|e c He F IH]; intros W.
  - cbn. destruct (soft_bind (p_grpent T1 G) (fun a => bindp p_optcom (fun _ => ret a)) r (end_soft r H)) as [x E]. eapply reps_nil; eauto.
  - destruct W as [We Wc]. cbn [map List.concat]. rewrite <- !app_assoc. set (rest := prc (map pre c) ++ r).
    destruct (proj1 (He We) (txt ", " ++ rest)) as (r' & E & L).
    { apply (follow_solid _ 0x2c); [chars|chars|cbn; lia]. }
    assert (r' = txt ", " ++ rest) as ->.
    { destruct L as [-> | [w L]]; auto. rewrite ws_solid in L by (cbn; chars). inversion L; auto. }
    assert (O : p_optcom (txt ", " ++ rest) = Done tt rest).
    { unfold p_optcom, valuep. eapply (map_run (fun _ => tt)); [|reflexivity]. eapply pair_run; [apply ws_solid; cbn; chars|]. apply opt_run.
      eapply pair_run; [apply (tag_run ",")|]. apply ws_space. apply choice_solid; auto. }
    eapply reps_cons; [eapply ter_run; eauto| |apply IH; auto].
    rewrite app_assoc. apply len_app_lt. intros Q. apply app_eq_nil in Q. destruct Q; discriminate.
Qed.
Lemma group_text (l : list (list text)) : print_group l = join (txt "// ") (map prc l). Proof. reflexivity. Qed.
Lemma group_run g r : g <> [] -> Forall (Forall Pe) g -> all (all we) g -> closer r ->
  G (print_group (map (map pre) g) ++ r) = Done g r.
Proof.
  intros N F W H. destruct g as [|c g]; [congruence|]. inversion F as [|? ? Fc Fg]; subst. destruct W as [Wc Wg].
  rewrite group_eq, group_text. cbn [map]. rewrite join_cons, <- app_assoc. unfold group_body.
  assert (Ce : choice_end r) by (revert H; apply head_weak; intros x Hx; chars).
  assert (Ct : forall g, choice_end (jt (txt "// ") (map prc (map (map pre) g)) ++ r)).
  { intros [|d k]; cbn [map]; [auto|]. rewrite jt_cons. cbn. chars. }
  apply (map_run _ _ _ (c, g)); [|reflexivity]. eapply pair_run; [apply choice_run; auto|].
  apply many0_done.
  { apply shrinks_bind; [auto 10 with nom|]. intros. apply shrinks_grpchoice; [apply shrinks_t1|apply shrinks_group]. }
  clear Fc Wc F N. revert Wg. induction Fg as [|d k Fd Fk IH]; intros W.
  - cbn [map]. unfold jt; cbn [map List.concat app].
    assert (S : soft (preceded (delimited p_ws (tag "//") p_ws) (p_grpchoice T1 G) r)).
    { apply soft_bind. unfold delimited, bindp at 1. rewrite ws_solid by (apply end_solid; auto). apply soft_bind. eapply soft_tag_head; [reflexivity|].
      destruct r as [|x r]; cbn in *; auto. intros <-. chars. }
    destruct S as [e S]. eapply reps_nil; eauto.
  - destruct W as [Wd Wk]. cbn [map]. rewrite jt_cons. eapply reps_cons; [| |apply IH; auto].
    + eapply pre_run; [eapply del_run; [apply ws_solid; cbn; chars|apply (tag_run "//")|apply ws_space; apply choice_solid; auto]|].
      apply choice_run; auto.
    + rewrite app_assoc. apply len_app_lt. discriminate.
Qed.
Lemma group_solid g r : g <> [] -> all (all we) g -> closer r -> is_head solidc (print_group (map (map pre) g) ++ r).
Proof.
  intros N W H. destruct g as [|c g]; [congruence|]. destruct W as [Wc Wg]. rewrite group_text. cbn [map]. rewrite join_cons, <- app_assoc.
  apply choice_solid; auto. destruct g as [|d k]; cbn [map]; [revert H; apply head_weak; intros x Hx; chars|]. rewrite jt_cons. cbn. chars.
Qed.
Lemma in_run {A} (p : parser A) o c i a r : is_head solidc (i ++ c :: r) -> solidc c -> p (i ++ c :: r) = Done a (c :: r) ->
  p_in o c p (o :: i ++ c :: r) = Done a r.
Proof.
  intros H Hc E. unfold p_in. eapply del_run; [apply charp_run| |apply charp_run]. eapply del_run; [apply ws_solid; auto|eauto|apply ws_solid; auto].
Qed.
Lemma group_in o c g r : g <> [] -> Forall (Forall Pe) g -> all (all we) g -> In c [0x29; 0x5d; 0x7d]%N ->
  p_in o c G (o :: print_group (map (map pre) g) ++ c :: r) = Done g r.
Proof.
  intros N F W H. apply in_run; [apply group_solid; auto; exact H|chars|apply group_run; auto; exact H].
Qed.
Lemma group_untype g r : g <> [] -> Forall (Forall Pe) g -> all (all we) g -> closer r -> untype (print_group (map (map pre) g) ++ r).
Proof.
  intros N F W H. destruct g as [|c g]; [congruence|]. inversion F as [|? ? Fc Fg]; subst. destruct W as [Wc Wg].
  rewrite group_text. cbn [map]. rewrite join_cons, <- app_assoc. destruct c as [|e c].
  - cbn [map List.concat app]. apply end_untype. destruct g as [|d k]; cbn [map]; [revert H; apply head_weak; intros x Hx; chars|].
    rewrite jt_cons. cbn. chars.
  - inversion Fc as [|? ? He _]; subst. destruct Wc as [We _]. cbn [map List.concat]. rewrite <- !app_assoc. apply (proj2 (He We)).
Qed.
Lemma in_soft {A} (p : parser A) o c i : is_head solidc i ->
  soft (p i) \/ (exists a m w m', p i = Done a m /\ p_ws m = Done w m' /\ ~ is_head (eq c) m') -> soft (p_in o c p (o :: i)).
Proof.
  intros H Q. unfold p_in, delimited at 1, bindp at 1. rewrite charp_run. destruct Q as [S|(a & m & w & m' & E & E' & H')].
  - apply soft_bind. unfold delimited, bindp at 1. rewrite ws_solid by auto. apply soft_bind; auto.
  - unfold bindp at 1. rewrite (del_run p_ws p p_ws i [] i a m w m') by (auto using ws_solid). apply soft_bind, soft_char; auto.
Qed.
Lemma head_soft2 i o : is_head (eq o) i -> opener o ->
  soft (p_value X i) /\ soft (p_name_generic T1 i).
Proof.
  destruct i as [|c i]; [intros []|]. cbn. intros <- O. split; [apply soft_value; [cbn; chars| |]; intros q E; inversion E; subst; chars|].
  apply soft_map, soft_bind, soft_ident. cbn. chars.
Qed.
(** A group in parentheses is not a type in parentheses. *)
Lemma paren_soft g r : g <> [] -> Forall (Forall Pe) g -> all (all we) g -> soft (p_type2 X T1 G (0x28%N :: print_group (map (map pre) g) ++ 0x29%N :: r)).
Proof.
  intros N F W. set (i := print_group (map (map pre) g) ++ 0x29%N :: r).
  assert (Cl : closer (0x29%N :: r)) by (left; reflexivity).
  destruct (head_soft2 (0x28%N :: i) 0x28%N) as [V Nm]; [reflexivity|chars|].
  repeat apply soft_or; apply soft_map; auto; try (apply soft_bind; first [apply soft_char|eapply soft_tag_head; [reflexivity|]]; cbn; discriminate).
  apply in_soft; [apply group_solid; auto|]. destruct (group_untype g _ N F W Cl) as [S|(t & r' & w & r'' & E & E' & H)]; [auto|]. right. eauto 10.
Qed.

(** * Types *)
Ltac skip := rewrite or_soft; [|first [apply soft_map; assumption
  | apply soft_map, soft_bind; first [apply soft_char|eapply soft_tag_head; [reflexivity|]]; cbn; discriminate]].
Ltac here := apply or_run; eapply map_run; [|reflexivity].
Lemma type2_run t : (forall v, t <> T2Value v) ->
  match t with
  | T2Value _ => True
  | T2Typename _ a | T2Unwrap _ a | T2Choiceify _ a | T2Paren a => Forall P1 a
  | T2Map g | T2Array g | T2ChoiceifyInline g => Forall (Forall Pe) g
  end -> P2 t.
Proof.
  intros NV IH W r St. unfold p_type2. destruct t as [v|n a|t|g|g|n a|g|n a]; cbn [print_type2 w_type2] in *; rewrite <- ?app_assoc.
  - exfalso. eapply NV; eauto.
  - destruct W as [I W]. rewrite or_soft by (apply soft_map, name_not_value; auto). apply or_run. apply (map_run _ _ _ (n, a)); [|reflexivity]. apply name_run; auto.
  - destruct (head_soft2 (txt "(" ++ print_choices (map pr1 t) ++ txt ")" ++ r) 0x28%N) as [V Nm]; [reflexivity|chars|].
    skip. skip. here. apply (in_run _ 0x28 0x29).
    + apply solid_start. eapply choices_head; apply W.
    + chars.
    + apply ty_run; try tauto. apply follow_solid; [chars|chars|cbn; lia].
  - destruct (head_soft2 (txt "{" ++ print_group (map (map pre) g) ++ txt "}" ++ r) 0x7b%N) as [V Nm]; [reflexivity|chars|].
    skip. skip. skip. here. apply (group_in 0x7b 0x7d); try tauto; cbn; auto.
  - destruct (head_soft2 (txt "[" ++ print_group (map (map pre) g) ++ txt "]" ++ r) 0x5b%N) as [V Nm]; [reflexivity|chars|].
    skip. skip. skip. skip. here. apply (group_in 0x5b 0x5d); try tauto; cbn; auto.
  - destruct (head_soft2 (txt "~" ++ n ++ print_args (map pr1 a) ++ r) 0x7e%N) as [V Nm]; [reflexivity|chars|].
    skip. skip. skip. skip. skip. apply or_run. eapply map_run with (a := (n, a)); [|reflexivity]. eapply pre_run; [apply (tag_run "~")|].
    eapply pre_run; [apply ws_solid; apply solid_start|apply name_run; tauto]. eapply head_weak; [apply start_id|apply ident_head; tauto].
  - destruct (head_soft2 (txt "&(" ++ print_group (map (map pre) g) ++ txt ")" ++ r) 0x26%N) as [V Nm]; [reflexivity|chars|].
    skip. skip. skip. skip. skip. skip. here. eapply pre_run; [apply (tag_run "&")|].
    eapply pre_run; [apply ws_solid; cbn; chars|]. apply (group_in 0x28 0x29); try tauto; cbn; auto.
  - destruct (head_soft2 (txt "&" ++ n ++ print_args (map pr1 a) ++ r) 0x26%N) as [V Nm]; [reflexivity|chars|].
    assert (Hn : is_head solidc (n ++ print_args (map pr1 a) ++ r)).
    { apply solid_start. eapply head_weak; [apply start_id|apply ident_head; tauto]. }
    skip. skip. skip. skip. skip. skip. rewrite or_soft.
    + eapply map_run with (a := (n, a)); [|reflexivity]. eapply pre_run; [apply (tag_run "&")|]. eapply pre_run; [apply ws_solid; auto|apply name_run; tauto].
    + apply soft_map. unfold preceded at 1, bindp. rewrite (tag_run "&"). unfold preceded, bindp. rewrite ws_solid by auto.
      apply soft_bind, soft_char. destruct W as [I _]. apply ident_head in I. destruct n; cbn in *; auto. intros <-. chars.
Qed.
Lemma value_run v : P2 (T2Value v).
Proof. intros W r St. apply or_run. eapply map_run; [|reflexivity]. eapply lit_run; eauto. Qed.

(** The part after the first operand. *)
Lemma roc_soft r : F1 r -> soft (preceded p_ws (p_range_or_control X T1 G) r).
Proof.
  intros (_ & w & r' & E & H). unfold preceded, bindp. rewrite E. apply soft_bind.
  assert (Q : ~ is_head (eq 0x2e%N) r') by (destruct r'; cbn in *; auto).
  repeat apply soft_or; try (eapply soft_tag_head; [reflexivity|auto]). apply soft_bind. eapply soft_tag_head; [reflexivity|auto].
Qed.
Lemma op_run op i t r : is_head solidc i -> p_type2 X T1 G i = Done t r ->
  (In op [txt ".."; txt "..."] \/ is_ident op) ->
  preceded p_ws (p_range_or_control X T1 G) (32%N :: (if text_eqb op (txt "..") then op else if text_eqb op (txt "...") then op else 0x2e%N :: op) ++ 32%N :: i)
  = Done (op, t) r.
Proof.
  intros Hi Ht Hop.
  assert (B : preceded p_ws (p_type2 X T1 G) (32%N :: i) = Done t r) by (eapply pre_run; [apply ws_space; auto|auto]).
  destruct Hop as [[<- | [<- | []]]|I].
  - cbn [text_eqb txt]. eapply pre_run; [apply ws_space; cbn; chars|]. eapply pair_run; [|eauto].
    rewrite or_soft by (eexists; reflexivity). apply or_run. apply (tag_run "..").
  - eapply pre_run; [apply ws_space; cbn; chars|]. eapply pair_run; [|eauto]. apply or_run. apply (tag_run "...").
  - pose proof (ident_head _ I) as H. destruct op as [|c op]; [destruct H|]. cbn in H.
    assert (N : (0x2e =? c)%N = false) by (apply N.eqb_neq; intros <-; chars).
    assert (N' : text_eqb (c :: op) (txt "..") = false /\ text_eqb (c :: op) (txt "...") = false).
    { cbn. rewrite N.eqb_sym in N. change 46%N with 0x2e%N. rewrite N. auto. }
    destruct N' as [-> ->]. eapply pre_run; [apply ws_space; cbn; chars|]. eapply pair_run; [|eauto].
    rewrite or_soft, or_soft.
    + eapply pre_run; [apply (tag_run ".")|]. apply (ident_run (c :: op) (32%N :: i)); auto. apply (id_stop_head 32); chars.
    + apply soft_tag. intros q E. inversion E; subst. discriminate.
    + apply soft_tag. intros q E. inversion E; subst. discriminate.
Qed.
Lemma type1_run t : match t with T1Simple t => P2 t | T1Range s e _ => P2 s /\ P2 e | T1Control t a _ => P2 t /\ P2 a end -> P1 t.
Proof.
  intros IH W r Fr. pose proof (F1_stop r Fr) as St. rewrite type1_eq. unfold type1_body.
  destruct t as [t|s e incl|t a op]; cbn [print_type1 w_type1] in *.
  - eapply map_run with (a := (t, None)); [|reflexivity]. eapply pair_run; [apply IH; auto|]. apply opt_soft, roc_soft; auto.
  - destruct IH as [IHs IHe], W as [Ws We]. rewrite <- !app_assoc.
    pose proof (fun H => op_run (if incl then txt ".." else txt "...") (pr2 e ++ r) e r (solid_start _ _ (pr2_head _ _ _ _ We)) (IHe We r St) H) as R.
    eapply map_run with (a := (s, Some (if incl then txt ".." else txt "...", e))); [|destruct incl; reflexivity].
    eapply pair_run; [apply IHs; auto; destruct incl; left; reflexivity|]. apply opt_run.
    destruct incl; apply R; cbn; auto.
  - destruct IH as [IHt IHa], W as (Wt & Wa & I). rewrite <- !app_assoc.
    pose proof (op_run op (pr2 a ++ r) a r (solid_start _ _ (pr2_head _ _ _ _ Wa)) (IHa Wa r St) (or_intror I)) as R.
    pose proof (ident_head _ I) as H.
    assert (N' : text_eqb op (txt "..") = false /\ text_eqb op (txt "...") = false).
    { destruct op as [|c op]; [destruct H|]. cbn in *. destruct (N.eqb_spec c 46); [subst; exfalso; chars|auto]. }
    destruct N' as [N1 N2]. rewrite N1, N2 in R.
    eapply map_run with (a := (t, Some (op, a))); [|cbn [fst snd]; rewrite N1, N2; reflexivity].
    eapply pair_run; [apply IHt; auto; left; reflexivity|]. apply opt_run. exact R.
Qed.

(** * Group entries *)
Definition plainc (c : N) : Prop := ~ In c [0x3a; 0x3d; 0x5e]%N.
Lemma tail_plain l r w m : all w1 l -> FE r -> p_ws (jt (txt " / ") (map pr1 l) ++ r) = Done w m -> match m with [] => True | c :: _ => plainc c end.
Proof.
  intros W (_ & w' & r' & E & H) Q. destruct l as [|b l].
  - cbn in Q. rewrite E in Q. inversion Q; subst. destruct m; auto. intros I. apply H. cbn in *. tauto.
  - cbn [map] in Q. rewrite jt_cons in Q. change (p_ws (32%N :: 0x2f%N :: 32%N :: pr1 b ++ jt (txt " / ") (map pr1 l) ++ r) = Done w m) in Q.
    rewrite ws_space in Q by (cbn; chars). inversion Q; subst. cbn. unfold plainc. cbn. lia.
Qed.
Lemma colon_soft m : ~ is_head (eq 0x3a%N) m -> soft (p_memberkey_tail T1 m).
Proof. intros H. apply soft_bind, soft_bind. eapply soft_tag_head; [reflexivity|auto]. Qed.
Lemma arrow_soft m : ~ is_head (eq 0x5e%N) m -> ~ is_head (eq 0x3d%N) m -> soft (p_arrow_tail T1 m).
Proof.
  intros H H'. apply soft_map. unfold pairp, bindp at 1. rewrite opt_soft by (apply soft_bind; eapply soft_tag_head; [reflexivity|auto]).
  apply soft_bind, soft_bind. eapply soft_tag_head; [reflexivity|auto].
Qed.
Lemma arrow_member k m : soft (p_memberkey_tail T1 m) ->
  match k with T1Simple (T2Value _) | T1Simple (T2Typename _ _) => member_colon T1 k m | _ => member_arrow T1 k m end = member_arrow T1 k m.
Proof. intros [e E]. unfold member_colon. rewrite E. destruct k as [[]| |]; reflexivity. Qed.
Lemma plain_run k l m r : match m with [] => True | c :: _ => plainc c end -> p_more_choices T1 m = Done l r ->
  match k with T1Simple (T2Value _) | T1Simple (T2Typename _ _) => member_colon T1 k m | _ => member_arrow T1 k m end = Done (GMember None (k :: l)) r.
Proof.
  intros H E. assert (S : forall c, In c [0x3a; 0x3d; 0x5e]%N -> ~ is_head (eq c) m).
  { destruct m as [|c' m]; cbn [is_head]; auto. intros c I <-. contradiction. }
  rewrite arrow_member by (apply colon_soft, S; cbn; auto). destruct (arrow_soft m) as [e Q]; [apply S; cbn; auto..|].
  unfold member_arrow. rewrite Q. unfold member_plain. rewrite E. reflexivity.
Qed.
Lemma member_start (k : type1) i w m : T1 i = Done k w -> p_ws w = Done [] m \/ p_ws w = Done [32%N] m ->
  p_grpent_member T1 i = match k with T1Simple (T2Value _) | T1Simple (T2Typename _ _) => member_colon T1 k m | _ => member_arrow T1 k m end.
Proof.
  intros E [W|W]; unfold p_grpent_member, bindp at 1; rewrite (ter_run _ _ _ _ _ _ _ E W); destruct k as [[]| |]; reflexivity.
Qed.
Definition val_head (k : type1) : Prop := match k with T1Simple (T2Value _) | T1Simple (T2Typename _ []) => True | _ => False end.
Definition colon_key (k : type1) (t : type_) : grpent_val :=
  match k with
  | T1Simple (T2Value v) => GMember (Some (MKey (MKValue v) true)) t
  | T1Simple (T2Typename n _) => GMember (Some (MKey (MKBareword n) true)) t
  | _ => GMember None t
  end.
Lemma colon_F1 i : FT (0x3a%N :: i). Proof. apply follow_solid; [chars|chars|cbn; lia]. Qed.
Lemma arrow_FT (cut : bool) i : FT ((if cut then txt " ^ => " else txt " => ") ++ i).
Proof. destruct cut; [apply (follow_space _ 0x5e)|apply (follow_space _ 0x3d)]; [chars|cbn; lia|chars|cbn; lia]. Qed.
Lemma key_untype k r w r' : P1 k -> w1 k -> FT r -> p_ws r = Done w r' -> ~ is_head (eq 0x29%N) r' -> untype (pr1 k ++ r).
Proof.
  intros Hk Wk Fr E H. right. exists [k], r, w, r'. split; [|auto]. apply (ty_run [k] r); auto; [discriminate|]. cbn. auto.
Qed.
Lemma colon_run k t r : val_head k -> P1 k -> w1 k -> t <> [] -> Forall P1 t -> all w1 t -> FE r ->
  p_grpent_member T1 (pr1 k ++ txt ": " ++ print_choices (map pr1 t) ++ r) = Done (colon_key k t) r.
Proof.
  intros V Hk Wk N F W Fr. set (m := txt ": " ++ print_choices (map pr1 t) ++ r).
  rewrite (member_start k _ m m); [|apply Hk; auto; apply FT_F1, colon_F1|left; apply ws_solid; cbn; chars].
  assert (Q : p_memberkey_tail T1 m = Done t r).
  { eapply pre_run; [eapply pair_run; [apply (tag_run ":")|apply ws_space]|apply ty_run; auto using FE_FT]. apply solid_start. eapply choices_head; eauto. }
  destruct k as [[v|n [|]| | | | | |]| |]; try destruct V; unfold member_colon; rewrite Q; reflexivity.
Qed.
Lemma arrow_run k (cut : bool) t r : P1 k -> w1 k -> t <> [] -> Forall P1 t -> all w1 t -> FE r ->
  p_grpent_member T1 (pr1 k ++ (if cut then txt " ^ => " else txt " => ") ++ print_choices (map pr1 t) ++ r) =
  Done (GMember (Some (MKey (MKType1 k) cut)) t) r.
Proof.
  intros Hk Wk N F W Fr. set (i := print_choices (map pr1 t) ++ r).
  assert (Hi : is_head solidc i) by (apply solid_start; eapply choices_head; eauto).
  set (m := (if cut then txt "^ => " else txt "=> ") ++ i).
  rewrite (member_start k _ (32%N :: m) m); [| |right; apply ws_space; destruct cut; cbn; chars].
  - rewrite arrow_member by (apply colon_soft; destruct cut; cbn; discriminate). unfold member_arrow.
    assert (T : preceded (tag "=>") (preceded p_ws (p_ty T1)) (txt "=> " ++ i) = Done t r).
    { eapply pre_run; [apply (tag_run "=>")|]. eapply pre_run; [apply ws_space; auto|apply ty_run; auto using FE_FT]. }
    assert (Q : p_arrow_tail T1 m = Done (cut, t) r).
    { unfold p_arrow_tail. destruct cut.
      - apply (map_run _ _ _ (Some (txt "^"), t)); [|reflexivity]. eapply pair_run; [|exact T]. apply opt_run.
        eapply ter_run; [apply (tag_run "^")|apply ws_space; cbn; chars].
      - apply (map_run _ _ _ (None, t)); [|reflexivity]. eapply pair_run; [|exact T]. apply opt_soft, soft_bind. eapply soft_tag_head; [reflexivity|]. cbn. discriminate. }
    rewrite Q. reflexivity.
  - replace (32%N :: m) with ((if cut then txt " ^ => " else txt " => ") ++ i) by (destruct cut; reflexivity). apply Hk; auto. apply FT_F1, arrow_FT.
Qed.
Lemma left_refl r : left_of r r. Proof. left; reflexivity. Qed.
Lemma comma_FT r : FT (0x2c%N :: r). Proof. apply follow_solid; [chars|chars|cbn; lia]. Qed.
Lemma colon_val k t : val_head k -> P1 k -> w1 k -> t <> [] -> Forall P1 t -> all w1 t ->
  (forall r, FE r -> exists r', p_grpent_val T1 G ((pr1 k ++ txt ": " ++ print_choices (map pr1 t)) ++ r) = Done (colon_key k t) r' /\ left_of r r') /\
  (forall r, untype ((pr1 k ++ txt ": " ++ print_choices (map pr1 t)) ++ 0x2c%N :: r)).
Proof.
  intros V Hk Wk N F W. split; intros r; [intros Fr; exists r; split; [|apply left_refl]|].
  - rewrite <- !app_assoc. apply or_run, colon_run; auto.
  - rewrite <- !app_assoc. eapply key_untype; eauto; [apply colon_F1|apply ws_solid; cbn; chars|cbn; discriminate].
Qed.
Lemma val_run v :
  match v with
  | GMember None t | GMember (Some (MKey (MKBareword _) _)) t | GMember (Some (MKey (MKValue _) _)) t => Forall P1 t
  | GMember (Some (MKey (MKType1 k) _)) t => P1 k /\ Forall P1 t
  | GGroupname _ => True
  | GParen g => Forall (Forall Pe) g
  end -> Pv v.
Proof.
  intros IH W. destruct v as [[[k cut]|] t|n|g]; [destruct k as [k|n|v]|..].
  - destruct W as (Wk & N & W), IH as [Hk F]. split; intros r; [intros Fr; exists r; split; [|apply left_refl]|];
      cbn [print_grpent_val]; rewrite <- !app_assoc.
    + apply or_run, arrow_run; auto.
    + destruct cut; [eapply (key_untype k _ [32%N] (0x5e%N :: _))|eapply (key_untype k _ [32%N] (0x3d%N :: _))]; eauto;
        first [apply (arrow_FT true)|apply (arrow_FT false)|apply ws_space; cbn; chars|cbn; discriminate].
  - destruct W as (-> & I & N & W).
    replace (prv (GMember (Some (MKey (MKBareword n) true)) t)) with (pr1 (T1Simple (T2Typename n [])) ++ txt ": " ++ print_choices (map pr1 t))
      by (cbn; rewrite app_nil_r; reflexivity).
    apply (colon_val (T1Simple (T2Typename n [])) t); cbn; auto. apply type1_run, type2_run; [discriminate|auto].
  - destruct W as (-> & Wv & N & W). apply (colon_val (T1Simple (T2Value v)) t); cbn; auto. apply type1_run, value_run.
  - destruct W as (N & W). split; intros r.
    + intros Fr. destruct t as [|a l]; [congruence|]. inversion IH as [|? ? Ha Fl]; subst. destruct W as [Wa Wl].
      destruct (more_run l r Fl Wl (FE_FT r Fr)) as (w & m & r' & E & M & L). exists r'. split; [|exact L].
      change (prv (GMember None (a :: l))) with (join (txt " / ") (pr1 a :: map pr1 l)). rewrite join_cons, <- app_assoc. apply or_run.
      unfold p_grpent_member, bindp at 1. rewrite (ter_run T1 p_ws (pr1 a ++ jt (txt " / ") (map pr1 l) ++ r) a (jt (txt " / ") (map pr1 l) ++ r) w m); [|apply Ha; auto; apply tail_F1; auto using FT_F1, FE_FT|exact E].
      pose proof (plain_run a l m r' (tail_plain l r w m Wl Fr E) M) as Q. destruct a as [[]| |]; exact Q.
    + right. exists t, (0x2c%N :: r), [], (0x2c%N :: r). split; [apply ty_run; auto using comma_FT|]. split; [apply ws_solid; cbn; chars|cbn; discriminate].
  - destruct W.
  - destruct W as (N & W). split; intros r; cbn [print_grpent_val]; rewrite <- !app_assoc.
    + intros _. exists r. split; [|apply left_refl]. unfold p_grpent_val. rewrite or_soft, or_soft.
      * eapply map_run; [|reflexivity]. apply (group_in 0x28 0x29); auto. cbn; auto.
      * apply soft_map, soft_ident. cbn. chars.
      * apply soft_bind, soft_bind, soft_type1, paren_soft; auto.
    + left. apply soft_ty, soft_type1, paren_soft; auto.
Qed.
Lemma occ_soft c i : (c = 0x3f \/ c = 0x2a \/ c = 0x2b)%N -> soft (T1 (c :: i)).
Proof. intros H. apply soft_type1, soft_type2; [apply soft_value; [cbn; chars| |]; intros q E; inversion E; subst; chars|cbn; chars]. Qed.
Lemma number_t1 s n i : uint_lit s n -> (n < 2 ^ 64)%N -> T1 (s ++ 0x2a%N :: i) = Done (T1Simple (T2Value (AUint n))) (0x2a%N :: i).
Proof.
  intros U L.
  assert (W : p_ws (0x2a%N :: i) = Done [] (0x2a%N :: i)) by (apply ws_solid; cbn; chars).
  rewrite type1_eq. unfold type1_body. eapply map_run with (a := (T2Value (AUint n), None)); [|reflexivity]. eapply pair_run.
  - apply or_run. eapply map_run; [|reflexivity]. apply lit_run'; [apply se_uint; auto|apply star_stop].
  - apply opt_soft. unfold preceded, bindp at 1. rewrite W. apply soft_bind.
    repeat apply soft_or; try (eapply soft_tag_head; [reflexivity|cbn; discriminate]). apply soft_bind. eapply soft_tag_head; [reflexivity|cbn; discriminate].
Qed.
Lemma number_untype s n i : uint_lit s n -> (n < 2 ^ 64)%N -> untype (s ++ 0x2a%N :: i).
Proof.
  intros U L. pose proof (number_t1 s n i U L) as Q.
  assert (W : p_ws (0x2a%N :: i) = Done [] (0x2a%N :: i)) by (apply ws_solid; cbn; chars).
  right. exists [T1Simple (T2Value (AUint n))], (0x2a%N :: i), [], (0x2a%N :: i). split; [|split; [auto|cbn; discriminate]].
  apply sep_done; [auto with nom|apply shrinks_t1|]. eexists _, [], _. split; [reflexivity|]. split; [exact Q|].
  destruct (slash_soft' (0x2a%N :: i) [] _ W) as [e E]; [cbn; discriminate|]. eapply sreps_nil; eauto.
Qed.
Lemma occur_soft s o i : occur_lit s o -> no_digit s -> soft (T1 (s ++ i)).
Proof.
  intros W N. apply occur_head in W. destruct s as [|c s]; [destruct W|]. cbn in W, N. apply occ_soft. tauto.
Qed.
Lemma occur_untype s o i : occur_lit s o -> untype (s ++ i).
Proof.
  intros W. inversion W as [| | |s' lo t hi Bs Bt N]; subst; try (left; apply soft_ty, occ_soft; auto; fail).
  rewrite <- !app_assoc. destruct Bs as [|s' n U L]; [left; apply soft_ty, occ_soft; auto|]. apply (number_untype s' n); auto.
Qed.
Lemma ent_run o v : Pv v -> Pe (GrpEnt o v).
Proof.
  intros H [Wo Wv]. destruct (H Wv) as [R U]. destruct o as [o|].
  - assert (Hv : forall r, is_head solidc (prv v ++ r)) by (intros; apply solid_start; eapply prv_head; eauto).
    split; intros r; cbn [print_grpent]; rewrite <- !app_assoc.
    + intros Fr. destruct (R r Fr) as (r' & E & L). exists r'. split; auto. apply (map_run _ _ _ (Some o, v)); [|reflexivity].
      eapply pair_run; [|exact E]. apply opt_run. eapply ter_run; [apply occur_run; auto|apply ws_space; auto].
      * apply stop_num. cbn. chars.
      * cbn. chars.
    + eapply occur_untype; exact Wo.
  - split; intros r; [|apply U]. intros Fr. destruct (R r Fr) as (r' & E & L). exists r'. split; auto. apply (map_run _ _ _ (None, v)); [|reflexivity].
    eapply pair_run; [|exact E]. apply opt_soft, soft_bind. eapply no_occurv; eauto. apply F1_stop, FT_F1, FE_FT; auto.
Qed.
Lemma phrases : (forall t, P2 t) /\ (forall t, P1 t) /\ (forall g, Pe g) /\ (forall v, Pv v).
Proof.
  apply ast_ind; intros; try (apply type2_run; [discriminate|auto]); try (apply type1_run; auto); try (apply val_run; auto).
  - apply value_run.
  - apply ent_run; auto.
Qed.
Lemma all_P1 (t : list type1) : Forall P1 t. Proof. apply Forall_forall. intros. apply phrases. Qed.

(** * Rules *)
Lemma parms_run a r : a <> [] -> all is_ident a -> p_generic_parm (print_args a ++ r) = Done a r.
Proof.
  intros N W. destruct a as [|a l]; [congruence|]. destruct W as [Wa Wl].
  change (print_args (a :: l)) with (txt "<" ++ join (txt ", ") (a :: l) ++ txt ">").
  rewrite join_cons, <- !app_assoc. set (fin := txt ">" ++ r).
  assert (Hfin : forall l, is_head (fun c => c = 0x3e \/ c = 0x2c)%N (jt (txt ", ") l ++ fin)).
  { intros [|b k]; [cbn; auto|rewrite jt_cons; cbn; auto]. }
  assert (It : forall b, is_ident b -> forall m, is_head (fun c => c = 0x3e \/ c = 0x2c)%N m -> terminated p_ident p_ws (b ++ m) = Done b m).
  { intros b Ib m Hm. destruct m as [|c m]; [destruct Hm|]. cbn in Hm. eapply ter_run; [apply ident_run; auto; apply id_stop_head; chars|apply ws_solid; cbn; chars]. }
  assert (Hs : forall b m, is_ident b -> is_head solidc (b ++ m)).
  { intros b m I. apply head_app. apply (head_weak EALPHA); [intros; chars|apply ident_head; auto]. }
  unfold p_generic_parm. eapply del_run.
  - eapply pair_run; [apply (tag_run "<")|]. apply ws_solid. auto.
  - apply sep_done; [auto with nom|apply shrinks_terminated; auto with nom|].
    exists a, l, (jt (txt ", ") l ++ fin). split; auto. split; [apply It; auto|]. clear Wa N.
    induction l as [|b t IH].
    + cbn. eapply sreps_nil. reflexivity.
    + destruct Wl as [Wb Wt]. rewrite jt_cons. eapply sreps_cons; [| | |apply IH; auto].
      * eapply pair_run; [apply (tag_run ",")|]. apply ws_space. auto.
      * apply (shorter 0x2c%N [32]%N).
      * apply It; auto.
  - apply (tag_run ">").
Qed.
Lemma group_rule_soft e i : we e -> group_rule (w_first occ) e -> soft (p_ty T1 (pre e ++ i)).
Proof.
  intros W H. apply soft_ty. destruct e as [[o|] v].
  - cbn [print_grpent]. rewrite <- !app_assoc. eapply occur_soft; [apply W|exact H].
  - destruct v as [| |g]; try destruct H. destruct W as [_ [N W]]. cbn [print_grpent print_grpent_val]. rewrite <- !app_assoc.
    apply soft_type1, paren_soft; auto. apply Forall_forall. intros. apply Forall_forall. intros. apply phrases.
Qed.
Notation print_rule := (print_rule lit occ).
Notation w_rule := (w_rule X lit occ).
Lemma rule_run x rest : w_rule x -> rest = [] \/ is_head EALPHA rest ->
  exists r', p_rule T1 G (print_rule x ++ 10%N :: rest) = Done x r' /\ left_of (10%N :: rest) r'.
Proof.
  intros (I & Ip & Wv) Hr. destruct x as [n ps v]. cbn [r_name r_parms r_val] in *. unfold print_rule. cbn [r_name r_parms r_val].
  assert (Wn : p_ws (10%N :: rest) = Done [10%N] rest).
  { apply (ws_run [10%N]); [cbn [app]; apply (ws_spaces [10%N]); repeat constructor; chars|]. destruct Hr as [-> | Hr]; [apply ws_end_nil|].
    destruct rest; [destruct Hr|]. cbn in Hr. apply ws_end_head; chars. }
  assert (Fr : FE (10%N :: rest)).
  { split; [cbn; chars|]. exists [10%N], rest. split; auto. destruct Hr as [-> | Hr]; auto. destruct rest; auto. cbn in *. chars. }
  rewrite <- !app_assoc. set (body := match v with AssignType t => _ | AssignGroup e => _ end ++ 10%N :: rest).
  assert (B : exists r', orp (mapp AssignType (p_ty T1)) (mapp AssignGroup (p_grpent T1 G)) body = Done v r' /\ left_of (10%N :: rest) r').
  { destruct v as [t|e].
    - exists (10%N :: rest). split; [|apply left_refl]. apply or_run. eapply map_run; [|reflexivity]. apply ty_run; try tauto; [apply all_P1|apply FE_FT; auto].
    - destruct Wv as [We Wg]. destruct (proj1 (proj1 (proj2 (proj2 phrases)) e We) _ Fr) as (r' & E & L). exists r'. split; auto.
      rewrite or_soft by (apply soft_map, group_rule_soft; auto). eapply map_run; [exact E|reflexivity]. }
  destruct B as (r' & B & L). exists r'. split; auto.
  assert (Hb : is_head solidc body).
  { unfold body. destruct v as [t|e]; [apply solid_start; eapply choices_head; apply Wv|apply solid_entry; eapply pre_head; apply Wv]. }
  unfold p_rule. apply (map_run _ _ _ ((n, match ps with [] => None | _ => Some ps end), v)); [|destruct ps; reflexivity].
  apply separated_pair_done. exists (txt " = " ++ body), (txt "= " ++ body), [32%N]. cbn [fst snd]. split; [|split].
  - eapply pair_run with (m := print_args ps ++ txt " = " ++ body).
    + apply ident_run; auto. destruct ps; [apply (id_stop_head 32); chars|apply (id_stop_head 0x3c); chars].
    + destruct ps as [|p ps]; [apply opt_soft, soft_bind, soft_bind; eapply soft_tag_head; [reflexivity|cbn; discriminate]|].
      apply opt_run, parms_run; auto. discriminate.
  - apply ws_space. cbn. chars.
  - eapply (map_run snd) with (a := (txt "=", v)); [|reflexivity]. apply separated_pair_done.
    exists (32%N :: body), body, [32%N]. split; [apply (tag_run "=")|]. split; [apply ws_space; auto|exact B].
Qed.
Lemma rule_head x i : w_rule x -> is_head EALPHA (print_rule x ++ i).
Proof. intros (I & _). unfold print_rule. apply head_app, head_app, ident_head. auto. Qed.
Theorem cddl_run c : w_cddl X lit occ c -> parse_cddl X (print_cddl lit occ c) = Some (inl c).
Proof.
  intros [N W].
  assert (It : forall x rest, w_rule x -> rest = [] \/ is_head EALPHA rest -> terminated (p_rule T1 G) p_ws (print_rule x ++ 10%N :: rest) = Done x rest).
  { intros x rest Wx Hr. assert (We : ws_end rest).
    { destruct Hr as [-> | Hr]; [apply ws_end_nil|]. destruct rest; [destruct Hr|]. cbn in Hr. apply ws_end_head; chars. }
    assert (Wn : p_ws (10%N :: rest) = Done [10%N] rest) by (apply (ws_run [10%N]); auto; apply (ws_spaces [10%N]); repeat constructor; chars).
    destruct (rule_run x rest Wx Hr) as (r' & E & L). destruct L as [-> | [w L]]; eapply ter_run; eauto.
    rewrite Wn in L. inversion L; subst. eapply ws_idem; eauto. }
  assert (T : forall c, all w_rule c -> print_cddl lit occ c = [] \/ is_head EALPHA (print_cddl lit occ c)).
  { intros [|x k]; [auto|]. intros [Wx _]. right. change (is_head EALPHA ((print_rule x ++ [10%N]) ++ print_cddl lit occ k)). rewrite <- app_assoc. apply rule_head; auto. }
  assert (C : forall x k, print_cddl lit occ (x :: k) = print_rule x ++ 10%N :: print_cddl lit occ k).
  { intros x k. change (print_cddl lit occ (x :: k)) with ((print_rule x ++ [10%N]) ++ print_cddl lit occ k). rewrite <- app_assoc. reflexivity. }
  assert (S : shrinks (terminated (p_rule T1 G) p_ws)).
  { apply shrinks_terminated; [apply eats_shrinks, eats_rule; [apply shrinks_t1|apply shrinks_group]|auto with nom]. }
  enough (Q : p_cddl T1 G (print_cddl lit occ c) = Done c []).
  { unfold parse_cddl. replace (all_consuming (p_cddl T1 G) (print_cddl lit occ c)) with (Done c ([] : text)); [reflexivity|].
    symmetry. apply all_done. auto. }
  unfold p_cddl. eapply pre_run.
  - apply ws_solid. destruct c as [|x k]; [congruence|]. destruct W as [Wx _]. rewrite C. apply (head_weak EALPHA); [intros; chars|apply rule_head; auto].
  - destruct c as [|x k]; [congruence|]. destruct W as [Wx Wk]. rewrite C. apply many1_done; auto. exists x, k, (print_cddl lit occ k). split; auto.
    split; [apply It; auto|]. clear x Wx N. induction k as [|x k IH].
    + cbn. eapply reps_nil. reflexivity.
    + destruct Wk as [Wx Wk]. rewrite C. eapply reps_cons; [apply It; auto| |apply IH; auto].
      change (10%N :: print_cddl lit occ k) with ([10%N] ++ print_cddl lit occ k). rewrite app_assoc. apply len_app_lt. intros Q. apply app_eq_nil in Q. destruct Q; discriminate.
Qed.
End WithX.
