(** What a successful combinator has done: inversion lemmas for Nom.v. *)
From Coq Require Import List Bool Arith NArith String Lia.
From Verif Require Import Base Util Nom NomProofs Parser.
Import ListNotations.
Open Scope list_scope.

Lemma ret_done {A} (a b : A) i r : ret a i = Done b r <-> b = a /\ r = i.
Proof. unfold ret. split; [intros [= <- <-]; auto|intros [-> ->]; auto]. Qed.
Lemma map_done {A B} (f : A -> B) p i b r : mapp f p i = Done b r <-> exists a, p i = Done a r /\ b = f a.
Proof.
  unfold mapp. rewrite bind_done. split.
  - intros (a & m & H & E). apply ret_done in E. destruct E as [-> ->]. eauto.
  - intros (a & H & ->). exists a, r. auto.
Qed.
Lemma value_done {A B} (b : B) (p : parser A) i b' r : valuep b p i = Done b' r <-> b' = b /\ exists a, p i = Done a r.
Proof. unfold valuep. rewrite map_done. split; [intros (a & H & ->); eauto|intros [-> (a & H)]; eauto]. Qed.
Lemma pair_done {A B} (p : parser A) (q : parser B) i x r :
  pairp p q i = Done x r <-> exists m, p i = Done (fst x) m /\ q m = Done (snd x) r.
Proof.
  unfold pairp. rewrite bind_done. split.
  - intros (a & m & H & E). apply bind_done in E. destruct E as (b & m' & E & F). apply ret_done in F. destruct F as [-> ->]. eauto.
  - intros (m & H & E). exists (fst x), m. split; auto. apply bind_done. exists (snd x), r. split; auto.
    apply ret_done. split; auto. destruct x; reflexivity.
Qed.
Lemma preceded_done {A B} (p : parser A) (q : parser B) i b r :
  preceded p q i = Done b r <-> exists a m, p i = Done a m /\ q m = Done b r.
Proof. apply bind_done. Qed.
Lemma terminated_done {A B} (p : parser A) (q : parser B) i a r :
  terminated p q i = Done a r <-> exists m b, p i = Done a m /\ q m = Done b r.
Proof.
  unfold terminated. rewrite bind_done. split.
  - intros (a' & m & H & E). apply bind_done in E. destruct E as (b & m' & E & F). apply ret_done in F. destruct F as [-> ->]. eauto.
  - intros (m & b & H & E). exists a, m. split; auto. apply bind_done. exists b, r. split; auto.
Qed.
Lemma delimited_done {A B C} (p : parser A) (q : parser B) (s : parser C) i b r :
  delimited p q s i = Done b r <-> exists a m m' c, p i = Done a m /\ q m = Done b m' /\ s m' = Done c r.
Proof.
  unfold delimited. rewrite bind_done. split.
  - intros (a & m & H & E). apply bind_done in E. destruct E as (b' & m' & E & F). apply bind_done in F.
    destruct F as (c & m'' & F & G). apply ret_done in G. destruct G as [-> ->]. eauto 10.
  - intros (a & m & m' & c & H & E & F). exists a, m. split; auto. apply bind_done. exists b, m'. split; auto.
    apply bind_done. exists c, r. split; auto.
Qed.
Lemma separated_pair_done {A B C} (p : parser A) (q : parser B) (s : parser C) i x r :
  separated_pair p q s i = Done x r <-> exists m m' b, p i = Done (fst x) m /\ q m = Done b m' /\ s m' = Done (snd x) r.
Proof.
  unfold separated_pair. rewrite bind_done. split.
  - intros (a & m & H & E). apply bind_done in E. destruct E as (b' & m' & E & F). apply bind_done in F.
    destruct F as (c & m'' & F & G). apply ret_done in G. destruct G as [-> ->]. cbn. eauto 10.
  - intros (m & m' & b & H & E & F). exists (fst x), m. split; auto. apply bind_done. exists b, m'. split; auto.
    apply bind_done. exists (snd x), r. split; auto. apply ret_done; split; auto. destruct x; reflexivity.
Qed.
Lemma opt_done {A} (p : parser A) i o r :
  opt p i = Done o r <-> match o with Some a => p i = Done a r | None => r = i /\ exists e, p i = Soft e end.
Proof.
  unfold opt. destruct (p i) as [a m|e|e| |] eqn:E; destruct o; split; try discriminate; try (intros [_ (e' & H)]; discriminate); try congruence.
  - intros [= <-]. eauto.
  - intros [-> _]. reflexivity.
Qed.
Lemma or_done {A} (p q : parser A) i a r :
  orp p q i = Done a r <-> p i = Done a r \/ (exists e, p i = Soft e) /\ q i = Done a r.
Proof.
  unfold orp. destruct (p i) as [b m|e|e| |] eqn:E; split; try discriminate; eauto;
    intros [H|[(e' & H') H]]; try discriminate; auto.
Qed.
Lemma recognize_done {A} (p : parser A) i c r : recognize p i = Done c r <-> exists a, p i = Done a r /\ c = consumed i r.
Proof.
  unfold recognize. destruct (p i) as [b m|e|e| |] eqn:E; split; try discriminate; try (intros (a & H & _); discriminate).
  - intros [= <- <-]. eauto.
  - intros (a & [= <- <-] & ->). reflexivity.
Qed.
Lemma recognizer_done {A} (p : parser A) i x r : recognizer p i = Done x r <-> p i = Done (snd x) r /\ fst x = consumed i r.
Proof.
  unfold recognizer. destruct (p i) as [b m|e|e| |] eqn:E; split; try discriminate; try (intros (H & _); discriminate).
  - intros [= <- <-]. auto.
  - destruct x as [s a]; cbn. intros ([= <- <-] & ->). reflexivity.
Qed.
Lemma map_res_fail_done {A B} (p : parser A) (f : A -> B + parse_error) i b r :
  map_res_fail p f i = Done b r <-> exists a, p i = Done a r /\ f a = inl b.
Proof.
  unfold map_res_fail. rewrite bind_done. split.
  - intros (a & m & H & E). destruct (f a) eqn:F; inversion E; subst; eauto.
  - intros (a & H & E). exists a, r. rewrite E. auto.
Qed.
Lemma map_res_done {A B} (p : parser A) (f : A -> B + parse_error) i b r :
  map_res p f i = Done b r <-> exists a, p i = Done a r /\ f a = inl b.
Proof.
  unfold map_res. rewrite bind_done. split.
  - intros (a & m & H & E). destruct (f a) eqn:F; inversion E; subst; eauto.
  - intros (a & H & E). exists a, r. rewrite E. auto.
Qed.
Lemma all_done {A} (p : parser A) i a r : all_consuming p i = Done a r <-> p i = Done a [] /\ r = [].
Proof.
  unfold all_consuming. rewrite bind_done. split.
  - intros (b & m & H & E). destruct m; inversion E; subst; auto.
  - intros [H ->]. exists a, []. auto.
Qed.

(** The iterations of [many0]. *)
Inductive reps {A} (p : parser A) : text -> list A -> text -> Prop :=
| reps_nil i e : p i = Soft e -> reps p i [] i
| reps_cons i a m l r : p i = Done a m -> List.length m <> List.length i -> reps p m l r -> reps p i (a :: l) r.
Lemma many0_f_done {A} (p : parser A) n i l r : many0_f n p i = Done l r -> reps p i l r.
Proof.
  revert i l. induction n as [|n IH]; intros i l H; [discriminate|]. cbn in H.
  destruct (p i) as [a m|e|e| |] eqn:E; try discriminate.
  - destruct (Nat.eqb_spec (List.length m) (List.length i)); [discriminate|].
    destruct (many0_f n p m) as [l' r'|e|e| |] eqn:F; inversion H; subst. econstructor; eauto.
  - inversion H; subst. econstructor; eauto.
Qed.
Lemma many0_f_run {A} (p : parser A) i l r : shrinks p -> reps p i l r -> forall n, List.length i < n -> many0_f n p i = Done l r.
Proof.
  intros S. induction 1 as [i e E|i a m l r E L R IH]; intros n Hn; (destruct n as [|n]; [lia|]); cbn; rewrite E; auto.
  destruct (Nat.eqb_spec (List.length m) (List.length i)); [contradiction|]. apply S in E. rewrite IH by lia. reflexivity.
Qed.
Lemma many0_done {A} (p : parser A) i l r : shrinks p -> many0 p i = Done l r <-> reps p i l r.
Proof. intros S. split; [apply many0_f_done|intros H; apply many0_f_run; auto]. Qed.
Lemma many1_done {A} (p : parser A) i l r : shrinks p ->
  many1 p i = Done l r <-> exists a l' m, l = a :: l' /\ p i = Done a m /\ reps p m l' r.
Proof.
  intros S. unfold many1. rewrite bind_done. split.
  - intros (a & m & H & E). apply bind_done in E. destruct E as (l' & m' & E & F). apply ret_done in F. destruct F as [-> ->].
    apply many0_done in E; auto. eauto 10.
  - intros (a & l' & m & -> & H & E). exists a, m. split; auto. apply bind_done. exists l', r. split; [apply many0_done; auto|].
    apply ret_done; auto.
Qed.

(** The iterations of [separated_list1] after the first element. *)
Inductive sreps {A B} (s : parser B) (p : parser A) : text -> list A -> text -> Prop :=
| sreps_nil i e : s i = Soft e -> sreps s p i [] i
| sreps_nil' i b m e : s i = Done b m -> List.length m <> List.length i -> p m = Soft e -> sreps s p i [] i
| sreps_cons i b m a j l r : s i = Done b m -> List.length m <> List.length i -> p m = Done a j -> sreps s p j l r ->
    sreps s p i (a :: l) r.
Lemma sep_f_done {A B} (s : parser B) (p : parser A) n i l r : sep_loop_f n s p i = Done l r -> sreps s p i l r.
Proof.
  revert i l. induction n as [|n IH]; intros i l H; [discriminate|]. cbn in H.
  destruct (s i) as [b m|e|e| |] eqn:E; try discriminate.
  - destruct (Nat.eqb_spec (List.length m) (List.length i)); [discriminate|].
    destruct (p m) as [a j|e|e| |] eqn:F; try discriminate.
    + destruct (sep_loop_f n s p j) as [l' r'|e|e| |] eqn:G; inversion H; subst. eapply sreps_cons; eauto.
    + inversion H; subst. eapply sreps_nil'; eauto.
  - inversion H; subst. eapply sreps_nil; eauto.
Qed.
Lemma sep_f_run {A B} (s : parser B) (p : parser A) i l r : shrinks s -> shrinks p -> sreps s p i l r ->
  forall n, List.length i < n -> sep_loop_f n s p i = Done l r.
Proof.
  intros S P. induction 1 as [i e E|i b m e E L F|i b m a j l r E L F R IH]; intros n Hn; (destruct n as [|n]; [lia|]); cbn; rewrite E; auto;
    (destruct (Nat.eqb_spec (List.length m) (List.length i)); [contradiction|]); rewrite F; auto.
  apply S in E. apply P in F. rewrite IH by lia. reflexivity.
Qed.
Lemma sep_done {A B} (s : parser B) (p : parser A) i l r : shrinks s -> shrinks p ->
  separated_list1 s p i = Done l r <-> exists a l' m, l = a :: l' /\ p i = Done a m /\ sreps s p m l' r.
Proof.
  intros S P. unfold separated_list1. rewrite bind_done. split.
  - intros (a & m & H & E). apply bind_done in E. destruct E as (l' & m' & E & F). apply ret_done in F. destruct F as [-> ->].
    apply sep_f_done in E. eauto 10.
  - intros (a & l' & m & -> & H & E). exists a, m. split; auto. apply bind_done. exists l', r. split; [apply sep_f_run; auto|].
    apply ret_done; auto.
Qed.

Lemma consumed_app c r : consumed (c ++ r) r = c.
Proof. unfold consumed. rewrite app_length. replace (_ + _ - _) with (List.length c) by lia. rewrite firstn_app, Nat.sub_diag, firstn_all, firstn_O, app_nil_r. reflexivity. Qed.
Lemma char_done c i a r : charp c i = Done a r <-> a = c /\ i = c :: r.
Proof.
  unfold charp. rewrite satisfy_done. split.
  - intros [-> H]. apply N.eqb_eq in H. subst. auto.
  - intros [-> ->]. rewrite N.eqb_refl. auto.
Qed.

(** [p] leaves a suffix of its input. *)
Definition cuts {A} (p : parser A) : Prop := forall i a r, p i = Done a r -> exists c, i = c ++ r.
Lemma suffix_trans (i m r : text) : (exists c, i = c ++ m) -> (exists c, m = c ++ r) -> exists c, i = c ++ r.
Proof. intros [c ->] [d ->]. exists (c ++ d). now rewrite app_assoc. Qed.
Lemma suffix_refl (i : text) : exists c, i = c ++ i. Proof. exists []. reflexivity. Qed.
Lemma cuts_bind {A B} (p : parser A) (f : A -> parser B) : cuts p -> (forall a, cuts (f a)) -> cuts (bindp p f).
Proof. intros Hp Hf i b r H. apply bind_done in H. destruct H as (a & m & E & F). eapply suffix_trans; [eapply Hp; eauto|eapply Hf; eauto]. Qed.
Lemma cuts_ret {A} (a : A) : cuts (ret a).
Proof. intros i b r H. apply ret_done in H. destruct H as [_ ->]. apply suffix_refl. Qed.
Create HintDb cut.
#[export] Hint Resolve cuts_ret : cut.
Lemma cuts_map {A B} (f : A -> B) p : cuts p -> cuts (mapp f p).
Proof. intros. apply cuts_bind; auto with cut. Qed.
Lemma cuts_value {A B} (b : B) (p : parser A) : cuts p -> cuts (valuep b p).
Proof. apply cuts_map. Qed.
Lemma cuts_pair {A B} (p : parser A) (q : parser B) : cuts p -> cuts q -> cuts (pairp p q).
Proof. intros. repeat (apply cuts_bind; intros; auto with cut). Qed.
Lemma cuts_preceded {A B} (p : parser A) (q : parser B) : cuts p -> cuts q -> cuts (preceded p q).
Proof. intros. repeat (apply cuts_bind; intros; auto with cut). Qed.
Lemma cuts_terminated {A B} (p : parser A) (q : parser B) : cuts p -> cuts q -> cuts (terminated p q).
Proof. intros. repeat (apply cuts_bind; intros; auto with cut). Qed.
Lemma cuts_delimited {A B C} (p : parser A) (q : parser B) (s : parser C) : cuts p -> cuts q -> cuts s -> cuts (delimited p q s).
Proof. intros. repeat (apply cuts_bind; intros; auto with cut). Qed.
Lemma cuts_separated_pair {A B C} (p : parser A) (q : parser B) (s : parser C) : cuts p -> cuts q -> cuts s -> cuts (separated_pair p q s).
Proof. intros. repeat (apply cuts_bind; intros; auto with cut). Qed.
Lemma cuts_opt {A} (p : parser A) : cuts p -> cuts (opt p).
Proof. intros Hp i [a|] r H; apply opt_done in H; [eapply Hp; eauto|destruct H as [-> _]; apply suffix_refl]. Qed.
Lemma cuts_or {A} (p q : parser A) : cuts p -> cuts q -> cuts (orp p q).
Proof. intros Hp Hq i a r H. apply or_done in H. destruct H as [H|[_ H]]; eauto. Qed.
Lemma cuts_recognize {A} (p : parser A) : cuts p -> cuts (recognize p).
Proof. intros Hp i a r H. apply recognize_done in H. destruct H as (b & H & _). eauto. Qed.
Lemma cuts_recognizer {A} (p : parser A) : cuts p -> cuts (recognizer p).
Proof. intros Hp i a r H. apply recognizer_done in H. destruct H as [H _]. eauto. Qed.
Lemma cuts_map_res_fail {A B} (p : parser A) (f : A -> B + parse_error) : cuts p -> cuts (map_res_fail p f).
Proof. intros Hp i a r H. apply map_res_fail_done in H. destruct H as (b & H & _). eauto. Qed.
Lemma cuts_map_res {A B} (p : parser A) (f : A -> B + parse_error) : cuts p -> cuts (map_res p f).
Proof. intros Hp i a r H. apply map_res_done in H. destruct H as (b & H & _). eauto. Qed.
Lemma reps_cuts {A} (p : parser A) i l r : cuts p -> reps p i l r -> exists c, i = c ++ r.
Proof. intros C. induction 1; [apply suffix_refl|]. eapply suffix_trans; eauto. Qed.
Lemma cuts_many0 {A} (p : parser A) : cuts p -> cuts (many0 p).
Proof. intros C i l r H. eapply reps_cuts; eauto. eapply many0_f_done; eauto. Qed.
Lemma cuts_many1 {A} (p : parser A) : cuts p -> cuts (many1 p).
Proof. intros C. repeat (apply cuts_bind; intros; auto using cuts_many0 with cut). Qed.
Lemma sreps_cuts {A B} (s : parser B) (p : parser A) i l r : cuts s -> cuts p -> sreps s p i l r -> exists c, i = c ++ r.
Proof. intros C D. induction 1; try apply suffix_refl. eapply suffix_trans; [eapply C; eauto|]. eapply suffix_trans; [eapply D; eauto|auto]. Qed.
Lemma cuts_sep {A B} (s : parser B) (p : parser A) : cuts s -> cuts p -> cuts (separated_list1 s p).
Proof.
  intros C D. apply cuts_bind; auto. intros a. apply cuts_bind; auto with cut. intros i l r H. apply sep_f_done in H. exact (sreps_cuts s p i l r C D H).
Qed.
Lemma cuts_tag s : cuts (tag s).
Proof. intros i a r H. apply tag_done in H. destruct H as [_ ->]. eauto. Qed.
Lemma cuts_satisfy f : cuts (satisfy f).
Proof. intros i a r H. apply satisfy_done in H. destruct H as [-> _]. exists [a]. reflexivity. Qed.
Lemma cuts_char c : cuts (charp c). Proof. apply cuts_satisfy. Qed.
Lemma cuts_one_of c : cuts (one_of_chars c). Proof. apply cuts_satisfy. Qed.
Lemma cuts_anychar : cuts anychar. Proof. apply cuts_satisfy. Qed.
Lemma cuts_take_while1 f : cuts (take_while1 f).
Proof. intros i a r H. apply take_while1_done in H. destruct H as (_ & -> & _). eauto. Qed.
Lemma cuts_take_while0 f : cuts (take_while0 f).
Proof. intros i a r H. unfold take_while0 in H. destruct (span f i) eqn:E. inversion H; subst. apply span_spec in E. destruct E as (-> & _). eauto. Qed.
Lemma cuts_not_eol : cuts not_line_ending.
Proof. intros i a r H. apply not_eol_done in H. destruct H as (-> & _). eauto. Qed.
#[export] Hint Resolve cuts_map cuts_value cuts_pair cuts_preceded cuts_terminated cuts_delimited cuts_separated_pair cuts_opt cuts_or
  cuts_recognize cuts_recognizer cuts_map_res_fail cuts_map_res cuts_many0 cuts_many1 cuts_sep cuts_tag cuts_char cuts_one_of cuts_anychar
  cuts_take_while1 cuts_take_while0 cuts_not_eol : cut.
