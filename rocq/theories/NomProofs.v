(** General facts about the parser combinators: inputs shrink, more fuel does
    not change results, fuel suffices, and what a success says about the
    consumed text. *)
From Coq Require Import List Bool Arith NArith String Lia.
From Verif Require Import Base Util Nom Parser.
Import ListNotations.
Open Scope list_scope.

Create HintDb nom.

(** * Consumption *)

(** On success the remaining input is a suffix; for [eats] a proper one. *)
Definition shrinks {A} (p : parser A) : Prop :=
  forall i a r, p i = Done a r -> List.length r <= List.length i.
Definition eats {A} (p : parser A) : Prop :=
  forall i a r, p i = Done a r -> List.length r < List.length i.

Lemma eats_shrinks {A} (p : parser A) : eats p -> shrinks p.
Proof. intros H i a r E. apply H in E. lia. Qed.

Lemma bind_done {A B} (p : parser A) (f : A -> parser B) i b r :
  bindp p f i = Done b r <-> exists a m, p i = Done a m /\ f a m = Done b r.
Proof.
  unfold bindp. destruct (p i) as [a m|e|e| |] eqn:E; split; try discriminate; try (intros (a' & m' & H & _); discriminate); eauto.
  intros (a' & m' & [= <- <-] & H). auto.
Qed.
Lemma shrinks_bind {A B} (p : parser A) (f : A -> parser B) : shrinks p -> (forall a, shrinks (f a)) -> shrinks (bindp p f).
Proof. intros Hp Hf i b r H. apply bind_done in H. destruct H as (a & m & E & F). apply Hp in E. apply Hf in F. lia. Qed.
Lemma eats_bind_l {A B} (p : parser A) (f : A -> parser B) : eats p -> (forall a, shrinks (f a)) -> eats (bindp p f).
Proof. intros Hp Hf i b r H. apply bind_done in H. destruct H as (a & m & E & F). apply Hp in E. apply Hf in F. lia. Qed.
Lemma eats_bind_r {A B} (p : parser A) (f : A -> parser B) : shrinks p -> (forall a, eats (f a)) -> eats (bindp p f).
Proof. intros Hp Hf i b r H. apply bind_done in H. destruct H as (a & m & E & F). apply Hp in E. apply Hf in F. lia. Qed.
Lemma shrinks_ret {A} (a : A) : shrinks (ret a).
Proof. intros i b r [= <- <-]. lia. Qed.
#[export] Hint Resolve shrinks_ret : nom.

Lemma shrinks_map {A B} (f : A -> B) p : shrinks p -> shrinks (mapp f p).
Proof. intros H. apply shrinks_bind; auto with nom. Qed.
Lemma eats_map {A B} (f : A -> B) p : eats p -> eats (mapp f p).
Proof. intros H. apply eats_bind_l; auto with nom. Qed.
Lemma shrinks_value {A B} (b : B) (p : parser A) : shrinks p -> shrinks (valuep b p).
Proof. apply shrinks_map. Qed.
Lemma shrinks_pair {A B} (p : parser A) (q : parser B) : shrinks p -> shrinks q -> shrinks (pairp p q).
Proof. intros. apply shrinks_bind; auto. intros. apply shrinks_bind; auto with nom. Qed.
Lemma eats_pair_l {A B} (p : parser A) (q : parser B) : eats p -> shrinks q -> eats (pairp p q).
Proof. intros. apply eats_bind_l; auto. intros. apply shrinks_bind; auto with nom. Qed.
Lemma shrinks_preceded {A B} (p : parser A) (q : parser B) : shrinks p -> shrinks q -> shrinks (preceded p q).
Proof. intros. apply shrinks_bind; auto. Qed.
Lemma eats_preceded_l {A B} (p : parser A) (q : parser B) : eats p -> shrinks q -> eats (preceded p q).
Proof. intros. apply eats_bind_l; auto. Qed.
Lemma eats_preceded_r {A B} (p : parser A) (q : parser B) : shrinks p -> eats q -> eats (preceded p q).
Proof. intros. apply eats_bind_r; auto. Qed.
Lemma shrinks_terminated {A B} (p : parser A) (q : parser B) : shrinks p -> shrinks q -> shrinks (terminated p q).
Proof. intros. apply shrinks_bind; auto. intros. apply shrinks_bind; auto with nom. Qed.
Lemma shrinks_delimited {A B C} (p : parser A) (q : parser B) (s : parser C) :
  shrinks p -> shrinks q -> shrinks s -> shrinks (delimited p q s).
Proof. intros. apply shrinks_bind; auto. intros. apply shrinks_bind; auto. intros. apply shrinks_bind; auto with nom. Qed.
Lemma eats_delimited_l {A B C} (p : parser A) (q : parser B) (s : parser C) :
  eats p -> shrinks q -> shrinks s -> eats (delimited p q s).
Proof. intros. apply eats_bind_l; auto. intros. apply shrinks_bind; auto. intros. apply shrinks_bind; auto with nom. Qed.
Lemma eats_delimited_m {A B C} (p : parser A) (q : parser B) (s : parser C) :
  shrinks p -> eats q -> shrinks s -> eats (delimited p q s).
Proof. intros. apply eats_bind_r; auto. intros. apply eats_bind_l; auto. intros. apply shrinks_bind; auto with nom. Qed.
Lemma shrinks_separated_pair {A B C} (p : parser A) (q : parser B) (s : parser C) :
  shrinks p -> shrinks q -> shrinks s -> shrinks (separated_pair p q s).
Proof. intros. apply shrinks_bind; auto. intros. apply shrinks_bind; auto. intros. apply shrinks_bind; auto with nom. Qed.
Lemma eats_separated_pair {A B C} (p : parser A) (q : parser B) (s : parser C) :
  eats p -> shrinks q -> shrinks s -> eats (separated_pair p q s).
Proof. intros. apply eats_bind_l; auto. intros. apply shrinks_bind; auto. intros. apply shrinks_bind; auto with nom. Qed.
Lemma shrinks_opt {A} (p : parser A) : shrinks p -> shrinks (opt p).
Proof. intros H i a r E. unfold opt in E. destruct (p i) eqn:P; inversion E; subst; eauto. Qed.
Lemma shrinks_or {A} (p q : parser A) : shrinks p -> shrinks q -> shrinks (orp p q).
Proof. intros H H' i a r E. unfold orp in E. destruct (p i) eqn:P; try discriminate; [inversion E; subst; eauto|eauto]. Qed.
Lemma eats_or {A} (p q : parser A) : eats p -> eats q -> eats (orp p q).
Proof. intros H H' i a r E. unfold orp in E. destruct (p i) eqn:P; try discriminate; [inversion E; subst; eauto|eauto]. Qed.
Lemma shrinks_recognize {A} (p : parser A) : shrinks p -> shrinks (recognize p).
Proof. intros H i a r E. unfold recognize in E. destruct (p i) eqn:P; inversion E; subst; eauto. Qed.
Lemma eats_recognize {A} (p : parser A) : eats p -> eats (recognize p).
Proof. intros H i a r E. unfold recognize in E. destruct (p i) eqn:P; inversion E; subst; eauto. Qed.
Lemma shrinks_recognizer {A} (p : parser A) : shrinks p -> shrinks (recognizer p).
Proof. intros H i a r E. unfold recognizer in E. destruct (p i) eqn:P; inversion E; subst; eauto. Qed.
Lemma eats_recognizer {A} (p : parser A) : eats p -> eats (recognizer p).
Proof. intros H i a r E. unfold recognizer in E. destruct (p i) eqn:P; inversion E; subst; eauto. Qed.
Lemma shrinks_many0_f {A} (p : parser A) n : shrinks p -> shrinks (many0_f n p).
Proof.
  intros H. induction n as [|n IH]; intros i l r E; [discriminate|]. cbn in E. destruct (p i) as [a m|e|e| |] eqn:P; try discriminate.
  - destruct (Nat.eqb_spec (List.length m) (List.length i)); [discriminate|]. apply H in P.
    destruct (many0_f n p m) eqn:M; try discriminate. injection E as <- <-. apply IH in M. lia.
  - injection E as <- <-. lia.
Qed.
Lemma shrinks_many0 {A} (p : parser A) : shrinks p -> shrinks (many0 p).
Proof. intros H i. apply shrinks_many0_f; auto. Qed.
Lemma eats_many1 {A} (p : parser A) : eats p -> eats (many1 p).
Proof. intros H. apply eats_bind_l; auto. intros. apply shrinks_bind; auto using shrinks_many0, eats_shrinks with nom. Qed.
Lemma shrinks_many1 {A} (p : parser A) : shrinks p -> shrinks (many1 p).
Proof. intros H. apply shrinks_bind; auto. intros. apply shrinks_bind; auto using shrinks_many0 with nom. Qed.
Lemma shrinks_sep_f {A B} (s : parser B) (p : parser A) n : shrinks s -> shrinks p -> shrinks (sep_loop_f n s p).
Proof.
  intros Hs H. induction n as [|n IH]; intros i l r E; [discriminate|]. cbn in E.
  destruct (s i) as [b j|e|e| |] eqn:S; try discriminate; [|injection E as <- <-; lia].
  destruct (Nat.eqb_spec (List.length j) (List.length i)); [discriminate|]. apply Hs in S.
  destruct (p j) as [a m|e|e| |] eqn:P; try discriminate; [|injection E as <- <-; lia]. apply H in P.
  destruct (sep_loop_f n s p m) eqn:M; try discriminate. injection E as <- <-. apply IH in M. lia.
Qed.
Lemma shrinks_sep {A B} (s : parser B) (p : parser A) : shrinks s -> shrinks p -> shrinks (separated_list1 s p).
Proof. intros Hs H. apply shrinks_bind; auto. intros. apply shrinks_bind; auto with nom. intros i. apply shrinks_sep_f; auto. Qed.
Lemma eats_sep {A B} (s : parser B) (p : parser A) : shrinks s -> eats p -> eats (separated_list1 s p).
Proof.
  intros Hs H. apply eats_bind_l; auto. intros. apply shrinks_bind; auto with nom. intros i. apply shrinks_sep_f; auto using eats_shrinks.
Qed.
Lemma shrinks_map_res {A B} (p : parser A) (f : A -> B + parse_error) : shrinks p -> shrinks (map_res p f).
Proof. intros H. apply shrinks_bind; auto. intros a i b r E. destruct (f a); inversion E; subst; auto. Qed.
Lemma eats_map_res {A B} (p : parser A) (f : A -> B + parse_error) : eats p -> eats (map_res p f).
Proof. intros H. apply eats_bind_l; auto. intros a i b r E. destruct (f a); inversion E; subst; auto. Qed.
Lemma shrinks_map_res_fail {A B} (p : parser A) (f : A -> B + parse_error) : shrinks p -> shrinks (map_res_fail p f).
Proof. intros H. apply shrinks_bind; auto. intros a i b r E. destruct (f a); inversion E; subst; auto. Qed.
Lemma eats_map_res_fail {A B} (p : parser A) (f : A -> B + parse_error) : eats p -> eats (map_res_fail p f).
Proof. intros H. apply eats_bind_l; auto. intros a i b r E. destruct (f a); inversion E; subst; auto. Qed.

Lemma strip_app p i r : strip p i = Some r <-> i = p ++ r.
Proof.
  revert i. induction p as [|a p IH]; intros i; cbn; [split; congruence|].
  destruct i as [|b i]; [split; discriminate|]. destruct (N.eqb_spec a b) as [->|N].
  - rewrite IH. split; congruence.
  - split; [discriminate|congruence].
Qed.
Lemma tag_done s i a r : tag s i = Done a r <-> a = txt s /\ i = txt s ++ r.
Proof.
  unfold tag. destruct (strip (txt s) i) as [r'|] eqn:E.
  - apply strip_app in E. subst. split; [intros [= <- <-]; auto|intros [-> H]; apply app_inv_head in H; congruence].
  - split; [discriminate|]. intros [_ H]. apply strip_app in H. congruence.
Qed.
Lemma shrinks_tag s : shrinks (tag s).
Proof. intros i a r H. apply tag_done in H. destruct H as [_ ->]. rewrite app_length. lia. Qed.
Lemma eats_tag s : s <> ""%string -> eats (tag s).
Proof.
  intros N i a r H. apply tag_done in H. destruct H as [_ ->]. rewrite app_length.
  destruct s; [congruence|]. cbn. lia.
Qed.
Lemma satisfy_done f i a r : satisfy f i = Done a r <-> i = a :: r /\ f a = true.
Proof.
  unfold satisfy. destruct i as [|c i]; [split; [discriminate|intros [H _]; discriminate]|].
  destruct (f c) eqn:E; split; try discriminate.
  - intros [= <- <-]; auto.
  - intros [[= -> ->] _]; auto.
  - intros [[= -> ->] H]; congruence.
Qed.
Lemma eats_satisfy f : eats (satisfy f).
Proof. intros i a r H. apply satisfy_done in H. destruct H as [-> _]. cbn; lia. Qed.
Lemma eats_char c : eats (charp c). Proof. apply eats_satisfy. Qed.
Lemma eats_one_of c : eats (one_of_chars c). Proof. apply eats_satisfy. Qed.
Lemma eats_anychar : eats anychar. Proof. apply eats_satisfy. Qed.

Lemma span_spec f i : forall a b, span f i = (a, b) <->
  i = a ++ b /\ Forall (fun c => f c = true) a /\ match b with [] => True | c :: _ => f c = false end.
Proof.
  induction i as [|c i IH]; intros a b; cbn.
  - split; [intros [= <- <-]; auto|]. intros (E & _). destruct a; [cbn in E; subst; auto|discriminate].
  - destruct (f c) eqn:Ec.
    + destruct (span f i) as [a' b'] eqn:S. split.
      * intros [= <- <-]. destruct (proj1 (IH a' b') eq_refl) as (-> & F & B). auto.
      * intros (E & F & B). destruct a as [|x a]; [cbn in E; subst; congruence|]. injection E as <- E.
        apply Forall_cons_iff in F. assert ((a', b') = (a, b)) as K by (apply IH; tauto). inversion K; reflexivity.
    + split.
      * intros [= <- <-]. auto.
      * intros (E & F & B). destruct a as [|x a]; [cbn in E; subst; auto|]. injection E as <- E.
        apply Forall_cons_iff in F. destruct F; congruence.
Qed.
Lemma take_while1_done f i a r : take_while1 f i = Done a r <->
  a <> [] /\ i = a ++ r /\ Forall (fun c => f c = true) a /\ match r with [] => True | c :: _ => f c = false end.
Proof.
  unfold take_while1. rewrite <- span_spec. destruct (span f i) as [[|x a'] b].
  - split; [discriminate|]. intros [N [= <- <-]]. congruence.
  - split; [intros [= <- <-]; split; [discriminate|reflexivity]|intros [_ [= <- <-]]; reflexivity].
Qed.
Lemma eats_take_while1 f : eats (take_while1 f).
Proof. intros i a r H. apply take_while1_done in H. destruct H as (N & -> & _). rewrite app_length. destruct a; [congruence|]. cbn; lia. Qed.
Lemma shrinks_take_while0 f : shrinks (take_while0 f).
Proof.
  intros i a r H. unfold take_while0 in H. destruct (span f i) eqn:E. injection H as <- <-.
  apply span_spec in E. destruct E as (-> & _). rewrite app_length. lia.
Qed.
Lemma not_eol_done i a r : not_line_ending i = Done a r <->
  i = a ++ r /\ Forall (fun c => is_not_eol c = true) a /\
  (r = [] \/ (exists r', r = 10%N :: r') \/ exists r', r = 13%N :: 10%N :: r').
Proof.
  unfold not_line_ending. destruct (span is_not_eol i) as [a' b] eqn:E. apply span_spec in E. destruct E as (-> & F & B).
  assert (U : forall a r, a' ++ b = a ++ r -> Forall (fun c => is_not_eol c = true) a ->
    (r = [] \/ (exists r', r = 10%N :: r') \/ exists r', r = 13%N :: 10%N :: r') -> a = a' /\ r = b).
  { intros a1 r1 Eq F1 B1. assert (S1 : span is_not_eol (a1 ++ r1) = (a1, r1)).
    { apply span_spec. repeat split; auto. destruct B1 as [->|[(r' & ->)|(r' & ->)]]; auto. }
    assert (S2 : span is_not_eol (a1 ++ r1) = (a', b)) by (apply span_spec; rewrite <- Eq; auto).
    rewrite S1 in S2. injection S2; auto. }
  destruct b as [|c b].
  - split; [intros [= <- <-]; auto|intros (Eq & F1 & B1); destruct (U _ _ Eq F1 B1) as [-> ->]; auto].
  - destruct (N.eqb_spec c 13) as [->|N].
    + destruct b as [|c' b].
      * split; [discriminate|]. intros (Eq & F1 & B1). destruct (U _ _ Eq F1 B1) as [-> ->].
        destruct B1 as [B1|[(r' & B1)|(r' & B1)]]; discriminate.
      * destruct (N.eqb_spec c' 10) as [->|N'].
        -- split; [intros [= <- <-]; repeat split; eauto|intros (Eq & F1 & B1); destruct (U _ _ Eq F1 B1) as [-> ->]; auto].
        -- split; [discriminate|]. intros (Eq & F1 & B1). destruct (U _ _ Eq F1 B1) as [-> ->].
           destruct B1 as [B1|[(r' & B1)|(r' & B1)]]; inversion B1; congruence.
    + assert (c = 10%N) as ->.
      { unfold is_not_eol in B. apply negb_false_iff, orb_true_iff in B. rewrite !N.eqb_eq in B. destruct B; congruence. }
      split; [intros [= <- <-]; repeat split; eauto|intros (Eq & F1 & B1); destruct (U _ _ Eq F1 B1) as [-> ->]; auto].
Qed.
Lemma shrinks_not_eol : shrinks not_line_ending.
Proof. intros i a r H. apply not_eol_done in H. destruct H as (-> & _). rewrite app_length. lia. Qed.

#[export] Hint Resolve shrinks_map eats_map shrinks_value shrinks_pair eats_pair_l shrinks_preceded eats_preceded_l shrinks_terminated
  shrinks_delimited eats_delimited_l shrinks_separated_pair eats_separated_pair shrinks_opt shrinks_or eats_or
  shrinks_recognize eats_recognize shrinks_recognizer eats_recognizer shrinks_many0 eats_many1 shrinks_many1 shrinks_sep eats_sep
  shrinks_map_res eats_map_res shrinks_map_res_fail eats_map_res_fail shrinks_tag eats_satisfy eats_char eats_one_of eats_anychar
  eats_take_while1 shrinks_take_while0 shrinks_not_eol : nom.
#[export] Hint Extern 2 (eats (tag _)) => apply eats_tag; discriminate : nom.
#[export] Hint Extern 5 (shrinks (tag _)) => apply shrinks_tag : nom.
#[export] Hint Extern 8 (shrinks _) => apply eats_shrinks : nom.

(** * No panic, fuel suffices *)

Definition good {A} (r : pres A) : Prop := match r with Crash | NoFuel => False | _ => True end.
(** Never [Crash] or [NoFuel] on inputs shorter than [n]. *)
Definition safe {A} (n : nat) (p : parser A) : Prop := forall i, List.length i < n -> good (p i).

Lemma safe_le {A} n m (p : parser A) : n <= m -> safe m p -> safe n p.
Proof. intros L H i Hi. apply H. lia. Qed.
Lemma safe_0 {A} (p : parser A) : safe 0 p.
Proof. intros i Hi. lia. Qed.
Lemma safe_bind {A B} n (p : parser A) (f : A -> parser B) :
  safe n p -> shrinks p -> (forall a, safe n (f a)) -> safe n (bindp p f).
Proof.
  intros Hp S Hf i Hi. pose proof (Hp i Hi) as G. unfold bindp. destruct (p i) eqn:E; auto.
  apply S in E. apply Hf. lia.
Qed.
Lemma safe_bind_eat {A B} n (p : parser A) (f : A -> parser B) :
  safe (S n) p -> eats p -> (forall a, safe n (f a)) -> safe (S n) (bindp p f).
Proof.
  intros Hp S Hf i Hi. pose proof (Hp i Hi) as G. unfold bindp. destruct (p i) eqn:E; auto.
  apply S in E. apply Hf. lia.
Qed.
Lemma safe_ret {A} n (a : A) : safe n (ret a).
Proof. intros i _. exact I. Qed.
#[export] Hint Resolve safe_ret : nom.
Lemma safe_map {A B} n (f : A -> B) p : safe n p -> safe n (mapp f p).
Proof. intros Hp i Hi. pose proof (Hp i Hi) as G. unfold mapp, bindp. destruct (p i); auto. Qed.
Lemma safe_value {A B} n (b : B) (p : parser A) : safe n p -> safe n (valuep b p).
Proof. apply safe_map. Qed.
Lemma safe_pair {A B} n (p : parser A) (q : parser B) : safe n p -> shrinks p -> safe n q -> safe n (pairp p q).
Proof. intros. apply safe_bind; auto. intros. apply safe_map with (f := fun b => (a, b)); auto. Qed.
Lemma safe_pair_eat {A B} n (p : parser A) (q : parser B) : safe (S n) p -> eats p -> safe n q -> safe (S n) (pairp p q).
Proof. intros. apply safe_bind_eat; auto. intros. apply safe_map with (f := fun b => (a, b)); auto. Qed.
Lemma safe_preceded {A B} n (p : parser A) (q : parser B) : safe n p -> shrinks p -> safe n q -> safe n (preceded p q).
Proof. intros. apply safe_bind; auto. Qed.
Lemma safe_preceded_eat {A B} n (p : parser A) (q : parser B) : safe (S n) p -> eats p -> safe n q -> safe (S n) (preceded p q).
Proof. intros. apply safe_bind_eat; auto. Qed.
Lemma safe_terminated {A B} n (p : parser A) (q : parser B) : safe n p -> shrinks p -> safe n q -> safe n (terminated p q).
Proof. intros. apply safe_bind; auto. intros. apply safe_map with (f := fun _ => a); auto. Qed.
Lemma safe_delimited {A B C} n (p : parser A) (q : parser B) (s : parser C) :
  safe n p -> shrinks p -> safe n q -> shrinks q -> safe n s -> safe n (delimited p q s).
Proof. intros. apply safe_bind; auto. intros. apply safe_terminated; auto. Qed.
Lemma safe_delimited_eat {A B C} n (p : parser A) (q : parser B) (s : parser C) :
  safe (S n) p -> eats p -> safe n q -> shrinks q -> safe n s -> safe (S n) (delimited p q s).
Proof. intros. apply safe_bind_eat; auto. intros. apply safe_terminated; auto. Qed.
Lemma safe_separated_pair {A B C} n (p : parser A) (q : parser B) (s : parser C) :
  safe n p -> shrinks p -> safe n q -> shrinks q -> safe n s -> safe n (separated_pair p q s).
Proof. intros. apply safe_bind; auto. intros. apply safe_bind; auto. intros. apply safe_map with (f := fun c => (a, c)); auto. Qed.
Lemma safe_opt {A} n (p : parser A) : safe n p -> safe n (opt p).
Proof. intros Hp i Hi. pose proof (Hp i Hi) as G. unfold opt. destruct (p i); auto. Qed.
Lemma safe_or {A} n (p q : parser A) : safe n p -> safe n q -> safe n (orp p q).
Proof. intros Hp Hq i Hi. pose proof (Hp i Hi) as G. unfold orp. destruct (p i); auto. Qed.
Lemma safe_recognize {A} n (p : parser A) : safe n p -> safe n (recognize p).
Proof. intros Hp i Hi. pose proof (Hp i Hi) as G. unfold recognize. destruct (p i); auto. Qed.
Lemma safe_recognizer {A} n (p : parser A) : safe n p -> safe n (recognizer p).
Proof. intros Hp i Hi. pose proof (Hp i Hi) as G. unfold recognizer. destruct (p i); auto. Qed.
Lemma good_many0_f {A} n (p : parser A) : safe n p -> shrinks p ->
  forall k i, List.length i < n -> List.length i < k -> good (many0_f k p i).
Proof.
  intros Hp S. induction k as [|k IH]; intros i Hi Hk; [lia|]. cbn. pose proof (Hp i Hi) as G.
  destruct (p i) as [a m|e|e| |] eqn:E; auto. apply S in E.
  destruct (Nat.eqb_spec (List.length m) (List.length i)); [exact I|]. specialize (IH m). 
  destruct (many0_f k p m); try exact I; apply IH; lia.
Qed.
Lemma safe_many0 {A} n (p : parser A) : safe n p -> shrinks p -> safe n (many0 p).
Proof. intros Hp S i Hi. eapply good_many0_f; eauto. Qed.
Lemma safe_many1 {A} n (p : parser A) : safe n p -> shrinks p -> safe n (many1 p).
Proof. intros Hp S. apply safe_bind; auto. intros a. apply safe_map with (f := fun l => a :: l), safe_many0; auto. Qed.
Lemma good_sep_f {A B} n (s : parser B) (p : parser A) : safe n s -> shrinks s -> safe n p -> shrinks p ->
  forall k i, List.length i < n -> List.length i < k -> good (sep_loop_f k s p i).
Proof.
  intros Hs Ss Hp Sp. induction k as [|k IH]; intros i Hi Hk; [lia|]. cbn. pose proof (Hs i Hi) as G.
  destruct (s i) as [a m|e|e| |] eqn:E; auto. apply Ss in E.
  destruct (Nat.eqb_spec (List.length m) (List.length i)); [exact I|].
  assert (G2 : good (p m)) by (apply Hp; lia). destruct (p m) as [b j|e|e| |] eqn:F; auto. apply Sp in F.
  specialize (IH j). destruct (sep_loop_f k s p j); try exact I; apply IH; lia.
Qed.
Lemma safe_sep {A B} n (s : parser B) (p : parser A) : safe n s -> shrinks s -> safe n p -> shrinks p -> safe n (separated_list1 s p).
Proof.
  intros Hs Ss Hp Sp. apply safe_bind; auto. intros a.
  apply safe_map with (f := fun l => a :: l) (p := fun i => sep_loop_f (S (List.length i)) s p i).
  intros i Hi. eapply good_sep_f; eauto.
Qed.
Lemma safe_map_res {A B} n (p : parser A) (f : A -> B + parse_error) : safe n p -> safe n (map_res p f).
Proof. intros Hp i Hi. pose proof (Hp i Hi) as G. unfold map_res, bindp. destruct (p i) as [a m|e|e| |]; auto. destruct (f a); exact I. Qed.
Lemma safe_map_res_fail {A B} n (p : parser A) (f : A -> B + parse_error) : safe n p -> safe n (map_res_fail p f).
Proof. intros Hp i Hi. pose proof (Hp i Hi) as G. unfold map_res_fail, bindp. destruct (p i) as [a m|e|e| |]; auto. destruct (f a); exact I. Qed.
Lemma safe_all_consuming {A} n (p : parser A) : safe n p -> safe n (all_consuming p).
Proof. intros Hp i Hi. pose proof (Hp i Hi) as G. unfold all_consuming, bindp. destruct (p i) as [a [|c m]|e|e| |]; auto. Qed.
Lemma safe_tag n s : safe n (tag s).
Proof. intros i _. unfold tag. destruct (strip (txt s) i); exact I. Qed.
Lemma safe_satisfy n f : safe n (satisfy f).
Proof. intros i _. unfold satisfy. destruct i as [|c i]; [exact I|]. destruct (f c); exact I. Qed.
Lemma safe_char n c : safe n (charp c). Proof. apply safe_satisfy. Qed.
Lemma safe_one_of n s : safe n (one_of_chars s). Proof. apply safe_satisfy. Qed.
Lemma safe_anychar n : safe n anychar. Proof. apply safe_satisfy. Qed.
Lemma safe_take_while1 n f : safe n (take_while1 f).
Proof. intros i _. unfold take_while1. destruct (span f i) as [[|] ]; exact I. Qed.
Lemma safe_take_while0 n f : safe n (take_while0 f).
Proof. intros i _. unfold take_while0. destruct (span f i) as [a b]; exact I. Qed.
Lemma safe_not_eol n : safe n not_line_ending.
Proof.
  intros i _. unfold not_line_ending. destruct (span is_not_eol i) as [a [|c b]]; [exact I|].
  destruct (N.eqb c 13); [|exact I]. destruct b as [|c' b]; [exact I|]. destruct (N.eqb c' 10); exact I.
Qed.
#[export] Hint Resolve safe_map safe_value safe_pair safe_preceded safe_terminated safe_delimited safe_separated_pair safe_opt
  safe_or safe_recognize safe_recognizer safe_many0 safe_many1 safe_sep safe_map_res safe_map_res_fail safe_all_consuming
  safe_tag safe_char safe_one_of safe_anychar safe_take_while1 safe_take_while0 safe_not_eol safe_satisfy : nom.

(** * More fuel *)

(** [q] agrees with [p] wherever [p] has enough fuel. *)
Definition below {A} (p q : parser A) : Prop := forall i, p i <> NoFuel -> q i = p i.

Lemma below_refl {A} (p : parser A) : below p p.
Proof. intros i _. reflexivity. Qed.
Lemma below_bind {A B} (p p' : parser A) (f f' : A -> parser B) :
  below p p' -> (forall a, below (f a) (f' a)) -> below (bindp p f) (bindp p' f').
Proof.
  intros Hp Hf i N. unfold bindp in *. destruct (p i) eqn:E; try congruence;
    (rewrite (Hp i), E; [|congruence]); auto. apply Hf; auto.
Qed.
#[export] Hint Resolve below_refl : nom.
Lemma below_map {A B} (f : A -> B) p p' : below p p' -> below (mapp f p) (mapp f p').
Proof. intros. apply below_bind; auto with nom. Qed.
Lemma below_pair {A B} (p p' : parser A) (q q' : parser B) : below p p' -> below q q' -> below (pairp p q) (pairp p' q').
Proof. intros. apply below_bind; auto. intros. apply below_bind; auto with nom. Qed.
Lemma below_preceded {A B} (p p' : parser A) (q q' : parser B) : below p p' -> below q q' -> below (preceded p q) (preceded p' q').
Proof. intros. apply below_bind; auto. Qed.
Lemma below_terminated {A B} (p p' : parser A) (q q' : parser B) : below p p' -> below q q' -> below (terminated p q) (terminated p' q').
Proof. intros. apply below_bind; auto. intros. apply below_bind; auto with nom. Qed.
Lemma below_delimited {A B C} (p p' : parser A) (q q' : parser B) (s s' : parser C) :
  below p p' -> below q q' -> below s s' -> below (delimited p q s) (delimited p' q' s').
Proof. intros. apply below_bind; auto. intros. apply below_bind; auto. intros. apply below_bind; auto with nom. Qed.
Lemma below_opt {A} (p p' : parser A) : below p p' -> below (opt p) (opt p').
Proof. intros Hp i N. unfold opt in *. destruct (p i) eqn:E; try congruence; (rewrite (Hp i), E; [|congruence]); auto. Qed.
Lemma below_or {A} (p p' q q' : parser A) : below p p' -> below q q' -> below (orp p q) (orp p' q').
Proof. intros Hp Hq i N. unfold orp in *. destruct (p i) eqn:E; try congruence; (rewrite (Hp i), E; [|congruence]); auto. Qed.
Lemma below_many0_f {A} (p p' : parser A) n : below p p' -> below (many0_f n p) (many0_f n p').
Proof.
  intros Hp. induction n as [|n IH]; intros i N; [reflexivity|]. cbn in *. destruct (p i) as [a m|e|e| |] eqn:E; try congruence;
    (rewrite (Hp i), E; [|congruence]); auto.
  destruct (Nat.eqb (List.length m) (List.length i)); auto. destruct (many0_f n p m) eqn:M; try congruence;
    (rewrite (IH m), M; [|congruence]); auto.
Qed.
Lemma below_many0 {A} (p p' : parser A) : below p p' -> below (many0 p) (many0 p').
Proof. intros Hp i. apply below_many0_f; auto. Qed.
Lemma below_sep_f {A B} (s s' : parser B) (p p' : parser A) n : below s s' -> below p p' -> below (sep_loop_f n s p) (sep_loop_f n s' p').
Proof.
  intros Hs Hp. induction n as [|n IH]; intros i N; [reflexivity|]. cbn in *. destruct (s i) as [a m|e|e| |] eqn:E; try congruence;
    (rewrite (Hs i), E; [|congruence]); auto.
  destruct (Nat.eqb (List.length m) (List.length i)); auto. destruct (p m) as [b j|e|e| |] eqn:F; try congruence;
    (rewrite (Hp m), F; [|congruence]); auto.
  destruct (sep_loop_f n s p j) eqn:M; try congruence; (rewrite (IH j), M; [|congruence]); auto.
Qed.
Lemma below_sep {A B} (s s' : parser B) (p p' : parser A) : below s s' -> below p p' -> below (separated_list1 s p) (separated_list1 s' p').
Proof. intros Hs Hp. apply below_bind; auto. intros. apply below_bind; auto with nom. intros i. apply below_sep_f; auto. Qed.
#[export] Hint Resolve below_map below_pair below_preceded below_terminated below_delimited below_opt below_or below_many0 below_sep : nom.
