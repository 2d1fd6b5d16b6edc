(** A family of schemas on which the parser's work doubles with every level of nesting. *)
From Coq Require Import List Bool Arith NArith String Lia.
From Verif Require Import Base Util Data Ivt Ast Nom Parser NomProofs ParserFuel ParseCost ParseCostProofs.
Import ListNotations.
Open Scope list_scope.

(** "a", "([a]a)", "([([a]a)]a)", ... *)
Fixpoint entry (n : nat) : text :=
  match n with
  | O => txt "a"
  | S m => txt "([" ++ entry m ++ txt "]a)"
  end.
Definition doubling (n : nat) : text := txt "x=[" ++ entry n ++ txt "]".

(** The result and the number of steps. *)
Definition runs {A} (c : cparser A) (i : text) (r : pres A) (k : nat) : Prop := c i = (r, k).
Lemma r_call {A} (p : parser A) i r : p i = r -> runs (call p) i r 1.
Proof. intros <-. reflexivity. Qed.
Lemma r_ret {A} (a : A) i : runs (cret a) i (Done a i) 0. Proof. reflexivity. Qed.
Lemma r_bind_done {A B} (c : cparser A) (f : A -> cparser B) i a m r k k' :
  runs c i (Done a m) k -> runs (f a) m r k' -> runs (cbind c f) i r (k + k').
Proof. intros E E'. unfold runs, cbind in *. rewrite E, E'. reflexivity. Qed.
Lemma r_bind_soft {A B} (c : cparser A) (f : A -> cparser B) i e k : runs c i (Soft e) k -> runs (cbind c f) i (Soft e) k.
Proof. intros E. unfold runs, cbind in *. rewrite E. reflexivity. Qed.
Lemma r_or_done {A} (c d : cparser A) i a m k : runs c i (Done a m) k -> runs (cor c d) i (Done a m) k.
Proof. intros E. unfold runs, cor in *. rewrite E. reflexivity. Qed.
Lemma r_or_soft {A} (c d : cparser A) i e r k k' : runs c i (Soft e) k -> runs d i r k' -> runs (cor c d) i r (k + k').
Proof. intros E E'. unfold runs, cor in *. rewrite E, E'. reflexivity. Qed.
Lemma r_opt_done {A} (c : cparser A) i a m k : runs c i (Done a m) k -> runs (copt c) i (Done (Some a) m) k.
Proof. intros E. unfold runs, copt in *. rewrite E. reflexivity. Qed.
Lemma r_opt_soft {A} (c : cparser A) i e k : runs c i (Soft e) k -> runs (copt c) i (Done None i) k.
Proof. intros E. unfold runs, copt in *. rewrite E. reflexivity. Qed.
Lemma r_many_nil {A} (c : cparser A) i e k : runs c i (Soft e) k -> runs (cmany0 c) i (Done [] i) k.
Proof. intros E. unfold runs, cmany0 in *. cbn [cmany0_f]. rewrite E. reflexivity. Qed.
Lemma many_more {A} (c : cparser A) n : forall i m, n <= m -> fst (cmany0_f n c i) <> NoFuel -> cmany0_f m c i = cmany0_f n c i.
Proof.
  induction n as [|n IH]; intros i m L N; [exfalso; apply N; reflexivity|]. destruct m as [|m]; [lia|]. cbn [cmany0_f] in *.
  destruct (c i) as [[] ?]; auto. destruct (Nat.eqb _ _); auto. rewrite (IH _ m); [reflexivity|lia|]. intros E. apply N.
  destruct (cmany0_f n c rest) as [? ?]. cbn in E. subst. reflexivity.
Qed.
Lemma r_many_cons {A} (c : cparser A) i a m l r k k' : runs c i (Done a m) k -> List.length m < List.length i ->
  runs (cmany0 c) m (Done l r) k' -> runs (cmany0 c) i (Done (a :: l) r) (k + k').
Proof.
  intros E L E'. unfold runs, cmany0 in *. cbn [cmany0_f]. rewrite E.
  destruct (Nat.eqb_spec (List.length m) (List.length i)); [lia|].
  rewrite (many_more c (S (List.length m)) m (List.length i)); [|lia|rewrite E'; discriminate]. rewrite E'. reflexivity.
Qed.
Lemma r_sep_nil {A B} (s : cparser B) (c : cparser A) i e k : runs s i (Soft e) k ->
  runs (fun i => csep_loop_f (S (List.length i)) s c i) i (Done [] i) k.
Proof. intros E. unfold runs in *. cbn [csep_loop_f]. rewrite E. reflexivity. Qed.
Lemma sep_more {A B} (s : cparser B) (c : cparser A) n : forall i m, n <= m -> fst (csep_loop_f n s c i) <> NoFuel -> csep_loop_f m s c i = csep_loop_f n s c i.
Proof.
  induction n as [|n IH]; intros i m L N; [exfalso; apply N; reflexivity|]. destruct m as [|m]; [lia|]. cbn [csep_loop_f] in *.
  destruct (s i) as [[] ?]; auto. destruct (Nat.eqb _ _); auto. cbn in N. destruct (c rest) as [[] ?]; auto. rewrite (IH _ m); [reflexivity|lia|]. intros E. apply N.
  destruct (csep_loop_f n s c rest0) as [? ?]. cbn in E. subst. reflexivity.
Qed.
Lemma r_sep_cons {A B} (s : cparser B) (c : cparser A) i b j a m l r k1 k2 k3 :
  runs s i (Done b j) k1 -> List.length j < List.length i -> runs c j (Done a m) k2 -> List.length m <= List.length j ->
  runs (fun i => csep_loop_f (S (List.length i)) s c i) m (Done l r) k3 ->
  runs (fun i => csep_loop_f (S (List.length i)) s c i) i (Done (a :: l) r) (k1 + (k2 + k3)).
Proof.
  intros E1 L1 E2 L2 E3. unfold runs in *. cbn [csep_loop_f]. rewrite E1.
  destruct (Nat.eqb_spec (List.length j) (List.length i)); [lia|]. rewrite E2.
  rewrite (sep_more s c (S (List.length m)) m (List.length i)); [|lia|rewrite E3; discriminate]. rewrite E3. reflexivity.
Qed.
Lemma r_eq {A} (c : cparser A) i r k k' : runs c i r k -> k = k' -> runs c i r k'.
Proof. now intros E <-. Qed.

Definition black (c : N) : Prop := is_multispace c = false /\ c <> 0x3b%N.
Lemma ws_black c r : black c -> p_ws (c :: r) = Done [] (c :: r).
Proof.
  intros [M N]. unfold p_ws, recognize, many0. cbn [List.length many0_f]. unfold orp, multispace1, take_while1, p_comment, preceded, bindp, charp, satisfy.
  cbn [span]. rewrite M. destruct (N.eqb_spec 0x3b c); [congruence|]. unfold consumed. now rewrite Nat.sub_diag.
Qed.
Lemma ws_nil : p_ws [] = Done [] []. Proof. reflexivity. Qed.
Lemma optcom_black c r : black c -> c <> 0x2c%N -> p_optcom (c :: r) = Done tt (c :: r).
Proof.
  intros B N. unfold p_optcom, valuep, mapp, pairp, bindp. rewrite (ws_black c r B). unfold opt, tag. cbn [txt strip].
  destruct (strip (txt ",") (c :: r)) as [j|] eqn:E; [|reflexivity]. apply strip_app in E. cbn in E. congruence.
Qed.
Lemma ident_a c r : c = 41%N \/ c = 93%N -> p_ident (97%N :: c :: r) = Done [97%N] (c :: r).
Proof.
  intros [-> | ->]; unfold p_ident, recognize, preceded, bindp, p_ealpha, take_while1; cbn [span]; cbn -[many0 List.length consumed];
  (unfold many0; cbn [List.length many0_f]; cbn -[consumed List.length]; unfold consumed; cbn [List.length];
  (replace (S (S (List.length r)) - S (List.length r)) with 1 by lia); reflexivity).
Qed.
Lemma r_plain ct f i l m k : runs (c_more_choices ct) i (Done l m) k -> runs (cmember_plain ct f) i (Done (GMember None (f :: l)) m) k.
Proof. intros E. unfold runs, cmember_plain in *. rewrite E. reflexivity. Qed.
Lemma r_arrow_soft ct f i e r k k' : runs (c_arrow_tail ct) i (Soft e) k -> runs (cmember_plain ct f) i r k' -> runs (cmember_arrow ct f) i r (k + k').
Proof. intros E E'. unfold runs, cmember_arrow in *. rewrite E, E'. reflexivity. Qed.
Lemma r_colon_soft ct f i e r k k' : runs (c_memberkey_tail ct) i (Soft e) k -> runs (cmember_arrow ct f) i r k' -> runs (cmember_colon ct f) i r (k + k').
Proof. intros E E'. unfold runs, cmember_colon in *. rewrite E, E'. reflexivity. Qed.
Ltac tok := first
  [ apply ws_black; split; [reflexivity|discriminate]
  | apply optcom_black; [split; [reflexivity|discriminate]|discriminate]
  | apply ident_a; auto; fail
  | apply ws_nil
  | eassumption
  | match goal with |- p_ws _ = _ => fail 2 | |- p_optcom _ = _ => fail 2 | _ => idtac end; lazy; reflexivity ].
Ltac go known := lazymatch goal with
  | |- runs (call _) _ _ _ => apply r_call; tok
  | |- runs (cret _) _ _ _ => apply r_ret
  | |- runs (cbind ?c ?f) ?i _ _ =>
      let r := open_constr:(_) in let k := open_constr:(_) in
      let H := fresh "H" in
      assert (H : runs c i r k) by (go known);
      lazymatch type of H with
      | runs _ _ (Done _ _) _ => eapply r_bind_done; [exact H|cbv beta iota; clear H; go known]
      | runs _ _ (Soft _) _ => eapply r_bind_soft; exact H
      end
  | |- runs (cor ?c ?d) ?i _ _ =>
      let r := open_constr:(_) in let k := open_constr:(_) in
      let H := fresh "H" in
      assert (H : runs c i r k) by (go known);
      lazymatch type of H with
      | runs _ _ (Done _ _) _ => eapply r_or_done; exact H
      | runs _ _ (Soft _) _ => eapply r_or_soft; [exact H|clear H; go known]
      end
  | |- runs (copt ?c) ?i _ _ =>
      let r := open_constr:(_) in let k := open_constr:(_) in
      let H := fresh "H" in
      assert (H : runs c i r k) by (go known);
      lazymatch type of H with
      | runs _ _ (Done _ _) _ => eapply r_opt_done; exact H
      | runs _ _ (Soft _) _ => eapply r_opt_soft; exact H
      end
  | |- runs (cmany0 ?c) ?i _ _ =>
      let r := open_constr:(_) in let k := open_constr:(_) in
      let H := fresh "H" in
      assert (H : runs c i r k) by (go known);
      lazymatch type of H with
      | runs _ _ (Done _ _) _ => eapply r_many_cons; [exact H|cbn [List.length app]; rewrite ?app_length; cbn [List.length]; lia|clear H; go known]
      | runs _ _ (Soft _) _ => eapply r_many_nil; exact H
      end
  | |- runs (fun j => csep_loop_f _ ?s ?c j) _ _ _ => eapply r_sep_nil; go known
  | |- runs (c_in _ _ _) _ _ _ => unfold c_in; eu; go known
  | |- runs (c_ty _) _ _ _ => unfold c_ty; eu; go known
  | |- runs c_slash _ _ _ => unfold c_slash; eu; go known
  | |- runs (c_name_generic _) _ _ _ => unfold c_name_generic; eu; go known
  | |- runs (c_generic_arg _) _ _ _ => unfold c_generic_arg; eu; go known
  | |- runs (c_range_or_control _ _ _) _ _ _ => unfold c_range_or_control; eu; go known
  | |- runs (c_type2 _ _ _) _ _ _ => unfold c_type2; eu; go known
  | |- runs (c_more_choices _) _ _ _ => unfold c_more_choices; eu; go known
  | |- runs (c_arrow_tail _) _ _ _ => unfold c_arrow_tail; eu; go known
  | |- runs (c_memberkey_tail _) _ _ _ => unfold c_memberkey_tail; eu; go known
  | |- runs (c_grpent _ _) _ _ _ => unfold c_grpent; eu; go known
  | |- runs (c_grpent_val _ _) _ _ _ => unfold c_grpent_val; eu; go known
  | |- runs (c_grpchoice _ _) _ _ _ => unfold c_grpchoice; eu; go known
  | |- runs (cmember_plain _ _) _ _ _ => eapply r_plain; go known
  | |- runs (cmember_arrow _ _) _ _ _ => eapply r_arrow_soft; go known
  | |- runs (cmember_colon _ _) _ _ _ => eapply r_colon_soft; go known
  | |- runs (c_grpent_member _) _ _ _ => unfold c_grpent_member; eu; go known
  | |- _ => known
  end.
Section Low.
Variable X : ext.
Lemma low_a m c k : c = 41%N \/ c = 93%N -> runs (ctype1_f X (S m)) (97%N :: c :: k) (Done (T1Simple (T2Typename [97%N] [])) (c :: k)) 7.
Proof.
  intros C. change (ctype1_f X (S m)) with (ctype1_body X (ctype1_f X m) (cgroup_f X m)). unfold ctype1_body. eu.
  destruct C as [-> | ->]; (eapply r_eq; [go fail|reflexivity]).
Qed.
Lemma low_close m c k : c = 41%N \/ c = 93%N -> exists e, runs (ctype1_f X (S m)) (c :: k) (Soft e) 8.
Proof.
  intros C. change (ctype1_f X (S m)) with (ctype1_body X (ctype1_f X m) (cgroup_f X m)). unfold ctype1_body. eu.
  destruct C as [-> | ->]; eexists; (eapply r_eq; [go fail|reflexivity]).
Qed.
Lemma low_array m x k g c : p_ws (x ++ 93%N :: 97%N :: k) = Done [] (x ++ 93%N :: 97%N :: k) ->
  runs (cgroup_f X m) (x ++ 93%N :: 97%N :: k) (Done g (93%N :: 97%N :: k)) c ->
  runs (ctype1_f X (S m)) (91%N :: x ++ 93%N :: 97%N :: k) (Done (T1Simple (T2Array g)) (97%N :: k)) (c + 12).
Proof.
  intros W G. eapply r_eq.
  - change (ctype1_f X (S m)) with (ctype1_body X (ctype1_f X m) (cgroup_f X m)). unfold ctype1_body. eu. go ltac:(exact G).
  - lia.
Qed.
(** The first attempt at a parenthesis: a type. *)
Lemma low_try m x k g c : p_ws (x ++ 93%N :: 97%N :: k) = Done [] (x ++ 93%N :: 97%N :: k) ->
  runs (cgroup_f X m) (x ++ 93%N :: 97%N :: k) (Done g (93%N :: 97%N :: k)) c ->
  exists e, runs (ctype1_f X (S (S m))) (40%N :: 91%N :: x ++ 93%N :: 97%N :: k) (Soft e) (c + 25).
Proof.
  intros W G. pose proof (low_array m x k g c W G) as A. eexists. eapply r_eq.
  - change (ctype1_f X (S (S m))) with (ctype1_body X (ctype1_f X (S m)) (cgroup_f X (S m))). unfold ctype1_body. eu. go ltac:(exact A).
  - lia.
Qed.
(** The second one: a group. *)
Lemma low_inner m x k g c : p_ws (x ++ 93%N :: 97%N :: 41%N :: k) = Done [] (x ++ 93%N :: 97%N :: 41%N :: k) ->
  runs (cgroup_f X m) (x ++ 93%N :: 97%N :: 41%N :: k) (Done g (93%N :: 97%N :: 41%N :: k)) c ->
  exists g', runs (cgroup_f X (S (S m))) (91%N :: x ++ 93%N :: 97%N :: 41%N :: k) (Done g' (41%N :: k)) (c + 47).
Proof.
  intros W G. pose proof (low_array m x _ g c W G) as A. pose proof (low_a m 41%N k (or_introl eq_refl)) as B.
  destruct (low_close m 41%N k (or_introl eq_refl)) as [e C]. eexists. eapply r_eq.
  - change (cgroup_f X (S (S m))) with (cgroup_body (ctype1_f X (S m)) (cgroup_f X (S m))). unfold cgroup_body. eu.
    go ltac:(first [exact A|exact B|exact C]).
  - lia.
Qed.
Lemma low_outer m x k g c : p_ws (x ++ 93%N :: 97%N :: 41%N :: 93%N :: k) = Done [] (x ++ 93%N :: 97%N :: 41%N :: 93%N :: k) ->
  runs (cgroup_f X m) (x ++ 93%N :: 97%N :: 41%N :: 93%N :: k) (Done g (93%N :: 97%N :: 41%N :: 93%N :: k)) c ->
  exists g', runs (cgroup_f X (S (S (S m)))) (40%N :: 91%N :: x ++ 93%N :: 97%N :: 41%N :: 93%N :: k) (Done g' (93%N :: k)) (2 * c + 92).
Proof.
  intros W G. destruct (low_try m x _ g c W G) as [e A]. destruct (low_inner m x _ g c W G) as [g' B].
  destruct (low_close (S m) 93%N k (or_intror eq_refl)) as [e' C]. eexists. eapply r_eq.
  - change (cgroup_f X (S (S (S m)))) with (cgroup_body (ctype1_f X (S (S m))) (cgroup_f X (S (S m)))). unfold cgroup_body. eu.
    go ltac:(first [exact A|exact B|exact C]).
  - lia.
Qed.
Lemma entry_ws n k : p_ws (entry n ++ k) = Done [] (entry n ++ k).
Proof. destruct n; [change (entry 0 ++ k) with (97%N :: k)|change (entry (S n) ++ k) with (40%N :: (91%N :: entry n ++ txt "]a)") ++ k)]; apply ws_black; split; (reflexivity || discriminate). Qed.
Lemma low_group n : forall j k, exists g, runs (cgroup_f X (3 * n + 2 + j)) (entry n ++ 93%N :: k) (Done g (93%N :: k)) (120 * 2 ^ n - 92).
Proof.
  induction n as [|n IH]; intros j k.
  - cbn [Nat.mul Nat.add]. change (entry 0 ++ 93%N :: k) with (97%N :: 93%N :: k).
    pose proof (low_a j 93%N k (or_intror eq_refl)) as B. destruct (low_close j 93%N k (or_intror eq_refl)) as [e C]. eexists. eapply r_eq.
    + change (cgroup_f X (S (S j))) with (cgroup_body (ctype1_f X (S j)) (cgroup_f X (S j))). unfold cgroup_body. eu.
      go ltac:(first [exact B|exact C]).
    + cbn. lia.
  - destruct (IH j (97%N :: 41%N :: 93%N :: k)) as [g G].
    destruct (low_outer _ (entry n) k g _ (entry_ws _ _) G) as [g' R]. exists g'.
    replace (3 * S n + 2 + j) with (S (S (S (3 * n + 2 + j)))) by lia.
    replace (entry (S n) ++ 93%N :: k) with (40%N :: 91%N :: entry n ++ 93%N :: 97%N :: 41%N :: 93%N :: k).
    + eapply r_eq; [exact R|]. cbn [Nat.pow]. assert (1 <= 2 ^ n) by (clear; induction n; cbn; lia). lia.
    + cbn [entry]. rewrite <- !app_assoc. reflexivity.
Qed.
Lemma entry_length n : List.length (entry n) = 5 * n + 1.
Proof. induction n as [|n IH]; [reflexivity|]. cbn [entry]. rewrite !app_length, IH. cbn. lia. Qed.
Lemma doubling_length n : List.length (doubling n) = 5 * n + 5.
Proof. unfold doubling. rewrite !app_length, entry_length. cbn. lia. Qed.
Lemma low_type1 n : exists g, runs (cparse_type1 X) (91%N :: entry n ++ [93%N]) (Done (T1Simple (T2Array g)) []) (120 * 2 ^ n - 80).
Proof.
  assert (E : enough (91%N :: entry n ++ [93%N]) = S (3 * n + 2 + (7 * n + 5))).
  { unfold enough. cbn [List.length]. rewrite app_length, entry_length. cbn. lia. }
  destruct (low_group n (7 * n + 5) []) as [g G]. exists g. unfold runs, cparse_type1. rewrite E.
  set (m := 3 * n + 2 + (7 * n + 5)) in *.
  enough (R : runs (ctype1_f X (S m)) (91%N :: entry n ++ [93%N]) (Done (T1Simple (T2Array g)) []) (120 * 2 ^ n - 80)) by exact R.
  pose proof (entry_ws n [93%N]) as W. eapply r_eq.
  - change (ctype1_f X (S m)) with (ctype1_body X (ctype1_f X m) (cgroup_f X m)). unfold ctype1_body. eu. go ltac:(exact G).
  - assert (1 <= 2 ^ n) by (clear; induction n; cbn; lia). lia.
Qed.
Lemma ident_x i : p_ident (120%N :: 61%N :: i) = Done [120%N] (61%N :: i).
Proof.
  unfold p_ident, recognize, preceded, bindp, p_ealpha, take_while1; cbn [span]; cbn -[many0 List.length consumed].
  unfold many0; cbn [List.length many0_f]; cbn -[consumed List.length]; unfold consumed; cbn [List.length].
  replace (S (S (List.length i)) - S (List.length i)) with 1 by lia. reflexivity.
Qed.
Lemma low_cddl n : exists g, runs (ccddl X) (doubling n) (Done [Rule [120%N] [] (AssignType [T1Simple (T2Array g)])] []) (120 * 2 ^ n - 70).
Proof.
  destruct (low_type1 n) as [g G]. exists g.
  assert (D : doubling n = 120%N :: 61%N :: 91%N :: entry n ++ [93%N]) by reflexivity. rewrite D.
  pose proof (ident_x (91%N :: entry n ++ [93%N])) as I.
  unfold ccddl, call_consuming, c_cddl, c_rule, c_rule_val, c_generic_parm. eu. eapply r_eq.
  - eapply r_bind_done; [go ltac:(exact G)|]. reflexivity.
  - assert (1 <= 2 ^ n) by (clear; induction n; cbn; lia). lia.
Qed.

(** x=a, x=a/a, x=a/a/a, ... *)
Fixpoint slashes (n : nat) : text :=
  match n with
  | O => []
  | S m => txt "/a" ++ slashes m
  end.
Lemma ident_slash r : p_ident (97%N :: 47%N :: r) = Done [97%N] (47%N :: r).
Proof.
  unfold p_ident, recognize, preceded, bindp, p_ealpha, take_while1; cbn [span]; cbn -[many0 List.length consumed].
  unfold many0; cbn [List.length many0_f]; cbn -[consumed List.length]; unfold consumed; cbn [List.length].
  replace (S (S (List.length r)) - S (List.length r)) with 1 by lia. reflexivity.
Qed.
Lemma low_name m n : runs (ctype1_f X (S m)) (97%N :: slashes n) (Done (T1Simple (T2Typename [97%N] [])) (slashes n)) 7.
Proof.
  change (ctype1_f X (S m)) with (ctype1_body X (ctype1_f X m) (cgroup_f X m)). unfold ctype1_body. eu. destruct n as [|n].
  - eapply r_eq; [go fail|reflexivity].
  - change (slashes (S n)) with (47%N :: 97%N :: slashes n). pose proof (ident_slash (97%N :: slashes n)) as I. eapply r_eq; [go fail|reflexivity].
Qed.
Lemma low_name' n : runs (cparse_type1 X) (97%N :: slashes n) (Done (T1Simple (T2Typename [97%N] [])) (slashes n)) 7.
Proof. unfold runs, cparse_type1. unfold enough. cbn [List.length Nat.mul Nat.add]. apply low_name. Qed.
Lemma low_slash r : runs c_slash (47%N :: 97%N :: r) (Done (txt "/") (97%N :: r)) 3.
Proof. eapply r_eq; [go fail|reflexivity]. Qed.
Lemma low_slashes n : runs (fun i => csep_loop_f (S (List.length i)) c_slash (cparse_type1 X) i) (slashes n)
  (Done (repeat (T1Simple (T2Typename [97%N] [])) n) []) (10 * n + 2).
Proof.
  induction n as [|n IH].
  - eapply r_eq; [go fail|reflexivity].
  - change (slashes (S n)) with (47%N :: 97%N :: slashes n). cbn [repeat]. eapply r_eq.
    + eapply r_sep_cons; [apply low_slash| |apply low_name'| |exact IH]; cbn; lia.
    + lia.
Qed.
Lemma low_rule u l k : runs (c_ty (cparse_type1 X)) (97%N :: u) (Done l []) k ->
  runs (ccddl X) (120%N :: 61%N :: 97%N :: u) (Done [Rule [120%N] [] (AssignType l)] []) (k + 8).
Proof.
  intros T. pose proof (ident_x (97%N :: u)) as I. unfold ccddl, call_consuming, c_cddl, c_rule, c_rule_val, c_generic_parm.
  set (ty := c_ty (cparse_type1 X)) in *. clearbody ty. eu. eapply r_eq.
  - eapply r_bind_done; [go ltac:(exact T)|]. reflexivity.
  - lia.
Qed.
Lemma low_choices n : runs (ccddl X) (txt "x=a" ++ slashes n) (Done [Rule [120%N] [] (AssignType (repeat (T1Simple (T2Typename [97%N] [])) (S n)))] []) (10 * n + 17).
Proof.
  change (txt "x=a" ++ slashes n) with (120%N :: 61%N :: 97%N :: slashes n). eapply r_eq.
  - apply low_rule. unfold c_ty. eu. eapply r_bind_done; [apply low_name'|eapply r_bind_done; [apply low_slashes|apply r_ret]].
  - lia.
Qed.
End Low.
