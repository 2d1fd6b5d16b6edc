(** The work of the parser: C79. *)
From Coq Require Import List Bool Arith NArith String Lia.
From Verif Require Import Base Util Data Ivt Ast Nom Parser ParseCost ParseCostProofs ParseCostLow ParseDepth Demo.
Import ListNotations.
Open Scope list_scope.

(** ** C79.  [parse_steps] counts the calls of basic parsers (white space, names,
    literals, occurrence indicators, fixed strings) while [parse_cddl] reads a schema.
    The counted parser returns what the parser returns. *)
Theorem C79_counted : forall X i, cparse_cddl X i = parse_cddl X i.
Proof. exact counted_parser. Qed.
(** While types and groups are not nested deeper than [d], the number of steps is at
    most a polynomial in the length of the text.  [limited X d] is the parser with at
    most [d] calls of [type1] and [group] inside each other; it answers [NoFuel] only
    if these are not enough. *)
Theorem C79_depth : forall X d i,
  limited X d i <> NoFuel -> parse_steps X i <= (150 * S (List.length i) ^ 3) ^ S d.
Proof. exact steps_limited. Qed.
(** The nesting is at most the number of opening brackets in the text. *)
Theorem C79_nesting : forall X d i,
  2 * List.length (filter (fun c => existsb (N.eqb c) (txt "([{<")) i) + 1 <= d -> limited X d i <> NoFuel.
Proof.
  intros X d i H. apply limit_brackets. etransitivity; [|exact H]. apply Nat.eq_le_incl. f_equal. f_equal. unfold opens. f_equal.
  apply filter_ext. intros c. unfold is_open. cbn. destruct (N.eqb c 40), (N.eqb c 91), (N.eqb c 123), (N.eqb c 60); reflexivity.
Qed.
(** For every text, without any premise. *)
Theorem C79_brackets : forall X i,
  parse_steps X i <= (150 * S (List.length i) ^ 3) ^ (2 * List.length (filter (fun c => existsb (N.eqb c) (txt "([{<")) i) + 2).
Proof.
  intros X i. replace (_ + 2) with (S (2 * List.length (filter (fun c => existsb (N.eqb c) (txt "([{<")) i) + 1)) by lia.
  apply C79_depth, C79_nesting. lia.
Qed.
(** In the nesting the growth is exponential: a parenthesis inside a group is first
    read as a type and then again as a group.  The schemas x=[a], x=[([a]a)],
    x=[([([a]a)]a)], ... have five more characters each and are well-formed, and
    this is the exact number of steps. *)
Fixpoint brackets (n : nat) : string :=
  match n with
  | O => "a"
  | S m => "([" ++ brackets m ++ "]a)"
  end.
Lemma txt_app a b : txt (a ++ b) = txt a ++ txt b. Proof. induction a as [|c a IH]; cbn; [reflexivity|]. f_equal. exact IH. Qed.
Lemma brackets_entry n : txt (brackets n) = entry n.
Proof. induction n as [|n IH]; [reflexivity|]. cbn [brackets entry]. now rewrite !txt_app, IH. Qed.
Lemma brackets_doubling n : txt ("x=[" ++ brackets n ++ "]") = doubling n.
Proof. unfold doubling. now rewrite !txt_app, brackets_entry. Qed.
Theorem C79_doubling : forall X n,
  String.length ("x=[" ++ brackets n ++ "]") = 5 * n + 5 /\
  (exists c, parse_cddl X (txt ("x=[" ++ brackets n ++ "]")) = Some (inl c)) /\
  parse_steps X (txt ("x=[" ++ brackets n ++ "]")) = 120 * 2 ^ n - 70.
Proof.
  intros X n. rewrite brackets_doubling. destruct (low_cddl X n) as [g R]. unfold runs in R. split; [|split; [|unfold parse_steps; now rewrite R]].
  - rewrite <- (doubling_length n), <- brackets_doubling. generalize (("x=[" ++ brackets n ++ "]")%string). intros s.
    induction s as [|c s IH]; [reflexivity|]. cbn. f_equal. exact IH.
  - eexists. rewrite <- counted_parser. unfold cparse_cddl. rewrite R. reflexivity.
Qed.
(** So no polynomial in the length bounds the work on all schemas. *)
Lemma two_ge m : S m <= 2 ^ m. Proof. induction m as [|m IH]; cbn; lia. Qed.
Lemma exceeds a b : exists j, a * j + b < 2 ^ j.
Proof.
  exists (2 * (2 * a + b)). set (m := 2 * a + b). replace (2 ^ (2 * m)) with (2 ^ m * 2 ^ m) by (rewrite <- Nat.pow_add_r; f_equal; lia).
  pose proof (two_ge m). assert (S m * S m <= 2 ^ m * 2 ^ m) by (apply Nat.mul_le_mono; auto). enough (a * (2 * m) + b < S m * S m) by lia. subst m. nia.
Qed.
Theorem C79_no_polynomial : forall X c k, exists i,
  (exists r, parse_cddl X i = Some (inl r)) /\ c * List.length i ^ k < parse_steps X i.
Proof.
  intros X c k. destruct (exceeds k (4 * k + c)) as [j J]. set (n := 2 ^ j) in *. exists (doubling n).
  destruct (C79_doubling X n) as (_ & P & S). rewrite brackets_doubling in P, S. split; [exact P|]. rewrite doubling_length.
  assert (S' : 2 ^ n <= parse_steps X (doubling n)) by (pose proof (two_ge n); lia).
  eapply Nat.lt_le_trans; [|exact S']. assert (1 <= n) by (subst n; pose proof (two_ge j); lia).
  assert (A : (5 * n + 5) ^ k <= 2 ^ ((j + 4) * k)).
  { rewrite Nat.pow_mul_r. apply Nat.pow_le_mono_l. rewrite Nat.pow_add_r. fold n. cbn. lia. }
  assert (B : c < 2 ^ c) by (pose proof (two_ge c); lia).
  assert (C : 2 ^ ((j + 4) * k) * 2 ^ c <= 2 ^ n). { rewrite <- Nat.pow_add_r. apply Nat.pow_le_mono_r; lia. }
  eapply Nat.lt_le_trans; [|exact C]. assert (0 < 2 ^ ((j + 4) * k)) by (pose proof (two_ge ((j + 4) * k)); lia). nia.
Qed.
(** A choice of names costs ten steps for each alternative, however many there are. *)
Theorem C79_alternatives : forall X n,
  parse_cddl X (txt "x=a" ++ List.concat (repeat (txt "/a") n)) =
    Some (inl [Rule (txt "x") [] (AssignType (repeat (T1Simple (T2Typename (txt "a") [])) (S n)))]) /\
  parse_steps X (txt "x=a" ++ List.concat (repeat (txt "/a") n)) = 10 * n + 17.
Proof.
  intros X n. assert (E : List.concat (repeat (txt "/a") n) = slashes n) by (clear; induction n as [|n IH]; cbn [repeat List.concat slashes]; [reflexivity|now rewrite IH]). rewrite E. clear E.
  pose proof (low_choices X n) as R. unfold runs in R. rewrite <- counted_parser. unfold cparse_cddl, parse_steps. rewrite R. split; reflexivity.
Qed.

(** A depth that suffices and one that does not, and the numbers of steps of the first schemas of the family. *)
Example C79_example :
  limited demo_ext 5 (txt "x = { ? a: [* int], b => tstr / bytes }") <> NoFuel /\
  limited demo_ext 4 (txt "x = { ? a: [* int], b => tstr / bytes }") = NoFuel /\
  parse_steps demo_ext (txt "x = { ? a: [* int], b => tstr / bytes }") = 123 /\
  map (fun n => parse_steps demo_ext (txt ("x=[" ++ brackets n ++ "]"))) [0; 1; 2; 3; 4; 5] = [50; 170; 410; 890; 1850; 3770].
Proof. vm_compute. split; [discriminate|]. repeat split. Qed.

Print Assumptions C79_counted.
Print Assumptions C79_depth.
Print Assumptions C79_nesting.
Print Assumptions C79_brackets.
Print Assumptions C79_doubling.
Print Assumptions C79_alternatives.
Print Assumptions C79_no_polynomial.
