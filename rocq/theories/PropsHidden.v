(** Which malformed literals are reported as such: C80. *)
From Coq Require Import List Bool Arith ZArith NArith String Lia.
From Verif Require Import Base Util Data Ivt Ast Nom Parser SpecSyntax TokenProofs LiteralProofs PrintProofs ParserSoft SpecErrors ErrProofs PropsParser PropsPrint PropsErrors HiddenProofs.
Import ListNotations.
Open Scope list_scope.

Section Props.
Variable X : ext.

(** * C80: a number that does not fit, in a map or in an array. *)

(** The text between the key and the value of a member, or between the first two
    alternatives of a member without key. *)
Inductive introduces : text -> Prop :=
| in_colon : introduces (txt ": ")
| in_arrow : introduces (txt " => ")
| in_cut : introduces (txt " ^ => ")
| in_slash : introduces (txt " / ").
Inductive brackets : text -> text -> Prop :=
| br_map : brackets (txt "{") (txt "}")
| br_array : brackets (txt "[") (txt "]").

(** The number begins an entry: the error is about the number and shows its digits. *)
Theorem C80_reported n o cl c v : is_ident n -> brackets o cl -> uint_lit c v -> (2 ^ 64 <= v)%N ->
  exists d b, spells b d v /\ parse_cddl X (n ++ txt " = " ++ o ++ c ++ cl) = Some (inr (PErr MalformedInteger d)).
Proof.
  intros I B U L. assert (St : num_stop cl) by (destruct B; split; intros c' j E; inversion E; subst; chars).
  destruct (too_large X c v cl U L St) as (d & b & S & _ & E & H). exists d, b. split; auto.
  destruct B; [apply (shown_rule X n 0x7b 0x7d)|apply (shown_rule X n 0x5b 0x5d)]; auto; [left|right]; auto.
Qed.

(** The number comes after a key, or after another alternative: the whole rule is
    called unparseable, and neither the kind nor the context names the number. *)
Theorem C80_hidden n k sep o cl c v : is_ident n -> is_ident k -> introduces sep -> brackets o cl -> uint_lit c v -> (2 ^ 64 <= v)%N ->
  exists ctx, parse_cddl X (n ++ txt " = " ++ o ++ k ++ sep ++ c ++ cl) = Some (inr (PErr Unparseable ctx)).
Proof.
  intros I Ik Hs B U L. assert (St : num_stop cl) by (destruct B; split; intros c' j E; inversion E; subst; chars).
  destruct (too_large X c v cl U L St) as (d & b & S & E & _ & H).
  assert (Bd : bad X (c ++ cl)).
  { split; [|eauto]. destruct (c ++ cl); cbn in *; auto. chars. }
  assert (Ls : leads sep) by (destruct Hs; cbn; auto).
  assert (Q : exists e, p_rule (parse_type1 X) (parse_group X) (n ++ txt " = " ++ o ++ k ++ sep ++ c ++ cl) = Soft e /\
                        parse_cddl X (n ++ txt " = " ++ o ++ k ++ sep ++ c ++ cl) = Some (inr e)).
  { destruct B; [apply (hidden_rule X n 0x7b 0x7d k sep (c ++ txt "}"))|apply (hidden_rule X n 0x5b 0x5d k sep (c ++ txt "]"))]; auto; [left|right]; auto. }
  destruct Q as (e & Es & Ep). apply (proj2 (fair_parse_rule X)) in Es. destruct Es as [K _]. exists (pe_ctx e). rewrite Ep.
  destruct e as [kd cx]. cbn in *. subst. reflexivity.
Qed.

(** The same for literals of every kind that have no value (numbers, text, byte
    strings in each notation): [unreadable] is [malformed] of SpecErrors.v, with
    decimal digits where there is a fraction or an exponent.  The literal comes
    after a key or after another alternative... *)
Theorem C80_hidden_literal n k sep o cl s e : is_ident n -> is_ident k -> introduces sep -> brackets o cl -> unreadable X s e ->
  exists ctx, parse_cddl X (n ++ txt " = " ++ o ++ k ++ sep ++ s ++ cl) = Some (inr (PErr Unparseable ctx)).
Proof.
  intros I Ik Hs B U. assert (St : num_stop cl) by (destruct B; split; intros c' j E; inversion E; subst; chars).
  pose proof (type1_value X _ _ (unreadable_value X s e cl U St)) as E. apply unreadable_head in U.
  assert (Bd : bad X (s ++ cl)).
  { split; [|eauto]. destruct s as [|c s]; [destruct U|]. cbn in *. chars. }
  assert (Ls : leads sep) by (destruct Hs; cbn; auto).
  assert (Q : exists e, p_rule (parse_type1 X) (parse_group X) (n ++ txt " = " ++ o ++ k ++ sep ++ s ++ cl) = Soft e /\
                        parse_cddl X (n ++ txt " = " ++ o ++ k ++ sep ++ s ++ cl) = Some (inr e)).
  { destruct B; [apply (hidden_rule X n 0x7b 0x7d k sep (s ++ txt "}"))|apply (hidden_rule X n 0x5b 0x5d k sep (s ++ txt "]"))]; auto; [left|right]; auto. }
  destruct Q as (e' & Es & Ep). apply (proj2 (fair_parse_rule X)) in Es. destruct Es as [K _]. exists (pe_ctx e'). rewrite Ep.
  destruct e' as [kd cx]. cbn in *. subst. reflexivity.
Qed.
(** ... or it begins an entry, and does not begin with a digit. *)
Theorem C80_reported_literal n o cl s e : is_ident n -> brackets o cl -> unreadable X s e -> ~ is_head DIGIT s ->
  parse_cddl X (n ++ txt " = " ++ o ++ s ++ cl) = Some (inr e).
Proof.
  intros I B U D. assert (St : num_stop cl) by (destruct B; split; intros c' j E; inversion E; subst; chars).
  pose proof (type1_value X _ _ (unreadable_value X s e cl U St)) as E. apply unreadable_head in U. destruct s as [|c s]; [destruct U|].
  destruct B; [apply (shown_literal X n 0x7b 0x7d)|apply (shown_literal X n 0x5b 0x5d)]; auto; try (left; split; reflexivity); try (right; split; reflexivity); cbn in *; chars.
Qed.
End Props.

(** The same number in the five places. *)
Example ex_C80 :
  err "a = [99999999999999999999]" = Some (PErr MalformedInteger (txt "99999999999999999999")) /\
  err "a = {b: 99999999999999999999}" = Some (PErr Unparseable (txt "{b: 99999999999999999999}")) /\
  err "a = {b => 99999999999999999999}" = Some (PErr Unparseable (txt "{b => 99999999999999999999}")) /\
  err "a = {b ^ => 99999999999999999999}" = Some (PErr Unparseable (txt "{b ^ => 99999999999999999999}")) /\
  err "a = [b / 99999999999999999999]" = Some (PErr Unparseable (txt "[b / 99999999999999999999]")).
Proof. vm_compute. repeat split. Qed.
(** The theorems apply to such a text. *)
Lemma times16 s n : spells 16 s n -> spells 16 (s ++ [0x30%N]) (n * 16).
Proof. intros H. rewrite <- (N.add_0_r (n * 16)). apply sp_more; [auto|apply (di_dec 0x30); unfold DIGIT, between; lia|lia]. Qed.
Lemma two64 : uint_lit (txt "0x10000000000000000") (2 ^ 64).
Proof.
  assert (H : spells 16 [0x31%N] 1) by (apply sp_one; [apply (di_dec 0x31); unfold DIGIT, between; lia|lia]).
  do 16 apply times16 in H. apply (ul_hex _ _ H).
Qed.
Example ex_C80_hidden : exists ctx, parse_cddl ascii_ext (txt "a = {a => 0x10000000000000000}") = Some (inr (PErr Unparseable ctx)).
Proof.
  exact (C80_hidden ascii_ext (txt "a") (txt "a") _ _ _ _ _ ident_a ident_a in_arrow br_map two64 (N.le_refl _)).
Qed.

Lemma odd_hex : unreadable ascii_ext (txt "h'0'") (PErr MalformedHex (txt "0")).
Proof.
  apply un_literal; [|discriminate]. apply (mf_hex ascii_ext (txt "0") (txt "0")).
  - change (txt "0") with [0x30%N]. apply co_char; [unfold BCHAR, between; lia|apply co_nil].
  - apply without_spaces_iff. reflexivity.
  - intros b H. inversion H.
Qed.
Example ex_C80_literal :
  parse_cddl ascii_ext (txt "a = [h'0']") = Some (inr (PErr MalformedHex (txt "0"))) /\
  exists ctx, parse_cddl ascii_ext (txt "a = {a: h'0'}") = Some (inr (PErr Unparseable ctx)).
Proof.
  split.
  - refine (C80_reported_literal ascii_ext (txt "a") _ _ _ _ ident_a br_array odd_hex _). cbn. chars.
  - exact (C80_hidden_literal ascii_ext (txt "a") (txt "a") _ _ _ _ _ ident_a ident_a in_colon br_map odd_hex).
Qed.

Print Assumptions C80_reported.
Print Assumptions C80_hidden_literal.
Print Assumptions C80_reported_literal.
Print Assumptions C80_hidden.
