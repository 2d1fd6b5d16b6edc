(** Properties of the parser: C39 (parsing half), C42-C47, C50. *)
From Coq Require Import List Bool Arith ZArith NArith String Lia.
From Verif Require Import Base Util Data Ivt Ast Nom NomProofs Parser ParserFuel NomDone SpecSyntax ValueOrder TokenProofs LiteralProofs ParserSound ParserApi ParserSoft SpecLayout LayoutProofs Demo.
Import ListNotations.
Open Scope list_scope.

(** A schema of one rule [name = value]. *)
Definition value_rule (n : text) (v : ast_value) : cddl := [Rule n [] (AssignType [T1Simple (T2Value v)])].

Section Props.
Variable X : ext.

(** * C42: the parser always answers. *)
Theorem C42_parse_total i : exists r, parse_cddl X i = Some r.
Proof. pose proof (parse_total X i). destruct (parse_cddl X i); [eauto|congruence]. Qed.
Theorem C42_slice_parse_total i : exists r, slice_parse_cddl X i = Some r.
Proof. pose proof (slice_parse_total X i). destruct (slice_parse_cddl X i); [eauto|congruence]. Qed.

(** * C39: the text-preserving parser agrees with the plain one. *)
Theorem C39_same_rules i l : slice_parse_cddl X i = Some (inl l) -> parse_cddl X i = Some (inl (map fst l)).
Proof.
  unfold slice_parse_cddl, parse_cddl. rewrite <- slice_refines. destruct (all_consuming _ i); cbn; intros H; inversion H; reflexivity.
Qed.
Theorem C39_same_success i c : parse_cddl X i = Some (inl c) -> exists l, slice_parse_cddl X i = Some (inl l) /\ map fst l = c.
Proof.
  unfold slice_parse_cddl, parse_cddl. rewrite <- slice_refines. destruct (all_consuming _ i); cbn; intros H; inversion H; eauto.
Qed.
Theorem C39_same_errors i e : slice_parse_cddl X i = Some (inr e) <-> parse_cddl X i = Some (inr e).
Proof.
  unfold slice_parse_cddl, parse_cddl. rewrite <- slice_refines. destruct (all_consuming _ i); cbn; split; intros H; inversion H; reflexivity.
Qed.

(** * C39 and C43: the texts of the rules, in order, and the whitespace between
    them are the whole input; each text derives its rule. *)
Theorem C43_input_covered i l : slice_parse_cddl X i = Some (inl l) -> l <> [] /\ exists j, d_ws i j /\ covers X j l.
Proof. apply slice_covers. Qed.
Theorem C43_parse_covered i c : parse_cddl X i = Some (inl c) ->
  c <> [] /\ exists l j, map fst l = c /\ d_ws i j /\ covers X j l.
Proof.
  intros H. apply C39_same_success in H. destruct H as (l & H & <-). apply slice_covers in H. destruct H as (N & j & W & C).
  split; eauto. destruct l; [congruence|discriminate].
Qed.

(** * C50: soundness for the grammar. *)
Theorem C50_parse_sound i c : parse_cddl X i = Some (inl c) -> d_cddl X i c.
Proof.
  intros H. apply C43_parse_covered in H. destruct H as (N & l & j & <- & W & C). split; auto. exists j. split; auto.
  clear - C. induction C as [|i x s j r l Tk D W C IH]; cbn; [constructor|]. econstructor; eauto.
Qed.

(** * C44: integer literals. *)
Lemma digit_head c s b : raw_uint c s b -> exists x l, c = x :: l /\ ~ SPACE x /\ x <> 0x3b%N.
Proof.
  intros R. destruct (raw_uint_cons _ _ _ R) as (x & l & ->). pose proof (raw_uint_head _ _ _ _ _ R eq_refl) as D. exists x, l.
  unfold DIGIT, between, SPACE in *. split; auto. lia.
Qed.
Lemma int_rule (neg : bool) n c s b : is_ident n -> raw_uint c s b ->
  parse_cddl X (n ++ txt " = " ++ (if neg then txt "-" else []) ++ c) =
  Some (match parse_int s b neg with inl v => inl (value_rule n v) | inr e => inr e end).
Proof.
  intros I R. pose proof (int_value_run X neg _ _ _ [] R num_stop_nil) as E. rewrite app_nil_r in E.
  destruct (digit_head _ _ _ R) as (x & l & -> & Sx & Nx).
  assert (Q : exists y m, (if neg then txt "-" else []) ++ x :: l = y :: m /\ ~ SPACE y /\ y <> 0x3b%N).
  { destruct neg; [exists 0x2d%N, (x :: l)|exists x, l]; split; auto; unfold SPACE; split; lia. }
  destruct Q as (y & m & Ey & Sy & Ny). rewrite Ey in *. pose proof (assign_value X n y m I Sy Ny) as A.
  unfold p_value, orp in A. rewrite E in A. destruct (parse_int s b neg); auto.
Qed.

(** A literal below 2^64 denotes its value ... *)
Theorem C44_uint n c v : is_ident n -> uint_lit c v -> (v < 2 ^ 64)%N ->
  parse_cddl X (n ++ txt " = " ++ c) = Some (inl (value_rule n (AUint v))).
Proof.
  intros I U L. apply uint_lit_iff in U. destruct U as (s & b & R & S). pose proof (int_rule false n c s b I R) as H. cbn [app] in H.
  pose proof (raw_uint_total _ _ _ R) as (v' & _ & S' & B & _). rewrite H. unfold parse_int. rewrite (from_str_radix_iff _ _ _ B S).
  apply N.ltb_lt in L. rewrite L. reflexivity.
Qed.
(** ... a negated one with magnitude below 2^63 its negation ... *)
Theorem C44_nint n c v : is_ident n -> uint_lit c v -> (v < 2 ^ 63)%N ->
  parse_cddl X (n ++ txt " = -" ++ c) = Some (inl (value_rule n (ANint (- Z.of_N v)))).
Proof.
  intros I U L. apply uint_lit_iff in U. destruct U as (s & b & R & S). pose proof (int_rule true n c s b I R) as H.
  pose proof (raw_uint_total _ _ _ R) as (v' & _ & S' & B & _).
  change (txt " = -" ++ c) with (txt " = " ++ txt "-" ++ c). rewrite H. unfold parse_int. rewrite (from_str_radix_iff _ _ _ B S).
  assert (N.ltb v (2 ^ 64) = true) as -> by (apply N.ltb_lt; lia). apply N.ltb_lt in L. rewrite L. reflexivity.
Qed.
(** ... and all others are malformed; the error names the digits. *)
Theorem C44_uint_too_large n c v : is_ident n -> uint_lit c v -> (2 ^ 64 <= v)%N ->
  exists s b, spells b s v /\ parse_cddl X (n ++ txt " = " ++ c) = Some (inr (PErr MalformedInteger s)).
Proof.
  intros I U L. apply uint_lit_iff in U. destruct U as (s & b & R & S). pose proof (int_rule false n c s b I R) as H. cbn [app] in H.
  pose proof (raw_uint_total _ _ _ R) as (v' & _ & S' & B & _). exists s, b. split; auto. rewrite H. unfold parse_int.
  rewrite (from_str_radix_iff _ _ _ B S). apply N.ltb_ge in L. rewrite L. reflexivity.
Qed.
Theorem C44_nint_too_large n c v : is_ident n -> uint_lit c v -> (2 ^ 63 <= v)%N ->
  exists s b, spells b s v /\ parse_cddl X (n ++ txt " = -" ++ c) = Some (inr (PErr MalformedInteger s)).
Proof.
  intros I U L. apply uint_lit_iff in U. destruct U as (s & b & R & S). pose proof (int_rule true n c s b I R) as H.
  pose proof (raw_uint_total _ _ _ R) as (v' & _ & S' & B & _). exists s, b. split; auto.
  change (txt " = -" ++ c) with (txt " = " ++ txt "-" ++ c). rewrite H. unfold parse_int. rewrite (from_str_radix_iff _ _ _ B S).
  destruct (N.ltb v (2 ^ 64)); auto. apply N.ltb_ge in L. rewrite L. reflexivity.
Qed.

(** * C45: string literals. *)
Lemma quoted_rule n q s (R : pres ast_value) : is_ident n -> ~ SPACE q -> q <> 0x3b%N -> p_value X (q :: s) = R ->
  match R with
  | Done v r => r = [] -> parse_cddl X (n ++ txt " = " ++ q :: s) = Some (inl (value_rule n v))
  | Hard e => parse_cddl X (n ++ txt " = " ++ q :: s) = Some (inr e)
  | _ => True
  end.
Proof. intros I S N <-. apply assign_value; auto. Qed.

(** Text: the unescaped content, or a malformed text if the unescaping (crate
    escape8259) fails. *)
Theorem C45_text n s : is_ident n -> content SCHAR s ->
  parse_cddl X (n ++ txt " = """ ++ s ++ txt """") =
  Some (match unescape X s with Some t => inl (value_rule n (AText t)) | None => inr (PErr MalformedText s) end).
Proof.
  intros I C. pose proof (text_run X s [] C) as E. rewrite app_nil_r in E.
  change (txt " = """ ++ s ++ txt """") with (txt " = " ++ 0x22%N :: s ++ txt """").
  pose proof (quoted_rule n 0x22 (s ++ txt """") _ I ltac:(unfold SPACE; lia) ltac:(lia) E) as Q.
  destruct (unescape X s); auto.
Qed.
(** Without escapes the text is the enclosed characters, provided that the
    unescaping leaves texts without backslashes alone. *)
Theorem C45_text_plain n s : (forall t, Forall (fun c => c <> 0x5c%N) t -> unescape X t = Some t) ->
  is_ident n -> Forall SCHAR s -> parse_cddl X (n ++ txt " = """ ++ s ++ txt """") = Some (inl (value_rule n (AText s))).
Proof.
  intros U I F. rewrite C45_text; [|auto|apply content_run; auto]. rewrite U; auto.
  eapply Forall_impl; [|exact F]. unfold SCHAR, between. intros c H. lia.
Qed.
(** Byte strings in quotes are the UTF-8 encoding of the content. *)
Theorem C45_bytes n s : is_ident n -> content BCHAR s ->
  parse_cddl X (n ++ txt " = '" ++ s ++ txt "'") =
  Some (match unescape X s with Some t => inl (value_rule n (ABytes (utf8_encode t))) | None => inr (PErr MalformedText s) end).
Proof.
  intros I C. pose proof (bytes_run X s [] C) as E. rewrite app_nil_r in E.
  change (txt " = '" ++ s ++ txt "'") with (txt " = " ++ 0x27%N :: s ++ txt "'").
  pose proof (quoted_rule n 0x27 (s ++ txt "'") _ I ltac:(unfold SPACE; lia) ltac:(lia) E) as Q.
  destruct (unescape X s); auto.
Qed.
(** Hexadecimal byte strings are the bytes spelled by the digits ... *)
Theorem C45_hex n s t b : is_ident n -> content BCHAR s -> without_spaces s t -> hex_bytes t b ->
  parse_cddl X (n ++ txt " = h'" ++ s ++ txt "'") = Some (inl (value_rule n (ABytes b))).
Proof.
  intros I C W Hb. pose proof (hex_run X s t [] C W) as E. rewrite app_nil_r in E. apply hex_decode_iff in Hb. rewrite Hb in E.
  change (txt " = h'" ++ s ++ txt "'") with (txt " = " ++ 0x68%N :: txt "'" ++ s ++ txt "'").
  pose proof (quoted_rule n 0x68 (txt "'" ++ s ++ txt "'") _ I ltac:(unfold SPACE; lia) ltac:(lia) E) as Q. auto.
Qed.
(** ... and malformed if the digits do not spell bytes: an odd number of
    characters or a character that is no hexadecimal digit. *)
Theorem C45_hex_malformed n s t : is_ident n -> content BCHAR s -> without_spaces s t ->
  (Nat.Odd (List.length t) \/ Exists (fun c => ~ exists d, digit_is c d) t) ->
  parse_cddl X (n ++ txt " = h'" ++ s ++ txt "'") = Some (inr (PErr MalformedHex t)).
Proof.
  intros I C W Bad. pose proof (hex_run X s t [] C W) as E. rewrite app_nil_r in E.
  destruct (hex_decode t) as [b|] eqn:D.
  - exfalso. apply hex_decode_iff in D. clear - Bad D. induction D as [|x y u v t l Hx Hy D IH].
    + destruct Bad as [[k O]|Ex]; [cbn in O; lia|inversion Ex].
    + destruct Bad as [[k O]|Ex].
      * apply IH. left. cbn in O. exists (k - 1). lia.
      * inversion Ex as [? ? N|? ? Ex']; subst; [eauto|]. inversion Ex' as [? ? N|? ? Ex'']; subst; eauto.
  - change (txt " = h'" ++ s ++ txt "'") with (txt " = " ++ 0x68%N :: txt "'" ++ s ++ txt "'").
    pose proof (quoted_rule n 0x68 (txt "'" ++ s ++ txt "'") _ I ltac:(unfold SPACE; lia) ltac:(lia) E) as Q. auto.
Qed.
Theorem C45_base64 n s : is_ident n -> content BCHAR s ->
  parse_cddl X (n ++ txt " = b64'" ++ s ++ txt "'") =
  Some (match base64_decode X s with Some b => inl (value_rule n (ABytes b)) | None => inr (PErr MalformedBase64 s) end).
Proof.
  intros I C. pose proof (base64_run X s [] C) as E. rewrite app_nil_r in E.
  change (txt " = b64'" ++ s ++ txt "'") with (txt " = " ++ 0x62%N :: txt "64'" ++ s ++ txt "'").
  pose proof (quoted_rule n 0x62 (txt "64'" ++ s ++ txt "'") _ I ltac:(unfold SPACE; lia) ltac:(lia) E) as Q.
  destruct (base64_decode X s); auto.
Qed.

(** * C46: characters in text literals.  The RFC's upper bound 10FFFD is 10FFD
    in the code; above it a character may not appear unescaped. *)
Theorem C46_partial n s : (forall t, Forall (fun c => c <> 0x5c%N) t -> unescape X t = Some t) -> is_ident n ->
  Forall (fun c => RFC_SCHAR c /\ (c <= 0x10ffd)%N) s ->
  parse_cddl X (n ++ txt " = """ ++ s ++ txt """") = Some (inl (value_rule n (AText s))).
Proof.
  intros U I F. apply C45_text_plain; auto. eapply Forall_impl; [|exact F]. unfold RFC_SCHAR, SCHAR, between. intros c H. lia.
Qed.

(** * C47: identifiers.  A rule's name is the longest identifier at the
    beginning of the rule ... *)
Theorem C47_rule_name i x l : parse_cddl X i = Some (inl (x :: l)) ->
  exists j r, d_ws i j /\ ws_end j /\ longest_ident j (r_name x) r.
Proof.
  unfold parse_cddl. intros H. destruct (all_consuming _ i) as [c r|e|e| |] eqn:E; inversion H; subst. clear H.
  apply all_done in E. destruct E as [E ->]. apply preceded_done in E. destruct E as (w & j & W & E). apply ws_done in W. destruct W as (_ & W & En).
  unfold many1 in E. apply bind_done in E. destruct E as (a & m & E & F). apply bind_done in F. destruct F as (l' & m' & _ & F).
  apply ret_done in F. destruct F as [F _]. inversion F; subst. apply terminated_done in E. destruct E as (q & w' & E & _).
  apply map_done in E. destruct E as ([[n o] v] & E & ->). apply separated_pair_done in E. destruct E as (m1 & m2 & b & E & _ & _).
  cbn [fst snd] in *. apply pair_done in E. destruct E as (k & E & _). cbn [fst snd] in *. apply ident_sound in E. exists j, k. auto.
Qed.
(** ... and every identifier is parsed as a reference. *)
Theorem C47_reference n m : is_ident n -> is_ident m ->
  parse_cddl X (n ++ txt " = " ++ m) = Some (inl [Rule n [] (AssignType [T1Simple (T2Typename m [])])]).
Proof.
  intros I J. destruct (id_head _ J) as (c & l & E & Hc). pose proof (type2_name X m [] J id_stop_nil (fun x => x)) as T.
  rewrite app_nil_r in T. rewrite E in *. apply assign_ok; auto; try (unfold EALPHA, ALPHA, between, SPACE in *; lia).
  unfold orp, mapp, bindp. rewrite (ty_of_type2 _ _ _ T). reflexivity.
Qed.

(** * C48: whitespace.  The whitespace recogniser skips the longest run. *)
Theorem C48_longest_run i w r : p_ws i = Done w r <-> i = w ++ r /\ d_ws i r /\ forall r', d_ws r r' -> r' = r.
Proof. apply ws_done. Qed.
(** Replacing the whitespace between tokens does not change the parsed schema
    ... *)
Theorem C48_layout i i' c : relayout i i' -> parse_cddl X i = Some (inl c) <-> parse_cddl X i' = Some (inl c).
Proof.
  intros H. pose proof (relayout_parse X i i' H) as E.
  destruct (parse_cddl X i) as [[a|e]|], (parse_cddl X i') as [[b|e']|]; subst; try tauto; split; discriminate.
Qed.
(** ... nor the kind of a parse error. *)
Theorem C48_layout_error i i' e : relayout i i' -> parse_cddl X i = Some (inr e) ->
  exists e', parse_cddl X i' = Some (inr e') /\ pe_kind e' = pe_kind e.
Proof.
  intros H Q. pose proof (relayout_parse X i i' H) as E. rewrite Q in E.
  destruct (parse_cddl X i') as [[b|e']|]; try tauto. eauto.
Qed.
(** Whitespace before the first rule may also be inserted or removed. *)
Theorem C48_leading i j : d_ws i j -> parse_cddl X i = parse_cddl X j.
Proof.
  intros D. destruct (ws_total j) as (w & r & E). pose proof E as E'. apply ws_done in E'. destruct E' as (_ & Dr & En).
  assert (Di : d_ws i r) by (eapply ws_trans; eauto). destruct (ws_cuts _ _ Di) as (w' & Ei).
  assert (E' : p_ws i = Done w' r) by (apply ws_done; auto).
  unfold parse_cddl, all_consuming, p_cddl, preceded, bindp. rewrite E, E'. reflexivity.
Qed.
End Props.

(** The full statement is false: no character above U+10FFD is accepted, for
    example U+20000. *)
Theorem C46_refuted_above X n c s : is_ident n -> (0x10ffd < c)%N ->
  exists e, parse_cddl X (n ++ txt " = """ ++ c :: s) = Some (inr e).
Proof.
  intros I L. apply (assign_soft X n 0x22 (c :: s)); auto; try (unfold SPACE, EALPHA, ALPHA, opener, DIGIT, between; lia).
  unfold p_value. rewrite or_soft by (apply not_number; unfold DIGIT, between; lia). apply soft_or.
  - apply soft_map, soft_bind. unfold delimited, bindp at 1.
    assert (G : charp 0x22 (0x22%N :: c :: s) = Done 0x22%N (c :: s)) by reflexivity. rewrite G. unfold bindp at 1.
    assert (E : p_schar (c :: s) = Done [] (c :: s)).
    { unfold p_schar. assert (Q : many0 (orp (take_while1 is_unescaped_schar) p_sesc) (c :: s) = Done [] (c :: s)).
      - unfold many0. cbn [many0_f]. assert (Z : soft (orp (take_while1 is_unescaped_schar) p_sesc (c :: s))).
        + apply soft_or.
          * unfold take_while1. cbn. assert (is_unescaped_schar c = false) as ->; [|eexists; reflexivity].
            destruct (is_unescaped_schar c) eqn:E; auto. apply schar_iff in E. unfold SCHAR, between in E. lia.
          * apply soft_bind, soft_char. cbn. lia.
        + destruct Z as [e ->]. reflexivity.
      - unfold recognize. rewrite Q. unfold consumed. rewrite Nat.sub_diag. reflexivity. }
    rewrite E. apply soft_bind, soft_char. cbn. lia.
  - apply soft_map. repeat apply soft_or; [apply soft_map, soft_bind|apply soft_bind..]; apply soft_bind; (eapply soft_tag_head; [reflexivity|cbn; lia]).
Qed.
Theorem C46_refuted : exists c, RFC_SCHAR c /\ forall X, exists e, parse_cddl X (txt "a = """ ++ [c] ++ txt """") = Some (inr e).
Proof. exists 0x20000%N. split; [unfold RFC_SCHAR, between; lia|]. intros X. eexists. vm_compute. reflexivity. Qed.

(** * Non-vacuity *)
Definition P := parse_cddl demo_ext.
Lemma ident_a : is_ident (txt "a"). Proof. apply (id_start 97). unfold EALPHA, ALPHA, between. lia. Qed.
Example ex_C42 : exists c, P (txt "a = [1, *b: tstr] / { ? ""x"" ^=> int, 2*3 y } b = ~ c<int,uint> / &(1) / 1..2 .le 3") = Some (inr c).
Proof. eexists. vm_compute. reflexivity. Qed.
Example ex_C42_ok : exists c, P (txt "a = [1, *b: tstr] / { ? ""x"" ^=> int, 2*3 y } b = ~ c<int,uint> / &(1) / 1..2 c<x,y> = x .and y") = Some (inl c) /\ List.length c = 3.
Proof. eexists. vm_compute. split; reflexivity. Qed.
Example ex_C39 : exists l, slice_parse_cddl demo_ext (txt " a = 1 ; one
b = [ a ] ") = Some (inl l) /\ map snd l = [txt "a = 1"; txt "b = [ a ]"].
Proof. eexists. vm_compute. split; reflexivity. Qed.
Example ex_C39_err : exists e, slice_parse_cddl demo_ext (txt "a = ]") = Some (inr e).
Proof. eexists. vm_compute. reflexivity. Qed.
Lemma sp_dec2 : spells 10 (txt "42") 42.
Proof. apply (sp_more 10 [0x34%N] 4 0x32 2); [apply sp_one; [apply (di_dec 0x34)|]|apply (di_dec 0x32)|]; unfold DIGIT, between; lia. Qed.
Lemma ul_42 : uint_lit (txt "42") 42. Proof. apply ul_dec; [discriminate|apply sp_dec2]. Qed.
Example ex_C44 : P (txt "a = 42") = Some (inl (value_rule (txt "a") (AUint 42))).
Proof. apply (C44_uint demo_ext (txt "a") (txt "42") 42 ident_a ul_42). lia. Qed.
Example ex_C44_nint : P (txt "a = -42") = Some (inl (value_rule (txt "a") (ANint (-42)))).
Proof. apply (C44_nint demo_ext (txt "a") (txt "42") 42 ident_a ul_42). lia. Qed.
(** The bounds: 2^64-1 is the largest literal and -(2^63-1) the least. *)
Example ex_C44_max : P (txt "a = 18446744073709551615") = Some (inl (value_rule (txt "a") (AUint 18446744073709551615))).
Proof. vm_compute. reflexivity. Qed.
Example ex_C44_over : P (txt "a = 0x10000000000000000") = Some (inr (PErr MalformedInteger (txt "10000000000000000"))).
Proof. vm_compute. reflexivity. Qed.
Example ex_C44_min : P (txt "a = -9223372036854775807") = Some (inl (value_rule (txt "a") (ANint (-9223372036854775807)))).
Proof. vm_compute. reflexivity. Qed.
Example ex_C44_under : P (txt "a = -9223372036854775808") = Some (inr (PErr MalformedInteger (txt "9223372036854775808"))).
Proof. vm_compute. reflexivity. Qed.
Example ex_C45 : P (txt "a = ""x\n""") = Some (inl (value_rule (txt "a") (AText (txt "x\n")))).
Proof.
  apply (C45_text demo_ext (txt "a") (txt "x\n") ident_a). apply (co_char _ 120); [unfold SCHAR, between; lia|]. apply (co_escape _ 110), co_nil.
Qed.
Example ex_C45_hex : P (txt "a = h'00 fF'") = Some (inl (value_rule (txt "a") (ABytes [0; 255]%N))).
Proof. vm_compute. reflexivity. Qed.
Example ex_C45_hex_odd : P (txt "a = h'0'") = Some (inr (PErr MalformedHex (txt "0"))).
Proof.
  apply (C45_hex_malformed demo_ext (txt "a") (txt "0") (txt "0") ident_a).
  - apply (co_char _ 48); [unfold BCHAR, between; lia|apply co_nil].
  - apply (wo_char 48); [cbn; lia|apply wo_nil].
  - left. exists 0. reflexivity.
Qed.
Example ex_C47 : P (txt "a = b-c.d") = Some (inl [Rule (txt "a") [] (AssignType [T1Simple (T2Typename (txt "b-c.d") [])])]).
Proof. vm_compute. reflexivity. Qed.
Example ex_C47_tail : exists l, P (txt "a- = 1") = Some (inr (PErr Unparseable l)).
Proof. eexists. vm_compute. reflexivity. Qed.
(** Two layouts of the same schema. *)
Definition lay1 : text := txt "a = [1, ""; x""] ".
Definition lay2 : text := txt "a ; comment
	= [1,
 ""; x""]; end".
Lemma gap_sp i : ws_end i -> gap (txt " ") i.
Proof. intros H. split; [discriminate|]. split; auto. apply dw_space; [unfold SPACE; auto|apply dw_end]. Qed.
Example ex_relayout : relayout lay1 lay2.
Proof.
  unfold lay1, lay2.
  assert (Sp : forall c, ~ SPACE c -> c <> 0x3b%N -> forall r, ws_end (c :: r)) by (intros; apply ws_end_head; auto).
  change (txt "a = [1, ""; x""] ") with (97%N :: txt " " ++ 61%N :: txt " " ++ 91%N :: 49%N :: 44%N :: txt " " ++ txt """; x""" ++ 93%N :: txt " " ++ []).
  match goal with |- relayout _ ?j => replace j with
    (97%N :: (txt " ; comment" ++ [10; 9]%N) ++ 61%N :: txt " " ++ 91%N :: 49%N :: 44%N :: ([10%N] ++ txt " ") ++ txt """; x""" ++ 93%N :: txt "; end" ++ []) by reflexivity end.
  assert (Pl : forall c, ((c =? 32) || (c =? 9) || (c =? 13) || (c =? 10) || (c =? 0x3b) || (c =? 0x22) || (c =? 0x27))%N = false -> plain c).
  { intros c E. rewrite !orb_false_iff, !N.eqb_neq in E. unfold plain, SPACE. tauto. }
  apply rl_char; [apply Pl; reflexivity|]. apply rl_gap.
  { apply gap_sp. apply Sp; [unfold SPACE|]; lia. }
  { split; [discriminate|]. split; [|apply Sp; [unfold SPACE|]; lia]. cbn. apply dw_space; [unfold SPACE; auto|].
    apply (dw_comment (txt " comment") (10%N :: 9%N :: 61%N :: 32%N :: _)); [cbn; repeat constructor; discriminate|right; left; eauto|].
    apply dw_space; [unfold SPACE; auto|]. apply dw_space; [unfold SPACE; auto|]. apply dw_end. }
  apply rl_char; [apply Pl; reflexivity|]. apply rl_gap; [apply gap_sp; apply Sp; [unfold SPACE|]; lia..|].
  repeat (apply rl_char; [apply Pl; reflexivity|]). apply rl_gap.
  { apply gap_sp. apply (Sp 0x22%N); [unfold SPACE|]; lia. }
  { split; [discriminate|]. split; [|apply (Sp 0x22%N); [unfold SPACE|]; lia]. cbn. apply dw_space; [unfold SPACE; auto|].
    apply dw_space; [unfold SPACE; auto|]. apply dw_end. }
  apply rl_string.
  { left. exists (txt "; x"). split; [|reflexivity]. apply content_run. repeat constructor; cbn; unfold SCHAR, between; lia. }
  apply rl_char; [apply Pl; reflexivity|]. apply rl_gap.
  { apply gap_sp. apply ws_end_nil. }
  { split; [discriminate|]. split; [|apply ws_end_nil]. apply (dw_comment (txt " end") []); [cbn; repeat constructor; discriminate|left; reflexivity|apply dw_end]. }
  apply rl_nil.
Qed.
Example ex_C48 : exists c, P lay1 = Some (inl c) /\ P lay2 = Some (inl c).
Proof. eexists. split; vm_compute; reflexivity. Qed.

Print Assumptions C42_parse_total.
Print Assumptions C42_slice_parse_total.
Print Assumptions C39_same_rules.
Print Assumptions C39_same_success.
Print Assumptions C39_same_errors.
Print Assumptions C43_input_covered.
Print Assumptions C43_parse_covered.
Print Assumptions C50_parse_sound.
Print Assumptions C44_uint.
Print Assumptions C44_nint.
Print Assumptions C44_uint_too_large.
Print Assumptions C44_nint_too_large.
Print Assumptions C45_text.
Print Assumptions C45_text_plain.
Print Assumptions C45_bytes.
Print Assumptions C45_hex.
Print Assumptions C45_hex_malformed.
Print Assumptions C45_base64.
Print Assumptions C46_partial.
Print Assumptions C46_refuted_above.
Print Assumptions C46_refuted.
Print Assumptions C47_rule_name.
Print Assumptions C47_reference.
Print Assumptions C48_longest_run.
Print Assumptions C48_layout.
Print Assumptions C48_layout_error.
Print Assumptions C48_leading.
