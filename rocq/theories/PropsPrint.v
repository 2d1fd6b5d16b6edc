(** Properties of the canonical rendering: C49, C52, C53. *)
From Coq Require Import List Bool Arith ZArith NArith String Lia.
From Verif Require Import Base Util Data Ivt Ast Nom Parser NomDone SpecSyntax LiteralProofs ParserSound SpecLayout PropsParser SpecPrint PrintProofs PrintExact PrintRange Demo.
Import ListNotations.
Open Scope list_scope.

Section Props.
Variable X : ext.

(** * C49: printing then parsing gives the schema back, for every spelling of
    the literal values and of the occurrence indicators ... *)
Theorem C49_print_parse lit occ c : w_cddl X lit occ c -> parse_cddl X (print_cddl lit occ c) = Some (inl c).
Proof. apply cddl_run. Qed.
(** ... and in every other layout with whitespace at the same places. *)
Theorem C49_any_layout lit occ c i : w_cddl X lit occ c -> relayout (print_cddl lit occ c) i -> parse_cddl X i = Some (inl c).
Proof. intros W R. apply (C48_layout X _ i c R). apply C49_print_parse; auto. Qed.
(** Different trees have different renderings. *)
Theorem C49_unambiguous lit occ lit' occ' c c' : w_cddl X lit occ c -> w_cddl X lit' occ' c' ->
  print_cddl lit occ c = print_cddl lit' occ' c' -> c = c'.
Proof. intros W W' E. apply C49_print_parse in W. apply C49_print_parse in W'. rewrite E in W. congruence. Qed.

(** Every accepted schema can be written canonically: [lit] is any way to spell
    the values that literals denote, [canon_occ] always writes the upper limit
    and leaves out a lower limit of 0. *)
Definition canon_occ (o : occur_limit) : text :=
  match o with
  | OOptional => txt "?"
  | OZeroOrMore => txt "*"
  | OOneOrMore => txt "+"
  | ONumbered lo hi => (if N.eqb lo 0 then [] else show_N lo) ++ txt "*" ++ show_N hi
  end.
Lemma canon_occ_lit s o : occur_lit s o -> occur_lit (canon_occ o) o.
Proof.
  intros H. assert (R : match o with ONumbered lo hi => (lo < 2 ^ 64)%N /\ (hi < 2 ^ 64)%N | _ => True end).
  { destruct H as [| | |s lo t hi Bs Bt N]; auto. split; [destruct Bs|destruct Bt]; auto; reflexivity. }
  destruct o as [| | |lo hi]; try constructor. destruct R as [L H']. unfold canon_occ.
  destruct (N.eqb_spec lo 0) as [-> | Z].
  - apply (ol_bounds [] None (show_N hi) (Some hi)); [constructor|constructor; auto; apply show_N_lit|discriminate].
  - apply (ol_bounds (show_N lo) (Some lo) (show_N hi) (Some hi)); [constructor; auto; apply show_N_lit..|discriminate].
Qed.
Lemma canon_occ_first s o : occur_lit s o -> no_digit s -> w_first canon_occ o.
Proof.
  intros H N. unfold w_first. destruct H as [| | |s lo t hi Bs Bt B]; try exact N.
  destruct Bs as [|s n U L]; [cbn; unfold DIGIT, between; lia|]. exfalso.
  apply uint_head in U. destruct s; [destruct U|]. cbn in N, U. contradiction.
Qed.
Theorem C49_canonical lit i c : (forall s v, value_lit X s v -> spelling X (lit v) v) ->
  parse_cddl X i = Some (inl c) -> parse_cddl X (print_cddl lit canon_occ c) = Some (inl c).
Proof.
  intros L H. apply C49_print_parse. revert H. apply parse_shape.
  - exact L.
  - exact canon_occ_lit.
  - exact canon_occ_first.
Qed.
(** The accepted schemas are exactly the trees with a canonical rendering. *)
Theorem C49_accepted lit c : (forall s v, value_lit X s v -> spelling X (lit v) v) ->
  (exists i, parse_cddl X i = Some (inl c)) <-> w_cddl X lit canon_occ c.
Proof.
  intros L. split.
  - intros [i H]. revert H. apply parse_shape; [exact L|exact canon_occ_lit|exact canon_occ_first].
  - intros H. eexists. apply C49_print_parse. exact H.
Qed.

(** * C53: the shape of every accepted schema.  A bare name in a group is a
    member without key, never a group name; there is no empty choice or group; a
    key before a colon always has the cut; a rule is a group only with an
    occurrence indicator without lower limit or in parentheses. *)
Theorem C53_shape i c : parse_cddl X i = Some (inl c) ->
  s_cddl (fun v => exists s, value_lit X s v) (fun o => exists s, occur_lit s o)
    (fun o => match o with ONumbered lo _ => lo = 0%N | _ => True end) c.
Proof.
  apply parse_shape; eauto. intros s o H N. destruct H as [| | |s lo t hi Bs Bt B]; auto.
  destruct Bs as [|s n U L]; auto. exfalso. apply uint_head in U. destruct s; [destruct U|]. cbn in N, U. contradiction.
Qed.

(** * C52: the text of an occurrence in messages is valid CDDL for it. *)
Definition in_range (o : occur_limit) : Prop :=
  match o with ONumbered lo hi => (lo < 2 ^ 64)%N /\ (hi < 2 ^ 64)%N | _ => True end.
Lemma symbol_lit o : in_range o -> occur_lit (symbol o) o.
Proof.
  assert (U : forall n, uint_lit (show_N n) n) by (intros; apply show_N_lit).
  destruct o as [| | |lo hi]; intros W; try constructor. destruct W as [L H]. unfold symbol.
  destruct (N.eqb_spec lo 0) as [-> | _], (N.eqb_spec hi usize_max) as [-> | _]; cbn [andb];
    try (apply (ol_bounds (show_N _) (Some _) (show_N _) (Some _)); [constructor; auto..|discriminate]).
  apply (ol_bounds (show_N 0) (Some 0%N) [] None); [constructor; auto..|discriminate].
Qed.
Theorem C52_symbol_parses n m o : is_ident n -> is_ident m -> in_range o ->
  parse_cddl X (n ++ txt " = [" ++ symbol o ++ txt " " ++ m ++ txt ", ]" ++ [10%N]) =
  Some (inl [Rule n [] (AssignType [T1Simple (T2Array [[GrpEnt (Some o) (GMember None [T1Simple (T2Typename m [])])]])])]).
Proof.
  intros I J R. set (c := [Rule n _ _]).
  assert (W : w_cddl X (fun _ => []) symbol c).
  { split; [discriminate|]. repeat split; cbn; auto; try discriminate. apply symbol_lit; auto. }
  apply C49_print_parse in W. etransitivity; [|exact W]. f_equal. cbn. rewrite !app_nil_r, <- !app_assoc. cbn. repeat (rewrite <- !app_assoc; cbn). reflexivity.
Qed.
End Props.

(** * Non-vacuity *)
Ltac ident := match goal with |- is_ident ?n => apply (proj1 (ident_tok n n [] ltac:(vm_compute; reflexivity))) end.
Definition demo_lit (v : ast_value) : text :=
  match v with
  | AUint n => show_N n
  | ANint z => txt "-" ++ show_N (Z.to_N (- z))
  | AText t => txt """" ++ t ++ txt """"
  | _ => []
  end.
Definition nm (s : string) : type1 := T1Simple (T2Typename (txt s) []).
Definition demo_tree : cddl :=
  [Rule (txt "top") [txt "t"; txt "u"] (AssignType [T1Simple (T2Map [
      [GrpEnt None (GMember (Some (MKey (MKBareword (txt "name")) true)) [nm "tstr"; nm "t"]);
       GrpEnt (Some OOptional) (GMember (Some (MKey (MKValue (AText (txt "k"))) true)) [nm "u"]);
       GrpEnt (Some (ONumbered 2 5)) (GMember (Some (MKey (MKType1 (T1Range (T2Value (AUint 1)) (T2Value (AUint 9)) false)) true)) [nm "any"])];
      [GrpEnt (Some OZeroOrMore) (GMember (Some (MKey (MKType1 (nm "tstr")) false)) [T1Simple (T2Paren [nm "a"; nm "b"])]);
       GrpEnt None (GParen [[GrpEnt None (GMember None [nm "g"])]; []])]])]);
   Rule (txt "a") [] (AssignType [T1Control (T2Typename (txt "top") [nm "int"; T1Simple (T2Array [[]])]) (T2Value (ANint (-3))) (txt "size");
      T1Simple (T2Unwrap (txt "b") []); T1Simple (T2Choiceify (txt "c") []); T1Simple (T2ChoiceifyInline [[GrpEnt None (GMember None [nm "d"])]])]);
   Rule (txt "b") [] (AssignGroup (GrpEnt (Some OOneOrMore) (GMember None [nm "int"; nm "tstr"])));
   Rule (txt "g") [] (AssignGroup (GrpEnt None (GParen [[GrpEnt None (GMember None [nm "x"]); GrpEnt None (GMember None [nm "y"])]])))].
Example ex_C49_writable : w_cddl demo_ext demo_lit symbol demo_tree.
Proof.
  assert (T : forall s, Forall SCHAR s -> content SCHAR s) by (intros s H; induction H; constructor; auto).
  unfold demo_tree. repeat split; try discriminate; cbn; try exact I; try ident;
    try (apply symbol_lit; cbn; auto; lia); try (apply (proj1 (show_N_lit _))); try reflexivity; try lia.
  all: try (apply se_uint; [apply (proj1 (show_N_lit _))|reflexivity]).
  - apply (se_text demo_ext (txt "k")); [apply T; repeat constructor; cbn; unfold SCHAR, between; lia|reflexivity].
  - apply (se_nint demo_ext (show_N 3) 3); [apply (proj1 (show_N_lit _))|reflexivity].
  - intros H. vm_compute in H. intuition discriminate.
Qed.
Example ex_C49_text : print_cddl demo_lit symbol demo_tree =
  txt "top<t, u> = {name: tstr / t, ? ""k"": u, 2*5 1 ... 9 ^ => any, // * tstr => (a / b), (g, // ), }" ++ [10%N] ++
  txt "a = top<int, []> .size -3 / ~b / &c / &(d, )" ++ [10%N] ++
  txt "b = + int / tstr" ++ [10%N] ++
  txt "g = (x, y, )" ++ [10%N].
Proof. vm_compute. reflexivity. Qed.
Example ex_C49 : parse_cddl demo_ext (print_cddl demo_lit symbol demo_tree) = Some (inl demo_tree).
Proof. apply C49_print_parse, ex_C49_writable. Qed.
Example ex_C52 : in_range (ONumbered 0 usize_max) /\ symbol (ONumbered 0 usize_max) = txt "0*" /\ in_range (ONumbered 2 7) /\ symbol (ONumbered 2 7) = txt "2*7".
Proof. repeat split; vm_compute; reflexivity. Qed.
(** Oracles under which the renderer below spells every value: escapes are
    refused and so are other characters than ASCII. *)
Definition ascii_ext : ext := {|
  f64_display := f64_display demo_ext; f64_parse := fun s => if text_eqb s (txt "1.5") then Some 0x3ff8000000000000%N else None;
  regex_compiles := regex_compiles demo_ext; regex_match := regex_match demo_ext;
  cbor_decode := cbor_decode demo_ext; json_decode := json_decode demo_ext;
  unescape := fun t => if forallb (fun c => N.ltb c 128) t then Some t else None;
  base64_decode := fun _ => None
|}.
Definition hexd (d : N) : N := if N.ltb d 10 then (0x30 + d)%N else (0x61 + (d - 10))%N.
Definition full_lit (v : ast_value) : text :=
  match v with
  | AUint n => show_N n
  | ANint z => txt "-" ++ show_N (Z.to_N (- z))
  | AText t => txt """" ++ t ++ txt """"
  | ABytes b => txt "h'" ++ flat_map (fun x => [hexd (x / 16); hexd (x mod 16)]) b ++ txt "'"
  | AFloat _ => txt "1.5"
  end.
Lemma hexd_is d : (d < 16)%N -> digit_is (hexd d) d.
Proof.
  intros L. unfold hexd. destruct (N.ltb_spec d 10).
  - replace d with (0x30 + d - 0x30)%N at 2 by lia. apply di_dec. unfold DIGIT, between. lia.
  - replace d with (0x61 + (d - 10) - 0x61 + 10)%N at 2 by lia. apply di_lower. unfold between. lia.
Qed.
Lemma hexd_char d : (d < 16)%N -> BCHAR (hexd d) /\ ~ In (hexd d) [32; 9; 10; 12; 13]%N.
Proof. intros L. unfold hexd. destruct (N.ltb_spec d 10); (split; [unfold BCHAR, between; lia|intros I; cbn [In] in I; lia]). Qed.
Lemma bytes_spelling X b : Forall (fun x => x < 256)%N b -> spelling X (full_lit (ABytes b)) (ABytes b).
Proof.
  intros H. set (s := flat_map (fun x => [hexd (x / 16); hexd (x mod 16)]) b).
  assert (D : forall x, (x < 256)%N -> (x / 16 < 16)%N /\ (x mod 16 < 16)%N).
  { intros x L. split; [apply N.div_lt_upper_bound; lia|apply N.mod_lt; lia]. }
  apply (se_hex X s s).
  - subst s. induction H as [|x b L H IH]; cbn; [constructor|]. destruct (D x L). repeat (constructor; [apply hexd_char; auto|]). exact IH.
  - subst s. induction H as [|x b L H IH]; cbn; [constructor|]. destruct (D x L).
    apply wo_char; [apply hexd_char; auto|]. apply wo_char; [apply hexd_char; auto|]. exact IH.
  - subst s. induction H as [|x b L H IH]; cbn [flat_map app]; [constructor|]. destruct (D x L).
    pose proof (N.div_mod x 16 ltac:(lia)) as M. pose proof (hb_byte _ _ _ _ _ b (hexd_is _ H0) (hexd_is _ H1) IH) as Q.
    replace (x / 16 * 16 + x mod 16)%N with x in Q by lia. exact Q.
Qed.
Lemma ascii_bytes t : forallb (fun c => N.ltb c 128) t = true -> Forall (fun x => x < 256)%N (utf8_encode t).
Proof.
  intros H. induction t as [|c t IH]; [constructor|]. apply andb_prop in H. destruct H as [H1 H2]. unfold utf8_encode in *. cbn [flat_map].
  apply Forall_app. split; auto. unfold utf8_encode1. change 0x80%N with 128%N. rewrite H1. constructor; [|constructor]. apply N.ltb_lt in H1. lia.
Qed.
Example ex_C49_renderer s v : value_lit ascii_ext s v -> spelling ascii_ext (full_lit v) v.
Proof.
  intros H. destruct H as [s n U L|s n U L|sg s n f e bits Sg U F E N P|s t C U|s t C U|s t b C W B|s b C B].
  - apply se_uint; auto. apply show_N_lit.
  - cbn [full_lit]. rewrite Z.opp_involutive, N2Z.id. apply se_nint; auto. apply show_N_lit.
  - change (f64_parse ascii_ext (sg ++ s ++ f ++ e)) with (if text_eqb (sg ++ s ++ f ++ e) (txt "1.5") then Some 0x3ff8000000000000%N else None) in P.
    destruct (text_eqb (sg ++ s ++ f ++ e) (txt "1.5")) eqn:Q; [|discriminate].
    apply (se_float ascii_ext [] (txt "1") 1 (txt ".5") []); try discriminate.
    + left; reflexivity.
    + apply (proj1 (show_N_lit 1)).
    + apply (sp_one 10 0x31 1); [apply (di_dec 0x31)|]; unfold DIGIT, between; lia.
    + reflexivity.
    + right. exists (txt "5"). split; [reflexivity|]. split; [discriminate|]. repeat constructor; cbn; lia.
    + left; reflexivity.
    + exact P.
  - cbn in U. destruct (forallb _ s) eqn:A; [|discriminate]. inversion U; subst. apply se_text; auto. cbn. rewrite A. reflexivity.
  - cbn in U. destruct (forallb _ s) eqn:A; [|discriminate]. inversion U; subst. apply bytes_spelling, ascii_bytes; auto.
  - apply bytes_spelling. clear - B. induction B as [|a b x y s l A B H IH]; constructor; auto.
    assert (Q : forall a x, digit_is a x -> (x < 16)%N) by (intros a' x' D; destruct D; unfold DIGIT, between in *; lia).
    apply Q in A. apply Q in B. lia.
  - discriminate.
Qed.
Example ex_C49_canonical : exists c, parse_cddl ascii_ext (txt "a=[2*b,h'0a  FF' 0*7 ""x"":0x10//*3(c)]d = ? ( 1.5 => bool)") = Some (inl c) /\
  parse_cddl ascii_ext (print_cddl full_lit canon_occ c) = Some (inl c).
Proof. eexists. split; [vm_compute; reflexivity|]. vm_compute. reflexivity. Qed.

(** The theorems on accepted texts apply: two rules, with comments, occurrences and a
    character beyond the basic plane. *)
Example ex_C43_C50_C53 : exists c, parse_cddl demo_ext (txt "; head
a = [2*3 b, ? 'x' ^=> int] b = c<int> / 1..2 ; end
") = Some (inl c) /\ List.length c = 2%nat.
Proof. eexists. split; vm_compute; reflexivity. Qed.
Example ex_C46 : parse_cddl demo_ext (txt "a = """ ++ [0x10000%N] ++ txt """") = Some (inl (value_rule (txt "a") (AText [0x10000%N]))).
Proof.
  apply (C46_partial demo_ext (txt "a") [0x10000%N]); [auto|apply ident_a|]. repeat constructor; unfold RFC_SCHAR, between; lia.
Qed.

Print Assumptions C49_canonical.
Print Assumptions C49_accepted.
Print Assumptions C53_shape.
Print Assumptions C49_print_parse.
Print Assumptions C49_any_layout.
Print Assumptions C49_unambiguous.
Print Assumptions C52_symbol_parses.
