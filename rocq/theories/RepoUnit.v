(** The crate's own unit tests (src/parser/mod.rs 1379-1810, src/flatten.rs
    809-910, tests/cbor_ivt.rs, tests/errors.rs, tests/recurse.rs), run against
    the model.  Like RepoTests.v these are checks of the model, not properties. *)
From Coq Require Import List Bool ZArith NArith String.
From Verif Require Import Base Util Data Value Ivt Convert Validate Fun Ast Flatten Nom Parser Api RepoTests.
Import ListNotations.
Open Scope list_scope.

(** Float parsing, unescaping and base64 of the literals below. *)
Definition unit_ext : ext := {|
  f64_display := f64_display repo_ext;
  f64_parse := assoc
    [(txt "0.0", 0%N); (txt "1e99", 0x547d42aea2879f2e%N); (txt "-1e-99", 0xab612e33037c65fb%N)];
  regex_compiles := fun _ => true;
  regex_match := text_eqb;
  cbor_decode := fun _ => inr (txt "bad");
  json_decode := fun t => if text_eqb t (txt "0") then inl (JNumber (JPosInt 0))
                          else inr (txt "expected value at line 1 column 1");
  unescape := fun t =>
    match assoc [(txt "a\nb", Some [97; 10; 98]%N); (txt "\uD834\uDD1E", Some [0x1d11e%N]);
                 (txt "\ud800", None)] t with
    | Some r => r
    | None => Some t
    end;
  base64_decode := assoc
    [(txt "YWJj", [97; 98; 99]%N); (txt "AP8Bfw==", [0; 255; 1; 127]%N); ([], [])]
|}.
Notation X := unit_ext.
Notation PT := (parse_type1 X).
Notation PG := (parse_group X).

Definition is_err {A} (r : pres A) : bool :=
  match r with Soft _ | Hard _ => true | _ => false end.
Definition fails_with {A} (k : perror_kind) (r : pres A) : bool :=
  match r with
  | Hard e =>
      match k, pe_kind e with
      | MalformedHex, MalformedHex | MalformedBase64, MalformedBase64 => true
      | _, _ => false
      end
  | _ => false
  end.
Definition result {A} (r : pres A) : option A := match r with Done a _ => Some a | _ => None end.

Ltac go := vm_compute; repeat split; reflexivity.

(** 1384-1389. *)
Example unit_whitespace :
  p_ws (txt "  ; a comment" ++ [10%N] ++ txt "        " ++ [13; 10]%N ++ txt "; another;;;comment"
        ++ [10%N] ++ txt "  ")
  = Done (txt "  ; a comment" ++ [10%N] ++ txt "        " ++ [13; 10]%N ++ txt "; another;;;comment"
        ++ [10%N] ++ txt "  ") [].
Proof. go. Qed.

(** 1391-1400. *)
Example unit_ident :
  p_ident (txt "a") = Done (txt "a") [] /\
  p_ident (txt "a1") = Done (txt "a1") [] /\
  p_ident (txt "a.1") = Done (txt "a.1") [] /\
  p_ident (txt "a1.") = Done (txt "a1") (txt ".") /\
  p_ident (txt "@a1") = Done (txt "@a1") [] /\
  p_ident (txt "a..b") = Done (txt "a..b") [] /\
  is_err (p_ident (txt "1a")) = true.
Proof. go. Qed.

(** 1402-1410. *)
Example unit_uint :
  p_uint_u64 (txt "999") = Done 999%N [] /\
  p_uint_u64 (txt "0") = Done 0%N [] /\
  p_uint_u64 (txt "0x100") = Done 256%N [] /\
  p_uint_u64 (txt "0b101") = Done 5%N [] /\
  p_uint_u64 (txt "00") = Done 0%N (txt "0").
Proof. go. Qed.

(** 1412-1435. *)
Example unit_float_or_int :
  p_float_or_int X (txt "0.0") = Done (AFloat 0) [] /\
  p_float_or_int X (txt "1e99") = Done (AFloat 0x547d42aea2879f2e) [] /\
  p_float_or_int X (txt "-1e-99") = Done (AFloat 0xab612e33037c65fb) [] /\
  p_float_or_int X (txt "123") = Done (AUint 123) [] /\
  p_float_or_int X (txt "-123") = Done (ANint (-123)) [] /\
  p_float_or_int X (txt "1e") = Done (AUint 1) (txt "e") /\
  p_float_or_int X (txt "1.") = Done (AUint 1) (txt ".") /\
  is_err (p_float_or_int X (txt "abc")) = true /\
  p_float_or_int X (txt "0x100") = Done (AUint 256) [] /\
  p_float_or_int X (txt "0b101") = Done (AUint 5) [] /\
  p_float_or_int X (txt "00") = Done (AUint 0) (txt "0") /\
  p_float_or_int X (txt "-0x100") = Done (ANint (-256)) [] /\
  p_float_or_int X (txt "-0b101") = Done (ANint (-5)) [] /\
  is_err (p_float_or_int X (txt "0b1e99")) = true /\
  is_err (p_float_or_int X (txt "0b1.1")) = true.
Proof. go. Qed.

(** 1437-1491. *)
Example unit_bytestring :
  p_bytestring X (txt "'abc'") = Done [97; 98; 99]%N [] /\
  p_bytestring X (txt "h'61 62 63'") = Done [97; 98; 99]%N [] /\
  p_bytestring X (txt "h' 6 1626 3  '") = Done [97; 98; 99]%N [] /\
  p_bytestring X (txt "b64'YWJj'") = Done [97; 98; 99]%N [] /\
  p_bytestring X (txt "'a\nb'") = Done [97; 10; 98]%N [] /\
  p_bytestring X (txt "'\uD834\uDD1E'") = Done [0xF0; 0x9D; 0x84; 0x9E]%N [] /\
  p_bytestring X (txt "h'00FF017f'") = Done [0; 255; 1; 127]%N [] /\
  p_bytestring X (txt "b64'AP8Bfw=='") = Done [0; 255; 1; 127]%N [] /\
  p_bytestring X (txt "h''") = Done [] [] /\
  p_bytestring X (txt "b64''") = Done [] [] /\
  fails_with MalformedHex (p_bytestring X (txt "h'0g1234'")) = true /\
  fails_with MalformedBase64 (p_bytestring X (txt "b64'AP!Bfw=='")) = true /\
  fails_with MalformedBase64 (p_bytestring X (txt "b64'++8A'")) = true /\
  fails_with MalformedBase64 (p_bytestring X (txt "b64'////'")) = true.
Proof. go. Qed.

(** 1493-1519.  U+306E is the hiragana letter of the source. *)
Example unit_text :
  is_unescaped_schar 65 = true /\
  is_unescaped_schar 0x306e = true /\
  is_unescaped_schar 0x10FF0 = true /\
  is_unescaped_schar 0x7F = false /\
  take_while1 is_unescaped_schar [65; 0x306e]%N = Done [65; 0x306e]%N [] /\
  p_sesc (txt "\n") = Done (txt "n") [] /\
  p_sesc (txt "\nn") = Done (txt "n") (txt "n") /\
  p_sesc [92; 0x306e]%N = Done [0x306e]%N [] /\
  p_schar (txt "Ab! \c " ++ [0x306e]%N ++ txt " \\") = Done (txt "Ab! \c " ++ [0x306e]%N ++ txt " \\") [] /\
  p_schar (txt "a\nb") = Done (txt "a\nb") [] /\
  p_schar [97; 10; 98]%N = Done [97]%N [10; 98]%N /\
  is_err (p_text_literal X [34; 97; 10; 98]%N) = true /\
  is_err (p_text_literal X (txt "abc")) = true /\
  p_text_literal X (txt """""") = Done [] [] /\
  p_text_literal X (txt """a\nb""") = Done [97; 10; 98]%N [] /\
  p_text_literal X (txt """\uD834\uDD1E""") = Done [0x1d11e]%N [] /\
  p_text_literal X [34; 0x306e; 34]%N = Done [0x306e]%N [].
Proof. go. Qed.

(** 1521-1526. *)
Example unit_value :
  p_value X (txt "123") = Done (AUint 123) [] /\
  p_value X (txt """abc""") = Done (AText (txt "abc")) [] /\
  is_err (p_value X (txt "abc")) = true.
Proof. go. Qed.

(** Shorthands of the [test_utils] module (1172-1377). *)
Definition tn (s : string) : type2 := T2Typename (txt s) [].
Definition t1 (s : string) : type1 := T1Simple (tn s).
Definition ty (s : string) : type_ := [t1 s].
Definition bare (s : string) := MKBareword (txt s).
Definition num (n : N) : type2 := T2Value (AUint n).
Definition mem (s : string) : grpent_val := GMember None (ty s).
Definition ge (v : grpent_val) : grpent := GrpEnt None v.
Definition kvm (k : member_key_val) (s : string) (cut : bool) : grpent_val := GMember (Some (MKey k cut)) (ty s).

(** 1528-1557. *)
Example unit_member :
  result (p_grpent_member PT (txt "a:b")) = Some (kvm (bare "a") "b" true) /\
  result (p_grpent_member PT (txt "foo")) = Some (mem "foo") /\
  result (p_grpent_member PT (txt "a => b")) = Some (kvm (MKType1 (t1 "a")) "b" false) /\
  result (p_grpent_member PT (txt "42 ^ => b")) = Some (kvm (MKType1 (T1Simple (num 42))) "b" true) /\
  result (p_grpent_member PT (txt "abc<T> => def"))
    = Some (kvm (MKType1 (T1Simple (T2Typename (txt "abc") [t1 "T"]))) "def" false) /\
  is_err (p_grpent_member PT (txt "abc<T> : def")) = true.
Proof. go. Qed.

(** 1559-1572. *)
Example unit_grpent_val :
  result (p_grpent_parens PG (txt "()")) = Some [[]] /\
  result (p_grpent_val PT PG (txt "foo")) = Some (mem "foo") /\
  result (p_grpent_val PT PG (txt "17")) = Some (GMember None [T1Simple (num 17)]).
Proof. go. Qed.

(** 1574-1583. *)
Example unit_occur :
  p_occur (txt "?") = Done OOptional [] /\
  p_occur (txt "+") = Done OOneOrMore [] /\
  p_occur (txt "*") = Done OZeroOrMore [] /\
  p_occur (txt "*9") = Done (ONumbered 0 9) [] /\
  p_occur (txt "7*") = Done (ONumbered 7 usize_max) [] /\
  p_occur (txt "7*9") = Done (ONumbered 7 9) [] /\
  p_occur (txt "0b100*0x10") = Done (ONumbered 4 16) [].
Proof. go. Qed.

(** 1585-1607. *)
Example unit_grpent :
  result (p_grpent PT PG (txt "foo")) = Some (ge (mem "foo")) /\
  result (p_grpent PT PG (txt "foo: bar")) = Some (ge (kvm (bare "foo") "bar" true)) /\
  result (p_grpchoice PT PG []) = Some [] /\
  result (PG []) = Some [[]].
Proof. go. Qed.

(** 1609-1654. *)
Example unit_type1 :
  result (PT (txt "1 .. 9")) = Some (T1Range (num 1) (num 9) true) /\
  result (PT (txt "0x10 .. 0x1C")) = Some (T1Range (num 16) (num 28) true) /\
  result (PT (txt "1 ... 9")) = Some (T1Range (num 1) (num 9) false) /\
  result (PT (txt "uint .size 3")) = Some (T1Control (tn "uint") (num 3) (txt "size")) /\
  result (p_type2 X PT PG (txt "min..max")) = Some (tn "min..max").
Proof. go. Qed.

(** 1656-1695. *)
Example unit_grpchoice_generic :
  result (p_grpchoice PT PG (txt "abc")) = Some [ge (mem "abc")] /\
  result (p_grpchoice PT PG (txt "abc, def")) = Some [ge (mem "abc"); ge (mem "def")] /\
  is_err (p_generic_parm []) = true /\
  is_err (p_generic_parm (txt "<>")) = true /\
  result (p_generic_parm (txt "<foo>")) = Some [txt "foo"] /\
  result (p_generic_parm (txt "<foo,bar>")) = Some [txt "foo"; txt "bar"] /\
  result (p_generic_parm (txt "< foo , _bar_ >")) = Some [txt "foo"; txt "_bar_"] /\
  is_err (p_generic_arg PT []) = true /\
  is_err (p_generic_arg PT (txt "<>")) = true /\
  result (p_generic_arg PT (txt "<foo>")) = Some [t1 "foo"] /\
  result (p_generic_arg PT (txt "<foo,bar>")) = Some [t1 "foo"; t1 "bar"] /\
  result (p_generic_arg PT (txt "< foo , _bar_ >")) = Some [t1 "foo"; t1 "_bar_"].
Proof. go. Qed.

(** 1697-1710. *)
Example unit_choiceify :
  result (p_type2 X PT PG (txt "&foo")) = Some (T2Choiceify (txt "foo") []) /\
  result (p_type2 X PT PG (txt "&(a:1)"))
    = Some (T2ChoiceifyInline [[ge (GMember (Some (MKey (bare "a") true)) [T1Simple (num 1)])]]).
Proof. go. Qed.

(** 1712-1747. *)
Example unit_rule :
  result (p_rule PT PG (txt "foo=bar")) = Some (Rule (txt "foo") [] (AssignType (ty "bar"))) /\
  result (p_rule PT PG (txt "foo=(bar, baz)"))
    = Some (Rule (txt "foo") [] (AssignGroup (ge (GParen [[ge (mem "bar"); ge (mem "baz")]])))) /\
  result (p_rule PT PG (txt "message<t, v> = [t, v]"))
    = Some (Rule (txt "message") [txt "t"; txt "v"]
              (AssignType [T1Simple (T2Array [[ge (mem "t"); ge (mem "v")]])])).
Proof. go. Qed.

(** 1749-1776. *)
Example unit_cddl :
  parse_cddl X (txt "foo = {""a"": bar," ++ [10%N] ++ txt " b => baz}")
    = Some (inl [Rule (txt "foo") [] (AssignType [T1Simple (T2Map
        [[ge (kvm (MKValue (AText (txt "a"))) "bar" true); ge (kvm (MKType1 (t1 "b")) "baz" false)]])])]) /\
  match slice_parse_cddl X (txt " foo = { a: tstr } bar = " ++ [10%N] ++ txt "[ int ] ") with
  | Some (inl l) => map snd l = [txt "foo = { a: tstr }"; txt "bar = " ++ [10%N] ++ txt "[ int ]"]
  | _ => False
  end.
Proof. go. Qed.

Definition parses (s : text) : bool := match parse_cddl X s with Some (inl _) => true | _ => false end.
Definition parse_fails (s : text) : option perror_kind :=
  match parse_cddl X s with Some (inr e) => Some (pe_kind e) | _ => None end.

(** 1778-1810. *)
Example unit_stuff :
  parses (txt "thing = { foo : tstr }") = true /\
  parses (txt "bar = (c: int)") = true /\
  parses (txt "thing = {agroup empty} agroup = (age: int, name: tstr) empty = ()") = true /\
  parses (txt "
            address = { delivery }

            delivery = (
            street: tstr, ? ""number"": uint, city //
            po_box: uint, city //
            per_pickup: true )

            city = (
            name: tstr, zip_code: uint
            )") = true /\
  parse_fails (txt "x=9999999999999999999999999999999") = Some MalformedInteger /\
  parse_fails (txt "x=""\ud800""") = Some MalformedText /\
  parse_fails (txt "x=h'61 62 6'") = Some MalformedHex.
Proof. go. Qed.

(** src/flatten.rs 814-909. *)
Definition rdef (n : node) := RuleDef [] n.
Definition tstr_n := NPrelude PTstr.
Example unit_flatten :
  flatten_from_str X (txt "thing = 1") = Ok [(txt "thing", rdef (NLiteral (LInt 1)))] /\
  flatten_from_str X (txt "thing = -1") = Ok [(txt "thing", rdef (NLiteral (LInt (-1))))] /\
  flatten_from_str X (txt "thing = ""abc""") = Ok [(txt "thing", rdef (NLiteral (LText (txt "abc"))))] /\
  flatten_from_str X (txt "thing = int") = Ok [(txt "thing", rdef (NPrelude PInt))] /\
  flatten_from_str X (txt "thing = foo") = Ok [(txt "thing", rdef (NRule (txt "foo") []))] /\
  flatten_from_str X (txt "thing = { foo: tstr }")
    = Ok [(txt "thing", rdef (NMap [NKeyValue (NLiteral (LText (txt "foo"))) tstr_n true]))] /\
  flatten_from_str X (txt "thing = { tstr => tstr }")
    = Ok [(txt "thing", rdef (NMap [NKeyValue tstr_n tstr_n false]))] /\
  flatten_from_str X (txt "foo = ""bar"" thing = { foo => tstr }")
    = Ok [(txt "foo", rdef (NLiteral (LText (txt "bar"))));
          (txt "thing", rdef (NMap [NKeyValue (NRule (txt "foo") []) tstr_n false]))] /\
  flatten_from_str X (txt "message<t, v> = [t, v]")
    = Ok [(txt "message", RuleDef [txt "t"; txt "v"] (NArray [NRule (txt "t") []; NRule (txt "v") []]))] /\
  flatten_from_str X (txt "four_bytes = tstr .size 4")
    = Ok [(txt "four_bytes", rdef (NControl (CtlSize tstr_n (NLiteral (LInt 4)))))].
Proof. go. Qed.

(** tests/errors.rs 25-38. *)
Definition shows (r : option (res unit)) (s : string) : bool := passes r (XShow (txt s)).
Example unit_error_display :
  shows (exec_json X 50 (txt "x") (txt "!") (txt "0")) "Unparseable(!)" = true /\
  shows (exec_json X 50 (txt "x") (txt "x = nil") [0x1f980%N])
    "ValueError(expected value at line 1 column 1)" = true /\
  shows (exec_json X 50 (txt "x") (txt "x = nil") (txt "0")) "Mismatch(expected nil)" = true.
Proof. go. Qed.

(** tests/recurse.rs. *)
Example unit_recursion :
  parses (txt "a = [[[[[[[[[[[[[[[[[[[[[[ int ]]]]]]]]]]]]]]]]]]]]]]") = true /\
  parses (txt "a = {{{{{{{{{{{{{{{{{{{{{{ int }}}}}}}}}}}}}}}}}}}}}}") = true.
Proof. go. Qed.

(** tests/cbor_ivt.rs: nodes built by hand, values through [of_cbor]; the
    [DummyContext] of src/context.rs fails every lookup. *)
Definition dummy : lookup_context := basic_context [].
Definition ivt_run (lk : lookup_context) (n : node) (c : cbor) : option (res unit) :=
  match of_cbor c with
  | Ok v => do_validate X lk 50 v (rdef n)
  | Err e => Some (Err e)
  | Panic => Some Panic
  end.
Definition accepts n c := passes (ivt_run dummy n c) XOk.
Definition rejects n c := passes (ivt_run dummy n c) XErr.
Definition ci (z : Z) := CInteger z.
Definition ct (s : string) := CText (txt s).
Definition three : node := NMap (map (fun s => NKeyValue (NLiteral (LText (txt s))) (NPrelude PInt) true)
                                     ["Alice"; "Bob"; "Carol"]%string).
Definition one_two_three : node := NChoice (map (fun z => NLiteral (LInt z)) [1; 2; 3]%Z).
Definition seven_ctx : lookup_context := basic_context [(txt "seven", rdef (NLiteral (LInt 7)))].
Example unit_ivt :
  forallb (fun p => fst p) 
   [(accepts (NPrelude PInt) (ci 7), 0); (rejects (NPrelude PInt) (ct "abc"), 1);
    (accepts (NPrelude PTstr) (ct "abc"), 2); (rejects (NPrelude PTstr) (ci 7), 3);
    (accepts (NLiteral (LInt 7)) (ci 7), 4); (rejects (NLiteral (LInt 7)) (ci 8), 5);
    (accepts (NLiteral (LText (txt "abc"))) (ct "abc"), 6); (rejects (NLiteral (LText (txt "abc"))) (ci 8), 7);
    (accepts one_two_three (ci 1), 8); (accepts one_two_three (ci 2), 9); (accepts one_two_three (ci 3), 10);
    (rejects one_two_three (ci 4), 11); (rejects one_two_three (ct "abc"), 12);
    (accepts three (CMap [(ct "Alice", ci 42); (ct "Bob", ci 43); (ct "Carol", ci 44)]), 13);
    (rejects three (CMap [(ct "Alice", ci 42); (ct "Carol", ci 44)]), 14);
    (rejects three (CMap [(ct "Alice", ci 42); (ct "Carol", ci 44); (ct "Bob", ct "forty three")]), 15);
    (rejects three (CMap [(ct "Alice", ci 42); (ct "Bob", ci 43); (ct "Carol", ci 44); (ct "David", ci 45)]), 16);
    (rejects three (ci 1), 17);
    (passes (ivt_run seven_ctx (NRule (txt "seven") []) (ci 7)) XOk, 18);
    (passes (ivt_run seven_ctx (NRule (txt "seven") []) (ci 8)) XErr, 19)] = true.
Proof. go. Qed.
