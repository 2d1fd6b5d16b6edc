(** The crate's own integration tests (tests/cbor_cddl.rs, tests/json_cddl.rs),
    run against the model.  They say nothing for all inputs: they are here to
    check the model against the behaviour the crate's authors recorded.

    Generated from the two files: every call of [validate_cbor_bytes],
    [validate_cbor_tstr] and [validate_json_str] outside [if false] blocks, with
    its schema text, its data and the outcome the test asserts.  The outside
    world ([repo_ext]) is a finite table of the decodings, regex matches and
    float conversions these tests need, computed by independent
    implementations. *)
From Coq Require Import List Bool ZArith NArith String.
From Verif Require Import Base Util Data Value Ivt Convert Validate Fun Ast Flatten Parser Api.
Import ListNotations.
Open Scope list_scope.
Open Scope Z_scope.

Fixpoint assoc {A} (t : list (text * A)) (k : text) : option A :=
  match t with
  | [] => None
  | (k', a) :: t' => if text_eqb k k' then Some a else assoc t' k
  end.

Definition cbor_table : list (bytes * cbor) :=
  [([0%N], CInteger 0);
   ([1%N], CInteger 1);
   ([9%N], CInteger 9);
   ([23%N], CInteger 23);
   ([24%N; 24%N], CInteger 24);
   ([25%N; 255%N; 255%N], CInteger 65535);
   ([26%N; 0%N; 1%N; 0%N; 0%N], CInteger 65536);
   ([27%N; 0%N; 0%N; 0%N; 232%N; 212%N; 165%N; 16%N; 0%N], CInteger 1000000000000);
   ([32%N], CInteger (-1));
   ([33%N], CInteger (-2));
   ([57%N; 3%N; 230%N], CInteger (-999));
   ([57%N; 3%N; 231%N], CInteger (-1000));
   ([64%N], CBytes []);
   ([65%N; 23%N], CBytes [23%N]);
   ([67%N; 1%N; 2%N; 3%N], CBytes [1%N; 2%N; 3%N]);
   ([68%N; 1%N; 2%N; 3%N; 4%N], CBytes [1%N; 2%N; 3%N; 4%N]);
   ([96%N], CText (txt ""));
   ([97%N; 48%N], CText (txt "0"));
   ([97%N; 49%N], CText (txt "1"));
   ([97%N; 65%N], CText (txt "A"));
   ([98%N; 48%N; 49%N], CText (txt "01"));
   ([98%N; 48%N; 97%N], CText (txt "0a"));
   ([98%N; 50%N; 48%N], CText (txt "20"));
   ([98%N; 50%N; 51%N], CText (txt "23"));
   ([98%N; 66%N; 66%N], CText (txt "BB"));
   ([98%N; 90%N; 65%N], CText (txt "ZA"));
   ([99%N; 49%N; 50%N; 51%N], CText (txt "123"));
   ([99%N; 65%N; 65%N; 65%N], CText (txt "AAA"));
   ([99%N; 65%N; 66%N; 67%N], CText (txt "ABC"));
   ([99%N; 67%N; 67%N; 67%N], CText (txt "CCC"));
   ([99%N; 69%N; 118%N; 101%N], CText (txt "Eve"));
   ([99%N; 230%N; 176%N; 180%N], CText ([27700%N]));
   ([100%N; 49%N; 50%N; 51%N; 52%N], CText (txt "1234"));
   ([100%N; 73%N; 69%N; 84%N; 70%N], CText (txt "IETF"));
   ([101%N; 65%N; 66%N; 67%N; 66%N; 65%N], CText (txt "ABCBA"));
   ([102%N; 65%N; 66%N; 67%N; 66%N; 66%N; 65%N], CText (txt "ABCBBA"));
   ([120%N; 27%N; 78%N; 49%N; 64%N; 67%N; 72%N; 53%N; 55%N; 72%N; 70%N; 46%N; 52%N; 90%N; 110%N; 113%N; 101%N; 48%N; 46%N; 100%N; 89%N; 74%N; 82%N; 78%N; 46%N; 105%N; 103%N; 106%N; 102%N], CText (txt "N1@CH57HF.4Znqe0.dYJRN.igjf"));
   ([128%N], CArray []);
   ([129%N; 24%N; 42%N], CArray [CInteger 42]);
   ([130%N; 1%N; 2%N], CArray [CInteger 1; CInteger 2]);
   ([130%N; 24%N; 43%N; 101%N; 67%N; 97%N; 114%N; 111%N; 108%N], CArray [CInteger 43; CText (txt "Carol")]);
   ([130%N; 101%N; 65%N; 108%N; 105%N; 99%N; 101%N; 24%N; 42%N], CArray [CText (txt "Alice"); CInteger 42]);
   ([131%N; 1%N; 2%N; 3%N], CArray [CInteger 1; CInteger 2; CInteger 3]);
   ([131%N; 101%N; 68%N; 97%N; 118%N; 105%N; 100%N; 24%N; 44%N; 24%N; 45%N], CArray [CText (txt "David"); CInteger 44; CInteger 45]);
   ([132%N; 99%N; 120%N; 121%N; 122%N; 17%N; 251%N; 64%N; 35%N; 204%N; 204%N; 204%N; 204%N; 204%N; 205%N; 244%N], CArray [CText (txt "xyz"); CInteger 17; CFloat 4621762822593629389%N; CBool false]);
   ([161%N; 106%N; 112%N; 101%N; 114%N; 95%N; 112%N; 105%N; 99%N; 107%N; 117%N; 112%N; 245%N], CMap [(CText (txt "per_pickup"), CBool true)]);
   ([162%N; 100%N; 110%N; 97%N; 109%N; 101%N; 99%N; 66%N; 111%N; 98%N; 99%N; 97%N; 103%N; 101%N; 24%N; 43%N], CMap [(CText (txt "name"), CText (txt "Bob")); (CText (txt "age"), CInteger 43)]);
   ([163%N; 102%N; 112%N; 111%N; 95%N; 98%N; 111%N; 120%N; 24%N; 101%N; 100%N; 110%N; 97%N; 109%N; 101%N; 109%N; 83%N; 97%N; 110%N; 32%N; 70%N; 114%N; 97%N; 110%N; 99%N; 105%N; 115%N; 99%N; 111%N; 104%N; 122%N; 105%N; 112%N; 95%N; 99%N; 111%N; 100%N; 101%N; 26%N; 0%N; 1%N; 111%N; 151%N], CMap [(CText (txt "po_box"), CInteger 101); (CText (txt "name"), CText (txt "San Francisco")); (CText (txt "zip_code"), CInteger 94103)]);
   ([164%N; 102%N; 115%N; 116%N; 114%N; 101%N; 101%N; 116%N; 108%N; 69%N; 108%N; 101%N; 118%N; 101%N; 110%N; 116%N; 104%N; 32%N; 83%N; 116%N; 46%N; 102%N; 110%N; 117%N; 109%N; 98%N; 101%N; 114%N; 25%N; 1%N; 119%N; 100%N; 110%N; 97%N; 109%N; 101%N; 109%N; 83%N; 97%N; 110%N; 32%N; 70%N; 114%N; 97%N; 110%N; 99%N; 105%N; 115%N; 99%N; 111%N; 104%N; 122%N; 105%N; 112%N; 95%N; 99%N; 111%N; 100%N; 101%N; 26%N; 0%N; 1%N; 111%N; 151%N], CMap [(CText (txt "street"), CText (txt "Eleventh St.")); (CText (txt "number"), CInteger 375); (CText (txt "name"), CText (txt "San Francisco")); (CText (txt "zip_code"), CInteger 94103)]);
   ([244%N], CBool false);
   ([245%N], CBool true);
   ([246%N], CNull);
   ([249%N; 0%N; 0%N], CFloat 0%N);
   ([249%N; 60%N; 0%N], CFloat 4607182418800017408%N);
   ([250%N; 71%N; 195%N; 80%N; 0%N], CFloat 4681608360884174848%N);
   ([251%N; 126%N; 55%N; 228%N; 60%N; 136%N; 0%N; 117%N; 156%N], CFloat 9094988921128908188%N)].

Definition json_table : list (text * json) :=
  [(txt " """" ", JString (txt ""));
   (txt " ""0"" ", JString (txt "0"));
   (txt " ""01"" ", JString (txt "01"));
   (txt " ""0a"" ", JString (txt "0a"));
   (txt " ""1"" ", JString (txt "1"));
   (txt " ""123"" ", JString (txt "123"));
   (txt " ""1234"" ", JString (txt "1234"));
   (txt " ""20"" ", JString (txt "20"));
   (txt " ""23"" ", JString (txt "23"));
   (txt " ""A"" ", JString (txt "A"));
   (txt " ""AAA"" ", JString (txt "AAA"));
   (txt " ""ABC"" ", JString (txt "ABC"));
   (txt " ""ABCBA"" ", JString (txt "ABCBA"));
   (txt " ""ABCBBA"" ", JString (txt "ABCBBA"));
   (txt " ""BB"" ", JString (txt "BB"));
   (txt " ""CCC"" ", JString (txt "CCC"));
   (txt " ""ZA"" ", JString (txt "ZA"));
   (txt " { ""abc"": 0 } ", JObject [(txt "abc", JNumber (JPosInt 0%N))]);
   (txt " { ""name"": ""foo"", ""sock"": [""foo.dev"", 8080]} ", JObject [(txt "name", JString (txt "foo")); (txt "sock", JArray [JString (txt "foo.dev"); JNumber (JPosInt 8080%N)])]);
   (txt " { ""name"": ""foo"", ""sock"": [[10,0,0,1], 8080]} ", JObject [(txt "name", JString (txt "foo")); (txt "sock", JArray [JArray [JNumber (JPosInt 10%N); JNumber (JPosInt 0%N); JNumber (JPosInt 0%N); JNumber (JPosInt 1%N)]; JNumber (JPosInt 8080%N)])]);
   (txt """""", JString (txt ""));
   (txt """Eve""", JString (txt "Eve"));
   (txt """J""", JString (txt "J"));
   (txt """JSON""", JString (txt "JSON"));
   (txt """N1@CH57HF.4Znqe0.dYJRN.igjf""", JString (txt "N1@CH57HF.4Znqe0.dYJRN.igjf"));
   (txt """abc""", JString (txt "abc"));
   (txt """abcdefghi""", JString (txt "abcdefghi"));
   (txt """abcdefghij""", JString (txt "abcdefghij"));
   (txt """abcdefghijk""", JString (txt "abcdefghijk"));
   ([34%N; 27700%N; 34%N], JString ([27700%N]));
   ([34%N; 27700%N; 27700%N; 27700%N; 34%N], JString ([27700%N; 27700%N; 27700%N]));
   ([34%N; 27700%N; 27700%N; 27700%N; 27700%N; 34%N], JString ([27700%N; 27700%N; 27700%N; 27700%N]));
   (txt "-1", JNumber (JNegInt (-1)));
   (txt "-1000", JNumber (JNegInt (-1000)));
   (txt "-2", JNumber (JNegInt (-2)));
   (txt "-256", JNumber (JNegInt (-256)));
   (txt "-999", JNumber (JNegInt (-999)));
   (txt "0", JNumber (JPosInt 0%N));
   (txt "0.0", JNumber (JFloat 0%N));
   (txt "1", JNumber (JPosInt 1%N));
   (txt "1.0", JNumber (JFloat 4607182418800017408%N));
   (txt "1000000000000", JNumber (JPosInt 1000000000000%N));
   (txt "16777215", JNumber (JPosInt 16777215%N));
   (txt "16777216", JNumber (JPosInt 16777216%N));
   (txt "1e300", JNumber (JFloat 9094988921128908188%N));
   (txt "1e5", JNumber (JFloat 4681608360884174848%N));
   (txt "23", JNumber (JPosInt 23%N));
   (txt "24", JNumber (JPosInt 24%N));
   (txt "256", JNumber (JPosInt 256%N));
   (txt "[ ""foo"", true ]", JArray [JString (txt "foo"); JBool true]);
   (txt "[ ""foo"", true, 11 ]", JArray [JString (txt "foo"); JBool true; JNumber (JPosInt 11%N)]);
   (txt "[ ""foo"", true, 2 ]", JArray [JString (txt "foo"); JBool true; JNumber (JPosInt 2%N)]);
   (txt "[ ""foo"", true, 4 ]", JArray [JString (txt "foo"); JBool true; JNumber (JPosInt 4%N)]);
   (txt "[ 2 ]", JArray [JNumber (JPosInt 2%N)]);
   (txt "[ 4 ]", JArray [JNumber (JPosInt 4%N)]);
   (txt "[""1st"",""2nd"",""3rd"",""4th"",""5th""]", JArray [JString (txt "1st"); JString (txt "2nd"); JString (txt "3rd"); JString (txt "4th"); JString (txt "5th")]);
   (txt "[""Alice"",42]", JArray [JString (txt "Alice"); JNumber (JPosInt 42%N)]);
   (txt "[""David"",44,45]", JArray [JString (txt "David"); JNumber (JPosInt 44%N); JNumber (JPosInt 45%N)]);
   (txt "[""JSON"", 123]", JArray [JString (txt "JSON"); JNumber (JPosInt 123%N)]);
   (txt "[""a"",""b"",""c"",""d"",""e"",""f""]", JArray [JString (txt "a"); JString (txt "b"); JString (txt "c"); JString (txt "d"); JString (txt "e"); JString (txt "f")]);
   (txt "[""foo"", [[10,0,0,1], 8080], ""v4""]", JArray [JString (txt "foo"); JArray [JArray [JNumber (JPosInt 10%N); JNumber (JPosInt 0%N); JNumber (JPosInt 0%N); JNumber (JPosInt 1%N)]; JNumber (JPosInt 8080%N)]; JString (txt "v4")]);
   (txt "[""one"", ""two"", ""three"", ""four""]", JArray [JString (txt "one"); JString (txt "two"); JString (txt "three"); JString (txt "four")]);
   (txt "[""one"", ""two"", ""three""]", JArray [JString (txt "one"); JString (txt "two"); JString (txt "three")]);
   (txt "[""one"", ""two""]", JArray [JString (txt "one"); JString (txt "two")]);
   (txt "[""xyz"",17,9.9,false]", JArray [JString (txt "xyz"); JNumber (JPosInt 17%N); JNumber (JFloat 4621762822593629389%N); JBool false]);
   (txt "[1, 2, 3, 4, 5, 6, 7]", JArray [JNumber (JPosInt 1%N); JNumber (JPosInt 2%N); JNumber (JPosInt 3%N); JNumber (JPosInt 4%N); JNumber (JPosInt 5%N); JNumber (JPosInt 6%N); JNumber (JPosInt 7%N)]);
   (txt "[1, 2, 3, 4, 5, 6]", JArray [JNumber (JPosInt 1%N); JNumber (JPosInt 2%N); JNumber (JPosInt 3%N); JNumber (JPosInt 4%N); JNumber (JPosInt 5%N); JNumber (JPosInt 6%N)]);
   (txt "[1, 2, 3, 4, 5]", JArray [JNumber (JPosInt 1%N); JNumber (JPosInt 2%N); JNumber (JPosInt 3%N); JNumber (JPosInt 4%N); JNumber (JPosInt 5%N)]);
   (txt "[1, 2, 3.0]", JArray [JNumber (JPosInt 1%N); JNumber (JPosInt 2%N); JNumber (JFloat 4613937818241073152%N)]);
   (txt "[1, 2, 3]", JArray [JNumber (JPosInt 1%N); JNumber (JPosInt 2%N); JNumber (JPosInt 3%N)]);
   (txt "[1, 2]", JArray [JNumber (JPosInt 1%N); JNumber (JPosInt 2%N)]);
   (txt "[1.0, 2, 3]", JArray [JNumber (JFloat 4607182418800017408%N); JNumber (JPosInt 2%N); JNumber (JPosInt 3%N)]);
   (txt "[123, ""JSON""]", JArray [JNumber (JPosInt 123%N); JString (txt "JSON")]);
   (txt "[1]", JArray [JNumber (JPosInt 1%N)]);
   (txt "[4, 5, 6]", JArray [JNumber (JPosInt 4%N); JNumber (JPosInt 5%N); JNumber (JPosInt 6%N)]);
   (txt "[42]", JArray [JNumber (JPosInt 42%N)]);
   (txt "[43,""Carol""]", JArray [JNumber (JPosInt 43%N); JString (txt "Carol")]);
   (txt "[4]", JArray [JNumber (JPosInt 4%N)]);
   (txt "[[1, 2, 3], [4, 5, 6]]", JArray [JArray [JNumber (JPosInt 1%N); JNumber (JPosInt 2%N); JNumber (JPosInt 3%N)]; JArray [JNumber (JPosInt 4%N); JNumber (JPosInt 5%N); JNumber (JPosInt 6%N)]]);
   (txt "[[1, 2], [3, 4]]", JArray [JArray [JNumber (JPosInt 1%N); JNumber (JPosInt 2%N)]; JArray [JNumber (JPosInt 3%N); JNumber (JPosInt 4%N)]]);
   (txt "[]", JArray []);
   (txt "false", JBool false);
   (txt "null", JNull);
   (txt "true", JBool true);
   (txt "{
        ""street"": ""Eleventh St."",
        ""name"": ""San Francisco""
    }", JObject [(txt "street", JString (txt "Eleventh St.")); (txt "name", JString (txt "San Francisco"))]);
   (txt "{
        ""street"": ""Eleventh St."",
        ""name"": ""San Francisco"",
        ""zip_code"": 94103
    }", JObject [(txt "street", JString (txt "Eleventh St.")); (txt "name", JString (txt "San Francisco")); (txt "zip_code", JNumber (JPosInt 94103%N))]);
   (txt "{ ""aaa"": 17, ""zzz"": ""baz"" }", JObject [(txt "aaa", JNumber (JPosInt 17%N)); (txt "zzz", JString (txt "baz"))]);
   (txt "{ ""foo"": ""not-an-int"" }", JObject [(txt "foo", JString (txt "not-an-int"))]);
   (txt "{ ""foo"": ""not-int"" }", JObject [(txt "foo", JString (txt "not-int"))]);
   (txt "{ ""foo"": 17, ""bar"": ""baz"" }", JObject [(txt "foo", JNumber (JPosInt 17%N)); (txt "bar", JString (txt "baz"))]);
   (txt "{ ""test"": 99 }", JObject [(txt "test", JNumber (JPosInt 99%N))]);
   (txt "{ ""top"": ""yes"", ""choice1"": 99 }", JObject [(txt "top", JString (txt "yes")); (txt "choice1", JNumber (JPosInt 99%N))]);
   (txt "{""name"": ""Alice"", ""age"": 33 }", JObject [(txt "name", JString (txt "Alice")); (txt "age", JNumber (JPosInt 33%N))]);
   (txt "{""name"": ""Alice"", ""age"": 33, ""four"": ""X"" }", JObject [(txt "name", JString (txt "Alice")); (txt "age", JNumber (JPosInt 33%N)); (txt "four", JString (txt "X"))]);
   (txt "{""name"": ""Alice"", ""age"": 33, ""one"": ""X"" }", JObject [(txt "name", JString (txt "Alice")); (txt "age", JNumber (JPosInt 33%N)); (txt "one", JString (txt "X"))]);
   (txt "{""name"": ""Alice"", ""age"": 33, ""three"": ""X"" }", JObject [(txt "name", JString (txt "Alice")); (txt "age", JNumber (JPosInt 33%N)); (txt "three", JString (txt "X"))]);
   (txt "{""name"": ""Alice"", ""age"": 33, ""two"": ""X"" }", JObject [(txt "name", JString (txt "Alice")); (txt "age", JNumber (JPosInt 33%N)); (txt "two", JString (txt "X"))]);
   (txt "{""name"": ""Alice"", ""four"": ""X"" }", JObject [(txt "name", JString (txt "Alice")); (txt "four", JString (txt "X"))]);
   (txt "{""name"":""Bob"",""age"":43}", JObject [(txt "name", JString (txt "Bob")); (txt "age", JNumber (JPosInt 43%N))]);
   (txt "{""per_pickup"":true}", JObject [(txt "per_pickup", JBool true)]);
   (txt "{""po_box"":101,""name"":""San Francisco"",""zip_code"":94103}", JObject [(txt "po_box", JNumber (JPosInt 101%N)); (txt "name", JString (txt "San Francisco")); (txt "zip_code", JNumber (JPosInt 94103%N))]);
   (txt "{""street"":""Eleventh St."",""number"":375,""name"":""San Francisco"",""zip_code"":94103}", JObject [(txt "street", JString (txt "Eleventh St.")); (txt "number", JNumber (JPosInt 375%N)); (txt "name", JString (txt "San Francisco")); (txt "zip_code", JNumber (JPosInt 94103%N))]);
   (txt "{""type"":""no"", ""value"": ""now""}", JObject [(txt "type", JString (txt "no")); (txt "value", JString (txt "now"))]);
   (txt "{""type"":""reboot"",""value"":""now""}", JObject [(txt "type", JString (txt "reboot")); (txt "value", JString (txt "now"))]);
   (txt "{""type"":""sleep"", ""value"":150}", JObject [(txt "type", JString (txt "sleep")); (txt "value", JNumber (JPosInt 150%N))]);
   (txt "{""type"":""sleep"", ""value"":15}", JObject [(txt "type", JString (txt "sleep")); (txt "value", JNumber (JPosInt 15%N))])].

Definition float_table : list (text * N) :=
  [(txt "0.0", 0%N);
   (txt "0.1", 4591870180066957722%N);
   (txt "0.9", 4606281698874543309%N);
   (txt "1.2", 4608083138725491507%N);
   (txt "5.3", 4617653287933653811%N)].

Definition regex_table : list (text * list text) :=
  [(txt "^(0|[1-9][0-9]*)$", [txt "0"; txt "1"; txt "123"; txt "1234"; txt "20"; txt "23"]);
   (txt "^A", [txt "A"; txt "AAA"; txt "ABC"; txt "ABCBA"; txt "ABCBBA"]);
   (txt "BB", [txt "ABCBBA"; txt "BB"]);
   (txt "CCC", [txt "CCC"]);
   (txt "[A-Za-z0-9]+@[A-Za-z0-9]+(\.[A-Za-z0-9]+)+", [txt "N1@CH57HF.4Znqe0.dYJRN.igjf"])].

Definition display_table : list (text * text) :=
  [([0%N], txt "0");
   ([4591870180066957722%N], txt "0.1");
   ([4606281698874543309%N], txt "0.9");
   ([4608083138725491507%N], txt "1.2");
   ([4617653287933653811%N], txt "5.3")].

Definition escape_table : list (text * text) :=
  [(txt "[A-Za-z0-9]+@[A-Za-z0-9]+(\\.[A-Za-z0-9]+)+", txt "[A-Za-z0-9]+@[A-Za-z0-9]+(\.[A-Za-z0-9]+)+")].

Definition repo_ext : ext := {|
  f64_display := fun u => match assoc display_table [u] with Some t => t | None => txt "?" end;
  f64_parse := assoc float_table;
  regex_compiles := fun r => match assoc regex_table r with Some _ => true | None => false end;
  regex_match := fun r t =>
    match assoc regex_table r with Some ts => existsb (text_eqb t) ts | None => false end;
  cbor_decode := fun b => match assoc cbor_table b with Some c => inl c | None => inr (txt "bad") end;
  json_decode := fun b => match assoc json_table b with Some c => inl c | None => inr (txt "bad") end;
  unescape := fun t => match assoc escape_table t with Some u => Some u | None => Some t end;
  base64_decode := fun _ => None
|}.

(** What a test asserts: [unwrap], [unwrap_err], the [ErrorMatch] methods
    (src/util.rs 88-140), or the text of the error. *)
Inductive expect :=
| XOk | XErr | XMismatch | XMissing | XGeneric | XParse | XStructural | XShow (t : text).

Definition meets (x : expect) (r : res unit) : bool :=
  match x, r with
  | XOk, Ok _ => true
  | XErr, Err _ => true
  | XMismatch, Err (EMismatch _) => true
  | XMissing, Err (EMissingRule _) => true
  | XGeneric, Err EGenericError => true
  | XParse, Err (EParse _) => true
  | XStructural, Err (EStructural _) => true
  | XShow t, Err e => text_eqb t (show_error e)
  | _, _ => false
  end.

(** The two entry points with an explicit fuel for the validator. *)
Definition exec_on (X : ext) (n : nat) (name schema : text) (d : unit -> res value) : option (res unit) :=
  match flatten_from_str X schema with
  | Ok rs =>
      match get_rule rs name with
      | Ok def =>
          match d tt with
          | Ok v => do_validate X (basic_context rs) n v def
          | Err e => Some (Err e)
          | Panic => Some Panic
          end
      | Err e => Some (Err e)
      | Panic => Some Panic
      end
  | Err e => Some (Err e)
  | Panic => Some Panic
  end.
Definition exec_json X n name schema data :=
  exec_on X n name schema
    (fun _ => match json_decode X data with inr m => Err (EValueError m) | inl j => of_json j end).
Definition exec_cbor X n name schema data :=
  exec_on X n name schema
    (fun _ => match cbor_decode X data with inr m => Err (EValueError m) | inl j => of_cbor j end).

(** These are the modelled entry points. *)
Lemma exec_json_run X n name schema data r :
  exec_json X n name schema data = Some r -> validate_json_str X name schema data = r.
Proof.
  unfold exec_json, exec_on, validate_json_str, bind_res.
  destruct (flatten_from_str X schema) as [rs| |]; try congruence.
  destruct (get_rule rs name) as [def| |]; try congruence.
  destruct (json_decode X data) as [j|m]; try congruence.
  destruct (of_json j); try congruence. apply run_validate_run.
Qed.
Lemma exec_cbor_run X n name schema data r :
  exec_cbor X n name schema data = Some r -> validate_cbor_bytes X name schema data = r.
Proof.
  unfold exec_cbor, exec_on, validate_cbor_bytes, bind_res.
  destruct (flatten_from_str X schema) as [rs| |]; try congruence.
  destruct (get_rule rs name) as [def| |]; try congruence.
  destruct (cbor_decode X data) as [j|m]; try congruence.
  destruct (of_cbor j); try congruence. apply run_validate_run.
Qed.

Definition passes (r : option (res unit)) (x : expect) : bool :=
  match r with Some r => meets x r | None => false end.
Definition all_json (l : list (text * text * list (text * expect))) : bool :=
  forallb (fun p => let '(name, schema, ts) := p in
    forallb (fun q => passes (exec_json repo_ext 200 name schema (fst q)) (snd q)) ts) l.
Definition all_cbor (l : list (text * text * list (bytes * expect))) : bool :=
  forallb (fun p => let '(name, schema, ts) := p in
    forallb (fun q => passes (exec_cbor repo_ext 200 name schema (fst q)) (snd q)) ts) l.

(** A list that passes is a list of facts about the entry points. *)
Lemma all_json_api l : all_json l = true ->
  forall name schema ts data x, In (name, schema, ts) l -> In (data, x) ts ->
  meets x (validate_json_str repo_ext name schema data) = true.
Proof.
  unfold all_json. rewrite forallb_forall. intros H name schema ts data x H1 H2.
  specialize (H _ H1). cbn in H. rewrite forallb_forall in H. specialize (H _ H2).
  unfold passes in H. cbn [fst snd] in H.
  destruct (exec_json repo_ext 200 name schema data) eqn:E; [|discriminate].
  apply exec_json_run in E. rewrite E; exact H.
Qed.
Lemma all_cbor_api l : all_cbor l = true ->
  forall name schema ts data x, In (name, schema, ts) l -> In (data, x) ts ->
  meets x (validate_cbor_bytes repo_ext name schema data) = true.
Proof.
  unfold all_cbor. rewrite forallb_forall. intros H name schema ts data x H1 H2.
  specialize (H _ H1). cbn in H. rewrite forallb_forall in H. specialize (H _ H2).
  unfold passes in H. cbn [fst snd] in H.
  destruct (exec_cbor repo_ext 200 name schema data) eqn:E; [|discriminate].
  apply exec_cbor_run in E. rewrite E; exact H.
Qed.

(** tests/cbor_cddl.rs, [validate_cbor_null]. *)
Example test_cbor_validate_cbor_null : all_cbor
  [(txt "thing", txt "thing = nil",
     [([246%N], XOk);
      ([0%N], XErr);
      ([244%N], XShow (txt "Mismatch(expected nil)"))])] = true.
Proof. vm_compute; reflexivity. Qed.

(** tests/cbor_cddl.rs, [validate_cbor_bool]. *)
Example test_cbor_validate_cbor_bool : all_cbor
  [(txt "thing", txt "thing = true",
     [([245%N], XOk);
      ([244%N], XErr);
      ([246%N], XShow (txt "Mismatch(expected true)"))])] = true.
Proof. vm_compute; reflexivity. Qed.

(** tests/cbor_cddl.rs, [validate_cbor_float]. *)
Example test_cbor_validate_cbor_float : all_cbor
  [(txt "thing", txt "thing = 0.0",
     [([249%N; 0%N; 0%N], XOk);
      ([249%N; 60%N; 0%N], XShow (txt "Mismatch(expected 0)"))]);
   (txt "thing", txt "thing = float",
     [([249%N; 60%N; 0%N], XOk);
      ([250%N; 71%N; 195%N; 80%N; 0%N], XOk);
      ([251%N; 126%N; 55%N; 228%N; 60%N; 136%N; 0%N; 117%N; 156%N], XOk)]);
   (txt "thing", txt "thing = float16",
     [([249%N; 60%N; 0%N], XOk)]);
   (txt "thing", txt "thing = float32",
     [([249%N; 60%N; 0%N], XOk);
      ([250%N; 71%N; 195%N; 80%N; 0%N], XOk)]);
   (txt "thing", txt "thing = float64",
     [([249%N; 60%N; 0%N], XOk);
      ([251%N; 126%N; 55%N; 228%N; 60%N; 136%N; 0%N; 117%N; 156%N], XOk)])] = true.
Proof. vm_compute; reflexivity. Qed.

(** tests/cbor_cddl.rs, [validate_cbor_choice]. *)
Example test_cbor_validate_cbor_choice : all_cbor
  [(txt "thing", txt "thing = 23 / 24",
     [([23%N], XOk);
      ([24%N; 24%N], XOk)]);
   (txt "thing", txt "thing = (foo // bar) foo = (int / float) bar = tstr",
     [([23%N], XOk);
      ([249%N; 60%N; 0%N], XOk);
      ([100%N; 73%N; 69%N; 84%N; 70%N], XOk);
      ([245%N], XShow (txt "Mismatch(expected choice of 2)"))]);
   (txt "thing", txt "thing = (foo / bar) foo = (int / float) bar = tstr",
     [([23%N], XOk);
      ([249%N; 60%N; 0%N], XOk);
      ([100%N; 73%N; 69%N; 84%N; 70%N], XOk);
      ([245%N], XShow (txt "Mismatch(expected choice of 2)"))]);
   (txt "thing", txt "thing = (int / float // tstr / bstr)",
     [([23%N], XOk);
      ([249%N; 60%N; 0%N], XOk);
      ([100%N; 73%N; 69%N; 84%N; 70%N], XOk);
      ([245%N], XShow (txt "Mismatch(expected choice of 2)"))])] = true.
Proof. vm_compute; reflexivity. Qed.

(** tests/cbor_cddl.rs, [validate_cbor_integer]. *)
Example test_cbor_validate_cbor_integer : all_cbor
  [(txt "thing", txt "thing = 1",
     [([1%N], XOk);
      ([246%N], XErr);
      ([249%N; 60%N; 0%N], XErr);
      ([245%N], XErr)]);
   (txt "thing", txt "thing = int",
     [([0%N], XOk);
      ([24%N; 24%N], XOk);
      ([57%N; 3%N; 231%N], XOk);
      ([249%N; 60%N; 0%N], XErr)]);
   (txt "thing", txt "thing = uint",
     [([0%N], XOk);
      ([24%N; 24%N], XOk);
      ([57%N; 3%N; 231%N], XErr)]);
   (txt "thing", txt "thing = nint",
     [([57%N; 3%N; 231%N], XOk);
      ([0%N], XErr);
      ([24%N; 24%N], XErr)])] = true.
Proof. vm_compute; reflexivity. Qed.

(** tests/cbor_cddl.rs, [validate_cbor_ranges]. *)
Example test_cbor_validate_cbor_ranges : all_cbor
  [(txt "thing", txt "thing = 1..5",
     [([1%N], XOk);
      ([24%N; 24%N], XShow (txt "Mismatch(expected 1..5)"));
      ([249%N; 60%N; 0%N], XShow (txt "Mismatch(expected 1..5)"))]);
   (txt "thing", txt "thing = 1..24",
     [([24%N; 24%N], XOk)]);
   (txt "thing", txt "thing = 1...24",
     [([23%N], XOk);
      ([24%N; 24%N], XErr)]);
   (txt "thing", txt "thing = 1 .. 5.3",
     [([1%N], XShow (txt "Structural(mismatched types on range operator)"))]);
   (txt "thing", txt "max=5 thing = 1..max",
     [([1%N], XOk);
      ([24%N; 24%N], XErr)]);
   (txt "thing", txt "thing = 0.9..1.2",
     [([249%N; 60%N; 0%N], XOk);
      ([249%N; 0%N; 0%N], XErr);
      ([1%N], XShow (txt "Mismatch(expected 0.9..1.2)"))]);
   (txt "thing", txt "thing = 1..uint",
     [([1%N], XShow (txt "Structural(bad type on range operator)"))]);
   (txt "thing", txt "thing = 1..[5]",
     [([1%N], XShow (txt "Structural(bad type on range operator)"))])] = true.
Proof. vm_compute; reflexivity. Qed.

(** tests/cbor_cddl.rs, [validate_cbor_textstring]. *)
Example test_cbor_validate_cbor_textstring : all_cbor
  [(txt "thing", txt "thing = tstr",
     [([96%N], XOk);
      ([100%N; 73%N; 69%N; 84%N; 70%N], XOk);
      ([99%N; 230%N; 176%N; 180%N], XOk);
      ([64%N], XShow (txt "Mismatch(expected tstr)"))]);
   (txt "thing", txt "thing = text",
     [([96%N], XOk);
      ([100%N; 73%N; 69%N; 84%N; 70%N], XOk);
      ([99%N; 230%N; 176%N; 180%N], XOk);
      ([64%N], XShow (txt "Mismatch(expected tstr)"))])] = true.
Proof. vm_compute; reflexivity. Qed.

(** tests/cbor_cddl.rs, [validate_cbor_bytestring]. *)
Example test_cbor_validate_cbor_bytestring : all_cbor
  [(txt "thing", txt "thing = bstr",
     [([64%N], XOk);
      ([68%N; 1%N; 2%N; 3%N; 4%N], XOk);
      ([96%N], XErr);
      ([131%N; 1%N; 2%N; 3%N], XShow (txt "Mismatch(expected bstr)"))]);
   (txt "thing", txt "thing = bytes",
     [([64%N], XOk);
      ([68%N; 1%N; 2%N; 3%N; 4%N], XOk);
      ([96%N], XErr);
      ([131%N; 1%N; 2%N; 3%N], XShow (txt "Mismatch(expected bstr)"))]);
   (txt "thing", txt "thing = h'01020304'",
     [([68%N; 1%N; 2%N; 3%N; 4%N], XOk)])] = true.
Proof. vm_compute; reflexivity. Qed.

(** tests/cbor_cddl.rs, [validate_cbor_array]. *)
Example test_cbor_validate_cbor_array : all_cbor
  [(txt "thing", txt "thing = []",
     [([128%N], XOk);
      ([246%N], XErr);
      ([131%N; 1%N; 2%N; 3%N], XShow (txt "Mismatch(expected shorter array)"))]);
   (txt "thing", txt "thing = [1, 2, 3]",
     [([131%N; 1%N; 2%N; 3%N], XOk);
      ([128%N], XShow (txt "Mismatch(expected array element 1)"))])] = true.
Proof. vm_compute; reflexivity. Qed.

(** tests/cbor_cddl.rs, [validate_cbor_homogenous_array]. *)
Example test_cbor_validate_cbor_homogenous_array : all_cbor
  [(txt "thing", txt "thing = [* int]",
     [([128%N], XOk);
      ([131%N; 1%N; 2%N; 3%N], XOk)]);
   (txt "thing", txt "thing = [+ int]",
     [([131%N; 1%N; 2%N; 3%N], XOk);
      ([128%N], XShow (txt "Mismatch(expected more array element [+ Int])"))]);
   (txt "thing", txt "thing = [? int]",
     [([128%N], XOk);
      ([129%N; 24%N; 42%N], XOk);
      ([131%N; 1%N; 2%N; 3%N], XShow (txt "Mismatch(expected shorter array)"))]);
   (txt "thing", txt "thing = [* tstr]",
     [([131%N; 1%N; 2%N; 3%N], XShow (txt "Mismatch(expected shorter array)"))]);
   (txt "thing", txt "thing = [* zipcode]  zipcode = int",
     [([128%N], XOk);
      ([131%N; 1%N; 2%N; 3%N], XOk)])] = true.
Proof. vm_compute; reflexivity. Qed.

(** tests/cbor_cddl.rs, [validate_cbor_array_groups]. *)
Example test_cbor_validate_cbor_array_groups : all_cbor
  [(txt "thing", txt "thing = [int, (int, int)]",
     [([131%N; 1%N; 2%N; 3%N], XOk)]);
   (txt "thing", txt "thing = [int, foo] foo = (int, int)",
     [([131%N; 1%N; 2%N; 3%N], XOk);
      ([128%N], XMismatch);
      ([130%N; 1%N; 2%N], XMismatch)]);
   (txt "thing", txt "thing = [(int, int, int)]",
     [([131%N; 1%N; 2%N; 3%N], XOk)]);
   (txt "thing", txt "thing = [* (int)]",
     [([128%N], XOk);
      ([131%N; 1%N; 2%N; 3%N], XOk)]);
   (txt "thing", txt "thing = [* (int, int, int)]",
     [([131%N; 1%N; 2%N; 3%N], XOk)]);
   (txt "thing", txt "thing = [* (int, int)]",
     [([128%N], XOk);
      ([131%N; 1%N; 2%N; 3%N], XMismatch)]);
   (txt "thing", txt "thing = [a: int, b: int, bar] bar = (c: int)",
     [([131%N; 1%N; 2%N; 3%N], XOk)]);
   (txt "thing", txt "thing = [a: int, (bar)] bar = (b: int, c: int)",
     [([131%N; 1%N; 2%N; 3%N], XOk)]);
   (txt "thing", txt "thing = [a: int, b: bar] bar = (b: int, c: int)",
     [([131%N; 1%N; 2%N; 3%N], XShow (txt "Unsupported standalone group"))]);
   (txt "thing", txt "thing = [int, (foo // bar)] foo = (int, tstr) bar = (int, int)",
     [([131%N; 1%N; 2%N; 3%N], XOk)]);
   (txt "thing", txt "thing = [(int, (int, bool // (int, tstr // int, int)))]",
     [([131%N; 1%N; 2%N; 3%N], XOk)])] = true.
Proof. vm_compute; reflexivity. Qed.

(** tests/cbor_cddl.rs, [validate_cbor_array_unwrap]. *)
Example test_cbor_validate_cbor_array_unwrap : all_cbor
  [(txt "thing", txt "header = [a: int, b: int] thing = [~header c: int]",
     [([131%N; 1%N; 2%N; 3%N], XOk);
      ([128%N], XErr)]);
   (txt "thing", txt "footer = [a: int, b: int] thing = [c: int ~footer]",
     [([131%N; 1%N; 2%N; 3%N], XOk)]);
   (txt "thing", txt "middle = [int] thing = [a: int, ~middle, c: int]",
     [([131%N; 1%N; 2%N; 3%N], XOk)]);
   (txt "thing", txt "foo = int middle = [foo] thing = [a: int, ~middle, c: int]",
     [([131%N; 1%N; 2%N; 3%N], XOk)]);
   (txt "thing", txt "header = [a: int] thing = [~header, c: int]",
     [([131%N; 1%N; 2%N; 3%N], XErr)]);
   (txt "thing", txt "footer = [a: int] thing = [c: int, ~footer]",
     [([131%N; 1%N; 2%N; 3%N], XErr)]);
   (txt "thing", txt "footer = [a: int, b: int] thing = [c: int, d: int, ~footer]",
     [([131%N; 1%N; 2%N; 3%N], XShow (txt "Mismatch(expected array element Int)"))]);
   (txt "thing", txt "thing = [c: int ~footer]",
     [([131%N; 1%N; 2%N; 3%N], XShow (txt "MissingRule(footer)"))]);
   (txt "thing", txt "header = {a: int, b: int} thing = [~header c: int]",
     [([131%N; 1%N; 2%N; 3%N], XShow (txt "Mismatch(expected unwrap array)"))])] = true.
Proof. vm_compute; reflexivity. Qed.

(** tests/cbor_cddl.rs, [validate_cbor_array_record]. *)
Example test_cbor_validate_cbor_array_record : all_cbor
  [(txt "thing", txt "thing = [a: int, b: int, c: int]",
     [([131%N; 1%N; 2%N; 3%N], XOk);
      ([128%N], XErr)]);
   (txt "thing", txt "thing = [a: int, b: int, c: foo] foo = int",
     [([131%N; 1%N; 2%N; 3%N], XOk)]);
   (txt "thing", txt "thing = [int, int, int]",
     [([131%N; 1%N; 2%N; 3%N], XOk);
      ([128%N], XErr)]);
   (txt "thing", txt "thing = [a: tstr, b: int]",
     [([130%N; 101%N; 65%N; 108%N; 105%N; 99%N; 101%N; 24%N; 42%N], XOk);
      ([130%N; 24%N; 43%N; 101%N; 67%N; 97%N; 114%N; 111%N; 108%N], XErr);
      ([131%N; 101%N; 68%N; 97%N; 118%N; 105%N; 100%N; 24%N; 44%N; 24%N; 45%N], XErr);
      ([99%N; 69%N; 118%N; 101%N], XErr)]);
   (txt "thing", txt "thing = [a: tstr, b: uint, c: float, d: bool]",
     [([132%N; 99%N; 120%N; 121%N; 122%N; 17%N; 251%N; 64%N; 35%N; 204%N; 204%N; 204%N; 204%N; 204%N; 205%N; 244%N], XOk);
      ([131%N; 1%N; 2%N; 3%N], XErr)])] = true.
Proof. vm_compute; reflexivity. Qed.

(** tests/cbor_cddl.rs, [validate_cbor_map_unwrap]. *)
Example test_cbor_validate_cbor_map_unwrap : all_cbor
  [(txt "thing", txt "thing = {name: tstr, ~agroup} agroup = {age: int}",
     [([162%N; 100%N; 110%N; 97%N; 109%N; 101%N; 99%N; 66%N; 111%N; 98%N; 99%N; 97%N; 103%N; 101%N; 24%N; 43%N], XOk)]);
   (txt "thing", txt "thing = {name: tstr, ~agroup} agroup = [age: int]",
     [([162%N; 100%N; 110%N; 97%N; 109%N; 101%N; 99%N; 66%N; 111%N; 98%N; 99%N; 97%N; 103%N; 101%N; 24%N; 43%N], XShow (txt "Mismatch(expected unwrap map)"))])] = true.
Proof. vm_compute; reflexivity. Qed.

(** tests/cbor_cddl.rs, [validate_cbor_map_group]. *)
Example test_cbor_validate_cbor_map_group : all_cbor
  [(txt "thing", txt "thing = {name: tstr, agroup} agroup = (age: int)",
     [([162%N; 100%N; 110%N; 97%N; 109%N; 101%N; 99%N; 66%N; 111%N; 98%N; 99%N; 97%N; 103%N; 101%N; 24%N; 43%N], XOk)]);
   (txt "thing", txt "thing = {agroup} agroup = (age: int, name: tstr)",
     [([162%N; 100%N; 110%N; 97%N; 109%N; 101%N; 99%N; 66%N; 111%N; 98%N; 99%N; 97%N; 103%N; 101%N; 24%N; 43%N], XOk)]);
   (txt "thing", txt "thing = {((agroup))} agroup = (age: int, name: tstr)",
     [([162%N; 100%N; 110%N; 97%N; 109%N; 101%N; 99%N; 66%N; 111%N; 98%N; 99%N; 97%N; 103%N; 101%N; 24%N; 43%N], XOk)]);
   (txt "thing", txt "thing = {agroup empty} agroup = (age: int, name: tstr) empty = ()",
     [([162%N; 100%N; 110%N; 97%N; 109%N; 101%N; 99%N; 66%N; 111%N; 98%N; 99%N; 97%N; 103%N; 101%N; 24%N; 43%N], XOk)]);
   (txt "thing", txt "thing = {agroup maybe} agroup = (age: int, name: tstr) maybe = (? minor: bool)",
     [([162%N; 100%N; 110%N; 97%N; 109%N; 101%N; 99%N; 66%N; 111%N; 98%N; 99%N; 97%N; 103%N; 101%N; 24%N; 43%N], XOk)]);
   (txt "thing", txt "thing = {name: tstr, agroup} agroup = (wrong: int)",
     [([162%N; 100%N; 110%N; 97%N; 109%N; 101%N; 99%N; 66%N; 111%N; 98%N; 99%N; 97%N; 103%N; 101%N; 24%N; 43%N], XShow (txt "Mismatch(expected map{""wrong""})"))]);
   (txt "thing", txt "thing = {name: tstr, agroup} agroup = (age: bool)",
     [([162%N; 100%N; 110%N; 97%N; 109%N; 101%N; 99%N; 66%N; 111%N; 98%N; 99%N; 97%N; 103%N; 101%N; 24%N; 43%N], XShow (txt "Mismatch(expected bool)"))]);
   (txt "thing", txt "thing = { foo // bar } foo = (name: tstr, age: bool) bar = (name: tstr, age: int)",
     [([162%N; 100%N; 110%N; 97%N; 109%N; 101%N; 99%N; 66%N; 111%N; 98%N; 99%N; 97%N; 103%N; 101%N; 24%N; 43%N], XOk)]);
   (txt "thing", txt "thing = { (name: tstr, photo: bstr //
                                  (name: tstr, fail: bool // name: tstr, age: int)) }",
     [([162%N; 100%N; 110%N; 97%N; 109%N; 101%N; 99%N; 66%N; 111%N; 98%N; 99%N; 97%N; 103%N; 101%N; 24%N; 43%N], XOk)]);
   (txt "thing", txt "thing = { foo // bar } foo = (name: tstr, age: bool) bar = (name: tstr, age: float)",
     [([162%N; 100%N; 110%N; 97%N; 109%N; 101%N; 99%N; 66%N; 111%N; 98%N; 99%N; 97%N; 103%N; 101%N; 24%N; 43%N], XMismatch)])] = true.
Proof. vm_compute; reflexivity. Qed.

(** tests/cbor_cddl.rs, [validate_cbor_map]. *)
Example test_cbor_validate_cbor_map : all_cbor
  [(txt "thing", txt "thing = {name: tstr, age: int}",
     [([162%N; 100%N; 110%N; 97%N; 109%N; 101%N; 99%N; 66%N; 111%N; 98%N; 99%N; 97%N; 103%N; 101%N; 24%N; 43%N], XOk)]);
   (txt "thing", txt "thing = {name: tstr, ? age: int}",
     [([162%N; 100%N; 110%N; 97%N; 109%N; 101%N; 99%N; 66%N; 111%N; 98%N; 99%N; 97%N; 103%N; 101%N; 24%N; 43%N], XOk)]);
   (txt "thing", txt "thing = {name: tstr, age: int, ? minor: bool}",
     [([162%N; 100%N; 110%N; 97%N; 109%N; 101%N; 99%N; 66%N; 111%N; 98%N; 99%N; 97%N; 103%N; 101%N; 24%N; 43%N], XOk)]);
   (txt "thing", txt "thing = {name: tstr, age: int, * minor: bool}",
     [([162%N; 100%N; 110%N; 97%N; 109%N; 101%N; 99%N; 66%N; 111%N; 98%N; 99%N; 97%N; 103%N; 101%N; 24%N; 43%N], XOk)]);
   (txt "thing", txt "thing = {name: tstr, age: int, + minor: bool}",
     [([162%N; 100%N; 110%N; 97%N; 109%N; 101%N; 99%N; 66%N; 111%N; 98%N; 99%N; 97%N; 103%N; 101%N; 24%N; 43%N], XShow (txt "Mismatch(expected map{+ ""minor"": Bool}])"))]);
   (txt "thing", txt "thing = {name: tstr, age: tstr}",
     [([162%N; 100%N; 110%N; 97%N; 109%N; 101%N; 99%N; 66%N; 111%N; 98%N; 99%N; 97%N; 103%N; 101%N; 24%N; 43%N], XShow (txt "Mismatch(expected tstr)"))]);
   (txt "thing", txt "thing = {name: tstr}",
     [([162%N; 100%N; 110%N; 97%N; 109%N; 101%N; 99%N; 66%N; 111%N; 98%N; 99%N; 97%N; 103%N; 101%N; 24%N; 43%N], XShow (txt "Mismatch(expected shorter map)"))]);
   (txt "thing", txt "thing = {* tstr => any}",
     [([162%N; 100%N; 110%N; 97%N; 109%N; 101%N; 99%N; 66%N; 111%N; 98%N; 99%N; 97%N; 103%N; 101%N; 24%N; 43%N], XOk)]);
   (txt "thing", txt "thing = {name: tstr, * tstr => any}",
     [([162%N; 100%N; 110%N; 97%N; 109%N; 101%N; 99%N; 66%N; 111%N; 98%N; 99%N; 97%N; 103%N; 101%N; 24%N; 43%N], XOk)]);
   (txt "thing", txt "thing = {name: tstr, age: int, * tstr => any}",
     [([162%N; 100%N; 110%N; 97%N; 109%N; 101%N; 99%N; 66%N; 111%N; 98%N; 99%N; 97%N; 103%N; 101%N; 24%N; 43%N], XOk)]);
   (txt "thing", txt "thing = {+ tstr => any}",
     [([162%N; 100%N; 110%N; 97%N; 109%N; 101%N; 99%N; 66%N; 111%N; 98%N; 99%N; 97%N; 103%N; 101%N; 24%N; 43%N], XOk)]);
   (txt "thing", txt "thing = {* int => any}",
     [([162%N; 100%N; 110%N; 97%N; 109%N; 101%N; 99%N; 66%N; 111%N; 98%N; 99%N; 97%N; 103%N; 101%N; 24%N; 43%N], XShow (txt "Mismatch(expected shorter map)"))]);
   (txt "thing", txt "thing = {name: tstr, age: int, minor: bool}",
     [([162%N; 100%N; 110%N; 97%N; 109%N; 101%N; 99%N; 66%N; 111%N; 98%N; 99%N; 97%N; 103%N; 101%N; 24%N; 43%N], XShow (txt "Mismatch(expected map{""minor""})"))]);
   (txt "thing", txt "thing = {x: int, y: int, z: int}",
     [([131%N; 1%N; 2%N; 3%N], XErr)])] = true.
Proof. vm_compute; reflexivity. Qed.

(** tests/cbor_cddl.rs, [validate_choice_example]. *)
Example test_cbor_validate_choice_example : all_cbor
  [(txt "address", txt "
        address = { delivery }

        delivery = (
        street: tstr, ? number: uint, city //
        po_box: uint, city //
        per_pickup: true )

        city = (
        name: tstr, zip_code: uint
        )",
     [([163%N; 102%N; 112%N; 111%N; 95%N; 98%N; 111%N; 120%N; 24%N; 101%N; 100%N; 110%N; 97%N; 109%N; 101%N; 109%N; 83%N; 97%N; 110%N; 32%N; 70%N; 114%N; 97%N; 110%N; 99%N; 105%N; 115%N; 99%N; 111%N; 104%N; 122%N; 105%N; 112%N; 95%N; 99%N; 111%N; 100%N; 101%N; 26%N; 0%N; 1%N; 111%N; 151%N], XOk);
      ([164%N; 102%N; 115%N; 116%N; 114%N; 101%N; 101%N; 116%N; 108%N; 69%N; 108%N; 101%N; 118%N; 101%N; 110%N; 116%N; 104%N; 32%N; 83%N; 116%N; 46%N; 102%N; 110%N; 117%N; 109%N; 98%N; 101%N; 114%N; 25%N; 1%N; 119%N; 100%N; 110%N; 97%N; 109%N; 101%N; 109%N; 83%N; 97%N; 110%N; 32%N; 70%N; 114%N; 97%N; 110%N; 99%N; 105%N; 115%N; 99%N; 111%N; 104%N; 122%N; 105%N; 112%N; 95%N; 99%N; 111%N; 100%N; 101%N; 26%N; 0%N; 1%N; 111%N; 151%N], XOk);
      ([161%N; 106%N; 112%N; 101%N; 114%N; 95%N; 112%N; 105%N; 99%N; 107%N; 117%N; 112%N; 245%N], XOk)])] = true.
Proof. vm_compute; reflexivity. Qed.

(** tests/cbor_cddl.rs, [validate_choiceify_example]. *)
Example test_cbor_validate_choiceify_example : all_cbor
  [(txt "terminal-color", txt "
        terminal-color = &basecolors
        basecolors = (
            black: 0,  red: 1,  green: 2,  yellow: 3,
            blue: 4,  magenta: 5,  cyan: 6,  white: 7,
        )
        extended-color = &(
            basecolors,
            orange: 8,  pink: 9,  purple: 10,  brown: 11,
        )",
     [([1%N], XOk);
      ([23%N], XMismatch)]);
   (txt "extended-color", txt "
        terminal-color = &basecolors
        basecolors = (
            black: 0,  red: 1,  green: 2,  yellow: 3,
            blue: 4,  magenta: 5,  cyan: 6,  white: 7,
        )
        extended-color = &(
            basecolors,
            orange: 8,  pink: 9,  purple: 10,  brown: 11,
        )",
     [([1%N], XOk);
      ([9%N], XOk);
      ([23%N], XMismatch)])] = true.
Proof. vm_compute; reflexivity. Qed.

(** tests/cbor_cddl.rs, [test_fatal_propagation]. *)
Example test_cbor_test_fatal_propagation : all_cbor
  [(txt "thing", txt "thing = (bad_rule / bool)",
     [([245%N], XShow (txt "MissingRule(bad_rule)"))]);
   (txt "thing", txt "thing = [a: (bad_rule / tstr), b: int]",
     [([130%N; 101%N; 65%N; 108%N; 105%N; 99%N; 101%N; 24%N; 42%N], XShow (txt "MissingRule(bad_rule)"))]);
   (txt "thing", txt "thing = {name: (bad_rule / tstr), age: int}",
     [([162%N; 100%N; 110%N; 97%N; 109%N; 101%N; 99%N; 66%N; 111%N; 98%N; 99%N; 97%N; 103%N; 101%N; 24%N; 43%N], XShow (txt "MissingRule(bad_rule)"))])] = true.
Proof. vm_compute; reflexivity. Qed.

(** tests/cbor_cddl.rs, [cbor_control_size]. *)
Example test_cbor_cbor_control_size : all_cbor
  [(txt "thing", txt "thing = bstr .size 3",
     [([64%N], XMismatch);
      ([67%N; 1%N; 2%N; 3%N], XOk);
      ([68%N; 1%N; 2%N; 3%N; 4%N], XMismatch);
      ([96%N], XMismatch)]);
   (txt "thing", txt "thing = bstr .size (1..4)",
     [([64%N], XMismatch);
      ([67%N; 1%N; 2%N; 3%N], XOk);
      ([68%N; 1%N; 2%N; 3%N; 4%N], XOk);
      ([96%N], XMismatch)]);
   (txt "thing", txt "thing = bstr .size (1...4)",
     [([64%N], XMismatch);
      ([67%N; 1%N; 2%N; 3%N], XOk);
      ([68%N; 1%N; 2%N; 3%N; 4%N], XMismatch);
      ([96%N], XMismatch)]);
   (txt "thing", txt "thing = tstr .size 3",
     [([96%N], XMismatch);
      ([99%N; 230%N; 176%N; 180%N], XOk);
      ([100%N; 73%N; 69%N; 84%N; 70%N], XMismatch);
      ([64%N], XMismatch)]);
   (txt "thing", txt "thing = tstr .size (1..4)",
     [([96%N], XMismatch);
      ([99%N; 230%N; 176%N; 180%N], XOk);
      ([100%N; 73%N; 69%N; 84%N; 70%N], XOk);
      ([64%N], XMismatch)]);
   (txt "thing", txt "thing = tstr .size (1...4)",
     [([96%N], XMismatch);
      ([99%N; 230%N; 176%N; 180%N], XOk);
      ([100%N; 73%N; 69%N; 84%N; 70%N], XMismatch);
      ([64%N], XMismatch)]);
   (txt "thing", txt "thing = uint .size 3",
     [([0%N], XOk);
      ([24%N; 24%N], XOk);
      ([27%N; 0%N; 0%N; 0%N; 232%N; 212%N; 165%N; 16%N; 0%N], XMismatch);
      ([57%N; 3%N; 231%N], XMismatch);
      ([96%N], XMismatch)]);
   (txt "thing", txt "thing = uint .size (1..3)",
     [([0%N], XMismatch);
      ([25%N; 255%N; 255%N], XOk);
      ([26%N; 0%N; 1%N; 0%N; 0%N], XOk);
      ([27%N; 0%N; 0%N; 0%N; 232%N; 212%N; 165%N; 16%N; 0%N], XMismatch);
      ([57%N; 3%N; 231%N], XMismatch);
      ([96%N], XMismatch)]);
   (txt "thing", txt "thing = uint .size (1...3)",
     [([0%N], XMismatch);
      ([25%N; 255%N; 255%N], XOk);
      ([26%N; 0%N; 1%N; 0%N; 0%N], XMismatch);
      ([27%N; 0%N; 0%N; 0%N; 232%N; 212%N; 165%N; 16%N; 0%N], XMismatch);
      ([57%N; 3%N; 231%N], XMismatch);
      ([96%N], XMismatch)]);
   (txt "thing", txt "thing = uint .size 5",
     [([27%N; 0%N; 0%N; 0%N; 232%N; 212%N; 165%N; 16%N; 0%N], XOk)]);
   (txt "thing", txt "thing = uint .size 16",
     [([27%N; 0%N; 0%N; 0%N; 232%N; 212%N; 165%N; 16%N; 0%N], XOk)]);
   (txt "thing", txt "thing = uint .size 999999",
     [([27%N; 0%N; 0%N; 0%N; 232%N; 212%N; 165%N; 16%N; 0%N], XOk)]);
   (txt "thing", txt "thing = bstr .size 0.1",
     [([64%N], XErr)]);
   (txt "thing", txt "thing = bstr .size -1",
     [([64%N], XErr)])] = true.
Proof. vm_compute; reflexivity. Qed.

(** tests/cbor_cddl.rs, [cbor_control_lt]. *)
Example test_cbor_cbor_control_lt : all_cbor
  [(txt "thing", txt "thing = uint .lt 1",
     [([0%N], XOk);
      ([1%N], XMismatch);
      ([27%N; 0%N; 0%N; 0%N; 232%N; 212%N; 165%N; 16%N; 0%N], XMismatch);
      ([57%N; 3%N; 231%N], XMismatch);
      ([96%N], XMismatch)]);
   (txt "thing", txt "thing = uint .lt 0",
     [([0%N], XMismatch);
      ([1%N], XMismatch);
      ([27%N; 0%N; 0%N; 0%N; 232%N; 212%N; 165%N; 16%N; 0%N], XMismatch);
      ([57%N; 3%N; 231%N], XMismatch);
      ([96%N], XMismatch)]);
   (txt "thing", txt "thing = uint .lt -1",
     [([0%N], XMismatch);
      ([1%N], XMismatch);
      ([27%N; 0%N; 0%N; 0%N; 232%N; 212%N; 165%N; 16%N; 0%N], XMismatch);
      ([57%N; 3%N; 231%N], XMismatch);
      ([96%N], XMismatch)]);
   (txt "thing", txt "thing = uint .lt 18446744073709551615",
     [([27%N; 0%N; 0%N; 0%N; 232%N; 212%N; 165%N; 16%N; 0%N], XOk)]);
   (txt "thing", txt "thing = nint .lt 0",
     [([32%N], XOk);
      ([0%N], XMismatch)]);
   (txt "thing", txt "thing = nint .lt 1",
     [([0%N], XMismatch);
      ([1%N], XMismatch);
      ([27%N; 0%N; 0%N; 0%N; 232%N; 212%N; 165%N; 16%N; 0%N], XMismatch);
      ([57%N; 3%N; 231%N], XOk);
      ([96%N], XMismatch)]);
   (txt "thing", txt "thing = nint .lt -999",
     [([0%N], XMismatch);
      ([1%N], XMismatch);
      ([27%N; 0%N; 0%N; 0%N; 232%N; 212%N; 165%N; 16%N; 0%N], XMismatch);
      ([57%N; 3%N; 231%N], XOk);
      ([96%N], XMismatch)]);
   (txt "thing", txt "thing = nint .lt -1000",
     [([0%N], XMismatch);
      ([1%N], XMismatch);
      ([27%N; 0%N; 0%N; 0%N; 232%N; 212%N; 165%N; 16%N; 0%N], XMismatch);
      ([57%N; 3%N; 231%N], XMismatch);
      ([96%N], XMismatch)]);
   (txt "thing", txt "thing = int .lt 1",
     [([0%N], XOk);
      ([1%N], XMismatch);
      ([27%N; 0%N; 0%N; 0%N; 232%N; 212%N; 165%N; 16%N; 0%N], XMismatch);
      ([57%N; 3%N; 231%N], XOk);
      ([96%N], XMismatch)]);
   (txt "thing", txt "thing = int .lt -999",
     [([0%N], XMismatch);
      ([1%N], XMismatch);
      ([27%N; 0%N; 0%N; 0%N; 232%N; 212%N; 165%N; 16%N; 0%N], XMismatch);
      ([57%N; 3%N; 231%N], XOk);
      ([96%N], XMismatch)]);
   (txt "thing", txt "thing = int .lt -1000",
     [([0%N], XMismatch);
      ([1%N], XMismatch);
      ([27%N; 0%N; 0%N; 0%N; 232%N; 212%N; 165%N; 16%N; 0%N], XMismatch);
      ([57%N; 3%N; 231%N], XMismatch);
      ([96%N], XMismatch)])] = true.
Proof. vm_compute; reflexivity. Qed.

(** tests/cbor_cddl.rs, [cbor_control_le]. *)
Example test_cbor_cbor_control_le : all_cbor
  [(txt "thing", txt "thing = uint .le 1",
     [([0%N], XOk);
      ([1%N], XOk);
      ([27%N; 0%N; 0%N; 0%N; 232%N; 212%N; 165%N; 16%N; 0%N], XMismatch);
      ([57%N; 3%N; 231%N], XMismatch);
      ([96%N], XMismatch)]);
   (txt "thing", txt "thing = uint .le 0",
     [([0%N], XOk);
      ([1%N], XMismatch);
      ([27%N; 0%N; 0%N; 0%N; 232%N; 212%N; 165%N; 16%N; 0%N], XMismatch);
      ([57%N; 3%N; 231%N], XMismatch);
      ([96%N], XMismatch)]);
   (txt "thing", txt "thing = uint .le -1",
     [([0%N], XMismatch);
      ([1%N], XMismatch);
      ([27%N; 0%N; 0%N; 0%N; 232%N; 212%N; 165%N; 16%N; 0%N], XMismatch);
      ([57%N; 3%N; 231%N], XMismatch);
      ([96%N], XMismatch)]);
   (txt "thing", txt "thing = uint .le 18446744073709551615",
     [([27%N; 0%N; 0%N; 0%N; 232%N; 212%N; 165%N; 16%N; 0%N], XOk)]);
   (txt "thing", txt "thing = nint .le 0",
     [([32%N], XOk);
      ([0%N], XMismatch);
      ([1%N], XMismatch)]);
   (txt "thing", txt "thing = nint .le 1",
     [([0%N], XMismatch);
      ([1%N], XMismatch);
      ([27%N; 0%N; 0%N; 0%N; 232%N; 212%N; 165%N; 16%N; 0%N], XMismatch);
      ([57%N; 3%N; 231%N], XOk);
      ([96%N], XMismatch)]);
   (txt "thing", txt "thing = nint .le -999",
     [([0%N], XMismatch);
      ([1%N], XMismatch);
      ([27%N; 0%N; 0%N; 0%N; 232%N; 212%N; 165%N; 16%N; 0%N], XMismatch);
      ([57%N; 3%N; 231%N], XOk);
      ([96%N], XMismatch)]);
   (txt "thing", txt "thing = nint .le -1000",
     [([0%N], XMismatch);
      ([1%N], XMismatch);
      ([27%N; 0%N; 0%N; 0%N; 232%N; 212%N; 165%N; 16%N; 0%N], XMismatch);
      ([57%N; 3%N; 231%N], XOk);
      ([96%N], XMismatch)]);
   (txt "thing", txt "thing = int .le 1",
     [([0%N], XOk);
      ([1%N], XOk);
      ([27%N; 0%N; 0%N; 0%N; 232%N; 212%N; 165%N; 16%N; 0%N], XMismatch);
      ([57%N; 3%N; 231%N], XOk);
      ([96%N], XMismatch)]);
   (txt "thing", txt "thing = int .le -999",
     [([0%N], XMismatch);
      ([1%N], XMismatch);
      ([27%N; 0%N; 0%N; 0%N; 232%N; 212%N; 165%N; 16%N; 0%N], XMismatch);
      ([57%N; 3%N; 231%N], XOk);
      ([96%N], XMismatch)]);
   (txt "thing", txt "thing = int .le -1000",
     [([0%N], XMismatch);
      ([1%N], XMismatch);
      ([27%N; 0%N; 0%N; 0%N; 232%N; 212%N; 165%N; 16%N; 0%N], XMismatch);
      ([57%N; 3%N; 231%N], XOk);
      ([96%N], XMismatch)])] = true.
Proof. vm_compute; reflexivity. Qed.

(** tests/cbor_cddl.rs, [cbor_control_gt]. *)
Example test_cbor_cbor_control_gt : all_cbor
  [(txt "thing", txt "thing = uint .gt 1",
     [([0%N], XMismatch);
      ([1%N], XMismatch);
      ([27%N; 0%N; 0%N; 0%N; 232%N; 212%N; 165%N; 16%N; 0%N], XOk);
      ([57%N; 3%N; 231%N], XMismatch);
      ([96%N], XMismatch)]);
   (txt "thing", txt "thing = uint .gt 0",
     [([0%N], XMismatch);
      ([1%N], XOk);
      ([27%N; 0%N; 0%N; 0%N; 232%N; 212%N; 165%N; 16%N; 0%N], XOk);
      ([57%N; 3%N; 231%N], XMismatch);
      ([96%N], XMismatch)]);
   (txt "thing", txt "thing = uint .gt -1",
     [([0%N], XOk);
      ([1%N], XOk);
      ([27%N; 0%N; 0%N; 0%N; 232%N; 212%N; 165%N; 16%N; 0%N], XOk);
      ([57%N; 3%N; 231%N], XMismatch);
      ([96%N], XMismatch)]);
   (txt "thing", txt "thing = uint .gt 18446744073709551615",
     [([27%N; 0%N; 0%N; 0%N; 232%N; 212%N; 165%N; 16%N; 0%N], XMismatch)]);
   (txt "thing", txt "thing = nint .gt 0",
     [([32%N], XMismatch);
      ([0%N], XMismatch)]);
   (txt "thing", txt "thing = nint .gt 1",
     [([0%N], XMismatch);
      ([1%N], XMismatch);
      ([27%N; 0%N; 0%N; 0%N; 232%N; 212%N; 165%N; 16%N; 0%N], XMismatch);
      ([57%N; 3%N; 231%N], XMismatch);
      ([96%N], XMismatch)]);
   (txt "thing", txt "thing = nint .gt -2",
     [([0%N], XMismatch);
      ([1%N], XMismatch);
      ([27%N; 0%N; 0%N; 0%N; 232%N; 212%N; 165%N; 16%N; 0%N], XMismatch);
      ([32%N], XOk);
      ([33%N], XMismatch);
      ([57%N; 3%N; 231%N], XMismatch);
      ([96%N], XMismatch)]);
   (txt "thing", txt "thing = nint .gt -999",
     [([0%N], XMismatch);
      ([1%N], XMismatch);
      ([27%N; 0%N; 0%N; 0%N; 232%N; 212%N; 165%N; 16%N; 0%N], XMismatch);
      ([32%N], XOk);
      ([57%N; 3%N; 230%N], XMismatch);
      ([57%N; 3%N; 231%N], XMismatch);
      ([96%N], XMismatch)]);
   (txt "thing", txt "thing = nint .gt -1000",
     [([0%N], XMismatch);
      ([1%N], XMismatch);
      ([27%N; 0%N; 0%N; 0%N; 232%N; 212%N; 165%N; 16%N; 0%N], XMismatch);
      ([32%N], XOk);
      ([57%N; 3%N; 230%N], XOk);
      ([57%N; 3%N; 231%N], XMismatch);
      ([96%N], XMismatch)]);
   (txt "thing", txt "thing = int .gt 1",
     [([0%N], XMismatch);
      ([1%N], XMismatch);
      ([27%N; 0%N; 0%N; 0%N; 232%N; 212%N; 165%N; 16%N; 0%N], XOk);
      ([57%N; 3%N; 231%N], XMismatch);
      ([96%N], XMismatch)]);
   (txt "thing", txt "thing = int .gt -999",
     [([0%N], XOk);
      ([1%N], XOk);
      ([27%N; 0%N; 0%N; 0%N; 232%N; 212%N; 165%N; 16%N; 0%N], XOk);
      ([57%N; 3%N; 230%N], XMismatch);
      ([57%N; 3%N; 231%N], XMismatch);
      ([96%N], XMismatch)]);
   (txt "thing", txt "thing = int .gt -1000",
     [([0%N], XOk);
      ([1%N], XOk);
      ([27%N; 0%N; 0%N; 0%N; 232%N; 212%N; 165%N; 16%N; 0%N], XOk);
      ([57%N; 3%N; 230%N], XOk);
      ([57%N; 3%N; 231%N], XMismatch);
      ([96%N], XMismatch)])] = true.
Proof. vm_compute; reflexivity. Qed.

(** tests/cbor_cddl.rs, [cbor_control_ge]. *)
Example test_cbor_cbor_control_ge : all_cbor
  [(txt "thing", txt "thing = uint .ge 1",
     [([0%N], XMismatch);
      ([1%N], XOk);
      ([27%N; 0%N; 0%N; 0%N; 232%N; 212%N; 165%N; 16%N; 0%N], XOk);
      ([57%N; 3%N; 231%N], XMismatch);
      ([96%N], XMismatch)]);
   (txt "thing", txt "thing = uint .ge 0",
     [([0%N], XOk);
      ([1%N], XOk);
      ([27%N; 0%N; 0%N; 0%N; 232%N; 212%N; 165%N; 16%N; 0%N], XOk);
      ([57%N; 3%N; 231%N], XMismatch);
      ([96%N], XMismatch)]);
   (txt "thing", txt "thing = uint .ge -1",
     [([0%N], XOk);
      ([1%N], XOk);
      ([27%N; 0%N; 0%N; 0%N; 232%N; 212%N; 165%N; 16%N; 0%N], XOk);
      ([32%N], XMismatch);
      ([57%N; 3%N; 231%N], XMismatch);
      ([96%N], XMismatch)]);
   (txt "thing", txt "thing = uint .ge 18446744073709551615",
     [([27%N; 0%N; 0%N; 0%N; 232%N; 212%N; 165%N; 16%N; 0%N], XMismatch)]);
   (txt "thing", txt "thing = nint .ge 0",
     [([32%N], XMismatch);
      ([0%N], XMismatch)]);
   (txt "thing", txt "thing = nint .ge 1",
     [([0%N], XMismatch);
      ([1%N], XMismatch);
      ([27%N; 0%N; 0%N; 0%N; 232%N; 212%N; 165%N; 16%N; 0%N], XMismatch);
      ([57%N; 3%N; 231%N], XMismatch);
      ([96%N], XMismatch)]);
   (txt "thing", txt "thing = nint .ge -2",
     [([0%N], XMismatch);
      ([1%N], XMismatch);
      ([27%N; 0%N; 0%N; 0%N; 232%N; 212%N; 165%N; 16%N; 0%N], XMismatch);
      ([32%N], XOk);
      ([33%N], XOk);
      ([57%N; 3%N; 231%N], XMismatch);
      ([96%N], XMismatch)]);
   (txt "thing", txt "thing = nint .ge -999",
     [([0%N], XMismatch);
      ([1%N], XMismatch);
      ([27%N; 0%N; 0%N; 0%N; 232%N; 212%N; 165%N; 16%N; 0%N], XMismatch);
      ([32%N], XOk);
      ([57%N; 3%N; 230%N], XOk);
      ([57%N; 3%N; 231%N], XMismatch);
      ([96%N], XMismatch)]);
   (txt "thing", txt "thing = nint .ge -1000",
     [([0%N], XMismatch);
      ([1%N], XMismatch);
      ([27%N; 0%N; 0%N; 0%N; 232%N; 212%N; 165%N; 16%N; 0%N], XMismatch);
      ([32%N], XOk);
      ([57%N; 3%N; 230%N], XOk);
      ([57%N; 3%N; 231%N], XOk);
      ([96%N], XMismatch)]);
   (txt "thing", txt "thing = int .ge 1",
     [([0%N], XMismatch);
      ([1%N], XOk);
      ([27%N; 0%N; 0%N; 0%N; 232%N; 212%N; 165%N; 16%N; 0%N], XOk);
      ([57%N; 3%N; 231%N], XMismatch);
      ([96%N], XMismatch)]);
   (txt "thing", txt "thing = int .ge -999",
     [([0%N], XOk);
      ([1%N], XOk);
      ([27%N; 0%N; 0%N; 0%N; 232%N; 212%N; 165%N; 16%N; 0%N], XOk);
      ([57%N; 3%N; 230%N], XOk);
      ([57%N; 3%N; 231%N], XMismatch);
      ([96%N], XMismatch)]);
   (txt "thing", txt "thing = int .ge -1000",
     [([0%N], XOk);
      ([1%N], XOk);
      ([27%N; 0%N; 0%N; 0%N; 232%N; 212%N; 165%N; 16%N; 0%N], XOk);
      ([57%N; 3%N; 230%N], XOk);
      ([57%N; 3%N; 231%N], XOk);
      ([96%N], XMismatch)])] = true.
Proof. vm_compute; reflexivity. Qed.

(** tests/cbor_cddl.rs, [cbor_control_cbor]. *)
Example test_cbor_cbor_control_cbor : all_cbor
  [(txt "thing", txt "thing = bytes .cbor uint",
     [([65%N; 23%N], XOk)]);
   (txt "thing", txt "
        thing = bytes .cbor foo
        foo = uint
    ",
     [([65%N; 23%N], XOk)]);
   (txt "thing", txt "
        thing = bytes .cbor foo<uint>
        foo<t> = t
    ",
     [([65%N; 23%N], XOk)])] = true.
Proof. vm_compute; reflexivity. Qed.

(** tests/cbor_cddl.rs, [cbor_control_regexp]. *)
Example test_cbor_cbor_control_regexp : all_cbor
  [(txt "nolz", txt " nolz = tstr .regexp ""^(0|[1-9][0-9]*)$"" ",
     [([97%N; 48%N], XOk);
      ([97%N; 49%N], XOk);
      ([98%N; 50%N; 48%N], XOk);
      ([98%N; 50%N; 51%N], XOk);
      ([99%N; 49%N; 50%N; 51%N], XOk);
      ([98%N; 48%N; 49%N], XMismatch);
      ([98%N; 48%N; 97%N], XMismatch);
      ([96%N], XMismatch)]);
   (txt "pat", txt " pat = tstr .regexp ""^A"" ",
     [([97%N; 65%N], XOk);
      ([99%N; 65%N; 66%N; 67%N], XOk);
      ([99%N; 65%N; 65%N; 65%N], XOk);
      ([98%N; 90%N; 65%N], XMismatch);
      ([96%N], XMismatch)]);
   (txt "pat", txt " pat = tstr .regexp ""BB"" ",
     [([98%N; 66%N; 66%N], XOk);
      ([102%N; 65%N; 66%N; 67%N; 66%N; 66%N; 65%N], XOk);
      ([101%N; 65%N; 66%N; 67%N; 66%N; 65%N], XMismatch)]);
   (txt "pat", txt " pat = bstr .regexp ""CCC"" ",
     [([99%N; 67%N; 67%N; 67%N], XStructural)]);
   (txt "pat", txt " pat = tstr .regexp 1234 ",
     [([100%N; 49%N; 50%N; 51%N; 52%N], XStructural)]);
   (txt "nai", txt " nai = tstr .regexp ""[A-Za-z0-9]+@[A-Za-z0-9]+(\\.[A-Za-z0-9]+)+"" ",
     [([120%N; 27%N; 78%N; 49%N; 64%N; 67%N; 72%N; 53%N; 55%N; 72%N; 70%N; 46%N; 52%N; 90%N; 110%N; 113%N; 101%N; 48%N; 46%N; 100%N; 89%N; 74%N; 82%N; 78%N; 46%N; 105%N; 103%N; 106%N; 102%N], XOk)])] = true.
Proof. vm_compute; reflexivity. Qed.

(** tests/json_cddl.rs, [validate_json_null]. *)
Example test_json_validate_json_null : all_json
  [(txt "thing", txt "thing = nil",
     [(txt "null", XOk);
      (txt "0", XErr);
      (txt "false", XErr)])] = true.
Proof. vm_compute; reflexivity. Qed.

(** tests/json_cddl.rs, [validate_json_bool]. *)
Example test_json_validate_json_bool : all_json
  [(txt "thing", txt "thing = true",
     [(txt "true", XOk);
      (txt "false", XErr);
      (txt "null", XErr)])] = true.
Proof. vm_compute; reflexivity. Qed.

(** tests/json_cddl.rs, [validate_json_float]. *)
Example test_json_validate_json_float : all_json
  [(txt "thing", txt "thing = 0.0",
     [(txt "0.0", XOk);
      (txt "1.0", XErr)]);
   (txt "thing", txt "thing = float",
     [(txt "1.0", XOk);
      (txt "1e5", XOk);
      (txt "1e300", XOk)]);
   (txt "thing", txt "thing = float16",
     [(txt "1.0", XOk)]);
   (txt "thing", txt "thing = float32",
     [(txt "1.0", XOk);
      (txt "1e5", XOk)]);
   (txt "thing", txt "thing = float64",
     [(txt "1.0", XOk);
      (txt "1e300", XOk)])] = true.
Proof. vm_compute; reflexivity. Qed.

(** tests/json_cddl.rs, [validate_json_choice]. *)
Example test_json_validate_json_choice : all_json
  [(txt "thing", txt "thing = 23 / 24",
     [(txt "23", XOk);
      (txt "24", XOk)]);
   (txt "thing", txt "thing = (foo // bar) foo = (int / float) bar = tstr",
     [(txt "23", XOk);
      (txt "1.0", XOk);
      (txt """JSON""", XOk);
      (txt "true", XErr)])] = true.
Proof. vm_compute; reflexivity. Qed.

(** tests/json_cddl.rs, [validate_json_integer]. *)
Example test_json_validate_json_integer : all_json
  [(txt "thing", txt "thing = 1",
     [(txt "null", XErr);
      (txt "1.0", XErr);
      (txt "true", XErr)]);
   (txt "thing", txt "thing = int",
     [(txt "0", XOk);
      (txt "24", XOk);
      (txt "-1000", XOk);
      (txt "1.0", XErr)]);
   (txt "thing", txt "thing = uint",
     [(txt "0", XOk);
      (txt "24", XOk);
      (txt "-1000", XErr)]);
   (txt "thing", txt "thing = nint",
     [(txt "-1000", XOk);
      (txt "0", XErr);
      (txt "24", XErr)])] = true.
Proof. vm_compute; reflexivity. Qed.

(** tests/json_cddl.rs, [validate_json_textstring]. *)
Example test_json_validate_json_textstring : all_json
  [(txt "thing", txt "thing = tstr",
     [(txt """""", XOk);
      (txt """JSON""", XOk);
      ([34%N; 27700%N; 34%N], XOk)]);
   (txt "thing", txt "thing = text",
     [(txt """""", XOk);
      (txt """JSON""", XOk);
      ([34%N; 27700%N; 34%N], XOk)])] = true.
Proof. vm_compute; reflexivity. Qed.

(** tests/json_cddl.rs, [validate_json_array]. *)
Example test_json_validate_json_array : all_json
  [(txt "thing", txt "thing = []",
     [(txt "[]", XOk);
      (txt "null", XErr);
      (txt "[1, 2, 3]", XErr)]);
   (txt "thing", txt "thing = [1, 2, 3]",
     [(txt "[1, 2, 3]", XOk)])] = true.
Proof. vm_compute; reflexivity. Qed.

(** tests/json_cddl.rs, [validate_json_homogenous_array]. *)
Example test_json_validate_json_homogenous_array : all_json
  [(txt "thing", txt "thing = [* int]",
     [(txt "[]", XOk);
      (txt "[1, 2, 3]", XOk)]);
   (txt "thing", txt "thing = [+ int]",
     [(txt "[1, 2, 3]", XOk);
      (txt "[]", XErr)]);
   (txt "thing", txt "thing = [? int]",
     [(txt "[]", XOk);
      (txt "[42]", XOk);
      (txt "[1, 2, 3]", XErr)]);
   (txt "thing", txt "thing = [* tstr]",
     [(txt "[1, 2, 3]", XErr)]);
   (txt "thing", txt "thing = [* zipcode]  zipcode = int",
     [(txt "[]", XOk);
      (txt "[1, 2, 3]", XOk)])] = true.
Proof. vm_compute; reflexivity. Qed.

(** tests/json_cddl.rs, [validate_json_array_groups]. *)
Example test_json_validate_json_array_groups : all_json
  [(txt "thing", txt "thing = [int, (int, int)]",
     [(txt "[1, 2, 3]", XOk)]);
   (txt "thing", txt "thing = [(int, int, int)]",
     [(txt "[1, 2, 3]", XOk)]);
   (txt "thing", txt "thing = [* (int)]",
     [(txt "[]", XOk);
      (txt "[1, 2, 3]", XOk)]);
   (txt "thing", txt "thing = [* (int, int, int)]",
     [(txt "[]", XOk);
      (txt "[1, 2, 3]", XOk)]);
   (txt "thing", txt "thing = [* (int, int)]",
     [(txt "[]", XOk);
      (txt "[1, 2, 3]", XErr)]);
   (txt "thing", txt "thing = [a: int, b: int, bar] bar = (c: int)",
     [(txt "[1, 2, 3]", XOk)]);
   (txt "thing", txt "thing = [a: int, (bar)] bar = (b: int, c: int)",
     [(txt "[1, 2, 3]", XOk)]);
   (txt "thing", txt "thing = [a: int, b: bar] bar = (b: int, c: int)",
     [(txt "[1, 2, 3]", XErr)])] = true.
Proof. vm_compute; reflexivity. Qed.

(** tests/json_cddl.rs, [validate_json_array_unwrap]. *)
Example test_json_validate_json_array_unwrap : all_json
  [(txt "thing", txt "header = [a: int, b: int] thing = [~header c: int]",
     [(txt "[1, 2, 3]", XOk);
      (txt "[]", XErr)]);
   (txt "thing", txt "footer = [a: int, b: int] thing = [c: int ~footer]",
     [(txt "[1, 2, 3]", XOk)]);
   (txt "thing", txt "middle = [int] thing = [a: int, ~middle, c: int]",
     [(txt "[1, 2, 3]", XOk)]);
   (txt "thing", txt "foo = int middle = [foo] thing = [a: int, ~middle, c: int]",
     [(txt "[1, 2, 3]", XOk)]);
   (txt "thing", txt "header = [a: int] thing = [~header, c: int]",
     [(txt "[1, 2, 3]", XErr)]);
   (txt "thing", txt "footer = [a: int] thing = [c: int, ~footer]",
     [(txt "[1, 2, 3]", XErr)]);
   (txt "thing", txt "footer = [a: int, b: int] thing = [c: int, d: int, ~footer]",
     [(txt "[1, 2, 3]", XErr)]);
   (txt "thing", txt "thing = [c: int ~footer]",
     [(txt "[1, 2, 3]", XErr)]);
   (txt "thing", txt "header = {a: int, b: int} thing = [~header c: int]",
     [(txt "[1, 2, 3]", XErr)])] = true.
Proof. vm_compute; reflexivity. Qed.

(** tests/json_cddl.rs, [validate_json_array_record]. *)
Example test_json_validate_json_array_record : all_json
  [(txt "thing", txt "thing = [a: int, b: int, c: int]",
     [(txt "[1, 2, 3]", XOk);
      (txt "[]", XErr)]);
   (txt "thing", txt "thing = [a: int, b: int, c: foo] foo = int",
     [(txt "[1, 2, 3]", XOk)]);
   (txt "thing", txt "thing = [int, int, int]",
     [(txt "[1, 2, 3]", XOk);
      (txt "[]", XErr)]);
   (txt "thing", txt "thing = [a: tstr, b: int]",
     [(txt "[""Alice"",42]", XOk);
      (txt "[43,""Carol""]", XErr);
      (txt "[""David"",44,45]", XErr);
      (txt """Eve""", XErr)]);
   (txt "thing", txt "thing = [a: tstr, b: uint, c: float, d: bool]",
     [(txt "[""xyz"",17,9.9,false]", XOk);
      (txt "[1, 2, 3]", XErr)])] = true.
Proof. vm_compute; reflexivity. Qed.

(** tests/json_cddl.rs, [validate_json_map_unwrap]. *)
Example test_json_validate_json_map_unwrap : all_json
  [(txt "thing", txt "thing = {name: tstr, ~agroup} agroup = {age: int}",
     [(txt "{""name"":""Bob"",""age"":43}", XOk)]);
   (txt "thing", txt "thing = {name: tstr, ~agroup} agroup = [age: int]",
     [(txt "{""name"":""Bob"",""age"":43}", XErr)])] = true.
Proof. vm_compute; reflexivity. Qed.

(** tests/json_cddl.rs, [validate_json_map_group]. *)
Example test_json_validate_json_map_group : all_json
  [(txt "thing", txt "thing = {name: tstr, agroup} agroup = (age: int)",
     [(txt "{""name"":""Bob"",""age"":43}", XOk)]);
   (txt "thing", txt "thing = {agroup} agroup = (age: int, name: tstr)",
     [(txt "{""name"":""Bob"",""age"":43}", XOk)]);
   (txt "thing", txt "thing = {((agroup))} agroup = (age: int, name: tstr)",
     [(txt "{""name"":""Bob"",""age"":43}", XOk)]);
   (txt "thing", txt "thing = {agroup empty} agroup = (age: int, name: tstr) empty = ()",
     [(txt "{""name"":""Bob"",""age"":43}", XOk)]);
   (txt "thing", txt "thing = {agroup maybe} agroup = (age: int, name: tstr) maybe = (? minor: bool)",
     [(txt "{""name"":""Bob"",""age"":43}", XOk)]);
   (txt "thing", txt "thing = {name: tstr, agroup} agroup = (wrong: int)",
     [(txt "{""name"":""Bob"",""age"":43}", XErr)]);
   (txt "thing", txt "thing = {name: tstr, agroup} agroup = (age: bool)",
     [(txt "{""name"":""Bob"",""age"":43}", XErr)])] = true.
Proof. vm_compute; reflexivity. Qed.

(** tests/json_cddl.rs, [validate_json_map]. *)
Example test_json_validate_json_map : all_json
  [(txt "thing", txt "thing = {name: tstr, age: int}",
     [(txt "{""name"":""Bob"",""age"":43}", XOk)]);
   (txt "thing", txt "thing = {name: tstr, ? age: int}",
     [(txt "{""name"":""Bob"",""age"":43}", XOk)]);
   (txt "thing", txt "thing = {name: tstr, age: int, ? minor: bool}",
     [(txt "{""name"":""Bob"",""age"":43}", XOk)]);
   (txt "thing", txt "thing = {name: tstr, age: int, * minor: bool}",
     [(txt "{""name"":""Bob"",""age"":43}", XOk)]);
   (txt "thing", txt "thing = {name: tstr, age: int, + minor: bool}",
     [(txt "{""name"":""Bob"",""age"":43}", XErr)]);
   (txt "thing", txt "thing = {name: tstr, age: tstr}",
     [(txt "{""name"":""Bob"",""age"":43}", XErr)]);
   (txt "thing", txt "thing = {name: tstr}",
     [(txt "{""name"":""Bob"",""age"":43}", XErr)]);
   (txt "thing", txt "thing = {* tstr => any}",
     [(txt "{""name"":""Bob"",""age"":43}", XOk)]);
   (txt "thing", txt "thing = {name: tstr, * tstr => any}",
     [(txt "{""name"":""Bob"",""age"":43}", XOk)]);
   (txt "thing", txt "thing = {name: tstr, age: int, * tstr => any}",
     [(txt "{""name"":""Bob"",""age"":43}", XOk)]);
   (txt "thing", txt "thing = {+ tstr => any}",
     [(txt "{""name"":""Bob"",""age"":43}", XOk)]);
   (txt "thing", txt "thing = {* int => any}",
     [(txt "{""name"":""Bob"",""age"":43}", XErr)]);
   (txt "thing", txt "thing = {name: tstr, age: int, minor: bool}",
     [(txt "{""name"":""Bob"",""age"":43}", XErr)]);
   (txt "thing", txt "thing = {x: int, y: int, z: int}",
     [(txt "[1, 2, 3]", XErr)])] = true.
Proof. vm_compute; reflexivity. Qed.

(** tests/json_cddl.rs, [validate_json_map_cut]. *)
Example test_json_validate_json_map_cut : all_json
  [(txt "thing", txt "
        thing = {
            ? ""foo"" => int,  ; non-cut is the default for ""=>""
            tstr => tstr,
        }",
     [(txt "{ ""foo"": ""not-an-int"" }", XOk)]);
   (txt "thing", txt "
        thing = {
            ? ""foo"" ^ => int,  ; cut is indicated by ""^""
            tstr => tstr,
        }",
     [(txt "{ ""foo"": ""not-an-int"" }", XShow (txt "Mismatch(expected int)"))]);
   (txt "thing", txt "
        thing = {
            ? ""foo"": int,  ; cut is implied by "":""
            tstr => tstr,
        }",
     [(txt "{ ""foo"": ""not-an-int"" }", XErr)]);
   (txt "thing", txt "
        thing = {
            ? ""foo"" => int,
            tstr => tstr,
        }",
     [(txt "{ ""foo"": 17, ""bar"": ""baz"" }", XOk)]);
   (txt "thing", txt "
        thing = {
            tstr => tstr,
            ? ""foo"" => int,
        }",
     [(txt "{ ""foo"": 17, ""bar"": ""baz"" }", XOk)]);
   (txt "thing", txt "thing = { ""foo"": int // tstr => tstr }",
     [(txt "{ ""foo"": ""not-int"" }", XOk)]);
   (txt "thing", txt "thing = {* tstr ^ => int }",
     [(txt "{ ""aaa"": 17, ""zzz"": ""baz"" }", XShow (txt "Mismatch(expected int)"))])] = true.
Proof. vm_compute; reflexivity. Qed.

(** tests/json_cddl.rs, [validate_choice_example]. *)
Example test_json_validate_choice_example : all_json
  [(txt "address", txt "
        address = { delivery }

        delivery = (
        street: tstr, ? number: uint, city //
        po_box: uint, city //
        per_pickup: true )

        city = (
        name: tstr, zip_code: uint
        )",
     [(txt "{""po_box"":101,""name"":""San Francisco"",""zip_code"":94103}", XOk);
      (txt "{""street"":""Eleventh St."",""number"":375,""name"":""San Francisco"",""zip_code"":94103}", XOk);
      (txt "{
        ""street"": ""Eleventh St."",
        ""name"": ""San Francisco"",
        ""zip_code"": 94103
    }", XOk);
      (txt "{
        ""street"": ""Eleventh St."",
        ""name"": ""San Francisco""
    }", XMismatch);
      (txt "{""per_pickup"":true}", XOk)])] = true.
Proof. vm_compute; reflexivity. Qed.

(** tests/json_cddl.rs, [json_generic_basic]. *)
Example test_json_json_generic_basic : all_json
  [(txt "thing", txt "identity<T> = T  thing = identity<int>",
     [(txt "0", XOk);
      (txt """abc""", XMismatch)]);
   (txt "identity", txt "identity<T> = T  thing = identity<int>",
     [(txt "0", XGeneric)]);
   (txt "thing", txt "double<T> = (T, T) thing = [int, double<int>]",
     [(txt "[1, 2, 3]", XOk);
      (txt "[1.0, 2, 3]", XMismatch);
      (txt "[1, 2, 3.0]", XMismatch)]);
   (txt "thing", txt "message<t, v> = [t, v]  thing = message<tstr, int>",
     [(txt "[""JSON"", 123]", XOk);
      (txt "[123, ""JSON""]", XMismatch)]);
   (txt "thing", txt "identity<T> = T   thing = [identity<(int)>]",
     [(txt "[1]", XOk)]);
   (txt "thing", txt "identity<T> = (T)   thing = [identity<(int)>]",
     [(txt "[1]", XOk)]);
   (txt "thing", txt "double<T> = (T, T)   thing = [double<[int, int]>]",
     [(txt "[[1, 2], [3, 4]]", XOk)]);
   (txt "thing", txt "double<T> = (T, T)   identity<I> = I   thing = [double<identity<int>>]",
     [(txt "[1, 2]", XOk)])] = true.
Proof. vm_compute; reflexivity. Qed.

(** tests/json_cddl.rs, [json_generic_map]. *)
Example test_json_json_generic_map : all_json
  [(txt "thing", txt "identity<T> = T  thing = {identity<tstr> => identity<int>}",
     [(txt " { ""abc"": 0 } ", XOk)]);
   (txt "thing", txt "identity<T> = T  thing = {identity<tstr>: identity<int>}",
     [(txt " { ""abc"": 0 } ", XParse)])] = true.
Proof. vm_compute; reflexivity. Qed.

(** tests/json_cddl.rs, [json_generic_occurrence]. *)
Example test_json_json_generic_occurrence : all_json
  [(txt "thing", txt "one_or_more<T> = (+ T)  thing = [one_or_more<int>]",
     [(txt "[4]", XOk);
      (txt "[4, 5, 6]", XOk);
      (txt "[]", XMismatch)]);
   (txt "thing", txt "three_to_five<T> = (3*5 T)  thing = [three_to_five<tstr>]",
     [(txt "[""one"", ""two""]", XMismatch);
      (txt "[""one"", ""two"", ""three""]", XOk);
      (txt "[""one"", ""two"", ""three"", ""four""]", XOk);
      (txt "[""1st"",""2nd"",""3rd"",""4th"",""5th""]", XOk);
      (txt "[""a"",""b"",""c"",""d"",""e"",""f""]", XMismatch)])] = true.
Proof. vm_compute; reflexivity. Qed.

(** tests/json_cddl.rs, [json_generic_socket_example]. *)
Example test_json_json_generic_socket_example : all_json
  [(txt "sock_struct", txt "
        port = uint
        socket_addr<HOST> = (HOST, port)
        hostname = tstr
        ipv4_addr = [uint, uint, uint, uint]
        ipv4_host = hostname / ipv4_addr
        ipv4_socket = socket_addr<ipv4_host>
        sock_struct = { name: tstr, sock: [ipv4_socket]}
    ",
     [(txt " { ""name"": ""foo"", ""sock"": [""foo.dev"", 8080]} ", XOk);
      (txt " { ""name"": ""foo"", ""sock"": [[10,0,0,1], 8080]} ", XOk)])] = true.
Proof. vm_compute; reflexivity. Qed.

(** tests/json_cddl.rs, [json_generic_name_overlap]. *)
Example test_json_json_generic_name_overlap : all_json
  [(txt "thing", txt "
        IP = [uint, uint, uint, uint]
        PORT = uint
        socket = [IP, PORT]
        name = tstr
        conn<IP> = [name, socket, IP] ; This is the generic parameter named IP
        iptype = ""v4"" / ""v6""
        thing = conn<iptype>          ; This is the rule named IP
    ",
     [(txt "[""foo"", [[10,0,0,1], 8080], ""v4""]", XOk)])] = true.
Proof. vm_compute; reflexivity. Qed.

(** tests/json_cddl.rs, [json_generic_nested]. *)
Example test_json_json_generic_nested : all_json
  [(txt "thing", txt "
        double<X> = (X, X)
        triple<Y> = (Y, Y, Y)
        sextuple<Z> = double<triple<Z>>
        thing = [sextuple<int>]
    ",
     [(txt "[1, 2, 3, 4, 5, 6]", XOk);
      (txt "[[1, 2, 3], [4, 5, 6]]", XMismatch);
      (txt "[1, 2, 3, 4, 5]", XMismatch);
      (txt "[1, 2, 3, 4, 5, 6, 7]", XMismatch)]);
   (txt "thing", txt "
        double<T> = (T, T)
        triple<T> = (T, T, T)
        sextuple<T> = double<triple<T>>
        thing = [sextuple<int>]
    ",
     [(txt "[1, 2, 3, 4, 5, 6]", XOk)]);
   (txt "thing", txt "
        double<X> = (X, X)
        triple<Y> = (X, Y, Y)
        sextuple<Z> = double<triple<Z>>
        thing = [sextuple<int>]
    ",
     [(txt "[1, 2, 3, 4, 5, 6]", XMissing)]);
   (txt "thing", txt "
        double<X> = (X, X)
        triple<Y> = (Z, Y, Y)
        sextuple<Z> = double<triple<Z>>
        thing = [sextuple<int>]
    ",
     [(txt "[1, 2, 3, 4, 5, 6]", XMissing)])] = true.
Proof. vm_compute; reflexivity. Qed.

(** tests/json_cddl.rs, [json_generic_rfc8610]. *)
Example test_json_json_generic_rfc8610 : all_json
  [(txt "messages", txt "
        messages = message<""reboot"", ""now""> / message<""sleep"", 1..100>
        message<t, v> = {type: t, value: v}
    ",
     [(txt "{""type"":""reboot"",""value"":""now""}", XOk);
      (txt "{""type"":""sleep"", ""value"":15}", XOk);
      (txt "{""type"":""no"", ""value"": ""now""}", XMismatch);
      (txt "{""type"":""sleep"", ""value"":150}", XMismatch)])] = true.
Proof. vm_compute; reflexivity. Qed.

(** tests/json_cddl.rs, [json_generic_malformed]. *)
Example test_json_json_generic_malformed : all_json
  [(txt "thing", txt "double<T> = (T, T) thing = [T, double<int>]",
     [(txt "[1, 2, 3]", XMissing)]);
   (txt "thing", txt "double<T> = (T, T) thing = [double]",
     [(txt "[1, 2]", XGeneric)]);
   (txt "thing", txt "pair<T, U> = (T, U) thing = [pair<int>]",
     [(txt "[1, 2]", XGeneric)]);
   (txt "thing", txt "pair<T, U> = (T, U) thing = [pair<int, int, int>]",
     [(txt "[1, 2]", XGeneric)])] = true.
Proof. vm_compute; reflexivity. Qed.

(** tests/json_cddl.rs, [json_control_size]. *)
Example test_json_json_control_size : all_json
  [(txt "thing", txt "thing = uint .size 3",
     [(txt "0", XOk);
      (txt "256", XOk);
      (txt "16777215", XOk);
      (txt "16777216", XMismatch);
      (txt "-256", XMismatch)]);
   (txt "thing", txt "limit = 3  numb = uint  thing = numb .size limit",
     [(txt "0", XOk);
      (txt "256", XOk);
      (txt "16777215", XOk);
      (txt "16777216", XMismatch);
      (txt "-256", XMismatch)]);
   (txt "thing", txt "thing = tstr .size 10",
     [(txt """""", XMismatch);
      (txt """JSON""", XMismatch);
      ([34%N; 27700%N; 34%N], XMismatch);
      ([34%N; 27700%N; 27700%N; 27700%N; 27700%N; 34%N], XMismatch);
      (txt """abcdefghij""", XOk);
      (txt """abcdefghijk""", XMismatch)]);
   (txt "thing", txt "thing = tstr .size (1..9)",
     [(txt """""", XMismatch);
      (txt """J""", XOk);
      ([34%N; 27700%N; 34%N], XOk);
      ([34%N; 27700%N; 27700%N; 27700%N; 34%N], XOk);
      (txt """abcdefghi""", XOk);
      (txt """abcdefghijk""", XMismatch)]);
   (txt "thing", txt "thing = tstr .size (1...9)",
     [(txt """""", XMismatch);
      (txt """J""", XOk);
      ([34%N; 27700%N; 34%N], XOk);
      ([34%N; 27700%N; 27700%N; 27700%N; 34%N], XMismatch);
      (txt """abcdefghi""", XMismatch);
      (txt """abcdefghijk""", XMismatch)]);
   (txt "thing", txt "thing = int .size 3",
     [(txt "0", XErr)]);
   (txt "thing", txt "thing = [uint] .size 3",
     [(txt "0", XErr)]);
   (txt "thing", txt "thing = uint .size 0.1",
     [(txt "0", XErr)])] = true.
Proof. vm_compute; reflexivity. Qed.

(** tests/json_cddl.rs, [json_control_lt]. *)
Example test_json_json_control_lt : all_json
  [(txt "thing", txt "thing = uint .lt 1",
     [(txt "0", XOk);
      (txt "1", XMismatch);
      (txt "1000000000000", XMismatch);
      (txt "-1000", XMismatch);
      (txt """""", XMismatch)]);
   (txt "thing", txt "thing = uint .lt 0",
     [(txt "0", XMismatch);
      (txt "1", XMismatch);
      (txt "1000000000000", XMismatch);
      (txt "-1000", XMismatch);
      (txt """""", XMismatch)]);
   (txt "thing", txt "thing = uint .lt -1",
     [(txt "0", XMismatch);
      (txt "1", XMismatch);
      (txt "1000000000000", XMismatch);
      (txt "-1000", XMismatch);
      (txt """""", XMismatch)]);
   (txt "thing", txt "thing = uint .lt 18446744073709551615",
     [(txt "1000000000000", XOk)]);
   (txt "thing", txt "thing = nint .lt 0",
     [(txt "-1", XOk);
      (txt "0", XMismatch)]);
   (txt "thing", txt "thing = nint .lt 1",
     [(txt "0", XMismatch);
      (txt "1", XMismatch);
      (txt "1000000000000", XMismatch);
      (txt "-1000", XOk);
      (txt """""", XMismatch)]);
   (txt "thing", txt "thing = nint .lt -999",
     [(txt "0", XMismatch);
      (txt "1", XMismatch);
      (txt "1000000000000", XMismatch);
      (txt "-1000", XOk);
      (txt """""", XMismatch)]);
   (txt "thing", txt "thing = nint .lt -1000",
     [(txt "0", XMismatch);
      (txt "1", XMismatch);
      (txt "1000000000000", XMismatch);
      (txt "-1000", XMismatch);
      (txt """""", XMismatch)]);
   (txt "thing", txt "thing = int .lt 1",
     [(txt "0", XOk);
      (txt "1", XMismatch);
      (txt "1000000000000", XMismatch);
      (txt "-1000", XOk);
      (txt """""", XMismatch)]);
   (txt "thing", txt "thing = int .lt -999",
     [(txt "0", XMismatch);
      (txt "1", XMismatch);
      (txt "1000000000000", XMismatch);
      (txt "-1000", XOk);
      (txt """""", XMismatch)]);
   (txt "thing", txt "thing = int .lt -1000",
     [(txt "0", XMismatch);
      (txt "1", XMismatch);
      (txt "1000000000000", XMismatch);
      (txt "-1000", XMismatch);
      (txt """""", XMismatch)])] = true.
Proof. vm_compute; reflexivity. Qed.

(** tests/json_cddl.rs, [json_control_le]. *)
Example test_json_json_control_le : all_json
  [(txt "thing", txt "thing = uint .le 1",
     [(txt "0", XOk);
      (txt "1", XOk);
      (txt "1000000000000", XMismatch);
      (txt "-1000", XMismatch);
      (txt """""", XMismatch)]);
   (txt "thing", txt "thing = uint .le 0",
     [(txt "0", XOk);
      (txt "1", XMismatch);
      (txt "1000000000000", XMismatch);
      (txt "-1000", XMismatch);
      (txt """""", XMismatch)]);
   (txt "thing", txt "thing = uint .le -1",
     [(txt "0", XMismatch);
      (txt "1", XMismatch);
      (txt "1000000000000", XMismatch);
      (txt "-1000", XMismatch);
      (txt """""", XMismatch)]);
   (txt "thing", txt "thing = uint .le 18446744073709551615",
     [(txt "1000000000000", XOk)]);
   (txt "thing", txt "thing = nint .le 0",
     [(txt "-1", XOk);
      (txt "0", XMismatch);
      (txt "1", XMismatch)]);
   (txt "thing", txt "thing = nint .le 1",
     [(txt "0", XMismatch);
      (txt "1", XMismatch);
      (txt "1000000000000", XMismatch);
      (txt "-1000", XOk);
      (txt """""", XMismatch)]);
   (txt "thing", txt "thing = nint .le -999",
     [(txt "0", XMismatch);
      (txt "1", XMismatch);
      (txt "1000000000000", XMismatch);
      (txt "-1000", XOk);
      (txt """""", XMismatch)]);
   (txt "thing", txt "thing = nint .le -1000",
     [(txt "0", XMismatch);
      (txt "1", XMismatch);
      (txt "1000000000000", XMismatch);
      (txt "-1000", XOk);
      (txt """""", XMismatch)]);
   (txt "thing", txt "thing = int .le 1",
     [(txt "0", XOk);
      (txt "1", XOk);
      (txt "1000000000000", XMismatch);
      (txt "-1000", XOk);
      (txt """""", XMismatch)]);
   (txt "thing", txt "thing = int .le -999",
     [(txt "0", XMismatch);
      (txt "1", XMismatch);
      (txt "1000000000000", XMismatch);
      (txt "-1000", XOk);
      (txt """""", XMismatch)]);
   (txt "thing", txt "thing = int .le -1000",
     [(txt "0", XMismatch);
      (txt "1", XMismatch);
      (txt "1000000000000", XMismatch);
      (txt "-1000", XOk);
      (txt """""", XMismatch)])] = true.
Proof. vm_compute; reflexivity. Qed.

(** tests/json_cddl.rs, [json_control_gt]. *)
Example test_json_json_control_gt : all_json
  [(txt "thing", txt "thing = uint .gt 1",
     [(txt "0", XMismatch);
      (txt "1", XMismatch);
      (txt "1000000000000", XOk);
      (txt "-1000", XMismatch);
      (txt """""", XMismatch)]);
   (txt "thing", txt "thing = uint .gt 0",
     [(txt "0", XMismatch);
      (txt "1", XOk);
      (txt "1000000000000", XOk);
      (txt "-1000", XMismatch);
      (txt """""", XMismatch)]);
   (txt "thing", txt "thing = uint .gt -1",
     [(txt "0", XOk);
      (txt "1", XOk);
      (txt "1000000000000", XOk);
      (txt "-1000", XMismatch);
      (txt """""", XMismatch)]);
   (txt "thing", txt "thing = uint .gt 18446744073709551615",
     [(txt "1000000000000", XMismatch)]);
   (txt "thing", txt "thing = nint .gt 0",
     [(txt "-1", XMismatch);
      (txt "0", XMismatch)]);
   (txt "thing", txt "thing = nint .gt 1",
     [(txt "0", XMismatch);
      (txt "1", XMismatch);
      (txt "1000000000000", XMismatch);
      (txt "-1000", XMismatch);
      (txt """""", XMismatch)]);
   (txt "thing", txt "thing = nint .gt -2",
     [(txt "0", XMismatch);
      (txt "1", XMismatch);
      (txt "1000000000000", XMismatch);
      (txt "-1", XOk);
      (txt "-2", XMismatch);
      (txt "-1000", XMismatch);
      (txt """""", XMismatch)]);
   (txt "thing", txt "thing = nint .gt -999",
     [(txt "0", XMismatch);
      (txt "1", XMismatch);
      (txt "1000000000000", XMismatch);
      (txt "-1", XOk);
      (txt "-999", XMismatch);
      (txt "-1000", XMismatch);
      (txt """""", XMismatch)]);
   (txt "thing", txt "thing = nint .gt -1000",
     [(txt "0", XMismatch);
      (txt "1", XMismatch);
      (txt "1000000000000", XMismatch);
      (txt "-1", XOk);
      (txt "-999", XOk);
      (txt "-1000", XMismatch);
      (txt """""", XMismatch)]);
   (txt "thing", txt "thing = int .gt 1",
     [(txt "0", XMismatch);
      (txt "1", XMismatch);
      (txt "1000000000000", XOk);
      (txt "-1000", XMismatch);
      (txt """""", XMismatch)]);
   (txt "thing", txt "thing = int .gt -999",
     [(txt "0", XOk);
      (txt "1", XOk);
      (txt "1000000000000", XOk);
      (txt "-999", XMismatch);
      (txt "-1000", XMismatch);
      (txt """""", XMismatch)]);
   (txt "thing", txt "thing = int .gt -1000",
     [(txt "0", XOk);
      (txt "1", XOk);
      (txt "1000000000000", XOk);
      (txt "-999", XOk);
      (txt "-1000", XMismatch);
      (txt """""", XMismatch)])] = true.
Proof. vm_compute; reflexivity. Qed.

(** tests/json_cddl.rs, [json_control_ge]. *)
Example test_json_json_control_ge : all_json
  [(txt "thing", txt "thing = uint .ge 1",
     [(txt "0", XMismatch);
      (txt "1", XOk);
      (txt "1000000000000", XOk);
      (txt "-1000", XMismatch);
      (txt """""", XMismatch)]);
   (txt "thing", txt "thing = uint .ge 0",
     [(txt "0", XOk);
      (txt "1", XOk);
      (txt "1000000000000", XOk);
      (txt "-1000", XMismatch);
      (txt """""", XMismatch)]);
   (txt "thing", txt "thing = uint .ge -1",
     [(txt "0", XOk);
      (txt "1", XOk);
      (txt "1000000000000", XOk);
      (txt "-1", XMismatch);
      (txt "-1000", XMismatch);
      (txt """""", XMismatch)]);
   (txt "thing", txt "thing = uint .ge 18446744073709551615",
     [(txt "1000000000000", XMismatch)]);
   (txt "thing", txt "thing = nint .ge 0",
     [(txt "-1", XMismatch);
      (txt "0", XMismatch)]);
   (txt "thing", txt "thing = nint .ge 1",
     [(txt "0", XMismatch);
      (txt "1", XMismatch);
      (txt "1000000000000", XMismatch);
      (txt "-1000", XMismatch);
      (txt """""", XMismatch)]);
   (txt "thing", txt "thing = nint .ge -2",
     [(txt "0", XMismatch);
      (txt "1", XMismatch);
      (txt "1000000000000", XMismatch);
      (txt "-1", XOk);
      (txt "-2", XOk);
      (txt "-1000", XMismatch);
      (txt """""", XMismatch)]);
   (txt "thing", txt "thing = nint .ge -999",
     [(txt "0", XMismatch);
      (txt "1", XMismatch);
      (txt "1000000000000", XMismatch);
      (txt "-1", XOk);
      (txt "-999", XOk);
      (txt "-1000", XMismatch);
      (txt """""", XMismatch)]);
   (txt "thing", txt "thing = nint .ge -1000",
     [(txt "0", XMismatch);
      (txt "1", XMismatch);
      (txt "1000000000000", XMismatch);
      (txt "-1", XOk);
      (txt "-999", XOk);
      (txt "-1000", XOk);
      (txt """""", XMismatch)]);
   (txt "thing", txt "thing = int .ge 1",
     [(txt "0", XMismatch);
      (txt "1", XOk);
      (txt "1000000000000", XOk);
      (txt "-1000", XMismatch);
      (txt """""", XMismatch)]);
   (txt "thing", txt "thing = int .ge -999",
     [(txt "0", XOk);
      (txt "1", XOk);
      (txt "1000000000000", XOk);
      (txt "-999", XOk);
      (txt "-1000", XMismatch);
      (txt """""", XMismatch)]);
   (txt "thing", txt "thing = int .ge -1000",
     [(txt "0", XOk);
      (txt "1", XOk);
      (txt "1000000000000", XOk);
      (txt "-999", XOk);
      (txt "-1000", XOk);
      (txt """""", XMismatch)])] = true.
Proof. vm_compute; reflexivity. Qed.

(** tests/json_cddl.rs, [json_control_regexp]. *)
Example test_json_json_control_regexp : all_json
  [(txt "nolz", txt " nolz = tstr .regexp ""^(0|[1-9][0-9]*)$"" ",
     [(txt " ""0"" ", XOk);
      (txt " ""1"" ", XOk);
      (txt " ""20"" ", XOk);
      (txt " ""23"" ", XOk);
      (txt " ""123"" ", XOk);
      (txt " ""01"" ", XMismatch);
      (txt " ""0a"" ", XMismatch);
      (txt " """" ", XMismatch)]);
   (txt "pat", txt " pat = tstr .regexp ""^A"" ",
     [(txt " ""A"" ", XOk);
      (txt " ""ABC"" ", XOk);
      (txt " ""AAA"" ", XOk);
      (txt " ""ZA"" ", XMismatch);
      (txt " """" ", XMismatch)]);
   (txt "pat", txt " pat = tstr .regexp ""BB"" ",
     [(txt " ""BB"" ", XOk);
      (txt " ""ABCBBA"" ", XOk);
      (txt " ""ABCBA"" ", XMismatch)]);
   (txt "pat", txt " pat = bstr .regexp ""CCC"" ",
     [(txt " ""CCC"" ", XStructural)]);
   (txt "pat", txt " pat = tstr .regexp 1234 ",
     [(txt " ""1234"" ", XStructural)]);
   (txt "nai", txt " nai = tstr .regexp ""[A-Za-z0-9]+@[A-Za-z0-9]+(\\.[A-Za-z0-9]+)+"" ",
     [(txt """N1@CH57HF.4Znqe0.dYJRN.igjf""", XOk)])] = true.
Proof. vm_compute; reflexivity. Qed.

(** tests/json_cddl.rs, [json_infinite_recursion]. *)
Example test_json_json_infinite_recursion : all_json
  [(txt "thing1", txt "thing1 = thing2  thing2 = thing1",
     [(txt "0", XErr)])] = true.
Proof. vm_compute; reflexivity. Qed.

(** tests/json_cddl.rs, [json_choiceify_map]. *)
Example test_json_json_choiceify_map : all_json
  [(txt "person", txt "
        person = { name: tstr, age: uint, &extra }
        extra = ( aaa: bbb, ccc: ddd )
        aaa = ( one: tstr )
        bbb = ( two: tstr )
        ccc = ( three: tstr )
        ddd = ( four: tstr )
    ",
     [(txt "{""name"": ""Alice"", ""age"": 33 }", XMismatch);
      (txt "{""name"": ""Alice"", ""age"": 33, ""one"": ""X"" }", XMismatch);
      (txt "{""name"": ""Alice"", ""age"": 33, ""two"": ""X"" }", XOk);
      (txt "{""name"": ""Alice"", ""age"": 33, ""three"": ""X"" }", XMismatch);
      (txt "{""name"": ""Alice"", ""age"": 33, ""four"": ""X"" }", XOk);
      (txt "{""name"": ""Alice"", ""four"": ""X"" }", XMismatch)]);
   (txt "person", txt "
        person = { name: tstr, age: uint, &extra1 }
        extra1 = extra2
        extra2 = ( aaa: bbb, ccc: ddd )
        aaa = ( one: tstr )
        bbb = ( two: tstr )
        ccc = ( three: tstr )
        ddd = ( four: tstr )
    ",
     [(txt "{""name"": ""Alice"", ""age"": 33, ""one"": ""X"" }", XMismatch);
      (txt "{""name"": ""Alice"", ""age"": 33, ""two"": ""X"" }", XOk);
      (txt "{""name"": ""Alice"", ""age"": 33, ""three"": ""X"" }", XMismatch);
      (txt "{""name"": ""Alice"", ""age"": 33, ""four"": ""X"" }", XOk)]);
   (txt "map", txt "
        map = { top: tstr, &groupa }
        groupa = ( thing1: groupb )
        groupb = ( choice1: uint )
    ",
     [(txt "{ ""top"": ""yes"", ""choice1"": 99 }", XOk)]);
   (txt "map", txt "
        map = { &oops }
        oops = { one: 1, two: 2 }
    ",
     [(txt "{ ""test"": 99 }", XStructural)])] = true.
Proof. vm_compute; reflexivity. Qed.

(** tests/json_cddl.rs, [json_choiceify_array]. *)
Example test_json_json_choiceify_array : all_json
  [(txt "triple", txt "
        triple = [ tstr, bool, &primes ]
        primes = (2, 3, 5, more_primes)
        more_primes = (7, 11)
    ",
     [(txt "[ ""foo"", true, 2 ]", XOk);
      (txt "[ ""foo"", true, 11 ]", XOk);
      (txt "[ ""foo"", true ]", XMismatch);
      (txt "[ ""foo"", true, 4 ]", XMismatch)]);
   (txt "array", txt "
        array = [ &primes ]
        primes = more_primes
        more_primes = (2, 3, 5)
    ",
     [(txt "[ 2 ]", XOk);
      (txt "[ 4 ]", XMismatch)]);
   (txt "array", txt "
        array = [ &oops ]
        oops = [2, 3, 5]
    ",
     [(txt "[ 2 ]", XStructural)])] = true.
Proof. vm_compute; reflexivity. Qed.
