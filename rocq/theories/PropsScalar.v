(** Properties C01-C08: scalar types. *)
From Coq Require Import List Bool ZArith NArith String.
From Verif Require Import Base Util Data Value Convert Ivt Validate Fun
  SpecBase SpecScalar ScalarProofs Demo.
Import ListNotations.

(** C01: a literal accepts exactly its value. *)
Theorem C01_literal_exact : forall X lk l v c,
  decides (lit_is l v) (val X lk v (NLiteral l) c).
Proof. exact literal_decides. Qed.

Example C01_example :
  val demo_ext no_rules (VFloat 0) (NLiteral (LFloat 0x8000000000000000)) initial_ctx
    = Err (EMismatch (txt "float")) /\
  val demo_ext no_rules (vs "ab") (lit_s "ab") initial_ctx = Ok tt.
Proof. split; run 1. Qed.

(** C02: prelude types accept exactly their class. *)
Theorem C02_prelude_exact : forall X lk p v c,
  decides (in_prelude p v) (val X lk v (NPrelude p) c).
Proof. exact prelude_decides. Qed.

Example C02_example :
  val demo_ext no_rules (vi 0) (NPrelude PUint) initial_ctx = Ok tt /\
  val demo_ext no_rules (vi 0) (NPrelude PNint) initial_ctx = Err (EMismatch (txt "nint")).
Proof. split; run 1. Qed.

(** C03: integer ranges, with endpoints given directly or by name. *)
Theorem C03_int_range_exact : forall X lk s e incl a b v c cs ce,
  named lk c s (NLiteral (LInt a)) cs -> named lk c e (NLiteral (LInt b)) ce ->
  decides (in_int_range a b incl v) (val X lk v (NRange s e incl) c).
Proof. exact int_range_decides. Qed.

(** Endpoints: [low = 3] by name, 5 directly. *)
Definition low_rules : lookup_context := basic_context [(txt "low", RuleDef [] (lit_i 3))].
Example C03_example :
  (exists cs, named low_rules initial_ctx (name_ "low") (NLiteral (LInt 3)) cs) /\
  named low_rules initial_ctx (lit_i 5) (NLiteral (LInt 5)) initial_ctx /\
  val demo_ext low_rules (vi 3) (NRange (name_ "low") (lit_i 5) false) initial_ctx = Ok tt /\
  rejected (val demo_ext low_rules (vi 5) (NRange (name_ "low") (lit_i 5) false) initial_ctx).
Proof.
  split; [|split; [|split]].
  - eexists. eapply named_step; [reflexivity|]. constructor. discriminate.
  - constructor. discriminate.
  - run 5.
  - eexists. run 5.
Qed.

(** C04: float ranges follow IEEE order. *)
Theorem C04_float_range_exact : forall X lk s e incl a b v c cs ce,
  named lk c s (NLiteral (LFloat a)) cs -> named lk c e (NLiteral (LFloat b)) ce ->
  decides (in_float_range a b incl v) (val X lk v (NRange s e incl) c).
Proof. exact float_range_decides. Qed.

(** C04: endpoints of different kinds. *)
Theorem C04_range_kinds_structural : forall X lk s e incl ls le v c cs ce,
  named lk c s (NLiteral ls) cs -> named lk c e (NLiteral le) ce ->
  ~ same_kind ls le -> is_structural (val X lk v (NRange s e incl) c).
Proof. exact range_kinds. Qed.

(** C04: endpoints that are not numbers. *)
Theorem C04_range_not_numbers : forall X lk s e incl ls le v c cs ce,
  named lk c s (NLiteral ls) cs -> named lk c e (NLiteral le) ce ->
  same_kind ls le -> (forall a, ls <> LInt a) -> (forall a, ls <> LFloat a) ->
  rejected (val X lk v (NRange s e incl) c).
Proof. exact range_no_number. Qed.

(** -0.0 is in 0.0..1.0; NaN is in no range; an integer is not in a float range. *)
Example C04_example :
  let r := NRange (NLiteral (LFloat 0)) (NLiteral (LFloat 0x3FF0000000000000)) true in
  val demo_ext no_rules (VFloat 0x8000000000000000) r initial_ctx = Ok tt /\
  rejected (val demo_ext no_rules (VFloat 0x7FF8000000000000) r initial_ctx) /\
  rejected (val demo_ext no_rules (vi 1) r initial_ctx) /\
  ~ same_kind (LInt 1) (LFloat 0) /\
  is_structural (val demo_ext no_rules (vi 1) (NRange (lit_i 1) (NLiteral (LFloat 0)) true) initial_ctx).
Proof.
  cbv zeta. split; [run 5|]. split; [eexists; run 5|]. split; [eexists; run 5|].
  split; [intros H; inversion H|]. eexists; run 5.
Qed.

(** C05: comparison controls are exact within their target class. *)
Theorem C05_comparison_exact : forall X lk op t l p n v c ct cl,
  named lk c l (NLiteral (LInt n)) cl -> named lk c t (NPrelude p) ct ->
  p = PInt \/ p = PUint \/ p = PNint ->
  decides (in_prelude p v /\ exists z, v = VInteger z /\ cmp_holds op z n)
    (val X lk v (NControl (cmp_control op t l)) c).
Proof. exact cmp_decides. Qed.

Theorem C05_bad_limit_structural : forall X lk op t l nd v c cl,
  named lk c l nd cl -> (forall n, nd <> NLiteral (LInt n)) ->
  is_structural (val X lk v (NControl (cmp_control op t l)) c).
Proof. exact cmp_bad_limit. Qed.

Theorem C05_bad_target_structural : forall X lk op t l n nd v c cl ct,
  named lk c l (NLiteral (LInt n)) cl -> named lk c t nd ct ->
  nd <> NPrelude PInt -> nd <> NPrelude PUint -> nd <> NPrelude PNint ->
  is_structural (val X lk v (NControl (cmp_control op t l)) c).
Proof. exact cmp_bad_target. Qed.

Example C05_example :
  val demo_ext no_rules (vi (-4)) (NControl (cmp_control OpGe (NPrelude PNint) (lit_i (-4)))) initial_ctx = Ok tt /\
  rejected (val demo_ext no_rules (vi 4) (NControl (cmp_control OpLt (NPrelude PUint) (lit_i 4))) initial_ctx) /\
  is_structural (val demo_ext no_rules (vi 4) (NControl (cmp_control OpLt (NPrelude PFloat) (lit_i 4))) initial_ctx) /\
  is_structural (val demo_ext no_rules (vi 4) (NControl (cmp_control OpLt int_t (lit_s "x"))) initial_ctx).
Proof. split; [run 5|]. split; [eexists; run 5|]. split; eexists; run 5. Qed.

(** C06: [uint .size n]. *)
Theorem C06_size_uint_exact : forall X lk t s n v c ct cs,
  named lk c s (NLiteral (LInt n)) cs -> (0 <= n < 2 ^ 64)%Z -> named lk c t (NPrelude PUint) ct ->
  wf_value v ->
  decides (exists x, v = VInteger x /\ 0 <= x < 256 ^ n)%Z (val X lk v (NControl (CtlSize t s)) c).
Proof. exact size_uint_lit_decides. Qed.

(** C06: [uint .size a..b] and [uint .size a...b]. *)
Theorem C06_size_uint_range_exact : forall X lk t s a b incl v c ct cs,
  named lk c s (NRange (NLiteral (LInt a)) (NLiteral (LInt b)) incl) cs ->
  (0 <= a < b)%Z -> (b < 2 ^ 64)%Z -> named lk c t (NPrelude PUint) ct ->
  decides (exists x k, v = VInteger x /\ min_bytes x k /\ between a b incl k)
    (val X lk v (NControl (CtlSize t s)) c).
Proof. exact size_uint_range_decides. Qed.

(** C06: the one-point range [a..a] means the same as the plain size [a]. *)
Theorem C06_size_uint_point_range : forall X lk t s a v c ct cs,
  named lk c s (NRange (NLiteral (LInt a)) (NLiteral (LInt a)) true) cs ->
  (0 <= a < 2 ^ 64)%Z -> named lk c t (NPrelude PUint) ct ->
  val X lk v (NControl (CtlSize t s)) c = val X lk v (NControl (CtlSize t (NLiteral (LInt a)))) c.
Proof. exact size_uint_point_range. Qed.

(** C06/C07: an empty size range rejects everything. *)
Theorem C06_size_empty_range_rejects : forall X lk t s a b incl v c ct cs p,
  named lk c s (NRange (NLiteral (LInt a)) (NLiteral (LInt b)) incl) cs ->
  (0 <= a < 2 ^ 64)%Z -> (0 <= b < 2 ^ 64)%Z -> named lk c t (NPrelude p) ct ->
  p = PUint \/ p = PTstr \/ p = PBstr -> (forall k, ~ between a b incl k) ->
  rejected (val X lk v (NControl (CtlSize t s)) c).
Proof. exact size_empty_range. Qed.

(** C06: inadmissible limits and targets. *)
Theorem C06_size_limit_structural : forall X lk t s n v c cs,
  named lk c s (NLiteral (LInt n)) cs -> ~ (0 <= n < 2 ^ 64)%Z ->
  is_structural (val X lk v (NControl (CtlSize t s)) c).
Proof. exact size_bad_lit. Qed.
Theorem C06_size_range_limit_structural : forall X lk t s a b incl v c cs,
  named lk c s (NRange (NLiteral (LInt a)) (NLiteral (LInt b)) incl) cs ->
  ~ (0 <= a < 2 ^ 64)%Z \/ ~ (0 <= b < 2 ^ 64)%Z ->
  is_structural (val X lk v (NControl (CtlSize t s)) c).
Proof. exact size_bad_range. Qed.
Theorem C06_size_argument_structural : forall X lk t s nd v c cs,
  named lk c s nd cs ->
  (forall n, nd <> NLiteral (LInt n)) ->
  (forall a b incl, nd <> NRange (NLiteral (LInt a)) (NLiteral (LInt b)) incl) ->
  is_structural (val X lk v (NControl (CtlSize t s)) c).
Proof. exact size_bad_arg. Qed.
Theorem C06_size_target_structural : forall X lk t s n nd v c cs ct,
  named lk c s (NLiteral (LInt n)) cs -> (0 <= n < 2 ^ 64)%Z -> named lk c t nd ct ->
  nd <> NPrelude PUint -> nd <> NPrelude PTstr -> nd <> NPrelude PBstr ->
  is_structural (val X lk v (NControl (CtlSize t s)) c).
Proof. exact size_bad_target. Qed.

(** 255 fits one byte, 256 does not; 256 needs two bytes. *)
Example C06_example :
  val demo_ext no_rules (vi 255) (NControl (CtlSize (NPrelude PUint) (lit_i 1))) initial_ctx = Ok tt /\
  rejected (val demo_ext no_rules (vi 256) (NControl (CtlSize (NPrelude PUint) (lit_i 1))) initial_ctx) /\
  val demo_ext no_rules (vi 256) (NControl (CtlSize (NPrelude PUint) (NRange (lit_i 2) (lit_i 3) false))) initial_ctx = Ok tt /\
  rejected (val demo_ext no_rules (vi 255) (NControl (CtlSize (NPrelude PUint) (NRange (lit_i 2) (lit_i 3) false))) initial_ctx) /\
  is_structural (val demo_ext no_rules (vi 255) (NControl (CtlSize (NPrelude PUint) (lit_i (-1)))) initial_ctx) /\
  is_structural (val demo_ext no_rules (vi 255) (NControl (CtlSize (NPrelude PBool) (lit_i 1))) initial_ctx) /\
  rejected (val demo_ext no_rules (vi 255) (NControl (CtlSize (NPrelude PUint) (NRange (lit_i 2) (lit_i 2) false))) initial_ctx).
Proof.
  split; [run 5|]. split; [eexists; run 5|]. split; [run 5|]. split; [eexists; run 5|].
  split; [eexists; run 5|]. split; [eexists; run 5|]. eexists; run 5.
Qed.

(** C07: [.size] on strings. *)
Theorem C07_size_string_exact : forall X lk t s n p v c ct cs,
  named lk c s (NLiteral (LInt n)) cs -> (0 <= n < 2 ^ 64)%Z -> named lk c t (NPrelude p) ct ->
  p = PTstr \/ p = PBstr ->
  decides (in_prelude p v /\ byte_length v n) (val X lk v (NControl (CtlSize t s)) c).
Proof. exact size_string_lit_decides. Qed.

Theorem C07_size_string_range_exact : forall X lk t s a b incl p v c ct cs,
  named lk c s (NRange (NLiteral (LInt a)) (NLiteral (LInt b)) incl) cs ->
  (0 <= a < 2 ^ 64)%Z -> (0 <= b < 2 ^ 64)%Z -> named lk c t (NPrelude p) ct ->
  p = PTstr \/ p = PBstr ->
  decides (in_prelude p v /\ exists k, byte_length v k /\ between a b incl k)
   (val X lk v (NControl (CtlSize t s)) c).
Proof. exact size_string_range_decides. Qed.

(** Three characters "a", "é", "€" are 1 + 2 + 3 = 6 bytes. *)
Example C07_example :
  byte_length (VText [97; 233; 8364]%N) 6 /\
  val demo_ext no_rules (VText [97; 233; 8364]%N) (NControl (CtlSize tstr_t (lit_i 6))) initial_ctx = Ok tt /\
  rejected (val demo_ext no_rules (VText [97; 233; 8364]%N) (NControl (CtlSize tstr_t (NRange (lit_i 1) (lit_i 6) false))) initial_ctx).
Proof. split; [apply (bl_text [97; 233; 8364]%N)|]. split; [run 5|eexists; run 5]. Qed.

(** C08: [.regexp] accepts exactly the texts the regex engine matches. *)
Theorem C08_regexp_exact : forall X lk re v c,
  decides (exists t, v = VText t /\ regex_match X re t = true) (val X lk v (NControl (CtlRegexp re)) c).
Proof. exact regexp_decides. Qed.

(** C08: [.cbor] decodes, converts and validates in the same scope. *)
Theorem C08_cbor_exact : forall X lk nd v c,
  (forall b cv x, v = VBytes b -> cbor_decode X b = inl cv -> of_cbor cv = Ok x ->
     val X lk v (NControl (CtlCbor nd)) c = val X lk x nd c) /\
  (forall b cv e, v = VBytes b -> cbor_decode X b = inl cv -> of_cbor cv = Err e ->
     val X lk v (NControl (CtlCbor nd)) c = Err e) /\
  (forall b m, v = VBytes b -> cbor_decode X b = inr m ->
     val X lk v (NControl (CtlCbor nd)) c = Err (EValueError m)) /\
  ((forall b, v <> VBytes b) -> rejected (val X lk v (NControl (CtlCbor nd)) c)).
Proof.
  intros X lk nd v c. rewrite cbor_control_val. repeat split.
  - intros b cv x -> -> ->. reflexivity.
  - intros b cv e -> -> ->. reflexivity.
  - intros b m -> ->. reflexivity.
  - intros H. destruct v; try (eexists; reflexivity). exfalso; eapply H; reflexivity.
Qed.

Example C08_example :
  val demo_ext no_rules (vs "ab") (NControl (CtlRegexp (txt "ab"))) initial_ctx = Ok tt /\
  rejected (val demo_ext no_rules (vs "abc") (NControl (CtlRegexp (txt "ab"))) initial_ctx) /\
  val demo_ext no_rules (VBytes [7%N]) (NControl (CtlCbor (NRange (lit_i 7) (lit_i 8) true))) initial_ctx = Ok tt /\
  val demo_ext no_rules (VBytes []) (NControl (CtlCbor int_t)) initial_ctx = Err (EValueError (txt "bad")).
Proof. split; [run 5|]. split; [eexists; run 5|]. split; run 5. Qed.

Print Assumptions C01_literal_exact.
Print Assumptions C02_prelude_exact.
Print Assumptions C03_int_range_exact.
Print Assumptions C04_float_range_exact.
Print Assumptions C04_range_kinds_structural.
Print Assumptions C04_range_not_numbers.
Print Assumptions C05_comparison_exact.
Print Assumptions C05_bad_limit_structural.
Print Assumptions C05_bad_target_structural.
Print Assumptions C06_size_uint_exact.
Print Assumptions C06_size_uint_range_exact.
Print Assumptions C06_size_uint_point_range.
Print Assumptions C06_size_empty_range_rejects.
Print Assumptions C06_size_limit_structural.
Print Assumptions C06_size_range_limit_structural.
Print Assumptions C06_size_argument_structural.
Print Assumptions C06_size_target_structural.
Print Assumptions C07_size_string_exact.
Print Assumptions C07_size_string_range_exact.
Print Assumptions C08_regexp_exact.
Print Assumptions C08_cbor_exact.
