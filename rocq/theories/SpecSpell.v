(** Different spellings of the same type. *)
From Coq Require Import List Bool ZArith NArith String Permutation.
From Verif Require Import Base Util Data Value Ivt Scalar Validate Fun ConvertProofs SpecBase SpecScalar SpecCtx SpecConvert SpecVerdict SpecJudge SpecSwap.
Import ListNotations.
Open Scope list_scope.
Open Scope Z_scope.

Definition num (n : Z) : node := NLiteral (LInt n).
Definition from_to (a b : Z) : node := NRange (num a) (num b) true.        (* a..b *)
Definition from_until (a b : Z) : node := NRange (num a) (num b) false.    (* a...b *)
Definition either (a b : node) : node := NChoice [a; b].                   (* a / b *)
Definition with_size (p : prelude) (size : node) : node := NControl (CtlSize (NPrelude p) size).
Definition compared (op : cmp_op) (p : prelude) (n : Z) : node := NControl (cmp_control op (NPrelude p) (num n)).
Definition strings := [PTstr; PBstr].

(** A type without names that is never blamed itself: it accepts or rejects. *)
Definition flawless (X : ext) (t : node) : Prop :=
  closed_type t /\ forall v, keys_sorted v ->
    run_validate X (basic_context []) v (RuleDef [] t) = Ok tt \/
    exists m, run_validate X (basic_context []) v (RuleDef [] t) = Err (EMismatch m).

Inductive spelled (X : ext) : node -> node -> Prop :=
(** Ranges *)
| sp_until a b : spelled X (from_until a (b + 1)) (from_to a b)
| sp_single n : spelled X (from_to n n) (num n)
| sp_join a b c : a <= b + 1 -> b <= c -> spelled X (either (from_to a b) (from_to (b + 1) c)) (from_to a c)
(** Comparisons *)
| sp_upto n : spelled X (compared OpLe PUint n) (from_to 0 n)
| sp_down_to n : spelled X (compared OpGe PNint n) (from_to n (-1))
| sp_lt p n : In p cmp_classes -> spelled X (compared OpLt p (n + 1)) (compared OpLe p n)
| sp_gt p n : In p cmp_classes -> spelled X (compared OpGt p n) (compared OpGe p (n + 1))
| sp_signs op n : spelled X (compared op PInt n) (either (compared op PUint n) (compared op PNint n))
| sp_uint : spelled X (compared OpGe PInt 0) (NPrelude PUint)
| sp_nint : spelled X (compared OpLt PInt 0) (NPrelude PNint)
| sp_limits p a : In p cmp_classes -> spelled X (either (compared OpLt p a) (compared OpGe p a)) (NPrelude p)
(** Sizes of numbers: a single size is an upper limit, a range of sizes is not *)
| sp_bytes n : 0 <= n < 16 -> spelled X (with_size PUint (num n)) (from_to 0 (256 ^ n - 1))
| sp_wide n : 16 <= n -> u64 n -> spelled X (with_size PUint (num n)) (NPrelude PUint)
| sp_bytes_upto n : 0 <= n < 16 -> spelled X (with_size PUint (from_to 0 n)) (with_size PUint (num n))
| sp_bytes_range a b : 0 < a < b -> u64 b -> spelled X (with_size PUint (from_to a b)) (from_to (256 ^ (a - 1)) (256 ^ b - 1))
| sp_bytes_until a b : 0 < a < b -> u64 b -> spelled X (with_size PUint (from_until a b)) (from_to (256 ^ (a - 1)) (256 ^ (b - 1) - 1))
| sp_size p n : In p size_classes -> u64 n -> spelled X (with_size p (from_to n n)) (with_size p (num n))
(** Sizes of strings *)
| sp_size_until p a b : In p strings -> u64 a -> u64 b -> u64 (b + 1) ->
    spelled X (with_size p (from_until a (b + 1))) (with_size p (from_to a b))
| sp_size_join p a b c : In p strings -> u64 a -> u64 b -> u64 (b + 1) -> u64 c -> a <= b + 1 -> b <= c ->
    spelled X (either (with_size p (from_to a b)) (with_size p (from_to (b + 1) c))) (with_size p (from_to a c))
| sp_empty_text : spelled X (with_size PTstr (num 0)) (NLiteral (LText []))
| sp_empty_bytes : spelled X (with_size PBstr (num 0)) (NLiteral (LBytes []))
(** Names of the standard types *)
| sp_int : spelled X (either (NPrelude PUint) (NPrelude PNint)) (NPrelude PInt)
| sp_bool : spelled X (either (NLiteral (LBool true)) (NLiteral (LBool false))) (NPrelude PBool)
(** Choices and parentheses, of any types *)
| sp_one t : closed_type t -> spelled X (NChoice [t]) t
| sp_parens t : closed_type t -> spelled X (NGroup [t]) t
| sp_nested xs ys zs : Forall closed_type (xs ++ ys ++ zs) ->
    spelled X (NChoice (xs ++ NChoice ys :: zs)) (NChoice (xs ++ ys ++ zs))
| sp_again t xs ys zs : Forall closed_type (xs ++ t :: ys ++ zs) ->
    spelled X (NChoice (xs ++ t :: ys ++ t :: zs)) (NChoice (xs ++ t :: ys ++ zs))
| sp_any xs ys : Forall closed_type (xs ++ ys) ->
    spelled X (NChoice (xs ++ NPrelude PAny :: ys)) (NChoice (xs ++ [NPrelude PAny]))
| sp_only_any xs ys : Forall (flawless X) xs -> Forall closed_type ys ->
    spelled X (NChoice (xs ++ NPrelude PAny :: ys)) (NPrelude PAny)
| sp_order xs ys : Forall (flawless X) xs -> Permutation xs ys -> spelled X (NChoice xs) (NChoice ys)
(** Steps may be combined *)
| sp_alternative xs a b zs : spelled X a b -> Forall closed_type (xs ++ zs) ->
    spelled X (NChoice (xs ++ a :: zs)) (NChoice (xs ++ b :: zs))
| sp_same t : closed_type t -> spelled X t t
| sp_back a b : spelled X a b -> spelled X b a
| sp_steps a b c : spelled X a b -> spelled X b c -> spelled X a c.
