(** The bit-level float comparisons of the model agree with IEEE-754. *)
From Coq Require Import List Bool ZArith NArith Lia.
From Verif Require Import Base Util Value ValueOrder SpecBase.
Import ListNotations.
Local Open Scope N_scope.

Definition mag63 (m : N) : N :=
  let e := m / 2 ^ 52 in let f := m mod 2 ^ 52 in
  if e =? 0 then f else (2 ^ 52 + f) * 2 ^ (e - 1).

Lemma mag63_mono m m' : m < m' -> mag63 m < mag63 m'.
Proof.
  intros H. unfold mag63.
  pose proof (N.div_mod m (2 ^ 52) ltac:(discriminate)) as E.
  pose proof (N.div_mod m' (2 ^ 52) ltac:(discriminate)) as E'.
  pose proof (N.mod_lt m (2 ^ 52) ltac:(discriminate)) as L.
  pose proof (N.mod_lt m' (2 ^ 52) ltac:(discriminate)) as L'.
  set (e := m / 2 ^ 52) in *. set (f := m mod 2 ^ 52) in *.
  set (e' := m' / 2 ^ 52) in *. set (f' := m' mod 2 ^ 52) in *.
  assert (e <= e') by nia.
  change (2 ^ 52) with 4503599627370496 in *.
  destruct (N.eqb_spec e 0), (N.eqb_spec e' 0); try lia.
  - destruct (N.eq_dec e e') as [Ee|Ne].
    + rewrite <- Ee in *. assert (f < f') by lia.
      apply N.mul_lt_mono_pos_r; [|lia].
      apply N.neq_0_lt_0, N.pow_nonzero; lia.
    + assert (P : 2 ^ (e' - 1) = 2 ^ (e - 1) * 2 ^ (e' - e)).
      { rewrite <- N.pow_add_r. f_equal. lia. }
      assert (Q : 2 <= 2 ^ (e' - e)).
      { change 2 with (2 ^ 1) at 1. apply N.pow_le_mono_r; lia. }
      assert (0 < 2 ^ (e - 1)) by (apply N.neq_0_lt_0, N.pow_nonzero; lia).
      rewrite P. set (p := 2 ^ (e - 1)) in *. set (q := 2 ^ (e' - e)) in *.
      assert ((4503599627370496 + f) * p < 2 * 4503599627370496 * p) by nia.
      assert (2 * 4503599627370496 * p <= 4503599627370496 * (p * q)) by nia.
      nia.
Qed.

Lemma mag63_lt m m' : mag63 m < mag63 m' <-> m < m'.
Proof.
  split; [|apply mag63_mono]. intros H.
  destruct (N.lt_trichotomy m m') as [?|[->|L]]; auto; [lia|].
  apply mag63_mono in L. lia.
Qed.
Lemma mag63_eq m m' : mag63 m = mag63 m' <-> m = m'.
Proof.
  split; [|intros ->; auto]. intros H.
  destruct (N.lt_trichotomy m m') as [L|[?|L]]; auto; apply mag63_mono in L; lia.
Qed.
Lemma mag63_0 m : mag63 m = 0 <-> m = 0.
Proof. change 0 with (mag63 0) at 1. apply mag63_eq. Qed.

(** Sign and magnitude fields of a 64-bit pattern. *)
Definition neg (u : N) : bool := N.odd (u / 2 ^ 63).
Definition low (u : N) : N := u mod 2 ^ 63.

Section Fields.
Variable u : N.

Lemma low_lt : low u < 2 ^ 63.
Proof. apply N.mod_lt. discriminate. Qed.

Lemma land_low : N.land u 0x7FFFFFFFFFFFFFFF = low u.
Proof. change 0x7FFFFFFFFFFFFFFF with (N.ones 63). apply N.land_ones. Qed.

Lemma msb_neg : N.eqb (N.land u f64_msb) 0 = negb (neg u).
Proof. rewrite land_msb. f_equal. unfold neg. rewrite N.testbit_odd, N.shiftr_div_pow2. reflexivity. Qed.

Lemma expo_low : (u / 2 ^ 52) mod 2 ^ 11 = low u / 2 ^ 52.
Proof.
  unfold low. change (2 ^ 63) with (2 ^ 52 * 2 ^ 11).
  rewrite N.mod_mul_r by discriminate.
  rewrite (N.mul_comm (2 ^ 52)), N.div_add by discriminate.
  rewrite (N.div_small (u mod 2 ^ 52)) by (apply N.mod_lt; discriminate). lia.
Qed.

Lemma frac_low : u mod 2 ^ 52 = low u mod 2 ^ 52.
Proof.
  unfold low. change (2 ^ 63) with (2 ^ 52 * 2 ^ 11).
  rewrite N.mod_mul_r by discriminate.
  rewrite (N.mul_comm (2 ^ 52)), N.mod_add by discriminate.
  rewrite N.mod_mod by discriminate. auto.
Qed.

Definition inf63 : N := 0x7FF0000000000000.

Lemma nan_low : f64_is_nan u = (inf63 <? low u).
Proof. unfold f64_is_nan. rewrite land_low. reflexivity. Qed.

Lemma signed_low : f64_signed u = (if neg u then - Z.of_N (low u) else Z.of_N (low u))%Z.
Proof. unfold f64_signed. rewrite land_low, msb_neg. destruct (neg u); auto. Qed.

Lemma decode_low :
  f64_decode u =
  if low u <? inf63 then Finite (if neg u then - Z.of_N (mag63 (low u)) else Z.of_N (mag63 (low u)))
  else if low u =? inf63 then Infinite (neg u) else NaN.
Proof.
  unfold f64_decode. fold (neg u). rewrite expo_low, frac_low.
  pose proof low_lt as L. fold (mag63 (low u)).
  pose proof (N.div_mod (low u) (2 ^ 52) ltac:(discriminate)) as E.
  pose proof (N.mod_lt (low u) (2 ^ 52) ltac:(discriminate)) as M.
  set (e := low u / 2 ^ 52) in *. set (f := low u mod 2 ^ 52) in *.
  unfold inf63. change (2 ^ 52) with 4503599627370496 in *.
  change (2 ^ 63) with 9223372036854775808 in *.
  destruct (N.eqb_spec e 2047).
  - destruct (N.ltb_spec (low u) 0x7FF0000000000000); [lia|].
    destruct (N.eqb_spec f 0), (N.eqb_spec (low u) 0x7FF0000000000000); auto; lia.
  - destruct (N.ltb_spec (low u) 0x7FF0000000000000); [|lia].
    reflexivity.
Qed.
End Fields.

Lemma signed_mag_lt n m n' m' :
  ((if n : bool then - Z.of_N (mag63 m) else Z.of_N (mag63 m)) <
   (if n' : bool then - Z.of_N (mag63 m') else Z.of_N (mag63 m')))%Z <->
  ((if n then - Z.of_N m else Z.of_N m) < (if n' then - Z.of_N m' else Z.of_N m'))%Z.
Proof.
  pose proof (mag63_lt m m'). pose proof (mag63_lt m' m).
  pose proof (mag63_0 m). pose proof (mag63_0 m').
  destruct n, n'; lia.
Qed.
Lemma signed_mag_eq n m n' m' :
  ((if n : bool then - Z.of_N (mag63 m) else Z.of_N (mag63 m)) =
   (if n' : bool then - Z.of_N (mag63 m') else Z.of_N (mag63 m')))%Z <->
  ((if n then - Z.of_N m else Z.of_N m) = (if n' then - Z.of_N m' else Z.of_N m'))%Z.
Proof.
  pose proof (mag63_eq m m'). pose proof (mag63_0 m). pose proof (mag63_0 m').
  destruct n, n'; lia.
Qed.

Theorem f64_lt_ieee a b : (f64_lt a b = true <-> ieee_lt a b).
Proof.
  unfold f64_lt, ieee_lt.
  rewrite !andb_true_iff, !negb_true_iff, !nan_low, !signed_low, !decode_low, Z.ltb_lt.
  rewrite !N.ltb_ge.
  destruct (N.ltb_spec (low a) inf63), (N.ltb_spec (low b) inf63),
    (N.eqb_spec (low a) inf63), (N.eqb_spec (low b) inf63); try lia;
    try rewrite signed_mag_lt; destruct (neg a), (neg b);
    unfold inf63 in *; try lia; intuition (try lia; try congruence).
Qed.

Theorem f64_le_ieee a b : (f64_le a b = true <-> ieee_le a b).
Proof.
  unfold f64_le, ieee_le, ieee_lt, ieee_eq.
  rewrite !andb_true_iff, !negb_true_iff, !nan_low, !signed_low, !decode_low, Z.leb_le.
  rewrite !N.ltb_ge.
  destruct (N.ltb_spec (low a) inf63), (N.ltb_spec (low b) inf63),
    (N.eqb_spec (low a) inf63), (N.eqb_spec (low b) inf63); try lia;
    try rewrite signed_mag_lt, signed_mag_eq; destruct (neg a), (neg b);
    unfold inf63 in *; try lia; intuition (try lia; try congruence).
Qed.
