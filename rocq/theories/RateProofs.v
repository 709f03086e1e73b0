(** Proofs about the rates. *)
From Coq Require Import ZArith Reals Lia Lra Psatz.
From Flocq Require Import Core.Core IEEE754.BinarySingleNaN.
From Verif Require Import Model HitRate.
Local Open Scope R_scope.

Local Instance prec_pos' : Prec_gt_0 53 := prec_pos.

Notation fexp := (SpecFloat.fexp 53 1024).
Notation rnd := (round radix2 fexp ZnearestE).

Lemma fexp_FLT e : fexp e = FLT_exp (-1074) 53 e.
Proof. reflexivity. Qed.

Local Instance valid : Valid_exp fexp := fexp_correct 53 1024 prec_pos.

Lemma format_pow e : (-1074 <= e)%Z -> generic_format radix2 fexp (bpow radix2 e).
Proof.
  intros H. apply generic_format_bpow. rewrite fexp_FLT. unfold FLT_exp. lia.
Qed.

Lemma format_1 : generic_format radix2 fexp 1.
Proof. apply (format_pow 0). lia. Qed.

Lemma rnd_0 : rnd 0 = 0.
Proof. apply round_0. apply valid_rnd_N. Qed.
Lemma rnd_1 : rnd 1 = 1.
Proof. apply round_generic; [apply valid_rnd_N|apply format_1]. Qed.
Lemma rnd_le x y : x <= y -> rnd x <= rnd y.
Proof. apply round_le; [apply valid|apply valid_rnd_N]. Qed.
Lemma rnd_unit x : 0 <= x <= 1 -> 0 <= rnd x <= 1.
Proof. intros [A B]. split; [rewrite <- rnd_0|rewrite <- rnd_1]; apply rnd_le; assumption. Qed.

Lemma small_bound x : Rabs x <= bpow radix2 64 -> Rlt_bool (Rabs (rnd x)) (bpow radix2 1024) = true.
Proof.
  intros H. apply Rlt_bool_true. apply Rle_lt_trans with (bpow radix2 64).
  - apply abs_round_le_generic; auto using valid.
    + apply valid_rnd_N.
    + apply format_pow. lia.
  - apply bpow_lt. lia.
Qed.

Lemma unit_bound x : 0 <= x <= 1 -> Rabs x <= bpow radix2 64.
Proof.
  intros H. rewrite Rabs_pos_eq by lra. apply Rle_trans with 1; [lra|].
  apply (bpow_le radix2 0 64). lia.
Qed.

Lemma to_double_correct z : (0 <= z < 2 ^ 64)%Z ->
  B2R (to_double z) = rnd (IZR z) /\ is_finite (to_double z) = true.
Proof.
  intros H. unfold to_double.
  pose proof (binary_normalize_correct 53 1024 prec_pos prec_emax mode_NE z 0 false) as C.
  cbv zeta in C. replace (F2R (Float radix2 z 0)) with (IZR z) in C.
  2:{ unfold F2R. simpl. lra. }
  change (round_mode mode_NE) with ZnearestE in C. rewrite small_bound in C.
  - destruct C as (C1 & C2 & _). split; assumption.
  - rewrite Rabs_pos_eq by (apply IZR_le; lia).
    change (bpow radix2 64) with (IZR (2 ^ 64)). apply IZR_le. lia.
Qed.

Lemma one_correct : B2R (to_double 1) = 1 /\ is_finite (to_double 1) = true.
Proof.
  destruct (to_double_correct 1) as (A & B); [lia|]. split; [|exact B]. rewrite A. apply rnd_1.
Qed.

Section Rates.
Variables h a : Z.
Hypothesis H : (0 <= h <= a)%Z.
Hypothesis A : (0 < a < 2 ^ 64)%Z.

Let hr := div (to_double h) (to_double a).
Let mr := sub (to_double 1) hr.

Lemma quotient_unit : 0 <= rnd (IZR h) / rnd (IZR a) <= 1.
Proof.
  assert (0 <= rnd (IZR h)) by (rewrite <- rnd_0; apply rnd_le; apply IZR_le; lia).
  assert (rnd (IZR h) <= rnd (IZR a)) by (apply rnd_le; apply IZR_le; lia).
  assert (1 <= rnd (IZR a)) by (rewrite <- rnd_1 at 1; apply rnd_le; apply IZR_le; lia).
  split.
  - apply Rmult_le_pos; [assumption|]. left. apply Rinv_0_lt_compat. lra.
  - apply (Rmult_le_reg_r (rnd (IZR a))); [lra|]. unfold Rdiv. rewrite Rmult_assoc, Rinv_l; lra.
Qed.

Lemma hit_correct :
  B2R hr = rnd (rnd (IZR h) / rnd (IZR a)) /\ is_finite hr = true.
Proof.
  destruct (to_double_correct h) as (H1 & H2); [lia|].
  destruct (to_double_correct a) as (A1 & A2); [lia|].
  pose proof (@Bdiv_correct 53 1024 prec_pos prec_emax mode_NE (to_double h) (to_double a)) as C.
  change (round_mode mode_NE) with ZnearestE in C.
  rewrite H1, A1 in C. rewrite small_bound in C by (apply unit_bound, quotient_unit).
  destruct C as (C1 & C2 & _).
  - assert (1 <= rnd (IZR a)) by (rewrite <- rnd_1 at 1; apply rnd_le; apply IZR_le; lia). lra.
  - rewrite H2 in C2. split; [exact C1|exact C2].
Qed.

Lemma hit_unit : 0 <= B2R hr <= 1.
Proof. rewrite (proj1 hit_correct). apply rnd_unit, quotient_unit. Qed.

Lemma miss_correct : B2R mr = rnd (1 - B2R hr) /\ is_finite mr = true.
Proof.
  pose proof (@Bminus_correct 53 1024 prec_pos prec_emax mode_NE (to_double 1) hr
    (proj2 one_correct) (proj2 hit_correct)) as C.
  change (round_mode mode_NE) with ZnearestE in C. rewrite (proj1 one_correct) in C.
  rewrite small_bound in C by (apply unit_bound; pose proof hit_unit; lra).
  destruct C as (C1 & C2 & _). split; [exact C1|exact C2].
Qed.

Lemma miss_unit : 0 <= B2R mr <= 1.
Proof. rewrite (proj1 miss_correct). apply rnd_unit. pose proof hit_unit. lra. Qed.

(** Rounding a number between 0 and 1 changes it by at most 2^-54. *)
Lemma unit_error x : 0 <= x <= 1 -> Rabs (rnd x - x) <= bpow radix2 (-54).
Proof.
  intros X. destruct (Req_dec x 1) as [->|N1].
  { rewrite rnd_1. replace (1 - 1) with 0 by lra. rewrite Rabs_R0. apply bpow_ge_0. }
  destruct (Req_dec x 0) as [->|N0].
  { rewrite rnd_0. replace (0 - 0) with 0 by lra. rewrite Rabs_R0. apply bpow_ge_0. }
  apply Rle_trans with (/ 2 * ulp radix2 fexp x).
  { apply error_le_half_ulp. apply valid. }
  rewrite ulp_neq_0 by exact N0. unfold cexp. rewrite fexp_FLT. unfold FLT_exp.
  assert (M : (mag radix2 x <= 0)%Z).
  { apply mag_le_bpow; [exact N0|]. rewrite Rabs_pos_eq by lra. simpl. lra. }
  replace (bpow radix2 (-54)) with (/ 2 * bpow radix2 (-53)).
  2:{ change (-54)%Z with (-1 + -53)%Z. rewrite bpow_plus. simpl (bpow radix2 (-1)). lra. }
  apply Rmult_le_compat_l; [lra|]. apply bpow_le. lia.
Qed.

Lemma sum_close : Rabs (B2R hr + B2R mr - 1) <= bpow radix2 (-54).
Proof.
  rewrite (proj1 miss_correct).
  replace (B2R hr + rnd (1 - B2R hr) - 1) with (rnd (1 - B2R hr) - (1 - B2R hr)) by lra.
  apply unit_error. pose proof hit_unit. lra.
Qed.

Lemma cexp_below x : / 2 <= x < 1 -> cexp radix2 fexp x = (-53)%Z.
Proof.
  intros X. unfold cexp. rewrite (mag_unique radix2 x 0).
  - reflexivity.
  - rewrite Rabs_pos_eq by lra. simpl. lra.
Qed.
Lemma cexp_above x : 1 <= x < 2 -> cexp radix2 fexp x = (-52)%Z.
Proof.
  intros X. unfold cexp. rewrite (mag_unique radix2 x 1).
  - reflexivity.
  - rewrite Rabs_pos_eq by lra. simpl. lra.
Qed.

(** A number within 2^-54 of 1 is rounded to 1. *)
Lemma near_one y : Rabs (y - 1) <= bpow radix2 (-54) -> rnd y = 1.
Proof.
  intros Y. apply Rabs_le_inv in Y.
  assert (P : bpow radix2 (-54) = / 18014398509481984) by reflexivity. rewrite P in Y.
  destruct (Rlt_or_le y 1) as [L|L].
  - unfold round, F2R, scaled_mantissa. rewrite cexp_below by lra. cbn [Fnum Fexp].
    change (bpow radix2 (- -53)) with 9007199254740992.
    change (bpow radix2 (-53)) with (/ 9007199254740992).
    assert (F : Zfloor (y * 9007199254740992) = 9007199254740991%Z).
    { apply Zfloor_imp. split; [|rewrite plus_IZR]; lra. }
    assert (C : Zceil (y * 9007199254740992) = 9007199254740992%Z).
    { apply Zceil_imp. split; [rewrite minus_IZR|]; lra. }
    unfold Znearest. rewrite F, C.
    assert (D : Rcompare (y * 9007199254740992 - 9007199254740991) (/ 2) <> Lt).
    { intros Q. apply Rcompare_Lt_inv in Q. lra. }
    destruct (Rcompare (y * 9007199254740992 - 9007199254740991) (/ 2)).
    + simpl. lra.
    + congruence.
    + lra.
  - unfold round, F2R, scaled_mantissa. rewrite cexp_above by lra. cbn [Fnum Fexp].
    change (bpow radix2 (- -52)) with 4503599627370496.
    change (bpow radix2 (-52)) with (/ 4503599627370496).
    rewrite (Znearest_imp _ _ 4503599627370496%Z).
    + lra.
    + apply Rabs_def1; lra.
Qed.

Lemma sum_one : B2R (add hr mr) = 1.
Proof.
  pose proof (@Bplus_correct 53 1024 prec_pos prec_emax mode_NE hr mr
    (proj2 hit_correct) (proj2 miss_correct)) as C.
  change (round_mode mode_NE) with ZnearestE in C.
  rewrite small_bound in C.
  - destruct C as (C1 & _). unfold add. rewrite C1. apply near_one, sum_close.
  - pose proof hit_unit. pose proof miss_unit. rewrite Rabs_pos_eq by lra.
    apply Rle_trans with 2; [lra|]. apply (bpow_le radix2 1 64). lia.
Qed.

(** Counters below 2^53 are converted exactly, so the hit rate is the quotient
    correctly rounded. *)
Lemma exact_int z : (0 <= z < 2 ^ 53)%Z -> rnd (IZR z) = IZR z.
Proof.
  intros Z. apply round_generic; [apply valid_rnd_N|].
  apply generic_format_FLT. exists (Float radix2 z 0).
  - unfold F2R. simpl. lra.
  - simpl. lia.
  - vm_compute. discriminate.
Qed.

Lemma hit_close : (a < 2 ^ 53)%Z -> Rabs (B2R hr - IZR h / IZR a) <= bpow radix2 (-54).
Proof.
  intros L. rewrite (proj1 hit_correct). pose proof quotient_unit as Q.
  rewrite !exact_int in * by lia. apply unit_error. exact Q.
Qed.

End Rates.

Lemma no_access : is_nan (div (to_double 0) (to_double 0)) = true.
Proof. reflexivity. Qed.
