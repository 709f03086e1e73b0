(** The rates of reachable statistics objects. *)
From Coq Require Import List ZArith Reals Lia.
From Flocq Require Import Core.Core IEEE754.BinarySingleNaN.
From Verif Require Import Monad Types Model Api Spec SpecStats HitRate RateProofs RateRun StatProofs.

Section More.
Context {K V : Type}.
Variable E : env K V.
Hypothesis G : good E.
Variable ops : list (op K V).
Variable outs : list (outcome K V).
Variable w : world K V.
Hypothesis F : forallb copy_free ops = true.
Hypothesis R : run E ops init_world = Finished outs w.
Hypothesis L : (Z.of_nat (length ops) < 2 ^ 64)%Z.
Variables (s : nat) (x : statistics K).
Hypothesis Hx : slot (w_stats w) s = Some x.
Hypothesis P : (0 < total_accesses x)%Z.

Lemma rates_range :
  is_finite (hit_rate x) = true /\ (0 <= B2R (hit_rate x) <= 1)%R /\
  is_finite (miss_rate x) = true /\ (0 <= B2R (miss_rate x) <= 1)%R.
Proof.
  destruct (counters G F R L Hx) as (A & B).
  assert (B' : (0 < total_accesses x < 2 ^ 64)%Z) by lia.
  unfold hit_rate, miss_rate, hit_rate.
  split; [apply (hit_correct _ _ A B')|]. split; [apply (hit_unit _ _ A B')|].
  split; [apply (miss_correct _ _ A B')|apply (miss_unit _ _ A B')].
Qed.

Lemma rates_sum :
  B2R (add (hit_rate x) (miss_rate x)) = 1%R /\
  (Rabs (B2R (hit_rate x) + B2R (miss_rate x) - 1) <= / 2 ^ 54)%R.
Proof.
  destruct (counters G F R L Hx) as (A & B).
  assert (B' : (0 < total_accesses x < 2 ^ 64)%Z) by lia.
  unfold hit_rate, miss_rate, hit_rate. split; [apply (sum_one _ _ A B')|].
  replace (/ 2 ^ 54)%R with (bpow radix2 (-54)).
  - apply (sum_close _ _ A B').
  - change (bpow radix2 (-54)) with (/ IZR (2 ^ 54))%R. rewrite (pow_IZR 2 54). reflexivity.
Qed.

Lemma rates_exact : (total_accesses x < 2 ^ 53)%Z ->
  (Rabs (B2R (hit_rate x) - IZR (total_hits x) / IZR (total_accesses x)) <= / 2 ^ 54)%R.
Proof.
  intros Q. destruct (counters G F R L Hx) as (A & B).
  assert (B' : (0 < total_accesses x < 2 ^ 64)%Z) by lia.
  unfold hit_rate.
  replace (/ 2 ^ 54)%R with (bpow radix2 (-54)).
  - apply (hit_close _ _ A B' Q).
  - change (bpow radix2 (-54)) with (/ IZR (2 ^ 54))%R. rewrite (pow_IZR 2 54). reflexivity.
Qed.

End More.

Lemma rates_before_access {K} (x : statistics K) : total_accesses x = 0%Z -> total_hits x = 0%Z ->
  is_nan (hit_rate x) = true /\ is_nan (miss_rate x) = true.
Proof. unfold hit_rate, miss_rate, hit_rate. intros -> ->. split; reflexivity. Qed.
