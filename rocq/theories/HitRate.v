(** Model of the rates of /repo/include/lru/statistics.hpp, in IEEE 754 double
    precision (Flocq).

    Taken as given: double is binary64 and arithmetic rounds to nearest, ties to
    even, as every common platform does by default. *)
From Coq Require Import ZArith.
From Flocq Require Import IEEE754.BinarySingleNaN.
From Verif Require Import Types Model.

Definition double : Set := binary_float 53 1024.

Lemma prec_pos : FLX.Prec_gt_0 53.
Proof. reflexivity. Qed.
Lemma prec_emax : Prec_lt_emax 53 1024.
Proof. reflexivity. Qed.

(** Conversion of an integer to double. *)
Definition to_double (z : Z) : double :=
  binary_normalize 53 1024 prec_pos prec_emax mode_NE z 0 false.
Definition div (x y : double) : double := @Bdiv 53 1024 prec_pos prec_emax mode_NE x y.
Definition sub (x y : double) : double := @Bminus 53 1024 prec_pos prec_emax mode_NE x y.
Definition add (x y : double) : double := @Bplus 53 1024 prec_pos prec_emax mode_NE x y.

(** statistics.hpp:119-121 hit_rate: the divisor is converted implicitly *)
Definition hit_rate {K} (x : statistics K) : double :=
  div (to_double (total_hits x)) (to_double (total_accesses x)).

(** statistics.hpp:124-126 miss_rate: the int 1 is converted *)
Definition miss_rate {K} (x : statistics K) : double :=
  sub (to_double 1) (hit_rate x).
