(** Vocabulary for C87: the Gaussian density, its sums, and variances of integer
    combinations. *)
From Coq Require Import Reals.
From Verif Require Import Base.
Local Open Scope R_scope.

Fixpoint rsum (n : nat) (f : nat -> R) : R := match n with O => 0 | S n => rsum n f + f n end.

(** the density of the normal distribution with standard deviation s *)
Definition density (s x : R) : R := / (s * sqrt (2 * PI)) * exp (- (x ^ 2) / (2 * s ^ 2)).

(** density s (-b) + density s (-b+1) + ... + density s x *)
Definition cumulative (s : R) (b x : Z) : R :=
  rsum (Z.to_nat (x + b + 1)) (fun i => density s (IZR (- b + Z.of_nat i))).

(** sqrt 2 times the smoothing parameter 5.3349782 *)
Definition least_base : R := sqrt 2 * (53349782 / 10000000).

(** Variance of the result of the recursion: independent base samples have
    variance s_base^2; combining two independent values X1, X2 of the same variance
    to w X1 + v X2 multiplies it with w^2 + v^2. *)
Fixpoint variance (s_base : R) (w v : nat -> Z) (i : nat) : R :=
  match i with O => s_base ^ 2 | S i => (IZR (w i) ^ 2 + IZR (v i) ^ 2) * variance s_base w v i end.
