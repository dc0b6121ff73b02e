(** Proofs for C87: facts about the real-number instance. *)
From Coq Require Import Reals Lra Lia Sorted.
From Verif Require Import Base Prng Gauss GaussSpec ThmGauss GaussReal GaussRealSpec.
Local Open Scope R_scope.

(** ** Rounding *)
Lemma Rltb_spec a b : reflect (a < b) (Rltb a b).
Proof. unfold Rltb. destruct (Rlt_dec a b); constructor; assumption. Qed.
Lemma Rleb_spec a b : reflect (a <= b) (Rleb a b).
Proof. unfold Rleb. destruct (Rle_dec a b); constructor; assumption. Qed.

Lemma floor_spec x : IZR (Rfloor x) <= x < IZR (Rfloor x) + 1.
Proof. unfold Rfloor. destruct (base_Int_part x) as [H1 H2]. lra. Qed.
Lemma ceil_spec x : x <= IZR (Rceil x) < x + 1.
Proof. unfold Rceil. destruct (base_Int_part (- x)) as [H1 H2]. rewrite opp_IZR. lra. Qed.
Lemma floor_unique x z : IZR z <= x < IZR z + 1 -> Rfloor x = z.
Proof.
  intros H. pose proof (floor_spec x). assert (H1 : (Rfloor x < z + 1)%Z) by (apply lt_IZR; rewrite plus_IZR; lra).
  assert (H2 : (z < Rfloor x + 1)%Z) by (apply lt_IZR; rewrite plus_IZR; lra). lia.
Qed.
Lemma trunc_IZR z : Rtrunc (IZR z) = z.
Proof.
  unfold Rtrunc. destruct (Rle_dec 0 (IZR z)) as [H|H].
  - apply floor_unique. lra.
  - unfold Rceil. rewrite <- opp_IZR. rewrite (floor_unique _ (- z)); [lia|lra].
Qed.
Lemma trunc_nonneg x : 0 <= x -> Rtrunc x = Rfloor x.
Proof. intros H. unfold Rtrunc. destruct (Rle_dec 0 x); [reflexivity|lra]. Qed.
Lemma floor_nonneg x : 0 <= x -> (0 <= Rfloor x)%Z.
Proof. intros H. pose proof (floor_spec x). assert ((-1 < Rfloor x)%Z) by (apply lt_IZR; lra). lia. Qed.

(** ** Sums *)
Lemma rsum_ext n f g : (forall i, (i < n)%nat -> f i = g i) -> rsum n f = rsum n g.
Proof. induction n as [|n IH]; intros H; cbn [rsum]; [reflexivity|]. rewrite IH by (intros; apply H; lia). rewrite H by lia. reflexivity. Qed.
Lemma rsum_le n f g : (forall i, (i < n)%nat -> f i <= g i) -> rsum n f <= rsum n g.
Proof. induction n as [|n IH]; intros H; cbn [rsum]; [lra|]. pose proof (H n ltac:(lia)). assert (rsum n f <= rsum n g) by (apply IH; intros; apply H; lia). lra. Qed.
Lemma rsum_add m n f : rsum (m + n) f = rsum m f + rsum n (fun i => f (m + i)%nat).
Proof. induction n as [|n IH]; [rewrite Nat.add_0_r; cbn; lra|]. rewrite Nat.add_succ_r. cbn [rsum]. rewrite IH. lra. Qed.
Lemma rsum_scal n c f : rsum n (fun i => c * f i) = c * rsum n f.
Proof. induction n as [|n IH]; cbn [rsum]; [lra|]. rewrite IH. lra. Qed.
Lemma rsum_const n c : rsum n (fun _ => c) = INR n * c.
Proof. induction n as [|n IH]; [cbn; lra|]. cbn [rsum]. rewrite IH, S_INR. lra. Qed.
Lemma rsum_nonneg n f : (forall i, (i < n)%nat -> 0 <= f i) -> 0 <= rsum n f.
Proof. induction n as [|n IH]; intros H; cbn [rsum]; [lra|]. pose proof (H n ltac:(lia)). assert (0 <= rsum n f) by (apply IH; intros; apply H; lia). lra. Qed.
Lemma rsum_mono m n f : (m <= n)%nat -> (forall i, 0 <= f i) -> rsum m f <= rsum n f.
Proof. intros H Hf. replace n with (m + (n - m))%nat by lia. rewrite rsum_add. assert (0 <= rsum (n - m) (fun i => f (m + i)%nat)) by (apply rsum_nonneg; auto). lra. Qed.
Lemma rsum_rev n f : rsum n f = rsum n (fun i => f (n - 1 - i)%nat).
Proof.
  revert f. induction n as [|n IH]; intros f; [reflexivity|]. transitivity (rsum (1 + n) (fun i => f (S n - 1 - i)%nat)); [|reflexivity]. rewrite rsum_add. cbn [rsum].
  rewrite IH. replace (S n - 1 - 0)%nat with n by lia. rewrite (rsum_ext n (fun i => f (S n - 1 - (1 + i))%nat) (fun i => f (n - 1 - i)%nat)) by (intros; f_equal; lia). lra.
Qed.

(** ** The bound on the total mass *)
Lemma exp_half : exp (- (1 / 2)) <= 2 / 3.
Proof.
  rewrite exp_Ropp. assert (H : 3 / 2 <= exp (1 / 2)) by (left; pose proof (exp_ineq1 (1 / 2)); lra).
  replace (2 / 3) with (/ (3 / 2)) by field. apply Rinv_le_contravar; lra.
Qed.
Lemma exp_pow x n : exp (INR n * x) = exp x ^ n.
Proof. induction n as [|n IH]; [rewrite Rmult_0_l, exp_0; reflexivity|]. rewrite S_INR. cbn [pow]. rewrite <- IH, <- exp_plus. f_equal. lra. Qed.

Lemma exp_mono x y : x <= y -> exp x <= exp y.
Proof. intros [H| ->]; [left; apply exp_increasing; exact H|right; reflexivity]. Qed.

Section Mass.
Variables (s : R) (c : nat).
Hypothesis Hs : 0 < s.
Hypothesis Hc : s <= INR c.
Let e (i : nat) : R := exp (- (INR i ^ 2) / (2 * s ^ 2)).

Lemma e_block j i : e (j * c + i) <= (2 / 3) ^ (j * j).
Proof using Hs Hc.
  unfold e. apply Rle_trans with (exp (INR (j * j) * - (1 / 2))).
  - apply exp_mono. rewrite plus_INR, !mult_INR. pose proof (pos_INR i). pose proof (pos_INR j).
    set (a := INR i) in *. set (b := INR j) in *. set (d := INR c) in *.
    assert (H1 : b * s <= b * d + a) by nra. assert (H2 : (b * s) ^ 2 <= (b * d + a) ^ 2) by (apply pow_incr; split; [nra|exact H1]).
    assert (H3 : 0 < 2 * s ^ 2) by nra. apply Rmult_le_reg_r with (2 * s ^ 2); [exact H3|].
    unfold Rdiv. rewrite Rmult_assoc, Rinv_l by lra. nra.
  - rewrite exp_pow. apply pow_incr. split; [left; apply exp_pos|exact exp_half].
Qed.
Lemma blocks k : rsum (k * c) e <= INR c * rsum k (fun j => (2 / 3) ^ (j * j)).
Proof using Hs Hc.
  induction k as [|k IH]; [cbn; lra|]. replace (S k * c)%nat with (k * c + c)%nat by lia. rewrite rsum_add. cbn [rsum].
  assert (H : rsum c (fun i => e (k * c + i)) <= rsum c (fun _ => (2 / 3) ^ (k * k))) by (apply rsum_le; intros; apply e_block).
  rewrite rsum_const in H. lra.
Qed.
Lemma mass : rsum (8 * c) e <= INR c * (1893 / 1000).
Proof using Hs Hc. pose proof (blocks 8) as H. pose proof (pos_INR c). eapply Rle_trans; [exact H|]. apply Rmult_le_compat_l; [assumption|]. cbn [rsum Nat.mul Nat.add]. lra. Qed.
End Mass.

Lemma least_pos : 75 / 10 < least_base.
Proof. unfold least_base. assert (H : 1414 / 1000 <= sqrt 2) by (rewrite <- (sqrt_pow2 (1414 / 1000)) by lra; apply sqrt_le_1_alt; lra). lra. Qed.
Lemma sqrt2pi : 244 / 100 < sqrt (2 * PI).
Proof. rewrite <- (sqrt_pow2 (244 / 100)) by lra. apply sqrt_lt_1_alt. pose proof PI2_3_2. unfold PI2 in *. lra. Qed.

Lemma density_pos s x : 0 < s -> 0 < density s x.
Proof. intros H. unfold density. apply Rmult_lt_0_compat; [|apply exp_pos]. apply Rinv_0_lt_compat. pose proof sqrt2pi. nra. Qed.

Lemma total s b : 75 / 10 < s -> (0 <= b)%Z -> 8 * s <= IZR b -> (exists c, b = 8 * c)%Z -> IZR b < 8 * s + 8 -> cumulative s b b < 2.
Proof.
  intros Hs Hb Hlo [c ->] Hhi. unfold cumulative. set (C := Z.to_nat c).
  assert (EC : IZR c = INR C) by (unfold C; rewrite INR_IZR_INZ, Z2Nat.id by lia; reflexivity).
  rewrite mult_IZR, EC in Hlo, Hhi. assert (Hc : s <= INR C) by lra. assert (Hc2 : INR C < s + 1) by lra.
  replace (Z.to_nat (8 * c + 8 * c + 1)) with (8 * C + (1 + 8 * C))%nat by lia.
  set (e := fun i : nat => exp (- (INR i ^ 2) / (2 * s ^ 2))).
  assert (Eq : forall z i, Z.abs z = Z.of_nat i -> density s (IZR z) = / (s * sqrt (2 * PI)) * e i).
  { intros z i H. unfold density, e. rewrite INR_IZR_INZ, <- H, abs_IZR, pow2_abs. reflexivity. }
  rewrite rsum_add, rsum_rev.
  rewrite (rsum_ext (8 * C) _ (fun i => / (s * sqrt (2 * PI)) * e (1 + i)%nat)) by (intros; apply Eq; lia).
  rewrite (rsum_ext (1 + 8 * C) _ (fun i => / (s * sqrt (2 * PI)) * e i)) by (intros; apply Eq; lia).
  rewrite !rsum_scal. pose proof (mass s C ltac:(lra) Hc) as M. fold e in M.
  pose proof (rsum_add 1 (8 * C) e) as H1. rewrite <- (Nat.add_comm (8 * C) 1) in H1. rewrite (rsum_add (8 * C) 1 e) in H1. cbn [rsum] in H1.
  rewrite Nat.add_comm, (rsum_add (8 * C) 1 e). cbn [rsum].
  assert (E0 : e 0%nat = 1) by (unfold e; cbn [INR]; replace (- 0 ^ 2 / (2 * s ^ 2)) with 0 by (field; lra); apply exp_0).
  assert (E8 : e (8 * C + 0)%nat <= 1).
  { rewrite <- exp_0. apply exp_mono. assert (0 < 2 * s ^ 2) by nra. unfold Rdiv. rewrite Ropp_mult_distr_l_reverse.
    assert (0 <= INR (8 * C + 0) ^ 2 * / (2 * s ^ 2)) by (apply Rmult_le_pos; [apply pow2_ge_0|left; apply Rinv_0_lt_compat; assumption]). lra. }
  rewrite E0 in H1. rewrite <- Rmult_plus_distr_l. pose proof sqrt2pi as Q. set (q := sqrt (2 * PI)) in *.
  assert (P : 0 < s * q) by nra. apply Rmult_lt_reg_l with (s * q); [exact P|]. rewrite <- Rmult_assoc, Rinv_r, Rmult_1_l by lra.
  set (S1 := rsum (8 * C) (fun i => e (1 + i)%nat)) in *. set (S0 := rsum (8 * C) e) in *.
  assert (Hq : s * (244 / 100) < s * q) by nra. set (e8 := e (8 * C + 0)%nat) in *. lra.
Qed.
