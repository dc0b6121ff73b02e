(** The slots of the finite field encoder: powers of 5 and -5 modulo 2n. *)
From Coq Require Import Znumtheory Zpow_facts.
From Verif Require Import Base FinSum PolySpec Ring Montgomery Ntt MontgomeryProofs NttFacts NttProofs Spec FieldSpec.
Local Notation zsum := FinSum.zsum.

Lemma pow5_odd_part a o : 0 <= o -> exists u, 5 ^ (2 ^ Z.of_nat a * (2 * o + 1)) = 1 + 2 ^ (Z.of_nat a + 2) * (2 * u + 1).
Proof.
  intros Ho. induction a as [|a [u IH]].
  - change (2 ^ Z.of_nat 0) with 1. rewrite Z.mul_1_l.
    assert (H : exists v, 25 ^ o = 1 + 8 * v).
    { pattern o. apply natlike_ind; [exists 0; reflexivity| |exact Ho].
      intros x Hx [v Ev]. exists (3 + 25 * v). rewrite Z.pow_succ_r by exact Hx. rewrite Ev. ring. }
    destruct H as [v Ev]. exists (5 * v). rewrite Z.pow_add_r by lia. rewrite Z.pow_mul_r by lia. change (5 ^ 2) with 25. rewrite Ev.
    change (2 ^ (Z.of_nat 0 + 2)) with 4. ring.
  - replace (2 ^ Z.of_nat (S a) * (2 * o + 1)) with (2 ^ Z.of_nat a * (2 * o + 1) * 2).
    2:{ rewrite Nat2Z.inj_succ, Z.pow_succ_r by lia. ring. }
    rewrite Z.pow_mul_r; [|apply Z.mul_nonneg_nonneg; [apply Z.pow_nonneg; lia|lia]|lia]. rewrite IH.
    exists (u + 2 ^ Z.of_nat a * (2 * u + 1) * (2 * u + 1)).
    replace (Z.of_nat (S a) + 2) with (Z.of_nat a + 2 + 1) by lia. rewrite !Z.pow_add_r by lia. change (2 ^ 2) with 4. change (2 ^ 1) with 2. ring.
Qed.

Lemma pow5_order L d : 0 < d -> (2 ^ (Z.of_nat L + 1) | 5 ^ d - 1) -> 2 ^ (Z.of_nat L - 1) <= d.
Proof.
  intros Hd H. destruct (two_adic (S (Z.to_nat d)) d ltac:(lia)) as (a & o & Ed & Ho).
  destruct (pow5_odd_part a o Ho) as [u Eu]. rewrite <- Ed in Eu. rewrite Eu in H.
  replace (1 + 2 ^ (Z.of_nat a + 2) * (2 * u + 1) - 1) with (2 ^ (Z.of_nat a + 2) * (2 * u + 1)) in H by ring.
  destruct (Z.le_gt_cases (Z.of_nat L - 1) (Z.of_nat a)) as [C|C].
  - apply Z.le_trans with (2 ^ Z.of_nat a); [apply Z.pow_le_mono_r; lia|]. rewrite Ed.
    assert (0 < 2 ^ Z.of_nat a) by (apply Z.pow_pos_nonneg; lia). nia.
  - exfalso. replace (Z.of_nat L + 1) with (Z.of_nat a + 2 + (Z.of_nat L - 1 - Z.of_nat a)) in H by lia.
    rewrite Z.pow_add_r in H by lia. assert (P : 0 < 2 ^ (Z.of_nat a + 2)) by (apply Z.pow_pos_nonneg; lia).
    apply Z.mul_divide_cancel_l in H; [|lia].
    assert (E : (2 | 2 * u + 1)).
    { eapply Z.divide_trans; [|exact H]. replace (Z.of_nat L - 1 - Z.of_nat a) with (1 + (Z.of_nat L - 2 - Z.of_nat a)) by lia.
      rewrite Z.pow_add_r by lia. apply Z.divide_factor_l. }
    destruct E as [z Ez]. lia.
Qed.

Section Slots.
Variable L : nat.
Hypothesis HL : (1 <= L)%nat.
Local Notation n := (2 ^ L)%nat.
Local Notation N2 := (2 * Z.of_nat n).

Lemma half_n : (n = 2 * (n / 2))%nat /\ (n / 2 = 2 ^ (L - 1))%nat.
Proof.
  assert (E : (n = 2 * 2 ^ (L - 1))%nat) by (rewrite <- Nat.pow_succ_r'; f_equal; lia).
  assert (E2 : (n / 2 = 2 ^ (L - 1))%nat) by (rewrite E, Nat.mul_comm, Nat.div_mul by lia; reflexivity).
  rewrite E2. auto.
Qed.
Lemma half_pos : (0 < n / 2)%nat.
Proof. rewrite (proj2 half_n). apply NttMath.pow2_gt0. Qed.
Lemma n2_eq : N2 = 2 ^ (Z.of_nat L + 1).
Proof. rewrite NttMath.pow_of_nat2, Z.pow_add_r by lia. change (2 ^ 1) with 2. ring. Qed.
Lemma n2_pos : 4 <= N2.
Proof. pose proof half_pos. pose proof half_n. lia. Qed.
Lemma n2_four : (4 | N2).
Proof. exists (Z.of_nat (n / 2)). rewrite (proj1 half_n) at 1. lia. Qed.

Lemma pow5_mod4 i : 0 <= i -> cong 4 (5 ^ i) 1.
Proof.
  intros H. pattern i. apply natlike_ind; [exists 0; reflexivity| |exact H].
  intros x Hx [v Ev]. exists (5 * v + 1). rewrite Z.pow_succ_r by exact Hx. lia.
Qed.

Lemma slot_range i : 0 <= slot_power n i < N2.
Proof. unfold slot_power. apply Z.mod_pos_bound. pose proof n2_pos. lia. Qed.

Lemma slot_mod4 i : cong 4 (slot_power n i) (if (i <? n / 2)%nat then 1 else -1).
Proof.
  unfold slot_power. transitivity (if (i <? n / 2)%nat then 5 ^ Z.of_nat i else - 5 ^ Z.of_nat (i - n / 2)).
  - destruct n2_four as [y Ey]. match goal with |- cong 4 (?x mod _) _ => destruct (cong_mod N2 x) as [z Ez] end.
    exists (z * y). rewrite Ez, Ey. ring.
  - destruct (Nat.ltb_spec i (n / 2)) as [H|H].
    + apply pow5_mod4. lia.
    + destruct (pow5_mod4 (Z.of_nat (i - n / 2)) ltac:(lia)) as [z Ez]. exists (- z). lia.
Qed.

Lemma slot_odd i : Z.odd (slot_power n i) = true.
Proof.
  destruct (slot_mod4 i) as [z Ez]. rewrite Zodd_mod. apply Zeq_is_eq_bool.
  destruct (Nat.ltb_spec i (n / 2)).
  - replace (slot_power n i) with (1 + (2 * z) * 2) by lia. rewrite Z_mod_plus_full. reflexivity.
  - replace (slot_power n i) with (1 + (2 * z - 1) * 2) by lia. rewrite Z_mod_plus_full. reflexivity.
Qed.

Lemma pow5_inj i j : (i <= j)%nat -> (j < n / 2)%nat -> cong N2 (5 ^ Z.of_nat i) (5 ^ Z.of_nat j) -> i = j.
Proof.
  intros Hij Hj H. destruct (Nat.eq_dec i j) as [E|E]; [exact E|exfalso].
  assert (D : (N2 | 5 ^ Z.of_nat i * (5 ^ Z.of_nat (j - i) - 1))).
  { rewrite Z.mul_sub_distr_l, <- Z.pow_add_r by lia. replace (Z.of_nat i + Z.of_nat (j - i)) with (Z.of_nat j) by lia.
    destruct H as [z Ez]. exists (- z). lia. }
  rewrite n2_eq in D. apply Gauss in D.
  - apply (pow5_order L) in D; [|lia]. rewrite (proj2 half_n) in Hj. assert (Z.of_nat (2 ^ (L - 1)) = 2 ^ (Z.of_nat L - 1)).
    { rewrite NttMath.pow_of_nat2. f_equal. lia. } lia.
  - apply rel_prime_Zpower; [lia|lia|]. apply Zgcd_1_rel_prime. reflexivity.
Qed.

Lemma slot_inj i j : (i < n)%nat -> (j < n)%nat -> slot_power n i = slot_power n j -> i = j.
Proof.
  intros Hi Hj E. pose proof n2_pos as P. pose proof half_n as [EH _].
  assert (S4 : (i <? n / 2)%nat = (j <? n / 2)%nat).
  { pose proof (slot_mod4 i) as A. pose proof (slot_mod4 j) as B. rewrite E in A.
    destruct (i <? n / 2)%nat, (j <? n / 2)%nat; try reflexivity; destruct A as [a Ea], B as [b Eb]; exfalso; lia. }
  unfold slot_power in E. rewrite <- S4 in E.
  destruct (Nat.ltb_spec i (n / 2)) as [Ci|Ci]; symmetry in S4.
  - apply Nat.ltb_lt in S4. apply cong_iff in E; [|lia].
    destruct (Nat.le_gt_cases i j) as [G|G]; [apply (pow5_inj i j); assumption|symmetry; apply (pow5_inj j i); [lia|exact Ci|symmetry; exact E]].
  - apply Nat.ltb_ge in S4. apply cong_iff in E; [|lia].
    assert (E' : cong N2 (5 ^ Z.of_nat (i - n / 2)) (5 ^ Z.of_nat (j - n / 2))) by (destruct E as [z Ez]; exists (- z); lia).
    assert (i - n / 2 = j - n / 2)%nat; [|lia].
    destruct (Nat.le_gt_cases (i - n / 2) (j - n / 2)) as [G|G]; [apply pow5_inj; [exact G|lia|exact E']|].
    symmetry. apply pow5_inj; [lia|lia|symmetry; exact E'].
Qed.

(** ** Slots as a ring homomorphism *)
Section Root.
Variables (t psi : Z).
Hypothesis T1 : 1 < t.
Hypothesis RT : cong t (psi ^ Z.of_nat n) (-1).

Lemma psi_2n : cong t (psi ^ N2) 1.
Proof. rewrite Z.mul_comm, Z.pow_mul_r by lia. rewrite RT. reflexivity. Qed.

Lemma psi_exp a b : 0 <= a -> 0 <= b -> cong N2 a b -> cong t (psi ^ a) (psi ^ b).
Proof.
  pose proof n2_pos as P.
  assert (K : forall a, 0 <= a -> cong t (psi ^ a) (psi ^ (a mod N2))).
  { intros x Hx. rewrite (Z_div_mod_eq_full x N2) at 1. rewrite Z.pow_add_r; [|apply Z.mul_nonneg_nonneg; [lia|apply Z.div_pos; lia]|apply Z.mod_pos_bound; lia].
    rewrite Z.pow_mul_r by (try apply Z.div_pos; lia). rewrite psi_2n, Z.pow_1_l by (apply Z.div_pos; lia). apply cong_eq. ring. }
  intros Ha Hb C. rewrite (K a Ha), (K b Hb). rewrite (cong_to_mod N2 a b ltac:(lia) C). reflexivity.
Qed.

Lemma psi_slot_n i : cong t ((psi ^ slot_power n i) ^ Z.of_nat n) (-1).
Proof.
  pose proof (slot_range i) as R. rewrite <- Z.pow_mul_r by lia. rewrite Z.mul_comm, Z.pow_mul_r by lia. rewrite RT.
  pose proof (slot_odd i) as O. apply Z.odd_spec in O. destruct O as [y Ey]. rewrite Ey, Z.pow_add_r, Z.pow_mul_r by lia.
  change ((-1) ^ 2) with 1. rewrite Z.pow_1_l by lia. reflexivity.
Qed.

Lemma slot_ext f g i : (forall j, (j < n)%nat -> cong t (f j) (g j)) -> slot_value t psi n f i = slot_value t psi n g i.
Proof. intros H. unfold slot_value. apply cong_to_mod; [lia|]. apply peval_cong, H. Qed.
Lemma slot_add f g i : slot_value t psi n (fun j => f j + g j) i = (slot_value t psi n f i + slot_value t psi n g i) mod t.
Proof. unfold slot_value. rewrite peval_add. apply Zplus_mod. Qed.
Lemma slot_neg f i : slot_value t psi n (fun j => - f j) i = (- slot_value t psi n f i) mod t.
Proof. unfold slot_value. rewrite peval_opp. apply cong_to_mod; [lia|]. rewrite cong_mod. reflexivity. Qed.
Lemma slot_mul f g i : slot_value t psi n (negacyclic n f g) i = (slot_value t psi n f i * slot_value t psi n g i) mod t.
Proof. unfold slot_value. rewrite <- Zmult_mod. apply cong_to_mod; [lia|]. apply peval_negacyclic, psi_slot_n. Qed.

Lemma pow5_half : cong N2 (5 ^ Z.of_nat (n / 2)) 1.
Proof.
  destruct (pow5_odd_part (L - 1) 0 ltac:(lia)) as [u Eu]. rewrite (proj2 half_n), (NttMath.pow_of_nat2 (L - 1)).
  replace (2 ^ Z.of_nat (L - 1) * (2 * 0 + 1)) with (2 ^ Z.of_nat (L - 1)) in Eu by ring. rewrite Eu, n2_eq.
  replace (Z.of_nat (L - 1) + 2) with (Z.of_nat L + 1) by lia. exists (2 * u + 1). ring.
Qed.
Lemma pow5_cycle i : cong N2 (5 ^ Z.of_nat i) (5 ^ Z.of_nat (i mod (n / 2))).
Proof.
  pose proof half_pos as P. rewrite (Nat.div_mod i (n / 2)) at 1 by lia. rewrite Nat2Z.inj_add, Nat2Z.inj_mul, Z.pow_add_r, Z.pow_mul_r by lia.
  rewrite pow5_half, Z.pow_1_l by lia. apply cong_eq. ring.
Qed.

Lemma slot_power_cong i : cong N2 (slot_power n i) (if (i <? n / 2)%nat then 5 ^ Z.of_nat i else - 5 ^ Z.of_nat (i - n / 2)).
Proof. unfold slot_power. apply cong_mod. Qed.

Lemma slot_substituted power f i j : (i < n)%nat -> cong N2 (slot_power n i * Z.of_nat power) (slot_power n j) ->
  slot_value t psi n (substituted n power f) i = slot_value t psi n f j.
Proof.
  intros Hi C. unfold slot_value. apply cong_to_mod; [lia|]. pose proof (NttMath.pow2_gt0 L) as P.
  rewrite (peval_substituted t n power f _ P (psi_slot_n i)). apply peval_x.
  pose proof (slot_range i). pose proof (slot_range j). rewrite <- Z.pow_mul_r by lia. apply psi_exp; [lia|lia|exact C].
Qed.

Lemma slot_rotate r f i : (i < n)%nat ->
  slot_value t psi n (substituted n (Z.to_nat (5 ^ Z.of_nat r mod N2)) f) i = slot_value t psi n f (rotated_slot n r i).
Proof.
  intros Hi. pose proof n2_pos as P. pose proof half_n as [EH _]. pose proof half_pos as HP.
  apply slot_substituted; [exact Hi|]. rewrite Z2Nat.id by (apply Z.mod_pos_bound; lia).
  rewrite !slot_power_cong, (cong_mod N2). unfold rotated_slot.
  destruct (Nat.ltb_spec i (n / 2)) as [C|C].
  - pose proof (Nat.mod_upper_bound (i + r) (n / 2) ltac:(lia)) as U.
    destruct (Nat.ltb_spec ((i + r) mod (n / 2)) (n / 2)); [|lia]. rewrite <- pow5_cycle, <- Z.pow_add_r by lia. apply cong_eq. f_equal. lia.
  - pose proof (Nat.mod_upper_bound (i - n / 2 + r) (n / 2) ltac:(lia)) as U.
    destruct (Nat.ltb_spec (n / 2 + (i - n / 2 + r) mod (n / 2)) (n / 2)); [lia|].
    replace (n / 2 + (i - n / 2 + r) mod (n / 2) - n / 2)%nat with ((i - n / 2 + r) mod (n / 2))%nat by lia.
    destruct (pow5_cycle (i - n / 2 + r)) as [z Ez]. exists (- z).
    rewrite Nat2Z.inj_add, Z.pow_add_r in Ez by lia. lia.
Qed.

Lemma slot_swap f i : (i < n)%nat ->
  slot_value t psi n (substituted n (2 * n - 1) f) i = slot_value t psi n f (swapped_slot n i).
Proof.
  intros Hi. pose proof n2_pos as P. pose proof half_n as [EH _]. pose proof half_pos as HP.
  apply slot_substituted; [exact Hi|].
  transitivity (- slot_power n i). { exists (slot_power n i). rewrite Nat2Z.inj_sub, Nat2Z.inj_mul by lia. change (Z.of_nat 2) with 2. change (Z.of_nat 1) with 1. ring. }
  rewrite !slot_power_cong. unfold swapped_slot. destruct (Nat.ltb_spec i (n / 2)) as [C|C].
  - destruct (Nat.ltb_spec (i + n / 2) (n / 2)); [lia|]. replace (i + n / 2 - n / 2)%nat with i by lia. reflexivity.
  - destruct (Nat.ltb_spec (i - n / 2) (n / 2)); [|lia]. apply cong_eq. ring.
Qed.
End Root.
End Slots.
