(** Proofs about BitsUtil.v. *)
From Verif Require Import Base BitsUtil ZLemmas.

(** ** Specification *)

(** Number of bits among positions 0..n-1 of [x] that are set. *)
Definition ones_spec (n : nat) (x : Z) : Z :=
  fold_right Z.add 0 (map (fun i => Z.b2z (Z.testbit x (Z.of_nat i))) (seq 0 n)).

(** ** Positional sums *)

Fixpoint undigits (w : Z) (l : list Z) : Z :=
  match l with [] => 0 | d :: t => d + 2 ^ w * undigits w t end.

Fixpoint zsum (l : list Z) : Z := match l with [] => 0 | d :: t => d + zsum t end.

Fixpoint pairsum (l : list Z) : list Z :=
  match l with a :: b :: t => (a + b) :: pairsum t | _ => [] end.

Definition swar_mask (w : Z) (n : nat) : Z := undigits (2 * w) (repeat (2 ^ w - 1) n).

Lemma land_split n a b X Y :
  0 <= n -> 0 <= a < 2 ^ n -> 0 <= b < 2 ^ n ->
  Z.land (a + 2 ^ n * X) (b + 2 ^ n * Y) = Z.land a b + 2 ^ n * Z.land X Y.
Proof.
  intros Hn Ha Hb.
  assert (Hab : 0 <= Z.land a b < 2 ^ n).
  { split; [apply Z.land_nonneg; lia|].
    destruct (Z.eq_dec a 0) as [->|Ha0]; [rewrite Z.land_0_l; lia|].
    assert (Z.land a b <= a); [|lia].
    apply Z.ldiff_le; [lia|]. apply Z.bits_inj'; intros i Hi.
    rewrite Z.ldiff_spec, Z.land_spec, Z.bits_0.
    destruct (Z.testbit a i), (Z.testbit b i); reflexivity. }
  assert (S : forall c Z0 i, 0 <= c < 2 ^ n -> 0 <= i ->
    Z.testbit (c + 2 ^ n * Z0) i =
    if i <? n then Z.testbit c i else Z.testbit Z0 (i - n)).
  { intros c Z0 i Hc Hi. destruct (Z.ltb_spec i n).
    - rewrite <- (Z.mod_pow2_bits_low (c + 2 ^ n * Z0) n i) by lia.
      rewrite Z.mul_comm, Z_mod_plus_full, Z.mod_pow2_bits_low by lia. reflexivity.
    - replace i with ((i - n) + n) at 1 by lia.
      rewrite <- Z.div_pow2_bits by lia. rewrite Z.mul_comm, Z.div_add by lia.
      rewrite Z.div_small by lia. f_equal. }
  apply Z.bits_inj'; intros i Hi.
  rewrite Z.land_spec, !S by assumption.
  destruct (i <? n); rewrite Z.land_spec; reflexivity.
Qed.

Lemma undigits_nonneg w l : 0 <= w -> Forall (fun d => 0 <= d) l -> 0 <= undigits w l.
Proof.
  intros Hw H; induction H; cbn [undigits]; [lia|].
  pose proof (pow2_pos w Hw). nia.
Qed.

Lemma swar_even w l B :
  0 <= w -> B < 2 ^ w -> Forall (fun d => 0 <= d <= B) l ->
  forall n, length l = (2 * n)%nat ->
  Z.land (undigits w l) (swar_mask w n) +
  Z.land (Z.shiftr (undigits w l) w) (swar_mask w n)
  = undigits (2 * w) (pairsum l).
Proof.
  intros Hw HB Hl n; revert l Hl; induction n as [|n IH]; intros l Hl Hlen.
  { destruct l; cbn in *; [|lia]. unfold swar_mask. cbn. rewrite !Z.land_0_r. reflexivity. }
  destruct l as [|a [|b t]]; cbn [length] in Hlen; try lia.
  inversion Hl as [|? ? Ha Hl']; subst. inversion Hl' as [|? ? Hb Ht]; subst.
  specialize (IH t Ht ltac:(lia)).
  cbn [pairsum undigits].
  unfold swar_mask in *. cbn [repeat undigits].
  set (M := undigits (2 * w) (repeat (2 ^ w - 1) n)) in *.
  set (U := undigits w t) in *.
  pose proof (pow2_pos w Hw) as P. pose proof (pow2_double w Hw) as P2.
  assert (HU : 0 <= U).
  { apply undigits_nonneg; [lia|]. eapply Forall_impl; [|exact Ht]; cbn; intros; lia. }
  rewrite Z.shiftr_div_pow2 by lia.
  replace (a + 2 ^ w * (b + 2 ^ w * U)) with ((a + 2 ^ w * b) + 2 ^ (2 * w) * U)
    by (rewrite P2; ring).
  assert (Hdiv : (a + 2 ^ w * b + 2 ^ (2 * w) * U) / 2 ^ w =
                 (b + 2 ^ w * (U mod 2 ^ w)) + 2 ^ (2 * w) * (U / 2 ^ w)).
  { rewrite P2.
    replace (a + 2 ^ w * b + 2 ^ w * 2 ^ w * U) with (a + (b + 2 ^ w * U) * 2 ^ w) by ring.
    rewrite Z.div_add by lia. rewrite Z.div_small by lia.
    rewrite (Z.div_mod U (2 ^ w)) at 1 by lia. ring. }
  rewrite Hdiv.
  pose proof (Z.mod_pos_bound U (2 ^ w) P) as HUm.
  rewrite !land_split by (rewrite ?P2; nia).
  rewrite Z.shiftr_div_pow2 in IH by lia.
  assert (L1 : Z.land (a + 2 ^ w * b) (2 ^ w - 1) = a).
  { replace (2 ^ w - 1) with (Z.ones w) by (rewrite Z.ones_equiv; lia).
    rewrite Z.land_ones by lia. rewrite Z.mul_comm, Z_mod_plus_full.
    apply Z.mod_small; lia. }
  assert (L2 : Z.land (b + 2 ^ w * (U mod 2 ^ w)) (2 ^ w - 1) = b).
  { replace (2 ^ w - 1) with (Z.ones w) by (rewrite Z.ones_equiv; lia).
    rewrite Z.land_ones by lia. rewrite Z.mul_comm, Z_mod_plus_full.
    apply Z.mod_small; lia. }
  rewrite L1, L2, <- IH. ring.
Qed.

Lemma pairsum_facts l B : Forall (fun d => 0 <= d <= B) l ->
  Forall (fun d => 0 <= d <= 2 * B) (pairsum l).
Proof.
  revert l; fix IH 1; intros [|a [|b t]] H; cbn [pairsum]; try constructor.
  - inversion H as [|? ? Ha H']; subst. inversion H'; subst. lia.
  - apply IH. inversion H as [|? ? Ha H']; subst. inversion H'; subst. assumption.
Qed.

Lemma pairsum_length n : forall l, length l = (2 * n)%nat -> length (pairsum l) = n.
Proof.
  induction n as [|n IH]; intros [|a [|b t]] H; cbn [length pairsum] in *; try lia.
  rewrite IH; lia.
Qed.

Lemma pairsum_sum n : forall l, length l = (2 * n)%nat -> zsum (pairsum l) = zsum l.
Proof.
  induction n as [|n IH]; intros [|a [|b t]] H; cbn [length pairsum zsum] in *; try lia.
  rewrite IH; lia.
Qed.

Fixpoint bits (n : nat) (x : Z) : list Z :=
  match n with O => [] | S n' => x mod 2 :: bits n' (x / 2) end.

Lemma bits_length n : forall x, length (bits n x) = n.
Proof. induction n; intros x; cbn [bits length]; [|rewrite IHn]; reflexivity. Qed.

Lemma bits_range n : forall x, Forall (fun d => 0 <= d <= 1) (bits n x).
Proof.
  induction n; intros x; cbn [bits]; constructor; auto.
  pose proof (Z.mod_pos_bound x 2); lia.
Qed.

Lemma bits_undigits n : forall x, 0 <= x < 2 ^ Z.of_nat n -> undigits 1 (bits n x) = x.
Proof.
  induction n; intros x Hx; cbn [bits undigits]; [cbn in Hx; lia|].
  rewrite IHn.
  - pose proof (Z.div_mod x 2); lia.
  - rewrite Nat2Z.inj_succ, Z.pow_succ_r in Hx by lia.
    split; [apply Z.div_pos; lia|apply Z.div_lt_upper_bound; lia].
Qed.

Lemma bits_sum n x : 0 <= x -> zsum (bits n x) = ones_spec n x.
Proof.
  unfold ones_spec.
  assert (G : forall n x s, 0 <= x ->
    zsum (bits n (x / 2 ^ Z.of_nat s)) =
    fold_right Z.add 0 (map (fun i => Z.b2z (Z.testbit x (Z.of_nat i))) (seq s n))).
  { clear n x. induction n; intros x s Hx; cbn [bits seq map fold_right zsum]; [reflexivity|].
    f_equal.
    - rewrite Z.testbit_spec' by lia. reflexivity.
    - rewrite <- IHn by assumption. f_equal. f_equal.
      rewrite Nat2Z.inj_succ, Z.pow_succ_r by lia.
      rewrite Z.mul_comm, <- Z.div_div by lia. reflexivity. }
  intros Hx. specialize (G n x 0%nat Hx). cbn in G. rewrite Z.div_1_r in G. exact G.
Qed.

Lemma undigits_lt w l B : 0 < w -> B < 2 ^ w -> Forall (fun d => 0 <= d <= B) l ->
  0 <= undigits w l < 2 ^ (w * Z.of_nat (length l)).
Proof.
  intros Hw HB H; induction H as [|d t Hd Ht IH]; cbn [undigits length].
  { rewrite Z.mul_0_r. cbn. lia. }
  rewrite Nat2Z.inj_succ.
  replace (w * Z.succ (Z.of_nat (length t))) with (w + w * Z.of_nat (length t)) by lia.
  rewrite Z.pow_add_r by nia.
  pose proof (pow2_pos w ltac:(lia)). nia.
Qed.

Lemma swar_step w l B n M k :
  0 < w -> B < 2 ^ w -> 2 * B < 2 ^ (2 * w) -> Forall (fun d => 0 <= d <= B) l ->
  length l = (2 * n)%nat -> M = swar_mask w n -> 2 * w * Z.of_nat n = k ->
  wrap k (Z.land (undigits w l) M + Z.land (Z.shiftr (undigits w l) w) M)
  = undigits (2 * w) (pairsum l).
Proof.
  intros Hw HB HB2 Hl Hn -> Hk.
  rewrite (swar_even w l B) by (assumption || lia).
  apply wrap_small. rewrite <- Hk.
  pose proof (undigits_lt (2 * w) (pairsum l) (2 * B) ltac:(lia) HB2 (pairsum_facts l B Hl)) as U.
  rewrite (pairsum_length n) in U by assumption. exact U.
Qed.

Lemma count_ones_64_ok x : 0 <= x < 2 ^ 64 -> count_ones_64 x = ones_spec 64 x.
Proof.
  intros Hx. unfold count_ones_64.
  rewrite <- bits_sum by lia.
  set (l0 := bits 64 x).
  assert (E0 : x = undigits 1 l0) by (symmetry; apply bits_undigits; exact Hx).
  assert (F0 : Forall (fun d => 0 <= d <= 1) l0) by apply bits_range.
  assert (L0 : length l0 = 64%nat) by apply bits_length.
  rewrite E0. clear E0 Hx. clearbody l0.
  rewrite (swar_step 1 l0 1 32) by (assumption || reflexivity).
  pose proof (pairsum_facts _ _ F0) as F1.
  pose proof (pairsum_length 32 l0 L0) as L1.
  rewrite <- (pairsum_sum 32 l0 L0).
  set (l1 := pairsum l0) in *. clearbody l1. cbn [Z.mul Pos.mul] in *.
  rewrite (swar_step 2 l1 2 16) by (assumption || reflexivity).
  pose proof (pairsum_facts _ _ F1) as F2.
  pose proof (pairsum_length 16 l1 L1) as L2.
  rewrite <- (pairsum_sum 16 l1 L1).
  set (l2 := pairsum l1) in *. clearbody l2. cbn [Z.mul Pos.mul] in *.
  rewrite (swar_step 4 l2 4 8) by (assumption || reflexivity).
  pose proof (pairsum_facts _ _ F2) as F3.
  pose proof (pairsum_length 8 l2 L2) as L3.
  rewrite <- (pairsum_sum 8 l2 L2).
  set (l3 := pairsum l2) in *. clearbody l3. cbn [Z.mul Pos.mul] in *.
  rewrite (swar_step 8 l3 8 4) by (assumption || reflexivity).
  pose proof (pairsum_facts _ _ F3) as F4.
  pose proof (pairsum_length 4 l3 L3) as L4.
  rewrite <- (pairsum_sum 4 l3 L3).
  set (l4 := pairsum l3) in *. clearbody l4. cbn [Z.mul Pos.mul] in *.
  rewrite (swar_step 16 l4 16 2) by (assumption || reflexivity).
  pose proof (pairsum_facts _ _ F4) as F5.
  pose proof (pairsum_length 2 l4 L4) as L5.
  rewrite <- (pairsum_sum 2 l4 L4).
  set (l5 := pairsum l4) in *. clearbody l5. cbn [Z.mul Pos.mul] in *.
  rewrite (swar_step 32 l5 32 1) by (assumption || reflexivity).
  pose proof (pairsum_facts _ _ F5) as F6.
  pose proof (pairsum_length 1 l5 L5) as L6.
  rewrite <- (pairsum_sum 1 l5 L5).
  set (l6 := pairsum l5) in *. clearbody l6. cbn [Z.mul Pos.mul] in *.
  destruct l6 as [|s [|? ?]]; cbn [length] in L6; try lia.
  cbn [undigits zsum]. rewrite Z.mul_0_r, !Z.add_0_r.
  inversion F6 as [|? ? Hs _]; subst. apply wrap_small. lia.
Qed.

Lemma count_ones_in_byte_ok x : 0 <= x < 256 -> count_ones_in_byte x = ones_spec 8 x.
Proof.
  intros Hx.
  assert (F : forallb (fun i => count_ones_in_byte (Z.of_nat i) =? ones_spec 8 (Z.of_nat i))
                      (seq 0 256) = true) by (vm_compute; reflexivity).
  rewrite forallb_forall in F.
  specialize (F (Z.to_nat x)). rewrite Z2Nat.id in F by lia.
  apply Z.eqb_eq, F, in_seq. lia.
Qed.

(** ** Leading zeros *)

(** Length of the binary representation. *)
Definition blen (x : Z) : Z := if x =? 0 then 0 else Z.log2 x + 1.

Lemma blen_shr x s : 0 <= s -> 2 ^ s <= x -> blen (x / 2 ^ s) = blen x - s.
Proof.
  intros Hs Hx. pose proof (pow2_pos s Hs).
  assert (1 <= x / 2 ^ s) by (apply Z.div_le_lower_bound; lia).
  unfold blen. destruct (Z.eqb_spec (x / 2 ^ s) 0); [lia|].
  destruct (Z.eqb_spec x 0); [lia|].
  rewrite <- Z.shiftr_div_pow2 by lia.
  rewrite Z.log2_shiftr by lia.
  rewrite Z.max_r; [lia|].
  assert (s <= Z.log2 x) by (apply Z.log2_le_pow2; lia). lia.
Qed.

Lemma clz_step_ok s z x z' x' :
  0 < s -> 0 <= x < 2 ^ (2 * s) -> clz_step s (z, x) = (z', x') ->
  0 <= x' < 2 ^ s /\ z' - blen x' = z - blen x.
Proof.
  intros Hs Hx H. unfold clz_step, shr in H.
  pose proof (pow2_pos s ltac:(lia)) as P. pose proof (pow2_double s ltac:(lia)) as P2.
  destruct (Z.eqb_spec (x / 2 ^ s) 0) as [E|E]; inversion H; subst; clear H.
  - apply Z.div_small_iff in E; lia.
  - assert (2 ^ s <= x).
    { destruct (Z.le_gt_cases (2 ^ s) x); [assumption|].
      rewrite Z.div_small in E by lia. lia. }
    split.
    + split; [apply Z.div_pos; lia|]. apply Z.div_lt_upper_bound; lia.
    + rewrite blen_shr by lia. lia.
Qed.

Lemma blen_spec x b : 0 <= x -> blen x = b <-> (0 <= b /\ x < 2 ^ b /\ (x <> 0 -> 2 ^ (b - 1) <= x) /\ (x = 0 -> b = 0)).
Proof.
  intros Hx. unfold blen. destruct (Z.eqb_spec x 0) as [->|Hx0].
  - split; [intros <-; cbn; lia|intros (?&?&?&?); lia].
  - pose proof (Z.log2_spec x ltac:(lia)) as L. pose proof (Z.log2_nonneg x).
    split.
    + intros <-. replace (Z.log2 x + 1 - 1) with (Z.log2 x) by lia.
      rewrite Z.add_1_r. intuition lia.
    + intros (Hb&H1&H2&_). specialize (H2 Hx0).
      assert (Hb1 : 0 <= b - 1) by (destruct (Z.eq_dec b 0); [subst b; cbn in *; lia|lia]).
      symmetry. assert (Z.log2 x = b - 1); [|lia].
      apply Z.log2_unique; [lia|]. rewrite <- Z.add_1_r. replace (b - 1 + 1) with b by lia. lia.
Qed.

Lemma count_leading_zeros_64_ok x :
  0 <= x < 2 ^ 64 -> count_leading_zeros_64 x = 64 - blen x.
Proof.
  intros Hx. unfold count_leading_zeros_64.
  destruct (clz_step 32 (64, x)) as [z1 x1] eqn:E1.
  apply clz_step_ok in E1; [|lia|exact Hx]. destruct E1 as [R1 I1].
  destruct (clz_step 16 (z1, x1)) as [z2 x2] eqn:E2.
  apply clz_step_ok in E2; [|lia|exact R1]. destruct E2 as [R2 I2].
  destruct (clz_step 8 (z2, x2)) as [z3 x3] eqn:E3.
  apply clz_step_ok in E3; [|lia|exact R2]. destruct E3 as [R3 I3].
  destruct (clz_step 4 (z3, x3)) as [z4 x4] eqn:E4.
  apply clz_step_ok in E4; [|lia|exact R3]. destruct E4 as [R4 I4].
  destruct (clz_step 2 (z4, x4)) as [z5 x5] eqn:E5.
  apply clz_step_ok in E5; [|lia|exact R4]. destruct E5 as [R5 I5].
  destruct (clz_step 1 (z5, x5)) as [z6 x6] eqn:E6.
  apply clz_step_ok in E6; [|lia|exact R5]. destruct E6 as [R6 I6].
  cbn [fst snd].
  assert (blen x6 = x6).
  { assert (x6 = 0 \/ x6 = 1) as [-> | ->] by lia; reflexivity. }
  assert (z6 - x6 = 64 - blen x) by lia.
  rewrite H0. apply wrap_small.
  assert (Hb : 0 <= blen x <= 64).
  { pose proof (blen_spec x (blen x) ltac:(lia)) as S.
    destruct S as [S _]. specialize (S eq_refl). destruct S as (?&?&S3&S4).
    split; [lia|]. destruct (Z.eq_dec x 0); [rewrite S4 by assumption; lia|].
    specialize (S3 n). assert (blen x - 1 < 64); [|lia].
    apply (Z.pow_lt_mono_r_iff 2); lia. }
  lia.
Qed.

Lemma bit_length_ok x : 0 <= x < 2 ^ 128 -> bit_length x = blen x.
Proof.
  intros Hx. unfold bit_length, count_leading_zeros_128, shr.
  assert (P : 2 ^ 128 = 2 ^ 64 * 2 ^ 64) by reflexivity.
  destruct (Z.eqb_spec (x / 2 ^ 64) 0) as [E|E].
  - apply Z.div_small_iff in E; [|lia].
    rewrite wrap_small by lia. rewrite count_leading_zeros_64_ok by lia. lia.
  - assert (2 ^ 64 <= x).
    { destruct (Z.le_gt_cases (2 ^ 64) x); [assumption|].
      rewrite Z.div_small in E by lia. lia. }
    rewrite count_leading_zeros_64_ok.
    + rewrite blen_shr by lia. lia.
    + split; [apply Z.div_pos; lia|apply Z.div_lt_upper_bound; lia].
Qed.
