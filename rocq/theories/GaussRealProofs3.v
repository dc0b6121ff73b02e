(** Proofs for C87: the levels of the recursion. *)
From Coq Require Import Reals Lra Lia Sorted.
From Verif Require Import Base ZLemmas Prng Gauss GaussSpec ThmGauss GaussReal GaussRealSpec GaussRealProofs.
Local Open Scope R_scope.

(** the weights at a level with standard deviation s *)
Definition wt (s : R) : Z := Rfloor (s / least_base).
Definition vt (s : R) : Z := Z.max 1 (wt s - 1).

Lemma least_gt0 : 0 < least_base. Proof. pose proof least_pos. lra. Qed.

Lemma level_z_is s : level_z reals s = IZR (wt s).
Proof. reflexivity. Qed.

Lemma wt_spec s : IZR (wt s) * least_base <= s < (IZR (wt s) + 1) * least_base.
Proof.
  unfold wt. pose proof (floor_spec (s / least_base)) as [H1 H2]. pose proof least_gt0 as L. set (f := IZR (Rfloor (s / least_base))) in *.
  assert (E : s = s / least_base * least_base) by (field; lra). split.
  - rewrite E. apply Rmult_le_compat_r; lra.
  - rewrite E at 1. apply Rmult_lt_compat_r; lra.
Qed.
Lemma wt_ge s (m : Z) : IZR m * least_base <= s -> (m <= wt s)%Z.
Proof.
  intros H. pose proof (wt_spec s) as [_ H2]. pose proof least_gt0. assert ((m < wt s + 1)%Z); [|lia]. apply lt_IZR. rewrite plus_IZR.
  apply Rmult_lt_reg_r with least_base; lra.
Qed.

Lemma vt_R s : IZR (vt s) = Rmax 1 (IZR (wt s) - 1).
Proof.
  unfold vt. destruct (Z.max_spec 1 (wt s - 1)) as [[H ->]|[H ->]].
  - rewrite minus_IZR. rewrite Rmax_right; [reflexivity|]. rewrite <- minus_IZR. apply IZR_le. lia.
  - rewrite Rmax_left; [reflexivity|]. rewrite <- minus_IZR. apply IZR_le. lia.
Qed.

Lemma level_next_is s : least_base <= s -> level_next reals s = s * sqrt (IZR (wt s) ^ 2 + IZR (vt s) ^ 2).
Proof.
  intros H. assert (W : (1 <= wt s)%Z) by (apply wt_ge; lra). unfold level_next. rewrite level_z_is. cbn [f_mul f_sqrt f_add f_max f_sub f_of_Z reals].
  f_equal. f_equal. rewrite vt_R. apply IZR_le in W. set (w := IZR (wt s)) in *. destruct (Rle_dec 1 (w - 1)) as [Q|Q].
  - rewrite (Rmax_right 1 (w - 1)) by lra. rewrite Rmax_left by nra. ring.
  - rewrite (Rmax_left 1 (w - 1)) by lra. rewrite Rmax_right by nra. ring.
Qed.

Lemma level_next_ge s (m : R) : least_base <= s -> 0 <= m -> m ^ 2 <= IZR (wt s) ^ 2 + IZR (vt s) ^ 2 -> s * m <= level_next reals s.
Proof.
  intros H Hm H2. rewrite level_next_is by exact H. pose proof least_gt0. apply Rmult_le_compat_l; [lra|].
  rewrite <- (sqrt_pow2 m Hm). apply sqrt_le_1_alt. exact H2.
Qed.

Lemma vt_pos s : (1 <= vt s)%Z. Proof. unfold vt. lia. Qed.

Lemma next_mono s : least_base <= s -> s * sqrt 2 <= level_next reals s.
Proof.
  intros H. apply level_next_ge; [exact H|apply sqrt_pos|]. rewrite pow2_sqrt by lra.
  assert (W : (1 <= wt s)%Z) by (apply wt_ge; lra). pose proof (IZR_le _ _ W). pose proof (IZR_le _ _ (vt_pos s)). nra.
Qed.
Lemma next_w s : least_base <= s -> s * IZR (wt s) <= level_next reals s.
Proof.
  intros H. assert (W : (1 <= wt s)%Z) by (apply wt_ge; lra). pose proof (IZR_le _ _ W). apply level_next_ge; [exact H|lra|nra].
Qed.
Lemma sqrt2_ge1 : 1 < sqrt 2. Proof. rewrite <- sqrt_1 at 1. apply sqrt_lt_1_alt. lra. Qed.

Lemma s_at_ge s i : least_base <= s -> least_base <= s_at reals s i.
Proof.
  intros H. induction i as [|i IH]; cbn [s_at]; [exact H|]. pose proof (next_mono _ IH). pose proof sqrt2_ge1. pose proof least_gt0. set (a := s_at reals s i) in *.
  assert (a * 1 <= a * sqrt 2) by (apply Rmult_le_compat_l; lra). lra.
Qed.
Lemma s_at_mono s i : least_base <= s -> s_at reals s i < s_at reals s (S i).
Proof.
  intros H. pose proof (s_at_ge s i H) as Hi. cbn [s_at]. pose proof (next_mono _ Hi). pose proof sqrt2_ge1. pose proof least_gt0.
  set (a := s_at reals s i) in *. assert (a * 1 < a * sqrt 2) by (apply Rmult_lt_compat_l; lra). lra.
Qed.

(** growth *)
Lemma grow_sq s rho : 2 <= rho -> least_base * rho <= s -> least_base * (rho ^ 2 / 2) <= level_next reals s.
Proof.
  intros Hr H. pose proof least_gt0 as L. assert (Hs : least_base <= s) by nra.
  assert (W : (2 <= wt s)%Z) by (apply wt_ge; nra). pose proof (IZR_le _ _ W) as W'. pose proof (wt_spec s) as [_ W2]. pose proof (next_w s Hs) as N.
  set (w := IZR (wt s)) in *. assert (Hw : rho / 2 <= w).
  { assert (rho < w + 1); [|lra]. apply Rmult_lt_reg_r with least_base; [exact L|]. lra. }
  assert (least_base * rho * (rho / 2) <= s * w); [|nra]. apply Rmult_le_compat; nra.
Qed.

Lemma grow13 s : least_base <= s -> least_base * (2 * 10 ^ 512) <= s_at reals s 13.
Proof.
  intros H. pose proof least_gt0 as L.
  pose proof (s_at_ge s 0 H) as G0. pose proof (s_at_ge s 1 H) as G1. pose proof (s_at_ge s 2 H) as G2. pose proof (s_at_ge s 3 H) as G3.
  assert (A2 : least_base * 2 <= s_at reals s 2).
  { pose proof (next_mono _ G0) as N0. pose proof (next_mono _ G1) as N1. cbn [s_at] in *. pose proof sqrt2_ge1.
    assert (E : sqrt 2 * sqrt 2 = 2) by (apply sqrt_sqrt; lra). set (a1 := level_next reals s) in *. set (a2 := level_next reals a1) in *.
    assert (s * sqrt 2 * sqrt 2 <= a1 * sqrt 2) by (apply Rmult_le_compat_r; lra). rewrite Rmult_assoc, E in H1. lra. }
  assert (A3 : least_base * 4 <= s_at reals s 3).
  { assert (W : (2 <= wt (s_at reals s 2))%Z) by (apply wt_ge; lra). pose proof (IZR_le _ _ W). pose proof (IZR_le _ _ (vt_pos (s_at reals s 2))).
    pose proof (level_next_ge _ 2 G2 ltac:(lra) ltac:(nra)). change (s_at reals s 3) with (level_next reals (s_at reals s 2)). lra. }
  assert (A4 : least_base * (2 * 10 ^ 1) <= s_at reals s 4).
  { assert (W : (4 <= wt (s_at reals s 3))%Z) by (apply wt_ge; lra). pose proof (IZR_le _ _ W).
    assert (V : (3 <= vt (s_at reals s 3))%Z) by (unfold vt; lia). pose proof (IZR_le _ _ V).
    pose proof (level_next_ge _ 5 G3 ltac:(lra) ltac:(nra)). change (s_at reals s 4) with (level_next reals (s_at reals s 3)). lra. }
  assert (Step : forall i m, least_base * (2 * 10 ^ m) <= s_at reals s i -> least_base * (2 * 10 ^ (m + m)) <= s_at reals s (S i)).
  { intros i m Hi. assert (1 <= 10 ^ m) by (apply pow_R1_Rle; lra). pose proof (grow_sq _ (2 * 10 ^ m) ltac:(lra) Hi) as Q.
    replace ((2 * 10 ^ m) ^ 2 / 2) with (2 * 10 ^ (m + m)) in Q by (rewrite pow_add; field). exact Q. }
  do 9 apply Step in A4. exact A4.
Qed.

Lemma beyond_double s : least_base <= s -> 2 ^ 1024 < s_at reals s 13.
Proof.
  intros H. pose proof (grow13 s H) as G. pose proof least_pos as L.
  assert (P : 2 ^ 1024 <= 10 ^ 512).
  { replace (2 ^ 1024) with ((2 ^ 2) ^ 512) by (rewrite <- pow_mult; reflexivity). apply pow_incr. lra. }
  assert (0 < 10 ^ 512) by (apply pow_lt; lra). set (T := 10 ^ 512) in *. clearbody T. set (U := 2 ^ 1024) in *. clearbody U.
  assert (7 * T <= least_base * T) by (apply Rmult_le_compat_r; lra). lra.
Qed.

(** ** NumIterations *)
Lemma num_total (g : sampler reals) (s : R) : forall m i fuel, s < s_at reals (g_s_base g) (i + m) -> (m < fuel)%nat -> (Z.of_nat (i + m) < 2 ^ 31 - 1)%Z ->
  exists n, num_loop reals fuel s (s_at reals (g_s_base g) i) (Z.of_nat i) = Ok n /\ (n < Z.of_nat (i + m))%Z.
Proof.
  induction m as [|m IH]; intros i fuel H Hf Hb; (destruct fuel as [|fuel]; [lia|]); cbn [num_loop]; cbn [f_le reals].
  - rewrite Nat.add_0_r in *. destruct (Rleb_spec (s_at reals (g_s_base g) i) s); [lra|]. eexists. split; [reflexivity|lia].
  - destruct (Rleb_spec (s_at reals (g_s_base g) i) s); [|eexists; split; [reflexivity|lia]].
    destruct (Z.eqb_spec (Z.of_nat i) (2 ^ 31 - 1)); [lia|].
    destruct (IH (S i) fuel) as (n' & E & B); [replace (S i + m)%nat with (i + S m)%nat by lia; exact H|lia|lia|].
    exists n'. split; [|lia]. rewrite Nat2Z.inj_succ in E. exact E.
Qed.

Lemma iterations (g : sampler reals) (s : R) fuel : least_base <= g_s_base g -> g_s_base g <= s -> s <= 2 ^ 1024 -> (14 <= fuel)%nat ->
  exists n, num_iterations reals fuel g s = Ok (Z.of_nat n) /\ (n <= 12)%nat /\ s_at reals (g_s_base g) n <= s < s_at reals (g_s_base g) (S n).
Proof.
  intros Hg Hs Hmax Hf. destruct (num_total g s 13 0 fuel) as (n & E & B).
  { cbn [Nat.add]. pose proof (beyond_double _ Hg) as Q. set (U := 2 ^ 1024) in *. clearbody U. exact (Rle_lt_trans _ _ _ Hmax Q). }
  { lia. } { lia. }
  assert (E' : num_iterations reals fuel g s = Ok n).
  { unfold num_iterations. cbn [f_lt reals]. destruct (Rltb_spec s (g_s_base g)) as [Q|Q]; [clear - Q Hs; cbn [F reals] in *; lra|]. exact E. }
  destruct (proj2 (C42_iterations reals g fuel s n) E') as (R1 & R2 & R3). cbn [f_le reals] in R2, R3.
  assert (N0 : (0 <= n)%Z).
  { destruct (Z.eq_dec n (-1)) as [->|]; [|lia]. change (Z.to_nat (-1 + 1)) with 0%nat in R3. cbn [s_at] in R3.
    destruct (Rleb_spec (g_s_base g) s) as [Q|Q]; [discriminate R3|contradiction]. }
  exists (Z.to_nat n). rewrite Z2Nat.id by exact N0. split; [exact E'|]. split; [lia|]. split.
  - specialize (R2 (Z.to_nat n) ltac:(lia)). destruct (Rleb_spec (s_at reals (g_s_base g) (Z.to_nat n)) s) as [Q|Q]; [exact Q|discriminate R2].
  - replace (S (Z.to_nat n)) with (Z.to_nat (n + 1)) by lia. destruct (Rleb_spec (s_at reals (g_s_base g) (Z.to_nat (n + 1))) s) as [Q|Q]; [discriminate R3|].
    apply Rnot_le_lt. exact Q.
Qed.

(** ** Variances *)
Lemma s_at_variance s i : least_base <= s ->
  s_at reals s i ^ 2 = variance s (fun l => wt (s_at reals s l)) (fun l => vt (s_at reals s l)) i.
Proof.
  intros H. induction i as [|i IH]; cbn [s_at variance]; [reflexivity|]. rewrite <- IH. rewrite level_next_is by (apply s_at_ge; exact H).
  set (a := s_at reals s i). set (q := IZR (wt a) ^ 2 + IZR (vt a) ^ 2). change ((a * sqrt q) ^ 2) with (a * sqrt q * (a * sqrt q * 1)).
  assert (Q : sqrt q * sqrt q = q) by (apply sqrt_sqrt; unfold q; pose proof (pow2_ge_0 (IZR (wt a))); pose proof (pow2_ge_0 (IZR (vt a))); lra).
  transitivity (a * a * (sqrt q * sqrt q)); [ring|]. rewrite Q. ring.
Qed.

(** ** The last step *)
Definition zt (t : R) : Z := Rceil ((sqrt (2 * t * t - 1) + 1) / 2).
Lemma zt_spec t : 1 <= t -> (1 <= zt t)%Z /\ t ^ 2 <= IZR (zt t) ^ 2 + (IZR (zt t) - 1) ^ 2 /\
  (forall z, (1 <= z < zt t)%Z -> IZR z ^ 2 + (IZR z - 1) ^ 2 < t ^ 2) /\ IZR (zt t) < t + 2.
Proof.
  intros Ht. unfold zt. set (q := sqrt (2 * t * t - 1)). assert (Q0 : 0 <= q) by apply sqrt_pos.
  assert (Q2 : q * q = 2 * t * t - 1) by (apply sqrt_sqrt; nra). assert (Q1 : 1 <= q) by nra.
  pose proof (ceil_spec ((q + 1) / 2)) as [C1 C2]. set (z := Rceil ((q + 1) / 2)) in *.
  assert (Z1 : (1 <= z)%Z) by (assert ((0 < z)%Z) by (apply lt_IZR; lra); lia). split; [exact Z1|]. split; [|split].
  - assert (q <= 2 * IZR z - 1) by lra. nra.
  - intros y [Y1 Y2]. assert (IZR y + 1 <= IZR z) by (rewrite <- plus_IZR; apply IZR_le; lia). pose proof (IZR_le _ _ Y1).
    assert (2 * IZR y - 1 < q) by lra. nra.
  - assert (q <= 2 * t) by nra. lra.
Qed.
