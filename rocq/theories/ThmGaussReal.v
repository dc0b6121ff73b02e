(** C87: with exact real arithmetic the discrete Gaussian sampler has the
    distribution table and the standard deviations it documents. *)
From Coq Require Import Reals Lra Lia Sorted.
From Verif Require Import Base ZLemmas Prng Gauss GaussSpec ThmGauss GaussReal GaussRealSpec GaussRealProofs GaussRealProofs2 GaussRealProofs3.
Local Open Scope R_scope.

(** Create with a base deviation s of at least sqrt 2 times the smoothing parameter
    (and at most 2^26, so that the table size fits in an int) tabulates the sums of
    the density from -b on, where b is 8 s rounded up (to a multiple of 8): the entry
    for x is the integer part of 2^63 times the sum up to x. Smaller deviations are
    refused. *)
Theorem C87_create :
  (forall s, s < least_base -> create_real s = Err InvalidArgument) /\
  forall s, least_base <= s <= 2 ^ 26 -> exists g b, create_real s = Ok g /\ g_s_base g = s /\
    8 * s <= IZR b < 8 * s + 8 /\ Z.of_nat (length (g_cdt g)) = (2 * b + 1)%Z /\
    forall x, (- b <= x <= b)%Z ->
      IZR (nth (Z.to_nat (x + b)) (g_cdt g) 0%Z) <= 2 ^ 63 * cumulative s b x < IZR (nth (Z.to_nat (x + b)) (g_cdt g) 0%Z) + 1.
Proof.
  split.
  - intros s H. unfold create_real, g_create. cbn [f_lt f_mul f_sqrt f_of_Z f_smoothing reals]. fold least_base.
    destruct (Rltb_spec s least_base); [reflexivity|contradiction].
  - intros s [H1 H2]. destruct (create_ok s H1) as (b & Hb & Bb & E); [change (IZR (2 ^ 26)) with 67108864; lra|].
    eexists. exists b. split; [exact E|]. split; [reflexivity|]. split; [exact Bb|]. cbn [g_cdt]. rewrite map_length, seq_length. split; [lia|].
    intros x Hx. match goal with |- context [nth _ (map ?f ?l) 0%Z] => rewrite (nth_indep (map f l) 0%Z (f 0%nat)) by (rewrite map_length, seq_length; lia); rewrite (map_nth f) end.
    rewrite seq_nth by lia. cbn [Nat.add]. replace (- b + Z.of_nat (Z.to_nat (x + b)))%Z with x by lia.
    pose proof (floor_spec (cumulative s b x * IZR (2 ^ 63))) as Q. change (IZR (2 ^ 63)) with 9223372036854775808 in *. lra.
Qed.

(** The base sampler: the 63-bit words that give x are those in an interval
    (lo, hi], and hi - lo is 2^63 times the density at x, up to less than 1. The ends
    of the range get what is left: -b the words up to the first entry, b + 1 the
    words above the last one. *)
Theorem C87_base :
  forall s g, least_base <= s <= 2 ^ 26 -> create_real s = Ok g -> exists b T, 8 * s <= IZR b < 8 * s + 8 /\
  (forall x, (- b <= x <= b)%Z -> (0 <= T x)%Z /\ Rabs (IZR (T x) - 2 ^ 63 * cumulative s b x) < 1) /\
  (forall x, (- b < x <= b)%Z -> (T (x - 1) <= T x)%Z /\ Rabs (IZR (T x - T (x - 1)%Z) - 2 ^ 63 * density s (IZR x)) < 1) /\
  forall P k st u st', word_size k -> (2 * (b + 1) < 2 ^ k)%Z -> pr_rand64 P st = Ok (u, st') ->
    exists y, sample_base reals P k g st = Ok (y, st') /\
      let X := read_signed k y in let u63 := (u mod 2 ^ 63)%Z in
      (- b <= X <= b + 1)%Z /\
      (X = - b <-> u63 <= T (- b))%Z /\
      (forall x, (- b < x <= b)%Z -> (X = x <-> T (x - 1) < u63 <= T x)%Z) /\
      (X = b + 1 <-> T b < u63)%Z.
Proof.
  intros s g [H1 H2] E. destruct (create_ok s H1) as (b & Hb & Bb & E'); [change (IZR (2 ^ 26)) with 67108864; lra|].
  rewrite E' in E. apply (f_equal (fun r => match r with Ok x => x | _ => g end)) in E. cbv beta iota in E. subst g. pose proof least_gt0 as L.
  set (T := fun x => Rfloor (cumulative s b x * IZR (2 ^ 63))). exists b, T. split; [exact Bb|].
  assert (C0 : forall x, 0 <= cumulative s b x) by (intros; apply rsum_nonneg; intros; left; apply density_pos; lra).
  assert (FT : forall x, IZR (T x) <= 2 ^ 63 * cumulative s b x < IZR (T x) + 1).
  { intros x. unfold T. pose proof (floor_spec (cumulative s b x * IZR (2 ^ 63))) as Q. change (IZR (2 ^ 63)) with 9223372036854775808 in *. lra. }
  assert (Step : forall x, (- b < x <= b)%Z -> cumulative s b x = cumulative s b (x - 1) + density s (IZR x)).
  { intros x Hx. unfold cumulative. replace (Z.to_nat (x + b + 1)) with (S (Z.to_nat (x - 1 + b + 1))) by lia. cbn [rsum]. do 3 f_equal. lia. }
  assert (Mono : forall x, (- b < x <= b)%Z -> (T (x - 1) <= T x)%Z).
  { intros x Hx. pose proof (FT x) as [_ Q1]. pose proof (FT (x - 1)%Z) as [Q2 _]. rewrite (Step x Hx) in Q1.
    pose proof (density_pos s (IZR x) ltac:(lra)) as D. assert ((T (x - 1)%Z < T x + 1)%Z); [|lia]. apply lt_IZR. rewrite plus_IZR. lra. }
  split; [|split].
  - intros x Hx. split; [unfold T; apply floor_nonneg; apply Rmult_le_pos; [apply C0|apply IZR_le; discriminate]|].
    pose proof (FT x). apply Rabs_def1; lra.
  - intros x Hx. split; [exact (Mono x Hx)|]. rewrite minus_IZR. pose proof (FT x). pose proof (FT (x - 1)%Z). rewrite (Step x Hx) in H. apply Rabs_def1; lra.
  - intros P k st u st' Hk Hw Er. rewrite (base_is reals P k). rewrite Er. cbn [bind g_cdt]. eexists. split; [reflexivity|].
    set (cdt := map _ _). 
    assert (Lc : length cdt = (2 * Z.to_nat b + 1)%nat).
    { unfold cdt. rewrite map_length, seq_length. clear - Hb. lia. }
    assert (Nc : forall x, (- b <= x <= b)%Z -> nth (Z.to_nat (x + b)) cdt 0%Z = T x).
    { intros x Hx. unfold cdt. match goal with |- context [nth _ (map ?f ?l) 0%Z] => rewrite (nth_indep (map f l) 0%Z (f 0%nat)) by (rewrite map_length, seq_length; lia); rewrite (map_nth f) end.
      rewrite seq_nth by lia. cbn [Nat.add]. replace (- b + Z.of_nat (Z.to_nat (x + b)))%Z with x by lia. reflexivity. }
    pose proof (base_bounds cdt (Z.to_nat b) u Lc) as Bd. rewrite Z2Nat.id in Bd by lia.
    unfold wrap. rewrite C42_signed by (try exact Hk; lia). cbv zeta. split; [exact Bd|].
    assert (Srt : Sorted Z.le cdt).
    { apply Sorted_LocallySorted_iff. unfold cdt. assert (G : forall n a, (a + n <= Z.to_nat (2 * b + 1))%nat -> LocallySorted Z.le (map (fun j => T (- b + Z.of_nat j)%Z) (seq a n))).
      { induction n as [|n IH]; intros a Ha; [constructor|]. cbn [seq map]. destruct n as [|n]; [constructor|].
        specialize (IH (S a) ltac:(lia)). cbn [seq map] in *. constructor; [exact IH|]. pose proof (Mono (- b + Z.of_nat (S a))%Z ltac:(lia)) as M.
        replace (- b + Z.of_nat (S a) - 1)%Z with (- b + Z.of_nat a)%Z in M by lia. exact M. }
      apply G. lia. }
    pose proof (C42_lookup cdt (u mod 2 ^ 63)%Z Srt) as [_ LK]. unfold find_in_cdt in LK. rewrite find_count in LK. rewrite Z.add_0_l in LK.
    assert (BV : base_value cdt u = (Z.of_nat (length (filter (fun c => (c <? u mod 2 ^ 63)%Z) cdt)) - b)%Z).
    { unfold base_value. rewrite Lc. replace ((2 * Z.to_nat b + 1) / 2)%nat with (Z.to_nat b) by (apply Nat.div_unique with 1%nat; lia). lia. }
    rewrite BV in *. set (F := Z.of_nat (length (filter (fun c => (c <? u mod 2 ^ 63)%Z) cdt))) in *. rewrite Lc in LK. clearbody F. set (U := (u mod 2 ^ 63)%Z) in *. clearbody U.
    split; [|split].
    + specialize (LK 0%Z ltac:(lia)). pose proof (Nc (- b)%Z ltac:(lia)) as N0. replace (- b + b)%Z with 0%Z in N0 by lia. rewrite N0 in LK. lia.
    + intros x Hx. specialize (LK (x + b)%Z ltac:(lia)). rewrite (Nc x) in LK by lia. replace (x + b - 1)%Z with (x - 1 + b)%Z in LK by lia. rewrite (Nc (x - 1)%Z) in LK by lia. lia.
    + specialize (LK (2 * b + 1)%Z ltac:(lia)). replace (2 * b + 1 - 1)%Z with (b + b)%Z in LK by lia. rewrite (Nc b) in LK by lia. lia.
Qed.

(** NumIterations ends for every value a double can have, with a number between 0
    and 12: the last level whose deviation is at most s. *)
Theorem C87_iterations :
  forall (g : sampler reals) s fuel, least_base <= g_s_base g -> g_s_base g <= s -> s <= 2 ^ 1024 -> (14 <= fuel)%nat ->
  exists n, num_iterations reals fuel g s = Ok (Z.of_nat n) /\ (n <= 12)%nat /\
    s_at reals (g_s_base g) n <= s < s_at reals (g_s_base g) (S n).
Proof. exact iterations. Qed.

(** Sample(s) for s up to 2^k. The n levels use positive weights w, v, where w times
    sqrt 2 times the smoothing parameter is at most the deviation reached so far. The
    variance after n levels is at most s^2 and after another one it would be more.
    For n > 0 the result is z X1 + (z - 1) X2 for two independent values of that
    recursion, where z is the least positive integer for which the variance of this
    sum is at least s^2. For n = 0 the result is a base sample. Nothing else goes
    wrong: only errors of the generator are passed on. *)
Theorem C87_sample :
  forall P k (g : sampler reals) s st fuel, word_size k -> k <> 16%Z -> least_base <= g_s_base g -> g_s_base g <= s -> s <= 2 ^ Z.to_nat k -> (14 <= fuel)%nat ->
  exists n w v z, let V := variance (g_s_base g) w v in
  (n <= 12)%nat /\ V n <= s ^ 2 < V (S n) /\
  (forall l, (1 <= w l)%Z /\ v l = Z.max 1 (w l - 1) /\ (IZR (w l) * least_base) ^ 2 <= V l < ((IZR (w l) + 1) * least_base) ^ 2) /\
  (n = 0%nat -> g_sample reals P k fuel g s st = do! ' (X, st) <- sampleI P (g_cdt g) w v 0 st; Ok (X mod 2 ^ k, st)%Z) /\
  ((0 < n)%nat -> (1 <= z)%Z /\ s ^ 2 <= (IZR z ^ 2 + (IZR z - 1) ^ 2) * V n /\
     (forall y, (1 <= y < z)%Z -> (IZR y ^ 2 + (IZR y - 1) ^ 2) * V n < s ^ 2) /\
     g_sample reals P k fuel g s st =
       do! ' (X1, st) <- sampleI P (g_cdt g) w v n st;
       do! ' (X2, st) <- sampleI P (g_cdt g) w v n st;
       Ok ((z * X1 + (z - 1) * X2) mod 2 ^ k, st)%Z).
Proof.
  intros P k g s st fuel Hk H16 Hg Hs Hmax Hf. pose proof least_pos as L. cbn [F reals] in *.
  assert (K2 : 2 ^ Z.to_nat k <= 2 ^ 1024) by (apply Rle_pow; [lra|]; destruct Hk as [->|[->|[->| ->]]]; lia).
  destruct (iterations g s fuel Hg Hs (Rle_trans _ _ _ Hmax K2) Hf) as (n & En & Bn & S1 & S2).
  set (sb := g_s_base g) in *. set (w := fun l => wt (s_at reals sb l)). set (v := fun l => vt (s_at reals sb l)). set (t := s / s_at reals sb n).
  pose proof (s_at_ge sb n Hg) as Gn. set (sn := s_at reals sb n) in *.
  assert (Ht : 1 <= t) by (unfold t; apply Rmult_le_reg_r with sn; [lra|]; unfold Rdiv; rewrite Rmult_assoc, Rinv_l by lra; lra).
  assert (Et : t * sn = s) by (unfold t; field; lra).
  exists n, w, v, (zt t). cbv zeta. pose proof (fun i => s_at_variance sb i Hg) as SV. fold w v in SV.
  destruct (zt_spec t Ht) as (Z1 & Z2 & Z3 & Z4).
  assert (PosN : forall i, 0 < s_at reals sb i) by (intros i; pose proof (s_at_ge sb i Hg); lra).
  assert (K16 : IZR (2 ^ k) = 2 ^ Z.to_nat k).
  { rewrite pow_IZR, Z2Nat.id by (destruct Hk as [->|[->|[->| ->]]]; lia). reflexivity. }
  assert (K100 : 100 <= 2 ^ Z.to_nat k).
  { rewrite <- K16. destruct Hk as [->|[->|[->| ->]]]; apply IZR_le; [change (2 ^ 16)%Z with 65536%Z|change (2 ^ 32)%Z with 4294967296%Z|change (2 ^ 64)%Z with 18446744073709551616%Z|change (2 ^ 128)%Z with 340282366920938463463374607431768211456%Z]; lia. }
  set (M := 2 ^ Z.to_nat k) in *.
  split; [exact Bn|]. split.
  { rewrite <- !SV. split; [apply pow_incr; split; [left; apply PosN|exact S1]|]. cbn [pow]. rewrite !Rmult_1_r.
    pose proof (PosN n). fold sn in H. apply Rmult_le_0_lt_compat; lra. }
  split.
  { intros l. pose proof (s_at_ge sb l Hg) as Gl. assert (W1 : (1 <= w l)%Z) by (apply wt_ge; lra). split; [exact W1|]. split; [reflexivity|].
    rewrite <- SV. pose proof (wt_spec (s_at reals sb l)) as [Q1 Q2]. change (wt (s_at reals sb l)) with (w l) in Q1, Q2. pose proof (IZR_le _ _ W1).
    split; [apply pow_incr; split; [nra|exact Q1]|]. cbn [pow]. rewrite !Rmult_1_r. apply Rmult_le_0_lt_compat; lra. }
  assert (Wt : weights reals k sb w v n).
  { intros l Hl. rewrite level_z_is. cbn [f_max f_sub f_of_Z f_to_unsigned reals].
    rewrite <- (vt_R (s_at reals sb l)). change (wt (s_at reals sb l)) with (w l). change (vt (s_at reals sb l)) with (v l). rewrite !trunc_IZR.
    pose proof (s_at_ge sb l Hg) as Gl. assert (W1 : (1 <= w l)%Z) by (apply wt_ge; lra).
    assert (Mono : s_at reals sb (S l) <= sn).
    { assert (G : forall d, s_at reals sb (S l) <= s_at reals sb (S l + d)).
      { induction d as [|d IH]; [rewrite Nat.add_0_r; lra|]. rewrite Nat.add_succ_r. pose proof (s_at_mono sb (S l + d) Hg). lra. }
      specialize (G (n - S l)%nat). replace (S l + (n - S l))%nat with n in G by lia. exact G. }
    pose proof (next_w _ Gl) as NW. change (level_next reals (s_at reals sb l)) with (s_at reals sb (S l)) in NW. change (wt (s_at reals sb l)) with (w l) in NW.
    assert (W2 : (w l < 2 ^ k)%Z).
    { apply lt_IZR. rewrite K16. fold M. pose proof (IZR_le _ _ W1). assert (7 * IZR (w l) <= s_at reals sb l * IZR (w l)) by (apply Rmult_le_compat_r; lra). lra. }
    assert (V1 : (1 <= v l < 2 ^ k)%Z) by (unfold v, vt; fold (w l); change (wt (s_at reals sb l)) with (w l); lia).
    rewrite (proj2 (Z.leb_le 0 (w l))) by lia. rewrite (proj2 (Z.ltb_lt (w l) (2 ^ k))) by lia.
    rewrite (proj2 (Z.leb_le 0 (v l))) by lia. rewrite (proj2 (Z.ltb_lt (v l) (2 ^ k))) by lia. split; reflexivity. }
  assert (Lt : f_lt reals s sb = false) by (cbn [f_lt reals]; destruct (Rltb_spec s sb); [lra|reflexivity]).
  unfold g_sample. rewrite En. cbn [bind]. unfold sample_with_iterations. fold sb. rewrite Lt. destruct (Z.ltb_spec (Z.of_nat n) 0); [lia|]. split.
  - intros ->. cbn [Z.of_nat Z.eqb sampleI]. rewrite (base_is reals P k g). destruct (pr_rand64 P st) as [[u st1]| |]; reflexivity.
  - intros Hn. split; [exact Z1|]. split; [|split].
    + rewrite <- SV. fold sn. rewrite <- Et. rewrite Rpow_mult_distr. apply Rmult_le_compat_r; [apply pow2_ge_0|exact Z2].
    + intros y Hy. rewrite <- SV. fold sn. rewrite <- Et. rewrite Rpow_mult_distr. apply Rmult_lt_compat_r; [apply pow_lt; lra|exact (Z3 y Hy)].
    + destruct (Z.eqb_spec (Z.of_nat n) 0); [lia|].
      pose proof (fun st0 => proj2 (C42_recursion reals P k g w v n st0 Hk Wt) H16 ltac:(lia)) as RC.
      pose proof (RC st) as R1. destruct (sampleI P (g_cdt g) w v n st) as [[X1 st1]| |]; rewrite R1; [|reflexivity|reflexivity]. cbn [bind].
      pose proof (RC st1) as R2. destruct (sampleI P (g_cdt g) w v n st1) as [[X2 st2]| |]; rewrite R2; [|reflexivity|reflexivity]. cbn [bind].
      cbn [f_div f_sub f_mul f_add f_sqrt f_ceil f_of_Z reals]. fold sb sn t. fold (zt t). rewrite <- minus_IZR. cbn [f_to_unsigned reals]. rewrite !trunc_IZR.
      assert (ZK : (zt t < 2 ^ k)%Z).
      { apply lt_IZR. rewrite K16. fold M. assert (7 * t <= sn * t) by (apply Rmult_le_compat_r; lra). lra. }
      rewrite (proj2 (Z.leb_le 0 (zt t))) by lia. rewrite (proj2 (Z.ltb_lt (zt t) (2 ^ k))) by lia.
      rewrite (proj2 (Z.leb_le 0 (zt t - 1))) by lia. rewrite (proj2 (Z.ltb_lt (zt t - 1) (2 ^ k))) by lia. cbn [andb bind].
      unfold mul_int. rewrite (proj2 (Z.eqb_neq k 16) H16). cbn [andb bind]. rewrite wrap_add_l, wrap_add_r. do 2 f_equal.
      apply (wrap_lin k); unfold wrap; apply Z.mod_mod, Z.pow_nonzero; destruct Hk as [->|[->|[->| ->]]]; lia.
Qed.

(** "Returns a sample from the discrete Gaussian distribution DG_s": between s_base
    and sqrt 2 s_base the requested deviation is ignored, all get s_base. *)
Theorem C87_deviation_refuted :
  forall P k (g : sampler reals) s st fuel, least_base <= g_s_base g -> g_s_base g <= s < g_s_base g * sqrt 2 -> s <= 2 ^ 1024 -> (14 <= fuel)%nat ->
  g_sample reals P k fuel g s st = sample_base reals P k g st.
Proof.
  intros P k g s st fuel Hg [H1 H2] Hmax Hf. destruct (iterations g s fuel Hg H1 Hmax Hf) as (n & E & _ & S1 & _).
  assert (n = 0%nat).
  { destruct n as [|n]; [reflexivity|exfalso]. pose proof (next_mono _ Hg) as N. change (level_next reals (g_s_base g)) with (s_at reals (g_s_base g) 1) in N.
    assert (G : forall d, s_at reals (g_s_base g) 1 <= s_at reals (g_s_base g) (1 + d)).
    { induction d as [|d IH]; [rewrite Nat.add_0_r; apply Rle_refl|]. rewrite Nat.add_succ_r. pose proof (s_at_mono (g_s_base g) (1 + d) Hg) as Q. apply Rlt_le in Q. exact (Rle_trans _ _ _ IH Q). }
    specialize (G n). cbn [Nat.add] in G. cbn [F reals] in *. lra. }
  subst n. unfold g_sample. rewrite E. cbn [bind]. unfold sample_with_iterations. cbn [f_lt reals].
  destruct (Rltb_spec s (g_s_base g)) as [Q|Q]; [cbn [F reals] in *; lra|]. reflexivity.
Qed.

(** Base deviation 8 and s = 100 meet the conditions. *)
Example C87_example : least_base <= 8 <= 2 ^ 26 /\ 100 <= 2 ^ Z.to_nat 32 /\
  exists g, create_real 8 = Ok g /\ g_s_base g = 8 /\ length (g_cdt g) = 129%nat.
Proof.
  assert (L : least_base <= 8).
  { unfold least_base. assert (sqrt 2 <= 1415 / 1000) by (rewrite <- (sqrt_pow2 (1415 / 1000)) by lra; apply sqrt_le_1_alt; lra). lra. }
  split; [split; [exact L|lra]|]. split; [change (Z.to_nat 32) with 32%nat; lra|].
  destruct (proj2 C87_create 8 ltac:(split; [exact L|lra])) as (g & b & E & B & Hb & Ln & _). exists g. split; [exact E|]. split; [exact B|].
  unfold create_real, g_create in E.
  destruct (C42_create reals _ _ _ E) as (_ & _ & cut & Ec & Lc). cbn [f_to_int f_mul f_of_Z f_ceil reals] in Ec.
  assert (C8 : Rceil 8 = 8%Z) by (unfold Rceil; change (Int_part (- (8))) with (Rfloor (- (8))); rewrite (floor_unique (- (8)) (-8)); [reflexivity|lra]).
  rewrite C8, <- mult_IZR, trunc_IZR in Ec. change (8 * 8)%Z with 64%Z in Ec. vm_compute in Ec. injection Ec as <-.
  rewrite Lc by lia. reflexivity.
Qed.

Print Assumptions C87_create.
Print Assumptions C87_base.
Print Assumptions C87_iterations.
Print Assumptions C87_sample.
Print Assumptions C87_deviation_refuted.
