From Coq Require Import Arith.
From Verif Require Import Base FinSum BitsUtil Montgomery Ntt Poly Prng Sampling SampleSpec ZLemmas
  BitsUtilProofs MontgomeryProofs MontBatchProofs PolySpec Ring SampleProofs.
Local Notation zsum := FinSum.zsum.

Lemma fold_zsum n (f : nat -> Z) : fold_right Z.add 0 (map f (seq 0 n)) = zsum n f.
Proof.
  assert (K : forall n a, fold_right Z.add 0 (map f (seq a n)) = zsum n (fun i => f (a + i)%nat)).
  { clear n. induction n as [|n IH]; intros a; [reflexivity|]. rewrite zsum_first. cbn [seq map fold_right].
    rewrite IH. f_equal; [f_equal; lia|]. apply zsum_ext. intros. f_equal. lia. }
  rewrite K. apply zsum_ext. intros. reflexivity.
Qed.

Lemma ones_popcount n x : ones_spec n x = popcount n x.
Proof. unfold ones_spec, popcount. apply fold_zsum. Qed.

Lemma popcount_range n x : 0 <= popcount n x <= Z.of_nat n.
Proof.
  unfold popcount. split.
  - apply zsum_nonneg. intros i _. destruct (Z.testbit x (Z.of_nat i)); cbn; lia.
  - replace (Z.of_nat n) with (zsum n (fun _ => 1)) by (rewrite zsum_const; lia).
    apply zsum_le. intros i _. destruct (Z.testbit x (Z.of_nat i)); cbn; lia.
Qed.

Lemma popcount_S n x b : (b = 0 \/ b = 1) -> popcount (S n) (2 * x + b) = b + popcount n x.
Proof.
  intros Hb. unfold popcount. rewrite zsum_first. f_equal.
  - cbn [Z.of_nat]. rewrite Z.bit0_odd, Z.odd_add_mul_2 || idtac.
    destruct Hb as [->| ->]; [rewrite Z.add_0_r, Z.testbit_even_0|rewrite Z.testbit_odd_0]; reflexivity.
  - apply zsum_ext. intros i _. f_equal. rewrite Nat2Z.inj_succ.
    destruct Hb as [->| ->]; [rewrite Z.add_0_r; apply Z.testbit_even_succ|apply Z.testbit_odd_succ]; lia.
Qed.

Lemma popcount_mod w n x : (w <= n)%nat -> popcount n (x mod 2 ^ Z.of_nat w) = popcount w x.
Proof.
  intros H. unfold popcount. replace n with (w + (n - w))%nat by lia. rewrite zsum_split.
  rewrite (zsum_ext (n - w) _ (fun _ => 0)).
  - rewrite zsum_zero, Z.add_0_r. apply zsum_ext. intros i Hi. f_equal. apply Z.mod_pow2_bits_low. lia.
  - intros i Hi. rewrite Z.mod_pow2_bits_high by lia. reflexivity.
Qed.

(** ** Sums over pairs of w-bit words *)

Definition pairs (w : nat) (f : Z -> Z) (c : Z) : Z :=
  zsum (Z.to_nat (2 ^ Z.of_nat w)) (fun x => zsum (Z.to_nat (2 ^ Z.of_nat w)) (fun y =>
    f (c + popcount w (Z.of_nat x) - popcount w (Z.of_nat y)))).

Lemma zsum_double n f : zsum (2 * n) f = zsum n (fun i => f (2 * i)%nat + f (2 * i + 1)%nat).
Proof.
  induction n as [|n IH]; [reflexivity|]. replace (2 * S n)%nat with (S (S (2 * n))) by lia.
  cbn [FinSum.zsum]. rewrite IH. replace (2 * n + 1)%nat with (S (2 * n)) by lia. ring.
Qed.

Lemma pow2_nat_S w : Z.to_nat (2 ^ Z.of_nat (S w)) = (2 * Z.to_nat (2 ^ Z.of_nat w))%nat.
Proof.
  rewrite Nat2Z.inj_succ, Z.pow_succ_r by lia. rewrite Z2Nat.inj_mul by (try apply Z.pow_nonneg; lia). reflexivity.
Qed.

Lemma pairs_0 f c : pairs 0 f c = f c.
Proof.
  unfold pairs, popcount. change (Z.to_nat (2 ^ Z.of_nat 0)) with 1%nat. cbn [FinSum.zsum].
  rewrite !Z.add_0_l. f_equal. lia.
Qed.

Lemma pairs_S w f c : pairs (S w) f c = pairs w f (c + 1) + 2 * pairs w f c + pairs w f (c - 1).
Proof.
  unfold pairs. rewrite pow2_nat_S. set (N := Z.to_nat (2 ^ Z.of_nat w)).
  rewrite zsum_double, <- zsum_mul_l, <- !zsum_add. apply zsum_ext. intros x _.
  rewrite !zsum_double, <- zsum_mul_l, <- !zsum_add. apply zsum_ext. intros y _.
  assert (E0 : forall z, Z.of_nat (2 * z) = 2 * Z.of_nat z + 0) by (intros; lia).
  assert (E1 : forall z, Z.of_nat (2 * z + 1) = 2 * Z.of_nat z + 1) by (intros; lia).
  rewrite !E0, !E1, !popcount_S by auto.
  set (a := popcount w (Z.of_nat x)). set (b := popcount w (Z.of_nat y)).
  replace (c + (0 + a) - (0 + b)) with (c + a - b) by lia.
  replace (c + (1 + a) - (1 + b)) with (c + a - b) by lia.
  replace (c + (0 + a) - (1 + b)) with (c - 1 + a - b) by lia.
  replace (c + (1 + a) - (0 + b)) with (c + 1 + a - b) by lia. lia.
Qed.

Lemma pairs_ext w f g c : (forall e, - Z.of_nat w <= e <= Z.of_nat w -> f (c + e) = g (c + e)) -> pairs w f c = pairs w g c.
Proof.
  intros H. unfold pairs. apply zsum_ext. intros x _. apply zsum_ext. intros y _.
  pose proof (popcount_range w (Z.of_nat x)). pose proof (popcount_range w (Z.of_nat y)).
  replace (c + popcount w (Z.of_nat x) - popcount w (Z.of_nat y)) with
    (c + (popcount w (Z.of_nat x) - popcount w (Z.of_nat y))) by lia.
  apply H. lia.
Qed.

Lemma pairs_mul w f q c : pairs w (fun z => q * f z) c = q * pairs w f c.
Proof. unfold pairs. rewrite <- zsum_mul_l. apply zsum_ext. intros. rewrite <- zsum_mul_l. reflexivity. Qed.

Lemma pairs_add a : forall b f c, pairs (a + b) f c = pairs a (pairs b f) c.
Proof.
  induction a as [|a IH]; intros b f c; [rewrite pairs_0; reflexivity|].
  cbn [plus]. rewrite !pairs_S, !IH. reflexivity.
Qed.

Lemma pairs_binom k : forall d c, pairs k (fun z => Z.b2z (z =? d)) c = binom (2 * k) (Z.of_nat k + (d - c)).
Proof.
  induction k as [|k IH]; intros d c.
  - rewrite pairs_0. cbn. destruct (Z.eqb_spec c d); destruct (Z.eqb_spec (d - c) 0); try lia; reflexivity.
  - rewrite pairs_S, !IH. replace (2 * S k)%nat with (S (S (2 * k))) by lia.
    change (binom (S (S (2 * k))) (Z.of_nat (S k) + (d - c))) with
      (binom (2 * k) (Z.of_nat (S k) + (d - c) - 1 - 1) + binom (2 * k) (Z.of_nat (S k) + (d - c) - 1) +
       (binom (2 * k) (Z.of_nat (S k) + (d - c) - 1) + binom (2 * k) (Z.of_nat (S k) + (d - c)))).
    replace (Z.of_nat (S k) + (d - c) - 1 - 1) with (Z.of_nat k + (d - (c + 1))) by lia.
    replace (Z.of_nat (S k) + (d - c) - 1) with (Z.of_nat k + (d - c)) by lia.
    replace (Z.of_nat (S k) + (d - c)) with (Z.of_nat k + (d - (c - 1))) by lia. lia.
Qed.

(** ** The loop *)

(** widths of the draws for k pairs of bits *)
Fixpoint error_widths (fuel : nat) (k : Z) : list Z :=
  match fuel with
  | O => []
  | S f => if k <=? 0 then [] else if 64 <=? k then 64 :: 64 :: error_widths f (k - 64)
           else if 8 <=? k then 8 :: 8 :: error_widths f (k - 8) else [8; 8]
  end.

(** difference of the number of ones among the bits used *)
Fixpoint error_diff (k : Z) (ds : list Z) : Z :=
  match ds with
  | a :: b :: t =>
    let w := if 64 <=? k then 64 else if 8 <=? k then 8 else k in
    popcount (Z.to_nat w) a - popcount (Z.to_nat w) b + error_diff (k - w) t
  | _ => 0
  end.

Lemma ones64 r : 0 <= r < 2 ^ 64 -> count_ones_64 r = popcount 64 r.
Proof. intros H. rewrite count_ones_64_ok by exact H. apply ones_popcount. Qed.
Lemma ones8 r : 0 <= r < 2 ^ 8 -> count_ones_in_byte r = popcount 8 r.
Proof. intros H. rewrite count_ones_in_byte_ok by exact H. apply ones_popcount. Qed.
Lemma ones_mask r k : 0 <= k < 8 -> 0 <= r < 2 ^ 8 ->
  count_ones_in_byte (Z.land r (wrap 8 (2 ^ k - 1))) = popcount (Z.to_nat k) r.
Proof.
  intros Hk Hr. pose proof (pow2_pos k ltac:(lia)). assert (2 ^ k <= 2 ^ 7) by (apply Z.pow_le_mono_r; lia).
  rewrite wrap_small by lia. rewrite land_mask by lia.
  pose proof (Z.mod_pos_bound r (2 ^ k) ltac:(lia)). rewrite ones8 by lia.
  rewrite <- (popcount_mod (Z.to_nat k) 8) by lia. rewrite Z2Nat.id by lia. reflexivity.
Qed.

Lemma wrap_step w c a b : wrap w (wrap w (wrap w c + a) - b) = wrap w (c + a - b).
Proof. rewrite wrap_add_l, wrap_sub_l. reflexivity. Qed.

Definition need (k : Z) : Z := k / 64 + (k mod 64) / 8 + 2.

Lemma need_64 k : 64 <= k -> need k = 1 + need (k - 64).
Proof.
  intros H. unfold need. replace (k - 64) with (k + (-1) * 64) by lia.
  rewrite Z.div_add, Z.mod_add by lia. lia.
Qed.
Lemma need_8 k : 8 <= k < 64 -> need k = 1 + need (k - 8).
Proof.
  intros H. unfold need. rewrite !(Z.div_small _ 64), !(Z.mod_small _ 64) by lia.
  replace (k - 8) with (k + (-1) * 8) by lia. rewrite Z.div_add by lia. lia.
Qed.
Lemma need_small k : 0 < k < 8 -> need k = 2.
Proof. intros H. unfold need. rewrite (Z.mod_small _ 64), !Z.div_small by lia. lia. Qed.
Lemma need_0 : need 0 = 2.
Proof. reflexivity. Qed.
Lemma need_ge k : 0 <= k -> 2 <= need k.
Proof.
  intros H. unfold need. pose proof (Z.div_pos k 64 H ltac:(lia)).
  pose proof (Z.mod_pos_bound k 64 ltac:(lia)). pose proof (Z.div_pos (k mod 64) 8 ltac:(lia) ltac:(lia)). lia.
Qed.

(** any generator *)
Lemma binomial_loop_ok R w : prng_ok R -> forall fuel k c s, 0 <= k -> need k <= Z.of_nat fuel ->
  binomial_loop R w fuel k (wrap w c) s =
  do! ' (ds, s) <- draw R (error_widths fuel k) s; Ok (wrap w (c + error_diff k ds), s).
Proof.
  intros [R8 R64]. induction fuel as [|fuel IH]; intros k c s Hk Hf.
  - pose proof (need_ge k Hk). lia.
  - cbn [binomial_loop error_widths].
    destruct (Z.leb_spec k 0).
    { cbn [draw bind error_diff]. rewrite Z.add_0_r. reflexivity. }
    destruct (Z.leb_spec 64 k).
    { cbn [draw]. change (64 =? 8) with false. cbn iota. pose proof (R64 s) as B1.
      destruct (pr_rand64 R s) as [[a s1]|e|]; cbn [bind]; try reflexivity. pose proof (R64 s1) as B2.
      destruct (pr_rand64 R s1) as [[b s2]|e|]; cbn [bind]; try reflexivity.
      rewrite wrap_step. rewrite IH by (try rewrite need_64 in Hf by assumption; lia).
      destruct (draw R (error_widths fuel (k - 64)) s2) as [[ds s3]|e|]; cbn [bind]; try reflexivity.
      rewrite !ones64 by assumption. cbn [error_diff]. destruct (Z.leb_spec 64 k); [|lia].
      change (Z.to_nat 64) with 64%nat. do 3 f_equal. lia. }
    destruct (Z.leb_spec 8 k).
    { cbn [draw]. change (8 =? 8) with true. cbn iota. pose proof (R8 s) as B1.
      destruct (pr_rand8 R s) as [[a s1]|e|]; cbn [bind]; try reflexivity. pose proof (R8 s1) as B2.
      destruct (pr_rand8 R s1) as [[b s2]|e|]; cbn [bind]; try reflexivity.
      rewrite wrap_step. rewrite IH by (try rewrite need_8 in Hf by lia; lia).
      destruct (draw R (error_widths fuel (k - 8)) s2) as [[ds s3]|e|]; cbn [bind]; try reflexivity.
      rewrite !ones8 by assumption. cbn [error_diff].
      destruct (Z.leb_spec 64 k); [lia|]. destruct (Z.leb_spec 8 k); [|lia].
      change (Z.to_nat 8) with 8%nat. do 3 f_equal. lia. }
    cbn [draw]. change (8 =? 8) with true. cbn iota. pose proof (R8 s) as B1.
    destruct (pr_rand8 R s) as [[a s1]|e|]; cbn [bind]; try reflexivity. pose proof (R8 s1) as B2.
    destruct (pr_rand8 R s1) as [[b s2]|e|]; cbn [bind]; try reflexivity.
    rewrite wrap_step, !ones_mask by (try assumption; lia). cbn [error_diff].
    destruct (Z.leb_spec 64 k); [lia|]. destruct (Z.leb_spec 8 k); [lia|]. do 3 f_equal. lia.
Qed.

(** number of random bits drawn but not used, for k pairs *)
Definition unused (k : Z) : Z := if k mod 8 =? 0 then 0 else 2 * (8 - k mod 8).

Lemma over_two w t F : over (w :: w :: t) F =
  zsum (Z.to_nat (2 ^ w)) (fun x => zsum (Z.to_nat (2 ^ w)) (fun y => over t (fun ds => F (Z.of_nat x :: Z.of_nat y :: ds)))).
Proof. reflexivity. Qed.

Lemma error_widths_ok fuel : forall k, Forall (fun w => w = 8 \/ w = 64) (error_widths fuel k).
Proof.
  induction fuel as [|f IH]; intros k; cbn [error_widths]; [constructor|].
  destruct (k <=? 0); [constructor|]. destruct (64 <=? k).
  - constructor; [right; reflexivity|]. constructor; [right; reflexivity|apply IH].
  - destruct (8 <=? k); (constructor; [left; reflexivity|]; constructor; [left; reflexivity|]); [apply IH|constructor].
Qed.

Lemma widths_nonneg ws : Forall (fun w => w = 8 \/ w = 64) ws -> Forall (fun w => 0 <= w) ws.
Proof. apply Forall_impl. intros w [->| ->]; lia. Qed.

Lemma error_step (f : Z -> Z) w fuel k c : (w = 8 \/ w = 64) -> w <= k ->
  (forall ds, error_diff k ds = match ds with a :: b :: t => popcount (Z.to_nat w) a - popcount (Z.to_nat w) b + error_diff (k - w) t | _ => 0 end) ->
  (forall c, over (error_widths fuel (k - w)) (fun ds => f (c + error_diff (k - w) ds)) = 2 ^ unused (k - w) * pairs (Z.to_nat (k - w)) f c) ->
  unused (k - w) = unused k ->
  over (w :: w :: error_widths fuel (k - w)) (fun ds => f (c + error_diff k ds)) = 2 ^ unused k * pairs (Z.to_nat k) f c.
Proof.
  intros Hw Hk HD IH U. rewrite over_two.
  replace (Z.to_nat k) with (Z.to_nat w + Z.to_nat (k - w))%nat by lia.
  rewrite pairs_add. rewrite <- pairs_mul. unfold pairs at 1. rewrite Z2Nat.id by lia.
  apply zsum_ext. intros x _. apply zsum_ext. intros y _. rewrite <- U, <- IH.
  apply over_ext; [|apply widths_nonneg, error_widths_ok]. intros ds _. rewrite HD. f_equal. lia.
Qed.

Lemma error_sum (f : Z -> Z) : forall fuel k c, 0 <= k -> need k <= Z.of_nat fuel ->
  over (error_widths fuel k) (fun ds => f (c + error_diff k ds)) = 2 ^ unused k * pairs (Z.to_nat k) f c.
Proof.
  induction fuel as [|fuel IH]; intros k c Hk Hf.
  - pose proof (need_ge k Hk). lia.
  - cbn [error_widths].
    assert (U : forall j, unused (k - j * 8) = unused k).
    { intros j. unfold unused. replace (k - j * 8) with (k + (- j) * 8) by lia. rewrite Z.mod_add by lia. reflexivity. }
    destruct (Z.leb_spec k 0).
    { replace k with 0 by lia. cbn [over error_diff]. change (Z.to_nat 0) with 0%nat. rewrite pairs_0.
      change (unused 0) with 0. rewrite Z.add_0_r. lia. }
    destruct (Z.leb_spec 64 k).
    { apply error_step; [lia|lia| | |].
      - intros [|a [|b t]]; try reflexivity. cbn [error_diff]. destruct (Z.leb_spec 64 k); [|lia]. reflexivity.
      - intros c'. apply IH; [lia|]. rewrite need_64 in Hf by assumption. lia.
      - apply (U 8). }
    destruct (Z.leb_spec 8 k).
    { apply error_step; [lia|lia| | |].
      - intros [|a [|b t]]; try reflexivity. cbn [error_diff]. destruct (Z.leb_spec 64 k); [lia|].
        destruct (Z.leb_spec 8 k); [|lia]. reflexivity.
      - intros c'. apply IH; [lia|]. rewrite need_8 in Hf by lia. lia.
      - apply (U 1). }
    rewrite over_two. assert (EU : unused k = (8 - k) + (8 - k)).
    { unfold unused. rewrite Z.mod_small by lia. destruct (Z.eqb_spec k 0); lia. }
    rewrite EU, Z.pow_add_r by lia. unfold pairs.
    set (g := fun a => zsum (Z.to_nat (2 ^ 8)) (fun y => (fun b => f (c + popcount (Z.to_nat k) a - popcount (Z.to_nat k) b)) (Z.of_nat y mod 2 ^ k))).
    rewrite (zsum_ext _ _ (fun x => g (Z.of_nat x mod 2 ^ k))).
    + rewrite (zsum_low 8 k g) by lia. rewrite <- Z.mul_assoc. f_equal. rewrite <- zsum_mul_l.
      rewrite Z2Nat.id by lia. apply zsum_ext. intros x _.
      apply (zsum_low 8 k (fun b => f (c + popcount (Z.to_nat k) (Z.of_nat x) - popcount (Z.to_nat k) b))). lia.
    + intros x _. unfold g. apply zsum_ext. intros y _. cbn [over error_diff].
      destruct (Z.leb_spec 64 k); [lia|]. destruct (Z.leb_spec 8 k); [lia|]. f_equal.
      assert (PM : forall z, popcount (Z.to_nat k) (z mod 2 ^ k) = popcount (Z.to_nat k) z).
      { intros z. rewrite <- (popcount_mod (Z.to_nat k) (Z.to_nat k) z) by lia. rewrite Z2Nat.id by lia. reflexivity. }
      rewrite !PM. lia.
Qed.

Lemma error_diff_range fuel : forall k R (s : pr_st R) ds s', 0 <= k -> need k <= Z.of_nat fuel ->
  draw R (error_widths fuel k) s = Ok (ds, s') -> - k <= error_diff k ds <= k.
Proof.
  assert (P : forall w z, 0 <= w -> 0 <= popcount (Z.to_nat w) z <= w).
  { intros w z Hw. pose proof (popcount_range (Z.to_nat w) z). lia. }
  intros k R s ds s' Hk Hf E. apply draw_length in E. clear s s' R. revert k ds Hk Hf E.
  induction fuel as [|fuel IH]; intros k ds Hk Hf E.
  - pose proof (need_ge k Hk). lia.
  - cbn [error_widths] in E.
    destruct (Z.leb_spec k 0). { destruct ds; [cbn; lia|discriminate]. }
    destruct (Z.leb_spec 64 k).
    { destruct ds as [|a [|b t]]; [discriminate|discriminate|]. cbn [length error_diff] in *.
      destruct (Z.leb_spec 64 k); [|lia]. rewrite need_64 in Hf by assumption.
      specialize (IH (k - 64) t ltac:(lia) ltac:(lia) ltac:(congruence)).
      pose proof (P 64 a ltac:(lia)). pose proof (P 64 b ltac:(lia)). lia. }
    destruct (Z.leb_spec 8 k).
    { destruct ds as [|a [|b t]]; [discriminate|discriminate|]. cbn [length error_diff] in *.
      destruct (Z.leb_spec 64 k); [lia|]. destruct (Z.leb_spec 8 k); [|lia]. rewrite need_8 in Hf by lia.
      specialize (IH (k - 8) t ltac:(lia) ltac:(lia) ltac:(congruence)).
      pose proof (P 8 a ltac:(lia)). pose proof (P 8 b ltac:(lia)). lia. }
    destruct ds as [|a [|b [|]]]; try discriminate. cbn [error_diff].
    destruct (Z.leb_spec 64 k); [lia|]. destruct (Z.leb_spec 8 k); [lia|].
    pose proof (P k a ltac:(lia)). pose proof (P k b ltac:(lia)). lia.
Qed.

Lemma need_max v : 0 <= v <= 256 -> need (2 * v) <= Z.of_nat 24.
Proof.
  intros H. unfold need. pose proof (Z.mod_pos_bound (2 * v) 64 ltac:(lia)).
  assert ((2 * v) / 64 <= 8) by (apply Z.div_le_upper_bound; lia).
  assert ((2 * v) mod 64 / 8 < 8) by (apply Z.div_lt_upper_bound; lia). lia.
Qed.

(** one coefficient *)
Lemma sample_error1_ok R p v s : good p -> prng_ok R -> 0 <= v <= 256 -> 2 * v <= p_m p ->
  (exists ds s', draw R (error_widths 24 (2 * v)) s = Ok (ds, s') /\ exists x,
     sample_error1 R p v s = Ok (x, s') /\ crep p x /\ val p x = error_diff (2 * v) ds mod p_m p /\
     - (2 * v) <= error_diff (2 * v) ds <= 2 * v) \/
  (exists c, draw R (error_widths 24 (2 * v)) s = Err c /\ sample_error1 R p v s = Err c) \/
  (draw R (error_widths 24 (2 * v)) s = UB /\ sample_error1 R p v s = UB).
Proof.
  intros G HR Hv Hm. pose proof (need_max v Hv) as N. pose proof (m4 p G) as M4. pose proof (m_gt1 p G) as M1.
  unfold sample_error1.
  pose proof (binomial_loop_ok R (p_k p) HR 24 (2 * v) (p_m p) s ltac:(lia) N) as EB.
  rewrite wrap_small in EB by lia. rewrite EB. clear EB.
  destruct (draw R (error_widths 24 (2 * v)) s) as [[ds s']|c|] eqn:E; cbn [bind].
  - left. exists ds, s'. split; [reflexivity|]. eexists. split; [reflexivity|].
    pose proof (error_diff_range 24 (2 * v) R s ds s' ltac:(lia) N E) as B. set (d := error_diff (2 * v) ds) in *.
    assert (K : 2 ^ 16 <= 2 ^ p_k p) by (apply Z.pow_le_mono_r; [lia|]; destruct (g_k p G) as [->|[->|[->| ->]]]; lia).
    rewrite (wrap_small (p_k p) (p_m p + d)) by lia.
    destruct (Z.leb_spec (p_m p) (p_m p + d)).
    + rewrite wrap_small by lia. split; [apply import_crep; [exact G|lia]|].
      split; [|exact B]. rewrite import_val by (try exact G; lia). f_equal. lia.
    + split; [apply import_crep; [exact G|lia]|]. split; [|exact B]. rewrite import_val by (try exact G; lia).
      rewrite <- (Z.mod_add d 1) by lia. f_equal. lia.
  - right. left. exists c. split; reflexivity.
  - right. right. split; reflexivity.
Qed.
