From Coq Require Import Arith.
From Verif Require Import Base FinSum BitsUtil Montgomery Ntt Poly Prng Sampling SampleSpec ZLemmas
  BitsUtilProofs MontgomeryProofs MontBatchProofs PolySpec Ring.
Local Notation zsum := FinSum.zsum.

(** ** Sums over scripts *)

Lemma over_ext ws : forall F G, (forall ds, Forall2 (fun w d => 0 <= d < 2 ^ w) ws ds -> F ds = G ds) ->
  Forall (fun w => 0 <= w) ws -> over ws F = over ws G.
Proof.
  induction ws as [|w t IH]; intros F G H Hw; cbn [over]; [apply H; constructor|].
  inversion Hw as [|? ? W1 W2]; subst. apply zsum_ext. intros i Hi. apply IH; [|exact W2].
  intros ds Hds. apply H. constructor; [|exact Hds]. pose proof (pow2_pos w W1). lia.
Qed.

Lemma zsum_mod_block a b g : (0 < b)%nat -> zsum (a * b) (fun i => g (i mod b)%nat) = Z.of_nat a * zsum b g.
Proof.
  intros Hb. induction a as [|a IH]; [reflexivity|].
  replace (S a * b)%nat with (a * b + b)%nat by lia. rewrite zsum_split, IH.
  rewrite (zsum_ext b (fun i => g ((a * b + i) mod b)%nat) g).
  - lia.
  - intros i Hi. f_equal. rewrite Nat.add_comm, Nat.mod_add by lia. apply Nat.mod_small. exact Hi.
Qed.

(** Sum over w-bit values of a function of their low b bits. *)
Lemma zsum_low w b (g : Z -> Z) : 0 <= b <= w ->
  zsum (Z.to_nat (2 ^ w)) (fun d => g (Z.of_nat d mod 2 ^ b)) =
  2 ^ (w - b) * zsum (Z.to_nat (2 ^ b)) (fun d => g (Z.of_nat d)).
Proof.
  intros H. pose proof (pow2_pos b ltac:(lia)). pose proof (pow2_pos (w - b) ltac:(lia)).
  replace (Z.to_nat (2 ^ w)) with (Z.to_nat (2 ^ (w - b)) * Z.to_nat (2 ^ b))%nat.
  2:{ rewrite <- Z2Nat.inj_mul by lia. rewrite <- Z.pow_add_r by lia. f_equal. f_equal. lia. }
  rewrite (zsum_ext _ _ (fun d => (fun i => g (Z.of_nat i)) (d mod Z.to_nat (2 ^ b))%nat)).
  2:{ intros i Hi. cbv beta. rewrite Nat2Z.inj_mod, Z2Nat.id by lia. reflexivity. }
  rewrite (zsum_mod_block _ _ (fun i => g (Z.of_nat i))) by lia. rewrite Z2Nat.id by lia. reflexivity.
Qed.

Lemma zsum_indicator n v : 0 <= v < Z.of_nat n -> zsum n (fun d => Z.b2z (Z.of_nat d =? v)) = 1.
Proof.
  intros H. rewrite (zsum_single n (Z.to_nat v)); [|lia|].
  2:{ intros i Hi N. destruct (Z.eqb_spec (Z.of_nat i) v); [lia|reflexivity]. }
  destruct (Z.eqb_spec (Z.of_nat (Z.to_nat v)) v); [reflexivity|lia].
Qed.

(** ** ImportRandom *)

Definition attempt_widths (logm : Z) : list Z :=
  if logm <=? 8 then [8] else if logm <=? 64 then [64] else if logm <=? 72 then [64; 8] else [64; 64].

(** the integer assembled from the draws of one attempt: the needed low bits of
    each, most significant first *)
Definition attempt_value (logm : Z) (ds : list Z) : Z :=
  match ds with
  | [d] => d mod 2 ^ logm
  | [d; e] => (d mod 2 ^ 64) * 2 ^ (logm - 64) + e mod 2 ^ (logm - 64)
  | _ => 0
  end.

Lemma attempt_range logm ds : 0 < logm <= 126 -> length ds = length (attempt_widths logm) ->
  0 <= attempt_value logm ds < 2 ^ logm.
Proof.
  intros H HL. unfold attempt_widths in HL. unfold attempt_value.
  destruct (Z.leb_spec logm 8); [|destruct (Z.leb_spec logm 64); [|destruct (Z.leb_spec logm 72)]];
    (destruct ds as [|d [|e [|]]]; cbn in HL; try lia).
  1,2: apply Z.mod_pos_bound, pow2_pos; lia.
  all: pose proof (pow2_pos (logm - 64) ltac:(lia)); pose proof (Z.mod_pos_bound d (2 ^ 64) ltac:(lia));
    pose proof (Z.mod_pos_bound e (2 ^ (logm - 64)) ltac:(lia));
    replace (2 ^ logm) with (2 ^ 64 * 2 ^ (logm - 64)) by (rewrite <- Z.pow_add_r by lia; f_equal; lia); nia.
Qed.

Lemma land_mask x b : 0 <= b -> Z.land x (2 ^ b - 1) = x mod 2 ^ b.
Proof. intros H. rewrite <- Z.land_ones by exact H. rewrite Z.ones_equiv. f_equal. Qed.

Lemma mod_wrap k b x : 0 <= b <= k -> wrap k x mod 2 ^ b = x mod 2 ^ b.
Proof. intros H. apply (wrap_wrap_le b k x H). Qed.

Lemma log_range p : good p -> 0 < p_logm p /\ p_logm p <= p_k p - 2 /\ word_size (p_k p).
Proof. intros G. pose proof (logm_bounds p G) as [H _]. split; [lia|]. split; [lia|]. apply (g_k p G). Qed.

(** one attempt = the draws, then their value *)
Fixpoint draw (R : prng) (ws : list Z) (s : pr_st R) : result (list Z * pr_st R) :=
  match ws with
  | [] => Ok ([], s)
  | w :: t => do! ' (x, s) <- (if w =? 8 then pr_rand8 R s else pr_rand64 R s);
              do! ' (ds, s) <- draw R t s; Ok (x :: ds, s)
  end.

Lemma gen_loop_spec R k f logm s : word_size k -> 0 < logm <= k - 2 ->
  gen_loop R k (S (S (S f))) logm 0 s =
  do! ' (ds, s) <- draw R (attempt_widths logm) s; Ok (attempt_value logm ds, s).
Proof.
  intros Hk Hl. unfold attempt_widths.
  assert (K : 16 <= k <= 128) by (destruct Hk as [->|[->|[->| ->]]]; lia).
  remember (S (S f)) as f15 eqn:Ef. cbn [gen_loop].
  assert (PW : forall b, 0 <= b <= logm -> 0 < 2 ^ b < 2 ^ k).
  { intros b Hb. split; [apply pow2_pos; lia|apply Z.pow_lt_mono_r; lia]. }
  destruct (Z.leb_spec logm 0); [lia|].
  destruct (Z.leb_spec logm 8).
  - cbn [draw]. change (8 =? 8) with true. cbn iota.
    destruct (pr_rand8 R s) as [[r s1]|c|]; cbn [bind]; try reflexivity.
    rewrite (wrap_small k (2 ^ logm)) by (specialize (PW logm); lia). rewrite land_mask by lia.
    rewrite Z.mul_0_l, wrap_small with (x := 0) by (specialize (PW 0); lia). rewrite Z.add_0_l.
    rewrite mod_wrap by lia. cbn [attempt_value]. f_equal. f_equal. apply wrap_small.
    pose proof (Z.mod_pos_bound r (2 ^ logm)). specialize (PW logm). lia.
  - assert (STEP : forall b r, 0 < b <= logm -> wrap k (wrap k (0 * 2 ^ b) + Z.land (wrap k r) (wrap k (wrap k (2 ^ b) - 1))) = r mod 2 ^ b).
    { intros b r Hb. pose proof (PW b ltac:(lia)) as P.
      rewrite (wrap_small k (2 ^ b)) by lia. rewrite (wrap_small k (2 ^ b - 1)) by lia.
      rewrite land_mask by lia. rewrite Z.mul_0_l, (wrap_small k 0) by lia. rewrite Z.add_0_l.
      rewrite mod_wrap by lia. apply wrap_small. pose proof (Z.mod_pos_bound r (2 ^ b)). lia. }
    destruct (Z.leb_spec logm 64).
    + assert (B : Z.min logm (Z.min k 64) = logm) by (destruct Hk as [->|[->|[->| ->]]]; lia).
      rewrite B. cbn [draw]. change (64 =? 8) with false. cbn iota.
      destruct (pr_rand64 R s) as [[r s1]|c|]; cbn [bind]; try reflexivity.
      rewrite STEP by lia. rewrite Z.sub_diag. rewrite Ef. cbn [gen_loop attempt_value]. reflexivity.
    + assert (k = 128) as EK by (destruct Hk as [->|[->|[->| ->]]]; lia).
      assert (B : Z.min logm (Z.min k 64) = 64) by lia. rewrite B.
      assert (D1 : forall ws, draw R (64 :: ws) s =
        do! ' (x, s) <- pr_rand64 R s; do! ' (ds, s) <- draw R ws s; Ok (x :: ds, s)) by reflexivity.
      assert (exists b, b = logm - 64 /\ 0 < b <= 62) as (b & Eb & Hb) by (exists (logm - 64); lia).
      assert (STEP2 : forall r d, 0 <= d < 2 ^ 64 ->
        wrap k (wrap k (d * 2 ^ b) + r mod 2 ^ b) = d * 2 ^ b + r mod 2 ^ b).
      { intros r d Hd. pose proof (pow2_pos b ltac:(lia)). pose proof (Z.mod_pos_bound r (2 ^ b) ltac:(lia)).
        assert (2 ^ logm = 2 ^ 64 * 2 ^ b) by (rewrite <- Z.pow_add_r by lia; f_equal; lia).
        specialize (PW logm ltac:(lia)). rewrite (wrap_small k (d * 2 ^ b)) by nia. apply wrap_small. nia. }
      destruct (Z.leb_spec logm 72) as [H72|H72]; rewrite D1;
        (destruct (pr_rand64 R s) as [[r s1]|c|]; cbn [bind]; try reflexivity);
        rewrite STEP by lia; rewrite Ef; remember (S f) as f14 eqn:Ef'; cbn [gen_loop];
        (destruct (Z.leb_spec (logm - 64) 0); [lia|]); destruct (Z.leb_spec (logm - 64) 8); try lia.
      * cbn [draw]. change (8 =? 8) with true. cbn iota.
        destruct (pr_rand8 R s1) as [[r' s2]|c|]; cbn [bind]; try reflexivity.
        rewrite <- !Eb. rewrite (wrap_small k (2 ^ b)) by (specialize (PW b); lia). rewrite land_mask by lia.
        rewrite mod_wrap by lia. cbn [attempt_value]. rewrite STEP2 by (apply Z.mod_pos_bound; lia).
        rewrite <- Eb. reflexivity.
      * cbn [draw]. change (64 =? 8) with false. cbn iota.
        destruct (pr_rand64 R s1) as [[r' s2]|c|]; cbn [bind]; try reflexivity.
        assert (B2 : Z.min (logm - 64) (Z.min k 64) = b) by lia. rewrite B2. rewrite <- !Eb.
        pose proof (PW b ltac:(lia)).
        rewrite (wrap_small k (2 ^ b)) by lia. rewrite (wrap_small k (2 ^ b - 1)) by lia. rewrite land_mask by lia.
        rewrite mod_wrap by lia. rewrite STEP2 by (apply Z.mod_pos_bound; lia).
        rewrite Z.sub_diag. rewrite Ef'. cbn [gen_loop attempt_value]. rewrite <- Eb. reflexivity.
Qed.

Lemma gen_spec R k logm s : word_size k -> 0 < logm <= k - 2 ->
  generate_random_int R k logm s =
  do! ' (ds, s) <- draw R (attempt_widths logm) s; Ok (attempt_value logm ds, s).
Proof. exact (gen_loop_spec R k 13 logm s). Qed.

Lemma draw_draws R ws : Forall (fun w => w = 8 \/ w = 64) ws -> forall s ds s',
  draw R ws s = Ok (ds, s') <-> draws R ws s ds s'.
Proof.
  induction 1 as [|w t Hw Ht IH]; intros s ds s'.
  - cbn. split; [intros [= <- <-]; constructor|inversion 1; reflexivity].
  - cbn [draw]. split.
    + destruct Hw as [->| ->]; [change (8 =? 8) with true|change (64 =? 8) with false]; cbn iota.
      * destruct (pr_rand8 R s) as [[x s1]|c|] eqn:E; cbn [bind]; try discriminate.
        destruct (draw R t s1) as [[ds' s2]|c|] eqn:E2; cbn [bind]; try discriminate. intros [= <- <-].
        econstructor; [exact E|]. apply IH. exact E2.
      * destruct (pr_rand64 R s) as [[x s1]|c|] eqn:E; cbn [bind]; try discriminate.
        destruct (draw R t s1) as [[ds' s2]|c|] eqn:E2; cbn [bind]; try discriminate. intros [= <- <-].
        econstructor; [exact E|]. apply IH. exact E2.
    + inversion 1; subst; [change (8 =? 8) with true|change (64 =? 8) with false]; cbn iota;
      match goal with E : _ = Ok (?x, ?s1) |- _ => rewrite E end; cbn [bind];
      match goal with D : draws _ _ _ _ _ |- _ => apply IH in D; try rewrite D end; reflexivity.
Qed.

Lemma draw_length R ws : forall s ds s', draw R ws s = Ok (ds, s') -> length ds = length ws.
Proof.
  induction ws as [|w t IH]; intros s ds s'; cbn [draw]; [intros [= <- <-]; reflexivity|].
  destruct (if w =? 8 then pr_rand8 R s else pr_rand64 R s) as [[x s1]|c|]; cbn [bind]; try discriminate.
  destruct (draw R t s1) as [[ds' s2]|c|] eqn:E2; cbn [bind]; try discriminate. intros [= <- <-].
  cbn [length]. f_equal. eapply IH; eauto.
Qed.

Lemma attempt_widths_ok logm : Forall (fun w => w = 8 \/ w = 64) (attempt_widths logm).
Proof.
  unfold attempt_widths. destruct (logm <=? 8); [|destruct (logm <=? 64); [|destruct (logm <=? 72)]];
    repeat (apply Forall_cons; [auto|]); apply Forall_nil.
Qed.

Lemma draw_scripted ws : Forall (fun w => w = 8 \/ w = 64) ws -> forall ds,
  Forall2 (fun w d => 0 <= d < 2 ^ w) ws ds -> forall rest, draw scripted ws (ds ++ rest) = Ok (ds, rest).
Proof.
  induction 1 as [|w t Hw Ht IH]; intros ds Hd rest; inversion Hd as [|? d ? ds' Hdw Hd']; subst; [reflexivity|].
  cbn [draw app]. assert (E : (0 <=? d) && (d <? 2 ^ w) = true).
  { apply andb_true_iff. split; [apply Z.leb_le|apply Z.ltb_lt]; lia. }
  destruct Hw as [->| ->]; [change (8 =? 8) with true|change (64 =? 8) with false]; cbn iota;
    cbn [scripted pr_rand8 pr_rand64]; rewrite E; cbn [bind]; rewrite IH by assumption; reflexivity.
Qed.

Lemma attempt_total logm : 0 < logm <= 126 -> logm <= total (attempt_widths logm).
Proof.
  intros H. unfold attempt_widths. destruct (Z.leb_spec logm 8); [|destruct (Z.leb_spec logm 64); [|destruct (Z.leb_spec logm 72)]]; cbn; lia.
Qed.

(** the counting statement about one attempt *)
Lemma attempt_uniform logm v : 0 < logm <= 126 -> 0 <= v < 2 ^ logm ->
  over (attempt_widths logm) (fun ds => Z.b2z (attempt_value logm ds =? v)) =
  2 ^ (total (attempt_widths logm) - logm).
Proof.
  intros H Hv. unfold attempt_widths.
  assert (ONE : forall w, logm <= w -> over [w] (fun ds => Z.b2z (attempt_value logm ds =? v)) = 2 ^ (total [w] - logm)).
  { intros w Hw. cbn [over attempt_value].
    rewrite (zsum_low w logm (fun x => Z.b2z (x =? v))) by lia.
    rewrite zsum_indicator by (pose proof (pow2_pos logm); lia). cbn [total fold_right]. rewrite Z.mul_1_r. f_equal. lia. }
  assert (TWO : forall w, 64 < logm -> logm - 64 <= w -> over [64; w] (fun ds => Z.b2z (attempt_value logm ds =? v)) = 2 ^ (total [64; w] - logm)).
  { intros w Hl Hw. set (b := logm - 64) in *. cbn [over attempt_value]. fold b.
    assert (E2 : 2 ^ logm = 2 ^ 64 * 2 ^ b) by (rewrite <- Z.pow_add_r by lia; f_equal; lia).
    pose proof (pow2_pos b ltac:(lia)) as Pb.
    pose proof (Z.div_mod v (2 ^ b) ltac:(lia)) as DV. pose proof (Z.mod_pos_bound v (2 ^ b) Pb) as MV.
    assert (QV : 0 <= v / 2 ^ b < 2 ^ 64).
    { split; [apply Z.div_pos; lia|apply Z.div_lt_upper_bound; [lia|]]. lia. }
    rewrite (zsum_ext _ _ (fun d => Z.b2z (Z.of_nat d =? v / 2 ^ b) * 2 ^ (w - b))).
    - rewrite zsum_mul_r, zsum_indicator by lia. cbn [total fold_right]. rewrite Z.mul_1_l. f_equal. lia.
    - intros d Hd. assert (Hd' : 0 <= Z.of_nat d < 2 ^ 64) by lia. rewrite (Z.mod_small (Z.of_nat d)) by exact Hd'.
      rewrite (zsum_low w b (fun e => Z.b2z (Z.of_nat d * 2 ^ b + e =? v))) by lia.
      destruct (Z.eqb_spec (Z.of_nat d) (v / 2 ^ b)) as [E|N].
      + rewrite (zsum_ext _ _ (fun e => Z.b2z (Z.of_nat e =? v mod 2 ^ b))).
        * rewrite zsum_indicator by lia. cbn [Z.b2z]. lia.
        * intros e He. f_equal. apply Bool.eq_iff_eq_true. rewrite !Z.eqb_eq. nia.
      + rewrite (zsum_ext _ _ (fun _ => 0)).
        * rewrite zsum_zero. cbn [Z.b2z]. lia.
        * intros e He. destruct (Z.eqb_spec (Z.of_nat d * 2 ^ b + Z.of_nat e) v) as [E|E]; [|reflexivity].
          exfalso. apply N. subst v. rewrite Z.add_comm, Z.div_add by lia. rewrite Z.div_small by lia. lia. }
  destruct (Z.leb_spec logm 8); [apply ONE; lia|].
  destruct (Z.leb_spec logm 64); [apply ONE; lia|].
  destruct (Z.leb_spec logm 72); apply TWO; lia.
Qed.
