(** Proofs for C83. *)
From Coq Require Import Reals Lra Lia QArith.
From Verif Require Import Base FinSum PolySpec NegRing SymSpec Montgomery MontBatch Spec Prng Sampling SampleSpec RnsPoly RnsSpec RnsCtx RnsCtxSpec RnsCt RnsCtSpec
  RnsEncode RnsEncodeSpec RnsKey RnsKeySpec RnsGadget RnsGadgetSpec RnsSwitchSpec RnsPub RnsPubSpec RnsBfv RnsBfvSpec FieldSpec RnsCircuitSpec ErrorEst RnsErrorEst RnsErrorSpec.
Local Open Scope Z_scope.
Local Notation zsum := FinSum.zsum.

(** ** The reports, without the ciphertexts *)

Section Rep.
Variables (n : nat) (t v : Z) (c : rctx) (keys : nat -> rskey) (e : rns_err).

Definition switch_report (g : rgadget) (num : Z) : R :=
  match rg_log_base g with
  | Ok lb => (8 / sqrt 3 * re_t e * IZR (Z.of_nat (rg_dimension g)) * re_sigma e * INR n * IZR (2 ^ lb) * IZR num)%R
  | _ => 0%R
  end.

Fixpoint report (a : rcirc) : R :=
  match a with
  | REnc _ _ _ _ _ => re_secretkey e
  | RPub _ _ _ _ _ _ => re_publickey e
  | RNeg a | RSend a | RAddPlain a _ | RSubPlain a _ | RReduce a => report a
  | RAdd a b | RSub a b => (report a + report b)%R
  | RAbsorb a _ | RAbsorbScaled a _ => (report a * re_plaintext e)%R
  | RScale a x => rns_scale_error (report a) x
  | RFused a b _ => (report a + report b * re_plaintext e)%R
  | RMul a b => (report a * report b)%R
  | RRelin a rr _ _ _ => (report a + switch_report (rr_g rr) (Z.of_nat (rwidth a) - 2))%R
  | RSubst a _ _ gk _ _ _ => (report a + switch_report (gk_g gk) 1)%R
  end.
End Rep.

(** ** Arithmetic *)

Lemma grow m h x y : (0 < m)%nat -> 1 <= h -> h <= x -> 1 <= y -> h <= Z.of_nat m * (x * y).
Proof. intros. assert (h <= x * y) by nia. nia. Qed.

Section Arith.
Local Open Scope R_scope.
Lemma sqrt3_facts : 0 < sqrt 3 /\ sqrt 3 * sqrt 3 = 3 /\ 1 <= sqrt 3.
Proof.
  assert (S : sqrt 3 * sqrt 3 = 3) by (apply sqrt_sqrt; lra). assert (P : 0 < sqrt 3) by (apply sqrt_lt_R0; lra).
  split; [exact P|]. split; [exact S|]. nra.
Qed.

Lemma sqrt_v_facts v : (1 <= v <= 9)%Z -> 1 <= sqrt (IZR v) <= 3 /\ sqrt (IZR v) * sqrt (IZR v) = IZR v.
Proof.
  intros H. assert (H1 : 1 <= IZR v) by (apply IZR_le; lia). assert (H2 : IZR v <= 9) by (apply IZR_le; lia).
  assert (S : sqrt (IZR v) * sqrt (IZR v) = IZR v) by (apply sqrt_sqrt; lra). pose proof (sqrt_pos (IZR v)) as P.
  split; [|exact S]. split; nra.
Qed.

Lemma sqrt_n_facts n : (0 < n)%nat -> 1 <= sqrt (INR n) /\ sqrt (INR n) * sqrt (INR n) = INR n /\ 1 <= INR n.
Proof.
  intros H. assert (H1 : 1 <= INR n) by (apply (le_INR 1); lia).
  assert (S : sqrt (INR n) * sqrt (INR n) = INR n) by (apply sqrt_sqrt; lra). pose proof (sqrt_pos (INR n)) as P.
  split; [nra|]. split; [exact S|exact H1].
Qed.

Lemma half_le t : (0 <= t)%Z -> IZR (t / 2) <= IZR t / 2.
Proof.
  intros H. assert (X : (2 * (t / 2) <= t)%Z) by (apply Z.mul_div_le; lia). apply IZR_le in X. rewrite mult_IZR in X. lra.
Qed.
End Arith.

Section Estimate.
Variables (k : Z) (L : nat) (t v : Z) (c : rctx) (sk : nat -> Z) (keys : nat -> rskey) (e : rns_err).
Local Notation n := (2 ^ L)%nat.
Hypothesis Ht : 2 <= t.
Hypothesis Hv : 1 <= v <= 9.
Hypothesis Htt : (IZR t <= re_t e)%R.
Hypothesis Es : re_sigma e = sqrt (IZR v).
Hypothesis Ed : re_dim e = Z.of_nat n.

Lemma n_pos : (0 < n)%nat.
Proof. pose proof (Nat.pow_nonzero 2 L ltac:(lia)). lia. Qed.

Lemma key_bound_ge len : (2 <= len)%nat -> 3 <= key_bound n (2 * v) len.
Proof.
  intros H. unfold key_bound. pose proof n_pos as N.
  destruct len as [|[|len]]; [lia|lia|]. clear H.
  enough (X : forall m, 3 <= zsum (S (S m)) (fun e0 => (Z.of_nat n * (2 * v)) ^ Z.of_nat e0)) by apply X.
  induction m as [|m IH].
  - cbn [FinSum.zsum]. change (Z.of_nat 0) with 0. change (Z.of_nat 1) with 1. rewrite Z.pow_0_r, Z.pow_1_r. nia.
  - change (zsum (S (S (S m))) (fun e0 => (Z.of_nat n * (2 * v)) ^ Z.of_nat e0)) with
      (zsum (S (S m)) (fun e0 => (Z.of_nat n * (2 * v)) ^ Z.of_nat e0) + (Z.of_nat n * (2 * v)) ^ Z.of_nat (S (S m))).
    assert (0 <= (Z.of_nat n * (2 * v)) ^ Z.of_nat (S (S m))) by (apply Z.pow_nonneg; nia). lia.
Qed.

Lemma switch_le g (ws : list Z) (num B be : Z) sl N rp : rg_dimension g = length ws -> 0 <= B -> 0 <= be -> 0 <= num -> usual_gadget v g B be ->
  (0 <= sl)%R -> (0 <= IZR N)%R -> (sl * IZR N <= rp)%R ->
  (Rmin sl (4 / (sqrt 3 * sqrt (IZR v))) * IZR (N + t * (num * switch_bound n (length ws) B be)) <= rp + switch_report n e g num)%R.
Proof.
  intros Hg HB Hbe Hnum (Hbe2 & lb & El & Hlb & HB2) Hs HN H. unfold switch_report. rewrite El, Hg, Es. unfold switch_bound.
  rewrite plus_IZR, !mult_IZR, <- !INR_IZR_INZ. rewrite Rmult_plus_distr_l.
  assert (V := sqrt_v_facts v Hv). assert (S3 := sqrt3_facts). destruct V as [V1 V2]. destruct S3 as (P3 & S3 & _).
  set (a := sqrt (IZR v)) in *. set (d := sqrt 3) in *.
  assert (M1 : (Rmin sl (4 / (d * a)) <= sl)%R) by apply Rmin_l. assert (M2 : (Rmin sl (4 / (d * a)) <= 4 / (d * a))%R) by apply Rmin_r.
  assert (PA : (0 < 4 / (d * a))%R) by (apply Rdiv_lt_0_compat; nra).
  assert (M0 : (0 <= Rmin sl (4 / (d * a)))%R) by (apply Rmin_glb; lra).
  apply Rplus_le_compat.
  - eapply Rle_trans; [|exact H]. apply Rmult_le_compat_r; [exact HN|exact M1].
  - set (m := Rmin _ _) in *. pose proof (pos_INR (length ws)) as D0. pose proof (pos_INR n) as N0. apply IZR_le in Hnum, HB, Hbe, HB2. apply IZR_le in Hbe2. rewrite mult_IZR in Hbe2.
    assert (T0 : (0 <= IZR t)%R) by (apply IZR_le; lia).
    apply Rle_trans with (4 / (d * a) * (re_t e * (IZR num * (INR (length ws) * (INR n * (IZR (2 ^ lb) * (2 * IZR v)))))))%R.
    + apply Rmult_le_compat; [exact M0| |exact M2|].
      * repeat apply Rmult_le_pos; assumption.
      * apply Rmult_le_compat; [exact T0| |exact Htt|]; [repeat apply Rmult_le_pos; assumption|].
        apply Rmult_le_compat_l; [exact Hnum|]. apply Rmult_le_compat_l; [exact D0|]. apply Rmult_le_compat_l; [exact N0|].
        apply Rmult_le_compat; assumption.
    + apply Req_le. rewrite <- V2. field. split; lra.
Qed.

Definition good (a : rcirc) : Prop :=
  (slack n v a * IZR (bgv_noise n t c keys (2 * v) a) <= report n e a)%R /\ t / 2 <= bgv_noise n t c keys (2 * v) a /\ (0 <= slack n v a)%R /\ (2 <= rwidth a)%nat.

Lemma half_t : 1 <= t / 2.
Proof. apply Z.div_le_lower_bound; lia. Qed.

Theorem estimate a : rwf k L t c sk t a -> usual n t v c keys a -> good a.
Proof.
  pose proof n_pos as Np. destruct (sqrt_n_facts n Np) as (N1 & N2 & N3). destruct (sqrt_v_facts v Hv) as [V1 V2]. destruct sqrt3_facts as (P3 & S3 & T3).
  pose proof half_t as H2. pose proof (half_le t ltac:(lia)) as HL2. assert (T0 : (2 <= IZR t)%R) by (apply IZR_le; lia).
  assert (H2R : (1 <= IZR (t / 2))%R) by (apply IZR_le; exact H2).
  assert (DI : IZR (re_dim e) = INR n) by (rewrite Ed, <- INR_IZR_INZ; reflexivity).
  assert (BP : re_plaintext e = (re_t e * (sqrt 3 * sqrt (INR n)))%R).
  { unfold re_plaintext. rewrite DI, sqrt_mult by (lra || apply pos_INR). reflexivity. }
  assert (PF : (0 < 2 * sqrt 3 / sqrt (INR n))%R) by (apply Rdiv_lt_0_compat; lra).
  assert (AB : forall sl N rp, (0 <= sl)%R -> (0 <= IZR N)%R -> (sl * IZR N <= rp)%R ->
     (sl * (2 * sqrt 3 / sqrt (INR n)) * IZR (Z.of_nat n * (N * (t / 2))) <= rp * re_plaintext e)%R).
  { intros sl N rp Hs HN H. rewrite BP, !mult_IZR, <- INR_IZR_INZ. 
    replace (sl * (2 * sqrt 3 / sqrt (INR n)) * (INR n * (IZR N * IZR (t / 2))))%R with
      (sl * IZR N * (2 * IZR (t / 2) * (sqrt 3 * sqrt (INR n))))%R by (rewrite <- N2 at 3; field; lra).
    assert (X0 : (0 <= sl * IZR N)%R) by (apply Rmult_le_pos; assumption). assert (X1 : (0 <= sqrt 3 * sqrt (INR n))%R) by (apply Rmult_le_pos; lra).
    apply Rmult_le_compat; [exact X0| |exact H|].
    - apply Rmult_le_pos; [lra|exact X1].
    - apply Rmult_le_compat_r; [exact X1|]. lra. }
  assert (NP : forall a, t / 2 <= bgv_noise n t c keys (2 * v) a -> (0 <= IZR (bgv_noise n t c keys (2 * v) a))%R) by (intros a0 H; apply IZR_le; lia).
  unfold good.
  induction a as [l R fuel msgs s|l R pk be msgs s|a IHa|a IHa b IHb|a IHa b IHb|a IHa msgs|a IHa msgs|a IHa msgs|a IHa msgs|a IHa x0|a IHa b IHb msgs|a IHa b IHb
    |a IHa rr be B ws|a IHa swap r gk be B ws|a IHa|a IHa]; cbn [rwf usual slack report bgv_noise rwidth]; intros W U.
  - rewrite U. unfold re_secretkey. rewrite DI, Es. split; [|split; [nia|split; [lra|lia]]].
    rewrite plus_IZR, !mult_IZR. set (a := sqrt (IZR v)) in *. set (d := sqrt 3) in *. set (s0 := sqrt (INR n)) in *.
    assert (X : (IZR (t / 2) + IZR t * (2 * IZR v) <= re_t e * (d + 6 * a))%R).
    { assert (Y : (1 / 2 + 2 * IZR v <= d + 6 * a)%R) by (rewrite <- V2; nra).
      apply Rle_trans with (IZR t * (d + 6 * a))%R; [|apply Rmult_le_compat_r; [lra|exact Htt]].
      apply Rle_trans with (IZR t * (1 / 2 + 2 * IZR v))%R; [lra|apply Rmult_le_compat_l; [lra|exact Y]]. }
    replace (re_t e * s0 * (d + 6 * a))%R with (s0 * (re_t e * (d + 6 * a)))%R by ring. apply Rmult_le_compat_l; [lra|exact X].
  - destruct U as [Uv Ub]. destruct W as (_ & _ & _ & _ & Hbe & _). unfold pub_bound. rewrite Uv. unfold re_publickey. rewrite DI, Es. split; [|split; [|split; [lra|lia]]].
    2:{ assert (0 <= t * (Z.of_nat n * (be * (2 * v)) + 2 * v + Z.of_nat n * (2 * v * (2 * v)))) by (apply Z.mul_nonneg_nonneg; nia). lia. }
    rewrite Rmult_1_l.
    apply Rle_trans with (IZR (t / 2) + IZR t * (INR n * (8 * (IZR v * IZR v)) + 2 * IZR v))%R.
    + rewrite plus_IZR. apply Rplus_le_compat_l. rewrite mult_IZR. apply Rmult_le_compat_l; [lra|]. rewrite !plus_IZR, !mult_IZR, <- INR_IZR_INZ.
      apply IZR_le in Ub. rewrite mult_IZR in Ub. assert (V0 : (1 <= IZR v)%R) by (apply IZR_le; lia).
      assert (Y : (INR n * (IZR be * (2 * IZR v)) <= INR n * (2 * IZR v * (2 * IZR v)))%R).
      { apply Rmult_le_compat_l; [lra|]. apply Rmult_le_compat_r; lra. }
      lra.
    + set (a := sqrt (IZR v)) in *. set (d := sqrt 3) in *. set (s0 := sqrt (INR n)) in *. rewrite <- V2.
      assert (X : (1 / 2 + (INR n * (8 * (a * a * (a * a))) + 2 * (a * a)) <= s0 * (6 * a + d) + 72 * INR n * a * a)%R).
      { assert (Y1 : (1 / 2 + 2 * (a * a) <= d + 6 * a)%R) by nra.
        assert (Y2 : (d + 6 * a <= s0 * (6 * a + d))%R) by nra.
        assert (Y3 : (INR n * (8 * (a * a * (a * a))) <= 72 * INR n * a * a)%R).
        { replace (72 * INR n * a * a)%R with (INR n * (8 * (a * a * 9)))%R by ring. apply Rmult_le_compat_l; [lra|]. apply Rmult_le_compat_l; [lra|].
          apply Rmult_le_compat_l; nra. }
        lra. }
      apply Rle_trans with (IZR t * (1 / 2 + (INR n * (8 * (a * a * (a * a))) + 2 * (a * a))))%R; [lra|].
      assert (Y0 : (0 <= INR n * (8 * (a * a * (a * a))))%R) by (apply Rmult_le_pos; [lra|nra]).
      apply Rmult_le_compat; [lra|nra|exact Htt|exact X].
  - apply (IHa W U).
  - destruct W as (Wa & Wb & _ & Ew), U as (Ua & Ub). destruct (IHa Wa Ua) as (A1 & A2 & A3 & A4). destruct (IHb Wb Ub) as (B1 & B2 & B3 & B4).
    split; [|split; [lia|split; [apply Rmin_glb; assumption|exact A4]]]. rewrite plus_IZR, Rmult_plus_distr_l. pose proof (NP _ A2). pose proof (NP _ B2).
    apply Rplus_le_compat; eapply Rle_trans; [|exact A1| |exact B1]; apply Rmult_le_compat_r; auto using Rmin_l, Rmin_r.
  - destruct W as (Wa & Wb & _ & Ew), U as (Ua & Ub). destruct (IHa Wa Ua) as (A1 & A2 & A3 & A4). destruct (IHb Wb Ub) as (B1 & B2 & B3 & B4).
    split; [|split; [lia|split; [apply Rmin_glb; assumption|exact A4]]]. rewrite plus_IZR, Rmult_plus_distr_l. pose proof (NP _ A2). pose proof (NP _ B2).
    apply Rplus_le_compat; eapply Rle_trans; [|exact A1| |exact B1]; apply Rmult_le_compat_r; auto using Rmin_l, Rmin_r.
  - destruct W as (Wa & _). destruct (IHa Wa U) as (A1 & A2 & A3 & A4). split; [|split; [lia|split; [lra|exact A4]]].
    eapply Rle_trans; [|exact A1]. rewrite plus_IZR. apply IZR_le in A2. nra.
  - destruct W as (Wa & _). destruct (IHa Wa U) as (A1 & A2 & A3 & A4). split; [|split; [lia|split; [lra|exact A4]]].
    eapply Rle_trans; [|exact A1]. rewrite plus_IZR. apply IZR_le in A2. nra.
  - destruct W as (Wa & _). destruct (IHa Wa U) as (A1 & A2 & A3 & A4). split; [apply AB; auto|]. split; [|split; [apply Rmult_le_pos; lra|exact A4]]. apply grow; lia.
  - destruct W as (Wa & _). destruct (IHa Wa U) as (A1 & A2 & A3 & A4). split; [apply AB; auto|]. split; [|split; [apply Rmult_le_pos; lra|exact A4]]. apply grow; lia.
  - destruct W as (Wa & _), U as (Ua & Ux). destruct (IHa Wa Ua) as (A1 & A2 & A3 & A4). split; [|split; [nia|split; [lra|exact A4]]].
    unfold rns_scale_error. rewrite mult_IZR. apply IZR_le in Ux.
    replace (slack n v a / 2 * (IZR x0 * IZR (bgv_noise n t c keys (2 * v) a)))%R with (slack n v a * IZR (bgv_noise n t c keys (2 * v) a) * (IZR x0 / 2))%R by field.
    apply Rmult_le_compat_r; [lra|exact A1].
  - destruct W as (Wa & Wb & _ & Ew & _), U as (Ua & Ub). destruct (IHa Wa Ua) as (A1 & A2 & A3 & A4). destruct (IHb Wb Ub) as (B1 & B2 & B3 & B4).
    assert (NB : 0 <= Z.of_nat n * (bgv_noise n t c keys (2 * v) b * (t / 2))) by (pose proof (grow n (t / 2) (bgv_noise n t c keys (2 * v) b) (t / 2) Np H2 B2 H2); lia).
    split; [|split; [lia|split; [apply Rmin_glb; [exact A3|apply Rmult_le_pos; lra]|exact A4]]]. rewrite plus_IZR, Rmult_plus_distr_l. pose proof (NP _ A2). pose proof (NP _ B2).
    apply Rplus_le_compat; [eapply Rle_trans; [|exact A1]; apply Rmult_le_compat_r; auto using Rmin_l|].
    eapply Rle_trans; [|apply AB; [exact B3| |exact B1]; assumption]. apply Rmult_le_compat_r; [apply IZR_le; exact NB|apply Rmin_r].
  - destruct W as (Wa & Wb & _), U as (Ua & Ub). destruct (IHa Wa Ua) as (A1 & A2 & A3 & A4). destruct (IHb Wb Ub) as (B1 & B2 & B3 & B4).
    assert (NB : t / 2 <= Z.of_nat n * (bgv_noise n t c keys (2 * v) a * bgv_noise n t c keys (2 * v) b)) by (apply grow; lia).
    split; [|split; [exact NB|split; [apply Rmult_le_pos; [apply Rmult_le_pos; assumption|left; apply Rinv_0_lt_compat; lra]|lia]]].
    rewrite !mult_IZR, <- INR_IZR_INZ. pose proof (NP _ A2). pose proof (NP _ B2).
    set (x := IZR (bgv_noise n t c keys (2 * v) a)) in *. set (y := IZR (bgv_noise n t c keys (2 * v) b)) in *.
    replace (slack n v a * slack n v b / INR n * (INR n * (x * y)))%R with ((slack n v a * x) * (slack n v b * y))%R by (field; lra).
    apply Rmult_le_compat; try assumption; apply Rmult_le_pos; assumption.
  - destruct W as (Wa & HK & HB & Hbe & W2 & _), U as (Ua & Ug). destruct (IHa Wa Ua) as (A1 & A2 & A3 & A4). destruct HK as (_ & HG & _).
    assert (PB : 0 <= t * (Z.of_nat (rwidth a - 2) * switch_bound n (length ws) B be)).
    { unfold switch_bound. apply Z.mul_nonneg_nonneg; [lia|]. apply Z.mul_nonneg_nonneg; [lia|]. apply Z.mul_nonneg_nonneg; [lia|]. apply Z.mul_nonneg_nonneg; [lia|]. nia. }
    split; [|split; [lia|split; [apply Rmin_glb; [exact A3|left; apply Rdiv_lt_0_compat; nra]|lia]]].
    replace (Z.of_nat (rwidth a) - 2) with (Z.of_nat (rwidth a - 2)) by lia. apply switch_le; auto. 2: lia. exact (proj1 HG).
  - destruct W as (Wa & HK & HB & Hbe & W2 & _), U as (Ua & Ug). destruct (IHa Wa Ua) as (A1 & A2 & A3 & A4). destruct HK as (_ & HG & _).
    assert (PB : 0 <= t * switch_bound n (length ws) B be).
    { unfold switch_bound. apply Z.mul_nonneg_nonneg; [lia|]. apply Z.mul_nonneg_nonneg; [lia|]. apply Z.mul_nonneg_nonneg; [lia|]. nia. }
    split; [|split; [lia|split; [apply Rmin_glb; [exact A3|left; apply Rdiv_lt_0_compat; nra]|lia]]].
    replace (t * switch_bound n (length ws) B be) with (t * (1 * switch_bound n (length ws) B be)) by ring. apply switch_le; auto. 2: lia. exact (proj1 HG).
  - destruct W as (Wa & _), U as (Ua & Uq & Uk). destruct (IHa Wa Ua) as (A1 & A2 & A3 & A4). pose proof (key_bound_ge _ A4) as K3.
    set (q := nth (rlevel a) (moduli (rc_qs c)) 0) in *. set (N := bgv_noise n t c keys (2 * v) a) in *. set (K := key_bound n (2 * v) (rwidth a)) in *.
    assert (Q : 0 <= q mod t < t) by (apply Z.mod_pos_bound; lia).
    assert (Lo : t / 2 <= (2 * (q mod t) * N + t * (q - 1) * K) / (2 * q)).
    { apply Z.div_le_lower_bound; [lia|]. assert (0 <= 2 * (q mod t) * N) by nia. pose proof (Z.mul_div_le t 2 ltac:(lia)).
      assert (t * (q - 1) * 3 <= t * (q - 1) * K) by (apply Z.mul_le_mono_nonneg_l; nia). nia. }
    assert (Hi : (2 * (q mod t) * N + t * (q - 1) * K) / (2 * q) <= N).
    { apply Z.div_le_upper_bound; [lia|]. assert (2 * (q mod t) * N <= q * N) by (apply Z.mul_le_mono_nonneg_r; lia).
      assert (t * (q - 1) * K <= q * N). { replace (t * (q - 1) * K) with ((q - 1) * (t * K)) by ring. nia. } nia. }
    split; [|split; [exact Lo|split; [exact A3|exact A4]]]. eapply Rle_trans; [|exact A1]. apply Rmult_le_compat_l; [exact A3|]. apply IZR_le. exact Hi.
  - apply (IHa W U).
Qed.
End Estimate.

(** ** The reports are those of the code *)

Section Reports.
Variables (L : nat) (t v : Z) (c : rctx) (E : encoder) (keys : nat -> rskey) (e : rns_err).
Local Notation n := (2 ^ L)%nat.
Hypothesis Ed : shl1 (re_logn e) = Ok (Z.of_nat n).
Variable ok : rcirc -> Prop.
Hypothesis ok_sub : forall a, ok a -> match a with
  | REnc _ _ _ _ _ | RPub _ _ _ _ _ _ => True
  | RNeg a | RSend a | RAddPlain a _ | RSubPlain a _ | RReduce a | RAbsorb a _ | RAbsorbScaled a _ | RScale a _ | RRelin a _ _ _ _ | RSubst a _ _ _ _ _ _ => ok a
  | RAdd a b | RSub a b | RFused a b _ | RMul a b => ok a /\ ok b
  end.
Hypothesis ok_len : forall a x, ok a -> run_bgv E t c keys a = Ok x -> length (rt_c x) = rwidth a.

Lemma shl1_small lb : 0 <= lb <= 30 -> shl1 lb = Ok (2 ^ lb).
Proof. intros H. unfold shl1. destruct (Z.leb_spec 32 lb); [lia|]. destruct (Z.eqb_spec lb 31); [lia|]. reflexivity. Qed.

Lemma switch_reported g B be num : usual_gadget v g B be ->
  exists lb, rg_log_base g = Ok lb /\ re_switch e num lb (Z.of_nat (rg_dimension g)) = Ok (switch_report n e g num).
Proof.
  intros (_ & lb & El & Hlb & _). exists lb. split; [exact El|]. unfold re_switch, switch_report. rewrite (shl1_small lb Hlb), Ed, El. cbn [bind].
  rewrite <- (INR_IZR_INZ n). reflexivity.
Qed.

Theorem reported a : ok a -> usual n t v c keys a -> forall x, run_bgv E t c keys a = Ok x -> run_reporting E t c keys e a = Ok (x, report n e a).
Proof.
  induction a as [l R fuel msgs s|l R pk be msgs s|a IHa|a IHa b IHb|a IHa b IHb|a IHa msgs|a IHa msgs|a IHa msgs|a IHa msgs|a IHa x0|a IHa b IHb msgs|a IHa b IHb
    |a IHa rr be B ws|a IHa swap r gk be B ws|a IHa|a IHa]; intros O; pose proof (ok_sub _ O) as O'; cbn [run_bgv usual run_reporting report]; intros U x.
  - unfold re_encrypt. destruct (rsk_encrypt_bgv _ _ _ _ _ _) as [xs| |]; cbn [bind]; intros X; [injection X as <-; reflexivity|discriminate X|discriminate X].
  - unfold re_pub_encrypt. destruct (rpk_encrypt_bgv _ _ _ _ _) as [xs| |]; cbn [bind]; intros X; [injection X as <-; reflexivity|discriminate X|discriminate X].
  - destruct (run_bgv E t c keys a) as [y| |] eqn:Ea; cbn [bind]; intros X; [|discriminate X|discriminate X]. rewrite (IHa O' U y eq_refl). cbn [bind]. unfold re_neg. cbn [fst snd].
    rewrite X. reflexivity.
  - destruct O' as [Oa Ob], U as [Ua Ub]. destruct (run_bgv E t c keys a) as [y| |] eqn:Ea; cbn [bind]; intros X; [|discriminate X|discriminate X].
    destruct (run_bgv E t c keys b) as [y'| |] eqn:Eb; cbn [bind] in X; [|discriminate X|discriminate X].
    rewrite (IHa Oa Ua y eq_refl), (IHb Ob Ub y' eq_refl). cbn [bind]. unfold re_add. cbn [fst snd]. rewrite X. reflexivity.
  - destruct O' as [Oa Ob], U as [Ua Ub]. destruct (run_bgv E t c keys a) as [y| |] eqn:Ea; cbn [bind]; intros X; [|discriminate X|discriminate X].
    destruct (run_bgv E t c keys b) as [y'| |] eqn:Eb; cbn [bind] in X; [|discriminate X|discriminate X].
    rewrite (IHa Oa Ua y eq_refl), (IHb Ob Ub y' eq_refl). cbn [bind]. unfold re_sub. cbn [fst snd]. rewrite X. reflexivity.
  - destruct (run_bgv E t c keys a) as [y| |] eqn:Ea; cbn [bind]; intros X; [|discriminate X|discriminate X]. rewrite (IHa O' U y eq_refl). cbn [bind].
    destruct (bgv_plain _ _ _ _) as [p| |]; cbn [bind] in *; [|discriminate X|discriminate X]. unfold re_add_plain. cbn [fst snd]. rewrite X. reflexivity.
  - destruct (run_bgv E t c keys a) as [y| |] eqn:Ea; cbn [bind]; intros X; [|discriminate X|discriminate X]. rewrite (IHa O' U y eq_refl). cbn [bind].
    destruct (bgv_plain _ _ _ _) as [p| |]; cbn [bind] in *; [|discriminate X|discriminate X]. unfold re_sub_plain. cbn [fst snd]. rewrite X. reflexivity.
  - destruct (run_bgv E t c keys a) as [y| |] eqn:Ea; cbn [bind]; intros X; [|discriminate X|discriminate X]. rewrite (IHa O' U y eq_refl). cbn [bind].
    destruct (bgv_plain _ _ _ _) as [p| |]; cbn [bind] in *; [|discriminate X|discriminate X]. unfold re_absorb. cbn [fst snd]. rewrite X. reflexivity.
  - destruct (run_bgv E t c keys a) as [y| |] eqn:Ea; cbn [bind]; intros X; [|discriminate X|discriminate X]. rewrite (IHa O' U y eq_refl). cbn [bind].
    destruct (bgv_plain _ _ _ _) as [p| |]; cbn [bind] in *; [|discriminate X|discriminate X]. unfold re_absorb. cbn [fst snd]. rewrite X. reflexivity.
  - destruct U as [Ua _]. destruct (run_bgv E t c keys a) as [y| |] eqn:Ea; cbn [bind]; intros X; [|discriminate X|discriminate X]. rewrite (IHa O' Ua y eq_refl). cbn [bind].
    unfold re_absorb_scalar. cbn [fst snd]. rewrite X. reflexivity.
  - destruct O' as [Oa Ob], U as [Ua Ub]. destruct (run_bgv E t c keys a) as [y| |] eqn:Ea; cbn [bind]; intros X; [|discriminate X|discriminate X].
    destruct (run_bgv E t c keys b) as [y'| |] eqn:Eb; cbn [bind] in X; [|discriminate X|discriminate X].
    rewrite (IHa Oa Ua y eq_refl), (IHb Ob Ub y' eq_refl). cbn [bind]. destruct (bgv_plain _ _ _ _) as [p| |]; cbn [bind] in *; [|discriminate X|discriminate X].
    unfold re_fused. cbn [fst snd]. rewrite X. reflexivity.
  - destruct O' as [Oa Ob], U as [Ua Ub]. destruct (run_bgv E t c keys a) as [y| |] eqn:Ea; cbn [bind]; intros X; [|discriminate X|discriminate X].
    destruct (run_bgv E t c keys b) as [y'| |] eqn:Eb; cbn [bind] in X; [|discriminate X|discriminate X].
    rewrite (IHa Oa Ua y eq_refl), (IHb Ob Ub y' eq_refl). cbn [bind]. unfold re_mul. cbn [fst snd]. rewrite X. reflexivity.
  - destruct U as [Ua Ug]. destruct (run_bgv E t c keys a) as [y| |] eqn:Ea; cbn [bind]; intros X; [|discriminate X|discriminate X]. rewrite (IHa O' Ua y eq_refl). cbn [bind].
    unfold re_relinearize. cbn [fst snd]. rewrite X. cbn [bind]. rewrite (ok_len a y O' Ea).
    destruct (switch_reported _ _ _ (Z.of_nat (rwidth a) - 2) Ug) as (lb & El & Er). rewrite El. cbn [bind]. rewrite Er. reflexivity.
  - destruct U as [Ua Ug]. destruct (run_bgv E t c keys a) as [y| |] eqn:Ea; cbn [bind]; intros X; [|discriminate X|discriminate X]. rewrite (IHa O' Ua y eq_refl). cbn [bind].
    unfold re_rotate. cbn [fst snd]. destruct (rct_substitute y (gk_pow gk)) as [y'| |]; cbn [bind] in *; [|discriminate X|discriminate X]. rewrite X. cbn [bind].
    destruct (switch_reported _ _ _ 1 Ug) as (lb & El & Er). rewrite El. cbn [bind]. rewrite Er. reflexivity.
  - destruct U as [Ua _]. destruct (run_bgv E t c keys a) as [y| |] eqn:Ea; cbn [bind]; intros X; [|discriminate X|discriminate X]. rewrite (IHa O' Ua y eq_refl). cbn [bind].
    destruct (get _ _) as [z| |]; cbn [bind] in *; [|discriminate X|discriminate X]. destruct (rnsint_prefix _ _) as [i| |]; cbn [bind] in *; [|discriminate X|discriminate X].
    unfold re_mod_reduce. cbn [fst snd]. rewrite X. reflexivity.
  - destruct (run_bgv E t c keys a) as [y| |] eqn:Ea; cbn [bind]; intros X; [|discriminate X|discriminate X]. rewrite (IHa O' U y eq_refl). cbn [bind].
    unfold re_send. cbn [fst snd]. destruct (rct_serialize y) as [m| |]; cbn [bind] in *; [|discriminate X|discriminate X]. rewrite X. reflexivity.
Qed.
End Reports.
