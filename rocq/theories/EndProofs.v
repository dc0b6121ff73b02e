(** Proofs for C96: the tapes on which a rejection loop is still running. *)
From Coq Require Import Znumtheory.
From Verif Require Import Base FinSum BitsUtil Montgomery MontBatch Ntt Poly PolyExt Prng Sampling SampleSpec ZLemmas MontgomeryProofs Spec ArithFacts
  PolySpec Ring MontBatchProofs SampleProofs SampleErrProofs ThmArith ThmSample RnsPoly RnsSpec RnsCtProofs DistSpec DistProofs TapeSpec TapeProofs TapeRns.
Local Notation zsum := FinSum.zsum.
Local Notation tapes N := (repeat 8 N).
Local Opaque error_widths error_count.

Lemma over_le ws : Forall (fun w => 0 <= w) ws -> forall F G : list Z -> Z,
  (forall ds, Forall2 (fun w d => 0 <= d < 2 ^ w) ws ds -> F ds <= G ds) -> over ws F <= over ws G.
Proof.
  induction 1 as [|w ws Hw F0 IH]; intros F G H; cbn [over]; [apply H; constructor|].
  assert (S : forall n f g, (forall i, (i < n)%nat -> f i <= g i) -> zsum n f <= zsum n g).
  { clear. induction n as [|n IH]; intros f g H; [cbn; lia|]. rewrite !zsum_last. pose proof (IH f g ltac:(intros; apply H; lia)). pose proof (H n ltac:(lia)). lia. }
  apply S. intros i Hi. apply IH. intros ds D. apply H. constructor; [|exact D].
  assert (0 < 2 ^ w) by (apply Z.pow_pos_nonneg; lia). lia.
Qed.

(** on all but c / 2^f of the tapes of at least B bytes, K is 1; K is 0 elsewhere *)
Definition likely (f : nat) (c : Z) (B : nat) (K : list Z -> Z) : Prop :=
  (forall ds, 0 <= K ds) /\ forall N, (B <= N)%nat -> (2 ^ Z.of_nat f - c) * 256 ^ Z.of_nat N <= 2 ^ Z.of_nat f * over (tapes N) K.

Lemma likely_ext f c B K K' : (forall ds, K ds = K' ds) -> likely f c B K -> likely f c B K'.
Proof.
  intros E [H1 H2]. split; [intros ds; rewrite <- E; apply H1|]. intros N HN.
  rewrite <- (over_ext (tapes N) K K' (fun ds _ => E ds) (tapes_nonneg N)). apply H2, HN.
Qed.
Lemma likely_one f B : likely f 0 B (fun _ => 1).
Proof. split; [intros; lia|]. intros N _. rewrite over_ones. lia. Qed.

Lemma runs_nonneg {A} (m : list Z -> result (A * list Z)) H ds : (forall ds, 0 <= H ds) -> 0 <= runs m (fun _ s => H s) ds.
Proof. intros P. unfold runs. destruct (m ds) as [[a s]| |]; try lia. apply P. Qed.

Lemma attempt_bytes w : Forall (fun w => w = 8 \/ w = 64) w -> 2 ^ total w = 256 ^ Z.of_nat (nbytes w).
Proof.
  intros F. assert (E : total w = 8 * Z.of_nat (nbytes w)).
  { induction F as [|x l Hx F IH]; [reflexivity|]. rewrite nbytes_cons by assumption. change (total (x :: l)) with (x + total l). rewrite IH.
    destruct Hx as [-> | ->]; [change (Z.to_nat (8 / 8)) with 1%nat|change (Z.to_nat (64 / 8)) with 8%nat]; lia. }
  rewrite E. change 256 with (2 ^ 8). rewrite <- Z.pow_mul_r by lia. reflexivity.
Qed.

Section One.
Variables (k m : Z) (p : mparams).
Hypothesis PF : params_for k m p.
Let G : good p := proj1 (pf_good _ _ _ PF).
Local Notation w := (nbytes (attempt_widths (p_logm p))).
Local Notation T := (256 ^ Z.of_nat w).

Lemma rates : 0 <= reject p /\ 2 * reject p <= T.
Proof.
  rewrite <- (attempt_bytes _ (attempt_widths_ok _)). split.
  - rewrite <- (reject_rate k m p PF). unfold rate_reject. apply over_nonneg. intros c. destruct (_ <=? _); cbn; lia.
  - pose proof (C14_uniform k m p 0 PF) as U. pose proof (proj2 (proj2 (pf_good _ _ _ PF))) as Em. pose proof (m_gt1 p G) as M1.
    destruct (U ltac:(lia)) as (U1 & U2 & _). rewrite U1 in U2. unfold reject, accept. rewrite Em. lia.
Qed.

Lemma one_step H j N : ex N (import_random tape (S j) p) (fun _ s => H s) =
  if (w <=? N)%nat then (T - reject p) * over (tapes (N - w)) H + reject p * ex (N - w) (import_random tape j p) (fun _ s => H s) else 0.
Proof.
  rewrite (ex_eq N _ (draw tape (attempt_widths (p_logm p))) _
      (fun ds s => (1 - Z.b2z (p_m p <=? attempt_value (p_logm p) ds)) * H s +
                   Z.b2z (p_m p <=? attempt_value (p_logm p) ds) * runs (import_random tape j p) (fun _ s => H s) s)).
  2:{ intros ds. rewrite import_random_unfold by exact G. destruct (draw tape (attempt_widths (p_logm p)) ds) as [[c s]| |]; try reflexivity. cbn [bind].
      unfold runs. destruct (Z.leb_spec (p_m p) (attempt_value (p_logm p) c)) as [A|A]; cbn [Z.b2z]; [destruct (import_random tape j p s) as [[a s']| |]|]; lia. }
  rewrite draw_over by apply attempt_widths_ok. destruct (w <=? N)%nat; [|reflexivity].
  rewrite <- (attempt_bytes _ (attempt_widths_ok _)). rewrite <- (over_one (attempt_widths (p_logm p))) by (apply widths_nonneg, attempt_widths_ok).
  rewrite <- (reject_rate k m p PF). unfold rate_reject.
  set (Hs := over (tapes (N - w)) H). rewrite <- over_runs. set (Ks := over (tapes (N - w)) (runs _ _)).
  rewrite (over_ext _ _ (fun c => Hs * 1 + (Ks - Hs) * Z.b2z (p_m p <=? attempt_value (p_logm p) c))); [|intros c _|apply widths_nonneg, attempt_widths_ok].
  - rewrite over_add, !over_mul. ring.
  - rewrite over_add, !over_mul. fold Hs. unfold Ks. ring.
Qed.

Lemma one_likely f c B H : 0 <= c -> likely f c B H -> likely f (c + 1) (f * w + B) (runs (import_random tape f p) (fun _ s => H s)).
Proof.
  intros C0 [H0 HL]. split; [intros ds; apply runs_nonneg, H0|]. intros N HN. rewrite over_runs.
  set (F := 2 ^ Z.of_nat f) in *. assert (F1 : 1 <= F) by (unfold F; pose proof (Z.pow_pos_nonneg 2 (Z.of_nat f) ltac:(lia) ltac:(lia)); lia).
  assert (Nn : forall N, 0 <= over (tapes N) H) by (intros; apply over_nonneg, H0).
  assert (P : forall M, 0 < 256 ^ Z.of_nat M) by (intros; apply Z.pow_pos_nonneg; lia).
  destruct (Z_lt_le_dec F (c + 1)) as [LT|LE].
  { assert (0 <= ex N (import_random tape f p) (fun _ s => H s)) by (unfold ex; apply over_nonneg; intros ds; apply (runs_nonneg (import_random tape f p) H ds H0)).
    specialize (P N). nia. }
  assert (S : forall j N, (j * w + B <= N)%nat -> (2 ^ Z.of_nat j - 1) * ((F - c) * 256 ^ Z.of_nat N) <= 2 ^ Z.of_nat j * (F * ex N (import_random tape j p) (fun _ s => H s))).
  { clear N HN. induction j as [|j IH]; intros N HN.
    - change (2 ^ Z.of_nat 0) with 1. unfold ex. cbn [import_random]. rewrite over_zero. lia.
    - rewrite one_step. destruct (Nat.leb_spec w N) as [A|A]; [|cbn [Nat.mul] in HN; lia].
      cbn [Nat.mul] in HN. specialize (IH (N - w)%nat ltac:(lia)). specialize (HL (N - w)%nat ltac:(lia)). destruct rates as [R0 R2].
      replace (256 ^ Z.of_nat N) with (T * 256 ^ Z.of_nat (N - w)) by (rewrite <- Z.pow_add_r by lia; f_equal; lia).
      rewrite Nat2Z.inj_succ, Z.pow_succ_r by lia.
      set (J := 2 ^ Z.of_nat j) in *. assert (J1 : 1 <= J) by (unfold J; pose proof (Z.pow_pos_nonneg 2 (Z.of_nat j) ltac:(lia) ltac:(lia)); lia).
      set (Q := 256 ^ Z.of_nat (N - w)) in *. set (X := over (tapes (N - w)) H) in *. set (Y := ex (N - w) _ _) in *. set (W := T) in *. set (r := reject p) in *.
      assert (Q0 : 0 < Q) by apply P. assert (W0 : 0 < W) by apply P. clearbody J Q X Y W r F. set (D := (F - c) * Q) in *.
      assert (D0 : 0 <= D) by (unfold D; apply Z.mul_nonneg_nonneg; lia). replace ((F - c) * (W * Q)) with (W * D) by (unfold D; ring). clearbody D.
      assert (I1 : 2 * J * (W - r) * D <= 2 * J * (W - r) * (F * X)) by (apply Z.mul_le_mono_nonneg_l; [apply Z.mul_nonneg_nonneg; lia|lia]).
      assert (I2 : 2 * r * ((J - 1) * D) <= 2 * r * (J * (F * Y))) by (apply Z.mul_le_mono_nonneg_l; lia).
      assert (I3 : 2 * r * D <= W * D) by (apply Z.mul_le_mono_nonneg_r; lia).
      replace ((2 * J - 1) * (W * D)) with (2 * J * W * D - W * D) by ring.
      replace (2 * J * (F * ((W - r) * X + r * Y))) with (2 * J * (W - r) * (F * X) + 2 * r * (J * (F * Y))) by ring.
      replace (2 * J * W * D) with (2 * J * (W - r) * D + 2 * r * ((J - 1) * D) + 2 * r * D) by ring. lia. }
  specialize (S f N HN). fold F in S. specialize (P N). set (Z0 := ex N _ _) in *. set (Q := 256 ^ Z.of_nat N) in *. clearbody Z0 Q F.
  apply (Zmult_le_reg_r _ _ F); [lia|]. nia.
Qed.

Lemma n_likely f B H : forall n c, 0 <= c -> likely f c B H -> likely f (c + Z.of_nat n) (f * (n * w) + B) (runs (sample_n tape f n p) (fun _ s => H s)).
Proof.
  induction n as [|n IH]; intros c C0 HL.
  - replace (c + Z.of_nat 0) with c by lia. replace (f * (0 * w) + B)%nat with B by lia. apply (likely_ext f c B H); [|exact HL]. intros ds. reflexivity.
  - specialize (IH c C0 HL). apply (one_likely f) in IH; [|lia].
    replace (c + Z.of_nat (S n)) with (c + Z.of_nat n + 1) by lia. replace (f * (S n * w) + B)%nat with (f * w + (f * (n * w) + B))%nat by (cbn [Nat.mul]; lia).
    revert IH. apply likely_ext. intros ds. unfold runs. cbn [sample_n]. destruct (import_random tape f p ds) as [[x s]| |]; try reflexivity. cbn [bind].
    destruct (sample_n tape f n p s) as [[xs s']| |]; reflexivity.
Qed.
End One.

Lemma rows_likely k L f n B H : likely f 0 B H -> forall ms, moduli_ok k L ms ->
  likely f (Z.of_nat (length ms * n)) (f * row_bytes ms n + B) (runs (rns_sample_rows tape f n ms) (fun _ s => H s)).
Proof.
  intros HL. induction ms as [|m ms IH]; intros OK.
  - cbn [length Nat.mul row_bytes fold_right]. replace (f * 0 + B)%nat with B by lia. apply (likely_ext f 0 B H); [|exact HL]. intros ds. reflexivity.
  - inversion OK as [|? ? [PF _] OK']; subst. specialize (IH OK'). apply (n_likely k (modulus m) (pm_p m) PF f _ _ n) in IH; [|lia].
    replace (Z.of_nat (length (m :: ms) * n)) with (Z.of_nat (length ms * n) + Z.of_nat n) by (cbn [length]; lia).
    replace (f * row_bytes (m :: ms) n + B)%nat with (f * (n * nbytes (attempt_widths (p_logm (pm_p m)))) + (f * row_bytes ms n + B))%nat.
    2:{ unfold row_bytes. cbn [fold_right]. lia. }
    revert IH. apply likely_ext. intros ds. unfold runs. cbn [rns_sample_rows]. destruct (sample_n tape f n (pm_p m) ds) as [[x s]| |]; try reflexivity. cbn [bind].
    destruct (rns_sample_rows tape f n ms s) as [[xs s']| |]; reflexivity.
Qed.

(** errors never fail on a long enough tape *)
Section Err.
Variables (k m : Z) (p : mparams) (v : Z).
Hypothesis PF : params_for k m p.
Hypothesis Hv : 0 <= v <= 256.
Hypothesis Hm : 4 * v < m.
Local Notation w := (nbytes (error_widths 24 (2 * v))).

Lemma errors_total H : forall n N, ex N (sample_error tape p n v) (fun _ s => H s) = if (n * w <=? N)%nat then 256 ^ Z.of_nat (n * w) * over (tapes (N - n * w)) H else 0.
Proof.
  unfold sample_error. destruct (Z.ltb_spec 256 v); [lia|]. induction n as [|n IH]; intros N.
  - cbn [Nat.mul Nat.leb]. rewrite Nat.sub_0_r. change (256 ^ Z.of_nat 0) with 1. rewrite Z.mul_1_l. reflexivity.
  - rewrite (ex_eq N _ (draw tape (error_widths 24 (2 * v))) _ (fun _ s => runs (sample_error_n tape p v n) (fun _ s => H s) s)).
    2:{ intros ds. transitivity (match sample_error1 tape p v ds with Ok (y, s') => runs (sample_error_n tape p v n) (fun _ s => H s) s' | _ => 0 end).
        - cbn [sample_error_n]. destruct (sample_error1 tape p v ds) as [[y s]| |]; try reflexivity. cbn [bind]. unfold runs. destruct (sample_error_n tape p v n s) as [[l s']| |]; reflexivity.
        - apply (error1_eq k m p v PF Hv Hm ds (fun _ s' => runs (sample_error_n tape p v n) (fun _ s => H s) s')). reflexivity. }
    rewrite draw_over by apply error_widths_ok. destruct (Nat.leb_spec w N) as [A|A].
    + rewrite over_runs, IH. destruct (Nat.leb_spec (n * w) (N - w)) as [B|B]; destruct (Nat.leb_spec (S n * w) N) as [C|C]; cbn [Nat.mul] in C; try (exfalso; lia); [|apply over_zero].
      replace (N - S n * w)%nat with (N - w - n * w)%nat by (cbn [Nat.mul]; lia).
      rewrite (over_ext _ _ (fun _ => (256 ^ Z.of_nat (n * w) * over (tapes (N - w - n * w)) H) * 1)) by (try (apply widths_nonneg, error_widths_ok); intros; lia).
      rewrite over_mul, over_one by (apply widths_nonneg, error_widths_ok). rewrite (attempt_bytes _ (error_widths_ok _ _)).
      cbn [Nat.mul]. rewrite Nat2Z.inj_add, Z.pow_add_r by lia. generalize (256 ^ Z.of_nat w) (256 ^ Z.of_nat (n * w)) (over (tapes (N - w - n * w)) H). intros. ring.
    + destruct (Nat.leb_spec (S n * w) N) as [C|C]; [cbn [Nat.mul] in C; lia|reflexivity].
Qed.
Lemma errors_likely f n H B c : likely f c B H -> likely f c (n * w + B) (runs (sample_error tape p n v) (fun _ s => H s)).
Proof.
  intros [H0 HL]. split; [intros ds; apply runs_nonneg, H0|]. intros N HN. rewrite over_runs, errors_total. destruct (Nat.leb_spec (n * w) N); [|lia].
  specialize (HL (N - n * w)%nat ltac:(lia)). replace (256 ^ Z.of_nat N) with (256 ^ Z.of_nat (n * w) * 256 ^ Z.of_nat (N - n * w)) by (rewrite <- Z.pow_add_r by lia; f_equal; lia).
  assert (0 < 256 ^ Z.of_nat (n * w)) by (apply Z.pow_pos_nonneg; lia). nia.
Qed.
End Err.
