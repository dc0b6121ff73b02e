(** Glue lemmas used by ThmArith.v. *)
From Coq Require Import Znumtheory Zpow_facts.
From Verif Require Import Base BitsUtil Montgomery Transcription MontBatch ZLemmas BitsUtilProofs
  MontgomeryProofs TranscriptionProofs MontBatchProofs Fermat Spec.

Lemma pf_good k m p : params_for k m p -> good p /\ p_k p = k /\ p_m p = m.
Proof. intros (H1 & H2 & H3). eapply create_good; eassumption. Qed.

Lemma stored_val p n : good p -> stored p n -> export_int p n = val p n.
Proof. intros G H. apply export_int_ok; [assumption|]. apply rep_word; assumption. Qed.

Lemma reduced_stored p n : reduced p n -> stored p n.
Proof. unfold reduced, stored; lia. Qed.

Lemma clz64_fact x : 0 <= x < 2 ^ 64 ->
  exists b, 0 <= b <= 64 /\ count_leading_zeros_64 x = 64 - b /\ x < 2 ^ b /\
    (0 < x -> 2 ^ (b - 1) <= x) /\ (x = 0 -> b = 0).
Proof.
  intros H. exists (blen x). rewrite count_leading_zeros_64_ok by assumption.
  pose proof (blen_spec x (blen x) ltac:(lia)) as [S _]. specialize (S eq_refl).
  destruct S as (S1 & S2 & S3 & S4). repeat split; try assumption; try lia.
  - destruct (Z.eq_dec x 0); [rewrite S4 by assumption; lia|].
    specialize (S3 n). assert (blen x - 1 < 64); [|lia].
    apply (Z.pow_lt_mono_r_iff 2); lia.
Qed.

Lemma bit_length_fact x b : 0 <= x < 2 ^ 128 ->
  (bit_length x = b <-> 0 <= b /\ x < 2 ^ b /\ (0 < x -> 2 ^ (b - 1) <= x) /\ (x = 0 -> b = 0)).
Proof.
  intros H. rewrite bit_length_ok by assumption. rewrite blen_spec by lia.
  split; intros (A & B & C & D); repeat split; auto; intros; apply C; lia.
Qed.

Lemma params_consistent k m p : params_for k m p ->
  p_k p = k /\ p_m p = m /\
  (2 ^ (p_logm p - 1) <= m < 2 ^ p_logm p) /\
  2 ^ k * p_invr p - m * p_invm p = 1 /\ 0 < p_invr p < m /\ 0 <= p_invm p < 2 ^ k /\
  p_rmm p = 2 ^ k mod m /\ p_rmmb p = (2 ^ k mod m) * 2 ^ k / m /\
  p_invrb p = p_invr p * 2 ^ k / m /\ p_bn p = 2 ^ k / m /\ p_bnb p = 2 ^ (2 * k - 1) / m.
Proof.
  intros H. pose proof (pf_good _ _ _ H) as (G & <- & <-).
  pose proof (logm_bounds p G) as [L1 L2].
  pose proof (g_rmmb p G) as E. rewrite (g_rmm p G) in E.
  repeat split; try apply G; try assumption; try lia; try (pose proof (g_invr p G); lia).
Qed.

Lemma inverse_prime p a : good p -> prime (p_m p) -> stored p a -> val p a <> 0 ->
  reduced p (mult_inverse p a) /\ (val p (mult_inverse p a) * val p a) mod p_m p = 1.
Proof.
  intros G Hp Ha Hnz. pose proof (m_gt1 p G). pose proof (m4 p G). pose proof (val_range p G a) as V.
  unfold mult_inverse.
  assert (Hm2 : p_m p <> 2).
  { intros E. pose proof (g_odd p G) as O. rewrite E in O. discriminate. }
  rewrite wrap_small by lia.
  destruct (mod_exp_ok p G a (p_m p - 2) Ha ltac:(lia)) as [C E].
  split; [exact C|]. rewrite E, Zmult_mod_idemp_l.
  set (x := val p a) in *. set (q := p_m p) in *.
  replace (x ^ (q - 2) * x) with (x ^ (q - 1)).
  2:{ replace (q - 1) with (Z.succ (q - 2)) by lia. rewrite Z.pow_succ_r by lia. ring. }
  pose proof (fermat_Z q x Hp ltac:(lia)) as F.
  assert (D : (q | x ^ q - x)) by (apply mod_eq_divide; [lia|exact F]).
  replace (x ^ q - x) with (x * (x ^ (q - 1) - 1)) in D.
  2:{ replace q with (Z.succ (q - 1)) at 2 by lia. rewrite Z.pow_succ_r by lia. ring. }
  apply prime_mult in D; [|assumption]. destruct D as [D|D].
  - apply Z.divide_pos_le in D; lia.
  - apply mod_eq_divide in D; [|lia]. rewrite D. apply Z.mod_small; lia.
Qed.

Lemma api_stored k m p n : params_for k m p -> api_value p n -> stored p n.
Proof.
  intros H A. pose proof (pf_good _ _ _ H) as (G & _ & _).
  assert (S : forall a, crep p a -> stored p a) by (intros; apply crep_rep; assumption).
  pose proof (m_gt1 p G). pose proof (m4 p G).
  assert (W : forall a, stored p a -> 0 <= a < 2 ^ p_k p) by (intros; apply rep_word; assumption).
  induction A.
  - apply S, import_crep; assumption.
  - unfold stored, import_zero; lia.
  - apply S, one_crep; assumption.
  - unfold stored; lia.
  - apply S, madd_crep; assumption.
  - apply S, msub_crep; assumption.
  - apply mneg_rep; assumption.
  - apply S, mmul_crep; assumption.
  - apply S. eapply mul_constant_crep; [assumption|auto|]. apply get_constant_ok; auto.
  - apply S. eapply fused_mul_add_ok; [exact G| | | |eassumption]; assumption.
  - apply S. eapply fused_mul_constant_add_crep; [exact G| | |]; try assumption.
    apply get_constant_ok; auto.
  - apply S, mod_exp_ok; assumption.
  - apply S. unfold mult_inverse. apply mod_exp_ok; [assumption|assumption|].
    apply wrap_range. pose proof (k_pos p G); lia.
  - apply S. pose proof (mult_inverse_fast_ok p G a IHA) as M. cbv zeta in M.
    destruct (Z.gcd (val p a) (p_m p) =? 1).
    + destruct M as (r' & E & C & _). congruence.
    + congruence.
Qed.

Lemma eq_reduced_iff k m p a b : params_for k m p -> reduced p a -> reduced p b ->
  (meqb a b = true <-> export_int p a = export_int p b).
Proof.
  intros H Ha Hb. pose proof (pf_good _ _ _ H) as (G & _ & _).
  rewrite !stored_val by (try assumption; apply reduced_stored; assumption).
  unfold meqb. rewrite Z.eqb_eq. split; [intros ->; reflexivity|].
  apply (val_inj p G); assumption.
Qed.

Lemma neg_zero_neq k m p : params_for k m p ->
  let z := import_zero p in
  export_int p (mneg p z) = export_int p z /\ meqb (mneg p z) z = false.
Proof.
  intros H. pose proof (pf_good _ _ _ H) as (G & _ & _). pose proof (m_gt1 p G).
  assert (Hz : stored p (import_zero p)) by (unfold stored, import_zero; lia).
  cbv zeta. split.
  - rewrite !stored_val; try assumption; [|apply mneg_rep; assumption].
    rewrite mneg_val, zero_val by assumption. rewrite Z.mod_0_l by lia. reflexivity.
  - rewrite mneg_ok by assumption. unfold import_zero, meqb. apply Z.eqb_neq. lia.
Qed.

Lemma fast_inverse_fact k m p a : params_for k m p -> stored p a ->
  (Z.gcd (export_int p a) m = 1 ->
     exists r, mult_inverse_fast p a = Ok r /\ reduced p r /\
       (export_int p r * export_int p a) mod m = 1) /\
  (Z.gcd (export_int p a) m <> 1 -> mult_inverse_fast p a = Err InvalidArgument).
Proof.
  intros H Ha. pose proof (pf_good _ _ _ H) as (G & _ & <-).
  rewrite stored_val by assumption.
  pose proof (mult_inverse_fast_ok p G a Ha) as M. cbv zeta in M.
  destruct (Z.eqb_spec (Z.gcd (val p a) (p_m p)) 1) as [E|E].
  - split; [|intros; contradiction]. intros _. destruct M as (r & E1 & C & I).
    exists r. split; [assumption|]. split; [exact C|].
    rewrite stored_val; [assumption..|apply reduced_stored; exact C].
  - split; [intros; contradiction|]. intros _. exact M.
Qed.

(** Elementwise reading of the batch operations. *)
Lemma batch2_fact (f : Z -> Z -> Z) (a b : list Z) :
  (length a = length b ->
    exists out, (if same_len a b then Ok (map2 f a b) else Err InvalidArgument) = Ok out /\
    length out = length a /\
    forall i, (i < length a)%nat -> nth i out 0 = f (nth i a 0) (nth i b 0)) /\
  (length a <> length b ->
    (if same_len a b then Ok (map2 f a b) else Err InvalidArgument) = Err InvalidArgument).
Proof.
  split; intros H.
  - exists (map2 f a b). rewrite (proj2 (same_len_spec a b) H). split; [reflexivity|].
    split; [apply map2_length; assumption|]. intros i Hi. apply nth_map2; assumption.
  - destruct (same_len a b) eqn:E; [apply same_len_spec in E; contradiction|reflexivity].
Qed.

Lemma negb_same {A B} (a : list A) (b : list B) : length a = length b -> negb (same_len a b) = false.
Proof. intros H. rewrite (proj2 (same_len_spec a b) H). reflexivity. Qed.

Lemma negb_diff {A B} (a : list A) (b : list B) : length a <> length b -> negb (same_len a b) = true.
Proof.
  intros H. destruct (same_len a b) eqn:E; [apply same_len_spec in E; contradiction|reflexivity].
Qed.

Lemma batch_mul_constant_fact p a c cb :
  (length a = length c -> length c = length cb ->
    exists out, batch_mul_constant p a c cb = Ok out /\ length out = length a /\
    forall i, (i < length a)%nat ->
      nth i out 0 = mul_constant p (nth i a 0) (nth i c 0, nth i cb 0)) /\
  (length a <> length c \/ length c <> length cb ->
    batch_mul_constant p a c cb = Err InvalidArgument).
Proof.
  unfold batch_mul_constant. split.
  - intros H1 H2. rewrite !negb_same by assumption. cbn [orb]. eexists; split; [reflexivity|].
    assert (L : length a = length (combine c cb)) by (rewrite combine_length; lia).
    split; [apply map2_length; assumption|]. intros i Hi.
    rewrite (nth_map2 _ 0 (0, 0)) by assumption. f_equal. apply combine_nth. assumption.
  - intros [H|H].
    + rewrite (negb_diff a c) by assumption. reflexivity.
    + rewrite (negb_diff c cb) by assumption. rewrite orb_true_r. reflexivity.
Qed.

Lemma batch_fused_fact k m p a b c : params_for k m p -> k <> 16 ->
  (length a = length b -> length a = length c ->
    exists out, batch_fused_mul_add p a b c = Ok out /\ length out = length a /\
    forall i, (i < length a)%nat ->
      fused_mul_add p (nth i a 0) (nth i b 0) (nth i c 0) = Ok (nth i out 0)) /\
  (length a <> length b \/ length a <> length c ->
    batch_fused_mul_add p a b c = Err InvalidArgument).
Proof.
  intros H Hk. pose proof (pf_good _ _ _ H) as (G & Ek & _).
  unfold batch_fused_mul_add. split.
  - intros H1 H2. rewrite !negb_same by assumption. cbn [orb].
    set (l := map2 _ a (combine b c)).
    assert (L : length a = length (combine b c)) by (rewrite combine_length; lia).
    assert (Ll : length l = length a) by (apply map2_length; assumption).
    assert (N : forall i, (i < length a)%nat -> nth i l UB = fused_mul_add p (nth i a 0) (nth i b 0) (nth i c 0)).
    { intros i Hi. unfold l. rewrite (nth_map2 _ 0 (0, 0)) by assumption.
      rewrite combine_nth by lia. reflexivity. }
    destruct (seqr_ok l 0) as (xs & E & Lx & Nx).
    { intros i Hi. rewrite Ll in Hi. rewrite N by assumption.
      apply fused_mul_add_defined; congruence. }
    exists xs. split; [exact E|]. split; [lia|]. intros i Hi.
    rewrite <- N by assumption. apply Nx. lia.
  - intros [X|X].
    + rewrite (negb_diff a b) by assumption. reflexivity.
    + rewrite (negb_diff a c) by assumption. rewrite orb_true_r. reflexivity.
Qed.

Lemma batch_fused_constant_fact p a b c cb :
  (length a = length b -> length a = length c -> length a = length cb ->
    exists out, batch_fused_mul_constant_add p a b c cb = Ok out /\ length out = length a /\
    forall i, (i < length a)%nat ->
      nth i out 0 = fused_mul_constant_add p (nth i a 0) (nth i b 0) (nth i c 0, nth i cb 0)) /\
  (length a <> length b \/ length a <> length c \/ length a <> length cb ->
    batch_fused_mul_constant_add p a b c cb = Err InvalidArgument).
Proof.
  unfold batch_fused_mul_constant_add. split.
  - intros H1 H2 H3. rewrite !negb_same by assumption. cbn [orb]. eexists; split; [reflexivity|].
    assert (L2 : length c = length cb) by lia.
    assert (L1 : length b = length (combine c cb)) by (rewrite combine_length; lia).
    assert (L : length a = length (combine b (combine c cb))) by (rewrite !combine_length; lia).
    split; [apply map2_length; assumption|]. intros i Hi.
    rewrite (nth_map2 _ 0 (0, (0, 0))) by assumption.
    rewrite (combine_nth b (combine c cb)) by assumption.
    rewrite (combine_nth c cb) by assumption. reflexivity.
  - intros [X|[X|X]].
    + rewrite (negb_diff a b) by assumption. reflexivity.
    + rewrite (negb_diff a c) by assumption. rewrite orb_true_r. reflexivity.
    + rewrite (negb_diff a cb) by assumption. rewrite orb_true_r. reflexivity.
Qed.
